(** The tabu classes with any strategy, and under the threshold wrapper of MaxPRegionsHeu. *)
From Verif Require Import Base Spec M_Graph P_Graph M_Util P_Base P_Util P_Forest P_Init P_Initial
  M_Objective P_Sum P_Objective M_Azp P_Azp P_Strategy P_Fit P_AzpFit M_Sa P_Sa M_Tabu P_Tabu P_TabuFit P_Reactive
  M_MaxP P_MaxP P_MaxP2 P_MaxP3 P_MaxP4 M_TabuWith Props_Strategy.

(** ** one component, any strategy *)
Section Loops.
Variable St : Type.
Variable call : St -> nat -> Z -> list Z -> rng -> out (bool * St * rng).
Variable obj : objfun.
Variable attr : list (list Q).
Variable g : graph.
Variable E : exn -> Prop.
Variable N : Prop.
Variable names : Z -> Prop.
Variable K : St -> Prop.
Variable V : list Z -> Prop.
Hypothesis HVwf : forall l, V l -> wf g l.
Hypothesis HVnames : forall l, V l -> forall z, In z l -> names z.
Hypothesis Hcall : forall s a z l r, K s -> V l -> a < gn g -> names z ->
  post E N (call s a z l r) (fun '(b, s', _) => K s' /\ (b = true -> wf g (upd l a z) -> V (upd l a z))).
Hypothesis Hupd : forall a z l, V l -> a < gn g -> names z -> post E N (o_update obj a z l attr) (fun _ => True).
(** ranking for termination: an accepted move of an area to another region lowers the rank *)
Variable M : list Z -> nat.
Hypothesis Hdown : N \/ forall s a z l r s' r', K s -> V l -> a < gn g -> names z -> lab l a <> z ->
  call s a z l r = Ok (true, s', r') -> M (upd l a z) < M l.

Definition good_move (m : tmove) : Prop := mv_area m < gn g /\ names (mv_new m).

Lemma possible_good l tabu m : V l -> In m (possible_moves g l tabu) -> good_move m.
Proof.
  intros HV Hm. apply (possible_moves_sound g l tabu m (HVwf l HV)) in Hm. destruct Hm as [Hl _].
  split; [apply Hl|]. eapply HVnames; [exact HV|]. eapply legal_In; eauto.
Qed.

Lemma deque_good maxlen m l tabu : V l -> good_move m -> tabu_ok good_move tabu ->
  tabu_ok good_move (deque_append maxlen (mkMove (mv_area m) (mv_new m) (lab l (mv_area m))) tabu).
Proof.
  intros HV [Ha Hn] Ht x Hx. apply deque_append_In in Hx. destruct Hx as [->|Hx]; [|auto].
  split; [auto|]. cbn. apply (HVnames l HV). apply nth_In. destruct (HVwf l HV). lia.
Qed.

Definition falls (l l' : list Z) : Prop := N \/ l' = l \/ M l' < M l.

Lemma move_post maxlen m l tabu : V l -> good_move m -> tabu_ok good_move tabu ->
  (wf g (upd l (mv_area m) (mv_new m)) -> V (upd l (mv_area m) (mv_new m))) ->
  (lab l (mv_area m) <> mv_new m -> N \/ M (upd l (mv_area m) (mv_new m)) < M l) ->
  post E N (make_move_tabu g maxlen (mv_area m) (mv_new m) l tabu)
    (fun '(l', t', _) => V l' /\ tabu_ok good_move t' /\ falls l l').
Proof.
  intros HV Hm Ht Hnew Hdn. destruct (HVwf l HV) as [Hlen Hall].
  destruct (make_move_tabu_spec g maxlen (mv_area m) (mv_new m) l tabu Hlen (proj1 Hm)) as [b [Em Hb]].
  rewrite Em. cbn [post]. split; [|split; [apply deque_good; auto|]]; unfold falls.
  - destruct b; [|auto]. apply Hnew. split; [rewrite upd_length; auto|apply Hb; auto].
  - destruct b; [|auto]. destruct (Z.eq_dec (lab l (mv_area m)) (mv_new m)) as [Ez|Ez].
    + right. left. rewrite <- Ez. unfold lab. apply upd_same. rewrite Hlen. apply Hm.
    + destruct (Hdn Ez); auto.
Qed.

Lemma down_of s a z l r s' r' : K s -> V l -> a < gn g -> names z -> call s a z l r = Ok (true, s', r') -> lab l a <> z ->
  N \/ M (upd l a z) < M l.
Proof. intros H1 H2 H3 H4 H5 H6. destruct Hdown as [HN|H]; [auto|right; eauto]. Qed.

Lemma try_with_post maxlen m l tabu s r : K s -> V l -> good_move m -> tabu_ok good_move tabu ->
  post E N (try_move_with St call g maxlen m l tabu s r)
    (fun '(l', t', s', _) => V l' /\ tabu_ok good_move t' /\ K s' /\ falls l l').
Proof.
  intros Hs HV Hm Ht. unfold try_move_with.
  eapply post_bind; [apply Hcall; auto; apply Hm|]. intros [[b s'] r'] Ec [Hs' Hnew]. destruct b.
  - eapply post_bind; [apply move_post; auto|].
    + intros Hne. apply (down_of s (mv_area m) (mv_new m) l r s' r'); auto; apply Hm.
    + intros [[l' t'] b'] _ [H1 [H2 H3]]. cbn [post]. auto.
  - cbn [post]. unfold falls. auto 10.
Qed.

Lemma basic_with_post maxlen reps : forall fuel stop visited l tabu s r, K s -> V l -> tabu_ok good_move tabu ->
  (N \/ M l * (reps + 2) + (reps + 1 - visits visited l) < fuel) ->
  post E N (basic_loop_with St call obj g fuel maxlen reps attr stop visited l tabu s r)
    (fun '(l', s', _) => V l' /\ K s').
Proof.
  induction fuel as [|fuel IH]; intros stop visited l tabu s r Hs HV Ht Hf; [cbn [basic_loop_with post]; destruct Hf; [auto|lia]|].
  cbn [basic_loop_with].
  assert (Hless : forall l', M l' < M l -> N \/ M l' * (reps + 2) + (reps + 1 - visits (visited ++ [l]) l') < fuel).
  { intros l' Hl'. destruct Hf as [HN|Hf]; [auto|right].
    assert (S (M l') * (reps + 2) <= M l * (reps + 2)) by (apply Nat.mul_le_mono_r; lia). lia. }
  eapply post_bind; [apply (best_of_post' obj attr E N l (possible_moves g l tabu))|].
  { intros m Hm. apply (possible_good l tabu m HV) in Hm. destruct Hm. apply Hupd; auto. }
  intros best _ Hbest.
  assert (Hgood : match best with Some (m, _, _) => good_move m /\ legal_move g l (mv_area m) (mv_new m) | None => True end).
  { destruct best as [[[m i] q]|]; [|auto]. destruct Hbest as [Hn _]. apply nth_error_In in Hn. split; [eapply possible_good; eauto|].
    apply (possible_moves_sound g l tabu m (HVwf l HV) Hn). }
  eapply post_bind with (P := fun '(made, l1, t1, s1, _) => V l1 /\ tabu_ok good_move t1 /\ K s1 /\
    if made : bool then N \/ M l1 < M l else l1 = l).
  { destruct best as [[[m i] q]|]; [|cbn [post]; auto]. destruct (Qle_bool q 0); [|cbn [post]; auto]. destruct Hgood as [Hgood Hleg].
    eapply post_bind; [apply Hcall; auto; apply Hgood|]. intros [[b s'] r'] Ec [Hs' Hnew]. destruct b; [|cbn [post]; auto].
    pose proof (down_of s (mv_area m) (mv_new m) l r s' r' Hs HV (proj1 Hgood) (proj2 Hgood) Ec) as Hd.
    assert (Hne : lab l (mv_area m) <> mv_new m).
    { destruct Hleg as [_ [D [HD [Hne _]]]]. rewrite (lab_of_nth_error _ _ _ HD). auto. }
    destruct (make_move_tabu_spec g maxlen (mv_area m) (mv_new m) l tabu (proj1 (HVwf l HV)) (proj1 Hgood)) as [b [Em Hb]].
    rewrite Em. cbn [bind post]. destruct (legal_upd g l _ _ (HVwf l HV) Hleg) as [Hwf' _].
    assert (b = true) as -> by (apply Hb, Hwf'). split; [auto|]. split; [apply deque_good; auto|]. auto. }
  intros [[[[made l1] t1] s1] r1] _ [HV1 [Ht1 [Hs1 Hmade]]]. destruct made.
  { apply IH; auto. destruct Hmade; auto. }
  subst l1.
  eapply post_bind; [apply (improving_tabus_post obj attr E N l t1)|].
  { intros m Hm _. destruct (Ht1 m Hm). apply Hupd; auto. }
  intros its _ Hits.
  eapply post_bind with (P := fun '(l2, t2, s2, _) => V l2 /\ tabu_ok good_move t2 /\ K s2 /\ falls l l2).
  { destruct its as [|m0 its0]; [cbn [post]; unfold falls; auto 10|].
    eapply post_bind; [apply (random_element_from_post E N (m0 :: its0)); discriminate|].
    intros [m r'] _ Hm. apply Hits in Hm. destruct Hm as [Hm _]. apply try_with_post; auto. }
  intros [[[l2 t2] s2] r2] _ [HV2 [Ht2 [Hs2 Hf2]]].
  destruct (stop || _)%bool eqn:Est; [cbn [post]; auto|].
  eapply post_bind with (P := fun '(l3, t3, s3, _) => V l3 /\ tabu_ok good_move t3 /\ K s3 /\ falls l l3).
  { destruct best as [[[m i] q]|]; [|cbn [post]; auto].
    eapply (post_weaken E E N N); [auto|auto| |apply try_with_post; auto; apply Hgood].
    intros [[[l3 t3] s3] r3] _ [H1 [H2 [H3 H4]]]. do 3 (split; [auto|]). unfold falls in *.
    destruct Hf2 as [HN|[->|Hf2]]; [auto|auto|]. destruct H4 as [HN|[->|H4]]; [auto|auto|]. right. right. lia. }
  intros [[[l3 t3] s3] r3] _ [HV3 [Ht3 [Hs3 Hf3]]]. apply IH; auto.
  destruct Hf3 as [HN|[->|Hf3]]; [auto| |auto]. destruct Hf as [HN|Hf]; [auto|right].
  apply orb_false_iff in Est. destruct Est as [_ Est]. apply Nat.leb_gt in Est.
  rewrite visits_snoc. destruct (list_eq_dec Z.eq_dec l l) as [_|n]; [|exfalso; apply n; reflexivity]. lia.
Qed.

Lemma basic_component_with_post maxlen reps fuel l s r : K s -> V l -> (N \/ M l * (reps + 2) + (reps + 1) < fuel) ->
  post E N (basic_component_with St call obj g fuel maxlen reps l attr s r)
    (fun '(l', s', _) => V l' /\ K s').
Proof.
  intros Hs HV Hf. unfold basic_component_with. destruct (Nat.eqb _ 1); [cbn [post]; auto|].
  apply basic_with_post; auto; [intros m []|]. destruct Hf as [HN|Hf]; [auto|right]. cbn. lia.
Qed.
End Loops.

Section LoopsReactive.
Variable St : Type.
Variable call : St -> nat -> Z -> list Z -> rng -> out (bool * St * rng).
Variable obj : objfun.
Variable attr : list (list Q).
Variable g : graph.
Variable names : Z -> Prop.
Variable K : St -> Prop.
Variable V : list Z -> Prop.
Hypothesis HVwf : forall l, V l -> wf g l.
Hypothesis HVnames : forall l, V l -> forall z, In z l -> names z.
Hypothesis Hcall : forall s a z l r, K s -> V l -> a < gn g -> names z ->
  post anyexn True (call s a z l r) (fun '(b, s', _) => K s' /\ (b = true -> wf g (upd l a z) -> V (upd l a z))).

Lemma random_moves_with_post p : forall moves l tabu s r, K s -> V l -> tabu_ok (good_move g names) tabu ->
  (forall m, In m moves -> good_move g names m) ->
  post anyexn True (random_moves_with St call g p moves l tabu s r)
    (fun '(l', t', s', _) => V l' /\ tabu_ok (good_move g names) t' /\ K s').
Proof.
  induction p as [|p IH]; intros moves l tabu s r Hs HV Ht Hm; cbn [random_moves_with]; [cbn [post]; auto|].
  eapply post_bind; [apply pop_randomly_post|]. intros [[m moves'] r1] _ [Hin Hsub].
  eapply post_bind; [apply (try_with_post St call g anyexn True names K V) with (M := fun _ => 0); auto|].
  intros [[[l1 t1] s1] r2] _ [HV1 [Ht1 [Hs1 _]]]. apply IH; auto.
Qed.

Lemma reactive_with_post k1 k2 : forall maxit start ls l tabu s r, K (rw_strat s) -> V l -> tabu_ok (good_move g names) tabu ->
  (forall w, In w (rw_visited s) -> V w) -> match ls with Step10 => True | Step11 l => V l end ->
  post anyexn True (reactive_loop_with St call obj g maxit k1 k2 attr start ls l tabu s r)
    (fun '(l', s', ls', _) => K (rw_strat s') /\ (forall w, In w (rw_visited s') -> V w) /\
       match ls' with Step10 => True | Step11 l => V l end).
Proof.
  induction maxit as [|maxit IH]; intros start ls l tabu s r Hs HV Ht Hvis Hls; cbn [reactive_loop_with]; [cbn [post]; auto|].
  eapply post_bind; [apply anyexn_post|]. intros v _ _. destruct (negb _); [cbn [post]; auto|].
  eapply post_bind; [apply (best_of_any obj attr)|]. intros best _ Hbest. destruct best as [[[m i] q]|]; [|exact Logic.I].
  destruct Hbest as [Hn _]. apply nth_error_In in Hn.
  assert (Hall : forall m, In m (possible_moves g l tabu) -> good_move g names m) by (intros m' Hm'; eapply possible_good; eauto).
  eapply post_bind; [apply (try_with_post St call g anyexn True names K V) with (M := fun _ => 0); auto|].
  intros [[[l1 t1] s1] r1] _ [HV1 [Ht1 [Hs1 _]]]. destruct (_ && _)%bool.
  - destruct (Nat.leb _ _); [|exact Logic.I].
    eapply post_bind; [apply random_moves_with_post; auto|].
    { intros m' Hm'. apply remove_nth_In in Hm'. auto. }
    intros [[[l2 t2] s2] r2] _ [HV2 [Ht2 Hs2]]. apply IH; cbn [rw_strat rw_visited]; auto. intros w [].
  - apply IH; cbn [rw_strat rw_visited]; auto. intros w Hw. apply in_app_iff in Hw. destruct Hw as [Hw|[<-|[]]]; auto.
Qed.

Lemma reactive_component_with_post maxit k1 k2 l s r : K (rw_strat s) -> V l -> (forall w, In w (rw_visited s) -> V w) ->
  post anyexn True (reactive_component_with St call obj g maxit k1 k2 l attr s r)
    (fun '(l', s', _) => V l' /\ K (rw_strat s') /\ forall w, In w (rw_visited s') -> V w).
Proof.
  intros Hs HV Hvis. unfold reactive_component_with. destruct (Nat.eqb _ 1); [cbn [post]; auto|].
  eapply post_bind; [apply reactive_with_post; auto; intros m []|].
  intros [[[l' s'] ls] r'] _ [Hs' [Hvis' Hls]]. unfold reactive_result. destruct ls as [|l1]; [|cbn [bind post]; auto].
  assert (Hrev : forall w, In w (rev (rw_visited s')) -> V w) by (intros w Hw; apply Hvis', in_rev; auto).
  destruct (rev (rw_visited s')) as [|w1 [|w2 t]]; cbn [bind post]; [exact Logic.I| |]; split; auto; apply Hrev; cbn; auto.
Qed.
End LoopsReactive.

(** ** the strategy under the wrapper *)
Lemma total_absent sp labels z k : ~ In z labels -> (total sp labels z k == 0)%Q.
Proof.
  intros H. unfold total. rewrite (sumQ_ext _ (fun _ => 0%Q)).
  - induction (seq 0 (length labels)) as [|a l IH]; [reflexivity|]. cbn [map]. rewrite sumQ_cons, IH. reflexivity.
  - intros a Ha. apply in_seq in Ha. destruct (Z.eqb_spec (lab labels a) z) as [E|E]; [|reflexivity].
    exfalso. apply H. rewrite <- E. apply nth_In. lia.
Qed.

Section Wrapped.
Variable expf : Q -> Q.
Variables (sp_all sp : list (list Q)) (thr : list Q).
Variable g : graph.
Hypothesis Hsh : shaped sp thr (gn g).
Hypothesis Hpos : non_negative sp.
Hypothesis Hthr : exists t, In t thr /\ (0 < t)%Q.
Variable E : exn -> Prop.
Variable N : Prop.
Variable names : Z -> Prop.
Variable c0 : common.
Variable Ki : strategy -> Prop.
Variable W : list Z -> Prop.
Hypothesis Hinner : forall s a z l r, Ki s -> wf g l -> a < gn g -> In z l ->
  post E N (strat_call expf s a z l r) (fun '(b, s', _) => Ki s' /\ (b = true -> W l -> W (upd l a z))).

Definition wr_K (s : strategy) : Prop := exists inner, s = SMaxP c0 sp_all sp thr inner /\ Ki inner.
Definition wr_V (l : list Z) : Prop :=
  wf g l /\ (forall z, In z l <-> names z) /\ (forall z, In z l -> meets sp thr l z) /\ W l.

Lemma wr_call s a z l r : wr_K s -> wr_V l -> a < gn g -> names z ->
  post E N (strat_call expf s a z l r) (fun '(b, s', _) => wr_K s' /\ (b = true -> wf g (upd l a z) -> wr_V (upd l a z))).
Proof.
  intros [inner [-> Hi]] [Hwf [Hn [Hm HW]]] Ha Hz. assert (Hz' : In z l) by (apply Hn; auto).
  assert (Hlen : length l = gn g) by apply Hwf.
  pose proof (C16_maxp_wrapper expf c0 sp_all sp thr inner l a z r) as HC.
  cbn [strat_call] in *. destruct (donor_ok sp thr a l) eqn:Ed.
  2: { cbn [post]. split; [exists inner; auto|discriminate]. }
  pose proof (Hinner inner a z l r Hi Hwf Ha Hz') as Hp.
  destruct (strat_call expf inner a z l r) as [[[b i'] r']|e|]; cbn [bind post] in *; [|auto|auto].
  destruct Hp as [Hi' HW']. split; [exists i'; auto|]. intros -> Hwf'.
  split; [auto|]. destruct (Z.eq_dec (lab l a) z) as [Ez|Ez].
  { assert (Eu : upd l a z = l) by (rewrite <- Ez; unfold lab; apply upd_same; lia). rewrite Eu in *. auto. }
  assert (Hm' : forall y, In y (upd l a z) -> meets sp thr (upd l a z) y).
  { apply (HC (SMaxP c0 sp_all sp thr i') r'); auto.
    - rewrite Hlen; auto.
    - lia.
    - intros Hy. apply Ez. apply lab_of_nth_error; auto. }
  split; [|auto]. intros y. rewrite <- (Hn y). split.
  - intros Hy. apply In_upd in Hy. destruct Hy as [->|Hy]; auto.
  - intros Hy. destruct (Z.eq_dec y (lab l a)) as [->|Hne].
    + destruct (in_dec Z.eq_dec (lab l a) (upd l a z)) as [H|H]; [auto|exfalso].
      assert (Hd : meets sp thr (upd l a z) (lab l a)).
      { apply donor_ok_region; [rewrite Hlen; auto|lia|auto|auto|]. apply Hm. apply nth_In. lia. }
      destruct Hthr as [t [Ht Hpt]]. apply In_nth_error in Ht. destruct Ht as [k Hk]. specialize (Hd k t Hk).
      rewrite total_absent in Hd by auto. lra.
    + apply In_nth_error in Hy. destruct Hy as [b Hb]. apply (nth_error_In _ b). rewrite nth_error_upd_ne; auto.
      intros ->. apply Hne. symmetry. apply lab_of_nth_error; auto.
Qed.
End Wrapped.

(** ** the default strategy inside, with what start_new_component gave it *)
Fixpoint runs (O : objfun) (attr : list (list Q)) (s : strategy) : Prop :=
  match s with
  | SAzp c => c_ok O attr c
  | SSa _ _ _ _ _ _ => False
  | SMaxP _ _ _ _ inner => runs O attr inner
  end.

Lemma runs_inside O attr s : runs O attr s -> azp_inside s.
Proof. induction s; cbn; auto. Qed.

Lemma runs_start O attr s l idx v : azp_inside s -> o_call O l attr = Ok v ->
  exists s', strat_start O s l attr idx = Ok s' /\ runs O attr s'.
Proof.
  intros Hi Ev. induction s as [c| |c sp_all sp thr inner IH]; cbn [azp_inside strat_start] in *.
  - unfold start_common. rewrite Ev. cbn. eexists. split; [reflexivity|]. split; reflexivity.
  - destruct Hi.
  - destruct (IH Hi) as [s' [Es Hs']]. unfold start_common at 1. rewrite Ev. cbn. rewrite Es. cbn.
    eexists. split; [reflexivity|]. exact Hs'.
Qed.

Lemma runs_call expf O attr (E : exn -> Prop) (N : Prop) s a z l : runs O attr s -> post E N (o_update O a z l attr) (fun _ => True) ->
  forall r, post E N (strat_call expf s a z l r)
    (fun '(b, s', _) => runs O attr s' /\ (b = true -> exists q, o_update O a z l attr = Ok q /\ (q <= 0)%Q)).
Proof.
  intros Hs Hu r. induction s as [c|c t sa term reached moved|c sp_all sp thr inner IH]; cbn [runs strat_call] in *.
  - rewrite (azp_call_eq O attr) by auto. destruct (o_update O a z l attr) as [q|e|]; cbn [bind post] in *; [|auto|auto].
    destruct (Qle_bool q 0) eqn:El; cbn [bind post runs].
    + split; [split; reflexivity|]. intros _. exists q. split; [auto|]. apply Qle_bool_iff; auto.
    + split; [auto|discriminate].
  - destruct Hs.
  - destruct (donor_ok sp thr a l); [|cbn [post runs]; split; [auto|discriminate]].
    eapply post_bind; [apply IH; auto|]. intros [[b s'] r'] _ [H1 H2]. cbn [post runs]. auto.
Qed.

(** without ties an accepted move of an area to another region leaves fewer assignments that are better *)
Lemma rank_lt O attr g l0 l a z q : exact_objective O attr -> length attr = gn g -> no_ties O attr ->
  length l = gn g -> (forall y, In y l <-> In y l0) -> a < gn g -> In z l -> lab l a <> z ->
  o_update O a z l attr = Ok q -> (q <= 0)%Q -> keep_mu O attr g l0 (upd l a z) < keep_mu O attr g l0 l.
Proof.
  intros Hex Hattr Hno Hl HI Ha Hz Hne Eq Hq.
  destruct Hex as [_ [_ Hup]]. destruct (Hup a z l q ltac:(lia) ltac:(lia) Eq) as [v [v' [Ev [Ev' Hd]]]].
  pose proof (Hno l a z v v' ltac:(lia) ltac:(lia) Hz Hne Ev Ev') as Htie.
  assert (Hlt : (v' < v)%Q). { destruct (Qlt_le_dec v' v) as [H|H]; [auto|]. exfalso. apply Htie. lra. }
  unfold keep_mu, value. rewrite Ev, Ev'. unfold az_m. apply filter_length_lt with (x := upd l a z).
  - intros y _ Hy. destruct (o_call O y attr) as [p|e|]; auto. apply Qltb_lt in Hy. apply Qltb_lt. lra.
  - apply words_In; [rewrite upd_length; auto|]. intros y Hy. apply uniqueZ_In. apply HI.
    apply In_upd in Hy. destruct Hy as [->|Hy]; auto.
  - rewrite Ev'. apply Qltb_lt. auto.
  - rewrite Ev'. apply Qltb_ge. lra.
Qed.

(** ** AZPBasicTabu under the wrapper: fit *)
Section BasicFit.
Variable expf : Q -> Q.
Variable order : list edge -> list edge.
Hypothesis Hord : forall l, Permutation (order l) l.
Variable O : objfun.
Variable g : graph.
Variables attr sp : list (list Q).
Variable thr : list Q.
Hypothesis Hsh : shaped sp thr (gn g).
Hypothesis Hpos : non_negative sp.
Hypothesis Hthr : exists t, In t thr /\ (0 < t)%Q.
Variable E : exn -> Prop.
Variable N : Prop.
Variable JI : strategy -> Prop.
Variable Ki : nat -> strategy -> Prop.
Variable W : nat -> list Z -> list Z -> Prop.
Hypothesis HW0 : forall c l, wf (comp_graph g c) l -> W c l l.
Hypothesis Hstart : forall c l inner, c < n_components g -> wf (comp_graph g c) l -> JI inner ->
  post E N (let* _ := start_common l (attr_c attr g c) O in strat_start O inner l (attr_c attr g c) (comp_nodes g c))
    (fun i => Ki c i).
Hypothesis Hcall : forall c l0 s a z l r, c < n_components g -> Ki c s -> wf (comp_graph g c) l -> a < gn (comp_graph g c) -> In z l ->
  post E N (strat_call expf s a z l r) (fun '(b, s', _) => Ki c s' /\ (b = true -> W c l0 l -> W c l0 (upd l a z))).
Hypothesis Hupd : forall c a z l, c < n_components g -> wf (comp_graph g c) l -> a < gn (comp_graph g c) -> In z l ->
  post E N (o_update O a z l (attr_c attr g c)) (fun _ => True).
Hypothesis HJ : forall c s, Ki c s -> JI s.
Variable Mu : nat -> list Z -> list Z -> nat.
Hypothesis Hrank : N \/ forall c l0 s a z l r s' r', c < n_components g -> Ki c s -> wf (comp_graph g c) l ->
  (forall y, In y l <-> In y l0) -> W c l0 l -> a < gn (comp_graph g c) -> In z l -> lab l a <> z ->
  strat_call expf s a z l r = Ok (true, s', r') -> Mu c l0 (upd l a z) < Mu c l0 l.

Theorem basic_with_fit_post fuel maxlen reps p l c1 sp1 inner r :
  (0 <= p)%Z -> feasible g l (Z.to_nat p) -> ~ In (-1)%Z l -> all_meet sp thr l -> JI inner ->
  (N \/ forall c, c < n_components g -> Mu c (comp_part g l c) (comp_part g l c) * (reps + 2) + (reps + 1) < fuel) ->
  post E N (basic_fit_with expf order O fuel maxlen reps g attr p (Some l) (SMaxP c1 sp sp1 thr inner) r)
    (fun '((labels, s'), _) => feasible g labels (Z.to_nat p) /\ all_meet sp thr labels /\
       (exists c2 sp2 inner', s' = SMaxP c2 sp sp2 thr inner' /\ JI inner') /\
       forall c, c < n_components g -> W c (comp_part g l c) (comp_part g labels c)).
Proof.
  intros Hp0 Hfeas Hm1 Hmeet HJI Hfuel. unfold basic_fit_with.
  set (J := fun (_ : nat) s => exists c2 sp2 inner', s = SMaxP c2 sp sp2 thr inner' /\ JI inner').
  set (spc := fun c => map (row sp) (comp_nodes g c)).
  set (R := fun c l l' => wf (comp_graph g c) l' /\ same_labels l' l /\
     (forall z, In z l' -> meets (spc c) thr l' z) /\ W c l l').
  set (A := fun c l => (forall z, In z l -> meets (spc c) thr l z) /\ (N \/ (c < n_components g -> Mu c l l * (reps + 2) + (reps + 1) < fuel))).
  pose proof Hfeas as [Hl [Hn Hall]].
  assert (Hmc : forall c, c < n_components g -> A c (comp_part g l c)).
  { intros c Hc. split; [|destruct Hfuel; auto]. intros z Hz. apply comp_part_In in Hz; auto. destruct Hz as [a [Ha [Hca Ez]]]. subst c.
    apply meets_comp; [split; auto|auto|]. apply Hmeet. eapply nth_error_In; eauto. }
  eapply (post_weaken E E N N); [auto|auto| |
    apply (fit_post_from strategy _ _ order g attr E N J R A)]; auto.
  - intros [[labels s'] r'] _ [HJ' [l0 [[_ [_ ->]] [Hlen HR]]]].
    assert (Hparts : forall c, c < n_components g -> wf (comp_graph g c) (comp_part g labels c) /\ same_labels (comp_part g labels c) (comp_part g l c)).
    { intros c Hc. destruct (HR c Hc) as [H1 [H2 _]]. auto. }
    assert (Hwf : wf g labels) by (split; [auto|apply (assembled_wf g l labels (conj Hl Hall) Hlen Hparts)]).
    split; [|split; [|split; [exact HJ'|]]].
    + split; [auto|]. split; [|apply Hwf]. rewrite <- Hn. apply same_labels_n. apply (assembled_same_labels g); auto. split; auto.
    + intros z Hz. apply In_nth_error in Hz. destruct Hz as [a Ha]. assert (Hag : a < gn g) by (apply nth_error_lt in Ha; lia).
      apply (meets_comp sp thr g labels a z Hwf Ha). destruct (HR (comp_label g a) (comp_label_lt g a Hag)) as [_ [_ [H _]]].
      apply H. apply comp_part_In; eauto.
    + intros c Hc. destruct (HR c Hc) as [_ [_ [_ H]]]. exact H.
  - intros c lc s rg j Hc _ Hwf [HA HAf] [c2 [sp2 [i2 [-> HJi]]]]. unfold run_component. cbn [strat_start]. fold (attr_c attr g c).
    pose proof (Hstart c lc i2 Hc Hwf HJi) as Hs.
    destruct (start_common lc (attr_c attr g c) O) as [cc|e|]; cbn [bind] in *; [|exact Hs|exact Hs].
    destruct (strat_start O i2 lc (attr_c attr g c) (comp_nodes g c)) as [i3|e|]; cbn [bind post] in *; [|exact Hs|exact Hs].
    fold (spc c).
    set (V := wr_V (spc c) thr (comp_graph g c) (fun z => In z lc) (W c lc)).
    eapply (post_weaken E E N N); [auto|auto| |
      apply (basic_component_with_post strategy (strat_call expf) O (attr_c attr g c) (comp_graph g c) E N) with (names := fun z => In z lc)
               (K := wr_K sp (spc c) thr cc (Ki c)) (V := V) (M := Mu c lc)]; auto.
    + intros [[l' s'] r'] _ [[Hwf' [Hs' [Hm' HW']]] [i' [-> Hi']]]. split; [exists cc, (spc c), i'; split; [auto|eapply HJ; eauto]|].
      split; [destruct Hwf, Hwf'; lia|]. split; [auto|]. split; [exact Hs'|]. split; [auto|auto].
    + intros l1 H. apply H.
    + intros l1 H z Hz. apply H; auto.
    + intros s1 a z l1 r1 Hs1 HV1 Ha Hz.
      apply (wr_call expf sp (spc c) thr (comp_graph g c) (comp_shaped g sp thr Hsh c) (comp_non_negative g sp thr Hsh Hpos c) Hthr E N (fun z => In z lc)); auto.
    + intros a z l1 HV1 Ha Hz. apply Hupd; auto; [apply HV1|]. apply HV1. exact Hz.
    + destruct Hrank as [HN|Hr]; [auto|right]. intros s1 a z l1 r1 s2 r2 [i1 [-> Hi1]] HV1 Ha Hz Hne Ec.
      cbn [strat_call] in Ec. destruct (donor_ok (spc c) thr a l1); [|discriminate]. apply bind_Ok in Ec. destruct Ec as [[[b i2'] r2'] [Ec E2]]. injection E2 as -> _ _.
      destruct HV1 as [Hw1 [Hn1 [_ HW1]]]. eapply Hr; eauto. apply Hn1; auto.
    + exists i3. auto.
    + split; [auto|]. split; [intros z; tauto|]. split; [exact HA|]. apply HW0; auto.
    + destruct HAf; auto.
  - split; auto.
  - exists c1, sp1, inner. auto.
Qed.
End BasicFit.

(** ** MaxPRegionsHeu with AZPBasicTabu *)
Section MaxPBasic.
Variable expf : Q -> Q.
Variable order : list edge -> list edge.
Hypothesis Hord : forall l, Permutation (order l) l.
Variable O : objfun.
Variable d : list Q -> list Q -> Q.
Variable g : graph.
Variables attr sp : list (list Q).
Variable thr : list Q.
Hypothesis Hsym : symmetric g.
Hypothesis Hloop : no_self_loops g.
Hypothesis Hsp : shaped sp thr (gn g).
Hypothesis Hpos : non_negative sp.
Hypothesis Hthr : exists t, In t thr /\ (0 < t)%Q.

Theorem maxp_basic_any fuel maxlen reps max_it labels0 s r : 0 < max_it ->
  post anyexn True (maxp_basic_fit expf order O d fuel maxlen reps g attr sp thr max_it labels0 s r)
    (fun '(labels, _, _) => exists mp before r1 l,
       construct d g attr sp thr max_it 0 [] r = Ok (mp, before, r1) /\ labels = Some l /\ valid_result g sp thr mp l).
Proof.
  intros Hit. unfold maxp_basic_fit.
  set (JW := fun s => exists c1 sp1 inner, s = SMaxP c1 sp sp1 thr inner).
  eapply (post_weaken anyexn anyexn True True); [auto|auto| |
    apply (maxp_fit_post strategy _ _ O d g attr sp thr Hsym Hloop Hsp Hpos anyexn True (fun _ => True) JW (fun mp _ l => valid_result g sp thr mp l))]; auto.
  - intros [[labels ls'] r'] _ [mp [before [r1 [parts [r2 [l [v [s' [H1 [H2 [H3 [_ [_ [_ [_ [[_ [P [l0 [_ [_ [_ H]]]]]] _]]]]]]]]]]]]]]]].
    exists mp, before, r1, l. auto.
  - intros s0 _. unfold JW, maxp_wrap. eauto.
  - intros mp s0 l0 r0 [c1 [sp1 [inner ->]]] [Hf [Hm1 Hmeet]].
    eapply (post_bind anyexn True _ _ _ _).
    + apply (basic_with_fit_post expf order Hord O g attr sp thr Hsp Hpos Hthr anyexn True (fun _ => True) (fun _ _ => True) (fun _ _ _ => True)) with (Mu := fun _ _ _ => 0); auto.
      * intros. apply anyexn_post.
      * intros c l1 s1 a z l r1 _ _ _ _ _. destruct (strat_call expf s1 a z l r1) as [[[b s2] rg1]| |]; cbn [post]; auto; exact Logic.I.
      * intros. apply anyexn_post.
      * lia.
      * rewrite Nat2Z.id. auto.
    + intros [[labels s'] r'] _ [H1 [H2 [[c2 [sp2 [i2 [-> _]]]] _]]]. cbn [post]. rewrite Nat2Z.id in H1.
      split; [exists c2, sp2, i2; auto|]. exists labels. split; [auto|split; auto].
  - intros mp l0 l _ _. apply anyexn_post.
  - intros mp x m _ _. exact Logic.I.
Qed.

Hypothesis Hattr : length attr = gn g.
Hypothesis Hex : exact_on O attr.
Variable Ex : exn -> Prop.
Variable N : Prop.
Hypothesis Hties : N \/ forall c, c < n_components g -> no_ties O (attr_c attr g c).
Hypothesis Hunmet : forall m, (exists v isl, v < gn g /\ island g v isl /\ ~ meets_in sp thr isl) -> Ex (ValueError m).
Hypothesis Hupd : forall c a z l, c < n_components g -> wf (comp_graph g c) l -> a < gn (comp_graph g c) -> In z l ->
  post Ex N (o_update O a z l (attr_c attr g c)) (fun _ => True).

Theorem maxp_basic_default fuel maxlen reps max_it labels0 s r : 0 < max_it -> azp_inside s -> (N \/ tabu_fuel (gn g) reps < fuel) ->
  post Ex N (maxp_basic_fit expf order O d fuel maxlen reps g attr sp thr max_it labels0 s r)
    (fun '(labels, ls', _) => exists mp before r1 parts r2 l s',
       construct d g attr sp thr max_it 0 [] r = Ok (mp, before, r1) /\
       assign_each d g attr before r1 = Ok (parts, r2) /\
       labels = Some l /\ ls' = Some s' /\ azp_inside s' /\ valid_result g sp thr mp l /\ parts <> [] /\
       forall P, In P parts -> exists l0 l1 v v1, array_from_region_list P = Ok l0 /\ valid_result g sp thr mp l0 /\
         valid_result g sp thr mp l1 /\ not_worse O g attr l0 l1 /\ o_call O l attr = Ok v /\ o_call O l1 attr = Ok v1 /\ (v <= v1)%Q).
Proof.
  intros Hit Hs Hfuel. unfold maxp_basic_fit.
  set (JW := fun s => exists c1 sp1 inner, s = SMaxP c1 sp sp1 thr inner /\ azp_inside inner).
  eapply (post_weaken Ex Ex N N); [auto|auto| |
    apply (maxp_fit_post strategy _ _ O d g attr sp thr Hsym Hloop Hsp Hpos Ex N azp_inside JW (fun mp l0 l => valid_result g sp thr mp l /\ not_worse O g attr l0 l))]; auto.
  - intros [[labels ls'] r'] _ [mp [before [r1 [parts [r2 [l [v [s' [H1 [H2 [H3 [H4 [H5 [H6 [H7 [[Ev [P [l0 [_ [_ [_ [H _]]]]]]] Hc]]]]]]]]]]]]]]]].
    exists mp, before, r1, parts, r2, l, s'. do 7 (split; [auto|]).
    intros P' HP'. destruct (Hc P' HP') as [l0' [l1 [v1 [E0 [HG [[HR1 HR2] [Ev1 Hle]]]]]]]. exists l0', l1, v, v1.
    destruct HG as [G1 [G2 G3]]. split; [auto|]. split; [split; auto|]. auto.
  - intros s0 Hs0. unfold JW, maxp_wrap. eauto.
  - intros s0 [c1 [sp1 [inner [-> Hi]]]]. exact Hi.
  - intros mp s0 l0 r0 [c1 [sp1 [inner [-> Hi]]]] [Hf [Hm1 Hmeet]].
    eapply (post_bind Ex N _ _ _ _).
    + apply (basic_with_fit_post expf order Hord O g attr sp thr Hsp Hpos Hthr Ex N azp_inside (fun c => runs O (attr_c attr g c))
        (fun c l0 l => no_worse O (attr_c attr g c) l0 l)) with (Mu := fun c l0 l => keep_mu O (attr_c attr g c) (comp_graph g c) l0 l); auto.
      * intros c l Hwf. apply (no_worse_refl O (attr_c attr g c) (comp_graph g c) (attr_c_length attr g c)). apply Hwf.
      * intros c l i Hc Hwf Hii. destruct (attr_c_exact O attr Hex g Hattr c) as [Hcall _].
        destruct (Hcall l) as [v Ev]; [rewrite attr_c_length; apply Hwf|].
        unfold start_common. rewrite Ev. cbn [bind]. destruct (runs_start O (attr_c attr g c) i l (comp_nodes g c) v Hii Ev) as [s' [Es Ht]].
        rewrite Es. exact Ht.
      * intros c l1 s1 a z l rg Hc Hrun Hwf Ha Hz.
        eapply (post_weaken Ex Ex N N); [auto|auto| |apply (runs_call expf O (attr_c attr g c) Ex N s1 a z l Hrun)]; [|apply Hupd; auto].
        intros [[b s'] rg'] _ [H1 H2]. split; [auto|]. intros Hb Hnw. destruct (H2 Hb) as [q [Eq Hq]].
        apply (no_worse_step O (attr_c attr g c) (comp_graph g c) (attr_c_length attr g c) l1 l a z q); auto. apply Hwf.
      * intros c s1. apply runs_inside.
      * destruct Hties as [HN|Hno]; [auto|right]. intros c l1 s1 a z l rg s2 r2 Hc Hrun Hwf Hsame _ Ha Hz Hne Ec.
        pose proof (runs_call expf O (attr_c attr g c) anyexn True s1 a z l Hrun (anyexn_post _) rg) as Hp. rewrite Ec in Hp.
        destruct Hp as [_ Hp]. destruct (Hp eq_refl) as [q [Eq Hq]].
        apply (rank_lt O (attr_c attr g c) (comp_graph g c) l1 l a z q); auto; [apply attr_c_exact; auto|apply attr_c_length|apply Hwf].
      * lia.
      * rewrite Nat2Z.id. auto.
      * destruct Hfuel as [HN|Hfuel]; [auto|right]. intros c Hc.
        pose proof (az_m_bound O (attr_c attr g c) (comp_graph g c) (comp_part g l0 c) (value O (attr_c attr g c) (comp_part g l0 c)) (comp_part_length g l0 c)) as Hb.
        fold (keep_mu O (attr_c attr g c) (comp_graph g c) (comp_part g l0 c) (comp_part g l0 c)) in Hb.
        pose proof (tabu_fuel_mono _ _ reps (comp_graph_le g c)) as Hmono. unfold tabu_fuel in Hmono at 1.
        set (m := gn (comp_graph g c)) in *. set (k := keep_mu _ _ _ _ _) in *.
        assert (k * (reps + 2) <= (m ^ m * (m + 1) + m) * (reps + 2)); [|lia].
        apply Nat.mul_le_mono_r. transitivity (m ^ m * 1); [lia|]. transitivity (m ^ m * (m + 1)); [|lia]. apply Nat.mul_le_mono_l. lia.
    + intros [[labels s'] r'] _ [H1 [H2 [[c2 [sp2 [i2 [-> Hi2]]]] HW]]]. cbn [post]. rewrite Nat2Z.id in H1.
      split; [exists c2, sp2, i2; auto|]. exists labels. split; [auto|]. split; [split; auto|].
      intros c Hc. apply (HW c Hc). apply attr_c_exact; auto.
  - intros mp l0 l _ [[[Hl _] _] _]. destruct (Hex attr (fun x H => H)) as [Hcall _].
    destruct (Hcall l) as [v Ev]; [lia|]. rewrite Ev. cbn; auto.
  - intros mp x m [Hl [F [HE HG]]] Hn. apply Hunmet.
    destruct (unmet_island g sp thr) as [H|H]; [|exact H].
    exfalso. apply Hn. apply (island_served g Hsym sp thr (fst x) F HG). exact H.
Qed.
End MaxPBasic.

(** ** MaxPRegionsHeu with AZPReactiveTabu on a connected graph *)
Section MaxPReactive.
Variable expf : Q -> Q.
Variable order : list edge -> list edge.
Hypothesis Hord : forall l, Permutation (order l) l.
Variable O : objfun.
Variable d : list Q -> list Q -> Q.
Variable g : graph.
Variables attr sp : list (list Q).
Variable thr : list Q.
Hypothesis Hsym : symmetric g.
Hypothesis Hloop : no_self_loops g.
Hypothesis Hsp : shaped sp thr (gn g).
Hypothesis Hpos : non_negative sp.
Hypothesis Hthr : exists t, In t thr /\ (0 < t)%Q.
Hypothesis Hone : n_components g = 1.

Definition re_V (mp : nat) (l : list Z) : Prop :=
  wr_V (map (row sp) (comp_nodes g 0)) thr (comp_graph g 0) (fun z => 0 <= z < Z.of_nat mp)%Z (fun _ => True) l.
Definition re_L (mp : nat) (s : reactive_with strategy) : Prop := forall w, In w (rw_visited s) -> re_V mp w.
Definition re_W (mp : nat) (s : reactive_with strategy) : Prop :=
  (exists c1 sp1 inner, rw_strat s = SMaxP c1 sp sp1 thr inner) /\ re_L mp s.

Lemma one_part l z : length l = gn g -> (In z (comp_part g l 0) <-> In z l).
Proof.
  intros Hl. rewrite comp_part_In by lia. split.
  - intros [a [_ [_ Ha]]]. eapply nth_error_In; eauto.
  - intros Hz. apply In_nth_error in Hz. destruct Hz as [a Ha]. assert (Hag : a < gn g) by (apply nth_error_lt in Ha; lia).
    exists a. split; [auto|]. split; [|auto]. pose proof (comp_label_lt g a Hag). lia.
Qed.

Lemma reactive_with_fit_post maxit k1 k2 mp l s r : named_start g sp thr mp l -> re_W mp s ->
  post anyexn True (reactive_fit_with expf order O maxit k1 k2 g attr (Z.of_nat mp) (Some l) s r)
    (fun '((labels, s'), _) => valid_result g sp thr mp labels /\ re_W mp s').
Proof.
  intros [[Hfeas [Hm1 Hmeet]] Hexact] Hs. unfold reactive_fit_with. pose proof Hfeas as [Hl [Hn Hall]].
  set (R := fun (c : nat) (l l' : list Z) => re_V mp l').
  set (A := fun (c : nat) (l : list Z) => (forall z, In z l <-> (0 <= z < Z.of_nat mp)%Z) /\
    forall z, In z l -> meets (map (row sp) (comp_nodes g 0)) thr l z).
  eapply (post_weaken anyexn anyexn True True); [auto|auto| |
    apply (fit_post_from (reactive_with strategy) _ _ order g attr anyexn True (fun _ => re_W mp) R A)]; auto.
  - intros [[labels s'] r'] _ [HJ' [l0 [[_ [_ ->]] [Hlen HR]]]]. split; [|auto].
    destruct (HR 0 ltac:(lia)) as [H1 [H2 [H3 _]]].
    assert (Hparts : forall c, c < n_components g -> wf (comp_graph g c) (comp_part g labels c) /\ same_labels (comp_part g labels c) (comp_part g l c)).
    { intros c Hc. assert (c = 0) as -> by lia. split; [auto|]. intros z. rewrite H2, one_part by auto. symmetry. apply Hexact. }
    assert (Hwf : wf g labels) by (split; [auto|apply (assembled_wf g l labels (conj Hl Hall) Hlen Hparts)]).
    split.
    + split; [auto|]. split; [|apply Hwf]. rewrite <- Hn. apply same_labels_n. apply (assembled_same_labels g); auto. split; auto.
    + intros z Hz. apply In_nth_error in Hz. destruct Hz as [a Ha]. assert (Hag : a < gn g) by (apply nth_error_lt in Ha; lia).
      apply (meets_comp sp thr g labels a z Hwf Ha). assert (comp_label g a = 0) as -> by (pose proof (comp_label_lt g a Hag); lia).
      apply H3. apply one_part; [auto|]. eapply nth_error_In; eauto.
  - intros c lc s0 rg j Hc _ Hwf [HA1 HA2] [[c1 [sp1 [inner Es]]] Hvis]. assert (c = 0) as -> by lia.
    unfold run_component. fold (attr_c attr g 0). rewrite Es. cbn [strat_start].
    destruct (start_common lc (attr_c attr g 0) O) as [cc|e|]; cbn [bind post]; [|exact Logic.I|exact Logic.I].
    destruct (strat_start O inner lc (attr_c attr g 0) (comp_nodes g 0)) as [i3|e|]; cbn [bind post]; [|exact Logic.I|exact Logic.I].
    set (spc := map (row sp) (comp_nodes g 0)) in *.
    eapply (post_weaken anyexn anyexn True True); [auto|auto| |
      apply (reactive_component_with_post strategy (strat_call expf) O (attr_c attr g 0) (comp_graph g 0) (fun z => 0 <= z < Z.of_nat mp)%Z
               (wr_K sp spc thr cc (fun _ => True)) (re_V mp))]; cbn [rw_strat rw_visited]; auto.
    + intros [[l' s'] r'] _ [HV [[i' [Es' _]] Hvis']]. split; [split; [eauto|exact Hvis']|].
      split; [destruct HV as [[HV _] _], Hwf; lia|exact HV].
    + intros l1 H. apply H.
    + intros l1 H z Hz. apply H; auto.
    + intros s1 a z l1 r1 Hs1 HV1 Ha Hz.
      apply (wr_call expf sp spc thr (comp_graph g 0) (comp_shaped g sp thr Hsp 0) (comp_non_negative g sp thr Hsp Hpos 0) Hthr anyexn); auto.
      intros s2 a2 z2 l2 r2 _ _ _ _. destruct (strat_call expf s2 a2 z2 l2 r2) as [[[b s3] rg1]| |]; cbn [post]; auto; exact Logic.I.
    + exists i3. auto.
    + split; [auto|]. split; [exact HA1|]. split; [exact HA2|exact Logic.I].
  - split; [|split; [lia|auto]]. rewrite Nat2Z.id. auto.
  - intros c Hc. assert (c = 0) as -> by lia. split.
    + intros z. rewrite one_part by auto. apply Hexact.
    + intros z Hz. apply comp_part_In in Hz; [|auto]. destruct Hz as [a [Ha [Hca Ez]]].
      rewrite <- Hca. apply meets_comp; [split; auto|auto|]. apply Hmeet. eapply nth_error_In; eauto.
Qed.

Theorem maxp_reactive_any maxit k1 k2 max_it labels0 s r : 0 < max_it -> rw_visited s = [] ->
  post anyexn True (maxp_reactive_fit expf order O d maxit k1 k2 g attr sp thr max_it labels0 s r)
    (fun '(labels, _, _) => exists mp before r1 l,
       construct d g attr sp thr max_it 0 [] r = Ok (mp, before, r1) /\ labels = Some l /\ valid_result g sp thr mp l).
Proof.
  intros Hit Hs. unfold maxp_reactive_fit.
  eapply (post_weaken anyexn anyexn True True); [auto|auto| |
    apply (maxp_fit_post_n (reactive_with strategy) _ _ O d g attr sp thr Hsym Hloop Hsp Hpos anyexn True re_L re_W (fun mp _ l => valid_result g sp thr mp l))]; auto.
  - intros [[labels ls'] r'] _ [mp [before [r1 [parts [r2 [l [v [s' [H1 [H2 [H3 [_ [_ [_ [_ [[_ [P [l0 [_ [_ [_ H]]]]]] _]]]]]]]]]]]]]]]].
    exists mp, before, r1, l. auto.
  - intros mp s0 Hs0. split; [unfold maxp_wrap; cbn; eauto|]. exact Hs0.
  - intros mp s0 H. apply H.
  - intros mp s0 l0 r0 HW HG.
    eapply (post_bind anyexn True _ _ _ _); [apply reactive_with_fit_post; eauto|].
    intros [[labels s'] r'] _ [H1 H2]. cbn [post]. split; [auto|]. exists labels. auto.
  - intros mp l0 l _ _. apply anyexn_post.
  - intros mp x m _ _. exact Logic.I.
  - intros mp w Hw. rewrite Hs in Hw. destruct Hw.
Qed.
End MaxPReactive.

(** ** M_Tabu is the case of AllowMoveAZP *)
Section Plain.
Variable expf : Q -> Q.
Variable obj : objfun.
Variable g : graph.

Lemma try_plain maxlen m l tabu c r :
  try_move_with strategy (strat_call expf) g maxlen m l tabu (SAzp c) r =
  let* '(l', t', c') := try_move g maxlen m l tabu c in Ok (l', t', SAzp c', r).
Proof.
  unfold try_move_with, try_move. cbn [strat_call].
  destruct (azp_call c (mv_area m) (mv_new m) l) as [[[|] c']|e|]; cbn [bind]; auto.
  destruct (make_move_tabu g maxlen (mv_area m) (mv_new m) l tabu) as [[[l' t'] b]|e|]; reflexivity.
Qed.

Lemma basic_plain maxlen reps attr : forall fuel stop visited l tabu c r,
  basic_loop_with strategy (strat_call expf) obj g fuel maxlen reps attr stop visited l tabu (SAzp c) r =
  let* '(l', c', r') := basic_loop obj g fuel maxlen reps attr stop visited l tabu c r in Ok (l', SAzp c', r').
Proof.
  induction fuel as [|fuel IH]; intros stop visited l tabu c r; [reflexivity|].
  cbn [basic_loop_with basic_loop].
  destruct (best_of obj attr l 0 (possible_moves g l tabu) None) as [best|e|]; cbn [bind]; [|reflexivity|reflexivity].
  assert (Hrest : forall c1,
    (let* its := improving_tabus obj attr l tabu in
     let* '(labels2, tabu2, s2, r2) := match its with
        | [] => Ok (l, tabu, SAzp c1, r)
        | _ :: _ => let* '(m, r') := random_element_from its r in try_move_with strategy (strat_call expf) g maxlen m l tabu (SAzp c1) r'
        end in
     if stop || Nat.leb reps (visits visited l) then Ok (labels2, s2, r2) else
     let* '(labels3, tabu3, s3, r3) := match best with
        | Some (m, _, _) => try_move_with strategy (strat_call expf) g maxlen m labels2 tabu2 s2 r2
        | None => Ok (labels2, tabu2, s2, r2) end in
     basic_loop_with strategy (strat_call expf) obj g fuel maxlen reps attr (stop || Nat.leb reps (visits visited l)) (visited ++ [l]) labels3 tabu3 s3 r3) =
    let* '(l', c', r') :=
     let* its := improving_tabus obj attr l tabu in
     let* '(labels2, tabu2, c2, r2) := match its with
        | [] => Ok (l, tabu, c1, r)
        | _ :: _ => let* '(m, r') := random_element_from its r in
                    let* '(l', t', c') := try_move g maxlen m l tabu c1 in Ok (l', t', c', r')
        end in
     if stop || Nat.leb reps (visits visited l) then Ok (labels2, c2, r2) else
     let* '(labels3, tabu3, c3) := match best with
        | Some (m, _, _) => try_move g maxlen m labels2 tabu2 c2
        | None => Ok (labels2, tabu2, c2) end in
     basic_loop obj g fuel maxlen reps attr (stop || Nat.leb reps (visits visited l)) (visited ++ [l]) labels3 tabu3 c3 r2
    in Ok (l', SAzp c', r')).
  { intros c1. destruct (improving_tabus obj attr l tabu) as [its|e|]; cbn [bind]; [|reflexivity|reflexivity].
    assert (Hafter : forall labels2 tabu2 c2 r2,
      (if stop || Nat.leb reps (visits visited l) then Ok (labels2, SAzp c2, r2) else
       let* '(labels3, tabu3, s3, r3) := match best with
          | Some (m, _, _) => try_move_with strategy (strat_call expf) g maxlen m labels2 tabu2 (SAzp c2) r2
          | None => Ok (labels2, tabu2, SAzp c2, r2) end in
       basic_loop_with strategy (strat_call expf) obj g fuel maxlen reps attr (stop || Nat.leb reps (visits visited l)) (visited ++ [l]) labels3 tabu3 s3 r3) =
      let* '(l', c', r') :=
       if stop || Nat.leb reps (visits visited l) then Ok (labels2, c2, r2) else
       let* '(labels3, tabu3, c3) := match best with
          | Some (m, _, _) => try_move g maxlen m labels2 tabu2 c2
          | None => Ok (labels2, tabu2, c2) end in
       basic_loop obj g fuel maxlen reps attr (stop || Nat.leb reps (visits visited l)) (visited ++ [l]) labels3 tabu3 c3 r2
      in Ok (l', SAzp c', r')).
    { intros labels2 tabu2 c2 r2. destruct (stop || Nat.leb reps (visits visited l)); [reflexivity|].
      destruct best as [[[m i] q]|].
      - rewrite try_plain. destruct (try_move g maxlen m labels2 tabu2 c2) as [[[l3 t3] c3]|e|]; cbn [bind]; [apply IH|reflexivity|reflexivity].
      - cbn [bind]. apply IH. }
    destruct its as [|m0 its0]; [apply Hafter|].
    destruct (random_element_from (m0 :: its0) r) as [[m r']|e|]; cbn [bind]; [|reflexivity|reflexivity].
    rewrite try_plain. destruct (try_move g maxlen m l tabu c1) as [[[l2 t2] c2]|e|]; cbn [bind]; [apply Hafter|reflexivity|reflexivity]. }
  destruct best as [[[m i] q]|]; [|apply Hrest].
  destruct (Qle_bool q 0); [|apply Hrest]. cbn [strat_call].
  destruct (azp_call c (mv_area m) (mv_new m) l) as [[[|] c']|e|]; cbn [bind]; [|apply Hrest|reflexivity|reflexivity].
  destruct (make_move_tabu g maxlen (mv_area m) (mv_new m) l tabu) as [[[l' t'] b]|e|]; cbn [bind]; [apply IH|reflexivity|reflexivity].
Qed.

Lemma random_moves_plain p : forall moves l tabu c r,
  random_moves_with strategy (strat_call expf) g p moves l tabu (SAzp c) r =
  let* '(l', t', c', r') := random_moves g p moves l tabu c r in Ok (l', t', SAzp c', r').
Proof.
  induction p as [|p IH]; intros moves l tabu c r; [reflexivity|]. cbn [random_moves_with random_moves].
  destruct (pop_randomly_from moves r) as [[[m moves'] r1]|e|]; cbn [bind]; [|reflexivity|reflexivity].
  rewrite try_plain. destruct (try_move g (Some 1) m l tabu c) as [[[l' t'] c']|e|]; cbn [bind]; [apply IH|reflexivity|reflexivity].
Qed.

Definition plain_of (s : reactive) : reactive_with strategy :=
  mkReactiveWith (SAzp (rt_common s)) (rt_avg s) (rt_reps s) (rt_visited s).

Lemma reactive_plain k1 k2 attr : forall maxit start ls l tabu s r,
  reactive_loop_with strategy (strat_call expf) obj g maxit k1 k2 attr start ls l tabu (plain_of s) r =
  let* '(l', s', ls', r') := reactive_loop obj g maxit k1 k2 attr start ls l tabu s r in Ok (l', plain_of s', ls', r').
Proof.
  induction maxit as [|maxit IH]; intros start ls l tabu s r; [reflexivity|].
  cbn [reactive_loop_with reactive_loop plain_of rw_strat rw_avg rw_reps rw_visited].
  destruct (o_call obj l attr) as [v|e|]; cbn [bind]; [|reflexivity|reflexivity].
  destruct (negb _); [reflexivity|].
  destruct (best_of obj attr l 0 (possible_moves g l tabu) None) as [[[[m i] q]|]|e|]; cbn [bind]; [|reflexivity|reflexivity|reflexivity].
  rewrite try_plain. destruct (try_move g (Some 1) m l tabu (rt_common s)) as [[[l1 t1] c1]|e|]; cbn [bind]; [|reflexivity|reflexivity].
  destruct (_ && _)%bool.
  - destruct (Nat.leb _ _); [|reflexivity]. rewrite random_moves_plain.
    destruct (random_moves g _ _ l1 t1 c1 r) as [[[[l2 t2] c2] r2]|e|]; cbn [bind]; [|reflexivity|reflexivity].
    apply (IH (Some v) (Step11 l1) l2 t2 (mkReactive c2 (rt_avg s) (rt_reps s) []) r2).
  - apply (IH (Some v) Step10 l1 t1 (mkReactive c1 (rt_avg s) (rt_reps s) (rt_visited s ++ [l1])) r).
Qed.
End Plain.
