(** AZPReactiveTabu: proofs. *)
From Verif Require Import Base Spec M_Graph P_Graph M_Util P_Base P_Util P_Forest P_Init P_Initial
  M_Objective P_Sum P_Objective M_Azp P_Azp P_Strategy P_Fit P_AzpFit M_Sa P_Sa M_Tabu P_Tabu P_TabuFit.

Lemma remove_nth_In {A} i : forall (l : list A) x, In x (remove_nth i l) -> In x l.
Proof. induction i as [|i IH]; intros [|y l] x H; cbn in *; auto. destruct H as [H|H]; auto. Qed.

Section Reactive.
Variable obj : objfun.
Variable attr : list (list Q).
Variable g : graph.
Hypothesis Hattr : length attr = gn g.
Variable labels0 : list Z.
Notation update a r l := (o_update obj a r l attr).

(** a legal or stale move, tried *)
Lemma try_any m l tabu c : wf g l -> c_ok obj attr c -> mv_area m < gn g ->
  post anyexn True (try_move g (Some 1) m l tabu c)
    (fun '(l', _, c') => c_ok obj attr c' /\ (l' = l \/ exists q, update (mv_area m) (mv_new m) l = Ok q /\ (q <= 0)%Q /\
        wf g (upd l (mv_area m) (mv_new m)) /\ l' = upd l (mv_area m) (mv_new m))).
Proof.
  intros Hwf Hc Ha.
  eapply (post_weaken anyexn anyexn True True); [auto|auto| |
    apply (try_move_post obj attr g anyexn True (fun _ => True) (fun _ => True)) with (M1 := fun _ => 0) (M2 := fun _ _ => 0) (B := 0); auto].
  - intros [[l' t'] c'] _ [H1 [_ H2]]. split; [auto|]. destruct H2 as [[H2 _]|H2]; auto.
  - intros x _. auto.
  - apply anyexn_post.
Qed.

Lemma best_of_any l moves : post anyexn True (best_of obj attr l 0 moves None) (is_best obj attr l moves).
Proof. apply best_of_post'. intros. apply anyexn_post. Qed.

Lemma pop_randomly_post {A} (l : list A) r :
  post anyexn True (pop_randomly_from l r) (fun '(x, l', _) => In x l /\ forall y, In y l' -> In y l).
Proof.
  unfold pop_randomly_from. destruct (randrange (length l) r) as [[i r']|e|] eqn:Er; cbn [bind]; [|exact I|exact I].
  destruct (nth_error l i) as [x|] eqn:Ex; [|exact I]. cbn [post]. split; [eapply nth_error_In; eauto|].
  intros y Hy. eapply remove_nth_In; eauto.
Qed.

Section Inv.
(** [P] holds of the labels and of every visited solution *)
Variable P : list Z -> Prop.
Hypothesis Plegal : forall l a r q, wf g l -> P l -> legal_move g l a r -> update a r l = Ok q -> (q <= 0)%Q -> P (upd l a r).

(** any move of an area to a label of the start *)
Hypothesis Pany : forall l a r q, wf g l -> P l -> a < gn g -> In r labels0 -> update a r l = Ok q -> (q <= 0)%Q ->
  wf g (upd l a r) -> P (upd l a r).
Hypothesis Psub : forall l, P l -> forall z, In z l -> In z labels0.

Definition vis_ok (visited : list (list Z)) : Prop := forall w, In w visited -> wf g w /\ P w.

Lemma random_moves_any p : forall moves l tabu c r, wf g l -> P l -> c_ok obj attr c ->
  (forall m, In m moves -> mv_area m < gn g /\ In (mv_new m) labels0) ->
  post anyexn True (random_moves g p moves l tabu c r)
    (fun '(l', _, c', _) => wf g l' /\ P l' /\ c_ok obj attr c').
Proof.
  induction p as [|p IH]; intros moves l tabu c r Hwf HP Hc Hm; cbn [random_moves].
  - cbn [post]. auto.
  - eapply post_bind; [apply pop_randomly_post|]. intros [[m moves'] r1] _ [Hin Hsub].
    eapply post_bind; [apply (try_any m l tabu c Hwf Hc); apply Hm; auto|].
    intros [[l' t'] c'] _ [Hc' Hl']. apply IH; auto.
    + destruct Hl' as [->|[q [_ [_ [H ->]]]]]; auto.
    + destruct Hl' as [->|[q [Eq [Hq [H ->]]]]]; auto. apply (Pany l _ _ q); auto; apply Hm; auto.
Qed.

Lemma reactive_loop_any k1 k2 : forall maxit start ls l tabu s r, wf g l -> P l ->
  c_ok obj attr (rt_common s) -> vis_ok (rt_visited s) ->
  match ls with Step10 => True | Step11 l => wf g l /\ P l end ->
  post anyexn True (reactive_loop obj g maxit k1 k2 attr start ls l tabu s r)
    (fun '(l', s', ls', _) => vis_ok (rt_visited s') /\
       match ls' with Step10 => True | Step11 l => wf g l /\ P l end).
Proof.
  induction maxit as [|maxit IH]; intros start ls l tabu s r Hwf HP Hc Hvis Hls; cbn [reactive_loop].
  - cbn [post]. auto.
  - eapply post_bind; [apply anyexn_post|]. intros v Ev _.
    destruct (negb _); [cbn [post]; auto|].
    eapply post_bind; [apply best_of_any|]. intros best _ Hbest.
    destruct best as [[[m i] q]|]; [|exact I]. destruct Hbest as [Hn [Eq Hmin]].
    assert (Hpm : forall m, In m (possible_moves g l tabu) -> legal_move g l (mv_area m) (mv_new m)).
    { intros m' Hm. apply (possible_moves_sound g l tabu m' Hwf) in Hm. tauto. }
    pose proof (Hpm m (nth_error_In _ _ Hn)) as Hl.
    eapply post_bind; [apply (try_any m l tabu (rt_common s) Hwf Hc); apply Hl|].
    intros [[l1 t1] c1] _ [Hc1 Hl1].
    assert (H1 : wf g l1 /\ P l1).
    { destruct Hl1 as [->|[q' [Eq' [Hq' [Hwf' ->]]]]]; [auto|]. split; [auto|]. eapply Plegal; eauto. }
    destruct H1 as [Hwf1 HP1]. destruct (_ && _).
    + destruct (Nat.leb _ _); [|exact I].
      eapply post_bind; [apply random_moves_any; auto|].
      { intros m' Hm'. apply remove_nth_In in Hm'. specialize (Hpm m' Hm'). split; [apply Hpm|].
        apply (Psub l HP). eapply legal_In; eauto. }
      intros [[[l2 t2] c2] r2] _ [Hwf2 [HP2 Hc2]]. apply IH; cbn [rt_common rt_visited]; auto. intros w [].
    + apply IH; cbn [rt_common rt_visited]; auto. intros w Hw. apply in_app_iff in Hw. destruct Hw as [Hw|[<-|[]]]; auto.
Qed.

Lemma reactive_component_any maxit k1 k2 l s r : wf g l -> P l -> c_ok obj attr (rt_common s) -> vis_ok (rt_visited s) ->
  post anyexn True (reactive_component obj g maxit k1 k2 l attr s r)
    (fun '(l', s', _) => wf g l' /\ P l').
Proof.
  intros Hwf HP Hc Hvis. unfold reactive_component. destruct (Nat.eqb _ 1); [cbn [post]; auto|].
  eapply post_bind; [apply reactive_loop_any; auto|]. intros [[[l' s'] ls] r'] _ [Hvis' Hls].
  unfold reactive_result. destruct ls as [|l1].
  - assert (Hrev : forall w, In w (rev (rt_visited s')) -> wf g w /\ P w) by (intros w Hw; apply Hvis', in_rev; auto).
    destruct (rev (rt_visited s')) as [|w1 [|w2 t]]; cbn [bind post]; [exact I| |]; apply Hrev; cbn; auto.
  - cbn [bind post]. auto.
Qed.
End Inv.

(** ** exact objectives: the number of regions is kept *)
Section Exact.
Hypothesis Hex : exact_objective obj attr.
Notation I := (keep_I obj attr labels0).
Notation val l := (value obj attr l).

Lemma legal_step l a r q : wf g l -> I l -> legal_move g l a r -> update a r l = Ok q -> (q <= 0)%Q ->
  wf g (upd l a r) /\ I (upd l a r) /\ (val (upd l a r) <= val l)%Q.
Proof.
  intros Hwf HI Hl Eq Hq. pose proof (legal_upd g l a r Hwf Hl) as [Hwf' _]. split; [auto|].
  pose proof Hwf as [Hlen _]. pose proof (legal_lt g _ _ _ Hl) as Ha. split.
  - apply (keep_step obj attr g Hattr labels0 l a r q); auto; [eapply legal_In; eauto|]. destruct (legal_keep attr g Hattr l a r Hlen Hl); auto.
  - pose proof Hex as [_ [_ Hup]]. destruct (Hup a r l q ltac:(lia) ltac:(lia) Eq) as [v [v' [Ev [Ev' Hd]]]].
    unfold value. rewrite Ev, Ev'. lra.
Qed.

(** visited solutions are the current one or were worse *)
Definition seen (start : option Q) (l : list Z) (visited : list (list Z)) : Prop :=
  match start with
  | None => visited = []
  | Some x => forall w, In w visited -> w = l \/ (x <= val w)%Q
  end.

Lemma visits_In visited l : Nat.ltb 0 (visits visited l) = true -> In l visited.
Proof.
  intros H. apply Nat.ltb_lt in H. unfold visits in H. induction visited as [|v t IH]; cbn in H; [lia|].
  destruct (list_eq_dec Z.eq_dec v l) as [->|Hn]; [left; auto|right].
  unfold same_solution in *. destruct (list_eq_dec Z.eq_dec v l); [congruence|]. auto.
Qed.

Lemma reactive_loop_exact k1 k2 : forall maxit start ls l tabu s r, wf g l -> I l ->
  c_ok obj attr (rt_common s) -> vis_ok I (rt_visited s) -> seen start l (rt_visited s) -> (rt_avg s == 1)%Q ->
  match ls with Step10 => True | Step11 l => wf g l /\ I l end ->
  post anyexn True (reactive_loop obj g maxit k1 k2 attr start ls l tabu s r)
    (fun '(l', s', ls', _) => vis_ok I (rt_visited s') /\
       match ls' with Step10 => True | Step11 l => wf g l /\ I l end).
Proof.
  induction maxit as [|maxit IH]; intros start ls l tabu s r Hwf HI Hc Hvis Hseen Havg Hls; cbn [reactive_loop].
  - cbn [post]. auto.
  - eapply post_bind; [apply anyexn_post|]. intros v Ev _.
    destruct (negb _) eqn:Eneg; [cbn [post]; auto|]. apply negb_false_iff in Eneg.
    eapply post_bind; [apply best_of_any|]. intros best _ Hbest.
    destruct best as [[[m i] q]|]; [|exact Logic.I]. destruct Hbest as [Hn [Eq Hmin]].
    assert (Hpm : forall m, In m (possible_moves g l tabu) -> legal_move g l (mv_area m) (mv_new m)).
    { intros m' Hm. apply (possible_moves_sound g l tabu m' Hwf) in Hm. tauto. }
    pose proof (Hpm m (nth_error_In _ _ Hn)) as Hl.
    eapply post_bind; [apply (try_any m l tabu (rt_common s) Hwf Hc); apply Hl|].
    intros [[l1 t1] c1] _ [Hc1 Hl1].
    assert (H1 : wf g l1 /\ I l1 /\ (val l1 <= val l)%Q).
    { destruct Hl1 as [->|[q' [Eq' [Hq' [Hwf' ->]]]]]; [split; [auto|]; split; [auto|lra]|]. eapply legal_step; eauto. }
    destruct H1 as [Hwf1 [HI1 Hv1]].
    assert (Hval : val l = v) by (unfold value; rewrite Ev; reflexivity). rewrite Hval in Hv1.
    destruct (Nat.ltb 0 (visits (rt_visited s) l1) && _) eqn:Evis.
    + apply andb_true_iff in Evis. destruct Evis as [Evis _]. apply visits_In in Evis.
      assert (l1 = l) as ->.
      { unfold seen in Hseen. destruct start as [x|]; [|rewrite Hseen in Evis; destruct Evis].
        destruct (Hseen l1 Evis) as [H|H]; [auto|]. apply Qltb_lt in Eneg. exfalso. lra. }
      destruct (Nat.leb _ _); [|exact Logic.I].
      assert (Hp : Z.to_nat (Qround.Qfloor (1 + rt_avg s / 2)) = 1).
      { rewrite Havg. reflexivity. }
      rewrite Hp. cbn [random_moves].
      eapply post_bind with (P := fun '(l2, _, c2, _) => wf g l2 /\ I l2 /\ c_ok obj attr c2).
      { eapply post_bind; [apply pop_randomly_post|]. intros [[m' moves'] r1] _ [Hin _].
        apply remove_nth_In in Hin. specialize (Hpm m' Hin).
        eapply post_bind; [apply (try_any m' l t1 c1 Hwf Hc1); apply Hpm|]. intros [[l2 t2] c2] _ [Hc2 Hl2].
        cbn [post]. destruct Hl2 as [->|[q' [Eq' [Hq' [Hwf' ->]]]]]; [auto|]. split; [auto|]. split; [|auto].
        eapply legal_step; eauto. }
      intros [[[l2 t2] c2] r2] _ [Hwf2 [HI2 Hc2]]. apply IH; cbn [rt_common rt_visited rt_avg]; auto.
      * intros w [].
      * intros w [].
    + apply IH; cbn [rt_common rt_visited rt_avg]; auto.
      * intros w Hw. apply in_app_iff in Hw. destruct Hw as [Hw|[<-|[]]]; auto.
      * cbn [seen]. intros w Hw. apply in_app_iff in Hw. destruct Hw as [Hw|[<-|[]]]; [right|left; auto].
        destruct start as [x|]; cbn [seen] in Hseen; [|rewrite Hseen in Hw; destruct Hw].
        destruct (Hseen w Hw) as [->|H]; [rewrite Hval; lra|]. apply Qltb_lt in Eneg. lra.
Qed.

Lemma reactive_component_exact maxit k1 k2 s r : wf g labels0 -> c_ok obj attr (rt_common s) ->
  rt_visited s = [] -> (rt_avg s == 1)%Q ->
  post anyexn True (reactive_component obj g maxit k1 k2 labels0 attr s r)
    (fun '(l', s', _) => wf g l' /\ I l').
Proof.
  intros Hwf Hc Hvis Havg.
  assert (HI : I labels0) by (split; [intros z; tauto|apply (no_worse_refl obj attr g); auto; apply Hwf]).
  unfold reactive_component. destruct (Nat.eqb _ 1); [cbn [post]; auto|].
  eapply post_bind; [apply reactive_loop_exact; auto|].
  { rewrite Hvis. intros w []. }
  intros [[[l' s'] ls] r'] _ [Hvis' Hls].
  unfold reactive_result. destruct ls as [|l1].
  - assert (Hrev : forall w, In w (rev (rt_visited s')) -> wf g w /\ I w) by (intros w Hw; apply Hvis', in_rev; auto).
    destruct (rev (rt_visited s')) as [|w1 [|w2 t]]; cbn [bind post]; [exact Logic.I| |]; apply Hrev; cbn; auto.
  - cbn [bind post]. auto.
Qed.
(** With k1 >= 1 a fresh object never gets to steps 8 and 11: the only exception left is the
    missing best move. *)
Definition no_best (e : exn) : Prop := e = AttributeError.

Lemma legal_update_Ok l a r : wf g l -> legal_move g l a r -> exists q, update a r l = Ok q.
Proof.
  intros Hwf Hl. pose proof Hex as [_ [Hup _]]. pose proof Hwf as [Hlen _].
  destruct (legal_mate g l a r Hwf Hl) as [Hin Hm]. pose proof (legal_lt g _ _ _ Hl). apply Hup; auto; lia.
Qed.

Lemma try_legal m l tabu c : wf g l -> c_ok obj attr c -> legal_move g l (mv_area m) (mv_new m) ->
  post no_best False (try_move g (Some 1) m l tabu c)
    (fun '(l', _, c') => c_ok obj attr c' /\ (l' = l \/ exists q, update (mv_area m) (mv_new m) l = Ok q /\ (q <= 0)%Q /\
        wf g (upd l (mv_area m) (mv_new m)) /\ l' = upd l (mv_area m) (mv_new m))).
Proof.
  intros Hwf Hc Hl. pose proof (try_any m l tabu c Hwf Hc (legal_lt g _ _ _ Hl)) as Hp.
  destruct (try_move g (Some 1) m l tabu c) as [[[l' t'] c']|e|] eqn:Et; [exact Hp| |]; exfalso;
    unfold try_move in Et; rewrite (azp_call_eq obj attr) in Et by auto;
    destruct (legal_update_Ok l _ _ Hwf Hl) as [q Eq]; rewrite Eq in Et; cbn [bind] in Et;
    destruct (Qle_bool q 0); cbn [bind] in Et; try discriminate;
    destruct (make_move_tabu_spec g (Some 1) (mv_area m) (mv_new m) l tabu (proj1 Hwf) (legal_lt g _ _ _ Hl)) as [b [Em _]];
    rewrite Em in Et; discriminate.
Qed.

Lemma visits_notin visited l : ~ In l visited -> visits visited l = 0.
Proof.
  intros H. destruct (visits visited l) as [|n] eqn:Ev; [auto|]. exfalso. apply H, visits_In. rewrite Ev. reflexivity.
Qed.

Lemma reactive_loop_k1 k1 k2 : 1 <= k1 -> forall maxit start ls l tabu s r, wf g l -> I l ->
  c_ok obj attr (rt_common s) -> seen start l (rt_visited s) ->
  (forall x, start = Some x -> visits (rt_visited s) l <= 1 \/ (x <= val l)%Q) ->
  (rt_visited s = [] -> start = None) ->
  ls = Step10 ->
  post no_best False (reactive_loop obj g maxit k1 k2 attr start ls l tabu s r)
    (fun '(l', s', ls', _) => ls' = Step10 /\ (rt_visited s' = [] -> maxit = 0 /\ rt_visited s = [])).
Proof.
  intros Hk. induction maxit as [|maxit IH]; intros start ls l tabu s r Hwf HI Hc Hseen Honce Hnil Hls; cbn [reactive_loop].
  - cbn [post]. auto.
  - pose proof Hex as [Hcall _]. destruct (Hcall l) as [v Ev]; [destruct Hwf; lia|]. rewrite Ev. cbn [bind].
    destruct (negb _) eqn:Eneg.
    { cbn [post]. split; [auto|]. intros Hv. specialize (Hnil Hv). subst start. discriminate. }
    apply negb_false_iff in Eneg.
    assert (Hpm : forall m, In m (possible_moves g l tabu) -> legal_move g l (mv_area m) (mv_new m)).
    { intros m' Hm. apply (possible_moves_sound g l tabu m' Hwf) in Hm. tauto. }
    eapply post_bind; [apply (best_of_post' obj attr no_best False l (possible_moves g l tabu))|].
    { intros m Hm. destruct (legal_update_Ok l _ _ Hwf (Hpm m Hm)) as [q Eq]. rewrite Eq. exact Logic.I. }
    intros best _ Hbest.
    destruct best as [[[m i] q]|]; [|reflexivity]. destruct Hbest as [Hn [Eq Hmin]].
    pose proof (Hpm m (nth_error_In _ _ Hn)) as Hl.
    eapply post_bind; [apply (try_legal m l tabu (rt_common s) Hwf Hc Hl)|].
    intros [[l1 t1] c1] _ [Hc1 Hl1].
    assert (H1 : wf g l1 /\ I l1 /\ (val l1 <= val l)%Q).
    { destruct Hl1 as [->|[q' [Eq' [Hq' [Hwf' ->]]]]]; [split; [auto|]; split; [auto|lra]|]. eapply legal_step; eauto. }
    destruct H1 as [Hwf1 [HI1 Hv1]].
    assert (Hval : val l = v) by (unfold value; rewrite Ev; reflexivity). rewrite Hval in Hv1.
    assert (Hin : In l1 (rt_visited s) -> l1 = l /\ visits (rt_visited s) l1 <= 1).
    { intros Hin. unfold seen in Hseen. destruct start as [x|]; [|rewrite Hseen in Hin; destruct Hin].
      apply Qltb_lt in Eneg. assert (l1 = l) as ->. { destruct (Hseen l1 Hin) as [H|H]; [auto|exfalso; lra]. }
      split; [auto|]. destruct (Honce x eq_refl) as [H|H]; [auto|]. rewrite Hval in H. lra. }
    assert (Hfew : visits (rt_visited s) l1 <= 1).
    { destruct (in_dec (list_eq_dec Z.eq_dec) l1 (rt_visited s)) as [H|H]; [apply Hin; auto|rewrite visits_notin by auto; auto]. }
    replace (Nat.ltb k1 (visits (rt_visited s) l1)) with false by (symmetry; apply Nat.ltb_ge; lia).
    rewrite andb_false_r.
    eapply (post_weaken no_best no_best False False); [auto|auto| |
      apply IH; cbn [rt_common rt_visited rt_avg]; auto].
    + intros [[[l' s'] ls'] r'] _ [H1 H2]. split; [auto|]. cbn [rt_visited] in H2. intros Hv. apply H2 in Hv.
      destruct Hv as [_ Hv]. destruct (rt_visited s); discriminate.
    + cbn [seen]. intros w Hw. apply in_app_iff in Hw. destruct Hw as [Hw|[<-|[]]]; [right|left; auto].
      destruct start as [x|]; cbn [seen] in Hseen; [|rewrite Hseen in Hw; destruct Hw].
      destruct (Hseen w Hw) as [->|H]; [rewrite Hval; lra|]. apply Qltb_lt in Eneg. lra.
    + intros x Hx. injection Hx as <-. rewrite visits_snoc.
      destruct (list_eq_dec Z.eq_dec l1 l1) as [_|n]; [|exfalso; apply n; reflexivity].
      destruct (in_dec (list_eq_dec Z.eq_dec) l1 (rt_visited s)) as [H|H].
      * right. apply Hin in H. destruct H as [-> _]. rewrite Hval. lra.
      * left. rewrite visits_notin by auto. lia.
    + intros H. destruct (rt_visited s); discriminate.
Qed.

Lemma reactive_component_k1 maxit k1 k2 s r : wf g labels0 -> c_ok obj attr (rt_common s) ->
  rt_visited s = [] -> 1 <= k1 -> 1 <= maxit ->
  post no_best False (reactive_component obj g maxit k1 k2 labels0 attr s r) (fun _ => True).
Proof.
  intros Hwf Hc Hvis Hk Hm.
  assert (HI : I labels0) by (split; [intros z; tauto|apply (no_worse_refl obj attr g); auto; apply Hwf]).
  unfold reactive_component. destruct (Nat.eqb _ 1); [cbn [post]; auto|].
  eapply post_bind; [apply reactive_loop_k1; auto; discriminate|].
  intros [[[l' s'] ls] r'] _ [-> Hne]. cbn [reactive_result].
  destruct (rev (rt_visited s')) as [|w1 [|w2 t]] eqn:Er; cbn [bind post]; auto.
  exfalso. assert (E : rt_visited s' = []) by (rewrite <- (rev_involutive (rt_visited s')), Er; reflexivity).
  apply Hne in E. lia.
Qed.
End Exact.
End Reactive.

(** ** fit on a connected graph *)
Section Fit.
Variable O : objfun.
Variable attr : list (list Q).
Variable g : graph.
Hypothesis Hattr : length attr = gn g.
Variable order : list edge -> list edge.
Hypothesis Hord : forall l, Permutation (order l) l.
Hypothesis Hone : n_components g = 1.

Definition fresh_reactive (s : reactive) : Prop := rt_visited s = [] /\ (rt_avg s == 1)%Q.

Theorem reactive_fit_any maxit k1 k2 n_regions initial s r :
  good_input g n_regions initial -> fresh_reactive s ->
  post anyexn True (reactive_fit order O maxit k1 k2 g attr n_regions initial s r)
    (fun '((labels, _), _) => exists labels0, started_from g n_regions initial labels0 /\
       length labels = gn g /\
       forall c, c < n_components g -> wf (comp_graph g c) (comp_part g labels c) /\
         any_I O (attr_c attr g c) (comp_part g labels0 c) (comp_part g labels c)).
Proof.
  intros Hgood Hfresh. unfold reactive_fit.
  eapply (post_weaken anyexn anyexn True True); [auto|auto| |
    apply (fit_post_n reactive _ _ order g attr anyexn True (fun j s => j = 0 -> fresh_reactive s)
      (fun c l l' => wf (comp_graph g c) l' /\ any_I O (attr_c attr g c) l l'))]; auto.
  - intros [[labels s'] r'] _ [_ H]. exact H.
  - intros c l s0 rg j Hc Hj Hwf HJ. unfold run_component. fold (attr_c attr g c). unfold start_common.
    assert (Hf : fresh_reactive s0) by (apply HJ; lia). destruct Hf as [Hvis Havg].
    destruct (o_call O l (attr_c attr g c)) as [x|e|] eqn:Ex; cbn [bind post]; unfold anyexn; auto.
    pose proof (attr_c_length attr g c) as Hla.
    eapply (post_weaken anyexn anyexn True True); [auto|auto| |
      apply (reactive_component_any O (attr_c attr g c) (comp_graph g c) l
               (any_I O (attr_c attr g c) l))]; auto.
    + intros [[l' c'] r'] _ [H1 H2]. split; [discriminate|]. split; [destruct Hwf, H1; lia|auto].
    + intros l1 a z q [Hl1 _] HI Hlm Eq Hq. apply (any_step O (attr_c attr g c) (comp_graph g c) Hla l l1 a z q); auto;
        [eapply legal_lt; eauto|]. apply HI. eapply legal_In; eauto.
    + intros l1 a z q [Hl1 _] HI Ha Hz Eq Hq _. apply (any_step O (attr_c attr g c) (comp_graph g c) Hla l l1 a z q); auto.
    + intros l1 [HI _]. exact HI.
    + split; [auto|]. apply (no_worse_refl O (attr_c attr g c) (comp_graph g c) Hla); apply Hwf.
    + split; reflexivity.
    + cbn [rt_visited]. rewrite Hvis. intros w [].
Qed.

Theorem reactive_fit_exact maxit k1 k2 n_regions initial s r : exact_on O attr ->
  good_input g n_regions initial -> fresh_reactive s ->
  post anyexn True (reactive_fit order O maxit k1 k2 g attr n_regions initial s r)
    (fun '((labels, _), _) => exists labels0, started_from g n_regions initial labels0 /\
       length labels = gn g /\
       forall c, c < n_components g -> wf (comp_graph g c) (comp_part g labels c) /\
         keep_I O (attr_c attr g c) (comp_part g labels0 c) (comp_part g labels c)).
Proof.
  intros Hex Hgood Hfresh. unfold reactive_fit.
  eapply (post_weaken anyexn anyexn True True); [auto|auto| |
    apply (fit_post_n reactive _ _ order g attr anyexn True (fun j s => j = 0 -> fresh_reactive s)
      (fun c l l' => wf (comp_graph g c) l' /\ keep_I O (attr_c attr g c) l l'))]; auto.
  - intros [[labels s'] r'] _ [_ H]. exact H.
  - intros c l s0 rg j Hc Hj Hwf HJ. unfold run_component. fold (attr_c attr g c). unfold start_common.
    assert (Hf : fresh_reactive s0) by (apply HJ; lia). destruct Hf as [Hvis Havg].
    destruct (o_call O l (attr_c attr g c)) as [x|e|] eqn:Ex; cbn [bind post]; unfold anyexn; auto.
    pose proof (attr_c_length attr g c) as Hla.
    eapply (post_weaken anyexn anyexn True True); [auto|auto| |
      apply (reactive_component_exact O (attr_c attr g c) (comp_graph g c) Hla l
               (attr_c_exact O attr Hex g Hattr c))]; auto.
    + intros [[l' c'] r'] _ [H1 H2]. split; [discriminate|]. split; [destruct Hwf, H1; lia|auto].
    + split; reflexivity.
Qed.

Theorem reactive_fit_k1 maxit k1 k2 n_regions initial s r : exact_on O attr ->
  good_input g n_regions initial -> fresh_reactive s -> 1 <= k1 -> 1 <= maxit ->
  post no_best False (reactive_fit order O maxit k1 k2 g attr n_regions initial s r) (fun _ => True).
Proof.
  intros Hex Hgood Hfresh Hk Hm. unfold reactive_fit.
  eapply (post_weaken no_best no_best False False); [auto|auto| |
    apply (fit_post_n reactive _ _ order g attr no_best False (fun j s => j = 0 -> fresh_reactive s) (fun c l l' => True))]; auto.
  intros c l s0 rg j Hc Hj Hwf HJ. unfold run_component. fold (attr_c attr g c). unfold start_common.
  assert (Hf : fresh_reactive s0) by (apply HJ; lia). destruct Hf as [Hvis Havg].
  pose proof (attr_c_exact O attr Hex g Hattr c) as Hexc. pose proof (attr_c_length attr g c) as Hla.
  destruct (proj1 Hexc l) as [x Ex]; [rewrite Hla; apply Hwf|]. rewrite Ex. cbn [bind].
  set (s1 := mkReactive _ _ _ _).
  assert (Hc1 : c_ok O (attr_c attr g c) (rt_common s1)) by (split; reflexivity).
  pose proof (reactive_component_exact O (attr_c attr g c) (comp_graph g c) Hla l Hexc
    maxit k1 k2 s1 rg Hwf Hc1 Hvis Havg) as Hp1.
  pose proof (reactive_component_k1 O (attr_c attr g c) (comp_graph g c) Hla l Hexc
    maxit k1 k2 s1 rg Hwf Hc1 Hvis Hk Hm) as Hp2.
  destruct (reactive_component _ _ _ _ _ _ _ _ _) as [[[l' s'] r']|e|]; [|exact Hp2|exact Hp2].
  destruct Hp1 as [Hwf' _]. cbn [post]. split; [discriminate|]. split; [destruct Hwf, Hwf'; lia|auto].
Qed.
End Fit.
