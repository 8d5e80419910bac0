(** The tabu searches and the numbers of the areas and names of the regions. *)
From Verif Require Import Base Spec M_Graph P_Graph M_Util P_Base P_Util P_Forest P_Init P_Initial P_Skater
  M_Objective P_Sum P_Objective M_Azp P_Azp P_Strategy P_Fit P_AzpFit M_Sa P_Sa M_Tabu P_Tabu P_TabuFit P_Reactive P_Descent
  P_Zoning P_Names Props_Zoning.

(** ** AZPReactiveTabu with k1 >= 1: the reactions never set in *)
Section Quiet.
Variable obj : objfun.
Variable attr : list (list Q).
Variable g : graph.

(** [reactive_loop] (azp.py:939-1038) without steps 8 and 11 *)
Fixpoint quiet_loop (m : nat) (start : option Q) (labels : list Z) (tabu : list tmove) (c : common) (visited : list (list Z))
  : out (list Z * common * list (list Z)) :=
  match m with
  | 0 => Ok (labels, c, visited)
  | S m' =>
      let* v := o_call obj labels attr in
      if negb (match start with None => true | Some x => Qltb v x end) then Ok (labels, c, visited)
      else
        let* best := best_of obj attr labels 0 (possible_moves g labels tabu) None in
        match best with
        | None => Raise AttributeError
        | Some (mv, _, _) =>
            let* '(labels1, tabu1, c1) := try_move g (Some 1) mv labels tabu c in
            quiet_loop m' (Some v) labels1 tabu1 c1 (visited ++ [labels1])
        end
  end.

Hypothesis Hsym : symmetric g.
Hypothesis Hattr : length attr = gn g.
Hypothesis Hex : exact_objective obj attr.
Notation val l := (value obj attr l).

Definition calm (start : option Q) (l : list Z) (visited : list (list Z)) : Prop :=
  match start with
  | None => visited = []
  | Some x => (forall w, In w visited -> w = l \/ (x <= val w)%Q) /\ (visits visited l <= 1 \/ (x <= val l)%Q)
  end.

Lemma reactive_quiet k1 k2 : 1 <= k1 -> forall m start l tabu s r, wf g l -> c_ok obj attr (rt_common s) ->
  calm start l (rt_visited s) ->
  reactive_loop obj g m k1 k2 attr start Step10 l tabu s r =
  let* '(l', c', v') := quiet_loop m start l tabu (rt_common s) (rt_visited s) in
  Ok (l', mkReactive c' (rt_avg s) (rt_reps s) v', Step10, r).
Proof.
  intros Hk. induction m as [|m IH]; intros start l tabu s r Hwf Hc Ha; cbn [reactive_loop quiet_loop bind].
  { destruct s; reflexivity. }
  rewrite (call_val obj attr g Hattr Hex l (proj1 Hwf)). cbn [bind].
  destruct (negb _) eqn:Eneg; [destruct s; reflexivity|]. apply negb_false_iff in Eneg.
  pose proof (best_of_post' obj attr (fun _ => False) False l (possible_moves g l tabu)) as Hbest.
  assert (Hpm : forall m, In m (possible_moves g l tabu) -> legal_move g l (mv_area m) (mv_new m)).
  { intros m' Hm. apply (possible_moves_spec g l tabu m' Hsym Hwf) in Hm. tauto. }
  destruct (best_of obj attr l 0 _ None) as [[[[mv i] q]|]|e|]; cbn [bind]; try reflexivity.
  assert (Hb : is_best obj attr l (possible_moves g l tabu) (Some (mv, i, q))).
  { apply Hbest. intros m' Hm. destruct (update_val obj attr g Hattr Hex l _ _ Hwf (Hpm m' Hm)) as [q' [-> _]]. exact Logic.I. }
  destruct Hb as [Hn [Eq _]]. pose proof (Hpm mv (nth_error_In _ _ Hn)) as Hl.
  destruct (update_val obj attr g Hattr Hex l _ _ Hwf Hl) as [q' [Eq' Hq]]. rewrite Eq in Eq'. injection Eq' as <-.
  destruct (try_value obj attr g Hattr l mv tabu (rt_common s) q Hwf Hc Hl Eq) as [c1 [Hc1 Et]]. rewrite Et. cbn [bind].
  set (o := if Qle_bool q 0 then _ else _).
  assert (Ho : exists l1 t1, o = (l1, t1, c1) /\ wf g l1 /\ (val l1 <= val l)%Q).
  { unfold o. destruct (Qle_bool q 0) eqn:El.
    - apply Qle_bool_iff in El. eexists _, _. split; [reflexivity|]. split; [apply legal_upd; auto|lra].
    - exists l, tabu. split; [reflexivity|]. split; [auto|lra]. }
  destruct Ho as [l1 [t1 [-> [Hwf1 Hv1]]]]. clear Et.
  assert (Hin : In l1 (rt_visited s) -> l1 = l /\ visits (rt_visited s) l1 <= 1).
  { intros Hin. unfold calm in Ha. destruct start as [x|]; [|rewrite Ha in Hin; destruct Hin].
    destruct Ha as [Hseen Hfew]. apply Qltb_lt in Eneg.
    assert (l1 = l) as ->. { destruct (Hseen l1 Hin) as [H|H]; [auto|exfalso; lra]. }
    split; [auto|]. destruct Hfew; [auto|exfalso; lra]. }
  assert (Hfew : visits (rt_visited s) l1 <= 1).
  { destruct (in_dec (list_eq_dec Z.eq_dec) l1 (rt_visited s)) as [H|H]; [apply Hin; auto|rewrite (visits_notin attr g Hattr) by auto; auto]. }
  replace (Nat.ltb k1 (visits (rt_visited s) l1)) with false by (symmetry; apply Nat.ltb_ge; lia).
  rewrite andb_false_r. rewrite IH; cbn [rt_common rt_visited rt_avg rt_reps]; auto.
  split.
  - intros w Hw. apply in_app_iff in Hw. destruct Hw as [Hw|[<-|[]]]; [right|left; auto].
    unfold calm in Ha. destruct start as [x|]; [|rewrite Ha in Hw; destruct Hw].
    destruct (proj1 Ha w Hw) as [->|H]; [lra|]. apply Qltb_lt in Eneg. lra.
  - rewrite visits_snoc. destruct (list_eq_dec Z.eq_dec l1 l1) as [_|n]; [|exfalso; apply n; reflexivity].
    destruct (in_dec (list_eq_dec Z.eq_dec) l1 (rt_visited s)) as [H|H].
    + right. apply Hin in H. destruct H as [-> _]. lra.
    + left. rewrite (visits_notin attr g Hattr) by auto. lia.
Qed.

(** azp.py:930-1046 without steps 8 and 11 *)
Definition quiet_component (m : nat) (l : list Z) (c : common) : out (list Z) :=
  if Nat.eqb (length (uniqueZ l)) 1 then Ok l
  else let* '(_, _, v) := quiet_loop m None l [] c [] in reactive_result Step10 v.

Lemma reactive_component_quiet m k1 k2 l s r : 1 <= k1 -> wf g l -> c_ok obj attr (rt_common s) -> rt_visited s = [] ->
  rel (fun x y => fst (fst x) = y) (reactive_component obj g m k1 k2 l attr s r) (quiet_component m l (rt_common s)).
Proof.
  intros Hk Hwf Hc Hv. unfold reactive_component, quiet_component. destruct (Nat.eqb _ 1); [reflexivity|].
  rewrite (reactive_quiet k1 k2 Hk m None l [] s r Hwf Hc Hv), Hv.
  destruct (quiet_loop _ _ _ _ _ _) as [[[l' c'] v']|e|]; cbn [bind]; try reflexivity.
  cbn [rt_visited]. destruct (reactive_result Step10 v'); cbn; auto.
Qed.
End Quiet.

Section Sim.
Variables (f h : nat -> nat) (s t : Z -> Z) (U U' : list Z) (g g' : graph) (attr attr' : list (list Q)).
Hypothesis Htw : twins f h s t U U' g g' attr attr'.
Variable O : objfun.
Hypothesis Hsym : symmetric g.
Hypothesis Hsym' : symmetric g'.
Hypothesis Hattr : length attr = gn g.
Hypothesis Hattr' : length attr' = gn g'.
Hypothesis Hex : exact_objective O attr.
Hypothesis Hex' : exact_objective O attr'.
Notation lr := (lrel f s U g).
Hypothesis Hupd : forall l l' a K, lr l l' -> a < gn g -> In K U ->
  rel Qeq (o_update O a K l attr) (o_update O (h a) (s K) l' attr').
Hypothesis Hriv : forall l a z b y q q', wf g l -> (forall x, In x l -> In x U) -> legal_move g l a z -> legal_move g l b y ->
  o_update O a z l attr = Ok q -> o_update O b y l attr = Ok q' -> (q == q')%Q -> a = b /\ z = y.

Lemma tn : gn g' = gn g. Proof. exact (tw_n _ _ _ _ _ _ _ _ _ _ Htw). Qed.
Lemma th a : a < gn g -> h a < gn g /\ f (h a) = a. Proof. exact (tw_h _ _ _ _ _ _ _ _ _ _ Htw a). Qed.
Lemma tf a : a < gn g -> f a < gn g /\ h (f a) = a. Proof. exact (tw_f _ _ _ _ _ _ _ _ _ _ Htw a). Qed.
Lemma ts z : In z U -> In (s z) U' /\ t (s z) = z. Proof. exact (tw_s _ _ _ _ _ _ _ _ _ _ Htw z). Qed.
Lemma tt' z : In z U' -> In (t z) U /\ s (t z) = z. Proof. exact (tw_t _ _ _ _ _ _ _ _ _ _ Htw z). Qed.

Lemma s_inj x y : In x U -> In y U -> s x = s y -> x = y.
Proof. intros Hx Hy E. destruct (ts x Hx) as [_ E1]. destruct (ts y Hy) as [_ E2]. congruence. Qed.
Lemma h_inj a b : a < gn g -> b < gn g -> h a = h b -> a = b.
Proof. intros Ha Hb E. destruct (th a Ha) as [_ E1]. destruct (th b Hb) as [_ E2]. congruence. Qed.

Lemma lr_fun l l1 l2 : lr l l1 -> lr l l2 -> l1 = l2.
Proof.
  intros [_ [L1 [_ H1]]] [_ [L2 [_ H2]]]. apply list_of_labs; [lia|]. intros i Hi. rewrite H1, H2 by lia. reflexivity.
Qed.
Lemma lr_inj l1 l2 l : lr l1 l -> lr l2 l -> l1 = l2.
Proof.
  intros [L1 [_ [I1 H1]]] [L2 [_ [I2 H2]]]. apply list_of_labs; [lia|]. intros i Hi.
  destruct (th i ltac:(lia)) as [Hh E]. apply s_inj; [apply I1, lab_in; lia|apply I2, lab_in; lia|].
  rewrite <- E. rewrite <- H1, <- H2 by auto. reflexivity.
Qed.
Lemma lr_wf l l' : lr l l' -> wf g l -> wf g' l'.
Proof.
  intros Hr [Hl Hall].
  destruct (twin_valid f h s t U U' g g' attr attr' l l' (n_labels l) Htw Hr) as [H1 [_ H2]]; [split; [auto|split; auto]|]. split; auto.
Qed.
Lemma lr_lab l l' a : lr l l' -> a < gn g -> lab l' (h a) = s (lab l a).
Proof. intros [_ [_ [_ H]]] Ha. destruct (th a Ha) as [H1 H2]. rewrite H, H2 by auto. reflexivity. Qed.
Lemma lr_legal l l' a z : lr l l' -> In z U -> legal_move g l a z -> legal_move g' l' (h a) (s z).
Proof.
  intros Hr Hz Hl. apply (twin_legal h f t s U' U g' g attr' attr (twins_sym _ _ _ _ _ _ _ _ _ _ Htw) l' l); auto.
  apply (lrel_sym _ _ _ _ _ _ _ _ _ _ Htw); auto.
Qed.
Lemma lr_legal' l l' a z : lr l l' -> In z U' -> legal_move g' l' a z -> legal_move g l (f a) (t z).
Proof. intros Hr Hz Hl. eapply twin_legal; eauto. Qed.

(** ** moves *)
Definition mrel (m m' : tmove) : Prop :=
  mv_area m < gn g /\ In (mv_old m) U /\ In (mv_new m) U /\
  mv_area m' = h (mv_area m) /\ mv_old m' = s (mv_old m) /\ mv_new m' = s (mv_new m).

Lemma mrel_eqb m1 m1' m2 m2' : mrel m1 m1' -> mrel m2 m2' -> tmove_eqb m1' m2' = tmove_eqb m1 m2.
Proof.
  intros [A1 [B1 [C1 [D1 [E1 F1]]]]] [A2 [B2 [C2 [D2 [E2 F2]]]]]. unfold tmove_eqb. rewrite D1, E1, F1, D2, E2, F2.
  f_equal; [f_equal|]; apply eq_true_iff_eq.
  - rewrite !Nat.eqb_eq. split; [apply h_inj; auto|congruence].
  - rewrite !Z.eqb_eq. split; [apply s_inj; auto|congruence].
  - rewrite !Z.eqb_eq. split; [apply s_inj; auto|congruence].
Qed.
Lemma mrel_tabu m m' tabu tabu' : mrel m m' -> Forall2 mrel tabu tabu' -> in_tabu m' tabu' = in_tabu m tabu.
Proof.
  intros Hm. induction 1 as [|x x' l l' Hx Hl IH]; [reflexivity|]. cbn [in_tabu existsb] in *.
  rewrite (mrel_eqb m m' x x') by auto. f_equal. exact IH.
Qed.
Lemma Forall2_skipn {A B} (R : A -> B -> Prop) n : forall x y, Forall2 R x y -> Forall2 R (skipn n x) (skipn n y).
Proof. induction n as [|n IH]; intros x y H; [exact H|]. destruct H; cbn [skipn]; [constructor|auto]. Qed.
Lemma Forall2_same_length {A B} (R : A -> B -> Prop) x y : Forall2 R x y -> length x = length y.
Proof. induction 1; cbn; auto. Qed.
Lemma mrel_deque maxlen m m' tabu tabu' : mrel m m' -> Forall2 mrel tabu tabu' ->
  Forall2 mrel (deque_append maxlen m tabu) (deque_append maxlen m' tabu').
Proof.
  intros Hm Ht. assert (H : Forall2 mrel (tabu ++ [m]) (tabu' ++ [m'])) by (apply Forall2_app; auto).
  unfold deque_append. destruct maxlen as [n|]; [|exact H].
  rewrite (Forall2_same_length _ _ _ H). apply Forall2_skipn. exact H.
Qed.

Lemma move_there l l' tabu tabu' m : wf g l -> lr l l' -> Forall2 mrel tabu tabu' -> In m (possible_moves g l tabu) ->
  exists m', mrel m m' /\ In m' (possible_moves g' l' tabu').
Proof.
  intros Hwf Hr Ht Hm. apply (possible_moves_spec g l tabu m Hsym Hwf) in Hm. destruct Hm as [Hl [Ho Hn]].
  pose proof Hr as [Hlen [_ [Hin _]]].
  assert (Hz : In (mv_new m) U) by (apply Hin; eapply legal_In; eauto).
  pose proof (legal_lt g _ _ _ Hl) as Ha.
  assert (Hmr : mrel m (mkMove (h (mv_area m)) (s (mv_old m)) (s (mv_new m)))).
  { split; [auto|]. split; [rewrite Ho; apply Hin, lab_in; lia|]. cbn. auto. }
  exists (mkMove (h (mv_area m)) (s (mv_old m)) (s (mv_new m))). split; [exact Hmr|].
  apply (possible_moves_spec g' l' tabu' _ Hsym' (lr_wf l l' Hr Hwf)). cbn [mv_area mv_old mv_new].
  split; [eapply lr_legal; eauto|]. split; [rewrite (lr_lab l l'), Ho by auto; reflexivity|].
  rewrite (mrel_tabu _ _ _ _ Hmr Ht). exact Hn.
Qed.
Lemma move_back l l' tabu tabu' m' : wf g l -> lr l l' -> Forall2 mrel tabu tabu' -> In m' (possible_moves g' l' tabu') ->
  exists m, mrel m m' /\ In m (possible_moves g l tabu).
Proof.
  intros Hwf Hr Ht Hm. apply (possible_moves_spec g' l' tabu' m' Hsym' (lr_wf l l' Hr Hwf)) in Hm. destruct Hm as [Hl [Ho Hn]].
  pose proof (lrel_sym _ _ _ _ _ _ _ _ _ _ Htw l l' Hr) as [Hlen' [Hlen [Hin' _]]]. pose proof tn as Hgn.
  assert (Hz : In (mv_new m') U') by (apply Hin'; eapply legal_In; eauto).
  pose proof (legal_lt g' _ _ _ Hl) as Ha. rewrite Hgn in Ha.
  assert (Hoz : In (mv_old m') U') by (rewrite Ho; apply Hin', lab_in; lia).
  destruct (tf _ Ha) as [Hf1 Hf2]. destruct (tt' _ Hz) as [Hz1 Hz2]. destruct (tt' _ Hoz) as [Ho1 Ho2].
  assert (Hmr : mrel (mkMove (f (mv_area m')) (t (mv_old m')) (t (mv_new m'))) m').
  { split; [auto|]. cbn. repeat (split; [auto; fail|]). auto. }
  exists (mkMove (f (mv_area m')) (t (mv_old m')) (t (mv_new m'))). split; [exact Hmr|].
  apply (possible_moves_spec g l tabu _ Hsym Hwf). cbn [mv_area mv_old mv_new].
  split; [eapply lr_legal'; eauto|]. split.
  - rewrite Ho. rewrite <- Hf2 at 1. rewrite (lr_lab l l') by auto. apply ts. destruct Hr as [L [_ [I _]]]. apply I, lab_in. lia.
  - rewrite <- (mrel_tabu _ _ _ _ Hmr Ht). exact Hn.
Qed.

Lemma same_move m m1 m2 l : mv_area m1 = mv_area m2 /\ mv_new m1 = mv_new m2 -> mv_old m1 = lab l (mv_area m1) ->
  mv_old m2 = lab l (mv_area m2) -> mrel m1 m -> mrel m2 m.
Proof.
  destruct m1, m2; cbn. intros [-> ->] -> ->. auto.
Qed.

(** the best move *)
Definition brel (l : list Z) (b b' : option (tmove * nat * Q)) : Prop :=
  match b, b' with
  | None, None => True
  | Some (m, _, q), Some (m', _, q') => mrel m m' /\ (q == q')%Q /\ legal_move g l (mv_area m) (mv_new m)
  | _, _ => False
  end.

Lemma best_rel l l' tabu tabu' : wf g l -> lr l l' -> Forall2 mrel tabu tabu' ->
  rel (brel l) (best_of O attr l 0 (possible_moves g l tabu) None) (best_of O attr' l' 0 (possible_moves g' l' tabu') None).
Proof.
  intros Hwf Hr Ht. pose proof (lr_wf l l' Hr Hwf) as Hwf'.
  assert (Hlm : forall m, In m (possible_moves g l tabu) -> legal_move g l (mv_area m) (mv_new m) /\ mv_old m = lab l (mv_area m)).
  { intros m Hm. apply (possible_moves_spec g l tabu m Hsym Hwf) in Hm. tauto. }
  assert (Hlm' : forall m, In m (possible_moves g' l' tabu') -> legal_move g' l' (mv_area m) (mv_new m)).
  { intros m Hm. apply (possible_moves_spec g' l' tabu' m Hsym' Hwf') in Hm. tauto. }
  assert (H1 : post (fun _ => False) False (best_of O attr l 0 (possible_moves g l tabu) None) (is_best O attr l (possible_moves g l tabu))).
  { apply best_of_post'. intros m Hm. destruct (update_val O attr g Hattr Hex l _ _ Hwf (proj1 (Hlm m Hm))) as [q [-> _]]. exact Logic.I. }
  assert (H2 : post (fun _ => False) False (best_of O attr' l' 0 (possible_moves g' l' tabu') None) (is_best O attr' l' (possible_moves g' l' tabu'))).
  { apply best_of_post'. intros m Hm. destruct (update_val O attr' g' Hattr' Hex' l' _ _ Hwf' (Hlm' m Hm)) as [q [-> _]]. exact Logic.I. }
  destruct (best_of O attr l 0 _ None) as [b|e|]; [|destruct H1|destruct H1].
  destruct (best_of O attr' l' 0 _ None) as [b'|e|]; [|destruct H2|destruct H2]. cbn [rel post] in *.
  destruct b as [[[m i] q]|], b' as [[[m' i'] q']|]; cbn [brel is_best] in *.
  - destruct H1 as [N1 [E1 M1]], H2 as [N2 [E2 M2]]. apply nth_error_In in N1. apply nth_error_In in N2.
    destruct (move_there l l' tabu tabu' m Hwf Hr Ht N1) as [n' [Hn' Hin']].
    destruct (move_back l l' tabu tabu' m' Hwf Hr Ht N2) as [n [Hn Hin]].
    assert (Hup : forall x x', mrel x x' -> rel Qeq (o_update O (mv_area x) (mv_new x) l attr) (o_update O (mv_area x') (mv_new x') l' attr')).
    { intros x x' [A [B [C [D [E F]]]]]. rewrite D, F. apply Hupd; auto. }
    pose proof (Hup _ _ Hn') as U1. rewrite E1 in U1. destruct (o_update O (mv_area n') _ l' attr') as [q1|?|] eqn:Q1; cbn in U1; try contradiction.
    pose proof (Hup _ _ Hn) as U2. rewrite E2 in U2. destruct (o_update O (mv_area n) _ l attr) as [q2|?|] eqn:Q2; cbn in U2; try contradiction.
    pose proof (M1 n q2 Hin Q2). pose proof (M2 n' q1 Hin' Q1). assert (Eq : (q == q')%Q) by lra.
    assert (Hs : mv_area n = mv_area m /\ mv_new n = mv_new m).
    { apply (Hriv l _ _ _ _ q2 q Hwf); auto; try apply Hlm; auto; [apply Hr|lra]. }
    split; [|split; [exact Eq|apply Hlm; auto]]. apply (same_move m' n m l); auto; apply Hlm; auto.
  - destruct H1 as [N1 _]. apply nth_error_In in N1. destruct (move_there l l' tabu tabu' m Hwf Hr Ht N1) as [n' [_ Hin']].
    rewrite H2 in Hin'. destruct Hin'.
  - destruct H2 as [N2 _]. apply nth_error_In in N2. destruct (move_back l l' tabu tabu' m' Hwf Hr Ht N2) as [n [_ Hin]].
    rewrite H1 in Hin. destruct Hin.
  - exact Logic.I.
Qed.

(** carrying out a move *)
Definition crel (c c' : common) : Prop := c_ok O attr c /\ c_ok O attr' c'.
Lemma call_rel c c' m m' l l' : crel c c' -> lr l l' -> mrel m m' ->
  rel (fun x x' => fst x = fst x' /\ crel (snd x) (snd x')) (azp_call c (mv_area m) (mv_new m) l) (azp_call c' (mv_area m') (mv_new m') l').
Proof.
  intros [Hc Hc'] Hr [A [B [C [D [E F]]]]]. rewrite (azp_call_eq O attr), (azp_call_eq O attr') by auto. rewrite D, F.
  eapply rel_bind; [apply Hupd; eauto|]. intros q q' _ _ Hq.
  assert (Eb : Qle_bool q 0 = Qle_bool q' 0).
  { apply eq_true_iff_eq. rewrite !Qle_bool_iff. split; intros; lra. }
  rewrite <- Eb. destruct (Qle_bool q 0); cbn; unfold crel, c_ok in *; cbn; auto.
Qed.

Definition srel (x x' : list Z * list tmove * common) : Prop :=
  let '(l, tabu, c) := x in let '(l', tabu', c') := x' in
  lr l l' /\ wf g l /\ Forall2 mrel tabu tabu' /\ crel c c'.

Lemma make_rel maxlen m m' l l' tabu tabu' : wf g l -> lr l l' -> Forall2 mrel tabu tabu' -> mrel m m' ->
  rel (fun x x' => let '(l1, t1, _) := x in let '(l1', t1', _) := x' in lr l1 l1' /\ wf g l1 /\ Forall2 mrel t1 t1')
    (make_move_tabu g maxlen (mv_area m) (mv_new m) l tabu) (make_move_tabu g' maxlen (mv_area m') (mv_new m') l' tabu').
Proof.
  intros Hwf Hr Ht [A [B [C [D [E F]]]]]. pose proof tn as Hgn. rewrite D, F. destruct (th _ A) as [A1 A2].
  pose proof Hr as [L [L' [I _]]].
  destruct (make_move_tabu_spec g maxlen (mv_area m) (mv_new m) l tabu L A) as [b [Eb Hb]].
  destruct (make_move_tabu_spec g' maxlen (h (mv_area m)) (s (mv_new m)) l' tabu') as [b' [Eb' Hb']]; [lia|lia|].
  rewrite Eb, Eb'. cbn [rel].
  assert (Hup : lr (upd l (mv_area m) (mv_new m)) (upd l' (h (mv_area m)) (s (mv_new m)))) by (eapply lrel_upd; eauto).
  assert (Ebb : b = b').
  { apply eq_true_iff_eq. rewrite Hb, Hb'. split; intros Hall.
    - apply (lr_wf _ _ Hup). split; [rewrite upd_length; auto|auto].
    - assert (Hw : wf g' (upd l' (h (mv_area m)) (s (mv_new m)))) by (split; [rewrite upd_length; lia|auto]).
      destruct (twin_valid h f t s U' U g' g attr' attr _ _ (n_labels (upd l' (h (mv_area m)) (s (mv_new m))))
        (twins_sym _ _ _ _ _ _ _ _ _ _ Htw) (lrel_sym _ _ _ _ _ _ _ _ _ _ Htw _ _ Hup)) as [_ [_ H2]]; auto.
      split; [apply Hw|split; auto]. }
  subst b'. assert (Hold : In (lab l (mv_area m)) U) by (apply I, lab_in; lia).
  assert (Hd : Forall2 mrel (deque_append maxlen (mkMove (mv_area m) (mv_new m) (lab l (mv_area m))) tabu)
                 (deque_append maxlen (mkMove (h (mv_area m)) (s (mv_new m)) (lab l' (h (mv_area m)))) tabu')).
  { apply mrel_deque; auto. split; [auto|]. cbn. rewrite (lr_lab l l') by auto. auto. }
  destruct b; [|auto]. split; [auto|]. split; [|auto]. split; [rewrite upd_length; auto|apply Hb; auto].
Qed.

Lemma try_rel maxlen m m' l l' tabu tabu' c c' : wf g l -> lr l l' -> Forall2 mrel tabu tabu' -> crel c c' -> mrel m m' ->
  rel srel (try_move g maxlen m l tabu c) (try_move g' maxlen m' l' tabu' c').
Proof.
  intros Hwf Hr Ht Hc Hm. unfold try_move. eapply rel_bind; [apply call_rel; eauto|].
  intros [ok c1] [ok' c1'] _ _ [Eok Hc1]. cbn in Eok, Hc1. subst ok'. destruct ok; [|cbn; auto].
  eapply rel_bind; [apply make_rel; eauto|]. intros [[l1 t1] b] [[l1' t1'] b'] _ _ [H1 [H2 H3]]. cbn. auto.
Qed.

Lemma tabus_rel l l' tabu tabu' : lr l l' -> Forall2 mrel tabu tabu' ->
  rel (Forall2 mrel) (improving_tabus O attr l tabu) (improving_tabus O attr' l' tabu').
Proof.
  intros Hr. induction 1 as [|m m' tabu tabu' Hm Ht IH]; cbn [improving_tabus]; [constructor|].
  pose proof Hm as [A [B [C [D [E F]]]]]. pose proof Hr as [L [_ [I _]]].
  assert (Eb : Z.eqb (lab l' (mv_area m')) (mv_old m') = Z.eqb (lab l (mv_area m)) (mv_old m)).
  { apply eq_true_iff_eq. rewrite !Z.eqb_eq, D, E, (lr_lab l l') by auto. split; [|congruence].
    apply s_inj; auto. apply I, lab_in. lia. }
  rewrite Eb. destruct (Z.eqb (lab l (mv_area m)) (mv_old m)); [|exact IH].
  eapply rel_bind; [rewrite D, F; apply Hupd; eauto|]. intros q q' _ _ Hq.
  eapply rel_bind; [exact IH|]. intros x x' _ _ Hx. cbn [rel].
  assert (El : Qltb q 0 = Qltb q' 0) by (apply eq_true_iff_eq; rewrite !Qltb_lt; split; intros; lra).
  rewrite <- El. destruct (Qltb q 0); auto.
Qed.

Lemma Forall2_nth_error {A B} (R : A -> B -> Prop) x y : Forall2 R x y -> forall i,
  match nth_error x i, nth_error y i with Some a, Some b => R a b | None, None => True | _, _ => False end.
Proof. induction 1; intros [|i]; cbn; auto. apply IHForall2. Qed.

Lemma element_rel x x' r : Forall2 mrel x x' ->
  rel (fun a a' => mrel (fst a) (fst a') /\ snd a = snd a') (random_element_from x r) (random_element_from x' r).
Proof.
  intros H. unfold random_element_from, randrange. rewrite (Forall2_same_length _ _ _ H).
  destruct (Nat.eqb _ 0); cbn [bind]; [reflexivity|].
  pose proof (Forall2_nth_error _ _ _ H (r 0 mod length x')) as Hi.
  destruct (nth_error x _), (nth_error x' _); cbn; auto; try contradiction.
Qed.

Lemma visits_rel visited visited' l l' : Forall2 lr visited visited' -> lr l l' -> visits visited' l' = visits visited l.
Proof.
  intros H Hl. unfold visits. induction H as [|v v' x x' Hv Hx IH]; [reflexivity|]. cbn [filter].
  destruct (list_eq_dec Z.eq_dec v l) as [->|Hne], (list_eq_dec Z.eq_dec v' l') as [->|Hne']; cbn [length]; auto.
  - destruct Hne'. eapply lr_fun; eauto.
  - destruct Hne. eapply lr_inj; eauto.
Qed.

(** ** AZPBasicTabu *)
Definition basic_end (x x' : list Z * common * rng) : Prop :=
  let '(l, _, r) := x in let '(l', _, r') := x' in lr l l' /\ r = r'.

Lemma basic_loop_rel maxlen reps : forall fuel stop visited visited' l l' tabu tabu' c c' r,
  wf g l -> lr l l' -> Forall2 lr visited visited' -> Forall2 mrel tabu tabu' -> crel c c' ->
  rel basic_end (basic_loop O g fuel maxlen reps attr stop visited l tabu c r)
    (basic_loop O g' fuel maxlen reps attr' stop visited' l' tabu' c' r).
Proof.
  induction fuel as [|fuel IH]; intros stop visited visited' l l' tabu tabu' c c' r Hwf Hr Hv Ht Hc; cbn [basic_loop]; [exact Logic.I|].
  rewrite (visits_rel visited visited' l l') by auto.
  assert (Hv2 : Forall2 lr (visited ++ [l]) (visited' ++ [l'])) by (apply Forall2_app; auto).
  eapply rel_bind; [apply best_rel; eauto|]. intros best best' _ _ Hb.
  eapply rel_bind with (R := fun x x' => let '(made, l1, t1, c1) := x in let '(made', l1', t1', c1') := x' in
     made = made' /\ srel (l1, t1, c1) (l1', t1', c1')).
  { destruct best as [[[m i] q]|], best' as [[[m' i'] q']|]; cbn [brel] in Hb; try contradiction; [|cbn; auto].
    destruct Hb as [Hm [Hq _]].
    assert (Eb : Qle_bool q 0 = Qle_bool q' 0) by (apply eq_true_iff_eq; rewrite !Qle_bool_iff; split; intros; lra).
    rewrite <- Eb. destruct (Qle_bool q 0); [|cbn; auto].
    eapply rel_bind; [apply call_rel; eauto|]. intros [ok c1] [ok' c1'] _ _ [Eok Hc1]. cbn in Eok, Hc1. subst ok'.
    destruct ok; [|cbn; auto]. eapply rel_bind; [apply make_rel; eauto|].
    intros [[l1 t1] b] [[l1' t1'] b'] _ _ [H1 [H2 H3]]. cbn. auto. }
  intros [[[made l1] t1] c1] [[[made' l1'] t1'] c1'] _ _ [<- [Hr1 [Hwf1 [Ht1 Hc1]]]].
  destruct made; [apply IH; auto|].
  eapply rel_bind; [apply tabus_rel; eauto|]. intros its its' _ _ Hits.
  eapply rel_bind with (R := fun x x' => let '(l2, t2, c2, r2) := x in let '(l2', t2', c2', r2') := x' in
     srel (l2, t2, c2) (l2', t2', c2') /\ r2 = r2').
  { destruct Hits as [|m m' its its' Hm Hits]; [cbn; auto 6|].
    eapply rel_bind; [apply element_rel; constructor; eauto|]. intros [x r1] [x' r1'] _ _ [Hx Er]. cbn in Hx, Er. subst r1'.
    eapply rel_bind; [apply try_rel; eauto|]. intros [[l2 t2] c2] [[l2' t2'] c2'] _ _ Hs. cbn. auto. }
  intros [[[l2 t2] c2] r2] [[[l2' t2'] c2'] r2'] _ _ [[Hr2 [Hwf2 [Ht2 Hc2]]] <-].
  destruct (stop || Nat.leb reps (visits visited l)); [cbn; auto|].
  eapply rel_bind with (R := srel).
  { destruct best as [[[m i] q]|], best' as [[[m' i'] q']|]; cbn [brel] in Hb; try contradiction; [|cbn; auto].
    apply try_rel; auto. apply Hb. }
  intros [[l3 t3] c3] [[l3' t3'] c3'] _ _ [Hr3 [Hwf3 [Ht3 Hc3]]]. apply IH; auto.
Qed.

Lemma unique_rel l l' : lr l l' -> length (uniqueZ l') = length (uniqueZ l).
Proof.
  intros Hr. pose proof (lrel_sym _ _ _ _ _ _ _ _ _ _ Htw l l' Hr) as Hr'. pose proof Hr as [L [L' [Hin Hlab]]]. pose proof tn as Hgn.
  rewrite <- (map_length s (uniqueZ l)). apply Permutation_length. apply NoDup_Permutation.
  - apply uniqueZ_NoDup.
  - assert (H : forall m, NoDup m -> (forall z, In z m -> In z U) -> NoDup (map s m)).
    { induction m as [|z m IHm]; intros Hnd Hm; cbn [map]; constructor; inversion Hnd; subst.
      - intros H. apply in_map_iff in H. destruct H as [y [E Hy]]. apply s_inj in E; [subst; auto|apply Hm; right; auto|apply Hm; left; auto].
      - apply IHm; auto. intros y Hy. apply Hm. right; auto. }
    apply H; [apply uniqueZ_NoDup|]. intros z Hz. apply Hin. apply (proj1 (uniqueZ_In _ _) Hz).
  - intros z. split.
    + intros Hz. apply (proj1 (uniqueZ_In _ _)) in Hz. apply In_nth_error in Hz. destruct Hz as [i Hi].
      pose proof (nth_error_lt _ _ _ Hi). apply lab_of_nth_error in Hi. subst z. rewrite Hlab by lia. apply in_map.
      apply uniqueZ_In, lab_in. destruct (tf i ltac:(lia)). lia.
    + intros Hz. apply in_map_iff in Hz. destruct Hz as [y [<- Hy]]. apply (proj1 (uniqueZ_In _ _)) in Hy.
      apply uniqueZ_In. apply In_nth_error in Hy. destruct Hy as [a Ha]. pose proof (nth_error_lt _ _ _ Ha).
      apply lab_of_nth_error in Ha. subst y. rewrite <- (lr_lab l l') by (auto; lia). apply lab_in.
      destruct (th a ltac:(lia)). lia.
Qed.

Lemma basic_component_rel fuel maxlen reps l l' c c' r : wf g l -> lr l l' -> crel c c' ->
  rel basic_end (basic_component O g fuel maxlen reps l attr c r) (basic_component O g' fuel maxlen reps l' attr' c' r).
Proof.
  intros Hwf Hr Hc. unfold basic_component. rewrite (unique_rel l l') by auto.
  destruct (Nat.eqb _ 1); [cbn; auto|]. apply basic_loop_rel; auto.
Qed.

(** ** AZPReactiveTabu *)
Hypothesis Hcall : forall l l', lr l l' -> rel Qeq (o_call O l attr) (o_call O l' attr').

Lemma quiet_loop_rel : forall m start start' l l' tabu tabu' c c' visited visited',
  match start, start' with Some x, Some y => (x == y)%Q | None, None => True | _, _ => False end ->
  wf g l -> lr l l' -> Forall2 mrel tabu tabu' -> crel c c' -> Forall2 lr visited visited' ->
  rel (fun x x' => Forall2 lr (snd x) (snd x'))
    (quiet_loop O attr g m start l tabu c visited) (quiet_loop O attr' g' m start' l' tabu' c' visited').
Proof.
  induction m as [|m IH]; intros start start' l l' tabu tabu' c c' visited visited' Hst Hwf Hr Ht Hc Hv; cbn [quiet_loop]; [exact Hv|].
  eapply rel_bind; [apply Hcall; eauto|]. intros v v' _ _ Hvv.
  assert (Eb : match start with None => true | Some x => Qltb v x end = match start' with None => true | Some x => Qltb v' x end).
  { destruct start, start'; try contradiction; [|reflexivity]. apply eq_true_iff_eq. rewrite !Qltb_lt. split; intros; lra. }
  rewrite <- Eb. destruct (negb _); [exact Hv|].
  eapply rel_bind; [apply best_rel; eauto|]. intros best best' _ _ Hb.
  destruct best as [[[mv i] q]|], best' as [[[mv' i'] q']|]; cbn [brel] in Hb; try contradiction; [|reflexivity].
  eapply rel_bind; [apply try_rel; eauto; apply Hb|]. intros [[l1 t1] c1] [[l1' t1'] c1'] _ _ [Hr1 [Hwf1 [Ht1 Hc1]]].
  apply IH; auto. apply Forall2_app; auto.
Qed.

Lemma result_rel v v' : Forall2 lr v v' -> rel lr (reactive_result Step10 v) (reactive_result Step10 v').
Proof.
  intros H. unfold reactive_result.
  assert (Hrev : Forall2 lr (rev v) (rev v')).
  { clear - H. induction H; cbn [rev]; [constructor|apply Forall2_app; auto]. }
  destruct Hrev as [|x x' v1 v1' Hx Hrest]; [reflexivity|]. destruct Hrest; cbn; auto.
Qed.

Lemma quiet_component_rel m l l' c c' : wf g l -> lr l l' -> crel c c' ->
  rel lr (quiet_component O attr g m l c) (quiet_component O attr' g' m l' c').
Proof.
  intros Hwf Hr Hc. unfold quiet_component. rewrite (unique_rel l l') by auto. destruct (Nat.eqb _ 1); [exact Hr|].
  eapply rel_bind; [apply quiet_loop_rel; eauto; exact Logic.I|].
  intros [[l1 c1] v1] [[l1' c1'] v1'] _ _ Hv. apply result_rel. exact Hv.
Qed.
End Sim.

(** ** fit on a connected graph, with initial labels *)
Section OneIsland.
Variable S : Type.
Variable start : S -> list Z -> list (list Q) -> list nat -> out S.
Variable component : graph -> list Z -> list (list Q) -> S -> rng -> out (list Z * S * rng).
Variable order : list edge -> list edge.
Variable g : graph.
Variable attr : list (list Q).
Hypothesis Hattr : length attr = gn g.
Hypothesis Hone : n_components g = 1.

Lemma fit_whole p l s r : valid_request g p (Some l) ->
  fit S start component order g attr p (Some l) s r =
  let* s1 := start s l attr (seq 0 (gn g)) in
  let* '(l', s2, r') := component (comp_graph g 0) l attr s1 r in
  let* labels := assign_idx (minus_ones (gn g)) (seq 0 (gn g)) l' in Ok ((labels, s2), r').
Proof.
  intros [Hp [[Hlen [Hn Hall]] Hm1]]. unfold fit.
  assert (Haf : assert_feasible l g (Some p) = Ok tt) by (apply assert_feasible_Ok; [lia|]; split; [lia|auto]).
  rewrite Haf. cbn [bind]. rewrite (proj2 (Nat.eqb_eq _ _) Hlen). unfold separate_components. rewrite Hone. cbn [seq map fit_arrays].
  rewrite (fit_one_run S start component g attr 0); [|lia|apply separate_one_length|].
  2:{ intros a Ha. split.
      - intros Hs Hca. rewrite separate_one_in in Hs by auto. apply Hm1. eapply nth_error_In; eauto.
      - apply separate_one_out; auto. }
  assert (Hcp : comp_part g (separate_one g l 0) 0 = l).
  { rewrite <- (whole_part g attr Hattr Hone l Hlen) at 2. unfold comp_part, gather. apply map_ext_in. intros a Ha.
    apply comp_nodes_In in Ha. destruct Ha as [Ha Hca]. pose proof (separate_one_in g l 0 a Hlen Ha Hca) as Hs.
    rewrite (nth_error_nth l a (-1)%Z (x := lab l a)) by (apply lab_nth_error; lia).
    apply nth_error_nth. rewrite Hs. apply lab_nth_error. lia. }
  rewrite Hcp. unfold run_component. fold (attr_c attr g 0).
  rewrite (whole_attr g attr Hattr Hone), (whole_nodes g attr Hattr Hone).
  destruct (start s l attr _) as [s1|e|]; cbn [bind]; try reflexivity.
  destruct (component _ l attr s1 r) as [[[l' s2] r']|e|]; cbn [bind]; try reflexivity.
  destruct (assign_idx _ _ l') as [labels|e|]; reflexivity.
Qed.

Lemma assign_whole l' : length l' = gn g -> assign_idx (minus_ones (gn g)) (seq 0 (gn g)) l' = Ok l'.
Proof.
  intros Hl. unfold assign_idx. rewrite seq_length, Hl, Nat.eqb_refl. f_equal.
  assert (H := gather_scatter_same (minus_ones (gn g)) (seq 0 (gn g)) l' (seq_NoDup _ _)).
  assert (Hs : length (scatter (minus_ones (gn g)) (seq 0 (gn g)) l') = gn g) by (rewrite scatter_length; apply repeat_length).
  unfold gather in H. set (y := scatter _ _ l') in *. rewrite <- H; [| |].
  - rewrite <- Hs. symmetry. apply map_nth_seq.
  - rewrite seq_length; auto.
  - intros a Ha; apply in_seq in Ha; unfold minus_ones; rewrite repeat_length; lia.
Qed.

Lemma whole_adj i j : i < gn g -> j < gn g -> gadj (comp_graph g 0) i j = gadj g i j.
Proof.
  intros Hi Hj. unfold comp_graph. cbn. rewrite sub_nodes_nil, (whole_nodes g attr Hattr Hone).
  rewrite !(nth_error_nth' _ 0) by (rewrite seq_length; auto). rewrite !seq_nth by auto. reflexivity.
Qed.
Lemma whole_n : gn (comp_graph g 0) = gn g.
Proof. rewrite comp_graph_n, (whole_nodes g attr Hattr Hone), seq_length. reflexivity. Qed.
End OneIsland.

Section WholeTwins.
Variables (f h : nat -> nat) (s t : Z -> Z) (U U' : list Z) (g g' : graph) (attr attr' : list (list Q)).
Hypothesis Htw : twins f h s t U U' g g' attr attr'.

Lemma twins_island : n_islands g 1 -> n_islands g' 1.
Proof.
  intros [R [[_ [Hlt [_ Hall]]] HR]]. destruct R as [|u [|v R]]; try discriminate. pose proof (tw_n _ _ _ _ _ _ _ _ _ _ Htw) as Hn.
  destruct (tw_h _ _ _ _ _ _ _ _ _ _ Htw u (Hlt u (or_introl eq_refl))) as [Hh _].
  exists [h u]. split; [|reflexivity]. split; [constructor; [intros []|constructor]|]. split.
  { intros v [<-|[]]. lia. }
  split; [intros x y [<-|[]] [<-|[]]; auto|].
  intros v Hv. rewrite Hn in Hv. exists (h u). split; [left; auto|].
  destruct (tw_f _ _ _ _ _ _ _ _ _ _ Htw v Hv) as [Hf E]. destruct (Hall (f v) Hf) as [w [[<-|[]] Hl]].
  unfold same_island in *. rewrite <- E.
  apply (twin_linked _ _ _ _ _ _ _ _ _ _ (twins_sym _ _ _ _ _ _ _ _ _ _ Htw) (areas g') (areas g)); [|exact Hl].
  intros x Hx. unfold areas in *. rewrite Hn. split; [auto|]. apply (tw_h _ _ _ _ _ _ _ _ _ _ Htw); auto.
Qed.

Hypothesis Hattr : length attr = gn g.
Hypothesis Hattr' : length attr' = gn g'.
Hypothesis Hone : n_components g = 1.
Hypothesis Hone' : n_components g' = 1.

Lemma whole_twins : twins f h s t U U' (comp_graph g 0) (comp_graph g' 0) attr attr'.
Proof.
  destruct Htw as [Hn Hf Hh Ha Hr Hs Ht]. constructor; auto; rewrite ?(whole_n g attr Hattr Hone), ?(whole_n g' attr' Hattr' Hone'); auto.
  intros i j Hi Hj. rewrite (whole_adj g' attr') by (auto; lia). rewrite Ha by auto. symmetry. apply (whole_adj g attr); auto; apply Hf; auto.
Qed.

Lemma whole_lrel l l' : lrel f s U (comp_graph g 0) l l' <-> lrel f s U g l l'.
Proof. unfold lrel. rewrite (whole_n g attr Hattr Hone). tauto. Qed.

Lemma seq_perm : Permutation (map f (seq 0 (gn g))) (seq 0 (gn g)).
Proof.
  apply NoDup_Permutation_bis.
  - assert (H : forall l, NoDup l -> (forall i, In i l -> i < gn g) -> NoDup (map f l)).
    { induction l as [|i l IH]; intros Hnd Hin; cbn [map]; constructor.
      - intros H. apply in_map_iff in H. destruct H as [j [E Hj]]. inversion Hnd; subst.
        apply (f_equal h) in E. destruct (tw_f _ _ _ _ _ _ _ _ _ _ Htw i (Hin i (or_introl eq_refl))) as [_ E1].
        destruct (tw_f _ _ _ _ _ _ _ _ _ _ Htw j (Hin j (or_intror Hj))) as [_ E2]. rewrite E1, E2 in E. subst; auto.
      - inversion Hnd; subst. apply IH; auto. intros j Hj. apply Hin. right; auto. }
    apply H; [apply seq_NoDup|]. intros i Hi. apply in_seq in Hi. lia.
  - rewrite map_length. auto.
  - intros a Ha. apply in_map_iff in Ha. destruct Ha as [i [<- Hi]]. apply in_seq in Hi. apply in_seq.
    destruct (tw_f _ _ _ _ _ _ _ _ _ _ Htw i ltac:(lia)). lia.
Qed.

Variable O : objfun.
Hypothesis Hname : nameless O.
Hypothesis Hex : exact_on O attr.
Hypothesis Hex' : exact_on O attr'.

Lemma objective_whole at0 l n : length l = n -> length at0 = n -> objective_at O at0 (seq 0 n) l = o_call O l at0.
Proof.
  intros Hl Ha. unfold objective_at, labels_at, rows_at. f_equal.
  - rewrite <- Hl. apply map_nth_seq.
  - rewrite <- Ha. apply map_nth_seq.
Qed.

Lemma twin_call l l' : lrel f s U g l l' -> exists x y, o_call O l attr = Ok x /\ o_call O l' attr' = Ok y /\ (x == y)%Q.
Proof.
  intros Hr. pose proof (tw_n _ _ _ _ _ _ _ _ _ _ Htw) as Hn.
  destruct (twin_values O Hname f h s t U U' g g' attr attr' (seq 0 (gn g)) (seq 0 (gn g)) Htw seq_perm) with (l := l) (l' := l')
    as [x [y [Ex [Ey Hxy]]]]; auto; [intros i Hi; apply in_seq in Hi; lia|lia|].
  destruct Hr as [L [L' _]]. rewrite objective_whole in Ex, Ey by (auto; lia). eauto.
Qed.

Hypothesis Hfail : nameless_failures O.
Lemma twin_update l l' a K : lrel f s U g l l' -> a < gn g -> In K U ->
  rel Qeq (o_update O a K l attr) (o_update O (h a) (s K) l' attr').
Proof.
  intros Hr Ha HK. pose proof (tw_n _ _ _ _ _ _ _ _ _ _ Htw) as Hn. pose proof Hr as [L [L' [Hin Hlab]]].
  destruct (tw_h _ _ _ _ _ _ _ _ _ _ Htw a Ha) as [Hh Eh].
  assert (Hf : fail_alike (o_update O (f (h a)) K l attr) (o_update O (h a) (s K) l' attr')).
  { apply (Hfail f s attr attr' l l' (h a) K); rewrite ?L; auto; try lia.
    - intros i Hi. apply (tw_f _ _ _ _ _ _ _ _ _ _ Htw); auto.
    - intros i j Hi Hj E. apply (f_equal h) in E. destruct (tw_f _ _ _ _ _ _ _ _ _ _ Htw i Hi) as [_ E1].
      destruct (tw_f _ _ _ _ _ _ _ _ _ _ Htw j Hj) as [_ E2]. congruence.
    - apply (tw_row _ _ _ _ _ _ _ _ _ _ Htw).
    - split; [lia|]. rewrite L. auto.
    - assert (HU : forall x, In x (K :: l) -> In x U) by (intros x [<-|Hx]; auto).
      intros y z Hy Hz E. apply (f_equal t) in E. destruct (tw_s _ _ _ _ _ _ _ _ _ _ Htw y (HU y Hy)) as [_ E1].
      destruct (tw_s _ _ _ _ _ _ _ _ _ _ Htw z (HU z Hz)) as [_ E2]. congruence. }
  rewrite Eh in Hf. unfold fail_alike in Hf.
  destruct (o_update O a K l attr) as [q|e|] eqn:E1, (o_update O (h a) (s K) l' attr') as [q'|e'|] eqn:E2; cbn; auto.
  assert (Hr2 : lrel f s U g (upd l a K) (upd l' (h a) (s K))) by (eapply lrel_upd; eauto).
  destruct (twin_call _ _ Hr) as [x [y [Ex [Ey Hxy]]]]. destruct (twin_call _ _ Hr2) as [x2 [y2 [Ex2 [Ey2 Hxy2]]]].
  assert (He : exact_objective O attr) by (apply Hex; auto). assert (He' : exact_objective O attr') by (apply Hex'; auto).
  destruct (proj2 (proj2 He) a K l q) as [u [v [Eu [Ev Hq]]]]; [lia|lia|auto|].
  destruct (proj2 (proj2 He') (h a) (s K) l' q') as [u' [v' [Eu' [Ev' Hq']]]]; [lia|lia|auto|].
  rewrite Eu in Ex. injection Ex as <-. rewrite Ev in Ex2. injection Ex2 as <-.
  rewrite Eu' in Ey. injection Ey as <-. rewrite Ev' in Ey2. injection Ey2 as <-. lra.
Qed.

Hypothesis Hsym : symmetric g.
Hypothesis Hriv : no_rivals O attr g U.

Lemma whole_wf l : wf (comp_graph g 0) l -> wf g l.
Proof.
  intros [L A]. assert (Hid : twins (fun i => i) (fun i => i) (fun z => z) (fun z => z) l l (comp_graph g 0) g attr attr).
  { constructor; auto; rewrite ?(whole_n g attr Hattr Hone); auto.
    intros i j Hi Hj. symmetry. apply (whole_adj g attr); auto. }
  destruct (twin_valid _ _ _ _ _ _ _ _ _ _ l l (n_labels l) Hid) as [H1 [_ H2]].
  - split; [auto|]. split; [auto|]. split; auto.
  - split; [auto|]. split; auto.
  - split; auto.
Qed.

Lemma whole_rivals l a z b y q q' : wf (comp_graph g 0) l -> (forall x, In x l -> In x U) ->
  legal_move (comp_graph g 0) l a z -> legal_move (comp_graph g 0) l b y ->
  o_update O a z l attr = Ok q -> o_update O b y l attr = Ok q' -> (q == q')%Q -> a = b /\ z = y.
Proof.
  intros Hwf HU H1 H2 E1 E2 Hq. apply whole_wf in Hwf. pose proof Hwf as [L A].
  apply (whole_legal g attr Hattr Hone) in H1; auto. apply (whole_legal g attr Hattr Hone) in H2; auto.
  assert (He : exact_objective O attr) by (apply Hex; auto).
  destruct (update_val O attr g Hattr He l a z Hwf H1) as [x [Ex Hx]]. rewrite E1 in Ex. injection Ex as <-.
  destruct (update_val O attr g Hattr He l b y Hwf H2) as [x' [Ex' Hx']]. rewrite E2 in Ex'. injection Ex' as <-.
  destruct (Nat.eq_dec a b) as [->|Hab]; [destruct (Z.eq_dec z y) as [->|Hzy]; [auto|]|]; exfalso.
  - apply (Hriv l b z b y (value O attr (upd l b z)) (value O attr (upd l b y))); auto; [congruence| | |lra];
      apply (call_val O attr g Hattr He); rewrite upd_length; auto.
  - apply (Hriv l a z b y (value O attr (upd l a z)) (value O attr (upd l b y))); auto; [congruence| | |lra];
      apply (call_val O attr g Hattr He); rewrite upd_length; auto.
Qed.

(** AZPBasicTabu *)
Theorem basic_fit_rel order order' fuel maxlen reps p l l' c c' r :
  valid_request g p (Some l) -> valid_request g' p (Some l') -> symmetric g' -> lrel f s U g l l' ->
  rel (fun x x' => lrel f s U g (fst (fst x)) (fst (fst x')) /\ snd x = snd x')
    (basic_fit order O fuel maxlen reps g attr p (Some l) c r) (basic_fit order' O fuel maxlen reps g' attr' p (Some l') c' r).
Proof.
  intros Hv Hv' Hsym' Hr. unfold basic_fit.
  rewrite (fit_whole common _ _ order g attr Hattr Hone p l c r Hv), (fit_whole common _ _ order' g' attr' Hattr' Hone' p l' c' r Hv').
  pose proof (tw_n _ _ _ _ _ _ _ _ _ _ Htw) as Hn.
  destruct (twin_call l l' Hr) as [x [y [Ex [Ey Hxy]]]]. unfold start_common. rewrite Ex, Ey. cbn [bind].
  eapply rel_bind.
  - apply (basic_component_rel f h s t U U' (comp_graph g 0) (comp_graph g' 0) attr attr' whole_twins O
      (comp_symmetric g 0 Hsym) (comp_symmetric g' 0 Hsym')).
    + rewrite (whole_n g attr Hattr Hone). auto.
    + rewrite (whole_n g' attr' Hattr' Hone'). auto.
    + apply Hex; auto.
    + apply Hex'; auto.
    + intros l1 l1' a K H1 Ha HK. apply whole_lrel in H1. rewrite (whole_n g attr Hattr Hone) in Ha. apply twin_update; auto.
    + intros. eapply whole_rivals; eauto.
    + destruct Hv as [_ [[L [_ A]] _]]. rewrite <- (whole_part g attr Hattr Hone l L). apply wf_part. split; auto.
    + apply whole_lrel. auto.
    + split; split; reflexivity.
  - intros [[l1 c1] r1] [[l1' c1'] r1'] _ _ [H1 <-]. apply whole_lrel in H1. pose proof H1 as [L1 [L1' _]].
    rewrite (assign_whole g attr Hattr Hone), (assign_whole g' attr' Hattr' Hone') by lia. cbn. auto.
Qed.

(** AZPReactiveTabu *)
Definition quiet_fit (maxit : nat) (l : list Z) : out (list Z) :=
  let* v := o_call O l attr in quiet_component O attr (comp_graph g 0) maxit l (mkCommon attr O v).
End WholeTwins.

Section ReactiveWhole.
Variable g : graph.
Variable attr : list (list Q).
Hypothesis Hattr : length attr = gn g.
Hypothesis Hone : n_components g = 1.
Variable O : objfun.
Hypothesis Hex : exact_on O attr.
Hypothesis Hsym : symmetric g.

Theorem reactive_fit_quiet order maxit k1 k2 p l s r : 1 <= maxit -> 1 <= k1 -> valid_request g p (Some l) -> rt_visited s = [] -> (rt_avg s == 1)%Q ->
  rel (fun x y => fst (fst x) = y) (reactive_fit order O maxit k1 k2 g attr p (Some l) s r) (quiet_fit g attr O maxit l).
Proof.
  intros Hm Hk Hv Hvis Havg. unfold reactive_fit.
  rewrite (fit_whole reactive _ _ order g attr Hattr Hone p l s r Hv). unfold quiet_fit, start_common.
  assert (He : exact_objective O attr) by (apply Hex; auto).
  assert (Hwf : wf (comp_graph g 0) l).
  { destruct Hv as [_ [[L [_ A]] _]]. rewrite <- (whole_part g attr Hattr Hone l L). apply wf_part. split; auto. }
  assert (Hl : length l = gn g) by apply Hv.
  rewrite (call_val O attr g Hattr He l Hl). cbn [bind].
  pose proof (whole_n g attr Hattr Hone) as Hwn.
  set (s1 := mkReactive _ _ _ _).
  pose proof (reactive_component_quiet O attr (comp_graph g 0) (comp_symmetric g 0 Hsym) ltac:(lia) He maxit k1 k2 l s1 r Hk Hwf
    (conj eq_refl eq_refl) Hvis) as Hq.
  pose proof (reactive_component_descent O attr (comp_graph g 0) (comp_symmetric g 0 Hsym) ltac:(lia) He maxit k1 k2 l s1 r Hwf
    (conj eq_refl eq_refl) Hvis Hk Hm) as Hd.
  destruct (reactive_component _ _ _ _ _ _ _ _ _) as [[[l' s'] r']|e|]; cbn [bind post] in *.
  - destruct Hd as [[L _] _]. rewrite (assign_whole g attr Hattr Hone) by lia. cbn [bind].
    cbn [rt_common s1] in Hq. destruct (quiet_component _ _ _ _ _ _); cbn in *; auto.
  - cbn [rt_common s1] in Hq. destruct (quiet_component _ _ _ _ _ _); cbn in *; auto.
  - destruct Hd.
Qed.
End ReactiveWhole.

Section ReactiveTwins.
Variables (f h : nat -> nat) (s t : Z -> Z) (U U' : list Z) (g g' : graph) (attr attr' : list (list Q)).
Hypothesis Htw : twins f h s t U U' g g' attr attr'.
Hypothesis Hattr : length attr = gn g.
Hypothesis Hattr' : length attr' = gn g'.
Hypothesis Hone : n_components g = 1.
Hypothesis Hone' : n_components g' = 1.
Variable O : objfun.
Hypothesis Hname : nameless O.
Hypothesis Hex : exact_on O attr.
Hypothesis Hex' : exact_on O attr'.
Hypothesis Hfail : nameless_failures O.
Hypothesis Hsym : symmetric g.
Hypothesis Hsym' : symmetric g'.
Hypothesis Hriv : no_rivals O attr g U.

Theorem quiet_fit_rel maxit l l' : wf g l -> lrel f s U g l l' ->
  rel (lrel f s U g) (quiet_fit g attr O maxit l) (quiet_fit g' attr' O maxit l').
Proof.
  intros Hwf Hr. unfold quiet_fit. destruct (twin_call f h s t U U' g g' attr attr' Htw Hattr Hattr' Hone Hone' O Hname Hex Hex' l l' Hr) as [x [y [-> [-> Hxy]]]].
  cbn [bind].
  assert (Hlr : forall a b, lrel f s U (comp_graph g 0) a b <-> lrel f s U g a b) by (intros; eapply whole_lrel; eauto).
  assert (H : rel (lrel f s U (comp_graph g 0)) (quiet_component O attr (comp_graph g 0) maxit l (mkCommon attr O x))
                (quiet_component O attr' (comp_graph g' 0) maxit l' (mkCommon attr' O y))).
  { apply (quiet_component_rel f h s t U U' (comp_graph g 0) (comp_graph g' 0) attr attr'
      (whole_twins f h s t U U' g g' attr attr' Htw Hattr Hattr' Hone Hone') O (comp_symmetric g 0 Hsym) (comp_symmetric g' 0 Hsym')).
    + rewrite (whole_n g attr Hattr Hone). auto.
    + rewrite (whole_n g' attr' Hattr' Hone'). auto.
    + apply Hex; auto.
    + apply Hex'; auto.
    + intros l1 l1' a K H1 Ha HK. apply Hlr in H1. rewrite (whole_n g attr Hattr Hone) in Ha. eapply twin_update; eauto.
    + intros. match goal with H : o_update O ?a ?z ?l0 attr = Ok ?q, H' : o_update O ?b ?y0 ?l0 attr = Ok ?q' |- ?a = ?b /\ _ => apply (whole_rivals U g attr Hattr Hone O Hex Hriv l0 a z b y0 q q'); auto end.
    + intros l1 l1' H1. apply Hlr in H1.
      destruct (twin_call f h s t U U' g g' attr attr' Htw Hattr Hattr' Hone Hone' O Hname Hex Hex' l1 l1' H1) as [x1 [y1 [-> [-> H2]]]]. exact H2.
    + rewrite <- (whole_part g attr Hattr Hone l (proj1 Hwf)). apply wf_part. auto.
    + apply Hlr. auto.
    + split; split; reflexivity. }
  destruct (quiet_component _ _ (comp_graph g 0) _ _ _), (quiet_component _ _ (comp_graph g' 0) _ _ _); cbn in *; auto. apply Hlr. auto.
Qed.
End ReactiveTwins.
