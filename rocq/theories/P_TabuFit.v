(** AZPBasicTabu: the loop theorem applied to the objective functions, and lifted to [fit]. *)
From Verif Require Import Base Spec M_Graph P_Graph M_Util P_Base P_Util P_Forest P_Init P_Initial
  M_Objective P_Sum P_Objective M_Azp P_Azp P_Strategy P_Fit P_AzpFit M_Sa P_Sa M_Tabu P_Tabu.

Section Any.
Variable obj : objfun.
Variable attr : list (list Q).
Variable g : graph.
Hypothesis Hattr : length attr = gn g.
Variable labels0 : list Z.

(** not worse than the start, when the objective is exact *)
Definition no_worse (l : list Z) : Prop :=
  exact_objective obj attr ->
  exists x y, o_call obj labels0 attr = Ok x /\ o_call obj l attr = Ok y /\ (y <= x)%Q.

Lemma no_worse_refl : length labels0 = gn g -> no_worse labels0.
Proof. intros H [Hc _]. destruct (Hc labels0) as [x Ex]; [congruence|]. exists x, x. repeat split; auto. lra. Qed.

Lemma no_worse_step l a r q : length l = gn g -> a < gn g -> no_worse l ->
  o_update obj a r l attr = Ok q -> (q <= 0)%Q -> no_worse (upd l a r).
Proof.
  intros Hl Ha Hw Eq Hq Hex. destruct (Hw Hex) as [x [y [Ex [Ey Hle]]]]. destruct Hex as [_ [_ Hup]].
  destruct (Hup a r l q ltac:(lia) ltac:(lia) Eq) as [v [v' [Ev [Ev' Hd]]]].
  rewrite Ev in Ey. injection Ey as ->. exists x, v'. repeat split; auto. lra.
Qed.

Definition any_I (l : list Z) : Prop := (forall z, In z l -> In z labels0) /\ no_worse l.
Definition any_T (m : tmove) : Prop := mv_area m < gn g /\ In (mv_new m) labels0.

Lemma any_step l a r q : length l = gn g -> any_I l -> a < gn g -> In r labels0 ->
  o_update obj a r l attr = Ok q -> (q <= 0)%Q -> any_I (upd l a r).
Proof.
  intros Hl [HI Hw] Ha Hr Eq Hq. split; [|eapply no_worse_step; eauto].
  intros z Hz. apply In_upd in Hz. destruct Hz as [->|Hz]; auto.
Qed.

Lemma legal_In l a r : legal_move g l a r -> In r l.
Proof. intros [_ [D [_ [_ [_ [b [_ [Hb _]]]]]]]]. eapply nth_error_In; eauto. Qed.
Lemma legal_lt l a r : legal_move g l a r -> a < gn g.
Proof. intros [H _]. auto. Qed.

Lemma anyexn_post {A} (m : out A) : post anyexn True m (fun _ => True).
Proof. destruct m; cbn; unfold anyexn; auto. Qed.

Lemma basic_any_loop maxlen reps fuel stop visited tabu c r : wf g labels0 ->
  c_ok obj attr c -> tabu_ok any_T tabu ->
  post anyexn True (basic_loop obj g fuel maxlen reps attr stop visited labels0 tabu c r)
    (fun '(l', c', _) => wf g l' /\ any_I l' /\ c_ok obj attr c').
Proof.
  intros Hwf Hc Ht.
  apply (basic_loop_post obj attr g anyexn True any_I any_T) with (M1 := fun _ => 0) (M2 := fun _ _ => 0) (B := 0); auto.
  - intros m [H _]. auto.
  - intros l a z [Hl _] [HI _] Ha. split; [auto|]. cbn. apply HI, nth_In. lia.
  - intros. apply anyexn_post.
  - intros. apply anyexn_post.
  - intros l a z q [Hl _] HI Hlm Eq Hq. apply (any_step l a z q); auto; [eapply legal_lt; eauto|].
    apply HI. eapply legal_In; eauto.
  - intros l m q [Hl _] HI [Ha Hn] _ Eq Hq _. apply (any_step l _ _ q); auto. lra.
  - intros. apply anyexn_post.
  - intros l m a z q q1 q2 _ HI _ _ _ _ [Hl2 _] HI2 Hlm _ _ Eq2 Hq2 _. apply (any_step _ a z q2); auto; [eapply legal_lt; eauto|].
    apply HI. eapply legal_In; eauto.
  - split; [auto|apply no_worse_refl; apply Hwf].
Qed.

Lemma basic_any_component maxlen reps fuel c r : wf g labels0 -> c_ok obj attr c ->
  post anyexn True (basic_component obj g fuel maxlen reps labels0 attr c r)
    (fun '(l', _, _) => wf g l' /\ any_I l').
Proof.
  intros Hwf Hc. unfold basic_component. destruct (Nat.eqb _ 1).
  - cbn [post]. split; [auto|]. split; [auto|apply no_worse_refl; apply Hwf].
  - eapply (post_weaken anyexn anyexn True True); [auto|auto| |apply basic_any_loop; auto].
    + intros [[l' c'] r'] _ [H1 [H2 _]]. auto.
    + intros m [].
Qed.

(** ** objectives that never let a region disappear *)
Variable E : exn -> Prop.
Variable N : Prop.
Hypothesis Hex : exact_objective obj attr.
Hypothesis Hrec : forall l a r q, length l = gn g -> a < gn g -> o_update obj a r l attr = Ok q -> In r l.
Hypothesis Hlone : forall l a r q, length l = gn g -> a < gn g -> In r l ->
  o_update obj a r l attr = Ok q -> (q < 0)%Q -> In (lab l a) (upd l a r).
Hypothesis Hstale : forall l x e a r q1 q2, length l = gn g -> x < gn g -> a < gn g -> a <> x -> lab l a <> r ->
  (exists b, b < gn g /\ b <> a /\ lab l b = lab l a) ->
  o_update obj a r l attr = Ok q1 -> (0 < q1)%Q ->
  o_update obj a r (upd l x e) attr = Ok q2 -> (q2 <= 0)%Q ->
  In (lab (upd l x e) a) (upd (upd l x e) a r).
Hypothesis Hupd : forall l a r, length l = gn g -> a < gn g -> In r l ->
  post E N (o_update obj a r l attr) (fun _ => True).
(** why ties cannot go on for ever: there are none, or an unlimited tabu list and two regions *)
Definition ties_ok (maxlen : option nat) (ties : option (Z * Z)) : Prop :=
  match ties with
  | None => no_ties obj attr
  | Some (A, B) => maxlen = None /\ A <> B /\ forall z, In z labels0 -> z = A \/ z = B
  end.

Definition keep_I (l : list Z) : Prop := same_labels l labels0 /\ no_worse l.

Lemma keep_step l a r q : length l = gn g -> keep_I l -> a < gn g -> In r l -> In (lab l a) (upd l a r) ->
  o_update obj a r l attr = Ok q -> (q <= 0)%Q -> keep_I (upd l a r).
Proof.
  intros Hl [HI Hw] Ha Hr Hd Eq Hq. split; [|eapply no_worse_step; eauto].
  intros z. rewrite <- (HI z). apply upd_same_set; auto. lia.
Qed.

Lemma self_zero l a q : length l = gn g -> a < gn g -> o_update obj a (lab l a) l attr = Ok q -> (q == 0)%Q.
Proof.
  intros Hl Ha Eq. destruct Hex as [_ [_ Hup]].
  destruct (Hup a _ l q ltac:(lia) ltac:(lia) Eq) as [v [v' [Ev [Ev' Hd]]]].
  unfold lab in Ev'. rewrite upd_same in Ev' by lia. rewrite Ev in Ev'. injection Ev' as <-. lra.
Qed.

Lemma legal_keep l a r : length l = gn g -> legal_move g l a r ->
  In (lab l a) (upd l a r) /\ lab l a <> r /\ exists b, b < gn g /\ b <> a /\ lab l b = lab l a.
Proof.
  intros Hl [Ha [D [HD [Hne [[[b [Hb Hba]] _] _]]]]]. rewrite (lab_of_nth_error _ _ _ HD).
  assert (Hbn : b < gn g) by (apply nth_error_lt in Hb; lia).
  split; [|split; [auto|exists b; split; [auto|]; split; [auto|apply lab_of_nth_error; auto]]].
  apply nth_error_In with (n := b). rewrite nth_error_upd_ne by auto. exact Hb.
Qed.

Definition value (l : list Z) : Q := match o_call obj l attr with Ok v => v | _ => 0%Q end.
Definition keep_mu (l : list Z) : nat := az_m obj attr g labels0 (value l).

Lemma keep_mu_lt l a r q : length l = gn g -> keep_I l -> a < gn g -> o_update obj a r l attr = Ok q -> (q < 0)%Q ->
  keep_mu (upd l a r) < keep_mu l.
Proof.
  intros Hl HI Ha Eq Hq. pose proof (Hrec l a r q Hl Ha Eq) as Hr.
  destruct Hex as [_ [_ Hup]]. destruct (Hup a r l q ltac:(lia) ltac:(lia) Eq) as [v [v' [Ev [Ev' Hd]]]].
  assert (Hlt : (v' < v)%Q) by lra.
  unfold keep_mu, value. rewrite Ev, Ev'. unfold az_m. apply filter_length_lt with (x := upd l a r).
  - intros y _ Hy. destruct (o_call obj y attr) as [p|e|]; auto. apply Qltb_lt in Hy. apply Qltb_lt. lra.
  - apply words_In; [rewrite upd_length; auto|]. intros z Hz. apply uniqueZ_In. apply HI.
    apply In_upd in Hz. destruct Hz as [->|Hz]; auto.
  - rewrite Ev'. apply Qltb_lt. auto.
  - rewrite Ev'. apply Qltb_ge. lra.
Qed.

Lemma filter_length_imp {A} (f h : A -> bool) l : (forall y, In y l -> f y = true -> h y = true) ->
  length (filter f l) <= length (filter h l).
Proof.
  intros H. induction l as [|x l IH]; cbn; [lia|].
  assert (length (filter f l) <= length (filter h l)) by (apply IH; intros; apply H; [right|]; auto).
  pose proof (H x (or_introl eq_refl)). destruct (f x), (h x); cbn; try lia; specialize (H1 eq_refl); discriminate.
Qed.

Lemma keep_mu_le l a r q : length l = gn g -> keep_I l -> a < gn g -> o_update obj a r l attr = Ok q -> (q <= 0)%Q ->
  keep_mu (upd l a r) <= keep_mu l.
Proof.
  intros Hl HI Ha Eq Hq.
  destruct Hex as [_ [_ Hup]]. destruct (Hup a r l q ltac:(lia) ltac:(lia) Eq) as [v [v' [Ev [Ev' Hd]]]].
  unfold keep_mu, value. rewrite Ev, Ev'. unfold az_m. apply filter_length_imp.
  intros y _ Hy. destruct (o_call obj y attr) as [p|e|]; auto. apply Qltb_lt in Hy. apply Qltb_lt. lra.
Qed.

Lemma tie_zero l a r q : length l = gn g -> a < gn g -> lab l a <> r -> o_update obj a r l attr = Ok q -> no_ties obj attr ->
  ~ (q == 0)%Q.
Proof.
  intros Hl Ha Hne Eq Hno H0. pose proof (Hrec l a r q Hl Ha Eq) as Hr.
  destruct Hex as [_ [_ Hup]]. destruct (Hup a r l q ltac:(lia) ltac:(lia) Eq) as [v [v' [Ev [Ev' Hd]]]].
  apply (Hno l a r v v' ltac:(lia) ltac:(lia) Hr ltac:(auto) Ev Ev'). lra.
Qed.

(** the areas that may still be moved when the tabu list is unlimited and there are two regions *)
Definition other (A B z : Z) : Z := if Z.eqb z A then B else A.
Definition movable (A B : Z) (l : list Z) (tabu : list tmove) (a : nat) : bool :=
  negb (in_tabu (mkMove a (lab l a) (other A B (lab l a))) tabu).
Definition free (ties : option (Z * Z)) (l : list Z) (tabu : list tmove) : nat :=
  match ties with
  | None => 0
  | Some (A, B) => length (filter (movable A B l tabu) (seq 0 (gn g)))
  end.

Lemma free_bound ties l tabu : free ties l tabu <= gn g.
Proof.
  unfold free. destruct ties as [[A B]|]; [|lia].
  pose proof (filter_length_le (movable A B l tabu) (seq 0 (gn g))) as H. rewrite seq_length in H. exact H.
Qed.

Lemma in_tabu_append m x tabu : in_tabu m (tabu ++ [x]) = in_tabu m tabu || tmove_eqb m x.
Proof. unfold in_tabu. rewrite existsb_app. cbn [existsb]. rewrite orb_false_r. reflexivity. Qed.

Lemma free_append maxlen ties l tabu x : ties_ok maxlen ties -> free ties l (deque_append maxlen x tabu) <= free ties l tabu.
Proof.
  unfold free, ties_ok. destruct ties as [[A B]|]; [|lia]. intros [-> _]. cbn [deque_append].
  apply filter_length_imp. intros a _. unfold movable. rewrite in_tabu_append, negb_orb. intros H.
  apply andb_true_iff in H. tauto.
Qed.

Lemma free_move maxlen A B l tabu a r : ties_ok maxlen (Some (A, B)) -> length l = gn g -> keep_I l -> a < gn g ->
  In r l -> lab l a <> r -> in_tabu (mkMove a (lab l a) r) tabu = false ->
  free (Some (A, B)) (upd l a r) (deque_append maxlen (mkMove a r (lab l a)) tabu) < free (Some (A, B)) l tabu.
Proof.
  intros [-> [HAB H2]] Hl [HI _] Ha Hr Hne Ht. cbn [deque_append free].
  assert (H3 : forall z, In z l -> z = A \/ z = B) by (intros z Hz; apply H2, HI, Hz).
  assert (Hla : In (lab l a) l) by (unfold lab; apply nth_In; lia).
  assert (Eo : forall z, In z l -> forall y, In y l -> y <> z -> other A B z = y).
  { intros z Hz y Hy Hyz. apply H3 in Hz. apply H3 in Hy. unfold other. destruct (Z.eqb_spec z A); destruct Hz, Hy; congruence. }
  apply filter_length_lt with (x := a).
  - intros b Hb. apply in_seq in Hb. unfold movable. rewrite in_tabu_append, negb_orb. intros H. apply andb_true_iff in H.
    destruct H as [H1 H4]. destruct (Nat.eq_dec b a) as [->|Hba].
    + exfalso. rewrite lab_upd_eq in H4 by lia. rewrite (Eo r Hr (lab l a) Hla Hne) in H4.
      unfold tmove_eqb in H4. cbn in H4. rewrite Nat.eqb_refl, !Z.eqb_refl in H4. discriminate.
    + rewrite lab_upd_ne in H1 by auto. exact H1.
  - apply in_seq. lia.
  - unfold movable. rewrite (Eo (lab l a) Hla r Hr) by auto. rewrite Ht. reflexivity.
  - unfold movable. rewrite in_tabu_append. rewrite lab_upd_eq by lia. rewrite (Eo r Hr (lab l a) Hla Hne).
    unfold tmove_eqb. cbn. rewrite Nat.eqb_refl, !Z.eqb_refl. cbn. rewrite orb_true_r. reflexivity.
Qed.

Definition tabu_fuel (n reps : nat) : nat := (n ^ n * (n + 1) + n) * (reps + 2) + (reps + 1).

Lemma basic_keep_loop ties maxlen reps fuel stop visited tabu c r : N \/ ties_ok maxlen ties -> wf g labels0 ->
  c_ok obj attr c -> tabu_ok any_T tabu -> (N \/ tabu_fuel (gn g) reps < fuel) ->
  post E N (basic_loop obj g fuel maxlen reps attr stop visited labels0 tabu c r)
    (fun '(l', c', _) => wf g l' /\ keep_I l' /\ c_ok obj attr c').
Proof.
  intros Hties Hwf Hc Ht Hf.
  apply (basic_loop_post obj attr g E N keep_I any_T) with (M1 := keep_mu) (M2 := free ties) (B := gn g); auto.
  - intros m [H _]. auto.
  - intros l a z [Hl _] [HI _] Ha. split; [auto|]. cbn. apply HI, nth_In. lia.
  - intros l a z [Hl _] HI Hlm. apply Hupd; auto; [eapply legal_lt; eauto|eapply legal_In; eauto].
  - intros l m [Hl _] [HI _] [Ha Hn] _. apply Hupd; auto. apply HI; auto.
  - intros l a z q [Hl _] HI Hlm Eq Hq. apply (keep_step l a z q); auto;
      [eapply legal_lt; eauto|eapply legal_In; eauto|apply legal_keep; auto].
  - intros l m q [Hl _] HI [Ha Hn] _ Eq Hq _. assert (Hr : In (mv_new m) l) by (apply HI; auto).
    apply (keep_step l _ _ q); auto; [eapply Hlone; eauto|lra].
  - intros l m a z q [Hl _] HI _ _ _ _ [Hl2 _] HI2 Hlm. apply Hupd; auto; [eapply legal_lt; eauto|].
    apply HI2, HI. eapply legal_In; eauto.
  - intros l m a z q q1 q2 [Hl _] HI [Hx Hn] _ Eq Hq [Hl2 _] HI2 Hlm Eq1 Hq1 Eq2 Hq2 _.
    pose proof (legal_lt _ _ _ Hlm) as Ha. destruct (legal_keep l a z Hl Hlm) as [Hd [Hne Hmate]].
    apply (keep_step _ a z q2); auto; [apply HI2, HI; eapply legal_In; eauto|].
    destruct (Nat.eq_dec a (mv_area m)) as [->|Hax].
    + rewrite lab_upd_eq by lia. rewrite upd_upd.
      assert (Hn' : In (mv_new m) l) by (apply HI; auto). apply In_nth_error in Hn'. destruct Hn' as [b Hb].
      destruct (Nat.eq_dec b (mv_area m)) as [->|Hba].
      * exfalso. rewrite <- (lab_of_nth_error _ _ _ Hb) in Eq. apply self_zero in Eq; auto. lra.
      * apply nth_error_In with (n := b). rewrite nth_error_upd_ne by auto. exact Hb.
    + apply (Hstale l _ _ a z q1 q2); auto.
  - destruct Hties as [HN|Hties]; [auto|right]. split; [intros; apply free_bound|].
    split; [intros; apply free_append; auto|].
    split; [intros l a z q [Hl _] HI Ha Eq Hq; eapply keep_mu_le; eauto|].
    split; [intros l a z q [Hl _] HI Ha Eq Hq; eapply keep_mu_lt; eauto|].
    intros l tb a z q [Hl _] HI Hlm Htb Eq Hq. destruct (legal_keep l a z Hl Hlm) as [_ [Hne _]].
    pose proof (legal_lt _ _ _ Hlm) as Ha. destruct (Qlt_le_dec q 0) as [Hlt|Hge]; [left; eapply keep_mu_lt; eauto|right].
    split; [eapply keep_mu_le; eauto|]. destruct ties as [[A B]|].
    + apply free_move; auto. eapply legal_In; eauto.
    + exfalso. apply (tie_zero l a z q); auto. lra.
  - split; [intros z; tauto|apply no_worse_refl; apply Hwf].
  - destruct Hf as [HN|Hf]; [auto|right]. pose proof (az_m_bound obj attr g labels0 (value labels0) (proj1 Hwf)) as Hb.
    fold (keep_mu labels0) in Hb. pose proof (free_bound ties labels0 tabu) as Hfr. unfold weight. unfold tabu_fuel in Hf.
    assert (keep_mu labels0 * (gn g + 1) <= gn g ^ gn g * (gn g + 1)) by (apply Nat.mul_le_mono_r; auto).
    assert ((keep_mu labels0 * (gn g + 1) + free ties labels0 tabu) * (reps + 2) <= (gn g ^ gn g * (gn g + 1) + gn g) * (reps + 2))
      by (apply Nat.mul_le_mono_r; lia). lia.
Qed.

Lemma basic_keep_component ties maxlen reps fuel c r : N \/ ties_ok maxlen ties -> wf g labels0 -> c_ok obj attr c ->
  (N \/ tabu_fuel (gn g) reps < fuel) ->
  post E N (basic_component obj g fuel maxlen reps labels0 attr c r)
    (fun '(l', _, _) => wf g l' /\ keep_I l').
Proof.
  intros Hties Hwf Hc Hf. unfold basic_component. destruct (Nat.eqb _ 1).
  - cbn [post]. split; [auto|]. split; [intros z; tauto|apply no_worse_refl; apply Hwf].
  - eapply (post_weaken E E N N); [auto|auto| |apply (basic_keep_loop ties); auto].
    + intros [[l' c'] r'] _ [H1 [H2 _]]. auto.
    + intros m [].
Qed.
End Any.

(** ** the objectives *)
Section Pairwise.
Local Open Scope Q_scope.
Variable d : list Q -> list Q -> Q.
Hypothesis Hs : forall x y, d x y == d y x.
Hypothesis Hz : forall x, d x x == 0.
Hypothesis Hpos : forall x y, 0 <= d x y.
Variable attr : list (list Q).

(** distances from [a] to the members of region [r] *)
Definition near (l : list Z) (a : nat) (r : Z) : Q :=
  sumQ (map (fun b => if Z.eqb r (lab l b) then dist d attr a b else 0) (others (length l) a)).

Lemma pairwise_near l a r q : (a < length l)%nat -> o_update (pairwise d) a r l attr = Ok q ->
  q == near l a r - near l a (lab l a) /\ In r l.
Proof.
  intros Ha H. cbn in H. unfold pairwise_update in H. binv H. binv H.
  apply metric_to_point_inv in E. apply metric_to_point_inv in E0.
  destruct E as [-> _], E0 as [-> Hne]. injection H as <-. split; [|apply rows_of_nonempty in Hne; auto].
  unfold near.
  rewrite <- (P_Objective.sum_rows d l r attr a), <- (P_Objective.sum_rows d l (lab l a) attr a) by (unfold dist; auto). reflexivity.
Qed.

Lemma near_nonneg l a r : 0 <= near l a r.
Proof.
  apply sumQ_nonneg. intros b _.
  destruct (Z.eqb _ _); [apply Hpos|lra].
Qed.

Lemma near_lone l a r : (forall b, (b < length l)%nat -> b <> a -> lab l b <> r) -> near l a r == 0.
Proof.
  intros H. unfold near. rewrite (sumQ_ext _ (fun _ => 0)).
  - induction (others (length l) a) as [|x t IH]; cbn [map]; rewrite ?sumQ_nil, ?sumQ_cons; [reflexivity|]. rewrite IH. ring.
  - intros b Hb. apply others_In in Hb. destruct (Z.eqb_spec r (lab l b)) as [E|E]; [|reflexivity].
    exfalso. apply (H b); tauto || auto.
Qed.

Lemma mate_dec (l : list Z) a : (exists b, (b < length l)%nat /\ b <> a /\ lab l b = lab l a) \/
  (forall b, (b < length l)%nat -> b <> a -> lab l b <> lab l a).
Proof.
  destruct (existsb (fun b => Z.eqb (lab l b) (lab l a)) (others (length l) a)) eqn:E.
  - left. apply existsb_exists in E. destruct E as [b [Hb E]]. apply others_In in Hb. apply Z.eqb_eq in E. exists b. tauto.
  - right. intros b Hb Hne Heq. assert (H : existsb (fun b => Z.eqb (lab l b) (lab l a)) (others (length l) a) = true).
    { apply existsb_exists. exists b. split; [apply others_In; auto|apply Z.eqb_eq; auto]. }
    congruence.
Qed.

Lemma mate_stays (l : list Z) a r : (exists b, (b < length l)%nat /\ b <> a /\ lab l b = lab l a) ->
  In (lab l a) (upd l a r).
Proof.
  intros [b [Hb [Hne E]]]. apply nth_error_In with (n := b). rewrite nth_error_upd_ne by auto.
  rewrite <- E. apply lab_nth_error; auto.
Qed.

Lemma pairwise_lone l a r q : (a < length l)%nat -> o_update (pairwise d) a r l attr = Ok q -> q < 0 ->
  In (lab l a) (upd l a r).
Proof.
  intros Ha Eq Hq. apply pairwise_near in Eq; auto. destruct Eq as [Eq _].
  apply mate_stays. destruct (mate_dec l a) as [H|H]; [auto|exfalso].
  rewrite (near_lone l a (lab l a) H) in Eq. pose proof (near_nonneg l a r). lra.
Qed.

Lemma pairwise_stale l x e a r q1 q2 : (x < length l)%nat -> (a < length l)%nat -> a <> x -> lab l a <> r ->
  (exists b, (b < length l)%nat /\ b <> a /\ lab l b = lab l a) ->
  o_update (pairwise d) a r l attr = Ok q1 -> 0 < q1 ->
  o_update (pairwise d) a r (upd l x e) attr = Ok q2 -> q2 <= 0 ->
  In (lab (upd l x e) a) (upd (upd l x e) a r).
Proof.
  intros Hx Ha Hax Hne [b [Hb [Hba Eb]]] E1 Hq1 E2 Hq2.
  apply pairwise_near in E1; auto. apply pairwise_near in E2; [|rewrite upd_length; auto].
  destruct E1 as [E1 _], E2 as [E2 _]. apply mate_stays.
  destruct (mate_dec (upd l x e) a) as [H|H]; [auto|exfalso].
  rewrite (near_lone (upd l x e) a _ H) in E2.
  assert (Hbx : b = x).
  { destruct (Nat.eq_dec b x) as [Hbx|Hbx]; [auto|exfalso]. apply (H b); [rewrite upd_length; auto|auto|].
    rewrite !lab_upd_ne by auto. auto. }
  subst b.
  assert (Hle : near l a r <= near (upd l x e) a r).
  { unfold near. rewrite upd_length. apply sumQ_le. intros b Hb'. destruct (Nat.eq_dec b x) as [->|Hbx].
    - rewrite Eb. destruct (Z.eqb_spec r (lab l a)) as [E|_]; [congruence|]. destruct (Z.eqb _ _); [apply Hpos|lra].
    - rewrite lab_upd_ne by auto. lra. }
  pose proof (near_nonneg l a (lab l a)). lra.
Qed.

Lemma pairwise_upd_post l a r N : (a < length l)%nat -> In r l ->
  post noexn N (o_update (pairwise d) a r l attr) (fun _ => True).
Proof.
  intros Ha Hr. cbn. unfold pairwise_update.
  rewrite metric_to_point_Ok by (apply rows_of_nonempty, nth_In; auto). cbn [bind].
  rewrite metric_to_point_Ok by (apply rows_of_nonempty; auto). cbn [bind post]. auto.
Qed.
End Pairwise.

Section Centered.
Lemma centered_In d center red l a r attr q : o_update (centered d center red) a r l attr = Ok q ->
  In r l /\ In (lab l a) (upd l a r).
Proof.
  cbn. unfold center_update, center_update_st. intros H. binv H. binv E. binv E. binv E. binv E.
  apply heterogeneity_of_inv in E1. apply heterogeneity_of_inv in E2. tauto.
Qed.
End Centered.

(** ** fit *)
Lemma self_pow_le m n : m <= n -> m ^ m <= n ^ n.
Proof.
  intros H. destruct m as [|m].
  - change (0 ^ 0) with 1. destruct n; [cbn; lia|]. pose proof (Nat.pow_nonzero (S n) (S n)). lia.
  - etransitivity; [apply Nat.pow_le_mono_l; exact H|]. apply Nat.pow_le_mono_r; lia.
Qed.
Lemma tabu_fuel_mono m n reps : m <= n -> tabu_fuel m reps <= tabu_fuel n reps.
Proof.
  intros H. unfold tabu_fuel. apply Nat.add_le_mono_r. apply Nat.mul_le_mono_r.
  apply Nat.add_le_mono; [|exact H]. apply Nat.mul_le_mono; [apply self_pow_le; auto|lia].
Qed.

Lemma two_cover (l : list Z) : length (nodup Z.eq_dec l) <= 2 -> exists A B, A <> B /\ forall z, In z l -> z = A \/ z = B.
Proof.
  intros H. assert (Hin : forall z, In z l -> In z (nodup Z.eq_dec l)) by (intros z Hz; apply nodup_In; auto).
  pose proof (NoDup_nodup Z.eq_dec l) as Hnd. destruct (nodup Z.eq_dec l) as [|x [|y [|w t]]]; cbn [length] in H; try lia.
  - exists 0%Z, 1%Z. split; [lia|]. intros z Hz. destruct (Hin z Hz).
  - exists x, (x + 1)%Z. split; [lia|]. intros z Hz. destruct (Hin z Hz) as [->|[]]; auto.
  - exists x, y. split; [inversion Hnd as [|? ? Hx]; subst; intros ->; apply Hx; left; auto|].
    intros z Hz. destruct (Hin z Hz) as [->|[->|[]]]; auto.
Qed.

Section Fit.
Variable O : objfun.
Variable attr : list (list Q).
Variable g : graph.
Hypothesis Hattr : length attr = gn g.
Variable order : list edge -> list edge.
Hypothesis Hord : forall l, Permutation (order l) l.

Theorem basic_fit_any fuel maxlen reps n_regions initial c0 r :
  good_input g n_regions initial ->
  post anyexn True (basic_fit order O fuel maxlen reps g attr n_regions initial c0 r)
    (fun '((labels, _), _) => exists labels0, started_from g n_regions initial labels0 /\
       length labels = gn g /\
       forall c, c < n_components g -> wf (comp_graph g c) (comp_part g labels c) /\
         any_I O (attr_c attr g c) (comp_part g labels0 c) (comp_part g labels c)).
Proof.
  intros Hgood. unfold basic_fit.
  eapply (post_weaken anyexn anyexn True True); [auto|auto| |
    apply (fit_post common _ _ order g attr anyexn True (fun _ => True)
      (fun c l l' => wf (comp_graph g c) l' /\ any_I O (attr_c attr g c) l l'))]; auto.
  - intros [[labels s'] r'] _ [_ H]. exact H.
  - intros c l s rg Hc Hwf _. unfold run_component. fold (attr_c attr g c). unfold start_common.
    destruct (o_call O l (attr_c attr g c)) as [x|e|] eqn:Ex; cbn [bind post]; unfold anyexn; auto.
    eapply (post_weaken anyexn anyexn True True); [auto|auto| |
      apply (basic_any_component O (attr_c attr g c) (comp_graph g c)); auto].
    + intros [[l' c'] r'] _ [H1 H2]. split; [auto|]. split; [destruct Hwf, H1; lia|auto].
    + apply attr_c_length.
    + split; reflexivity.
Qed.

(** nothing can be moved round for ever: no ties, or two regions and the default tabu list *)
Definition quiet (obj : objfun) (maxlen : option nat) (n_regions : Z) : Prop :=
  (forall c, c < n_components g -> no_ties obj (attr_c attr g c)) \/ (maxlen = None /\ (n_regions <= 2)%Z).

Lemma quiet_start obj maxlen n_regions initial (N : Prop) : N \/ quiet obj maxlen n_regions -> good_input g n_regions initial ->
  allowed_start g (fun c l => c < n_components g -> exists ties, N \/ ties_ok obj (attr_c attr g c) l maxlen ties) n_regions initial.
Proof.
  intros [HN|[Hno|[-> H2]]] Hgood; unfold allowed_start.
  - destruct initial; intros; exists None; auto.
  - destruct initial; intros; exists None; right; cbn; auto.
  - destruct initial as [l|].
    + destruct Hgood as [[Hlen [Hn _]] _]. intros c _ Hc. destruct (two_cover l) as [A [B [HAB HAB2]]].
      { unfold n_labels in Hn. rewrite Hn. lia. }
      exists (Some (A, B)). right. split; [reflexivity|]. split; [auto|].
      intros z Hz. apply HAB2. apply comp_part_In in Hz; auto. destruct Hz as [a [_ [_ Ha]]]. eapply nth_error_In; eauto.
    + intros c l Hl Hc. exists (Some (0, 1)%Z). right. split; [reflexivity|]. split; [lia|].
      intros z Hz. specialize (Hl z Hz). lia.
Qed.

(** the pairwise objective *)
Section Pair.
Variable d : list Q -> list Q -> Q.
Hypothesis Hs : forall x y, (d x y == d y x)%Q.
Hypothesis Hz : forall x, (d x x == 0)%Q.
Hypothesis Hpos : forall x y, (0 <= d x y)%Q.
Variable N : Prop.

Theorem basic_fit_pairwise fuel maxlen reps n_regions initial c0 r :
  N \/ quiet (pairwise d) maxlen n_regions ->
  good_input g n_regions initial -> (N \/ tabu_fuel (gn g) reps < fuel) ->
  post noexn N (basic_fit order (pairwise d) fuel maxlen reps g attr n_regions initial c0 r)
    (fun '((labels, _), _) => exists labels0, started_from g n_regions initial labels0 /\
       length labels = gn g /\
       forall c, c < n_components g -> wf (comp_graph g c) (comp_part g labels c) /\
         keep_I (pairwise d) (attr_c attr g c) (comp_part g labels0 c) (comp_part g labels c)).
Proof.
  intros Hnt Hgood Hf. pose proof (quiet_start _ _ _ _ _ Hnt Hgood) as Hst. unfold basic_fit.
  eapply (post_weaken noexn noexn N N); [auto|auto| |
    apply (fit_post_from common _ _ order g attr noexn N (fun _ _ => True)
      (fun c l l' => wf (comp_graph g c) l' /\ keep_I (pairwise d) (attr_c attr g c) l l')
      (fun c l => c < n_components g -> exists ties, N \/ ties_ok (pairwise d) (attr_c attr g c) l maxlen ties))]; auto.
  - intros [[labels s'] r'] _ [_ H]. exact H.
  - intros c l s rg k Hc Hk Hwf HA _. destruct (HA Hc) as [ties Hties]. unfold run_component. fold (attr_c attr g c). unfold start_common.
    pose proof (pairwise_exact d (attr_c attr g c) Hs Hz) as Hexc.
    pose proof (attr_c_length attr g c) as Hla.
    destruct (proj1 Hexc l) as [x Ex]; [rewrite Hla; apply Hwf|]. rewrite Ex. cbn [bind].
    eapply (post_weaken noexn noexn N N); [auto|auto| |
      apply (basic_keep_component (pairwise d) (attr_c attr g c) (comp_graph g c) Hla l noexn N Hexc) with (ties := ties);
      auto].
    + intros [[l' c'] r'] _ [H1 H2]. split; [auto|]. split; [destruct Hwf, H1; lia|auto].
    + intros l1 a z q Hl1 Ha Eq. apply pairwise_near in Eq; auto; [tauto|lia].
    + intros l1 a z q Hl1 Ha _ Eq Hq. apply (pairwise_lone d Hs Hz Hpos (attr_c attr g c)) with (q := q); auto. lia.
    + intros l1 x0 e a z q1 q2 Hl1 Hx Ha Hne Hlab Hm E1 Hq1 E2 Hq2.
      apply (pairwise_stale d Hs Hz Hpos (attr_c attr g c)) with (q1 := q1) (q2 := q2); auto; try lia.
      rewrite Hl1. exact Hm.
    + intros l1 a z Hl1 Ha Hin. apply pairwise_upd_post; auto. lia.
    + split; reflexivity.
    + destruct Hf as [HN|Hf]; [auto|right]. pose proof (tabu_fuel_mono _ _ reps (comp_graph_le g c)). lia.
Qed.
End Pair.

(** the center objectives *)
Section Cent.
Variables (d : list Q -> list Q -> Q) (center : list (list Q) -> list Q).
Variable N : Prop.

Theorem basic_fit_centered fuel maxlen reps n_regions initial c0 r :
  N \/ quiet (centered d center sumQ) maxlen n_regions ->
  good_input g n_regions initial -> (N \/ tabu_fuel (gn g) reps < fuel) ->
  post anyexn N (basic_fit order (centered d center sumQ) fuel maxlen reps g attr n_regions initial c0 r)
    (fun '((labels, _), _) => exists labels0, started_from g n_regions initial labels0 /\
       length labels = gn g /\
       forall c, c < n_components g -> wf (comp_graph g c) (comp_part g labels c) /\
         keep_I (centered d center sumQ) (attr_c attr g c) (comp_part g labels0 c) (comp_part g labels c)).
Proof.
  intros Hnt Hgood Hf. pose proof (quiet_start _ _ _ _ _ Hnt Hgood) as Hst. unfold basic_fit.
  eapply (post_weaken anyexn anyexn N N); [auto|auto| |
    apply (fit_post_from common _ _ order g attr anyexn N (fun _ _ => True)
      (fun c l l' => wf (comp_graph g c) l' /\ keep_I (centered d center sumQ) (attr_c attr g c) l l')
      (fun c l => c < n_components g -> exists ties, N \/ ties_ok (centered d center sumQ) (attr_c attr g c) l maxlen ties))]; auto.
  - intros [[labels s'] r'] _ [_ H]. exact H.
  - intros c l s rg k Hc Hk Hwf HA _. destruct (HA Hc) as [ties Hties]. unfold run_component. fold (attr_c attr g c). unfold start_common.
    pose proof (centered_exact d center (attr_c attr g c)) as Hexc.
    pose proof (attr_c_length attr g c) as Hla.
    destruct (proj1 Hexc l) as [x Ex]; [rewrite Hla; apply Hwf|]. rewrite Ex. cbn [bind].
    eapply (post_weaken anyexn anyexn N N); [auto|auto| |
      apply (basic_keep_component (centered d center sumQ) (attr_c attr g c) (comp_graph g c) Hla l anyexn N Hexc) with (ties := ties);
      auto].
    + intros [[l' c'] r'] _ [H1 H2]. split; [auto|]. split; [destruct Hwf, H1; lia|auto].
    + intros l1 a z q Hl1 Ha Eq. apply centered_In in Eq. tauto.
    + intros l1 a z q Hl1 Ha _ Eq Hq. apply centered_In in Eq. tauto.
    + intros l1 x0 e a z q1 q2 Hl1 Hx Ha Hne Hlab Hm E1 Hq1 E2 Hq2. apply centered_In in E2. tauto.
    + intros l1 a z Hl1 Ha Hin. destruct (o_update _ _ _ _ _) as [q|e|] eqn:Eq; cbn [post]; unfold anyexn; auto.
      exfalso. cbn in Eq. unfold center_update, center_update_st in Eq.
      assert (Hh : forall l r, heterogeneity_of d center sumQ l r (attr_c attr g c) <> NoFuel).
      { intros l2 r2. unfold heterogeneity_of. destruct (metric_to_point _ _ _) as [q|e|] eqn:Em; cbn [bind]; try discriminate.
        unfold metric_to_point in Em. destruct (rows_of _ _ _); discriminate. }
      repeat match type of Eq with context [heterogeneity_of d center sumQ ?l ?r ?a] =>
        let E1 := fresh in destruct (heterogeneity_of d center sumQ l r a) eqn:E1; cbn [bind] in Eq; [|discriminate|eapply Hh; eauto]
      end; discriminate.
    + split; reflexivity.
    + destruct Hf as [HN|Hf]; [auto|right]. pose proof (tabu_fuel_mono _ _ reps (comp_graph_le g c)). lia.
Qed.
End Cent.
End Fit.
