(** Proofs about the objective functions. *)
From Verif Require Import Base Spec M_Graph P_Graph M_Util P_Base M_Objective P_Sum.
Local Open Scope Q_scope.

(** ** sums over pairs *)
Definition psum {A} (F : A -> A -> Q) (l : list A) : Q :=
  sumQ (map (fun ij => F (fst ij) (snd ij)) (pairs l)).

Lemma psum_cons {A} (F : A -> A -> Q) x l : psum F (x :: l) == sumQ (map (F x) l) + psum F l.
Proof. unfold psum. cbn. rewrite map_app, sumQ_app, map_map. reflexivity. Qed.

Lemma psum_perm {A} (F : A -> A -> Q) l m : (forall x y, F x y == F y x) ->
  Permutation l m -> psum F l == psum F m.
Proof.
  intros Hs. induction 1.
  - reflexivity.
  - rewrite !psum_cons, IHPermutation. rewrite (sumQ_map_perm _ _ _ H). reflexivity.
  - rewrite !psum_cons. cbn [map]. rewrite !sumQ_cons, (Hs x y). ring.
  - rewrite IHPermutation1. auto.
Qed.

Lemma psum_snoc {A} (F : A -> A -> Q) l x : psum F (l ++ [x]) == psum F l + sumQ (map (fun y => F y x) l).
Proof.
  induction l as [|y l IH]; cbn [app].
  - rewrite psum_cons. unfold psum. cbn [map pairs]. rewrite !sumQ_nil. ring.
  - rewrite !psum_cons, IH, map_app, sumQ_app. cbn [map]. rewrite !sumQ_cons, sumQ_nil. ring.
Qed.

Lemma psum_ext {A} (F G : A -> A -> Q) l : (forall x y, In x l -> In y l -> F x y == G x y) ->
  psum F l == psum G l.
Proof.
  induction l as [|x l IH]; intros H; [reflexivity|]. rewrite !psum_cons.
  rewrite IH by (intros; apply H; right; auto).
  rewrite (sumQ_ext (F x) (G x)); [reflexivity|]. intros y Hy. apply H; [left|right]; auto.
Qed.

Lemma psum_nonneg {A} (F : A -> A -> Q) l : (forall x y, In x l -> In y l -> 0 <= F x y) -> 0 <= psum F l.
Proof.
  induction l as [|x l IH]; intros H; [unfold psum; cbn; lra|].
  pose proof (psum_cons F x l) as E.
  assert (0 <= psum F l) by (apply IH; intros; apply H; right; auto).
  assert (0 <= sumQ (map (F x) l)) by (apply sumQ_nonneg; intros; apply H; [left|right]; auto). lra.
Qed.

(** summing the pairs inside every class is summing the pairs with equal class *)
Lemma psum_classes {A} (F : A -> A -> Q) (c : A -> Z) U l : NoDup U -> (forall x, In x l -> In (c x) U) ->
  sumQ (map (fun r => psum F (filter (fun x => Z.eqb (c x) r) l)) U) ==
  psum (fun x y => if Z.eqb (c x) (c y) then F x y else 0) l.
Proof.
  intros HU. induction l as [|x l IH]; intros Hin.
  - cbn. apply sumQ_zero. reflexivity.
  - rewrite psum_cons, <- IH by (intros; apply Hin; right; auto).
    assert (E : forall r, In r U -> psum F (filter (fun y => Z.eqb (c y) r) (x :: l)) ==
      (if Z.eq_dec r (c x) then sumQ (map (F x) (filter (fun y => Z.eqb (c y) r) l)) else 0) +
      psum F (filter (fun y => Z.eqb (c y) r) l)).
    { intros r Hr. cbn [filter]. destruct (Z.eqb_spec (c x) r) as [E|E].
      - destruct (Z.eq_dec r (c x)); [|congruence]. rewrite psum_cons. ring.
      - destruct (Z.eq_dec r (c x)); [congruence|]. ring. }
    rewrite (sumQ_ext _ _ _ E), sumQ_plus.
    rewrite (sumQ_one Z.eq_dec (c x) (fun r => sumQ (map (F x) (filter (fun y => Z.eqb (c y) r) l)))).
    + rewrite sumQ_filter.
      rewrite (sumQ_ext (fun x0 => if Z.eqb (c x0) (c x) then F x x0 else 0)
                        (fun x0 => if Z.eqb (c x) (c x0) then F x x0 else 0)); [reflexivity|].
      intros y _. rewrite (Z.eqb_sym (c x) (c y)). reflexivity.
    + auto.
    + apply Hin. left; auto.
Qed.

Definition dist (d : list Q -> list Q -> Q) (attr : list (list Q)) (i j : nat) : Q :=
  d (row attr i) (row attr j).

Lemma pairwise_call_psum d labels attr : exists v, pairwise_call d labels attr = Ok v /\
  v == psum (fun i j => if Z.eqb (lab labels i) (lab labels j) then dist d attr i j else 0)
            (seq 0 (length labels)).
Proof.
  eexists. split; [reflexivity|].
  rewrite <- (psum_classes (dist d attr) (lab labels) (uniqueZ labels)).
  - reflexivity.
  - apply uniqueZ_NoDup.
  - intros a Ha. apply in_seq in Ha. apply uniqueZ_In. apply nth_In. lia.
Qed.

Lemma heterogeneity_psum d labels :
  heterogeneity d labels ==
  psum (fun i j => if Z.eqb (lab labels i) (lab labels j) then d i j else 0) (seq 0 (length labels)).
Proof.
  unfold heterogeneity. induction (length labels) as [|n IH].
  - reflexivity.
  - rewrite seq_S, map_app, sumQ_app, psum_snoc, IH. cbn [map Nat.add]. rewrite sumQ_cons, sumQ_nil. ring.
Qed.

Theorem pairwise_call_spec d labels attr : exists v, pairwise_call d labels attr = Ok v /\
  v == heterogeneity (dist d attr) labels.
Proof.
  destruct (pairwise_call_psum d labels attr) as [v [E Hv]]. exists v. split; auto.
  rewrite Hv, heterogeneity_psum. reflexivity.
Qed.

(** ** moving one area *)
Lemma lab_upd_eq labels a r : (a < length labels)%nat -> lab (upd labels a r) a = r.
Proof. intros H. apply nth_upd_eq; auto. Qed.
Lemma lab_upd_ne labels a b r : b <> a -> lab (upd labels a r) b = lab labels b.
Proof. intros H. apply nth_upd_ne; auto. Qed.

Lemma seq_perm_take n a : (a < n)%nat ->
  Permutation (seq 0 n) (a :: filter (fun b => negb (Nat.eqb b a)) (seq 0 n)).
Proof.
  intros Ha. apply NoDup_Permutation.
  - apply seq_NoDup.
  - constructor; [|apply filter_seq_NoDup]. rewrite filter_In, Nat.eqb_refl. intros [_ H]; discriminate.
  - intros x. cbn. rewrite filter_In, !in_seq, negb_true_iff, Nat.eqb_neq. lia.
Qed.

Definition others (n a : nat) : list nat := filter (fun b => negb (Nat.eqb b a)) (seq 0 n).
Lemma others_In n a b : In b (others n a) <-> (b < n)%nat /\ b <> a.
Proof. unfold others. rewrite filter_In, in_seq, negb_true_iff, Nat.eqb_neq. lia. Qed.

(** contribution of the pairs involving [a] *)
Lemma het_split d labels a : (forall i j, d i j == d j i) -> (a < length labels)%nat ->
  heterogeneity d labels ==
  sumQ (map (fun b => if Z.eqb (lab labels a) (lab labels b) then d a b else 0) (others (length labels) a)) +
  psum (fun i j => if Z.eqb (lab labels i) (lab labels j) then d i j else 0) (others (length labels) a).
Proof.
  intros Hs Ha. rewrite heterogeneity_psum.
  rewrite (psum_perm _ _ (a :: others (length labels) a)).
  - apply psum_cons.
  - intros x y. rewrite (Z.eqb_sym (lab labels y)). destruct (Z.eqb _ _); [apply Hs|reflexivity].
  - apply seq_perm_take; auto.
Qed.

(** sum of the distances from [a] to the members of region r *)
Lemma het_move d labels a r : (forall i j, d i j == d j i) -> (a < length labels)%nat ->
  heterogeneity d (upd labels a r) - heterogeneity d labels ==
  sumQ (map (fun b => if Z.eqb r (lab labels b) then d a b else 0) (others (length labels) a)) -
  sumQ (map (fun b => if Z.eqb (lab labels a) (lab labels b) then d a b else 0) (others (length labels) a)).
Proof.
  intros Hs Ha. rewrite (het_split d labels a Hs Ha).
  rewrite (het_split d (upd labels a r) a Hs) by (rewrite upd_length; auto). rewrite upd_length.
  rewrite (sumQ_ext (fun b => if Z.eqb (lab (upd labels a r) a) (lab (upd labels a r) b) then d a b else 0)
                    (fun b => if Z.eqb r (lab labels b) then d a b else 0)).
  - rewrite (psum_ext (fun i j => if Z.eqb (lab (upd labels a r) i) (lab (upd labels a r) j) then d i j else 0)
                      (fun i j => if Z.eqb (lab labels i) (lab labels j) then d i j else 0)).
    + ring.
    + intros x y Hx Hy. apply others_In in Hx. apply others_In in Hy. rewrite !lab_upd_ne by tauto. reflexivity.
  - intros b Hb. apply others_In in Hb. rewrite lab_upd_eq by auto. rewrite lab_upd_ne by tauto. reflexivity.
Qed.

(** what [pairwise_update] sums *)
Lemma sum_rows d labels r attr a :
  (forall i j, dist d attr i j == dist d attr j i) -> (forall i, dist d attr i i == 0) ->
  (a < length labels)%nat ->
  sumQ (map (fun x => d x (row attr a)) (rows_of labels r attr)) ==
  sumQ (map (fun b => if Z.eqb r (lab labels b) then dist d attr a b else 0) (others (length labels) a)).
Proof.
  intros Hs Hz Ha. unfold rows_of. rewrite map_map. unfold where_eq. rewrite sumQ_filter.
  rewrite (sumQ_map_perm _ _ _ (seq_perm_take (length labels) a Ha)). cbn [map]. rewrite sumQ_cons.
  fold (others (length labels) a).
  assert (E : (if Z.eqb (lab labels a) r then d (row attr a) (row attr a) else 0) == 0).
  { destruct (Z.eqb (lab labels a) r); [apply Hz|reflexivity]. }
  rewrite E.
  rewrite (sumQ_ext (fun x => if Z.eqb (lab labels x) r then d (row attr x) (row attr a) else 0)
                    (fun b => if Z.eqb r (lab labels b) then dist d attr a b else 0)); [ring|].
  intros b _. rewrite Z.eqb_sym. destruct (Z.eqb r (lab labels b)); [|reflexivity].
  unfold dist in *. apply Hs.
Qed.

Lemma metric_to_point_Ok d rows p : rows <> [] -> metric_to_point d rows p = Ok (map (fun x => d x p) rows).
Proof. destruct rows; [congruence|reflexivity]. Qed.

Lemma metric_to_point_inv d rows p ds : metric_to_point d rows p = Ok ds -> ds = map (fun x => d x p) rows /\ rows <> [].
Proof. destruct rows; cbn; intros H; [discriminate|]. injection H as <-. split; [auto|discriminate]. Qed.

Theorem pairwise_update_spec d labels attr a r q :
  (forall i j, dist d attr i j == dist d attr j i) -> (forall i, dist d attr i i == 0) ->
  (a < length labels)%nat -> pairwise_update d a r labels attr = Ok q ->
  q == heterogeneity (dist d attr) (upd labels a r) - heterogeneity (dist d attr) labels.
Proof.
  intros Hs Hz Ha H. unfold pairwise_update in H. binv H. binv H.
  apply metric_to_point_inv in E. apply metric_to_point_inv in E0.
  destruct E as [-> _], E0 as [-> _]. injection H as <-.
  rewrite !sum_rows by auto. symmetry. apply het_move; auto.
Qed.

Lemma where_eq_nonempty labels r : In r labels <-> where_eq labels r <> [].
Proof.
  split.
  - intros H E. apply In_nth_error in H. destruct H as [a Ha]. apply where_eq_In in Ha. rewrite E in Ha. destruct Ha.
  - intros H. destruct (where_eq labels r) as [|a l] eqn:E; [congruence|].
    assert (Hin : In a (where_eq labels r)) by (rewrite E; left; auto).
    apply where_eq_In in Hin. eapply nth_error_In; eauto.
Qed.

Lemma rows_of_nonempty labels r attr : In r labels <-> rows_of labels r attr <> [].
Proof.
  rewrite where_eq_nonempty. unfold rows_of. destruct (where_eq labels r); cbn; split; congruence.
Qed.

Theorem pairwise_exact d attr :
  (forall x y, d x y == d y x) -> (forall x, d x x == 0) -> exact_objective (pairwise d) attr.
Proof.
  intros Hs Hz. split; [|split].
  - intros labels _. destruct (pairwise_call_spec d labels attr) as [v [E _]]. exists v; auto.
  - intros a r labels _ Ha Hr _. cbn. unfold pairwise_update.
    rewrite metric_to_point_Ok by (apply rows_of_nonempty, nth_In; auto). cbn [bind].
    rewrite metric_to_point_Ok by (apply rows_of_nonempty; auto). cbn [bind]. eauto.
  - intros a r labels q Hl Ha H. cbn in H.
    destruct (pairwise_call_spec d labels attr) as [v [E Hv]].
    destruct (pairwise_call_spec d (upd labels a r) attr) as [v' [E' Hv']].
    exists v, v'. split; [auto|]. split; [auto|]. rewrite Hv, Hv'.
    apply pairwise_update_spec; auto; unfold dist; auto.
Qed.

(** ** the center objective *)
Lemma mapM_Ok {A B} (f : A -> out B) (g : A -> B) l :
  (forall x, In x l -> f x = Ok (g x)) -> mapM f l = Ok (map g l).
Proof.
  induction l as [|x l IH]; intros H; cbn; [reflexivity|].
  rewrite H by (left; auto). cbn. rewrite IH by (intros; apply H; right; auto). reflexivity.
Qed.

Definition hval (d : list Q -> list Q -> Q) (center : list (list Q) -> list Q) (red : list Q -> Q) labels r attr : Q :=
  red (map (fun x => d x (center (rows_of labels r attr))) (rows_of labels r attr)).

Lemma heterogeneity_of_Ok d center red labels r attr : In r labels ->
  heterogeneity_of d center red labels r attr = Ok (hval d center red labels r attr).
Proof.
  intros H. unfold heterogeneity_of. rewrite metric_to_point_Ok by (apply rows_of_nonempty; auto). reflexivity.
Qed.

Lemma heterogeneity_of_inv d center red labels r attr q :
  heterogeneity_of d center red labels r attr = Ok q -> In r labels /\ q = hval d center red labels r attr.
Proof.
  intros H. unfold heterogeneity_of in H. binv H. apply metric_to_point_inv in E. destruct E as [-> Hne].
  injection H as <-. split; [apply rows_of_nonempty in Hne; auto|reflexivity].
Qed.

Lemma center_call_Ok d center red labels attr :
  center_call d center red labels attr = Ok (red (map (fun r => hval d center red labels r attr) (uniqueZ labels))).
Proof.
  unfold center_call. rewrite (mapM_Ok _ (fun r => hval d center red labels r attr)); [reflexivity|].
  intros r Hr. apply heterogeneity_of_Ok. apply uniqueZ_In; auto.
Qed.

Lemma where_eq_upd_other labels a r s : s <> lab labels a -> s <> r ->
  where_eq (upd labels a r) s = where_eq labels s.
Proof.
  intros H1 H2. unfold where_eq. rewrite upd_length. apply filter_seq_ext. intros b Hb.
  destruct (Nat.eq_dec b a) as [->|Hne].
  - rewrite lab_upd_eq by auto. destruct (Z.eqb_spec r s); [congruence|]. destruct (Z.eqb_spec (lab labels a) s); congruence.
  - rewrite lab_upd_ne by auto. reflexivity.
Qed.

Lemma hval_upd_other d center red labels a r s attr : s <> lab labels a -> s <> r ->
  hval d center red (upd labels a r) s attr = hval d center red labels s attr.
Proof. intros H1 H2. unfold hval, rows_of. rewrite where_eq_upd_other by auto. reflexivity. Qed.

Lemma In_upd (labels : list Z) a r x : In x (upd labels a r) -> x = r \/ In x labels.
Proof.
  intros H. apply In_nth_error in H. destruct H as [b Hb]. apply nth_error_upd in Hb.
  destruct Hb as [[_ [_ ->]]|[_ Hb]]; [auto|right; eapply nth_error_In; eauto].
Qed.

Lemma In_upd_old (labels : list Z) a r x : In x labels -> x <> lab labels a -> In x (upd labels a r).
Proof.
  intros H Hne. apply In_nth_error in H. destruct H as [b Hb].
  apply nth_error_In with (n := b). apply nth_error_upd. right. split; auto.
  intros ->. apply Hne. symmetry. apply lab_of_nth_error; auto.
Qed.

Lemma In_upd_new (labels : list Z) a r : (a < length labels)%nat -> In r (upd labels a r).
Proof. intros H. apply nth_error_In with (n := a). apply nth_error_upd_eq; auto. Qed.

Lemma sumQ_split_two (f : Z -> Q) U x y : NoDup U -> In x U -> In y U -> x <> y ->
  sumQ (map f U) == f x + f y +
    sumQ (map (fun s => if Z.eq_dec s x then 0 else if Z.eq_dec s y then 0 else f s) U).
Proof.
  intros Hnd Hx Hy Hne.
  rewrite <- (sumQ_one Z.eq_dec x f U Hnd Hx) at 1.
  rewrite <- (sumQ_one Z.eq_dec y f U Hnd Hy) at 1.
  rewrite <- !sumQ_plus. apply sumQ_ext. intros s _.
  destruct (Z.eq_dec s x), (Z.eq_dec s y); try congruence; ring.
Qed.

(** the label set is unchanged by a move into an existing region out of a region with another area *)
Lemma upd_same_set (labels : list Z) a r : (a < length labels)%nat -> In r labels -> In (lab labels a) (upd labels a r) ->
  forall x, In x (upd labels a r) <-> In x labels.
Proof.
  intros Ha Hr Hd x. split.
  - intros H. apply In_upd in H. destruct H as [->|H]; auto.
  - intros H. destruct (Z.eq_dec x (lab labels a)) as [->|Hne]; auto. apply In_upd_old; auto.
Qed.

Theorem center_update_spec d center labels attr a r q :
  (a < length labels)%nat -> center_update d center sumQ a r labels attr = Ok q ->
  exists v v', center_call d center sumQ labels attr = Ok v /\
    center_call d center sumQ (upd labels a r) attr = Ok v' /\ q == v' - v.
Proof.
  intros Ha H. unfold center_update, center_update_st in H.
  binv H. binv E. binv E. binv E. binv E. injection E as <- <-. injection H as <-.
  apply heterogeneity_of_inv in E0. apply heterogeneity_of_inv in E1.
  apply heterogeneity_of_inv in E2. apply heterogeneity_of_inv in E3.
  destruct E0 as [_ ->], E1 as [Hr ->], E2 as [Hd ->], E3 as [_ ->].
  rewrite !center_call_Ok. eexists _, _. split; [reflexivity|]. split; [reflexivity|].
  rewrite (uniqueZ_ext (upd labels a r) labels) by (apply upd_same_set; auto).
  assert (Hdl : In (lab labels a) labels) by (apply nth_In; auto).
  destruct (Z.eq_dec r (lab labels a)) as [->|Hne].
  - unfold lab. rewrite upd_same by auto. ring.
  - rewrite (sumQ_split_two _ (uniqueZ labels) (lab labels a) r) by (auto using uniqueZ_NoDup; apply uniqueZ_In; auto).
    rewrite (sumQ_split_two (fun r0 => hval d center sumQ labels r0 attr) (uniqueZ labels) (lab labels a) r)
      by (auto using uniqueZ_NoDup; apply uniqueZ_In; auto).
    rewrite (sumQ_ext _ (fun s => if Z.eq_dec s (lab labels a) then 0 else if Z.eq_dec s r then 0 else hval d center sumQ labels s attr)).
    + ring.
    + intros s _. destruct (Z.eq_dec s (lab labels a)); [reflexivity|]. destruct (Z.eq_dec s r); [reflexivity|].
      rewrite hval_upd_other by auto. reflexivity.
Qed.

Lemma center_update_Ok d center red labels attr a r : (a < length labels)%nat -> In r labels ->
  (exists b, b <> a /\ nth_error labels b = nth_error labels a) ->
  exists q, center_update d center red a r labels attr = Ok q.
Proof.
  intros Ha Hr [b [Hb Eb]]. unfold center_update, center_update_st.
  rewrite heterogeneity_of_Ok by (apply nth_In; auto). cbn [bind].
  rewrite heterogeneity_of_Ok by auto. cbn [bind].
  rewrite heterogeneity_of_Ok.
  - cbn [bind]. rewrite heterogeneity_of_Ok by (apply In_upd_new; auto). cbn [bind]. eauto.
  - apply nth_error_In with (n := b). rewrite nth_error_upd_ne by auto. rewrite Eb. apply lab_nth_error; auto.
Qed.

Lemma center_update_restores d center red a r labels attr q labels' :
  (a < length labels)%nat -> center_update_st d center red a r labels attr = Ok (q, labels') -> labels' = labels.
Proof.
  intros Ha H. unfold center_update_st in H. binv H. binv H. binv H. binv H. injection H as _ <-.
  rewrite upd_upd. apply upd_same; auto.
Qed.

Theorem centered_exact d center attr : exact_objective (centered d center sumQ) attr.
Proof.
  split; [|split].
  - intros labels _. cbn. rewrite center_call_Ok. eauto.
  - intros a r labels _ Ha Hr Hb. apply center_update_Ok; auto.
  - intros a r labels q _ Ha H. cbn in *. apply center_update_spec; auto.
Qed.

(** ** manhattan is a symmetric distance vanishing on equal rows *)
Lemma manhattan_sym x : forall y, manhattan x y == manhattan y x.
Proof.
  induction x as [|a x IH]; intros [|b y]; cbn [manhattan]; try reflexivity.
  rewrite IH. rewrite Qabs.Qabs_Qminus. reflexivity.
Qed.
Lemma manhattan_zero x : manhattan x x == 0.
Proof.
  induction x as [|a x IH]; cbn [manhattan]; [reflexivity|]. rewrite IH.
  setoid_replace (a - a) with 0 by ring. reflexivity.
Qed.
Lemma manhattan_nonneg x : forall y, 0 <= manhattan x y.
Proof.
  induction x as [|a x IH]; intros [|b y]; cbn [manhattan]; try lra.
  pose proof (Qabs.Qabs_nonneg (a - b)). specialize (IH y). lra.
Qed.
