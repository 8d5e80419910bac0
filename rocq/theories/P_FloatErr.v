(** Proofs about rounding errors. *)
From Coq Require Import Qabs Qminmax Qround Qpower.
From Verif Require Import Base Spec M_Graph P_Graph M_Util P_Base P_Util M_Objective P_Sum P_Objective M_Azp P_Azp P_Strategy P_Fit P_AzpFit P_TwoRuns M_Float P_Float.
Local Open Scope Q_scope.

(** ** powers *)
Lemma qpow_nonneg q n : 0 <= q -> 0 <= qpow q n.
Proof. intros H. induction n as [|n IH]; cbn [qpow]; [lra|]. apply Qmult_le_0_compat; auto. Qed.
Lemma qpow_pos q n : 0 < q -> 0 < qpow q n.
Proof. intros H. induction n as [|n IH]; cbn [qpow]; [lra|]. apply Qmult_lt_0_compat; auto. Qed.
Lemma qpow_add q n m : qpow q (n + m) == qpow q n * qpow q m.
Proof. induction n as [|n IH]; cbn [qpow Nat.add]; [ring|]. rewrite IH. ring. Qed.
Lemma qpow_up q n m : 1 <= q -> (n <= m)%nat -> qpow q n <= qpow q m.
Proof.
  intros H Hle. replace m with (n + (m - n))%nat by lia. rewrite qpow_add. generalize (m - n)%nat. intros k.
  assert (Hk : 1 <= qpow q k).
  { induction k as [|k IH]; cbn [qpow]; [lra|]. apply Qle_trans with (1 * qpow q k); [lra|]. apply Qmult_le_compat_r; [auto|]. lra. }
  assert (H0 : 0 <= qpow q n) by (apply qpow_nonneg; lra).
  apply Qle_trans with (1 * qpow q n); [lra|]. rewrite (Qmult_comm (qpow q n)). apply Qmult_le_compat_r; auto.
Qed.
Lemma qpow_down q n m : 0 <= q -> q <= 1 -> (n <= m)%nat -> qpow q m <= qpow q n.
Proof.
  intros H0 H Hle. replace m with (n + (m - n))%nat by lia. rewrite qpow_add. generalize (m - n)%nat. intros k.
  assert (Hk : qpow q k <= 1).
  { induction k as [|k IH]; cbn [qpow]; [lra|]. apply Qle_trans with (1 * qpow q k); [|lra]. apply Qmult_le_compat_r; [auto|]. apply qpow_nonneg; auto. }
  assert (H1 : 0 <= qpow q n) by (apply qpow_nonneg; lra).
  apply Qle_trans with (1 * qpow q n); [|lra]. rewrite (Qmult_comm (qpow q n)). apply Qmult_le_compat_r; auto.
Qed.

(** ** sums and distances with rounding errors *)
Section Err.
Variable A : arith.
Variable V : Q -> Prop.
Variables u M : Q.
Hypothesis Hu : 0 <= u.
Hypothesis Hu1 : u < 1.
Hypothesis V0 : V 0.
Hypothesis Vabs : forall q, V q -> V (Qabs q).
Hypothesis Hadd : rounds_within V u M (ar_add A) Qplus.
Hypothesis Hsub : rounds_within V u M (ar_sub A) Qminus.
Let lo := 1 - u.
Let up := 1 + u.

(** [x] is [y] up to [n] roundings *)
Definition near (n : nat) (x y : Q) : Prop := qpow lo n * y <= x /\ x <= qpow up n * y.

Lemma lo_pos : 0 < lo.
Proof. unfold lo. lra. Qed.
Lemma lo_le1 : lo <= 1.
Proof. unfold lo. lra. Qed.
Lemma up_ge1 : 1 <= up.
Proof. unfold up. lra. Qed.
Lemma near_more n m x y : (n <= m)%nat -> 0 <= y -> near n x y -> near m x y.
Proof.
  intros Hle Hy [H1 H2]. split.
  - eapply Qle_trans; [|exact H1]. apply Qmult_le_compat_r; [|auto]. apply qpow_down; auto; [apply Qlt_le_weak, lo_pos|apply lo_le1].
  - eapply Qle_trans; [exact H2|]. apply Qmult_le_compat_r; [|auto]. apply qpow_up; auto. apply up_ge1.
Qed.
Lemma near_sum n (f h : nat -> Q) l : (forall i, In i l -> near n (f i) (h i)) -> near n (sumQ (map f l)) (sumQ (map h l)).
Proof.
  intros H. split; rewrite <- sumQ_scale; apply sumQ_le; intros i Hi; apply (H i Hi).
Qed.
Lemma near_nonneg n x y : 0 <= y -> near n x y -> 0 <= x.
Proof.
  intros Hy [H _]. eapply Qle_trans; [|exact H]. apply Qmult_le_0_compat; [apply qpow_nonneg, Qlt_le_weak, lo_pos|auto].
Qed.
Lemma near_trans n m x y z : near n x y -> near m y z -> near (n + m) x z.
Proof.
  intros [H1 H2] [H3 H4]. split; rewrite qpow_add.
  - eapply Qle_trans; [|exact H1]. rewrite <- Qmult_assoc, !(Qmult_comm (qpow lo n)). apply Qmult_le_compat_r; [auto|].
    apply qpow_nonneg, Qlt_le_weak, lo_pos.
  - eapply Qle_trans; [exact H2|]. rewrite <- Qmult_assoc, !(Qmult_comm (qpow up n)). apply Qmult_le_compat_r; [auto|].
    apply qpow_nonneg. pose proof up_ge1. lra.
Qed.

Lemma rounded z w : 0 <= w -> Qabs (z - w) <= u * Qabs w -> near 1 z w.
Proof.
  intros Hw H. rewrite (Qabs_pos w) in H by auto. apply Qabs_Qle_condition in H. split; cbn [qpow]; unfold lo, up; lra.
Qed.

Lemma fsum_near l : forall acc, V acc -> 0 <= acc -> (forall x, In x l -> V x /\ 0 <= x) ->
  qpow up (length l) * (acc + sumQ l) <= M ->
  V (fold_left (ar_add A) l acc) /\ near (length l) (fold_left (ar_add A) l acc) (acc + sumQ l).
Proof.
  pose proof up_ge1 as Hup1. pose proof lo_pos as Hlo0. pose proof lo_le1 as Hlo1.
  induction l as [|x l IH]; intros acc Va Ha Hl HM.
  - cbn [fold_left length]. rewrite sumQ_nil. split; [auto|]. split; cbn [qpow]; lra.
  - cbn [fold_left length]. rewrite sumQ_cons in HM |- *. destruct (Hl x (or_introl eq_refl)) as [Vx Hx].
    assert (Hs : 0 <= sumQ l) by (apply sumQ_nonneg_list; intros y Hy; apply Hl; right; auto).
    assert (Hn : 0 <= acc + (x + sumQ l)) by lra.
    assert (Hb : acc + x <= M).
    { eapply Qle_trans; [|exact HM]. apply Qle_trans with (1 * (acc + (x + sumQ l))); [lra|].
      apply Qmult_le_compat_r; [|auto]. apply (qpow_up up 0 (length (x :: l)) Hup1). lia. }
    destruct (Hadd acc x Va Vx) as [V1 E1]; [rewrite Qabs_pos by lra; auto|].
    apply rounded in E1; [|lra]. assert (H1 : 0 <= ar_add A acc x) by (apply (near_nonneg 1 _ (acc + x)); [lra|auto]).
    assert (HP : 0 <= qpow up (length l)) by (apply qpow_nonneg; lra).
    assert (HL : 0 <= qpow lo (length l)) by (apply qpow_nonneg; lra).
    destruct E1 as [E1 E2]. cbn [qpow] in E1, E2.
    assert (B1 : ar_add A acc x + sumQ l <= up * (acc + (x + sumQ l))).
    { assert (sumQ l <= up * sumQ l) by (apply Qle_trans with (1 * sumQ l); [lra|apply Qmult_le_compat_r; auto]). lra. }
    assert (B2 : lo * (acc + (x + sumQ l)) <= ar_add A acc x + sumQ l).
    { assert (lo * sumQ l <= sumQ l) by (apply Qle_trans with (1 * sumQ l); [apply Qmult_le_compat_r; auto|lra]). lra. }
    assert (B3 : qpow up (length l) * (ar_add A acc x + sumQ l) <= qpow up (S (length l)) * (acc + (x + sumQ l))).
    { cbn [qpow]. rewrite (Qmult_comm up), <- Qmult_assoc, !(Qmult_comm (qpow up (length l))). apply Qmult_le_compat_r; auto. }
    assert (B4 : qpow lo (S (length l)) * (acc + (x + sumQ l)) <= qpow lo (length l) * (ar_add A acc x + sumQ l)).
    { cbn [qpow]. rewrite (Qmult_comm lo), <- Qmult_assoc, !(Qmult_comm (qpow lo (length l))). apply Qmult_le_compat_r; auto. }
    destruct (IH (ar_add A acc x) V1 H1) as [V2 [K1 K2]].
    + intros y Hy. apply Hl. right. auto.
    + eapply Qle_trans; [exact B3|exact HM].
    + split; [auto|]. split; eapply Qle_trans; eauto.
Qed.

Lemma fsum0_near l : (forall x, In x l -> V x /\ 0 <= x) -> qpow up (length l) * sumQ l <= M ->
  V (fsum A l) /\ near (length l) (fsum A l) (sumQ l).
Proof.
  intros Hl HM. destruct (fsum_near l 0 V0 ltac:(lra) Hl) as [H1 [H2 H3]].
  - eapply Qle_trans; [|exact HM]. apply Qle_lteq. right. ring.
  - split; [exact H1|]. unfold fsum. split; [eapply Qle_trans; [|exact H2]|eapply Qle_trans; [exact H3|]]; apply Qle_lteq; right; ring.
Qed.


Lemma manhattan_parts x : forall y, manhattan x y == sumQ (map (fun p => Qabs (fst p - snd p)) (combine x y)).
Proof.
  induction x as [|a x IH]; intros [|b y]; cbn [manhattan combine map fst snd]; try reflexivity. rewrite sumQ_cons, IH. reflexivity.
Qed.
Lemma manhattan_part x y p : In p (combine x y) -> Qabs (fst p - snd p) <= manhattan x y.
Proof.
  intros H. rewrite manhattan_parts. apply sumQ_ge; [|apply (in_map (fun p => Qabs (fst p - snd p))); auto].
  intros q Hq. apply in_map_iff in Hq. destruct Hq as [p' [<- _]]. apply Qabs_nonneg.
Qed.

Lemma fmanhattan_near k x y : (forall q, In q x -> V q) -> (forall q, In q y -> V q) -> (length x <= k)%nat ->
  qpow up (k + 1) * manhattan x y <= M ->
  V (fmanhattan A x y) /\ near (k + 1) (fmanhattan A x y) (manhattan x y).
Proof.
  intros Hx Hy Hk HM. pose proof up_ge1 as Hup. pose proof (manhattan_nonneg x y) as Hm.
  assert (Hlen : (length (combine x y) <= k)%nat) by (rewrite combine_length; lia).
  assert (Hm1 : manhattan x y <= M).
  { eapply Qle_trans; [|exact HM]. apply Qle_trans with (1 * manhattan x y); [lra|]. apply Qmult_le_compat_r; [|auto].
    apply (qpow_up up 0 (k + 1) Hup). lia. }
  set (ds := map (fun p => Qabs (ar_sub A (fst p) (snd p))) (combine x y)).
  assert (Hp : forall p, In p (combine x y) -> V (Qabs (ar_sub A (fst p) (snd p))) /\ near 1 (Qabs (ar_sub A (fst p) (snd p))) (Qabs (fst p - snd p))).
  { intros [a b] Hp. pose proof (manhattan_part _ _ _ Hp) as Hle. cbn [fst snd] in *.
    destruct (Hsub a b) as [H1 H2]; [apply Hx; eapply in_combine_l; eauto|apply Hy; eapply in_combine_r; eauto|lra|].
    split; [auto|]. apply rounded; [apply Qabs_nonneg|]. rewrite (Qabs_pos (Qabs (a - b))) by apply Qabs_nonneg.
    eapply Qle_trans; [|exact H2].
    apply Qabs_Qle_condition. pose proof (Qabs_triangle_reverse (ar_sub A a b) (a - b)).
    pose proof (Qabs_triangle_reverse (a - b) (ar_sub A a b)). rewrite (Qabs_Qminus (a - b)) in H0. lra. }
  assert (Hds : near 1 (sumQ ds) (manhattan x y)).
  { assert (H : near 1 (sumQ ds) (sumQ (map (fun p => Qabs (fst p - snd p)) (combine x y)))).
    { unfold ds. split; rewrite <- sumQ_scale; apply sumQ_le; intros p Hi; apply (Hp p Hi). }
    destruct H as [H1 H2]. split; rewrite manhattan_parts; auto. }
  assert (Hin : forall q, In q ds -> V q /\ 0 <= q).
  { intros q Hq. unfold ds in Hq. apply in_map_iff in Hq. destruct Hq as [p [<- Hi]]. split; [apply (Hp p Hi)|apply Qabs_nonneg]. }
  assert (Hl : length ds = length (combine x y)) by apply map_length.
  destruct (fsum0_near ds Hin) as [H1 H2].
  - apply Qle_trans with (qpow up (k + 1) * manhattan x y); [|auto].
    apply Qle_trans with (qpow up (length ds + 1) * manhattan x y); [|apply Qmult_le_compat_r; auto; apply qpow_up; auto; lia].
    rewrite qpow_add, <- Qmult_assoc, !(Qmult_comm (qpow up (length ds))). apply Qmult_le_compat_r; [apply Hds|]. apply qpow_nonneg; lra.
  - split; [exact H1|]. apply (near_more (length ds + 1)); [lia|auto|]. eapply near_trans; [exact H2|exact Hds].
Qed.

Variable attr : list (list Q).
Variables k N : nat.
Hypothesis HV : forall x q, In x attr -> In q x -> V q.
Hypothesis Hk : forall x, In x attr -> (length x <= k)%nat.
Hypothesis HN : (length attr + k + 1 <= N)%nat.
Hypothesis HM : qpow up N * psum (dist manhattan attr) (seq 0 (length attr)) <= M.
Let n := length attr.
Let D := dist manhattan attr.

Lemma eD_nonneg i j : 0 <= D i j.
Proof. apply manhattan_nonneg. Qed.
Lemma upN_pos : 0 < qpow up N.
Proof. apply qpow_pos. pose proof up_ge1. lra. Qed.
Lemma row_in i : (i < n)%nat -> In (row attr i) attr.
Proof. intros H. apply nth_In. auto. Qed.
Lemma eD_le i j : (i < n)%nat -> (j < n)%nat -> qpow up N * D i j <= M.
Proof.
  intros Hi Hj. eapply Qle_trans; [|exact HM]. rewrite !(Qmult_comm (qpow up N)). apply Qmult_le_compat_r; [|apply Qlt_le_weak, upN_pos].
  apply (D_le (psum (dist manhattan attr) (seq 0 (length attr))) attr (Qle_refl _)); auto.
Qed.
Lemma efD i j : (i < n)%nat -> (j < n)%nat ->
  V (fmanhattan A (row attr i) (row attr j)) /\ near (k + 1) (fmanhattan A (row attr i) (row attr j)) (D i j).
Proof.
  intros Hi Hj. apply fmanhattan_near.
  - intros q Hq. eapply HV; [apply (row_in i)|]; auto.
  - intros q Hq. eapply HV; [apply (row_in j)|]; auto.
  - apply Hk, row_in; auto.
  - eapply Qle_trans; [|apply (eD_le i j Hi Hj)]. apply Qmult_le_compat_r; [|apply eD_nonneg]. apply qpow_up; [apply up_ge1|lia].
Qed.

Lemma region_near labels a r : length labels = n -> (a < n)%nat ->
  let ds := map (fun x => fmanhattan A x (row attr a)) (rows_of labels r attr) in
  let es := sumQ (map (fun b => if Z.eqb r (lab labels b) then D a b else 0) (others n a)) in
  V (fsum A ds) /\ 0 <= es /\ near N (fsum A ds) es /\ qpow up N * es <= M.
Proof.
  intros Hl Ha ds es0. set (es := sumQ (map (fun x => manhattan x (row attr a)) (rows_of labels r attr))).
  assert (Ees : es == es0).
  { unfold es, es0. rewrite P_Objective.sum_rows; [rewrite Hl; reflexivity|intros; apply manhattan_sym|intros; apply manhattan_zero|lia]. }
  assert (Hle : es0 <= psum (dist manhattan attr) (seq 0 (length attr))).
  { eapply Qle_trans; [|apply (star_le _ attr (Qle_refl _) a Ha)]. apply sumQ_le. intros b _. destruct (Z.eqb _ _); [apply Qle_refl|apply eD_nonneg]. }
  assert (Hn : 0 <= es0).
  { apply sumQ_nonneg. intros b _. destruct (Z.eqb _ _); [apply eD_nonneg|lra]. }
  assert (Hb : qpow up N * es0 <= M).
  { eapply Qle_trans; [|exact HM]. rewrite !(Qmult_comm (qpow up N)). apply Qmult_le_compat_r; [auto|apply Qlt_le_weak, upN_pos]. }
  assert (Hw : (length (where_eq labels r) <= n)%nat).
  { rewrite <- (seq_length n 0). apply NoDup_incl_length; [apply where_eq_NoDup|]. intros i Hi. apply in_seq. pose proof (where_lt attr labels r i Hl Hi). unfold n. lia. }
  assert (Hds : near (k + 1) (sumQ ds) es).
  { unfold ds, es, rows_of. rewrite !map_map. apply near_sum. intros i Hi. apply efD; auto. eapply where_lt; eauto. }
  assert (Hlen : length ds = length (where_eq labels r)) by (unfold ds, rows_of; rewrite !map_length; auto).
  assert (Hin : forall q, In q ds -> V q /\ 0 <= q).
  { intros q Hq. unfold ds, rows_of in Hq. rewrite map_map in Hq. apply in_map_iff in Hq. destruct Hq as [i [<- Hi]].
    destruct (efD i a (where_lt attr labels r i Hl Hi) Ha) as [H1 H2]. split; [exact H1|]. eapply near_nonneg; [apply eD_nonneg|exact H2]. }
  assert (Hes : 0 <= es) by lra.
  pose proof up_ge1 as Hup.
  destruct (fsum0_near ds Hin) as [H1 H2].
  - apply Qle_trans with (qpow up N * es); [|rewrite Ees; auto].
    apply Qle_trans with (qpow up (length ds + (k + 1)) * es); [|apply Qmult_le_compat_r; auto; apply qpow_up; auto; unfold n in *; lia].
    rewrite qpow_add, <- Qmult_assoc, !(Qmult_comm (qpow up (length ds))). apply Qmult_le_compat_r; [apply Hds|]. apply qpow_nonneg; lra.
  - split; [exact H1|]. split; [auto|]. split; [|auto].
    assert (H : near N (fsum A ds) es).
    { apply (near_more (length ds + (k + 1))); [unfold n in *; lia|auto|]. eapply near_trans; eauto. }
    destruct H as [K1 K2]. split; [rewrite <- Ees; auto|rewrite <- Ees; auto].
Qed.

(** the sign of a rounded difference *)
Lemma sub_sign x y : V x -> V y -> 0 <= x <= M -> 0 <= y <= M -> (ar_sub A x y <= 0 <-> x <= y).
Proof.
  intros Vx Vy Bx By. destruct (Hsub x y Vx Vy) as [_ H]; [apply Qabs_Qle_condition; lra|].
  destruct (Qlt_le_dec y x) as [Hlt|Hle].
  - rewrite (Qabs_pos (x - y)) in H by lra. apply Qabs_Qle_condition in H.
    assert (0 < (1 - u) * (x - y)) by (apply Qmult_lt_0_compat; lra). split; intros; lra.
  - rewrite (Qabs_neg (x - y)) in H by lra. apply Qabs_Qle_condition in H.
    assert (0 <= (1 - u) * (y - x)) by (apply Qmult_le_0_compat; lra). split; intros; lra.
Qed.

(** what the sign of the computed change says about the objective *)
Theorem fpairwise_update_near labels a r q : length labels = n -> (a < n)%nat ->
  fpairwise_update A a r labels attr = Ok q ->
  (q <= 0 -> qpow lo N * heterogeneity D (upd labels a r) <= qpow up N * heterogeneity D labels) /\
  (0 < q -> qpow lo N * heterogeneity D labels < qpow up N * heterogeneity D (upd labels a r)).
Proof.
  intros Hl Ha E. unfold fpairwise_update in E. binv E. binv E. apply metric_to_point_inv in E0. apply metric_to_point_inv in E1.
  destruct E0 as [-> _], E1 as [-> _]. injection E as <-.
  pose proof (region_near labels a r Hl Ha) as HR. pose proof (region_near labels a (lab labels a) Hl Ha) as HD. cbv zeta in HR, HD.
  destruct HR as [VR [R0 [HR R3]]]. destruct HD as [VD [D0 [HD D3]]].
  set (rs := fsum A (map _ (rows_of labels r attr))) in *. set (ds := fsum A (map _ (rows_of labels (lab labels a) attr))) in *.
  pose proof (het_move D labels a r ltac:(intros; apply manhattan_sym) ltac:(lia)) as Hm.
  pose proof (het_split D labels a ltac:(intros; apply manhattan_sym) ltac:(lia)) as Hs.
  assert (HX : 0 <= psum (fun i j => if Z.eqb (lab labels i) (lab labels j) then D i j else 0) (others (length labels) a)).
  { apply psum_nonneg. intros i j _ _. destruct (Z.eqb _ _); [apply eD_nonneg|lra]. }
  rewrite Hl in Hm, Hs, HX.
  set (X := psum (fun i j => if Z.eqb _ _ then _ else _) _) in *. set (R := sumQ (map (fun b => if Z.eqb r _ then _ else _) _)) in *.
  set (T := sumQ (map (fun b => if Z.eqb (lab labels a) _ then _ else _) _)) in *.
  assert (E1 : heterogeneity D labels == T + X) by lra. assert (E2 : heterogeneity D (upd labels a r) == R + X) by lra.
  rewrite E1, E2.
  assert (HlX : qpow lo N * X <= qpow up N * X).
  { apply Qmult_le_compat_r; [|auto]. apply Qle_trans with 1.
    - apply (qpow_down lo 0 N); [apply Qlt_le_weak, lo_pos|apply lo_le1|lia].
    - apply (qpow_up up 0 N); [apply up_ge1|lia]. }
  assert (Hsg : ar_sub A rs ds <= 0 <-> rs <= ds).
  { pose proof (near_nonneg N _ _ R0 HR). pose proof (near_nonneg N _ _ D0 HD). destruct HR, HD.
    apply sub_sign; auto; split; auto; eapply Qle_trans; eauto. }
  destruct HR as [R1 R2], HD as [D1 D2]. split; intros Hq.
  - apply Hsg in Hq. pose proof (Qmult_plus_distr_r (qpow lo N) R X). pose proof (Qmult_plus_distr_r (qpow up N) T X). lra.
  - assert (ds < rs) by (apply Qnot_le_lt; intros H; apply Hsg in H; lra).
    pose proof (Qmult_plus_distr_r (qpow lo N) T X). pose proof (Qmult_plus_distr_r (qpow up N) R X). lra.
Qed.
End Err.

(** ** moves *)
Lemma moves_snoc ok l l' a K : moves ok l l' -> ok l' a K -> moves ok l (upd l' a K).
Proof.
  induction 1 as [l|l b J l' Hb _ IH]; intros H; [econstructor; [eauto|constructor]|]. econstructor; [exact Hb|]. auto.
Qed.

Section MovesTransfer.
Variable g : graph.
Variable c : nat.
Notation isl := (comp_nodes g c).
Notation G l := (comp_part g l c).
Variables okw okc : list Z -> nat -> Z -> Prop.
Hypothesis okw_in : forall l a K, okw l a K -> In a isl /\ legal_move g l a K.
Hypothesis okc_legal : forall m i K, okc m i K -> legal_move (comp_graph g c) m i K.
Hypothesis ok_comp : forall l i a K, wf g l -> nth_error isl i = Some a -> (okw l a K <-> okc (G l) i K).

Lemma moves_of_comp l m' : wf g l -> moves okc (G l) m' -> exists l', moves okw l l' /\ G l' = m'.
Proof.
  intros Hwf H. remember (G l) as m eqn:E. revert l Hwf E. induction H as [m|m i K m' Hok _ IH]; intros l Hwf ->.
  - exists l. split; [constructor|auto].
  - assert (Hlt : (i < length isl)%nat) by (destruct (okc_legal _ _ _ Hok) as [Hi _]; rewrite comp_graph_n in Hi; auto).
    destruct (nth_error isl i) as [a|] eqn:E; [|apply nth_error_None in E; lia].
    apply (ok_comp l i a K) in Hok; auto. destruct (okw_in _ _ _ Hok) as [Hin Hl]. destruct (legal_upd g l a K Hwf Hl) as [Hwf1 _].
    destruct (IH (upd l a K) Hwf1) as [l' [H1 H2]]; [symmetry; apply comp_part_upd; auto; apply Hwf|].
    exists l'. split; [|auto]. econstructor; eauto.
Qed.
End MovesTransfer.

(** ** the whole fit *)
Section FitErr.
Variable A : arith.
Variable V : Q -> Prop.
Variables u M : Q.
Hypothesis Hu : 0 <= u.
Hypothesis Hu1 : u < 1.
Hypothesis V0 : V 0.
Hypothesis Vabs : forall q, V q -> V (Qabs q).
Hypothesis Hadd : rounds_within V u M (ar_add A) Qplus.
Hypothesis Hsub : rounds_within V u M (ar_sub A) Qminus.
Variable enum : list Z -> list Z.
Variable g : graph.
Hypothesis Hsym : symmetric g.
Variable attr : list (list Q).
Hypothesis Hattr : length attr = gn g.
Variable k : nat.
Hypothesis HV : forall x q, In x attr -> In q x -> V q.
Hypothesis Hk : forall x, In x attr -> (length x <= k)%nat.
Let N := (gn g + k + 1)%nat.
Let e := qpow (1 - u) N.
Let f := qpow (1 + u) N.
Hypothesis HM : f * psum (dist manhattan attr) (seq 0 (length attr)) <= M.
Notation O := (pairwise manhattan).

Definition okc (c : nat) (m : list Z) (i : nat) (K : Z) : Prop :=
  legal_move (comp_graph g c) m i K /\
  exists x y, o_call O m (attr_c attr g c) = Ok x /\ o_call O (upd m i K) (attr_c attr g c) = Ok y /\ e * y <= f * x.

Lemma nearly_comp c l i a K : wf g l -> nth_error (comp_nodes g c) i = Some a ->
  (nearly_down O attr g e f (comp_nodes g c) l a K <-> okc c (comp_part g l c) i K).
Proof.
  intros Hwf Hi. unfold nearly_down, okc. rewrite <- (comp_part_upd g l c i a K (proj1 Hwf) Hi). split.
  - intros [_ [Hl H]]. split; [apply (legal_to_comp g l c i a K); auto|exact H].
  - intros [Hl H]. split; [eapply nth_error_In; eauto|]. split; [eapply legal_of_comp; eauto|exact H].
Qed.

Lemma comp_rows c : let rows := attr_c attr g c in
  (length rows = gn (comp_graph g c)) /\ (forall x, In x rows -> In x attr) /\
  psum (dist manhattan rows) (seq 0 (length rows)) <= psum (dist manhattan attr) (seq 0 (length attr)).
Proof.
  intros rows. assert (Hl : length rows = gn (comp_graph g c)) by (rewrite comp_graph_n; apply map_length). split; [auto|]. split.
  - intros x Hx. apply in_map_iff in Hx. destruct Hx as [i [<- Hi]]. apply comp_nodes_lt in Hi. apply nth_In. lia.
  - unfold rows, attr_c. rewrite map_length, Hattr.
    apply (psum_part manhattan attr (fun v => Nat.eqb (comp_label g v) c) (gn g)). intros; apply manhattan_nonneg.
Qed.

Theorem fazp_fit_near order fuel p initial c0 r : (forall l, Permutation (order l) l) -> good_input g p initial ->
  post noexn True (fazp_fit (ar_add A) order (fpairwise A enum) fuel g attr p initial c0 r)
    (fun '((labels, _), _) => exists labels0, started_from g p initial labels0 /\ length labels = gn g /\
       forall c, (c < n_components g)%nat -> moves (okc c) (comp_part g labels0 c) (comp_part g labels c)).
Proof.
  intros Hord Hgood. unfold fazp_fit.
  eapply (post_weaken noexn noexn True True); [auto|auto| |
    apply (fit_post common _ _ order g attr noexn True (fun _ => True) (fun c => moves (okc c)))]; auto.
  - intros [[labels s'] r'] _ [_ H]. exact H.
  - intros c l c1 rg Hc Hwf _. unfold run_component, start_common. fold (attr_c attr g c).
    destruct (comp_rows c) as [Hlr [Hin Hps]]. set (rows := attr_c attr g c) in *. cbn [o_call fpairwise fpairwise_call bind].
    set (v0 := fsum A _).
    set (J := fun (s : common) (m : list Z) => c_obj s = fpairwise A enum /\ c_attr s = rows /\ moves (okc c) l m).
    eapply (post_weaken noexn noexn True True); [auto|auto| |
      apply (azp_component_post common (fcall (ar_add A)) c_val (comp_graph g c) (comp_symmetric g c Hsym) noexn True J (fun _ => J)
               (fun _ _ _ _ => True) (fun _ _ _ => True)) with (m := fun _ => 0%nat)]; auto.
    + intros [[l' c'] r'] _ [Hwf' [_ [[_ [_ Hmv]] _]]]. split; [auto|]. split; [destruct Hwf, Hwf'; congruence|auto].
    + intros v c2 a z m rg1 Hwf1 Hm [Ho [Ha Hv2]]. unfold fcall. rewrite Ho, Ha. cbn [o_update fpairwise].
      assert (Hml : length m = length rows) by (destruct Hwf1; congruence).
      assert (Hal : (a < length rows)%nat) by (destruct Hm as [Hal _]; congruence).
      assert (Hz : In z m) by (destruct Hm as [_ [D [_ [_ [_ [b [_ [Hb _]]]]]]]]; eapply nth_error_In; eauto).
      destruct (fpairwise_update A a z m rows) as [q|x|] eqn:Eq.
      2,3: exfalso; unfold fpairwise_update in Eq; rewrite !metric_to_point_Ok in Eq; [discriminate| |];
        apply rows_of_nonempty; auto; apply nth_In; lia.
      cbn [bind]. destruct (Qle_bool q 0) eqn:Eb; cbn; (split; [|exact Logic.I]); [|split; [auto|]; split; auto].
      split; [auto|]. split; [auto|]. apply moves_snoc; [auto|]. split; [auto|].
      destruct (pairwise_call_spec manhattan m rows) as [x [Ex Hx]].
      destruct (pairwise_call_spec manhattan (upd m a z) rows) as [y [Ey Hy]].
      exists x, y. split; [exact Ex|]. split; [exact Ey|]. rewrite Hx, Hy. apply Qle_bool_iff in Eb.
      assert (Hnear := fpairwise_update_near A V u M Hu Hu1 V0 Vabs Hadd Hsub rows k N).
      destruct (Hnear) with (labels := m) (a := a) (r := z) (q := q) as [H _]; auto.
      * intros x0 q0 Hx0. apply HV. auto.
      * rewrite Hlr. pose proof (comp_graph_le g c). unfold N. lia.
      * eapply Qle_trans; [|exact HM]. unfold f. rewrite !(Qmult_comm (qpow (1 + u) N)). apply Qmult_le_compat_r; [exact Hps|].
        apply qpow_nonneg. lra.
    + eapply comp_part_nonempty; eauto.
    + split; [auto|]. split; [auto|constructor].
Qed.

(** the islands of the result *)
Lemma parts_moves labels0 labels : wf g labels0 -> length labels = gn g ->
  (forall c, (c < n_components g)%nat -> moves (okc c) (comp_part g labels0 c) (comp_part g labels c)) ->
  forall v isl, (v < gn g)%nat -> island g v isl ->
    exists l', moves (nearly_down O attr g e f isl) labels0 l' /\ forall a, In a isl -> lab labels a = lab l' a.
Proof.
  intros Hwf Hl H v isl Hv Hisl. rewrite (island_comp_nodes g v isl Hv Hisl).
  pose proof (H (comp_label g v) (comp_label_lt g v Hv)) as Hz.
  apply (moves_of_comp g (comp_label g v) (nearly_down O attr g e f (comp_nodes g (comp_label g v))) (okc (comp_label g v))) in Hz; auto.
  - destruct Hz as [l' [Hz E]]. exists l'. split; [auto|]. intros a Ha. destruct (In_nth_error _ _ Ha) as [i Hi].
    assert (E' : nth_error (labels_at l' (comp_nodes g (comp_label g v))) i = nth_error (labels_at labels (comp_nodes g (comp_label g v))) i)
      by (f_equal; exact E).
    unfold labels_at in E'. rewrite !nth_error_map, Hi in E'. cbn in E'. congruence.
  - intros l a K [H1 [H2 _]]. auto.
  - intros m i K [H1 _]. auto.
  - intros l i a K Hwl Hi. apply nearly_comp; auto.
Qed.
End FitErr.

(** ** float64 *)
Lemma half_even_near w : Qabs (inject_Z (half_even w) - w) <= 1 # 2.
Proof.
  pose proof (Qfloor_le w) as H1. pose proof (Qlt_floor w) as H2. rewrite inject_Z_plus in H2. change (inject_Z 1) with 1 in H2.
  apply Qabs_Qle_condition. unfold half_even. destruct (Qltb (w - inject_Z (Qfloor w)) (1 # 2)) eqn:E1.
  - apply Qltb_lt in E1. lra.
  - apply Qltb_ge in E1. destruct (Qltb (1 # 2) (w - inject_Z (Qfloor w))) eqn:E2.
    + rewrite inject_Z_plus. change (inject_Z 1) with 1. lra.
    + apply Qltb_ge in E2. destruct (Z.even (Qfloor w)); [lra|]. rewrite inject_Z_plus. change (inject_Z 1) with 1. lra.
Qed.

(** sums and differences of floats are multiples of the smallest one *)
Definition on_grid (q : Q) : Prop := exists z, q == inject_Z z * pow2 (-1074).
Lemma float_grid q : is_float q -> on_grid q.
Proof.
  intros [[n [e [E [_ He]]]] _]. exists (n * 2 ^ (e + 1074))%Z.
  rewrite inject_Z_mult, <- (pow2_Z (e + 1074)), <- Qmult_assoc, <- pow2_add by lia. replace (e + 1074 + -1074)%Z with e by lia. auto.
Qed.
Lemma grid_add x y : on_grid x -> on_grid y -> on_grid (x + y).
Proof. intros [a Ha] [b Hb]. exists (a + b)%Z. rewrite Ha, Hb, inject_Z_plus. ring. Qed.
Lemma grid_sub x y : on_grid x -> on_grid y -> on_grid (x - y).
Proof. intros [a Ha] [b Hb]. exists (a - b)%Z. unfold Z.sub. rewrite Ha, Hb, inject_Z_plus, inject_Z_opp. ring. Qed.
Lemma grid_opp x : on_grid x -> on_grid (- x).
Proof. intros [a Ha]. exists (- a)%Z. rewrite Ha, inject_Z_opp. ring. Qed.

Lemma fl_pos_err x : 0 < x -> on_grid x -> Qabs (fl_pos x - x) <= pow2 (-53) * x.
Proof.
  intros Hx [z Hz]. assert (Hp : 0 <= pow2 (-53) * x) by (apply Qmult_le_0_compat; [apply Qlt_le_weak, pow2_pos|lra]).
  destruct (Z_le_dec (expo x - 52) (-1074)) as [He|He].
  - assert (E : fl_pos x == x).
    { rewrite fl_pos_eq. cbv zeta. replace (Z.max (expo x - 52) (-1074)) with (-1074)%Z by lia.
      assert (Ew : x * pow2 (- (-1074)) == inject_Z z) by (rewrite Hz, <- Qmult_assoc, pow2_inv; ring).
      rewrite (half_even_whole z) by auto. symmetry. exact Hz. }
    rewrite E. rewrite Qabs_wd with (y := 0) by ring. exact Hp.
  - rewrite fl_pos_eq. cbv zeta. replace (Z.max (expo x - 52) (-1074)) with (expo x - 52)%Z by lia. set (e := (expo x - 52)%Z).
    pose proof (half_even_near (x * pow2 (- e))) as H. set (h := inject_Z (half_even (x * pow2 (- e)))) in *.
    assert (E : h * pow2 e - x == (h - x * pow2 (- e)) * pow2 e).
    { transitivity (h * pow2 e - x * (pow2 e * pow2 (- e))); [rewrite pow2_inv; ring|ring]. }
    rewrite E, Qabs_Qmult, (Qabs_pos (pow2 e)) by (apply Qlt_le_weak, pow2_pos).
    apply Qle_trans with ((1 # 2) * pow2 e); [apply Qmult_le_compat_r; [auto|apply Qlt_le_weak, pow2_pos]|].
    change (1 # 2) with (pow2 (-1)). rewrite <- pow2_add. replace (-1 + e)%Z with (-53 + expo x)%Z by (unfold e; lia). rewrite pow2_add.
    rewrite !(Qmult_comm (pow2 (-53))). apply Qmult_le_compat_r; [apply expo_spec; auto|apply Qlt_le_weak, pow2_pos].
Qed.

Lemma fl64_err_pos x : 0 < x -> on_grid x -> x <= max_float -> Qabs (fl64 x - x) <= pow2 (-53) * x.
Proof.
  intros Hx Hg Hm. rewrite fl64_pos by auto.
  assert (Hle : fl_pos x <= max_float).
  { apply Qle_trans with (fl_pos max_float); [apply fl_pos_mono; auto|].
    rewrite (fl_pos_exact max_float (2 ^ 53 - 1) 971); [apply Qle_refl|apply max_float_pos|reflexivity|lia|lia]. }
  pose proof (Q.min_l _ _ Hle) as E. rewrite E. apply fl_pos_err; auto.
Qed.
Theorem fl64_err x : on_grid x -> Qabs x <= max_float -> Qabs (fl64 x - x) <= pow2 (-53) * Qabs x.
Proof.
  intros Hg Hm. destruct (Q_dec x 0) as [[Hx|Hx]|Hx].
  - rewrite (Qabs_neg x) in * by lra. pose proof (fl64_err_pos (- x) ltac:(lra) (grid_opp _ Hg) Hm) as H.
    rewrite <- Qabs_opp. rewrite Qabs_wd with (y := fl64 (- x) - - x); [exact H|]. rewrite fl64_opp. ring.
  - rewrite (Qabs_pos x) in * by lra. apply fl64_err_pos; auto.
  - rewrite fl64_zero by auto. rewrite Qabs_wd with (y := 0) by lra. apply Qmult_le_0_compat; [apply Qlt_le_weak, pow2_pos|apply Qabs_nonneg].
Qed.

Theorem float64_rounds : rounds_within is_float (pow2 (-53)) max_float (ar_add float64) Qplus /\
  rounds_within is_float (pow2 (-53)) max_float (ar_sub float64) Qminus.
Proof.
  split; intros x y Hx Hy Hm; (split; [apply fl64_is|]); apply fl64_err; auto.
  - apply grid_add; apply float_grid; auto.
  - apply grid_sub; apply float_grid; auto.
Qed.
Lemma is_float_abs q : is_float q -> is_float (Qabs q).
Proof.
  intros H. destruct (Qlt_le_dec q 0) as [Hq|Hq].
  - apply (is_float_proper (- q)); [rewrite Qabs_neg by lra; reflexivity|]. apply is_float_opp.
    eapply is_float_proper; [|exact H]. ring.
  - apply (is_float_proper q); [rewrite Qabs_pos by lra; reflexivity|auto].
Qed.
