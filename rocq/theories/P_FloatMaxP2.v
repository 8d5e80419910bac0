(** Max-p heuristic with rounded arithmetic: how far a computed sum of spatially extensive attributes can be from the
    total. *)
From Coq Require Import Qabs.
From Verif Require Import Base Spec M_Graph P_Graph M_Util P_Base P_Util P_Forest P_Init P_Initial
  M_Objective P_Sum P_Objective M_Azp P_Azp P_Strategy P_Fit P_AzpFit M_Sa M_MaxP P_MaxP P_MaxP2 P_MaxP3 P_MaxP4
  M_Float M_FloatMaxP P_Float P_FloatErr P_FloatMaxP.
Local Open Scope Q_scope.

(** ** thresholds shifted by an error *)
Definition shifted (e : nat -> Q) (thr : list Q) : list Q := map (fun k => nth k thr 0 + e k) (seq 0 (length thr)).
Lemma shifted_nth e thr k s : nth_error (shifted e thr) k = Some s <-> exists t, nth_error thr k = Some t /\ s = t + e k.
Proof.
  unfold shifted. rewrite nth_error_map. destruct (Nat.lt_ge_cases k (length thr)) as [H|H].
  - rewrite (nth_error_nth' (seq 0 (length thr)) 0%nat) by (rewrite seq_length; auto). rewrite seq_nth by auto. cbn [option_map].
    rewrite (nth_error_nth' thr 0) by auto. cbn. split.
    + intros E. injection E as <-. eauto.
    + intros [t [E ->]]. injection E as <-. auto.
  - rewrite (proj2 (nth_error_None (seq 0 (length thr)) k)) by (rewrite seq_length; auto).
    rewrite (proj2 (nth_error_None thr k)) by auto. cbn. split; [discriminate|]. intros [t [E _]]. discriminate.
Qed.

(** ** the columns of a computed sum of rows *)
Lemma fadd_rows_nth A x : forall y k, length x = length y -> (k < length x)%nat ->
  nth k (fadd_rows A x y) 0 = ar_add A (nth k x 0) (nth k y 0).
Proof.
  induction x as [|a x IH]; intros [|b y] k Hl Hk; cbn in *; try lia. destruct k as [|k]; [reflexivity|]. apply IH; lia.
Qed.
Lemma fadd_rows_length A x : forall y, length x = length y -> length (fadd_rows A x y) = length x.
Proof. induction x as [|a x IH]; intros [|b y] Hl; cbn in *; try lia. rewrite IH; lia. Qed.
Lemma fold_rows_nth A k : forall rows acc, (forall x, In x rows -> length x = length acc) -> (k < length acc)%nat ->
  nth k (fold_left (fadd_rows A) rows acc) 0 = fold_left (ar_add A) (map (fun x => nth k x 0) rows) (nth k acc 0) /\
  length (fold_left (fadd_rows A) rows acc) = length acc.
Proof.
  induction rows as [|x rows IH]; intros acc Hl Hk; cbn [fold_left map]; [auto|].
  assert (Hx : length acc = length x) by (symmetry; apply Hl; left; auto).
  destruct (IH (fadd_rows A acc x)) as [E1 E2].
  - intros y Hy. rewrite fadd_rows_length by auto. apply Hl. right; auto.
  - rewrite fadd_rows_length by auto. auto.
  - rewrite E1, E2, fadd_rows_nth, fadd_rows_length by auto. auto.
Qed.
Lemma fold_rows_length A : forall rows acc, (forall x, In x rows -> length x = length acc) ->
  length (fold_left (fadd_rows A) rows acc) = length acc.
Proof.
  induction rows as [|x rows IH]; intros acc Hl; cbn [fold_left]; [auto|].
  assert (Hx : length acc = length x) by (symmetry; apply Hl; left; auto).
  rewrite IH; [apply fadd_rows_length; auto|]. intros y Hy. rewrite fadd_rows_length by auto. apply Hl. right; auto.
Qed.
Lemma tracked_rows A sp R : tracked A sp R = fsum_rows A (map (row sp) R).
Proof.
  destruct R as [|a R]; [reflexivity|]. unfold tracked, fsum_rows. cbn [map fold_left].
  replace (fadd_rows A [] (row sp a)) with (row sp a) by (cbn; destruct (row sp a); reflexivity).
  generalize (row sp a). induction R as [|b R IH]; intros acc; cbn [fold_left map]; [auto|]. apply IH.
Qed.

(** the numbers added up in one column *)
Definition column (sp : list (list Q)) (k : nat) (R : list nat) : list Q := map (fun a => nth k (nth a sp []) 0) R.
Definition colsum (A : arith) (l : list Q) : Q := match l with [] => 0 | x :: l => fold_left (ar_add A) l x end.

Section Approx.
Variable A : arith.
Variable sp : list (list Q).
Variable thr : list Q.
Variable n : nat.
Hypothesis Hsh : shaped sp thr n.
Variable e : nat -> Q.
Hypothesis Hsum : forall k R, (k < length thr)%nat -> R <> [] -> NoDup R -> (forall a, In a R -> (a < n)%nat) ->
  Qabs (colsum A (column sp k R) - total_in sp R k) <= e k.
Hypothesis Hdif : forall k R a, (k < length thr)%nat -> NoDup R -> (forall a, In a R -> (a < n)%nat) -> In a R ->
  ar_sub A (colsum A (column sp k R)) (nth k (nth a sp []) 0) <= total_in sp R k - nth k (nth a sp []) 0 + e k.

Lemma row_length a : (a < n)%nat -> length (row sp a) = length thr.
Proof. intros Ha. destruct Hsh as [Hl H]. apply H. apply nth_In. lia. Qed.

Lemma fsum_rows_length R : R <> [] -> (forall a, In a R -> (a < n)%nat) -> length (fsum_rows A (map (row sp) R)) = length thr.
Proof.
  intros Hne Hlt. destruct R as [|a R]; [congruence|]. unfold fsum_rows. cbn [map fold_left].
  replace (fadd_rows A [] (row sp a)) with (row sp a) by (cbn; destruct (row sp a); reflexivity).
  assert (Ha : (a < n)%nat) by (apply Hlt; left; auto).
  rewrite fold_rows_length; [apply row_length; auto|].
  intros x Hx. apply in_map_iff in Hx. destruct Hx as [b [<- Hb]]. rewrite !row_length; auto. apply Hlt. right; auto.
Qed.
Lemma fsum_rows_nth R k : R <> [] -> (forall a, In a R -> (a < n)%nat) -> (k < length thr)%nat ->
  nth k (fsum_rows A (map (row sp) R)) 0 = colsum A (column sp k R).
Proof.
  intros Hne Hlt Hk. destruct R as [|a R]; [congruence|]. unfold fsum_rows, column. cbn [map fold_left colsum].
  replace (fadd_rows A [] (row sp a)) with (row sp a) by (cbn; destruct (row sp a); reflexivity).
  assert (Ha : (a < n)%nat) by (apply Hlt; left; auto).
  rewrite (proj1 (fold_rows_nth A k (map (row sp) R) (row sp a)
    ltac:(intros x Hx; apply in_map_iff in Hx; destruct Hx as [b [<- Hb]]; rewrite !row_length; auto; apply Hlt; right; auto)
    ltac:(rewrite row_length; auto))).
  rewrite map_map. reflexivity.
Qed.

Theorem approx_check R : R <> [] -> NoDup R -> (forall a, In a R -> (a < n)%nat) ->
  if reaches (tracked A sp R) thr then meets_in sp (shifted (fun k => - e k) thr) R else ~ meets_in sp (shifted e thr) R.
Proof.
  intros Hne Hnd Hlt. rewrite tracked_rows.
  assert (Hlen := fsum_rows_length R Hne Hlt).
  assert (Hk : forall k t, nth_error thr k = Some t -> (k < length thr)%nat) by (intros k t E; apply nth_error_Some; congruence).
  destruct (reaches (fsum_rows A (map (row sp) R)) thr) eqn:Er.
  - rewrite reaches_spec in Er by auto. intros k s Es. apply shifted_nth in Es. destruct Es as [t [Et ->]].
    specialize (Er k t Et). rewrite fsum_rows_nth in Er by eauto.
    pose proof (Hsum k R (Hk k t Et) Hne Hnd Hlt) as H. apply Qabs_Qle_condition in H. lra.
  - intros Hm. assert (Ht : reaches (fsum_rows A (map (row sp) R)) thr = true); [|congruence].
    apply reaches_spec; [auto|]. intros k t Et. rewrite fsum_rows_nth by eauto.
    pose proof (Hsum k R (Hk k t Et) Hne Hnd Hlt) as H. apply Qabs_Qle_condition in H.
    assert (Hs : nth_error (shifted e thr) k = Some (t + e k)) by (apply shifted_nth; eauto). specialize (Hm k _ Hs). lra.
Qed.

Lemma fsub_rows_nth x : forall y k, length x = length y -> (k < length x)%nat ->
  nth k (fsub_rows A x y) 0 = ar_sub A (nth k x 0) (nth k y 0).
Proof.
  unfold fsub_rows. induction x as [|a x IH]; intros [|b y] k Hl Hk; cbn in *; try lia. destruct k as [|k]; [reflexivity|]. apply IH; lia.
Qed.

Theorem approx_donor idx l a : NoDup idx -> (forall b, In b idx -> (b < n)%nat) -> length l = length idx -> (a < length l)%nat ->
  fdonor_ok A (map (row sp) idx) thr a l = true -> spared (map (row sp) idx) (shifted (fun k => - e k) thr) a l.
Proof.
  intros Hnd Hlt Hl Ha. unfold fdonor_ok, spared. set (spc := map (row sp) idx).
  destruct (any_nonzero (row spc a)) eqn:En; [|auto]. intros Hr. right.
  assert (Hrow : forall i, (i < length idx)%nat -> row spc i = row sp (nth i idx 0%nat)).
  { intros i Hi. unfold row at 1. apply nth_error_nth. unfold spc. rewrite nth_error_map, (nth_error_nth' idx 0%nat) by auto. reflexivity. }
  set (R := map (fun i => nth i idx 0%nat) (where_eq l (lab l a))).
  assert (Hw : forall i, In i (where_eq l (lab l a)) -> (i < length idx)%nat).
  { intros i Hi. apply where_eq_In in Hi. apply nth_error_lt in Hi. lia. }
  assert (Hrows : rows_of l (lab l a) spc = map (row sp) R).
  { unfold rows_of, R. rewrite map_map. apply map_ext_in. intros i Hi. apply Hrow. auto. }
  assert (HaR : In (nth a idx 0%nat) R).
  { unfold R. apply in_map_iff. exists a. split; [auto|]. apply where_eq_In. unfold lab. apply nth_error_nth'. auto. }
  assert (HndR : NoDup R).
  { unfold R. apply NoDup_map_inj; [|apply where_eq_NoDup]. intros i j Hi Hj E.
    apply (proj1 (NoDup_nth idx 0%nat) Hnd); auto. }
  assert (HltR : forall b, In b R -> (b < n)%nat).
  { intros b Hb. unfold R in Hb. apply in_map_iff in Hb. destruct Hb as [i [<- Hi]]. apply Hlt, nth_In. auto. }
  assert (HneR : R <> []) by (intros E; rewrite E in HaR; destruct HaR).
  intros k s Es. apply shifted_nth in Es. destruct Es as [t [Et ->]].
  assert (Hk : (k < length thr)%nat) by (apply nth_error_Some; congruence).
  assert (Ht : total spc l (lab l a) k == total_in sp R k).
  { rewrite total_rows, Hrows, map_map. reflexivity. }
  rewrite Ht. rewrite Hrows, Hrow in Hr by lia.
  assert (Hlen1 : length (fsum_rows A (map (row sp) R)) = length thr) by (apply fsum_rows_length; auto).
  assert (Hlen2 : length (row sp (nth a idx 0%nat)) = length thr) by (apply row_length; auto).
  rewrite reaches_spec in Hr by (unfold fsub_rows; rewrite map_length, combine_length; lia).
  specialize (Hr k t Et). rewrite fsub_rows_nth, fsum_rows_nth in Hr by (auto; lia).
  pose proof (Hdif k R (nth a idx 0%nat) Hk HndR HltR HaR) as H. unfold row in Hr.
  replace (nth k (nth a spc []) 0) with (nth k (nth (nth a idx 0%nat) sp []) 0) by (specialize (Hrow a); unfold row in Hrow; rewrite Hrow by lia; auto).
  lra.
Qed.
End Approx.

Lemma column_nonneg sp k R x : non_negative sp -> In x (column sp k R) -> 0 <= x.
Proof.
  intros Hpos Hx. apply in_map_iff in Hx. destruct Hx as [a [<- _]].
  destruct (nth_in_or_default k (nth a sp []) 0) as [H|H]; [|rewrite H; lra].
  destruct (nth_in_or_default a sp []) as [Hj|Hj]; [eapply Hpos; eauto|]. rewrite Hj in H. destruct H.
Qed.
Lemma column_entry sp thr n k R x : shaped sp thr n -> (k < length thr)%nat -> (forall a, In a R -> (a < n)%nat) ->
  In x (column sp k R) -> exists r, In r sp /\ In x r.
Proof.
  intros [Hl Hs] Hk Hlt Hx. apply in_map_iff in Hx. destruct Hx as [a [<- Ha]]. exists (nth a sp []).
  assert (Hin : In (nth a sp []) sp) by (apply nth_In; specialize (Hlt a Ha); lia).
  split; [auto|]. apply nth_In. rewrite (Hs _ Hin). auto.
Qed.
Lemma total_in_all sp n k R : non_negative sp -> NoDup R -> (forall a, In a R -> (a < n)%nat) ->
  total_in sp R k <= total_in sp (seq 0 n) k.
Proof. intros Hpos Hnd Hlt. apply total_in_mono; auto. intros a Ha. apply in_seq. specialize (Hlt a Ha). lia. Qed.
Lemma nodup_short n (R : list nat) : NoDup R -> (forall a, In a R -> (a < n)%nat) -> (length R <= n)%nat.
Proof.
  intros Hnd Hlt. rewrite <- (seq_length n 0). apply NoDup_incl_length; [auto|]. intros a Ha. apply in_seq. specialize (Hlt a Ha). lia.
Qed.

(** ** whole numbers *)
Section Exact.
Variable A : arith.
Variable M : Q.
Hypothesis Hadd : exact_upto M (ar_add A) Qplus.
Hypothesis Hsub : exact_upto M (ar_sub A) Qminus.
Variable sp : list (list Q).
Variable thr : list Q.
Variable n : nat.
Hypothesis Hsh : shaped sp thr n.
Hypothesis Hpos : non_negative sp.
Hypothesis Hw : forall x q, In x sp -> In q x -> whole q.
Hypothesis HM : forall k, (k < length thr)%nat -> total_in sp (seq 0 n) k <= M.

Lemma whole_colsum k R : (k < length thr)%nat -> R <> [] -> NoDup R -> (forall a, In a R -> (a < n)%nat) ->
  colsum A (column sp k R) == total_in sp R k.
Proof.
  intros Hk Hne Hnd Hlt. pose proof (total_in_all sp n k R Hpos Hnd Hlt) as Ht. specialize (HM k Hk).
  assert (Hx : forall x, In x (column sp k R) -> whole x /\ 0 <= x).
  { intros x Hx. split; [|eapply column_nonneg; eauto]. destruct (column_entry sp thr n k R x Hsh Hk Hlt Hx) as [r [H1 H2]]. eauto. }
  change (total_in sp R k) with (sumQ (column sp k R)) in *.
  destruct (column sp k R) as [|x l] eqn:E; [destruct R; [congruence|discriminate]|]. cbn [colsum].
  rewrite sumQ_cons in *. destruct (Hx x (or_introl eq_refl)).
  apply (fsum_from A M Hadd l x x); auto; try lra. intros y Hy. apply Hx. right; auto.
Qed.
Lemma whole_dif k R a : (k < length thr)%nat -> NoDup R -> (forall a, In a R -> (a < n)%nat) -> In a R ->
  ar_sub A (colsum A (column sp k R)) (nth k (nth a sp []) 0) == total_in sp R k - nth k (nth a sp []) 0.
Proof.
  intros Hk Hnd Hlt Ha. assert (Hne : R <> []) by (intros ->; destruct Ha).
  pose proof (whole_colsum k R Hk Hne Hnd Hlt) as E.
  assert (Hx : forall x, In x (column sp k R) -> whole x /\ 0 <= x).
  { intros x Hx. split; [|eapply column_nonneg; eauto]. destruct (column_entry sp thr n k R x Hsh Hk Hlt Hx) as [r [H1 H2]]. eauto. }
  assert (Hin : In (nth k (nth a sp []) 0) (column sp k R)) by (unfold column; apply in_map_iff; eauto).
  assert (Hle : nth k (nth a sp []) 0 <= total_in sp R k) by (apply sumQ_ge; [intros y Hy; apply Hx; auto|auto]).
  destruct (Hx _ Hin). pose proof (total_in_all sp n k R Hpos Hnd Hlt) as Ht. specialize (HM k Hk).
  rewrite (Hsub (colsum A (column sp k R)) (nth k (nth a sp []) 0)).
  - rewrite E. reflexivity.
  - eapply whole_eq; [symmetry; exact E|]. apply whole_sum. intros x H1. apply Hx, H1.
  - auto.
  - rewrite E. rewrite Qabs_pos; lra.
Qed.
End Exact.

(** ** rounding errors *)
Section Rounded.
Variable A : arith.
Variable V : Q -> Prop.
Variables u M : Q.
Hypothesis Hu : 0 <= u.
Hypothesis Hu1 : u < 1.
Hypothesis Hadd : rounds_within V u M (ar_add A) Qplus.
Hypothesis Hsub : rounds_within V u M (ar_sub A) Qminus.
Variable sp : list (list Q).
Variable thr : list Q.
Variable n : nat.
Hypothesis Hsh : shaped sp thr n.
Hypothesis Hpos : non_negative sp.
Hypothesis HV : forall x q, In x sp -> In q x -> V q.
Hypothesis HM : forall k, (k < length thr)%nat -> qpow (1 + u) n * total_in sp (seq 0 n) k <= M.

Definition slack (k : nat) : Q := (qpow (1 + u) n - 1) * total_in sp (seq 0 n) k.

Lemma up_lo m : 2 <= qpow (1 + u) m + qpow (1 - u) m.
Proof.
  assert (H : forall j, qpow (1 - u) j <= qpow (1 + u) j).
  { intros j. apply Qle_trans with 1; [apply (qpow_down (1 - u) 0 j); try lra; lia|apply (qpow_up (1 + u) 0 j); try lra; lia]. }
  induction m as [|m IH]; cbn [qpow]; [lra|]. specialize (H m).
  assert (0 <= u * (qpow (1 + u) m - qpow (1 - u) m)) by (apply Qmult_le_0_compat; lra). lra.
Qed.

Lemma rounded_colsum k R : (k < length thr)%nat -> R <> [] -> NoDup R -> (forall a, In a R -> (a < n)%nat) ->
  V (colsum A (column sp k R)) /\ near u (length R - 1) (colsum A (column sp k R)) (total_in sp R k).
Proof.
  intros Hk Hne Hnd Hlt. pose proof (total_in_all sp n k R Hpos Hnd Hlt) as Ht. specialize (HM k Hk).
  pose proof (nodup_short n R Hnd Hlt) as Hlen.
  assert (Hx : forall x, In x (column sp k R) -> V x /\ 0 <= x).
  { intros x Hx. split; [|eapply column_nonneg; eauto]. destruct (column_entry sp thr n k R x Hsh Hk Hlt Hx) as [r [H1 H2]]. eauto. }
  change (total_in sp R k) with (sumQ (column sp k R)) in *.
  assert (Hl : length (column sp k R) = length R) by (unfold column; apply map_length).
  destruct (column sp k R) as [|x l] eqn:E; [destruct R; [congruence|discriminate]|]. cbn [colsum]. cbn [length] in Hl.
  replace (length R - 1)%nat with (length l) by lia.
  rewrite sumQ_cons in *. destruct (Hx x (or_introl eq_refl)) as [Vx Hx0].
  assert (Hs : 0 <= sumQ l) by (apply sumQ_nonneg_list; intros y Hy; apply Hx; right; auto).
  assert (Hcons : V (fold_left (ar_add A) l x) /\ near u (length l) (fold_left (ar_add A) l x) (x + sumQ l)).
  2: { destruct Hcons as [H1 H2]. split; [exact H1|]. unfold near in *. rewrite ?sumQ_cons. exact H2. }
  apply (fsum_near A V u M Hu Hu1 Hadd l x); auto.
  - intros y Hy. apply Hx. right; auto.
  - eapply Qle_trans; [|exact HM]. apply Qle_trans with (qpow (1 + u) n * (x + sumQ l)).
    + apply Qmult_le_compat_r; [apply qpow_up; [lra|lia]|lra].
    + rewrite !(Qmult_comm (qpow (1 + u) n)). apply Qmult_le_compat_r; [auto|apply qpow_nonneg; lra].
Qed.

Lemma slack_enough k R m : (k < length thr)%nat -> NoDup R -> (forall a, In a R -> (a < n)%nat) -> (m <= n)%nat ->
  (qpow (1 + u) m - 1) * total_in sp R k <= slack k /\ 0 <= total_in sp R k.
Proof.
  intros Hk Hnd Hlt Hm. pose proof (total_in_all sp n k R Hpos Hnd Hlt) as Ht.
  assert (H0 : 0 <= total_in sp R k).
  { apply sumQ_nonneg_list. intros x Hx. eapply column_nonneg; eauto. }
  split; [|auto]. unfold slack. apply Qle_trans with ((qpow (1 + u) n - 1) * total_in sp R k).
  - apply Qmult_le_compat_r; [|auto]. assert (qpow (1 + u) m <= qpow (1 + u) n) by (apply qpow_up; [lra|auto]). lra.
  - rewrite !(Qmult_comm (qpow (1 + u) n - 1)). apply Qmult_le_compat_r; [auto|].
    assert (qpow (1 + u) 0 <= qpow (1 + u) n) by (apply qpow_up; [lra|lia]). cbn [qpow] in *. lra.
Qed.

Theorem rounded_sum k R : (k < length thr)%nat -> R <> [] -> NoDup R -> (forall a, In a R -> (a < n)%nat) ->
  Qabs (colsum A (column sp k R) - total_in sp R k) <= slack k.
Proof.
  intros Hk Hne Hnd Hlt. destruct (rounded_colsum k R Hk Hne Hnd Hlt) as [_ [H1 H2]].
  pose proof (nodup_short n R Hnd Hlt) as Hlen.
  destruct (slack_enough k R (length R - 1) Hk Hnd Hlt ltac:(lia)) as [H3 H4]. pose proof (up_lo (length R - 1)) as H5.
  apply Qabs_Qle_condition. split; [|lra].
  assert ((2 - qpow (1 + u) (length R - 1)) * total_in sp R k <= qpow (1 - u) (length R - 1) * total_in sp R k)
    by (apply Qmult_le_compat_r; lra).
  lra.
Qed.

Theorem rounded_dif k R a : (k < length thr)%nat -> NoDup R -> (forall a, In a R -> (a < n)%nat) -> In a R ->
  ar_sub A (colsum A (column sp k R)) (nth k (nth a sp []) 0) <= total_in sp R k - nth k (nth a sp []) 0 + slack k.
Proof.
  intros Hk Hnd Hlt Ha. assert (Hne : R <> []) by (intros ->; destruct Ha).
  destruct (rounded_colsum k R Hk Hne Hnd Hlt) as [HVs [H1 H2]].
  pose proof (nodup_short n R Hnd Hlt) as Hlen. assert (Hpl : (1 <= length R)%nat) by (destruct R; [congruence|cbn; lia]).
  destruct (slack_enough k R (length R) Hk Hnd Hlt ltac:(lia)) as [H3 H4].
  assert (Hin : In (nth k (nth a sp []) 0) (column sp k R)) by (unfold column; apply in_map_iff; eauto).
  set (x := nth k (nth a sp []) 0) in *. set (s := colsum A (column sp k R)) in *. set (t := total_in sp R k) in *.
  assert (Hx0 : 0 <= x) by (eapply column_nonneg; eauto).
  assert (Vx : V x). { destruct (column_entry sp thr n k R x Hsh Hk Hlt Hin) as [r [K1 K2]]. eauto. }
  assert (Hxt : x <= t) by (apply sumQ_ge; [intros y Hy; eapply column_nonneg; eauto|auto]).
  assert (Hs0 : 0 <= s).
  { eapply Qle_trans; [|exact H1]. apply Qmult_le_0_compat; [apply qpow_nonneg; lra|auto]. }
  assert (HsM : s <= M).
  { eapply Qle_trans; [exact H2|]. eapply Qle_trans; [|exact (HM k Hk)].
    apply Qle_trans with (qpow (1 + u) n * t).
    - apply Qmult_le_compat_r; [apply qpow_up; [lra|lia]|auto].
    - rewrite !(Qmult_comm (qpow (1 + u) n)). apply Qmult_le_compat_r; [apply total_in_all; auto|apply qpow_nonneg; lra]. }
  assert (HxM : x <= M).
  { eapply Qle_trans; [|exact (HM k Hk)]. apply Qle_trans with t; [auto|]. apply Qle_trans with (total_in sp (seq 0 n) k); [apply total_in_all; auto|].
    apply Qle_trans with (1 * total_in sp (seq 0 n) k); [lra|]. apply Qmult_le_compat_r; [apply (qpow_up (1 + u) 0 n); [lra|lia]|].
    apply sumQ_nonneg_list. intros y Hy. apply (column_nonneg sp k (seq 0 n)); auto. }
  destruct (Hsub s x HVs Vx) as [_ He]; [apply Qabs_Qle_condition; split; lra|].
  apply Qabs_Qle_condition in He. destruct He as [_ He].
  assert (Hpow : qpow (1 + u) (length R) == (1 + u) * qpow (1 + u) (length R - 1)).
  { replace (length R) with (S (length R - 1)) at 1 by lia. reflexivity. }
  rewrite Hpow in H3.
  destruct (Qlt_le_dec s x) as [Hlt'|Hge].
  - rewrite Qabs_neg in He by lra.
    assert (0 <= u * (x - s) /\ u * (x - s) <= 1 * (x - s)) as [K1 K2].
    { split; [apply Qmult_le_0_compat; lra|apply Qmult_le_compat_r; lra]. }
    assert (K3 : 0 <= ((1 + u) * qpow (1 + u) (length R - 1) - 1) * t).
    { apply Qmult_le_0_compat; [|auto]. rewrite <- Hpow. assert (qpow (1 + u) 0 <= qpow (1 + u) (length R)) by (apply qpow_up; [lra|lia]). cbn [qpow] in *. lra. }
    lra.
  - rewrite Qabs_pos in He by lra.
    assert (K : (1 + u) * s <= (1 + u) * (qpow (1 + u) (length R - 1) * t)).
    { rewrite !(Qmult_comm (1 + u)). apply Qmult_le_compat_r; lra. }
    assert (0 <= u * x) by (apply Qmult_le_0_compat; lra). lra.
Qed.
End Rounded.

(** ** the fit, given a bound on the errors *)
Section ApproxFit.
Variable A : arith.
Variable enum : list nat -> list nat.
Variable order : list edge -> list edge.
Hypothesis Hord : forall l, Permutation (order l) l.
Variable O : objfun.
Variable g : graph.
Variables attr sp : list (list Q).
Variable thr : list Q.
Hypothesis Hsym : symmetric g.
Hypothesis Hloop : no_self_loops g.
Hypothesis Hsh : shaped sp thr (gn g).
Hypothesis Hpos : non_negative sp.
Variable e : nat -> Q.
Hypothesis Hsum : forall k R, (k < length thr)%nat -> R <> [] -> NoDup R -> (forall a, In a R -> (a < gn g)%nat) ->
  Qabs (colsum A (column sp k R) - total_in sp R k) <= e k.
Hypothesis Hdif : forall k R a, (k < length thr)%nat -> NoDup R -> (forall a, In a R -> (a < gn g)%nat) -> In a R ->
  ar_sub A (colsum A (column sp k R)) (nth k (nth a sp []) 0) <= total_in sp R k - nth k (nth a sp []) 0 + e k.

Local Notation lower := (shifted (fun k => - e k) thr).
Local Notation upper := (shifted e thr).

Lemma lower_meets l z : meets sp lower l z -> forall k t, nth_error thr k = Some t -> t <= total sp l z k + e k.
Proof.
  intros H k t Et. assert (Es : nth_error lower k = Some (t + - e k)) by (apply shifted_nth; eauto). specialize (H k _ Es). lra.
Qed.
Lemma approx_donors c l a : (c < n_components g)%nat -> length l = length (comp_nodes g c) -> (a < length l)%nat ->
  fdonor_ok A (map (row sp) (comp_nodes g c)) thr a l = true -> spared (map (row sp) (comp_nodes g c)) lower a l.
Proof.
  intros Hc Hl Ha. apply (approx_donor A sp thr (gn g) Hsh e Hdif); auto; [apply comp_nodes_NoDup|].
  intros b Hb. eapply comp_nodes_lt; eauto.
Qed.

Theorem approx_valid fuel max_it entropy labels0 ls r : (0 < max_it)%nat ->
  post anyexn True (fmaxp_fit A enum order O fuel g attr sp thr max_it entropy labels0 ls r)
    (fun '(labels, _, _) => exists mp l, labels = Some l /\ feasible g l mp /\ all_meet sp lower l).
Proof.
  intros Hit.
  eapply (post_weaken anyexn anyexn True True); [auto|auto| |
    apply (fmaxp_fit_post A A enum order Hord O g attr sp thr lower upper Hsym Hloop (proj1 Hsh) Hpos
    (approx_check A sp thr (gn g) Hsh e Hsum) approx_donors anyexn True (fun _ _ _ => True))]; auto.
  - intros [[labels ls'] r'] _ [mp [l [-> [H1 [H2 _]]]]]. eauto.
  - intros c l inner _ _. destruct (start_common l (attr_c attr g c) O); cbn [bind]; try exact Logic.I.
    destruct (fstrat_start O inner l (attr_c attr g c) (comp_nodes g c)); exact Logic.I.
  - intros c s a r1 l rg _ _ _ _. destruct (fstrat_call A A s a r1 l rg) as [[[b s1] rg1]| |]; exact Logic.I.
  - intros l _. destruct (o_call O l attr); exact Logic.I.
  - intros mp x m _ _. exact Logic.I.
Qed.

(** the strategy at the bottom asks the objective about the rows of the component *)
Fixpoint asks (rows : list (list Q)) (s : fstrategy) : Prop :=
  match s with FAzp c => c_obj c = O /\ c_attr c = rows | FMaxP _ _ _ _ inner => asks rows inner end.

Hypothesis Hattr : length attr = gn g.
Hypothesis Hans : answers O attr.

Lemma attr_c_rows c x : In x (attr_c attr g c) -> In x attr.
Proof.
  intros Hx. unfold attr_c in Hx. apply in_map_iff in Hx. destruct Hx as [a [<- Ha]]. apply nth_In. rewrite Hattr. eapply comp_nodes_lt; eauto.
Qed.

Theorem approx_returns fuel max_it entropy labels0 ls r : (0 < max_it)%nat -> (gn g + 1 < fuel)%nat ->
  (forall v isl, (v < gn g)%nat -> island g v isl -> meets_in sp upper isl) ->
  post noexn False (fmaxp_fit A enum order O fuel g attr sp thr max_it entropy labels0 ls r)
    (fun '(labels, _, _) => exists l, labels = Some l).
Proof.
  intros Hit Hfuel Hisl.
  assert (Hlen : forall c, length (attr_c attr g c) = length (comp_nodes g c)) by (intros c; unfold attr_c; apply map_length).
  eapply (post_weaken noexn noexn False False); [auto|auto| |
    apply (fmaxp_fit_post A A enum order Hord O g attr sp thr lower upper Hsym Hloop (proj1 Hsh) Hpos
    (approx_check A sp thr (gn g) Hsh e Hsum) approx_donors noexn False (fun c s _ => asks (attr_c attr g c) s))]; auto.
  - intros [[labels ls'] r'] _ [mp [l [-> _]]]. eauto.
  - intros c l inner Hc [Hl _]. rewrite comp_graph_n in Hl.
    destruct (proj1 Hans (attr_c attr g c) l (attr_c_rows c) ltac:(rewrite Hlen; auto)) as [v Ev].
    unfold start_common. rewrite Ev. cbn [bind].
    induction inner as [c1|c1 sp1 sp2 thr1 inner IH]; cbn [fstrat_start].
    + unfold start_common. rewrite Ev. cbn [bind post asks]. auto.
    + unfold start_common. rewrite Ev. cbn [bind]. destruct (fstrat_start O inner l (attr_c attr g c) (comp_nodes g c)); cbn [bind post asks] in *; auto.
  - intros c s a r1 l rg Hc Hwf Hmv Hin.
    assert (Hl : length l = length (comp_nodes g c)) by (destruct Hwf as [Hl _]; rewrite comp_graph_n in Hl; auto).
    destruct Hmv as [Ha [D [HD [_ [_ [b [_ [Hb _]]]]]]]]. rewrite comp_graph_n in Ha.
    destruct (proj2 Hans (attr_c attr g c) l a r1 (attr_c_rows c) ltac:(rewrite Hlen; auto) ltac:(lia) ltac:(eapply nth_error_In; eauto)) as [q Eq].
    induction s as [c1|c1 sp1 sp2 thr1 inner IH]; cbn [fstrat_call asks] in *.
    + destruct Hin as [H1 H2]. unfold fcall. rewrite H1, H2, Eq. cbn [bind]. destruct (Qle_bool q 0); cbn [bind post asks c_obj c_attr]; auto.
    + destruct (fdonor_ok A sp2 thr1 a l); [|cbn [post asks]; auto].
      destruct (fstrat_call A A inner a r1 l rg) as [[[b1 s1] rg1]| |]; cbn [bind post asks] in *; auto.
  - intros l Hl. destruct (proj1 Hans attr l) as [v Ev]; [auto|lia|]. rewrite Ev. exact Logic.I.
  - intros mp x m [_ [F [_ HG]]] Hn. exfalso. apply Hn. eapply (island_served2 g Hsym sp lower upper); eauto.
Qed.

Theorem approx_raises fuel max_it entropy labels0 ls r v isl : (0 < max_it)%nat ->
  (v < gn g)%nat -> island g v isl -> ~ meets_in sp lower isl ->
  exists m, fmaxp_fit A enum order O fuel g attr sp thr max_it entropy labels0 ls r = Raise (ValueError m).
Proof.
  intros Hit Hv Hi Hn.
  apply (funmet_raises A A enum order O g attr sp thr lower upper Hsym Hloop (proj1 Hsh) Hpos (approx_check A sp thr (gn g) Hsh e Hsum)
    fuel max_it entropy labels0 ls r v isl); auto.
Qed.
End ApproxFit.

Lemma fpairwise_answers A enum attr : answers (fpairwise A enum) attr.
Proof.
  split.
  - intros rows labels _ _. eexists. reflexivity.
  - intros rows labels a r _ Hl Ha Hr. cbn [o_update fpairwise]. unfold fpairwise_update.
    rewrite !metric_to_point_Ok; [eexists; reflexivity| |]; apply rows_of_nonempty; auto. apply nth_In. auto.
Qed.
