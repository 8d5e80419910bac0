(** Property C97: the default centre of a region is the mean, and what follows for squared distances. *)
From Verif Require Import Base Spec M_Graph P_Graph M_Util P_Base M_Objective P_Sum P_Objective M_Skater P_Skater Props_Skater Examples.
Local Open Scope Q_scope.

(** every row has k attributes *)
Definition width (k : nat) (rows : list (list Q)) : Prop := forall x, In x rows -> length x = k.
(** the number of areas as a rational *)
Definition card {A} (l : list A) : Q := inject_Z (Z.of_nat (length l)).
(** squared Euclidean distance *)
Definition sq_dist (x y : list Q) : Q := sumQ (map (fun ab => (fst ab - snd ab) * (fst ab - snd ab)) (combine x y)).
(** the sum over unordered pairs of areas of one region *)
Definition pair_sum {A} (f : A -> A -> Q) : list A -> Q :=
  fix go l := match l with [] => 0 | x :: t => sumQ (map (f x) t) + go t end.

Lemma card_cons {A} (x : A) l : card (x :: l) == 1 + card l.
Proof. unfold card. cbn [length]. rewrite Nat2Z.inj_succ. unfold Z.succ. rewrite inject_Z_plus. ring. Qed.
Lemma card_pos {A} (l : list A) : l <> [] -> 0 < card l.
Proof.
  destruct l as [|x l]; [congruence|]. intros _. unfold card. cbn [length].
  change 0 with (inject_Z 0). rewrite <- Zlt_Qlt. lia.
Qed.
Lemma card_nonneg {A} (l : list A) : 0 <= card l.
Proof. unfold card. change 0 with (inject_Z 0). rewrite <- Zle_Qle. lia. Qed.

Lemma add_rows_width k x y : length x = k -> length y = k -> length (add_rows x y) = k.
Proof.
  revert x y. induction k as [|k IH]; intros [|a x] [|b y] Hx Hy; cbn in *; try discriminate; auto.
Qed.
Lemma add_rows_nth k j x y : length x = k -> length y = k -> nth j (add_rows x y) 0 == nth j x 0 + nth j y 0.
Proof.
  revert j x y. induction k as [|k IH]; intros j [|a x] [|b y] Hx Hy; cbn in *; try discriminate; destruct j; try ring.
  apply IH; lia.
Qed.
Lemma col_sum k rows : width k rows -> rows <> [] ->
  length (fold_right add_rows [] rows) = k /\
  forall j, nth j (fold_right add_rows [] rows) 0 == sumQ (map (fun x => nth j x 0) rows).
Proof.
  intros Hw. induction rows as [|x rows IH]; [congruence|]. intros _. cbn [fold_right].
  destruct rows as [|y rows].
  - cbn [fold_right]. assert (E : add_rows x [] = x) by (destruct x; auto). rewrite E.
    split; [apply Hw; left; auto|]. intros j. cbn. ring.
  - destruct IH as [IH1 IH2]; [intros z Hz; apply Hw; right; auto|discriminate|].
    assert (Hx : length x = k) by (apply Hw; left; auto).
    split; [apply add_rows_width; auto|]. intros j. rewrite (add_rows_nth k) by auto. rewrite IH2. reflexivity.
Qed.

(** ** C97: the default centre *)
(** One entry per attribute, and times the number of areas it is the sum of the column. *)
Theorem C97_mean rows k : width k rows -> rows <> [] ->
  length (mean_row rows) = k /\
  forall j, (j < k)%nat -> card rows * nth j (mean_row rows) 0 == sumQ (map (fun x => nth j x 0) rows).
Proof.
  intros Hw Hne. destruct (col_sum k rows Hw Hne) as [H1 H2]. unfold mean_row.
  split; [rewrite map_length; auto|]. intros j Hj.
  rewrite (nth_indep _ 0 (0 / inject_Z (Z.of_nat (length rows)))) by (rewrite map_length; lia).
  rewrite (map_nth (fun s => s / inject_Z (Z.of_nat (length rows)))), H2. fold (card rows).
  pose proof (card_pos rows Hne). field. lra.
Qed.

Lemma sq_dist_cols k x y : length x = k -> length y = k ->
  sq_dist x y == sumQ (map (fun j => (nth j x 0 - nth j y 0) * (nth j x 0 - nth j y 0)) (seq 0 k)).
Proof.
  unfold sq_dist. revert x y. induction k as [|k IH]; intros [|a x] [|b y] Hx Hy; cbn in *; try discriminate; [reflexivity|].
  rewrite IH by lia. rewrite <- seq_shift, map_map. reflexivity.
Qed.

(** one column: the mean m of the numbers f x *)
Lemma steiner {A} (f : A -> Q) l m c : card l * m == sumQ (map f l) ->
  sumQ (map (fun x => (f x - c) * (f x - c)) l) ==
  sumQ (map (fun x => (f x - m) * (f x - m)) l) + card l * ((m - c) * (m - c)).
Proof.
  intros Hm.
  assert (E : forall c, sumQ (map (fun x => (f x - c) * (f x - c)) l) ==
     sumQ (map (fun x => f x * f x) l) - 2 * c * sumQ (map f l) + card l * (c * c)).
  { clear. intros c. induction l as [|x l IH]; [unfold card; cbn; ring|]. cbn [map]. rewrite !sumQ_cons, IH, card_cons. ring. }
  rewrite !E, <- Hm. ring.
Qed.
Lemma pair_squares {A} (f : A -> Q) l :
  pair_sum (fun x y => (f x - f y) * (f x - f y)) l ==
  card l * sumQ (map (fun x => f x * f x) l) - sumQ (map f l) * sumQ (map f l).
Proof.
  assert (E : forall c l, sumQ (map (fun x => (c - f x) * (c - f x)) l) ==
     sumQ (map (fun x => f x * f x) l) - 2 * c * sumQ (map f l) + card l * (c * c)).
  { clear. intros c l. induction l as [|x l IH]; [unfold card; cbn; ring|]. cbn [map]. rewrite !sumQ_cons, IH, card_cons. ring. }
  induction l as [|x l IH]; [unfold card; cbn; ring|]. cbn [pair_sum map]. fold (pair_sum (fun x y => (f x - f y) * (f x - f y)) l).
  rewrite IH, E, !sumQ_cons, card_cons. ring.
Qed.
Lemma pair_sum_ext {A} (f h : A -> A -> Q) l :
  (forall x y, In x l -> In y l -> f x y == h x y) -> pair_sum f l == pair_sum h l.
Proof.
  induction l as [|x l IH]; intros H; [reflexivity|]. cbn [pair_sum]. fold (pair_sum f l) (pair_sum h l).
  rewrite IH by (intros; apply H; right; auto).
  rewrite (sumQ_ext (f x) (h x)) by (intros; apply H; [left|right]; auto). reflexivity.
Qed.
Lemma pair_sum_cols {A} (f : nat -> A -> A -> Q) cols l :
  pair_sum (fun x y => sumQ (map (fun j => f j x y) cols)) l == sumQ (map (fun j => pair_sum (f j) l) cols).
Proof.
  induction l as [|x l IH].
  - cbn. symmetry. apply sumQ_zero. reflexivity.
  - cbn [pair_sum]. fold (pair_sum (fun x y => sumQ (map (fun j => f j x y) cols)) l). rewrite IH, sumQ_swap.
    rewrite <- sumQ_plus. apply sumQ_ext. reflexivity.
Qed.

Lemma sq_sum_cols k rows c : width k rows -> length c = k ->
  sumQ (map (fun x => sq_dist x c) rows) ==
  sumQ (map (fun j => sumQ (map (fun x => (nth j x 0 - nth j c 0) * (nth j x 0 - nth j c 0)) rows)) (seq 0 k)).
Proof.
  intros Hw Hc. rewrite (sumQ_ext (fun x => sq_dist x c) _ rows (fun x Hx => sq_dist_cols k x c (Hw x Hx) Hc)).
  apply sumQ_swap.
Qed.

(** The mean has the smallest total squared distance to the areas; any other point is worse by the number
    of areas times its squared distance to the mean. *)
Theorem C97_mean_minimises rows k c : width k rows -> rows <> [] -> length c = k ->
  sumQ (map (fun x => sq_dist x c) rows) ==
  sumQ (map (fun x => sq_dist x (mean_row rows)) rows) + card rows * sq_dist (mean_row rows) c.
Proof.
  intros Hw Hne Hc. destruct (C97_mean rows k Hw Hne) as [Hl Hm].
  rewrite (sq_sum_cols k rows c), (sq_sum_cols k rows (mean_row rows)) by auto.
  rewrite (sq_dist_cols k _ _ Hl Hc), <- sumQ_scale, <- sumQ_plus.
  apply sumQ_ext. intros j Hj. apply in_seq in Hj. apply (steiner (fun x => nth j x 0)). apply Hm. lia.
Qed.

(** ... and times the number of areas this total is the sum over all pairs of areas. *)
Theorem C97_mean_pairs rows k : width k rows -> rows <> [] ->
  card rows * sumQ (map (fun x => sq_dist x (mean_row rows)) rows) == pair_sum sq_dist rows.
Proof.
  intros Hw Hne. destruct (C97_mean rows k Hw Hne) as [Hl Hm].
  rewrite (sq_sum_cols k rows (mean_row rows)) by auto.
  rewrite (pair_sum_ext _ _ rows (fun x y Hx Hy => sq_dist_cols k x y (Hw x Hx) (Hw y Hy))).
  rewrite pair_sum_cols, <- sumQ_scale. apply sumQ_ext. intros j Hj. apply in_seq in Hj.
  rewrite (pair_squares (fun x => nth j x 0)).
  specialize (Hm j ltac:(lia)).
  pose proof (steiner (fun x => nth j x 0) rows _ 0 Hm) as Hs.
  setoid_replace (sumQ (map (fun x => (nth j x 0 - 0) * (nth j x 0 - 0)) rows)) with
    (sumQ (map (fun x => nth j x 0 * nth j x 0) rows)) in Hs by (apply sumQ_ext; intros; ring).
  rewrite Hs, <- Hm. ring.
Qed.

(** ** The center objective with squared distances *)
(** Its value is the sum over the regions of the pairwise sum divided by the number of areas. *)
Theorem C97_center_objective attr labels k : width k attr -> length attr = length labels ->
  exists v, o_call (centered sq_dist mean_row sumQ) labels attr = Ok v /\
  v == sumQ (map (fun r => pair_sum (fun a b => sq_dist (nth a attr []) (nth b attr [])) (where_eq labels r)
                           / card (where_eq labels r)) (nodup Z.eq_dec labels)).
Proof.
  intros Hw HL. cbn [o_call centered]. rewrite center_call_Ok. eexists. split; [reflexivity|].
  rewrite (sumQ_map_perm _ (uniqueZ labels) (nodup Z.eq_dec labels)).
  2:{ apply NoDup_Permutation; [apply uniqueZ_NoDup|apply NoDup_nodup|]. intros x. rewrite uniqueZ_In, nodup_In. tauto. }
  apply sumQ_ext. intros r Hr. apply nodup_In in Hr. unfold hval.
  assert (Hne : rows_of labels r attr <> []) by (apply rows_of_nonempty; auto).
  assert (Hw' : width k (rows_of labels r attr)).
  { intros x Hx. unfold rows_of in Hx. apply in_map_iff in Hx. destruct Hx as [a [<- Ha]]. apply Hw, nth_In.
    apply where_eq_In in Ha. rewrite HL. apply nth_error_Some. congruence. }
  pose proof (C97_mean_pairs _ k Hw' Hne) as H.
  assert (Ec : card (rows_of labels r attr) = card (where_eq labels r)) by (unfold card, rows_of; rewrite map_length; auto).
  assert (Ep : pair_sum sq_dist (rows_of labels r attr) ==
               pair_sum (fun a b => sq_dist (nth a attr []) (nth b attr [])) (where_eq labels r)).
  { unfold rows_of. generalize (where_eq labels r). intros l. induction l as [|a l IH]; [reflexivity|].
    cbn [map pair_sum]. fold (pair_sum sq_dist (map (row attr) l)).
    fold (pair_sum (fun a b => sq_dist (nth a attr []) (nth b attr [])) l). rewrite IH, map_map. reflexivity. }
  rewrite <- Ep, <- H, Ec. pose proof (card_pos _ Hne) as Hp. rewrite Ec in Hp. field. lra.
Qed.

(** The score of Spanning_Forest with squared distances and the default centre never rises when regions
    are split (compare C72_finer_not_worse_refuted for the default distance). *)
Theorem C97_finer_not_worse k data labels labels' p p' fitted q q' :
  let S := mkSk sq_dist sumQ mean_row false in
  width k data -> length data = length labels -> length labels' = length labels ->
  labels_exactly labels p -> labels_exactly labels' p' ->
  (forall u v, (u < length labels)%nat -> (v < length labels)%nat -> lab labels' u = lab labels' v -> lab labels u = lab labels v) ->
  score S fitted data (Some labels) None = Ok (Some q) ->
  score S fitted data (Some labels') None = Ok (Some q') -> q' <= q.
Proof.
  intros S Hw HL HL' He He' Href Hq Hq'.
  apply (C72_finer_not_worse_partial S fitted data labels labels' p p' q q'); auto.
  - intros l. reflexivity.
  - intros rows rows' Hne Hr Hr'. cbn [sk_metric sk_center S].
    destruct rows as [|x rows]; [apply Qle_refl|].
    assert (Hc : length (mean_row rows') = k) by (apply (C97_mean rows' k); auto; intros z Hz; auto).
    rewrite (C97_mean_minimises (x :: rows) k (mean_row rows')); auto; [|intros z Hz; auto|discriminate].
    pose proof (card_nonneg (x :: rows)).
    assert (Hs : forall a b, 0 <= sq_dist a b) by (intros a b; apply sumQ_nonneg; intros y _; destruct (Qlt_le_dec (fst y - snd y) 0); nra).
    specialize (Hs (mean_row (x :: rows)) (mean_row rows')).
    assert (0 <= card (x :: rows) * sq_dist (mean_row (x :: rows)) (mean_row rows')) by (apply Qmult_le_0_compat; auto). lra.
Qed.

(** Regions {0,1,2} and {3,4}: the means are (2,4) and (7,0). *)
Definition attr97 : list (list Q) := [[1; 2]; [2; 4]; [3; 6]; [6; 0]; [8; 0]].
Example C97_example :
  width 2 attr97 /\ mean_row (firstn 3 attr97) <> [] /\
  Forall2 Qeq (mean_row (firstn 3 attr97)) [2; 4] /\
  pair_sum sq_dist (firstn 3 attr97) == 30 /\
  (exists v, o_call (centered sq_dist mean_row sumQ) ([0;0;0;1;1]%Z) attr97 = Ok v /\ v == 12) /\
  (exists q q', score (mkSk sq_dist sumQ mean_row false) None attr97 (Some [0;0;0;1;1]%Z) None = Ok (Some q) /\
    score (mkSk sq_dist sumQ mean_row false) None attr97 (Some [0;0;2;1;1]%Z) None = Ok (Some q') /\ q' < q).
Proof.
  split; [intros x Hx; cbn in Hx; intuition (subst; reflexivity)|]. split; [discriminate|].
  split; [repeat constructor; reflexivity|]. split; [reflexivity|].
  split; [eexists; split; [vm_compute; reflexivity|reflexivity]|].
  eexists. eexists. split; [vm_compute; reflexivity|]. split; [vm_compute; reflexivity|]. reflexivity.
Qed.

Print Assumptions C97_mean.
Print Assumptions C97_mean_minimises.
Print Assumptions C97_mean_pairs.
Print Assumptions C97_center_objective.
Print Assumptions C97_finer_not_worse.
