(** Partitions as class functions, and the pairwise objective of the exact models. *)
From Verif Require Import Base Spec M_Graph M_Util M_Objective M_MaxP M_Exact P_Base P_Graph P_Sum P_Objective P_MaxP2 P_Mip.
From Verif Require Import P_Initial.
Local Open Scope Z_scope.

Definition cls (c : nat -> nat) (k : nat) : nat -> bool := fun a => Nat.eqb (c a) k.
Definition partition (g : graph) (p : nat) (c : nat -> nat) : Prop :=
  (forall a, (a < gn g)%nat -> (c a < p)%nat) /\
  (forall k, (k < p)%nat -> contiguous g (inside g (cls c k))).
Definition lab_of (n : nat) (c : nat -> nat) : list Z := map (fun a => Z.of_nat (c a)) (seq 0 n).
Definition matches (n : nat) (l : list Z) (c : nat -> nat) : Prop :=
  length l = n /\ forall u v, (u < n)%nat -> (v < n)%nat -> (lab l u = lab l v <-> c u = c v).

Lemma lab_of_length n c : length (lab_of n c) = n.
Proof. unfold lab_of. rewrite map_length, seq_length. reflexivity. Qed.
Lemma lab_of_nth n c a : (a < n)%nat -> nth_error (lab_of n c) a = Some (Z.of_nat (c a)).
Proof. intros H. unfold lab_of. exact (map_nth_error (fun a => Z.of_nat (c a)) _ _ (nth_error_seq0 n a H)). Qed.
Lemma lab_of_lab n c a : (a < n)%nat -> lab (lab_of n c) a = Z.of_nat (c a).
Proof. intros H. apply lab_of_nth_error. apply lab_of_nth. exact H. Qed.
Lemma lab_of_matches n c : matches n (lab_of n c) c.
Proof. split; [apply lab_of_length|]. intros u v Hu Hv. rewrite !lab_of_lab by auto. lia. Qed.
Lemma lab_of_region g c k a : region (lab_of (gn g) c) (Z.of_nat k) a <-> inside g (cls c k) a.
Proof.
  unfold region, inside, cls. split.
  - intros H. pose proof (nth_error_lt _ _ _ H) as Hl. rewrite lab_of_length in Hl. split; [auto|]. rewrite lab_of_nth in H by auto.
    apply Nat.eqb_eq. injection H. lia.
  - intros [H1 H2]. rewrite lab_of_nth by auto. apply Nat.eqb_eq in H2. subst. reflexivity.
Qed.
Lemma lab_of_In g c z : In z (lab_of (gn g) c) <-> exists a, (a < gn g)%nat /\ z = Z.of_nat (c a).
Proof.
  unfold lab_of. rewrite in_map_iff. split.
  - intros [a [<- H]]. apply in_seq in H. exists a. split; [lia|auto].
  - intros [a [H ->]]. exists a. split; [auto|]. apply in_seq. lia.
Qed.

Lemma partition_labels g p c : partition g p c -> p_partition g p (lab_of (gn g) c).
Proof.
  intros [Hb Hc]. assert (Hex : labels_exactly (lab_of (gn g) c) p).
  { intros z. rewrite lab_of_In. split.
    - intros [a [Ha ->]]. specialize (Hb a Ha). lia.
    - intros Hz. destruct (Hc (Z.to_nat z)) as [[a [Ha1 Ha2]] _]; [lia|]. apply Nat.eqb_eq in Ha2. exists a. split; [auto|lia]. }
  split; [|exact Hex]. split; [apply lab_of_length|]. split; [apply labels_exactly_n; exact Hex|].
  intros z Hz. apply Hex in Hz. replace z with (Z.of_nat (Z.to_nat z)) by lia.
  apply (contiguous_ext g (inside g (cls c (Z.to_nat z)))).
  - intros a. symmetry. apply lab_of_region.
  - apply Hc. lia.
Qed.

Definition rank (l : list Z) (z : Z) : nat :=
  match index_where (Z.eqb z) (uniqueZ l) with Some k => k | None => 0%nat end.
Lemma rank_nth l z : In z l -> nth_error (uniqueZ l) (rank l z) = Some z.
Proof.
  intros H. unfold rank. destruct (index_where _ _) as [k|] eqn:E.
  - apply index_where_spec in E. destruct E as [[x [Hx Hz]] _]. apply Z.eqb_eq in Hz. subst. exact Hx.
  - rewrite index_where_None in E. apply uniqueZ_In in H. specialize (E z H). rewrite Z.eqb_refl in E. discriminate.
Qed.
Lemma rank_lt l z : In z l -> (rank l z < n_labels l)%nat.
Proof. intros H. rewrite <- uniqueZ_length. eapply nth_error_lt. apply rank_nth. exact H. Qed.

Lemma feasible_partition g p l : feasible g l p -> exists c, partition g p c /\ matches (gn g) l c.
Proof.
  intros [Hl [Hn Hc]]. exists (fun a => rank l (lab l a)).
  assert (Hin : forall a, (a < gn g)%nat -> In (lab l a) l) by (intros a Ha; apply nth_In; lia).
  assert (Hinj : forall u v, (u < gn g)%nat -> (v < gn g)%nat -> (lab l u = lab l v <-> rank l (lab l u) = rank l (lab l v))).
  { intros u v Hu Hv. split; [intros ->; reflexivity|]. intros E. pose proof (rank_nth l _ (Hin u Hu)) as H1.
    pose proof (rank_nth l _ (Hin v Hv)) as H2. rewrite E in H1. congruence. }
  split; [|split; [exact Hl|exact Hinj]]. split.
  - intros a Ha. rewrite <- Hn. apply rank_lt. apply Hin; auto.
  - intros k Hk. rewrite <- Hn, <- uniqueZ_length in Hk.
    destruct (nth_error (uniqueZ l) k) as [z|] eqn:E; [|apply nth_error_None in E; lia].
    assert (Hz : In z l) by (apply uniqueZ_In; eapply nth_error_In; eauto).
    assert (Hr : rank l z = k).
    { assert (Hnd := uniqueZ_NoDup l). rewrite NoDup_nth_error in Hnd. apply Hnd.
      - eapply nth_error_lt. apply rank_nth. exact Hz.
      - rewrite E. apply rank_nth. exact Hz. }
    apply (contiguous_ext g (region l z)); [|apply Hc; exact Hz].
    intros a. unfold region, inside, cls. rewrite Nat.eqb_eq. split.
    + intros Ha. assert (Hag : (a < gn g)%nat) by (apply nth_error_lt in Ha; lia). split; [auto|].
      rewrite (lab_of_nth_error _ _ _ Ha). exact Hr.
    + intros [Hag Ha]. pose proof (rank_nth l _ (Hin a Hag)) as H1. rewrite Ha in H1.
      rewrite lab_nth_error by lia. congruence.
Qed.

Lemma matches_same n l1 l2 c : matches n l1 c -> matches n l2 c -> same_partition l1 l2.
Proof. intros [H1 H2] [H3 H4]. split; [congruence|]. intros u v Hu Hv. rewrite H2, H4 by lia. reflexivity. Qed.

(** ** sizes *)
Lemma partition_sum g p c : partition g p c ->
  sumZ (map (fun k => Z.of_nat (length (members g (cls c k)))) (seq 0 p)) = Z.of_nat (gn g).
Proof.
  intros [Hb _]. rewrite (sumZ_ext _ (fun k => sumZ (map (fun a => if cls c k a then 1 else 0) (seq 0 (gn g))))).
  - rewrite sumZ_swap. rewrite (sumZ_ext _ (fun _ => 1)).
    + rewrite sumZ_const, seq_length. lia.
    + intros a Ha. apply in_seq in Ha. rewrite (sumZ_point _ _ (c a)).
      * unfold cls. rewrite Nat.eqb_refl. reflexivity.
      * apply seq_NoDup.
      * apply in_seq. specialize (Hb a). lia.
      * intros k _ Hne. unfold cls. destruct (Nat.eqb_spec (c a) k); [congruence|reflexivity].
  - intros k _. unfold members. rewrite sumZ_ones. reflexivity.
Qed.

Lemma members_pos g P : contiguous g (inside g P) -> (1 <= length (members g P))%nat.
Proof.
  intros [[a Ha] _]. apply members_In in Ha. destruct (members g P); [destruct Ha|cbn; lia].
Qed.

Lemma partition_size g p c k : partition g p c -> (k < p)%nat -> (length (members g (cls c k)) + p <= gn g + 1)%nat.
Proof.
  intros Hp Hk. pose proof (partition_sum g p c Hp) as Hs.
  set (f := fun k => Z.of_nat (length (members g (cls c k)))) in *.
  assert (Hm : f k - 1 <= sumZ (map (fun x => f x - 1) (seq 0 p))).
  { apply (sumZ_member (fun x => f x - 1)); [|apply in_seq; lia]. intros x Hx. apply in_seq in Hx.
    pose proof (members_pos g (cls c x)) as H. unfold f. assert (1 <= length (members g (cls c x)))%nat; [|lia]. apply H. apply (proj2 Hp). lia. }
  rewrite sumZ_minus, sumZ_const, seq_length, Hs in Hm. unfold f in Hm. lia.
Qed.

Lemma partition_le g p c : partition g p c -> (p <= gn g)%nat.
Proof.
  intros Hp. destruct p as [|p]; [lia|]. assert (H := partition_size g _ c 0 Hp). assert (H2 : (0 < Datatypes.S p)%nat) by lia.
  specialize (H H2). pose proof (members_pos g (cls c 0) (proj2 Hp 0%nat H2)). lia.
Qed.

Lemma region_size_members g l c a : matches (gn g) l c -> (a < gn g)%nat ->
  region_size l (lab l a) = length (members g (cls c (c a))).
Proof.
  intros [Hl Hm] Ha. unfold region_size. rewrite <- Hl in *.
  assert (E : l = map (lab l) (seq 0 (length l))).
  { clear. apply nth_ext with (-1) (-1); [rewrite map_length, seq_length; reflexivity|]. intros k Hk.
    rewrite (nth_indep (map _ _) (-1) (lab l (length l))) by (rewrite map_length, seq_length; auto).
    rewrite map_nth, seq_nth by auto. reflexivity. }
  rewrite E at 1. unfold members. rewrite <- Hl.
  assert (H : forall s, (forall x, In x s -> (x < length l)%nat) ->
     count_occ Z.eq_dec (map (lab l) s) (lab l a) = length (filter (cls c (c a)) s)).
  { induction s as [|x s IH]; intros Hs; [reflexivity|]. cbn [map filter].
    assert (Hx : (x < length l)%nat) by (apply Hs; left; auto).
    assert (IH' := IH (fun y Hy => Hs y (or_intror Hy))).
    destruct (Z.eq_dec (lab l x) (lab l a)) as [Hxa|Hxa].
    - rewrite count_occ_cons_eq by auto. apply Hm in Hxa; auto. unfold cls at 1. apply Nat.eqb_eq in Hxa. rewrite Hxa. cbn [length]. lia.
    - rewrite count_occ_cons_neq by auto. unfold cls at 1. destruct (Nat.eqb_spec (c x) (c a)) as [Hc|Hc]; [apply Hm in Hc; auto; contradiction|auto]. }
  apply H. intros x Hx. apply in_seq in Hx. lia.
Qed.

(** ** finite choice *)
Lemma finite_choice {A} (d : A) (P : nat -> A -> Prop) p : (forall k, (k < p)%nat -> exists x, P k x) ->
  exists f, forall k, (k < p)%nat -> P k (f k).
Proof.
  induction p as [|p IH]; intros H.
  - exists (fun _ => d). intros k Hk. lia.
  - destruct IH as [f Hf]; [intros k Hk; apply H; lia|]. destruct (H p) as [x Hx]; [lia|].
    exists (fun k => if Nat.eqb k p then x else f k). intros k Hk. destruct (Nat.eqb_spec k p) as [->|Hne]; [auto|]. apply Hf. lia.
Qed.

(** roots, parents and depths of all classes of a partition *)
Lemma rooted_partition g p c : partition g p c ->
  exists root par dep, forall k, (k < p)%nat -> rooted g (cls c k) (root k) par dep.
Proof.
  intros [Hb Hc].
  destruct (finite_choice (0%nat, (fun a : nat => a), (fun _ : nat => 0%nat))
              (fun k x => rooted g (cls c k) (fst (fst x)) (snd (fst x)) (snd x)) p) as [f Hf].
  { intros k Hk. destruct (Hc k Hk) as [[s Hs] _]. destruct (rooted_exists g (cls c k) s Hs (Hc k Hk)) as [par [dep R]].
    exists (s, par, dep). exact R. }
  exists (fun k => fst (fst (f k))), (fun a => snd (fst (f (c a))) a), (fun a => snd (f (c a)) a).
  intros k Hk. specialize (Hf k Hk).
  assert (E : forall a, inside g (cls c k) a -> c a = k) by (intros a [_ Ha]; apply Nat.eqb_eq; exact Ha).
  constructor.
  - apply (rt_in _ _ _ _ _ Hf).
  - rewrite (E _ (rt_in _ _ _ _ _ Hf)). apply (rt_s _ _ _ _ _ Hf).
  - intros u Hu H0. rewrite (E u Hu) in H0. apply (rt_0 _ _ _ _ _ Hf); auto.
  - intros u Hu Hne. rewrite (E u Hu). destruct (rt_par _ _ _ _ _ Hf u Hu Hne) as [H1 [H2 H3]]. split; [auto|]. split; [auto|].
    rewrite (E _ H1). auto.
  - intros u v Hu Hv Ht. rewrite (E u Hu), (E v Hv). apply (rt_near _ _ _ _ _ Hf); auto.
Qed.

(** the same with depth at most n - p - 1 *)
Lemma shallow_partition g p c : partition g p c -> (2 <= gn g - p)%nat ->
  exists root par dep, (forall k, (k < p)%nat -> rooted g (cls c k) (root k) par dep) /\
    forall a, (a < gn g)%nat -> (dep a < gn g - p)%nat.
Proof.
  intros Hp Hm. pose proof Hp as [Hb Hc].
  destruct (finite_choice (0%nat, (fun a : nat => a), (fun _ : nat => 0%nat))
              (fun k x => rooted g (cls c k) (fst (fst x)) (snd (fst x)) (snd x) /\
                          forall u, inside g (cls c k) u -> (snd x u < gn g - p)%nat) p) as [f Hf].
  { intros k Hk. pose proof (partition_size g p c k Hp Hk) as Hs.
    destruct (le_lt_dec (length (members g (cls c k))) 2) as [H2|H2].
    - destruct (Hc k Hk) as [[s Hs'] _]. destruct (rooted_exists g (cls c k) s Hs' (Hc k Hk)) as [par [dep R]].
      exists (s, par, dep). split; [exact R|]. intros u Hu. pose proof (rooted_depth _ _ _ _ _ u R Hu). cbn [snd]. lia.
    - destruct (shallow_root g (cls c k) (Hc k Hk) H2) as [s [par [dep [R Hd]]]]. exists (s, par, dep). split; [exact R|].
      intros u Hu. specialize (Hd u Hu). cbn [snd]. lia. }
  exists (fun k => fst (fst (f k))), (fun a => snd (fst (f (c a))) a), (fun a => snd (f (c a)) a).
  split.
  - intros k Hk. destruct (Hf k Hk) as [Hr _].
    assert (E : forall a, inside g (cls c k) a -> c a = k) by (intros a [_ Ha]; apply Nat.eqb_eq; exact Ha).
    constructor.
    + apply (rt_in _ _ _ _ _ Hr).
    + rewrite (E _ (rt_in _ _ _ _ _ Hr)). apply (rt_s _ _ _ _ _ Hr).
    + intros u Hu H0. rewrite (E u Hu) in H0. apply (rt_0 _ _ _ _ _ Hr); auto.
    + intros u Hu Hne. rewrite (E u Hu). destruct (rt_par _ _ _ _ _ Hr u Hu Hne) as [H1 [H2 H3]]. split; [auto|]. split; [auto|].
      rewrite (E _ H1). auto.
    + intros u v Hu Hv Ht. rewrite (E u Hu), (E v Hv). apply (rt_near _ _ _ _ _ Hr); auto.
  - intros a Ha. apply (proj2 (Hf (c a) (Hb a Ha))). split; [auto|]. unfold cls. apply Nat.eqb_refl.
Qed.

(** ** the pairwise objective *)
Lemma upper_In n i j : In (i, j) (upper n) <-> (i < j < n)%nat.
Proof. unfold upper. rewrite filter_In, in_prod_iff, !in_seq. cbn [fst snd]. rewrite Nat.ltb_lt. lia. Qed.

Lemma upper_sum n (F : nat -> nat -> Q) :
  (sumQ (map (fun e => F (fst e) (snd e)) (upper n)) ==
   sumQ (map (fun j => sumQ (map (fun i => F i j) (seq 0 j))) (seq 0 n)))%Q.
Proof.
  unfold upper. rewrite sumQ_filter.
  assert (E : forall l m (G : nat * nat -> Q), (sumQ (map G (list_prod l m)) == sumQ (map (fun i => sumQ (map (fun j => G (i, j)) m)) l))%Q).
  { intros l m G. induction l as [|x l IH]; [reflexivity|]. cbn [list_prod map]. rewrite map_app, sumQ_app, IH, sumQ_cons, map_map. reflexivity. }
  rewrite E. cbn [fst snd]. rewrite sumQ_swap. apply sumQ_ext. intros j Hj. apply in_seq in Hj.
  rewrite <- sumQ_filter. apply sumQ_map_perm. apply NoDup_Permutation.
  - apply NoDup_filter, seq_NoDup.
  - apply seq_NoDup.
  - intros i. rewrite filter_In, !in_seq, Nat.ltb_lt. lia.
Qed.

Definition same01 (c : nat -> nat) (i j : nat) : Z := if Nat.eqb (c i) (c j) then 1 else 0.

Lemma lp_cost_het n d l c : matches n l c -> (lp_cost n d (same01 c) == heterogeneity d l)%Q.
Proof.
  intros [Hl Hm]. unfold lp_cost. rewrite (upper_sum n (fun i j => d i j * inject_Z (same01 c i j))%Q). unfold heterogeneity. rewrite Hl.
  apply sumQ_ext. intros j Hj. apply in_seq in Hj. apply sumQ_ext. intros i Hi. apply in_seq in Hi. unfold same01.
  destruct (Z.eqb_spec (lab l i) (lab l j)) as [E|E], (Nat.eqb_spec (c i) (c j)) as [F|F]; cbn [inject_Z]; try ring.
  - apply Hm in E; [contradiction|lia|lia].
  - apply Hm in F; [contradiction|lia|lia].
Qed.

Lemma lp_cost_le n d t t' : (forall i j, (i < j < n)%nat -> (0 <= d i j)%Q) ->
  (forall i j, (i < j < n)%nat -> t i j <= t' i j) -> (lp_cost n d t <= lp_cost n d t')%Q.
Proof.
  intros Hd Ht. unfold lp_cost. apply sumQ_le. intros [i j] Hij. apply upper_In in Hij. cbn [fst snd].
  specialize (Hd i j Hij). specialize (Ht i j Hij). rewrite Zle_Qle in Ht.
  setoid_replace (d i j * inject_Z (t i j))%Q with (inject_Z (t i j) * d i j)%Q by ring.
  setoid_replace (d i j * inject_Z (t' i j))%Q with (inject_Z (t' i j) * d i j)%Q by ring.
  apply Qmult_le_compat_r; auto.
Qed.

Lemma sumQ_lt {A} (f h : A -> Q) l x : In x l -> (forall y, In y l -> (f y <= h y)%Q) -> (f x < h x)%Q -> (sumQ (map f l) < sumQ (map h l))%Q.
Proof.
  induction l as [|z l IH]; intros Hx Hle Hlt; [destruct Hx|]. cbn [map]. rewrite !sumQ_cons.
  assert (Hl : forall y, In y l -> (f y <= h y)%Q) by (intros y Hy; apply Hle; right; auto).
  destruct Hx as [->|Hx].
  - assert (H := sumQ_le f h l Hl). lra.
  - specialize (IH Hx Hl Hlt). assert (H := Hle z (or_introl eq_refl)). lra.
Qed.

Lemma lp_cost_lt n d t t' i0 j0 : (forall i j, (i < j < n)%nat -> (0 <= d i j)%Q) -> (i0 < j0 < n)%nat -> (0 < d i0 j0)%Q ->
  (forall i j, (i < j < n)%nat -> t i j <= t' i j) -> t i0 j0 < t' i0 j0 -> (lp_cost n d t < lp_cost n d t')%Q.
Proof.
  intros Hd H0 Hd0 Ht Hlt. unfold lp_cost. apply (sumQ_lt _ _ _ (i0, j0)).
  - apply upper_In. exact H0.
  - intros [i j] Hij. apply upper_In in Hij. cbn [fst snd]. specialize (Hd i j Hij). specialize (Ht i j Hij). rewrite Zle_Qle in Ht.
    setoid_replace (d i j * inject_Z (t i j))%Q with (inject_Z (t i j) * d i j)%Q by ring.
    setoid_replace (d i j * inject_Z (t' i j))%Q with (inject_Z (t' i j) * d i j)%Q by ring.
    apply Qmult_le_compat_r; auto.
  - cbn [fst snd]. rewrite Zlt_Qlt in Hlt.
    setoid_replace (d i0 j0 * inject_Z (t i0 j0))%Q with (inject_Z (t i0 j0) * d i0 j0)%Q by ring.
    setoid_replace (d i0 j0 * inject_Z (t' i0 j0))%Q with (inject_Z (t' i0 j0) * d i0 j0)%Q by ring.
    apply Qmult_lt_compat_r; auto.
Qed.

(** ** reading the answers *)
Lemma is_one_reports v z : reports v z -> (is_one v = true <-> z = 1).
Proof.
  intros [q [-> Hq]]. unfold is_one. rewrite Qeq_bool_iff, Hq. change 1%Q with (inject_Z 1). apply inject_Z_injective.
Qed.
Lemma is_one_reports_b v z : reports v z -> is_one v = Z.eqb z 1.
Proof.
  intros H. apply is_one_reports in H. destruct (is_one v), (Z.eqb_spec z 1); auto; [|apply H; auto]. destruct n. apply H; auto.
Qed.

Lemma fold_none {A} (f : A -> bool) (v : A -> Z) l r : (forall x, In x l -> f x = false) ->
  fold_left (fun r x => if f x then v x else r) l r = r.
Proof.
  revert r. induction l as [|y l IH]; intros r H; [reflexivity|]. cbn [fold_left].
  rewrite (H y (or_introl eq_refl)). apply IH. intros x Hx. apply H. right; auto.
Qed.
Lemma fold_last {A} (f : A -> bool) (v : A -> Z) l r k w : In k l -> f k = true -> (forall x, In x l -> f x = true -> v x = w) ->
  fold_left (fun r x => if f x then v x else r) l r = w.
Proof.
  revert r k. induction l as [|x l IH]; intros r k Hk Hf Hu; [destruct Hk|]. cbn [fold_left].
  assert (Hul : forall x, In x l -> f x = true -> v x = w) by (intros y Hy; apply Hu; right; auto).
  destruct (existsb f l) eqn:E.
  - apply existsb_exists in E. destruct E as [y [Hy Hfy]]. apply (IH _ y Hy Hfy Hul).
  - rewrite fold_none.
    + destruct Hk as [->|Hk]; [rewrite Hf; apply Hu; [left; auto|auto]|].
      assert (existsb f l = true) by (apply existsb_exists; exists k; auto). congruence.
    + intros y Hy. destruct (f y) eqn:Ey; auto. assert (existsb f l = true) by (apply existsb_exists; exists y; auto). congruence.
Qed.
