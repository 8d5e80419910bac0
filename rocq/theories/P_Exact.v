(** Optimal answers of the exact models. *)
From Verif Require Export SpecData.
From Verif Require Import Base Spec M_Graph M_Util M_Objective M_MaxP M_Exact P_Base P_Util P_Graph P_Sum P_Objective P_Mip P_Mip2 P_Order P_Flow P_TreeMip P_TreeMip2 P_MaxPExact.
From Coq Require Import Qpower.
Local Open Scope Z_scope.


(** ** same regions *)
Lemma same_partition_matches n l l' c : matches n l c -> same_partition l l' -> matches n l' c.
Proof. intros [H1 H2] [H3 H4]. split; [congruence|]. intros u v Hu Hv. rewrite <- H2, H4 by lia. reflexivity. Qed.
Lemma het_same d l l' : same_partition l l' -> (heterogeneity d l == heterogeneity d l')%Q.
Proof.
  intros [Hl Hm]. unfold heterogeneity. rewrite <- Hl. apply sumQ_ext. intros j Hj. apply in_seq in Hj. apply sumQ_ext. intros i Hi. apply in_seq in Hi.
  destruct (Z.eqb_spec (lab l i) (lab l j)) as [E|E], (Z.eqb_spec (lab l' i) (lab l' j)) as [F|F]; try reflexivity.
  - destruct F. apply Hm; auto; lia.
  - destruct E. apply Hm; auto; lia.
Qed.
Lemma matches_partition_feasible g p l c : matches (gn g) l c -> partition g p c -> feasible g l p.
Proof.
  intros Hm Hp. pose proof Hm as [Hl Hm']. destruct (partition_labels g p c Hp) as [[Hl2 [Hn Hc]] _].
  split; [auto|]. split.
  - rewrite <- Hn. unfold n_labels. set (f := fun z => match index_where (Z.eqb z) l with Some a => Z.of_nat (c a) | None => 0 end).
    transitivity (length (map f (nodup Z.eq_dec l))); [rewrite map_length; reflexivity|].
    assert (Hf : forall a, (a < gn g)%nat -> f (lab l a) = Z.of_nat (c a)).
    { intros a Ha. unfold f. destruct (index_where (Z.eqb (lab l a)) l) as [b|] eqn:E.
      - apply index_where_spec in E. destruct E as [[x [Hx Hz]] _]. apply Z.eqb_eq in Hz. pose proof (nth_error_lt _ _ _ Hx). f_equal.
        symmetry. apply Hm'; [auto|lia|]. rewrite (lab_of_nth_error _ _ _ Hx). auto.
      - exfalso. assert (Hin : In (lab l a) l) by (apply nth_In; lia). rewrite index_where_None in E. specialize (E _ Hin). rewrite Z.eqb_refl in E. discriminate. }
    assert (Hrep : forall z, In z l -> exists a, (a < gn g)%nat /\ z = lab l a).
    { intros z Hz. apply In_nth with (d := (-1)) in Hz. destruct Hz as [a [Ha <-]]. exists a. split; [lia|]. unfold lab. reflexivity. }
    apply NoDup_same_length.
    + apply NoDup_map_inj; [|apply NoDup_nodup]. intros u v Hu Hv E. apply nodup_In in Hu, Hv.
      destruct (Hrep u Hu) as [a [Ha ->]]. destruct (Hrep v Hv) as [b [Hb ->]]. rewrite !Hf in E by auto. apply Hm'; auto. lia.
    + apply NoDup_nodup.
    + intros z. rewrite in_map_iff, nodup_In, lab_of_In. split.
      * intros [u [<- Hu]]. apply nodup_In in Hu. destruct (Hrep u Hu) as [a [Ha ->]]. exists a. rewrite Hf; auto.
      * intros [a [Ha ->]]. exists (lab l a). rewrite Hf, nodup_In by auto. split; [auto|]. apply nth_In. lia.
  - intros z Hz. apply In_nth_error in Hz. destruct Hz as [a Ha]. pose proof (nth_error_lt _ _ _ Ha) as Han. rewrite Hl in Han.
    pose proof (lab_of_nth_error _ _ _ Ha) as Hz.
    apply (contiguous_ext g (inside g (cls c (c a)))); [|apply (proj2 Hp), (proj1 Hp); auto].
    intros b. unfold inside, cls, region. rewrite Nat.eqb_eq. split.
    + intros [Hb E]. rewrite (nth_error_nth' l (-1)) by lia. f_equal. fold (lab l b). rewrite <- Hz. apply Hm'; auto.
    + intros E. pose proof (nth_error_lt _ _ _ E). split; [lia|]. apply Hm'; [lia|auto|]. rewrite Hz. apply lab_of_nth_error. auto.
Qed.

(** ** minimising over finitely many labellings *)
Lemma argmin {A} (P : A -> bool) (f : A -> Q) l : (exists x, In x l /\ P x = true) ->
  exists x, In x l /\ P x = true /\ forall y, In y l -> P y = true -> (f x <= f y)%Q.
Proof.
  induction l as [|z l IH]; intros [x [Hx Hp]]; [destruct Hx|].
  destruct (existsb P l) eqn:E.
  - apply existsb_exists in E. destruct (IH E) as [m [Hm [Pm Hmin]]].
    destruct (P z) eqn:Pz; [destruct (Qlt_le_dec (f z) (f m)) as [Hlt|Hle]|].
    + exists z. split; [left; auto|]. split; [auto|]. intros y [->|Hy] Py; [lra|]. specialize (Hmin y Hy Py). lra.
    + exists m. split; [right; auto|]. split; [auto|]. intros y [->|Hy] Py; auto.
    + exists m. split; [right; auto|]. split; [auto|]. intros y [->|Hy] Py; [congruence|auto].
  - assert (Hn : forall y, In y l -> P y = false).
    { intros y Hy. destruct (P y) eqn:Py; [|auto]. assert (existsb P l = true) by (apply existsb_exists; exists y; auto). congruence. }
    destruct Hx as [->|Hx]; [|rewrite Hn in Hp by auto; discriminate].
    exists x. split; [left; auto|]. split; [auto|]. intros y [->|Hy] Py; [lra|]. rewrite Hn in Py by auto. discriminate.
Qed.

Fixpoint words (n : nat) (alpha : list Z) : list (list Z) :=
  match n with O => [[]] | Datatypes.S n' => flat_map (fun w => map (fun z => z :: w) alpha) (words n' alpha) end.
Lemma words_In n alpha l : length l = n -> (forall z, In z l -> In z alpha) -> In l (words n alpha).
Proof.
  revert l. induction n as [|n IH]; intros l Hl Ha; destruct l as [|z l]; try discriminate; [left; auto|].
  cbn [words]. apply in_flat_map. exists l. split; [apply IH; [cbn in Hl; lia|intros y Hy; apply Ha; right; auto]|].
  apply in_map_iff. exists z. split; [auto|]. apply Ha. left. auto.
Qed.
Lemma words_length n alpha l : In l (words n alpha) -> length l = n.
Proof.
  revert l. induction n as [|n IH]; intros l H; [destruct H as [<-|[]]; auto|]. cbn [words] in H. apply in_flat_map in H. destruct H as [w [Hw H]].
  apply in_map_iff in H. destruct H as [z [<- _]]. cbn. f_equal. auto.
Qed.
Definition names (p : nat) : list Z := map Z.of_nat (seq 0 p).
Lemma lab_of_words n p c : (forall a, (a < n)%nat -> (c a < p)%nat) -> In (lab_of n c) (words n (names p)).
Proof.
  intros H. apply words_In; [apply lab_of_length|]. intros z Hz. apply (lab_of_In (mkG n (fun _ _ => false))) in Hz. destruct Hz as [a [Ha ->]].
  apply in_map. apply in_seq. cbn [gn] in Ha. specialize (H a Ha). lia.
Qed.

Definition feasb (g : graph) (p : nat) (l : list Z) : bool :=
  match assert_feasible l g (Some (Z.of_nat p)) with Ok _ => true | _ => false end.
Lemma feasb_spec g p l : length l = gn g -> (feasb g p l = true <-> feasible g l p).
Proof.
  intros Hl. unfold feasb. pose proof (assert_feasible_Ok l g (Z.of_nat p) ltac:(lia)) as H. unfold feasible.
  destruct (assert_feasible l g (Some (Z.of_nat p))) as [[]|e|]; split; intros K; try discriminate; try (destruct H as [H1 H2]).
  - destruct (H1 eq_refl) as [A B]. split; [auto|]. split; [lia|auto].
  - reflexivity.
  - assert (Raise (A := unit) e = Ok tt) by (apply H2; split; [lia|tauto]). discriminate.
  - assert (NoFuel (A := unit) = Ok tt) by (apply H2; split; [lia|tauto]). discriminate.
Qed.

(** ** the flow model *)
Lemma size_matches g p l c : matches (gn g) l c -> partition g p c ->
  ((forall z, In z l -> (region_size l z + p <= gn g)%nat) <-> (forall k, (k < p)%nat -> (length (members g (cls c k)) + p <= gn g)%nat)).
Proof.
  intros Hm Hp. split.
  - intros H k Hk. destruct (proj2 Hp k Hk) as [[a [Ha E]] _]. apply Nat.eqb_eq in E. subst k.
    rewrite <- (region_size_members g l c a Hm Ha). apply H. apply nth_In. rewrite (proj1 Hm). auto.
  - intros H z Hz. apply In_nth_error in Hz. destruct Hz as [a Ha]. pose proof (nth_error_lt _ _ _ Ha) as Han. rewrite (proj1 Hm) in Han.
    rewrite <- (lab_of_nth_error _ _ _ Ha), (region_size_members g l c a Hm Han). apply H. apply (proj1 Hp). auto.
Qed.

(** an answer that represents a labelling has the least cost among ... *)
Lemma flow_value g d p a c : nonneg_below (gn g) d -> optimal (flow_ok g p) (flow_cost g d) a ->
  (forall i j, (i < j < gn g)%nat -> same01 c i j <= fl_t a i j) -> flow_ok g p (mkFlow (same01 c) (fl_f a) (fl_y a) (fl_w a)) ->
  (flow_cost g d a == lp_cost (gn g) d (same01 c))%Q.
Proof.
  intros Hd [_ Hopt] Hle Hok. specialize (Hopt _ Hok). unfold flow_cost in *. cbn [fl_t] in Hopt.
  pose proof (lp_cost_le (gn g) d _ _ Hd Hle). lra.
Qed.
Lemma order_value g d p a c : nonneg_below (gn g) d -> optimal (order_ok g p) (order_cost g d) a ->
  (forall i j, (i < j < gn g)%nat -> same01 c i j <= or_t a i j) -> order_ok g p (mkOrder (same01 c) (or_x a)) ->
  (order_cost g d a == lp_cost (gn g) d (same01 c))%Q.
Proof.
  intros Hd [_ Hopt] Hle Hok. specialize (Hopt _ Hok). unfold order_cost in *. cbn [or_t] in Hopt.
  pose proof (lp_cost_le (gn g) d _ _ Hd Hle). lra.
Qed.
Lemma tree_value g d p a c : nonneg_below (gn g) d -> optimal (tree_ok g p) (tree_cost g d) a ->
  (forall i j, (i < gn g)%nat -> (j < gn g)%nat -> i <> j -> same01 c i j <= tr_t a i j) -> tree_ok g p (mkTree (same01 c) (tr_x a) (tr_u a)) ->
  (tree_cost g d a == lp_cost (gn g) d (same01 c))%Q.
Proof.
  intros Hd [_ Hopt] Hle Hok. specialize (Hopt _ Hok). unfold tree_cost in *. cbn [tr_t] in Hopt.
  assert (Hle' : forall i j, (i < j < gn g)%nat -> same01 c i j <= tr_t a i j) by (intros i j H; apply Hle; lia).
  pose proof (lp_cost_le (gn g) d _ _ Hd Hle'). lra.
Qed.

(** ** optimal answers exist *)
Lemma partition_words g p l : feasible g l p -> exists l', In l' (words (gn g) (names p)) /\ p_partition g p l' /\ same_partition l l'.
Proof.
  intros Hf. destruct (feasible_partition g p l Hf) as [c [Hp Hm]]. exists (lab_of (gn g) c). split; [apply lab_of_words, Hp|].
  split; [apply partition_labels; auto|]. apply (matches_same _ _ _ c Hm). apply lab_of_matches.
Qed.

Lemma best_exists g d p (A : list Z -> bool) : (forall l l', same_partition l l' -> A l = A l') ->
  (exists l, feasible g l p /\ A l = true) ->
  exists l, feasible g l p /\ A l = true /\ forall l', feasible g l' p -> A l' = true -> (heterogeneity d l <= heterogeneity d l')%Q.
Proof.
  intros HA [l0 [Hf0 HA0]]. destruct (partition_words g p l0 Hf0) as [l1 [Hw1 [Hp1 Hs1]]].
  destruct (argmin (fun l => feasb g p l && A l) (heterogeneity d) (words (gn g) (names p))) as [l [Hw [Hb Hmin]]].
  { exists l1. split; [auto|]. apply andb_true_iff. split; [apply feasb_spec; [apply (words_length _ _ _ Hw1)|apply Hp1]|].
    rewrite <- (HA _ _ Hs1). auto. }
  apply andb_true_iff in Hb. destruct Hb as [Hb HAl]. apply feasb_spec in Hb; [|apply (words_length _ _ _ Hw)].
  exists l. split; [auto|]. split; [auto|]. intros l' Hf' HA'. destruct (partition_words g p l' Hf') as [l2 [Hw2 [Hp2 Hs2]]].
  rewrite (het_same d l' l2 Hs2). apply Hmin; [auto|]. apply andb_true_iff. split; [apply feasb_spec; [apply (words_length _ _ _ Hw2)|apply Hp2]|].
  rewrite <- (HA _ _ Hs2). auto.
Qed.

Definition sizeb (m : nat) (p : nat) (l : list Z) : bool := forallb (fun z => Nat.leb (region_size l z + p) m) l.
Lemma sizeb_spec m p l : sizeb m p l = true <-> forall z, In z l -> (region_size l z + p <= m)%nat.
Proof. unfold sizeb. rewrite forallb_forall. split; intros H z Hz; apply Nat.leb_le; auto. Qed.
Lemma region_size_same l l' a : same_partition l l' -> (a < length l)%nat -> region_size l (lab l a) = region_size l' (lab l' a).
Proof.
  intros [Hl Hm] Ha. set (g := mkG (length l) (fun _ _ => false)).
  assert (Hex : exists c, matches (length l) l c).
  { exists (fun a => rank l (lab l a)). split; [auto|]. intros u v Hu Hv. split; [intros ->; auto|]. intros E.
    assert (Hu' : In (lab l u) l) by (apply nth_In; auto). assert (Hv' : In (lab l v) l) by (apply nth_In; auto).
    apply rank_nth in Hu', Hv'. rewrite E in Hu'. congruence. }
  destruct Hex as [c Hc]. assert (Hc' : matches (length l) l' c) by (apply (same_partition_matches _ l); [auto|split; auto]).
  rewrite (region_size_members g l c a Hc Ha), (region_size_members g l' c a Hc' Ha). reflexivity.
Qed.
Lemma sizeb_same m p l l' : same_partition l l' -> sizeb m p l = sizeb m p l'.
Proof.
  assert (Hdir : forall l l', same_partition l l' -> sizeb m p l = true -> sizeb m p l' = true).
  { clear. intros l l' Hs. rewrite !sizeb_spec. intros H z Hz. apply In_nth_error in Hz. destruct Hz as [a Ha]. pose proof (nth_error_lt _ _ _ Ha) as Han.
    rewrite <- (lab_of_nth_error _ _ _ Ha). rewrite <- (proj1 Hs) in Han. rewrite <- (region_size_same l l' a Hs Han). apply H. apply nth_In. auto. }
  intros Hs. assert (Hs' : same_partition l' l) by (destruct Hs as [A B]; split; [congruence|intros u v Hu Hv; rewrite B by lia; tauto]).
  destruct (sizeb m p l) eqn:E; [symmetry; apply (Hdir l); auto|]. destruct (sizeb m p l') eqn:F; [|auto]. rewrite (Hdir l' l Hs' F) in E. discriminate.
Qed.

Theorem flow_optimal_exists g d p : symmetric g -> nonneg_below (gn g) d ->
  (exists l, feasible g l p /\ forall z, In z l -> (region_size l z + p <= gn g)%nat) ->
  exists a, optimal (flow_ok g p) (flow_cost g d) a.
Proof.
  intros Hsym Hd [l0 [Hf0 Hz0]].
  destruct (best_exists g d p (sizeb (gn g) p) (sizeb_same _ _)) as [l [Hf [Hz Hmin]]].
  { exists l0. split; [auto|]. apply sizeb_spec. auto. }
  destruct (feasible_partition g p l Hf) as [c [Hp Hm]]. rewrite sizeb_spec in Hz.
  destruct (flow_complete g p c Hsym Hp) as [f [w Hok]].
  { intros k Hk. pose proof (proj1 (size_matches g p l c Hm Hp) Hz k Hk). lia. }
  eexists. split; [exact Hok|]. intros b Hb. destruct (flow_sound g p b Hsym Hb) as [c' [Hp' [Hs' [_ [Ht' _]]]]].
  unfold flow_cost. cbn [fl_t]. rewrite (lp_cost_het _ d l c Hm).
  pose proof (lp_cost_le (gn g) d _ _ Hd Ht') as Hle. rewrite (lp_cost_het _ d _ c' (lab_of_matches _ _)) in Hle.
  assert (Hk : (heterogeneity d l <= heterogeneity d (lab_of (gn g) c'))%Q); [|lra].
  apply Hmin; [apply partition_labels; auto|]. apply sizeb_spec. apply (size_matches g p _ c' (lab_of_matches _ _) Hp').
  intros k Hk. specialize (Hs' k Hk). pose proof (partition_le g p c' Hp'). lia.
Qed.

Theorem order_optimal_exists g d p : symmetric g -> nonneg_below (gn g) d -> (p + 2 <= gn g)%nat ->
  (exists l, feasible g l p) -> exists a, optimal (order_ok g p) (order_cost g d) a.
Proof.
  intros Hsym Hd Hnp [l0 Hf0].
  destruct (best_exists g d p (fun _ => true)) as [l [Hf [_ Hmin]]]; [auto|exists l0; auto|].
  destruct (feasible_partition g p l Hf) as [c [Hp Hm]].
  destruct (order_complete g p c Hsym Hp) as [x [Hok _]]; [lia|].
  eexists. split; [exact Hok|]. intros b Hb. destruct (order_sound g p b Hb) as [c' [Hp' [_ [Ht' _]]]].
  unfold order_cost. cbn [or_t]. rewrite (lp_cost_het _ d l c Hm).
  pose proof (lp_cost_le (gn g) d _ _ Hd Ht') as Hle. rewrite (lp_cost_het _ d _ c' (lab_of_matches _ _)) in Hle.
  assert (Hk : (heterogeneity d l <= heterogeneity d (lab_of (gn g) c'))%Q); [|lra].
  apply Hmin; [apply partition_labels; auto|auto].
Qed.

Theorem tree_optimal_exists g d p : symmetric g -> nonneg_below (gn g) d -> (p + 2 <= gn g)%nat ->
  (exists l, feasible g l p) -> exists a, optimal (tree_ok g p) (tree_cost g d) a.
Proof.
  intros Hsym Hd Hnp [l0 Hf0].
  destruct (best_exists g d p (fun _ => true)) as [l [Hf [_ Hmin]]]; [auto|exists l0; auto|].
  destruct (feasible_partition g p l Hf) as [c [Hp Hm]].
  destruct (tree_complete g p c Hsym Hp) as [x [u Hok]]; [lia|].
  eexists. split; [exact Hok|]. intros b Hb. destruct (tree_sound g p b Hb) as [c' [Hp' [Ht' _]]]; [lia|].
  unfold tree_cost. cbn [tr_t]. rewrite (lp_cost_het _ d l c Hm).
  assert (Hle' : forall i j, (i < j < gn g)%nat -> same01 c' i j <= tr_t b i j) by (intros i j H; apply Ht'; lia).
  pose proof (lp_cost_le (gn g) d _ _ Hd Hle') as Hle. rewrite (lp_cost_het _ d _ c' (lab_of_matches _ _)) in Hle.
  assert (Hk : (heterogeneity d l <= heterogeneity d (lab_of (gn g) c'))%Q); [|lra].
  apply Hmin; [apply partition_labels; auto|auto].
Qed.

(** ** max-p *)
Lemma maxp_cost_eq g d h a p : sum_ko (seq 0 (gn g)) (seq 0 (gn g)) (fun k i => or_x a i k 0%nat) = Z.of_nat p ->
  (maxp_cost g d h a == lp_cost (gn g) d (or_t a) - Qpower 10 h * inject_Z (Z.of_nat p))%Q.
Proof. intros E. unfold maxp_cost. rewrite E. ring. Qed.

Lemma lab_of_feasible g c : all_contiguous g (lab_of (gn g) c) -> feasible g (lab_of (gn g) c) (n_labels (lab_of (gn g) c)).
Proof. intros H. split; [apply lab_of_length|]. split; auto. Qed.

Lemma power10_pos h : (0 < Qpower 10 h)%Q.
Proof.
  apply Qpower_0_lt. reflexivity.
Qed.

Theorem maxp_lexicographic g sp thr d h a l l' p' : symmetric g -> (0 < gn g)%nat -> nonneg_below (gn g) d ->
  (total_weight (gn g) d < Qpower 10 h)%Q -> optimal (maxp_ok g sp thr) (maxp_cost g d h) a ->
  (exists c, l = lab_of (gn g) c /\ (forall i j, (i < j < gn g)%nat -> same01 c i j <= or_t a i j)) ->
  sum_ko (seq 0 (gn g)) (seq 0 (gn g)) (fun k i => or_x a i k 0%nat) = Z.of_nat (n_labels l) ->
  feasible g l' p' -> (forall z, In z l' -> meets sp (bounds_of sp thr) l' z) ->
  (p' <= n_labels l)%nat /\ (p' = n_labels l -> (heterogeneity d l <= heterogeneity d l')%Q).
Proof.
  intros Hsym Hn Hd Hh [Hok Hopt] [c [El Ht]] Hcount Hf' Hmeet'.
  destruct (maxp_complete g sp thr l' p' Hsym Hn Hf' Hmeet') as [c' [x [Hm' [Hp' [Hok' Hcount']]]]].
  specialize (Hopt _ Hok'). rewrite (maxp_cost_eq g d h a _ Hcount), (maxp_cost_eq g d h (mkOrder (same01 c') x) p' Hcount') in Hopt. cbn [or_t] in Hopt.
  rewrite (lp_cost_het _ d l' c' Hm') in Hopt.
  pose proof (lp_cost_le (gn g) d _ _ Hd Ht) as Hle. rewrite (lp_cost_het _ d _ c (lab_of_matches _ _)), <- El in Hle.
  pose proof (het_le_total (gn g) d l' (proj1 Hf') Hd) as Hb.
  assert (H0 : (0 <= heterogeneity d l)%Q).
  { unfold heterogeneity. apply sumQ_nonneg. intros j Hj. apply in_seq in Hj. apply sumQ_nonneg. intros i Hi. apply in_seq in Hi.
    rewrite El, lab_of_length in Hj. destruct (Z.eqb _ _); [apply Hd; lia|lra]. }
  split.
  - destruct (le_lt_dec p' (n_labels l)) as [|Hlt]; [auto|]. exfalso.
    assert (Hq : (Qpower 10 h * inject_Z (Z.of_nat (n_labels l) + 1) <= Qpower 10 h * inject_Z (Z.of_nat p'))%Q).
    { apply Qmult_le_l; [apply power10_pos|]. rewrite <- Zle_Qle. lia. }
    rewrite inject_Z_plus, Qmult_plus_distr_r in Hq. change (inject_Z 1) with 1%Q in Hq. rewrite Qmult_1_r in Hq.
    set (B := (Qpower 10 h * inject_Z (Z.of_nat (n_labels l)))%Q) in *. set (B' := (Qpower 10 h * inject_Z (Z.of_nat p'))%Q) in *. lra.
  - intros ->. lra.
Qed.

(** thresholds, decided *)
Definition meetsb (sp : list (list Q)) (bs : list Q) (l : list Z) (z : Z) : bool :=
  forallb (fun k => match nth_error bs k with Some t => Qle_bool t (total sp l z k) | None => true end) (seq 0 (length bs)).
Lemma meetsb_spec sp bs l z : meetsb sp bs l z = true <-> meets sp bs l z.
Proof.
  unfold meetsb, meets. rewrite forallb_forall. split.
  - intros H k t Hk. specialize (H k). rewrite Hk in H. apply Qle_bool_iff, H. apply in_seq. split; [lia|]. apply nth_error_lt in Hk. lia.
  - intros H k _. destruct (nth_error bs k) as [t|] eqn:E; [|auto]. apply Qle_bool_iff. auto.
Qed.

Theorem maxp_optimal_exists g sp thr d h : symmetric g -> (0 < gn g)%nat -> nonneg_below (gn g) d ->
  (exists l p, feasible g l p /\ forall z, In z l -> meets sp (bounds_of sp thr) l z) ->
  exists a, optimal (maxp_ok g sp thr) (maxp_cost g d h) a.
Proof.
  intros Hsym Hn Hd [l0 [p0 [Hf0 Hm0]]].
  set (P := fun l => feasb g (n_labels l) l && forallb (meetsb sp (bounds_of sp thr) l) l).
  set (val := fun l => (heterogeneity d l - Qpower 10 h * inject_Z (Z.of_nat (n_labels l)))%Q).
  assert (HP : forall l, length l = gn g -> (P l = true <-> feasible g l (n_labels l) /\ forall z, In z l -> meets sp (bounds_of sp thr) l z)).
  { intros l Hl. unfold P. rewrite andb_true_iff, feasb_spec, forallb_forall by auto. split; intros [H1 H2]; (split; [auto|]); intros z Hz; apply meetsb_spec; auto. }
  destruct (argmin P val (words (gn g) (names (gn g)))) as [l [Hw [Hb Hmin]]].
  { destruct (maxp_complete g sp thr l0 p0 Hsym Hn Hf0 Hm0) as [c [x [Hm [Hp [Hok _]]]]]. destruct (maxp_sound g sp thr _ Hok) as [c' [Hc' [Hcont [Hmeet _]]]].
    exists (lab_of (gn g) c'). split; [apply lab_of_words; auto|]. apply HP; [apply lab_of_length|]. split; [apply lab_of_feasible; auto|auto]. }
  apply HP in Hb; [|apply (words_length _ _ _ Hw)]. destruct Hb as [Hf Hmeet].
  destruct (maxp_complete g sp thr l _ Hsym Hn Hf Hmeet) as [c [x [Hm [Hp [Hok Hcount]]]]].
  eexists. split; [exact Hok|]. intros b Hb. destruct (maxp_sound g sp thr b Hb) as [c' [Hc' [Hcont' [Hmeet' [Hcount' [_ Ht']]]]]].
  rewrite (maxp_cost_eq g d h b _ Hcount'), (maxp_cost_eq g d h (mkOrder (same01 c) x) _ Hcount). cbn [or_t]. rewrite (lp_cost_het _ d l c Hm).
  pose proof (lp_cost_le (gn g) d _ _ Hd Ht') as Hle. rewrite (lp_cost_het _ d _ c' (lab_of_matches _ _)) in Hle.
  assert (Hk : (val l <= val (lab_of (gn g) c'))%Q); [|unfold val in Hk; lra].
  apply Hmin; [apply lab_of_words; auto|]. apply HP; [apply lab_of_length|]. split; [apply lab_of_feasible; auto|auto].
Qed.
