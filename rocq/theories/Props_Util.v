(** C01-C07: graph and clustering helpers. *)
From Verif Require Import Base Spec Examples M_Graph P_Graph M_Util P_Base P_Util P_Forest P_Init P_Initial.

(** * C01 *)
Theorem C01_is_connected : forall g, is_connected g = true <-> connected_graph g.
Proof. exact is_connected_spec. Qed.

Example C01_example : connected_graph grid3 /\ ~ connected_graph two_islands /\ ~ connected_graph (mkG 0 (fun _ _ => true)).
Proof.
  split; [apply C01_is_connected; vm_compute; reflexivity|].
  split; intros H; apply C01_is_connected in H; vm_compute in H; discriminate.
Qed.

(** * C02 *)
Theorem C02_neighbors : forall g a,
  (forall j, In j (neighbors g a) <-> j < gn g /\ gadj g a j = true) /\
  StronglySorted lt (neighbors g a).
Proof.
  intros g a. split; [intros j; apply neighbors_In|].
  unfold neighbors. generalize 0. induction (gn g) as [|n IH]; intros s; cbn; [constructor|].
  destruct (gadj g a s); [constructor|]; auto.
  apply Forall_forall. intros x Hx. apply filter_In in Hx. destruct Hx as [Hx _]. apply in_seq in Hx. lia.
Qed.

Theorem C02_sub_adj_entries : forall g nodes wo i j a b,
  nth_error (filter (fun x => negb (existsb (Nat.eqb x) wo)) nodes) i = Some a ->
  nth_error (filter (fun x => negb (existsb (Nat.eqb x) wo)) nodes) j = Some b ->
  gadj (sub_adj_matrix g nodes wo) i j = gadj g a b.
Proof.
  intros g nodes wo i j a b Hi Hj. unfold sub_adj_matrix, sub_nodes, memb. cbn [gadj].
  rewrite Hi, Hj. reflexivity.
Qed.

Theorem C02_sub_adj_connected : forall g nodes wo, NoDup nodes ->
  (is_connected (sub_adj_matrix g nodes wo) = true <->
   contiguous g (fun a => In a nodes /\ ~ In a wo)).
Proof. exact sub_connected_spec. Qed.

Example C02_example :
  neighbors grid3 4 = [1; 3; 5; 7] /\
  contiguous grid3 (fun a => In a [0;1;2;5;8] /\ ~ In a [0]) /\
  ~ contiguous grid3 (fun a => In a [0;1;2;5;8] /\ ~ In a [2]).
Proof.
  split; [reflexivity|].
  split; [apply C02_sub_adj_connected; [repeat constructor; cbn; lia|vm_compute; reflexivity]|].
  intros H. apply C02_sub_adj_connected in H; [vm_compute in H; discriminate|repeat constructor; cbn; lia].
Qed.

(** * C03 *)
Theorem C03_assert_feasible : forall labels g p, length labels = gn g ->
  (assert_feasible labels g (Some (Z.of_nat p)) = Ok tt <-> feasible g labels p) /\
  (~ feasible g labels p -> exists m, assert_feasible labels g (Some (Z.of_nat p)) = Raise (ValueError m)) /\
  (assert_feasible labels g None = Ok tt <-> all_contiguous g labels) /\
  (~ all_contiguous g labels -> exists m, assert_feasible labels g None = Raise (ValueError m)).
Proof.
  intros labels g p Hl.
  assert (H1 : assert_feasible labels g (Some (Z.of_nat p)) = Ok tt <-> feasible g labels p).
  { rewrite assert_feasible_Ok by lia. unfold feasible. rewrite Nat2Z.inj_iff. tauto. }
  split; [exact H1|]. split; [|split].
  - intros Hn. destruct (assert_feasible_total labels g (Some (Z.of_nat p)) ltac:(lia)) as [H|H]; auto.
    exfalso. apply Hn, H1, H.
  - apply assert_feasible_None. lia.
  - intros Hn. destruct (assert_feasible_total labels g None ltac:(lia)) as [H|H]; auto.
    exfalso. apply Hn. apply assert_feasible_None; [lia|auto].
Qed.

Theorem C03_boolean_assert_feasible : forall labels g p, length labels = gn g ->
  (exists b, boolean_assert_feasible labels g None = Ok b /\ (b = true <-> all_contiguous g labels)) /\
  (n_labels labels = p ->
     exists b, boolean_assert_feasible labels g (Some (Z.of_nat p)) = Ok b /\ (b = true <-> feasible g labels p)) /\
  (n_labels labels <> p ->
     exists m, boolean_assert_feasible labels g (Some (Z.of_nat p)) = Raise (ValueError m)).
Proof.
  intros labels g p Hl. split; [apply boolean_assert_feasible_None; lia|].
  destruct (boolean_assert_feasible_Some labels g (Z.of_nat p) ltac:(lia)) as [H1 H2]. split.
  - intros Hp. destruct H1 as [b [E Hb]]; [lia|]. exists b. split; auto. rewrite Hb. unfold feasible. tauto.
  - intros Hp. apply H2. lia.
Qed.

Example C03_example :
  feasible grid3 [0;0;1;0;1;1;2;2;2]%Z 3 /\ ~ feasible grid3 [0;1;0;1;1;1;2;2;2]%Z 3.
Proof.
  split; [apply C03_assert_feasible; vm_compute; reflexivity|].
  intros H. apply C03_assert_feasible in H; [vm_compute in H; discriminate|reflexivity].
Qed.

(** * C04 *)
Theorem C04_separate_components : forall g labels, length labels = gn g ->
  (forall z, In z labels -> (0 <= z)%Z) ->
  n_islands g (length (separate_components g labels)) /\
  overlays (gn g) (separate_components g labels) labels /\
  (forall arr a b, In arr (separate_components g labels) -> a < gn g -> b < gn g ->
     nth_error arr a <> Some (-1)%Z -> (nth_error arr b <> Some (-1)%Z <-> same_island g a b)).
Proof.
  intros g labels Hl Hpos.
  assert (Hnth : forall c, c < n_components g -> nth_error (separate_components g labels) c = Some (separate_one g labels c)).
  { intros c Hc. unfold separate_components. rewrite nth_error_map, (nth_error_nth' _ 0) by (rewrite seq_length; auto).
    rewrite seq_nth by auto. reflexivity. }
  assert (Hlen : length (separate_components g labels) = n_components g).
  { unfold separate_components. rewrite map_length, seq_length. auto. }
  assert (Hval : forall a, a < gn g -> nth_error labels a <> Some (-1)%Z /\ nth_error labels a <> None).
  { intros a Ha. split; [|intros E; apply nth_error_None in E; lia].
    intros E. apply nth_error_In in E. specialize (Hpos _ E). lia. }
  assert (Hiff : forall c a, a < gn g -> (nth_error (separate_one g labels c) a <> Some (-1)%Z <-> comp_label g a = c)).
  { intros c a Ha. split.
    - intros H. destruct (Nat.eq_dec (comp_label g a) c); auto. exfalso. apply H. apply separate_one_out; auto.
    - intros E. rewrite separate_one_in by auto. apply Hval; auto. }
  split; [apply n_islands_iff; auto|]. split; [split; [auto|]|].
  - intros a Ha. exists (comp_label g a), (separate_one g labels (comp_label g a)).
    split; [apply Hnth, comp_label_lt; auto|]. split; [apply separate_one_in; auto|].
    split; [apply Hiff; auto|]. intros j arr' Hj E.
    assert (Hjn : j < n_components g) by (apply nth_error_lt in E; lia).
    rewrite (Hnth j Hjn) in E. injection E as <-. apply separate_one_out; auto.
  - intros arr a b Hin Ha Hb Hna. unfold separate_components in Hin. apply in_map_iff in Hin.
    destruct Hin as [c [<- Hc]]. rewrite Hiff in Hna by auto. rewrite Hiff by auto.
    rewrite <- comp_label_eq by auto. split; congruence.
Qed.

Example C04_example :
  separate_components two_islands [5;5;6;7;7]%Z = [[5;5;6;-1;-1]; [-1;-1;-1;7;7]]%Z /\
  (forall z, In z [5;5;6;7;7]%Z -> (0 <= z)%Z) /\ length [5;5;6;7;7]%Z = gn two_islands.
Proof. split; [vm_compute; reflexivity|]. split; [cbn; lia|reflexivity]. Qed.

(** * C05 *)
(** Component labels as scipy returns them: the values in use are 0 .. c-1. *)
Theorem C05_distribute_regions : forall labels c n r,
  (forall k, In k labels <-> k < c) -> 0 < c -> c <= n -> n <= length labels ->
  exists d r', distribute_regions_among_components labels n r = Ok (d, r') /\
    map fst d = seq 0 c /\ list_sum (map snd d) = n /\
    (forall comp k, In (comp, k) d -> 1 <= k <= count_occ Nat.eq_dec labels comp).
Proof. exact distribute_spec. Qed.

Example C05_example :
  distribute_regions_among_components [0;0;1;0;0;1] 4 rng0 = Ok ([(0, 3); (1, 1)], fun k => S (S k)) /\
  (forall k, In k [0;0;1;0;0;1] <-> k < 2).
Proof.
  split; [vm_compute; reflexivity|]. intros k; cbn. split; [lia|].
  intros H. destruct k as [|[|k]]; auto; lia.
Qed.

(** * C06 *)
Theorem C06_randomly_divide : forall order g k r,
  (forall l, Permutation (order l) l) -> connected_graph g -> 1 <= k <= gn g ->
  exists ls r', randomly_divide_connected_graph order g k r = Ok (ls, r') /\
    length ls = gn g /\ (forall c, In c ls <-> c < k) /\
    (forall c, c < k -> contiguous g (fun a => nth_error ls a = Some c)).
Proof. exact randomly_divide_spec. Qed.

Example C06_example :
  connected_graph grid3 /\
  match randomly_divide_connected_graph same_order grid3 4 rng0 with
  | Ok (ls, _) => ls = [0;1;2;0;1;2;0;3;2]
  | _ => False
  end.
Proof. split; [apply C01_is_connected; vm_compute; reflexivity|vm_compute; reflexivity]. Qed.

(** * C07 *)
Theorem C07_generate_initial_sol : forall order g n_regions c r,
  (forall l, Permutation (order l) l) -> n_regions <> 1%Z -> n_islands g c ->
  (0 < gn g /\ (Z.of_nat c <= n_regions <= Z.of_nat (gn g))%Z ->
     exists arrs labels r', initial_solutions order g n_regions r = Ok (map YArr arrs, r') /\
       overlays (gn g) arrs labels /\ feasible g labels (Z.to_nat n_regions) /\
       labels_exactly labels (Z.to_nat n_regions)) /\
  (~ (0 < gn g /\ (Z.of_nat c <= n_regions <= Z.of_nat (gn g))%Z) ->
     exists m, initial_solutions order g n_regions r = Raise (ValueError m)).
Proof.
  intros order g n_regions c r Hord Hn1 Hc. apply n_islands_iff in Hc. subst c. split.
  - intros [Hg Hb]. apply initial_solutions_spec; auto.
  - intros H. apply initial_solutions_error; auto. lia.
Qed.

Example C07_example :
  n_islands two_islands 2 /\
  match initial_solutions same_order two_islands 3 rng0 with
  | Ok (ys, _) => ys = [YArr [0;0;1;-1;-1]; YArr [-1;-1;-1;2;2]]%Z
  | _ => False
  end.
Proof. split; [apply n_islands_iff; vm_compute; reflexivity|vm_compute; reflexivity]. Qed.

Print Assumptions C01_is_connected.
Print Assumptions C02_neighbors.
Print Assumptions C02_sub_adj_entries.
Print Assumptions C02_sub_adj_connected.
Print Assumptions C03_assert_feasible.
Print Assumptions C03_boolean_assert_feasible.
Print Assumptions C04_separate_components.
Print Assumptions C05_distribute_regions.
Print Assumptions C06_randomly_divide.
Print Assumptions C07_generate_initial_sol.
