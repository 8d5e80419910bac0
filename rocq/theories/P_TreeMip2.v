(** The tree model: summary and completeness. *)
From Verif Require Import Base Spec M_Graph M_Util M_Objective M_MaxP M_Exact P_Base P_Graph P_Sum P_Objective P_Mip P_Mip2 P_Order P_Flow P_TreeMip.
Local Open Scope Z_scope.

Theorem tree_sound g p a : tree_ok g p a -> (2 <= gn g - p)%nat -> exists c, partition g p c /\
  (forall i j, (i < gn g)%nat -> (j < gn g)%nat -> i <> j -> same01 c i j <= tr_t a i j) /\
  tree_ok g p (mkTree (same01 c) (tr_x a) (tr_u a)) /\
  (forall ans r, (forall i j, (i < gn g)%nat -> (j < gn g)%nat -> reports (ans i j) (tr_t a i j)) ->
     post (fun e => e = KeyError /\ exists i j, (i < gn g)%nat /\ (j < gn g)%nat /\ i <> j /\ c i <> c j /\ tr_t a i j = 1) False
       (tree_fit g p ans r) (fun l => matches (gn g) l c /\ labels_exactly l p)).
Proof.
  intros Ha Hm. destruct (arcs_exist g p a Ha Hm) as [arc Harc]. destruct (tree_classes g p a Ha Hm arc Harc) as [c Hc]. exists c.
  split; [exact (tree_partition g p a Ha Hm arc Harc c Hc)|].
  split; [exact (same01_le_t g p a Ha Hm arc Harc c Hc)|].
  split; [exact (tree_same_t g p a Ha Hm arc Harc c Hc)|].
  intros ans r Hans. pose proof (tree_decoded g p a Ha Hm arc Harc c Hc ans Hans r) as H.
  destruct (tree_fit g p ans r) as [l|e|]; cbn [post] in *; [exact H| |exact H]. revert H.
  intros [He [i [j [Hi [Hj [Hne [->|Ht]]]]]]]; [congruence|]. split; [auto|]. exists i, j. repeat split; auto; congruence.
Qed.

Theorem tree_complete g p c : symmetric g -> partition g p c -> (2 <= gn g - p)%nat ->
  exists x u, tree_ok g p (mkTree (same01 c) x u).
Proof.
  intros Hsym Hp Hm. destruct (shallow_partition g p c Hp Hm) as [root [par [dep [HR Hd]]]].
  pose proof (proj1 Hp) as Hb.
  set (rt := fun i => Nat.eqb i (root (c i))).
  exists (fun i j => b01 (negb (rt i) && Nat.eqb j (par i))), (fun i => Z.of_nat (gn g) - Z.of_nat p - Z.of_nat (dep i)).
  assert (Hpar : forall i, (i < gn g)%nat -> rt i = false -> In (par i) (neighbors g i) /\ dep i = Datatypes.S (dep (par i)) /\ c (par i) = c i).
  { intros i Hi E. unfold rt in E. apply Nat.eqb_neq in E. assert (Hin : inside g (cls c (c i)) i) by (split; [auto|apply Nat.eqb_refl]).
    destruct (rt_par _ _ _ _ _ (HR (c i) (Hb i Hi)) i Hin E) as [[H1 H2] [H3 H4]]. split; [apply touch_neighbor; auto|]. split; [auto|].
    apply Nat.eqb_eq. exact H2. }
  assert (Hsum : forall i, (i < gn g)%nat -> sumZ (map (fun j => b01 (negb (rt i) && Nat.eqb j (par i))) (neighbors g i)) = b01 (negb (rt i))).
  { intros i Hi. destruct (rt i) eqn:E; cbn [negb andb b01].
    - apply sumZ_zero. reflexivity.
    - rewrite (sumZ_point _ _ (par i)); [rewrite Nat.eqb_refl; reflexivity|apply filter_seq_NoDup|apply Hpar; auto|].
      intros x _ Hx. destruct (Nat.eqb_spec x (par i)); [contradiction|reflexivity]. }
  unfold tree_ok. cbn [tr_t tr_x tr_u].
  split; [intros i j _ _; unfold same01; destruct (Nat.eqb _ _); lia|].
  split; [intros i j _ _; apply b01_range|].
  split; [intros i Hi; specialize (Hd i Hi); lia|].
  split.
  { rewrite sumZ_flat. rewrite (sumZ_ext _ (fun i => 1 - b01 (rt i))).
    - rewrite sumZ_minus, sumZ_const, seq_length. 
      assert (E : sumZ (map (fun i => b01 (rt i)) (seq 0 (gn g))) = Z.of_nat p); [|lia].
      rewrite (sumZ_ext _ (fun i => sumZ (map (fun k => b01 (Nat.eqb i (root k))) (seq 0 p)))).
      + rewrite sumZ_swap, (sumZ_ext _ (fun _ => 1)); [rewrite sumZ_const, seq_length; lia|].
        intros k Hk. apply in_seq in Hk. rewrite (sumZ_point _ _ (root k)); [rewrite Nat.eqb_refl; reflexivity|apply seq_NoDup| |].
        * apply in_seq. destruct (rt_in _ _ _ _ _ (HR k (proj2 Hk))) as [H _]. lia.
        * intros i _ Hi. destruct (Nat.eqb_spec i (root k)); [contradiction|reflexivity].
      + intros i Hi. apply in_seq in Hi. destruct Hi as [_ Hi]. cbn [Nat.add] in Hi. symmetry. rewrite (sumZ_point _ _ (c i)); [reflexivity|apply seq_NoDup| |].
        * apply in_seq. specialize (Hb i Hi). lia.
        * intros k Hk Hne. apply in_seq in Hk. destruct (Nat.eqb_spec i (root k)) as [->|]; [|reflexivity].
          destruct Hne. destruct (rt_in _ _ _ _ _ (HR k (proj2 Hk))) as [_ H]. apply Nat.eqb_eq in H. auto.
    - intros i Hi. apply in_seq in Hi. rewrite Hsum by lia. destruct (rt i); reflexivity. }
  split; [intros i Hi; rewrite Hsum by auto; apply b01_range|].
  split.
  { intros i j l _ _ _ _ _ _. unfold same01. destruct (Nat.eqb_spec (c i) (c j)), (Nat.eqb_spec (c i) (c l)), (Nat.eqb_spec (c j) (c l)); lia. }
  split. { intros i j _ _. unfold same01. rewrite Nat.eqb_sym. lia. }
  split.
  { intros i j Hi Hj. destruct (rt i) eqn:E; cbn [negb andb b01]; [unfold same01; destruct (Nat.eqb _ _); lia|].
    destruct (Nat.eqb_spec j (par i)) as [->|]; cbn [b01]; [|unfold same01; destruct (Nat.eqb _ _); lia].
    destruct (Hpar i Hi E) as [_ [_ Ec]]. unfold same01. rewrite Ec, Nat.eqb_refl. lia. }
  split.
  { intros i j Hi Hj. apply neighbors_In in Hj. destruct Hj as [Hjn _].
    pose proof (Hd i Hi) as Hdi. pose proof (Hd j Hjn) as Hdj.
    destruct (negb (rt i) && Nat.eqb j (par i)) eqn:E1; destruct (negb (rt j) && Nat.eqb i (par j)) eqn:E2; cbn [b01].
    - apply andb_true_iff in E1. destruct E1 as [E1 E1']. apply andb_true_iff in E2. destruct E2 as [E2 E2'].
      apply negb_true_iff in E1, E2. apply Nat.eqb_eq in E1', E2'. destruct (Hpar i Hi E1) as [_ [H1 _]]. destruct (Hpar j Hjn E2) as [_ [H2 _]].
      rewrite <- E1' in H1. rewrite <- E2' in H2. lia.
    - apply andb_true_iff in E1. destruct E1 as [E1 E1']. apply negb_true_iff in E1. apply Nat.eqb_eq in E1'. destruct (Hpar i Hi E1) as [_ [H1 _]].
      rewrite <- E1' in H1. lia.
    - apply andb_true_iff in E2. destruct E2 as [E2 E2']. apply negb_true_iff in E2. apply Nat.eqb_eq in E2'. destruct (Hpar j Hjn E2) as [_ [H2 _]].
      rewrite <- E2' in H2. lia.
    - lia. }
  intros i Hi. specialize (Hd i Hi). lia.
Qed.

(** n - p <= 1: no feasible assignment *)
Theorem tree_infeasible g p a : symmetric g -> no_self_loops g -> (0 < gn g)%nat -> (gn g - p <= 1)%nat -> ~ tree_ok g p a.
Proof.
  intros Hsym Hns Hn Hm [Ht [Hx [Hu [H4 [H5 [H6 [H7 [H8 [H9 H10]]]]]]]]].
  destruct (H10 0%nat Hn) as [A B]. assert (Hm1 : Z.of_nat (gn g) - Z.of_nat p = 1) by lia. rewrite Hm1 in *.
  rewrite sumZ_flat in H4.
  destruct (sumZ_pos (fun i => sumZ (map (fun j => tr_x a i j) (neighbors g i))) (seq 0 (gn g))) as [i [Hi Hp]]; [lia|].
  apply in_seq in Hi. destruct Hi as [_ Hi]. cbn [Nat.add] in Hi. destruct (sumZ_pos _ _ Hp) as [j [Hj Hxj]].
  pose proof (proj1 (neighbors_In _ _ _) Hj) as [Hjn Hadj].
  assert (Hnn : forall z, In z (seq 0 (gn g)) -> 0 <= sumZ (map (fun j => tr_x a z j) (neighbors g z))).
  { intros z Hz. apply in_seq in Hz. apply sumZ_nonneg. intros y Hy. apply neighbors_In in Hy. apply Hx; [lia|tauto]. }
  assert (Hij : i <> j) by (intros ->; rewrite Hns in Hadj; auto; discriminate).
  pose proof (H9 i j Hi Hj) as H. destruct (H10 i Hi) as [U1 U2]. destruct (H10 j Hjn) as [U3 U4].
  pose proof (Hx i j Hi Hjn) as X1. pose proof (Hx j i Hjn Hi) as X2.
  assert (Hxji : tr_x a j i = 1) by lia.
  assert (Hi' : In i (neighbors g j)) by (apply neighbors_In; split; [auto|rewrite Hsym; auto]).
  assert (Hsj : 1 <= sumZ (map (fun j0 => tr_x a j j0) (neighbors g j))).
  { rewrite <- Hxji. apply (sumZ_member (fun j0 => tr_x a j j0)); auto. intros y Hy. apply neighbors_In in Hy. apply Hx; tauto. }
  pose proof (sumZ_two (fun i => sumZ (map (fun j => tr_x a i j) (neighbors g i))) (seq 0 (gn g)) i j Hnn) as H2.
  cbv beta in H2. rewrite H4 in H2. assert (In i (seq 0 (gn g))) by (apply in_seq; lia). assert (In j (seq 0 (gn g))) by (apply in_seq; lia).
  specialize (H2 H0 H1 Hij). lia.
Qed.
