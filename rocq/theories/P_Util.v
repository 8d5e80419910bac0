(** Proofs about the clustering helpers of region/util.py. *)
From Verif Require Import Base Spec M_Graph P_Graph M_Util P_Base.

(** ** assert_feasible *)
Lemma region_adj_connected g labels r :
  is_connected (region_adj g labels r) = true <-> contiguous g (region labels r).
Proof.
  unfold region_adj. rewrite sub_connected_spec by apply where_eq_NoDup.
  split; apply contiguous_ext; intros a; unfold region; rewrite where_eq_In; cbn; tauto.
Qed.

Lemma check_regions_Ok g labels rs :
  check_regions g labels rs = Ok tt <-> forall r, In r rs -> contiguous g (region labels r).
Proof.
  induction rs as [|r rs IH]; cbn [check_regions].
  - split; [intros _ r []|auto].
  - destruct (is_connected (region_adj g labels r)) eqn:E.
    + rewrite IH. apply region_adj_connected in E. split.
      * intros H s [<-|Hs]; auto.
      * intros H s Hs. apply H; right; auto.
    + split; [discriminate|]. intros H. specialize (H r (or_introl eq_refl)).
      apply region_adj_connected in H. congruence.
Qed.

Lemma check_regions_total g labels rs :
  check_regions g labels rs = Ok tt \/ exists m, check_regions g labels rs = Raise (ValueError m).
Proof.
  induction rs as [|r rs IH]; cbn [check_regions]; [auto|].
  destruct (is_connected (region_adj g labels r)); [auto|right; eauto].
Qed.

Lemma check_regions_all g labels :
  check_regions g labels (uniqueZ labels) = Ok tt <-> all_contiguous g labels.
Proof.
  rewrite check_regions_Ok. unfold all_contiguous. split; intros H r Hr; apply H; apply uniqueZ_In; auto.
Qed.

Lemma assert_feasible_short labels g p : assert_feasible labels g p = Ok tt -> length labels <= gn g.
Proof.
  unfold assert_feasible. destruct (Nat.leb_spec (length labels) (gn g)); [auto|]. intros E. destruct p as [p|]; [destruct (Z.eqb _ _) in E|]; discriminate E.
Qed.
Lemma assert_feasible_Ok labels g p : length labels <= gn g ->
  (assert_feasible labels g (Some p) = Ok tt <->
  Z.of_nat (n_labels labels) = p /\ all_contiguous g labels).
Proof.
  intros Hl. unfold assert_feasible. rewrite (proj2 (Nat.leb_le _ _) Hl), uniqueZ_length, <- check_regions_all.
  destruct (Z.eqb_spec (Z.of_nat (n_labels labels)) p); [tauto|]. split; [discriminate|tauto].
Qed.

Lemma assert_feasible_None labels g : length labels <= gn g ->
  (assert_feasible labels g None = Ok tt <-> all_contiguous g labels).
Proof. intros Hl. unfold assert_feasible. rewrite (proj2 (Nat.leb_le _ _) Hl). apply check_regions_all. Qed.

Lemma assert_feasible_total labels g o : length labels <= gn g ->
  assert_feasible labels g o = Ok tt \/ exists m, assert_feasible labels g o = Raise (ValueError m).
Proof.
  intros Hl. unfold assert_feasible. rewrite (proj2 (Nat.leb_le _ _) Hl). destruct o as [p|]; [|apply check_regions_total].
  destruct (Z.eqb _ _); [apply check_regions_total|right; eauto].
Qed.

Lemma forallb_id_map {A} (f : A -> bool) l :
  forallb (fun b => b) (map f l) = true <-> forall x, In x l -> f x = true.
Proof.
  rewrite forallb_forall. split.
  - intros H x Hx. apply H. apply in_map; auto.
  - intros H b Hb. apply in_map_iff in Hb. destruct Hb as [x [<- Hx]]. auto.
Qed.

Lemma baf_core g labels :
  forallb (fun b => b) (map (fun r => is_connected (region_adj g labels r)) (uniqueZ labels)) = true
  <-> all_contiguous g labels.
Proof.
  rewrite forallb_id_map. unfold all_contiguous. split; intros H r Hr.
  - apply region_adj_connected. apply H. apply uniqueZ_In; auto.
  - apply region_adj_connected. apply H. apply uniqueZ_In; auto.
Qed.

Lemma boolean_assert_feasible_None labels g : length labels <= gn g ->
  exists b, boolean_assert_feasible labels g None = Ok b /\ (b = true <-> all_contiguous g labels).
Proof.
  intros Hl. unfold boolean_assert_feasible. rewrite (proj2 (Nat.leb_le _ _) Hl). eexists. split; [reflexivity|]. apply baf_core.
Qed.

Lemma boolean_assert_feasible_Some labels g p : length labels <= gn g ->
  (Z.of_nat (n_labels labels) = p ->
     exists b, boolean_assert_feasible labels g (Some p) = Ok b /\ (b = true <-> all_contiguous g labels)) /\
  (Z.of_nat (n_labels labels) <> p ->
     exists m, boolean_assert_feasible labels g (Some p) = Raise (ValueError m)).
Proof.
  intros Hl. unfold boolean_assert_feasible. rewrite (proj2 (Nat.leb_le _ _) Hl), uniqueZ_length.
  destruct (Z.eqb_spec (Z.of_nat (n_labels labels)) p); split; intros; try congruence; eexists.
  - split; [reflexivity|]. apply baf_core.
  - reflexivity.
Qed.

(** ** components as node lists *)
Lemma comp_nodes_In g c a : In a (comp_nodes g c) <-> a < gn g /\ comp_label g a = c.
Proof. unfold comp_nodes. rewrite filter_In, in_seq, Nat.eqb_eq. intuition lia. Qed.

Lemma comp_nodes_NoDup g c : NoDup (comp_nodes g c).
Proof. apply filter_seq_NoDup. Qed.

(** a component is closed under adjacency, so paths stay inside *)
Lemma linked_stays_in_comp g v w :
  linked g (areas g) v w -> linked g (fun a => In a (comp_nodes g (comp_label g v))) v w.
Proof.
  intros H.
  assert (Hall : forall u, linked g (areas g) u w -> comp_label g u = comp_label g w).
  { intros u Hu. apply comp_label_eq; auto; [apply (linked_in_l _ _ _ _ Hu)|apply (linked_in_r _ _ _ _ Hu)]. }
  rewrite (Hall v H).
  induction H as [u Hu|u x w Hu Hux Hxw IH].
  - apply linked_refl. apply comp_nodes_In. auto.
  - eapply linked_step; [|exact Hux|apply IH; exact Hall].
    apply comp_nodes_In. split; auto. apply Hall. eapply linked_step; eauto.
Qed.

Lemma comp_nodes_contiguous g c : c < n_components g ->
  contiguous g (fun a => In a (comp_nodes g c)).
Proof.
  intros Hc. destruct (comp_label_onto g c Hc) as [v [Hv Ev]].
  apply contiguous_root with (u := v); [apply comp_nodes_In; auto|].
  intros w Hw. apply comp_nodes_In in Hw. destruct Hw as [Hw Ew].
  rewrite <- Ev. apply linked_stays_in_comp. apply comp_label_eq; auto. congruence.
Qed.

(** ** separate_components *)
Lemma minus_ones_nth n a : a < n -> nth_error (minus_ones n) a = Some (-1)%Z.
Proof. intros H. unfold minus_ones. apply nth_error_repeat; auto. Qed.

Lemma separate_one_length g labels c : length (separate_one g labels c) = gn g.
Proof. unfold separate_one. rewrite scatter_length. apply repeat_length. Qed.

Lemma separate_one_in g labels c a :
  length labels = gn g -> a < gn g -> comp_label g a = c ->
  nth_error (separate_one g labels c) a = nth_error labels a.
Proof.
  intros Hl Ha Ec. unfold separate_one.
  assert (Hin : In a (comp_nodes g c)) by (apply comp_nodes_In; auto).
  apply In_nth_error in Hin. destruct Hin as [k Hk].
  rewrite (scatter_in _ _ _ k a (nth a labels (-1)%Z)); auto.
  - symmetry. apply nth_error_nth'. lia.
  - apply comp_nodes_NoDup.
  - apply nth_error_gather; auto.
  - unfold minus_ones. rewrite repeat_length. auto.
Qed.

Lemma separate_one_out g labels c a :
  a < gn g -> comp_label g a <> c -> nth_error (separate_one g labels c) a = Some (-1)%Z.
Proof.
  intros Ha Ec. unfold separate_one. rewrite scatter_notin.
  - apply minus_ones_nth; auto.
  - intros Hin. apply comp_nodes_In in Hin. tauto.
Qed.
