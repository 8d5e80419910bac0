(** Lemmas on data given by area names: matrices and arrays for areas listed in some order. *)
From Verif Require Export SpecData.
From Verif Require Import Base Spec M_Graph P_Graph M_Util P_Base P_Util M_Objective M_Azp M_Convert P_Convert M_Frames.
From Coq Require Import Permutation Sorting.Sorted.

(** the place of a name in a list of names *)
Definition find_in (ids : list Z) (k : Z) : nat := match index_where (Z.eqb k) ids with Some i => i | None => 0 end.

Lemma find_in_spec ids k : In k ids -> find_in ids k < length ids /\ nth (find_in ids k) ids 0%Z = k.
Proof.
  intros H. unfold find_in. destruct (index_where (Z.eqb k) ids) as [i|] eqn:E.
  - apply index_where_spec in E. destruct E as [[x [Hx E]] _]. apply Z.eqb_eq in E. subst x.
    split; [apply nth_error_Some; congruence|apply nth_error_nth; auto].
  - exfalso. rewrite index_where_None in E. specialize (E k H). rewrite Z.eqb_refl in E. discriminate.
Qed.

Lemma find_in_nth ids i : NoDup ids -> i < length ids -> find_in ids (nth i ids 0%Z) = i.
Proof.
  intros Hn Hi. destruct (find_in_spec ids (nth i ids 0%Z)) as [H1 H2]; [apply nth_In; auto|].
  apply (proj1 (NoDup_nth ids 0%Z) Hn); auto.
Qed.

(** The matrix [g] and the array [rows] list the areas [ids] in this order. *)
Definition shown (nbr : Z -> Z -> bool) (val : Z -> list Q) (ids : list Z) (g : graph) (rows : list (list Q)) : Prop :=
  gn g = length ids /\
  (forall i j, i < length ids -> j < length ids -> gadj g i j = nbr (nth i ids 0%Z) (nth j ids 0%Z)) /\
  rows = map val ids.

Lemma nth_map_in {A B} (f : A -> B) l i d d' : i < length l -> nth i (map f l) d' = f (nth i l d).
Proof. intros H. rewrite (nth_indep _ d' (f d)) by (rewrite map_length; auto). apply map_nth. Qed.

Lemma lab_map L ids i : i < length ids -> lab (map L ids) i = L (nth i ids 0%Z).
Proof. intros H. unfold lab. apply nth_map_in; auto. Qed.

Section Orders.
Variables ids ids' : list Z.
Hypothesis Hn : NoDup ids.
Hypothesis Hp : Permutation ids ids'.
Let f (i : nat) : nat := find_in ids (nth i ids' 0%Z).

Lemma order_lt i : i < length ids -> f i < length ids /\ nth (f i) ids 0%Z = nth i ids' 0%Z.
Proof.
  intros Hi. apply find_in_spec. apply (Permutation_in _ (Permutation_sym Hp)). apply nth_In.
  rewrite <- (Permutation_length Hp). auto.
Qed.

Lemma order_inj i j : i < length ids -> j < length ids -> f i = f j -> i = j.
Proof.
  intros Hi Hj E. assert (Hn' : NoDup ids') by (eapply Permutation_NoDup; eauto).
  rewrite (Permutation_length Hp) in Hi, Hj. apply (proj1 (NoDup_nth ids' 0%Z) Hn'); auto.
  rewrite <- (Permutation_length Hp) in Hi, Hj.
  destruct (order_lt i Hi) as [_ <-], (order_lt j Hj) as [_ <-]. rewrite E. auto.
Qed.

Lemma order_onto i : i < length ids -> exists j, j < length ids /\ f j = i.
Proof.
  intros Hi. assert (Hin : In (nth i ids 0%Z) ids') by (apply (Permutation_in _ Hp), nth_In; auto).
  destruct (In_nth _ _ 0%Z Hin) as [j [Hj E]]. exists j. rewrite (Permutation_length Hp). split; [auto|].
  unfold f. rewrite E. apply find_in_nth; auto.
Qed.

Lemma shown_renumbered nbr val g g' rows rows' : shown nbr val ids g rows -> shown nbr val ids' g' rows' ->
  renumbered f g rows g' rows'.
Proof.
  intros [Hg [Ha ->]] [Hg' [Ha' ->]]. rewrite <- (Permutation_length Hp) in Hg', Ha'. unfold renumbered. rewrite Hg, Hg'.
  split; [auto|]. split; [rewrite !map_length; symmetry; apply Permutation_length; auto|].
  split; [intros i Hi; apply order_lt; auto|]. split; [intros; apply order_inj; auto|]. split.
  - intros i j Hi Hj. destruct (order_lt i Hi) as [H1 H2], (order_lt j Hj) as [H3 H4]. rewrite Ha', Ha, H2, H4 by auto. auto.
  - intros i Hi. destruct (order_lt i Hi) as [H1 H2].
    rewrite (nth_map_in val ids' i 0%Z), (nth_map_in val ids _ 0%Z), H2 by (rewrite <- ?(Permutation_length Hp); auto). auto.
Qed.

Lemma relabelled_map L : relabelled f (fun z => z) (map L ids) (map L ids').
Proof.
  split; [rewrite !map_length; symmetry; apply Permutation_length; auto|]. rewrite map_length. intros i Hi.
  destruct (order_lt i Hi) as [H1 H2]. rewrite !lab_map by (rewrite <- ?(Permutation_length Hp); auto). rewrite H2. auto.
Qed.

Lemma relabelled_map_inv L l : relabelled f (fun z => z) l (map L ids') -> l = map L ids.
Proof.
  intros [Hl H]. rewrite map_length, <- (Permutation_length Hp) in Hl. apply (nth_ext _ _ (-1)%Z (-1)%Z).
  - rewrite map_length. lia.
  - intros i Hi. rewrite <- Hl in Hi. destruct (order_onto i Hi) as [j [Hj E]].
    change (lab l i = lab (map L ids) i). rewrite <- E at 1. rewrite <- (H j) by lia. rewrite !lab_map by (rewrite <- ?(Permutation_length Hp); auto).
    destruct (order_lt j Hj) as [_ E2]. rewrite <- E2, E. auto.
Qed.
End Orders.

(** a shown matrix is symmetric if the relation is *)
Lemma shown_symmetric nbr val ids g rows : shown nbr val ids g rows ->
  (forall i j, In i ids -> In j ids -> nbr i j = nbr j i) -> symmetric g.
Proof.
  intros [Hg [Ha _]] Hs u v Hu Hv. rewrite Hg in Hu, Hv. rewrite !Ha by auto. apply Hs; apply nth_In; auto.
Qed.

(** ** The ways of giving the data of named areas *)

Section Given.
Variables (names : list Z) (nbr : Z -> Z -> bool).
Hypothesis Hn : NoDup names.
Hypothesis Hne : names <> [].

Lemma sorted_keys_perm {V} (d : dict V) : Permutation (keys d) names -> sorted_keys d = uniqueZ names.
Proof. intros H. unfold sorted_keys. apply uniqueZ_ext. intros x. split; apply Permutation_in; auto using Permutation_sym. Qed.

Lemma perm_nodup {V} (d : dict V) : Permutation (keys d) names -> NoDup (keys d).
Proof. intros H. eapply Permutation_NoDup; [apply Permutation_sym; eauto|auto]. Qed.

Lemma perm_length {V} (d : dict V) : Permutation (keys d) names -> length d = length names.
Proof. intros H. rewrite <- keys_length. apply Permutation_length; auto. Qed.

Lemma dict_matrix_shown nb val : dict_lists names nbr nb ->
  exists g, matrix_from_dict nb = Ok g /\ shown nbr val (uniqueZ names) g (map val (uniqueZ names)).
Proof.
  intros [Hk Hl]. pose proof (perm_nodup nb Hk) as Hnk.
  assert (Hc : closed_dict nb).
  { intros i js j Hi Hj. apply (Permutation_in _ (Permutation_sym Hk)). apply (Hl i js Hi). auto. }
  eexists. split; [apply matrix_from_dict_Ok; auto|]. pose proof (matrix_from_dict_Ok nb Hnk Hc) as E.
  set (g := mkG _ _) in *. split; [cbn; rewrite uniqueZ_full_length by auto; apply perm_length; auto|]. split; [|auto].
  intros i j Hi Hj.
  assert (Hu : uniqueZ names = uniqueZ (keys nb)) by (symmetry; apply (sorted_keys_perm nb Hk)).
  rewrite Hu in *.
  destruct (nth_position (keys nb) i (nth i (uniqueZ (keys nb)) 0%Z) Hnk) as [Hi1 Hi2]; [apply nth_error_nth'; auto|].
  destruct (nth_position (keys nb) j (nth j (uniqueZ (keys nb)) 0%Z) Hnk) as [Hj1 Hj2]; [apply nth_error_nth'; auto|].
  set (a := nth i (uniqueZ (keys nb)) 0%Z) in *. set (b := nth j (uniqueZ (keys nb)) 0%Z) in *. clearbody a b.
  apply eq_true_iff_eq. rewrite <- Hi2, <- Hj2, (matrix_entry nb g a b Hnk Hc E Hi1 Hj1). split.
  - intros [js [H1 H2]]. apply (Hl a js H1) in H2. apply H2.
  - intros H. apply keys_In in Hi1. destruct Hi1 as [js Hjs]. exists js. split; [auto|]. apply (Hl a js Hjs).
    split; [apply (Permutation_in _ Hk); auto|auto].
Qed.

Lemma row_of_given {A} (d : dict (value A)) val k : dict_gives names val d -> In k names -> row_of d k = val k.
Proof.
  intros [Hk [_ Hv]] Hin. pose proof (perm_nodup d Hk) as Hnk. apply (Permutation_in _ (Permutation_sym Hk)) in Hin.
  apply keys_In in Hin. destruct Hin as [v Hin]. unfold row_of. rewrite (proj2 (dlookup_In d k v Hnk) Hin). apply Hv; auto.
Qed.

Lemma dict_given {A} (d : dict (value A)) val ks : dict_gives names val d -> (exists m, forall k, In k names -> length (val k) = m) ->
  ks = Some (uniqueZ names) \/ ks = None ->
  array_from_dict_values d ks = Ok (map val (uniqueZ names)) /\ array_from_dict_flat d ks = Ok (concat (map val (uniqueZ names))).
Proof.
  intros Hg [m Hm] Hks. pose proof Hg as [Hk [Hb Hv]]. pose proof (perm_nodup d Hk) as Hnk.
  assert (Hu : uniform d m).
  { split; [auto|]. intros k v Hin. rewrite (Hv k v Hin). apply Hm. apply (Permutation_in _ Hk). apply keys_In; eauto. }
  assert (Hne' : uniqueZ names <> []).
  { destruct names as [|x l] eqn:E; [congruence|]. intros E'. assert (H : In x (uniqueZ (x :: l))) by (apply uniqueZ_In; left; auto).
    rewrite E' in H. inversion H. }
  assert (Hin : forall k, In k (uniqueZ names) -> In k (keys d)).
  { intros k H. apply (proj1 (uniqueZ_In _ _)) in H. apply (Permutation_in _ (Permutation_sym Hk)); auto. }
  assert (E : map (row_of d) (uniqueZ names) = map val (uniqueZ names)).
  { apply map_ext_in. intros k H. apply row_of_given; auto. apply (proj1 (uniqueZ_In _ _)); auto. }
  assert (E1 : array_from_dict_values d ks = array_from_dict_values d (Some (uniqueZ names)) /\
               array_from_dict_flat d ks = array_from_dict_flat d (Some (uniqueZ names))).
  { destruct Hks as [->| ->]; [auto|]. rewrite array_default. unfold array_from_dict_flat. rewrite (sorted_keys_perm d Hk). auto. }
  destruct E1 as [-> ->]. split.
  - rewrite (array_rows d m (uniqueZ names)) by (auto; rewrite uniqueZ_full_length, (perm_length d Hk); auto). rewrite E. auto.
  - unfold array_from_dict_flat. rewrite (flat_values_Ok d m (uniqueZ names)) by auto. rewrite E. auto.
Qed.

Lemma labels_given (d : dict (value Z)) L : dict_gives names (fun k => [L k]) d ->
  array_from_dict_flat d (Some (uniqueZ names)) = Ok (map L (uniqueZ names)).
Proof.
  intros H. destruct (dict_given d (fun k => [L k]) (Some (uniqueZ names)) H) as [_ ->]; auto; [exists 1; auto|].
  f_equal. induction (uniqueZ names) as [|x l IH]; cbn; [auto|]. rewrite IH. auto.
Qed.

Lemma w_shown w val : w_lists names nbr w ->
  exists g, scipy_sparse_matrix_from_w w = Ok g /\ shown nbr val (w_ids w) g (map val (w_ids w)).
Proof.
  intros [Hp Hl]. unfold scipy_sparse_matrix_from_w.
  assert (Hin : forall i, In i (w_ids w) <-> In i names) by (intros i; split; apply Permutation_in; auto using Permutation_sym).
  rewrite (proj2 (forallb_forall _ _)).
  - eexists. split; [reflexivity|]. split; [reflexivity|]. split; [|auto]. intros i j Hi Hj. cbn [gadj].
    rewrite (proj2 (Nat.ltb_lt _ _) Hi), (proj2 (Nat.ltb_lt _ _) Hj). cbn [andb].
    apply eq_true_iff_eq. rewrite membZ_In. rewrite (Hl _ (proj1 (Hin _) (nth_In _ _ Hi))).
    split; [tauto|]. intros H. split; [apply Hin, nth_In; auto|auto].
  - intros i Hi. apply forallb_forall. intros j Hj. apply membZ_In, Hin. apply (Hl i) in Hj; [apply Hj|apply Hin; auto].
Qed.

Lemma nx_shown N val : nx_lists names nbr N ->
  exists g, to_scipy_sparse_matrix N = Ok g /\ shown nbr val (nx_nodes N) g (map val (nx_nodes N)).
Proof.
  intros [Hp [Hs He]]. unfold to_scipy_sparse_matrix.
  assert (Hin : forall i, In i (nx_nodes N) -> In i names) by (intros i; apply Permutation_in; auto).
  destruct (nx_nodes N) as [|x l] eqn:E; [apply Permutation_nil in Hp; congruence|]. rewrite <- E in *.
  eexists. split; [reflexivity|]. split; [reflexivity|]. split; [|auto]. intros i j Hi Hj. cbn [gadj].
  rewrite (proj2 (Nat.ltb_lt _ _) Hi), (proj2 (Nat.ltb_lt _ _) Hj). cbn [andb]. apply He; apply Hin, nth_In; auto.
Qed.

Lemma map_Some_nth {A} (l : list A) (l' : list (option A)) i : map Some l = l' -> nth_error l' i = option_map Some (nth_error l i).
Proof. intros <-. apply nth_error_map. Qed.

Lemma nx_given N val a : nx_lists names nbr N -> nx_gives names val N a ->
  array_from_graph_or_dict N a = Ok (map val (nx_nodes N)).
Proof.
  intros [Hp [Hs He]] Hg.
  assert (Hu : uniqueZ names = nx_nodes N).
  { rewrite <- (sorted_uniqueZ _ Hs). apply uniqueZ_ext. intros x. split; apply Permutation_in; auto using Permutation_sym. }
  destruct Hg as [[d [-> [Hd Hm]]]|[l [Ha Hl]]].
  - cbn [array_from_graph_or_dict]. unfold array_from_graph. cbn [dict_from_graph_attr bind].
    destruct (dict_given d val None Hd Hm) as [-> _]; auto. rewrite Hu. auto.
  - assert (Ha' : names_of a = Some l) by (destruct Ha as [->|[s [-> ->]]]; reflexivity).
    assert (Hin : forall k, In k (nx_nodes N) -> In k names) by (intros k; apply Permutation_in; auto).
    rewrite (graph_array N a l); auto.
    + rewrite (sorted_uniqueZ _ Hs). f_equal. apply map_ext_in. intros k Hk. specialize (Hl k (Hin k Hk)).
      unfold node_attrs. clear -Hl. revert Hl. generalize (val k). induction l as [|s l IH]; intros v Hl; cbn in *.
      * destruct v; [auto|discriminate].
      * destruct v as [|q v]; [discriminate|]. injection Hl as E Hl. rewrite <- E. cbn. f_equal. apply IH; auto.
    + eapply Permutation_NoDup; [apply Permutation_sym; eauto|auto].
    + intros E. rewrite E in Hp. apply Permutation_nil in Hp. congruence.
    + intros k b Hk Hb. specialize (Hl k (Hin k Hk)). intros E.
      apply In_nth_error in Hb. destruct Hb as [i Hi].
      assert (H : nth_error (map Some (val k)) i = Some None) by (rewrite Hl, nth_error_map, Hi; cbn; rewrite E; auto).
      rewrite nth_error_map in H. destruct (nth_error (val k) i); discriminate.
Qed.
End Given.
