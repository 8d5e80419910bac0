(** Exchanging the regions of one island: what happens to contiguity, counts, heterogeneity and totals. *)
From Verif Require Import Base Spec SpecData M_Graph M_Util M_Objective M_Azp P_Base P_Util P_Graph P_Init P_Sum P_Objective P_Azp P_Strategy P_Fit P_AzpFit P_Anneal.

(** ** one-to-one renaming *)
Lemma region_map (f : Z -> Z) l z a : (forall x y, f x = f y -> x = y) -> (region (map f l) (f z) a <-> region l z a).
Proof.
  intros Hf. unfold region. rewrite nth_error_map. destruct (nth_error l a) as [y|]; cbn; split; intros H; try discriminate.
  - injection H as H. apply Hf in H. congruence.
  - congruence.
Qed.
Lemma wf_map h (f : Z -> Z) l : (forall x y, f x = f y -> x = y) -> wf h l -> wf h (map f l).
Proof.
  intros Hf [Hl Hall]. split; [rewrite map_length; auto|]. intros z Hz. apply in_map_iff in Hz. destruct Hz as [y [<- Hy]].
  apply (contiguous_ext h (region l y)); [|apply Hall; auto]. intros a. symmetry. apply region_map; auto.
Qed.
Lemma nodup_map_length (f : Z -> Z) l : (forall x y, f x = f y -> x = y) -> n_labels (map f l) = n_labels l.
Proof.
  intros Hf. unfold n_labels. rewrite <- (map_length f (nodup Z.eq_dec l)). apply Permutation_length. apply NoDup_Permutation.
  - apply NoDup_nodup.
  - apply FinFun.Injective_map_NoDup; [exact Hf|apply NoDup_nodup].
  - intros z. rewrite nodup_In, !in_map_iff. split; intros [y [E Hy]]; exists y; (split; [auto|]); [apply nodup_In|apply nodup_In in Hy]; auto.
Qed.
Lemma lab_map (f : Z -> Z) l a : a < length l -> lab (map f l) a = f (lab l a).
Proof. intros Ha. apply lab_of_nth_error. rewrite nth_error_map, (lab_nth_error l a Ha). reflexivity. Qed.
Lemma het_map d (f : Z -> Z) l : (forall x y, f x = f y -> x = y) -> (heterogeneity d (map f l) == heterogeneity d l)%Q.
Proof.
  intros Hf. unfold heterogeneity. rewrite map_length. apply sumQ_ext. intros j Hj. apply in_seq in Hj. apply sumQ_ext. intros i Hi. apply in_seq in Hi.
  rewrite !lab_map by lia. destruct (Z.eqb_spec (lab l i) (lab l j)) as [E|E]; destruct (Z.eqb_spec (f (lab l i)) (f (lab l j))) as [E'|E']; try reflexivity.
  - congruence.
  - apply Hf in E'. congruence.
Qed.
Lemma total_map sp (f : Z -> Z) l z k : (forall x y, f x = f y -> x = y) -> (total sp (map f l) (f z) k == total sp l z k)%Q.
Proof.
  intros Hf. unfold total. rewrite map_length. apply sumQ_ext. intros a Ha. apply in_seq in Ha. rewrite lab_map by lia.
  destruct (Z.eqb_spec (lab l a) z) as [E|E]; destruct (Z.eqb_spec (f (lab l a)) (f z)) as [E'|E']; try reflexivity.
  - congruence.
  - apply Hf in E'. congruence.
Qed.

(** ** a labelling and its parts *)
Definition apart (g : graph) (labels : list Z) : Prop :=
  forall a b, a < gn g -> b < gn g -> lab labels a = lab labels b -> comp_label g a = comp_label g b.
Lemma wf_apart g labels : wf g labels -> apart g labels.
Proof.
  intros [Hl Hall] a b Ha Hb E. apply (wf_region_comp g labels (lab labels a)); auto.
  - apply Hall. eapply nth_error_In. apply lab_nth_error. lia.
  - apply lab_nth_error. lia.
  - rewrite E. apply lab_nth_error. lia.
Qed.
Lemma wf_of_parts g labels : length labels = gn g -> apart g labels -> (forall c, c < n_components g -> wf (comp_graph g c) (comp_part g labels c)) -> wf g labels.
Proof.
  intros Hlen Hap Hparts. split; [auto|]. intros z Hz. apply In_nth_error in Hz. destruct Hz as [a Ha].
  assert (Hag : a < gn g) by (apply nth_error_lt in Ha; lia).
  set (c := comp_label g a). destruct (Hparts c (comp_label_lt g a Hag)) as [_ Hall].
  assert (Hzc : In z (comp_part g labels c)) by (apply comp_part_In; eauto).
  apply (contiguous_ext g (fun x => exists i, region (comp_part g labels c) z i /\ nth_error (comp_nodes g c) i = Some x)).
  - intros x. split.
    + intros [i [Hi Hx]]. apply comp_part_region in Hi; auto. destruct Hi as [y [Hy Hr]]. rewrite Hx in Hy. injection Hy as ->. auto.
    + intros Hx. assert (Hxg : x < gn g) by (apply nth_error_lt in Hx; lia).
      assert (Hxc : comp_label g x = c) by (apply Hap; auto; rewrite (lab_of_nth_error _ _ _ Hx), (lab_of_nth_error _ _ _ Ha); auto).
      destruct (In_nth_error (comp_nodes g c) x) as [i Hi]; [apply comp_nodes_In; auto|].
      exists i. split; [|auto]. apply comp_part_region; eauto.
  - apply sub_contiguous; [apply Hall; auto|]. intros i Hi. apply nth_error_lt in Hi. rewrite comp_part_length, comp_graph_n in Hi. auto.
Qed.

Lemma NoDup_append {A} (l m : list A) : NoDup l -> NoDup m -> (forall x, In x l -> ~ In x m) -> NoDup (l ++ m).
Proof.
  induction l as [|x l IH]; intros Hl Hm Hd; cbn [app]; [auto|]. inversion Hl; subst. constructor.
  - rewrite in_app_iff. intros [H|H]; [auto|]. apply (Hd x); [left|]; auto.
  - apply IH; auto. intros y Hy. apply Hd. right; auto.
Qed.
Lemma NoDup_flat {A B} (f : A -> list B) l : NoDup l -> (forall x, In x l -> NoDup (f x)) ->
  (forall x y b, In x l -> In y l -> In b (f x) -> In b (f y) -> x = y) -> NoDup (flat_map f l).
Proof.
  induction l as [|x l IH]; intros Hnd Hf Hd; cbn [flat_map]; [constructor|]. inversion Hnd; subst. apply NoDup_append.
  - apply Hf. left; auto.
  - apply IH; auto; intros; [apply Hf; right; auto|]. eapply Hd; eauto; right; auto.
  - intros b Hb Hb'. apply in_flat_map in Hb'. destruct Hb' as [y [Hy Hby]]. assert (x = y) by (eapply Hd; eauto; [left; auto|right; auto]). subst. auto.
Qed.
Lemma n_labels_comps g labels : length labels = gn g -> apart g labels ->
  n_labels labels = list_sum (map (fun c => n_labels (comp_part g labels c)) (seq 0 (n_components g))).
Proof.
  intros Hlen Hap. unfold n_labels.
  assert (E : list_sum (map (fun c => length (nodup Z.eq_dec (comp_part g labels c))) (seq 0 (n_components g))) =
    length (flat_map (fun c => nodup Z.eq_dec (comp_part g labels c)) (seq 0 (n_components g)))).
  { induction (seq 0 (n_components g)) as [|c cs IH]; [reflexivity|]. cbn [map flat_map]. rewrite app_length, <- IH. reflexivity. }
  rewrite E. apply Permutation_length. apply NoDup_Permutation.
  - apply NoDup_nodup.
  - apply NoDup_flat; [apply seq_NoDup|intros; apply NoDup_nodup|]. intros c c' z _ _ Hz Hz'. apply nodup_In in Hz, Hz'.
    apply comp_part_In in Hz, Hz'; auto. destruct Hz as [a [Ha [<- Ea]]]. destruct Hz' as [b [Hb [<- Eb]]].
    apply Hap; auto. rewrite (lab_of_nth_error _ _ _ Ea), (lab_of_nth_error _ _ _ Eb). auto.
  - intros z. rewrite nodup_In, in_flat_map. split.
    + intros Hz. apply In_nth_error in Hz. destruct Hz as [a Ha]. assert (Hag : a < gn g) by (apply nth_error_lt in Ha; lia).
      exists (comp_label g a). split; [apply in_seq; pose proof (comp_label_lt g a Hag); lia|]. apply nodup_In, comp_part_In; eauto.
    + intros [c [_ Hz]]. apply nodup_In, comp_part_In in Hz; auto. destruct Hz as [a [_ [_ Ha]]]. eapply nth_error_In; eauto.
Qed.

Lemma within_psum d labels idx :
  (heterogeneity (within d idx) (labels_at labels idx) == psum (fun i j => if Z.eqb (lab labels i) (lab labels j) then d i j else 0) idx)%Q.
Proof.
  rewrite heterogeneity_psum.
  replace (length (labels_at labels idx)) with (length idx) by (unfold labels_at; rewrite map_length; reflexivity).
  transitivity (psum (fun i j => if Z.eqb (lab labels i) (lab labels j) then d i j else 0%Q) (map (fun i => nth i idx 0) (seq 0 (length idx)))); [|rewrite map_nth_seq; reflexivity].
  rewrite psum_map. apply psum_ext. intros i j Hi Hj. apply in_seq in Hi, Hj.
  assert (Hlab : forall k, k < length idx -> lab (labels_at labels idx) k = lab labels (nth k idx 0)).
  { intros k Hk. apply lab_of_nth_error. unfold labels_at. rewrite nth_error_map, (nth_error_nth' idx 0) by auto. reflexivity. }
  rewrite !Hlab by lia. reflexivity.
Qed.
Lemma within_comps d g labels : length labels = gn g -> apart g labels ->
  (heterogeneity d labels == sumQ (map (fun c => heterogeneity (within d (comp_nodes g c)) (comp_part g labels c)) (seq 0 (n_components g))))%Q.
Proof.
  intros Hlen Hap. rewrite heterogeneity_psum, Hlen.
  set (F := fun i j => if Z.eqb (lab labels i) (lab labels j) then d i j else 0%Q).
  rewrite (sumQ_ext _ (fun c => psum F (comp_nodes g c))) by (intros; apply (within_psum d labels)).
  set (U := map Z.of_nat (seq 0 (n_components g))).
  assert (Hcls : (sumQ (map (fun r => psum F (filter (fun x => Z.eqb (Z.of_nat (comp_label g x)) r) (seq 0 (gn g)))) U) ==
    psum (fun x y => if Z.eqb (Z.of_nat (comp_label g x)) (Z.of_nat (comp_label g y)) then F x y else 0) (seq 0 (gn g)))%Q).
  { apply (psum_classes F (fun x => Z.of_nat (comp_label g x))).
    - apply NoDup_map_inj; [intros; lia|apply seq_NoDup].
    - intros x Hx. apply in_seq in Hx. apply in_map_iff. exists (comp_label g x). split; [auto|]. apply in_seq. pose proof (comp_label_lt g x). lia. }
  unfold U in Hcls. rewrite map_map in Hcls.
  rewrite (sumQ_ext (fun c => psum F (comp_nodes g c)) (fun x => psum F (filter (fun x0 => Z.eqb (Z.of_nat (comp_label g x0)) (Z.of_nat x)) (seq 0 (gn g))))).
  - rewrite Hcls. apply psum_ext. intros i j Hi Hj. apply in_seq in Hi, Hj.
    destruct (Z.eqb_spec (Z.of_nat (comp_label g i)) (Z.of_nat (comp_label g j))) as [_|Hne]; [reflexivity|].
    unfold F. destruct (Z.eqb_spec (lab labels i) (lab labels j)) as [El|_]; [|reflexivity]. exfalso. apply Hne. f_equal. apply Hap; auto; lia.
  - intros c _. replace (comp_nodes g c) with (filter (fun x0 : nat => (Z.of_nat (comp_label g x0) =? Z.of_nat c)%Z) (seq 0 (gn g))); [reflexivity|].
    apply filter_ext. intros a. apply eq_true_iff_eq. rewrite Z.eqb_eq, Nat.eqb_eq. lia.
Qed.
Lemma total_part g sp labels a k : length labels = gn g -> apart g labels -> a < gn g ->
  (total (rows_at sp (comp_nodes g (comp_label g a))) (comp_part g labels (comp_label g a)) (lab labels a) k == total sp labels (lab labels a) k)%Q.
Proof.
  intros Hlen Hap Ha. set (c := comp_label g a). set (z := lab labels a). unfold total. rewrite Hlen.
  transitivity (sumQ (map (fun b => if Z.eqb (lab labels b) z then nth k (nth b sp []) 0%Q else 0%Q) (comp_nodes g c))).
  - transitivity (sumQ (map (fun b => if Z.eqb (lab labels b) z then nth k (nth b sp []) 0%Q else 0%Q) (map (fun i => nth i (comp_nodes g c) 0) (seq 0 (length (comp_nodes g c))))));
      [|rewrite map_nth_seq; reflexivity].
    rewrite map_map, comp_part_length, comp_graph_n. apply sumQ_ext. intros i Hi. apply in_seq in Hi.
    assert (El : lab (comp_part g labels c) i = lab labels (nth i (comp_nodes g c) 0)).
    { apply lab_of_nth_error. change (comp_part g labels c) with (labels_at labels (comp_nodes g c)). unfold labels_at.
      rewrite nth_error_map, (nth_error_nth' _ 0) by lia. reflexivity. }
    assert (Er : nth i (rows_at sp (comp_nodes g c)) [] = nth (nth i (comp_nodes g c) 0) sp []).
    { apply nth_error_nth. unfold rows_at. rewrite nth_error_map, (nth_error_nth' _ 0) by lia. reflexivity. }
    rewrite El, Er. reflexivity.
  - unfold comp_nodes. rewrite sumQ_filter. apply sumQ_ext. intros b Hb. apply in_seq in Hb.
    destruct (Nat.eqb_spec (comp_label g b) c) as [_|Hne]; [reflexivity|]. destruct (Z.eqb_spec (lab labels b) z) as [E|_]; [|reflexivity].
    exfalso. apply Hne. apply Hap; auto; lia.
Qed.
Lemma meets_parts g sp thr labels : length labels = gn g -> apart g labels ->
  ((forall z, In z labels -> meets sp thr labels z) <->
   forall c, c < n_components g -> forall z, In z (comp_part g labels c) -> meets (rows_at sp (comp_nodes g c)) thr (comp_part g labels c) z).
Proof.
  intros Hlen Hap. split.
  - intros H c Hc z Hz k t Ht. apply comp_part_In in Hz; auto. destruct Hz as [a [Ha [<- Ea]]]. rewrite <- (lab_of_nth_error _ _ _ Ea).
    rewrite total_part by auto. apply (H (lab labels a)); [|auto]. eapply nth_error_In. apply lab_nth_error. lia.
  - intros H z Hz k t Ht. apply In_nth_error in Hz. destruct Hz as [a Ea]. assert (Ha : a < gn g) by (apply nth_error_lt in Ea; lia).
    rewrite <- (lab_of_nth_error _ _ _ Ea), <- (total_part g) by auto. apply (H _ (comp_label_lt g a Ha)); [|auto].
    apply comp_part_In; [auto|]. exists a. split; [auto|]. split; [auto|]. apply lab_nth_error. lia.
Qed.
Lemma meets_map sp thr (f : Z -> Z) l : (forall x y, f x = f y -> x = y) -> (forall z, In z l -> meets sp thr l z) -> forall z, In z (map f l) -> meets sp thr (map f l) z.
Proof.
  intros Hf H z Hz k t Ht. apply in_map_iff in Hz. destruct Hz as [y [<- Hy]]. rewrite total_map by auto. apply (H y Hy k t Ht).
Qed.

(** ** new regions for one island *)
Section Exchange.
Variables (g : graph) (labels : list Z) (c : nat) (l' : list Z).
Hypothesis Hwf : wf g labels.
Hypothesis Hc : c < n_components g.
Hypothesis Hwf' : wf (comp_graph g c) l'.
Let old (z : Z) : Z := (2 * z)%Z.
Let new (z : Z) : Z := (2 * z + 1)%Z.
Lemma old_inj x y : old x = old y -> x = y. Proof. unfold old. lia. Qed.
Lemma new_inj x y : new x = new y -> x = y. Proof. unfold new. lia. Qed.
Definition exchanged : list Z := scatter (map old labels) (comp_nodes g c) (map new l').

Lemma exchanged_length : length exchanged = gn g.
Proof. unfold exchanged. rewrite scatter_length, map_length. apply Hwf. Qed.
Lemma l'_length : length l' = length (comp_nodes g c).
Proof. rewrite (proj1 Hwf'), comp_graph_n. auto. Qed.
Lemma exchanged_in : comp_part g exchanged c = map new l'.
Proof. apply scatter_part; rewrite map_length; [apply Hwf|apply l'_length]. Qed.
Lemma exchanged_out c' : c' <> c -> comp_part g exchanged c' = map old (comp_part g labels c').
Proof.
  intros Hne. rewrite (part_ext g exchanged (map old labels) c').
  - change (comp_part g (map old labels) c') with (labels_at (map old labels) (comp_nodes g c')).
    change (comp_part g labels c') with (labels_at labels (comp_nodes g c')). unfold labels_at. rewrite map_map. apply map_ext_in. intros a Ha.
    apply lab_map. rewrite (proj1 Hwf). apply (comp_nodes_lt g c' a Ha).
  - apply exchanged_length.
  - rewrite map_length. apply Hwf.
  - intros a Ha Eq. unfold exchanged. apply scatter_out; [rewrite map_length; apply Hwf|auto|congruence].
Qed.
Lemma lab_exchanged_out a : a < gn g -> comp_label g a <> c -> lab exchanged a = old (lab labels a).
Proof.
  intros Ha Hne. unfold exchanged. rewrite scatter_out; [|rewrite map_length; apply Hwf|auto|auto]. apply lab_map. rewrite (proj1 Hwf). auto.
Qed.
Lemma lab_exchanged_in a : a < gn g -> comp_label g a = c -> exists z, lab exchanged a = new z.
Proof.
  intros Ha Ea. assert (Hin : In (lab exchanged a) (comp_part g exchanged c)).
  { apply comp_part_In; [apply exchanged_length|]. exists a. split; [auto|]. split; [auto|]. apply lab_nth_error. rewrite exchanged_length. auto. }
  rewrite exchanged_in in Hin. apply in_map_iff in Hin. destruct Hin as [z [E _]]. exists z. auto.
Qed.
Lemma exchanged_apart : apart g exchanged.
Proof.
  intros a b Ha Hb E. destruct (Nat.eq_dec (comp_label g a) c) as [Ea|Ea]; destruct (Nat.eq_dec (comp_label g b) c) as [Eb|Eb]; [congruence| | |].
  - destruct (lab_exchanged_in a Ha Ea) as [z Hz]. rewrite Hz, lab_exchanged_out in E by auto. unfold new, old in E. lia.
  - destruct (lab_exchanged_in b Hb Eb) as [z Hz]. rewrite Hz, lab_exchanged_out in E by auto. unfold new, old in E. lia.
  - rewrite !lab_exchanged_out in E by auto. apply old_inj in E. apply (wf_apart g labels Hwf); auto.
Qed.
Lemma exchanged_wf : wf g exchanged.
Proof.
  apply wf_of_parts; [apply exchanged_length|apply exchanged_apart|]. intros c' Hc'. destruct (Nat.eq_dec c' c) as [->|Hne].
  - rewrite exchanged_in. apply wf_map; auto. apply new_inj.
  - rewrite exchanged_out by auto. apply wf_map; [apply old_inj|]. apply wf_part; auto.
Qed.

Lemma list_sum_change (f h : nat -> nat) l : NoDup l -> In c l -> (forall x, x <> c -> f x = h x) -> list_sum (map f l) + h c = list_sum (map h l) + f c.
Proof.
  intros Hnd Hin Hx. induction l as [|x l IH]; [destruct Hin|]. inversion Hnd; subst. cbn [map list_sum fold_right]. fold (list_sum (map f l)) (list_sum (map h l)).
  change (f x + list_sum (map f l) + h c = h x + list_sum (map h l) + f c).
  destruct (Nat.eq_dec x c) as [->|Hne].
  - rewrite (map_ext_in f h l); [lia|]. intros y Hy. apply Hx. congruence.
  - destruct Hin as [E|Hin]; [congruence|]. specialize (IH H2 Hin). rewrite (Hx x Hne). lia.
Qed.
Lemma sumQ_change (f h : nat -> Q) l : NoDup l -> In c l -> (forall x, x <> c -> f x == h x)%Q -> (sumQ (map f l) + h c == sumQ (map h l) + f c)%Q.
Proof.
  intros Hnd Hin Hx. induction l as [|x l IH]; [destruct Hin|]. inversion Hnd; subst. cbn [map]. rewrite !sumQ_cons.
  destruct (Nat.eq_dec x c) as [->|Hne].
  - rewrite (sumQ_ext f h l); [ring|]. intros y Hy. apply Hx. congruence.
  - destruct Hin as [E|Hin]; [congruence|]. specialize (IH H2 Hin). rewrite (Hx x Hne). lra.
Qed.
Lemma exchanged_count : n_labels exchanged + n_labels (comp_part g labels c) = n_labels labels + n_labels l'.
Proof.
  rewrite (n_labels_comps g exchanged exchanged_length exchanged_apart), (n_labels_comps g labels (proj1 Hwf) (wf_apart g labels Hwf)).
  rewrite <- (nodup_map_length new l' new_inj), <- exchanged_in.
  apply (list_sum_change (fun c => n_labels (comp_part g exchanged c)) (fun c => n_labels (comp_part g labels c))); [apply seq_NoDup|apply in_seq; lia|].
  intros c' Hne. rewrite exchanged_out by auto. apply nodup_map_length, old_inj.
Qed.
Lemma exchanged_het d : (heterogeneity d exchanged + heterogeneity (within d (comp_nodes g c)) (comp_part g labels c) ==
  heterogeneity d labels + heterogeneity (within d (comp_nodes g c)) l')%Q.
Proof.
  rewrite (within_comps d g exchanged exchanged_length exchanged_apart), (within_comps d g labels (proj1 Hwf) (wf_apart g labels Hwf)).
  rewrite <- (het_map (within d (comp_nodes g c)) new l' new_inj), <- exchanged_in.
  apply (sumQ_change (fun c => heterogeneity (within d (comp_nodes g c)) (comp_part g exchanged c)) (fun c => heterogeneity (within d (comp_nodes g c)) (comp_part g labels c)));
    [apply seq_NoDup|apply in_seq; lia|].
  intros c' Hne. rewrite exchanged_out by auto. apply het_map, old_inj.
Qed.
Lemma exchanged_meets sp thr : (forall z, In z labels -> meets sp thr labels z) -> (forall z, In z l' -> meets (rows_at sp (comp_nodes g c)) thr l' z) ->
  forall z, In z exchanged -> meets sp thr exchanged z.
Proof.
  intros H H'. apply (meets_parts g); [apply exchanged_length|apply exchanged_apart|]. intros c' Hc'. destruct (Nat.eq_dec c' c) as [->|Hne].
  - rewrite exchanged_in. apply meets_map; auto. apply new_inj.
  - rewrite exchanged_out by auto. apply meets_map; [apply old_inj|]. apply (proj1 (meets_parts g sp thr labels (proj1 Hwf) (wf_apart g labels Hwf)) H c' Hc').
Qed.
End Exchange.
