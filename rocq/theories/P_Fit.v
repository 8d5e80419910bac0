(** Lifting per-component results to [fit] (azp.py:58-110). *)
From Verif Require Import Base Spec M_Graph P_Graph M_Util P_Base P_Util P_Forest P_Init P_Initial M_Objective M_Azp P_Azp.

(** ** gather and scatter *)
Lemma gather_length {A} (d : A) l idx : length (gather d l idx) = length idx.
Proof. apply map_length. Qed.

Lemma gather_nth {A} (d : A) l idx i a : nth_error idx i = Some a -> a < length l ->
  nth_error (gather d l idx) i = nth_error l a.
Proof.
  intros Hi Ha. unfold gather. rewrite nth_error_map, Hi. cbn. symmetry. apply nth_error_nth'. exact Ha.
Qed.

Lemma gather_In (l : list Z) idx z : (forall a, In a idx -> a < length l) ->
  (In z (gather (-1)%Z l idx) <-> exists a, In a idx /\ nth_error l a = Some z).
Proof.
  intros Hb. unfold gather. rewrite in_map_iff. split.
  - intros [a [E Ha]]. exists a. split; [auto|]. rewrite <- E. apply nth_error_nth'. auto.
  - intros [a [Ha E]]. exists a. split; [|auto]. apply nth_error_nth. exact E.
Qed.

Lemma nth_error_ext' {A} (l l' : list A) : length l = length l' ->
  (forall i, i < length l -> nth_error l i = nth_error l' i) -> l = l'.
Proof.
  revert l'. induction l as [|x l IH]; intros [|y l'] Hl H; cbn in *; try discriminate; auto.
  pose proof (H 0 ltac:(lia)) as H0. cbn in H0. injection H0 as ->. f_equal. apply IH; [lia|].
  intros i Hi. apply (H (Datatypes.S i)). lia.
Qed.

Lemma gather_scatter_same (base : list Z) idx vals : NoDup idx -> length vals = length idx ->
  (forall a, In a idx -> a < length base) -> gather (-1)%Z (scatter base idx vals) idx = vals.
Proof.
  intros Hnd Hl Hb. apply nth_error_ext'; [rewrite gather_length; auto|].
  rewrite gather_length. intros i Hi.
  destruct (nth_error idx i) as [a|] eqn:Ea; [|apply nth_error_None in Ea; lia].
  assert (Ha : In a idx) by (eapply nth_error_In; eauto).
  rewrite (gather_nth _ _ _ i a) by (auto; rewrite scatter_length; auto).
  destruct (nth_error vals i) as [v|] eqn:Ev; [|apply nth_error_None in Ev; lia].
  apply (scatter_in idx base vals i a v); auto.
Qed.

Lemma gather_scatter_other (base : list Z) idx vals idx' : (forall a, In a idx' -> ~ In a idx) ->
  (forall a, In a idx' -> a < length base) ->
  gather (-1)%Z (scatter base idx vals) idx' = gather (-1)%Z base idx'.
Proof.
  intros Hd Hb. unfold gather. apply map_ext_in. intros a Ha.
  destruct (nth_error (scatter base idx vals) a) as [v|] eqn:E.
  - rewrite (nth_error_nth _ _ _ E). symmetry. apply nth_error_nth.
    rewrite scatter_notin in E by auto. exact E.
  - apply nth_error_None in E. rewrite scatter_length in E. specialize (Hb a Ha). lia.
Qed.

Lemma comp_nodes_lt g c a : In a (comp_nodes g c) -> a < gn g.
Proof. intros H. apply comp_nodes_In in H. tauto. Qed.

Lemma comp_nodes_disjoint g c c' a : c <> c' -> In a (comp_nodes g c') -> ~ In a (comp_nodes g c).
Proof. intros Hne H1 H2. apply comp_nodes_In in H1, H2. destruct H1, H2. congruence. Qed.

(** ** the sub-matrix of a component *)
Definition comp_graph (g : graph) (c : nat) : graph := sub_adj_matrix g (comp_nodes g c) [].
(** the labels of a component *)
Definition comp_part (g : graph) (labels : list Z) (c : nat) : list Z := gather (-1)%Z labels (comp_nodes g c).

Lemma comp_graph_n g c : gn (comp_graph g c) = length (comp_nodes g c).
Proof. unfold comp_graph. cbn. rewrite sub_nodes_nil. reflexivity. Qed.

Lemma comp_part_length g labels c : length (comp_part g labels c) = gn (comp_graph g c).
Proof. unfold comp_part. rewrite gather_length, comp_graph_n. reflexivity. Qed.

Lemma sub_symmetric g nodes : symmetric g -> (forall a, In a nodes -> a < gn g) ->
  symmetric (sub_adj_matrix g nodes []).
Proof.
  intros Hs Hb u v Hu Hv. cbn in *. rewrite sub_nodes_nil in *.
  destruct (nth_error nodes u) as [a|] eqn:Ea; destruct (nth_error nodes v) as [b|] eqn:Eb; auto.
  apply Hs; apply Hb; eapply nth_error_In; eauto.
Qed.

Lemma comp_symmetric g c : symmetric g -> symmetric (comp_graph g c).
Proof. intros Hs. apply sub_symmetric; auto. intros a. apply comp_nodes_lt. Qed.

Lemma sub_touch g nodes i j a b : nth_error nodes i = Some a -> nth_error nodes j = Some b ->
  (touch (sub_adj_matrix g nodes []) i j <-> touch g a b).
Proof. intros Ha Hb. unfold touch. cbn. rewrite sub_nodes_nil, Ha, Hb. tauto. Qed.

Lemma sub_linked_region g nodes (P : nat -> Prop) a b : NoDup nodes -> (forall x, P x -> In x nodes) ->
  linked g P a b -> forall i j, nth_error nodes i = Some a -> nth_error nodes j = Some b ->
  linked (sub_adj_matrix g nodes []) (fun k => exists x, nth_error nodes k = Some x /\ P x) i j.
Proof.
  intros Hnd Hin H. induction H as [u Hu|u v w Hu Huv Hvw IH]; intros i j Hi Hj.
  - assert (i = j). { apply (NoDup_nth_error nodes); auto; [eapply nth_error_lt; eauto|congruence]. } subst j.
    apply linked_refl. exists u; auto.
  - destruct (In_nth_error nodes v) as [k Hk]; [apply Hin; eapply linked_in_l; eauto|].
    eapply linked_step; [exists u; auto| |apply (IH k j Hk Hj)].
    apply (sub_touch g nodes i k u v); auto.
Qed.

Lemma sub_contiguous_inv g nodes (P : nat -> Prop) : NoDup nodes -> (forall x, P x -> In x nodes) ->
  contiguous g P -> contiguous (sub_adj_matrix g nodes []) (fun k => exists x, nth_error nodes k = Some x /\ P x).
Proof.
  intros Hnd Hin [[u Hu] Hl]. split.
  - destruct (In_nth_error nodes u (Hin u Hu)) as [k Hk]. exists k, u; auto.
  - intros i j [a [Ha Pa]] [b [Hb Pb]]. apply (sub_linked_region g nodes P a b); auto.
Qed.

Lemma comp_part_region g labels c z i : length labels = gn g ->
  (region (comp_part g labels c) z i <-> exists a, nth_error (comp_nodes g c) i = Some a /\ region labels z a).
Proof.
  intros Hlen. unfold region, comp_part. split.
  - intros H. assert (Hi : i < length (comp_nodes g c)) by (apply nth_error_lt in H; rewrite gather_length in H; auto).
    destruct (nth_error (comp_nodes g c) i) as [a|] eqn:Ea; [|apply nth_error_None in Ea; lia].
    exists a. split; [auto|]. rewrite (gather_nth _ _ _ i a) in H; auto.
    rewrite Hlen. eapply comp_nodes_lt, nth_error_In; eauto.
  - intros [a [Ha Hz]]. rewrite (gather_nth _ _ _ i a); auto. eapply nth_error_lt; eauto.
Qed.

Lemma comp_part_In g labels c z : length labels = gn g ->
  (In z (comp_part g labels c) <-> exists a, a < gn g /\ comp_label g a = c /\ nth_error labels a = Some z).
Proof.
  intros Hlen. unfold comp_part. rewrite gather_In.
  - split.
    + intros [a [Ha Hz]]. apply comp_nodes_In in Ha. exists a. tauto.
    + intros [a [Ha [Hc Hz]]]. exists a. rewrite comp_nodes_In. auto.
  - intros a Ha. rewrite Hlen. eapply comp_nodes_lt; eauto.
Qed.

Lemma linked_same_comp g (P : nat -> Prop) a b : linked g P a b -> (forall x, P x -> x < gn g) ->
  comp_label g a = comp_label g b.
Proof.
  intros H Hb. apply comp_label_eq.
  - apply Hb. eapply linked_in_l; eauto.
  - apply Hb. eapply linked_in_r; eauto.
  - unfold same_island. eapply linked_mono; [|exact H]. auto.
Qed.

Lemma wf_region_comp g labels z a b : length labels = gn g -> contiguous g (region labels z) ->
  region labels z a -> region labels z b -> comp_label g a = comp_label g b.
Proof.
  intros Hlen [_ H] Ha Hb. apply (linked_same_comp g (region labels z)); auto.
  intros x Hx. apply nth_error_lt in Hx. lia.
Qed.

(** the restriction of a well-formed labelling to a component is well-formed *)
Lemma wf_part g labels c : wf g labels -> wf (comp_graph g c) (comp_part g labels c).
Proof.
  intros [Hlen Hall]. split; [apply comp_part_length|]. intros z Hz.
  apply comp_part_In in Hz; auto. destruct Hz as [a [Ha [Hc Hz]]].
  assert (Hcon : contiguous g (region labels z)) by (apply Hall; eapply nth_error_In; eauto).
  apply (contiguous_ext _ (fun k => exists x, nth_error (comp_nodes g c) k = Some x /\ region labels z x)).
  - intros i. symmetry. apply comp_part_region; auto.
  - apply sub_contiguous_inv; auto; [apply comp_nodes_NoDup|].
    intros x Hx. apply comp_nodes_In. split; [apply nth_error_lt in Hx; lia|].
    rewrite <- Hc. apply (wf_region_comp g labels z); auto.
Qed.

(** ** assembling a labelling from its components *)
Section AssembleSub.
Variable g : graph.
Variables labels0 labels : list Z.
Hypothesis Hwf0 : wf g labels0.
Hypothesis Hlen : length labels = gn g.
Hypothesis Hparts : forall c, c < n_components g ->
  wf (comp_graph g c) (comp_part g labels c) /\
  (forall z, In z (comp_part g labels c) -> In z (comp_part g labels0 c)).

Lemma assembled_comp_sub a z : nth_error labels a = Some z ->
  exists b, nth_error labels0 b = Some z /\ comp_label g b = comp_label g a /\ b < gn g.
Proof.
  intros Hz. destruct Hwf0 as [Hlen0 _].
  assert (Ha : a < gn g) by (apply nth_error_lt in Hz; lia).
  destruct (Hparts (comp_label g a) (comp_label_lt g a Ha)) as [_ Hs].
  destruct (proj1 (comp_part_In g labels0 (comp_label g a) z Hlen0)) as [b [Hb [Hc E]]].
  - apply Hs. apply comp_part_In; eauto.
  - exists b; auto.
Qed.

Lemma assembled_wf_sub : wf g labels.
Proof.
  split; [auto|]. intros z Hz. apply In_nth_error in Hz. destruct Hz as [a Ha].
  assert (Hag : a < gn g) by (apply nth_error_lt in Ha; lia).
  set (c := comp_label g a). destruct (Hparts c (comp_label_lt g a Hag)) as [[_ Hall] _].
  assert (Hzc : In z (comp_part g labels c)) by (apply comp_part_In; eauto).
  apply (contiguous_ext g (fun x => exists i, region (comp_part g labels c) z i /\ nth_error (comp_nodes g c) i = Some x)).
  - intros x. split.
    + intros [i [Hi Hx]]. apply comp_part_region in Hi; auto. destruct Hi as [y [Hy Hr]].
      rewrite Hx in Hy. injection Hy as ->. auto.
    + intros Hx. assert (Hxg : x < gn g) by (apply nth_error_lt in Hx; lia).
      assert (Hxc : comp_label g x = c).
      { destruct (assembled_comp_sub x z Hx) as [b [Hb [Hbc _]]]. destruct (assembled_comp_sub a z Ha) as [b' [Hb' [Hbc' _]]].
        rewrite <- Hbc. unfold c. rewrite <- Hbc'. destruct Hwf0 as [Hlen0 Hall0].
        apply (wf_region_comp g labels0 z); auto. apply Hall0. eapply nth_error_In; eauto. }
      destruct (In_nth_error (comp_nodes g c) x) as [i Hi]; [apply comp_nodes_In; auto|].
      exists i. split; [|auto]. apply comp_part_region; eauto.
  - apply sub_contiguous; [apply Hall; auto|]. intros i Hi. apply nth_error_lt in Hi.
    rewrite comp_part_length, comp_graph_n in Hi. auto.
Qed.
End AssembleSub.

Section Assemble.
Variable g : graph.
Variables labels0 labels : list Z.
Hypothesis Hwf0 : wf g labels0.
Hypothesis Hlen : length labels = gn g.
Hypothesis Hparts : forall c, c < n_components g ->
  wf (comp_graph g c) (comp_part g labels c) /\
  same_labels (comp_part g labels c) (comp_part g labels0 c).

Lemma assembled_sub : forall c, c < n_components g ->
  wf (comp_graph g c) (comp_part g labels c) /\
  (forall z, In z (comp_part g labels c) -> In z (comp_part g labels0 c)).
Proof. intros c Hc. destruct (Hparts c Hc) as [H1 H2]. split; [auto|]. intros z. apply H2. Qed.

Lemma assembled_comp a z : nth_error labels a = Some z ->
  exists b, nth_error labels0 b = Some z /\ comp_label g b = comp_label g a /\ b < gn g.
Proof. apply assembled_comp_sub; auto using assembled_sub. Qed.

Lemma assembled_comp' a z : nth_error labels0 a = Some z ->
  exists b, nth_error labels b = Some z /\ comp_label g b = comp_label g a /\ b < gn g.
Proof.
  intros Hz. destruct Hwf0 as [Hlen0 _].
  assert (Ha : a < gn g) by (apply nth_error_lt in Hz; lia).
  destruct (Hparts (comp_label g a) (comp_label_lt g a Ha)) as [_ Hs].
  destruct (proj1 (comp_part_In g labels (comp_label g a) z Hlen)) as [b [Hb [Hc E]]].
  - apply Hs. apply comp_part_In; eauto.
  - exists b; auto.
Qed.

Lemma assembled_same_labels : same_labels labels labels0.
Proof.
  intros z. split; intros H; apply In_nth_error in H; destruct H as [a Ha].
  - destruct (assembled_comp a z Ha) as [b [Hb _]]. eapply nth_error_In; eauto.
  - destruct (assembled_comp' a z Ha) as [b [Hb _]]. eapply nth_error_In; eauto.
Qed.

Lemma assembled_wf : wf g labels.
Proof. apply (assembled_wf_sub g labels0 labels); auto using assembled_sub. Qed.
End Assemble.

(** ** fit *)
Section FitGen.
Variable S : Type.
Variable start : S -> list Z -> list (list Q) -> list nat -> out S.
Variable component : graph -> list Z -> list (list Q) -> S -> rng -> out (list Z * S * rng).
Variable order : list edge -> list edge.
Variable g : graph.
Variable attr : list (list Q).
Variable E : exn -> Prop.
Variable N : Prop.
(** the state after the given number of components *)
Variable J : nat -> S -> Prop.
(** what the procedure guarantees on component [c] for labels before and after *)
Variable R : nat -> list Z -> list Z -> Prop.
(** the labels with which the procedure is called on component [c] *)
Variable A : nat -> list Z -> Prop.

Definition run_component (c : nat) (labels_c : list Z) (s : S) (r : rng) : out (list Z * S * rng) :=
  let* s1 := start s labels_c (map (row attr) (comp_nodes g c)) (comp_nodes g c) in
  component (comp_graph g c) labels_c (map (row attr) (comp_nodes g c)) s1 r.

Hypothesis Hcomp : forall c labels_c s r j, c < n_components g -> j < n_components g ->
  wf (comp_graph g c) labels_c -> A c labels_c -> J j s ->
  post E N (run_component c labels_c s r)
    (fun '(l', s2, _) => J (Datatypes.S j) s2 /\ length l' = length labels_c /\ R c labels_c l').

(** the arrays handed over: -1 exactly outside the component *)
Lemma fit_one_post c arr labels s r j : c < n_components g -> j < n_components g -> length arr = gn g ->
  (forall a, a < gn g -> (nth_error arr a = Some (-1)%Z <-> comp_label g a <> c)) ->
  wf (comp_graph g c) (comp_part g arr c) -> A c (comp_part g arr c) -> length labels = gn g -> J j s ->
  post E N (fit_one S start component g attr (YArr arr) (labels, s) r)
    (fun '((labels', s'), _) => J (Datatypes.S j) s' /\
       exists l', R c (comp_part g arr c) l' /\ length l' = length (comp_nodes g c) /\
         labels' = scatter labels (comp_nodes g c) l').
Proof.
  intros Hc Hj Harr Hout Hwf HA Hlab HJ.
  assert (Hidx : filter (fun a => negb (Z.eqb (lab arr a) (-1))) (seq 0 (length arr)) = comp_nodes g c).
  { unfold comp_nodes. rewrite Harr. apply filter_ext_in. intros a Ha. apply in_seq in Ha.
    apply eq_true_iff_eq. rewrite negb_true_iff, Z.eqb_neq, Nat.eqb_eq.
    specialize (Hout a ltac:(lia)). split.
    - intros Hne. destruct (Nat.eq_dec (comp_label g a) c) as [->|Hn]; [auto|].
      exfalso. apply Hne, lab_of_nth_error, Hout. exact Hn.
    - intros Hce Hl. apply Hout in Hce; auto. rewrite <- Hl. apply lab_nth_error. lia. }
  cbn [fit_one fst snd]. rewrite Hidx. fold (comp_graph g c). fold (comp_part g arr c).
  pose proof (Hcomp c (comp_part g arr c) s r j Hc Hj Hwf HA HJ) as Hp. unfold run_component in Hp.
  destruct (start s _ _ _) as [s1|e|]; cbn [bind] in *; [|exact Hp|exact Hp].
  eapply post_bind; [exact Hp|]. intros [[l' s2] r'] _ [HJ2 [Hl' HR]].
  assert (Hll : length l' = length (comp_nodes g c)) by (rewrite Hl', comp_part_length, comp_graph_n; auto).
  unfold assign_idx. rewrite Hll, Nat.eqb_refl. cbn [bind post]. split; [auto|].
  exists l'. auto.
Qed.

(** after the components of [done]: the parts are related to those of some start labelling *)
Definition parts_done (done : list nat) (labels0 labels : list Z) : Prop :=
  length labels0 = gn g /\ length labels = gn g /\
  forall c, In c done -> R c (comp_part g labels0 c) (comp_part g labels c).

Lemma parts_done_step done labels0 labels labels0' c l0 l' : ~ In c done -> c < n_components g ->
  parts_done done labels0 labels -> R c l0 l' -> length l' = length (comp_nodes g c) ->
  length labels0' = gn g -> comp_part g labels0' c = l0 ->
  (forall c', In c' done -> comp_part g labels0' c' = comp_part g labels0 c') ->
  parts_done (c :: done) labels0' (scatter labels (comp_nodes g c) l').
Proof.
  intros Hni Hc [H0 [Hl HR]] HRc Hl' H0' Hp0 Hrest. split; [auto|]. split; [rewrite scatter_length; auto|].
  intros c' [<-|Hin].
  - rewrite Hp0. unfold comp_part. rewrite gather_scatter_same; auto; [apply comp_nodes_NoDup|].
    intros a Ha. rewrite Hl. eapply comp_nodes_lt; eauto.
  - rewrite Hrest by auto. unfold comp_part at 2. rewrite gather_scatter_other; [apply HR; auto| |].
    + intros a. apply comp_nodes_disjoint. intros ->; auto.
    + intros a Ha. rewrite Hl. eapply comp_nodes_lt; eauto.
Qed.

(** given initial labels *)
Lemma fit_arrays_post labels0 : wf g labels0 -> ~ In (-1)%Z labels0 ->
  (forall c, c < n_components g -> A c (comp_part g labels0 c)) -> forall k done labels s r,
  k <= n_components g -> (forall c, In c done <-> c < n_components g - k) ->
  parts_done done labels0 labels -> J (n_components g - k) s ->
  post E N (fit_arrays S start component g attr
              (map (separate_one g labels0) (seq (n_components g - k) k)) (labels, s) r)
    (fun '((labels', s'), _) => J (n_components g) s' /\ parts_done (seq 0 (n_components g)) labels0 labels').
Proof.
  intros Hwf Hm1 HA. induction k as [|k IH]; intros done labels s r Hk Hd Hparts HJ; cbn [seq map fit_arrays].
  - cbn [post]. rewrite Nat.sub_0_r in HJ. split; [auto|]. destruct Hparts as [H0 [Hl HR]]. split; [auto|]. split; [auto|].
    intros c Hc. apply HR. apply Hd. apply in_seq in Hc. lia.
  - set (c := n_components g - Datatypes.S k). assert (Hc : c < n_components g) by lia.
    destruct Hwf as [Hlen Hall].
    assert (Hcp : comp_part g (separate_one g labels0 c) c = comp_part g labels0 c).
    { unfold comp_part, gather. apply map_ext_in. intros a Ha. apply comp_nodes_In in Ha. destruct Ha as [Ha Hca].
      pose proof (separate_one_in g labels0 c a Hlen Ha Hca) as Hs.
      rewrite (nth_error_nth labels0 a (-1)%Z (x := lab labels0 a)) by (apply lab_nth_error; lia).
      apply nth_error_nth. rewrite Hs. apply lab_nth_error. lia. }
    eapply post_bind.
    + apply (fit_one_post c) with (j := n_components g - Datatypes.S k); auto; [apply separate_one_length| | | |apply Hparts].
      * intros a Ha. split.
        -- intros Hs Hca. rewrite separate_one_in in Hs by auto. apply Hm1. eapply nth_error_In; eauto.
        -- apply separate_one_out; auto.
      * rewrite Hcp. apply wf_part. split; auto.
      * rewrite Hcp. apply HA. auto.
    + intros [[labels' s'] r'] _ [HJ' [l' [HR [Hl' ->]]]]. rewrite Hcp in HR.
      replace (Datatypes.S c) with (n_components g - k) by lia.
      assert (Ej : Datatypes.S (n_components g - Datatypes.S k) = n_components g - k) by lia.
      rewrite Ej in HJ'. apply (IH (c :: done)); auto; [lia| |].
      * intros x. cbn [In]. rewrite Hd. lia.
      * apply (parts_done_step done labels0 labels labels0 c (comp_part g labels0 c)); auto.
        rewrite Hd. lia.
Qed.

(** generated initial labels *)
Definition gen_inv (built : nat) (done : list nat) (acc : list Z * S) : Prop :=
  J (length done) (snd acc) /\ NoDup done /\ (forall c, In c done -> c < n_components g) /\
  exists labels0, parts_done done labels0 (fst acc) /\
  (forall a, a < gn g -> ~ In (comp_label g a) done -> nth_error labels0 a = Some (-1)%Z) /\
  (forall a, a < gn g -> In (comp_label g a) done -> exists z, nth_error labels0 a = Some z /\ (0 <= z < Z.of_nat built)%Z) /\
  (forall z, (0 <= z < Z.of_nat built)%Z -> contiguous g (region labels0 z)).

Lemma gen_step total : (forall c l, (forall z, In z l -> (0 <= z < Z.of_nat total)%Z) -> A c l) ->
  forall comp k built done arr acc r, comp < n_components g -> ~ In comp done -> 1 <= k -> built + k <= total ->
  good_comp g comp k built arr -> gen_inv built done acc ->
  post E N (fit_one S start component g attr (YArr arr) acc r)
    (fun sr => gen_inv (built + k) (comp :: done) (fst sr)).
Proof.
  intros HA comp k built done arr acc r Hc Hni Hk Htot [Glen [Gout [Gin Gcon]]] [HJ [Hnd [Hdl [labels0 [Hparts [Hnew [Hold Hcon]]]]]]]. destruct acc as [labels s]. cbn [fst snd] in *.
  assert (Harr : forall a, a < gn g -> (nth_error arr a = Some (-1)%Z <-> comp_label g a <> comp)).
  { intros a Ha. split; [|apply Gout; auto]. intros E1 Hca. destruct (Gin a Ha Hca) as [z [E2 Hz]].
    rewrite E1 in E2. injection E2 as <-. lia. }
  assert (Hwfc : wf (comp_graph g comp) (comp_part g arr comp)).
  { split; [apply comp_part_length|]. intros z Hz. apply comp_part_In in Hz; auto.
    destruct Hz as [a [Ha [Hca Ez]]]. destruct (Gin a Ha Hca) as [z' [Ez' Hz']].
    rewrite Ez in Ez'. injection Ez' as <-. pose proof (Gcon z Hz') as Hcz.
    apply (contiguous_ext _ (fun k => exists x, nth_error (comp_nodes g comp) k = Some x /\ region arr z x)).
    - intros i. symmetry. apply comp_part_region; auto.
    - apply sub_contiguous_inv; auto; [apply comp_nodes_NoDup|]. intros x Hx.
      assert (Hxg : x < gn g) by (apply nth_error_lt in Hx; lia).
      apply comp_nodes_In. split; [auto|]. destruct (Nat.eq_dec (comp_label g x) comp) as [Heq|Hne]; [auto|].
      apply Gout in Hne; auto. unfold region in Hx. rewrite Hne in Hx. injection Hx as <-. lia. }
  assert (Hj : length done < n_components g).
  { assert (H : length (comp :: done) <= length (seq 0 (n_components g))).
    { apply NoDup_incl_length; [constructor; auto|]. intros x [<-|Hx]; apply in_seq; [lia|]. specialize (Hdl x Hx). lia. }
    rewrite seq_length in H. cbn [length] in H. lia. }
  pose proof Hparts as [HL0 [HL HR]].
  eapply (post_weaken E E N N); [auto|auto| |apply (fit_one_post comp arr labels s r (length done)); auto].
  2: { apply HA. intros z Hz. apply comp_part_In in Hz; auto. destruct Hz as [a [Ha [Hca Ez]]].
       destruct (Gin a Ha Hca) as [z' [Ez' Hz']]. rewrite Ez in Ez'. injection Ez' as <-. lia. }
  intros [[labels' s'] r'] _ [HJ' [l' [HRc [Hl' ->]]]]. cbn [fst]. split; [exact HJ'|].
  split; [constructor; auto|]. split; [intros x [<-|Hx]; auto|].
  set (labels0' := scatter labels0 (comp_nodes g comp) (comp_part g arr comp)).
  assert (HL0' : length labels0' = gn g) by (unfold labels0'; rewrite scatter_length; auto).
  assert (Hsame : comp_part g labels0' comp = comp_part g arr comp).
  { unfold labels0', comp_part. rewrite gather_scatter_same; auto; [apply comp_nodes_NoDup|apply gather_length|].
    intros a Ha. rewrite HL0. eapply comp_nodes_lt; eauto. }
  assert (Hin : forall a, a < gn g -> comp_label g a = comp -> nth_error labels0' a = nth_error arr a).
  { intros a Ha Hca. destruct (In_nth_error (comp_nodes g comp) a) as [i Hi]; [apply comp_nodes_In; auto|].
    destruct (nth_error arr a) as [z|] eqn:Ez; [|apply nth_error_None in Ez; lia].
    unfold labels0'. apply (scatter_in (comp_nodes g comp) _ _ i a); auto; [apply comp_nodes_NoDup| |lia].
    unfold comp_part. rewrite (gather_nth _ _ _ i a); auto. lia. }
  assert (Hout : forall a, comp_label g a <> comp -> nth_error labels0' a = nth_error labels0 a).
  { intros a Hne. unfold labels0'. apply scatter_notin. intros H. apply comp_nodes_In in H. tauto. }
  exists labels0'. split; [|split; [|split]].
  - apply (parts_done_step done labels0 labels labels0' comp (comp_part g arr comp)); auto.
    intros c' Hc'. unfold labels0', comp_part. apply gather_scatter_other.
    + intros a. apply comp_nodes_disjoint. intros ->; auto.
    + intros a Ha. rewrite HL0. eapply comp_nodes_lt; eauto.
  - intros a Ha Hnd0. cbn [In] in Hnd0. rewrite Hout by (intros E1; apply Hnd0; auto). apply Hnew; auto.
  - intros a Ha [Hd|Hd].
    + rewrite Hin by auto. destruct (Gin a Ha (eq_sym Hd)) as [z [Ez Hz]]. exists z. split; [auto|lia].
    + assert (Hne : comp_label g a <> comp) by (intros E1; rewrite E1 in Hd; auto).
      rewrite Hout by auto. destruct (Hold a Ha Hd) as [z [Ez Hz]]. exists z. split; [auto|lia].
  - intros z Hz.
    assert (Hcase : forall a z', nth_error labels0' a = Some z' ->
       (comp_label g a = comp /\ nth_error arr a = Some z') \/ (comp_label g a <> comp /\ nth_error labels0 a = Some z')).
    { intros a z' Ez. assert (Ha : a < gn g) by (apply nth_error_lt in Ez; lia).
      destruct (Nat.eq_dec (comp_label g a) comp) as [Hca|Hca]; [rewrite Hin in Ez|rewrite Hout in Ez]; auto. }
    assert (Hlt0 : forall a z', a < gn g -> nth_error labels0 a = Some z' -> (z' = -1 \/ 0 <= z' < Z.of_nat built)%Z).
    { intros a z' Ha Ez. destruct (in_dec Nat.eq_dec (comp_label g a) done) as [Hd|Hd].
      - destruct (Hold a Ha Hd) as [z1 [E1 Hz1]]. rewrite Ez in E1. injection E1 as <-. auto.
      - rewrite (Hnew a Ha Hd) in Ez. injection Ez as <-. auto. }
    destruct (Z.lt_ge_cases z (Z.of_nat built)) as [Hlt|Hge].
    + apply (contiguous_ext g (region labels0 z)); [|apply Hcon; lia].
      intros a. unfold region. split; intros Ez.
      * assert (Ha : a < gn g) by (apply nth_error_lt in Ez; lia).
        destruct (Nat.eq_dec (comp_label g a) comp) as [Hca|Hca].
        -- rewrite (Hnew a Ha) in Ez by (rewrite Hca; auto). injection Ez as <-. lia.
        -- rewrite Hout; auto.
      * assert (Ha : a < gn g) by (apply nth_error_lt in Ez; lia).
        destruct (Hcase a z Ez) as [[Hca Ea]|[_ Ea]]; [|auto].
        destruct (Gin a Ha Hca) as [z1 [E1 Hz1]]. rewrite Ea in E1. injection E1 as <-. lia.
    + apply (contiguous_ext g (region arr z)); [|apply Gcon; lia].
      intros a. unfold region. split; intros Ez.
      * assert (Ha : a < gn g) by (apply nth_error_lt in Ez; lia).
        destruct (Nat.eq_dec (comp_label g a) comp) as [Hca|Hca]; [rewrite Hin; auto|].
        rewrite (Gout a Ha Hca) in Ez. injection Ez as <-. lia.
      * assert (Ha : a < gn g) by (apply nth_error_lt in Ez; lia).
        destruct (Hcase a z Ez) as [[_ Ea]|[_ Ea]]; [auto|].
        destruct (Hlt0 a z Ha Ea); lia.
Qed.

Definition good_input (n_regions : Z) (initial : option (list Z)) : Prop :=
  match initial with
  | Some l => feasible g l (Z.to_nat n_regions) /\ (0 <= n_regions)%Z /\ ~ In (-1)%Z l
  | None => n_regions <> 1%Z /\ 0 < gn g /\ (Z.of_nat (n_components g) <= n_regions <= Z.of_nat (gn g))%Z
  end.
Definition started_from (n_regions : Z) (initial : option (list Z)) (labels0 : list Z) : Prop :=
  feasible g labels0 (Z.to_nat n_regions) /\ ~ In (-1)%Z labels0 /\
  match initial with Some l => labels0 = l | None => labels_exactly labels0 (Z.to_nat n_regions) end.

Definition allowed_start (n_regions : Z) (initial : option (list Z)) : Prop :=
  match initial with
  | Some l => forall c, c < n_components g -> A c (comp_part g l c)
  | None => forall c l, (forall z, In z l -> (0 <= z < n_regions)%Z) -> A c l
  end.

Theorem fit_post_from n_regions initial s r : (forall l, Permutation (order l) l) ->
  good_input n_regions initial -> allowed_start n_regions initial -> J 0 s ->
  post E N (fit S start component order g attr n_regions initial s r)
    (fun '((labels, s'), _) => J (n_components g) s' /\ exists labels0, started_from n_regions initial labels0 /\
       length labels = gn g /\
       forall c, c < n_components g -> R c (comp_part g labels0 c) (comp_part g labels c)).
Proof.
  intros Hord Hgood HA HJ. unfold fit. destruct initial as [l|]; cbn [allowed_start] in HA.
  - destruct Hgood as [[Hlen [Hn Hall]] [Hpos Hm1]].
    assert (Haf : assert_feasible l g (Some n_regions) = Ok tt).
    { apply assert_feasible_Ok; [lia|]. split; [lia|auto]. }
    rewrite Haf. cbn [bind]. rewrite (proj2 (Nat.eqb_eq _ _) Hlen). unfold separate_components.
    pose proof (fit_arrays_post l (conj Hlen Hall) Hm1 HA (n_components g) [] (minus_ones (gn g)) s r) as Hp.
    rewrite Nat.sub_diag in Hp.
    eapply (post_weaken E E N N); [auto|auto| |apply Hp; auto].
    + intros [[labels s'] r'] _ [HJ' [_ [HL HR]]]. split; [auto|]. exists l. split; [|split; [auto|]].
      * split; [split; auto|]. split; auto.
      * intros c Hc. apply HR. apply in_seq. lia.
    + intros c. split; [intros []|lia].
    + split; [auto|]. split; [apply repeat_length|]. intros c [].
  - destruct Hgood as [Hn1 [Hg Hb]].
    assert (HA' : forall c l, (forall z, In z l -> (0 <= z < Z.of_nat (Z.to_nat n_regions))%Z) -> A c l).
    { intros c l H. apply HA. intros z Hz. specialize (H z Hz). lia. }
    eapply (post_weaken E E N N); [auto|auto| |
      apply (generate_initial_sol_post E N order g n_regions _ gen_inv (minus_ones (gn g), s) r Hord (gen_step (Z.to_nat n_regions) HA') Hn1 Hg Hb)].
    + intros [[labels s'] r'] _ [done [Hdone [HJ' [Hnd [_ [labels0 [[HL0 [HL HR]] [_ [Hold Hcon]]]]]]]]]. cbn [fst snd] in *.
      assert (Elen : length done = n_components g).
      { rewrite <- (seq_length (n_components g) 0). apply Permutation_length, NoDup_Permutation; auto using seq_NoDup.
        intros c. rewrite Hdone, in_seq. lia. }
      rewrite Elen in HJ'. split; [auto|]. exists labels0.
      assert (Hex : labels_exactly labels0 (Z.to_nat n_regions)).
      { intros z. split.
        - intros Hz. apply In_nth_error in Hz. destruct Hz as [a Ha].
          assert (Hag : a < gn g) by (apply nth_error_lt in Ha; lia).
          destruct (Hold a Hag) as [z' [E1 Hz']]; [apply Hdone, comp_label_lt; auto|].
          rewrite Ha in E1. injection E1 as <-. auto.
        - intros Hz. destruct (Hcon z Hz) as [[a Ha] _]. eapply nth_error_In; eauto. }
      split; [|split; [auto|]].
      * split; [|split; [|exact Hex]].
        -- split; [auto|]. split; [apply labels_exactly_n; auto|]. intros z Hz. apply Hcon. apply Hex; auto.
        -- intros H. apply Hex in H. lia.
      * intros c Hc. apply HR, Hdone. auto.
    + split; [auto|]. split; [constructor|]. split; [intros c []|]. exists (minus_ones (gn g)). cbn [fst]. split; [|split; [|split]].
      * split; [apply repeat_length|]. split; [apply repeat_length|]. intros c [].
      * intros a Ha _. apply minus_ones_nth; auto.
      * intros a _ [].
      * intros z Hz. lia.
Qed.
End FitGen.

Theorem fit_post_n (S : Type) start component order g attr (E : exn -> Prop) (N : Prop) (J : nat -> S -> Prop)
    (R : nat -> list Z -> list Z -> Prop) :
  (forall c labels_c s r j, c < n_components g -> j < n_components g -> wf (comp_graph g c) labels_c -> J j s ->
     post E N (run_component S start component g attr c labels_c s r)
       (fun '(l', s2, _) => J (Datatypes.S j) s2 /\ length l' = length labels_c /\ R c labels_c l')) ->
  forall n_regions initial s r, (forall l, Permutation (order l) l) ->
  good_input g n_regions initial -> J 0 s ->
  post E N (fit S start component order g attr n_regions initial s r)
    (fun '((labels, s'), _) => J (n_components g) s' /\ exists labels0, started_from g n_regions initial labels0 /\
       length labels = gn g /\
       forall c, c < n_components g -> R c (comp_part g labels0 c) (comp_part g labels c)).
Proof.
  intros Hcomp n_regions initial s r Hord Hgood HJ.
  apply (fit_post_from S start component order g attr E N J R (fun _ _ => True)); auto.
  destruct initial; cbn; auto.
Qed.

Theorem fit_post (S : Type) start component order g attr (E : exn -> Prop) (N : Prop) (J : S -> Prop)
    (R : nat -> list Z -> list Z -> Prop) :
  (forall c labels_c s r, c < n_components g -> wf (comp_graph g c) labels_c -> J s ->
     post E N (run_component S start component g attr c labels_c s r)
       (fun '(l', s2, _) => J s2 /\ length l' = length labels_c /\ R c labels_c l')) ->
  forall n_regions initial s r, (forall l, Permutation (order l) l) ->
  good_input g n_regions initial -> J s ->
  post E N (fit S start component order g attr n_regions initial s r)
    (fun '((labels, s'), _) => J s' /\ exists labels0, started_from g n_regions initial labels0 /\
       length labels = gn g /\
       forall c, c < n_components g -> R c (comp_part g labels0 c) (comp_part g labels c)).
Proof.
  intros Hcomp n_regions initial s r Hord Hgood HJ.
  apply (fit_post_n S start component order g attr E N (fun _ => J) R); auto.
Qed.
