(** Proofs about distributing regions, dividing a connected graph and initial solutions. *)
From Verif Require Import Base Spec M_Graph P_Graph M_Util P_Base P_Util P_Forest.

(** ** distribute_regions_among_components *)
Definition sum_snd (d : list (nat * nat)) : nat := list_sum (map snd d).

Lemma bump_keys c d : map fst (bump c d) = map fst d.
Proof. unfold bump. rewrite map_map. apply map_ext. intros [a b]. cbn. destruct (Nat.eqb a c); auto. Qed.

Lemma list_sum_cons x l : list_sum (x :: l) = x + list_sum l.
Proof. reflexivity. Qed.

Lemma bump_cons c a b d :
  bump c ((a, b) :: d) = (if Nat.eqb a c then (a, S b) else (a, b)) :: bump c d.
Proof. reflexivity. Qed.

Lemma bump_sum c d : NoDup (map fst d) -> In c (map fst d) -> sum_snd (bump c d) = S (sum_snd d).
Proof.
  unfold sum_snd. induction d as [|[a b] d IH]; intros Hnd Hin; [destruct Hin|].
  rewrite bump_cons. cbn [map fst] in Hnd, Hin. cbn [map snd]. rewrite !list_sum_cons.
  inversion Hnd as [|? ? Hni Hnd']; subst. destruct (Nat.eqb_spec a c) as [->|Hne]; cbn [snd].
  - assert (E : bump c d = d).
    { unfold bump. rewrite <- (map_id d) at 2. apply map_ext_in. intros [x y] Hx. cbn.
      destruct (Nat.eqb_spec x c) as [->|]; auto. exfalso. apply Hni. apply in_map_iff. exists (c, y); auto. }
    rewrite E. lia.
  - destruct Hin as [->|Hin]; [congruence|]. rewrite IH by auto. lia.
Qed.

Lemma bump_In c d x y' : In (x, y') (bump c d) ->
  exists y, In (x, y) d /\ y' = (if Nat.eqb x c then S y else y).
Proof.
  unfold bump. intros H. apply in_map_iff in H. destruct H as [[a b] [E Hin]]. cbn in E.
  destruct (Nat.eqb a c) eqn:Eac; injection E as <- <-; exists b; rewrite Eac; auto.
Qed.

Lemma distribute_rest_spec left : forall labels d r,
  left <= length labels -> (forall c, In c labels -> In c (map fst d)) -> NoDup (map fst d) ->
  exists d' r', distribute_rest left labels d r = Ok (d', r') /\
    map fst d' = map fst d /\ sum_snd d' = sum_snd d + left /\
    (forall c k', In (c, k') d' -> exists k, In (c, k) d /\ k <= k' /\ k' <= k + count_occ Nat.eq_dec labels c).
Proof.
  induction left as [|left IH]; intros labels d r Hlen Hkeys Hnd; cbn [distribute_rest].
  - exists d, r. split; [auto|]. split; [auto|]. split; [lia|]. intros c k' H. exists k'. split; [auto|lia].
  - destruct (pop_randomly_from_Ok labels r) as [c [rest [E Hp]]]; [destruct labels; cbn in *; [lia|discriminate]|].
    rewrite E. cbn [bind].
    assert (Hin : In c (map fst d)) by (apply Hkeys; eapply Permutation_in; [symmetry; exact Hp|left; auto]).
    destruct (IH rest (bump c d) (rnext r)) as [d' [r' [E' [Hk [Hs Hc]]]]].
    + apply Permutation_length in Hp. cbn in Hp. lia.
    + intros x Hx. rewrite bump_keys. apply Hkeys. eapply Permutation_in; [symmetry; exact Hp|right; auto].
    + rewrite bump_keys; auto.
    + exists d', r'. split; [exact E'|]. rewrite bump_keys in Hk. split; [exact Hk|].
      rewrite bump_sum in Hs by auto. split; [lia|].
      intros x k' Hx. destruct (Hc x k' Hx) as [k [Hk1 [Hk2 Hk3]]].
      apply bump_In in Hk1. destruct Hk1 as [y [Hy Ey]]. exists y. split; [auto|].
      assert (Ec : count_occ Nat.eq_dec labels x = count_occ Nat.eq_dec (c :: rest) x).
      { apply (proj1 (Permutation_count_occ Nat.eq_dec _ _) Hp). }
      cbn [count_occ] in Ec. destruct (Nat.eq_dec c x) as [->|Hne].
      * rewrite Nat.eqb_refl in Ey. rewrite Ec. lia.
      * destruct (Nat.eqb_spec x c); [congruence|]. rewrite Ec. lia.
Qed.

Lemma remove_first_perm a l : In a l -> exists l', remove_first a l = Some l' /\ Permutation l (a :: l').
Proof.
  induction l as [|x l IH]; intros H; [destruct H|]. cbn. destruct (Nat.eqb_spec a x) as [->|Hne].
  - eexists; split; auto.
  - destruct H as [->|H]; [congruence|]. destruct (IH H) as [l' [E Hp]]. rewrite E.
    eexists; split; [reflexivity|]. rewrite perm_swap. constructor. auto.
Qed.

Lemma remove_each_spec comps : forall l, NoDup comps -> (forall c, In c comps -> In c l) ->
  Permutation l (comps ++ fold_left (fun l c => remove_one c l) comps l).
Proof.
  induction comps as [|c comps IH]; intros l Hnd Hin; cbn; [reflexivity|].
  inversion Hnd as [|? ? Hni Hnd']; subst.
  destruct (remove_first_perm c l (Hin c (or_introl eq_refl))) as [l' [E Hp]].
  assert (E2 : remove_one c l = l') by (unfold remove_one; rewrite E; auto). rewrite E2.
  rewrite Hp. constructor. apply IH; auto. intros x Hx.
  assert (H : In x (c :: l')) by (eapply Permutation_in; [exact Hp|apply Hin; right; auto]).
  destruct H as [->|H]; [contradiction|auto].
Qed.

Lemma list_max_ge l c : In c l -> c <= list_max l.
Proof.
  intros H. induction l as [|x l IH]; [destruct H|]. change (list_max (x :: l)) with (Nat.max x (list_max l)).
  destruct H as [->|H]; [lia|]. specialize (IH H). lia.
Qed.

Lemma distinct_nat_In l c : In c (distinct_nat l) <-> In c l.
Proof.
  unfold distinct_nat. rewrite filter_In, in_seq, memb_In. split; [tauto|].
  intros H. split; auto. pose proof (list_max_ge l c H). lia.
Qed.

Lemma distinct_nat_NoDup l : NoDup (distinct_nat l).
Proof. apply filter_seq_NoDup. Qed.

(** labels as scipy gives them: 0..c-1, all used *)
Definition numbered (labels : list nat) (c : nat) : Prop := forall k, In k labels <-> k < c.

Lemma filter_all {A} f (l : list A) : (forall x, In x l -> f x = true) -> filter f l = l.
Proof.
  induction l as [|x l IH]; intros H; cbn; [auto|]. rewrite H by (left; auto). f_equal. apply IH.
  intros y Hy; apply H; right; auto.
Qed.

Lemma numbered_distinct labels c : numbered labels c -> labels <> [] -> distinct_nat labels = seq 0 c.
Proof.
  intros Hn Hne. unfold distinct_nat.
  assert (Hmax : S (list_max labels) = c).
  { assert (Hc : 0 < c) by (destruct labels as [|x l]; [congruence|]; pose proof (proj1 (Hn x) (or_introl eq_refl)); lia).
    apply Nat.le_antisymm.
    - assert (H : list_max labels <= c - 1); [|lia]. apply list_max_le. apply Forall_forall.
      intros x Hx. apply Hn in Hx. lia.
    - assert (H : In (c - 1) labels) by (apply Hn; lia). apply list_max_ge in H. lia. }
  rewrite Hmax. apply filter_all. intros x Hx. apply in_seq in Hx. apply memb_In, Hn. lia.
Qed.

Theorem distribute_spec labels c n r :
  numbered labels c -> 0 < c -> c <= n -> n <= length labels ->
  exists d r', distribute_regions_among_components labels n r = Ok (d, r') /\
    map fst d = seq 0 c /\ list_sum (map snd d) = n /\
    (forall comp k, In (comp, k) d -> 1 <= k <= count_occ Nat.eq_dec labels comp).
Proof.
  intros Hn Hc Hcn Hnl. unfold distribute_regions_among_components.
  assert (Hne : labels <> []) by (intros ->; cbn in Hnl; lia).
  rewrite (numbered_distinct labels c Hn Hne), seq_length.
  destruct (Nat.eqb_spec c 1) as [->|Hc1].
  - exists [(0, n)], r. cbn. repeat split; try lia.
    + destruct H as [H|[]]. injection H as <- <-. lia.
    + destruct H as [H|[]]. injection H as <- <-.
      assert (E : labels = repeat 0 (length labels)).
      { clear -Hn. assert (Hall : forall x, In x labels -> x = 0) by (intros x Hx; apply Hn in Hx; lia).
        clear Hn. induction labels as [|x l IH]; cbn; [auto|]. rewrite (Hall x) by (left; auto). f_equal.
        apply IH. intros y Hy; apply Hall; right; auto. }
      rewrite E, count_occ_repeat_eq by auto. lia.
  - set (rest := fold_left (fun l c0 => remove_one c0 l) (seq 0 c) labels).
    assert (Hperm : Permutation labels (seq 0 c ++ rest)).
    { apply remove_each_spec; [apply seq_NoDup|]. intros x Hx. apply in_seq in Hx. apply Hn. lia. }
    pose proof (Permutation_length Hperm) as Hlen. rewrite app_length, seq_length in Hlen.
    assert (Ek : map fst (map (fun c0 : nat => (c0, 1)) (seq 0 c)) = seq 0 c).
    { rewrite map_map. cbn. apply map_id. }
    destruct (distribute_rest_spec (n - c) rest (map (fun c0 => (c0, 1)) (seq 0 c)) r) as [d [r' [E [H1 [H2 H3]]]]].
    + lia.
    + rewrite Ek. intros x Hx. apply in_seq. assert (In x labels); [|apply Hn in H; lia].
      eapply Permutation_in; [symmetry; exact Hperm|]. apply in_or_app; auto.
    + rewrite Ek. apply seq_NoDup.
    + exists d, r'. split; [exact E|]. rewrite Ek in H1. split; [exact H1|]. split.
      * unfold sum_snd in H2. rewrite H2, map_map. cbn. 
        assert (Es : forall a m, list_sum (map (fun _ : nat => 1) (seq a m)) = m).
        { intros a m; revert a; induction m as [|m IHm]; intros a; cbn; auto. }
        rewrite Es. lia.
      * intros comp k Hk. destruct (H3 comp k Hk) as [k0 [Hk0 [Hl1 Hl2]]].
        apply in_map_iff in Hk0. destruct Hk0 as [c0 [Ec Hc0]]. injection Ec as -> <-.
        rewrite (proj1 (Permutation_count_occ Nat.eq_dec _ _) Hperm comp), count_occ_app.
        assert (count_occ Nat.eq_dec (seq 0 c) comp = 1).
        { apply NoDup_count_occ'; auto. apply seq_NoDup. }
        lia.
Qed.

(** ** randomly dividing *)
Lemma try_links_spec n mst tries : forall best r, mst <> [] ->
  (tries = 0 -> exists e s, best = Some (e, s) /\ In e mst) ->
  (forall e s, best = Some (e, s) -> In e mst) ->
  exists e s r', try_links n tries mst best r = Ok (Some (e, s), r') /\ In e mst.
Proof.
  induction tries as [|t IH]; intros best r Hne H0 Hb; cbn [try_links].
  - destruct (H0 eq_refl) as [e [s [-> He]]]. eauto.
  - destruct (random_element_from_Ok mst r Hne) as [e [E He]]. rewrite E. cbn [bind].
    apply IH; auto.
    + intros _. destruct best as [[e0 s0]|]; [|eauto].
      destruct (Nat.ltb _ s0); eauto.
    + intros e1 s1. destruct best as [[e0 s0]|].
      * destruct (Nat.ltb _ s0); intros H; [injection H as <- <-; auto|eauto].
      * intros H; injection H as <- <-; auto.
Qed.

Lemma cut_links_spec n cuts : forall mst r, forest n mst -> cuts <= length mst ->
  exists mst' r', cut_links n cuts mst r = Ok (mst', r') /\ forest n mst' /\
    (forall e, In e mst' -> In e mst) /\
    n_components (edges_graph n mst') = n_components (edges_graph n mst) + cuts.
Proof.
  induction cuts as [|c IH]; intros mst r Hf Hlen; cbn [cut_links].
  - exists mst, r. split; [auto|]. split; [auto|]. split; [auto|lia].
  - destruct (try_links_spec n mst 5 None r) as [e [s [r' [E He]]]]; try discriminate.
    + destruct mst; [cbn in Hlen; lia|discriminate].
    + rewrite E. cbn [bind].
      destruct (forest_remove n e mst Hf He) as [Hf' [Hc' _]].
      assert (Hlen' : c <= length (remove_edge e mst)).
      { pose proof (remove_edge_perm e mst (proj1 Hf) He) as Hp. apply Permutation_length in Hp. cbn in Hp. lia. }
      destruct (IH (remove_edge e mst) r' Hf' Hlen') as [m' [r'' [E' [H1 [H2 H3]]]]].
      exists m', r''. split; [exact E'|]. split; [auto|]. split.
      * intros f Hfm. apply H2, remove_edge_In in Hfm. tauto.
      * lia.
Qed.

Lemma component_labels_numbered g : numbered (component_labels g) (n_components g).
Proof.
  intros k. split.
  - intros H. unfold component_labels in H. apply in_map_iff in H. destruct H as [v [<- Hv]].
    apply comp_label_lt. apply in_seq in Hv. lia.
  - intros H. destruct (comp_label_onto g k H) as [v [Hv Ev]].
    eapply nth_error_In with (n := v). rewrite component_labels_nth by auto. congruence.
Qed.

(** regions given by natural labels *)
Definition nregion (ls : list nat) (c : nat) : nat -> Prop := fun a => nth_error ls a = Some c.

(** components of a set of adjacencies are contiguous *)
Lemma component_regions_contiguous g es c :
  (forall e, In e es -> gadj g (fst e) (snd e) = true) ->
  c < n_components (edges_graph (gn g) es) ->
  contiguous g (nregion (component_labels (edges_graph (gn g) es)) c).
Proof.
  intros Hadj Hc. set (h := edges_graph (gn g) es) in *.
  apply (contiguous_ext g (fun a => In a (comp_nodes h c))).
  - intros a. rewrite comp_nodes_In. unfold nregion. split.
    + intros [H1 H2]. rewrite component_labels_nth by auto. congruence.
    + intros H. assert (Ha : a < gn h) by (apply nth_error_lt in H; rewrite component_labels_length in H; auto).
      split; auto. rewrite component_labels_nth in H by auto. congruence.
  - destruct (comp_nodes_contiguous h c Hc) as [Hex Hl]. split; [exact Hex|].
    intros u v Hu Hv. specialize (Hl u v Hu Hv). clear -Hl Hadj.
    induction Hl as [u Hu|u x w Hu Hux _ IH]; [apply linked_refl; auto|].
    eapply linked_step; [exact Hu| |exact IH].
    apply edges_touch in Hux. destruct Hux as [H|H]; [left|right]; apply Hadj in H; auto.
Qed.

Theorem randomly_divide_spec order g k r :
  (forall l, Permutation (order l) l) -> connected_graph g -> 1 <= k <= gn g ->
  exists ls r', randomly_divide_connected_graph order g k r = Ok (ls, r') /\
    length ls = gn g /\ numbered ls k /\ (forall c, c < k -> contiguous g (nregion ls c)).
Proof.
  intros Hord Hconn Hk. unfold randomly_divide_connected_graph.
  destruct (Nat.eqb_spec k 0); [lia|]. destruct (Nat.ltb_spec (gn g) k); [lia|].
  destruct (minimum_spanning_tree_spec order g Hord) as [Hf [Hadj Hisl]].
  assert (H1 : n_components (edges_graph (gn g) (minimum_spanning_tree order g)) = 1).
  { assert (E : n_components g = 1) by (apply Nat.eqb_eq; apply is_connected_spec; auto).
    rewrite <- E. apply n_components_ext; auto. }
  destruct (cut_links_spec (gn g) (k - 1) _ r Hf) as [m' [r' [E [Hf' [Hsub Hc]]]]].
  { destruct Hf as [_ [_ Hf]]. lia. }
  rewrite E. cbn [bind]. eexists _, r'. split; [reflexivity|].
  rewrite H1 in Hc. replace (1 + (k - 1)) with k in Hc by lia.
  split; [exact (component_labels_length (edges_graph (gn g) m'))|]. split.
  - rewrite <- Hc. apply component_labels_numbered.
  - intros c Hck. apply component_regions_contiguous; [|lia]. intros e He. apply Hadj. auto.
Qed.

(** ** initial solutions *)
(** What one yielded array must be: the component [comp] is divided into the labels
    [built .. built+k-1], all used and each contiguous; everything else is -1. *)
Definition good_comp (g : graph) (comp k built : nat) (arr : list Z) : Prop :=
  length arr = gn g /\
  (forall a, a < gn g -> comp_label g a <> comp -> nth_error arr a = Some (-1)%Z) /\
  (forall a, a < gn g -> comp_label g a = comp ->
     exists z, nth_error arr a = Some z /\ (Z.of_nat built <= z < Z.of_nat (built + k))%Z) /\
  (forall z, (Z.of_nat built <= z < Z.of_nat (built + k))%Z ->
     contiguous g (region arr z)).

(** contiguity in an induced subgraph carries over *)
Lemma sub_contiguous g nodes (P : nat -> Prop) :
  contiguous (sub_adj_matrix g nodes []) P -> (forall i, P i -> i < length nodes) ->
  contiguous g (fun a => exists i, P i /\ nth_error nodes i = Some a).
Proof.
  intros [[i0 Hi0] Hl] Hb.
  assert (Ens : sub_nodes nodes [] = nodes) by (apply filter_all; auto).
  assert (Hlk : forall i j, linked (sub_adj_matrix g nodes []) P i j -> forall a b,
     nth_error nodes i = Some a -> nth_error nodes j = Some b ->
     linked g (fun a => exists i, P i /\ nth_error nodes i = Some a) a b).
  { intros i j H. induction H as [i Hi|i x j Hi Hix Hxj IH]; intros a b Ha Hb'.
    - rewrite Ha in Hb'. injection Hb' as <-. apply linked_refl. eauto.
    - assert (Hx := linked_in_l _ _ _ _ Hxj).
      destruct (nth_error nodes x) as [c|] eqn:Ec; [|apply nth_error_None in Ec; specialize (Hb x Hx); lia].
      apply linked_step with (v := c); [eauto| |apply IH; auto].
      unfold touch in *. cbn [sub_adj_matrix gadj] in Hix. rewrite Ens, Ha, Ec in Hix. exact Hix. }
  split.
  - specialize (Hb i0 Hi0). destruct (nth_error nodes i0) as [a|] eqn:Ea; [eauto|apply nth_error_None in Ea; lia].
  - intros u v [i [Hi Eu]] [j [Hj Ev]]. apply (Hlk i j); auto.
Qed.

Lemma sub_nodes_nil nodes : sub_nodes nodes [] = nodes.
Proof. apply filter_all; auto. Qed.

Lemma initial_for_comp_spec order g comp k built r :
  (forall l, Permutation (order l) l) -> comp < n_components g ->
  1 <= k <= length (comp_nodes g comp) ->
  exists arr r', initial_for_comp order g comp k built r = Ok (arr, r') /\ good_comp g comp k built arr.
Proof.
  intros Hord Hc Hk. unfold initial_for_comp. set (nodes := comp_nodes g comp) in *.
  set (sg := sub_adj_matrix g nodes []).
  assert (En : gn sg = length nodes) by (unfold sg; cbn; rewrite sub_nodes_nil; auto).
  assert (Hconn : connected_graph sg).
  { apply is_connected_spec, sub_connected_spec; [apply comp_nodes_NoDup|].
    eapply contiguous_ext; [|apply (comp_nodes_contiguous g comp Hc)]. intros a; cbn; tauto. }
  destruct (randomly_divide_spec order sg k r Hord Hconn ltac:(lia)) as [ls [r' [E [Hlen [Hnum Hcon]]]]].
  rewrite E. cbn [bind]. eexists _, r'. split; [reflexivity|].
  assert (Hbase : length (minus_ones (gn g)) = gn g) by apply repeat_length.
  set (arr := scatter _ _ _).
  assert (Hin : forall i a c, nth_error nodes i = Some a -> nth_error ls i = Some c ->
    nth_error arr a = Some (Z.of_nat (c + built))).
  { intros i a c Hi Hc'. unfold arr. apply (scatter_in nodes _ _ i a); auto.
    - apply comp_nodes_NoDup.
    - rewrite nth_error_map, Hc'. reflexivity.
    - rewrite Hbase. apply nth_error_In, comp_nodes_In in Hi. tauto. }
  assert (Hout : forall a, a < gn g -> comp_label g a <> comp -> nth_error arr a = Some (-1)%Z).
  { intros a Ha Hne. unfold arr. rewrite scatter_notin; [apply minus_ones_nth; auto|].
    intros H. apply comp_nodes_In in H. tauto. }
  assert (Hlab : forall a, In a nodes -> exists i c, nth_error nodes i = Some a /\ nth_error ls i = Some c /\ c < k).
  { intros a Ha. apply In_nth_error in Ha. destruct Ha as [i Hi].
    destruct (nth_error ls i) as [c|] eqn:Ec.
    - exists i, c. repeat split; auto. apply Hnum. eapply nth_error_In; eauto.
    - apply nth_error_None in Ec. apply nth_error_lt in Hi. lia. }
  split; [unfold arr; rewrite scatter_length; auto|]. split; [exact Hout|]. split.
  - intros a Ha Hca. destruct (Hlab a) as [i [c [Hi [Hc' Hck]]]]; [apply comp_nodes_In; auto|].
    exists (Z.of_nat (c + built)). split; [apply (Hin i); auto|lia].
  - intros z Hz. set (c := Z.to_nat z - built).
    assert (Ez : z = Z.of_nat (c + built)) by lia.
    assert (Hck : c < k) by lia.
    pose proof (sub_contiguous g nodes (nregion ls c) (Hcon c Hck)) as Hcg.
    eapply contiguous_ext; [|apply Hcg].
    + intros a. unfold nregion, region. split.
      * intros [i [Hi Ha]]. rewrite Ez. apply (Hin i); auto.
      * intros Ha. assert (Hal : a < gn g) by (apply nth_error_lt in Ha; unfold arr in Ha; rewrite scatter_length, Hbase in Ha; auto).
        destruct (Nat.eq_dec (comp_label g a) comp) as [Hca|Hca].
        -- destruct (Hlab a) as [i [c' [Hi [Hc' _]]]]; [apply comp_nodes_In; auto|].
           exists i. split; auto. specialize (Hin i a c' Hi Hc'). rewrite Hin in Ha. injection Ha as Ha.
           assert (c' = c) by lia. subst c'. auto.
        -- rewrite (Hout a Hal Hca) in Ha. injection Ha as Ha. lia.
    + intros i Hi. apply nth_error_lt in Hi. lia.
Qed.

(** Running the generator: whatever the consumer guarantees per component holds at the end. *)
Lemma gen_comps_post {S} E N order g (consume : yielded -> S -> rng -> out (S * rng))
    (Inv : nat -> list nat -> S -> Prop) (total : nat) :
  (forall l, Permutation (order l) l) ->
  (forall comp k built done arr s r, comp < n_components g -> ~ In comp done -> 1 <= k -> built + k <= total ->
     good_comp g comp k built arr -> Inv built done s ->
     post E N (consume (YArr arr) s r) (fun sr => Inv (built + k) (comp :: done) (fst sr))) ->
  forall items built done s r,
  NoDup (map fst items ++ done) ->
  (forall comp k, In (comp, k) items -> comp < n_components g /\ 1 <= k <= length (comp_nodes g comp)) ->
  built + list_sum (map snd items) <= total ->
  Inv built done s ->
  post E N (gen_comps order g consume items built s r)
    (fun sr => Inv (built + list_sum (map snd items)) (rev (map fst items) ++ done) (fst sr)).
Proof.
  intros Hord Hcons. induction items as [|[comp k] items IH]; intros built done s r Hnd Hit Htot HI; cbn [gen_comps].
  - cbn. rewrite Nat.add_0_r. auto.
  - destruct (Hit comp k (or_introl eq_refl)) as [Hc Hk].
    cbn [map snd] in Htot. rewrite list_sum_cons in Htot.
    cbn [map fst app] in Hnd. inversion Hnd as [|? ? Hni Hnd']; subst.
    destruct (initial_for_comp_spec order g comp k built r Hord Hc Hk) as [arr [r1 [E1 Hgood]]].
    rewrite E1. cbn [bind]. eapply post_bind.
    + apply (Hcons comp k built done arr s r1); auto; [|lia|lia]. intros Hd. apply Hni. apply in_or_app; auto.
    + intros [s' r2] _ HI'. cbn [fst] in HI'.
      eapply post_weaken; [| | |apply (IH (built + k) (comp :: done) s' r2)]; auto.
      * intros [s'' r3] _ H. cbn [map fst snd rev] in *.
        rewrite <- app_assoc, list_sum_cons, Nat.add_assoc. exact H.
      * assert (Hp : Permutation (map fst items ++ comp :: done) (comp :: map fst items ++ done)) by (symmetry; apply Permutation_middle).
        eapply Permutation_NoDup; [symmetry; exact Hp|]. constructor; auto.
      * intros c k' H. apply Hit. right; auto.
      * lia.
Qed.

Lemma count_occ_comp_labels g c : count_occ Nat.eq_dec (component_labels g) c = length (comp_nodes g c).
Proof.
  unfold component_labels, comp_nodes. induction (seq 0 (gn g)) as [|x l IH]; cbn; [auto|].
  destruct (Nat.eq_dec (comp_label g x) c) as [E|E]; destruct (Nat.eqb_spec (comp_label g x) c); try congruence; cbn; auto.
Qed.

Lemma n_components_pos g : 0 < gn g -> 0 < n_components g.
Proof. intros H. pose proof (comp_label_lt g 0 H). lia. Qed.

Lemma numbered_count_le labels c : numbered labels c -> c <= length labels.
Proof.
  intros H. assert (Hi : incl (seq 0 c) labels).
  { intros x Hx. apply in_seq in Hx. apply H. lia. }
  pose proof (NoDup_incl_length (seq_NoDup c 0) Hi) as Hl. rewrite seq_length in Hl. auto.
Qed.

Theorem generate_initial_sol_post {S} E N order g n_regions (consume : yielded -> S -> rng -> out (S * rng))
    (Inv : nat -> list nat -> S -> Prop) s r :
  (forall l, Permutation (order l) l) ->
  (forall comp k built done arr s r, comp < n_components g -> ~ In comp done -> 1 <= k -> built + k <= Z.to_nat n_regions ->
     good_comp g comp k built arr -> Inv built done s ->
     post E N (consume (YArr arr) s r) (fun sr => Inv (built + k) (comp :: done) (fst sr))) ->
  n_regions <> 1%Z -> 0 < gn g ->
  (Z.of_nat (n_components g) <= n_regions <= Z.of_nat (gn g))%Z ->
  Inv 0 [] s ->
  post E N (generate_initial_sol order g n_regions consume s r)
    (fun sr => exists done, (forall c, In c done <-> c < n_components g) /\
                            Inv (Z.to_nat n_regions) done (fst sr)).
Proof.
  intros Hord Hcons Hn1 Hg Hb HI. unfold generate_initial_sol.
  destruct (Nat.eqb_spec (gn g) 0); [lia|]. destruct (Z.ltb_spec (Z.of_nat (gn g)) n_regions); [lia|].
  destruct (Z.eqb_spec n_regions 1); [lia|]. destruct (Z.ltb_spec n_regions (Z.of_nat (n_components g))); [lia|].
  destruct (distribute_spec (component_labels g) (n_components g) (Z.to_nat n_regions) r) as [d [r1 [Ed [Hk [Hs Hcap]]]]].
  - apply component_labels_numbered.
  - apply n_components_pos; auto.
  - lia.
  - rewrite component_labels_length. lia.
  - rewrite Ed. cbn [bind].
    eapply post_weaken; [| | |apply (gen_comps_post E N order g consume Inv (Z.to_nat n_regions) Hord Hcons d 0 [] s r1)]; auto.
    + intros [s' r'] _ Hfin. exists (rev (map fst d)). split.
      * intros c. rewrite <- in_rev, Hk, in_seq. lia.
      * rewrite app_nil_r, Hs in Hfin. exact Hfin.
    + rewrite app_nil_r, Hk. apply seq_NoDup.
    + intros comp k Hin. pose proof (Hcap comp k Hin) as Hc2. rewrite count_occ_comp_labels in Hc2.
      split; auto. assert (Hic : In comp (map fst d)) by (apply in_map_iff; exists (comp, k); auto).
      rewrite Hk, in_seq in Hic. lia.
    + rewrite Hs. lia.
Qed.
