(** The exact methods on maps with several islands: C134. *)
From Verif Require Import Base Spec SpecData M_Graph M_Util M_Objective M_Azp M_Exact P_Base P_Util P_Graph P_Sum P_Objective P_Exact P_Split P_Azp P_Strategy P_Fit P_AzpFit P_Starts P_ExactIslands Props_Objective Props_Azp Props_Exact Props_Alone Props_Compare Examples.
Local Open Scope Z_scope.
Local Open Scope string_scope.

Lemma feasible_is_wf g l p : feasible g l p <-> wf g l /\ n_labels l = p.
Proof. unfold feasible, wf. tauto. Qed.
Lemma het_within mf attr isl l : length l = length isl -> (heterogeneity (within (rows_distance mf attr) isl) l == heterogeneity (rows_distance mf (rows_at attr isl)) l)%Q.
Proof.
  intros Hl. apply het_ext. intros i j Hij. unfold within, rows_distance, rows_at.
  rewrite !(nth_indep (map _ isl) [] (nth 0%nat attr [])) by (rewrite map_length; lia). rewrite !(map_nth (fun a => nth a attr [])). reflexivity.
Qed.
Lemma p_within mf attr isl l : length l = length isl -> (heterogeneity (within (p_weight mf attr) isl) l == heterogeneity (p_weight mf (rows_at attr isl)) l)%Q.
Proof.
  intros Hl. apply het_ext. intros i j Hij. unfold within, p_weight, rows_at.
  rewrite !(nth_indep (map _ isl) [] (nth 0%nat attr [])) by (rewrite map_length; lia). rewrite !(map_nth (fun a => nth a attr [])). reflexivity.
Qed.
Lemma best_part g d p (among : list Z -> Prop) (among' : list Z -> Prop) labels v isl : best_partition g d p among labels -> (v < gn g)%nat -> island g v isl ->
  (forall l', wf (alone g isl) l' -> n_labels l' = n_labels (labels_at labels isl) -> among' l' -> among (exchanged g labels (comp_label g v) l')) ->
  best_partition (alone g isl) (within d isl) (n_labels (labels_at labels isl)) among' (labels_at labels isl).
Proof.
  intros [Hf Hb] Hv Hi Ha. apply feasible_is_wf in Hf. destruct Hf as [Hwf Hp]. rewrite (island_comp_nodes g v isl Hv Hi) in *.
  set (c := comp_label g v) in *. assert (Hc : (c < n_components g)%nat) by (apply comp_label_lt; auto).
  rewrite <- comp_alone in *. split; [apply feasible_is_wf; split; [apply (wf_part g labels c Hwf)|auto]|].
  intros l' Hl' Ham. apply feasible_is_wf in Hl'. destruct Hl' as [Hwf' Hn].
  pose proof (exchanged_wf g labels c l' Hwf Hc Hwf') as Hw. pose proof (exchanged_count g labels c l' Hwf Hc Hwf') as Hcount.
  pose proof (exchanged_het g labels c l' Hwf Hc Hwf' d) as Hhet. change (comp_part g labels c) with (labels_at labels (comp_nodes g c)) in *.
  specialize (Hb (exchanged g labels c l')). assert (H : (heterogeneity d labels <= heterogeneity d (exchanged g labels c l'))%Q).
  { apply Hb; [apply feasible_is_wf; split; [auto|lia]|apply Ha; auto]. }
  lra.
Qed.

Lemma sorted_nth isl : StronglySorted lt isl -> forall i j, (i < j < length isl)%nat -> (nth i isl 0 < nth j isl 0)%nat.
Proof.
  induction 1 as [|a isl Hs IH Ha]; intros i j Hij; cbn [length] in Hij; [lia|]. destruct j as [|j]; [lia|]. destruct i as [|i]; cbn [nth].
  - rewrite Forall_forall in Ha. apply Ha, nth_In. lia.
  - apply IH. lia.
Qed.

Lemma alone_symmetric g v isl : symmetric g -> (v < gn g)%nat -> island g v isl -> symmetric (alone g isl).
Proof. intros Hsym Hv Hi. rewrite (island_comp_nodes g v isl Hv Hi), <- comp_alone. apply comp_symmetric; auto. Qed.
Lemma alone_nonneg mf attr g v isl : nonneg_below (gn g) (p_weight mf attr) -> (v < gn g)%nat -> island g v isl ->
  nonneg_below (gn (alone g isl)) (p_weight mf (rows_at attr isl)).
Proof.
  intros Hd Hv Hi i j Hij. cbn [gn alone] in Hij. unfold p_weight, rows_at.
  rewrite !(nth_indep (map _ isl) [] (nth 0%nat attr [])) by (rewrite map_length; lia). rewrite !(map_nth (fun a => nth a attr [])).
  apply (Hd (nth i isl 0%nat) (nth j isl 0%nat)). split.
  - destruct Hi as [Hs _]. apply sorted_nth; auto; lia.
  - apply (island_lt g v isl); auto. apply nth_In. lia.
Qed.

(** * C134 *)

(** PRegionsExact with "order" or "tree": on every island the regions are the best ones for their number. *)
Theorem C134_p_regions table g d p m labels : symmetric g -> nonneg_below (gn g) d -> (p + 2 <= gn g)%nat -> m <> "flow" ->
  solved table g d p m labels ->
  forall v isl, (v < gn g)%nat -> island g v isl ->
    best_partition (alone g isl) (within d isl) (n_labels (labels_at labels isl)) (fun _ => True) (labels_at labels isl).
Proof.
  intros Hsym Hd Hp Hm H v isl Hv Hi. pose proof (solved_best table g d p m labels Hsym Hd Hp H Hm) as Hb.
  eapply best_part; eauto.
Qed.
(** So the island on its own, asked for that number of regions, gives regions of the same heterogeneity. *)
Theorem C134_p_regions_alone table table' mf g attr p m m' labels v isl q l' : symmetric g -> nonneg_below (gn g) (p_weight mf attr) -> (p + 2 <= gn g)%nat ->
  m <> "flow" -> m' <> "flow" -> solved table g (p_weight mf attr) p m labels -> (v < gn g)%nat -> island g v isl ->
  q = n_labels (labels_at labels isl) -> (q + 2 <= length isl)%nat -> solved table' (alone g isl) (p_weight mf (rows_at attr isl)) q m' l' ->
  (heterogeneity (p_weight mf (rows_at attr isl)) l' == heterogeneity (p_weight mf (rows_at attr isl)) (labels_at labels isl))%Q.
Proof.
  intros Hsym Hd Hp Hm Hm' H Hv Hi Hq Hq2 H'.
  destruct (C134_p_regions table g _ p m labels Hsym Hd Hp Hm H v isl Hv Hi) as [Hf Hb]. rewrite <- Hq in *.
  assert (Hlen : forall l, feasible (alone g isl) l q -> length l = length isl) by (intros l Hl; apply Hl).
  pose proof (alone_symmetric g v isl Hsym Hv Hi) as Hsym'. pose proof (alone_nonneg mf attr g v isl Hd Hv Hi) as Hd'.
  destruct (solved_best table' (alone g isl) _ q m' l' Hsym' Hd' Hq2 H' Hm') as [Hf' Hb'].
  apply Qle_antisym.
  - apply Hb'; auto.
  - specialize (Hb l' Hf' Logic.I). rewrite !p_within in Hb by (apply Hlen; auto). exact Hb.
Qed.
(** "flow" never has regions of more than n - p areas: on every island the regions are the best among those, and never worse than
    what "flow" gives on the island alone, where the bound is stricter. *)
Lemma region_size_map (f : Z -> Z) l z : (forall x y, f x = f y -> x = y) -> region_size (map f l) (f z) = region_size l z.
Proof.
  intros Hf. rewrite <- !members_of_size. unfold members_of. rewrite map_length. f_equal. apply filter_ext_in. intros a Ha. apply in_seq in Ha. rewrite lab_map by lia.
  apply eq_true_iff_eq. rewrite !Z.eqb_eq. split; [apply Hf|congruence].
Qed.
Lemma region_size_part g labels a : length labels = gn g -> apart g labels -> (a < gn g)%nat ->
  region_size (comp_part g labels (comp_label g a)) (lab labels a) = region_size labels (lab labels a).
Proof.
  intros Hlen Hap Ha. set (c := comp_label g a). set (z := lab labels a). rewrite <- !members_of_size. unfold members_of.
  rewrite <- (map_length (fun i => nth i (comp_nodes g c) 0%nat)). apply Permutation_length, NoDup_Permutation.
  - apply NoDup_map_inj; [|apply NoDup_filter, seq_NoDup]. intros i j Hi Hj E. apply filter_In in Hi, Hj. rewrite in_seq, comp_part_length, comp_graph_n in Hi, Hj.
    apply (proj1 (NoDup_nth (comp_nodes g c) 0%nat)) in E; [auto|apply comp_nodes_NoDup|lia|lia].
  - apply NoDup_filter, seq_NoDup.
  - intros b. rewrite in_map_iff, filter_In, in_seq, Z.eqb_eq. split.
    + intros [i [<- Hi]]. apply filter_In in Hi. rewrite in_seq, comp_part_length, comp_graph_n, Z.eqb_eq in Hi. destruct Hi as [Hi E].
      assert (Hb : In (nth i (comp_nodes g c) 0%nat) (comp_nodes g c)) by (apply nth_In; lia). apply comp_nodes_In in Hb. split; [lia|]. rewrite <- E. symmetry.
      apply lab_of_nth_error. change (comp_part g labels c) with (labels_at labels (comp_nodes g c)). unfold labels_at. rewrite nth_error_map, (nth_error_nth' _ 0%nat) by lia. reflexivity.
    + intros [Hb E]. assert (Hbc : In b (comp_nodes g c)) by (apply comp_nodes_In; split; [lia|]; apply Hap; [lia|auto|auto]).
      apply In_nth_error in Hbc. destruct Hbc as [i Hi]. exists i. split; [apply nth_error_nth; auto|]. apply filter_In.
      rewrite in_seq, comp_part_length, comp_graph_n, Z.eqb_eq. split; [apply nth_error_lt in Hi; lia|]. rewrite <- E.
      apply lab_of_nth_error. change (comp_part g labels c) with (labels_at labels (comp_nodes g c)). unfold labels_at. rewrite nth_error_map, Hi. reflexivity.
Qed.
Lemma exchanged_small g p labels c l' : wf g labels -> (c < n_components g)%nat -> wf (comp_graph g c) l' -> small g p labels ->
  (forall z, In z l' -> (region_size l' z + p <= gn g)%nat) -> small g p (exchanged g labels c l').
Proof.
  intros Hwf Hc Hwf' Hs Hs' z Hz. pose proof (exchanged_length g labels c l' Hwf) as Hlen. apply In_nth_error in Hz. destruct Hz as [a Ea].
  assert (Ha : (a < gn g)%nat) by (apply nth_error_lt in Ea; lia). pose proof (exchanged_apart g labels c l' Hwf Hc Hwf') as Hap.
  rewrite <- (lab_of_nth_error _ _ _ Ea), <- (region_size_part g _ a) by auto.
  assert (Hin : In (lab (exchanged g labels c l') a) (comp_part g (exchanged g labels c l') (comp_label g a))).
  { apply comp_part_In; [auto|]. exists a. split; [auto|]. split; [auto|]. apply lab_nth_error. lia. }
  destruct (Nat.eq_dec (comp_label g a) c) as [E|E].
  - rewrite E in *. rewrite exchanged_in in * by auto. apply in_map_iff in Hin. destruct Hin as [y [<- Hy]]. rewrite (region_size_map (fun z => 2 * z + 1) l' y) by (intros; lia). auto.
  - rewrite exchanged_out in * by auto. apply in_map_iff in Hin. destruct Hin as [y [<- Hy]]. rewrite (region_size_map (fun z => 2 * z) _ y) by (intros; lia).
    pose proof (wf_apart g labels Hwf) as Hap0. apply comp_part_In in Hy; [|apply Hwf]. destruct Hy as [b [Hb [Eb Hyb]]].
    rewrite <- (lab_of_nth_error _ _ _ Hyb), <- Eb, region_size_part; auto; [|apply Hwf]. apply Hs. rewrite (lab_of_nth_error _ _ _ Hyb). eapply nth_error_In; eauto.
Qed.
Theorem C134_flow table g d p labels : symmetric g -> nonneg_below (gn g) d -> solved table g d p "flow" labels ->
  forall v isl, (v < gn g)%nat -> island g v isl ->
    best_partition (alone g isl) (within d isl) (n_labels (labels_at labels isl)) (fun l => forall z, In z l -> (region_size l z + p <= gn g)%nat)
      (labels_at labels isl).
Proof.
  intros Hsym Hd H v isl Hv Hi. destruct (flow_best table g d p labels Hsym Hd ltac:(lia) H) as [Hb Hs].
  eapply best_part; eauto. intros l' Hwf' Hn Hl'. rewrite (island_comp_nodes g v isl Hv Hi), <- comp_alone in Hwf'.
  apply exchanged_small; auto; [apply (feasible_is_wf g labels p), Hb|apply comp_label_lt; auto].
Qed.
Lemma other_areas g labels v isl : length labels = gn g -> (v < gn g)%nat -> island g v isl ->
  (n_labels labels + length isl <= gn g + n_labels (labels_at labels isl))%nat.
Proof.
  intros Hlen Hv Hi. rewrite (island_comp_nodes g v isl Hv Hi). set (c := comp_label g v).
  set (rest := filter (fun a => negb (Nat.eqb (comp_label g a) c)) (seq 0 (gn g))).
  assert (Hsum : (length (comp_nodes g c) + length rest = gn g)%nat).
  { transitivity (length (seq 0 (gn g))); [|apply seq_length]. unfold rest, comp_nodes. clear rest. induction (seq 0 (gn g)) as [|a s IH]; [reflexivity|].
    cbn [filter]. destruct (Nat.eqb (comp_label g a) c); cbn [negb length]; lia. }
  assert (H : (length (nodup Z.eq_dec labels) <= length (nodup Z.eq_dec (labels_at labels (comp_nodes g c)) ++ map (lab labels) rest))%nat).
  { apply NoDup_incl_length; [apply NoDup_nodup|]. intros z Hz. apply nodup_In, In_nth_error in Hz. destruct Hz as [a Ea].
    assert (Ha : (a < gn g)%nat) by (apply nth_error_lt in Ea; lia). apply in_app_iff. destruct (Nat.eqb_spec (comp_label g a) c) as [E|E]; [left|right].
    - apply nodup_In. apply in_map_iff. exists a. split; [apply lab_of_nth_error; auto|]. apply comp_nodes_In. auto.
    - apply in_map_iff. exists a. split; [apply lab_of_nth_error; auto|]. unfold rest. rewrite filter_In, in_seq. split; [lia|]. rewrite (proj2 (Nat.eqb_neq _ _) E). reflexivity. }
  rewrite app_length, map_length in H. unfold n_labels. lia.
Qed.
Theorem C134_flow_alone table table' mf g attr p labels v isl l' : symmetric g -> nonneg_below (gn g) (p_weight mf attr) ->
  solved table g (p_weight mf attr) p "flow" labels -> (v < gn g)%nat -> island g v isl ->
  solved table' (alone g isl) (p_weight mf (rows_at attr isl)) (n_labels (labels_at labels isl)) "flow" l' ->
  (heterogeneity (p_weight mf (rows_at attr isl)) (labels_at labels isl) <= heterogeneity (p_weight mf (rows_at attr isl)) l')%Q.
Proof.
  intros Hsym Hd H Hv Hi H'. destruct (C134_flow table g _ p labels Hsym Hd H v isl Hv Hi) as [Hf Hb].
  assert (Hpos : (0 < gn (alone g isl))%nat).
  { cbn [gn alone]. destruct Hi as [_ Hin]. assert (In v isl) by (apply Hin, linked_refl; auto). destruct isl; [contradiction|cbn; lia]. }
  destruct (flow_best table' (alone g isl) _ _ l' (alone_symmetric g v isl Hsym Hv Hi) (alone_nonneg mf attr g v isl Hd Hv Hi) Hpos H') as [[Hf' _] Hs'].
  rewrite <- !p_within by (first [apply Hf'|apply Hf]). apply Hb; [auto|]. intros z Hz. specialize (Hs' z Hz). cbn [gn alone] in Hs'.
  destruct (flow_best table g _ p labels Hsym Hd ltac:(lia) H) as [[[Hlen [Hp _]] _] _]. pose proof (other_areas g labels v isl Hlen Hv Hi). lia.
Qed.

(** MaxPRegionsExact *)
Lemma solved_best_maxp table mf g attr sp thr labels : symmetric g -> (0 < gn g)%nat -> as_documented sp thr -> nonneg_below (gn g) (rows_distance mf attr) ->
  solved_maxp table mf g attr sp thr labels -> best_maxp g (rows_distance mf attr) sp (asked sp thr) labels.
Proof.
  intros Hsym Hn Hdoc Hd (solver & metric & x & a & h & Hacc & Hex & Hopt & Hrep & Hrun).
  assert (Hw : (0 < total_weight (gn g) (mp_weight mf attr))%Q) by (destruct Hex as [Hlo _]; eapply Qlt_le_trans; [apply (power10_pos (h - 1))|exact Hlo]).
  destruct (C53_maxp_sound table mf g attr sp thr solver metric x a Hacc Hdoc Hw (proj1 Hopt) Hrep) as [l1 [E1 [Hf [_ Hmeet]]]].
  rewrite Hrun in E1. injection E1 as <-. split; [auto|]. split; [auto|].
  apply (C54_maxp_lexicographic table mf g attr sp thr solver metric x a h labels); auto.
Qed.
Lemma best_maxp_part g d sp thr labels c : best_maxp g d sp thr labels -> (c < n_components g)%nat ->
  best_maxp (comp_graph g c) (within d (comp_nodes g c)) (rows_at sp (comp_nodes g c)) thr (comp_part g labels c).
Proof.
  intros [Hf [Hm Hb]] Hc. apply feasible_is_wf in Hf. destruct Hf as [Hwf _]. pose proof (wf_apart g labels Hwf) as Hap.
  pose proof (proj1 (meets_parts g sp thr labels (proj1 Hwf) Hap) Hm c Hc) as Hmc.
  split; [apply feasible_is_wf; split; [apply wf_part; auto|auto]|]. split; [exact Hmc|].
  intros l' p Hl' Hm'. apply feasible_is_wf in Hl'. destruct Hl' as [Hwf' <-].
  pose proof (exchanged_wf g labels c l' Hwf Hc Hwf') as Hw. pose proof (exchanged_count g labels c l' Hwf Hc Hwf') as Hcount.
  pose proof (exchanged_het g labels c l' Hwf Hc Hwf' d) as Hhet.
  destruct (Hb (exchanged g labels c l') (n_labels (exchanged g labels c l'))) as [H1 H2].
  - apply feasible_is_wf. auto.
  - apply exchanged_meets; auto.
  - split; [lia|]. intros E. assert (E' : n_labels (exchanged g labels c l') = n_labels labels) by lia. specialize (H2 E'). lra.
Qed.
(** the other way round: regions best on every island are best together *)
Lemma best_maxp_whole g d sp thr labels : wf g labels ->
  (forall c, (c < n_components g)%nat -> best_maxp (comp_graph g c) (within d (comp_nodes g c)) (rows_at sp (comp_nodes g c)) thr (comp_part g labels c)) ->
  best_maxp g d sp thr labels.
Proof.
  intros Hwf H. pose proof (wf_apart g labels Hwf) as Hap. split; [apply feasible_is_wf; auto|].
  split; [apply (meets_parts g); auto; [apply Hwf|intros c Hc; apply H; auto]|].
  intros l p Hl Hm. apply feasible_is_wf in Hl. destruct Hl as [Hwl <-]. pose proof (wf_apart g l Hwl) as Hapl.
  assert (Hc : forall c, (c < n_components g)%nat -> (n_labels (comp_part g l c) <= n_labels (comp_part g labels c))%nat /\
    (n_labels (comp_part g l c) = n_labels (comp_part g labels c) ->
      (heterogeneity (within d (comp_nodes g c)) (comp_part g labels c) <= heterogeneity (within d (comp_nodes g c)) (comp_part g l c))%Q)).
  { intros c Hc. apply (H c Hc); [apply feasible_is_wf; split; [apply wf_part; auto|auto]|].
    apply (proj1 (meets_parts g sp thr l (proj1 Hwl) Hapl) Hm c Hc). }
  rewrite (n_labels_comps g l (proj1 Hwl) Hapl), (n_labels_comps g labels (proj1 Hwf) Hap).
  rewrite (within_comps d g l (proj1 Hwl) Hapl), (within_comps d g labels (proj1 Hwf) Hap).
  assert (Hs : forall c, In c (seq 0 (n_components g)) -> (c < n_components g)%nat) by (intros c; rewrite in_seq; lia).
  induction (seq 0 (n_components g)) as [|c cs IH]; cbn [map]; [split; [auto|intros _; apply Qle_refl]|].
  destruct (IH (fun c' H' => Hs c' (or_intror H'))) as [I1 I2]. destruct (Hc c (Hs c (or_introl eq_refl))) as [C1 C2].
  change (list_sum (?x :: ?l)) with (x + list_sum l)%nat. rewrite !sumQ_cons. split; [lia|]. intros E.
  assert (n_labels (comp_part g l c) = n_labels (comp_part g labels c)) as E1 by lia.
  apply Qplus_le_compat; [apply C2; auto|apply I2; lia].
Qed.
Lemma best_maxp_het g d d' sp thr labels : (forall i j, (i < j < gn g)%nat -> (d i j == d' i j)%Q) -> best_maxp g d sp thr labels -> best_maxp g d' sp thr labels.
Proof.
  intros Hd [Hf [Hm Hb]]. split; [auto|]. split; [auto|]. intros l p Hl Hml. destruct (Hb l p Hl Hml) as [H1 H2]. split; [auto|]. intros E. specialize (H2 E).
  rewrite <- (het_ext d d' labels), <- (het_ext d d' l); auto; [destruct Hl as [-> _]|destruct Hf as [-> _]]; auto.
Qed.
Lemma within_rows mf attr g c : forall i j, (i < j < gn (comp_graph g c))%nat ->
  (within (rows_distance mf attr) (comp_nodes g c) i j == rows_distance mf (rows_at attr (comp_nodes g c)) i j)%Q.
Proof.
  intros i j Hij. rewrite comp_graph_n in Hij. unfold within, rows_distance, rows_at.
  rewrite !(nth_indep (map _ (comp_nodes g c)) [] (nth 0%nat attr [])) by (rewrite map_length; lia). rewrite !(map_nth (fun a => nth a attr [])). reflexivity.
Qed.
Theorem C134_maxp_island table mf g attr sp thr labels : symmetric g -> as_documented sp thr -> nonneg_below (gn g) (rows_distance mf attr) ->
  solved_maxp table mf g attr sp thr labels -> forall v isl, (v < gn g)%nat -> island g v isl ->
  best_maxp (alone g isl) (rows_distance mf (rows_at attr isl)) (rows_at sp isl) (asked sp thr) (labels_at labels isl).
Proof.
  intros Hsym Hdoc Hd H v isl Hv Hi. pose proof (solved_best_maxp table mf g attr sp thr labels Hsym ltac:(lia) Hdoc Hd H) as Hb.
  rewrite (island_comp_nodes g v isl Hv Hi), <- comp_alone. apply (best_maxp_het _ (within (rows_distance mf attr) (comp_nodes g (comp_label g v)))).
  - apply within_rows.
  - apply (best_maxp_part g _ sp (asked sp thr) labels (comp_label g v) Hb). apply comp_label_lt; auto.
Qed.

Lemma asked_at sp thr n isl : shaped sp (asked sp thr) n -> as_documented sp thr -> isl <> [] -> (forall a, In a isl -> (a < n)%nat) ->
  asked (rows_at sp isl) thr = asked sp thr /\ as_documented (rows_at sp isl) thr.
Proof.
  intros [Hn Hl] Hdoc Hne Hlt. destruct isl as [|a isl]; [congruence|]. assert (Ha : (a < n)%nat) by (apply Hlt; left; auto).
  assert (E : length (nth 0 (rows_at sp (a :: isl)) []) = length (asked sp thr)) by (cbn [rows_at map nth]; apply Hl, nth_In; lia).
  assert (E0 : length (nth 0 sp []) = length (asked sp thr)) by (apply Hl, nth_In; lia).
  destruct thr as [q|l|l]; cbn [asked as_documented] in *; [split; auto; rewrite E, E0, repeat_length; congruence|split; [auto|congruence]|tauto].
Qed.
Lemma island_ne g v isl : (v < gn g)%nat -> island g v isl -> isl <> [].
Proof. intros Hv [_ Hin] ->. apply (Hin v). apply linked_refl. auto. Qed.
Lemma rows_nonneg mf attr g v isl : nonneg_below (gn g) (rows_distance mf attr) -> (v < gn g)%nat -> island g v isl ->
  nonneg_below (gn (alone g isl)) (rows_distance mf (rows_at attr isl)).
Proof.
  intros Hd Hv Hi i j Hij. cbn [gn alone] in Hij. unfold rows_distance, rows_at.
  rewrite !(nth_indep (map _ isl) [] (nth 0%nat attr [])) by (rewrite map_length; lia). rewrite !(map_nth (fun a => nth a attr [])).
  apply (Hd (nth i isl 0%nat) (nth j isl 0%nat)). split.
  - destruct Hi as [Hs _]. apply sorted_nth; auto; lia.
  - apply (island_lt g v isl); auto. apply nth_In. lia.
Qed.
Lemma best_maxp_same g d sp thr l l' : best_maxp g d sp thr l -> best_maxp g d sp thr l' -> n_labels l = n_labels l' /\ (heterogeneity d l == heterogeneity d l')%Q.
Proof.
  intros [Hf [Hm Hb]] [Hf' [Hm' Hb']]. destruct (Hb l' _ Hf' Hm') as [H1 H2]. destruct (Hb' l _ Hf Hm) as [H1' H2'].
  assert (E : n_labels l = n_labels l') by lia. split; [auto|]. apply Qle_antisym; auto.
Qed.
(** The island on its own gives the same number of regions and the same heterogeneity. *)
Theorem C134_maxp_alone table table' mf g attr sp thr labels v isl l' : symmetric g -> as_documented sp thr -> shaped sp (asked sp thr) (gn g) ->
  nonneg_below (gn g) (rows_distance mf attr) -> solved_maxp table mf g attr sp thr labels -> (v < gn g)%nat -> island g v isl ->
  solved_maxp table' mf (alone g isl) (rows_at attr isl) (rows_at sp isl) thr l' ->
  n_labels l' = n_labels (labels_at labels isl) /\
  (heterogeneity (rows_distance mf (rows_at attr isl)) l' == heterogeneity (rows_distance mf (rows_at attr isl)) (labels_at labels isl))%Q.
Proof.
  intros Hsym Hdoc Hsp Hd H Hv Hi H'. pose proof (C134_maxp_island table mf g attr sp thr labels Hsym Hdoc Hd H v isl Hv Hi) as Hb.
  destruct (asked_at sp thr (gn g) isl Hsp Hdoc (island_ne g v isl Hv Hi)) as [Easked Hdoc']; [intros a; apply (island_lt g v isl a Hv Hi)|].
  assert (Hpos : (0 < gn (alone g isl))%nat) by (pose proof (island_ne g v isl Hv Hi); destruct isl; [congruence|cbn; lia]).
  pose proof (solved_best_maxp table' mf (alone g isl) _ _ thr l' (alone_symmetric g v isl Hsym Hv Hi) Hpos Hdoc' (rows_nonneg mf attr g v isl Hd Hv Hi) H') as Hb'.
  rewrite Easked in Hb'. eapply best_maxp_same; eauto.
Qed.

(** ** islands counted once *)
Lemma islands_perm g isls : islands_of g isls -> Permutation isls (map (comp_nodes g) (seq 0 (n_components g))).
Proof.
  intros [Hnd Hin]. apply NoDup_Permutation; [auto| |].
  - apply NoDup_map_inj; [|apply seq_NoDup]. intros c c' Hc Hc' E. apply in_seq in Hc. destruct (comp_label_onto g c ltac:(lia)) as [a [Ha Ea]].
    assert (H : In a (comp_nodes g c')) by (rewrite <- E; apply comp_nodes_In; auto). apply comp_nodes_In in H. destruct H as [_ H]. congruence.
  - intros isl. rewrite Hin, in_map_iff. split.
    + intros [v [Hv Hi]]. exists (comp_label g v). split; [symmetry; apply island_comp_nodes; auto|]. apply in_seq. pose proof (comp_label_lt g v Hv). lia.
    + intros [c [<- Hc]]. apply in_seq in Hc. destruct (comp_label_onto g c ltac:(lia)) as [a [Ha <-]]. exists a. split; [auto|apply comp_nodes_island; auto].
Qed.
Lemma list_sum_perm l l' : Permutation l l' -> list_sum l = list_sum l'.
Proof. induction 1 as [|x l l' _ IH|x y l|l l' l'' _ IH _ IH']; [reflexivity| | |congruence]; cbn [list_sum fold_right] in *; unfold list_sum in *; lia. Qed.
Lemma sumQ_perm l l' : Permutation l l' -> (sumQ l == sumQ l')%Q.
Proof. induction 1; rewrite ?sumQ_cons; try lra. Qed.
(** any choice of regions for the islands *)
Lemma glue_exists g (P : nat -> list Z) labels0 : wf g labels0 -> (forall c, (c < n_components g)%nat -> wf (comp_graph g c) (P c)) ->
  exists labels, wf g labels /\ forall c, (c < n_components g)%nat -> exists f, (forall x y, f x = f y -> x = y) /\ comp_part g labels c = map f (P c).
Proof.
  intros H0 HP. assert (H : forall k, (k <= n_components g)%nat -> exists labels, wf g labels /\
    forall c, (c < k)%nat -> exists f, (forall x y : Z, f x = f y -> x = y) /\ comp_part g labels c = map f (P c)).
  { induction k as [|k IH]; intros Hk; [exists labels0; split; [auto|intros; lia]|]. destruct (IH ltac:(lia)) as [l [Hl Hc]].
    assert (Hkk : (k < n_components g)%nat) by lia. exists (exchanged g l k (P k)). split; [apply exchanged_wf; auto|]. intros c Hck.
    destruct (Nat.eq_dec c k) as [->|Hne].
    - exists (fun z => 2 * z + 1). split; [intros; lia|]. apply exchanged_in; auto.
    - destruct (Hc c ltac:(lia)) as [f [Hf E]]. exists (fun z => 2 * f z). split; [intros x y Exy; apply Hf; lia|].
      rewrite exchanged_out by auto. rewrite E, map_map. reflexivity. }
  destruct (H (n_components g) (le_n _)) as [labels HH]. exists labels. exact HH.
Qed.
Lemma islands_sum_nat g isls (f : list nat -> nat) : islands_of g isls -> list_sum (map f isls) = list_sum (map (fun c => f (comp_nodes g c)) (seq 0 (n_components g))).
Proof. intros H. rewrite (list_sum_perm _ _ (Permutation_map f (islands_perm g isls H))), map_map. reflexivity. Qed.
Lemma islands_sumQ g isls (f : list nat -> Q) : islands_of g isls -> (sumQ (map f isls) == sumQ (map (fun c => f (comp_nodes g c)) (seq 0 (n_components g))))%Q.
Proof. intros H. rewrite (sumQ_perm _ _ (Permutation_map f (islands_perm g isls H))), map_map. reflexivity. Qed.

(** PRegionsExact: no way of dividing the number of regions among the islands gives less. *)
Theorem C134_p_regions_divide table table' mf g attr p m labels isls (q : list nat -> nat) (best : list nat -> list Z) :
  symmetric g -> nonneg_below (gn g) (p_weight mf attr) -> (p + 2 <= gn g)%nat -> m <> "flow" ->
  solved table g (p_weight mf attr) p m labels -> islands_of g isls -> list_sum (map q isls) = p ->
  (forall isl, In isl isls -> best_partition (alone g isl) (p_weight mf (rows_at attr isl)) (q isl) (fun _ => True) (best isl) \/
     exists m', m' <> "flow" /\ (q isl + 2 <= length isl)%nat /\ solved table' (alone g isl) (p_weight mf (rows_at attr isl)) (q isl) m' (best isl)) ->
  (heterogeneity (p_weight mf attr) labels <= sumQ (map (fun isl => heterogeneity (p_weight mf (rows_at attr isl)) (best isl)) isls))%Q.
Proof.
  intros Hsym Hd Hp Hm H Hisls Hq Hbest. destruct (solved_best table g _ p m labels Hsym Hd Hp H Hm) as [Hf Hb].
  assert (HP : forall c, (c < n_components g)%nat -> wf (comp_graph g c) (best (comp_nodes g c)) /\ n_labels (best (comp_nodes g c)) = q (comp_nodes g c)).
  { intros c Hc. destruct (comp_label_onto g c Hc) as [a [Ha <-]]. pose proof (comp_nodes_island g a Ha) as Hi.
    rewrite comp_alone. apply feasible_is_wf. destruct (Hbest (comp_nodes g (comp_label g a))) as [HB|[m' [Hm' [Hq2 HB]]]]; [apply Hisls; eauto|apply HB|].
    apply (solved_best table' _ _ _ m' _ (alone_symmetric g a _ Hsym Ha Hi) (alone_nonneg mf attr g a _ Hd Ha Hi) Hq2 HB Hm'). }
  destruct (glue_exists g (fun c => best (comp_nodes g c)) labels) as [l [Hl Hparts]]; [apply (feasible_is_wf g labels p), Hf|intros c Hc; apply HP; auto|].
  pose proof (wf_apart g l Hl) as Hap. rewrite (islands_sumQ g isls _ Hisls).
  eapply Qle_trans; [apply (Hb l); [|exact Logic.I]|].
  - apply feasible_is_wf. split; [auto|]. rewrite (n_labels_comps g l (proj1 Hl) Hap), <- Hq, (islands_sum_nat g isls q Hisls). f_equal. apply map_ext_in.
    intros c Hc. apply in_seq in Hc. destruct (Hparts c ltac:(lia)) as [f [Hinj ->]]. rewrite nodup_map_length by auto. apply HP. lia.
  - rewrite (within_comps _ g l (proj1 Hl) Hap). apply Qle_lteq. right. apply sumQ_ext. intros c Hc. apply in_seq in Hc. destruct (Hparts c ltac:(lia)) as [f [Hinj ->]].
    rewrite het_map by auto. apply p_within. rewrite <- (comp_graph_n g c). apply HP. lia.
Qed.
(** MaxPRegionsExact: the regions of the islands treated one by one are the best ones for the whole map, in number and heterogeneity. *)
Theorem C134_maxp_together table table' mf g attr sp thr labels isls (best : list nat -> list Z) :
  symmetric g -> as_documented sp thr -> shaped sp (asked sp thr) (gn g) -> nonneg_below (gn g) (rows_distance mf attr) ->
  solved_maxp table mf g attr sp thr labels -> islands_of g isls ->
  (forall isl, In isl isls -> solved_maxp table' mf (alone g isl) (rows_at attr isl) (rows_at sp isl) thr (best isl)) ->
  n_labels labels = list_sum (map (fun isl => n_labels (best isl)) isls) /\
  (heterogeneity (rows_distance mf attr) labels == sumQ (map (fun isl => heterogeneity (rows_distance mf (rows_at attr isl)) (best isl)) isls))%Q.
Proof.
  intros Hsym Hdoc Hsp Hd H Hisls Hbest. destruct (Nat.eq_dec (gn g) 0) as [E0|E0].
  { destruct H as (solver & metric & x & a & h & Hacc & [Hlo _] & _). assert (Hw : (0 < total_weight (gn g) (mp_weight mf attr))%Q) by (eapply Qlt_le_trans; [apply (power10_pos (h - 1))|exact Hlo]).
    rewrite E0 in Hw. discriminate Hw. }
  destruct (solved_best_maxp table mf g attr sp thr labels Hsym ltac:(lia) Hdoc Hd H) as [Hf _]. apply feasible_is_wf in Hf. destruct Hf as [Hwf _].
  pose proof (wf_apart g labels Hwf) as Hap.
  assert (Hc : forall c, (c < n_components g)%nat -> n_labels (best (comp_nodes g c)) = n_labels (comp_part g labels c) /\
    (heterogeneity (rows_distance mf (rows_at attr (comp_nodes g c))) (best (comp_nodes g c)) == heterogeneity (within (rows_distance mf attr) (comp_nodes g c)) (comp_part g labels c))%Q).
  { intros c Hc. destruct (comp_label_onto g c Hc) as [a [Ha <-]]. pose proof (comp_nodes_island g a Ha) as Hi.
    rewrite (het_within mf attr (comp_nodes g (comp_label g a))) by (rewrite comp_part_length; apply comp_graph_n).
    apply (C134_maxp_alone table table' mf g attr sp thr labels a); auto. apply Hbest, Hisls. eauto. }
  rewrite (islands_sum_nat g isls _ Hisls), (islands_sumQ g isls _ Hisls). split.
  - rewrite (n_labels_comps g labels (proj1 Hwf) Hap). f_equal. apply map_ext_in. intros c Hcs. apply in_seq in Hcs. symmetry. apply Hc. lia.
  - rewrite (within_comps _ g labels (proj1 Hwf) Hap). apply sumQ_ext. intros c Hcs. apply in_seq in Hcs. symmetry. apply Hc. lia.
Qed.

(** * Examples *)
(** two islands, 0 - 1 - 2 - 3 - 4 and 5 - 6 - 7 - 8 *)
Definition nine : graph := mkG 9 (fun i j => (Nat.eqb (S i) j || Nat.eqb (S j) i) && negb (Nat.eqb i 4 && Nat.eqb j 5) && negb (Nat.eqb i 5 && Nat.eqb j 4) && Nat.ltb i 9 && Nat.ltb j 9).
Definition attr134 : list (list Q) := [[0]; [1]; [10]; [11]; [12]; [3]; [4]; [8]; [9]]%Q.
Definition sp134 : list (list Q) := [[1]; [1]; [1]; [1]; [1]; [1]; [1]; [1]; [1]]%Q.
Lemma nine_symmetric : symmetric nine.
Proof. intros i j Hi Hj. revert i j Hi Hj. apply small_symmetric. vm_compute. reflexivity. Qed.
Definition west : list nat := [0; 1; 2; 3; 4]%nat.
Definition east : list nat := [5; 6; 7; 8]%nat.
Lemma nine_islands : islands_of nine [west; east] /\ island nine 0 west /\ island nine 5 east.
Proof.
  assert (Hall : forall v, (v < 9)%nat -> comp_nodes nine (comp_label nine v) = if Nat.ltb v 5 then west else east)
    by (intros v Hv; do 9 (destruct v as [|v]; [vm_compute; reflexivity|]); lia).
  split; [split|split].
  - constructor; [intros [H|[]]; discriminate|]. constructor; [auto|constructor].
  - intros isl. split.
    + intros [<-|[<-|[]]]; [exists 0%nat|exists 5%nat]; (split; [cbn; lia|]); [change west with (if Nat.ltb 0 5 then west else east); rewrite <- (Hall 0%nat) by lia|change east with (if Nat.ltb 5 5 then west else east); rewrite <- (Hall 5%nat) by lia]; apply comp_nodes_island; cbn; lia.
    + intros [v [Hv Hi]]. rewrite (island_comp_nodes nine v isl Hv Hi), (Hall v Hv). destruct (Nat.ltb v 5); [left|right; left]; reflexivity.
  - apply (comp_nodes_island nine 0). cbn. lia.
  - apply (comp_nodes_island nine 5). cbn. lia.
Qed.
Lemma d134_nonneg n rows : nonneg_below n (p_weight manhattan rows).
Proof. intros i j _. apply abs_metric_nonneg. Qed.

(** four regions for the nine areas, two for each island alone *)
Example C134_p_regions_example :
  (exists l, solved table0 nine (p_weight manhattan attr134) 4 "order" l) /\
  (exists l, solved table0 (alone nine west) (p_weight manhattan (rows_at attr134 west)) 2 "order" l) /\
  (exists l, solved table0 (alone nine east) (p_weight manhattan (rows_at attr134 east)) 2 "order" l) /\
  (exists l, solved table0 nine (p_weight manhattan attr134) 4 "flow" l) /\
  (exists l, solved table0 (alone nine east) (p_weight manhattan (rows_at attr134 east)) 2 "flow" l) /\
  n_labels (labels_at [0; 0; 1; 1; 1; 2; 2; 3; 3] west) = 2%nat /\
  (forall l m, solved table0 nine (p_weight manhattan attr134) 4 m l -> m <> "flow" ->
    (heterogeneity (p_weight manhattan attr134) l <= heterogeneity (p_weight manhattan attr134) [0; 0; 1; 1; 1; 2; 2; 3; 3]%Z)%Q).
Proof.
  assert (F : feasible nine [0; 0; 1; 1; 1; 2; 2; 3; 3] 4) by (apply feasb_spec; [reflexivity|vm_compute; reflexivity]).
  assert (Fe : feasible (alone nine east) [0; 0; 1; 1] 2) by (apply feasb_spec; [reflexivity|vm_compute; reflexivity]).
  destruct nine_islands as [_ [Hw He]].
  pose proof (alone_symmetric nine 0 west nine_symmetric ltac:(cbn; lia) Hw) as Sw. pose proof (alone_symmetric nine 5 east nine_symmetric ltac:(cbn; lia) He) as Se.
  split; [apply order_solved; [apply nine_symmetric|apply d134_nonneg|cbn; lia|eauto]|].
  split; [apply order_solved; [auto|apply d134_nonneg|cbn; lia|]; exists [0; 0; 1; 1; 1]; apply feasb_spec; [reflexivity|vm_compute; reflexivity]|].
  split; [apply order_solved; [auto|apply d134_nonneg|cbn; lia|eauto]|].
  split; [apply flow_solved; [apply nine_symmetric|apply d134_nonneg|cbn; lia|]; exists [0; 0; 1; 1; 1; 2; 2; 3; 3]; split; [auto|unfold small; apply sizeb_spec; vm_compute; reflexivity]|].
  split; [apply flow_solved; [auto|apply d134_nonneg|cbn; lia|]; exists [0; 0; 1; 1]; split; [auto|unfold small; apply sizeb_spec; vm_compute; reflexivity]|].
  split; [reflexivity|]. intros l m H Hm.
  destruct (solved_best table0 nine _ 4 m l nine_symmetric (d134_nonneg _ _) ltac:(cbn; lia) H Hm) as [_ Hb]. apply Hb; auto.
Qed.
(** regions of at least two areas: two in the west, two in the east *)
Example C134_maxp_example :
  as_documented sp134 (TReal 2) /\ shaped sp134 (asked sp134 (TReal 2)) 9 /\ nonneg_below 9 (rows_distance manhattan attr134) /\
  (exists l, solved_maxp table0 manhattan nine attr134 sp134 (TReal 2) l) /\
  (forall isl, In isl [west; east] -> exists l, solved_maxp table0 manhattan (alone nine isl) (rows_at attr134 isl) (rows_at sp134 isl) (TReal 2) l).
Proof.
  destruct nine_islands as [_ [Hw He]].
  split; [exact Logic.I|]. split; [split; [reflexivity|intros x Hx; cbn in Hx; decompose [or] Hx; subst; try reflexivity; tauto]|].
  split; [intros i j _; apply manhattan_nonneg|]. split.
  - apply maxp_solved; [apply nine_symmetric|cbn; lia|intros i j _; apply manhattan_nonneg|vm_compute; reflexivity|exact Logic.I|].
    exists [0; 0; 1; 1; 1; 2; 2; 3; 3], 4%nat. split; [apply feasb_spec; [reflexivity|vm_compute; reflexivity]|].
    intros z Hz. apply meetsb_spec. cbn in Hz. decompose [or] Hz; subst; try (vm_compute; reflexivity); tauto.
  - intros isl [<-|[<-|[]]].
    + apply maxp_solved; [apply (alone_symmetric nine 0); [apply nine_symmetric|cbn; lia|auto]|cbn; lia|intros i j _; apply manhattan_nonneg|vm_compute; reflexivity|exact Logic.I|].
      exists [0; 0; 1; 1; 1], 2%nat. split; [apply feasb_spec; [reflexivity|vm_compute; reflexivity]|].
      intros z Hz. apply meetsb_spec. cbn in Hz. decompose [or] Hz; subst; try (vm_compute; reflexivity); tauto.
    + apply maxp_solved; [apply (alone_symmetric nine 5); [apply nine_symmetric|cbn; lia|auto]|cbn; lia|intros i j _; apply manhattan_nonneg|vm_compute; reflexivity|exact Logic.I|].
      exists [0; 0; 1; 1], 2%nat. split; [apply feasb_spec; [reflexivity|vm_compute; reflexivity]|].
      intros z Hz. apply meetsb_spec. cbn in Hz. decompose [or] Hz; subst; try (vm_compute; reflexivity); tauto.
Qed.

Print Assumptions C134_p_regions.
Print Assumptions C134_p_regions_alone.
Print Assumptions C134_p_regions_divide.
Print Assumptions C134_flow.
Print Assumptions C134_flow_alone.
Print Assumptions C134_maxp_island.
Print Assumptions C134_maxp_alone.
Print Assumptions C134_maxp_together.
