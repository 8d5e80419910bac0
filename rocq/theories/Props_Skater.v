(** Properties of the spanning-forest (SKATER) clustering: C40 - C46, C69 - C72. *)
From Verif Require Import Base Spec M_Graph P_Graph M_Util P_Base P_Forest P_Initial M_Objective P_Sum P_Objective M_Skater P_Skater Examples.

(** Dissimilarity of two areas as configured by the user: 1 if no data are given. *)
Definition dis (S : skater) (data : option (list (list Q))) (i j : nat) : Q :=
  match data with
  | None => 1%Q
  | Some d => sk_metric S (nth i d []) (nth j d [])
  end.

Lemma dissim_dissimilar S g data : dissim_matrix S g data = dissimilar g (dis S data).
Proof. destruct data; reflexivity. Qed.

(** C40 *)
Theorem C40_skater_contiguous : forall S order g data k quorum ign fuel r,
  (forall l, Permutation (order l) l) -> (forall d, data = Some d -> length d = gn g) ->
  skater_run S order g data k quorum ign fuel = Ok r ->
  length (f_labels r) = gn g /\ all_contiguous g (f_labels r) /\
  labels_exactly (f_labels r) (n_labels (f_labels r)) /\
  island_labelling (links (gn g) (f_forest r)) (f_labels r) /\
  is_forest (gn g) (f_forest r) /\
  (forall e, In e (f_forest r) -> gadj g (fst e) (snd e) = true /\ ~ (dis S data (fst e) (snd e) == 0)%Q).
Proof.
  intros S order g data k quorum ign fuel r Ho Hd Hr.
  pose proof (skater_run_post S order g data k quorum ign fuel Ho Hd) as Hp. rewrite Hr in Hp.
  destruct Hp as [[c [[Hf [Ec [El [Hin _]]]] _]] _].
  assert (Hi : island_labelling (links (gn g) (f_forest r)) (f_labels r)) by (rewrite El; apply forest_labels_islands).
  assert (He : forall e, In e (f_forest r) -> gadj g (fst e) (snd e) = true /\ ~ (dis S data (fst e) (snd e) == 0)%Q).
  { intros e He. apply Hin in He. destruct (dissim_spanning S order g data Ho) as [_ [H _]].
    specialize (H e He). rewrite dissim_dissimilar in H. cbn in H. apply andb_true_iff in H. destruct H as [H1 H2].
    split; [auto|]. apply negb_true_iff in H2. intros H. apply Qeq_bool_iff in H. congruence. }
  split; [apply Hi|]. split.
  { eapply island_labelling_contiguous; [reflexivity| |exact Hi]. intros e H. left. apply He; auto. }
  split; [rewrite El, forest_labels_n; apply forest_labels_exactly|].
  split; [auto|]. split; [apply forest_is_forest; auto|auto].
Qed.

(** C41 *)
(** The number of regions asked for: with more than one island, [islands='increase'] adds their number. *)
Definition wanted (k : option Z) (islands : nat) (ignoring : bool) : option Z :=
  match k with
  | None => None
  | Some k => Some (if ignoring then k else if Nat.leb islands 1 then k else k + Z.of_nat islands)%Z
  end.

Lemma wanted_adjust k c ign : adjust_clusters k c ign = wanted k c ign.
Proof.
  unfold adjust_clusters, wanted, option_map.
  destruct k as [k|]; [|destruct (Nat.ltb 1 c && negb ign); reflexivity].
  destruct ign; [rewrite andb_false_r; reflexivity|]. rewrite andb_true_r.
  destruct (Nat.ltb_spec 1 c), (Nat.leb_spec c 1); reflexivity || lia.
Qed.

Theorem C41_skater_count : forall S order g data k quorum ign fuel r c,
  (forall l, Permutation (order l) l) -> (forall d, data = Some d -> length d = gn g) ->
  skater_run S order g data k quorum ign fuel = Ok r ->
  n_islands (dissimilar g (dis S data)) c ->
  if f_no_moves r
  then (forall w, wanted k c ign = Some w -> (Z.of_nat (n_labels (f_labels r)) < w)%Z) /\
       (forall e l, In e (f_forest r) -> island_labelling (links (gn g) (without e (f_forest r))) l ->
          ~ meets_quorum quorum l)
  else exists w, wanted k c ign = Some w /\ Z.of_nat (n_labels (f_labels r)) = Z.max (Z.of_nat c) w.
Proof.
  intros S order g data k quorum ign fuel r c Ho Hd Hr Hc.
  apply n_islands_iff in Hc. rewrite <- dissim_dissimilar in Hc.
  pose proof (skater_run_post S order g data k quorum ign fuel Ho Hd) as Hp. rewrite Hr in Hp.
  cbn [post] in Hp. rewrite msf_components in Hp by auto. rewrite <- Hc, wanted_adjust in Hp.
  destruct Hp as [[m [[Hf [Em [El [Hin [_ [_ [_ [_ Hq]]]]]]]] Hm]] _].
  assert (En : n_labels (f_labels r) = m) by (rewrite El, forest_labels_n; auto). rewrite En.
  destruct (f_no_moves r).
  - destruct Hm as [Hm Hcut]. split.
    + intros w Ew. rewrite Ew in Hm. cbn in Hm. apply Z.ltb_lt in Hm. auto.
    + intros e l He Hl. rewrite (island_labelling_unique _ _ _ Hl (forest_labels_islands (gn g) _)).
      specialize (Hcut e He). unfold cut_cost in Hcut.
      pose proof (forest_score_post S None (gn g) (remove_edge e (f_forest r)) (fit_data g data) quorum
        (fit_data_length g data Hd)) as Hp.
      rewrite Hcut in Hp. cbn [post] in Hp. apply Hp; auto.
  - destruct (wanted k c ign) as [w|] eqn:Ew; [|discriminate]. exists w. split; auto.
    cbn in Hm. apply Z.ltb_ge in Hm. destruct Hq as [[Hes _]|[_ [c' [Ec' Hc']]]].
    + assert (m = c) by (rewrite Em, Hes, msf_components by auto; auto). lia.
    + cbn in Hc'. apply Z.ltb_lt in Hc'.
      assert (c <= m); [|lia].
      rewrite Em, Hc, <- (msf_components S order) by auto.
      (* fewer edges, at least as many components *)
      destruct Hf as [Hnd [Hrg Hcount]].
      destruct (dissim_spanning S order g data Ho) as [[Hnd0 [_ Hcount0]] _]. rewrite dissim_gn in *.
      pose proof (NoDup_incl_length Hnd Hin). lia.
Qed.

(** C42 *)
Theorem C42_skater_quorum : forall S order g data k quorum ign fuel r,
  (forall l, Permutation (order l) l) -> (forall d, data = Some d -> length d = gn g) ->
  skater_run S order g data k quorum ign fuel = Ok r ->
  meets_quorum quorum (f_labels r) \/
  (exists q, quorum = Some q /\ (Z.of_nat (gn g) < q)%Z /\ connected_graph (dissimilar g (dis S data)) /\
     f_labels r = repeat 0%Z (gn g)).
Proof.
  intros S order g data k quorum ign fuel r Ho Hd Hr.
  pose proof (skater_run_post S order g data k quorum ign fuel Ho Hd) as Hp. rewrite Hr in Hp.
  cbn [post] in Hp. rewrite msf_components in Hp by auto.
  destruct Hp as [[m [[Hf [Em [El [Hin [_ [_ [_ [_ Hq]]]]]]]] Hm]] H0].
  destruct Hq as [[Hes _]|[Hq _]]; [|auto]. rewrite Hes in El.
  destruct H0 as [H0|H0]; [|left; rewrite El; auto].
  assert (El' : f_labels r = repeat 0%Z (gn g)).
  { rewrite El. apply one_component_labels. rewrite msf_components by auto. auto. }
  destruct quorum as [q|]; [|left; intros q z E; discriminate].
  destruct (Z.lt_ge_cases (Z.of_nat (gn g)) q) as [Hlt|Hge].
  - destruct (gn g) as [|n] eqn:En.
    + left. rewrite El'. intros q' z _ [].
    + right. exists q. split; [auto|]. split; [auto|]. split; [|auto].
      rewrite <- dissim_dissimilar. apply is_connected_spec. unfold is_connected. apply Nat.eqb_eq.
      assert (Hx : 0 < gn (dissim_matrix S g data)) by (rewrite dissim_gn; lia).
      pose proof (comp_label_lt _ 0 Hx). lia.
  - left. rewrite El'. intros q' z E Hz. injection E as <-. apply repeat_spec in Hz. subst z.
    unfold region_size. rewrite count_occ_repeat_eq by auto. auto.
Qed.

Theorem C42_skater_small_island : forall S order g data k q ign fuel v isl c,
  (forall l, Permutation (order l) l) -> (forall d, data = Some d -> length d = gn g) ->
  n_islands (dissimilar g (dis S data)) c -> 1 < c ->
  v < gn g -> island (dissimilar g (dis S data)) v isl -> (Z.of_nat (length isl) < q)%Z ->
  skater_run S order g data k (Some q) ign fuel = Raise (ValueError "Islands must be larger than the quorum.").
Proof.
  intros S order g data k q ign fuel v isl c Ho Hd Hc H1 Hv Hi Hq.
  apply n_islands_iff in Hc. rewrite <- dissim_dissimilar in *.
  unfold skater_run. rewrite msf_components by auto. rewrite <- Hc.
  replace (Nat.ltb 1 c) with true by (symmetry; apply Nat.ltb_lt; auto). cbn [andb].
  pose proof (msf_labels S order g data Ho) as Hl.
  set (l := forest_labels _ _) in *.
  assert (E : below_quorum (Some q) l = true).
  { apply below_quorum_true. intros Hm. specialize (Hm q (lab l v) eq_refl).
    rewrite (island_size _ _ _ _ Hl Hi) in Hm by (rewrite dissim_gn; auto).
    assert (In (lab l v) l); [|specialize (Hm H); lia]. apply In_lab. exists v. split; auto.
    destruct Hl as [HL _]. rewrite HL, dissim_gn. auto. }
  rewrite E. reflexivity.
Qed.

(** C43 *)
(** Score of the labelling obtained by cutting [e] out of the forest [es]. *)
Definition cost_of_cut (S : skater) (n : nat) (es : list edge) (data : list (list Q)) (quorum : option Z)
    (e : edge) (q : option Q) : Prop :=
  exists l, island_labelling (links n (without e es)) l /\ score S None data (Some l) quorum = Ok q.

Lemma cost_of_cut_iff S n es data quorum e q : cost_of_cut S n es data quorum e q <-> cut_cost S n es data quorum e q.
Proof.
  unfold cost_of_cut, cut_cost. split.
  - intros [l [Hl Hs]]. rewrite (island_labelling_unique _ _ _ Hl (forest_labels_islands n _)) in Hs. exact Hs.
  - intros H. eexists. split; [apply forest_labels_islands|exact H].
Qed.

Lemma cheapest_ext {A} (c1 c2 : A -> option Q -> Prop) cands best :
  (forall e q, c1 e q <-> c2 e q) -> cheapest c1 cands best -> cheapest c2 cands best.
Proof.
  intros H. destruct best as [[e q]|]; cbn.
  - intros [H0 [l1 [l2 [-> [H1 H2]]]]]. split; [apply H; auto|]. exists l1, l2. split; [auto|]. split.
    + intros f Hf. destruct (H1 f Hf) as [Hx|[q' [Hx Hq]]]; [left; apply H; auto|right; exists q'; split; auto; apply H; auto].
    + intros f Hf. destruct (H2 f Hf) as [Hx|[q' [Hx Hq]]]; [left; apply H; auto|right; exists q'; split; auto; apply H; auto].
  - intros Hc e He. apply H. auto.
Qed.

Theorem C43_find_cut : forall S n es data quorum,
  sk_one_arg S = false -> is_forest n es -> length data = n ->
  (exists best, find_cut S n es (Some data) quorum None None = Ok best /\
     cheapest (cost_of_cut S n es data quorum) es best) /\
  (forall labels target, length labels = n ->
     exists best, find_cut S n es (Some data) quorum (Some labels) (Some target) = Ok best /\
       cheapest (cost_of_cut S n es data quorum) (filter (fun e => Z.eqb (lab labels (fst e)) target) es) best) /\
  (forall labels target, find_cut S n es (Some data) quorum labels target = Raise (PlainException "Malformed MSF!") -> False).
Proof.
  intros S n es data quorum H1 Hf HL. apply forest_is_forest in Hf.
  assert (Haff : forall e, ~ affinity_error S e) by (intros e [H _]; congruence).
  assert (Hcase : forall zi, (forall l t, zi = Some (l, t) -> length l = n) ->
    exists best, cut_loop S n es data quorum zi es None = Ok best /\
      cheapest (cost_of_cut S n es data quorum) (filter (zoom zi) es) best).
  { intros zi Hzi. apply post_total.
    eapply (post_weaken (affinity_error S) noexn False False); [intros e He; exact (Haff e He)|auto| |
      apply (cut_loop_post S n es data quorum zi es [] None Hf HL); auto].
    - intros b _ Hb. cbn [app] in Hb. eapply cheapest_ext; [|exact Hb]. intros; symmetry; apply cost_of_cut_iff.
    - intros e []. }
  split; [|split].
  - destruct (Hcase None) as [b [Eb Hb]]; [intros l t E; discriminate|]. exists b. split; [exact Eb|].
    unfold zoom in Hb. rewrite filter_true in Hb. exact Hb.
  - intros labels target Hlen. destruct (Hcase (Some (labels, target))) as [b [Eb Hb]].
    + intros l t E. injection E as <- <-. auto.
    + exists b. split; auto.
  - intros labels target.
    destruct labels as [l|], target as [t|]; cbn [find_cut]; try discriminate.
    + intros E. assert (Hp : post (fun e => e <> PlainException "Malformed MSF!") False (cut_loop S n es data quorum (Some (l, t)) es None) (fun _ => True)).
      { assert (Hg : forall todo best, (forall e, In e todo -> In e es) ->
          post (fun e => e <> PlainException "Malformed MSF!") False (cut_loop S n es data quorum (Some (l, t)) todo best) (fun _ => True)).
        { induction todo as [|e todo IH]; intros best Hin; cbn [cut_loop]; [exact Logic.I|].
          destruct (nth_error l (fst e)) as [z|]; cbn [bind post]; [|discriminate].
          destruct (Z.eqb z t); cbn [negb]; [|apply IH; intros; apply Hin; right; auto].
          assert (He : In e es) by (apply Hin; left; auto).
          destruct (forest_remove n e es Hf He) as [_ [Hn _]]. rewrite Hn.
          destruct (Nat.leb (Datatypes.S (n_components (edges_graph n es))) (n_components (edges_graph n es))) eqn:El;
            [apply Nat.leb_le in El; exfalso; lia|].
          eapply post_bind; [eapply (post_weaken (affinity_error S) _ False False); [| | |apply forest_score_post; auto]|].
          - intros x Hx. exfalso. exact (Haff x Hx).
          - auto.
          - intros a _ _. exact Logic.I.
          - intros q _ _. apply IH. intros; apply Hin; right; auto. }
        apply Hg; auto. }
      rewrite E in Hp. cbn in Hp. congruence.
    + intros E. destruct (Hcase None) as [b [Eb Hb]]; [intros l t E'; discriminate|]. congruence.
Qed.

Theorem C43_labels_and_target : forall S n es data quorum labels target,
  (exists msg, find_cut S n es data quorum (Some labels) None = Raise (ValueError msg)) /\
  (exists msg, find_cut S n es data quorum None (Some target) = Raise (ValueError msg)).
Proof. intros. split; eexists; reflexivity. Qed.

(** C44 *)
Theorem C44_skater_hierarchical : forall S order g data k quorum ign fuel r,
  (forall l, Permutation (order l) l) -> (forall d, data = Some d -> length d = gn g) ->
  skater_run S order g data k quorum ign fuel = Ok r ->
  (exists l0, nth_error (f_trace r) 0 = Some (l0, None) /\ island_labelling (dissimilar g (dis S data)) l0) /\
  (exists d, last (f_trace r) ([], None) = (f_labels r, d)) /\
  successive (fun x y => splits_one (fst x) (fst y) /\
     exists es e q, snd y = Some (e, q) /\ is_forest (gn g) es /\
       island_labelling (links (gn g) es) (fst x) /\
       island_labelling (links (gn g) (without e es)) (fst y) /\
       cheapest (cost_of_cut S (gn g) es (fit_data g data) quorum) es (Some (e, q))) (f_trace r).
Proof.
  intros S order g data k quorum ign fuel r Ho Hd Hr.
  pose proof (skater_run_post S order g data k quorum ign fuel Ho Hd) as Hp. rewrite Hr in Hp.
  destruct Hp as [[m [[Hf [Em [El [Hin [[pre [d Etr]] [Eh [Hs _]]]]]]] _]] _].
  split; [|split].
  - eexists. split; [exact Eh|]. rewrite <- dissim_dissimilar. apply msf_labels; auto.
  - exists d. rewrite Etr. apply last_last.
  - intros i x y Hx Hy. destruct (Hs i x y Hx Hy) as [H1 [es [e [q [H2 [H3 [H4 [H5 H6]]]]]]]].
    unfold deletion in *.
    split; [auto|]. exists es, e, q. split; [auto|]. split; [apply forest_is_forest; auto|].
    split; [rewrite H4; apply forest_labels_islands|]. split; [rewrite H5; apply forest_labels_islands|].
    eapply cheapest_ext; [|exact H6]. intros; symmetry; apply cost_of_cut_iff.
Qed.

(** C45 *)
(** On every graph, areas with identical attributes end up as singletons, whatever was asked for. *)
Theorem C45_identical_neighbours_refuted : forall S order g row k ign fuel,
  (sk_metric S row row == 0)%Q -> 0 < fuel ->
  exists r, skater_run S order g (Some (repeat row (gn g))) k None ign fuel = Ok r /\
            n_labels (f_labels r) = gn g.
Proof.
  intros S order g row k ign fuel Hm Hfuel.
  assert (Hme : matrix_edges (dissim_matrix S g (Some (repeat row (gn g)))) = []).
  { destruct (matrix_edges _) as [|[a b] l] eqn:E; [auto|].
    assert (Hin : In (a, b) (matrix_edges (dissim_matrix S g (Some (repeat row (gn g)))))) by (rewrite E; left; auto).
    apply matrix_edges_In in Hin. cbn [dissim_matrix gn gadj] in Hin. destruct Hin as [Ha [Hb Hg]].
    assert (Hrow : forall i, i < gn g -> nth i (repeat row (gn g)) [] = row).
    { intros i Hi. apply nth_error_nth. apply nth_error_repeat; auto. }
    rewrite (Hrow a Ha), (Hrow b Hb) in Hg. apply Qeq_bool_iff in Hm. rewrite Hm in Hg.
    rewrite andb_false_r in Hg. discriminate. }
  assert (Hmst : minimum_spanning_tree order (dissim_matrix S g (Some (repeat row (gn g)))) = []).
  { unfold minimum_spanning_tree. rewrite Hme. reflexivity. }
  unfold skater_run. rewrite Hmst. unfold below_quorum. rewrite andb_false_r.
  assert (Hn : n_labels (forest_labels (gn g) []) = gn g) by (rewrite forest_labels_n, edges_graph_nil_comps; auto).
  destruct fuel as [|fuel]; [lia|]. cbn [prune find_cut cut_loop bind].
  destruct (more_clusters _ _); eexists; (split; [reflexivity|exact Hn]).
Qed.

Theorem C45_connected_partial : forall S order g data k quorum ign fuel r,
  (forall l, Permutation (order l) l) -> (forall d, data = Some d -> length d = gn g) ->
  connected_graph g ->
  (forall i j, i < gn g -> j < gn g -> gadj g i j = true -> ~ (dis S data i j == 0)%Q) ->
  (k <= 1)%Z ->
  skater_run S order g data (Some k) quorum ign fuel = Ok r -> f_labels r = repeat 0%Z (gn g).
Proof.
  intros S order g data k quorum ign fuel r Ho Hd Hcon Hnz Hk Hr.
  pose proof (skater_run_post S order g data (Some k) quorum ign fuel Ho Hd) as Hp. rewrite Hr in Hp.
  cbn [post] in Hp. rewrite msf_components in Hp by auto.
  assert (Hc : n_components (dissim_matrix S g data) = 1).
  { apply Nat.eqb_eq. apply is_connected_spec.
    assert (Ht : forall u v, u < gn g -> v < gn g -> touch g u v -> touch (dissim_matrix S g data) u v).
    { intros u v Hu Hv Huv. rewrite dissim_dissimilar. unfold touch, dissimilar. cbn.
      destruct Huv as [H|H]; [left|right]; rewrite H; cbn; apply negb_true_iff, not_true_iff_false;
        intros Hq; apply Qeq_bool_iff in Hq; [exact (Hnz u v Hu Hv H Hq)|exact (Hnz v u Hv Hu H Hq)]. }
    destruct Hcon as [[u Hu] Hl]. split; [exists u; unfold areas; rewrite dissim_gn; auto|].
    intros x y Hx Hy. unfold areas in *. rewrite dissim_gn in *. specialize (Hl x y Hx Hy).
    clear -Hl Ht. induction Hl as [x Hx|x y z Hx Hxy Hyz IH].
    - apply linked_refl. exact Hx.
    - pose proof (linked_in_l _ _ _ _ Hyz) as Hy. unfold areas in *.
      eapply linked_step; [exact Hx|exact (Ht x y Hx Hy Hxy)|exact IH]. }
  rewrite Hc in Hp. destruct Hp as [[m [[Hf [Em [El [Hin [_ [_ [_ [_ Hq]]]]]]]] Hm]] H0].
  rewrite wanted_adjust in *. unfold wanted in *.
  replace (if ign then k else if Nat.leb 1 1 then k else (k + Z.of_nat 1)%Z) with k in * by (destruct ign; auto).
  assert (Em1 : m = 1).
  { destruct Hq as [[Hes _]|[_ [c' [Ec' Hc']]]].
    - rewrite Em, Hes, msf_components by auto. auto.
    - cbn in Hc'. apply Z.ltb_lt in Hc'. lia. }
  rewrite El. apply one_component_labels. lia.
Qed.

(** C46 *)
Theorem C46_skater_terminates : forall S order g data k quorum ign fuel,
  (forall l, Permutation (order l) l) -> (forall d, data = Some d -> length d = gn g) ->
  sk_one_arg S = false -> gn g < fuel ->
  (exists r, skater_run S order g data k quorum ign fuel = Ok r /\ length (f_trace r) <= Nat.max 1 (gn g)) \/
  skater_run S order g data k quorum ign fuel = Raise (ValueError "Islands must be larger than the quorum.").
Proof.
  intros S order g data k quorum ign fuel Ho Hd H1 Hfuel.
  pose proof (skater_run_post S order g data k quorum ign fuel Ho Hd) as Hp.
  destruct (dissim_spanning S order g data Ho) as [[_ [_ Hcount]] _]. rewrite dissim_gn in Hcount.
  destruct (skater_run S order g data k quorum ign fuel) as [r|e|] eqn:E; cbn [post] in Hp.
  - left. exists r. split; [auto|].
    destruct Hp as [[m [[[_ [_ Hf]] [Em [El [Hin [_ [_ [_ [Hlen _]]]]]]]] _]] _].
    destruct (gn g) as [|n] eqn:En.
    + assert (n_components (edges_graph 0 (f_forest r)) = 0) by lia. lia.
    + assert (Hx : 0 < gn (dissim_matrix S g data)) by (rewrite dissim_gn; lia).
      pose proof (comp_label_lt _ 0 Hx) as Hlt. rewrite <- (msf_components S order) in Hlt by auto.
      rewrite En in Hlt. lia.
  - right. destruct Hp as [[H _]|[-> _]]; [congruence|auto].
  - exfalso. lia.
Qed.

(** C69 *)
(** With [affinity] every fit that has to score a cut raises TypeError. *)
Theorem C69_affinity_refuted : forall S order g data k ign fuel c w,
  (forall l, Permutation (order l) l) -> (forall d, data = Some d -> length d = gn g) ->
  sk_one_arg S = true -> n_islands (dissimilar g (dis S data)) c -> c < gn g ->
  wanted k c ign = Some w -> (Z.of_nat c < w)%Z -> 0 < fuel ->
  skater_run S order g data k None ign fuel = Raise (TypeError "unexpected keyword argument 'X'").
Proof.
  intros S order g data k ign fuel c w Ho Hd H1 Hc Hcn Hw Hlt Hfuel.
  apply n_islands_iff in Hc. rewrite <- dissim_dissimilar in Hc.
  destruct (dissim_spanning S order g data Ho) as [Hf _]. rewrite dissim_gn in Hf.
  pose proof (msf_components S order g data Ho) as Hmc. rewrite <- Hc in Hmc.
  unfold skater_run. set (msf := minimum_spanning_tree order (dissim_matrix S g data)) in *.
  rewrite Hmc, wanted_adjust, Hw. unfold below_quorum. rewrite andb_false_r.
  destruct fuel as [|fuel]; [lia|]. cbn [prune]. unfold more_clusters.
  replace (Z.ltb (Z.of_nat c) w) with true by (symmetry; apply Z.ltb_lt; auto).
  unfold find_cut. remember msf as es eqn:Ees. clear Ees.
  assert (Hne : es <> []).
  { intros ->. destruct Hf as [_ [_ Hf]]. cbn [length] in Hf. lia. }
  destruct es as [|e es]; [congruence|].
  cbn [cut_loop bind negb].
  destruct (forest_remove (gn g) e (e :: es) Hf (or_introl eq_refl)) as [_ [Hn _]]. rewrite Hn.
  destruct (Nat.leb (Datatypes.S (n_components (edges_graph (gn g) (e :: es)))) (n_components (edges_graph (gn g) (e :: es)))) eqn:El;
    [apply Nat.leb_le in El; exfalso; lia|].
  unfold score. rewrite forest_labels_length.
  change (match data with Some d => d | None => ones (gn g) 1 end) with (fit_data g data).
  rewrite (fit_data_length g data Hd), Nat.eqb_refl.
  cbn [negb below_quorum]. rewrite uniqueZ_length, forest_labels_n, Hn. cbn [seq map mapM].
  unfold part_score at 1. rewrite H1. reflexivity.
Qed.

(** C70 *)
(** Any labelling that does not use 0 as a region name is rejected. *)
Theorem C70_score_names_refuted : forall S fitted data labels,
  sk_one_arg S = false -> length data = length labels -> labels <> [] -> ~ In 0%Z labels ->
  score S fitted data (Some labels) None = Raise (ValueError "Found array with 0 sample(s)").
Proof.
  intros S fitted data labels H1 HL Hne H0. unfold score. rewrite HL, Nat.eqb_refl. cbn [negb below_quorum].
  assert (Hu : length (uniqueZ labels) <> 0).
  { destruct labels as [|x l]; [congruence|]. intros E. apply length_zero_iff_nil in E.
    assert (In x (uniqueZ (x :: l))) by (apply uniqueZ_In; left; auto). rewrite E in H. destruct H. }
  destruct (length (uniqueZ labels)) as [|m]; [congruence|]. cbn [seq map mapM].
  unfold part_score at 1. rewrite H1. change (Z.of_nat 0) with 0%Z.
  destruct (where_eq labels 0) as [|a l] eqn:E; [reflexivity|]. exfalso. apply H0.
  assert (Ha : In a (where_eq labels 0)) by (rewrite E; left; auto). apply where_eq_In in Ha.
  eapply nth_error_In; eauto.
Qed.

(** The value of one region and of the whole map. *)
Definition region_cost (S : skater) (data : list (list Q)) (labels : list Z) (z : Z) : Q :=
  let rows := map (fun a => nth a data []) (where_eq labels z) in
  sk_reduction S (map (fun x => sk_metric S x (sk_center S rows)) rows).

Lemma mapM_part_scores S data labels l : sk_one_arg S = false -> (forall z, In z l -> In z labels) ->
  mapM (part_score S data labels) l = Ok (map (region_cost S data labels) l).
Proof.
  intros H1 Hl. induction l as [|z l IH]; [reflexivity|]. cbn [mapM map].
  rewrite IH by (intros; apply Hl; right; auto).
  assert (E : part_score S data labels z = Ok (region_cost S data labels z)); [|rewrite E; reflexivity].
  pose proof (part_score_post S data labels z (Hl z (or_introl eq_refl))) as Hp.
  unfold part_score, region_cost in *. rewrite H1 in *.
  destruct (map (fun a => nth a data []) (where_eq labels z)); [|reflexivity].
  destruct Hp as [Hp _]. congruence.
Qed.

Lemma score_value S fitted data labels quorum p :
  sk_one_arg S = false -> length data = length labels -> labels_exactly labels p -> meets_quorum quorum labels ->
  score S fitted data (Some labels) quorum =
  Ok (Some (sk_reduction S (map (region_cost S data labels) (map Z.of_nat (seq 0 p))))).
Proof.
  intros H1 HL He Hq. unfold score. rewrite HL, Nat.eqb_refl. cbn [negb].
  apply below_quorum_false in Hq. rewrite Hq, uniqueZ_length, (labels_exactly_n _ _ He).
  rewrite mapM_part_scores; [reflexivity|auto|]. intros z Hz. apply in_map_iff in Hz.
  destruct Hz as [m [<- Hm]]. apply in_seq in Hm. apply He. lia.
Qed.

(** With names 0 .. p-1 the score is the reduction over the regions; two such namings of the same
    partition have the same score (for reductions that ignore the order). *)
Theorem C70_score_partial : forall S fitted data labels labels' quorum p,
  sk_one_arg S = false -> (forall l l', Permutation l l' -> (sk_reduction S l == sk_reduction S l')%Q) ->
  length data = length labels -> length labels' = length labels ->
  labels_exactly labels p -> labels_exactly labels' p ->
  (forall u v, u < length labels -> v < length labels -> (lab labels u = lab labels v <-> lab labels' u = lab labels' v)) ->
  meets_quorum quorum labels -> meets_quorum quorum labels' ->
  exists q q', score S fitted data (Some labels) quorum = Ok (Some q) /\
               score S fitted data (Some labels') quorum = Ok (Some q') /\ (q == q')%Q.
Proof.
  intros S fitted data labels labels' quorum p H1 Hred HL HL' He He' Hpart Hq Hq'.
  rewrite (score_value S fitted data labels quorum p), (score_value S fitted data labels' quorum p) by (auto; congruence).
  eexists. eexists. split; [reflexivity|]. split; [reflexivity|]. apply Hred.
  set (zs := map Z.of_nat (seq 0 p)).
  assert (Hzs : forall z, In z zs <-> (0 <= z < Z.of_nat p)%Z).
  { intros z. unfold zs. rewrite in_map_iff. split.
    - intros [m [<- Hm]]. apply in_seq in Hm. lia.
    - intros Hz. exists (Z.to_nat z). rewrite in_seq. lia. }
  assert (Hnd : NoDup zs).
  { unfold zs. apply FinFun.Injective_map_NoDup; [intros x y E; lia|apply seq_NoDup]. }
  set (f := fun z => match where_eq labels z with a :: _ => lab labels' a | [] => 0%Z end).
  assert (Hf : forall z, In z zs -> exists a, a < length labels /\ lab labels a = z /\ f z = lab labels' a).
  { intros z Hz. apply Hzs, He, In_lab in Hz. destruct Hz as [a [Ha Ea]]. unfold f.
    destruct (where_eq labels z) as [|b l] eqn:E.
    - exfalso. assert (Hi : In a (where_eq labels z)) by (apply where_eq_In; rewrite lab_nth_error by auto; congruence).
      rewrite E in Hi. destruct Hi.
    - assert (Hb : In b (where_eq labels z)) by (rewrite E; left; auto). apply where_eq_In in Hb.
      assert (b < length labels) by (apply nth_error_Some; congruence).
      rewrite lab_nth_error in Hb by auto. exists b. split; [auto|]. split; [congruence|auto]. }
  assert (Hcost : forall z, In z zs -> region_cost S data labels z = region_cost S data labels' (f z)).
  { intros z Hz. destruct (Hf z Hz) as [a [Ha [<- ->]]].
    assert (Ew : where_eq labels (lab labels a) = where_eq labels' (lab labels' a)); [|unfold region_cost; rewrite Ew; auto].
    unfold where_eq. rewrite HL'. apply filter_ext_in. intros b Hb. apply in_seq in Hb.
    apply Bool.eq_true_iff_eq. rewrite !Z.eqb_eq. apply Hpart; lia. }
  rewrite (map_ext_in _ _ _ Hcost), <- (map_map f (region_cost S data labels')).
  apply Permutation_map. apply Permutation_sym.
  apply NoDup_Permutation_bis; [auto|rewrite map_length; auto|].
  intros z Hz. apply Hzs, He', In_lab in Hz. destruct Hz as [a [Ha Ea]]. rewrite HL' in Ha.
  apply in_map_iff. exists (lab labels a).
  assert (Hin : In (lab labels a) zs) by (apply Hzs, He, In_lab; exists a; auto).
  split; [|auto]. destruct (Hf _ Hin) as [b [Hb [Eb ->]]]. rewrite <- Ea. apply Hpart; auto.
Qed.

(** C71 *)
Theorem C71_find_and_make_cut : forall S n es data quorum,
  sk_one_arg S = false -> is_forest n es -> length data = n ->
  (find_and_make_cut S n es (Some data) quorum None None = Raise OptimizeWarningExn /\
   forall e l, In e es -> island_labelling (links n (without e es)) l -> ~ meets_quorum quorum l) \/
  (exists e q l, cheapest (cost_of_cut S n es data quorum) es (Some (e, q)) /\
     find_and_make_cut S n es (Some data) quorum None None = Ok (without e es, n_labels l, l) /\
     island_labelling (links n (without e es)) l /\ is_forest n (without e es) /\ meets_quorum quorum l).
Proof.
  intros S n es data quorum H1 Hf HL.
  destruct (C43_find_cut S n es data quorum H1 Hf HL) as [[best [Eb Hb]] _].
  assert (Hmq : forall e q, cost_of_cut S n es data quorum e q -> forall l,
    island_labelling (links n (without e es)) l -> (q = None <-> ~ meets_quorum quorum l)).
  { intros e q Hq l Hl. apply cost_of_cut_iff in Hq. unfold cut_cost in Hq.
    rewrite (island_labelling_unique _ _ _ Hl (forest_labels_islands n _)).
    pose proof (forest_score_post S None n (remove_edge e es) data quorum HL) as Hp.
    rewrite Hq in Hp. exact Hp. }
  unfold find_and_make_cut. rewrite Eb. cbn [bind]. destruct best as [[e q]|].
  - right. destruct (cheapest_In _ _ _ _ Hb) as [He Hce].
    exists e, q, (forest_labels n (remove_edge e es)). split; [auto|]. cbn [make_cut].
    rewrite forest_labels_n. split; [reflexivity|]. split; [apply forest_labels_islands|].
    split; [apply forest_is_forest; apply forest_is_forest in Hf; apply forest_remove; auto|].
    pose proof (Hmq e (Some q) Hce _ (forest_labels_islands n (remove_edge e es))) as H.
    rewrite <- below_quorum_true in H. apply below_quorum_false.
    destruct (below_quorum quorum (forest_labels n (remove_edge e es))); auto.
    destruct H as [_ H]. specialize (H eq_refl). discriminate.
  - left. split; [reflexivity|]. intros e l He Hl. apply (Hmq e None); auto.
Qed.

(** C72 *)
(** The default configuration: Manhattan distance, sum, mean. *)
Definition default_skater : skater := mkSk manhattan sumQ mean_row false.

Lemma class_sum (f : nat -> Z -> Q) n (c : nat -> Z) U : NoDup U -> (forall a, a < n -> In (c a) U) ->
  (sumQ (map (fun z => sumQ (map (fun a => f a z) (filter (fun a => Z.eqb (c a) z) (seq 0 n)))) U) ==
   sumQ (map (fun a => f a (c a)) (seq 0 n)))%Q.
Proof.
  intros Hnd Hin.
  rewrite (sumQ_ext _ (fun z => sumQ (map (fun a => if Z.eqb (c a) z then f a z else 0%Q) (seq 0 n)))).
  2:{ intros z _. apply sumQ_filter. }
  rewrite sumQ_swap. apply sumQ_ext. intros a Ha. apply in_seq in Ha.
  rewrite <- (sumQ_one Z.eq_dec (c a) (f a) U Hnd (Hin a ltac:(lia))). apply sumQ_ext. intros z _.
  destruct (Z.eq_dec z (c a)) as [->|Hne]; [rewrite Z.eqb_refl; reflexivity|].
  destruct (Z.eqb (c a) z) eqn:E; [apply Z.eqb_eq in E; congruence|reflexivity].
Qed.

(** If the reduction is the sum and no other region has a centre with a smaller total distance to a
    region than its own centre, a finer map never has a larger score. *)
Theorem C72_finer_not_worse_partial : forall S fitted data labels labels' p p' q q',
  sk_one_arg S = false -> (forall l, (sk_reduction S l == sumQ l)%Q) ->
  (forall rows rows', rows' <> [] -> (forall x, In x rows -> In x data) -> (forall x, In x rows' -> In x data) ->
     (sumQ (map (fun x => sk_metric S x (sk_center S rows)) rows) <= sumQ (map (fun x => sk_metric S x (sk_center S rows')) rows))%Q) ->
  length data = length labels -> length labels' = length labels ->
  labels_exactly labels p -> labels_exactly labels' p' ->
  (forall u v, u < length labels -> v < length labels -> lab labels' u = lab labels' v -> lab labels u = lab labels v) ->
  score S fitted data (Some labels) None = Ok (Some q) ->
  score S fitted data (Some labels') None = Ok (Some q') -> (q' <= q)%Q.
Proof.
  intros S fitted data labels labels' p p' q q' H1 Hred Hopt HL HL' He He' Href Hq Hq'.
  assert (Hm : forall l, meets_quorum None l) by (intros l x z E; discriminate).
  rewrite (score_value S fitted data labels None p) in Hq by auto.
  rewrite (score_value S fitted data labels' None p') in Hq' by (auto; congruence).
  injection Hq as <-. injection Hq' as <-. rewrite !Hred, !map_map.
  assert (Hnd : forall m, NoDup (map Z.of_nat (seq 0 m))).
  { intros m. apply FinFun.Injective_map_NoDup; [intros x y E; lia|apply seq_NoDup]. }
  assert (Hzs : forall m z, (0 <= z < Z.of_nat m)%Z -> In z (map Z.of_nat (seq 0 m))).
  { intros m z Hz. apply in_map_iff. exists (Z.to_nat z). rewrite in_seq. lia. }
  set (rows := fun l z => map (fun a => nth a data []) (where_eq l z)).
  set (F := fun l z => fun a => sk_metric S (nth a data []) (sk_center S (rows l z))).
  assert (Hc : forall l z, (region_cost S data l z == sumQ (map (F l z) (where_eq l z)))%Q).
  { intros l z. unfold region_cost. rewrite Hred, map_map. reflexivity. }
  rewrite <- (map_map Z.of_nat (region_cost S data labels)), <- (map_map Z.of_nat (region_cost S data labels')).
  rewrite (sumQ_ext (region_cost S data labels) _ _ (fun z _ => Hc labels z)).
  unfold where_eq at 1. rewrite (class_sum (fun a z => F labels z a) (length labels) (lab labels)); auto.
  2:{ intros a Ha. apply Hzs, He, In_lab. exists a; auto. }
  (* each new region, measured from the centre of the old region it comes from *)
  rewrite <- (class_sum (fun a z => F labels (lab labels a) a) (length labels) (lab labels') (map Z.of_nat (seq 0 p'))); auto.
  2:{ intros a Ha. apply Hzs, He', In_lab. exists a; split; auto; lia. }
  apply sumQ_le. intros z Hz. rewrite Hc, <- HL'. fold (where_eq labels' z).
  destruct (where_eq labels' z) as [|a0 w] eqn:Ew; [apply Qle_refl|]. rewrite <- Ew.
  assert (Ha0 : forall a, In a (where_eq labels' z) -> a < length labels /\ lab labels' a = z).
  { intros a Ha. apply where_eq_In in Ha. assert (a < length labels') by (apply nth_error_Some; congruence).
    rewrite lab_nth_error in Ha by auto. split; [lia|congruence]. }
  assert (Hi0 : In a0 (where_eq labels' z)) by (rewrite Ew; left; auto).
  rewrite (sumQ_ext (fun a => F labels (lab labels a) a)
    (fun a => sk_metric S (nth a data []) (sk_center S (rows labels (lab labels a0))))).
  2:{ intros a Ha. unfold F. destruct (Ha0 a Ha), (Ha0 a0 Hi0).
      rewrite (Href a a0) by (auto; congruence). reflexivity. }
  pose proof (Hopt (rows labels' z) (rows labels (lab labels a0))) as Ho.
  assert (Hne : rows labels (lab labels a0) <> []).
  { destruct (Ha0 a0 Hi0) as [Hlt _]. unfold rows. destruct (where_eq labels (lab labels a0)) eqn:E; [|discriminate].
    assert (Hin : In a0 (where_eq labels (lab labels a0))) by (apply where_eq_In, lab_nth_error; auto).
    rewrite E in Hin. destruct Hin. }
  assert (Hsub : forall l y, length l = length labels -> forall x, In x (rows l y) -> In x data).
  { intros l y Hl x Hx. apply in_map_iff in Hx. destruct Hx as [a [<- Ha]]. apply nth_In.
    apply where_eq_In in Ha. assert (a < length l) by (apply nth_error_Some; congruence). lia. }
  specialize (Ho Hne (Hsub _ _ HL') (Hsub _ _ eq_refl)).
  unfold F, rows in *. rewrite !map_map in Ho. exact Ho.
Qed.

(** With the default mean centre a cut can raise the score: here the quorum leaves a single
    possible cut, which raises it from 20 to about 29. *)
Definition tails : list (list Q) := [[10]; [3#10]; [2#10]; [1#10]; [-1#10]; [-2#10]; [-3#10]; [-10]]%Q.
Theorem C72_finer_not_worse_refuted :
  exists r q q', skater_run default_skater same_order (path_graph 8) (Some tails) (Some 2%Z) (Some 4%Z) false 9 = Ok r /\
    map fst (f_trace r) = [repeat 0%Z 8; [0;0;0;0;1;1;1;1]%Z] /\
    score default_skater None tails (Some (repeat 0%Z 8)) None = Ok (Some q) /\
    score default_skater None tails (Some (f_labels r)) None = Ok (Some q') /\ (q + 8 < q')%Q.
Proof.
  eexists. eexists. eexists. split; [vm_compute; reflexivity|]. split; [reflexivity|].
  split; [vm_compute; reflexivity|]. split; [vm_compute; reflexivity|]. reflexivity.
Qed.

(** ** Examples: the hypotheses can be met *)
(** 3 x 3 grid, sorted order of edges is not required: any permutation will do. *)
Definition grid_data : list (list Q) := [[1]; [2]; [9]; [4]; [3]; [8]; [17]; [15]; [12]]%Q.
Example skater_grid : exists r,
  skater_run default_skater same_order grid3 (Some grid_data) (Some 3%Z) (Some 2%Z) false 10 = Ok r /\
  f_no_moves r = false /\ length (f_trace r) = 3 /\ n_labels (f_labels r) = 3 /\ length (f_forest r) = 6.
Proof. eexists. split; [vm_compute; reflexivity|]. repeat split. Qed.
(** a quorum that stops the pruning early *)
Example skater_grid_stops : exists r,
  skater_run default_skater (@rev edge) grid3 (Some grid_data) None (Some 4%Z) false 10 = Ok r /\
  f_no_moves r = true /\ n_labels (f_labels r) < 9 /\ f_forest r <> [].
Proof. eexists. split; [vm_compute; reflexivity|]. repeat split; [cbn; lia|discriminate]. Qed.
(** two islands, islands='increase' and 'ignore', and an island below the quorum *)
Definition island_data : list (list Q) := [[1]; [2]; [9]; [4]; [3]]%Q.
Example skater_islands : exists r r',
  skater_run default_skater same_order two_islands (Some island_data) (Some 2%Z) None false 10 = Ok r /\
  skater_run default_skater same_order two_islands (Some island_data) (Some 2%Z) None true 10 = Ok r' /\
  n_labels (f_labels r) = 4 /\ n_labels (f_labels r') = 2.
Proof. eexists. eexists. split; [vm_compute; reflexivity|]. split; [vm_compute; reflexivity|]. split; reflexivity. Qed.
Example skater_small_island :
  skater_run default_skater same_order two_islands (Some island_data) (Some 2%Z) (Some 3%Z) false 10 =
  Raise (ValueError "Islands must be larger than the quorum.").
Proof. vm_compute. reflexivity. Qed.
(** no data: every pair of neighbours has dissimilarity 1 *)
Example skater_no_data : exists r,
  skater_run default_skater same_order (path_graph 4) None (Some 2%Z) None false 5 = Ok r /\
  f_labels r = [0; 1; 1; 1]%Z.
Proof. eexists. split; [vm_compute; reflexivity|reflexivity]. Qed.
(** the forest hypothesis of C43 and C71, a cut restricted to one region, and a malformed forest *)
Example forest_example : is_forest 4 [(0, 1); (2, 1); (2, 3)].
Proof.
  apply forest_is_forest. split; [|split; [|reflexivity]].
  - repeat constructor; cbn; intuition congruence.
  - intros e [<-|[<-|[<-|[]]]]; cbn; lia.
Qed.
Example find_cut_example : (exists q, (q == 2)%Q /\
  find_cut default_skater 4 [(0, 1); (2, 1); (2, 3)] (Some [[1]; [2]; [7]; [8]]%Q) None None None = Ok (Some ((2, 1), q))) /\
  (exists q, (q == 2)%Q /\
  find_cut default_skater 4 [(0, 1); (2, 3)] (Some [[1]; [2]; [7]; [9]]%Q) None (Some [0; 0; 1; 1]%Z) (Some 0%Z)
    = Ok (Some ((0, 1), q))) /\
  find_cut default_skater 2 [(0, 1); (1, 0)] (Some [[1]; [2]]%Q) None None None = Raise (PlainException "Malformed MSF!").
Proof.
  split; [|split; [|vm_compute; reflexivity]]; eexists; (split; [|vm_compute; reflexivity]); reflexivity.
Qed.
Example make_cut_example :
  find_and_make_cut default_skater 4 [(0, 1); (2, 1); (2, 3)] (Some [[1]; [2]; [7]; [8]]%Q) (Some 3%Z) None None
  = Raise OptimizeWarningExn.
Proof. vm_compute. reflexivity. Qed.
(** C45: a path of three areas with equal attributes falls apart although one cluster was asked for *)
Example identical_example : exists r,
  skater_run default_skater same_order (path_graph 3) (Some (repeat [5%Q] 3)) (Some 1%Z) None false 4 = Ok r /\
  f_labels r = [0; 1; 2]%Z.
Proof. eexists. split; [vm_compute; reflexivity|reflexivity]. Qed.
Example connected_example : forall i j, i < 8 -> j < 8 -> gadj (path_graph 8) i j = true ->
  ~ (dis default_skater (Some tails) i j == 0)%Q.
Proof.
  intros i j Hi Hj H.
  do 8 (destruct i as [|i]; [do 8 (destruct j as [|j]; [vm_compute in H |- *; congruence|]); lia|]). lia.
Qed.
(** C69: an affinity-based object on a path of three areas *)
Example affinity_example :
  skater_run (mkSk manhattan sumQ mean_row true) same_order (path_graph 3) (Some [[1]; [2]; [4]]%Q) (Some 2%Z) None false 4
  = Raise (TypeError "unexpected keyword argument 'X'").
Proof. vm_compute. reflexivity. Qed.
(** C70: renaming the regions of one partition *)
Example score_names :
  (exists q q', score default_skater None [[1]; [2]; [9]]%Q (Some [0; 0; 1]%Z) None = Ok (Some q) /\
     score default_skater None [[1]; [2]; [9]]%Q (Some [1; 1; 0]%Z) None = Ok (Some q') /\ (q == q')%Q) /\
  score default_skater None [[1]; [2]; [9]]%Q (Some [1; 1; 2]%Z) None = Raise (ValueError "Found array with 0 sample(s)").
Proof. split; [|vm_compute; reflexivity]. eexists. eexists. split; [vm_compute; reflexivity|]. split; [vm_compute; reflexivity|reflexivity]. Qed.

(** C72: squared distance and mean (of the first attribute) satisfy the hypotheses *)
Definition sq1 (x y : list Q) : Q := ((hd 0 x - hd 0 y) * (hd 0 x - hd 0 y))%Q.
Definition mean1 (rows : list (list Q)) : list Q :=
  [(sumQ (map (hd 0%Q) rows) / inject_Z (Z.of_nat (length rows)))%Q].
Lemma sum_const (c : Q) (rows : list (list Q)) :
  (sumQ (map (fun _ => c) rows) == inject_Z (Z.of_nat (length rows)) * c)%Q.
Proof.
  induction rows as [|x rows IH]; cbn [map length]; [rewrite sumQ_nil; change (inject_Z (Z.of_nat 0)) with 0%Q; ring|].
  rewrite sumQ_cons, IH, Nat2Z.inj_succ. unfold Z.succ. rewrite inject_Z_plus. change (inject_Z 1) with 1%Q. ring.
Qed.
Example mean_is_best : forall rows c,
  (sumQ (map (fun x => sq1 x (mean1 rows)) rows) <= sumQ (map (fun x => sq1 x c) rows))%Q.
Proof.
  intros rows c. destruct rows as [|x0 rows0]; [apply Qle_refl|].
  set (rows := x0 :: rows0). set (N := inject_Z (Z.of_nat (length rows))). set (s := sumQ (map (hd 0%Q) rows)).
  assert (Hexp : forall m, (sumQ (map (fun x => (hd 0 x - m) * (hd 0 x - m)) rows) ==
    sumQ (map (fun x => hd 0 x * hd 0 x) rows) - 2 * m * s + N * (m * m))%Q).
  { intros m. unfold s, N. rewrite <- sum_const, <- sumQ_scale, <- sumQ_minus, <- sumQ_plus.
    apply sumQ_ext. intros x _. ring. }
  unfold sq1, mean1. cbn [hd]. rewrite !Hexp. fold s N.
  assert (HN : (0 < N)%Q).
  { unfold N, rows. cbn [length]. rewrite Nat2Z.inj_succ. replace 0%Q with (inject_Z 0) by reflexivity. rewrite <- Zlt_Qlt. lia. }
  set (m := (s / N)%Q). set (y := hd 0%Q c).
  assert (Es : (s == N * m)%Q) by (unfold m; field; lra). rewrite Es.
  assert (H0 : (0 <= N * ((y - m) * (y - m)))%Q) by (apply Qmult_le_0_compat; [lra|destruct (Qlt_le_dec (y - m) 0); nra]). nra.
Qed.

Print Assumptions C40_skater_contiguous.
Print Assumptions C41_skater_count.
Print Assumptions C42_skater_quorum.
Print Assumptions C42_skater_small_island.
Print Assumptions C43_find_cut.
Print Assumptions C43_labels_and_target.
Print Assumptions C44_skater_hierarchical.
Print Assumptions C45_identical_neighbours_refuted.
Print Assumptions C45_connected_partial.
Print Assumptions C46_skater_terminates.
Print Assumptions C69_affinity_refuted.
Print Assumptions C70_score_names_refuted.
Print Assumptions C70_score_partial.
Print Assumptions C71_find_and_make_cut.
Print Assumptions C72_finer_not_worse_partial.
Print Assumptions C72_finer_not_worse_refuted.
