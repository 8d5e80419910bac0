(** Which random initial clusterings are possible. *)
From Verif Require Import Base Spec M_Graph P_Graph M_Util P_Base P_Util P_Forest P_Init P_Initial M_Azp P_Azp P_Fit P_AzpFit P_Skater P_Greedy P_Zoning P_Names.

(** ** cutting links: every set of links may be cut *)
Definition keep (f : edge -> bool) (es : list edge) : list edge := filter f es.

Lemma try_links_same n mst e t : forall r, In e mst ->
  exists r0, try_links n t mst (Some (e, max_comp_size (edges_graph n (remove_edge e mst)))) r0 =
             Ok (Some (e, max_comp_size (edges_graph n (remove_edge e mst))), r).
Proof.
  induction t as [|t IH]; intros r He; cbn [try_links]; [eauto|].
  destruct (element_choice mst e He) as [i Hi]. destruct (IH r He) as [r0 E0]. exists (rcons i r0).
  rewrite Hi. cbn [bind]. rewrite Nat.ltb_irrefl. exact E0.
Qed.

Lemma try_links_reach n mst e t : In e mst -> forall r,
  exists r0, try_links n (S t) mst None r0 = Ok (Some (e, max_comp_size (edges_graph n (remove_edge e mst))), r).
Proof.
  intros He r. destruct (try_links_same n mst e t r He) as [r0 E0].
  destruct (element_choice mst e He) as [i Hi]. exists (rcons i r0). cbn [try_links]. rewrite Hi. cbn [bind]. exact E0.
Qed.

Lemma cut_links_reach n f : forall cuts mst r, NoDup mst -> length (keep f mst) + cuts = length mst ->
  exists r0, cut_links n cuts mst r0 = Ok (keep f mst, r).
Proof.
  assert (Hsplit : forall mst : list edge, length (keep f mst) < length mst -> exists e, In e mst /\ f e = false).
  { induction mst as [|e mst IH]; cbn; intros H; [lia|]. destruct (f e) eqn:E.
    - cbn in H. destruct IH as [e' [H1 H2]]; [unfold keep; lia|]. exists e'. auto.
    - exists e. auto. }
  induction cuts as [|c IH]; intros mst r Hnd Hlen; cbn [cut_links].
  - exists r. do 2 f_equal. unfold keep. symmetry.
    assert (H : forall m : list edge, length (filter f m) = length m -> filter f m = m).
    { induction m as [|e m IHm]; cbn; intros H; [auto|]. pose proof (filter_length_le f m) as Hle.
      destruct (f e); cbn in *; [f_equal; apply IHm; lia|lia]. }
    apply H. unfold keep in Hlen. lia.
  - destruct (Hsplit mst) as [e [He Hf]]; [lia|].
    assert (Ek : keep f (remove_edge e mst) = keep f mst).
    { unfold keep, remove_edge. clear - Hf. induction mst as [|x m IHm]; cbn; [auto|].
      destruct (edge_eqb e x) eqn:E; cbn.
      - apply edge_eqb_eq in E. subst x. rewrite Hf. exact IHm.
      - destruct (f x); [f_equal|]; exact IHm. }
    pose proof (Permutation_length (remove_edge_perm e mst Hnd He)) as Hp. cbn in Hp.
    destruct (IH (remove_edge e mst) r) as [r1 E1]; [apply NoDup_filter; auto|rewrite Ek; lia|].
    destruct (try_links_reach n mst e 4 He r1) as [r0 E0]. exists r0. rewrite E0. cbn [bind]. rewrite E1, Ek. reflexivity.
Qed.

Lemma cut_links_sound n : forall cuts mst r m' r', forest n mst -> cuts <= length mst ->
  cut_links n cuts mst r = Ok (m', r') -> exists f, m' = keep f mst /\ length m' + cuts = length mst.
Proof.
  induction cuts as [|c IH]; intros mst r m' r' Hf Hle H; cbn [cut_links] in H.
  - injection H as <- <-. exists (fun _ => true). split; [|lia]. unfold keep. symmetry. apply filter_all. auto.
  - destruct (try_links_spec n mst 5 None r) as [e [s [r1 [E He]]]]; try discriminate.
    + destruct mst; [cbn in Hle; lia|discriminate].
    + rewrite E in H. cbn [bind] in H. pose proof (Permutation_length (remove_edge_perm e mst (proj1 Hf) He)) as Hp. cbn in Hp.
      apply IH in H; [|apply (forest_remove n e mst Hf He)|lia]. destruct H as [f [-> Hl]].
      exists (fun x => negb (edge_eqb e x) && f x). split; [|lia]. unfold keep, remove_edge. clear.
      induction mst as [|x m IHm]; cbn; [auto|]. destruct (edge_eqb e x); cbn; [exact IHm|].
      destruct (f x); [f_equal|]; exact IHm.
Qed.

(** ** distributing the regions: every distribution is possible *)
Lemma list_sum_le (f h : nat -> nat) : forall ks, (forall c, In c ks -> f c <= h c) ->
  list_sum (map f ks) <= list_sum (map h ks).
Proof.
  induction ks as [|x ks IHk]; intros H; cbn [map]; rewrite ?list_sum_cons; [auto|]. specialize (H x (or_introl eq_refl)) as Hx.
  assert (list_sum (map f ks) <= list_sum (map h ks)) by (apply IHk; intros c Hc; apply H; right; auto). lia.
Qed.

Lemma list_sum_lt_ex (f h : nat -> nat) : forall ks, list_sum (map f ks) < list_sum (map h ks) -> exists c, In c ks /\ f c < h c.
Proof.
  induction ks as [|x ks IHk]; cbn [map]; intros H; [cbn in H; lia|]. rewrite !list_sum_cons in H.
  destruct (Nat.lt_ge_cases (f x) (h x)) as [Hx|Hx]; [exists x; cbn; auto|].
  destruct IHk as [c [H1 H2]]; [lia|]. exists c. cbn. auto.
Qed.

Lemma bump_fun c (f : nat -> nat) ks :
  bump c (map (fun x => (x, f x)) ks) = map (fun x => (x, if Nat.eqb x c then S (f x) else f x)) ks.
Proof. unfold bump. rewrite map_map. apply map_ext. intros x. cbn. destruct (Nat.eqb x c); auto. Qed.

Lemma sum_bump c (f : nat -> nat) ks : NoDup ks -> In c ks ->
  list_sum (map (fun x => if Nat.eqb x c then S (f x) else f x) ks) = S (list_sum (map f ks)).
Proof.
  induction ks as [|x ks IH]; intros Hnd Hin; [destruct Hin|]. cbn [map]. rewrite !list_sum_cons.
  inversion Hnd as [|? ? Hni Hnd']; subst. destruct (Nat.eqb_spec x c) as [->|Hne].
  - cbn [Nat.add]. do 3 f_equal. apply map_ext_in. intros y Hy. destruct (Nat.eqb_spec y c) as [->|]; [contradiction|auto].
  - destruct Hin as [->|Hin]; [congruence|]. rewrite IH by auto. lia.
Qed.

Lemma distribute_rest_reach ks : NoDup ks -> forall left labels (f h : nat -> nat) r,
  (forall c, In c ks -> f c <= h c /\ h c <= f c + count_occ Nat.eq_dec labels c) ->
  list_sum (map h ks) = list_sum (map f ks) + left ->
  exists r0, distribute_rest left labels (map (fun x => (x, f x)) ks) r0 = Ok (map (fun x => (x, h x)) ks, r).
Proof.
  intros Hnd. induction left as [|left IH]; intros labels f h r Hb Hs; cbn [distribute_rest].
  - exists r. do 2 f_equal. apply map_ext_in. intros c Hc. f_equal.
    destruct (Nat.lt_ge_cases (f c) (h c)) as [Hlt|Hge]; [|apply Hb in Hc; lia]. exfalso.
    assert (Hl : list_sum (map f ks) < list_sum (map h ks)); [|lia]. clear - Hb Hc Hlt.
    assert (Hle : forall x, In x ks -> f x <= h x) by (intros x Hx; apply Hb; auto). clear Hb.
    induction ks as [|x ks IHk]; [destruct Hc|]. cbn [map]. rewrite !list_sum_cons.
    pose proof (Hle x (or_introl eq_refl)). assert (Hle' : forall y, In y ks -> f y <= h y) by (intros y Hy; apply Hle; right; auto).
    destruct Hc as [->|Hc].
    + pose proof (list_sum_le f h ks Hle'). lia.
    + specialize (IHk Hc Hle'). lia.
  - destruct (list_sum_lt_ex f h ks) as [c [Hc Hlt]]; [lia|]. destruct (Hb c Hc) as [_ Hcap].
    assert (Hin : In c labels) by (apply (count_occ_In Nat.eq_dec); lia).
    destruct (pop_choice labels c Hin) as [i [rest [Hp Hpop]]].
    assert (Hcnt : forall x, count_occ Nat.eq_dec labels x = count_occ Nat.eq_dec (c :: rest) x)
      by (apply (proj1 (Permutation_count_occ Nat.eq_dec _ _) Hp)).
    destruct (IH rest (fun x => if Nat.eqb x c then S (f x) else f x) h r) as [r0 E0].
    + intros x Hx. destruct (Hb x Hx) as [H1 H2]. rewrite (Hcnt x) in H2. cbn [count_occ] in H2.
      destruct (Nat.eqb_spec x c) as [->|Hne]; destruct (Nat.eq_dec c _); try congruence; lia.
    + rewrite sum_bump by auto. lia.
    + exists (rcons i r0). rewrite Hpop. cbn [bind]. rewrite bump_fun. exact E0.
Qed.

Lemma numbered_zero labels : numbered labels 1 -> count_occ Nat.eq_dec labels 0 = length labels.
Proof.
  intros Hn. assert (Hall : forall x, In x labels -> x = 0) by (intros x Hx; apply Hn in Hx; lia).
  clear Hn. induction labels as [|x l IH]; cbn [count_occ length]; [auto|]. rewrite (Hall x) by (left; auto). cbn.
  f_equal. apply IH. intros y Hy; apply Hall; right; auto.
Qed.

Theorem distribute_reach labels c n (h : nat -> nat) r :
  numbered labels c -> 0 < c ->
  (forall k, k < c -> 1 <= h k <= count_occ Nat.eq_dec labels k) -> list_sum (map h (seq 0 c)) = n ->
  exists r0, distribute_regions_among_components labels n r0 = Ok (map (fun k => (k, h k)) (seq 0 c), r).
Proof.
  intros Hn Hc Hb Hs. unfold distribute_regions_among_components.
  assert (Hne : labels <> []) by (intros ->; destruct (proj2 (Hn 0) Hc)).
  rewrite (numbered_distinct labels c Hn Hne), seq_length.
  destruct (Nat.eqb_spec c 1) as [->|Hc1].
  - exists r. cbn in *. do 4 f_equal. lia.
  - set (rest := fold_left (fun l c0 => remove_one c0 l) (seq 0 c) labels).
    assert (Hperm : Permutation labels (seq 0 c ++ rest)).
    { apply remove_each_spec; [apply seq_NoDup|]. intros x Hx. apply in_seq in Hx. apply Hn. lia. }
    destruct (distribute_rest_reach (seq 0 c) (seq_NoDup c 0) (n - c) rest (fun _ => 1) h r) as [r0 E0].
    + intros k Hk. assert (Hkc : k < c) by (apply in_seq in Hk; lia). specialize (Hb k Hkc).
      rewrite (proj1 (Permutation_count_occ Nat.eq_dec _ _) Hperm k), count_occ_app in Hb.
      assert (count_occ Nat.eq_dec (seq 0 c) k = 1) by (apply NoDup_count_occ'; auto; apply seq_NoDup). lia.
    + assert (Es : forall a m, list_sum (map (fun _ : nat => 1) (seq a m)) = m)
        by (intros a m; revert a; induction m as [|m IHm]; intros a; cbn; auto).
      rewrite Es. assert (c <= n); [|lia]. rewrite <- Hs, <- (Es 0 c) at 1. apply list_sum_le.
      intros k Hk. apply in_seq in Hk. apply Hb. lia.
    + exists r0. exact E0.
Qed.

Lemma list_as_fun (d : list (nat * nat)) c : map fst d = seq 0 c -> exists h, d = map (fun k => (k, h k)) (seq 0 c).
Proof.
  intros H. assert (Hnd : NoDup (map fst d)) by (rewrite H; apply seq_NoDup). rewrite <- H. clear H.
  exists (fun k => match find (fun kv => Nat.eqb (fst kv) k) d with Some kv => snd kv | None => 0 end).
  induction d as [|[a b] d IH]; cbn; [auto|]. rewrite Nat.eqb_refl. cbn. f_equal.
  cbn in Hnd. inversion Hnd as [|? ? Hni Hnd']; subst. rewrite IH at 1 by auto. apply map_ext_in. intros x Hx.
  destruct (Nat.eqb_spec a x) as [->|]; [contradiction|auto].
Qed.

Lemma forest_filter n f es : forest n es -> forest n (filter f es).
Proof.
  induction es as [|[a b] es IH]; intros H; [exact H|]. pose proof H as [_ [Hr _]].
  apply forest_cons_inv in H. destruct H as [H1 H2]. cbn [filter].
  destruct (f (a, b)); [|auto]. destruct (Hr (a, b) (or_introl eq_refl)) as [Ha Hb].
  apply forest_cons; auto. intros H. apply H2. revert H. cbn [fst snd]. apply same_island_touch_ext; [auto|].
  intros u v. rewrite !edges_touch, !filter_In. tauto.
Qed.

(** ** first areas *)
Lemma label_order q u v fu fv : first_in q u fu -> first_in q v fv ->
  (comp_label q u < comp_label q v <-> fu < fv).
Proof.
  intros [Hu Mu] [Hv Mv]. destruct (same_island_lt q u fu Hu) as [Hul Hful]. destruct (same_island_lt q v fv Hv) as [Hvl Hfvl].
  assert (Eu : comp_label q u = comp_label q fu) by (apply comp_label_eq; auto).
  assert (Ev : comp_label q v = comp_label q fv) by (apply comp_label_eq; auto).
  assert (Hlt : forall a b fa fb, same_island q a fa -> (forall x, same_island q a x -> fa <= x) -> same_island q b fb ->
    comp_label q a < comp_label q b -> fa < fb).
  { intros a b fa fb Ha Ma Hb Hlt. destruct (same_island_lt q a fa Ha) as [Hal _]. destruct (same_island_lt q b fb Hb) as [Hbl Hfbl].
    assert (Eb : comp_label q b = comp_label q fb) by (apply comp_label_eq; auto). rewrite Eb in Hlt.
    destruct (comp_label_growth q fb (comp_label q a) Hfbl Hlt) as [x [Hx Ex]].
    assert (fa <= x); [|lia]. apply Ma. apply comp_label_eq; [auto|lia|auto]. }
  split; [apply (Hlt u v fu fv); auto|]. intros H.
  destruct (Nat.lt_trichotomy (comp_label q u) (comp_label q v)) as [Hc|[Hc|Hc]]; [auto| |].
  - apply (comp_label_eq q u v Hul Hvl) in Hc. assert (fv <= fu); [|lia]. apply Mv.
    eapply same_island_trans; [apply same_island_sym; exact Hc|exact Hu].
  - apply (Hlt v u fv fu) in Hc; auto. lia.
Qed.

Lemma first_exists q u : u < gn q -> exists f, first_in q u f.
Proof.
  intros Hu. assert (H : forall n, (exists x, x < n /\ same_island q u x) -> exists f, first_in q u f).
  { induction n as [n IH] using lt_wf_ind. intros [x [Hx Hs]].
    assert (D : (exists y, y < x /\ same_island q u y) \/ forall y, y < x -> ~ same_island q u y).
    { assert (Hxq : x < gn q) by (apply same_island_lt in Hs; tauto). clear - Hu Hxq. induction x as [|x IHx]; [right; intros; lia|].
      destruct IHx as [[y [Hy H]]|H]; [lia|left; exists y; split; [lia|auto]|].
      destruct (same_island_dec q u x Hu ltac:(lia)) as [D|D]; [left; exists x; auto|].
      right. intros y Hy. destruct (Nat.eq_dec y x) as [->|]; [auto|]. apply H. lia. }
    destruct D as [D|D]; [apply (IH x); auto|]. exists x. split; [auto|]. intros b Hb.
    destruct (Nat.lt_ge_cases b x) as [Hl|Hl]; [|auto]. exfalso. apply (D b Hl Hb). }
  apply (H (S u)). exists u. split; [lia|apply same_island_refl; auto].
Qed.

(** ** the generator *)
Section Starts.
Variable order : list edge -> list edge.
Variable g : graph.
Hypothesis Hord : forall l, Permutation (order l) l.

Let C := n_components g.
Let nodes := comp_nodes g.
Definition tree (c : nat) : list edge := minimum_spanning_tree order (comp_graph g c).

Lemma comp_connected c : c < n_components g -> connected_graph (comp_graph g c).
Proof.
  intros Hc. apply is_connected_spec, sub_connected_spec; [apply comp_nodes_NoDup|].
  eapply contiguous_ext; [|apply (comp_nodes_contiguous g c Hc)]. intros a; cbn; tauto.
Qed.

Lemma tree_forest c : forest (length (comp_nodes g c)) (tree c).
Proof. rewrite <- comp_graph_n. apply (minimum_spanning_tree_spec order (comp_graph g c) Hord). Qed.

Lemma tree_adj c e : In e (tree c) -> gadj (comp_graph g c) (fst e) (snd e) = true.
Proof. apply (minimum_spanning_tree_spec order (comp_graph g c) Hord). Qed.

Lemma tree_island c u v : same_island (edges_graph (length (comp_nodes g c)) (tree c)) u v <-> same_island (comp_graph g c) u v.
Proof. rewrite <- comp_graph_n. apply (minimum_spanning_tree_spec order (comp_graph g c) Hord). Qed.

Lemma tree_length c : c < n_components g -> S (length (tree c)) = length (comp_nodes g c).
Proof.
  intros Hc. destruct (tree_forest c) as [_ [_ Hl]].
  assert (H1 : n_components (edges_graph (length (comp_nodes g c)) (tree c)) = 1); [|lia].
  rewrite (n_components_ext _ (comp_graph g c)); [|cbn [gn edges_graph]; rewrite comp_graph_n; auto|apply tree_island].
  apply Nat.eqb_eq, is_connected_spec, comp_connected; auto.
Qed.

Definition base (h : nat -> nat) (c : nat) : nat := list_sum (map h (seq 0 c)).
Definition kept (ff : nat -> edge -> bool) (c : nat) : list edge := keep (ff c) (tree c).
Definition fits (h : nat -> nat) (ff : nat -> edge -> bool) : Prop :=
  forall c, c < n_components g -> length (kept ff c) + h c = length (comp_nodes g c).
Definition cells (ff : nat -> edge -> bool) (c : nat) : list nat :=
  component_labels (edges_graph (length (comp_nodes g c)) (kept ff c)).
Definition arr_of (h : nat -> nat) (ff : nat -> edge -> bool) (c : nat) : list Z :=
  scatter (minus_ones (gn g)) (comp_nodes g c) (map (fun l => Z.of_nat (l + base h c)) (cells ff c)).

Lemma base_S h c : base h (S c) = base h c + h c.
Proof. unfold base. rewrite seq_S, map_app, list_sum_app. cbn. lia. Qed.

Lemma kept_le ff c : length (kept ff c) <= length (tree c).
Proof. apply filter_length_le. Qed.

Lemma fits_bounds h ff c : fits h ff -> c < n_components g -> 1 <= h c <= length (comp_nodes g c).
Proof. intros Hf Hc. specialize (Hf c Hc). pose proof (kept_le ff c). pose proof (tree_length c Hc). lia. Qed.

Lemma initial_for_comp_reach h ff c r : fits h ff -> c < n_components g ->
  exists r0, initial_for_comp order g c (h c) (base h c) r0 = Ok (arr_of h ff c, r).
Proof.
  intros Hf Hc. pose proof (fits_bounds h ff c Hf Hc) as Hb. specialize (Hf c Hc). pose proof (tree_length c Hc) as Ht.
  unfold initial_for_comp. fold (comp_graph g c). unfold randomly_divide_connected_graph.
  rewrite comp_graph_n. destruct (Nat.eqb_spec (h c) 0); [lia|]. destruct (Nat.ltb_spec (length (comp_nodes g c)) (h c)); [lia|].
  destruct (cut_links_reach (length (comp_nodes g c)) (ff c) (h c - 1) (tree c) r) as [r0 E0].
  - apply tree_forest.
  - unfold kept in Hf. lia.
  - exists r0. fold (tree c). rewrite E0. cbn [bind]. reflexivity.
Qed.

Lemma initial_for_comp_sound c k built r arr r' : c < n_components g -> 1 <= k <= length (comp_nodes g c) ->
  initial_for_comp order g c k built r = Ok (arr, r') ->
  exists f, length (keep f (tree c)) + k = length (comp_nodes g c) /\
    arr = scatter (minus_ones (gn g)) (comp_nodes g c) (map (fun l => Z.of_nat (l + built))
            (component_labels (edges_graph (length (comp_nodes g c)) (keep f (tree c))))).
Proof.
  intros Hc Hk H. pose proof (tree_length c Hc) as Ht.
  unfold initial_for_comp in H. fold (comp_graph g c) in H. unfold randomly_divide_connected_graph in H.
  rewrite comp_graph_n in H. destruct (Nat.eqb_spec k 0); [lia|]. destruct (Nat.ltb_spec (length (comp_nodes g c)) k); [lia|].
  fold (tree c) in H. destruct (cut_links _ _ _ _) as [[m r1]|e|] eqn:E; cbn [bind] in H; try discriminate.
  injection H as <- <-. apply cut_links_sound in E; [|apply tree_forest|lia]. destruct E as [f [-> Hl]].
  exists f. split; [lia|auto].
Qed.

Section Consume.
Context {S : Type}.
Variable consume : yielded -> S -> rng -> out (S * rng).

Lemma gen_comps_sound h : (forall c, c < n_components g -> 1 <= h c <= length (comp_nodes g c)) ->
  forall m c s r s' r', c + m <= n_components g ->
  gen_comps order g consume (map (fun k => (k, h k)) (seq c m)) (base h c) s r = Ok (s', r') ->
  exists ff st, (forall k, c <= k < c + m -> length (kept ff k) + h k = length (comp_nodes g k)) /\
    st c = s /\ st (c + m) = s' /\
    forall k, c <= k < c + m -> exists r1 r2, consume (YArr (arr_of h ff k)) (st k) r1 = Ok (st (Datatypes.S k), r2).
Proof.
  intros Hb. induction m as [|m IH]; intros c s r s' r' Hcm H; cbn [seq map gen_comps] in H.
  - injection H as <- <-. exists (fun _ _ => true), (fun _ => s). repeat split; intros; lia.
  - destruct (initial_for_comp order g c (h c) (base h c) r) as [[arr r1]|e|] eqn:E1; cbn [bind] in H; try discriminate.
    destruct (consume (YArr arr) s r1) as [[s1 r2]|e|] eqn:E2; cbn [bind] in H; try discriminate.
    rewrite <- base_S in H. apply IH in H; [|lia]. destruct H as [ff [st [H1 [H2 [H3 H4]]]]].
    apply initial_for_comp_sound in E1; [|lia|apply Hb; lia]. destruct E1 as [f [Hf ->]].
    exists (fun k => if Nat.eqb k c then f else ff k), (fun k => if Nat.eqb k c then s else st k).
    assert (Hk : forall k, c < k -> kept (fun k => if Nat.eqb k c then f else ff k) k = kept ff k).
    { intros k Hk. unfold kept. destruct (Nat.eqb_spec k c); [lia|auto]. }
    assert (Hkc : kept (fun k => if Nat.eqb k c then f else ff k) c = keep f (tree c)) by (unfold kept; rewrite Nat.eqb_refl; auto).
    split; [|split; [|split]].
    + intros k Hkk. destruct (Nat.eq_dec k c) as [->|Hne]; [rewrite Hkc; exact Hf|]. rewrite Hk by lia. apply H1. lia.
    + rewrite Nat.eqb_refl. auto.
    + destruct (Nat.eqb_spec (c + Datatypes.S m) c); [lia|]. rewrite <- H3. f_equal. lia.
    + intros k Hkk. destruct (Nat.eqb_spec (Datatypes.S k) c); [lia|]. destruct (Nat.eqb_spec k c) as [->|Hne].
      * exists r1, r2. rewrite H2. unfold arr_of, cells. rewrite Hkc. exact E2.
      * destruct (H4 k ltac:(lia)) as [r3 [r4 E]]. exists r3, r4. unfold arr_of, cells in *. rewrite Hk by lia. exact E.
Qed.

Lemma gen_comps_reach h ff st : fits h ff ->
  (forall k, k < n_components g -> forall r', exists r, consume (YArr (arr_of h ff k)) (st k) r = Ok (st (Datatypes.S k), r')) ->
  forall m c r', c + m <= n_components g ->
  exists r, gen_comps order g consume (map (fun k => (k, h k)) (seq c m)) (base h c) (st c) r = Ok (st (c + m), r').
Proof.
  intros Hf Hc. induction m as [|m IH]; intros c r' Hcm; cbn [seq map gen_comps].
  - exists r'. rewrite Nat.add_0_r. auto.
  - destruct (IH (Datatypes.S c) r' ltac:(lia)) as [r2 E2]. destruct (Hc c ltac:(lia) r2) as [r1 E1].
    destruct (initial_for_comp_reach h ff c r1 Hf ltac:(lia)) as [r E0]. exists r. rewrite E0. cbn [bind]. rewrite E1. cbn [bind].
    rewrite <- base_S, E2. do 3 f_equal. lia.
Qed.

Variable p : Z.
Hypothesis Hp1 : p <> 1%Z.
Hypothesis Hg : 0 < gn g.
Hypothesis Hp : (Z.of_nat (n_components g) <= p <= Z.of_nat (gn g))%Z.

Theorem generate_sound s r s' r' : generate_initial_sol order g p consume s r = Ok (s', r') ->
  exists h ff st, fits h ff /\ base h (n_components g) = Z.to_nat p /\ st 0 = s /\ st (n_components g) = s' /\
    forall k, k < n_components g -> exists r1 r2, consume (YArr (arr_of h ff k)) (st k) r1 = Ok (st (Datatypes.S k), r2).
Proof.
  unfold generate_initial_sol. intros H.
  destruct (Nat.eqb_spec (gn g) 0); [lia|]. destruct (Z.ltb_spec (Z.of_nat (gn g)) p); [lia|].
  destruct (Z.eqb_spec p 1); [lia|]. destruct (Z.ltb_spec p (Z.of_nat (n_components g))); [lia|].
  destruct (distribute_spec (component_labels g) (n_components g) (Z.to_nat p) r) as [d [r1 [Ed [Hk [Hs Hcap]]]]].
  { apply component_labels_numbered. } { apply n_components_pos; auto. } { lia. } { rewrite component_labels_length. lia. }
  rewrite Ed in H. cbn [bind] in H. destruct (list_as_fun d _ Hk) as [h ->].
  assert (Hb : forall c, c < n_components g -> 1 <= h c <= length (comp_nodes g c)).
  { intros c Hc. rewrite <- count_occ_comp_labels. apply Hcap. apply in_map_iff. exists c. rewrite in_seq. split; [auto|lia]. }
  apply (gen_comps_sound h Hb (n_components g) 0) in H; [|lia]. destruct H as [ff [st [Q1 [Q2 [Q3 Q4]]]]].
  exists h, ff, st. split; [intros c Hc; apply Q1; lia|]. split.
  - rewrite map_map in Hs. exact Hs.
  - split; [auto|]. split; [auto|]. intros k Hkc. apply Q4. lia.
Qed.

Theorem generate_reach h ff st : fits h ff -> base h (n_components g) = Z.to_nat p ->
  (forall k, k < n_components g -> forall r', exists r, consume (YArr (arr_of h ff k)) (st k) r = Ok (st (Datatypes.S k), r')) ->
  forall r', exists r, generate_initial_sol order g p consume (st 0) r = Ok (st (n_components g), r').
Proof.
  intros Hf Hbase Hc r'. unfold generate_initial_sol.
  destruct (Nat.eqb_spec (gn g) 0); [lia|]. destruct (Z.ltb_spec (Z.of_nat (gn g)) p); [lia|].
  destruct (Z.eqb_spec p 1); [lia|]. destruct (Z.ltb_spec p (Z.of_nat (n_components g))); [lia|].
  destruct (gen_comps_reach h ff st Hf Hc (n_components g) 0 r' (le_n _)) as [r1 E1].
  destruct (distribute_reach (component_labels g) (n_components g) (Z.to_nat p) h r1) as [r E].
  - apply component_labels_numbered.
  - apply n_components_pos; auto.
  - intros k Hk. rewrite count_occ_comp_labels. eapply fits_bounds; eauto.
  - exact Hbase.
  - exists r. rewrite E. cbn [bind]. exact E1.
Qed.
End Consume.

(** ** the start labels of a family of cuts *)
Definition start_of (h : nat -> nat) (ff : nat -> edge -> bool) : list Z :=
  map (fun u => lab (arr_of h ff (comp_label g u)) u) (seq 0 (gn g)).

Lemma start_of_length h ff : length (start_of h ff) = gn g.
Proof. unfold start_of. rewrite map_length, seq_length. auto. Qed.

Lemma arr_of_in h ff c i u : nth_error (comp_nodes g c) i = Some u ->
  nth_error (arr_of h ff c) u = Some (Z.of_nat (comp_label (edges_graph (length (comp_nodes g c)) (kept ff c)) i + base h c)).
Proof.
  intros Hi. assert (Hil : i < length (comp_nodes g c)) by (eapply nth_error_lt; eauto).
  unfold arr_of. apply (scatter_in _ _ _ i u); auto.
  - apply comp_nodes_NoDup.
  - rewrite nth_error_map. unfold cells. rewrite component_labels_nth by auto. reflexivity.
  - unfold minus_ones. rewrite repeat_length. eapply comp_nodes_lt, nth_error_In; eauto.
Qed.

Lemma start_nth h ff c i u : nth_error (comp_nodes g c) i = Some u ->
  lab (start_of h ff) u = Z.of_nat (comp_label (edges_graph (length (comp_nodes g c)) (kept ff c)) i + base h c).
Proof.
  intros Hi. assert (Hu : In u (comp_nodes g c)) by (eapply nth_error_In; eauto).
  apply comp_nodes_In in Hu. destruct Hu as [Hu Hc].
  apply lab_of_nth_error. unfold start_of. rewrite nth_error_map, (nth_error_nth' _ 0) by (rewrite seq_length; auto).
  rewrite seq_nth by auto. cbn [option_map Nat.add]. rewrite Hc. f_equal. apply lab_of_nth_error. apply arr_of_in; auto.
Qed.

Lemma arr_separate h ff c : arr_of h ff c = separate_one g (start_of h ff) c.
Proof.
  unfold arr_of, separate_one. f_equal. apply nth_error_ext'.
  - rewrite map_length, gather_length. unfold cells. apply component_labels_length.
  - intros i Hi. rewrite map_length in Hi. unfold cells in Hi. rewrite component_labels_length in Hi. cbn [gn edges_graph] in Hi.
    destruct (nth_error (comp_nodes g c) i) as [u|] eqn:Eu; [|apply nth_error_None in Eu; lia].
    assert (Hu : u < gn g) by (eapply comp_nodes_lt, nth_error_In; eauto).
    rewrite (gather_nth _ _ _ i u Eu) by (rewrite start_of_length; auto).
    rewrite (lab_nth_error (start_of h ff) u) by (rewrite start_of_length; auto). rewrite (start_nth h ff c i u Eu).
    rewrite nth_error_map. unfold cells. rewrite component_labels_nth by auto. reflexivity.
Qed.

(** the links of all components *)
Definition up (c : nat) (e : edge) : edge := (nth (fst e) (comp_nodes g c) 0, nth (snd e) (comp_nodes g c) 0).
Definition whole (ff : nat -> edge -> bool) : list edge :=
  concat (map (fun c => map (up c) (kept ff c)) (seq 0 (n_components g))).
Definition forest_of : list edge := whole (fun _ _ => true).

Lemma kept_range ff c e : In e (kept ff c) -> fst e < length (comp_nodes g c) /\ snd e < length (comp_nodes g c).
Proof. intros H. apply filter_In in H. apply (tree_forest c). tauto. Qed.

Lemma whole_In ff u v : In (u, v) (whole ff) <->
  exists c i j, c < n_components g /\ In (i, j) (kept ff c) /\
    nth_error (comp_nodes g c) i = Some u /\ nth_error (comp_nodes g c) j = Some v.
Proof.
  unfold whole. rewrite in_concat. split.
  - intros [l [Hl H]]. apply in_map_iff in Hl. destruct Hl as [c [<- Hc]]. apply in_seq in Hc.
    apply in_map_iff in H. destruct H as [[i j] [E He]]. destruct (kept_range ff c _ He) as [H1 H2]. cbn [fst snd] in *.
    unfold up in E. cbn [fst snd] in E. injection E as <- <-. exists c, i, j. split; [lia|]. split; [auto|].
    split; apply nth_error_nth'; auto.
  - intros [c [i [j [Hc [He [Hi Hj]]]]]]. exists (map (up c) (kept ff c)). split.
    + apply in_map_iff. exists c. rewrite in_seq. split; [auto|lia].
    + apply in_map_iff. exists (i, j). split; [|auto]. unfold up. cbn [fst snd].
      rewrite (nth_error_nth _ _ 0 Hi), (nth_error_nth _ _ 0 Hj). reflexivity.
Qed.

Lemma nodes_index c i j u : nth_error (comp_nodes g c) i = Some u -> nth_error (comp_nodes g c) j = Some u -> i = j.
Proof.
  intros Hi Hj. eapply NoDup_nth_error; [apply (comp_nodes_NoDup g c)|eapply nth_error_lt; eauto|]. congruence.
Qed.

Lemma nodes_comp c i u : nth_error (comp_nodes g c) i = Some u -> u < gn g /\ comp_label g u = c.
Proof. intros H. apply comp_nodes_In. eapply nth_error_In; eauto. Qed.

Lemma node_at u : u < gn g -> exists i, nth_error (comp_nodes g (comp_label g u)) i = Some u.
Proof. intros Hu. apply In_nth_error. apply comp_nodes_In. auto. Qed.

Lemma NoDup_app_intro' {A} (l m : list A) : NoDup l -> NoDup m -> (forall x, In x l -> In x m -> False) -> NoDup (l ++ m).
Proof.
  induction 1 as [|x l Hx Hl IH]; intros Hm Hd; cbn; [auto|]. constructor.
  - rewrite in_app_iff. intros [H|H]; [auto|]. apply (Hd x); cbn; auto.
  - apply IH; auto. intros y Hy. apply Hd. right; auto.
Qed.

Lemma NoDup_concat_map {A} (F : nat -> list A) ks : NoDup ks -> (forall c, In c ks -> NoDup (F c)) ->
  (forall c c' x, In c ks -> In c' ks -> In x (F c) -> In x (F c') -> c = c') -> NoDup (concat (map F ks)).
Proof.
  induction ks as [|c ks IH]; intros Hnd HF Hdis; cbn [map concat]; [constructor|].
  inversion Hnd as [|? ? Hni Hnd']; subst. apply NoDup_app_intro'.
  - apply HF. left; auto.
  - apply IH; auto; [intros c' Hc'; apply HF; right; auto|]. intros c1 c2 x H1 H2. apply Hdis; right; auto.
  - intros x Hx Hin. apply in_concat in Hin. destruct Hin as [l [Hl Hxl]]. apply in_map_iff in Hl. destruct Hl as [c' [<- Hc']].
    assert (c = c') by (apply (Hdis c c' x); auto; [left|right]; auto). subst c'. contradiction.
Qed.

Lemma up_inj ff c e e' : In e (kept ff c) -> In e' (kept ff c) -> up c e = up c e' -> e = e'.
Proof.
  intros He He' E. destruct (kept_range ff c _ He) as [H1 H2]. destruct (kept_range ff c _ He') as [H3 H4].
  destruct e as [i j], e' as [i' j']. cbn [fst snd] in *. unfold up in E. cbn [fst snd] in E. injection E as E1 E2.
  f_equal; eapply (proj1 (NoDup_nth (comp_nodes g c) 0) (comp_nodes_NoDup g c)); eauto.
Qed.

Lemma whole_NoDup ff : NoDup (whole ff).
Proof.
  apply NoDup_concat_map; [apply seq_NoDup| |].
  - intros c _. pose proof (proj1 (tree_forest c)) as Hnd. assert (Hk : NoDup (kept ff c)) by (apply NoDup_filter; auto).
    assert (Hinj : forall e e', In e (kept ff c) -> In e' (kept ff c) -> up c e = up c e' -> e = e') by (intros; eapply up_inj; eauto).
    clear - Hk Hinj. induction (kept ff c) as [|e es IH]; cbn [map]; constructor; inversion Hk; subst.
    + intros H. apply in_map_iff in H. destruct H as [e' [E He']]. assert (e = e') by (apply Hinj; cbn; auto). subst. contradiction.
    + apply IH; auto. intros a b Ha Hb. apply Hinj; right; auto.
  - intros c c' [u v] Hc Hc' H1 H2. apply in_seq in Hc, Hc'.
    assert (W : forall k, In (u, v) (map (up k) (kept ff k)) -> comp_label g u = k).
    { intros k H. apply in_map_iff in H. destruct H as [[i j] [E He]]. destruct (kept_range ff k _ He) as [Hi _].
      unfold up in E. cbn [fst snd] in *. injection E as <- _. apply (nodes_comp k i). apply nth_error_nth'. auto. }
    rewrite <- (W c H1), <- (W c' H2). auto.
Qed.

Lemma whole_incl ff : incl (whole ff) forest_of.
Proof.
  intros [u v] H. apply whole_In in H. apply whole_In. destruct H as [c [i [j [Hc [He [Hi Hj]]]]]].
  exists c, i, j. split; [auto|]. split; [|auto]. apply filter_In in He. apply filter_In. tauto.
Qed.

Lemma sum_nodes : list_sum (map (fun c => length (comp_nodes g c)) (seq 0 (n_components g))) = gn g.
Proof.
  assert (E : forall ks, list_sum (map (fun c => length (comp_nodes g c)) ks) = length (concat (map (comp_nodes g) ks))).
  { induction ks as [|c ks IH]; cbn [map concat]; [auto|]. rewrite list_sum_cons, app_length, IH. auto. }
  rewrite E, <- (seq_length (gn g) 0). apply NoDup_same_length; [|apply seq_NoDup|].
  - apply NoDup_concat_map; [apply seq_NoDup|intros; apply comp_nodes_NoDup|].
    intros c c' x _ _ H1 H2. apply comp_nodes_In in H1, H2. lia.
  - intros x. rewrite in_concat, in_seq. split.
    + intros [l [Hl Hx]]. apply in_map_iff in Hl. destruct Hl as [c [<- _]]. apply comp_nodes_lt in Hx. lia.
    + intros Hx. exists (comp_nodes g (comp_label g x)). split; [|apply comp_nodes_In; split; [lia|auto]].
      apply in_map_iff. exists (comp_label g x). split; [auto|]. apply in_seq. pose proof (comp_label_lt g x). lia.
Qed.

Lemma sum_parts (a b : nat -> nat) ks : list_sum (map a ks) + list_sum (map b ks) = list_sum (map (fun c => a c + b c) ks).
Proof. induction ks as [|c ks IH]; cbn [map]; rewrite ?list_sum_cons; [auto|]. lia. Qed.

Lemma whole_length ff : length (whole ff) = list_sum (map (fun c => length (kept ff c)) (seq 0 (n_components g))).
Proof.
  unfold whole. induction (seq 0 (n_components g)) as [|c ks IH]; cbn [map concat]; [auto|].
  rewrite app_length, map_length, IH, list_sum_cons. auto.
Qed.

Lemma fits_total h ff : fits h ff -> length (whole ff) + base h (n_components g) = gn g.
Proof.
  intros Hf. rewrite whole_length. unfold base. rewrite sum_parts, <- sum_nodes at 1. f_equal. apply map_ext_in.
  intros c Hc. apply in_seq in Hc. apply Hf. lia.
Qed.

(** paths along the kept links *)
Lemma island_up ff c i j u v : c < n_components g ->
  nth_error (comp_nodes g c) i = Some u -> nth_error (comp_nodes g c) j = Some v ->
  (same_island (edges_graph (gn g) (whole ff)) u v <-> same_island (edges_graph (length (comp_nodes g c)) (kept ff c)) i j).
Proof.
  intros Hc Hi Hj. split.
  - intros H. unfold same_island in H. revert i Hi Hj. induction H as [u Hu|u x w Hu Hux _ IH]; intros i Hi Hj.
    + rewrite (nodes_index c i j u Hi Hj). apply linked_refl. unfold areas. cbn. eapply nth_error_lt; eauto.
    + assert (Hstep : exists i', nth_error (comp_nodes g c) i' = Some x /\
        touch (edges_graph (length (comp_nodes g c)) (kept ff c)) i i').
      { apply edges_touch in Hux. destruct (nodes_comp c i u Hi) as [_ Hcu].
        destruct Hux as [H|H]; apply whole_In in H; destruct H as [c' [a [b [_ [He [Ha Hb]]]]]].
        - destruct (nodes_comp c' a u Ha) as [_ Hc']. assert (Ecc : c' = c) by congruence. rewrite Ecc in He, Ha, Hb.
          rewrite (nodes_index c i a u Hi Ha). exists b. split; [auto|]. apply edges_touch. auto.
        - destruct (nodes_comp c' b u Hb) as [_ Hc']. assert (Ecc : c' = c) by congruence. rewrite Ecc in He, Ha, Hb.
          rewrite (nodes_index c i b u Hi Hb). exists a. split; [auto|]. apply edges_touch. auto. }
      destruct Hstep as [i' [Hi' Ht]]. eapply linked_step; [|exact Ht|apply IH; auto].
      unfold areas. cbn. eapply nth_error_lt; eauto.
  - intros H. unfold same_island in H. revert u Hi Hj. induction H as [i Hil|i x w Hil Hix Hxw IH]; intros u Hi Hj.
    + assert (u = v) by congruence. subst. apply linked_refl. unfold areas. cbn. apply (nodes_comp c i v Hi).
    + assert (Hx : x < length (comp_nodes g c)) by (apply linked_in_l in Hxw; exact Hxw).
      destruct (nth_error (comp_nodes g c) x) as [y|] eqn:Ey; [|apply nth_error_None in Ey; lia].
      eapply linked_step with (v := y); [apply (nodes_comp c i u Hi)| |apply (IH y); auto].
      apply edges_touch in Hix. apply edges_touch. destruct Hix as [He|He]; [left|right]; apply whole_In.
      * exists c, i, x. auto.
      * exists c, x, i. auto.
Qed.

Lemma whole_adj ff e : In e (whole ff) -> gadj g (fst e) (snd e) = true.
Proof.
  destruct e as [u v]. intros H. apply whole_In in H. destruct H as [c [i [j [Hc [He [Hi Hj]]]]]].
  apply filter_In in He. destruct He as [He _]. apply tree_adj in He. cbn [fst snd] in *.
  unfold comp_graph in He. cbn in He. rewrite sub_nodes_nil, Hi, Hj in He. exact He.
Qed.

Lemma whole_same ff u v : same_island (edges_graph (gn g) (whole ff)) u v -> same_island g u v.
Proof.
  apply same_island_touch_ext; [auto|]. intros x y H. apply edges_touch in H.
  destruct H as [H|H]; apply whole_adj in H; [left|right]; exact H.
Qed.

Lemma forest_spans : spans g forest_of.
Proof.
  assert (Hisl : forall u v, same_island (edges_graph (gn g) forest_of) u v <-> same_island g u v).
  { intros u v. split; [apply whole_same|]. intros H. destruct (same_island_lt g u v H) as [Hu Hv].
    assert (Ec : comp_label g u = comp_label g v) by (apply comp_label_eq; auto).
    destruct (node_at u Hu) as [i Hi]. destruct (node_at v Hv) as [j Hj]. rewrite <- Ec in Hj.
    pose proof (comp_label_lt g u Hu) as Hc. apply (island_up _ (comp_label g u) i j u v Hc Hi Hj).
    assert (Ek : kept (fun _ _ => true) (comp_label g u) = tree (comp_label g u)) by (apply filter_all; auto).
    rewrite Ek. apply tree_island. apply (comp_connected _ Hc).
    - unfold areas. rewrite comp_graph_n. eapply nth_error_lt; eauto.
    - unfold areas. rewrite comp_graph_n. eapply nth_error_lt; eauto. }
  split; [|split; [apply whole_adj|exact Hisl]]. apply forest_is_forest. split; [apply whole_NoDup|]. split.
  - intros [u v] H. apply whole_In in H. destruct H as [c [i [j [_ [_ [Hi Hj]]]]]]. cbn.
    split; eapply nodes_comp; eauto.
  - rewrite (n_components_ext _ g) by (auto). unfold forest_of. rewrite whole_length.
    assert (Hone : list_sum (map (fun _ => 1) (seq 0 (n_components g))) = n_components g).
    { assert (Es : forall m a, list_sum (map (fun _ : nat => 1) (seq a m)) = m) by (induction m as [|m IHm]; intros a; cbn; auto). apply Es. }
    rewrite <- Hone at 1. rewrite sum_parts. rewrite <- sum_nodes. f_equal. apply map_ext_in. intros c Hc. apply in_seq in Hc.
    rewrite <- (tree_length c) by lia. unfold kept, keep. rewrite filter_all by auto. lia.
Qed.

(** ** the numbers of the parts *)
Lemma nodes_sorted c i j u v : nth_error (comp_nodes g c) i = Some u -> nth_error (comp_nodes g c) j = Some v -> (i < j <-> u < v).
Proof.
  assert (Hs : StronglySorted lt (comp_nodes g c)) by (apply filter_sorted, seq_sorted).
  assert (Hlt : forall i j u v, nth_error (comp_nodes g c) i = Some u -> nth_error (comp_nodes g c) j = Some v -> i < j -> u < v).
  { induction Hs as [|x l Hs IH Hall]; intros i' j' u' v' Hi Hj Hij; [destruct i'; discriminate|].
    destruct j' as [|j']; [lia|]. cbn in Hj. destruct i' as [|i'].
    - cbn in Hi. injection Hi as <-. rewrite Forall_forall in Hall. apply Hall. eapply nth_error_In; eauto.
    - cbn in Hi. apply (IH i' j'); auto. lia. }
  intros Hi Hj. split; [apply Hlt; auto|]. intros H. destruct (Nat.lt_trichotomy i j) as [Hc|[->|Hc]]; [auto| |].
  - rewrite Hi in Hj. injection Hj as ->. lia.
  - apply (Hlt j i v u) in Hc; auto. lia.
Qed.

Lemma kept_comps h ff c : fits h ff -> c < n_components g ->
  n_components (edges_graph (length (comp_nodes g c)) (kept ff c)) = h c.
Proof.
  intros Hf Hc. specialize (Hf c Hc). destruct (forest_filter _ (ff c) _ (tree_forest c)) as [_ [_ H]]. unfold kept, keep in *. lia.
Qed.

Lemma base_mono h a b : a <= b -> base h a <= base h b.
Proof. induction 1 as [|b _ IH]; [auto|]. rewrite base_S. lia. Qed.

Lemma base_find h z : forall c, z < base h c -> exists k, k < c /\ base h k <= z < base h k + h k.
Proof.
  induction c as [|c IH]; intros H; [cbn in H; lia|]. rewrite base_S in H.
  destruct (Nat.lt_ge_cases z (base h c)) as [Hz|Hz]; [destruct (IH Hz) as [k [Hk H']]; exists k; split; [lia|auto]|].
  exists c. split; [lia|]. lia.
Qed.

Lemma start_range h ff c i u : fits h ff -> nth_error (comp_nodes g c) i = Some u ->
  base h c <= comp_label (edges_graph (length (comp_nodes g c)) (kept ff c)) i + base h c < base h (S c).
Proof.
  intros Hf Hi. destruct (nodes_comp c i u Hi) as [Hu Hcu].
  assert (Hc : c < n_components g) by (rewrite <- Hcu; apply comp_label_lt; auto).
  pose proof (comp_label_lt (edges_graph (length (comp_nodes g c)) (kept ff c)) i ltac:(cbn; eapply nth_error_lt; eauto)) as H.
  rewrite (kept_comps h ff c Hf Hc) in H. rewrite base_S. lia.
Qed.

Theorem start_numbers h ff : fits h ff -> numbers_parts g (whole ff) (base h (n_components g)) (start_of h ff).
Proof.
  intros Hf. split; [apply start_of_length|]. split; [|split].
  - intros z. split.
    + intros Hz. apply In_nth_error in Hz. destruct Hz as [u Hu].
      assert (Hug : u < gn g) by (apply nth_error_lt in Hu; rewrite start_of_length in Hu; auto).
      apply lab_of_nth_error in Hu. destruct (node_at u Hug) as [i Hi]. rewrite (start_nth h ff _ i u Hi) in Hu.
      pose proof (start_range h ff _ i u Hf Hi). pose proof (base_mono h (S (comp_label g u)) (n_components g) (comp_label_lt g u Hug)). lia.
    + intros Hz. destruct (base_find h (Z.to_nat z) (n_components g)) as [c [Hc Hb]]; [lia|].
      destruct (comp_label_onto (edges_graph (length (comp_nodes g c)) (kept ff c)) (Z.to_nat z - base h c)) as [i [Hi Ei]].
      { rewrite (kept_comps h ff c Hf Hc). lia. }
      cbn in Hi. destruct (nth_error (comp_nodes g c) i) as [u|] eqn:Eu; [|apply nth_error_None in Eu; lia].
      destruct (nodes_comp c i u Eu) as [Hug _].
      replace z with (lab (start_of h ff) u); [apply lab_in; rewrite start_of_length; auto|].
      rewrite (start_nth h ff c i u Eu), Ei. lia.
  - intros u v Hu Hv. rewrite links_edges. destruct (node_at u Hu) as [i Hi]. destruct (node_at v Hv) as [j Hj].
    rewrite (start_nth h ff _ i u Hi), (start_nth h ff _ j v Hj).
    pose proof (start_range h ff _ i u Hf Hi) as Ru. pose proof (start_range h ff _ j v Hf Hj) as Rv. split.
    + intros E. assert (Ec : comp_label g u = comp_label g v).
      { destruct (Nat.lt_trichotomy (comp_label g u) (comp_label g v)) as [Hc|[Hc|Hc]]; [|auto|].
        - pose proof (base_mono h (S (comp_label g u)) (comp_label g v) Hc). lia.
        - pose proof (base_mono h (S (comp_label g v)) (comp_label g u) Hc). lia. }
      rewrite <- Ec in *. apply (island_up ff (comp_label g u) i j u v (comp_label_lt g u Hu) Hi Hj).
      apply comp_label_eq; [cbn; eapply nth_error_lt; eauto|cbn; eapply nth_error_lt; eauto|]. lia.
    + intros H. assert (Ec : comp_label g u = comp_label g v) by (apply comp_label_eq; auto; eapply whole_same; eauto).
      rewrite <- Ec in *. apply (island_up ff (comp_label g u) i j u v (comp_label_lt g u Hu) Hi Hj) in H.
      apply comp_label_eq in H; [|cbn; eapply nth_error_lt; eauto|cbn; eapply nth_error_lt; eauto]. lia.
  - intros u v iu iv pu pv Hiu Hiv Hpu Hpv. rewrite links_edges in *.
    assert (Hu : u < gn g) by (destruct Hiu as [H _]; apply same_island_lt in H; tauto).
    assert (Hv : v < gn g) by (destruct Hiv as [H _]; apply same_island_lt in H; tauto).
    destruct (node_at u Hu) as [i Hi]. destruct (node_at v Hv) as [j Hj].
    rewrite (start_nth h ff _ i u Hi), (start_nth h ff _ j v Hj).
    pose proof (start_range h ff _ i u Hf Hi) as Ru. pose proof (start_range h ff _ j v Hf Hj) as Rv.
    pose proof (label_order g u v iu iv Hiu Hiv) as HO. pose proof (label_order g v u iv iu Hiv Hiu) as HO'.
    destruct (Nat.lt_trichotomy (comp_label g u) (comp_label g v)) as [Hc|[Ec|Hc]].
    + pose proof (base_mono h (S (comp_label g u)) (comp_label g v) Hc). split; intros; [left; apply HO; auto|lia].
    + assert (Eii : iu = iv) by lia.
      assert (Hlocal : forall w k pw, nth_error (comp_nodes g (comp_label g u)) k = Some w ->
        first_in (edges_graph (gn g) (whole ff)) w pw ->
        exists pk, nth_error (comp_nodes g (comp_label g u)) pk = Some pw /\
          first_in (edges_graph (length (comp_nodes g (comp_label g u))) (kept ff (comp_label g u))) k pk).
      { intros w k pw Hk [Hs Hm]. destruct (nodes_comp _ _ _ Hk) as [Hw Hcw].
        assert (Hpw : pw < gn g) by (apply same_island_lt in Hs; tauto).
        assert (Ecp : comp_label g pw = comp_label g u) by (rewrite <- Hcw; symmetry; apply comp_label_eq; auto; eapply whole_same; eauto).
        destruct (node_at pw Hpw) as [pk Hpk]. rewrite Ecp in Hpk. exists pk. split; [auto|]. split.
        - apply (island_up ff (comp_label g u) k pk w pw (comp_label_lt g u Hu) Hk Hpk); auto.
        - intros b Hb. assert (Hbl : b < length (comp_nodes g (comp_label g u))) by (apply same_island_lt in Hb; tauto).
          destruct (nth_error (comp_nodes g (comp_label g u)) b) as [x|] eqn:Ex; [|apply nth_error_None in Ex; lia].
          apply (island_up ff (comp_label g u) k b w x (comp_label_lt g u Hu) Hk Ex) in Hb. apply Hm in Hb.
          destruct (Nat.lt_ge_cases b pk) as [Hl|Hl]; [|auto]. apply (nodes_sorted _ b pk x pw Ex Hpk) in Hl. lia. }
      rewrite <- Ec in *. destruct (Hlocal u i pu Hi Hpu) as [pi [Hpi Fi]]. destruct (Hlocal v j pv Hj Hpv) as [pj [Hpj Fj]].
      pose proof (label_order _ i j pi pj Fi Fj) as HL. pose proof (nodes_sorted _ pi pj pu pv Hpi Hpj) as HS.
      split; [intros H; right; split; [auto|]; apply HS, HL; lia|]. intros [H|[_ H]]; [lia|]. apply HS, HL in H. lia.
    + pose proof (base_mono h (S (comp_label g v)) (comp_label g u) Hc). split; intros H'; [lia|]. apply HO' in Hc. lia.
Qed.

Lemma numbers_unique K p l l' : numbers_parts g K p l -> numbers_parts g K p l' -> l = l'.
Proof.
  intros [L1 [X1 [S1 O1]]] [L2 [X2 [S2 O2]]].
  assert (Hord' : forall u v, u < gn g -> v < gn g -> ((lab l u < lab l v)%Z <-> (lab l' u < lab l' v)%Z)).
  { intros u v Hu Hv. destruct (first_exists g u Hu) as [iu Hiu]. destruct (first_exists g v Hv) as [iv Hiv].
    destruct (first_exists (links (gn g) K) u Hu) as [pu Hpu]. destruct (first_exists (links (gn g) K) v Hv) as [pv Hpv].
    rewrite (O1 u v iu iv pu pv), (O2 u v iu iv pu pv) by auto. tauto. }
  assert (H : forall n u, u < gn g -> lab l u = Z.of_nat n -> lab l' u = Z.of_nat n).
  { induction n as [n IH] using lt_wf_ind. intros u Hu E.
    assert (Hr : (0 <= lab l' u < Z.of_nat p)%Z) by (apply X2, lab_in; lia).
    assert (Hr1 : (0 <= lab l u < Z.of_nat p)%Z) by (apply X1, lab_in; lia).
    destruct (Z.lt_trichotomy (lab l' u) (Z.of_nat n)) as [Hc|[Hc|Hc]]; [exfalso|auto|exfalso].
    - assert (Hin : In (lab l' u) l) by (apply X1; lia). apply In_nth_error in Hin. destruct Hin as [w Hw].
      assert (Hwg : w < gn g) by (apply nth_error_lt in Hw; lia). apply lab_of_nth_error in Hw.
      pose proof (IH (Z.to_nat (lab l' u)) ltac:(lia) w Hwg ltac:(lia)) as E'.
      assert (Es : lab l' w = lab l' u) by lia. apply (S2 w u Hwg Hu) in Es. apply (S1 w u Hwg Hu) in Es. lia.
    - assert (Hin : In (Z.of_nat n) l') by (apply X2; lia). apply In_nth_error in Hin. destruct Hin as [w Hw].
      assert (Hwg : w < gn g) by (apply nth_error_lt in Hw; lia). apply lab_of_nth_error in Hw.
      assert (Hlt : (lab l w < lab l u)%Z) by (apply Hord'; auto; lia).
      assert (Hr2 : (0 <= lab l w < Z.of_nat p)%Z) by (apply X1, lab_in; lia).
      pose proof (IH (Z.to_nat (lab l w)) ltac:(lia) w Hwg ltac:(lia)). lia. }
  apply nth_error_ext'; [lia|]. intros u Hu. rewrite !lab_nth_error by lia. f_equal.
  assert (Hr1 : (0 <= lab l u < Z.of_nat p)%Z) by (apply X1, lab_in; lia).
  rewrite (H (Z.to_nat (lab l u)) u) by lia. lia.
Qed.

Lemma numbers_ext K K' p l : (forall e, In e K <-> In e K') -> numbers_parts g K p l -> numbers_parts g K' p l.
Proof.
  intros HK [L [X [S' O]]]. assert (Hs : forall u v, same_island (links (gn g) K) u v <-> same_island (links (gn g) K') u v)
    by (intros; rewrite !links_edges; apply edges_graph_ext; auto).
  assert (Hfi : forall u f, first_in (links (gn g) K') u f -> first_in (links (gn g) K) u f).
  { intros u f [H1 H2]. split; [apply Hs; auto|]. intros b Hb. apply H2, Hs; auto. }
  split; [auto|]. split; [auto|]. split.
  - intros u v Hu Hv. rewrite <- Hs. auto.
  - intros. apply O; auto.
Qed.

Theorem tree_start_iff p labels : tree_start g forest_of p labels <->
  exists h ff, fits h ff /\ base h (n_components g) = p /\ labels = start_of h ff.
Proof.
  split.
  - intros [K [Hnd [Hi [Hl Hn]]]]. set (ff := fun c e => existsb (edge_eqb (up c e)) K).
    set (h := fun c => length (comp_nodes g c) - length (kept ff c)).
    assert (HK : forall e, In e (whole ff) <-> In e K).
    { intros [u v]. rewrite whole_In. split.
      - intros [c [i [j [Hc [He [Hi' Hj]]]]]]. apply filter_In in He. destruct He as [_ He]. apply existsb_edge in He.
        unfold up in He. cbn [fst snd] in He. rewrite (nth_error_nth _ _ 0 Hi'), (nth_error_nth _ _ 0 Hj) in He. auto.
      - intros HeK. specialize (Hi _ HeK). apply whole_In in Hi. destruct Hi as [c [i [j [Hc [He [Hi' Hj]]]]]].
        exists c, i, j. split; [auto|]. split; [|auto]. apply filter_In in He. apply filter_In. split; [tauto|].
        apply existsb_edge. unfold up. cbn [fst snd]. rewrite (nth_error_nth _ _ 0 Hi'), (nth_error_nth _ _ 0 Hj). auto. }
    assert (Hf : fits h ff).
    { intros c Hc. unfold h. pose proof (kept_le ff c). pose proof (tree_length c Hc). lia. }
    pose proof (fits_total h ff Hf) as Ht. assert (El : length (whole ff) = length K) by (apply NoDup_same_length; auto; apply whole_NoDup).
    assert (Eb : base h (n_components g) = p) by lia.
    exists h, ff. split; [auto|]. split; [auto|]. apply (numbers_unique K p); [auto|].
    rewrite <- Eb. eapply numbers_ext; [exact HK|]. apply start_numbers; auto.
  - intros [h [ff [Hf [<- ->]]]]. exists (whole ff). split; [apply whole_NoDup|]. split; [apply whole_incl|].
    split; [apply fits_total; auto|apply start_numbers; auto].
Qed.

(** such labels are feasible *)
Lemma tree_start_feasible T p labels : spans g T -> tree_start g T p labels -> feasible g labels p /\ labels_exactly labels p.
Proof.
  intros [_ [Hadj _]] [K [_ [Hi [_ [L [X [HS _]]]]]]]. split; [|auto]. split; [auto|]. split; [apply labels_exactly_n; auto|].
  intros z Hz. split.
  - apply In_nth_error in Hz. destruct Hz as [u Hu]. exists u. exact Hu.
  - intros u v Hu Hv. assert (Hug : u < gn g) by (apply nth_error_lt in Hu; lia). assert (Hvg : v < gn g) by (apply nth_error_lt in Hv; lia).
    assert (Es : same_island (links (gn g) K) u v).
    { apply HS; auto. rewrite (lab_of_nth_error _ _ _ Hu), (lab_of_nth_error _ _ _ Hv). auto. }
    clear Hvg Hz. unfold same_island in Es. induction Es as [u Hu'|u x w Hu' Hux Hxw IH]; [apply linked_refl; auto|].
    assert (Hxg : x < gn g) by (apply linked_in_l in Hxw; exact Hxw).
    assert (Hx : region labels z x).
    { unfold region. rewrite lab_nth_error by lia. f_equal. rewrite <- (lab_of_nth_error _ _ _ Hu). symmetry. apply HS; auto.
      eapply linked_step; [exact Hu'|exact Hux|]. apply linked_refl. exact Hxg. }
    eapply linked_step with (v := x); [exact Hu| |apply IH; auto].
    rewrite links_edges in Hux. apply edges_touch in Hux. destruct Hux as [H|H]; apply Hi, Hadj in H; [left|right]; exact H.
Qed.

Lemma start_of_tree h ff : fits h ff -> tree_start g forest_of (base h (n_components g)) (start_of h ff).
Proof. intros Hf. apply tree_start_iff. exists h, ff. auto. Qed.

Lemma start_of_good h ff : fits h ff -> wf g (start_of h ff) /\ ~ In (-1)%Z (start_of h ff).
Proof.
  intros Hf. destruct (tree_start_feasible _ _ _ forest_spans (start_of_tree h ff Hf)) as [[H1 [_ H3]] HX].
  split; [split; auto|]. intros H. apply HX in H. lia.
Qed.

Lemma overlays_unique n arrs l l' : overlays n arrs l -> overlays n arrs l' -> l = l'.
Proof.
  intros [L1 H1] [L2 H2]. apply nth_error_ext'; [lia|]. intros a Ha. rewrite L1 in Ha.
  destruct (H1 a Ha) as [i [x [Hi [Ex [Nx Ux]]]]]. destruct (H2 a Ha) as [j [y [Hj [Ey [Ny Uy]]]]].
  destruct (Nat.eq_dec j i) as [->|Hne]; [|exfalso; apply Ny; apply (Ux j); auto]. rewrite Hi in Hj. injection Hj as <-. congruence.
Qed.

Theorem initial_solutions_starts p labels : p <> 1%Z -> 0 < gn g ->
  (Z.of_nat (n_components g) <= p <= Z.of_nat (gn g))%Z ->
  ((exists arrs r r', initial_solutions order g p r = Ok (map YArr arrs, r') /\ overlays (gn g) arrs labels) <->
   tree_start g forest_of (Z.to_nat p) labels).
Proof.
  intros Hp1 Hg Hp. rewrite tree_start_iff.
  assert (Hover : forall h ff, fits h ff -> overlays (gn g) (map (arr_of h ff) (seq 0 (n_components g))) (start_of h ff)).
  { intros h ff Hf. assert (E : map (arr_of h ff) (seq 0 (n_components g)) = separate_components g (start_of h ff)).
    { unfold separate_components. apply map_ext. intros c. apply arr_separate. }
    rewrite E. destruct (start_of_good h ff Hf) as [[Hl _] Hm1]. split; [auto|]. intros a Ha.
    exists (comp_label g a), (separate_one g (start_of h ff) (comp_label g a)). unfold separate_components.
    pose proof (comp_label_lt g a Ha) as Hc. split; [|split; [apply separate_one_in; auto|split]].
    - rewrite nth_error_map, (nth_error_nth' _ 0), seq_nth by (rewrite ?seq_length; auto). reflexivity.
    - rewrite separate_one_in by auto. intros H. apply Hm1. eapply nth_error_In; eauto.
    - intros j arr' Hj Hn. rewrite nth_error_map in Hn. destruct (nth_error (seq 0 (n_components g)) j) as [k|] eqn:Ek; [|discriminate].
      cbn in Hn. injection Hn as <-. assert (k = j).
      { assert (j < n_components g) by (apply nth_error_lt in Ek; rewrite seq_length in Ek; auto).
        rewrite (nth_error_nth' _ 0), seq_nth in Ek by (rewrite ?seq_length; auto). injection Ek as <-. auto. }
      subst k. apply separate_one_out; auto. }
  split.
  - intros [arrs [r [r' [H HO]]]]. unfold initial_solutions in H.
    destruct (generate_sound _ p Hp1 Hg Hp _ _ _ _ H) as [h [ff [st [Hf [Hb [H0 [H1 Hst]]]]]]].
    assert (Est : forall k, k <= n_components g -> st k = map YArr (map (arr_of h ff) (seq 0 k))).
    { induction k as [|k IH]; intros Hk; [exact H0|]. destruct (Hst k ltac:(lia)) as [r1 [r2 E]]. injection E as E _.
      rewrite <- E, IH, seq_S, !map_app by lia. reflexivity. }
    rewrite (Est _ (le_n _)) in H1. exists h, ff. split; [auto|]. split; [auto|].
    assert (arrs = map (arr_of h ff) (seq 0 (n_components g))).
    { clear - H1. revert arrs H1. induction (map (arr_of h ff) (seq 0 (n_components g))) as [|x l IH]; intros [|y arrs] H; cbn in H; try discriminate; [auto|].
      injection H as <- H. f_equal. auto. }
    subst arrs. eapply overlays_unique; [exact HO|auto].
  - intros [h [ff [Hf [Hb ->]]]].
    destruct (generate_reach (fun y acc r => Ok (acc ++ [y], r)) p Hp1 Hg Hp h ff (fun k => map YArr (map (arr_of h ff) (seq 0 k))) Hf Hb)
      with (r' := fun _ : nat => 0) as [r E].
    + intros k Hk r'. exists r'. rewrite seq_S, !map_app. reflexivity.
    + exists (map (arr_of h ff) (seq 0 (n_components g))), r, (fun _ => 0). split; [exact E|auto].
Qed.

(** ** fit from a random start *)
Section FitStarts.
Variable S : Type.
Variable start : S -> list Z -> list (list Q) -> list nat -> out S.
Variable component : graph -> list Z -> list (list Q) -> S -> rng -> out (list Z * S * rng).
Variable attr : list (list Q).
Variable J : S -> Prop.
Variable R : nat -> list Z -> list Z -> Prop.
Variable p : Z.
Hypothesis Hp1 : p <> 1%Z.
Hypothesis Hg : 0 < gn g.
Hypothesis Hp : (Z.of_nat (n_components g) <= p <= Z.of_nat (gn g))%Z.

Lemma arr_part h ff c : fits h ff -> comp_part g (arr_of h ff c) c = comp_part g (start_of h ff) c.
Proof.
  intros Hf. destruct (start_of_good h ff Hf) as [[Hlen _] _]. rewrite arr_separate. unfold comp_part, gather. apply map_ext_in.
  intros a Ha. apply comp_nodes_In in Ha. destruct Ha as [Ha Hca].
  pose proof (separate_one_in g (start_of h ff) c a Hlen Ha Hca) as Hs.
  rewrite (nth_error_nth (start_of h ff) a (-1)%Z (x := lab (start_of h ff) a)) by (apply lab_nth_error; lia).
  apply nth_error_nth. rewrite Hs. apply lab_nth_error. lia.
Qed.

Lemma arr_one h ff c labels s r : fits h ff -> c < n_components g ->
  fit_one S start component g attr (YArr (arr_of h ff c)) (labels, s) r =
  let* '(l', s2, r') := run_component S start component g attr c (comp_part g (start_of h ff) c) s r in
  let* labels' := assign_idx labels (comp_nodes g c) l' in Ok ((labels', s2), r').
Proof.
  intros Hf Hc. destruct (start_of_good h ff Hf) as [[Hlen _] Hm1].
  rewrite (fit_one_run S start component g attr c), arr_part; auto.
  - rewrite arr_separate. apply separate_one_length.
  - intros a Ha. rewrite arr_separate. split.
    + intros Hs Hca. rewrite separate_one_in in Hs by auto. apply Hm1. eapply nth_error_In; eauto.
    + apply separate_one_out; auto.
Qed.

Theorem fit_start_sound s r labels s' r' :
  (forall c l s r l' s2 r', c < n_components g -> wf (comp_graph g c) l -> J s ->
     run_component S start component g attr c l s r = Ok (l', s2, r') -> J s2 /\ length l' = length (comp_nodes g c) /\ R c l l') ->
  J s -> fit S start component order g attr p None s r = Ok ((labels, s'), r') ->
  exists labels0, tree_start g forest_of (Z.to_nat p) labels0 /\ length labels = gn g /\
    forall c, c < n_components g -> R c (comp_part g labels0 c) (comp_part g labels c).
Proof.
  intros Hcomp HJ H. unfold fit in H.
  destruct (generate_sound _ p Hp1 Hg Hp _ _ _ _ H) as [h [ff [st [Hf [Hb [H0 [H1 Hst]]]]]]].
  exists (start_of h ff). split; [rewrite <- Hb; apply start_of_tree; auto|].
  destruct (start_of_good h ff Hf) as [Hwf _].
  assert (HI : forall k, k <= n_components g -> J (snd (st k)) /\ length (fst (st k)) = gn g /\
    forall c, c < k -> R c (comp_part g (start_of h ff) c) (comp_part g (fst (st k)) c)).
  { induction k as [|k IH]; intros Hk.
    - rewrite H0. cbn. split; [auto|]. split; [apply repeat_length|intros; lia].
    - destruct (IH ltac:(lia)) as [HJk [Hlk HRk]]. destruct (Hst k ltac:(lia)) as [r1 [r2 E]].
      destruct (st k) as [lk sk]. cbn [fst snd] in *. rewrite arr_one in E by (auto; lia).
      destruct (run_component _ _ _ _ _ _ _ _ _) as [[[l' s2] r3]|e|] eqn:Er; cbn [bind] in E; try discriminate.
      apply Hcomp in Er; auto; [|apply wf_part; auto]. destruct Er as [HJ2 [Hl' HR]].
      unfold assign_idx in E. rewrite Hl', Nat.eqb_refl in E. cbn [bind] in E. injection E as E _. rewrite <- E. cbn [fst snd].
      split; [auto|]. split; [rewrite scatter_length; auto|]. intros c Hc.
      destruct (Nat.eq_dec c k) as [->|Hne].
      + unfold comp_part at 2. rewrite gather_scatter_same; auto; [apply comp_nodes_NoDup|].
        intros a Ha. rewrite Hlk. eapply comp_nodes_lt; eauto.
      + unfold comp_part at 2. rewrite gather_scatter_other; [apply HRk; lia| |].
        * intros a. apply comp_nodes_disjoint. auto.
        * intros a Ha. rewrite Hlk. eapply comp_nodes_lt; eauto. }
  destruct (HI _ (le_n _)) as [_ [Hl HR]]. rewrite H1 in *. cbn [fst] in *. auto.
Qed.

Theorem fit_start_reach s labels0 target :
  (forall c l s l', c < n_components g -> wf (comp_graph g c) l -> J s -> R c l l' ->
     exists s2, J s2 /\ forall r', exists r, run_component S start component g attr c l s r = Ok (l', s2, r')) ->
  tree_start g forest_of (Z.to_nat p) labels0 -> length target = gn g ->
  (forall c, c < n_components g -> R c (comp_part g labels0 c) (comp_part g target c)) -> J s ->
  exists s', J s' /\ forall r', exists r, fit S start component order g attr p None s r = Ok ((target, s'), r').
Proof.
  intros Hcomp Hts Ht HR HJ. apply tree_start_iff in Hts. destruct Hts as [h [ff [Hf [Hb ->]]]].
  destruct (start_of_good h ff Hf) as [Hwf _].
  set (lab_k := fun k => map (fun a => if Nat.ltb (comp_label g a) k then lab target a else (-1)%Z) (seq 0 (gn g))).
  assert (Hlab : forall k a, a < gn g -> nth_error (lab_k k) a = Some (if Nat.ltb (comp_label g a) k then lab target a else (-1)%Z)).
  { intros k a Ha. unfold lab_k. rewrite nth_error_map, (nth_error_nth' _ 0), seq_nth by (rewrite ?seq_length; auto). reflexivity. }
  assert (Hlen : forall k, length (lab_k k) = gn g) by (intros; unfold lab_k; rewrite map_length, seq_length; auto).
  assert (Hseq : exists ss : nat -> S, ss 0 = s /\ forall k, k <= n_components g -> J (ss k) /\
    (k < n_components g -> forall r', exists r, run_component S start component g attr k (comp_part g (start_of h ff) k) (ss k) r =
        Ok (comp_part g target k, ss (Datatypes.S k), r'))).
  { assert (Hm : forall m, m <= n_components g -> exists ss : nat -> S, ss 0 = s /\ (forall k, k <= m -> J (ss k)) /\
      forall k, k < m -> forall r', exists r, run_component S start component g attr k (comp_part g (start_of h ff) k) (ss k) r =
        Ok (comp_part g target k, ss (Datatypes.S k), r')).
    { induction m as [|m IH]; intros Hm.
      - exists (fun _ => s). split; [auto|]. split; [auto|]. intros; lia.
      - destruct (IH ltac:(lia)) as [ss [E0 [HJs Hs]]].
        destruct (Hcomp m (comp_part g (start_of h ff) m) (ss m) (comp_part g target m)) as [s2 [HJ2 Hr]]; auto; [apply wf_part; auto|].
        exists (fun k => if Nat.eqb k (Datatypes.S m) then s2 else ss k). split; [cbn; auto|]. split.
        + intros k Hk. destruct (Nat.eqb_spec k (Datatypes.S m)); [auto|]. apply HJs. lia.
        + intros k Hk r'. destruct (Nat.eqb_spec k (Datatypes.S m)); [lia|].
          destruct (Nat.eqb_spec (Datatypes.S k) (Datatypes.S m)) as [E|E].
          * assert (k = m) by lia. subst k. apply Hr.
          * apply Hs. lia. }
    destruct (Hm _ (le_n _)) as [ss [E0 [HJs Hs]]]. exists ss. split; [auto|]. intros k Hk. split; [auto|]. intros Hk'. auto. }
  destruct Hseq as [ss [E0 Hss]]. exists (ss (n_components g)). split; [apply Hss; auto|]. intros r'. unfold fit.
  assert (Ei : (minus_ones (gn g), s) = (fun k => (lab_k k, ss k)) 0).
  { cbn. rewrite E0. f_equal. apply nth_error_ext'; [rewrite Hlen; apply repeat_length|]. intros a Ha. unfold minus_ones in Ha. rewrite repeat_length in Ha.
    rewrite Hlab, minus_ones_nth by auto. reflexivity. }
  assert (Ef : target = lab_k (n_components g)).
  { apply nth_error_ext'; [rewrite Hlen; auto|]. intros a Ha. rewrite Ht in Ha. rewrite Hlab by auto.
    destruct (Nat.ltb_spec (comp_label g a) (n_components g)) as [_|H]; [apply lab_nth_error; lia|].
    pose proof (comp_label_lt g a Ha). lia. }
  assert (Et : (target, ss (n_components g)) = (fun k => (lab_k k, ss k)) (n_components g)) by (cbn; f_equal; exact Ef).
  rewrite Ei, Et. apply (generate_reach _ p Hp1 Hg Hp h ff (fun k => (lab_k k, ss k)) Hf Hb).
  intros k Hk r1. destruct (Hss k ltac:(lia)) as [_ Hrun]. destruct (Hrun Hk r1) as [r0 E]. exists r0.
  rewrite arr_one, E by auto. cbn [bind]. unfold assign_idx.
  rewrite comp_part_length, comp_graph_n, Nat.eqb_refl. cbn [bind]. do 3 f_equal.
  apply nth_error_ext'; [rewrite scatter_length, !Hlen; auto|]. intros a Ha. rewrite scatter_length, Hlen in Ha. rewrite Hlab by auto.
  destruct (Nat.eq_dec (comp_label g a) k) as [Ec|Ec].
  - destruct (In_nth_error (comp_nodes g k) a) as [i Hi]; [apply comp_nodes_In; auto|].
    rewrite (scatter_in _ _ _ i a (lab target a)); auto.
    + destruct (Nat.ltb_spec (comp_label g a) (Datatypes.S k)); [auto|lia].
    + apply comp_nodes_NoDup.
    + unfold comp_part. rewrite (gather_nth _ _ _ i a) by (auto; lia). apply lab_nth_error. lia.
    + rewrite Hlen. auto.
  - rewrite scatter_notin by (intros H; apply comp_nodes_In in H; tauto). rewrite Hlab by auto.
    destruct (Nat.ltb_spec (comp_label g a) k), (Nat.ltb_spec (comp_label g a) (Datatypes.S k)); auto; lia.
Qed.
End FitStarts.
End Starts.
