(** Counting components; forests; spanning trees. *)
From Verif Require Import Base Spec M_Graph P_Graph M_Util P_Base P_Util.

(** ** Counting components through representatives *)
Lemma reps_count g R : reps g R -> length R = n_components g.
Proof.
  intros [Hnd [Hb [Hdis Hcov]]].
  assert (E : length (map (comp_label g) R) = length (seq 0 (n_components g))).
  { apply NoDup_same_length.
    - apply NoDup_map_inj; auto. intros x y Hx Hy Exy. apply Hdis; auto. apply comp_label_eq; auto.
    - apply seq_NoDup.
    - intros k. rewrite in_map_iff, in_seq. split.
      + intros [x [<- Hx]]. pose proof (comp_label_lt g x (Hb x Hx)). lia.
      + intros Hk. destruct (comp_label_onto g k ltac:(lia)) as [v [Hv Ev]].
        destruct (Hcov v Hv) as [u [Hu Huv]]. exists u. split; auto. rewrite <- Ev.
        apply comp_label_eq; auto. }
  rewrite map_length, seq_length in E. exact E.
Qed.

Lemma reps_exist g : exists R, reps g R.
Proof.
  assert (H : forall k, k <= n_components g -> exists R, map (comp_label g) R = seq 0 k /\ forall v, In v R -> v < gn g).
  { induction k as [|k IH]; intros Hk.
    - exists []. split; [reflexivity|intros v []].
    - destruct (IH ltac:(lia)) as [R [E Hb]]. destruct (comp_label_onto g k ltac:(lia)) as [v [Hv Ev]].
      exists (R ++ [v]). rewrite map_app, E, seq_S. cbn. rewrite Ev. split; auto.
      intros w Hw. apply in_app_or in Hw. destruct Hw as [Hw|[<-|[]]]; auto. }
  destruct (H (n_components g) (le_n _)) as [R [E Hb]]. exists R.
  assert (Hnd : NoDup (map (comp_label g) R)) by (rewrite E; apply seq_NoDup).
  repeat split; auto.
  - eapply NoDup_map_inv; eauto.
  - intros u v Hu Hv Huv. apply comp_label_eq in Huv; auto.
    clear -Hnd Hu Hv Huv. induction R as [|x R IH]; [destruct Hu|].
    cbn in Hnd. inversion Hnd as [|? ? Hx Hnd']; subst.
    destruct Hu as [<-|Hu]; destruct Hv as [<-|Hv]; auto.
    + exfalso. apply Hx. rewrite Huv. apply in_map; auto.
    + exfalso. apply Hx. rewrite <- Huv. apply in_map; auto.
  - intros v Hv. assert (Hin : In (comp_label g v) (map (comp_label g) R)).
    { rewrite E. apply in_seq. pose proof (comp_label_lt g v Hv). lia. }
    apply in_map_iff in Hin. destruct Hin as [u [Eu Hu]]. exists u. split; auto.
    apply comp_label_eq; auto.
Qed.

Lemma n_islands_iff g c : n_islands g c <-> c = n_components g.
Proof.
  split.
  - intros [R [HR <-]]. apply reps_count; auto.
  - intros ->. destruct (reps_exist g) as [R HR]. exists R. split; auto. apply reps_count; auto.
Qed.

(** the number of components only depends on the "same island" relation *)
Lemma n_components_ext g h : gn g = gn h ->
  (forall u v, same_island g u v <-> same_island h u v) -> n_components g = n_components h.
Proof.
  intros En H. destruct (reps_exist g) as [R HR]. rewrite <- (reps_count g R HR).
  apply reps_count. destruct HR as [H1 [H2 [H3 H4]]]. repeat split; auto.
  - intros v Hv. rewrite <- En. auto.
  - intros u v Hu Hv Huv. apply H3; auto. apply H; auto.
  - intros v Hv. rewrite <- En in Hv. destruct (H4 v Hv) as [u [Hu Huv]]. exists u. split; auto. apply H; auto.
Qed.

Lemma same_island_touch_ext g h : gn g = gn h -> (forall u v, touch g u v -> touch h u v) ->
  forall u v, same_island g u v -> same_island h u v.
Proof.
  intros En Ht u v. unfold same_island. induction 1 as [u Hu|u x w Hu Hux _ IH].
  - apply linked_refl. unfold areas in *. lia.
  - eapply linked_step; [|apply Ht; eauto|exact IH]. unfold areas in *. lia.
Qed.

Lemma same_island_refl g u : u < gn g -> same_island g u u.
Proof. intros. apply linked_refl; auto. Qed.
Lemma same_island_sym g u v : same_island g u v -> same_island g v u.
Proof. apply linked_sym. Qed.
Lemma same_island_trans g u v w : same_island g u v -> same_island g v w -> same_island g u w.
Proof. apply linked_trans. Qed.
Lemma same_island_lt g u v : same_island g u v -> u < gn g /\ v < gn g.
Proof. intros H. split; [apply (linked_in_l _ _ _ _ H)|apply (linked_in_r _ _ _ _ H)]. Qed.

Lemma same_island_dec g u v : u < gn g -> v < gn g -> {same_island g u v} + {~ same_island g u v}.
Proof.
  intros Hu Hv. destruct (Nat.eq_dec (comp_label g u) (comp_label g v)) as [E|E].
  - left. apply comp_label_eq; auto.
  - right. intros H. apply E. apply comp_label_eq; auto.
Qed.

(** ** Adding one edge *)
Definition adds_edge (g h : graph) (a b : nat) : Prop :=
  gn g = gn h /\ a < gn g /\ b < gn g /\
  forall u v, touch h u v <-> touch g u v \/ (u = a /\ v = b) \/ (u = b /\ v = a).

Lemma adds_edge_island g h a b : adds_edge g h a b -> forall u v,
  same_island h u v <->
  same_island g u v \/ (same_island g u a /\ same_island g b v) \/ (same_island g u b /\ same_island g a v).
Proof.
  intros [En [Ha [Hb Ht]]] u v.
  assert (Hsub : forall x y, same_island g x y -> same_island h x y).
  { apply same_island_touch_ext; auto. intros x y Hxy. apply Ht; auto. }
  assert (Hab : same_island h a b).
  { apply linked_one; unfold areas; [lia|lia|]. apply Ht. auto. }
  split.
  - unfold same_island at 1. induction 1 as [u Hu|u x w Hu Hux Hxw IH].
    + left. apply same_island_refl. unfold areas in Hu. lia.
    + assert (Hu' : u < gn g) by (unfold areas in Hu; lia).
      apply Ht in Hux. destruct Hux as [Hux|[[-> ->]|[-> ->]]].
      * assert (Hux' : same_island g u x).
        { apply linked_one; auto. apply (linked_in_l _ _ _ _) in Hxw. unfold areas in *. lia. }
        destruct IH as [IH|[[I1 I2]|[I1 I2]]].
        -- left. eapply same_island_trans; eauto.
        -- right; left. split; auto. eapply same_island_trans; eauto.
        -- right; right. split; auto. eapply same_island_trans; eauto.
      * destruct IH as [IH|[[I1 I2]|[I1 I2]]].
        -- right; left. split; [apply same_island_refl; auto|auto].
        -- right; left. split; [apply same_island_refl; auto|auto].
        -- left. auto.
      * destruct IH as [IH|[[I1 I2]|[I1 I2]]].
        -- right; right. split; [apply same_island_refl; auto|auto].
        -- left. auto.
        -- right; right. split; [apply same_island_refl; auto|auto].
  - intros [H|[[H1 H2]|[H1 H2]]].
    + auto.
    + eapply same_island_trans; [apply Hsub, H1|]. eapply same_island_trans; [exact Hab|auto].
    + eapply same_island_trans; [apply Hsub, H1|].
      eapply same_island_trans; [apply same_island_sym; exact Hab|auto].
Qed.

Lemma adds_edge_joined g h a b : adds_edge g h a b -> same_island g a b ->
  n_components h = n_components g.
Proof.
  intros He Hab. symmetry. apply n_components_ext; [apply He|].
  intros u v. rewrite (adds_edge_island g h a b He). split; [auto|].
  intros [H|[[H1 H2]|[H1 H2]]]; auto.
  - eapply same_island_trans; [exact H1|]. eapply same_island_trans; eauto.
  - eapply same_island_trans; [exact H1|].
    eapply same_island_trans; [apply same_island_sym; exact Hab|auto].
Qed.

Lemma adds_edge_joins g h a b : adds_edge g h a b -> ~ same_island g a b ->
  S (n_components h) = n_components g.
Proof.
  intros He Hab. pose proof He as [En [Ha [Hb Ht]]].
  destruct (reps_exist g) as [R HR]. pose proof HR as [Hnd [HRb [Hdis Hcov]]].
  destruct (Hcov b Hb) as [rb [Hrb Hrb']].
  apply in_split in Hrb. destruct Hrb as [R1 [R2 ->]].
  assert (Hperm : Permutation (R1 ++ rb :: R2) (rb :: R1 ++ R2)) by (symmetry; apply Permutation_middle).
  assert (Hnd' : NoDup (rb :: R1 ++ R2)) by (eapply Permutation_NoDup; eauto).
  inversion Hnd' as [|? ? Hni Hnd'']; subst.
  assert (Hmem : forall x, In x (R1 ++ rb :: R2) <-> x = rb \/ In x (R1 ++ R2)).
  { intros x. split; intros Hx.
    - apply (Permutation_in _ Hperm) in Hx. destruct Hx; auto.
    - apply (Permutation_in _ (Permutation_sym Hperm)). destruct Hx; [left; auto|right; auto]. }
  assert (Hne : forall x, In x (R1 ++ R2) -> ~ same_island g x b).
  { intros x Hx Hxb. apply Hni. assert (x = rb); [|subst; auto]. apply Hdis.
    - apply Hmem; auto.
    - apply Hmem; auto.
    - eapply same_island_trans; [exact Hxb|apply same_island_sym; auto]. }
  assert (Hh : reps h (R1 ++ R2)).
  { repeat split; auto.
    - intros v Hv. rewrite <- En. apply HRb. apply Hmem; auto.
    - intros u v Hu Hv Huv. apply (adds_edge_island g h a b He) in Huv.
      destruct Huv as [H|[[H1 H2]|[H1 H2]]].
      + apply Hdis; auto; apply Hmem; auto.
      + exfalso. apply (Hne v Hv). apply same_island_sym; auto.
      + exfalso. apply (Hne u Hu). auto.
    - intros v Hv. rewrite <- En in Hv. destruct (Hcov v Hv) as [u [Hu Huv]].
      apply Hmem in Hu. destruct Hu as [->|Hu].
      + destruct (Hcov a Ha) as [ra [Hra Hra']]. apply Hmem in Hra. destruct Hra as [->|Hra].
        * exfalso. apply Hab. eapply same_island_trans; [apply same_island_sym; exact Hra'|auto].
        * exists ra. split; auto. apply (adds_edge_island g h a b He). right; left. split; auto.
          eapply same_island_trans; [apply same_island_sym; exact Hrb'|exact Huv].
      + exists u. split; auto. apply (adds_edge_island g h a b He). auto. }
  rewrite <- (reps_count _ _ Hh), <- (reps_count _ _ HR), !app_length. cbn. lia.
Qed.

(** ** Edge lists *)
Lemma edge_eqb_eq e f : edge_eqb e f = true <-> e = f.
Proof.
  unfold edge_eqb. destruct e as [a b], f as [c d]. cbn. rewrite andb_true_iff, !Nat.eqb_eq. split.
  - intros [-> ->]; auto.
  - intros H; injection H as -> ->; auto.
Qed.

Lemma existsb_edge e es : existsb (edge_eqb e) es = true <-> In e es.
Proof.
  rewrite existsb_exists. split.
  - intros [f [Hf E]]. apply edge_eqb_eq in E. subst; auto.
  - intros H. exists e. split; auto. apply edge_eqb_eq; auto.
Qed.

Lemma edges_touch n es u v : touch (edges_graph n es) u v <-> In (u, v) es \/ In (v, u) es.
Proof. unfold touch, edges_graph; cbn. rewrite !existsb_edge. tauto. Qed.

Definition in_range (n : nat) (es : list edge) : Prop :=
  forall e, In e es -> fst e < n /\ snd e < n.

Lemma edges_graph_cons_adds n es a b : a < n -> b < n ->
  adds_edge (edges_graph n es) (edges_graph n ((a, b) :: es)) a b.
Proof.
  intros Ha Hb. repeat split; auto; intros H.
  - apply edges_touch in H. cbn in H. rewrite edges_touch.
    destruct H as [[E|H]|[E|H]]; auto; injection E as -> ->; auto.
  - rewrite edges_touch in H. apply edges_touch. cbn.
    destruct H as [[H|H]|[[-> ->]|[-> ->]]]; auto.
Qed.

Lemma edges_graph_nil_comps n : n_components (edges_graph n []) = n.
Proof.
  rewrite <- (reps_count (edges_graph n []) (seq 0 n)); [apply seq_length|].
  repeat split.
  - apply seq_NoDup.
  - intros v Hv. apply in_seq in Hv. cbn. lia.
  - intros u v _ _ H. destruct H as [|u x w _ Ht _]; auto. apply edges_touch in Ht. destruct Ht as [[]|[]].
  - intros v Hv. exists v. split; [apply in_seq; cbn in Hv; lia|]. apply same_island_refl; auto.
Qed.

Lemma edges_graph_ext n es fs : (forall e, In e es <-> In e fs) ->
  forall u v, same_island (edges_graph n es) u v <-> same_island (edges_graph n fs) u v.
Proof.
  intros H u v. split; apply same_island_touch_ext; auto; intros x y; rewrite !edges_touch, !H; auto.
Qed.

(** cuts can at most lose one component per edge *)
Lemma edges_count_lower n es : in_range n es -> n <= n_components (edges_graph n es) + length es.
Proof.
  induction es as [|[a b] es IH]; intros Hr.
  - rewrite edges_graph_nil_comps. cbn. lia.
  - assert (Hr' : in_range n es) by (intros e He; apply Hr; right; auto).
    pose proof (Hr (a, b) (or_introl eq_refl)) as [Ha Hb]. cbn [fst snd] in Ha, Hb. specialize (IH Hr').
    pose proof (edges_graph_cons_adds n es a b Ha Hb) as He. cbn [length].
    destruct (same_island_dec (edges_graph n es) a b Ha Hb) as [H|H].
    + pose proof (adds_edge_joined _ _ _ _ He H). lia.
    + pose proof (adds_edge_joins _ _ _ _ He H). lia.
Qed.

(** a forest: as many components as possible for its number of edges (i.e. no cycle) *)
Definition forest (n : nat) (es : list edge) : Prop :=
  NoDup es /\ in_range n es /\ n_components (edges_graph n es) + length es = n.

Lemma forest_cons_inv n e es : forest n (e :: es) ->
  forest n es /\ ~ same_island (edges_graph n es) (fst e) (snd e).
Proof.
  destruct e as [a b]. intros [Hnd [Hr Hc]]. inversion Hnd as [|? ? Hni Hnd']; subst.
  assert (Hr' : in_range n es) by (intros e He; apply Hr; right; auto).
  pose proof (Hr (a, b) (or_introl eq_refl)) as [Ha Hb]. cbn [fst snd] in Ha, Hb.
  pose proof (edges_graph_cons_adds n es a b Ha Hb) as He. cbn [length] in Hc.
  pose proof (edges_count_lower n es Hr').
  destruct (same_island_dec (edges_graph n es) a b Ha Hb) as [Hs|Hs].
  - pose proof (adds_edge_joined _ _ _ _ He Hs). lia.
  - pose proof (adds_edge_joins _ _ _ _ He Hs). split; [|exact Hs]. split; [auto|split; [auto|lia]].
Qed.

Lemma forest_cons n a b es : forest n es -> a < n -> b < n ->
  ~ same_island (edges_graph n es) a b -> forest n ((a, b) :: es).
Proof.
  intros [Hnd [Hr Hc]] Ha Hb Hs.
  pose proof (edges_graph_cons_adds n es a b Ha Hb) as He.
  pose proof (adds_edge_joins _ _ _ _ He Hs). repeat split.
  - constructor; auto. intros Hin. apply Hs. apply linked_one; unfold areas; cbn; auto.
    apply edges_touch; auto.
  - destruct H0 as [<-|H0]; [auto|apply Hr; auto].
  - destruct H0 as [<-|H0]; [auto|apply Hr; auto].
  - cbn [length]. lia.
Qed.

Lemma forest_perm n es fs : Permutation es fs -> forest n es -> forest n fs.
Proof.
  intros Hp [Hnd [Hr Hc]].
  assert (Hin : forall e, In e es <-> In e fs) by (intros e; split; apply Permutation_in; auto; symmetry; auto).
  split; [eapply Permutation_NoDup; eauto|]. split.
  - intros e He. apply Hr. apply Hin; auto.
  - assert (E : n_components (edges_graph n fs) = n_components (edges_graph n es)).
    { apply n_components_ext; [reflexivity|]. apply edges_graph_ext. intros e; symmetry; auto. }
    rewrite E, <- (Permutation_length Hp). exact Hc.
Qed.

Lemma forest_nil n : forest n [].
Proof. split; [constructor|]. split; [intros e []|]. rewrite edges_graph_nil_comps. cbn. lia. Qed.

(** ** removing an edge *)
Lemma remove_edge_In e es f : In f (remove_edge e es) <-> In f es /\ f <> e.
Proof.
  unfold remove_edge. rewrite filter_In, negb_true_iff. split; intros [H1 H2]; split; auto.
  - intros ->. assert (edge_eqb e e = true) by (apply edge_eqb_eq; auto). congruence.
  - apply not_true_iff_false. rewrite edge_eqb_eq. congruence.
Qed.

Lemma remove_edge_perm e es : NoDup es -> In e es -> Permutation es (e :: remove_edge e es).
Proof.
  intros Hnd Hin. apply NoDup_Permutation; auto.
  - constructor; [|apply NoDup_filter; auto]. rewrite remove_edge_In. tauto.
  - intros f. cbn. rewrite remove_edge_In. split.
    + intros Hf. destruct (edge_eqb e f) eqn:E.
      * apply edge_eqb_eq in E; auto.
      * right. split; auto. intros ->. assert (edge_eqb e e = true) by (apply edge_eqb_eq; auto). congruence.
    + intros [<-|[H _]]; auto.
Qed.

Lemma forest_remove n e es : forest n es -> In e es ->
  forest n (remove_edge e es) /\
  n_components (edges_graph n (remove_edge e es)) = S (n_components (edges_graph n es)) /\
  ~ same_island (edges_graph n (remove_edge e es)) (fst e) (snd e).
Proof.
  intros Hf Hin. pose proof Hf as [Hnd [_ Hc]].
  pose proof (remove_edge_perm e es Hnd Hin) as Hp.
  pose proof (forest_perm n _ _ Hp Hf) as Hf'. apply forest_cons_inv in Hf'. destruct Hf' as [Hf' Hs].
  split; [exact Hf'|]. split; [|exact Hs].
  destruct Hf' as [_ [_ Hc']]. apply Permutation_length in Hp. cbn [length] in Hp. lia.
Qed.

(** ** Kruskal *)
Lemma kruskal_inv n es : forall kept, forest n kept -> in_range n es ->
  forest n (fold_left (kruskal_step n) es kept) /\
  (forall e, In e (fold_left (kruskal_step n) es kept) -> In e kept \/ In e es) /\
  (forall u v, same_island (edges_graph n (fold_left (kruskal_step n) es kept)) u v <->
               same_island (edges_graph n (es ++ kept)) u v).
Proof.
  induction es as [|[a b] es IH]; intros kept Hk Hr; cbn [fold_left].
  - split; [auto|]. split; [auto|]. intros; tauto.
  - assert (Hr' : in_range n es) by (intros e He; apply Hr; right; auto).
    pose proof (Hr (a, b) (or_introl eq_refl)) as [Ha Hb]. cbn [fst snd] in Ha, Hb.
    unfold kruskal_step at 2 4 6. cbn [fst snd].
    destruct (Nat.eqb_spec (comp_label (edges_graph n kept) a) (comp_label (edges_graph n kept) b)) as [E|E].
    + apply comp_label_eq in E; auto. destruct (IH kept Hk Hr') as [H1 [H2 H3]].
      split; [auto|]. split; [intros e He; destruct (H2 e He); auto; right; right; auto|].
      intros u v. rewrite H3.
      pose proof (edges_graph_cons_adds n (es ++ kept) a b Ha Hb) as Hadd.
      rewrite (adds_edge_island _ _ _ _ Hadd).
      assert (Hab : same_island (edges_graph n (es ++ kept)) a b).
      { eapply same_island_touch_ext; [| |exact E]; auto. intros x y. rewrite !edges_touch, !in_app_iff. tauto. }
      split; [auto|]. intros [H|[[I1 I2]|[I1 I2]]]; auto.
      * eapply same_island_trans; [exact I1|]. eapply same_island_trans; eauto.
      * eapply same_island_trans; [exact I1|]. eapply same_island_trans; [apply same_island_sym, Hab|auto].
    + assert (Hs : ~ same_island (edges_graph n kept) a b) by (intros H; apply E; apply comp_label_eq; auto).
      destruct (IH ((a, b) :: kept) (forest_cons n a b kept Hk Ha Hb Hs) Hr') as [H1 [H2 H3]].
      split; [auto|]. split.
      * intros e He. destruct (H2 e He) as [[<-|H]|H]; auto; right; [left; auto|right; auto].
      * intros u v. rewrite H3. apply edges_graph_ext. intros e. cbn. rewrite !in_app_iff. cbn. tauto.
Qed.

Lemma matrix_edges_In g a b : In (a, b) (matrix_edges g) <-> a < gn g /\ b < gn g /\ gadj g a b = true.
Proof. unfold matrix_edges. rewrite filter_In, in_prod_iff, !in_seq. cbn. intuition lia. Qed.

Lemma NoDup_list_prod {A B} (l : list A) (m : list B) : NoDup l -> NoDup m -> NoDup (list_prod l m).
Proof.
  intros Hl Hm. induction Hl as [|x l Hx Hl IH]; cbn; [constructor|].
  assert (Hdis : forall p, In p (map (fun y => (x, y)) m) -> ~ In p (list_prod l m)).
  { intros [u v] Hin. apply in_map_iff in Hin. destruct Hin as [y [E _]]. injection E as <- <-.
    rewrite in_prod_iff. tauto. }
  assert (Hmap : NoDup (map (fun y => (x, y)) m)).
  { apply NoDup_map_inj; auto. intros y z _ _ E. injection E; auto. }
  revert Hmap Hdis IH. generalize (map (fun y => (x, y)) m) (list_prod l m). clear.
  intros p q Hp Hdis Hq. induction Hp as [|a p Ha Hp IH]; cbn; auto. constructor.
  - intros H. apply in_app_or in H. destruct H; [auto|]. apply (Hdis a); auto. left; auto.
  - apply IH. intros b Hb. apply Hdis. right; auto.
Qed.

Lemma matrix_edges_NoDup g : NoDup (matrix_edges g).
Proof. apply NoDup_filter. apply NoDup_list_prod; apply seq_NoDup. Qed.

Lemma matrix_edges_island g u v :
  same_island (edges_graph (gn g) (matrix_edges g)) u v <-> same_island g u v.
Proof.
  split.
  - apply same_island_touch_ext; auto. intros x y. rewrite edges_touch, !matrix_edges_In. unfold touch. tauto.
  - unfold same_island. induction 1 as [u Hu|u x w Hu Hux Hxw IH]; [apply linked_refl; auto|].
    eapply linked_step; [exact Hu| |exact IH]. apply (linked_in_l _ _ _ _) in Hxw.
    unfold areas in *. cbn in *. rewrite edges_touch, !matrix_edges_In. unfold touch in Hux. tauto.
Qed.

(** The spanning-forest specification the rest of the proofs use. *)
Definition spanning_forest (g : graph) (es : list edge) : Prop :=
  forest (gn g) es /\
  (forall e, In e es -> gadj g (fst e) (snd e) = true) /\
  (forall u v, same_island (edges_graph (gn g) es) u v <-> same_island g u v).

Theorem minimum_spanning_tree_spec order g :
  (forall l, Permutation (order l) l) -> spanning_forest g (minimum_spanning_tree order g).
Proof.
  intros Hord. set (es := order (matrix_edges g)).
  assert (Hes : forall e, In e es <-> In e (matrix_edges g)).
  { intros e. split; apply Permutation_in; [apply Hord|symmetry; apply Hord]. }
  assert (Hr : in_range (gn g) es).
  { intros [a b] He. apply Hes, matrix_edges_In in He. cbn. tauto. }
  destruct (kruskal_inv (gn g) es [] (forest_nil _) Hr) as [H1 [H2 H3]].
  fold (kruskal (gn g) es) in *.
  assert (Hin : forall e, In e (minimum_spanning_tree order g) <-> In e (kruskal (gn g) es)).
  { intros e. unfold minimum_spanning_tree. fold es. rewrite filter_In, existsb_edge. split; [tauto|].
    intros H. split; auto. destruct (H2 e H) as [[]|H']. apply Hes; auto. }
  split; [|split].
  - eapply forest_perm; [|exact H1]. apply NoDup_Permutation.
    + apply H1.
    + apply NoDup_filter, matrix_edges_NoDup.
    + intros e. symmetry. apply Hin.
  - intros [a b] He. apply Hin in He. destruct (H2 _ He) as [[]|H]. apply Hes, matrix_edges_In in H. tauto.
  - intros u v. rewrite (edges_graph_ext _ _ _ Hin), H3, app_nil_r, (edges_graph_ext _ _ _ Hes).
    apply matrix_edges_island.
Qed.
