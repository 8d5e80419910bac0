(** Kruskal's rule on links sorted by weight gives a lightest spanning forest. *)
From Verif Require Import Base Spec M_Graph P_Graph M_Util P_Base P_Forest P_Initial M_Objective P_Sum P_Skater P_Starts.

(** ** Comparing sums by counting *)
Definition upto (t : Q) (l : list Q) : nat := length (filter (fun x => Qle_bool x t) l).

Lemma upto_perm t l l' : Permutation l l' -> upto t l = upto t l'.
Proof.
  intros H. unfold upto. induction H; cbn [filter]; auto; [|destruct (Qle_bool x t), (Qle_bool y t); cbn; auto|congruence].
  destruct (Qle_bool x t); cbn; auto.
Qed.

Lemma upto_le t l : upto t l <= length l.
Proof. apply filter_length_le. Qed.

Lemma max_exists (l : list Q) : l <> [] -> exists m l', Permutation l (m :: l') /\ forall x, In x l -> (x <= m)%Q.
Proof.
  induction l as [|x l IH]; intros Hne; [congruence|]. destruct l as [|y l].
  - exists x, []. split; [auto|]. intros z [<-|[]]. apply Qle_refl.
  - destruct IH as [m [l' [Hp Hm]]]; [discriminate|]. destruct (Qlt_le_dec x m) as [H|H].
    + exists m, (x :: l'). split; [rewrite Hp; constructor|]. intros z [<-|Hz]; [apply Qlt_le_weak; auto|auto].
    + exists x, (y :: l). split; [auto|]. intros z [<-|Hz]; [apply Qle_refl|]. eapply Qle_trans; [apply Hm; exact Hz|auto].
Qed.

Lemma upto_all t l : (forall x, In x l -> (x <= t)%Q) -> upto t l = length l.
Proof.
  intros H. unfold upto. f_equal. induction l as [|x l IH]; cbn [filter]; [auto|].
  assert (E : Qle_bool x t = true) by (apply Qle_bool_iff; apply H; left; auto). rewrite E, IH; auto.
  intros y Hy. apply H. right; auto.
Qed.

Lemma upto_full t l : upto t l = length l -> forall x, In x l -> (x <= t)%Q.
Proof.
  unfold upto. induction l as [|y l IH]; cbn [filter length]; intros H x Hx; [destruct Hx|].
  pose proof (filter_length_le (fun x => Qle_bool x t) l).
  destruct (Qle_bool y t) eqn:E; cbn [length] in H; [|lia].
  destruct Hx as [<-|Hx]; [apply Qle_bool_iff; auto|]. apply IH; [lia|auto].
Qed.

Lemma sum_by_counting n : forall a b, length a = n -> length b = n -> (forall t, upto t b <= upto t a) -> (sumQ a <= sumQ b)%Q.
Proof.
  induction n as [|n IH]; intros a b Ha Hb Hc.
  - apply length_zero_iff_nil in Ha, Hb. subst. apply Qle_refl.
  - destruct (max_exists a) as [ma [a' [Pa Ma]]]; [intros ->; discriminate|].
    destruct (max_exists b) as [mb [b' [Pb Mb]]]; [intros ->; discriminate|].
    assert (La : length a' = n) by (apply Permutation_length in Pa; cbn in Pa; lia).
    assert (Lb : length b' = n) by (apply Permutation_length in Pb; cbn in Pb; lia).
    assert (Hmm : (ma <= mb)%Q).
    { pose proof (Hc mb) as H. rewrite (upto_all mb b Mb) in H. pose proof (upto_le mb a).
      apply (upto_full mb a); [lia|]. eapply Permutation_in; [symmetry; exact Pa|left; auto]. }
    assert (Hs : (sumQ a' <= sumQ b')%Q).
    { apply IH; auto. intros t. pose proof (Hc t) as H. rewrite (upto_perm t _ _ Pa), (upto_perm t _ _ Pb) in H.
      destruct (Qlt_le_dec t ma) as [Hlt|Hge].
      - assert (Ea : upto t (ma :: a') = upto t a').
        { unfold upto. cbn [filter]. destruct (Qle_bool ma t) eqn:E; [|auto]. apply Qle_bool_iff in E. lra. }
        assert (Eb : upto t b' <= upto t (mb :: b')) by (unfold upto; cbn [filter]; destruct (Qle_bool mb t); cbn; lia). lia.
      - rewrite (upto_all t a'); [pose proof (upto_le t b'); lia|]. intros x Hx. eapply Qle_trans; [|exact Hge].
        apply Ma. eapply Permutation_in; [symmetry; exact Pa|right; auto]. }
    rewrite (sumQ_perm _ _ Pa), (sumQ_perm _ _ Pb). cbn [sumQ fold_right]. apply Qplus_le_compat; auto.
Qed.

Lemma upto_map t (w : edge -> Q) es : upto t (map w es) = length (filter (fun e => Qle_bool (w e) t) es).
Proof. unfold upto. induction es as [|e es IH]; cbn; [auto|]. destruct (Qle_bool (w e) t); cbn; auto. Qed.

Lemma filter_nothing {A} f (l : list A) : (forall x, In x l -> f x = false) -> filter f l = [].
Proof. induction l as [|a l IH]; intros H; cbn [filter]; auto. rewrite (H a (or_introl eq_refl)). apply IH. intros; apply H; right; auto. Qed.

(** ** Kruskal *)
Section Kruskal.
Variable w : edge -> Q.
Variable n : nat.

Lemma sorted_split t es : StronglySorted (fun e f => (w e <= w f)%Q) es ->
  es = filter (fun e => Qle_bool (w e) t) es ++ filter (fun e => negb (Qle_bool (w e) t)) es.
Proof.
  induction 1 as [|e es Hs IH Hall]; [auto|]. cbn [filter]. destruct (Qle_bool (w e) t) eqn:E; cbn [negb app].
  - rewrite <- IH. auto.
  - assert (Hnone : filter (fun e => Qle_bool (w e) t) es = []).
    { apply filter_nothing. intros f Hf. rewrite Forall_forall in Hall. specialize (Hall f Hf).
      destruct (Qle_bool (w f) t) eqn:Ef; [|auto]. apply Qle_bool_iff in Ef.
      assert (Hle : Qle_bool (w e) t = true) by (apply Qle_bool_iff; lra). congruence. }
    rewrite Hnone in *. cbn [app] in *. rewrite <- IH. auto.
Qed.

Lemma kruskal_grows es : forall kept, incl kept (fold_left (kruskal_step n) es kept).
Proof.
  induction es as [|e es IH]; intros kept; cbn [fold_left]; [apply incl_refl|].
  eapply incl_tran; [|apply IH]. unfold kruskal_step. destruct (Nat.eqb _ _); [apply incl_refl|apply incl_tl, incl_refl].
Qed.

Lemma comps_mono es fs : in_range n es -> in_range n fs -> incl es fs ->
  n_components (edges_graph n fs) <= n_components (edges_graph n es).
Proof.
  intros He Hf Hi.
  destruct (kruskal_inv n es [] (forest_nil n) He) as [K1 [K2 K3]]. fold (kruskal n es) in *.
  destruct (kruskal_inv n fs (kruskal n es) K1 Hf) as [L1 [L2 L3]].
  pose proof (kruskal_grows fs (kruskal n es)) as Hg.
  assert (E1 : n_components (edges_graph n es) = n_components (edges_graph n (kruskal n es))).
  { apply n_components_ext; [auto|]. intros u v. rewrite K3, app_nil_r. tauto. }
  assert (E2 : n_components (edges_graph n fs) = n_components (edges_graph n (fold_left (kruskal_step n) fs (kruskal n es)))).
  { apply n_components_ext; [auto|]. intros u v. rewrite L3. apply edges_graph_ext. intros e. rewrite in_app_iff. split; [auto|].
    intros [H|H]; [auto|]. destruct (K2 e H) as [[]|H']. auto. }
  rewrite E1, E2. destruct K1 as [N1 [_ C1]], L1 as [N2 [_ C2]].
  pose proof (NoDup_incl_length N1 Hg). lia.
Qed.

Lemma kruskal_light es T t : StronglySorted (fun e f => (w e <= w f)%Q) es -> in_range n es ->
  forest n T -> incl T es -> upto t (map w T) <= upto t (map w (kruskal n es)).
Proof.
  intros Hs Hr HT Hi. rewrite !upto_map. set (lt := fun e => Qle_bool (w e) t).
  assert (Hr1 : in_range n (filter lt es)) by (intros e He; apply filter_In in He; apply Hr; tauto).
  destruct (kruskal_inv n (filter lt es) [] (forest_nil n) Hr1) as [K1 [K2 K3]]. fold (kruskal n (filter lt es)) in *.
  assert (Hsub : incl (kruskal n (filter lt es)) (filter lt (kruskal n es))).
  { intros e He. apply filter_In. destruct (K2 e He) as [[]|Hin]. split; [|apply filter_In in Hin; tauto].
    rewrite (sorted_split t es Hs). unfold kruskal. rewrite fold_left_app. apply kruskal_grows. exact He. }
  pose proof (NoDup_incl_length (proj1 K1) Hsub) as Hlen.
  assert (E1 : n_components (edges_graph n (filter lt es)) = n_components (edges_graph n (kruskal n (filter lt es)))).
  { apply n_components_ext; [auto|]. intros u v. rewrite K3, app_nil_r. tauto. }
  pose proof (forest_filter n lt T HT) as HF. destruct HF as [_ [HFr HFc]]. destruct K1 as [_ [_ Kc]].
  assert (Hm : n_components (edges_graph n (filter lt es)) <= n_components (edges_graph n (filter lt T))).
  { apply comps_mono; auto. intros e He. apply filter_In in He. apply filter_In. split; [apply Hi|]; tauto. }
  lia.
Qed.
End Kruskal.

Lemma mst_row_by_row order g : row_by_row (minimum_spanning_tree order g).
Proof.
  unfold minimum_spanning_tree, matrix_edges, row_by_row.
  assert (Hprod : forall a m b k, StronglySorted (fun e f : edge => fst e < fst f \/ (fst e = fst f /\ snd e < snd f)) (list_prod (seq a m) (seq b k))).
  { intros a m b k. revert a. induction m as [|m IH]; intros a; cbn [seq list_prod]; [constructor|].
    specialize (IH (S a)). assert (Hge : forall e, In e (list_prod (seq (S a) m) (seq b k)) -> a < fst e).
    { intros [x y] H. apply in_prod_iff in H. destruct H as [H _]. apply in_seq in H. cbn. lia. }
    revert IH Hge. generalize (list_prod (seq (S a) m) (seq b k)). intros L IH Hge.
    assert (Hrow : forall k b, StronglySorted (fun e f : edge => fst e < fst f \/ (fst e = fst f /\ snd e < snd f)) (map (fun y => (a, y)) (seq b k) ++ L)).
    { clear k b. induction k as [|k IHk]; intros b; cbn [seq map app]; [exact IH|]. constructor; [apply IHk|].
      apply Forall_forall. intros [x y] H. apply in_app_or in H. destruct H as [H|H].
      - apply in_map_iff in H. destruct H as [z [E Hz]]. injection E as <- <-. apply in_seq in Hz. cbn. lia.
      - left. apply Hge in H. exact H. }
    apply Hrow. }
  assert (Hfil : forall f l, StronglySorted (fun e f : edge => fst e < fst f \/ (fst e = fst f /\ snd e < snd f)) l ->
    StronglySorted (fun e f : edge => fst e < fst f \/ (fst e = fst f /\ snd e < snd f)) (filter f l)).
  { intros f l. induction 1 as [|e l Hs IH Hall]; [constructor|]. cbn [filter]. destruct (f e); [|auto]. constructor; [auto|].
    rewrite Forall_forall in *. intros x Hx. apply filter_In in Hx. apply Hall. tauto. }
  apply Hfil, Hfil, Hprod.
Qed.

Theorem mst_lightest order g w : lightest_first w order -> lightest g w (minimum_spanning_tree order g).
Proof.
  intros Hord. assert (Hperm : forall l, Permutation (order l) l) by (intros l; apply Hord).
  pose proof (minimum_spanning_tree_spec order g Hperm) as [Hf [Hadj Hisl]].
  assert (Hspans : spans g (minimum_spanning_tree order g)) by (split; [apply forest_is_forest; auto|split; [auto|exact Hisl]]).
  split; [auto|]. intros T' [HT' [Hadj' Hisl']]. apply forest_is_forest in HT'.
  set (es := order (matrix_edges g)) in *.
  assert (Hes : forall e, In e es <-> In e (matrix_edges g)).
  { intros e. split; apply Permutation_in; [apply Hperm|symmetry; apply Hperm]. }
  assert (Hr : in_range (gn g) es).
  { intros [a b] He. apply Hes, matrix_edges_In in He. cbn. tauto. }
  destruct (kruskal_inv (gn g) es [] (forest_nil _) Hr) as [H1 [H2 H3]]. fold (kruskal (gn g) es) in *.
  assert (HP : Permutation (minimum_spanning_tree order g) (kruskal (gn g) es)).
  { apply NoDup_Permutation; [apply NoDup_filter, matrix_edges_NoDup|apply H1|].
    intros e. unfold minimum_spanning_tree. fold es. rewrite filter_In, existsb_edge. split; [tauto|].
    intros H. split; auto. destruct (H2 e H) as [[]|H']. apply Hes; auto. }
  unfold weight. rewrite (sumQ_perm _ _ (Permutation_map w HP)).
  assert (HiT : incl T' es).
  { intros [a b] He. apply Hes, matrix_edges_In. destruct HT' as [_ [Hr' _]]. specialize (Hr' _ He). cbn in Hr'.
    specialize (Hadj' _ He). cbn in Hadj'. tauto. }
  apply (sum_by_counting (length (kruskal (gn g) es))).
  - apply map_length.
  - rewrite map_length. destruct H1 as [_ [_ C1]], HT' as [_ [_ C2]].
    assert (E : n_components (edges_graph (gn g) T') = n_components (edges_graph (gn g) (kruskal (gn g) es))); [|lia].
    transitivity (n_components g); [apply n_components_ext; [auto|exact Hisl']|].
    symmetry. apply n_components_ext; [auto|]. intros u v. rewrite H3, app_nil_r, (edges_graph_ext _ _ _ Hes). apply matrix_edges_island.
  - intros t. apply kruskal_light; auto. apply Hord.
Qed.

(** ** distinct weights: which links are kept *)
Lemma kept_when n es : in_range n es -> forall kept x, In x (fold_left (kruskal_step n) es kept) ->
  In x kept \/ exists es1 es2, es = es1 ++ x :: es2 /\
    ~ same_island (edges_graph n (fold_left (kruskal_step n) es1 kept)) (fst x) (snd x).
Proof.
  induction es as [|e es IH]; intros Hr kept x Hx; cbn [fold_left] in Hx; [auto|].
  destruct (IH (fun f Hf => Hr f (or_intror Hf)) _ _ Hx) as [Hk|[es1 [es2 [E Hn]]]].
  - unfold kruskal_step in Hk. destruct (Nat.eqb (comp_label _ (fst e)) (comp_label _ (snd e))) eqn:Ee; [auto|].
    destruct Hk as [<-|Hk]; [|auto]. right. exists [], es. split; [auto|].
    destruct (Hr e (or_introl eq_refl)) as [Ha Hb]. cbn [fold_left]. intros Hs. apply Nat.eqb_neq in Ee. apply Ee.
    apply comp_label_eq; auto.
  - right. exists (e :: es1), es2. split; [rewrite E; auto|exact Hn].
Qed.

Lemma Qltb_iff a b : Qltb a b = true <-> (a < b)%Q.
Proof.
  unfold Qltb. rewrite negb_true_iff. split; intros H.
  - apply Qnot_le_lt. intros Hle. apply Qle_bool_iff in Hle. congruence.
  - destruct (Qle_bool b a) eqn:E; [|auto]. apply Qle_bool_iff in E. lra.
Qed.

Lemma edge_dec (x y : edge) : {x = y} + {x <> y}.
Proof. decide equality; apply Nat.eq_dec. Qed.

Definition flip (e : edge) : edge := (snd e, fst e).

Lemma kruskal_links n (w : edge -> Q) es a b :
  StronglySorted (fun e f => (w e <= w f)%Q) es -> in_range n es -> NoDup es -> In (a, b) es ->
  (w (a, b) == w (b, a))%Q ->
  (forall e, In e es -> (w e == w (a, b))%Q -> e = (a, b) \/ e = (b, a)) ->
  (In (a, b) (kruskal n es) \/ In (b, a) (kruskal n es)) <->
  ~ same_island (edges_graph n (filter (fun e => Qltb (w e) (w (a, b))) es)) a b.
Proof.
  intros Hs Hr Hnd Hin Hsym Hdist. set (t := w (a, b)) in *. set (lt := fun e => Qltb (w e) t).
  assert (Hlr : in_range n (filter lt es)) by (intros e He; apply filter_In in He; apply Hr; tauto).
  split.
  - intros Hk Hisl.
    assert (Hx : exists x, In x (kruskal n es) /\ (w x == t)%Q /\ (x = (a, b) \/ x = (b, a))).
    { destruct Hk as [Hk|Hk]; eexists; split; try exact Hk; split; auto; unfold t; [reflexivity|symmetry; auto]. }
    destruct Hx as [x [Hx [Hw Hxe]]].
    destruct (kept_when n es Hr [] x Hx) as [[]|[es1 [es2 [E Hn]]]]. apply Hn.
    assert (Hr1 : in_range n es1) by (intros e He; apply Hr; rewrite E; apply in_or_app; auto).
    destruct (kruskal_inv n es1 [] (forest_nil n) Hr1) as [_ [_ K3]]. apply K3. rewrite app_nil_r.
    assert (Hab : same_island (edges_graph n es1) a b).
    { eapply edges_island_mono; [|exact Hisl]. intros e He. apply filter_In in He. destruct He as [He Hlt].
      unfold lt in Hlt. apply Qltb_iff in Hlt. rewrite E in He. apply in_app_or in He. destruct He as [He|[->|He]]; [auto|lra|].
      exfalso. rewrite E in Hs. clear -Hs He Hlt Hw.
      assert (Hs2 : StronglySorted (fun e f => (w e <= w f)%Q) (x :: es2)).
      { induction es1 as [|y es1 IH]; [exact Hs|]. inversion Hs; subst. auto. }
      inversion Hs2 as [|? ? _ Hall]; subst. rewrite Forall_forall in Hall. specialize (Hall e He). lra. }
    destruct Hxe as [->| ->]; cbn [fst snd]; [auto|apply same_island_sym; auto].
  - intros Hn. 
    destruct (in_dec edge_dec (a, b) (kruskal n es)) as [H|H1]; [auto|].
    destruct (in_dec edge_dec (b, a) (kruskal n es)) as [H|H2]; [auto|].
    exfalso. apply Hn. clear Hn.
    (* links up to and including this weight *)
    set (le := fun e => Qle_bool (w e) t).
    assert (Hr2 : in_range n (filter le es)) by (intros e He; apply filter_In in He; apply Hr; tauto).
    destruct (kruskal_inv n (filter le es) [] (forest_nil n) Hr2) as [_ [L2 L3]]. fold (kruskal n (filter le es)) in *.
    assert (Hsub : incl (kruskal n (filter le es)) (kruskal n es)).
    { intros e He. rewrite (sorted_split w t es Hs). unfold kruskal. rewrite fold_left_app. apply kruskal_grows. exact He. }
    assert (Hab : same_island (edges_graph n (kruskal n (filter le es))) a b).
    { apply L3. rewrite app_nil_r. destruct (Hr _ Hin) as [Ha Hb]. cbn in Ha, Hb. apply linked_one; unfold areas; cbn; auto.
      apply edges_touch. left. apply filter_In. split; auto. apply Qle_bool_iff. unfold t. apply Qle_refl. }
    eapply edges_island_mono; [|exact Hab]. intros e He. destruct (L2 e He) as [[]|Hle]. apply filter_In in Hle.
    destruct Hle as [Hes Hle]. apply Qle_bool_iff in Hle. apply filter_In. split; [auto|]. apply Qltb_iff.
    destruct (Qlt_le_dec (w e) t) as [Hlt|Hge]; [auto|]. exfalso.
    assert (Heq : (w e == t)%Q) by lra. destruct (Hdist e Hes Heq) as [->| ->]; auto.
Qed.

(** The forest consists of the links that no chain of lighter links bypasses. *)
Theorem mst_links order g w a b : lightest_first w order ->
  symmetric g -> (forall i j, i < gn g -> j < gn g -> (w (i, j) == w (j, i))%Q) ->
  (forall i j x y, i < gn g -> j < gn g -> x < gn g -> y < gn g -> gadj g i j = true -> gadj g x y = true ->
     (w (i, j) == w (x, y))%Q -> (i = x /\ j = y) \/ (i = y /\ j = x)) ->
  a < gn g -> b < gn g ->
  (In (a, b) (minimum_spanning_tree order g) \/ In (b, a) (minimum_spanning_tree order g)) <->
  gadj g a b = true /\ ~ same_island (lighter g w (w (a, b))) a b.
Proof.
  intros Hord Hsym Hw Hdist Ha Hb. assert (Hperm : forall l, Permutation (order l) l) by (intros l; apply Hord).
  set (es := order (matrix_edges g)) in *.
  assert (Hes : forall e, In e es <-> In e (matrix_edges g)).
  { intros e. split; apply Permutation_in; [apply Hperm|symmetry; apply Hperm]. }
  assert (Hr : in_range (gn g) es).
  { intros [x y] He. apply Hes, matrix_edges_In in He. cbn. tauto. }
  assert (Hnd : NoDup es) by (eapply Permutation_NoDup; [symmetry; apply Hperm|apply matrix_edges_NoDup]).
  destruct (kruskal_inv (gn g) es [] (forest_nil _) Hr) as [H1 [H2 H3]]. fold (kruskal (gn g) es) in *.
  assert (Hm : forall e, In e (minimum_spanning_tree order g) <-> In e (kruskal (gn g) es)).
  { intros e. unfold minimum_spanning_tree. fold es. rewrite filter_In, existsb_edge. split; [tauto|].
    intros H. split; auto. destruct (H2 e H) as [[]|H']. apply Hes; auto. }
  rewrite !Hm.
  assert (Hlight : same_island (edges_graph (gn g) (filter (fun e => Qltb (w e) (w (a, b))) es)) a b <->
    same_island (lighter g w (w (a, b))) a b).
  { rewrite <- (matrix_edges_island (lighter g w (w (a, b)))). change (gn (lighter g w (w (a, b)))) with (gn g). apply edges_graph_ext.
    intros [x y]. rewrite filter_In, Hes, !matrix_edges_In. cbn [lighter gn gadj]. rewrite andb_true_iff. tauto. }
  split.
  - intros H. assert (Hadj : gadj g a b = true).
    { destruct H as [H|H]; destruct (H2 _ H) as [[]|H']; apply Hes, matrix_edges_In in H'; [tauto|]. rewrite Hsym; tauto. }
    split; [auto|]. rewrite <- Hlight. apply (kruskal_links (gn g) w es a b); auto.
    + apply Hord.
    + apply Hes, matrix_edges_In. auto.
    + intros [x y] He Heq. apply Hes, matrix_edges_In in He. destruct He as [Hx [Hy He]].
      destruct (Hdist x y a b Hx Hy Ha Hb He Hadj Heq) as [[-> ->]|[-> ->]]; auto.
  - intros [Hadj Hn]. apply (kruskal_links (gn g) w es a b); auto.
    + apply Hord.
    + apply Hes, matrix_edges_In. auto.
    + intros [x y] He Heq. apply Hes, matrix_edges_In in He. destruct He as [Hx [Hy He]].
      destruct (Hdist x y a b Hx Hy Ha Hb He Hadj Heq) as [[-> ->]|[-> ->]]; auto.
    + rewrite Hlight. exact Hn.
Qed.
