(** The searches on two graphs with the same links: what they do depends only on which links there are. *)
From Verif Require Import Base Spec M_Graph M_Util M_Objective M_Azp M_Sa M_Tabu P_Base P_Graph P_Util.

(** two graphs with the same areas and the same links *)
Definition same_links (g h : graph) : Prop := gn g = gn h /\ forall i j, gadj g i j = gadj h i j.

Lemma same_links_sym g h : same_links g h -> same_links h g.
Proof. intros [H1 H2]. split; [auto|]. intros. symmetry. auto. Qed.

Lemma touch_links g h i j : same_links g h -> touch g i j -> touch h i j.
Proof. intros [_ H] T. unfold touch in *. rewrite <- !H. exact T. Qed.

Lemma connected_graph_links g h : same_links g h -> connected_graph g -> connected_graph h.
Proof.
  intros H. pose proof H as [Hn Hadj]. unfold connected_graph, contiguous, areas. rewrite Hn. intros [H1 H2]. split; [auto|].
  intros a b Ha Hb. specialize (H2 a b Ha Hb). clear Ha Hb. induction H2 as [x Hx|x y z Hx T _ IH]; [constructor; auto|].
  econstructor; eauto. eapply touch_links; eauto.
Qed.

Lemma is_connected_links g h : same_links g h -> is_connected g = is_connected h.
Proof.
  intros H. destruct (is_connected g) eqn:E1; destruct (is_connected h) eqn:E2; auto; exfalso.
  - apply is_connected_spec in E1. apply (connected_graph_links g h H) in E1. apply is_connected_spec in E1. congruence.
  - apply is_connected_spec in E2. apply (connected_graph_links h g (same_links_sym g h H)) in E2. apply is_connected_spec in E2. congruence.
Qed.

Section Ext.
Variables g h : graph.
Hypothesis H : same_links g h.

Lemma neighbors_links a : neighbors g a = neighbors h a.
Proof. destruct H as [Hn Hadj]. unfold neighbors. rewrite Hn. apply filter_ext. auto. Qed.
Lemma sub_links nodes wo : same_links (sub_adj_matrix g nodes wo) (sub_adj_matrix h nodes wo).
Proof.
  destruct H as [_ Hadj]. split; [reflexivity|]. intros i j. cbn. destruct (nth_error _ i); [|auto]. destruct (nth_error _ j); auto.
Qed.
Lemma sub_connected_links nodes wo : is_connected (sub_adj_matrix g nodes wo) = is_connected (sub_adj_matrix h nodes wo).
Proof. apply is_connected_links, sub_links. Qed.

(** ** AZP *)
Lemma is_candidate_links labels a : is_candidate g labels a = is_candidate h labels a.
Proof. unfold is_candidate. rewrite sub_connected_links. reflexivity. Qed.
Lemma region_neighbors_links labels : init_region_neighbors g labels = init_region_neighbors h labels.
Proof.
  unfold init_region_neighbors. apply map_ext. intros K. f_equal. unfold region_neighbors_of. f_equal.
  generalize (@nil nat). induction (where_eq labels K) as [|a l IH]; intros acc; cbn [fold_left]; [auto|]. rewrite neighbors_links. apply IH.
Qed.
Lemma after_move_links cand K labels rn : after_move g cand K labels rn = after_move h cand K labels rn.
Proof.
  unfold after_move. cbv zeta. rewrite (neighbors_links cand). f_equal. f_equal.
  assert (E : forall l, filter (fun area => negb (existsb (fun a => memb a (where_eq (make_move cand K labels) (lab labels cand))) (neighbors g area))) l =
    filter (fun area => negb (existsb (fun a => memb a (where_eq (make_move cand K labels) (lab labels cand))) (neighbors h area))) l).
  { intros l. apply filter_ext. intros a. rewrite neighbors_links. reflexivity. }
  rewrite E. reflexivity.
Qed.

Section Azp.
Variable St : Type.
Variable call : St -> nat -> Z -> list Z -> rng -> out (bool * St * rng).
Variable objv : St -> Q.
Lemma try_candidates_links k : forall cands K labels rn s r,
  try_candidates St call g k cands K labels rn s r = try_candidates St call h k cands K labels rn s r.
Proof.
  induction k as [|k IH]; intros cands K labels rn s r; destruct cands as [|x cands]; cbn [try_candidates]; auto.
  destruct (pop_randomly_from _ r) as [[[cand cands'] r1]|e|]; cbn [bind]; auto.
  destruct (call s cand K labels r1) as [[[ok s'] r2]|e|]; cbn [bind]; auto.
  destruct ok; [rewrite after_move_links; reflexivity|apply IH].
Qed.
Lemma grow_links f : forall K labels rn s r, grow_recipient St call g f K labels rn s r = grow_recipient St call h f K labels rn s r.
Proof.
  induction f as [|f IH]; intros K labels rn s r; cbn [grow_recipient]; auto.
  destruct (dget rn K) as [ns|e|]; cbn [bind]; auto. rewrite (filter_ext _ _ (is_candidate_links labels) ns), try_candidates_links.
  destruct (try_candidates _ _ _ _ _ _ _ _ _ _) as [[[[[mv l1] rn1] s1] r1]|e|]; cbn [bind]; auto. destruct mv; auto.
Qed.
Lemma pass_links f k : forall regions labels rn s r, azp_pass St call g f k regions labels rn s r = azp_pass St call h f k regions labels rn s r.
Proof.
  induction k as [|k IH]; intros regions labels rn s r; destruct regions as [|x regions]; cbn [azp_pass]; auto.
  destruct (pop_randomly_from _ r) as [[[K Ks] r1]|e|]; cbn [bind]; auto. rewrite grow_links.
  destruct (grow_recipient _ _ _ _ _ _ _ _ _) as [[[[l1 rn1] s1] r2]|e|]; cbn [bind]; auto.
Qed.
Lemma loop_links f : forall start regions labels rn s r,
  azp_loop St call objv g f start regions labels rn s r = azp_loop St call objv h f start regions labels rn s r.
Proof.
  induction f as [|f IH]; intros start regions labels rn s r; cbn [azp_loop]; destruct (match start with Some _ => _ | None => _ end); auto.
  rewrite pass_links. destruct (azp_pass _ _ _ _ _ _ _ _ _ _) as [[[[l1 rn1] s1] r2]|e|]; cbn [bind]; auto.
Qed.
Lemma component_links f labels s r : azp_component St call objv g f labels s r = azp_component St call objv h f labels s r.
Proof. unfold azp_component. destruct (uniqueZ labels) as [|z [|z' us]]; auto. rewrite region_neighbors_links. apply loop_links. Qed.
End Azp.

(** ** tabu search *)
Lemma feasible_links labels p : boolean_assert_feasible labels g p = boolean_assert_feasible labels h p.
Proof.
  assert (E : map (fun r => is_connected (region_adj g labels r)) (uniqueZ labels) = map (fun r => is_connected (region_adj h labels r)) (uniqueZ labels)).
  { apply map_ext. intros K. unfold region_adj. apply sub_connected_links. }
  unfold boolean_assert_feasible. rewrite E, (proj1 H). reflexivity.
Qed.
Lemma make_move_links maxlen a K labels tabu : make_move_tabu g maxlen a K labels tabu = make_move_tabu h maxlen a K labels tabu.
Proof. unfold make_move_tabu. cbv zeta. rewrite feasible_links. reflexivity. Qed.
Lemma possible_links labels tabu : possible_moves g labels tabu = possible_moves h labels tabu.
Proof.
  unfold possible_moves. apply flat_map_ext. intros a. cbv zeta. rewrite sub_connected_links, neighbors_links. reflexivity.
Qed.
Lemma try_move_links maxlen m labels tabu c : try_move g maxlen m labels tabu c = try_move h maxlen m labels tabu c.
Proof.
  unfold try_move. destruct (azp_call c _ _ labels) as [[ok c']|e|]; cbn [bind]; auto. rewrite make_move_links. reflexivity.
Qed.
Lemma basic_loop_links O f maxlen reps attr : forall stop visited labels tabu c r,
  basic_loop O g f maxlen reps attr stop visited labels tabu c r = basic_loop O h f maxlen reps attr stop visited labels tabu c r.
Proof.
  induction f as [|f IH]; intros stop visited labels tabu c r; cbn [basic_loop]; auto. cbv zeta. rewrite possible_links.
  destruct (best_of O attr labels 0 _ None) as [best|e|]; cbn [bind]; auto.
  assert (E : forall m, make_move_tabu g maxlen (mv_area m) (mv_new m) labels tabu = make_move_tabu h maxlen (mv_area m) (mv_new m) labels tabu) by (intros; apply make_move_links).
  match goal with |- bind ?x _ = bind ?y _ => assert (Exy : x = y) end.
  { destruct best as [[[m i] q]|]; [|auto]. destruct (Qle_bool q 0); [|auto]. destruct (azp_call c _ _ labels) as [[ok c']|e|]; cbn [bind]; auto.
    rewrite E. reflexivity. }
  rewrite Exy. match goal with |- bind ?x _ = _ => destruct x as [[[[made l1] t1] c1]|e|] end; cbn [bind]; auto.
  destruct made; [apply IH|]. destruct (improving_tabus O attr l1 t1) as [its|e|]; cbn [bind]; auto.
  match goal with |- bind ?x _ = bind ?y _ => assert (Exy2 : x = y) end.
  { destruct its as [|x its]; [auto|]. destruct (random_element_from _ r) as [[m r1]|e|]; cbn [bind]; auto. rewrite try_move_links. reflexivity. }
  rewrite Exy2. match goal with |- bind ?x _ = _ => destruct x as [[[[l2 t2] c2] r2]|e|] end; cbn [bind]; auto.
  destruct (stop || _)%bool; [auto|].
  match goal with |- bind ?x _ = bind ?y _ => assert (Exy3 : x = y) end.
  { destruct best as [[[m i] q]|]; [|auto]. apply try_move_links. }
  rewrite Exy3. match goal with |- bind ?x _ = _ => destruct x as [[[l3 t3] c3]|e|] end; cbn [bind]; auto.
Qed.
Lemma basic_component_links O f maxlen reps labels attr c r :
  basic_component O g f maxlen reps labels attr c r = basic_component O h f maxlen reps labels attr c r.
Proof. unfold basic_component. destruct (Nat.eqb _ 1); auto. apply basic_loop_links. Qed.
Lemma random_moves_links p : forall moves labels tabu c r, random_moves g p moves labels tabu c r = random_moves h p moves labels tabu c r.
Proof.
  induction p as [|p IH]; intros moves labels tabu c r; cbn [random_moves]; auto.
  destruct (pop_randomly_from moves r) as [[[m ms] r1]|e|]; cbn [bind]; auto. rewrite try_move_links.
  destruct (try_move _ _ _ _ _ _) as [[[l1 t1] c1]|e|]; cbn [bind]; auto.
Qed.
Lemma reactive_loop_links O maxit k1 k2 attr : forall start ls labels tabu s r,
  reactive_loop O g maxit k1 k2 attr start ls labels tabu s r = reactive_loop O h maxit k1 k2 attr start ls labels tabu s r.
Proof.
  induction maxit as [|maxit IH]; intros start ls labels tabu s r; cbn [reactive_loop]; auto.
  destruct (o_call O labels attr) as [v|e|]; cbn [bind]; auto. destruct (negb _); [auto|]. cbv zeta. rewrite possible_links.
  destruct (best_of _ _ _ _ _ _) as [[[[m i] q]|]|e|]; cbn [bind]; auto. rewrite try_move_links.
  destruct (try_move _ _ _ _ _ _) as [[[l1 t1] c1]|e|]; cbn [bind]; auto. cbv zeta.
  destruct (_ && _)%bool; [|apply IH]. destruct (Nat.leb _ _); [|auto]. rewrite random_moves_links.
  destruct (random_moves _ _ _ _ _ _ _) as [[[[l2 t2] c2] r2]|e|]; cbn [bind]; auto.
Qed.
Lemma reactive_component_links O maxit k1 k2 labels attr s r :
  reactive_component O g maxit k1 k2 labels attr s r = reactive_component O h maxit k1 k2 labels attr s r.
Proof. unfold reactive_component. destruct (Nat.eqb _ 1); auto. rewrite reactive_loop_links. reflexivity. Qed.
End Ext.
