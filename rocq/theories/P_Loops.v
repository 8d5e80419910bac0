(** Links of an area to itself: what the searches do depends only on the links between different areas. *)
From Verif Require Import Base Spec M_Graph M_Util M_Objective M_Azp M_Sa M_Tabu M_MaxP M_TabuWith P_Base P_Graph P_Util P_Init P_Fit P_Azp P_Ext P_TabuWith.

Lemma between_sym g h : same_between g h -> same_between h g.
Proof. intros [H1 H2]. split; [auto|]. intros. symmetry. auto. Qed.
Lemma between_symmetric g h : same_between g h -> symmetric g -> symmetric h.
Proof.
  intros [Hn H] Hs u v Hu Hv. destruct (Nat.eq_dec u v) as [->|Hne]; [auto|]. rewrite <- !H by auto. apply Hs; lia.
Qed.
Lemma between_touch g h a b : same_between g h -> a <> b -> touch g a b -> touch h a b.
Proof. intros [_ H] Hne. unfold touch. rewrite <- !H by auto. auto. Qed.
Lemma between_linked g h P a b : same_between g h -> linked g P a b -> linked h P a b.
Proof.
  intros H HL. induction HL as [u Hu|u v w Hu Huv Hvw IH]; [constructor; auto|].
  destruct (Nat.eq_dec u v) as [->|Hne]; [auto|]. econstructor; eauto. eapply between_touch; eauto.
Qed.
Lemma between_contiguous g h P : same_between g h -> contiguous g P -> contiguous h P.
Proof. intros H [H1 H2]. split; [auto|]. intros. eapply between_linked; eauto. Qed.
Lemma between_wf g h l : same_between g h -> wf g l -> wf h l.
Proof. intros H [H1 H2]. split; [rewrite <- (proj1 H); auto|]. intros z Hz. apply (between_contiguous g h); auto. Qed.

Lemma filter_union f t : forall s, filter f (set_union s t) = set_union (filter f s) (filter f t).
Proof.
  induction t as [|a t IH]; intros s; cbn [set_union fold_left filter]; [auto|].
  change (fold_left (fun acc a => set_add a acc) t (set_add a s)) with (set_union (set_add a s) t). rewrite IH.
  assert (E : filter f (set_add a s) = if f a then set_add a (filter f s) else filter f s).
  { unfold set_add. destruct (memb a s) eqn:Em.
    - destruct (f a) eqn:Ef; [|auto]. assert (Hm : memb a (filter f s) = true) by (apply memb_In, filter_In; split; [apply memb_In; auto|auto]).
      rewrite Hm. auto.
    - rewrite filter_app. cbn [filter]. destruct (f a) eqn:Ef; [|rewrite app_nil_r; auto].
      assert (Hm : memb a (filter f s) = false).
      { apply memb_notIn. intros Hi. apply filter_In in Hi. apply memb_notIn in Em. apply Em, Hi. }
      rewrite Hm. auto. }
  rewrite E. destruct (f a); reflexivity.
Qed.
Lemma diff_union s t u : set_diff (set_union s t) u = set_union (set_diff s u) (set_diff t u).
Proof. unfold set_diff. apply filter_union. Qed.

Section Loops.
Variables g h : graph.
Hypothesis H : same_between g h.

Lemma expand_loops s : expand g s = expand h s.
Proof.
  unfold expand. rewrite (proj1 H). apply filter_ext. intros v. destruct (memb v s) eqn:Em; [auto|]. cbn [orb].
  apply memb_notIn in Em. induction s as [|u s IH]; [auto|]. cbn [existsb]. rewrite IH by (intros Hi; apply Em; right; auto).
  f_equal. unfold wadj. destruct H as [_ Ha]. rewrite !Ha; auto; intros ->; apply Em; left; auto.
Qed.
Lemma reach_loops v : reach g v = reach h v.
Proof.
  unfold reach. rewrite (proj1 H). induction (gn h) as [|k IH]; [reflexivity|].
  change (expand g (Nat.iter k (expand g) [v]) = expand h (Nat.iter k (expand h) [v])). rewrite IH. apply expand_loops.
Qed.
Lemma components_loops : components g = components h.
Proof.
  unfold components. rewrite (proj1 H). generalize (@nil (list nat)). induction (seq 0 (gn h)) as [|v vs IH]; intros acc; [auto|]. cbn [fold_left].
  unfold comp_step at 2 4. rewrite reach_loops. apply IH.
Qed.
Lemma n_components_loops : n_components g = n_components h.
Proof. unfold n_components. rewrite components_loops. auto. Qed.
Lemma comp_label_loops v : comp_label g v = comp_label h v.
Proof. unfold comp_label. rewrite components_loops. auto. Qed.
Lemma component_labels_loops : component_labels g = component_labels h.
Proof. unfold component_labels. rewrite (proj1 H). apply map_ext. apply comp_label_loops. Qed.
Lemma is_connected_loops : is_connected g = is_connected h.
Proof. unfold is_connected. rewrite n_components_loops. auto. Qed.
Lemma comp_nodes_loops c : comp_nodes g c = comp_nodes h c.
Proof. unfold comp_nodes. rewrite (proj1 H). apply filter_ext. intros a. rewrite comp_label_loops. auto. Qed.

Lemma sub_loops nodes wo : NoDup nodes -> same_between (sub_adj_matrix g nodes wo) (sub_adj_matrix h nodes wo).
Proof.
  intros Hnd. split; [reflexivity|]. intros i j Hij. cbn. destruct (nth_error _ i) as [a|] eqn:Ea; [|auto]. destruct (nth_error _ j) as [b|] eqn:Eb; [|auto].
  apply (proj2 H). intros <-. apply Hij. assert (Hn : NoDup (sub_nodes nodes wo)) by (apply NoDup_filter; auto).
  apply (proj1 (NoDup_nth_error _) Hn); [eapply nth_error_lt; eauto|congruence].
Qed.

(** neighbours, once the area itself is taken away *)
Lemma neighbors_diff a t : In a t -> set_diff (neighbors g a) t = set_diff (neighbors h a) t.
Proof.
  intros Ha. unfold neighbors, set_diff. rewrite (proj1 H). induction (seq 0 (gn h)) as [|x xs IH]; [auto|]. cbn [filter].
  destruct (Nat.eq_dec a x) as [<-|Hne].
  - apply memb_In in Ha. destruct (gadj g a a); destruct (gadj h a a); cbn [filter]; rewrite ?Ha; cbn [negb]; auto.
  - rewrite (proj2 H) by auto. destruct (gadj h a x); cbn [filter]; [|auto]. rewrite IH. auto.
Qed.
Lemma neighbors_filter f a : f a = false -> filter f (neighbors g a) = filter f (neighbors h a).
Proof.
  intros Ha. unfold neighbors. rewrite (proj1 H). induction (seq 0 (gn h)) as [|x xs IH]; [auto|]. cbn [filter].
  destruct (Nat.eq_dec a x) as [<-|Hne].
  - destruct (gadj g a a); destruct (gadj h a a); cbn [filter]; rewrite ?Ha; auto.
  - rewrite (proj2 H) by auto. destruct (gadj h a x); cbn [filter]; [|auto]. rewrite IH. auto.
Qed.

(** ** feasibility *)
Lemma sub_connected_loops nodes wo : NoDup nodes -> is_connected (sub_adj_matrix g nodes wo) = is_connected (sub_adj_matrix h nodes wo).
Proof.
  intros Hnd. pose proof (sub_loops nodes wo Hnd) as Hs. revert Hs. generalize (sub_adj_matrix g nodes wo) (sub_adj_matrix h nodes wo). intros g' h' Hs.
  destruct (is_connected g') eqn:E1; destruct (is_connected h') eqn:E2; auto; exfalso.
  - apply is_connected_spec in E1. assert (E3 : connected_graph h').
    { unfold connected_graph, areas. rewrite <- (proj1 Hs). apply (between_contiguous g' h'); auto. }
    apply is_connected_spec in E3. congruence.
  - apply is_connected_spec in E2. assert (E3 : connected_graph g').
    { unfold connected_graph, areas. rewrite (proj1 Hs). apply (between_contiguous h' g'); auto. apply between_sym; auto. }
    apply is_connected_spec in E3. congruence.
Qed.
Lemma check_regions_loops labels rs : check_regions g labels rs = check_regions h labels rs.
Proof.
  induction rs as [|z rs IH]; cbn [check_regions]; [auto|]. unfold region_adj. rewrite sub_connected_loops by apply where_eq_NoDup.
  destruct (is_connected _); auto.
Qed.
Lemma assert_feasible_loops labels p : assert_feasible labels g p = assert_feasible labels h p.
Proof. unfold assert_feasible. rewrite check_regions_loops, (proj1 H). reflexivity. Qed.
Lemma boolean_feasible_loops labels p : boolean_assert_feasible labels g p = boolean_assert_feasible labels h p.
Proof.
  assert (E : map (fun r => is_connected (region_adj g labels r)) (uniqueZ labels) = map (fun r => is_connected (region_adj h labels r)) (uniqueZ labels)).
  { apply map_ext. intros K. unfold region_adj. apply sub_connected_loops. apply where_eq_NoDup. }
  unfold boolean_assert_feasible. rewrite E, (proj1 H). reflexivity.
Qed.
Lemma separate_loops labels : separate_components g labels = separate_components h labels.
Proof.
  unfold separate_components. rewrite n_components_loops. apply map_ext. intros c. unfold separate_one. rewrite comp_nodes_loops, (proj1 H). auto.
Qed.

(** ** AZP *)
Lemma is_candidate_loops labels a : is_candidate g labels a = is_candidate h labels a.
Proof. unfold is_candidate. rewrite sub_connected_loops by apply where_eq_NoDup. reflexivity. Qed.
Lemma region_neighbors_loops labels : init_region_neighbors g labels = init_region_neighbors h labels.
Proof.
  unfold init_region_neighbors. apply map_ext. intros K. f_equal. unfold region_neighbors_of.
  assert (E : forall l acc acc', incl l (where_eq labels K) -> set_diff acc (where_eq labels K) = set_diff acc' (where_eq labels K) ->
    set_diff (fold_left (fun acc a => set_union acc (neighbors g a)) l acc) (where_eq labels K) =
    set_diff (fold_left (fun acc a => set_union acc (neighbors h a)) l acc') (where_eq labels K)).
  { induction l as [|a l IH]; intros acc acc' Hl Ea; cbn [fold_left]; [auto|]. apply IH; [intros x Hx; apply Hl; right; auto|].
    rewrite !diff_union, Ea, (neighbors_diff a) by (apply Hl; left; auto). auto. }
  apply E; [apply incl_refl|auto].
Qed.

Hypothesis Hsym : symmetric g.
Lemma dmodify_ext d k f f' : (forall s, dget d k = Ok s -> f s = f' s) -> NoDup (map fst d) -> dmodify d k f = dmodify d k f'.
Proof.
  unfold dmodify, dget. induction d as [|[k0 s0] d IH]; cbn [map find fst snd]; [auto|]. intros Hf Hnd. inversion Hnd as [|? ? Hni Hnd']; subst.
  destruct (Z.eqb_spec k0 k) as [->|Hne].
  - f_equal; [rewrite (Hf s0 eq_refl); auto|]. apply map_ext_in. intros [k1 s1] Hi. cbn. destruct (Z.eqb_spec k1 k) as [->|]; [|auto].
    exfalso. apply Hni. apply in_map_iff. exists (k, s1). auto.
  - f_equal. apply IH; auto.
Qed.
Lemma dmodify_keys d k f : map fst (dmodify d k f) = map fst d.
Proof. unfold dmodify. rewrite map_map. apply map_ext. intros [k0 s0]. cbn. destruct (Z.eqb k0 k); auto. Qed.

Lemma after_move_loops cand K labels rn : wf g labels -> rn_ok g labels rn -> NoDup (map fst rn) -> legal_move g labels cand K ->
  after_move g cand K labels rn = after_move h cand K labels rn.
Proof.
  intros Hwf Hrn Hnd Hl. pose proof Hl as [Ha [D [HD [Hne [Hc [b [Hbn [Hb Ht]]]]]]]]. destruct Hwf as [Hlen Hall].
  unfold after_move. cbv zeta. rewrite (lab_of_nth_error _ _ _ HD). f_equal.
  set (labels' := make_move cand K labels).
  assert (Hreg : forall s x, region labels' s x <-> (x = cand /\ s = K) \/ (x <> cand /\ region labels s x)) by (intros; apply region_upd; lia).
  assert (HcK : In cand (where_eq labels' K)) by (apply where_eq_In; apply Hreg; auto).
  assert (E2 : dmodify (dmodify rn D (set_add cand)) K (fun s => set_diff (set_union (set_discard cand s) (neighbors g cand)) (where_eq labels' K)) =
    dmodify (dmodify rn D (set_add cand)) K (fun s => set_diff (set_union (set_discard cand s) (neighbors h cand)) (where_eq labels' K))).
  { apply dmodify_ext; [|rewrite dmodify_keys; auto]. intros s _. rewrite !diff_union, (neighbors_diff cand) by auto. auto. }
  rewrite E2. apply dmodify_ext; [|rewrite !dmodify_keys; auto]. intros s Hs.
  rewrite dget_modify in Hs. destruct (Z.eqb_spec D K) as [E|_]; [congruence|]. rewrite dget_modify, Z.eqb_refl in Hs.
  destruct (Hrn D (nth_error_In _ _ HD)) as [ns [Hns Hin]]. rewrite Hns in Hs. cbn [bind] in Hs. injection Hs as <-.
  unfold set_diff at 1 2. apply filter_ext_in. intros x Hx. f_equal. apply set_add_In in Hx.
  apply eq_true_iff_eq. rewrite !memb_In, !filter_In, !neighbors_In.
  assert (HxD : ~ In x (where_eq labels' D)).
  { intros Hi. apply where_eq_In in Hi. apply Hreg in Hi. destruct Hi as [[_ E]|[Hxc Hi]]; [congruence|]. destruct Hx as [->|Hx]; [auto|]. apply Hin in Hx. tauto. }
  assert (Hexb : existsb (fun a => memb a (where_eq labels' D)) (neighbors g x) = existsb (fun a => memb a (where_eq labels' D)) (neighbors h x)).
  { apply eq_true_iff_eq. rewrite !existsb_exists. split; intros [y [Hy Hm]]; exists y; (split; [|auto]); apply neighbors_In in Hy; apply neighbors_In;
      (assert (Hxy : x <> y) by (intros ->; apply HxD; apply memb_In; auto)).
    - rewrite <- (proj1 H), <- (proj2 H) by auto. auto.
    - rewrite (proj1 H), (proj2 H) by auto. auto. }
  rewrite Hexb. destruct (Nat.eq_dec x cand) as [->|Hxc].
  - (* the area itself has a neighbour in the region it leaves *)
    assert (Hno : existsb (fun a => memb a (where_eq labels' D)) (neighbors h cand) = true).
    { destruct Hc as [[u [Hu Huc]] _]. assert (Hcon : contiguous g (region labels D)) by (apply Hall; eapply nth_error_In; eauto).
      destruct (contiguous_touch g (region labels D) cand u) as [c [Hcc [Hca Hct]]]; auto.
      assert (Hcn : c < gn g) by (unfold region in Hcc; apply nth_error_lt in Hcc; lia).
      apply existsb_exists. exists c. split; [apply neighbors_In; split; [rewrite <- (proj1 H); auto|]|apply memb_In, where_eq_In; apply Hreg; auto].
      rewrite <- (proj2 H) by auto. rewrite (Hsym cand c) by auto. apply touch_adj; auto. }
    rewrite Hno. cbn. split; intros [_ E]; discriminate.
  - rewrite <- (proj1 H), <- (proj2 H) by auto. tauto.
Qed.

Definition azp_inv (labels : list Z) (rn : list (Z * list nat)) : Prop := wf g labels /\ rn_ok g labels rn /\ NoDup (map fst rn).
Lemma after_move_inv cand K labels rn : azp_inv labels rn -> legal_move g labels cand K ->
  azp_inv (fst (after_move g cand K labels rn)) (snd (after_move g cand K labels rn)) /\ same_labels (fst (after_move g cand K labels rn)) labels.
Proof.
  intros [Hwf [Hrn Hnd]] Hl. pose proof (after_move_ok g labels rn cand K Hsym Hwf Hrn Hl) as Ham.
  destruct (legal_upd g labels cand K Hwf Hl) as [Hwf' Hset].
  assert (Hk : NoDup (map fst (snd (after_move g cand K labels rn)))) by (unfold after_move; cbn [snd]; rewrite !dmodify_keys; auto).
  destruct (after_move g cand K labels rn) as [labels' rn']. destruct Ham as [-> Hrn']. cbn [fst snd] in *. unfold azp_inv. auto.
Qed.
Lemma azp_inv_init labels : wf g labels -> azp_inv labels (init_region_neighbors g labels).
Proof.
  intros Hwf. split; [auto|]. split; [apply init_rn_ok, Hwf|]. unfold init_region_neighbors. rewrite map_map. cbn [fst]. rewrite map_id. apply uniqueZ_NoDup.
Qed.

Section Azp.
Variable St : Type.
Variable call : St -> nat -> Z -> list Z -> rng -> out (bool * St * rng).
Variable objv : St -> Q.
Lemma try_candidates_loops K labels rn k : azp_inv labels rn -> forall cands s r, (forall a, In a cands -> legal_move g labels a K) ->
  try_candidates St call g k cands K labels rn s r = try_candidates St call h k cands K labels rn s r /\
  (forall m l' rn' s' r', try_candidates St call g k cands K labels rn s r = Ok (m, l', rn', s', r') -> azp_inv l' rn' /\ same_labels l' labels).
Proof.
  intros HI. induction k as [|k IH]; intros cands s r Hc; destruct cands as [|x cands]; cbn [try_candidates]; auto.
  - split; [auto|]. intros m l' rn' s' r' E. injection E as <- <- <- <- <-. split; [auto|apply same_labels_refl].
  - split; [auto|]. discriminate.
  - split; [auto|]. intros m l' rn' s' r' E. injection E as <- <- <- <- <-. split; [auto|apply same_labels_refl].
  - destruct (pop_randomly_from_Ok (x :: cands) r ltac:(discriminate)) as [y [rest [Ep Hp]]]. rewrite Ep. cbn [bind].
    assert (Hy : legal_move g labels y K) by (apply Hc; rewrite Hp; left; auto).
    destruct (call s y K labels _) as [[[ok s'] r2]|e|]; cbn [bind]; [|split; [auto|discriminate]|split; [auto|discriminate]].
    destruct ok.
    + rewrite <- (after_move_loops y K labels rn) by (first [apply HI|auto]). split; [auto|].
      pose proof (after_move_inv y K labels rn HI Hy) as Ha. destruct (after_move g y K labels rn) as [l1 rn1].
      intros m l' rn' s2 r' E. injection E as <- <- <- <- <-. exact Ha.
    + apply IH. intros a Ha. apply Hc. rewrite Hp. right; auto.
Qed.
Lemma grow_loops K f : forall labels rn s r, azp_inv labels rn -> In K labels ->
  grow_recipient St call g f K labels rn s r = grow_recipient St call h f K labels rn s r /\
  (forall l' rn' s' r', grow_recipient St call g f K labels rn s r = Ok (l', rn', s', r') -> azp_inv l' rn' /\ same_labels l' labels).
Proof.
  induction f as [|f IH]; intros labels rn s r HI HK; cbn [grow_recipient]; [split; [auto|discriminate]|].
  destruct (dget rn K) as [ns|e|] eqn:Ed; cbn [bind]; [|split; [auto|discriminate]|split; [auto|discriminate]].
  rewrite <- (filter_ext _ _ (is_candidate_loops labels) ns).
  destruct (try_candidates_loops K labels rn (length (filter (is_candidate g labels) ns)) HI (filter (is_candidate g labels) ns) s r) as [E1 E2].
  { intros a. apply (candidates_legal g labels rn K ns); auto; apply HI. }
  rewrite <- E1. destruct (try_candidates _ _ g _ _ _ _ _ _ _) as [[[[[mv l1] rn1] s1] r1]|e|] eqn:Et; cbn [bind]; [|split; [auto|discriminate]|split; [auto|discriminate]].
  destruct (E2 _ _ _ _ _ eq_refl) as [HI1 Hs1]. destruct mv.
  - destruct (IH l1 rn1 s1 r1 HI1 ltac:(apply Hs1; auto)) as [E3 E4]. split; [auto|]. intros l' rn' s' r' E. destruct (E4 _ _ _ _ E) as [? ?].
    split; [auto|]. eapply same_labels_trans; eauto.
  - split; [auto|]. intros l' rn' s' r' E. injection E as <- <- <- <-. auto.
Qed.
Lemma pass_loops f k : forall regions labels rn s r, azp_inv labels rn -> incl regions labels ->
  azp_pass St call g f k regions labels rn s r = azp_pass St call h f k regions labels rn s r /\
  (forall l' rn' s' r', azp_pass St call g f k regions labels rn s r = Ok (l', rn', s', r') -> azp_inv l' rn' /\ same_labels l' labels).
Proof.
  induction k as [|k IH]; intros regions labels rn s r HI Hr; destruct regions as [|x regions]; cbn [azp_pass].
  - split; [auto|]. intros l' rn' s' r' E. injection E as <- <- <- <-. split; [auto|apply same_labels_refl].
  - split; [auto|discriminate].
  - split; [auto|]. intros l' rn' s' r' E. injection E as <- <- <- <-. split; [auto|apply same_labels_refl].
  - destruct (pop_randomly_from_Ok (x :: regions) r ltac:(discriminate)) as [y [rest [Ep Hp]]]. rewrite Ep. cbn [bind].
    assert (Hy : In y labels) by (apply Hr; rewrite Hp; left; auto).
    match goal with |- context [grow_recipient St call g f y labels rn s ?q] => destruct (grow_loops y f labels rn s q HI Hy) as [E1 E2] end.
    rewrite <- E1. destruct (grow_recipient _ _ g _ _ _ _ _ _) as [[[[l1 rn1] s1] r2]|e|]; cbn [bind]; [|split; [auto|discriminate]|split; [auto|discriminate]].
    destruct (E2 _ _ _ _ eq_refl) as [HI1 Hs1]. destruct (IH rest l1 rn1 s1 r2 HI1) as [E3 E4].
    { intros z Hz. apply Hs1, Hr. rewrite Hp. right; auto. }
    split; [auto|]. intros l' rn' s' r' E. destruct (E4 _ _ _ _ E) as [? ?]. split; [auto|]. eapply same_labels_trans; eauto.
Qed.
Lemma azp_loop_loops f : forall start regions labels rn s r, azp_inv labels rn -> incl regions labels ->
  azp_loop St call objv g f start regions labels rn s r = azp_loop St call objv h f start regions labels rn s r.
Proof.
  induction f as [|f IH]; intros start regions labels rn s r HI Hr; cbn [azp_loop]; destruct (match start with Some _ => _ | None => _ end); auto.
  destruct (pass_loops f (length regions) regions labels rn s r HI Hr) as [E1 E2]. rewrite <- E1.
  destruct (azp_pass _ _ g _ _ _ _ _ _ _) as [[[[l1 rn1] s1] r2]|e|]; cbn [bind]; auto.
  destruct (E2 _ _ _ _ eq_refl) as [HI1 Hs1]. apply IH; auto. intros z Hz. apply Hs1, Hr, Hz.
Qed.
Lemma azp_component_loops f labels s r : wf g labels -> azp_component St call objv g f labels s r = azp_component St call objv h f labels s r.
Proof.
  intros Hwf. unfold azp_component. destruct (uniqueZ labels) as [|z [|z' us]] eqn:Eu; auto. rewrite <- region_neighbors_loops. apply azp_loop_loops; [apply azp_inv_init; auto|].
  intros x Hx. apply uniqueZ_In. rewrite Eu. auto.
Qed.
End Azp.

(** ** tabu search *)
Lemma make_move_loops maxlen a K labels tabu : make_move_tabu g maxlen a K labels tabu = make_move_tabu h maxlen a K labels tabu.
Proof. unfold make_move_tabu. cbv zeta. rewrite boolean_feasible_loops. reflexivity. Qed.
Lemma possible_loops labels tabu : possible_moves g labels tabu = possible_moves h labels tabu.
Proof.
  unfold possible_moves. apply flat_map_ext. intros a. cbv zeta. rewrite sub_connected_loops by apply where_eq_NoDup.
  rewrite (neighbors_filter (fun neigh => negb (Z.eqb (lab labels neigh) (lab labels a)))) by (rewrite Z.eqb_refl; auto). reflexivity.
Qed.
Section TabuW.
Variable St : Type.
Variable call : St -> nat -> Z -> list Z -> rng -> out (bool * St * rng).
Lemma try_move_loops maxlen m labels tabu s r : try_move_with St call g maxlen m labels tabu s r = try_move_with St call h maxlen m labels tabu s r.
Proof.
  unfold try_move_with. destruct (call s _ _ labels r) as [[[ok s'] r']|e|]; cbn [bind]; [|reflexivity|reflexivity]. rewrite make_move_loops. reflexivity.
Qed.
Lemma basic_loop_loops O f maxlen reps attr : forall stop visited labels tabu c r,
  basic_loop_with St call O g f maxlen reps attr stop visited labels tabu c r = basic_loop_with St call O h f maxlen reps attr stop visited labels tabu c r.
Proof.
  induction f as [|f IH]; intros stop visited labels tabu c r; [reflexivity|]. cbn [basic_loop_with]. cbv zeta. rewrite possible_loops.
  destruct (best_of O attr labels 0 _ None) as [best|e|]; cbn [bind]; [|reflexivity|reflexivity].
  assert (E : forall m, make_move_tabu g maxlen (mv_area m) (mv_new m) labels tabu = make_move_tabu h maxlen (mv_area m) (mv_new m) labels tabu) by (intros; apply make_move_loops).
  match goal with |- bind ?x _ = bind ?y _ => assert (Exy : x = y) end.
  { destruct best as [[[m i] q]|]; [|auto]. destruct (Qle_bool q 0); [|auto]. destruct (call c _ _ labels r) as [[[ok c'] r']|e|]; cbn [bind]; [|reflexivity|reflexivity].
    rewrite E. reflexivity. }
  rewrite Exy. match goal with |- bind ?x _ = _ => destruct x as [[[[[made l1] t1] c1] r1]|e|] end; cbn [bind]; [|reflexivity|reflexivity].
  destruct made; [apply IH|]. destruct (improving_tabus O attr l1 t1) as [its|e|]; cbn [bind]; [|reflexivity|reflexivity].
  match goal with |- bind ?x _ = bind ?y _ => assert (Exy2 : x = y) end.
  { destruct its as [|x its]; [auto|]. destruct (random_element_from _ r1) as [[m r2]|e|]; cbn [bind]; [|reflexivity|reflexivity]. apply try_move_loops. }
  rewrite Exy2. match goal with |- bind ?x _ = _ => destruct x as [[[[l2 t2] c2] r2]|e|] end; cbn [bind]; [|reflexivity|reflexivity].
  destruct (stop || _)%bool; [reflexivity|].
  match goal with |- bind ?x _ = bind ?y _ => assert (Exy3 : x = y) end.
  { destruct best as [[[m i] q]|]; [|auto]. apply try_move_loops. }
  rewrite Exy3. match goal with |- bind ?x _ = _ => destruct x as [[[[l3 t3] c3] r3]|e|] end; cbn [bind]; [apply IH|reflexivity|reflexivity].
Qed.
Lemma basic_component_loops O f maxlen reps labels attr c r :
  basic_component_with St call O g f maxlen reps labels attr c r = basic_component_with St call O h f maxlen reps labels attr c r.
Proof. unfold basic_component_with. destruct (Nat.eqb _ 1); [reflexivity|]. apply basic_loop_loops. Qed.
Lemma random_moves_loops p : forall moves labels tabu c r, random_moves_with St call g p moves labels tabu c r = random_moves_with St call h p moves labels tabu c r.
Proof.
  induction p as [|p IH]; intros moves labels tabu c r; [reflexivity|]. cbn [random_moves_with].
  destruct (pop_randomly_from moves r) as [[[m ms] r1]|e|]; cbn [bind]; [|reflexivity|reflexivity]. rewrite try_move_loops.
  destruct (try_move_with _ _ _ _ _ _ _ _ _) as [[[[l1 t1] c1] r2]|e|]; cbn [bind]; [apply IH|reflexivity|reflexivity].
Qed.
Lemma reactive_loop_loops O maxit k1 k2 attr : forall start ls labels tabu s r,
  reactive_loop_with St call O g maxit k1 k2 attr start ls labels tabu s r = reactive_loop_with St call O h maxit k1 k2 attr start ls labels tabu s r.
Proof.
  induction maxit as [|maxit IH]; intros start ls labels tabu s r; [reflexivity|]. cbn [reactive_loop_with].
  destruct (o_call O labels attr) as [v|e|]; cbn [bind]; [|reflexivity|reflexivity]. destruct (negb _); [auto|]. cbv zeta. rewrite possible_loops.
  destruct (best_of _ _ _ _ _ _) as [[[[m i] q]|]|e|]; cbn [bind]; [|reflexivity|reflexivity|reflexivity]. rewrite try_move_loops.
  destruct (try_move_with _ _ _ _ _ _ _ _ _) as [[[[l1 t1] c1] r1]|e|]; cbn [bind]; [|reflexivity|reflexivity]. cbv zeta.
  destruct (_ && _)%bool; [|apply IH]. destruct (Nat.leb _ _); [|auto]. rewrite random_moves_loops.
  destruct (random_moves_with _ _ _ _ _ _ _ _ _) as [[[[l2 t2] c2] r2]|e|]; cbn [bind]; [apply IH|reflexivity|reflexivity].
Qed.
Lemma reactive_component_loops O maxit k1 k2 labels attr s r :
  reactive_component_with St call O g maxit k1 k2 labels attr s r = reactive_component_with St call O h maxit k1 k2 labels attr s r.
Proof. unfold reactive_component_with. destruct (Nat.eqb _ 1); [reflexivity|]. rewrite reactive_loop_loops. reflexivity. Qed.
End TabuW.
End Loops.

(** ** fitting *)
Lemma wf_sub g labels nodes : wf g labels -> NoDup nodes ->
  (forall a z x, In a nodes -> region labels z a -> region labels z x -> In x nodes) -> (forall a, In a nodes -> a < gn g) ->
  wf (sub_adj_matrix g nodes []) (gather (-1)%Z labels nodes).
Proof.
  intros [Hlen Hall] Hnd Hcl Hlt. assert (En : sub_nodes nodes [] = nodes) by (apply sub_nodes_nil).
  split; [rewrite gather_length; cbn; rewrite En; auto|]. intros z Hz. apply gather_In in Hz; [|intros a Ha; rewrite Hlen; auto].
  destruct Hz as [a [Ha Hz]]. apply (contiguous_ext _ (fun k => exists x, nth_error nodes k = Some x /\ region labels z x)).
  - intros i. unfold region. split.
    + intros [x [Hx Hr]]. rewrite (gather_nth _ _ _ i x); auto. eapply nth_error_lt; eauto.
    + intros Hr. assert (Hi : i < length nodes) by (apply nth_error_lt in Hr; rewrite gather_length in Hr; auto).
      destruct (nth_error nodes i) as [x|] eqn:Ex; [|apply nth_error_None in Ex; lia]. exists x. split; [auto|].
      rewrite (gather_nth _ _ _ i x) in Hr; auto. rewrite Hlen. apply Hlt. eapply nth_error_In; eauto.
  - apply sub_contiguous_inv; auto; [|apply Hall; eapply nth_error_In; eauto]. intros x Hx. eapply Hcl; eauto.
Qed.

Lemma separate_one_val g l c a : length l = gn g -> a < gn g -> lab (separate_one g l c) a <> (-1)%Z ->
  comp_label g a = c /\ nth_error (separate_one g l c) a = nth_error l a.
Proof.
  intros Hl Ha Hne. destruct (Nat.eq_dec (comp_label g a) c) as [E|E]; [split; [auto|apply separate_one_in; auto]|].
  exfalso. apply Hne. apply lab_of_nth_error, separate_one_out; auto.
Qed.

Section FitLoops.
Variable S : Type.
Variable start : S -> list Z -> list (list Q) -> list nat -> out S.
Variable component : graph -> list Z -> list (list Q) -> S -> rng -> out (list Z * S * rng).
Variable order : list edge -> list edge.
Variable attr : list (list Q).
Hypothesis Hcomp : forall g h labels rows s r, same_between g h -> symmetric g -> wf g labels -> component g labels rows s r = component h labels rows s r.
Variables g h : graph.
Hypothesis H : same_between g h.
Hypothesis Hsym : symmetric g.

Lemma fit_one_loops arr acc r :
  (let nodes := filter (fun a => negb (Z.eqb (lab arr a) (-1))) (seq 0 (length arr)) in
   wf (sub_adj_matrix g nodes []) (gather (-1)%Z arr nodes) /\ forall a, In a nodes -> a < gn g) ->
  fit_one S start component g attr (YArr arr) acc r = fit_one S start component h attr (YArr arr) acc r.
Proof.
  intros [Hwf Hlt]. unfold fit_one. destruct (start _ _ _ _) as [s1|e|]; cbn [bind]; auto.
  rewrite (Hcomp (sub_adj_matrix g _ []) (sub_adj_matrix h (filter (fun a => negb (Z.eqb (lab arr a) (-1))) (seq 0 (length arr))) [])); auto.
  - apply sub_loops; auto. apply NoDup_filter, seq_NoDup.
  - apply sub_symmetric; auto.
Qed.
Lemma separate_wf l c : wf g l -> let arr := separate_one g l c in
   let nodes := filter (fun a => negb (Z.eqb (lab arr a) (-1))) (seq 0 (length arr)) in
   wf (sub_adj_matrix g nodes []) (gather (-1)%Z arr nodes) /\ forall a, In a nodes -> a < gn g.
Proof.
  intros Hwf arr nodes. assert (Hn : forall a, In a nodes <-> a < gn g /\ lab arr a <> (-1)%Z).
  { intros a. unfold nodes. rewrite filter_In, in_seq, negb_true_iff, Z.eqb_neq. unfold arr. rewrite separate_one_length. intuition lia. }
  split; [|intros a Ha; apply Hn in Ha; tauto].
  assert (Eg : gather (-1)%Z arr nodes = gather (-1)%Z l nodes).
  { unfold gather. apply map_ext_in. intros a Ha. apply Hn in Ha. destruct (separate_one_val g l c a (proj1 Hwf) (proj1 Ha) (proj2 Ha)) as [_ E].
    assert (Hal : a < length l) by (rewrite (proj1 Hwf); tauto).
    rewrite (nth_error_nth l a (-1)%Z (x := lab l a)) by (apply lab_nth_error; auto). apply nth_error_nth. unfold arr. rewrite E. apply lab_nth_error; auto. }
  rewrite Eg. apply wf_sub; auto; [apply NoDup_filter, seq_NoDup| |intros a Ha; apply Hn in Ha; tauto].
  intros a z x Ha Hza Hzx. apply Hn in Ha. destruct Ha as [Ha Hm]. destruct (separate_one_val g l c a (proj1 Hwf) Ha Hm) as [Hc E].
  assert (Hx : x < gn g) by (apply nth_error_lt in Hzx; rewrite (proj1 Hwf) in Hzx; auto).
  apply Hn. split; [auto|].
  assert (Hxc : comp_label g x = c).
  { rewrite <- Hc. apply (wf_region_comp g l z); auto; [apply Hwf|]. apply (proj2 Hwf). eapply nth_error_In; eauto. }
  rewrite (lab_of_nth_error arr x z); [|unfold arr; rewrite separate_one_in; auto; apply Hwf].
  rewrite <- (lab_of_nth_error arr a z); [auto|]. unfold arr. rewrite E. auto.
Qed.
Lemma fit_arrays_loops l : wf g l -> forall cs acc r,
  fit_arrays S start component g attr (map (separate_one g l) cs) acc r = fit_arrays S start component h attr (map (separate_one g l) cs) acc r.
Proof.
  intros Hwf. induction cs as [|c cs IH]; intros acc r; cbn [map fit_arrays]; [auto|].
  rewrite (fit_one_loops (separate_one g l c)) by (apply separate_wf; auto). destruct (fit_one _ _ _ h _ _ _ _) as [[acc1 r1]|e|]; cbn [bind]; auto.
Qed.
Lemma fit_given_loops p l s r : fit S start component order g attr p (Some l) s r = fit S start component order h attr p (Some l) s r.
Proof.
  unfold fit. rewrite <- (assert_feasible_loops g h H). rewrite <- (proj1 H). destruct (assert_feasible l g (Some p)) as [[]|e|] eqn:Ea; cbn [bind]; auto.
  destruct (Nat.eqb_spec (length l) (gn g)) as [El|]; [|auto]. rewrite <- (separate_loops g h H). apply fit_arrays_loops.
  split; [auto|]. apply assert_feasible_Ok in Ea; [tauto|lia].
Qed.

(** generated start *)
Lemma matrix_edges_loops : filter (fun e => negb (Nat.eqb (fst e) (snd e))) (matrix_edges g) = filter (fun e => negb (Nat.eqb (fst e) (snd e))) (matrix_edges h).
Proof.
  unfold matrix_edges. rewrite (proj1 H). induction (list_prod _ _) as [|[a b] l IH]; [auto|]. cbn [filter fst snd].
  destruct (Nat.eqb_spec a b) as [<-|Hne].
  - destruct (gadj g a a); destruct (gadj h a a); cbn [filter fst snd]; rewrite ?Nat.eqb_refl; cbn [negb]; auto.
  - rewrite (proj2 H) by auto. destruct (gadj h a b); cbn [filter fst snd]; [|auto]. rewrite (proj2 (Nat.eqb_neq a b)) by auto. cbn [negb]. rewrite IH. auto.
Qed.
End FitLoops.

Lemma kruskal_noloop n : forall l kept, fold_left (kruskal_step n) l kept = fold_left (kruskal_step n) (filter (fun e => negb (Nat.eqb (fst e) (snd e))) l) kept.
Proof.
  induction l as [|[a b] l IH]; intros kept; cbn [fold_left filter fst snd]; [auto|]. destruct (Nat.eqb_spec a b) as [<-|Hne]; cbn [negb fold_left].
  - unfold kruskal_step at 2. cbn [fst snd]. rewrite Nat.eqb_refl. apply IH.
  - apply IH.
Qed.
Lemma kruskal_kept n : forall l kept e, In e (fold_left (kruskal_step n) l kept) -> In e kept \/ (In e l /\ fst e <> snd e).
Proof.
  induction l as [|[a b] l IH]; intros kept e He; cbn [fold_left] in He; [auto|]. apply IH in He. destruct He as [He|[He Hn]]; [|right; split; [right; auto|auto]].
  unfold kruskal_step in He. cbn [fst snd] in He. destruct (Nat.eqb_spec (comp_label (edges_graph n kept) a) (comp_label (edges_graph n kept) b)) as [|Hne]; [auto|].
  destruct He as [<-|He]; [|auto]. right. split; [left; auto|]. cbn. intros ->. auto.
Qed.
Lemma mst_loops order g h : diagonal_blind order -> same_between g h -> minimum_spanning_tree order g = minimum_spanning_tree order h.
Proof.
  intros Ho H. unfold minimum_spanning_tree.
  assert (Ek : kruskal (gn g) (order (matrix_edges g)) = kruskal (gn h) (order (matrix_edges h))).
  { unfold kruskal. rewrite (kruskal_noloop _ (order (matrix_edges g))), (kruskal_noloop _ (order (matrix_edges h))), !Ho, (matrix_edges_loops g h H), (proj1 H). auto. }
  rewrite Ek. set (kept := kruskal _ _).
  assert (Hk : forall e, existsb (edge_eqb e) kept = true -> negb (Nat.eqb (fst e) (snd e)) = true).
  { intros e He. apply existsb_exists in He. destruct He as [f [Hf Hfe]]. unfold edge_eqb in Hfe. apply andb_true_iff in Hfe. destruct Hfe as [E1 E2].
    apply Nat.eqb_eq in E1, E2. destruct (kruskal_kept (gn h) (order (matrix_edges h)) [] f Hf) as [[]|[_ Hd]]. rewrite E1, E2. apply negb_true_iff, Nat.eqb_neq. auto. }
  assert (Hf : forall l, filter (fun e => existsb (edge_eqb e) kept) l = filter (fun e => existsb (edge_eqb e) kept) (filter (fun e => negb (Nat.eqb (fst e) (snd e))) l)).
  { induction l as [|e l IH]; [auto|]. cbn [filter]. destruct (existsb (edge_eqb e) kept) eqn:Ee.
    - rewrite (Hk e Ee). cbn [filter]. rewrite Ee, IH. auto.
    - destruct (negb _); cbn [filter]; rewrite ?Ee; auto. }
  rewrite (Hf (matrix_edges g)), (Hf (matrix_edges h)), (matrix_edges_loops g h H). auto.
Qed.
Lemma initial_for_comp_loops order g h comp k built r : diagonal_blind order -> same_between g h ->
  initial_for_comp order g comp k built r = initial_for_comp order h comp k built r.
Proof.
  intros Ho H. unfold initial_for_comp. rewrite <- (comp_nodes_loops g h H), <- (proj1 H). cbv zeta.
  assert (Hs : same_between (sub_adj_matrix g (comp_nodes g comp) []) (sub_adj_matrix h (comp_nodes g comp) [])) by (apply sub_loops; auto; apply comp_nodes_NoDup).
  unfold randomly_divide_connected_graph. rewrite (mst_loops order _ _ Ho Hs), (proj1 Hs). reflexivity.
Qed.

Section FitLoops2.
Variable S : Type.
Variable start : S -> list Z -> list (list Q) -> list nat -> out S.
Variable component : graph -> list Z -> list (list Q) -> S -> rng -> out (list Z * S * rng).
Variable order : list edge -> list edge.
Variable attr : list (list Q).
Hypothesis Hcomp : forall g h labels rows s r, same_between g h -> symmetric g -> wf g labels -> component g labels rows s r = component h labels rows s r.
Variables g h : graph.
Hypothesis H : same_between g h.
Hypothesis Hsym : symmetric g.
Hypothesis Hord : forall l, Permutation (order l) l.
Hypothesis Hblind : diagonal_blind order.

Lemma good_comp_wf comp k built arr : good_comp g comp k built arr ->
   let nodes := filter (fun a => negb (Z.eqb (lab arr a) (-1))) (seq 0 (length arr)) in
   wf (sub_adj_matrix g nodes []) (gather (-1)%Z arr nodes) /\ forall a, In a nodes -> a < gn g.
Proof.
  intros [Glen [Gout [Gin Gcon]]] nodes. assert (Hn : forall a, In a nodes <-> a < gn g /\ comp_label g a = comp).
  { intros a. unfold nodes. rewrite filter_In, in_seq, negb_true_iff, Z.eqb_neq, Glen. split; intros [Ha Hb]; (split; [lia|]).
    - destruct (Nat.eq_dec (comp_label g a) comp) as [|Hne]; [auto|]. exfalso. apply Hb, lab_of_nth_error, Gout; auto. lia.
    - destruct (Gin a Ha Hb) as [z [Ez Hz]]. rewrite (lab_of_nth_error _ _ _ Ez). lia. }
  split; [|intros a Ha; apply Hn in Ha; tauto].
  assert (Hlt : forall a, In a nodes -> a < gn g) by (intros a Ha; apply Hn in Ha; tauto).
  split; [rewrite gather_length; cbn; rewrite sub_nodes_nil; auto|]. intros z Hz. apply gather_In in Hz; [|intros a Ha; rewrite Glen; auto].
  destruct Hz as [a [Ha Ez]]. pose proof Ha as Ha'. apply Hn in Ha'. destruct (Gin a (proj1 Ha') (proj2 Ha')) as [z' [Ez' Hz']]. rewrite Ez in Ez'. injection Ez' as <-.
  apply (contiguous_ext _ (fun k => exists x, nth_error nodes k = Some x /\ region arr z x)).
  - intros i. unfold region. split.
    + intros [x [Hx Hr]]. rewrite (gather_nth _ _ _ i x); auto. eapply nth_error_lt; eauto.
    + intros Hr. assert (Hi : i < length nodes) by (apply nth_error_lt in Hr; rewrite gather_length in Hr; auto).
      destruct (nth_error nodes i) as [x|] eqn:Ex; [|apply nth_error_None in Ex; lia]. exists x. split; [auto|].
      rewrite (gather_nth _ _ _ i x) in Hr; auto. rewrite Glen. apply Hlt. eapply nth_error_In; eauto.
  - apply sub_contiguous_inv; auto; [apply NoDup_filter, seq_NoDup|]. intros x Hx. assert (Hxg : x < gn g) by (apply nth_error_lt in Hx; lia).
    apply Hn. split; [auto|]. destruct (Nat.eq_dec (comp_label g x) comp) as [|Hne]; [auto|]. unfold region in Hx. rewrite (Gout x Hxg Hne) in Hx. injection Hx as <-. lia.
Qed.
Lemma gen_comps_loops : forall items built acc r, (forall comp k, In (comp, k) items -> comp < n_components g /\ 1 <= k <= length (comp_nodes g comp)) ->
  gen_comps order g (fit_one S start component g attr) items built acc r = gen_comps order h (fit_one S start component h attr) items built acc r.
Proof.
  induction items as [|[comp k] items IH]; intros built acc r Hit; cbn [gen_comps]; [auto|].
  destruct (Hit comp k (or_introl eq_refl)) as [Hc Hk].
  destruct (initial_for_comp_spec order g comp k built r Hord Hc Hk) as [arr [r1 [E1 Hgood]]].
  rewrite <- (initial_for_comp_loops order g h) by auto. rewrite E1. cbn [bind].
  rewrite (fit_one_loops S start component attr Hcomp g h H Hsym) by (eapply good_comp_wf; eauto).
  destruct (fit_one _ _ _ h _ _ _ _) as [[acc1 r2]|e|]; cbn [bind]; auto. apply IH. intros c k' Hi. apply Hit. right; auto.
Qed.
Lemma fit_loops p initial s r : fit S start component order g attr p initial s r = fit S start component order h attr p initial s r.
Proof.
  destruct initial as [l|]; [apply fit_given_loops; auto|]. unfold fit, generate_initial_sol. rewrite <- (proj1 H).
  destruct (Nat.eqb_spec (gn g) 0); [auto|]. destruct (Z.ltb_spec (Z.of_nat (gn g)) p); [auto|].
  destruct (Z.eqb_spec p 1); [reflexivity|]. rewrite <- (n_components_loops g h H). destruct (Z.ltb_spec p (Z.of_nat (n_components g))); [auto|].
  rewrite <- (component_labels_loops g h H).
  destruct (distribute_spec (component_labels g) (n_components g) (Z.to_nat p) r) as [d [r1 [Ed [Hk [Hs Hcap]]]]].
  - apply component_labels_numbered.
  - apply n_components_pos; lia.
  - lia.
  - rewrite component_labels_length. lia.
  - rewrite Ed. cbn [bind]. apply gen_comps_loops. intros comp k Hin. pose proof (Hcap comp k Hin) as Hc2. rewrite count_occ_comp_labels in Hc2.
    split; auto. assert (Hic : In comp (map fst d)) by (apply in_map_iff; exists (comp, k); auto).
    rewrite Hk, in_seq in Hic. lia.
Qed.
End FitLoops2.
