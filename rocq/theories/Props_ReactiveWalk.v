(** The results and exceptions of AZPReactiveTabu.fit, for objects with any memory: C151. *)
From Verif Require Import Base Spec SpecData SpecTabu SpecReactive M_Graph M_Util M_Objective M_Azp M_Sa M_Tabu P_Base P_Util P_Graph P_Init P_Strategy P_Starts P_Sum P_Objective P_Fit P_Azp P_AzpFit P_Zoning
  P_Local P_Names P_TabuNames P_Ext Props_Util P_Greedy P_Tabu P_Anneal P_TabuWalk P_ReactiveWalk P_AloneAll Props_Azp Props_Descent Props_Tabu Props_Alone Props_AloneAll Examples.

Local Notation att := (map (fun q : Q => [q])).

(** An object as it is after any number of fits that returned labels: the moving average of azp.py:1022-1023 is still 1, because line 1026 raises
    TypeError right after each change of it, and labels of single areas are never remembered. (Objects of which a fit has raised are not covered.) *)
Definition usable (s : reactive) : Prop := (rt_avg s == 1)%Q /\ forall m, In m (rt_visited s) -> 2 <= length m.

(** ** one island *)
Section Search.
Variable O : objfun.
Variables maxit k1 k2 : nat.
Hypothesis Hmaxit : 1 <= maxit.
Definition start_reactive (s : reactive) (labels : list Z) (rows : list (list Q)) (_ : list nat) : out reactive :=
  let* c := start_common labels rows O in Ok (mkReactive c (rt_avg s) (rt_reps s) (rt_visited s)).

Variable g : graph.
Variable attr : list (list Q).
Hypothesis Hsym : symmetric g.
Hypothesis Ha : length attr = gn g.
Hypothesis Hex : exact_on O attr.
Notation comp := (fun adj labels rows s r => reactive_component O adj maxit k1 k2 labels rows s r).
Definition rJ (memory : list (list Z)) (s : reactive) : Prop := usable s /\ rt_visited s = memory.
Definition rR (c : nat) (l l' : list Z) (m m' : list (list Z)) : Prop :=
  reactive_search O (rows_at attr (comp_nodes g c)) (alone g (comp_nodes g c)) k1 k2 maxit m l (Returns l' m').

Lemma comp_facts c : c < n_components g -> symmetric (comp_graph g c) /\ length (rows_at attr (comp_nodes g c)) = gn (comp_graph g c) /\
  exact_objective O (rows_at attr (comp_nodes g c)) /\ gn (comp_graph g c) <> 0.
Proof.
  intros Hc. split; [apply comp_symmetric; auto|]. split; [unfold rows_at; rewrite map_length, comp_graph_n; auto|]. split.
  - apply Hex. intros x Hx. unfold rows_at in Hx. apply in_map_iff in Hx. destruct Hx as [a [<- Hin]]. apply nth_In. rewrite Ha. eapply comp_nodes_lt; eauto.
  - destruct (comp_label_onto g c Hc) as [v [Hv Ev]]. rewrite comp_graph_n. assert (Hin : In v (comp_nodes g c)) by (apply comp_nodes_In; auto).
    destruct (comp_nodes g c); [destruct Hin|cbn; lia].
Qed.

Lemma run_start c l s r : c < n_components g -> wf (comp_graph g c) l -> exists v,
  run_component reactive start_reactive comp g attr c l s r =
  reactive_component O (comp_graph g c) maxit k1 k2 l (rows_at attr (comp_nodes g c))
    (mkReactive (mkCommon (rows_at attr (comp_nodes g c)) O v) (rt_avg s) (rt_reps s) (rt_visited s)) r.
Proof.
  intros Hc Hw. destruct (comp_facts c Hc) as [_ [Hr [He _]]]. destruct (proj1 He l) as [v Ev]; [rewrite Hr; apply Hw|]. exists v.
  unfold run_component, start_reactive, start_common. change (map (row attr) (comp_nodes g c)) with (rows_at attr (comp_nodes g c)). rewrite Ev. reflexivity.
Qed.

Lemma r_sound c l s m r l' s' r' : c < n_components g -> wf (comp_graph g c) l -> rJ m s ->
  run_component reactive start_reactive comp g attr c l s r = Ok (l', s', r') ->
  (length l' = length l \/ 2 <= length l') /\ exists m', rR c l l' m m' /\ rJ m' s'.
Proof.
  intros Hc Hw [[Havg Hlong] <-] E. destruct (run_start c l s r Hc Hw) as [v Er]. rewrite Er in E. destruct (comp_facts c Hc) as [H1 [H2 [H3 H4]]].
  pose proof (component_sound O _ _ H1 H2 H3 k1 k2 maxit l (mkReactive (mkCommon (rows_at attr (comp_nodes g c)) O v) (rt_avg s) (rt_reps s) (rt_visited s)) r Hw
    ltac:(split; [split; reflexivity|exact Havg]) Hmaxit) as H. rewrite E in H. destruct H as [H Havg']. cbn [rt_visited] in H.
  assert (Hne : l <> []) by (intros ->; apply H4; symmetry; apply (proj1 Hw)).
  destruct (search_long _ _ _ _ _ _ _ _ _ _ Hne H Hlong) as [Hm Hx]. split; [destruct Hx as [->|]; auto|].
  exists (rt_visited s'). split; [unfold rR; rewrite <- comp_alone; exact H|]. split; [split; auto|reflexivity].
Qed.
Lemma r_reach c l s m l' m' : c < n_components g -> wf (comp_graph g c) l -> rJ m s -> rR c l l' m m' ->
  exists s', rJ m' s' /\ forall r', exists r, run_component reactive start_reactive comp g attr c l s r = Ok (l', s', r').
Proof.
  intros Hc Hw [[Havg Hlong] <-] H. destruct (run_start c l s rng0 Hc Hw) as [v _]. destruct (comp_facts c Hc) as [H1 [H2 [H3 H4]]].
  unfold rR in H. rewrite <- comp_alone in H.
  assert (Hne : l <> []) by (intros ->; apply H4; symmetry; apply (proj1 Hw)).
  destruct (search_long _ _ _ _ _ _ _ _ _ _ Hne H Hlong) as [Hm _].
  destruct (proj1 H3 l) as [v' Ev]; [rewrite H2; apply Hw|].
  pose proof (component_complete O _ _ H1 H2 H3 k1 k2 maxit l (mkReactive (mkCommon (rows_at attr (comp_nodes g c)) O v') (rt_avg s) (rt_reps s) (rt_visited s)) _ Hw
    ltac:(split; [split; reflexivity|exact Havg]) H) as Hr. cbn [reached] in Hr. destruct Hr as [s' [Es' [Ea' Hr]]].
  exists s'. split; [split; [split; [exact Ea'|rewrite Es'; exact Hm]|exact Es']|]. intros r'. destruct (Hr r') as [r Er]. exists r.
  unfold run_component, start_reactive, start_common. change (map (row attr) (comp_nodes g c)) with (rows_at attr (comp_nodes g c)). rewrite Ev. exact Er.
Qed.

Lemma threads_chain initial labels : forall cs m m', threads g _ rR initial labels cs m m' <->
  chain g _ (fun isl m m1 => reactive_search O (rows_at attr isl) (alone g isl) k1 k2 maxit m (labels_at initial isl) (Returns (labels_at labels isl) m1)) cs m m'.
Proof.
  induction cs as [|c cs IH]; intros m m'; cbn [threads chain]; [tauto|].
  split; intros [m1 [H1 H2]]; exists m1; (split; [exact H1|apply IH; exact H2]).
Qed.
End Search.

(** * C151: the results of AZPReactiveTabu.fit from given labels *)

(** Objects with any memory, any number of islands: [labels] can be returned, with [memory] left behind, exactly if the islands, in the order of
    their first areas, can be searched one after the other such that each search takes over the memory of the one before. *)
Theorem C151_reactive_tabu_outcomes order O maxit k1 k2 g attr p initial s labels memory :
  symmetric g -> length attr = gn g -> exact_on O attr -> valid_request g p (Some initial) -> 1 <= maxit -> usable s ->
  ((exists r s' r', reactive_fit order O maxit k1 k2 g attr p (Some initial) s r = Ok ((labels, s'), r') /\ rt_visited s' = memory) <->
   length labels = gn g /\
   over_islands g (fun isl m m' => reactive_search O (rows_at attr isl) (alone g isl) k1 k2 maxit m (labels_at initial isl) (Returns (labels_at labels isl) m'))
     0 (rt_visited s) memory).
Proof.
  intros Hsym Ha Hex [Hp [Hfeas Hm1]] Hmax Hs. assert (Hw : wf g initial) by (destruct Hfeas as [Hl [_ Hall]]; split; auto).
  rewrite over_chain. split.
  - intros [r [s' [r' [E Em]]]].
    destruct (threads_sound_any reactive (start_reactive O) (fun adj labels rows s r => reactive_component O adj maxit k1 k2 labels rows s r) g attr _ rJ (rR O maxit k1 k2 g attr)
      (r_sound O maxit k1 k2 Hmax g attr Hsym Ha Hex) initial Hw Hm1 order p Hfeas Hp s r (rt_visited s) labels s' r' ltac:(split; auto) E) as [Hl [m' [Ht [_ Hm']]]].
    split; [exact Hl|]. apply threads_chain. rewrite <- Em, Hm'. exact Ht.
  - intros [Hl H]. apply threads_chain in H.
    destruct (threads_reach reactive (start_reactive O) (fun adj labels rows s r => reactive_component O adj maxit k1 k2 labels rows s r) g attr _ rJ (rR O maxit k1 k2 g attr)
      (r_reach O maxit k1 k2 Hmax g attr Hsym Ha Hex) initial Hw Hm1 order p Hfeas Hp s (rt_visited s) labels memory ltac:(split; auto) Hl H) as [s' [[_ Hm'] Hr]].
    destruct (Hr rng0) as [r Er]. exists r, s', rng0. split; [exact Er|exact Hm'].
Qed.

(** Every fit leaves the object as these theorems expect it. *)
Theorem C151_usable_again order O maxit k1 k2 g attr p initial s r labels s' r' :
  symmetric g -> length attr = gn g -> exact_on O attr -> valid_request g p (Some initial) -> 1 <= maxit -> usable s ->
  reactive_fit order O maxit k1 k2 g attr p (Some initial) s r = Ok ((labels, s'), r') -> usable s'.
Proof.
  intros Hsym Ha Hex [Hp [Hfeas Hm1]] Hmax Hs E. assert (Hw : wf g initial) by (destruct Hfeas as [Hl [_ Hall]]; split; auto).
  destruct (threads_sound_any reactive (start_reactive O) (fun adj labels rows s r => reactive_component O adj maxit k1 k2 labels rows s r) g attr _ rJ (rR O maxit k1 k2 g attr)
    (r_sound O maxit k1 k2 Hmax g attr Hsym Ha Hex) initial Hw Hm1 order p Hfeas Hp s r (rt_visited s) labels s' r' ltac:(split; auto) E) as [_ [m' [_ [H _]]]].
  exact H.
Qed.
Theorem C151_new max_iterations c s : reactive_new max_iterations c = Ok s -> usable s /\ rt_visited s = [].
Proof.
  unfold reactive_new. destruct (Z.leb max_iterations 0); [discriminate|]. intros E. injection E as <-. split; [split; [reflexivity|intros m []]|reflexivity].
Qed.

(** The exceptions, on a connected map: what the search fails with, or ValueError if the labels found in the memory belong to another map. *)
Theorem C151_reactive_tabu_exceptions order O maxit k1 k2 g attr p initial s e :
  symmetric g -> (forall i j, gadj g i j = true -> i < gn g /\ j < gn g) -> connected_graph g -> length attr = gn g -> exact_on O attr ->
  valid_request g p (Some initial) -> 1 <= maxit -> usable s ->
  ((exists r, reactive_fit order O maxit k1 k2 g attr p (Some initial) s r = Raise e) <->
   reactive_search O attr g k1 k2 maxit (rt_visited s) initial (Fails e) \/
   (e = ValueError "shape mismatch" /\ exists x memory, reactive_search O attr g k1 k2 maxit (rt_visited s) initial (Returns x memory) /\ length x <> gn g)).
Proof.
  intros Hsym Hin Hconn Ha Hex Hv Hmax [Havg Hlong]. pose proof (one_comp g Hconn) as Hone. assert (Hw : wf g initial) by (destruct Hv as [_ [[Hl [_ Hall]] _]]; split; auto).
  assert (He : exact_objective O attr) by (apply Hex; auto).
  destruct (proj1 He initial) as [v Ev]; [rewrite Ha; apply Hw|].
  set (s1 := mkReactive (mkCommon attr O v) (rt_avg s) (rt_reps s) (rt_visited s)).
  assert (Hg1 : good O attr s1) by (split; [split; reflexivity|exact Havg]).
  assert (Hne : initial <> []).
  { intros ->. destruct (comp_label_onto g 0 ltac:(lia)) as [u [Hu _]]. pose proof (proj1 Hw) as Hl. cbn [length] in Hl. lia. }
  assert (Efit : forall r, reactive_fit order O maxit k1 k2 g attr p (Some initial) s r =
    let* '(l', s2, r') := reactive_component O g maxit k1 k2 initial attr s1 r in
    let* labels := assign_idx (minus_ones (gn g)) (seq 0 (gn g)) l' in Ok ((labels, s2), r')).
  { intros r. unfold reactive_fit. rewrite (fit_whole reactive _ _ order g attr Ha Hone p initial s r Hv). unfold start_common. rewrite Ev. cbn [bind].
    rewrite (reactive_component_links _ _ (whole_links g Hone Hin)). reflexivity. }
  split.
  - intros [r E]. rewrite Efit in E. pose proof (component_sound O attr g Hsym Ha He k1 k2 maxit initial s1 r Hw Hg1 Hmax) as H.
    destruct (reactive_component O g maxit k1 k2 initial attr s1 r) as [[[x s2] r']|e'|]; cbn [bind] in E; [|injection E as <-; left; exact H|discriminate].
    destruct H as [H _]. destruct (Nat.eq_dec (length x) (gn g)) as [Hx|Hx]; [rewrite (assign_whole g attr Ha Hone x Hx) in E; discriminate|].
    destruct (search_long _ _ _ _ _ _ _ _ _ _ Hne H Hlong) as [_ [->|H2]]; [exfalso; apply Hx, Hw|].
    right. split; [|exists x, (rt_visited s2); auto]. unfold assign_idx in E. rewrite seq_length, (proj2 (Nat.eqb_neq _ _) Hx) in E.
    destruct x as [|a [|b x]]; cbn in H2; try lia. cbn [bind] in E. injection E as <-. reflexivity.
  - intros [H|[-> [x [memory [H Hx]]]]]; pose proof (component_complete O attr g Hsym Ha He k1 k2 maxit initial s1 _ Hw Hg1 H) as Hr; cbn [reached] in Hr.
    + destruct Hr as [r Er]. exists r. rewrite Efit, Er. reflexivity.
    + destruct Hr as [s' [_ [_ Hr]]]. destruct (Hr rng0) as [r Er]. exists r. rewrite Efit, Er. cbn [bind].
      destruct (search_long _ _ _ _ _ _ _ _ _ _ Hne H Hlong) as [_ [->|H2]]; [exfalso; apply Hx, Hw|].
      unfold assign_idx. rewrite seq_length, (proj2 (Nat.eqb_neq _ _) Hx). destruct x as [|a [|b x]]; cbn in H2; try lia. reflexivity.
Qed.

(** One object, fitted a first time; a second fit of it then returns labels, restarts without a move left, or ends with one of the other exceptions. *)
Example C151_example :
  let row := att [0; 0; 0; 9; 9]%Q in let g := path_graph 5 in
  let s := rt_after (reactive_ex 33 1 1 g [0; 0; 0; 9; 9]%Q 2%Z (Some [0; 1; 1; 1; 1]%Z) rt_fresh rng0) in
  reactive_new 1 dum = Ok rt_fresh /\ symmetric g /\ connected_graph g /\ exact_on (pairwise manhattan) row /\
  valid_request g 2 (Some [0; 1; 1; 1; 1]%Z) /\ valid_request g 2 (Some [0; 0; 1; 1; 1]%Z) /\ usable s /\
  rt_visited s = [[0; 0; 1; 1; 1]; [0; 0; 0; 1; 1]; [0; 0; 0; 1; 1]]%Z /\
  tabu_labels (reactive_ex 33 0 0 g [0; 0; 0; 9; 9]%Q 2%Z (Some [0; 0; 1; 1; 1]%Z) s rng0) = Some [0; 0; 0; 1; 1]%Z /\
  tabu_exn (reactive_ex 33 0 0 g [0; 0; 0; 9; 9]%Q 2%Z (Some [0; 1; 1; 1; 1]%Z) s rng0) = Some (ValueError "empty range for randrange()") /\
  tabu_exn (reactive_ex 33 0 1 g [0; 0; 0; 9; 9]%Q 2%Z (Some [0; 1; 1; 1; 1]%Z) s rng0) =
    Some (TypeError "'float' object cannot be interpreted as an integer") /\
  tabu_exn (reactive_ex 1 1 1 (path_graph 3) [0; 0; 5]%Q 2%Z (Some [0; 1; 1]%Z) s rng0) = Some (ValueError "shape mismatch").
Proof.
  cbv zeta. split; [reflexivity|]. split; [apply path_symmetric|].
  split; [apply Props_Util.C01_is_connected; vm_compute; reflexivity|].
  split; [apply pairwise_exact_on; [apply manhattan_sym|apply manhattan_zero]|]. split; [valid_tac|]. split; [valid_tac|].
  split.
  - apply (C151_usable_again same_order (pairwise manhattan) 33 1 1 (path_graph 5) (att [0; 0; 0; 9; 9]%Q) 2 [0; 1; 1; 1; 1]%Z rt_fresh rng0 [0; 0; 0; 1; 1]%Z _ rng0).
    + apply path_symmetric.
    + reflexivity.
    + apply pairwise_exact_on; [apply manhattan_sym|apply manhattan_zero].
    + valid_tac.
    + lia.
    + split; [reflexivity|intros m []].
    + vm_compute. reflexivity.
  - repeat split; vm_compute; reflexivity.
Qed.

(** When the search counts as going in circles: the stretch that begins with the last occurrence has to be found [k2] times before. *)
Example C151_cyclic_example : let memory := [[0; 1]; [1; 0]; [0; 1]; [1; 0]; [0; 1]; [1; 0]]%Z in
  cyclic 2 memory [0; 1]%Z /\ ~ cyclic 3 memory [0; 1]%Z /\ cyclic 0 [[0; 1]]%Z [0; 1]%Z /\ ~ cyclic 1 [[0; 1]; [1; 0]]%Z [0; 1]%Z.
Proof.
  cbv zeta. repeat split.
  - apply cyclic_iff; [cbn; auto|vm_compute; reflexivity].
  - intros H. apply cyclic_iff in H; [vm_compute in H; discriminate|cbn; auto].
  - apply cyclic_iff; [cbn; auto|vm_compute; reflexivity].
  - intros H. apply cyclic_iff in H; [vm_compute in H; discriminate|cbn; auto].
Qed.

Print Assumptions C151_reactive_tabu_outcomes.
Print Assumptions C151_usable_again.
Print Assumptions C151_new.
Print Assumptions C151_reactive_tabu_exceptions.
