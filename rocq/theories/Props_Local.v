(** Property C104: fitting without initial labels is fitting from a random cut of the spanning forest. *)
From Verif Require Import Base Spec M_Graph P_Graph M_Util P_Base P_Util P_Forest P_Init P_Initial P_Skater
  M_Objective P_Sum P_Objective M_Azp P_Azp P_Strategy P_Fit P_AzpFit Examples Props_Objective Props_Azp
  M_Sa P_Sa M_Tabu P_Tabu P_TabuFit P_Reactive Props_Tabu Props_Stuck P_Descent Props_Descent P_Zoning P_Names Props_Mean Props_Zoning
  P_Starts Props_Starts P_Local.

Section C104.
Variable order : list (nat * nat) -> list (nat * nat).
Variable g : graph.
Hypothesis Hord : forall l, Permutation (order l) l.

(** AZP, with any strategy object (the plain rule, annealing, or either inside the max-p wrapper). *)
Theorem C104_azp : exists T, spans g T /\ forall expf O fuel attr p s o, valid_request g p None ->
  ((exists r, answer (azp_fit expf order O fuel g attr p None s r) = o) <->
   exists labels0, tree_start g T (Z.to_nat p) labels0 /\
     exists r, answer (azp_fit expf order O fuel g attr p (Some labels0) s r) = o).
Proof.
  exists (forest_of order g). split; [apply forest_spans; auto|].
  intros expf O fuel attr p s o [Hp1 [Hg [k [Hk Hp]]]]. apply n_islands_iff in Hk. subst k.
  apply fit_none_answers; auto. intros adj labels rows s1 r x r'. apply component_local.
  intros s2 a k0 l r1 b s' r1'. apply strat_call_local.
Qed.

Theorem C104_basic_tabu : exists T, spans g T /\ forall O fuel tabu_length reps attr p c o, valid_request g p None ->
  ((exists r, answer (basic_fit order O fuel tabu_length reps g attr p None c r) = o) <->
   exists labels0, tree_start g T (Z.to_nat p) labels0 /\
     exists r, answer (basic_fit order O fuel tabu_length reps g attr p (Some labels0) c r) = o).
Proof.
  exists (forest_of order g). split; [apply forest_spans; auto|].
  intros O fuel tabu_length reps attr p c o [Hp1 [Hg [k [Hk Hp]]]]. apply n_islands_iff in Hk. subst k.
  apply fit_none_answers; auto. intros adj labels rows c1 r x r'. apply basic_component_local.
Qed.

Theorem C104_reactive_tabu : exists T, spans g T /\ forall O max_iterations k1 k2 attr p s o, valid_request g p None ->
  ((exists r, answer (reactive_fit order O max_iterations k1 k2 g attr p None s r) = o) <->
   exists labels0, tree_start g T (Z.to_nat p) labels0 /\
     exists r, answer (reactive_fit order O max_iterations k1 k2 g attr p (Some labels0) s r) = o).
Proof.
  exists (forest_of order g). split; [apply forest_spans; auto|].
  intros O maxit k1 k2 attr p s o [Hp1 [Hg [k [Hk Hp]]]]. apply n_islands_iff in Hk. subst k.
  apply fit_none_answers; auto. intros adj labels rows s1 r x r'. apply reactive_component_local.
Qed.
End C104.

(** ** Examples *)
(** Three areas, three regions: AZPReactiveTabu has nothing to move, whatever is drawn. *)
Example C104_reactive_example k1 k2 o : valid_request (path_graph 3) 3 None /\
  ((exists r, answer (reactive_fit same_order (pairwise manhattan) 5 k1 k2 (path_graph 3) [[1];[2];[4]]%Q 3%Z None rt_fresh r) = o) <->
   o = Raise AttributeError).
Proof.
  assert (Hv : valid_request (path_graph 3) 3 None).
  { split; [lia|]. split; [cbn; lia|]. exists 1. split; [apply n_islands_iff; vm_compute; reflexivity|cbn; lia]. }
  split; [auto|]. destruct (C104_reactive_tabu same_order (path_graph 3) same_order_perm) as [T [HT H]].
  assert (Hstuck : forall l0 r, tree_start (path_graph 3) T (Z.to_nat 3) l0 ->
    reactive_fit same_order (pairwise manhattan) 5 k1 k2 (path_graph 3) [[1];[2];[4]]%Q 3%Z (Some l0) rt_fresh r = Raise AttributeError).
  { intros l0 r Hs. destruct (C102_starts_feasible _ _ _ _ HT Hs) as [Hfe Hex]. pose proof Hfe as [Hl [Hn _]].
    change (Z.to_nat 3) with 3 in *. assert (Hle : length l0 = 3) by exact Hl.
    destruct l0 as [|x [|y [|w [|]]]]; try discriminate.
    assert (Hx : forall z, In z [x; y; w] -> (0 <= z < 3)%Z) by (intros z Hz; apply Hex in Hz; cbn in Hz; lia).
    assert (H0 : In 0%Z [x; y; w]) by (apply Hex; lia). assert (H1 : In 1%Z [x; y; w]) by (apply Hex; lia).
    assert (H2 : In 2%Z [x; y; w]) by (apply Hex; lia). cbn in H0, H1, H2.
    assert (Hcases : In [x; y; w] [[0;1;2]; [0;2;1]; [1;0;2]; [1;2;0]; [2;0;1]; [2;1;0]]%Z).
    { cbn. destruct H0 as [E0|[E0|[E0|[]]]], H1 as [E1|[E1|[E1|[]]]], H2 as [E2|[E2|[E2|[]]]]; subst; try discriminate; auto 7. }
    clear - Hcases. destruct Hcases as [<-|[<-|[<-|[<-|[<-|[<-|[]]]]]]]; vm_compute; reflexivity. }
  rewrite (H (pairwise manhattan) 5 k1 k2 [[1];[2];[4]]%Q 3%Z rt_fresh o Hv). split.
  - intros [l0 [Hs [r E]]]. rewrite (Hstuck l0 r Hs) in E. symmetry. exact E.
  - intros ->. destruct (proj1 (H (pairwise manhattan) 5 k1 k2 [[1];[2];[4]]%Q 3%Z rt_fresh
      (answer (reactive_fit same_order (pairwise manhattan) 5 k1 k2 (path_graph 3) [[1];[2];[4]]%Q 3%Z None rt_fresh rng0)) Hv)
      (ex_intro _ rng0 eq_refl)) as [l0 [Hs [r E]]].
    exists l0. split; [auto|]. exists r. rewrite (Hstuck l0 r Hs). reflexivity.
Qed.

(** Four areas in a row, two regions: what AZPBasicTabu does for one history without initial labels it can do from one of the starts. *)
Example C104_basic_example : exists labels0 labels c r, feasible (path_graph 4) labels0 2 /\ labels0 <> labels /\
  answer (basic_fit same_order (pairwise manhattan) 30 (Some 5) 1 (path_graph 4) [[0];[0];[5];[9]]%Q 2%Z None dum rng0) = Ok (labels, c) /\
  answer (basic_fit same_order (pairwise manhattan) 30 (Some 5) 1 (path_graph 4) [[0];[0];[5];[9]]%Q 2%Z (Some labels0) dum r) = Ok (labels, c).
Proof.
  exists [0;1;1;1]%Z, [0;0;1;1]%Z. eexists. exists rng0. split.
  - split; [reflexivity|]. split; [reflexivity|]. apply check_regions_all. vm_compute. reflexivity.
  - split; [discriminate|]. split; vm_compute; reflexivity.
Qed.

Print Assumptions C104_azp.
Print Assumptions C104_basic_tabu.
Print Assumptions C104_reactive_tabu.
