(** C30 for every objective function and every strategy object, exact or not. *)
From Verif Require Import Base Spec M_Graph P_Graph M_Util P_Base P_Util P_Forest P_Init P_Initial
  M_Objective P_Sum P_Objective M_Azp P_Azp P_Strategy P_Fit P_AzpFit M_Sa Examples Props_Objective Props_Azp
  M_Tabu P_Tabu P_TabuFit P_Reactive Props_Tabu M_MaxP P_TwoRuns M_TabuWith P_TabuWith Props_MaxPTabu P_FloatTabu4.

(** A new AZPReactiveTabu with k1 >= 1 on a connected map: a result has exactly the regions of the start. *)
Theorem C30_reactive_any_strategy expf order O maxit k1 k2 g attr p initial s r labels s' r' :
  (forall l, Permutation (order l) l) -> 1 <= k1 -> n_islands g 1 -> shape_ok g initial -> rw_visited s = [] ->
  reactive_fit_with expf order O maxit k1 k2 g attr p initial s r = Ok ((labels, s'), r') ->
  feasible g labels (Z.to_nat p) /\ exists labels0, start_labels g p initial labels0 /\ forall z, In z labels <-> In z labels0.
Proof.
  intros Hord Hk1 Hn Hsh Hv0 H. assert (Hv : valid_request g p initial) by (unfold reactive_fit_with in H; eapply fit_returns_valid; eauto).
  assert (Hone : n_components g = 1) by (apply n_islands_iff in Hn; auto).
  assert (Hp : post anyexn True (reactive_fit_with expf order O maxit k1 k2 g attr p initial s r)
    (fun '((labels, _), _) => exists labels0, started_from g p initial labels0 /\ length labels = gn g /\
       forall c, c < n_components g -> kept (comp_graph g c) (comp_part g labels0 c) (comp_part g labels c))).
  { unfold reactive_fit_with.
    eapply (post_weaken anyexn anyexn True True); [auto|auto| |
      apply (fit_post_n (reactive_with strategy) _ _ order g attr anyexn True (fun j s => j = 0 -> rw_visited s = []) (fun c => kept (comp_graph g c)))]; auto.
    - intros [[l1 s1] r1] _ [_ H1]. exact H1.
    - intros c lc s0 rg j Hc Hj Hwf HJ. assert (j = 0) as -> by lia. specialize (HJ eq_refl). unfold run_component.
      eapply post_bind with (P := fun s1 => rw_visited s1 = []).
      { eapply post_bind; [apply anyexn_post|]. intros st _ _. cbn. auto. }
      intros s1 _ Ev. eapply (post_weaken anyexn anyexn True True); [auto|auto| |apply (reactive_component_once strategy (strat_call expf) O); auto].
      intros [[l1 s2] r1] _ Hl. split; [discriminate|]. split; [destruct Hl as [[Hl _] _], Hwf; lia|exact Hl].
    - apply (valid_good _ _ _ Hv). }
  rewrite H in Hp. destruct Hp as [l0 [Hst [Hlen Hq]]].
  assert (Hf := proj1 Hst). destruct Hf as [Hl0 [Hn0 Hall0]]. assert (Hwf : wf g l0) by (split; auto).
  pose proof (assembled_same_labels g l0 labels Hwf Hlen Hq) as Hs. split.
  - split; [auto|]. split; [|apply (assembled_wf g l0 labels Hwf Hlen Hq)]. rewrite <- Hn0. apply same_labels_n. exact Hs.
  - exists l0. split; [apply started_start; auto|exact Hs].
Qed.
Theorem C30_reactive_any_objective order O max_iterations k1 k2 g attr p initial c0 s r labels s' r' :
  (forall l, Permutation (order l) l) -> 1 <= k1 -> n_islands g 1 -> shape_ok g initial -> reactive_new max_iterations c0 = Ok s ->
  reactive_fit order O (Z.to_nat max_iterations) k1 k2 g attr p initial s r = Ok ((labels, s'), r') ->
  feasible g labels (Z.to_nat p) /\ exists labels0, start_labels g p initial labels0 /\ forall z, In z labels <-> In z labels0.
Proof.
  intros Hord Hk1 Hn Hsh Hnew H. assert (Hv : valid_request g p initial) by (unfold reactive_fit in H; eapply fit_returns_valid; eauto).
  assert (Hvis : rt_visited s = []).
  { unfold reactive_new in Hnew. destruct (Z.leb _ _); [discriminate|]. injection Hnew as <-. reflexivity. }
  assert (Hi : match initial with Some l => length l = gn g /\ ~ In (-1)%Z l | None => True end).
  { destruct initial as [l|]; [|exact Logic.I]. destruct (valid_good _ _ _ Hv) as [H1 H2]. auto. }
  pose proof (reactive_fit_plain (fun q => q) order O (Z.to_nat max_iterations) k1 k2 g attr p initial s r Hord Hi) as Hr. rewrite H in Hr.
  destruct (reactive_fit_with (fun q => q) order O (Z.to_nat max_iterations) k1 k2 g attr p initial (plain_of s) r) as [[[l1 s1] r1]|e|] eqn:E;
    cbn [rel] in Hr; try contradiction. destruct Hr as [El _]. cbn in El. subst l1.
  exact (C30_reactive_any_strategy (fun q => q) order O (Z.to_nat max_iterations) k1 k2 g attr p initial (plain_of s) r labels s1 r1 Hord Hk1 Hn Hsh Hvis E).
Qed.

(** An objective that is not exact: the spread of the region with the widest spread. *)
Definition widest : objfun := centered manhattan mean_row (fun l => fold_right (fun x y => if Qle_bool x y then y else x) 0%Q l).
Example C30_any_example :
  n_islands (path_graph 5) 1 /\
  tabu_labels (reactive_fit same_order widest 3 1 1 (path_graph 5) (map (fun q : Q => [q]) [0;1;9;7;8]%Q) 3 (Some [0;1;1;1;2]%Z) rt_fresh rng0) = Some [0;0;1;2;2]%Z.
Proof. split; [apply n_islands_iff; vm_compute; reflexivity|vm_compute; reflexivity]. Qed.

Print Assumptions C30_reactive_any_strategy.
Print Assumptions C30_reactive_any_objective.
