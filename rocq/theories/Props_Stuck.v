(** Property theorems C87-C90: the tabu searches and local optima; inputs without any move. *)
From Verif Require Import Base Spec M_Graph P_Graph M_Util P_Base P_Util P_Forest P_Init P_Initial
  M_Objective P_Sum P_Objective M_Azp P_Azp P_Strategy P_Fit P_AzpFit Examples Props_Objective Props_Azp
  M_Sa P_Sa M_Tabu P_Tabu P_TabuFit P_Reactive Props_Tabu P_Stuck.

Section Stuck.
Variables (order : list edge -> list edge) (O : objfun) (g : graph) (attr : list (list Q)).
Hypothesis Hord : forall l, Permutation (order l) l.
Hypothesis Hsym : symmetric g.
Hypothesis Hattr : length attr = gn g.
Hypothesis Hex : exact_on O attr.

(** ** C87: the searches leave a local optimum.
    False of the code for every input: from labels where every legal move makes the objective
    worse, AZPBasicTabu returns these labels, whatever the parameters and the random draws. *)
Theorem C87_basic_tabu_escapes_refuted fuel tabu_length reps p initial c0 r :
  valid_request g p (Some initial) -> strict_optimum O attr g initial -> reps < fuel ->
  exists c' r', basic_fit order O fuel tabu_length reps g attr p (Some initial) c0 r = Ok ((initial, c'), r').
Proof. intros. apply basic_fit_stuck; auto. Qed.

(** So does a new AZPReactiveTabu object on a connected graph. *)
Theorem C87_reactive_escapes_refuted max_iterations k1 k2 c0 s p initial r :
  n_islands g 1 -> reactive_new max_iterations c0 = Ok s ->
  valid_request g p (Some initial) -> strict_optimum O attr g initial -> (exists a z, legal_move g initial a z) ->
  exists s' r', reactive_fit order O (Z.to_nat max_iterations) k1 k2 g attr p (Some initial) s r = Ok ((initial, s'), r').
Proof.
  intros Hone Hnew Hv Hopt Hmv. unfold reactive_new in Hnew.
  destruct (Z.leb_spec max_iterations 0) as [|Hm]; [discriminate|]. injection Hnew as <-.
  apply reactive_fit_stuck; auto; [symmetry; apply n_islands_iff; auto|split; [reflexivity|apply Qeq_refl]|lia].
Qed.

(** ** C89: AZPBasicTabu stops in a local optimum.
    Partial: with tabu_length = 0 every legal move from the returned labels makes the objective
    strictly worse.  Missing: other tabu lengths, see the refutation. *)
Theorem C89_basic_tabu_local_optimum_partial fuel reps p initial c0 r labels c' r' :
  shape_ok g initial ->
  basic_fit order O fuel (Some 0) reps g attr p initial c0 r = Ok ((labels, c'), r') ->
  strict_optimum O attr g labels.
Proof.
  intros Hsh H. assert (Hv : valid_request g p initial) by (eapply fit_returns_valid; eauto).
  pose proof (basic_fit_zero O attr g Hsym Hattr order Hord fuel reps p initial c0 r (valid_good _ _ _ Hv)) as Hp.
  pose proof (basic_fit_any O attr g Hattr order Hord fuel (Some 0) reps p initial c0 r (valid_good _ _ _ Hv)) as Hq.
  rewrite H in Hp, Hq. destruct Hp as [_ [_ [_ Hs]]].
  destruct Hq as [l0 [[[Hl0 [_ Hall0]] _] [Hlen HR]]].
  destruct (any_assembled O g attr l0 labels (conj Hl0 Hall0) Hlen HR) as [Hc _].
  apply stuck_optimum; auto; [split; auto|]. intros c Hc'. apply Hs; auto.
Qed.
(** ** C90: if no area can be moved, the searches return the initial labels. *)
Theorem C90_azp_nothing_to_move expf fuel p initial c0 r :
  valid_request g p (Some initial) -> (forall a z, ~ legal_move g initial a z) -> gn g + 1 < fuel ->
  exists s' r', azp_fit expf order O fuel g attr p (Some initial) (SAzp c0) r = Ok ((initial, s'), r').
Proof.
  intros Hv Hno Hf. unfold azp_fit.
  destruct (azp_still strategy (strat_start O) (strat_call expf) strat_val order fuel g attr p initial (SAzp c0) r
    (fun s => exists c, s = SAzp c) Hsym Hord Hv Hno) as [s' [r' [E _]]]; eauto.
  intros c lc s0 Hc Hwfc [cc ->]. cbn [strat_start]. unfold start_common.
  pose proof (attr_c_exact O attr Hex g Hattr c) as [Hcall _].
  assert (Hll : length lc = length (attr_c attr g c)) by (rewrite attr_c_length; apply Hwfc).
  destruct (Hcall lc Hll) as [x Ex]. unfold attr_c in Ex. rewrite Ex. cbn [bind]. eauto.
Qed.

Theorem C90_basic_tabu_nothing_to_move fuel tabu_length reps p initial c0 r :
  valid_request g p (Some initial) -> (forall a z, ~ legal_move g initial a z) -> reps < fuel ->
  exists c' r', basic_fit order O fuel tabu_length reps g attr p (Some initial) c0 r = Ok ((initial, c'), r').
Proof.
  intros Hv Hno Hf. apply basic_fit_stuck; auto. intros v isl a z _ _ _ Hl. destruct (Hno _ _ Hl).
Qed.

(** AZPReactiveTabu (any object, any number of islands) does so if every island is one region ... *)
Theorem C90_reactive_partial max_iterations k1 k2 c0 s0 s p initial r :
  reactive_new max_iterations c0 = Ok s0 -> valid_request g p (Some initial) ->
  (forall a z, ~ legal_move g initial a z) ->
  (forall u v, same_island g u v -> lab initial u = lab initial v) ->
  exists s' r', reactive_fit order O (Z.to_nat max_iterations) k1 k2 g attr p (Some initial) s r = Ok ((initial, s'), r').
Proof.
  intros Hnew Hv Hno Hone. unfold reactive_new in Hnew.
  destruct (Z.leb_spec max_iterations 0) as [|Hm]; [discriminate|].
  pose proof (reactive_fit_unmovable O attr g Hsym Hattr order Hord (Z.to_nat max_iterations) k1 k2 p initial s r Hex Hv Hno ltac:(lia)) as Hp.
  destruct (reactive_fit _ _ _ _ _ _ _ _ _ _ _) as [[[labels s'] r']|e|]; cbn [post] in Hp.
  - destruct Hp as [-> _]. eauto.
  - destruct Hp as [_ [u [v [Huv Hne]]]]. destruct Hne. auto.
  - destruct Hp.
Qed.

(** ... and otherwise always raises AttributeError. *)
Theorem C90_reactive_refuted max_iterations k1 k2 c0 s0 s p initial r u v :
  reactive_new max_iterations c0 = Ok s0 -> valid_request g p (Some initial) ->
  (forall a z, ~ legal_move g initial a z) ->
  same_island g u v -> lab initial u <> lab initial v ->
  reactive_fit order O (Z.to_nat max_iterations) k1 k2 g attr p (Some initial) s r = Raise AttributeError.
Proof.
  intros Hnew Hv Hno Huv Hne. unfold reactive_new in Hnew.
  destruct (Z.leb_spec max_iterations 0) as [|Hm]; [discriminate|].
  pose proof (reactive_fit_unmovable O attr g Hsym Hattr order Hord (Z.to_nat max_iterations) k1 k2 p initial s r Hex Hv Hno ltac:(lia)) as Hp.
  destruct (reactive_fit _ _ _ _ _ _ _ _ _ _ _) as [[[labels s'] r']|e|]; cbn [post] in Hp.
  - destruct Hp as [_ H]. destruct Hne. auto.
  - destruct Hp as [-> _]. reflexivity.
  - destruct Hp.
Qed.
End Stuck.

(** ** C88: AZPReactiveTabu returns the best labels it has reached.
    False of the code: the result of the last of several iterations is dropped; on every connected
    graph two iterations give what one iteration gives. *)
Theorem C88_second_iteration_lost_refuted order O g attr k1 k2 c1 c2 s1 s2 p initial r1 r2 labels1 labels2 s1' s2' r1' r2' :
  (forall l, Permutation (order l) l) -> symmetric g -> length attr = gn g -> n_islands g 1 -> 1 <= k1 ->
  reactive_new 1 c1 = Ok s1 -> reactive_new 2 c2 = Ok s2 -> shape_ok g (Some initial) ->
  reactive_fit order O 1 k1 k2 g attr p (Some initial) s1 r1 = Ok ((labels1, s1'), r1') ->
  reactive_fit order O 2 k1 k2 g attr p (Some initial) s2 r2 = Ok ((labels2, s2'), r2') ->
  labels2 = labels1.
Proof.
  intros Hord Hsym Hattr Hone Hk Hn1 Hn2 Hlen H1 H2.
  assert (Hv : valid_request g p (Some initial)) by (unfold reactive_fit in H1; eapply (fit_returns_valid _ _ _ order); eauto).
  injection Hn1 as <-. injection Hn2 as <-.
  assert (Hc1 : n_components g = 1) by (symmetry; apply n_islands_iff; auto).
  assert (Hfr : forall c, fresh_reactive (mkReactive c 1 1 [])) by (intros c; split; [reflexivity|apply Qeq_refl]).
  pose proof (reactive_fit_early O attr g Hsym Hattr order Hord Hc1 1 k1 k2 p initial (mkReactive c1 1 1 []) r1 Hv (Hfr _) Hk (or_introl eq_refl)) as P1.
  pose proof (reactive_fit_early O attr g Hsym Hattr order Hord Hc1 2 k1 k2 p initial (mkReactive c2 1 1 []) r2 Hv (Hfr _) Hk (or_intror eq_refl)) as P2.
  rewrite H1 in P1. rewrite H2 in P2. destruct P1 as [L1 R1], P2 as [L2 R2].
  apply (parts_determine g); auto. intros c Hc. rewrite (R1 c Hc), (R2 c Hc). reflexivity.
Qed.

(** ** Witnesses *)
Local Notation att := (map (fun q => [q])).
Definition grid23 : graph :=
  mkG 6 (fun i j => Nat.ltb i 6 && Nat.ltb j 6 &&
    ((Nat.eqb (i / 3) (j / 3) && (Nat.eqb (S i) j || Nat.eqb (S j) i)) || Nat.eqb (i + 3) j || Nat.eqb (j + 3) i)).
Lemma grid23_symmetric : symmetric grid23.
Proof.
  intros u v Hu Hv. cbn in Hu, Hv.
  do 6 (destruct u as [|u]; [do 6 (destruct v as [|v]; [reflexivity|]); lia|]). lia.
Qed.

Definition trap_attr : list (list Q) := att [0;0;0;2;0;3]%Q.
Definition trap : list Z := [0;0;0;0;0;1]%Z.

Lemma path6_nodes v : v < 6 -> comp_nodes (path_graph 6) (comp_label (path_graph 6) v) = [0;1;2;3;4;5].
Proof. intros Hv. do 6 (destruct v as [|v]; [vm_compute; reflexivity|]). lia. Qed.

(** [trap] meets the hypotheses of C87; other labels with as many regions are better. *)
Example C87_example :
  valid_request (path_graph 6) 2 (Some trap) /\ exact_on (pairwise manhattan) trap_attr /\
  strict_optimum (pairwise manhattan) trap_attr (path_graph 6) trap /\
  legal_move (path_graph 6) trap 4 1%Z /\ n_islands (path_graph 6) 1 /\
  feasible (path_graph 6) [0;0;0;1;1;1]%Z 2 /\
  exists x y, objective_at (pairwise manhattan) trap_attr [0;1;2;3;4;5] trap = Ok x /\
    objective_at (pairwise manhattan) trap_attr [0;1;2;3;4;5] [0;0;0;1;1;1]%Z = Ok y /\ (y < x)%Q.
Proof.
  assert (Hwf : wf (path_graph 6) trap).
  { split; [reflexivity|]. apply check_regions_all. vm_compute. reflexivity. }
  assert (Hsym : symmetric (path_graph 6)) by apply path_symmetric.
  split; [|split; [|split; [|split; [|split; [|split]]]]].
  - split; [lia|]. split; [|cbn; lia]. split; [reflexivity|]. split; [reflexivity|apply Hwf].
  - apply pairwise_exact_on; [apply manhattan_sym|apply manhattan_zero].
  - intros v isl a z Hv Hi Ha Hl. rewrite (island_comp_nodes _ v isl Hv Hi). rewrite path6_nodes by (exact Hv).
    assert (Hin : In (mkMove a (lab trap a) z) (possible_moves (path_graph 6) trap [])).
    { apply (possible_moves_spec _ trap [] _ Hsym Hwf). split; [exact Hl|]. split; reflexivity. }
    vm_compute in Hin. destruct Hin as [E|[]]. injection E as Ea _ Ez. subst a z. eexists _, _.
    split; [vm_compute; reflexivity|]. split; [vm_compute; reflexivity|]. vm_compute. reflexivity.
  - assert (Hin : In (mkMove 4 0%Z 1%Z) (possible_moves (path_graph 6) trap [])) by (vm_compute; auto).
    apply (possible_moves_spec _ trap [] _ Hsym Hwf) in Hin. apply Hin.
  - apply n_islands_iff. vm_compute. reflexivity.
  - split; [reflexivity|]. split; [reflexivity|]. apply check_regions_all. vm_compute. reflexivity.
  - eexists _, _. split; [vm_compute; reflexivity|]. split; [vm_compute; reflexivity|]. vm_compute. reflexivity.
Qed.

(** C89: with the default arguments the search returns labels from which moving one area strictly
    lowers the objective. *)
Theorem C89_basic_tabu_local_optimum_refuted :
  exists (g : graph) (attr : list (list Q)) (initial labels : list Z) (r : rng) (a : nat) (z : Z) (x y : Q),
    symmetric g /\ length attr = gn g /\ valid_request g 2 (Some initial) /\
    (forall fuel, 60 <= fuel -> exists c' r',
      basic_fit same_order (pairwise manhattan) fuel None 5 g attr 2 (Some initial) dum r = Ok ((labels, c'), r')) /\
    legal_move g labels a z /\
    o_call (pairwise manhattan) labels attr = Ok x /\ o_call (pairwise manhattan) (upd labels a z) attr = Ok y /\ (y < x)%Q.
Proof.
  exists grid23, (att [0;2;1;4;1;2]%Q), [1;1;0;1;1;1]%Z, [0;0;0;1;0;0]%Z, (fun _ => 0), 0, 1%Z. eexists _, _.
  split; [apply grid23_symmetric|]. split; [reflexivity|]. split; [|split; [|split; [|split; [|split]]]].
  - split; [lia|]. split; [|cbn; lia]. split; [reflexivity|]. split; [reflexivity|].
    apply check_regions_all. vm_compute. reflexivity.
  - intros fuel Hf. replace fuel with (60 + (fuel - 60)) by lia. generalize (fuel - 60). intros k.
    eexists _, _. vm_compute. reflexivity.
  - assert (Hwf : wf grid23 [0;0;0;1;0;0]%Z).
    { split; [reflexivity|]. apply check_regions_all. vm_compute. reflexivity. }
    assert (Hin : In (mkMove 0 0%Z 1%Z) (possible_moves grid23 [0;0;0;1;0;0]%Z [])) by (vm_compute; auto 10).
    apply (possible_moves_spec _ _ [] _ grid23_symmetric Hwf) in Hin. apply Hin.
  - vm_compute. reflexivity.
  - vm_compute. reflexivity.
  - vm_compute. reflexivity.
Qed.

(** C89 (partial) on the same input: without a tabu list the search ends elsewhere. *)
Example C89_example :
  tabu_labels (basic_fit same_order (pairwise manhattan) 60 (Some 0) 5 grid23 (att [0;2;1;4;1;2]%Q) 2
    (Some [1;1;0;1;1;1]%Z) dum (fun _ => 0)) = Some [1;0;0;1;0;0]%Z.
Proof. vm_compute. reflexivity. Qed.

(** C88: one iteration followed by another fit of one iteration improves twice; one fit of two
    iterations gives the result of the first. *)
Theorem C88_best_kept_refuted :
  exists g attr initial l1 l2 x y, symmetric g /\ n_islands g 1 /\ valid_request g 2 (Some initial) /\
    reactive_new 1 dum = Ok rt_fresh /\ reactive_new 2 dum = Ok rt_fresh /\
    tabu_labels (reactive_ex 1 1 1 g attr 2 (Some initial) rt_fresh rng0) = Some l1 /\
    tabu_labels (reactive_ex 1 1 1 g attr 2 (Some l1) rt_fresh rng0) = Some l2 /\
    tabu_labels (reactive_ex 2 1 1 g attr 2 (Some initial) rt_fresh rng0) = Some l1 /\
    o_call (pairwise manhattan) l1 (att attr) = Ok x /\ o_call (pairwise manhattan) l2 (att attr) = Ok y /\ (y < x)%Q.
Proof.
  exists (path_graph 5), [0;0;0;9;9]%Q, [0;1;1;1;1]%Z, [0;0;1;1;1]%Z, [0;0;0;1;1]%Z. eexists _, _.
  split; [apply path_symmetric|]. split; [apply n_islands_iff; vm_compute; reflexivity|].
  split; [|split; [reflexivity|split; [reflexivity|]]].
  - split; [lia|]. split; [|cbn; lia]. split; [reflexivity|]. split; [reflexivity|].
    apply check_regions_all. vm_compute. reflexivity.
  - repeat (split; [vm_compute; reflexivity|]). vm_compute. reflexivity.
Qed.

(** What AZPReactiveTabu keeps: see C30 (never worse than the start). *)

(** C90: three singleton regions; two islands of one region each. *)
Example C90_example :
  valid_request (path_graph 3) 3 (Some [5;4;9]%Z) /\ (forall a z, ~ legal_move (path_graph 3) [5;4;9]%Z a z) /\
  same_island (path_graph 3) 0 2 /\
  tabu_exn (reactive_ex 4 1 1 (path_graph 3) [1;7;2]%Q 3%Z (Some [5;4;9]%Z) rt_fresh rng0) = Some AttributeError /\
  tabu_labels (basic_ex (pairwise manhattan) (path_graph 3) [1;7;2]%Q None 2 3%Z (Some [5;4;9]%Z) rng0) = Some [5;4;9]%Z /\
  valid_request two_paths 2 (Some [7;7;7;3;3;3]%Z) /\
  tabu_labels (reactive_ex 4 1 1 two_paths [0;5;5;0;0;5]%Q 2%Z (Some [7;7;7;3;3;3]%Z) rt_fresh rng0) = Some [7;7;7;3;3;3]%Z.
Proof.
  split; [|split; [|split; [|split; [vm_compute; reflexivity|split; [vm_compute; reflexivity|split; [|vm_compute; reflexivity]]]]]].
  - split; [lia|]. split; [|cbn; lia]. split; [reflexivity|]. split; [reflexivity|]. apply check_regions_all. vm_compute. reflexivity.
  - intros a z Hl.
    assert (Hwf : wf (path_graph 3) [5;4;9]%Z) by (split; [reflexivity|]; apply check_regions_all; vm_compute; reflexivity).
    assert (Hin : In (mkMove a (lab [5;4;9]%Z a) z) (possible_moves (path_graph 3) [5;4;9]%Z [])).
    { apply (possible_moves_spec _ [5;4;9]%Z [] _ (path_symmetric 3) Hwf). split; [exact Hl|]. split; reflexivity. }
    vm_compute in Hin. exact Hin.
  - apply comp_label_eq; [cbn; lia|cbn; lia|vm_compute; reflexivity].
  - split; [lia|]. split; [|cbn; lia]. split; [reflexivity|]. split; [reflexivity|]. apply check_regions_all. vm_compute. reflexivity.
Qed.

Print Assumptions C87_basic_tabu_escapes_refuted.
Print Assumptions C87_reactive_escapes_refuted.
Print Assumptions C88_second_iteration_lost_refuted.
Print Assumptions C88_best_kept_refuted.
Print Assumptions C89_basic_tabu_local_optimum_partial.
Print Assumptions C89_basic_tabu_local_optimum_refuted.
Print Assumptions C90_azp_nothing_to_move.
Print Assumptions C90_basic_tabu_nothing_to_move.
Print Assumptions C90_reactive_partial.
Print Assumptions C90_reactive_refuted.
