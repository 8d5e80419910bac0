(** Property C149: entries on the diagonal of the adjacency matrix, i.e. links of an area to itself. *)
From Verif Require Import Base Spec M_Graph P_Graph M_Util P_Base P_Util P_Forest P_Init P_Initial
  M_Objective P_Sum P_Objective M_Azp P_Azp P_Strategy P_Fit P_AzpFit M_Sa M_Tabu Examples Props_Objective Props_Strategy Props_Azp Props_Sa Props_Tabu
  M_MaxP P_MaxP M_TabuWith P_TabuWith Props_MaxP Props_Compare P_Loops P_LoopsMaxP.

(** AZP with any strategy object, with or without initial labels: two matrices with the same links between different areas give
    the same outcome, and the same draws are used. *)
Theorem C149_azp expf order O fuel g h attr p initial s r : symmetric g -> same_between g h ->
  (initial = None -> (forall l, Permutation (order l) l) /\ diagonal_blind order) ->
  azp_fit expf order O fuel g attr p initial s r = azp_fit expf order O fuel h attr p initial s r.
Proof.
  intros Hsym H Ho. unfold azp_fit.
  assert (Hc : forall g h labels (rows : list (list Q)) s r, same_between g h -> symmetric g -> wf g labels ->
    azp_component strategy (strat_call expf) strat_val g fuel labels s r = azp_component strategy (strat_call expf) strat_val h fuel labels s r).
  { intros. apply azp_component_loops; auto. }
  destruct initial as [l|].
  - apply fit_given_loops; auto.
  - destruct (Ho eq_refl) as [H1 H2]. apply fit_loops; auto.
Qed.

Theorem C149_sa expf order O azp_fuel g h attr p fuel cooling initial a m r : symmetric g -> same_between g h ->
  (initial = None -> (forall l, Permutation (order l) l) /\ diagonal_blind order) ->
  sa_fit expf order O azp_fuel g attr p fuel cooling initial a m r = sa_fit expf order O azp_fuel h attr p fuel cooling initial a m r.
Proof.
  intros Hsym H Ho.
  assert (Hb : forall fuel left initial s r, (initial = None -> (forall l, Permutation (order l) l) /\ diagonal_blind order) ->
    sa_step_b expf order O azp_fuel g attr p fuel left initial s r = sa_step_b expf order O azp_fuel h attr p fuel left initial s r).
  { clear initial Ho r. induction fuel0 as [|f IH]; intros lft initial s r Ho; cbn [sa_step_b]; destruct (_ || _)%bool; try reflexivity.
    rewrite (C149_azp expf order O azp_fuel g h) by auto. destruct (azp_fit _ _ _ _ h _ _ _ _ _) as [[[l s1] r1]|e|]; cbn [bind]; [|reflexivity|reflexivity].
    destruct initial as [old|]; [destruct (same_solution old l); [reflexivity|]|]; apply IH; discriminate. }
  assert (Hout : forall fuel nonmoving t initial s visited r, (initial = None -> (forall l, Permutation (order l) l) /\ diagonal_blind order) ->
    sa_outer expf order O azp_fuel g attr p fuel a cooling nonmoving t initial s visited r = sa_outer expf order O azp_fuel h attr p fuel a cooling nonmoving t initial s visited r).
  { clear initial Ho r. induction fuel0 as [|f IH]; intros nonmoving t initial s visited r Ho; cbn [sa_outer]; destruct (Nat.ltb _ _); try reflexivity.
    rewrite (Hb f (sa_maxit a) initial (sa_reset s) r Ho). destruct (sa_step_b _ _ _ _ h _ _ _ _ _ _ _) as [[[[l|] s1] r1]|e|]; cbn [bind]; try reflexivity.
    destruct (Nat.leb _ _); [reflexivity|]. cbv zeta. destruct (sa_is_moved _); apply IH; discriminate. }
  unfold sa_fit. destruct (negb _); [reflexivity|]. destruct (sa_strategy a m) as [s|e|]; cbn [bind]; [|reflexivity|reflexivity]. apply Hout; auto.
Qed.

(** The tabu classes, with any strategy object (in the heuristic for max-p the wrapper) ... *)
Theorem C149_basic_tabu_with expf order O fuel maxlen reps g h attr p initial s r : symmetric g -> same_between g h ->
  (initial = None -> (forall l, Permutation (order l) l) /\ diagonal_blind order) ->
  basic_fit_with expf order O fuel maxlen reps g attr p initial s r = basic_fit_with expf order O fuel maxlen reps h attr p initial s r.
Proof.
  intros Hsym H Ho. unfold basic_fit_with. destruct initial as [l|].
  - apply fit_given_loops; auto. intros. apply basic_component_loops; auto.
  - destruct (Ho eq_refl) as [H1 H2]. apply fit_loops; auto. intros. apply basic_component_loops; auto.
Qed.
Theorem C149_reactive_tabu_with expf order O maxit k1 k2 g h attr p initial s r : symmetric g -> same_between g h ->
  (initial = None -> (forall l, Permutation (order l) l) /\ diagonal_blind order) ->
  reactive_fit_with expf order O maxit k1 k2 g attr p initial s r = reactive_fit_with expf order O maxit k1 k2 h attr p initial s r.
Proof.
  intros Hsym H Ho. unfold reactive_fit_with. destruct initial as [l|].
  - apply fit_given_loops; auto. intros. apply reactive_component_loops; auto.
  - destruct (Ho eq_refl) as [H1 H2]. apply fit_loops; auto. intros. apply reactive_component_loops; auto.
Qed.

(** ... and with the rule they are created with. *)
Theorem C149_basic_tabu order O fuel maxlen reps g h attr p initial c r : symmetric g -> same_between g h ->
  (initial = None -> (forall l, Permutation (order l) l) /\ diagonal_blind order) ->
  basic_fit order O fuel maxlen reps g attr p initial c r = basic_fit order O fuel maxlen reps h attr p initial c r.
Proof.
  intros Hsym H Ho. unfold basic_fit.
  assert (Hc : forall g h labels rows c r, same_between g h -> symmetric g -> wf g labels ->
    basic_component O g fuel maxlen reps labels rows c r = basic_component O h fuel maxlen reps labels rows c r).
  { intros g1 h1 labels rows c1 r1 Hb _ _. unfold basic_component. destruct (Nat.eqb _ 1); [reflexivity|].
    pose proof (basic_plain expd O g1 maxlen reps rows fuel false [] labels [] c1 r1) as E1.
    pose proof (basic_plain expd O h1 maxlen reps rows fuel false [] labels [] c1 r1) as E2.
    rewrite (basic_loop_loops g1 h1 Hb) in E1. rewrite E1 in E2.
    destruct (basic_loop O g1 fuel maxlen reps rows false [] labels [] c1 r1) as [[[l1 s1] q1]|e1|];
      destruct (basic_loop O h1 fuel maxlen reps rows false [] labels [] c1 r1) as [[[l2 s2] q2]|e2|]; cbn [bind] in E2; congruence. }
  destruct initial as [l|]; [apply fit_given_loops; auto|]. destruct (Ho eq_refl) as [H1 H2]. apply fit_loops; auto.
Qed.
Theorem C149_reactive_tabu order O maxit k1 k2 g h attr p initial s r : symmetric g -> same_between g h ->
  (initial = None -> (forall l, Permutation (order l) l) /\ diagonal_blind order) ->
  reactive_fit order O maxit k1 k2 g attr p initial s r = reactive_fit order O maxit k1 k2 h attr p initial s r.
Proof.
  intros Hsym H Ho. unfold reactive_fit.
  assert (Hc : forall g h labels rows s r, same_between g h -> symmetric g -> wf g labels ->
    reactive_component O g maxit k1 k2 labels rows s r = reactive_component O h maxit k1 k2 labels rows s r).
  { intros g1 h1 labels rows s1 r1 Hb _ _. unfold reactive_component. destruct (Nat.eqb _ 1); [reflexivity|].
    assert (E : reactive_loop O g1 maxit k1 k2 rows None Step10 labels [] s1 r1 = reactive_loop O h1 maxit k1 k2 rows None Step10 labels [] s1 r1); [|rewrite E; reflexivity].
    pose proof (reactive_plain expd O g1 k1 k2 rows maxit None Step10 labels [] s1 r1) as E1.
    pose proof (reactive_plain expd O h1 k1 k2 rows maxit None Step10 labels [] s1 r1) as E2.
    rewrite (reactive_loop_loops g1 h1 Hb) in E1. rewrite E1 in E2.
    destruct (reactive_loop O g1 maxit k1 k2 rows None Step10 labels [] s1 r1) as [[[[l1 [c1 a1 n1 v1]] ls1] q1]|e1|];
      destruct (reactive_loop O h1 maxit k1 k2 rows None Step10 labels [] s1 r1) as [[[[l2 [c2 a2 n2 v2]] ls2] q2]|e2|]; cbn [bind] in E2; unfold plain_of in E2; cbn in E2; congruence. }
  destruct initial as [l|]; [apply fit_given_loops; auto|]. destruct (Ho eq_refl) as [H1 H2]. apply fit_loops; auto.
Qed.

(** The max-p heuristic: with entries on the diagonal fit may fail for all draws although it works without them. *)
Definition with_diagonal (g : graph) : graph := mkG (gn g) (fun a b => Nat.eqb a b || gadj g a b).
Lemma with_diagonal_between g : same_between (with_diagonal g) g.
Proof. split; [auto|]. intros a b Hne. cbn. rewrite (proj2 (Nat.eqb_neq a b) Hne). auto. Qed.
Lemma with_diagonal_symmetric g : symmetric g -> symmetric (with_diagonal g).
Proof. intros Hs u v Hu Hv. cbn. rewrite (Nat.eqb_sym u v), (Hs u v); auto. Qed.

Local Notation att := (map (fun q : Q => [q])).
Definition mp_diag (g : graph) (r : rng) := maxp_azp_fit expd same_order (pairwise manhattan) manhattan 40 g (att [0;1;9]%Q) (att [1;1;1]%Q) [3%Q] 2 rng0 None None r.

Lemma pop_three {B} r (k : nat * list nat * rng -> out B) (P : out B -> Prop) :
  P (k (0, [1;2], rnext r)) -> P (k (1, [0;2], rnext r)) -> P (k (2, [0;1], rnext r)) -> P (bind (pop_randomly_from [0;1;2] r) k).
Proof.
  intros H0 H1 H2. unfold pop_randomly_from, randrange. cbn [length Nat.eqb bind].
  assert (Hm : r 0 mod 3 < 3) by (apply Nat.mod_upper_bound; lia). destruct (r 0 mod 3) as [|[|[|n]]]; [exact H0|exact H1|exact H2|lia].
Qed.
Lemma one_element {A} (x : A) r : random_element_from [x] r = Ok (x, rnext r).
Proof. unfold random_element_from, randrange. cbn [length Nat.eqb bind]. rewrite Nat.mod_1_r. reflexivity. Qed.
Lemma grow_one d g attr sp thr fuel region N ext U A r y U' : reaches ext thr = false -> N <> [] ->
  best_keys (fun a => dissimilarity d attr a region) N = [y] -> remove_first y U = Some U' ->
  grow_region d g attr sp thr (S fuel) region N ext U A r =
  grow_region d g attr sp thr fuel (set_add y region) (set_diff (set_union (set_discard y N) (neighbors g y)) A) (add_rows ext (row sp y)) U' (A ++ [y]) (rnext r).
Proof.
  intros H1 H2 H3 H4. cbn [grow_region]. rewrite H1. destruct N as [|n N]; [congruence|]. unfold find_best_area. rewrite H3, one_element. cbn [bind]. rewrite H4. reflexivity.
Qed.
Lemma grow_stuck d g attr sp thr fuel region N ext U A r y : reaches ext thr = false -> N <> [] ->
  best_keys (fun a => dissimilarity d attr a region) N = [y] -> remove_first y U = None ->
  grow_region d g attr sp thr (S fuel) region N ext U A r = Raise (ValueError "list.remove(x): x not in list").
Proof.
  intros H1 H2 H3 H4. cbn [grow_region]. rewrite H1. destruct N as [|n N]; [congruence|]. unfold find_best_area. rewrite H3, one_element. cbn [bind]. rewrite H4. reflexivity.
Qed.

Theorem C149_maxp_refuted : exists g, symmetric g /\ no_self_loops g /\ same_between (with_diagonal g) g /\
  shaped (att [1;1;1]%Q) [3%Q] (gn g) /\ mp_labels (mp_diag g rng0) = Some [0;0;0]%Z /\
  forall r, mp_diag (with_diagonal g) r = Raise (ValueError "list.remove(x): x not in list").
Proof.
  exists (path_graph 3). split; [apply path_symmetric|]. split; [apply path_no_self_loops|]. split; [apply with_diagonal_between|].
  split; [split; [reflexivity|]; intros x [<-|[<-|[<-|[]]]]; reflexivity|]. split; [vm_compute; reflexivity|].
  intros r. unfold mp_diag, maxp_azp_fit, maxp_fit.
  assert (E : grow_regions manhattan (with_diagonal (path_graph 3)) (att [0;1;9]%Q) (att [1;1;1]%Q) [3%Q] r = Raise (ValueError "list.remove(x): x not in list")).
  { unfold grow_regions. change (gn (with_diagonal (path_graph 3))) with 3. cbn [seq grow_loop].
    apply (pop_three r _ (fun o => o = Raise (ValueError "list.remove(x): x not in list"))).
    all: match goal with |- context [if reaches ?x ?t then _ else _] => let b := eval vm_compute in (reaches x t) in change (reaches x t) with b end; cbv iota zeta.
    all: cbn [length].
    - erewrite grow_one; [|vm_compute; reflexivity|vm_compute; discriminate|vm_compute; reflexivity|vm_compute; reflexivity].
      erewrite grow_stuck; [reflexivity|vm_compute; reflexivity|vm_compute; discriminate|vm_compute; reflexivity|vm_compute; reflexivity].
    - erewrite grow_one; [|vm_compute; reflexivity|vm_compute; discriminate|vm_compute; reflexivity|vm_compute; reflexivity].
      erewrite grow_stuck; [reflexivity|vm_compute; reflexivity|vm_compute; discriminate|vm_compute; reflexivity|vm_compute; reflexivity].
    - erewrite grow_one; [|vm_compute; reflexivity|vm_compute; discriminate|vm_compute; reflexivity|vm_compute; reflexivity].
      erewrite grow_stuck; [reflexivity|vm_compute; reflexivity|vm_compute; discriminate|vm_compute; reflexivity|vm_compute; reflexivity]. }
  cbn [construct]. rewrite E. reflexivity.
Qed.

(** What holds for max-p: with a symmetric matrix, fit either raises that error or gives an outcome it also gives, for suitable draws,
    without the entries on the diagonal.  For each of the four classes as local search. *)
Theorem C149_maxp_partial expf order O d fuel g h attr sp thr max_it entropy labels0 ls r : symmetric g -> same_between g h -> no_self_loops h ->
  maxp_azp_fit expf order O d fuel g attr sp thr max_it entropy labels0 ls r = Raise (ValueError "list.remove(x): x not in list") \/
  exists q, maxp_azp_fit expf order O d fuel h attr sp thr max_it entropy labels0 ls q =
            maxp_azp_fit expf order O d fuel g attr sp thr max_it entropy labels0 ls r.
Proof.
  intros Hsym H Hnl. apply maxp_fit_loops; auto. intros s p l r0. rewrite (C149_azp expf order O fuel g h) by (auto; discriminate). reflexivity.
Qed.
Theorem C149_maxp_sa_partial expf order O d azp_fuel fuel cooling args g h attr sp thr max_it labels0 mem r : symmetric g -> same_between g h -> no_self_loops h ->
  maxp_sa_fit expf order O d azp_fuel fuel cooling args g attr sp thr max_it labels0 mem r = Raise (ValueError "list.remove(x): x not in list") \/
  exists q, maxp_sa_fit expf order O d azp_fuel fuel cooling args h attr sp thr max_it labels0 mem q =
            maxp_sa_fit expf order O d azp_fuel fuel cooling args g attr sp thr max_it labels0 mem r.
Proof.
  intros Hsym H Hnl. apply maxp_fit_loops; auto. intros s p l r0. rewrite (C149_sa expf order O azp_fuel g h) by (auto; discriminate). reflexivity.
Qed.
Theorem C149_maxp_basic_partial expf order O d fuel maxlen reps g h attr sp thr max_it labels0 s r : symmetric g -> same_between g h -> no_self_loops h ->
  maxp_basic_fit expf order O d fuel maxlen reps g attr sp thr max_it labels0 s r = Raise (ValueError "list.remove(x): x not in list") \/
  exists q, maxp_basic_fit expf order O d fuel maxlen reps h attr sp thr max_it labels0 s q =
            maxp_basic_fit expf order O d fuel maxlen reps g attr sp thr max_it labels0 s r.
Proof.
  intros Hsym H Hnl. apply maxp_fit_loops; auto. intros s0 p l r0. rewrite (C149_basic_tabu_with expf order O fuel maxlen reps g h) by (auto; discriminate). reflexivity.
Qed.
Theorem C149_maxp_reactive_partial expf order O d maxit k1 k2 g h attr sp thr max_it labels0 s r : symmetric g -> same_between g h -> no_self_loops h ->
  maxp_reactive_fit expf order O d maxit k1 k2 g attr sp thr max_it labels0 s r = Raise (ValueError "list.remove(x): x not in list") \/
  exists q, maxp_reactive_fit expf order O d maxit k1 k2 h attr sp thr max_it labels0 s q =
            maxp_reactive_fit expf order O d maxit k1 k2 g attr sp thr max_it labels0 s r.
Proof.
  intros Hsym H Hnl. apply maxp_fit_loops; auto. intros s0 p l r0. rewrite (C149_reactive_tabu_with expf order O maxit k1 k2 g h) by (auto; discriminate). reflexivity.
Qed.

(** A run on a path with all entries on the diagonal set: an improving move is made, the same as without them. *)
Example C149_azp_example : let l := [0;0;0;1;1]%Z in let attr := att [1;1;5;5;5]%Q in
  symmetric (with_diagonal (path_graph 5)) /\ same_between (with_diagonal (path_graph 5)) (path_graph 5) /\
  with_diagonal (path_graph 5) <> path_graph 5 /\
  azp_labels (azp_fit expd same_order (pairwise manhattan) 40 (with_diagonal (path_graph 5)) attr 2 (Some l) (SAzp dum) rng0) = Some [0;0;1;1;1]%Z /\
  azp_labels (azp_fit expd same_order (pairwise manhattan) 40 (path_graph 5) attr 2 (Some l) (SAzp dum) rng0) = Some [0;0;1;1;1]%Z.
Proof.
  cbv zeta. split; [apply with_diagonal_symmetric, path_symmetric|]. split; [apply with_diagonal_between|]. split.
  - intros E. apply (f_equal (fun g => gadj g 0 0)) in E. discriminate.
  - split; vm_compute; reflexivity.
Qed.
(** generated start: the identity is an order that does not depend on the diagonal *)
Example C149_azp_generated_example : diagonal_blind same_order /\ (forall l, Permutation (same_order l) l) /\
  azp_labels (azp_fit expd same_order (pairwise manhattan) 40 (with_diagonal (path_graph 5)) (att [1;1;5;5;5]%Q) 2 None (SAzp dum) rng0) =
  azp_labels (azp_fit expd same_order (pairwise manhattan) 40 (path_graph 5) (att [1;1;5;5;5]%Q) 2 None (SAzp dum) rng0) /\
  azp_labels (azp_fit expd same_order (pairwise manhattan) 40 (path_graph 5) (att [1;1;5;5;5]%Q) 2 None (SAzp dum) rng0) <> None.
Proof. split; [intros l; reflexivity|]. split; [intros l; reflexivity|]. split; [vm_compute; reflexivity|vm_compute; discriminate]. Qed.
(** tabu: the same moves *)
Example C149_tabu_example : let l := [0;0;0;1;1]%Z in let attr := att [1;1;5;5;5]%Q in
  tabu_labels (basic_fit same_order (pairwise manhattan) 40 (Some 2) 2 (with_diagonal (path_graph 5)) attr 2 (Some l) dum rng0) = Some [0;0;1;1;1]%Z /\
  tabu_labels (basic_fit same_order (pairwise manhattan) 40 (Some 2) 2 (path_graph 5) attr 2 (Some l) dum rng0) = Some [0;0;1;1;1]%Z.
Proof. cbv zeta. split; vm_compute; reflexivity. Qed.
(** max-p: with amounts that single areas or pairs can reach, fit returns in spite of the entries on the diagonal *)
Example C149_maxp_example :
  mp_labels (maxp_azp_fit expd same_order (pairwise manhattan) manhattan 40 (with_diagonal (path_graph 4)) (att [0;1;9;10]%Q) (att [1;1;1;1]%Q) [2%Q] 3 rng0 None None rng0) = Some [0;0;1;1]%Z /\
  mp_labels (maxp_azp_fit expd same_order (pairwise manhattan) manhattan 40 (path_graph 4) (att [0;1;9;10]%Q) (att [1;1;1;1]%Q) [2%Q] 3 rng0 None None rng0) = Some [0;0;1;1]%Z.
Proof. split; vm_compute; reflexivity. Qed.

Print Assumptions C149_azp.
Print Assumptions C149_sa.
Print Assumptions C149_basic_tabu_with.
Print Assumptions C149_reactive_tabu_with.
Print Assumptions C149_basic_tabu.
Print Assumptions C149_reactive_tabu.
Print Assumptions C149_maxp_refuted.
Print Assumptions C149_maxp_partial.
Print Assumptions C149_maxp_sa_partial.
Print Assumptions C149_maxp_basic_partial.
Print Assumptions C149_maxp_reactive_partial.
