(** Properties C98 and C99: AZPReactiveTabu.fit is steepest descent. *)
From Verif Require Import Base Spec M_Graph P_Graph M_Util P_Base P_Util P_Forest P_Init P_Initial
  M_Objective P_Sum P_Objective M_Azp P_Azp P_Strategy P_Fit P_AzpFit Examples Props_Objective Props_Azp
  M_Sa P_Sa M_Tabu P_Tabu P_TabuFit P_Reactive Props_Tabu P_Descent.

Section Descent.
Variables (order : list edge -> list edge) (O : objfun) (g : graph) (attr : list (list Q)).
Hypothesis Hord : forall l, Permutation (order l) l.
Hypothesis Hsym : symmetric g.
Hypothesis Hattr : length attr = gn g.
Hypothesis Hone : n_islands g 1.
Hypothesis Hex : exact_on O attr.
(** a new object and k1 >= 1 *)
Variables (max_iterations : Z) (k1 k2 : nat) (c0 : common) (s : reactive).
Hypothesis Hnew : reactive_new max_iterations c0 = Ok s.
Hypothesis Hk1 : 1 <= k1.
Local Notation fit p initial r := (reactive_fit order O (Z.to_nat max_iterations) k1 k2 g attr p initial s r).

Lemma whole_exact : exact_objective O attr.
Proof. apply Hex. auto. Qed.
Lemma one_component : n_components g = 1.
Proof. symmetry. apply n_islands_iff; auto. Qed.
Lemma fresh_new : fresh_reactive s /\ 1 <= Z.to_nat max_iterations.
Proof.
  unfold reactive_new in Hnew. destruct (Z.leb_spec max_iterations 0) as [|H]; [discriminate|]. injection Hnew as <-.
  split; [split; [reflexivity|apply Qeq_refl]|lia].
Qed.
Lemma tie_tie l l' : wf g l -> tie O attr g l l' -> tie_move O attr g l l'.
Proof.
  intros Hwf [a [z [Hl [-> Hv]]]]. exists a, z, (value O attr l), (value O attr (upd l a z)). split; [auto|]. split; [auto|].
  split; [apply (call_val O attr g Hattr whole_exact), Hwf|]. split; [|lra].
  apply (call_val O attr g Hattr whole_exact). rewrite upd_length. apply Hwf.
Qed.

(** ** C98: when fit returns, the labels are reached from the start by k moves, each of them a best legal
    move that lowers the objective, until no legal move lowers it or k is max_iterations - 1 (k = 1 for
    max_iterations = 1).  The only other possibility: the start is a local optimum and the result is one
    move with the same objective away from it. *)
Theorem C98_reactive_descent p initial r labels s' r' :
  shape_ok g initial -> fit p initial r = Ok ((labels, s'), r') ->
  exists labels0, start_labels g p initial labels0 /\
    ((exists k, descent O attr g k labels0 labels /\ (Z.of_nat k <= Z.max 1 (max_iterations - 1))%Z /\
        (local_optimum O attr g labels \/ Z.of_nat k = Z.max 1 (max_iterations - 1))) \/
     (local_optimum O attr g labels0 /\ tie_move O attr g labels0 labels)).
Proof.
  intros Hsh H. assert (Hv : valid_request g p initial) by (eapply fit_returns_valid; eauto).
  destruct fresh_new as [Hf Hm].
  pose proof (reactive_fit_descent O attr g Hsym Hattr order Hord one_component Hex _ k1 k2 p initial s r (valid_good _ _ _ Hv) Hf Hk1 Hm) as Hp.
  rewrite H in Hp. destruct Hp as [l0 [Hst Hd]]. exists l0. split; [apply started_start; auto|].
  destruct Hst as [[Hl0 [_ Hall]] _].
  destruct Hd as [[k [Hd [Hk Ho]]]|[Ho Ht]].
  - left. exists k. split; [auto|]. split; [lia|]. destruct Ho as [Ho|Ho]; [left; auto|right; lia].
  - right. split; [auto|]. apply tie_tie; auto. split; auto.
Qed.

(** If fit raises, it raises AttributeError after k < max_iterations such moves, at labels that cannot be
    changed by any legal move, except that the last move can be taken back. *)
Theorem C98_reactive_error p initial r :
  valid_request g p (Some initial) ->
  (exists labels s' r', fit p (Some initial) r = Ok ((labels, s'), r')) \/
  (fit p (Some initial) r = Raise AttributeError /\
   exists k labels, (Z.of_nat k < max_iterations)%Z /\ descent O attr g k initial labels /\
     ((forall a z, ~ legal_move g labels a z) \/
      exists k' before, k = S k' /\ descent O attr g k' initial before /\ steepest O attr g before labels /\
        forall a z, legal_move g labels a z -> upd labels a z = before)).
Proof.
  intros Hv. destruct fresh_new as [Hf Hm].
  pose proof (reactive_fit_descent O attr g Hsym Hattr order Hord one_component Hex _ k1 k2 p (Some initial) s r (valid_good _ _ _ Hv) Hf Hk1 Hm) as Hp.
  destruct (reactive_fit _ _ _ _ _ _ _ _ _ _ _) as [[[labels s'] r']|e|]; [left; eauto|right|destruct Hp].
  cbn [post] in Hp. destruct (Hp initial eq_refl) as [-> [k [l [Hk [Hd Hend]]]]]. split; [reflexivity|].
  exists k, l. split; [lia|]. auto.
Qed.

(** C32 (partial): fit returns if from every p-region labelling there are two different legal moves. *)
Theorem C32_two_moves_partial p initial r :
  valid_request g p (Some initial) ->
  (forall l, feasible g l (Z.to_nat p) -> (forall z, In z l <-> In z initial) ->
     exists a z b y, legal_move g l a z /\ legal_move g l b y /\ upd l a z <> upd l b y) ->
  exists labels s' r', fit p (Some initial) r = Ok ((labels, s'), r').
Proof.
  intros Hv Htwo. destruct (C98_reactive_error p initial r Hv) as [H|[_ [k [l [_ [Hd Hend]]]]]]; [auto|exfalso].
  destruct Hv as [_ [[Hl0 [Hn Hall]] _]].
  assert (Hfeas : wf g l /\ forall z, In z l <-> In z initial).
  { clear - Hd Hl0 Hall. induction Hd as [l|k l l1 l2 Hd IH [a [z [x [x' [Hl [-> _]]]]]]]; [split; [split; auto|tauto]|].
    destruct (IH Hl0 Hall) as [Hwf1 Hz]. destruct (legal_upd g l1 a z Hwf1 Hl) as [Hwf2 Hs]. split; [auto|].
    intros y. rewrite <- Hz. apply Hs. }
  destruct Hfeas as [[Hlen Hcon] Hz].
  destruct (Htwo l) as [a [z [b [y [Hla [Hlb Hne]]]]]]; [split; [auto|split; [|auto]]|auto|].
  { rewrite <- Hn. apply same_labels_n. exact Hz. }
  destruct Hend as [Hno|[k' [w [_ [_ [_ Hw]]]]]]; [apply (Hno a z Hla)|]. apply Hne. rewrite (Hw a z Hla), (Hw b y Hlb). reflexivity.
Qed.

(** every move of a descent leads to labels that were not better before *)
Lemma descent_bound k l0 l : wf g l0 -> descent O attr g k l0 l ->
  k + az_m O attr g l0 (value O attr l) <= az_m O attr g l0 (value O attr l0) /\ wf g l /\ same_labels l l0.
Proof.
  intros Hwf H. revert Hwf. induction H as [l|k l l1 l2 Hd IH Hs]; intros Hwf.
  - split; [lia|]. split; [auto|]. intros z; tauto.
  - destruct (IH Hwf) as [IH1 [Hwf1 Hz1]]. destruct Hs as [a [z [x [x' [Hl [-> [Ex [Ex' [Hlt _]]]]]]]]].
    destruct (legal_upd g l1 a z Hwf1 Hl) as [Hwf2 Hz2].
    assert (Hz : same_labels (upd l1 a z) l) by (intros y; rewrite <- (Hz1 y); apply Hz2).
    split; [|auto].
    assert (az_m O attr g l (value O attr (upd l1 a z)) < az_m O attr g l (value O attr l1)); [|lia].
    unfold az_m. apply filter_length_lt with (x := upd l1 a z).
    + intros y _ Hy. destruct (o_call O y attr) as [q|e|]; auto. apply Qltb_lt in Hy. apply Qltb_lt.
      unfold value in *. rewrite Ex, Ex' in *. lra.
    + apply words_In; [apply Hwf2|]. intros y Hy. apply uniqueZ_In, Hz; auto.
    + rewrite Ex'. apply Qltb_lt. unfold value. rewrite Ex. lra.
    + rewrite Ex'. apply Qltb_ge. unfold value. rewrite Ex'. lra.
Qed.

(** ** C99: fit stops in a local optimum if max_iterations is large enough.
    Partial: max_iterations larger than the number of labellings is always enough, unless the start is a
    local optimum with a move of equal objective: then the result may be such a move. *)
Theorem C99_reactive_local_optimum_partial p initial r labels s' r' :
  shape_ok g initial -> (Z.of_nat (Z.to_nat p ^ gn g) < max_iterations)%Z ->
  fit p initial r = Ok ((labels, s'), r') ->
  local_optimum O attr g labels \/
  exists labels0, start_labels g p initial labels0 /\ local_optimum O attr g labels0 /\ tie_move O attr g labels0 labels.
Proof.
  intros Hsh Hbig H. assert (Hv : valid_request g p initial) by (eapply fit_returns_valid; eauto).
  destruct fresh_new as [Hf Hm].
  pose proof (reactive_fit_descent O attr g Hsym Hattr order Hord one_component Hex _ k1 k2 p initial s r (valid_good _ _ _ Hv) Hf Hk1 Hm) as Hp.
  rewrite H in Hp. destruct Hp as [l0 [Hst Hd]]. pose proof Hst as [[Hl0 [Hn Hall]] _].
  assert (Hwf : wf g l0) by (split; auto).
  destruct Hd as [[k [Hd [_ [Ho|Hk]]]]|[Ho Ht]]; [left; auto| |].
  - exfalso. destruct (descent_bound k l0 labels Hwf Hd) as [Hb _].
    assert (Hlt : az_m O attr g l0 (value O attr l0) < Z.to_nat p ^ gn g).
    { unfold az_m. rewrite <- Hn, <- uniqueZ_length, <- words_length.
      rewrite <- (filter_all (fun _ => true) (words (uniqueZ l0) (gn g))) at 2 by auto.
      apply filter_length_lt with (x := l0).
      - auto.
      - apply words_In; auto. intros z Hz. apply uniqueZ_In; auto.
      - auto.
      - rewrite (call_val O attr g Hattr whole_exact) by auto. apply Qltb_ge. lra. }
    lia.
  - right. exists l0. split; [apply started_start; auto|]. split; [auto|]. apply tie_tie; auto.
Qed.
End Descent.

(** With no ties, large max_iterations suffice. *)
Theorem C99_reactive_no_ties_partial order O g attr max_iterations k1 k2 c0 s p initial r labels s' r' :
  (forall l, Permutation (order l) l) -> symmetric g -> length attr = gn g -> n_islands g 1 -> exact_on O attr ->
  reactive_new max_iterations c0 = Ok s -> 1 <= k1 -> no_ties O attr -> shape_ok g initial ->
  (Z.of_nat (Z.to_nat p ^ gn g) < max_iterations)%Z ->
  reactive_fit order O (Z.to_nat max_iterations) k1 k2 g attr p initial s r = Ok ((labels, s'), r') ->
  local_optimum O attr g labels.
Proof.
  intros Hord Hsym Hattr Hone Hex Hnew Hk1 Hno Hsh Hbig H.
  destruct (C99_reactive_local_optimum_partial order O g attr Hord Hsym Hattr Hone Hex _ _ _ _ _ Hnew Hk1 _ _ _ _ _ _ Hsh Hbig H)
    as [Ho|[l0 [Hst [_ [a [z [x [y [Hl [-> [Ex [Ey Hxy]]]]]]]]]]]]; [auto|exfalso].
  assert (Hv : valid_request g p initial) by (eapply fit_returns_valid; eauto).
  assert (Hlen : length l0 = gn g).
  { destruct initial as [l|]; cbn in Hst; [subst l; apply Hv|apply Hst]. }
  destruct Hl as [Ha [d [Hd [Hne [_ [b [Hb [Hr _]]]]]]]].
  apply (Hno l0 a z x y); auto; try lia.
  - unfold region in Hr. eapply nth_error_In; eauto.
  - unfold lab. rewrite (nth_error_nth _ _ _ Hd). auto.
Qed.

(** ** Examples *)
Local Notation att := (map (fun q : Q => [q])).
Lemma legal_listed g labels a z : symmetric g -> wf g labels -> legal_move g labels a z ->
  In (a, z) (map (fun m => (mv_area m, mv_new m)) (possible_moves g labels [])).
Proof.
  intros Hsym Hwf Hl. apply in_map_iff. exists (mkMove a (lab labels a) z). split; [reflexivity|].
  apply (possible_moves_spec g labels [] _ Hsym Hwf). split; [exact Hl|]. split; reflexivity.
Qed.
Lemma listed_legal g labels a z : symmetric g -> wf g labels ->
  In (a, z) (map (fun m => (mv_area m, mv_new m)) (possible_moves g labels [])) -> legal_move g labels a z.
Proof.
  intros Hsym Hwf H. apply in_map_iff in H. destruct H as [m [E Hm]]. apply (possible_moves_spec g labels [] m Hsym Hwf) in Hm.
  injection E as <- <-. apply Hm.
Qed.
Lemma wf_of g labels : length labels = gn g -> all_contiguous g labels -> wf g labels.
Proof. split; auto. Qed.
Ltac wf_tac := apply wf_of; [reflexivity|apply check_regions_all; vm_compute; reflexivity].
Ltac valid_tac := split; [lia|]; split; [|cbn; lia]; split; [reflexivity|]; split; [reflexivity|]; apply check_regions_all; vm_compute; reflexivity.
Ltac listed H := apply legal_listed in H; [|apply path_symmetric|wf_tac]; vm_compute in H;
  repeat (destruct H as [H|H]; [injection H as <- <-|]); try (destruct H).
Ltac compare_tac := intros; repeat match goal with H : o_call _ _ _ = Ok _ |- _ =>
  vm_compute in H; injection H as <- end; vm_compute; discriminate.

(** Five areas in a row, values 0 0 0 9 9: two moves lead from 0|1 1 1 1 to 0 0 0|1 1, a local optimum. *)
Definition row5 : list (list Q) := att [0;0;0;9;9]%Q.
Example C98_example :
  valid_request (path_graph 5) 2 (Some [0;1;1;1;1]%Z) /\ n_islands (path_graph 5) 1 /\
  exact_on (pairwise manhattan) row5 /\ reactive_new 33 dum = Ok rt_fresh /\ 2 ^ 5 < 33 /\
  tabu_labels (reactive_ex 33 1 1 (path_graph 5) [0;0;0;9;9]%Q 2%Z (Some [0;1;1;1;1]%Z) rt_fresh rng0) = Some [0;0;0;1;1]%Z /\
  descent (pairwise manhattan) row5 (path_graph 5) 2 [0;1;1;1;1]%Z [0;0;0;1;1]%Z /\
  local_optimum (pairwise manhattan) row5 (path_graph 5) [0;0;0;1;1]%Z.
Proof.
  split; [valid_tac|]. split; [apply n_islands_iff; vm_compute; reflexivity|].
  split; [apply pairwise_exact_on; [apply manhattan_sym|apply manhattan_zero]|]. split; [reflexivity|]. split; [cbn; lia|].
  split; [vm_compute; reflexivity|]. split.
  - eapply descent_move; [eapply descent_move; [apply descent_start|]|].
    + exists 1, 0%Z. eexists _, _. split; [apply listed_legal; [apply path_symmetric|wf_tac|vm_compute; auto]|].
      split; [reflexivity|]. split; [vm_compute; reflexivity|]. split; [vm_compute; reflexivity|]. split; [vm_compute; reflexivity|].
      intros b z y Hl. listed Hl. compare_tac.
    + exists 2, 0%Z. eexists _, _. split; [apply listed_legal; [apply path_symmetric|wf_tac|vm_compute; auto]|].
      split; [reflexivity|]. split; [vm_compute; reflexivity|]. split; [vm_compute; reflexivity|]. split; [vm_compute; reflexivity|].
      intros b z y Hl. listed Hl; compare_tac.
  - intros a z x y Hl. listed Hl; compare_tac.
Qed.

(** One iteration less than needed: the search stops before the local optimum. *)
Example C98_short_example :
  tabu_labels (reactive_ex 2 1 1 (path_graph 5) [0;0;0;9;9]%Q 2%Z (Some [0;1;1;1;1]%Z) rt_fresh rng0) = Some [0;0;1;1;1]%Z /\
  tabu_labels (reactive_ex 3 1 1 (path_graph 5) [0;0;0;9;9]%Q 2%Z (Some [0;1;1;1;1]%Z) rt_fresh rng0) = Some [0;0;0;1;1]%Z.
Proof. split; vm_compute; reflexivity. Qed.

(** C98 (error): 0 0|5, the move 1 to 5 is made and the only legal move then is to take it back. *)
Example C98_error_example :
  valid_request (path_graph 3) 2 (Some [0;0;1]%Z) /\
  tabu_exn (reactive_ex 2 1 1 (path_graph 3) [0;5;5]%Q 2%Z (Some [0;0;1]%Z) rt_fresh rng0) = Some AttributeError /\
  forall a z, legal_move (path_graph 3) [0;1;1]%Z a z -> upd [0;1;1]%Z a z = [0;0;1]%Z.
Proof.
  split; [valid_tac|]. split; [vm_compute; reflexivity|]. intros a z Hl. listed Hl. reflexivity.
Qed.

(** C32 (partial): four areas in a circle, two regions: there are always two legal moves. *)
Definition circle4 : graph := mkG 4 (fun u v => (Nat.ltb u 4 && Nat.ltb v 4) && (Nat.eqb ((u + 1) mod 4) v || Nat.eqb ((v + 1) mod 4) u)).
Example C32_two_moves_example :
  symmetric circle4 /\ n_islands circle4 1 /\ valid_request circle4 2 (Some [0;0;1;1]%Z) /\
  forall l, feasible circle4 l 2 -> (forall z, In z l <-> In z [0;0;1;1]%Z) ->
    exists a z b y, legal_move circle4 l a z /\ legal_move circle4 l b y /\ upd l a z <> upd l b y.
Proof.
  assert (Hsym : symmetric circle4).
  { intros u v Hu Hv. cbn in Hu, Hv. do 4 (destruct u as [|u]; [do 4 (destruct v as [|v]; [reflexivity|]); lia|]). lia. }
  split; [auto|]. split; [apply n_islands_iff; vm_compute; reflexivity|]. split; [valid_tac|].
  intros l [Hlen [Hn Hall]] Hz. pose proof (wf_of circle4 l Hlen Hall) as Hwf. cbn in Hlen.
  assert (Hb : forall z, In z l -> z = 0%Z \/ z = 1%Z) by (intros z H; apply Hz in H; cbn in H; intuition).
  destruct l as [|a [|b [|c [|d [|e l]]]]]; try discriminate.
  destruct (Hb a ltac:(cbn; auto)) as [->| ->], (Hb b ltac:(cbn; auto)) as [->| ->],
    (Hb c ltac:(cbn; auto)) as [->| ->], (Hb d ltac:(cbn; auto)) as [->| ->];
    try (vm_compute in Hn; discriminate Hn);
    try (apply check_regions_all in Hall; vm_compute in Hall; discriminate Hall);
    match goal with |- context [legal_move circle4 ?l] =>
      let ms := eval vm_compute in (map (fun m => (mv_area m, mv_new m)) (possible_moves circle4 l [])) in
      match ms with (?a, ?z) :: (?b, ?y) :: _ =>
        exists a, z, b, y; split; [apply listed_legal; [exact Hsym|exact Hwf|vm_compute; auto]|];
        split; [apply listed_legal; [exact Hsym|exact Hwf|vm_compute; auto]|]; vm_compute; discriminate
      end
    end.
Qed.

(** C99 refuted without the exception for ties: 2|1|2|2 with regions {2,1} {2} {2}.  Moving the 1 changes
    nothing, the search returns that labelling, and from there a legal move lowers the objective. *)
Theorem C99_reactive_local_optimum_refuted :
  exists (g : graph) (attr : list Q) (initial labels : list Z),
    symmetric g /\ n_islands g 1 /\ length attr = gn g /\ valid_request g 3 (Some initial) /\
    (forall maxit k1 k2 r, 1 <= k1 ->
      tabu_labels (reactive_ex (2 + maxit) k1 k2 g attr 3%Z (Some initial) rt_fresh r) = Some labels) /\
    ~ local_optimum (pairwise manhattan) (att attr) g labels.
Proof.
  exists (path_graph 4), [2;1;2;2]%Q, [0;0;1;2]%Z, [0;1;1;2]%Z.
  split; [apply path_symmetric|]. split; [apply n_islands_iff; vm_compute; reflexivity|]. split; [reflexivity|].
  split; [valid_tac|]. split.
  - intros maxit k1 k2 r Hk. destruct k1 as [|k1]; [lia|]. vm_compute. reflexivity.
  - intros H. specialize (H 2 2%Z 1%Q 0%Q). assert (Hc : (1 <= 0)%Q); [|vm_compute in Hc; auto].
    apply H; [|vm_compute; reflexivity|vm_compute; reflexivity].
    apply listed_legal; [apply path_symmetric|wf_tac|vm_compute; auto].
Qed.

Print Assumptions C98_reactive_descent.
Print Assumptions C98_reactive_error.
Print Assumptions C32_two_moves_partial.
Print Assumptions C99_reactive_local_optimum_partial.
Print Assumptions C99_reactive_no_ties_partial.
Print Assumptions C99_reactive_local_optimum_refuted.
