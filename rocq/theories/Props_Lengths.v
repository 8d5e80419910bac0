(** Property C135: initial labels with a wrong number of entries. *)
From Verif Require Import Base Spec M_Graph P_Graph M_Util P_Base P_Util P_Forest P_Init P_Initial
  M_Objective P_Sum P_Objective M_Azp P_Azp P_Strategy P_Fit P_AzpFit M_Sa P_Sa M_Tabu Examples Props_Objective Props_Sa.

(** the call is answered by a ValueError or an IndexError *)
Definition rejected {A} (o : out A) : Prop := o = Raise IndexError \/ exists msg, o = Raise (ValueError msg).

(** More labels than areas are rejected, whatever they are. *)
Theorem C135_too_many_labels labels g p :
  gn g < length labels -> rejected (assert_feasible labels g p) /\ rejected (boolean_assert_feasible labels g p).
Proof.
  intros H. unfold rejected, assert_feasible, boolean_assert_feasible. apply Nat.leb_gt in H. rewrite H.
  destruct p as [p|]; [destruct (Z.eqb _ _)|]; split; eauto.
Qed.
(** Fewer labels than areas are not noticed by assert_feasible: the last areas are treated as absent. *)
Theorem C135_assert_feasible_refuted g labels :
  length labels < gn g -> (assert_feasible labels g None = Ok tt <-> all_contiguous g labels) /\
  (forall p, assert_feasible labels g (Some p) = Ok tt <-> Z.of_nat (n_labels labels) = p /\ all_contiguous g labels).
Proof. intros H. split; [apply assert_feasible_None; lia|intros p; apply assert_feasible_Ok; lia]. Qed.
Example C135_assert_feasible_refuted_example : assert_feasible [7; 7]%Z (path_graph 3) (Some 1%Z) = Ok tt.
Proof. vm_compute. reflexivity. Qed.

(** fit rejects them all: with the basic, tabu-list and annealing strategies, *)
Lemma fit_wrong_length S st fc order g attr p l s r :
  length l <> gn g -> rejected (fit S st fc order g attr p (Some l) s r).
Proof.
  intros H. unfold fit, rejected. destruct (assert_feasible l g (Some p)) eqn:E; cbn [bind].
  - apply Nat.eqb_neq in H. rewrite H. auto.
  - destruct (Nat.leb_spec (length l) (gn g)) as [Hl|Hl].
    + destruct (assert_feasible_total l g (Some p) Hl) as [E'|[m E']]; rewrite E' in E; [discriminate|]. injection E as <-. eauto.
    + destruct (C135_too_many_labels l g (Some p) Hl) as [[E'|[m E']] _]; rewrite E' in E; injection E as <-; eauto.
  - exfalso. destruct (Nat.leb_spec (length l) (gn g)) as [Hl|Hl].
    + destruct (assert_feasible_total l g (Some p) Hl) as [E'|[m E']]; congruence.
    + destruct (C135_too_many_labels l g (Some p) Hl) as [[E'|[m E']] _]; congruence.
Qed.
Theorem C135_azp_wrong_length expf order O fuel g attr p l s r :
  length l <> gn g -> rejected (azp_fit expf order O fuel g attr p (Some l) s r).
Proof. apply fit_wrong_length. Qed.
(** by the tabu searches, *)
Theorem C135_tabu_wrong_length order O fuel maxlen reps maxit k1 k2 g attr p l c s r :
  length l <> gn g ->
  rejected (basic_fit order O fuel maxlen reps g attr p (Some l) c r) /\
  rejected (reactive_fit order O maxit k1 k2 g attr p (Some l) s r).
Proof. intros H. split; apply fit_wrong_length; auto. Qed.
(** and by simulated annealing that does any work at all, also after any earlier fits. *)
Theorem C135_sa_wrong_length expf order O azp_fuel fuel g attr p l cooling a m r :
  length l <> gn g -> sa_maxit a <> Some 0 -> 0 < sa_nonmoving_steps a -> 2 <= fuel ->
  rejected (sa_fit expf order O azp_fuel g attr p fuel cooling (Some l) a m r).
Proof.
  intros Hl Hmax Hnon Hf. unfold sa_fit. destruct (negb _); [right; eauto|].
  unfold sa_strategy. destruct (sa_moves_term a) as [n|]; [|right; cbn [bind]; eauto].
  destruct (Z.ltb n 1); cbn [bind]; [right; eauto|].
  destruct fuel as [|[|fuel]]; [lia|lia|]. cbn [sa_outer]. apply Nat.ltb_lt in Hnon. rewrite Hnon.
  match goal with |- rejected (bind (sa_step_b _ _ _ _ _ _ _ _ _ _ ?s _) _) =>
    assert (Hs : sa_is_reached s = false) by reflexivity; revert Hs; generalize s end.
  intros s Hs. cbn [sa_step_b]. rewrite Hs, orb_false_r.
  destruct (C135_azp_wrong_length expf order O azp_fuel g attr p l s r Hl) as [E|[msg E]];
    (destruct (sa_maxit a) as [[|k]|]; [congruence| |]; rewrite E; cbn [bind]; unfold rejected; eauto).
Qed.

(** Two labels for three areas: assert_feasible says yes, every fit says no. *)
Example C135_example :
  assert_feasible [0; 1]%Z (path_graph 3) (Some 2%Z) = Ok tt /\
  (forall expf order O fuel attr s r, rejected (azp_fit expf order O fuel (path_graph 3) attr 2 (Some [0; 1]%Z) s r)) /\
  (forall expf order O fuel attr s r, rejected (azp_fit expf order O fuel (path_graph 3) attr 2 (Some [0; 1; 1; 1]%Z) s r)).
Proof. split; [vm_compute; reflexivity|]. split; intros; apply C135_azp_wrong_length; cbn; lia. Qed.

Print Assumptions C135_too_many_labels.
Print Assumptions C135_assert_feasible_refuted.
Print Assumptions C135_azp_wrong_length.
Print Assumptions C135_tabu_wrong_length.
Print Assumptions C135_sa_wrong_length.
