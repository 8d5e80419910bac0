(** Property C96: annealing is a sequence of rounds, each at a cooler temperature. *)
From Verif Require Import Base Spec M_Graph M_Util M_Objective M_Azp M_Sa M_MaxP P_Base P_Sum P_Sa P_Rounds Examples.

Section Rounds.
Variables (expf : Q -> Q) (order : list edge -> list edge) (O : objfun) (azp_fuel : nat) (g : graph) (attr : list (list Q)) (p : Z).
Variables (maxit : option nat) (moves_term : option Z) (cooling : Q).
(** AZPSimulatedAnnealing(t, ..., nonmoving, reps).fit, on an object with memory m *)
Local Notation fit t nonmoving reps initial m fuel r :=
  (sa_fit expf order O azp_fuel g attr p fuel cooling initial (mkSaArgs t maxit moves_term nonmoving reps) m r).

(** With repetitions_before_termination = 0 a fit is a single round.  A fit with any number of
    repetitions either ends after the first round (the labels have been recorded often enough), or it
    goes on like a new fit that starts at the labels of the first round with the temperature multiplied by
    the cooling factor, has recorded these labels and has one non-moving step less unless the round moved
    something.  Exceptions of the first round are exceptions of the fit. *)
Theorem C96_rounds t nonmoving reps initial m fuel r :
  match fit t (S nonmoving) 0 initial m (S fuel) r with
  | Ok (labels, m1, r1) =>
      exists l, labels = Some l /\ sa_visited m1 = sa_visited m /\
        fit t (S nonmoving) reps initial m (S fuel) r =
        if le_lt_dec reps (count_occ (list_eq_dec Z.eq_dec) (sa_visited m) l) then Ok (Some l, m1, r1)
        else fit (t * cooling)%Q (if sa_move_made m1 then S nonmoving else nonmoving) reps (Some l)
                 (mkSaMemory false (sa_visited m ++ [l])) fuel r1
  | Raise e => fit t (S nonmoving) reps initial m (S fuel) r = Raise e
  | NoFuel => fit t (S nonmoving) reps initial m (S fuel) r = NoFuel
  end.
Proof.
  unfold sa_fit. destruct (negb _); [reflexivity|].
  unfold sa_strategy. cbn [sa_moves_term sa_init_temperature sa_visited sa_move_made].
  destruct moves_term as [n|]; [|reflexivity]. destruct (Z.ltb n 1); [reflexivity|]. cbn [bind].
  set (s0 := SSa _ t 0 (Z.to_nat n) false (sa_move_made m)).
  assert (K0 : sa_keeps t (Z.to_nat n) (sa_reset s0)) by (repeat eexists).
  cbn [sa_outer sa_nonmoving_steps sa_maxit sa_reps Nat.ltb Nat.leb].
  pose proof (sa_step_b_keeps expf order O azp_fuel g attr p t (Z.to_nat n) fuel maxit initial (sa_reset s0) r K0) as K1.
  destruct (sa_step_b _ _ _ _ _ _ _ fuel maxit initial (sa_reset s0) r) as [[[sol s1] r1]|e|]; cbn [bind]; auto.
  destruct sol as [l|]; [|reflexivity]. exists l. split; [auto|]. split; [auto|].
  cbn [post] in K1. rewrite visits_count.
  destruct (Nat.leb_spec reps (count_occ (list_eq_dec Z.eq_dec) (sa_visited m) l)) as [H|H];
    destruct (le_lt_dec reps (count_occ (list_eq_dec Z.eq_dec) (sa_visited m) l)) as [H'|H']; try lia; auto.
  destruct K1 as [c [sa [re [mo ->]]]]. cbn [sa_set_temperature sa_is_moved sa_move_made sa_clear_moved].
  destruct mo; cbn [sa_is_moved].
  - etransitivity; [apply (sa_outer_args expf order O azp_fuel g attr p (mkSaArgs t maxit (Some n) (S nonmoving) reps)
      (mkSaArgs (t * cooling) maxit (Some n) (S nonmoving) reps) cooling 0 eq_refl eq_refl eq_refl fuel 0)|].
    apply sa_outer_same. repeat eexists.
  - etransitivity; [apply (sa_outer_args expf order O azp_fuel g attr p (mkSaArgs t maxit (Some n) (S nonmoving) reps)
      (mkSaArgs (t * cooling) maxit (Some n) nonmoving reps) cooling 1 eq_refl eq_refl eq_refl fuel 0)|].
    apply sa_outer_same. repeat eexists.
Qed.

(** With max_iterations = 1 a round is one run of AZP with an annealing strategy of that temperature; it
    has moved something iff the strategy has accepted a move. *)
Theorem C96_single_run t n nonmoving initial m fuel r :
  maxit = Some 1 -> moves_term = Some n -> (1 <= n)%Z -> (0 < cooling < 1)%Q ->
  fit t (S nonmoving) 0 initial m (S (S fuel)) r =
  match azp_fit expf order O azp_fuel g attr p initial (SSa unstarted t 0 (Z.to_nat n) false (sa_move_made m)) r with
  | Ok ((l, s'), r') => Ok (Some l, mkSaMemory (match s' with SSa _ _ _ _ _ moved => moved | _ => false end) (sa_visited m), r')
  | Raise e => Raise e
  | NoFuel => NoFuel
  end.
Proof.
  intros -> -> Hn [H1 H2]. unfold sa_fit. apply Qltb_lt in H1. apply Qltb_lt in H2. rewrite H1, H2. cbn [andb negb].
  unfold sa_strategy. cbn [sa_moves_term sa_init_temperature sa_move_made]. destruct (Z.ltb_spec n 1); [lia|]. cbn [bind].
  remember (S fuel) as fuel1 eqn:Ef. cbn [sa_outer sa_nonmoving_steps sa_maxit sa_reps Nat.ltb Nat.leb]. subst fuel1.
  cbn [sa_step_b sa_reset sa_is_reached orb]. unfold unstarted.
  destruct (azp_fit _ _ _ _ _ _ _ _ _ r) as [[[l s'] r']|e|]; cbn [bind]; auto.
  assert (E : forall b, (if b : bool then Ok (Some l, s', r') else
              sa_step_b expf order O azp_fuel g attr p fuel (option_map pred (Some 1)) (Some l) s' r') = Ok (Some l, s', r')).
  { intros [|]; [reflexivity|]. destruct fuel; reflexivity. }
  rewrite E. cbn [bind]. reflexivity.
Qed.
End Rounds.

(** An annealing fit of six rounds on four areas in a row; [steep] accepts worsening moves only while the
    temperature is high. The first round leads to [0;1;1;1], later rounds are too cold to leave [0;0;1;1]. *)
Definition steep (q : Q) : Q := if Qltb q (-(12 # 1)) then 0 else 1.
Definition args96 (t : Q) (nonmoving reps : nat) : sa_args := mkSaArgs t (Some 1) (Some 1%Z) nonmoving reps.
Definition fit96 t nonmoving reps initial m r :=
  sa_fit steep same_order (pairwise manhattan) 40 (path_graph 4) [[1];[1];[5];[9]]%Q 2%Z 40 (1 # 2) (Some initial) (args96 t nonmoving reps) m r.
Definition labels_of (o : out (option (list Z) * sa_memory * rng)) : option (list Z) :=
  match o with Ok (l, _, _) => l | _ => None end.
Definition memory_of (o : out (option (list Z) * sa_memory * rng)) : sa_memory :=
  match o with Ok (_, m, _) => m | _ => mkSaMemory false [] end.
Example C96_example :
  let first := fit96 1 3 0 [0;0;1;1]%Z (mkSaMemory false []) rng0 in
  let whole := fit96 1 3 5 [0;0;1;1]%Z (mkSaMemory false []) rng0 in
  let rest := fit96 (1 * (1 # 2)) 3 5 [0;1;1;1]%Z (mkSaMemory false [[0;1;1;1]]%Z) (fun k => 7 + k) in
  let hot := fit96 1 3 5 [0;1;1;1]%Z (mkSaMemory false [[0;1;1;1]]%Z) (fun k => 7 + k) in
  labels_of first = Some [0;1;1;1]%Z /\ memory_of first = mkSaMemory true [] /\
  labels_of whole = Some [0;0;1;1]%Z /\
  sa_visited (memory_of whole) = [[0;1;1;1]; [0;0;0;1]; [0;0;1;1]; [0;0;1;1]; [0;0;1;1]; [0;0;1;1]]%Z /\
  labels_of rest = labels_of whole /\ memory_of rest = memory_of whole /\ memory_of hot <> memory_of whole.
Proof. vm_compute. repeat split; discriminate. Qed.

Print Assumptions C96_rounds.
Print Assumptions C96_single_run.
