(** Model of the AZPSimulatedAnnealing class of region/p_regions/azp.py:397-705. *)
From Verif Require Import Base Spec M_Graph M_Util M_Objective M_Azp.

(** Constructor arguments and what an instance remembers between fits: azp.py:408-459.
    [sa_maxit = None] is [float("inf")]; [sa_moves_term = None] is a value that is not an integer.
    Negative [nonmoving_steps_before_stop], [repetitions_before_termination] and [max_iterations]
    behave like 0.  (random_state is not modelled here: every random history is covered.) *)
Record sa_args := mkSaArgs {
  sa_init_temperature : Q;
  sa_maxit : option nat;
  sa_moves_term : option Z;
  sa_nonmoving_steps : nat;
  sa_reps : nat
}.
(** azp.py:450, 453: what the object remembers between fits *)
Record sa_memory := mkSaMemory { sa_move_made : bool; sa_visited : list (list Z) }.

(** azp.py:438-459: a new object *)
Definition sa_new (init_temperature : option Q) (maxit : option nat) (moves_term : option Z) (nonmoving reps : nat)
  : out (sa_args * sa_memory) :=
  match init_temperature with
  | None => Raise NotImplementedError
  | Some t => Ok (mkSaArgs t maxit moves_term nonmoving reps, mkSaMemory false [])
  end.

(** creation of the strategy: AllowMoveAZPSimulatedAnnealing.__init__ and the observers: azp_util.py:74-84, azp.py:620-628 *)
Definition sa_strategy (a : sa_args) (m : sa_memory) : out strategy :=
  match sa_moves_term a with
  | None => Raise (ValueError "The sa_moves_term argument must be a positive integer.")
  | Some n => if Z.ltb n 1 then Raise (ValueError "The sa_moves_term argument must be a positive integer.")
              else Ok (SSa (mkCommon [] (mkObj (fun _ _ => NoFuel) (fun _ _ _ _ => NoFuel)) 0%Q)
                           (sa_init_temperature a) 0 (Z.to_nat n) false (sa_move_made m))
  end.

(** [sa_moves_term_reached = False] and [reset()]: azp.py:635-636, azp_util.py:142-143 *)
Definition sa_reset (s : strategy) : strategy :=
  match s with SSa c t _ term _ moved => SSa c t 0 term false moved | _ => s end.
(** [update_temperature]: azp_util.py:139-140 *)
Definition sa_set_temperature (q : Q) (s : strategy) : strategy :=
  match s with SSa c _ sa term reached moved => SSa c q sa term reached moved | _ => s end.
(** the flags set by the observers: azp.py:701-705 *)
Definition sa_is_reached (s : strategy) : bool := match s with SSa _ _ _ _ reached _ => reached | _ => false end.
(** [self.move_made], azp.py:658 *)
Definition sa_is_moved (s : strategy) : bool := match s with SSa _ _ _ _ _ moved => moved | _ => false end.
(** [self.move_made = False], azp.py:659 *)
Definition sa_clear_moved (s : strategy) : strategy :=
  match s with SSa c t sa term reached _ => SSa c t sa term reached false | _ => s end.

(** [(old_sol == initial_labels).all()], azp.py:647 *)
Definition same_solution (l l' : list Z) : bool :=
  forallb (fun p => Z.eqb (fst p) (snd p)) (combine l l').
(** [self.visited.count(tuple(initial_labels))], azp.py:650-651 *)
Definition visits (visited : list (list Z)) (l : list Z) : nat :=
  length (filter (fun v => if list_eq_dec Z.eq_dec v l then true else false) visited).

Section Sa.
Variable expf : Q -> Q.
Variable order : list edge -> list edge.
Variable obj : objfun.
(** fuel of each AZP run *)
Variable azp_fuel : nat.
Variable g : graph.
Variable attr : list (list Q).
Variable n_regions : Z.

(** step b, azp.py:638-647; [left] = maxit - it *)
Fixpoint sa_step_b (fuel : nat) (left : option nat) (initial_labels : option (list Z)) (s : strategy) (r : rng)
  : out (option (list Z) * strategy * rng) :=
  let enough := match left with Some 0 => true | _ => false end in
  if enough || sa_is_reached s then Ok (initial_labels, s, r)
  else match fuel with
  | 0 => NoFuel
  | S fuel' =>
      let* '((labels, s'), r') := azp_fit expf order obj azp_fuel g attr n_regions initial_labels s r in
      let unchanged := match initial_labels with Some old => same_solution old labels | None => false end in
      if unchanged then Ok (Some labels, s', r')
      else sa_step_b fuel' (option_map pred left) (Some labels) s' r'
  end.

(** step d, azp.py:633-662.  [tuple(None)] is a TypeError (no AZP run and no initial labels). *)
Fixpoint sa_outer (fuel : nat) (a : sa_args) (cooling : Q) (nonmoving : nat) (t : Q)
    (initial_labels : option (list Z)) (s : strategy) (visited : list (list Z)) (r : rng)
  : out (option (list Z) * sa_memory * rng) :=
  if Nat.ltb nonmoving (sa_nonmoving_steps a) then
    match fuel with
    | 0 => NoFuel
    | S fuel' =>
        let* '(sol, s1, r1) := sa_step_b fuel' (sa_maxit a) initial_labels (sa_reset s) r in
        match sol with
        | None => Raise (TypeError "'NoneType' object is not iterable")
        | Some l =>
            if Nat.leb (sa_reps a) (visits visited l)
            then Ok (sol, mkSaMemory (sa_is_moved s1) visited, r1)
            else let visited' := visited ++ [l] in
                 let t' := (t * cooling)%Q in
                 let s2 := sa_set_temperature t' s1 in
                 if sa_is_moved s2
                 then sa_outer fuel' a cooling nonmoving t' sol (sa_clear_moved s2) visited' r1
                 else sa_outer fuel' a cooling (S nonmoving) t' sol s2 visited' r1
        end
    end
  else Ok (initial_labels, mkSaMemory (sa_is_moved s) visited, r).

(** azp.py:585-662: the value is [labels_] with what the object remembers afterwards *)
Definition sa_fit (fuel : nat) (cooling : Q) (initial_labels : option (list Z)) (a : sa_args) (m : sa_memory) (r : rng)
  : out (option (list Z) * sa_memory * rng) :=
  if negb (Qltb 0 cooling && Qltb cooling 1)
  then Raise (ValueError "The cooling_factor argument must be greater than 0 and less than 1")
  else let* s := sa_strategy a m in
       sa_outer fuel a cooling 0 (sa_init_temperature a) initial_labels s (sa_visited m) r.
End Sa.
