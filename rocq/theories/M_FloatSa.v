(** AZPSimulatedAnnealing when the arithmetic rounds: the functions of M_Azp.v and M_Sa.v in which numbers are added or
    multiplied.  The acceptance probability and the cooling step are arbitrary functions, whatever [math.exp], the
    division and the multiplication round to. *)
From Verif Require Import Base Spec M_Graph M_Util M_Objective M_Azp M_Sa M_Float.

Section Rounded.
(** [self.objective_val += diff], azp_util.py:90, 102 *)
Variable add : Q -> Q -> Q.
(** [math.exp(-diff / self.t)], azp_util.py:95 *)
Variable prob : Q -> Q -> Q.
(** [t *= cooling_factor], azp.py:655 *)
Variable cool : Q -> Q -> Q.

(** azp_util.py:86-104 *)
Definition fsa_call (c : common) (t : Q) (sa term : nat) (reached moved : bool)
    (a : nat) (r : Z) (labels : list Z) (rg : rng) : out (bool * strategy * rng) :=
  let* diff := o_update (c_obj c) a r labels (c_attr c) in
  let c' := mkCommon (c_attr c) (c_obj c) (add (c_val c) diff) in
  if Qle_bool diff 0 then Ok (true, SSa c' t sa term reached true, rg)
  else let '(u, rg') := random_random rg in
       if Qltb u (prob diff t)
       then Ok (true, SSa c' t (S sa) term (reached || Nat.leb term (S sa)) true, rg')
       else Ok (false, SSa c t sa term reached moved, rg').

(** the strategy of an AZPSimulatedAnnealing object, azp.py:620-628, is never another one *)
Definition fsa_strat_call (s : strategy) (a : nat) (r : Z) (labels : list Z) (rg : rng) : out (bool * strategy * rng) :=
  match s with
  | SSa c t sa term reached moved => fsa_call c t sa term reached moved a r labels rg
  | _ => Ok (false, s, rg)
  end.

Variable order : list edge -> list edge.
Variable obj : objfun.
(** fuel of each AZP run *)
Variable azp_fuel : nat.
Variable g : graph.
Variable attr : list (list Q).
Variable n_regions : Z.

(** the AZP run of azp.py:641-643 *)
Definition fsa_azp (initial_labels : option (list Z)) (s : strategy) (r : rng) : out ((list Z * strategy) * rng) :=
  fit strategy (strat_start obj)
      (fun adj labels _ s r => azp_component strategy fsa_strat_call strat_val adj azp_fuel labels s r)
      order g attr n_regions initial_labels s r.

(** step b, azp.py:638-647, as [sa_step_b] *)
Fixpoint fsa_step_b (fuel : nat) (left : option nat) (initial_labels : option (list Z)) (s : strategy) (r : rng)
  : out (option (list Z) * strategy * rng) :=
  let enough := match left with Some 0 => true | _ => false end in
  if enough || sa_is_reached s then Ok (initial_labels, s, r)
  else match fuel with
  | 0 => NoFuel
  | S fuel' =>
      let* '((labels, s'), r') := fsa_azp initial_labels s r in
      let unchanged := match initial_labels with Some old => same_solution old labels | None => false end in
      if unchanged then Ok (Some labels, s', r')
      else fsa_step_b fuel' (option_map pred left) (Some labels) s' r'
  end.

(** step d, azp.py:633-662, as [sa_outer] *)
Fixpoint fsa_outer (fuel : nat) (a : sa_args) (cooling : Q) (nonmoving : nat) (t : Q)
    (initial_labels : option (list Z)) (s : strategy) (visited : list (list Z)) (r : rng)
  : out (option (list Z) * sa_memory * rng) :=
  if Nat.ltb nonmoving (sa_nonmoving_steps a) then
    match fuel with
    | 0 => NoFuel
    | S fuel' =>
        let* '(sol, s1, r1) := fsa_step_b fuel' (sa_maxit a) initial_labels (sa_reset s) r in
        match sol with
        | None => Raise (TypeError "'NoneType' object is not iterable")
        | Some l =>
            if Nat.leb (sa_reps a) (visits visited l)
            then Ok (sol, mkSaMemory (sa_is_moved s1) visited, r1)
            else let visited' := visited ++ [l] in
                 let t' := cool t cooling in
                 let s2 := sa_set_temperature t' s1 in
                 if sa_is_moved s2
                 then fsa_outer fuel' a cooling nonmoving t' sol (sa_clear_moved s2) visited' r1
                 else fsa_outer fuel' a cooling (S nonmoving) t' sol s2 visited' r1
        end
    end
  else Ok (initial_labels, mkSaMemory (sa_is_moved s) visited, r).

(** azp.py:585-662, as [sa_fit] *)
Definition fsa_fit (fuel : nat) (cooling : Q) (initial_labels : option (list Z)) (a : sa_args) (m : sa_memory) (r : rng)
  : out (option (list Z) * sa_memory * rng) :=
  if negb (Qltb 0 cooling && Qltb cooling 1)
  then Raise (ValueError "The cooling_factor argument must be greater than 0 and less than 1")
  else let* s := sa_strategy a m in
       fsa_outer fuel a cooling 0 (sa_init_temperature a) initial_labels s (sa_visited m) r.
End Rounded.
