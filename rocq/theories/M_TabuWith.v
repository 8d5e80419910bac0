(** The tabu classes with any strategy object, region/p_regions/azp.py:708-1046 (cited as azp.py below).
    M_Tabu is the case of AllowMoveAZP (the strategy these classes are constructed with, azp.py:47-56);
    MaxPRegionsHeu replaces the strategy of the local search object it is given by a wrapper
    (region/max_p_regions/heuristics.py:108-110), and the methods below then call the wrapper.
    The tabu list, the list of moves and their search do not involve the strategy and are those of M_Tabu. *)
From Coq Require Qround.
From Verif Require Import Base Spec M_Graph M_Util M_Objective M_Azp M_Sa M_Tabu M_MaxP.

Section TabuWith.
(** any strategy object with its [__call__] (azp_util.py:36) *)
Variable St : Type.
Variable call : St -> nat -> Z -> list Z -> rng -> out (bool * St * rng).
Variable obj : objfun.
Variable g : graph.

(** [if self.allow_move_strategy(...): self._make_move(...)], azp.py:846-848, 859-860, 977-978, 1015-1016 *)
Definition try_move_with (maxlen : option nat) (m : tmove) (labels : list Z) (tabu : list tmove) (s : St) (r : rng)
  : out (list Z * list tmove * St * rng) :=
  let* '(ok, s', r') := call s (mv_area m) (mv_new m) labels r in
  if ok : bool then
    let* '(labels', tabu', _) := make_move_tabu g maxlen (mv_area m) (mv_new m) labels tabu in
    Ok (labels', tabu', s', r')
  else Ok (labels, tabu, s', r').

(** azp.py:794-861, cf. [basic_loop] *)
Fixpoint basic_loop_with (fuel : nat) (maxlen : option nat) (reps : nat) (attr : list (list Q))
    (stop : bool) (visited : list (list Z)) (labels : list Z) (tabu : list tmove) (s : St) (r : rng)
  : out (list Z * St * rng) :=
  match fuel with
  | 0 => NoFuel
  | S fuel' =>
      let stop' := stop || Nat.leb reps (visits visited labels) in
      let visited' := visited ++ [labels] in
      let* best := best_of obj attr labels 0 (possible_moves g labels tabu) None in
      (* step 2: lines 831-832 *)
      let* '(made, labels1, tabu1, s1, r1) :=
        match best with
        | Some (m, _, q) =>
            if Qle_bool q 0 then
              let* '(ok, s', r') := call s (mv_area m) (mv_new m) labels r in
              if ok : bool then
                let* '(labels', tabu', _) := make_move_tabu g maxlen (mv_area m) (mv_new m) labels tabu in
                Ok (true, labels', tabu', s', r')
              else Ok (false, labels, tabu, s', r')
            else Ok (false, labels, tabu, s, r)
        | None => Ok (false, labels, tabu, s, r)
        end in
      if made : bool then basic_loop_with fuel' maxlen reps attr stop' visited' labels1 tabu1 s1 r1
      else
        (* step 3: lines 834-848 *)
        let* its := improving_tabus obj attr labels1 tabu1 in
        let* '(labels2, tabu2, s2, r2) :=
          match its with
          | [] => Ok (labels1, tabu1, s1, r1)
          | _ => let* '(m, r') := random_element_from its r1 in try_move_with maxlen m labels1 tabu1 s1 r'
          end in
        if stop' then Ok (labels2, s2, r2)
        else
          (* step 4: lines 850-860 *)
          let* '(labels3, tabu3, s3, r3) :=
            match best with
            | Some (m, _, _) => try_move_with maxlen m labels2 tabu2 s2 r2
            | None => Ok (labels2, tabu2, s2, r2)
            end in
          basic_loop_with fuel' maxlen reps attr stop' visited' labels3 tabu3 s3 r3
  end.

(** [AZPBasicTabu._azp_connected_component], azp.py:788-861 *)
Definition basic_component_with (fuel : nat) (maxlen : option nat) (reps : nat) (initial : list Z)
    (attr : list (list Q)) (s : St) (r : rng) : out (list Z * St * rng) :=
  if Nat.eqb (length (uniqueZ initial)) 1 then Ok (initial, s, r)
  else basic_loop_with fuel maxlen reps attr false [] initial [] s r.

(** what an AZPReactiveTabu object remembers: azp.py:896-905 *)
Record reactive_with := mkReactiveWith {
  rw_strat : St;
  rw_avg : Q;
  rw_reps : nat;
  rw_visited : list (list Z)
}.

(** step 11, azp.py:1013-1016, cf. [random_moves] *)
Fixpoint random_moves_with (p : nat) (moves : list tmove) (labels : list Z) (tabu : list tmove) (s : St) (r : rng)
  : out (list Z * list tmove * St * rng) :=
  match p with
  | 0 => Ok (labels, tabu, s, r)
  | S p' =>
      let* '(m, moves', r1) := pop_randomly_from moves r in
      let* '(labels', tabu', s', r2) := try_move_with (Some 1) m labels tabu s r1 in
      random_moves_with p' moves' labels' tabu' s' r2
  end.

(** azp.py:939-1038, cf. [reactive_loop] *)
Fixpoint reactive_loop_with (maxit : nat) (k1 k2 : nat) (attr : list (list Q)) (start : option Q)
    (ls : last) (labels : list Z) (tabu : list tmove) (s : reactive_with) (r : rng)
  : out (list Z * reactive_with * last * rng) :=
  match maxit with
  | 0 => Ok (labels, s, ls, r)
  | S maxit' =>
      let* v := o_call obj labels attr in
      if negb (match start with None => true | Some x => Qltb v x end) then Ok (labels, s, ls, r)
      else
        let moves := possible_moves g labels tabu in
        let* best := best_of obj attr labels 0 moves None in
        match best with
        | None => Raise AttributeError
        | Some (m, i, _) =>
            let* '(labels1, tabu1, s1, r1) := try_move_with (Some 1) m labels tabu (rw_strat s) r in
            let times_visited := visits (rw_visited s) labels1 in
            if Nat.ltb 0 times_visited && Nat.ltb k1 times_visited then
              if Nat.leb k2 (times_cycle_found (rw_visited s) (cycle_of (rw_visited s) labels1) k2) then
                (* step 11 *)
                let p := Z.to_nat (Qround.Qfloor (1 + rw_avg s / 2)) in
                let* '(labels2, tabu2, s2, r2) := random_moves_with p (remove_nth i moves) labels1 tabu1 s1 r1 in
                reactive_loop_with maxit' k1 k2 attr (Some v) (Step11 labels1) labels2 tabu2
                  (mkReactiveWith s2 (rw_avg s) (rw_reps s) []) r2
              else (* step 8 *) Raise (TypeError "'float' object cannot be interpreted as an integer")
            else (* step 10 *)
              reactive_loop_with maxit' k1 k2 attr (Some v) Step10 labels1 tabu1
                (mkReactiveWith s1 (rw_avg s) (rw_reps s) (rw_visited s ++ [labels1])) r1
        end
  end.

(** [AZPReactiveTabu._azp_connected_component], azp.py:930-1046 *)
Definition reactive_component_with (maxit k1 k2 : nat) (initial : list Z) (attr : list (list Q)) (s : reactive_with) (r : rng)
  : out (list Z * reactive_with * rng) :=
  if Nat.eqb (length (uniqueZ initial)) 1 then Ok (initial, s, r)
  else
    let* '(_, s', ls, r') := reactive_loop_with maxit k1 k2 attr None Step10 initial [] s r in
    let* l := reactive_result ls (rw_visited s') in
    Ok (l, s', r').
End TabuWith.

Arguments mkReactiveWith {St}.
Arguments rw_strat {St}.
Arguments rw_avg {St}.
Arguments rw_reps {St}.
Arguments rw_visited {St}.

(** [AZPBasicTabu.fit] (azp.py:58-110, 788-861) of an object whose [allow_move_strategy] is any strategy *)
Definition basic_fit_with (expf : Q -> Q) (order : list edge -> list edge) (obj : objfun) (fuel : nat) (maxlen : option nat) (reps : nat)
    (g : graph) (attr : list (list Q)) (n_regions : Z) (initial_labels : option (list Z)) (s : strategy) (r : rng)
  : out ((list Z * strategy) * rng) :=
  fit strategy (strat_start obj)
      (fun adj labels rows s r => basic_component_with strategy (strat_call expf) obj adj fuel maxlen reps labels rows s r)
      order g attr n_regions initial_labels s r.

(** [AZPReactiveTabu.fit] (azp.py:58-110, 930-1046) of an object whose [allow_move_strategy] is any strategy *)
Definition reactive_fit_with (expf : Q -> Q) (order : list edge -> list edge) (obj : objfun) (maxit k1 k2 : nat)
    (g : graph) (attr : list (list Q)) (n_regions : Z) (initial_labels : option (list Z)) (s : reactive_with strategy) (r : rng)
  : out ((list Z * reactive_with strategy) * rng) :=
  fit (reactive_with strategy)
      (fun s labels rows idx => let* st := strat_start obj (rw_strat s) labels rows idx in
                                Ok (mkReactiveWith st (rw_avg s) (rw_reps s) (rw_visited s)))
      (fun adj labels rows s r => reactive_component_with strategy (strat_call expf) obj adj maxit k1 k2 labels rows s r)
      order g attr n_regions initial_labels s r.

(** [AZPReactiveTabu(max_iterations, k1, k2)], azp.py:896-905 *)
Definition reactive_with_new (max_iterations : Z) : out (reactive_with strategy) :=
  if Z.leb max_iterations 0 then Raise (ValueError "The `max_iterations` argument must be > 0.")
  else Ok (mkReactiveWith (SAzp unstarted) 1 1 []).

(** MaxPRegionsHeu (heuristics.py:39-123) whose local search is an AZPBasicTabu object with the strategy [s] *)
Definition maxp_basic_fit (expf : Q -> Q) (order : list edge -> list edge) (obj : objfun) (d : list Q -> list Q -> Q)
    (fuel : nat) (maxlen : option nat) (reps : nat) (g : graph) (attr sp : list (list Q)) (threshold : list Q) (max_it : nat)
    (labels0 : option (list Z)) (s : strategy) (r : rng) :=
  maxp_fit strategy (maxp_wrap sp threshold)
    (fun s p l r => let* '((labels, s'), r') := basic_fit_with expf order obj fuel maxlen reps g attr p (Some l) s r in
                    Ok (Some labels, s', r'))
    obj attr (fun r => (s, r)) d g sp threshold max_it labels0 (Some s) r.

(** MaxPRegionsHeu (heuristics.py:39-123) whose local search is an AZPReactiveTabu object *)
Definition maxp_reactive_fit (expf : Q -> Q) (order : list edge -> list edge) (obj : objfun) (d : list Q -> list Q -> Q)
    (maxit k1 k2 : nat) (g : graph) (attr sp : list (list Q)) (threshold : list Q) (max_it : nat)
    (labels0 : option (list Z)) (s : reactive_with strategy) (r : rng) :=
  maxp_fit (reactive_with strategy)
    (fun s => mkReactiveWith (maxp_wrap sp threshold (rw_strat s)) (rw_avg s) (rw_reps s) (rw_visited s))
    (fun s p l r => let* '((labels, s'), r') := reactive_fit_with expf order obj maxit k1 k2 g attr p (Some l) s r in
                    Ok (Some labels, s', r'))
    obj attr (fun r => (s, r)) d g sp threshold max_it labels0 (Some s) r.
