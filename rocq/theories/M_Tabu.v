(** Model of the tabu variants of AZP: region/p_regions/azp.py:708-1046 (cited as azp.py below). *)
From Coq Require Qround.
From Verif Require Import Base Spec M_Graph M_Util M_Objective M_Azp M_Sa.

(** [Move = collections.namedtuple("Move", "area old_region new_region")], util.py:17;
    region/util.py *)
Record tmove := mkMove { mv_area : nat; mv_old : Z; mv_new : Z }.
(** equality of named tuples, used by [in] at azp.py:822, 964 *)
Definition tmove_eqb (m m' : tmove) : bool :=
  Nat.eqb (mv_area m) (mv_area m') && Z.eqb (mv_old m) (mv_old m') && Z.eqb (mv_new m) (mv_new m').
(** [move in self.tabu], azp.py:822, 964 *)
Definition in_tabu (m : tmove) (tabu : list tmove) : bool := existsb (tmove_eqb m) tabu.

(** [deque.append] with [maxlen] (None = unbounded): the oldest entries are dropped on the left
    (azp.py:719, 724) *)
Definition deque_append (maxlen : option nat) (m : tmove) (tabu : list tmove) : list tmove :=
  let t := tabu ++ [m] in
  match maxlen with None => t | Some n => skipn (length t - n) t end.

(** [_make_move], azp.py:713-725: the result is the label array, the tabu list and the answer *)
Definition make_move_tabu (g : graph) (maxlen : option nat) (area : nat) (new_region : Z)
    (labels : list Z) (tabu : list tmove) : out (list Z * list tmove * bool) :=
  let old_region := lab labels area in
  let labels' := make_move area new_region labels in
  let* ok := boolean_assert_feasible labels' g None in
  let tabu' := deque_append maxlen (mkMove area new_region old_region) tabu in
  if ok : bool then Ok (labels', tabu', true)
  else Ok (make_move area old_region labels', tabu', false).

Section Tabu.
Variable obj : objfun.
Variable g : graph.

(** moves that keep the donor region connected and non-empty and are not tabu, in the order of the
    loops: azp.py:811-822 and 952-965 *)
Definition possible_moves (labels : list Z) (tabu : list tmove) : list tmove :=
  flat_map (fun area =>
    let old_region := lab labels area in
    if is_connected (sub_adj_matrix g (where_eq labels old_region) [area])
       && Nat.ltb 1 (count labels old_region)
    then filter (fun m => negb (in_tabu m tabu))
           (map (fun neigh => mkMove area old_region (lab labels neigh))
              (filter (fun neigh => negb (Z.eqb (lab labels neigh) old_region)) (neighbors g area)))
    else []) (seq 0 (length labels)).

(** the first move with the smallest change: azp.py:823-828 and 966-975; the index is
    [best_move_index] *)
Fixpoint best_of (attr : list (list Q)) (labels : list Z) (i : nat) (moves : list tmove)
    (best : option (tmove * nat * Q)) : out (option (tmove * nat * Q)) :=
  match moves with
  | [] => Ok best
  | m :: moves' =>
      let* diff := o_update obj (mv_area m) (mv_new m) labels attr in
      let better := match best with None => true | Some (_, _, q) => Qltb diff q end in
      best_of attr labels (S i) moves' (if better then Some (m, i, diff) else best)
  end.

(** ** AZPBasicTabu: azp.py:732-861 *)

(** the list [improving_tabus], azp.py:837-842 *)
Fixpoint improving_tabus (attr : list (list Q)) (labels : list Z) (tabu : list tmove) : out (list tmove) :=
  match tabu with
  | [] => Ok []
  | m :: tabu' =>
      if Z.eqb (lab labels (mv_area m)) (mv_old m) then
        let* diff := o_update obj (mv_area m) (mv_new m) labels attr in
        let* rest := improving_tabus attr labels tabu' in
        Ok (if Qltb diff 0 then m :: rest else rest)
      else improving_tabus attr labels tabu'
  end.

(** [if self.allow_move_strategy(...): self._make_move(...)], azp.py:846-848, 859-860, 977-978,
    1015-1016; the strategy is the plain improvement rule, [azp_call] *)
Definition try_move (maxlen : option nat) (m : tmove) (labels : list Z) (tabu : list tmove) (c : common)
  : out (list Z * list tmove * common) :=
  let* '(ok, c') := azp_call c (mv_area m) (mv_new m) labels in
  if ok : bool then
    let* '(labels', tabu', _) := make_move_tabu g maxlen (mv_area m) (mv_new m) labels tabu in
    Ok (labels', tabu', c')
  else Ok (labels, tabu, c').

(** azp.py:794-861; [reps] is repetitions_before_termination *)
Fixpoint basic_loop (fuel : nat) (maxlen : option nat) (reps : nat) (attr : list (list Q))
    (stop : bool) (visited : list (list Z)) (labels : list Z) (tabu : list tmove) (c : common) (r : rng)
  : out (list Z * common * rng) :=
  match fuel with
  | 0 => NoFuel
  | S fuel' =>
      let stop' := stop || Nat.leb reps (visits visited labels) in
      let visited' := visited ++ [labels] in
      let* best := best_of attr labels 0 (possible_moves labels tabu) None in
      (* step 2: lines 831-832 *)
      let* '(made, labels1, tabu1, c1) :=
        match best with
        | Some (m, _, q) =>
            if Qle_bool q 0 then
              let* '(ok, c') := azp_call c (mv_area m) (mv_new m) labels in
              if ok : bool then
                let* '(labels', tabu', _) := make_move_tabu g maxlen (mv_area m) (mv_new m) labels tabu in
                Ok (true, labels', tabu', c')
              else Ok (false, labels, tabu, c')
            else Ok (false, labels, tabu, c)
        | None => Ok (false, labels, tabu, c)
        end in
      if made : bool then basic_loop fuel' maxlen reps attr stop' visited' labels1 tabu1 c1 r
      else
        (* step 3: lines 834-848 *)
        let* its := improving_tabus attr labels1 tabu1 in
        let* '(labels2, tabu2, c2, r2) :=
          match its with
          | [] => Ok (labels1, tabu1, c1, r)
          | _ => let* '(m, r') := random_element_from its r in
                 let* '(l', t', c') := try_move maxlen m labels1 tabu1 c1 in
                 Ok (l', t', c', r')
          end in
        if stop' then Ok (labels2, c2, r2)
        else
          (* step 4: lines 850-860 *)
          let* '(labels3, tabu3, c3) :=
            match best with
            | Some (m, _, _) => try_move maxlen m labels2 tabu2 c2
            | None => Ok (labels2, tabu2, c2)
            end in
          basic_loop fuel' maxlen reps attr stop' visited' labels3 tabu3 c3 r2
  end.

(** [_azp_connected_component], azp.py:788-861: the tabu list is emptied first, [visited] is a local variable *)
Definition basic_component (fuel : nat) (maxlen : option nat) (reps : nat) (initial : list Z)
    (attr : list (list Q)) (c : common) (r : rng) : out (list Z * common * rng) :=
  if Nat.eqb (length (uniqueZ initial)) 1 then Ok (initial, c, r)
  else basic_loop fuel maxlen reps attr false [] initial [] c r.

(** ** AZPReactiveTabu: azp.py:864-1046 *)

(** what the object remembers: azp.py:896-905 *)
Record reactive := mkReactive {
  rt_common : common;
  rt_avg : Q;
  rt_reps : nat;
  rt_visited : list (list Z)
}.

(** [list(reversed(...))[:index + 1]] reversed again: the visited solutions from the last
    occurrence of [l] on; azp.py:990-992 *)
Fixpoint first_upto (l : list Z) (visited : list (list Z)) : list (list Z) :=
  match visited with
  | [] => []
  | v :: t => if list_eq_dec Z.eq_dec v l then [v] else v :: first_upto l t
  end.
(** azp.py:990-992 *)
Definition cycle_of (visited : list (list Z)) (l : list Z) : list (list Z) :=
  rev (first_upto l (rev visited)).

(** [visited[i:i + n]], azp.py:998 *)
Definition sublist_at (i n : nat) (l : list (list Z)) : list (list Z) := firstn n (skipn i l).
(** azp.py:995-1001, [range(len(visited) - len(cycle))]; k2 <= 0 behaves like 0 *)
Definition times_cycle_found (visited cycle : list (list Z)) (k2 : nat) : nat :=
  Nat.min k2
    (length (filter (fun i => if list_eq_dec (list_eq_dec Z.eq_dec) (sublist_at i (length cycle) visited) cycle
                              then true else false)
                    (seq 0 (length visited - length cycle)))).

(** step 11, azp.py:1013-1016: [p] random moves out of [moves] *)
Fixpoint random_moves (p : nat) (moves : list tmove) (labels : list Z) (tabu : list tmove) (c : common) (r : rng)
  : out (list Z * list tmove * common * rng) :=
  match p with
  | 0 => Ok (labels, tabu, c, r)
  | S p' =>
      let* '(m, moves', r1) := pop_randomly_from moves r in
      let* '(labels', tabu', c') := try_move (Some 1) m labels tabu c in
      random_moves p' moves' labels' tabu' c' r1
  end.

(** [last_step]: 10, or 11 with the saved labels; azp.py:1009, 1038 *)
Inductive last := Step10 | Step11 (l : list Z).

(** azp.py:939-1038, [for it in range(maxit)]; [start] is [obj_val_start] (None = infinity).
    Step 8 evaluates [deque(self.tabu, 1.1 * self.tabu.maxlen)] (line 1026): a float maxlen is a
    TypeError, so step 9 is never reached and maxlen stays 1.
    [random.randrange(0)] in step 11 is a ValueError; [None.area] in step 5 an AttributeError. *)
Fixpoint reactive_loop (maxit : nat) (k1 k2 : nat) (attr : list (list Q)) (start : option Q)
    (ls : last) (labels : list Z) (tabu : list tmove) (s : reactive) (r : rng)
  : out (list Z * reactive * last * rng) :=
  match maxit with
  | 0 => Ok (labels, s, ls, r)
  | S maxit' =>
      let* v := o_call obj labels attr in
      if negb (match start with None => true | Some x => Qltb v x end) then Ok (labels, s, ls, r)
      else
        let moves := possible_moves labels tabu in
        let* best := best_of attr labels 0 moves None in
        match best with
        | None => Raise AttributeError
        | Some (m, i, _) =>
            let* '(labels1, tabu1, c1) := try_move (Some 1) m labels tabu (rt_common s) in
            let times_visited := visits (rt_visited s) labels1 in
            if Nat.ltb 0 times_visited && Nat.ltb k1 times_visited then
              if Nat.leb k2 (times_cycle_found (rt_visited s) (cycle_of (rt_visited s) labels1) k2) then
                (* step 11 *)
                let p := Z.to_nat (Qround.Qfloor (1 + rt_avg s / 2)) in
                let* '(labels2, tabu2, c2, r2) := random_moves p (remove_nth i moves) labels1 tabu1 c1 r in
                reactive_loop maxit' k1 k2 attr (Some v) (Step11 labels1) labels2 tabu2
                  (mkReactive c2 (rt_avg s) (rt_reps s) []) r2
              else (* step 8 *) Raise (TypeError "'float' object cannot be interpreted as an integer")
            else (* step 10 *)
              reactive_loop maxit' k1 k2 attr (Some v) Step10 labels1 tabu1
                (mkReactive c1 (rt_avg s) (rt_reps s) (rt_visited s ++ [labels1])) r
        end
  end.

(** the returned labels, azp.py:1040-1046 *)
Definition reactive_result (ls : last) (visited : list (list Z)) : out (list Z) :=
  match ls with
  | Step11 l => Ok l
  | Step10 => match rev visited with
              | _ :: l :: _ => Ok l
              | [l] => Ok l
              | [] => Raise IndexError
              end
  end.

(** [_azp_connected_component], azp.py:930-1046; maxit >= 1 (azp.py:900-901), so [last_step] is always bound *)
Definition reactive_component (maxit k1 k2 : nat) (initial : list Z) (attr : list (list Q)) (s : reactive) (r : rng)
  : out (list Z * reactive * rng) :=
  if Nat.eqb (length (uniqueZ initial)) 1 then Ok (initial, s, r)
  else
    let* '(_, s', ls, r') := reactive_loop maxit k1 k2 attr None Step10 initial [] s r in
    let* l := reactive_result ls (rt_visited s') in
    Ok (l, s', r').
End Tabu.

(** [AZPBasicTabu(tabu_length, reps).fit]: azp.py:58-110 with the component procedure above *)
Definition basic_fit (order : list edge -> list edge) (obj : objfun) (fuel : nat) (maxlen : option nat) (reps : nat)
    (g : graph) (attr : list (list Q)) (n_regions : Z) (initial_labels : option (list Z)) (c : common) (r : rng)
  : out ((list Z * common) * rng) :=
  fit common (fun _ labels rows _ => start_common labels rows obj)
      (fun adj labels rows c r => basic_component obj adj fuel maxlen reps labels rows c r)
      order g attr n_regions initial_labels c r.

(** [__init__], azp.py:896-905 *)
Definition reactive_new (max_iterations : Z) (c : common) : out reactive :=
  if Z.leb max_iterations 0 then Raise (ValueError "The `max_iterations` argument must be > 0.")
  else Ok (mkReactive c 1 1 []).

(** [AZPReactiveTabu(maxit, k1, k2).fit]: azp.py:58-110 with the component procedure above; the
    visited solutions and the averages stay in the object *)
Definition reactive_fit (order : list edge -> list edge) (obj : objfun) (maxit k1 k2 : nat)
    (g : graph) (attr : list (list Q)) (n_regions : Z) (initial_labels : option (list Z)) (s : reactive) (r : rng)
  : out ((list Z * reactive) * rng) :=
  fit reactive (fun s labels rows _ => let* c := start_common labels rows obj in
                                       Ok (mkReactive c (rt_avg s) (rt_reps s) (rt_visited s)))
      (fun adj labels rows s r => reactive_component obj adj maxit k1 k2 labels rows s r)
      order g attr n_regions initial_labels s r.
