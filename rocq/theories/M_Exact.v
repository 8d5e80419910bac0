(** Model of region/p_regions/exact.py and region/max_p_regions/exact.py.
    A mixed-integer program is a record of its decision variables (integers), a predicate listing
    the bounds and constraints in the order of the code, and an objective.  The solver is not
    modelled: an answer is the value ([varValue], possibly None) of each variable read afterwards.
    The adjacency has one row per row of [attr]. *)
From Verif Require Import Base Spec M_Graph M_Util M_Objective M_MaxP.
Local Open Scope Z_scope.

(** Python's [sum] and pulp's [lpSum] of integer terms, e.g. p_regions/exact.py:362; max_p_regions/exact.py:108-137 *)
Definition sumZ (l : list Z) : Z := fold_right Z.add 0 l.

(** [II_upper_triangle], p_regions/exact.py:329, 440, 527 and max_p_regions/exact.py:84 *)
Definition upper (n : nat) : list (nat * nat) :=
  filter (fun e => Nat.ltb (fst e) (snd e)) (list_prod (seq 0 n) (seq 0 n)).

(** [lpSum(d[i, j] * t[i, j] for i, j in II_upper_triangle)], p_regions/exact.py:362, 464, 543 and
    max_p_regions/exact.py:109 *)
Definition lp_cost (n : nat) (d : nat -> nat -> Q) (t : nat -> nat -> Z) : Q :=
  sumQ (map (fun e => d (fst e) (snd e) * inject_Z (t (fst e) (snd e)))%Q (upper n)).

(** [d], p_regions/exact.py:331-336, 443-448, 528-533.  The rows are reshaped to (m, 1), so the
    metric returns an m x m matrix of distances between single attribute values; lpSum adds up all
    its entries. *)
Definition p_weight (metric : list Q -> list Q -> Q) (attr : list (list Q)) (i j : nat) : Q :=
  sumQ (flat_map (fun a => map (fun b => metric [a] [b]) (nth j attr [])) (nth i attr [])).
(** [d], max_p_regions/exact.py:89-91: rows reshaped to (1, m), one distance *)
Definition mp_weight (metric : list Q -> list Q -> Q) (attr : list (list Q)) (i j : nat) : Q :=
  metric (nth i attr []) (nth j attr []).

(** [varValue == 1], e.g. p_regions/exact.py:409; an unsolved variable has the value None *)
Definition is_one (v : option Q) : bool := match v with Some q => Qeq_bool q 1 | None => false end.

(** ** Flow model: p_regions/exact.py:298-411 *)
Record flow_vars := mkFlow {
  fl_t : nat -> nat -> Z;           (* lines 339-343 *)
  fl_f : nat -> nat -> nat -> Z;    (* lines 344-348 *)
  fl_y : nat -> nat -> Z;           (* lines 349-353 *)
  fl_w : nat -> nat -> Z            (* lines 354-358 *)
}.
(** lines 339-401: bounds and constraints (21)-(27) *)
Definition flow_ok (g : graph) (p : nat) (a : flow_vars) : Prop :=
  let n := gn g in
  let m := Z.of_nat n - Z.of_nat p in
  (forall i j, (i < j < n)%nat -> 0 <= fl_t a i j <= 1) /\
  (forall i j k, (i < n)%nat -> In j (neighbors g i) -> (k < p)%nat -> 0 <= fl_f a i j k) /\
  (forall i k, (i < n)%nat -> (k < p)%nat -> 0 <= fl_y a i k <= 1) /\
  (forall i k, (i < n)%nat -> (k < p)%nat -> 0 <= fl_w a i k <= 1) /\
  (* 366-367 *) (forall i, (i < n)%nat -> sumZ (map (fun k => fl_y a i k) (seq 0 p)) = 1) /\
  (* 369-371 *) (forall i k, (i < n)%nat -> (k < p)%nat -> fl_w a i k <= fl_y a i k) /\
  (* 373-374 *) (forall k, (k < p)%nat -> sumZ (map (fun i => fl_w a i k) (seq 0 n)) = 1) /\
  (* 376-379 *) (forall i j k, (i < n)%nat -> In j (neighbors g i) -> (k < p)%nat -> fl_f a i j k <= fl_y a i k * m) /\
  (* 381-384 *) (forall i j k, (i < n)%nat -> In j (neighbors g i) -> (k < p)%nat -> fl_f a i j k <= fl_y a j k * m) /\
  (* 386-389 *) (forall i k, (i < n)%nat -> (k < p)%nat ->
     sumZ (map (fun j => fl_f a i j k - fl_f a j i k) (neighbors g i)) >= fl_y a i k - m * fl_w a i k) /\
  (* 391-393 *) (forall i j k, (i < j < n)%nat -> (k < p)%nat -> fl_t a i j >= fl_y a i k + fl_y a j k - 1).
(** line 362 *)
Definition flow_cost (g : graph) (d : nat -> nat -> Q) (a : flow_vars) : Q := lp_cost (gn g) d (fl_t a).
(** line 388: [f[j, i, k]] exists only if i is a neighbour of j *)
Definition flow_build (g : graph) : out unit :=
  if forallb (fun i => forallb (fun j => memb i (neighbors g j)) (neighbors g i)) (seq 0 (gn g))
  then Ok tt else Raise KeyError.
(** lines 406-411 *)
Definition flow_decode (n p : nat) (y : nat -> nat -> option Q) : list Z :=
  map (fun i => fold_left (fun r k => if is_one (y i k) then Z.of_nat k else r) (seq 0 p) 0) (seq 0 n).
(** [_flow] with the answer [y] of the solver, p_regions/exact.py:298-411 *)
Definition flow_fit (g : graph) (p : nat) (y : nat -> nat -> option Q) : out (list Z) :=
  let* _ := flow_build g in Ok (flow_decode (gn g) p y).

(** ** Order model: p_regions/exact.py:414-498 *)
Record order_vars := mkOrder {
  or_t : nat -> nat -> Z;           (* lines 451-455 *)
  or_x : nat -> nat -> nat -> Z     (* lines 456-460 *)
}.
(** [sum(x[i, k, o] for k in K for o in O)], lines 472 and max_p_regions/exact.py:117 *)
Definition sum_ko (ks os : list nat) (x : nat -> nat -> Z) : Z :=
  sumZ (flat_map (fun k => map (fun o => x k o) os) ks).
(** lines 451-487: bounds and constraints (14)-(17) *)
Definition order_ok (g : graph) (p : nat) (a : order_vars) : Prop :=
  let n := gn g in
  let no := (n - p)%nat in
  (forall i j, (i < j < n)%nat -> 0 <= or_t a i j <= 1) /\
  (forall i k o, (i < n)%nat -> (k < p)%nat -> (o < no)%nat -> 0 <= or_x a i k o <= 1) /\
  (* 468-469 *) (forall k, (k < p)%nat -> sumZ (map (fun i => or_x a i k 0%nat) (seq 0 n)) = 1) /\
  (* 471-472 *) (forall i, (i < n)%nat -> sum_ko (seq 0 p) (seq 0 no) (or_x a i) = 1) /\
  (* 474-478 *) (forall i k o, (i < n)%nat -> (k < p)%nat -> (1 <= o < no)%nat ->
     or_x a i k o <= sumZ (map (fun j => or_x a j k (o - 1)%nat) (neighbors g i))) /\
  (* 480-483 *) (forall i j k, (i < j < n)%nat -> (k < p)%nat ->
     or_t a i j >= sumZ (map (fun o => or_x a i k o + or_x a j k o) (seq 0 no)) - 1).
(** line 464 *)
Definition order_cost (g : graph) (d : nat -> nat -> Q) (a : order_vars) : Q := lp_cost (gn g) d (or_t a).
(** line 469: [x[i, k, 0]] does not exist if there are no orders *)
Definition order_build (g : graph) (p : nat) : out unit :=
  if Nat.eqb (gn g - p) 0 && negb (Nat.eqb p 0) && negb (Nat.eqb (gn g) 0) then Raise KeyError else Ok tt.
(** lines 492-498 and max_p_regions/exact.py:158-163 *)
Definition order_decode (n : nat) (ks os : list nat) (x : nat -> nat -> nat -> option Q) : list Z :=
  map (fun i => fold_left (fun r k => fold_left (fun r o => if is_one (x i k o) then Z.of_nat k else r) os r) ks 0) (seq 0 n).
(** [_order] with the answer [x] of the solver, p_regions/exact.py:414-498 *)
Definition order_fit (g : graph) (p : nat) (x : nat -> nat -> nat -> option Q) : out (list Z) :=
  let* _ := order_build g p in Ok (order_decode (gn g) (seq 0 p) (seq 0 (gn g - p)) x).

(** ** Tree model: p_regions/exact.py:501-598 *)
Record tree_vars := mkTree {
  tr_t : nat -> nat -> Z;           (* lines 535-536 *)
  tr_x : nat -> nat -> Z;           (* lines 537-538 *)
  tr_u : nat -> Z                   (* line 539 *)
}.
(** lines 535-578: bounds and constraints (4)-(10) *)
Definition tree_ok (g : graph) (p : nat) (a : tree_vars) : Prop :=
  let n := gn g in
  let m := Z.of_nat n - Z.of_nat p in
  (forall i j, (i < n)%nat -> (j < n)%nat -> 0 <= tr_t a i j <= 1) /\
  (forall i j, (i < n)%nat -> (j < n)%nat -> 0 <= tr_x a i j <= 1) /\
  (forall i, (i < n)%nat -> 0 <= tr_u a i) /\
  (* 547-548 *) sumZ (flat_map (fun i => map (fun j => tr_x a i j) (neighbors g i)) (seq 0 n)) = m /\
  (* 550-551 *) (forall i, (i < n)%nat -> sumZ (map (fun j => tr_x a i j) (neighbors g i)) <= 1) /\
  (* 553-557 *) (forall i j l, (i < n)%nat -> (j < n)%nat -> (l < n)%nat -> i <> j -> i <> l -> j <> l ->
     tr_t a i j + tr_t a i l - tr_t a j l <= 1) /\
  (* 559-560 *) (forall i j, (i < n)%nat -> (j < n)%nat -> tr_t a i j - tr_t a j i = 0) /\
  (* 562-564 *) (forall i j, (i < n)%nat -> In j (neighbors g i) -> tr_x a i j <= tr_t a i j) /\
  (* 566-570 *) (forall i j, (i < n)%nat -> In j (neighbors g i) ->
     tr_u a i - tr_u a j + m * tr_x a i j + (m - 2) * tr_x a j i <= m - 1) /\
  (* 572-574 *) (forall i, (i < n)%nat -> tr_u a i <= m /\ tr_u a i >= 1).
(** line 543 *)
Definition tree_cost (g : graph) (d : nat -> nat -> Q) (a : tree_vars) : Q := lp_cost (gn g) d (tr_t a).
(** lines 587-595: [set.pop] removes an arbitrary element, KeyError if there is none *)
Fixpoint tree_regions (k : nat) (idx : list nat) (t : nat -> nat -> option Q) (r : rng) : out (list (list nat)) :=
  match k with
  | 0%nat => Ok []
  | S k' =>
      match idx with
      | [] => Raise KeyError
      | _ =>
          let* '(area, rest, r') := pop_randomly_from idx r in
          let region := area :: filter (fun o => is_one (t area o)) rest in
          let* regions := tree_regions k' (set_diff rest region) t r' in
          Ok (region :: regions)
      end
  end.
(** [_tree] with the answer [t] of the solver; lines 585-598 *)
Definition tree_fit (g : graph) (p : nat) (t : nat -> nat -> option Q) (r : rng) : out (list Z) :=
  let* regions := tree_regions p (seq 0 (gn g)) t r in
  array_from_region_list regions.

(** ** PRegionsExact.fit: p_regions/exact.py:88-111 *)
Inductive int_arg := AInt (z : Z) | ANotInt.
(** the values read from the solved problem, one field per model (p_regions/exact.py:403-411, 489-498, 593-603) *)
Record answers := mkAns {
  an_y : nat -> nat -> option Q;
  an_x : nat -> nat -> nat -> option Q;
  an_t : nat -> nat -> option Q
}.
(** lines 100-106 *)
Definition opt_func (method : string) (g : graph) (p : nat) (ans : answers) (r : rng) : out (list Z) :=
  if String.eqb (lower method) "flow" then flow_fit g p (an_y ans)
  else if String.eqb (lower method) "order" then order_fit g p (an_x ans)
  else tree_fit g p (an_t ans) r.
(** lines 88-111; [old] is [labels_] before the call, the first component [labels_] after it *)
Definition pexact_run (table : list string) (g : graph) (n_regions : int_arg) (method solver : str_arg)
    (metric : metric_arg) (ans : answers) (r : rng) : out (list Z) :=
  match n_regions with
  | ANotInt => Raise (ValueError "The n_regions argument must be a positive integer.")
  | AInt z =>
      if z <=? 0 then Raise (ValueError "The n_regions argument must be a positive integer.") else
      if Z.of_nat (gn g) <? z
      then Raise (ValueError "The number of regions must be less than the number of areas.") else
      let* _ := check_method method in
      let* _ := check_solver solver in
      let* _ := get_metric_function table metric in
      match method with
      | AStr s => opt_func s g (Z.to_nat z) ans r
      | ANotStr => Raise (ValueError "method")
      end
  end.
(** p_regions/exact.py:88-111 *)
Definition pexact_fit (old : option (list Z)) table g n_regions method solver metric ans r : option (list Z) * out unit :=
  match pexact_run table g n_regions method solver metric ans r with
  | Ok labels => (Some labels, Ok tt)
  | Raise e => (old, Raise e)
  | NoFuel => (old, NoFuel)
  end.

(** ** MaxPRegionsExact.fit: max_p_regions/exact.py:75-165 *)
(** lines 125-140: [isinstance] tests on the threshold when an area has several attributes; a scalar
    attribute is a one-column array.  A list or tuple ([TList]) passes neither test: no constraint
    is added. *)
Inductive threshold_arg := TReal (q : Q) | TArray (l : list Q) | TList (l : list Q).
(** the bound enforced for attribute [el], if any (max_p_regions/exact.py:125-140) *)
Definition bound (thr : threshold_arg) (el : nat) : option Q :=
  match thr with
  | TReal q => Some q
  | TArray l => nth_error l el
  | TList _ => None
  end.
(** line 139: [threshold[el]] for an array with too few entries *)
Definition threshold_build (sp : list (list Q)) (thr : threshold_arg) : out unit :=
  match thr with
  | TArray l => if Nat.ltb (length l) (length (nth 0 sp [])) then Raise IndexError else Ok tt
  | _ => Ok tt
  end.
(** lines 95-153: bounds and constraints (2)-(6) and the fixed start *)
Definition maxp_ok (g : graph) (sp : list (list Q)) (thr : threshold_arg) (a : order_vars) : Prop :=
  let n := gn g in
  (forall i j, (i < j < n)%nat -> 0 <= or_t a i j <= 1) /\
  (forall i k o, (i < n)%nat -> (k < n)%nat -> (o < n)%nat -> 0 <= or_x a i k o <= 1) /\
  (* 113-114 *) (forall k, (k < n)%nat -> sumZ (map (fun i => or_x a i k 0%nat) (seq 0 n)) <= 1) /\
  (* 116-117 *) (forall i, (i < n)%nat -> sum_ko (seq 0 n) (seq 0 n) (or_x a i) = 1) /\
  (* 119-123 *) (forall i k o, (i < n)%nat -> (k < n)%nat -> (1 <= o < n)%nat ->
     or_x a i k o <= sumZ (map (fun j => or_x a j k (o - 1)%nat) (neighbors g i))) /\
  (* 125-140 *) (forall el k q, (el < length (nth 0 sp []))%nat -> (k < n)%nat -> bound thr el = Some q ->
     (sumQ (flat_map (fun i => map (fun o => inject_Z (or_x a i k o) * nth el (nth i sp []) 0) (seq 0 n)) (seq 0 n))
      >= q * inject_Z (sumZ (map (fun i => or_x a i k 0%nat) (seq 0 n))))%Q) /\
  (* 142-145 *) (forall i j k, (i < j < n)%nat -> (k < n)%nat ->
     or_t a i j >= sumZ (map (fun o => or_x a i k o + or_x a j k o) (seq 0 n)) - 1) /\
  (* 152-153 *) (forall o, (o < n)%nat -> or_x a 0%nat 0%nat o = if Nat.eqb o 0 then 1 else 0).
(** lines 108-109; [h] is the exponent of line 92 *)
Definition maxp_cost (g : graph) (d : nat -> nat -> Q) (h : Z) (a : order_vars) : Q :=
  (- (Qpower 10 h) * inject_Z (sum_ko (seq 0 (gn g)) (seq 0 (gn g)) (fun k i => or_x a i k 0%nat))
   + lp_cost (gn g) d (or_t a))%Q.
(** line 92: [sum(d)] and [1 + floor(log10(...))]; log10 of a number <= 0 raises ValueError *)
Definition total_weight (n : nat) (d : nat -> nat -> Q) : Q := sumQ (map (fun e => d (fst e) (snd e)) (upper n)).
(** [h = 1 + floor(log10(s))], max_p_regions/exact.py:92 *)
Definition is_exponent (s : Q) (h : Z) : Prop := (Qpower 10 (h - 1) <= s /\ s < Qpower 10 h)%Q.
(** max_p_regions/exact.py:92: log10 of a number <= 0 raises ValueError *)
Definition log10_ok (s : Q) : out unit := if Qltb 0 s then Ok tt else Raise (ValueError "math domain error").
(** lines 75-165 with the answer [x] of the solver *)
Definition maxp_exact_fit (table : list string) (metric_fn : list Q -> list Q -> Q) (g : graph) (attr sp : list (list Q))
    (thr : threshold_arg) (solver : str_arg) (metric : metric_arg) (x : nat -> nat -> nat -> option Q) : out (list Z) :=
  let* _ := get_metric_function table metric in
  let* _ := check_solver solver in
  let* _ := log10_ok (total_weight (gn g) (mp_weight metric_fn attr)) in
  let* _ := threshold_build sp thr in
  Ok (order_decode (gn g) (seq 0 (gn g)) (seq 0 (gn g)) x).
