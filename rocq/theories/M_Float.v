(** The arithmetic of the objective and of the AZP strategy when operations round, as float64 does.
    Everywhere else the model computes with rationals.  An operation takes and returns rationals; the result of
    adding or subtracting is any function of the operands, for float64 the exact result rounded to 53 bits. *)
From Coq Require Import Qabs Qminmax Qround.
From Verif Require Import Base Spec M_Graph M_Util M_Objective M_Azp.

(** the operations used on attribute values and distances: + and - of objective_function.py:76, 92 and
    azp_util.py:66 *)
Record arith := mkArith { ar_add : Q -> Q -> Q; ar_sub : Q -> Q -> Q }.

(** Python's [sum], objective_function.py:76, 86, 90: from 0, left to right *)
Definition fsum (A : arith) (l : list Q) : Q := fold_left (ar_add A) l 0%Q.

(** sklearn's manhattan_distances, the default metric (util.py:479-480): the absolute differences of the
    coordinates added up one after the other; taking the absolute value does not round *)
Definition fmanhattan (A : arith) (x y : list Q) : Q :=
  fsum A (map (fun p => Qabs (ar_sub A (fst p) (snd p))) (combine x y)).

(** objective_function.py:63-80: one sum over all pairs, region by region in the order in which Python enumerates
    the set of labels ([enum]) *)
Definition fpairwise_call (A : arith) (enum : list Z -> list Z) (labels : list Z) (attr : list (list Q)) : out Q :=
  Ok (fsum A (flat_map (fun r => map (fun ij => fmanhattan A (row attr (fst ij)) (row attr (snd ij)))
                                     (pairs (where_eq labels r)))
                       (enum (uniqueZ labels)))).

(** objective_function.py:82-92 *)
Definition fpairwise_update (A : arith) (moving_area : nat) (recipient : Z)
    (labels : list Z) (attr : list (list Q)) : out Q :=
  let donor := lab labels moving_area in
  let* ds := metric_to_point (fmanhattan A) (rows_of labels donor attr) (row attr moving_area) in
  let* rs := metric_to_point (fmanhattan A) (rows_of labels recipient attr) (row attr moving_area) in
  Ok (ar_sub A (fsum A rs) (fsum A ds)).

(** objective_function.py:62-92 with the default metric *)
Definition fpairwise (A : arith) (enum : list Z -> list Z) : objfun :=
  mkObj (fpairwise_call A enum) (fpairwise_update A).

(** azp_util.py:61-70, where [self.objective_val += diff] rounds *)
Definition fcall (add : Q -> Q -> Q) (c : common) (a : nat) (r : Z) (labels : list Z) (rg : rng) : out (bool * common * rng) :=
  let* diff := o_update (c_obj c) a r labels (c_attr c) in
  if Qle_bool diff 0 then Ok (true, mkCommon (c_attr c) (c_obj c) (add (c_val c) diff), rg)
  else Ok (false, c, rg).

(** [AZP().fit], azp.py:32-110 with the default strategy, computing with [add] *)
Definition fazp_fit (add : Q -> Q -> Q) (order : list edge -> list edge) (obj : objfun) (fuel : nat)
    (g : graph) (attr : list (list Q)) (n_regions : Z) (initial_labels : option (list Z))
    (c : common) (r : rng) : out ((list Z * common) * rng) :=
  fit common (fun _ labels rows _ => start_common labels rows obj)
      (fun adj labels _ c r => azp_component common (fcall add) c_val adj fuel labels c r)
      order g attr n_regions initial_labels c r.

(** ** float64 (IEEE 754 binary64), the type of the distances in objective_function.py:76-92 *)
(** 2 to the power [e] (the number format of objective_function.py:76-92) *)
Definition pow2 (e : Z) : Q := (2 ^ e)%Q.
(** the exponent of a positive number: 2^e <= q < 2^(e+1) (objective_function.py:76-92 compute in float64) *)
Definition expo (q : Q) : Z :=
  let e := (Z.log2 (Qnum q) - Z.log2 (QDen q))%Z in
  if Qle_bool (pow2 e) q then e else (e - 1)%Z.
(** the nearest whole number, the even one of two (the rounding mode of objective_function.py:76-92) *)
Definition half_even (q : Q) : Z :=
  let f := Qfloor q in
  let r := (q - inject_Z f)%Q in
  if Qltb r (1 # 2) then f
  else if Qltb (1 # 2) r then (f + 1)%Z
  else if Z.even f then f else (f + 1)%Z.
(** 53 significant bits, the last one worth at least 2^-1074 (objective_function.py:76-92), for positive numbers;
    in lowest terms, to keep evaluation fast *)
Definition fl_pos (q : Q) : Q :=
  let e := Z.max (expo q - 52) (-1074) in
  Qred (inject_Z (half_even (q * pow2 (- e))) * pow2 e)%Q.
(** the largest finite float64 (the number format of objective_function.py:76-92) *)
Definition max_float : Q := (inject_Z (2 ^ 53 - 1) * pow2 971)%Q.
(** rounding to float64, azp_util.py:66 and objective_function.py:76-92.  Infinity is replaced by the largest number:
    both have in common that nothing is larger. *)
Definition fl64 (q : Q) : Q :=
  if Qltb 0 q then Qmin (fl_pos q) max_float
  else if Qltb q 0 then Qopp (Qmin (fl_pos (- q)) max_float)
  else 0%Q.
(** float64 addition and subtraction, azp_util.py:66 and objective_function.py:76-92 *)
Definition float64 : arith := mkArith (fun x y => fl64 (x + y)) (fun x y => fl64 (x - y)).
