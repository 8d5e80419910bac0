(** Model of region/objective_function.py.  Attributes are rows of rationals; the distance
    function acts on two rows (sklearn's pairwise functions act row by row). *)
From Verif Require Import Base Spec M_Util.

(** [attr[i]] (objective_function.py:77, 87) *)
Definition row (attr : list (list Q)) (i : nat) : list Q := nth i attr [].

(** [itertools.combinations(l, 2)] (objective_function.py:79) *)
Fixpoint pairs {A} (l : list A) : list (A * A) :=
  match l with
  | [] => []
  | x :: t => map (fun y => (x, y)) t ++ pairs t
  end.

(** [attr[labels == region]] (objective_function.py:85, 89, 142) *)
Definition rows_of (labels : list Z) (r : Z) (attr : list (list Q)) : list (list Q) :=
  map (row attr) (where_eq labels r).

(** sklearn's distance functions, called in objective_function.py:86-91, 141-143, reject an empty first
    argument ([check_array]: "Found array with 0 sample(s)"). *)
Definition metric_to_point (d : list Q -> list Q -> Q) (rows : list (list Q)) (p : list Q) : out (list Q) :=
  match rows with
  | [] => Raise (ValueError "Found array with 0 sample(s)")
  | _ => Ok (map (fun x => d x p) rows)
  end.

(** objective_function.py:63-80 *)
Definition pairwise_call (d : list Q -> list Q -> Q) (labels : list Z) (attr : list (list Q)) : out Q :=
  Ok (sumQ (map (fun r => sumQ (map (fun ij => d (row attr (fst ij)) (row attr (snd ij)))
                                    (pairs (where_eq labels r))))
                (uniqueZ labels))).

(** objective_function.py:82-92 *)
Definition pairwise_update (d : list Q -> list Q -> Q) (moving_area : nat) (recipient : Z)
    (labels : list Z) (attr : list (list Q)) : out Q :=
  let donor := lab labels moving_area in
  let* ds := metric_to_point d (rows_of labels donor attr) (row attr moving_area) in
  let* rs := metric_to_point d (rows_of labels recipient attr) (row attr moving_area) in
  Ok (sumQ rs - sumQ ds)%Q.

(** objective_function.py:62-92 *)
Definition pairwise (d : list Q -> list Q -> Q) : objfun :=
  mkObj (pairwise_call d) (pairwise_update d).

(** objective_function.py:139-144.  [center] is e.g. the column-wise mean, [reduction] e.g. sum. *)
Definition heterogeneity_of (d : list Q -> list Q -> Q) (center : list (list Q) -> list Q)
    (reduction : list Q -> Q) (labels : list Z) (r : Z) (attr : list (list Q)) : out Q :=
  let rows := rows_of labels r attr in
  let* ds := metric_to_point d rows (center rows) in
  Ok (reduction ds).

(** objective_function.py:116-137 *)
Definition center_call (d : list Q -> list Q -> Q) (center : list (list Q) -> list Q)
    (reduction : list Q -> Q) (labels : list Z) (attr : list (list Q)) : out Q :=
  let* hs := mapM (fun r => heterogeneity_of d center reduction labels r attr) (uniqueZ labels) in
  Ok (reduction hs).

(** objective_function.py:146-165: the caller's label array is modified and restored. The result
    is paired with the label array as it is left behind. *)
Definition center_update_st (d : list Q -> list Q -> Q) (center : list (list Q) -> list Q)
    (reduction : list Q -> Q) (moving_area : nat) (recipient : Z)
    (labels : list Z) (attr : list (list Q)) : out (Q * list Z) :=
  let donor := lab labels moving_area in
  let* donor_before := heterogeneity_of d center reduction labels donor attr in
  let* recipient_before := heterogeneity_of d center reduction labels recipient attr in
  let labels1 := upd labels moving_area recipient in
  let* donor_after := heterogeneity_of d center reduction labels1 donor attr in
  let* recipient_after := heterogeneity_of d center reduction labels1 recipient attr in
  let labels2 := upd labels1 moving_area donor in
  let overall_before := reduction [donor_before; recipient_before] in
  let overall_after := reduction [donor_after; recipient_after] in
  Ok ((overall_after - overall_before)%Q, labels2).

(** objective_function.py:146-165 *)
Definition center_update d center reduction moving_area recipient labels attr : out Q :=
  let* '(q, _) := center_update_st d center reduction moving_area recipient labels attr in Ok q.

(** objective_function.py:95-165 *)
Definition centered (d : list Q -> list Q -> Q) (center : list (list Q) -> list Q)
    (reduction : list Q -> Q) : objfun :=
  mkObj (center_call d center reduction) (center_update d center reduction).

(** ** Concrete instances *)
(** sklearn's manhattan_distances, the default metric (util.py:479-480) *)
Fixpoint manhattan (x y : list Q) : Q :=
  match x, y with
  | a :: x', b :: y' => (Qabs.Qabs (a - b) + manhattan x' y')%Q
  | _, _ => 0%Q
  end.

(** np.mean(rows, axis=0), the default center of objective_function.py:96: column sums first *)
Fixpoint add_rows (x y : list Q) : list Q :=
  match x, y with
  | a :: x', b :: y' => (a + b)%Q :: add_rows x' y'
  | [], _ => y
  | _, [] => x
  end.
(** np.mean(rows, axis=0) (objective_function.py:96, 142) *)
Definition mean_row (rows : list (list Q)) : list Q :=
  map (fun s => (s / inject_Z (Z.of_nat (length rows)))%Q) (fold_right add_rows [] rows).

(** np.max of a non-empty list, a reduction (objective_function.py:96, 140) *)
Definition maxQ (l : list Q) : Q :=
  match l with
  | [] => 0%Q
  | x :: t => fold_left (fun m y => if Qltb m y then y else m) t x
  end.

(** ** Dispatch of names *)

(** util.py:446-504.  The argument is None, a string, a callable or something else; sklearn's
    [distance_metrics()] is a table of names. *)
Inductive metric_arg := MNone | MStr (s : string) | MFun (f : list Q -> list Q -> Q) | MOther.
(** what get_metric_function returns or raises (util.py:446-504) *)
Inductive metric_res := Named (s : string) | Given (f : list Q -> list Q -> Q).
(** util.py:446-504 *)
Definition get_metric_function (table : list string) (m : metric_arg) : out metric_res :=
  let m' := match m with MNone => MStr "manhattan" | _ => m end in
  match m' with
  | MStr s => if existsb (String.eqb s) table then Ok (Named s) else Raise (ValueError "unknown metric")
  | MFun f => Ok (Given f)
  | _ => Raise (ValueError "neither string nor function")
  end.

(** str.lower() on ASCII strings (util.py:355, 892; p_regions/exact.py:104, 293) *)
Definition lower_ascii (c : Ascii.ascii) : Ascii.ascii :=
  let n := Ascii.nat_of_ascii c in
  if Nat.leb 65 n && Nat.leb n 90 then Ascii.ascii_of_nat (n + 32) else c.
(** str.lower() (util.py:355, 892; p_regions/exact.py:104, 293) *)
Fixpoint lower (s : string) : string :=
  match s with
  | EmptyString => EmptyString
  | String c s' => String (lower_ascii c) (lower s')
  end.

(** an argument that may fail to be a string (util.py:355, 892) *)
Inductive str_arg := AStr (s : string) | ANotStr.
(** membership of the lowered string in a list of names (util.py:355, 892; p_regions/exact.py:293) *)
Definition one_of (names : list string) (a : str_arg) : bool :=
  match a with AStr s => existsb (String.eqb (lower s)) names | ANotStr => false end.

(** util.py:891-901 *)
Definition check_solver (a : str_arg) : out unit :=
  if one_of ["cbc"; "cplex"; "glpk"; "gurobi"]%string a then Ok tt else Raise (ValueError "solver").
(** p_regions/exact.py:290-295 *)
Definition check_method (a : str_arg) : out unit :=
  if one_of ["flow"; "order"; "tree"]%string a then Ok tt else Raise (ValueError "method").
(** util.py:339-365: [true] = rook weights, [false] = queen weights *)
Definition w_from_gdf (a : str_arg) : out bool :=
  if one_of ["rook"; "queen"]%string a
  then match a with AStr s => Ok (String.eqb (lower s) "rook") | ANotStr => Raise (ValueError "contiguity") end
  else Raise (ValueError "contiguity").
