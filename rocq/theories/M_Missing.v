(** Missing attribute values.  The distance functions of sklearn (the string metrics of region/util.py:446-504)
    pass both arguments through [check_array], which raises ValueError for an array with a NaN or an infinite entry.
    A row with such an entry is any row of which [missing] is true: its numbers in the model stand for nothing, because
    the functions below raise before they look at them.  (A metric given as a function of the user's own is
    the user's business; it is the [pairwise] and [centered] of M_Objective.) *)
From Verif Require Import Base Spec M_Util M_Objective.

Section Missing.
Variable missing : list Q -> bool.
Variable d : list Q -> list Q -> Q.

(** [self.metric(attr[i].reshape(1, -1), attr[j].reshape(1, -1))] (objective_function.py:77) *)
Definition checked_distance (x y : list Q) : out Q :=
  if missing x || missing y then Raise (ValueError "Input contains NaN, infinity or a value too large") else Ok (d x y).

(** [self.metric(rows, point)] (objective_function.py:86-91, 141-143) *)
Definition checked_to_point (rows : list (list Q)) (p : list Q) : out (list Q) :=
  if existsb missing rows || missing p then Raise (ValueError "Input contains NaN, infinity or a value too large")
  else metric_to_point d rows p.

(** objective_function.py:63-80 *)
Definition checked_call (labels : list Z) (attr : list (list Q)) : out Q :=
  let* hs := mapM (fun r => let* ds := mapM (fun ij => checked_distance (row attr (fst ij)) (row attr (snd ij)))
                                            (pairs (where_eq labels r)) in
                            Ok (sumQ ds)) (uniqueZ labels) in
  Ok (sumQ hs).

(** objective_function.py:82-92 *)
Definition checked_update (moving_area : nat) (recipient : Z) (labels : list Z) (attr : list (list Q)) : out Q :=
  let donor := lab labels moving_area in
  let* ds := checked_to_point (rows_of labels donor attr) (row attr moving_area) in
  let* rs := checked_to_point (rows_of labels recipient attr) (row attr moving_area) in
  Ok (sumQ rs - sumQ ds)%Q.

(** ObjectiveFunctionPairwise with a metric of sklearn (objective_function.py:62-92) *)
Definition checked_pairwise : objfun := mkObj checked_call checked_update.

(** objective_function.py:139-144 *)
Definition checked_heterogeneity (center : list (list Q) -> list Q) (reduction : list Q -> Q)
    (labels : list Z) (r : Z) (attr : list (list Q)) : out Q :=
  let rows := rows_of labels r attr in
  let* ds := checked_to_point rows (center rows) in
  Ok (reduction ds).

(** objective_function.py:116-137 *)
Definition checked_center_call (center : list (list Q) -> list Q) (reduction : list Q -> Q)
    (labels : list Z) (attr : list (list Q)) : out Q :=
  let* hs := mapM (fun r => checked_heterogeneity center reduction labels r attr) (uniqueZ labels) in
  Ok (reduction hs).

(** objective_function.py:146-165 *)
Definition checked_center_update (center : list (list Q) -> list Q) (reduction : list Q -> Q)
    (moving_area : nat) (recipient : Z) (labels : list Z) (attr : list (list Q)) : out Q :=
  let donor := lab labels moving_area in
  let* donor_before := checked_heterogeneity center reduction labels donor attr in
  let* recipient_before := checked_heterogeneity center reduction labels recipient attr in
  let labels1 := upd labels moving_area recipient in
  let* donor_after := checked_heterogeneity center reduction labels1 donor attr in
  let* recipient_after := checked_heterogeneity center reduction labels1 recipient attr in
  Ok (reduction [donor_after; recipient_after] - reduction [donor_before; recipient_before])%Q.

(** ObjectiveFunctionCenter with a metric of sklearn (objective_function.py:95-165) *)
Definition checked_centered (center : list (list Q) -> list Q) (reduction : list Q -> Q) : objfun :=
  mkObj (checked_center_call center reduction) (checked_center_update center reduction).
End Missing.
