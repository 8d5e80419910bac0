(** SpecAmounts: vocabulary for properties about missing spatially extensive amounts ([None]). *)
From Verif Require Import Base Spec M_Azp M_MaxPMissing SpecData.

(** every area has one entry per threshold component *)
Definition recorded (sp : list (list (option Q))) (thr : list Q) (n : nat) : Prop :=
  length sp = n /\ forall x, In x sp -> length x = length thr.
(** the amounts that are known are not negative *)
Definition known_non_negative (sp : list (list (option Q))) : Prop := forall x q, In x sp -> In (Some q) x -> (0 <= q)%Q.
(** the amounts with 0 for the missing ones *)
Definition known (sp : list (list (option Q))) : list (list Q) :=
  map (map (fun o => match o with Some q => q | None => 0%Q end)) sp.
(** amount [k] of area [a] is missing *)
Definition lacks (sp : list (list (option Q))) (a k : nat) : Prop := nth_error (nth a sp []) k = Some None.
(** in each component the known amounts of the region add up to the threshold, or an amount is missing *)
Definition meets_known (sp : list (list (option Q))) (thr : list Q) (labels : list Z) (z : Z) : Prop :=
  forall k t, nth_error thr k = Some t ->
    (exists a, region labels z a /\ lacks sp a k) \/ (t <= total (known sp) labels z k)%Q.
(** the same of a list of areas *)
Definition meets_known_in (sp : list (list (option Q))) (thr : list Q) (l : list nat) : Prop :=
  forall k t, nth_error thr k = Some t -> (exists a, In a l /\ lacks sp a k) \/ (t <= total_in (known sp) l k)%Q.
(** [v] stands for the row [x]: the same where an amount is known, as large as the threshold where it is missing *)
Definition row_for (thr : list Q) (x : list (option Q)) (v : list Q) : Prop :=
  length v = length x /\
  forall k t, nth_error thr k = Some t ->
    match nth_error x k with
    | Some (Some q) => nth k v 0%Q = q
    | Some None => (t <= nth k v 0 /\ 0 <= nth k v 0)%Q
    | None => True
    end.
(** every missing amount is replaced by one that reaches the threshold *)
Definition amply_filled (thr : list Q) (sp : list (list (option Q))) (sp' : list (list Q)) : Prop := Forall2 (row_for thr) sp sp'.
(** only AllowMoveAZP inside *)
Fixpoint nazp_inside (s : nstrategy) : Prop :=
  match s with NBase s => azp_inside s | NMaxP _ _ _ _ inner => nazp_inside inner end.
(** amounts none of which is missing *)
Definition full (sp : list (list Q)) : list (list (option Q)) := map (map Some) sp.
(** the same strategy, reading amounts none of which is missing *)
Fixpoint as_plain (n : nstrategy) (s : strategy) : Prop :=
  match n, s with
  | NMaxP c a b t i, SMaxP c' a' b' t' i' => c = c' /\ a = full a' /\ b = full b' /\ t = t' /\ as_plain i i'
  | NBase s', s => s' = s
  | _, _ => False
  end.
(** the same local search object, or none *)
Definition plain_object (n : option nstrategy) (s : option strategy) : Prop :=
  match n, s with Some n, Some s => as_plain n s | None, None => True | _, _ => False end.
(** areas with a missing amount have the same labels *)
Definition keeps (sp : list (list (option Q))) (l0 l : list Z) : Prop := forall a k, lacks sp a k -> nth_error l a = nth_error l0 a.
