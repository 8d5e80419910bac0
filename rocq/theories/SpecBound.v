(** Thresholds that need not be finite numbers, for C154. *)
From Verif Require Import Base Spec.

(** a threshold: a number or one of the three other values of a Python float *)
Inductive bound := Number (q : Q) | PosInf | NegInf | NotANumber.

(** region [z] reaches all thresholds that are numbers *)
Definition meets_numbers (sp : list (list Q)) (thr : list bound) (labels : list Z) (z : Z) : Prop :=
  forall k q, nth_error thr k = Some (Number q) -> (q <= total sp labels z k)%Q.
(** the same for a list of areas *)
Definition meets_numbers_in (sp : list (list Q)) (thr : list bound) (l : list nat) : Prop :=
  forall k q, nth_error thr k = Some (Number q) -> (q <= total_in sp l k)%Q.
(** [thr'] has the numbers of [thr] and, in the place of anything else, some number that is not positive *)
Definition made_finite (thr : list bound) (thr' : list Q) : Prop :=
  Forall2 (fun b t => match b with Number q => t = q | _ => (t <= 0)%Q end) thr thr'.
(** one amount per threshold *)
Definition shaped_for (sp : list (list Q)) (thr : list bound) (n : nat) : Prop :=
  length sp = n /\ forall x, In x sp -> length x = length thr.
