(** Integer types of fixed width, for C152. *)
From Verif Require Import Base.
Local Open Scope Z_scope.

(** [w] maps a number to what a type of [size] consecutive integers from [lo] on holds after an operation with this
    result: a number of the type that differs from it by a multiple of [size] *)
Definition int_type (w : Z -> Z) (lo size : Z) : Prop :=
  forall z, lo <= w z < lo + size /\ exists m, w z = z + m * size.
