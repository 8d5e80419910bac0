(** SpecMissing: vocabulary for properties about missing attribute values. *)
From Verif Require Import Base Spec.

(** [attr'] has the attributes of [attr] with some values filled in for the rows with missing values *)
Definition filled (missing : list Q -> bool) (attr attr' : list (list Q)) : Prop :=
  length attr' = length attr /\
  forall a, a < length attr -> missing (nth a attr []) = false -> nth a attr' [] = nth a attr [].
(** every area with a missing value is a region of its own *)
Definition kept_apart (missing : list Q -> bool) (attr : list (list Q)) (labels : list Z) : Prop :=
  forall a b z, nth_error labels a = Some z -> nth_error labels b = Some z -> missing (nth a attr []) = true -> b = a.
(** no value is missing *)
Definition complete (missing : list Q -> bool) (attr : list (list Q)) : Prop :=
  forall a, a < length attr -> missing (nth a attr []) = false.
(** what a user sees of a fit: the labels or the exception, and the draws made so far *)
Definition shown {S} (o : out ((list Z * S) * rng)) : out (list Z * rng) :=
  match o with Ok ((labels, _), r) => Ok (labels, r) | Raise e => Raise e | NoFuel => NoFuel end.
Definition given_apart (missing : list Q -> bool) (attr : list (list Q)) (initial : option (list Z)) : Prop :=
  match initial with Some l => kept_apart missing attr l | None => True end.
