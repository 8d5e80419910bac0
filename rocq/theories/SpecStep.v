(** Vocabulary for searches that may also take back moves: single relabellings that hardly raise the objective. *)
From Verif Require Import Base Spec.

(** An area of the island [isl] joins a region of that island, and the objective of the island is multiplied by at most [f / e]. *)
Definition nearly_lower (O : objfun) (attr : list (list Q)) (e f : Q) (isl : list nat) (l : list Z) (a : nat) (K : Z) : Prop :=
  In a isl /\ (exists b, In b isl /\ lab l b = K) /\
  exists x y, objective_at O attr isl l = Ok x /\ objective_at O attr isl (upd l a K) = Ok y /\ (e * y <= f * x)%Q.
