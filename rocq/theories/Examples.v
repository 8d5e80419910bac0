(** Small concrete inputs used by the non-vacuity examples. *)
From Verif Require Import Base Spec.

(** 0 - 1 - 2 - ... - (n-1) *)
Definition path_graph (n : nat) : graph :=
  mkG n (fun i j => (Nat.ltb i n && Nat.ltb j n) && (Nat.eqb (S i) j || Nat.eqb (S j) i)).
(** islands 0-1-2 and 3-4 *)
Definition two_islands : graph :=
  mkG 5 (fun i j => (Nat.eqb (S i) j || Nat.eqb (S j) i) &&
                    negb (Nat.eqb i 2 && Nat.eqb j 3) && negb (Nat.eqb i 3 && Nat.eqb j 2) &&
                    Nat.ltb i 5 && Nat.ltb j 5).
(** 3 x 3 rook grid *)
Definition grid3 : graph :=
  mkG 9 (fun i j => Nat.ltb i 9 && Nat.ltb j 9 &&
    ((Nat.eqb (i / 3) (j / 3) && (Nat.eqb (S i) j || Nat.eqb (S j) i)) ||
     Nat.eqb (i + 3) j || Nat.eqb (j + 3) i)).

Definition rng0 : rng := fun k => k.
Definition same_order : list (nat * nat) -> list (nat * nat) := fun l => l.
Lemma same_order_perm : forall l, Permutation (same_order l) l.
Proof. intros; apply Permutation_refl. Qed.

