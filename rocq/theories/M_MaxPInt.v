(** MaxPRegionsHeu when the spatially extensive attributes are stored in an integer type of fixed width (for instance a
    population read as 16 or 32 bit integers).  [spat_ext_attr = spatially_extensive_attr[area].copy()] followed by [+=]
    (heuristics.py:386, 395) and [sum(sp_ext[donor_idx]) - sp_ext[moving_area]] (azp_util.py:191) on rows of that type
    stay in the type, and numpy wraps around silently.  [sum] starts from the Python integer 0, which does not widen the
    type of a row.  Simplified: rows only (two-dimensional attributes, what MaxPRegionsHeu.fit_from_geodataframe
    passes, heuristics.py:233); for a one-dimensional array [sum] adds numpy scalars instead of rows. *)
From Coq Require Import Qround.
From Verif Require Import Base Spec M_Util M_Float M_FloatMaxP.

(** numpy int8, int16, int32, int64: the result of an operation of heuristics.py:395 or azp_util.py:191 *)
Definition wrap_signed (bits : positive) (z : Z) : Z :=
  ((z + 2 ^ (Zpos bits - 1)) mod 2 ^ Zpos bits - 2 ^ (Zpos bits - 1))%Z.
(** numpy uint8, uint16, uint32, uint64: the same operations (heuristics.py:395, azp_util.py:191) *)
Definition wrap_unsigned (bits : positive) (z : Z) : Z := (z mod 2 ^ Zpos bits)%Z.
(** [+=] of heuristics.py:395 and [-] of azp_util.py:191 on whole numbers, with results stored by [w] *)
Definition int_arith (w : Z -> Z) : arith :=
  mkArith (fun x y => inject_Z (w (Qfloor x + Qfloor y)%Z)) (fun x y => inject_Z (w (Qfloor x - Qfloor y)%Z)).
(** the same operations without bounds (heuristics.py:395, azp_util.py:191) *)
Definition exact_arith : arith := mkArith Qplus Qminus.
(** heuristics.py:39-123 with the default metric and AZP as local search, spatially extensive attributes stored by [w],
    dissimilarities and objective in the arithmetic [A] *)
Definition int_maxp_fit (w : Z -> Z) (A : arith) (enum : list nat -> list nat) (order : list edge -> list edge) (obj : objfun)
    (fuel : nat) (g : graph) (attr sp : list (list Q)) (threshold : list Q) (max_it : nat) (entropy : rng)
    (labels0 : option (list Z)) (ls : option fstrategy) (r : rng) : out (option (list Z) * option fstrategy * rng) :=
  fmaxp_fit2 (int_arith w) A enum order obj fuel g attr sp threshold max_it entropy labels0 ls r.
