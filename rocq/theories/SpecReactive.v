(** The search of AZPReactiveTabu (region/p_regions/azp.py:864-1046) on one island with the links [g], for an object that
    remembers the labels of earlier rounds, islands and fits: a relation between labels, as in SpecTabu.v. *)
From Verif Require Import Base Spec SpecTabu.

(** What comes of the search: labels and the memory that is left behind (oldest entry first), or an exception. *)
Inductive routcome := Returns (l : list Z) (memory : list (list Z)) | Fails (e : exn).

Section ReactiveSearch.
Variable O : objfun.
Variable attr : list (list Q).
Variable g : graph.
Variables k1 k2 : nat.

(** One round follows another only if the objective has become lower. *)
Definition lowered (l0 l : list Z) : Prop := exists x y, o_call O l0 attr = Ok x /\ o_call O l attr = Ok y /\ (y < x)%Q.
Definition goes_on (prev : option (list Z)) (l : list Z) : Prop := match prev with None => True | Some l0 => lowered l0 l end.

(** A move is tried unless it raises the objective. *)
Inductive tried (l : list Z) (h : list tattempt) (a : nat) (r : Z) : list Z -> list tattempt -> Prop :=
| tried_made : forall l' h', answered O attr l a r -> no_worse O attr l a r -> attempted g l h a r l' h' -> tried l h a r l' h'
| tried_not : answered O attr l a r -> ~ no_worse O attr l a r -> tried l h a r l h.

(** Only the very last attempt is tabu. *)
Definition best_tried (l : list Z) (h : list tattempt) (a : nat) (r : Z) (l' : list Z) (h' : list tattempt) : Prop :=
  best_free O attr g (Some 1) l h a r /\ tried l h a r l' h'.
(** The moves that are left besides the best one: it counts once for each neighbour in its region. *)
Definition spare_move (l : list Z) (h : list tattempt) (a : nat) (r : Z) (b : nat) (s : Z) : Prop :=
  free_move g (Some 1) l h b s /\
  ((b, s) <> (a, r) \/ exists i j, i <> j /\ gadj g a i = true /\ gadj g a j = true /\ region l r i /\ region l r j).

(** The last stretch of the memory that begins with [l], and the places before the end where it is found. *)
Definition last_stretch (memory : list (list Z)) (l : list Z) (cycle : list (list Z)) : Prop :=
  exists early rest, memory = early ++ cycle /\ cycle = l :: rest /\ ~ In l rest.
Definition found_at (memory cycle : list (list Z)) (i : nat) : Prop :=
  exists early late, memory = early ++ cycle ++ late /\ length early = i /\ late <> [].
(** The labels [l] have been met more than [k1] times, and the way back to them at least [k2] times before. *)
Definition cyclic (memory : list (list Z)) (l : list Z) : Prop :=
  exists cycle places, last_stretch memory l cycle /\ NoDup places /\ k2 <= length places /\ forall i, In i places -> found_at memory cycle i.

(** The labels returned: those before a restart if the last round was one, else the last but one in the memory. *)
Inductive recalled (memory : list (list Z)) : option (list Z) -> list Z -> Prop :=
| recalled_saved : forall l, recalled memory (Some l) l
| recalled_last_but_one : forall early l l', memory = early ++ [l; l'] -> recalled memory None l
| recalled_only : forall l, memory = [l] -> recalled memory None l.

(** [reactive_walk n prev saved memory l h o]: with [n] more rounds allowed, the labels [prev] at the beginning of the last
    round, the labels [saved] if the last round was a restart, the labels [l] after the attempts [h]. *)
Inductive reactive_walk : nat -> option (list Z) -> option (list Z) -> list (list Z) -> list Z -> list tattempt -> routcome -> Prop :=
| walk_over : forall n prev saved memory l h l', n = 0 \/ ~ goes_on prev l -> recalled memory saved l' ->
    reactive_walk n prev saved memory l h (Returns l' memory)
| walk_stuck : forall n prev saved memory l h, goes_on prev l -> (forall a r, ~ free_move g (Some 1) l h a r) ->
    reactive_walk (S n) prev saved memory l h (Fails AttributeError)
| walk_round : forall n prev saved memory l h a r l1 h1 o, goes_on prev l -> best_tried l h a r l1 h1 -> times memory l1 <= k1 ->
    reactive_walk n (Some l) None (memory ++ [l1]) l1 h1 o -> reactive_walk (S n) prev saved memory l h o
| walk_longer : forall n prev saved memory l h a r l1 h1, goes_on prev l -> best_tried l h a r l1 h1 -> k1 < times memory l1 ->
    ~ cyclic memory l1 ->
    reactive_walk (S n) prev saved memory l h (Fails (TypeError "'float' object cannot be interpreted as an integer"))
| walk_restart : forall n prev saved memory l h a r l1 h1 b s l2 h2 o, goes_on prev l -> best_tried l h a r l1 h1 -> k1 < times memory l1 ->
    cyclic memory l1 -> spare_move l h a r b s -> tried l1 h1 b s l2 h2 ->
    reactive_walk n (Some l) (Some l1) [] l2 h2 o -> reactive_walk (S n) prev saved memory l h o
| walk_no_spare : forall n prev saved memory l h a r l1 h1, goes_on prev l -> best_tried l h a r l1 h1 -> k1 < times memory l1 ->
    cyclic memory l1 -> (forall b s, ~ spare_move l h a r b s) ->
    reactive_walk (S n) prev saved memory l h (Fails (ValueError "empty range for randrange()"))
| walk_no_answer : forall n prev saved memory l h a r l1 h1 b s e, goes_on prev l -> best_tried l h a r l1 h1 -> k1 < times memory l1 ->
    cyclic memory l1 -> spare_move l h a r b s -> o_update O b s l1 attr = Raise e ->
    reactive_walk (S n) prev saved memory l h (Fails e).

(** With a single region nothing is done. *)
Definition reactive_search (rounds : nat) (memory : list (list Z)) (l : list Z) (o : routcome) : Prop :=
  (n_labels l = 1 /\ o = Returns l memory) \/ (n_labels l <> 1 /\ reactive_walk rounds None None memory l [] o).
End ReactiveSearch.

(** Island after island: the areas are gone through in order, and the search [R] is made at the first area of each island. *)
Inductive over_islands {M : Type} (g : graph) (R : list nat -> M -> M -> Prop) : nat -> M -> M -> Prop :=
| over_end : forall m, over_islands g R (gn g) m m
| over_old : forall v u m m', v < gn g -> u < v -> same_island g u v -> over_islands g R (S v) m m' -> over_islands g R v m m'
| over_new : forall v isl m m1 m', v < gn g -> (forall u, u < v -> ~ same_island g u v) -> island g v isl -> R isl m m1 ->
    over_islands g R (S v) m1 m' -> over_islands g R v m m'.
