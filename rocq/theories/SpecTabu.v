(** Tabu search as documented for AZPBasicTabu (region/p_regions/azp.py:732-861), on one island with the links [g]:
    a relation between labels, without lists of moves of bounded length and without tracking of the objective. *)
From Verif Require Import Base Spec.

(** An attempt to move an area: the area, the region it was in and the region it was to go to. *)
Definition tattempt : Type := nat * Z * Z.
(** The [len] most recent attempts ([None]: all of them); the most recent one comes first. *)
Definition most_recent (len : option nat) (h : list tattempt) : list tattempt :=
  match len with None => h | Some n => firstn n h end.
(** Moving area [a] from [x] to [y] is tabu: it takes back one of the most recent attempts. *)
Definition takes_back (len : option nat) (h : list tattempt) (a : nat) (x y : Z) : Prop := In (a, y, x) (most_recent len h).
(** how often [l] is listed *)
Definition times (seen : list (list Z)) (l : list Z) : nat := length (filter (fun m => if list_eq_dec Z.eq_dec m l then true else false) seen).

Section TabuSearch.
Variable O : objfun.
Variable attr : list (list Q).
Variable g : graph.
Variable len : option nat.
Variable reps : nat.

(** moving [a] to [r] does not raise, or lowers, the objective *)
Definition no_worse (l : list Z) (a : nat) (r : Z) : Prop :=
  exists x y, o_call O l attr = Ok x /\ o_call O (upd l a r) attr = Ok y /\ (y <= x)%Q.
Definition improves (l : list Z) (a : nat) (r : Z) : Prop :=
  exists x y, o_call O l attr = Ok x /\ o_call O (upd l a r) attr = Ok y /\ (y < x)%Q.

(** The objective object has an answer (it may have none, for instance, if the region has lost all its areas). *)
Definition answered (l : list Z) (a : nat) (r : Z) : Prop := exists q, o_update O a r l attr = Ok q.

(** a legal move that is not tabu *)
Definition free_move (l : list Z) (h : list tattempt) (a : nat) (r : Z) : Prop :=
  legal_move g l a r /\ ~ takes_back len h a (lab l a) r.
(** Of two moves with equal objectives the one of the smaller area comes first; for the same area, the one to
    the region of its first neighbour. *)
Definition comes_first (l : list Z) (a : nat) (r : Z) (b : nat) (s : Z) : Prop :=
  a < b \/ (a = b /\ exists i, gadj g a i = true /\ region l r i /\ forall j, j < gn g -> gadj g a j = true -> region l s j -> i < j).
(** The best move among the legal moves that are not tabu. *)
Definition best_free (l : list Z) (h : list tattempt) (a : nat) (r : Z) : Prop :=
  free_move l h a r /\
  forall b s x y, free_move l h b s -> (a, r) <> (b, s) -> o_call O (upd l a r) attr = Ok x -> o_call O (upd l b s) attr = Ok y ->
    (x < y)%Q \/ ((x == y)%Q /\ comes_first l a r b s).

(** An attempt succeeds if it leaves every region contiguous. *)
Inductive attempted (l : list Z) (h : list tattempt) (a : nat) (r : Z) : list Z -> list tattempt -> Prop :=
| attempt_made : all_contiguous g (upd l a r) -> attempted l h a r (upd l a r) ((a, lab l a, r) :: h)
| attempt_reverted : ~ all_contiguous g (upd l a r) -> attempted l h a r l ((a, lab l a, r) :: h).

(** All tabu moves are assessed, and one that lowers the objective is tried, if there is any ("aspiration"). *)
Definition aspiration (l : list Z) (h : list tattempt) (a : nat) (r : Z) : Prop :=
  takes_back len h a (lab l a) r /\ improves l a r.
Definition assessed (l : list Z) (h : list tattempt) : Prop := forall a r, takes_back len h a (lab l a) r -> answered l a r.
Inductive aspired (l : list Z) (h : list tattempt) : list Z -> list tattempt -> Prop :=
| aspired_none : assessed l h -> (forall a r, ~ aspiration l h a r) -> aspired l h l h
| aspired_move : forall a r l' h', assessed l h -> aspiration l h a r -> attempted l h a r l' h' -> aspired l h l' h'.

(** Afterwards the best move found before is tried unless it makes things worse now. *)
Inductive tried_again (l : list Z) (h : list tattempt) (l1 : list Z) (h1 : list tattempt) : list Z -> list tattempt -> Prop :=
| again_none : (forall a r, ~ free_move l h a r) -> tried_again l h l1 h1 l1 h1
| again_worse : forall a r, best_free l h a r -> answered l1 a r -> ~ no_worse l1 a r -> tried_again l h l1 h1 l1 h1
| again_move : forall a r l2 h2, best_free l h a r -> answered l1 a r -> no_worse l1 a r -> attempted l1 h1 a r l2 h2 -> tried_again l h l1 h1 l2 h2.

(** Some labels have been visited more than [reps] times. *)
Definition worn (seen : list (list Z)) : Prop := exists m, reps < times seen m.

(** [tabu_walk seen l h l']: with the labels [l] after the attempts [h], having visited the labels [seen] before,
    the search ends with [l']. *)
Inductive tabu_walk : list (list Z) -> list Z -> list tattempt -> list Z -> Prop :=
| walk_move : forall seen l h a r l',
    best_free l h a r -> no_worse l a r ->
    tabu_walk (l :: seen) (upd l a r) ((a, lab l a, r) :: h) l' -> tabu_walk seen l h l'
| walk_end : forall seen l h l' h',
    (forall a r, best_free l h a r -> ~ no_worse l a r) -> worn (l :: seen) -> aspired l h l' h' -> tabu_walk seen l h l'
| walk_on : forall seen l h l1 h1 l2 h2 l',
    (forall a r, best_free l h a r -> ~ no_worse l a r) -> ~ worn (l :: seen) -> aspired l h l1 h1 ->
    tried_again l h l1 h1 l2 h2 -> tabu_walk (l :: seen) l2 h2 l' -> tabu_walk seen l h l'.

(** With a single region nothing is done. *)
Definition tabu_search (l l' : list Z) : Prop :=
  (n_labels l = 1 /\ l' = l) \/ (n_labels l <> 1 /\ tabu_walk [] l [] l').
End TabuSearch.
