(** Base: outcomes with exceptions, the random oracle, and small list / rational helpers
    shared by the model files. *)
From Coq Require Export String.
From Coq Require Qabs Ascii.
From Coq Require Export List Arith ZArith QArith Bool Lia Lqa Permutation Sorted.
Export ListNotations.
Open Scope list_scope.
Open Scope nat_scope.
Arguments Nat.modulo : simpl never.
Arguments Z.modulo : simpl never.

(** ** Python exceptions and outcomes (raised e.g. in util.py:607, 609, 620, 678, 685, 757, 767;
    azp.py:54, 444) *)
Inductive exn : Type :=
| ValueError (msg : string)
| TypeError (msg : string)
| KeyError
| IndexError
| LookupError
| AttributeError
| NameError
| NotImplementedError
| ZeroDivisionError
| OptimizeWarningExn
| PlainException (msg : string).

(** Result of running a piece of Python: a value, a raised exception, or (for loops run on
    fuel, e.g. azp.py:332, 341; heuristics.py:387) not finished yet. *)
Inductive out (A : Type) : Type :=
| Ok (a : A)
| Raise (e : exn)
| NoFuel.
Arguments Ok {A} a.
Arguments Raise {A} e.
Arguments NoFuel {A}.

(** sequencing of statements: an exception (e.g. util.py:607) ends the function *)
Definition bind {A B} (m : out A) (k : A -> out B) : out B :=
  match m with Ok a => k a | Raise e => Raise e | NoFuel => NoFuel end.

Notation "'let*' x := m 'in' k" := (bind m (fun x => k))
  (at level 200, x name, m at level 100, k at level 200, right associativity).
Notation "'let*' ' p := m 'in' k" := (bind m (fun p => k))
  (at level 200, p strict pattern, m at level 100, k at level 200, right associativity).

(** ** Random oracle: an infinite stream of raw draws for the module [random] (util.py:4, azp.py:4,
    azp_util.py:4, heuristics.py:1) *)
Definition rng := nat -> nat.
(** the stream after one draw (util.py:580, 695, 852, 857; azp_util.py:96) *)
Definition rnext (r : rng) : rng := fun k => r (S k).

(** [random.randrange(n)] (util.py:580, 695, 852, 857); Python raises ValueError for n = 0. *)
Definition randrange (n : nat) (r : rng) : out (nat * rng) :=
  if Nat.eqb n 0 then Raise (ValueError "empty range for randrange()")
  else Ok (r 0 mod n, rnext r).

(** ** Lists: [x in l] (azp.py:385) *)
Definition memb (a : nat) (l : list nat) : bool := existsb (Nat.eqb a) l.
(** [x in l] for integers (p_regions/exact.py:152) *)
Definition membZ (a : Z) (l : list Z) : bool := existsb (Z.eqb a) l.

(** [l.pop(position)] (util.py:581, 858) *)
Fixpoint remove_nth {A} (k : nat) (l : list A) : list A :=
  match l, k with
  | [], _ => []
  | _ :: t, 0 => t
  | x :: t, S k' => x :: remove_nth k' t
  end.

(** [l.remove(x)] (util.py:574; heuristics.py:392, 396, 483): removes the first occurrence,
    ValueError if absent. *)
Fixpoint remove_first (a : nat) (l : list nat) : option (list nat) :=
  match l with
  | [] => None
  | x :: t => if Nat.eqb a x then Some t
              else match remove_first a t with Some t' => Some (x :: t') | None => None end
  end.

(** [l[k] = v] (util.py:537) *)
Fixpoint upd {A} (l : list A) (k : nat) (v : A) : list A :=
  match l, k with
  | [], _ => []
  | _ :: t, 0 => v :: t
  | x :: t, S k' => x :: upd t k' v
  end.

(** label of an area (azp.py:348, 366); the default is never used for in-range areas *)
Definition lab (labels : list Z) (a : nat) : Z := nth a labels (-1)%Z.

(** [np.where(labels == r)[0]] (util.py:763; azp.py:324, 351) *)
Definition where_eq (labels : list Z) (r : Z) : list nat :=
  filter (fun a => Z.eqb (lab labels a) r) (seq 0 (length labels)).

(** sorted distinct values: [np.unique(labels)] (azp.py:311), [set(labels)] (util.py:756) *)
Fixpoint insZ (x : Z) (l : list Z) : list Z :=
  match l with
  | [] => [x]
  | y :: t => if Z.ltb x y then x :: l else if Z.eqb x y then l else y :: insZ x t
  end.
(** [np.unique(labels)] (azp.py:311), [set(labels)] (util.py:756) *)
Definition uniqueZ (l : list Z) : list Z := fold_right insZ [] l.

(** Python sets of areas as duplicate-free lists: [s.add(a)] (azp.py:370) *)
Definition set_add (a : nat) (s : list nat) : list nat := if memb a s then s else s ++ [a].
(** [s.discard(a)] (azp.py:371) *)
Definition set_discard (a : nat) (s : list nat) : list nat :=
  filter (fun x => negb (Nat.eqb a x)) s.
(** [s.update(t)] (azp.py:327, 377) *)
Definition set_union (s t : list nat) : list nat := fold_left (fun acc a => set_add a acc) t s.
(** [s - t], [s.difference_update(t)] (azp.py:328, 378, 387) *)
Definition set_diff (s t : list nat) : list nat := filter (fun x => negb (memb x t)) s.

(** position of the first element satisfying a test (the label scipy gives, util.py:618) *)
Fixpoint index_where {A} (p : A -> bool) (l : list A) : option nat :=
  match l with
  | [] => None
  | x :: t => if p x then Some 0
              else match index_where p t with Some k => Some (S k) | None => None end
  end.

(** [random_element_from] and [pop_randomly_from]: region/util.py:851-858 *)
Definition random_element_from {A} (l : list A) (r : rng) : out (A * rng) :=
  let* '(p, r') := randrange (length l) r in
  match nth_error l p with
  | Some x => Ok (x, r')
  | None => Raise IndexError
  end.

(** util.py:856-858 *)
Definition pop_randomly_from {A} (l : list A) (r : rng) : out (A * list A * rng) :=
  let* '(p, r') := randrange (length l) r in
  match nth_error l p with
  | Some x => Ok (x, remove_nth p l, r')
  | None => Raise IndexError
  end.

(** ** Rationals: [x < y] (azp.py:332; heuristics.py:120; azp_util.py:96) *)
Definition Qltb (x y : Q) : bool := negb (Qle_bool y x).
(** [sum(...)] (objective_function.py:76, 86, 90) *)
Definition sumQ (l : list Q) : Q := fold_right Qplus 0%Q l.

(** a list comprehension whose element expression may raise (heuristics.py:99-101; util.py:72) *)
Fixpoint mapM {A B} (f : A -> out B) (l : list A) : out (list B) :=
  match l with
  | [] => Ok []
  | x :: t => let* y := f x in let* ys := mapM f t in Ok (y :: ys)
  end.
