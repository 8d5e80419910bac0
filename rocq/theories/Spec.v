(** Spec: the vocabulary in which the properties are stated.
    Nothing here refers to the model of the algorithms. *)
From Verif Require Import Base.

(** A contiguity relation: number of areas and non-zero pattern of the adjacency matrix. *)
Record graph := mkG { gn : nat; gadj : nat -> nat -> bool }.

(** Undirected adjacency: areas touch if either matrix entry is non-zero. *)
Definition touch (g : graph) (u v : nat) : Prop := gadj g u v = true \/ gadj g v u = true.

Definition symmetric (g : graph) : Prop :=
  forall u v, u < gn g -> v < gn g -> gadj g u v = gadj g v u.
Definition no_self_loops (g : graph) : Prop := forall u, u < gn g -> gadj g u u = false.

(** [linked g P u v]: a path from u to v along adjacencies of g, all of whose areas satisfy P. *)
Inductive linked (g : graph) (P : nat -> Prop) : nat -> nat -> Prop :=
| linked_refl : forall u, P u -> linked g P u u
| linked_step : forall u v w, P u -> touch g u v -> linked g P v w -> linked g P u w.

(** A set of areas is spatially contiguous: non-empty and internally connected. *)
Definition contiguous (g : graph) (P : nat -> Prop) : Prop :=
  (exists u, P u) /\ forall u v, P u -> P v -> linked g P u v.

Definition areas (g : graph) : nat -> Prop := fun a => a < gn g.

Definition connected_graph (g : graph) : Prop := contiguous g (areas g).

(** The areas carrying label r. *)
Definition region (labels : list Z) (r : Z) : nat -> Prop := fun a => nth_error labels a = Some r.

Definition n_labels (labels : list Z) : nat := length (nodup Z.eq_dec labels).

(** Every region of the labelling is contiguous. *)
Definition all_contiguous (g : graph) (labels : list Z) : Prop :=
  forall r, In r labels -> contiguous g (region labels r).

(** A feasible clustering: every area labelled, p regions, each contiguous. *)
Definition feasible (g : graph) (labels : list Z) (p : nat) : Prop :=
  length labels = gn g /\ n_labels labels = p /\ all_contiguous g labels.

(** Two areas in the same connected component (island). *)
Definition same_island (g : graph) (u v : nat) : Prop := linked g (areas g) u v.


(** [labels] is obtained by overlaying arrays that use -1 for "not mine": at every area exactly
    one array has a value other than -1 and [labels] takes it. *)
Definition overlays (n : nat) (arrs : list (list Z)) (labels : list Z) : Prop :=
  length labels = n /\
  forall a, a < n -> exists i arr,
    nth_error arrs i = Some arr /\ nth_error arr a = nth_error labels a /\
    nth_error arr a <> Some (-1)%Z /\
    forall j arr', j <> i -> nth_error arrs j = Some arr' -> nth_error arr' a = Some (-1)%Z.

(** The labels in use are exactly 0 .. p-1. *)
Definition labels_exactly (labels : list Z) (p : nat) : Prop :=
  forall z, In z labels <-> (0 <= z < Z.of_nat p)%Z.

(** [R] picks exactly one area from every island; the number of islands is the length of such a list. *)
Definition reps (g : graph) (R : list nat) : Prop :=
  NoDup R /\ (forall v, In v R -> v < gn g) /\
  (forall u v, In u R -> In v R -> same_island g u v -> u = v) /\
  (forall v, v < gn g -> exists u, In u R /\ same_island g u v).
Definition n_islands (g : graph) (c : nat) : Prop := exists R, reps g R /\ length R = c.

(** ** Objective functions *)
(** An objective-function object as a user sees it: [__call__(labels, attr)] and
    [update(moving_area, recipient_region, labels, attr)]  (objective_function.py:9-59). *)
Record objfun := mkObj {
  o_call : list Z -> list (list Q) -> out Q;
  o_update : nat -> Z -> list Z -> list (list Q) -> out Q
}.

(** Total dissimilarity over unordered pairs i < j of areas in the same region. *)
Definition heterogeneity (d : nat -> nat -> Q) (labels : list Z) : Q :=
  sumQ (map (fun j => sumQ (map (fun i => if Z.eqb (lab labels i) (lab labels j) then d i j else 0%Q)
                                (seq 0 j)))
            (seq 0 (length labels))).

(** An objective object is exact on [attr]: it has a value on every labelling, [update] answers
    for every move out of a region with another area into an existing region, and every answer
    is the change of the value. *)
Definition exact_objective (O : objfun) (attr : list (list Q)) : Prop :=
  (forall labels, length labels = length attr -> exists v, o_call O labels attr = Ok v) /\
  (forall a r labels, length labels = length attr -> a < length labels -> In r labels ->
     (exists b, b <> a /\ nth_error labels b = nth_error labels a) ->
     exists q, o_update O a r labels attr = Ok q) /\
  (forall a r labels q, length labels = length attr -> a < length labels ->
     o_update O a r labels attr = Ok q ->
     exists v v', o_call O labels attr = Ok v /\ o_call O (upd labels a r) attr = Ok v' /\
                  (q == v' - v)%Q).

(** ** Moves *)
(** Area [a] may move to region [r]: it is in another region, which stays non-empty and contiguous
    without it, and it touches an area of [r]. *)
Definition legal_move (g : graph) (labels : list Z) (a : nat) (r : Z) : Prop :=
  a < gn g /\
  exists donor, nth_error labels a = Some donor /\ donor <> r /\
    contiguous g (fun x => region labels donor x /\ x <> a) /\
    exists b, b < gn g /\ region labels r b /\ touch g b a.

(** ** Regional totals of spatially extensive attributes *)
(** Total of attribute [k] over the areas of region [r]. *)
Definition total (sp : list (list Q)) (labels : list Z) (r : Z) (k : nat) : Q :=
  sumQ (map (fun a => if Z.eqb (lab labels a) r then nth k (nth a sp []) 0%Q else 0%Q)
            (seq 0 (length labels))).
(** Region [r] meets the threshold (one bound per attribute). *)
Definition meets (sp : list (list Q)) (threshold : list Q) (labels : list Z) (r : Z) : Prop :=
  forall k t, nth_error threshold k = Some t -> (t <= total sp labels r k)%Q.
(** Every area has one value per threshold component. *)
Definition shaped (sp : list (list Q)) (threshold : list Q) (n : nat) : Prop :=
  length sp = n /\ forall x, In x sp -> length x = length threshold.

(** [isl] lists the areas of the island (connected component) of [v] in increasing order. *)
Definition island (g : graph) (v : nat) (isl : list nat) : Prop :=
  StronglySorted lt isl /\ forall a, In a isl <-> same_island g v a.

(** Labels and attribute rows of a list of areas, and the objective restricted to them. *)
Definition labels_at (labels : list Z) (idx : list nat) : list Z := map (lab labels) idx.
Definition rows_at (attr : list (list Q)) (idx : list nat) : list (list Q) := map (fun a => nth a attr []) idx.
Definition objective_at (O : objfun) (attr : list (list Q)) (idx : list nat) (labels : list Z) : out Q :=
  o_call O (labels_at labels idx) (rows_at attr idx).

(** The areas [isl] with the links among them, renumbered 0, 1, ... in this order. *)
Definition alone (g : graph) (isl : list nat) : graph :=
  mkG (length isl) (fun i j => match nth_error isl i, nth_error isl j with Some a, Some b => gadj g a b | _, _ => false end).

(** The objective object is exact on every selection of the attribute rows. *)
Definition exact_on (O : objfun) (attr : list (list Q)) : Prop :=
  forall rows, (forall x, In x rows -> In x attr) -> exact_objective O rows.

(** What a user may ask of [fit]: feasible initial labels (-1 is not usable as a region name), or a
    number of regions between the number of islands and the number of areas (other than 1). *)
Definition valid_request (g : graph) (n_regions : Z) (initial : option (list Z)) : Prop :=
  match initial with
  | Some l => (0 <= n_regions)%Z /\ feasible g l (Z.to_nat n_regions) /\ ~ In (-1)%Z l
  | None => n_regions <> 1%Z /\ 0 < gn g /\
            exists c, n_islands g c /\ (Z.of_nat c <= n_regions <= Z.of_nat (gn g))%Z
  end.
(** The labelling the search starts from: the given one, or some feasible one with labels 0 .. p-1. *)
Definition start_labels (g : graph) (n_regions : Z) (initial : option (list Z)) (labels0 : list Z) : Prop :=
  match initial with
  | Some l => labels0 = l
  | None => feasible g labels0 (Z.to_nat n_regions) /\ labels_exactly labels0 (Z.to_nat n_regions)
  end.

(** No move of one area to another existing region leaves the objective unchanged. *)
Definition no_ties (O : objfun) (rows : list (list Q)) : Prop :=
  forall l a r x y, length l = length rows -> a < length l -> In r l -> lab l a <> r ->
    o_call O l rows = Ok x -> o_call O (upd l a r) rows = Ok y -> ~ (x == y)%Q.

(** ** Regions given as lists of areas (max-p) *)
(** Total of attribute [k] over a list of areas, and the threshold condition for it. *)
Definition total_in (sp : list (list Q)) (l : list nat) (k : nat) : Q :=
  sumQ (map (fun a => nth k (nth a sp []) 0%Q) l).
Definition meets_in (sp : list (list Q)) (threshold : list Q) (l : list nat) : Prop :=
  forall k t, nth_error threshold k = Some t -> (t <= total_in sp l k)%Q.
(** Disjoint contiguous regions, with [rest] the areas in none of them. *)
Definition partial_partition (g : graph) (regions : list (list nat)) (rest : list nat) : Prop :=
  NoDup (concat regions ++ rest) /\
  (forall a, In a (concat regions ++ rest) <-> a < gn g) /\
  (forall R, In R regions -> contiguous g (fun a => In a R)).
(** Every island contains an area of some region. *)
Definition every_island_served (g : graph) (regions : list (list nat)) : Prop :=
  forall v, v < gn g -> exists u, In u (concat regions) /\ same_island g v u.
(** No spatially extensive attribute is negative. *)
Definition non_negative (sp : list (list Q)) : Prop := forall x q, In x sp -> In q x -> (0 <= q)%Q.
(** Total distance from an area to the areas of a list. *)
Definition distance_to (d : list Q -> list Q -> Q) (attr : list (list Q)) (a : nat) (R : list nat) : Q :=
  sumQ (map (fun b => d (nth a attr []) (nth b attr [])) R).
(** [b] is outside [taken] and [R] and next to an area of [R]. *)
Definition free_neighbor (g : graph) (taken R : list nat) (b : nat) : Prop :=
  b < gn g /\ ~ In b taken /\ ~ In b R /\ exists a, In a R /\ touch g a b.
(** [R] lists areas in an order in which each area after the first is, among the free neighbours of the
    areas before it, a closest one, and was needed because these areas do not meet the threshold. *)
Definition greedy_growth (d : list Q -> list Q -> Q) (g : graph) (attr sp : list (list Q)) (threshold : list Q)
    (taken R : list nat) : Prop :=
  R <> [] /\ (forall a, In a R -> a < gn g /\ ~ In a taken) /\
  forall j b, 1 <= j -> nth_error R j = Some b ->
    ~ meets_in sp threshold (firstn j R) /\ free_neighbor g taken (firstn j R) b /\
    forall c, free_neighbor g taken (firstn j R) c -> (distance_to d attr b (firstn j R) <= distance_to d attr c (firstn j R))%Q.
(** Disjoint contiguous regions, each grown greedily from the areas outside the earlier ones until it meets
    the threshold, and no contiguous set of the remaining areas ([rest]) meets the threshold. *)
Definition greedy_partition (d : list Q -> list Q -> Q) (g : graph) (attr sp : list (list Q)) (threshold : list Q)
    (regions : list (list nat)) (rest : list nat) : Prop :=
  partial_partition g regions rest /\
  (forall k R, nth_error regions k = Some R ->
     meets_in sp threshold R /\ greedy_growth d g attr sp threshold (concat (firstn k regions)) R) /\
  (forall X, NoDup X -> (forall a, In a X -> In a rest) -> contiguous g (fun a => In a X) -> ~ meets_in sp threshold X).
(** Area [a] is next to an area of [R]. *)
Definition beside (g : graph) (a : nat) (R : list nat) : Prop := exists b, b < gn g /\ In b R /\ touch g a b.
(** [regions'] arises from [regions] by giving away the areas of [enclaves] one after the other, in any
    order, each to a closest one of the regions it is next to at that time. *)
Inductive absorbed (d : list Q -> list Q -> Q) (g : graph) (attr : list (list Q))
  : list (list nat) -> list nat -> list (list nat) -> Prop :=
| absorbed_done regions : absorbed d g attr regions [] regions
| absorbed_step regions enclaves a k rest regions' :
    Permutation enclaves (a :: rest) -> k < length regions -> beside g a (nth k regions []) ->
    (forall j, j < length regions -> beside g a (nth j regions []) ->
       (distance_to d attr a (nth k regions []) <= distance_to d attr a (nth j regions []))%Q) ->
    absorbed d g attr (upd regions k (nth k regions [] ++ [a])) rest regions' ->
    absorbed d g attr regions enclaves regions'.

(** ** Spanning forests (skater) *)
(** Number of areas in a region. *)
Definition region_size (labels : list Z) (r : Z) : nat := count_occ Z.eq_dec labels r.
(** [labels] numbers the islands of [g]: two areas have the same label iff they are in the same
    island, and the islands are numbered 0, 1, 2, ... in the order of their first areas. *)
Definition island_labelling (g : graph) (labels : list Z) : Prop :=
  length labels = gn g /\
  (forall u v, u < gn g -> v < gn g -> (lab labels u = lab labels v <-> same_island g u v)) /\
  (forall a, a < gn g -> (0 <= lab labels a)%Z /\
     forall k, (0 <= k < lab labels a)%Z -> exists b, b < a /\ lab labels b = k).
(** [labels'] arises from [labels] by splitting one region in two (up to renaming): the areas [a]
    and [b] were together and are the representatives of the two new regions. *)
Definition splits_one (labels labels' : list Z) : Prop :=
  length labels' = length labels /\
  exists a b, a < length labels /\ b < length labels /\
    lab labels a = lab labels b /\ lab labels' a <> lab labels' b /\
    (forall u v, u < length labels -> v < length labels ->
       (lab labels u = lab labels v <->
        lab labels' u = lab labels' v \/
        ((lab labels' u = lab labels' a \/ lab labels' u = lab labels' b) /\
         (lab labels' v = lab labels' a \/ lab labels' v = lab labels' b)))).
(** The neighbour relation restricted to neighbours whose dissimilarity is not zero. *)
Definition dissimilar (g : graph) (d : nat -> nat -> Q) : graph :=
  mkG (gn g) (fun i j => gadj g i j && negb (Qeq_bool (d i j) 0)).
(** Every region has at least [quorum] areas ([None]: no bound). *)
Definition meets_quorum (quorum : option Z) (labels : list Z) : Prop :=
  forall q r, quorum = Some q -> In r labels -> (q <= Z.of_nat (region_size labels r))%Z.
(** The graph on 0 .. n-1 with the given links, and a list of links without one of them. *)
Definition links (n : nat) (es : list (nat * nat)) : graph :=
  mkG n (fun i j => existsb (fun e => Nat.eqb i (fst e) && Nat.eqb j (snd e)) es).
Definition without (e : nat * nat) (es : list (nat * nat)) : list (nat * nat) :=
  filter (fun f => negb (Nat.eqb (fst e) (fst f) && Nat.eqb (snd e) (snd f))) es.
(** A forest: every link is the only connection between its two ends. *)
Definition is_forest (n : nat) (es : list (nat * nat)) : Prop :=
  NoDup es /\ (forall e, In e es -> fst e < n /\ snd e < n) /\
  forall e, In e es -> ~ same_island (links n (without e es)) (fst e) (snd e).
(** [best] is the first candidate of least finite cost; [None] if all costs are infinite ([None]). *)
Definition cheapest {A} (cost : A -> option Q -> Prop) (cands : list A) (best : option (A * Q)) : Prop :=
  match best with
  | None => forall e, In e cands -> cost e None
  | Some (e, q) => cost e (Some q) /\ exists l1 l2, cands = l1 ++ e :: l2 /\
      (forall f, In f l1 -> cost f None \/ exists q', cost f (Some q') /\ (q < q')%Q) /\
      (forall f, In f l2 -> cost f None \/ exists q', cost f (Some q') /\ (q <= q')%Q)
  end.
(** [R] holds between all consecutive elements. *)
Definition successive {A} (R : A -> A -> Prop) (l : list A) : Prop :=
  forall i x y, nth_error l i = Some x -> nth_error l (S i) = Some y -> R x y.

(** ** Exact models *)
(** A minimiser of [cost] among the [ok] assignments. *)
Definition optimal {A} (ok : A -> Prop) (cost : A -> Q) (a : A) : Prop :=
  ok a /\ forall b, ok b -> (cost a <= cost b)%Q.
(** A partition into contiguous regions named 0 .. p-1. *)
Definition p_partition (g : graph) (p : nat) (labels : list Z) : Prop :=
  feasible g labels p /\ labels_exactly labels p.
(** A p-region partition of least heterogeneity among those satisfying [among]. *)
Definition best_partition (g : graph) (d : nat -> nat -> Q) (p : nat) (among : list Z -> Prop) (labels : list Z) : Prop :=
  feasible g labels p /\
  forall l, feasible g l p -> among l -> (heterogeneity d labels <= heterogeneity d l)%Q.
(** Two labellings describe the same regions. *)
Definition same_partition (l1 l2 : list Z) : Prop :=
  length l1 = length l2 /\
  forall u v, u < length l1 -> v < length l1 -> (lab l1 u = lab l1 v <-> lab l2 u = lab l2 v).
(** The solver reports the integer [z] for a variable whose value is read as [v]. *)
Definition reports (v : option Q) (z : Z) : Prop := exists q, v = Some q /\ (q == inject_Z z)%Q.

(** ** Areas with names (input as dicts) *)
(** The position of [k] when the distinct names [ks] are listed in increasing order. *)
Definition position (ks : list Z) (k : Z) : nat := length (filter (fun x => Z.ltb x k) ks).

(** [named_linked near P a b]: a chain of names from a to b, each listed as a neighbour of the
    previous one or the other way round, all satisfying P. *)
Inductive named_linked (near : Z -> Z -> Prop) (P : Z -> Prop) : Z -> Z -> Prop :=
| named_refl : forall a, P a -> named_linked near P a a
| named_step : forall a b c, P a -> near a b \/ near b a -> named_linked near P b c -> named_linked near P a c.

(** Every legal move of one area makes the objective of its island strictly worse. *)
Definition strict_optimum (O : objfun) (attr : list (list Q)) (g : graph) (labels : list Z) : Prop :=
  forall v isl a r, v < gn g -> island g v isl -> In a isl -> legal_move g labels a r ->
    exists x y, objective_at O attr isl labels = Ok x /\ objective_at O attr isl (upd labels a r) = Ok y /\ (x < y)%Q.

(** ** Steepest descent *)
(** [labels'] is [labels] after a legal move of one area that lowers the objective, and no legal move
    lowers it further. *)
Definition steepest (O : objfun) (attr : list (list Q)) (g : graph) (labels labels' : list Z) : Prop :=
  exists a r x x', legal_move g labels a r /\ labels' = upd labels a r /\
    o_call O labels attr = Ok x /\ o_call O labels' attr = Ok x' /\ (x' < x)%Q /\
    forall b s y, legal_move g labels b s -> o_call O (upd labels b s) attr = Ok y -> (x' <= y)%Q.
(** k such moves, one after the other *)
Inductive descent (O : objfun) (attr : list (list Q)) (g : graph) : nat -> list Z -> list Z -> Prop :=
| descent_start : forall l, descent O attr g 0 l l
| descent_move : forall k l l1 l2, descent O attr g k l l1 -> steepest O attr g l1 l2 -> descent O attr g (S k) l l2.
(** No legal move lowers the objective. *)
Definition local_optimum (O : objfun) (attr : list (list Q)) (g : graph) (labels : list Z) : Prop :=
  forall a r x y, legal_move g labels a r -> o_call O labels attr = Ok x -> o_call O (upd labels a r) attr = Ok y ->
    (x <= y)%Q.

(** A legal move that leaves the objective unchanged. *)
Definition tie_move (O : objfun) (attr : list (list Q)) (g : graph) (labels labels' : list Z) : Prop :=
  exists a z x y, legal_move g labels a z /\ labels' = upd labels a z /\
    o_call O labels attr = Ok x /\ o_call O labels' attr = Ok y /\ (x == y)%Q.

(** ** Automatic zoning *)
Section Zoning.
(** [ok l a K]: with the labels [l] area [a] may go to region [K]; [lower l l']: the objective of [l'] is
    lower than that of [l]. *)
Variable ok : list Z -> nat -> Z -> Prop.
Variable lower : list Z -> list Z -> Prop.
(** Region K takes one area after the other until there is none that may go to it. *)
Inductive zone_turn (K : Z) : list Z -> list Z -> Prop :=
| turn_over : forall l, (forall a, ~ ok l a K) -> zone_turn K l l
| turn_move : forall l a l', ok l a K -> zone_turn K (upd l a K) l' -> zone_turn K l l'.
(** The regions take turns in the given order. *)
Inductive zone_round : list Z -> list Z -> list Z -> Prop :=
| round_over : forall l, zone_round [] l l
| round_turn : forall K Ks l l1 l2, zone_turn K l l1 -> zone_round Ks l1 l2 -> zone_round (K :: Ks) l l2.
(** Rounds, each in some order of the regions, until a round does not lower the objective. *)
Inductive zone_rounds (regions : list Z) : list Z -> list Z -> Prop :=
| rounds_last : forall Ks l l', Permutation Ks regions -> zone_round Ks l l' -> ~ lower l l' -> zone_rounds regions l l'
| rounds_more : forall Ks l l1 l2, Permutation Ks regions -> zone_round Ks l l1 -> lower l l1 ->
    zone_rounds regions l1 l2 -> zone_rounds regions l l2.
End Zoning.
(** Zoning on the island [isl]: an area of the island may go to a region if the move is legal and does not
    raise the objective of the island. *)
Definition may_go (O : objfun) (attr : list (list Q)) (g : graph) (isl : list nat) (l : list Z) (a : nat) (K : Z) : Prop :=
  In a isl /\ legal_move g l a K /\
  exists x y, objective_at O attr isl l = Ok x /\ objective_at O attr isl (upd l a K) = Ok y /\ (y <= x)%Q.
Definition lower_at (O : objfun) (attr : list (list Q)) (isl : list nat) (l l' : list Z) : Prop :=
  exists x y, objective_at O attr isl l = Ok x /\ objective_at O attr isl l' = Ok y /\ (y < x)%Q.
Definition zoning (O : objfun) (attr : list (list Q)) (g : graph) (isl : list nat) (l l' : list Z) : Prop :=
  exists regions, NoDup regions /\ (forall K, In K regions <-> exists a, In a isl /\ region l K a) /\
    zone_rounds (may_go O attr g isl) (lower_at O attr isl) regions l l'.

(** On the island [isl] there is one region only, or some legal move lowers the objective of the island. *)
Definition one_region_at (labels : list Z) (isl : list nat) : Prop :=
  forall a b, In a isl -> In b isl -> lab labels a = lab labels b.
Definition improvable_at (O : objfun) (attr : list (list Q)) (g : graph) (isl : list nat) (labels : list Z) : Prop :=
  exists a K, In a isl /\ legal_move g labels a K /\ lower_at O attr isl labels (upd labels a K).

(** Zoning on the island [isl] that keeps a threshold: in addition the region that the area leaves still meets
    the threshold.  Every region of the island takes one turn. *)
Definition may_go_keeping (O : objfun) (attr : list (list Q)) (g : graph) (sp : list (list Q)) (threshold : list Q)
    (isl : list nat) (l : list Z) (a : nat) (K : Z) : Prop :=
  may_go O attr g isl l a K /\ meets sp threshold (upd l a K) (lab l a).
Definition one_round (O : objfun) (attr : list (list Q)) (g : graph) (sp : list (list Q)) (threshold : list Q)
    (isl : list nat) (l l' : list Z) : Prop :=
  exists regions, NoDup regions /\ (forall K, In K regions <-> exists a, In a isl /\ region l K a) /\
    zone_round (may_go_keeping O attr g sp threshold isl) regions l l'.
(** [l] gives the areas of the first region the label 0, those of the second region the label 1, ... *)
Definition in_order (n : nat) (regions : list (list nat)) (l : list Z) : Prop :=
  length l = n /\ forall k R a, nth_error regions k = Some R -> In a R -> lab l a = Z.of_nat k.

(** ** Numbers of areas and names of regions *)
(** The same areas numbered differently: number i of the second input is number [f i] of the first. *)
Definition renumbered (f : nat -> nat) (g : graph) (attr : list (list Q)) (g' : graph) (attr' : list (list Q)) : Prop :=
  gn g' = gn g /\ length attr' = length attr /\
  (forall i, i < gn g -> f i < gn g) /\ (forall i j, i < gn g -> j < gn g -> f i = f j -> i = j) /\
  (forall i j, i < gn g -> j < gn g -> gadj g' i j = gadj g (f i) (f j)) /\
  (forall i, i < gn g -> nth i attr' [] = nth (f i) attr []).
(** The same labels for areas numbered differently and regions renamed by [s]. *)
Definition relabelled (f : nat -> nat) (s : Z -> Z) (l l' : list Z) : Prop :=
  length l' = length l /\ forall i, i < length l -> lab l' i = s (lab l (f i)).
(** An objective that depends neither on the order of the areas nor on the names of the regions. *)
Definition nameless (O : objfun) : Prop :=
  forall f s attr attr' idx idx' l l' x y, Permutation (map f idx') idx ->
    (forall i, In i idx' -> lab l' i = s (lab l (f i)) /\ nth i attr' [] = nth (f i) attr []) ->
    (forall i j, In i idx -> In j idx -> s (lab l i) = s (lab l j) -> lab l i = lab l j) ->
    objective_at O attr idx l = Ok x -> objective_at O attr' idx' l' = Ok y -> (x == y)%Q.

(** Two answers that fail in the same way, or both succeed. *)
Definition fail_alike {A} (x y : out A) : Prop :=
  match x, y with
  | Ok _, Ok _ => True
  | Raise e, Raise e' => e = e'
  | NoFuel, NoFuel => True
  | _, _ => False
  end.
(** An objective whose [update] fails for a move exactly if it fails for the same move when areas and
    regions are numbered and named differently. *)
Definition nameless_failures (O : objfun) : Prop :=
  forall f s attr attr' l l' a r, length attr = length l -> length attr' = length l ->
    (forall i, i < length l -> f i < length l) -> (forall i j, i < length l -> j < length l -> f i = f j -> i = j) ->
    (forall i, i < length l -> nth i attr' [] = nth (f i) attr []) -> relabelled f s l l' ->
    (forall y z, In y (r :: l) -> In z (r :: l) -> s y = s z -> y = z) -> a < length l ->
    fail_alike (o_update O (f a) r l attr) (o_update O a (s r) l' attr').
(** Two different legal moves never lead to the same value of the objective, whatever contiguous regions with the
    names [names] they start from. *)
Definition no_rivals (O : objfun) (attr : list (list Q)) (g : graph) (names : list Z) : Prop :=
  forall l a z b y u v, length l = gn g -> (forall x, In x l -> In x names) -> all_contiguous g l ->
    legal_move g l a z -> legal_move g l b y -> (a, z) <> (b, y) ->
    o_call O (upd l a z) attr = Ok u -> o_call O (upd l b y) attr = Ok v -> ~ (u == v)%Q.

(** ** Random starts *)
(** [f] is the first area of the island of [a]. *)
Definition first_in (g : graph) (a f : nat) : Prop :=
  same_island g a f /\ forall b, same_island g a b -> f <= b.
(** [T] is a spanning forest of [g]: links of [g], without cycles, joining the areas of every island. *)
Definition spans (g : graph) (T : list (nat * nat)) : Prop :=
  is_forest (gn g) T /\ (forall e, In e T -> gadj g (fst e) (snd e) = true) /\
  forall u v, same_island (links (gn g) T) u v <-> same_island g u v.
(** [labels] gives the numbers 0 .. p-1 to the parts held together by the links [K]: island by island
    (in the order of the first areas of the islands), within an island in the order of the first areas
    of the parts. *)
Definition numbers_parts (g : graph) (K : list (nat * nat)) (p : nat) (labels : list Z) : Prop :=
  length labels = gn g /\ labels_exactly labels p /\
  (forall u v, u < gn g -> v < gn g -> (lab labels u = lab labels v <-> same_island (links (gn g) K) u v)) /\
  (forall u v iu iv pu pv, first_in g u iu -> first_in g v iv ->
     first_in (links (gn g) K) u pu -> first_in (links (gn g) K) v pv ->
     ((lab labels u < lab labels v)%Z <-> iu < iv \/ (iu = iv /\ pu < pv))).
(** A start with p regions: links of the forest [T] are cut until p parts are left. *)
Definition tree_start (g : graph) (T : list (nat * nat)) (p : nat) (labels : list Z) : Prop :=
  exists K, NoDup K /\ incl K T /\ length K + p = gn g /\ numbers_parts g K p labels.

(** ** Answers *)
(** What a call comes to - the value it returns, or the exception it raises - without the state in which
    it leaves the random number generator. *)
Definition answer {A} (o : out (A * rng)) : out A :=
  match o with Ok (a, _) => Ok a | Raise e => Raise e | NoFuel => NoFuel end.

(** ** Annealing *)
Section Trials.
(** [goes up l a K]: with the labels [l] area [a] may go to region [K]; [up] tells whether this raises the
    objective.  [must l a K]: there is no chance that area [a] stays when its move to [K] is tried. *)
Variable goes : bool -> list Z -> nat -> Z -> Prop.
Variable must : list Z -> nat -> Z -> Prop.
Variable lower : list Z -> list Z -> Prop.
(** Region K takes one area after the other; it may stop when no area must go to it.  The two numbers count
    the moves that raise the objective and all moves. *)
Inductive trial_turn (K : Z) : list Z -> nat -> nat -> list Z -> Prop :=
| trial_over : forall l, (forall a, ~ must l a K) -> trial_turn K l 0 0 l
| trial_move : forall (up : bool) l a u m l', goes up l a K -> trial_turn K (upd l a K) u m l' ->
    trial_turn K l ((if up then 1 else 0) + u) (1 + m) l'.
(** The regions take turns in the given order. *)
Inductive trial_round : list Z -> list Z -> nat -> nat -> list Z -> Prop :=
| trials_over : forall l, trial_round [] l 0 0 l
| trials_turn : forall K Ks l u1 m1 l1 u2 m2 l2, trial_turn K l u1 m1 l1 -> trial_round Ks l1 u2 m2 l2 ->
    trial_round (K :: Ks) l (u1 + u2) (m1 + m2) l2.
(** Rounds, each in some order of the regions, until a round does not lower the objective. *)
Inductive trial_rounds (regions : list Z) : list Z -> nat -> nat -> list Z -> Prop :=
| trials_last : forall Ks l u m l', Permutation Ks regions -> trial_round Ks l u m l' -> ~ lower l l' ->
    trial_rounds regions l u m l'
| trials_more : forall Ks l u1 m1 l1 u2 m2 l2, Permutation Ks regions -> trial_round Ks l u1 m1 l1 -> lower l l1 ->
    trial_rounds regions l1 u2 m2 l2 -> trial_rounds regions l (u1 + u2) (m1 + m2) l2.
End Trials.
(** The probability of accepting a move that raises the objective by [d] at the temperature [t]; [expf] is the
    exponential function.  At temperature 0 no such move is accepted. *)
Definition acceptance (expf : Q -> Q) (t d : Q) : Q := if Qeq_bool t 0 then 0%Q else expf (- d / t)%Q.
(** The largest number random.random() can return: a multiple of 2^-53 below 1. *)
Definition largest_draw : Q := (2 ^ 53 - 1) # (2 ^ 53).
(** On the island [isl], with the acceptance probabilities [prob]: *)
Definition can_go (O : objfun) (attr : list (list Q)) (g : graph) (prob : Q -> Q) (isl : list nat)
    (up : bool) (l : list Z) (a : nat) (K : Z) : Prop :=
  In a isl /\ legal_move g l a K /\
  exists x y, objective_at O attr isl l = Ok x /\ objective_at O attr isl (upd l a K) = Ok y /\
    if up then (x < y /\ 0 < prob (y - x))%Q else (y <= x)%Q.
Definition must_go (O : objfun) (attr : list (list Q)) (g : graph) (prob : Q -> Q) (isl : list nat)
    (l : list Z) (a : nat) (K : Z) : Prop :=
  In a isl /\ legal_move g l a K /\
  exists x y, objective_at O attr isl l = Ok x /\ objective_at O attr isl (upd l a K) = Ok y /\
    (y <= x \/ (x < y /\ largest_draw < prob (y - x)))%Q.
(** Rounds of the regions of the island [isl]. *)
Definition annealed (O : objfun) (attr : list (list Q)) (g : graph) (prob : Q -> Q) (isl : list nat)
    (l : list Z) (u m : nat) (l' : list Z) : Prop :=
  exists regions, NoDup regions /\ (forall K, In K regions <-> exists a, In a isl /\ region l K a) /\
    trial_rounds (can_go O attr g prob isl) (must_go O attr g prob isl) (lower_at O attr isl) regions l u m l'.
(** Every island once. *)
Definition every_island (g : graph) (isls : list (list nat)) : Prop :=
  NoDup isls /\ forall isl, In isl isls <-> exists v, v < gn g /\ island g v isl.
(** One run over all islands: from [l] to [l'] with [u] moves that raise the objective of their island and
    [m] moves altogether. *)
Definition anneal_run (O : objfun) (attr : list (list Q)) (g : graph) (prob : Q -> Q)
    (l : list Z) (u m : nat) (l' : list Z) : Prop :=
  length l' = gn g /\ exists isls ups moves, every_island g isls /\
    (forall isl, In isl isls -> exists l1, annealed O attr g prob isl l (ups isl) (moves isl) l1 /\
       forall a, In a isl -> lab l' a = lab l1 a) /\
    u = list_sum (map ups isls) /\ m = list_sum (map moves isls).
(** Runs at one temperature: at most [left] of them ([None]: any number), until [term] moves that raise the
    objective have been made or a run ends where it began.  [fresh]: the labels are a random start, and the
    first run is not compared with them.  [u] counts such moves so far, [m] all moves of these runs. *)
Inductive anneal_runs (O : objfun) (attr : list (list Q)) (g : graph) (prob : Q -> Q) (term : nat)
  : bool -> option nat -> nat -> list Z -> nat -> list Z -> Prop :=
| runs_over : forall left u l, left = Some 0 \/ term <= u -> anneal_runs O attr g prob term false left u l 0 l
| runs_same : forall left u l u1 m, left <> Some 0 -> u < term -> anneal_run O attr g prob l u1 m l ->
    anneal_runs O attr g prob term false left u l m l
| runs_more : forall fresh left u l u1 m1 l1 m2 l2, left <> Some 0 -> u < term -> anneal_run O attr g prob l u1 m1 l1 ->
    fresh = true \/ l1 <> l -> anneal_runs O attr g prob term false (option_map pred left) (u + u1) l1 m2 l2 ->
    anneal_runs O attr g prob term fresh left u l (m1 + m2) l2.
(** The whole procedure with the temperature cooled by [cooling]: it ends after [steps] temperatures without a
    move, or when it arrives at labels already recorded [reps] times.  [idle] counts the temperatures without a
    move, [moved] tells of a move not yet accounted for, [seen] holds the labels recorded. *)
Inductive annealing (O : objfun) (attr : list (list Q)) (g : graph) (expf : Q -> Q) (cooling : Q)
    (maxit : option nat) (term steps reps : nat)
  : bool -> nat -> Q -> bool -> list Z -> list (list Z) -> list Z -> bool -> list (list Z) -> Prop :=
| annealing_idle : forall idle t moved l seen, steps <= idle ->
    annealing O attr g expf cooling maxit term steps reps false idle t moved l seen l moved seen
| annealing_seen : forall fresh idle t (moved : bool) l seen m l', idle < steps ->
    anneal_runs O attr g (acceptance expf t) term fresh maxit 0 l m l' ->
    reps <= count_occ (list_eq_dec Z.eq_dec) seen l' ->
    annealing O attr g expf cooling maxit term steps reps fresh idle t moved l seen l' (moved || Nat.ltb 0 m) seen
| annealing_next : forall fresh idle t (moved : bool) l seen m l1 l' moved' seen', idle < steps ->
    anneal_runs O attr g (acceptance expf t) term fresh maxit 0 l m l1 ->
    count_occ (list_eq_dec Z.eq_dec) seen l1 < reps ->
    annealing O attr g expf cooling maxit term steps reps false
      (if moved || Nat.ltb 0 m then idle else S idle) (t * cooling)%Q false l1 (seen ++ [l1]) l' moved' seen' ->
    annealing O attr g expf cooling maxit term steps reps fresh idle t moved l seen l' moved' seen'.

(** ** Lightest forests *)
(** Total weight of some links. *)
Definition weight (w : nat * nat -> Q) (T : list (nat * nat)) : Q := sumQ (map w T).
(** A spanning forest of least total weight. *)
Definition lightest (g : graph) (w : nat * nat -> Q) (T : list (nat * nat)) : Prop :=
  spans g T /\ forall T', spans g T' -> (weight w T <= weight w T')%Q.
(** Links listed row by row. *)
Definition row_by_row (T : list (nat * nat)) : Prop :=
  StronglySorted (fun e f => fst e < fst f \/ (fst e = fst f /\ snd e < snd f)) T.
(** An order of links that puts lighter links first (ties in any order). *)
Definition lightest_first (w : nat * nat -> Q) (order : list (nat * nat) -> list (nat * nat)) : Prop :=
  forall l, Permutation (order l) l /\ StronglySorted (fun e f => (w e <= w f)%Q) (order l).
(** Links lighter than [t]. *)
Definition lighter (g : graph) (w : nat * nat -> Q) (t : Q) : graph :=
  mkG (gn g) (fun i j => gadj g i j && Qltb (w (i, j)) t).
(** Cutting cheapest links, one after the other: from the forest [es] the recorded steps
    (labels after the cut, the link cut and its cost) lead to the forest [final]. *)
Inductive prunes (n : nat) (cost : list (nat * nat) -> nat * nat -> option Q -> Prop) :
    list (nat * nat) -> list (list Z * option (nat * nat * Q)) -> list (nat * nat) -> Prop :=
| prunes_none es : prunes n cost es [] es
| prunes_cut es e q labels rest final :
    cheapest (cost es) es (Some (e, q)) ->
    island_labelling (links n (without e es)) labels ->
    prunes n cost (without e es) rest final ->
    prunes n cost es ((labels, Some (e, q)) :: rest) final.
(** The same links, whichever end is written first. *)
Definition same_links (T T' : list (nat * nat)) : Prop :=
  forall a b, (In (a, b) T \/ In (b, a) T) <-> (In (a, b) T' \/ In (b, a) T').

(** ** Rounded arithmetic *)
(** Whole numbers. *)
Definition whole (q : Q) : Prop := exists z, (q == inject_Z z)%Q.
(** An operation [op] that gives the exact result whenever the operands are whole numbers and the absolute value
    of the exact result is at most [M]. *)
Definition exact_upto (M : Q) (op exact : Q -> Q -> Q) : Prop :=
  forall x y, whole x -> whole y -> (Qabs.Qabs (exact x y) <= M)%Q -> (op x y == exact x y)%Q.
(** An objective that has a value on every labelling and answers for every move within the areas listed in [attr] or
    a part of them. *)
Definition answers (O : objfun) (attr : list (list Q)) : Prop :=
  (forall rows labels, (forall x, In x rows -> In x attr) -> length labels = length rows ->
     exists v, o_call O labels rows = Ok v) /\
  (forall rows labels a r, (forall x, In x rows -> In x attr) -> length labels = length rows ->
     a < length labels -> In r labels -> exists q, o_update O a r labels rows = Ok q).
(** The distances between all pairs of [n] areas, added up. *)
Definition all_distances (d : nat -> nat -> Q) (n : nat) : Q :=
  sumQ (map (fun j => sumQ (map (fun i => d i j) (seq 0 j))) (seq 0 n)).
(** Finitely many numbers. *)
Definition finitely_many (V : Q -> Prop) : Prop := exists F, forall q, V q -> exists y, In y F /\ (q == y)%Q.
(** Two fits with the same outcome: the same labels and the same draws left, or the same exception. *)
Definition same_outcome {X S S'} (x : out ((X * S) * rng)) (y : out ((X * S') * rng)) : Prop :=
  match x, y with
  | Ok (l, _, r), Ok (l', _, r') => l = l' /\ r = r'
  | Raise e, Raise e' => e = e'
  | NoFuel, NoFuel => True
  | _, _ => False
  end.
(** The second answer is [c] times the first one, or both are the same exception. *)
Definition multiple (c : Q) (x y : out Q) : Prop :=
  match x, y with
  | Ok a, Ok b => (b == c * a)%Q
  | Raise e, Raise e' => e = e'
  | NoFuel, NoFuel => True
  | _, _ => False
  end.
(** On every selection of the [n] areas (none twice) the objective [O'] with the attributes [attr'] is [c] times the
    objective [O] with the attributes [attr], and so are its changes. *)
Definition scaled (c : Q) (n : nat) (O O' : objfun) (attr attr' : list (list Q)) : Prop :=
  forall idx labels, NoDup idx -> (forall i, In i idx -> i < n) -> length labels = length idx ->
    multiple c (o_call O labels (map (fun i => nth i attr []) idx)) (o_call O' labels (map (fun i => nth i attr' []) idx)) /\
    forall a r, a < length labels ->
      multiple c (o_update O a r labels (map (fun i => nth i attr []) idx)) (o_update O' a r labels (map (fun i => nth i attr' []) idx)).
(** All distances between two of the [n] areas are multiplied by [c]. *)
Definition distances_scaled (c : Q) (n : nat) (d d' : list Q -> list Q -> Q) (attr attr' : list (list Q)) : Prop :=
  forall i j, i < n -> j < n -> (d' (nth i attr' []) (nth j attr' []) == c * d (nth i attr []) (nth j attr []))%Q.
(** ... and so are those between a selection of the areas and its center. *)
Definition centers_scaled (c : Q) (n : nat) (d d' : list Q -> list Q -> Q) (center center' : list (list Q) -> list Q) (attr attr' : list (list Q)) : Prop :=
  forall idx i, (forall j, In j idx -> j < n) -> In i idx ->
    (d' (nth i attr' []) (center' (map (fun j => nth j attr' []) idx)) == c * d (nth i attr []) (center (map (fun j => nth j attr []) idx)))%Q.
(** A way of putting numbers together that follows a change of their unit. *)
Definition homogeneous (reduction : list Q -> Q) : Prop :=
  forall c l l', (0 < c)%Q -> Forall2 (fun x y => (y == c * x)%Q) l l' -> (reduction l' == c * reduction l)%Q.
(** The row [x'] is the row [x] in another unit, the [k]-th entry counted from another origin. *)
Fixpoint other_scale (c : Q) (b : nat -> Q) (x x' : list Q) : Prop :=
  match x, x' with
  | [], [] => True
  | a :: x1, a' :: x1' => (a' == c * a + b 0%nat)%Q /\ other_scale c (fun k => b (S k)) x1 x1'
  | _, _ => False
  end.
(** The row [x'] is the row [x] with its [k]-th entry multiplied by [u k]. *)
Fixpoint stretched (u : nat -> Q) (x x' : list Q) : Prop :=
  match x, x' with
  | [], [] => True
  | a :: x1, b :: x1' => (b == u 0%nat * a)%Q /\ stretched (fun k => u (S k)) x1 x1'
  | _, _ => False
  end.
(** A single number stands for [w] equal ones. *)
Definition spread (w : nat) (x : list Q) : list Q := match x with [v] => repeat v w | _ => x end.
(** The spatially extensive attributes and the threshold of two inputs are the same up to the (positive) unit of each attribute; in the second
    input a single threshold may stand for several equal ones, and a single attribute for several equal ones. *)
Definition same_amounts (sp sp' : list (list Q)) (thr thr' : list Q) : Prop :=
  (0 < length thr)%nat /\
  exists u : nat -> Q, (forall k, (0 < u k)%Q) /\ stretched u thr (spread (length thr) thr') /\
  exists k, (k = 1%nat \/ k = length thr) /\
  forall i, (nth i sp [] = [] /\ nth i sp' [] = []) \/
            (length (nth i sp' []) = k /\ stretched u (nth i sp []) (spread (length thr) (nth i sp' []))).
(** Powers. *)
Fixpoint qpow (q : Q) (n : nat) : Q := match n with 0 => 1%Q | S n => (q * qpow q n)%Q end.
(** An operation [op] on the numbers [V] that rounds with a relative error of at most [u] while the absolute value
    of the exact result is at most [M]. *)
Definition rounds_within (V : Q -> Prop) (u M : Q) (op exact : Q -> Q -> Q) : Prop :=
  forall x y, V x -> V y -> (Qabs.Qabs (exact x y) <= M)%Q ->
    V (op x y) /\ (Qabs.Qabs (op x y - exact x y) <= u * Qabs.Qabs (exact x y))%Q.
(** From one labelling to another, one allowed move after the other. *)
Inductive moves (ok : list Z -> nat -> Z -> Prop) : list Z -> list Z -> Prop :=
| moves_none : forall l, moves ok l l
| moves_one : forall l a K l', ok l a K -> moves ok (upd l a K) l' -> moves ok l l'.
(** A legal move on the island [isl] that multiplies the objective by at most [f / e]. *)
Definition nearly_down (O : objfun) (attr : list (list Q)) (g : graph) (e f : Q) (isl : list nat)
    (l : list Z) (a : nat) (K : Z) : Prop :=
  In a isl /\ legal_move g l a K /\
  exists x y, objective_at O attr isl l = Ok x /\ objective_at O attr isl (upd l a K) = Ok y /\ (e * y <= f * x)%Q.

(** The same areas and the same links between different areas; an area may or may not be listed as its own neighbour. *)
Definition same_between (g h : graph) : Prop := gn g = gn h /\ forall a b, a <> b -> gadj g a b = gadj h a b.

(** the order in which the links of a matrix are gone through does not depend on entries on its diagonal *)
Definition diagonal_blind (order : list (nat * nat) -> list (nat * nat)) : Prop :=
  forall l, filter (fun e => negb (Nat.eqb (fst e) (snd e))) (order l) = order (filter (fun e => negb (Nat.eqb (fst e) (snd e))) l).
