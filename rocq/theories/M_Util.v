(** Model of the clustering helpers in region/util.py (lines 515-902). *)
From Verif Require Import Base Spec M_Graph.

(** ** Labelings *)

(** util.py:515-537 *)
Definition make_move (area : nat) (new_label : Z) (labels : list Z) : list Z :=
  upd labels area new_label.

(** [np.unique(arr, return_counts=True)] (util.py:884): sorted distinct values and how often each
    occurs. *)
Definition unique_counts (arr : list Z) : list Z * list nat :=
  (uniqueZ arr, map (fun u => length (filter (Z.eqb u) arr)) (uniqueZ arr)).
(** util.py:861-888: the entry of [counts] at the position of [el] in [unique], 0 if it has none. *)
Definition count (arr : list Z) (el : Z) : nat :=
  let (unique, counts) := unique_counts arr in
  match index_where (fun u => Z.eqb u el) unique with
  | Some idx => nth idx counts 0
  | None => 0
  end.
Arguments count : simpl never.

(** util.py:404-443; [index=True] and [index=False] variants.  Sublists are searched with [in]. *)
Definition find_sublist_index (el : nat) (lst : list (list nat)) : out nat :=
  match index_where (memb el) lst with
  | Some k => Ok k
  | None => Raise LookupError
  end.
(** util.py:404-443, [index=False] *)
Definition find_sublist_containing (el : nat) (lst : list (list nat)) : out (list nat) :=
  match find (memb el) lst with
  | Some s => Ok s
  | None => Raise LookupError
  end.

(** The areas of one region as a matrix: [sub_adj_matrix(adj, np.where(solution == r)[0])],
    util.py:763 and 786. *)
Definition region_adj (g : graph) (labels : list Z) (r : Z) : graph :=
  sub_adj_matrix g (where_eq labels r) [].

(** util.py:736-769.  [set(solution)] is enumerated in increasing order (the order only decides
    which offending region is named in the message).  [n_regions] is [None] or an int.
    *)
Fixpoint check_regions (g : graph) (labels : list Z) (rs : list Z) : out unit :=
  match rs with
  | [] => Ok tt
  | r :: rs' => if is_connected (region_adj g labels r) then check_regions g labels rs'
                else Raise (ValueError "Region is not spatially contiguous.")
  end.
(** util.py:736-769.  With more labels than areas [sub_adj_matrix] (line 763) is asked for rows that do not
    exist: IndexError.  (The code raises it when it comes to such a region, the model before looking at any; if
    there is also a region that is not contiguous the code may report that one instead.) *)
Definition assert_feasible (labels : list Z) (g : graph) (n_regions : option Z) : out unit :=
  let body := if Nat.leb (length labels) (gn g) then check_regions g labels (uniqueZ labels) else Raise IndexError in
  match n_regions with
  | Some p => if Z.eqb (Z.of_nat (length (uniqueZ labels))) p then body
              else Raise (ValueError "The number of regions is wrong")
  | None => body
  end.

(** util.py:772-790 *)
Definition boolean_assert_feasible (labels : list Z) (g : graph) (n_regions : option Z) : out bool :=
  let body := if Nat.leb (length labels) (gn g)
              then Ok (forallb (fun b => b) (map (fun r => is_connected (region_adj g labels r)) (uniqueZ labels)))
              else Raise IndexError in
  match n_regions with
  | Some p => if Z.eqb (Z.of_nat (length (uniqueZ labels))) p then body
              else Raise (ValueError "The number of regions is wrong")
  | None => body
  end.

(** [comp_labels == comp] as a list of positions (util.py:633, 846) *)
Definition comp_nodes (g : graph) (comp : nat) : list nat :=
  filter (fun a => Nat.eqb (comp_label g a) comp) (seq 0 (gn g)).

(** [region_labels = -np.ones(n); region_labels[idx] = vals]  (util.py:632,642 and 845-847,
    azp.py:96,107).  [scatter base idx vals]: assignment by an index array. *)
Fixpoint scatter {A} (base : list A) (idx : list nat) (vals : list A) : list A :=
  match idx, vals with
  | i :: idx', v :: vals' => scatter (upd base i v) idx' vals'
  | _, _ => base
  end.
(** [-np.ones(n, dtype=np.int32)], util.py:632, 845; azp.py:96 *)
Definition minus_ones (n : nat) : list Z := repeat (-1)%Z n.
(** [labels[idx]], util.py:847; azp.py:100 *)
Definition gather {A} (d : A) (l : list A) (idx : list nat) : list A := map (fun a => nth a l d) idx.

(** util.py:797-848: one array per component, in component order. *)
Definition separate_one (g : graph) (labels : list Z) (comp : nat) : list Z :=
  scatter (minus_ones (gn g)) (comp_nodes g comp) (gather (-1)%Z labels (comp_nodes g comp)).
(** util.py:797-848 *)
Definition separate_components (g : graph) (labels : list Z) : list (list Z) :=
  map (separate_one g labels) (seq 0 (n_components g)).

(** ** Distributing regions among components: util.py:540-584 *)

(** [result_dict[c] += 1] on an insertion-ordered dict (util.py:582) *)
Definition bump (c : nat) (d : list (nat * nat)) : list (nat * nat) :=
  map (fun kv => if Nat.eqb (fst kv) c then (fst kv, S (snd kv)) else kv) d.

(** one occurrence of every component is removed from the list (lines 573-576) *)
Definition remove_one (c : nat) (l : list nat) : list nat :=
  match remove_first c l with Some l' => l' | None => l end.

(** the while loop of lines 579-583, [left] = n_regions_to_distribute *)
Fixpoint distribute_rest (left : nat) (labels : list nat) (d : list (nat * nat)) (r : rng)
  : out (list (nat * nat) * rng) :=
  match left with
  | 0 => Ok (d, r)
  | S left' => let* '(c, labels', r') := pop_randomly_from labels r in
               distribute_rest left' labels' (bump c d) r'
  end.

(** [set(component_labels)] (util.py:568) enumerates small ints in increasing order *)
Definition distinct_nat (l : list nat) : list nat :=
  filter (fun c => memb c l) (seq 0 (S (list_max l))).

(** util.py:540-584 *)
Definition distribute_regions_among_components (component_labels : list nat) (n_regions : nat) (r : rng)
  : out (list (nat * nat) * rng) :=
  let comps := distinct_nat component_labels in
  if Nat.eqb (length comps) 1 then Ok ([(0, n_regions)], r)
  else distribute_rest (n_regions - length comps)
         (fold_left (fun l c => remove_one c l) comps component_labels)
         (map (fun c => (c, 1)) comps) r.

(** ** Spanning trees *)
Notation edge := (nat * nat)%type.
(** equality of matrix positions (util.py:696-697) *)
Definition edge_eqb (e f : edge) : bool := Nat.eqb (fst e) (fst f) && Nat.eqb (snd e) (snd f).
(** a set of edges as a (one-directional) matrix (the tree of util.py:686) *)
Definition edges_graph (n : nat) (es : list edge) : graph :=
  mkG n (fun i j => existsb (edge_eqb (i, j)) es).

(** [adj.nonzero()], row-major (util.py:694) *)
Definition matrix_edges (g : graph) : list edge :=
  filter (fun e => gadj g (fst e) (snd e)) (list_prod (seq 0 (gn g)) (seq 0 (gn g))).

(** scipy.sparse.csgraph.minimum_spanning_tree, called in util.py:686 and skater.py:89.
    scipy sorts the stored entries by weight ([np.argsort], not stable: [order] is any
    permutation), keeps an entry iff its end points are not yet joined (union-find), zeroes
    the others and drops the zeros, so the row-major order of the stored entries survives. *)
Definition kruskal_step (n : nat) (kept : list edge) (e : edge) : list edge :=
  let g := edges_graph n kept in
  if Nat.eqb (comp_label g (fst e)) (comp_label g (snd e)) then kept else e :: kept.
(** scipy's loop over all entries (inside the call of util.py:686) *)
Definition kruskal (n : nat) (es : list edge) : list edge := fold_left (kruskal_step n) es [].
(** the returned matrix (util.py:686; skater.py:89) *)
Definition minimum_spanning_tree (order : list edge -> list edge) (g : graph) : list edge :=
  let kept := kruskal (gn g) (order (matrix_edges g)) in
  filter (fun e => existsb (edge_eqb e) kept) (matrix_edges g).

(** ** Random division of a connected graph: util.py:646-706 *)
Definition remove_edge (e : edge) (es : list edge) : list edge :=
  filter (fun f => negb (edge_eqb e f)) es.

(** [max(np.unique(labels, return_counts=True)[1])] (util.py:700) *)
Definition max_comp_size (g : graph) : nat := list_max (map (@length nat) (components g)).

(** lines 690-703: [tries] random links, keep the one with the smallest largest part
    ([best] starts as None, size infinity) *)
Fixpoint try_links (n tries : nat) (mst : list edge) (best : option (edge * nat)) (r : rng)
  : out (option (edge * nat) * rng) :=
  match tries with
  | 0 => Ok (best, r)
  | S t => let* '(e, r') := random_element_from mst r in
           let size := max_comp_size (edges_graph n (remove_edge e mst)) in
           let best' := match best with
                        | None => Some (e, size)
                        | Some (_, s) => if Nat.ltb size s then Some (e, size) else best
                        end in
           try_links n t mst best' r'
  end.

(** lines 687-705: [cuts] times *)
Fixpoint cut_links (n cuts : nat) (mst : list edge) (r : rng) : out (list edge * rng) :=
  match cuts with
  | 0 => Ok (mst, r)
  | S c => let* '(best, r') := try_links n 5 mst None r in
           match best with
           | Some (e, _) => cut_links n c (remove_edge e mst) r'
           | None => Raise (TypeError "'NoneType' object is not subscriptable")
           end
  end.

(** util.py:646-706 *)
Definition randomly_divide_connected_graph (order : list edge -> list edge)
    (g : graph) (n_regions : nat) (r : rng) : out (list nat * rng) :=
  if Nat.eqb n_regions 0 then Raise (ValueError "n_regions must be positive")
  else if Nat.ltb (gn g) n_regions then Raise (ValueError "n_regions must be at most the number of nodes")
  else let* '(mst, r') := cut_links (gn g) (n_regions - 1) (minimum_spanning_tree order g) r in
       Ok (component_labels (edges_graph (gn g) mst), r').

(** ** Initial solutions: util.py:587-643 *)

(** What the generator yields: an array, or (line 615) a dict area -> 0. *)
Inductive yielded := YArr (labels : list Z) | YDict (n_areas : nat).

(** lines 632-643: the array for one component *)
Definition initial_for_comp (order : list edge -> list edge) (g : graph) (comp k built : nat) (r : rng)
  : out (list Z * rng) :=
  let nodes := comp_nodes g comp in
  let comp_adj := sub_adj_matrix g nodes [] in
  let* '(ls, r') := randomly_divide_connected_graph order comp_adj k r in
  Ok (scatter (minus_ones (gn g)) nodes (map (fun l => Z.of_nat (l + built)) ls), r').

(** lines 629-643 as a generator: each yielded array is handed to [consume] before the next
    one is computed (the consumer may draw random numbers as well). *)
Fixpoint gen_comps {S} (order : list edge -> list edge) (g : graph)
    (consume : yielded -> S -> rng -> out (S * rng))
    (items : list (nat * nat)) (built : nat) (s : S) (r : rng) : out (S * rng) :=
  match items with
  | [] => Ok (s, r)
  | (comp, k) :: items' =>
      let* '(arr, r1) := initial_for_comp order g comp k built r in
      let* '(s', r2) := consume (YArr arr) s r1 in
      gen_comps order g consume items' (built + k) s' r2
  end.

(** the whole generator, lines 604-643 *)
Definition generate_initial_sol {S} (order : list edge -> list edge) (g : graph) (n_regions : Z)
    (consume : yielded -> S -> rng -> out (S * rng)) (s : S) (r : rng) : out (S * rng) :=
  if Nat.eqb (gn g) 0 then Raise (ValueError "There must be at least one area.")
  else if Z.ltb (Z.of_nat (gn g)) n_regions then Raise (ValueError "more regions than areas")
  else if Z.eqb n_regions 1 then consume (YDict (gn g)) s r
  else if Z.ltb n_regions (Z.of_nat (n_components g)) then Raise (ValueError "fewer regions than components")
  else let* '(d, r1) := distribute_regions_among_components (component_labels g) (Z.to_nat n_regions) r in
       gen_comps order g consume d 0 s r1.

(** [list(generate_initial_sol(adj, n_regions))], util.py:587-643 *)
Definition initial_solutions (order : list edge -> list edge) (g : graph) (n_regions : Z) (r : rng)
  : out (list yielded * rng) :=
  generate_initial_sol order g n_regions (fun y acc r => Ok (acc ++ [y], r)) [] r.
