(** Model of region/csgraph_utils.py and of the scipy routine it relies on. *)
From Verif Require Import Base Spec.

(** Edge in either direction; [csg.connected_components(adj, directed=False)] (csgraph_utils.py:38) and
    the default [connection='weak'] (util.py:618) both ignore directions. *)
Definition wadj (g : graph) (u v : nat) : bool := gadj g u v || gadj g v u.

(** One round of graph search from the set [s] (inside scipy, csgraph_utils.py:38). *)
Definition expand (g : graph) (s : list nat) : list nat :=
  filter (fun v => memb v s || existsb (fun u => wadj g u v) s) (seq 0 (gn g)).

(** Everything reachable from [v]: [gn g] rounds suffice (inside scipy, csgraph_utils.py:38). *)
Definition reach (g : graph) (v : nat) : list nat := Nat.iter (gn g) (expand g) [v].

(** scipy.sparse.csgraph.connected_components as called in region/csgraph_utils.py:38,
    region/util.py:618,699,706,843 and region/skater/skater.py:95,130,219,233,262.
    scipy scans the nodes in increasing order and gives each not yet labelled node, with all
    nodes it reaches, the next label.  [components g] lists the components in label order. *)
Definition comp_step (g : graph) (acc : list (list nat)) (v : nat) : list (list nat) :=
  if existsb (memb v) acc then acc else acc ++ [reach g v].
(** the node sets of the components (second value of the call, csgraph_utils.py:38) *)
Definition components (g : graph) : list (list nat) :=
  fold_left (comp_step g) (seq 0 (gn g)) [].
(** first value returned by the call (csgraph_utils.py:38; util.py:618) *)
Definition n_components (g : graph) : nat := length (components g).
(** one entry of the label array (util.py:618, 843) *)
Definition comp_label (g : graph) (v : nat) : nat :=
  match index_where (memb v) (components g) with Some k => k | None => 0 end.
(** second value returned by the call (util.py:618, 706, 843) *)
Definition component_labels (g : graph) : list nat := map (comp_label g) (seq 0 (gn g)).

(** csgraph_utils.py:12-40 *)
Definition is_connected (g : graph) : bool := Nat.eqb (n_components g) 1.

(** csgraph_utils.py:43-70: [adj[area].nonzero()[1]] *)
Definition neighbors (g : graph) (area : nat) : list nat :=
  filter (gadj g area) (seq 0 (gn g)).

(** csgraph_utils.py:73-126.  [np.in1d(nodes, wo_nodes, invert=True)] keeps the nodes not in
    [wo_nodes] ([wo_nodes=None] is the empty list); the matrix is re-indexed by position. *)
Definition sub_nodes (nodes wo_nodes : list nat) : list nat :=
  filter (fun a => negb (memb a wo_nodes)) nodes.
(** csgraph_utils.py:73-126 *)
Definition sub_adj_matrix (g : graph) (nodes wo_nodes : list nat) : graph :=
  let ns := sub_nodes nodes wo_nodes in
  mkG (length ns)
      (fun i j => match nth_error ns i, nth_error ns j with
                  | Some a, Some b => gadj g a b
                  | _, _ => false
                  end).
