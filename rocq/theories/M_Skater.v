(** Model of region/skater/skater.py.
    Simplifications: numbers are rational (no NaN), infinite scores are [None]; [metric(data)[i, j]]
    is [sk_metric] of the two rows; [verbose] output, timing and the side effect
    [W.transform = 'b'] (line 75) are left out; [data] has one row per area. *)
From Verif Require Import Base Spec M_Graph M_Util.

(** skater.py:12-40.  With [affinity] the metric is a one-argument lambda (line 35), which fails
    when it is called with X and Y (line 175): [sk_one_arg]. *)
Record skater := mkSk {
  sk_metric : list Q -> list Q -> Q;
  sk_reduction : list Q -> Q;
  sk_center : list (list Q) -> list Q;
  sk_one_arg : bool
}.

(** [cg.connected_components(MSF, directed=False)[1]]: skater.py:95,130,219,233,262 *)
Definition forest_labels (n : nat) (es : list edge) : list Z :=
  map Z.of_nat (component_labels (edges_graph n es)).

(** [(np.unique(labels, return_counts=True)[1] < quorum).any()], skater.py:112-113 and 171-173;
    [quorum=None] is the default -inf *)
Definition below_quorum (quorum : option Z) (labels : list Z) : bool :=
  match quorum with
  | None => false
  | Some q => existsb (fun r => Z.ltb (Z.of_nat (count labels r)) q) (uniqueZ labels)
  end.

(** one element of [part_scores], skater.py:175-179; sklearn metrics raise ValueError on an empty X *)
Definition part_score (S : skater) (data : list (list Q)) (labels : list Z) (l : Z) : out Q :=
  if sk_one_arg S then Raise (TypeError "unexpected keyword argument 'X'") else
  match map (fun a => nth a data []) (where_eq labels l) with
  | [] => Raise (ValueError "Found array with 0 sample(s)")
  | rows => Ok (sk_reduction S (map (fun x => sk_metric S x (sk_center S rows)) rows))
  end.

(** skater.py:147-180; [fitted] is [self.current_labels_] if it exists *)
Definition score (S : skater) (fitted : option (list Z)) (data : list (list Q))
    (labels : option (list Z)) (quorum : option Z) : out (option Q) :=
  match (match labels with Some l => Some l | None => fitted end) with
  | None => Raise (ValueError "Labels not provided and MSF_Prune object has not been fit to data yet.")
  | Some labels =>
      if negb (Nat.eqb (length data) (length labels)) then Raise (PlainException "AssertionError") else
      let n_subtrees := length (uniqueZ labels) in
      if below_quorum quorum labels then Ok None else
      let* part_scores := mapM (part_score S data labels) (map Z.of_nat (seq 0 n_subtrees)) in
      Ok (Some (sk_reduction S part_scores))
  end.

(** [deletion(in_node, out_node, score)], skater.py:9; [None] is [deletion(nan, nan, inf)] *)
Definition deletion := option (edge * Q).

(** skater.py:242: [score < best_deletion.score] *)
Definition better (q : option Q) (best : deletion) : bool :=
  match q, best with
  | Some x, Some (_, y) => Qltb x y
  | Some _, None => true
  | None, _ => false
  end.

(** skater.py:221-243: the loop over the edges; [zero_in] is [labels] with [target_label] *)
Fixpoint cut_loop (S : skater) (n : nat) (es : list edge) (data : list (list Q)) (quorum : option Z)
    (zero_in : option (list Z * Z)) (todo : list edge) (best : deletion) : out deletion :=
  match todo with
  | [] => Ok best
  | e :: todo' =>
      let* here := match zero_in with
                   | None => Ok true
                   | Some (labels, target) =>
                       match nth_error labels (fst e) with
                       | Some l => Ok (Z.eqb l target)
                       | None => Raise IndexError
                       end
                   end in
      if negb here then cut_loop S n es data quorum zero_in todo' best else
      let local := remove_edge e es in
      if Nat.leb (n_components (edges_graph n local)) (n_components (edges_graph n es))
      then Raise (PlainException "Malformed MSF!") else
      let* q := score S None data (Some (forest_labels n local)) quorum in
      cut_loop S n es data quorum zero_in todo'
        (if better q best then match q with Some x => Some (e, x) | None => best end else best)
  end.

(** skater.py:203-204: missing data are replaced by ones *)
Definition ones (n m : nat) : list (list Q) := repeat (repeat 1%Q m) n.

(** skater.py:182-246 with [make=False] *)
Definition find_cut (S : skater) (n : nat) (es : list edge) (data : option (list (list Q)))
    (quorum : option Z) (labels : option (list Z)) (target : option Z) : out deletion :=
  let data := match data with Some d => d | None => ones n n end in
  match labels, target with
  | Some _, None => Raise (ValueError "Both labels and target_label must be supplied! Only labels provided.")
  | None, Some _ => Raise (ValueError "Both labels and target_label must be supplied! Only target_label provided.")
  | None, None => cut_loop S n es data quorum None es None
  | Some l, Some t => cut_loop S n es data quorum (Some (l, t)) es None
  end.

(** skater.py:248-263: the forest without the edge, its number of components and labels *)
Definition make_cut (n : nat) (d : deletion) (es : list edge) : out (list edge * nat * list Z) :=
  match d with
  | Some (e, _) => let es' := remove_edge e es in
                   Ok (es', n_components (edges_graph n es'), forest_labels n es')
  | None => Raise OptimizeWarningExn
  end.

(** skater.py:182-246 with [make=True] (lines 244-245) *)
Definition find_and_make_cut (S : skater) (n : nat) (es : list edge) (data : option (list (list Q)))
    (quorum : option Z) (labels : option (list Z)) (target : option Z) : out (list edge * nat * list Z) :=
  let* d := find_cut S n es data quorum labels target in
  make_cut n d es.

(** What [fit] (skater.py:47-145) leaves behind: [current_labels_], [minimum_spanning_forest_], [_trace]
    (recorded when [trace=True]) and whether the "no valid moves" warning was given. *)
Record skater_fit := mkFit {
  f_labels : list Z;
  f_forest : list edge;
  f_trace : list (list Z * deletion);
  f_no_moves : bool
}.

(** [current_n_subtrees < n_clusters], skater.py:120; [None] is infinity *)
Definition more_clusters (c : nat) (n_clusters : option Z) : bool :=
  match n_clusters with None => true | Some k => Z.ltb (Z.of_nat c) k end.

(** skater.py:120-145 *)
Fixpoint prune (S : skater) (n : nat) (data : list (list Q)) (quorum : option Z)
    (n_clusters : option Z) (fuel : nat)
    (es : list edge) (c : nat) (labels : list Z) (trace : list (list Z * deletion)) : out skater_fit :=
  if more_clusters c n_clusters then
    match fuel with
    | 0 => NoFuel
    | Datatypes.S fuel' =>
        let* best := find_cut S n es (Some data) quorum None None in
        match best with
        | Some _ =>
            let* '(es', c', labels') := make_cut n best es in
            prune S n data quorum n_clusters fuel' es' c' labels' (trace ++ [(labels', best)])
        | None => Ok (mkFit (forest_labels n es) es trace true)
        end
    end
  else Ok (mkFit labels es trace false).

(** skater.py:70-82: the matrix handed to the spanning-tree routine: neighbours whose entry in
    the attribute kernel is not zero (all neighbours if there are no data) *)
Definition dissim_matrix (S : skater) (g : graph) (data : option (list (list Q))) : graph :=
  match data with
  | None => mkG (gn g) (fun i j => gadj g i j && negb (Qeq_bool 1 0))
  | Some d => mkG (gn g) (fun i j => gadj g i j &&
                negb (Qeq_bool (sk_metric S (nth i d []) (nth j d [])) 0))
  end.

(** skater.py:101-111: the island-adjusted [n_clusters]; [ignoring] is [islands.lower() == 'ignore'] *)
Definition adjust_clusters (n_clusters : option Z) (c : nat) (ignoring : bool) : option Z :=
  if Nat.ltb 1 c && negb ignoring then option_map (fun k => (k + Z.of_nat c)%Z) n_clusters
  else n_clusters.

(** skater.py:47-145 *)
Definition skater_run (S : skater) (order : list edge -> list edge) (g : graph)
    (data : option (list (list Q))) (n_clusters : option Z) (quorum : option Z) (ignoring : bool)
    (fuel : nat) : out skater_fit :=
  let msf := minimum_spanning_tree order (dissim_matrix S g data) in
  let d := match data with Some d => d | None => ones (gn g) 1 end in
  let c := n_components (edges_graph (gn g) msf) in
  let labels := forest_labels (gn g) msf in
  if Nat.ltb 1 c && below_quorum quorum labels
  then Raise (ValueError "Islands must be larger than the quorum.")
  else prune S (gn g) d quorum (adjust_clusters n_clusters c ignoring) fuel msf c labels [(labels, None)].
