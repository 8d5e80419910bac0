(** Model of the input conversions in region/util.py (lines 21-401) and of the [fit_from_dict] and
    [fit_from_networkx] methods built on them.

    Area names are integers: all the code does with names is hashing, equality and [sorted], and any
    finite set of mutually comparable names can be numbered in increasing order. *)
From Verif Require Import Base Spec M_Graph M_Util M_Objective M_Azp.

(** ** Python dicts: insertion-ordered association lists with distinct keys (the arguments of
    util.py:21, 80) *)
Definition dict (V : Type) := list (Z * V).
(** [dct.keys()] (p_regions/exact.py:152; heuristics.py:175) *)
Definition keys {V} (d : dict V) : list Z := map fst d.

(** lookup by key (util.py:68, 70, 72) *)
Fixpoint dlookup {V} (d : dict V) (k : Z) : option V :=
  match d with
  | [] => None
  | (k', v) :: d' => if Z.eqb k k' then Some v else dlookup d' k
  end.
(** [dct[key]] (util.py:68, 70, 72) *)
Definition dict_get {V} (d : dict V) (k : Z) : out V :=
  match dlookup d k with Some v => Ok v | None => Raise KeyError end.

(** [sorted(dct)] (util.py:67, 117; azp.py:269, 529): the keys are distinct, so sorting without
    duplicates is sorting. *)
Definition sorted_keys {V} (d : dict V) : list Z := uniqueZ (keys d).

(** [attr.keys() != neighbors_dict.keys()] negated (p_regions/exact.py:152,
    max_p_regions/exact.py:214, 218, max_p_regions/heuristics.py:175, 179) *)
Definition same_keys {V W} (d : dict V) (e : dict W) : bool :=
  forallb (fun k => membZ k (keys e)) (keys d) && forallb (fun k => membZ k (keys d)) (keys e).

(** ** util.py:21-77 *)

(** A dict value: a number, or an iterable of numbers ([isinstance(_, collections.Iterable)], util.py:68). *)
Inductive value (A : Type) := Scalar (a : A) | Iter (l : list A).
Arguments Scalar {A} a.
Arguments Iter {A} l.

(** util.py:70, the iterator consumed by [np.fromiter] at line 74 *)
Fixpoint chained {A} (d : dict (value A)) (ks : list Z) : out (list A) :=
  match ks with
  | [] => Ok []
  | k :: ks' => let* v := dict_get d k in
                match v with
                | Iter l => let* rest := chained d ks' in Ok (l ++ rest)
                | Scalar _ => Raise (TypeError "object is not iterable")
                end
  end.
(** util.py:72, the same for scalar values *)
Fixpoint scalars {A} (d : dict (value A)) (ks : list Z) : out (list A) :=
  match ks with
  | [] => Ok []
  | k :: ks' => let* v := dict_get d k in
                match v with
                | Scalar a => let* rest := scalars d ks' in Ok (a :: rest)
                | Iter _ => Raise (ValueError "setting an array element with a sequence.")
                end
  end.

(** util.py:66-74: the flat array; the value of the first key decides how all values are read *)
Definition flat_values {A} (d : dict (value A)) (ks : list Z) : out (list A) :=
  match ks with
  | [] => Raise IndexError
  | k :: _ => let* v := dict_get d k in
              match v with Iter _ => chained d ks | Scalar _ => scalars d ks end
  end.

(** [flat_arr.reshape((n, -1))] (util.py:77) *)
Definition reshape {A} (n : nat) (flat : list A) : out (list (list A)) :=
  if Nat.eqb n 0 then Raise (ValueError "cannot reshape array")
  else if Nat.eqb (length flat mod n) 0
  then let c := length flat / n in
       Ok (map (fun i => firstn c (skipn (i * c) flat)) (seq 0 n))
  else Raise (ValueError "cannot reshape array").

(** util.py:21-76 with [flat_output=True] *)
Definition array_from_dict_flat {A} (d : dict (value A)) (ks : option (list Z)) : out (list A) :=
  flat_values d (match ks with Some l => l | None => sorted_keys d end).
(** util.py:21-77 with [flat_output=False]: the number of rows is [len(dct)], whatever the keys asked for *)
Definition array_from_dict_values {A} (d : dict (value A)) (ks : option (list Z)) : out (list (list A)) :=
  let* flat := array_from_dict_flat d ks in reshape (length d) flat.

(** ** util.py:80-122 *)

(** [name_to_int[k]] (util.py:117, 121) *)
Definition name_to_int {V} (d : dict V) (k : Z) : out nat :=
  match index_where (Z.eqb k) (sorted_keys d) with Some i => Ok i | None => Raise KeyError end.

(** util.py:80-122; entries are only ever set to 1, so the matrix is the set of positions written.
    An empty dict (no areas) is not covered: scipy's treatment of 0 x 0 matrices is not modelled. *)
Definition matrix_from_dict (nb : dict (list Z)) : out graph :=
  let* rows := mapM (fun '(i, js) => mapM (fun j => let* a := name_to_int nb i in
                                                    let* b := name_to_int nb j in Ok (a, b)) js) nb in
  Ok (mkG (length nb)
          (fun u v => existsb (fun '(a, b) => Nat.eqb a u && Nat.eqb b v) (concat rows))).

(** ** networkx graphs *)

(** The networkx graphs read in util.py:153-248: nodes in insertion order, non-zero pattern of the
    edges, numeric node attributes by name. *)
Record nxgraph := mkNx {
  nx_nodes : list Z;
  nx_edge : Z -> Z -> bool;
  nx_attr : string -> Z -> option Q
}.

(** [nx.to_scipy_sparse_matrix(graph)] (azp.py:189, 573, max_p_regions/heuristics.py:293,
    max_p_regions/exact.py:333, p_regions/exact.py:251):
    rows and columns in the order of [graph.nodes()]; an empty graph raises NetworkXError. *)
Definition to_scipy_sparse_matrix (G : nxgraph) : out graph :=
  match nx_nodes G with
  | [] => Raise (PlainException "Graph has no nodes or edges")
  | _ => Ok (mkG (length (nx_nodes G))
                 (fun i j => Nat.ltb i (length (nx_nodes G)) && Nat.ltb j (length (nx_nodes G)) &&
                             nx_edge G (nth i (nx_nodes G) 0%Z) (nth j (nx_nodes G) 0%Z)))
  end.

(** The [attr] argument (util.py:158-163, 252): a string, an iterable of strings, a dict, or something not iterable. *)
Inductive attr_arg :=
| ByName (s : string)
| ByNames (l : list string)
| ByDict (d : dict (value Q))
| NotIterable.

(** util.py:198-200, one round of the loop over [attr]: only nodes having the attribute get a value *)
Definition append_attr (G : nxgraph) (data : dict (list Q)) (a : string) : dict (list Q) :=
  map (fun '(node, l) => (node, match nx_attr G a node with Some q => l ++ [q] | None => l end)) data.

(** util.py:195-200: the dict built from the nodes' attributes *)
Definition collect_attrs (G : nxgraph) (names : list string) : dict (list Q) :=
  fold_left (append_attr G) names (map (fun node => (node, [])) (nx_nodes G)).
(** util.py:153-204 with [array_values=False] *)
Definition dict_from_graph_attr (G : nxgraph) (a : attr_arg) : out (dict (value Q)) :=
  match a with
  | ByDict d => Ok d
  | ByName s => Ok (map (fun '(k, l) => (k, Iter l)) (collect_attrs G [s]))
  | ByNames l => Ok (map (fun '(k, l) => (k, Iter l)) (collect_attrs G l))
  | NotIterable => Raise (TypeError "object is not iterable")
  end.

(** util.py:207-248 *)
Definition array_from_graph (G : nxgraph) (a : attr_arg) : out (list (list Q)) :=
  let* d := dict_from_graph_attr G a in array_from_dict_values d None.

(** util.py:251-260; a dict is an Iterable, so the second branch of the code is never reached *)
Definition array_from_graph_or_dict (G : nxgraph) (a : attr_arg) : out (list (list Q)) :=
  match a with
  | NotIterable => Raise (ValueError "The `attr` argument must be a string, a list of strings or a dictionary.")
  | _ => array_from_graph G a
  end.

(** ** DataFrames: index and columns, in order (util.py:291-336, 368-401) *)
Record frame := mkFrame { f_index : list Z; f_cols : list (string * list Q) }.

(** one column of [df[names]] (util.py:336, 401) *)
Fixpoint f_col (cols : list (string * list Q)) (s : string) : out (list Q) :=
  match cols with
  | [] => Raise KeyError
  | (n, c) :: cols' => if String.eqb s n then Ok c else f_col cols' s
  end.
(** [np.array(df[names])] (util.py:336, 401): one row per index entry *)
Definition frame_rows (df : frame) (names : list string) : out (list (list Q)) :=
  let* cs := mapM (f_col (f_cols df)) names in
  Ok (map (fun i => map (fun c => nth i c 0%Q) cs) (seq 0 (length (f_index df)))).

(** The [attr] argument of [array_from_df_col] (util.py:328-335): a string, a sequence (of strings or not), other. *)
Inductive col_arg := OneCol (s : string) | ColSeq (l : list str_arg) | NoSeq.
(** the string in a column argument, util.py:329-335 *)
Definition str_of (a : str_arg) : string := match a with AStr s => s | ANotStr => "" end.
(** [isinstance(_, str)], util.py:332 *)
Definition is_str (a : str_arg) : bool := match a with AStr _ => true | ANotStr => false end.

(** util.py:291-336 *)
Definition array_from_df_col (df : frame) (a : col_arg) : out (list (list Q)) :=
  match a with
  | OneCol s => frame_rows df [s]
  | ColSeq l => if forallb is_str l then frame_rows df (map str_of l)
                else Raise (ValueError "The attr argument has to be of one of the following types: str or a sequence of strings.")
  | NoSeq => Raise (ValueError "The attr argument has to be of one of the following types: str or a sequence of strings.")
  end.

(** [d[k] = v] on an insertion-ordered dict, as [dict(...)] does at util.py:401 *)
Fixpoint dict_set {V} (d : dict V) (k : Z) (v : V) : dict V :=
  match d with
  | [] => [(k, v)]
  | (k', v') :: d' => if Z.eqb k k' then (k', v) :: d' else (k', v') :: dict_set d' k v
  end.
(** [dict(zip(ks, vs))] (util.py:401): a repeated key keeps its last value *)
Definition dict_of_zip {V} (ks : list Z) (vs : list V) : dict V :=
  fold_left (fun d '(k, v) => dict_set d k v) (combine ks vs) [].
(** util.py:368-401 with [cols] a list of column names *)
Definition dataframe_to_dict (df : frame) (cols : list string) : out (dict (value Q)) :=
  let* rows := frame_rows df cols in Ok (dict_of_zip (f_index df) (map (fun r => Iter r) rows)).

(** ** The [fit_from_*] methods.
    [fit_adj]: [fit_from_scipy_sparse_matrix] with the arguments not converted already applied. *)
Section FitFrom.
Variable R : Type.

(** azp.py:240-282 and 503-542.  Labels are read with [dtype=np.int32]. *)
Definition azp_fit_from_dict (fit_adj : graph -> list (list Q) -> option (list Z) -> out R)
    (nb : dict (list Z)) (attr : dict (value Q)) (initial : option (dict (value Z))) : out R :=
  let areas := sorted_keys nb in
  let* adj := matrix_from_dict nb in
  let* rows := array_from_dict_values attr (Some areas) in
  match initial with
  | None => fit_adj adj rows None
  | Some d => let* l := array_from_dict_flat d (Some areas) in fit_adj adj rows (Some l)
  end.

(** azp.py:150-198, 544-583 (with an admissible cooling factor).  [initial_labels] go through [array_from_graph_or_dict] and stay
    two-dimensional, so that [set(solution)] (util.py:756 or 762) meets a row, which is an ndarray
    and cannot be hashed. *)
Definition azp_fit_from_networkx (fit_adj : graph -> list (list Q) -> option (list Z) -> out R)
    (G : nxgraph) (attr : attr_arg) (initial : option attr_arg) : out R :=
  let* adj := to_scipy_sparse_matrix G in
  let* rows := array_from_graph_or_dict G attr in
  match initial with
  | None => fit_adj adj rows None
  | Some a => let* rows2 := array_from_graph_or_dict G a in
              match rows2 with
              | [] => fit_adj adj rows (Some [])
              | _ :: _ => Raise (TypeError "unhashable type: 'numpy.ndarray'")
              end
  end.

(** Something passed where a dict is expected (p_regions/exact.py:149, 152) *)
Inductive dict_arg (V : Type) := IsDict (d : dict V) | NotDict.
Arguments IsDict {V} d.
Arguments NotDict {V}.

(** p_regions/exact.py:117-165 *)
Definition pexact_fit_from_dict (fit_adj : graph -> list (list Q) -> out R)
    (nb : dict_arg (list Z)) (attr : dict_arg (value Q)) : out R :=
  match nb with
  | NotDict => Raise (ValueError "The neighbors_dict argument must be dict.")
  | IsDict nb =>
      match attr with
      | NotDict => Raise (ValueError "The attr argument has to be of type dict with the same keys as neighbors_dict.")
      | IsDict attr =>
          if same_keys attr nb then
            let* adj := matrix_from_dict nb in
            let* rows := array_from_dict_values attr None in
            fit_adj adj rows
          else Raise (ValueError "The attr argument has to be of type dict with the same keys as neighbors_dict.")
      end
  end.

(** max_p_regions/heuristics.py:129-191 and max_p_regions/exact.py:171-231 *)
Definition maxp_fit_from_dict (fit_adj : graph -> list (list Q) -> list (list Q) -> out R)
    (nb : dict_arg (list Z)) (attr sp : dict_arg (value Q)) : out R :=
  match nb with
  | NotDict => Raise (ValueError "The neighbors_dict argument must be dict.")
  | IsDict nb =>
      match attr with
      | IsDict attr =>
          if same_keys attr nb then
            match sp with
            | IsDict sp =>
                if same_keys sp nb then
                  let* adj := matrix_from_dict nb in
                  let* rows := array_from_dict_values attr None in
                  let* sp_rows := array_from_dict_values sp None in
                  fit_adj adj rows sp_rows
                else Raise (ValueError "not the same keys as neighbors_dict")
            | NotDict => Raise (ValueError "not the same keys as neighbors_dict")
            end
          else Raise (ValueError "The attr argument has to be of type dict with the same keys as neighbors_dict.")
      | NotDict => Raise (ValueError "The attr argument has to be of type dict with the same keys as neighbors_dict.")
      end
  end.

(** max_p_regions/heuristics.py:243-302, max_p_regions/exact.py:283-342 *)
Definition maxp_fit_from_networkx (fit_adj : graph -> list (list Q) -> list (list Q) -> out R)
    (G : nxgraph) (attr sp : attr_arg) : out R :=
  let* adj := to_scipy_sparse_matrix G in
  let* rows := array_from_graph_or_dict G attr in
  let* sp_rows := array_from_graph_or_dict G sp in
  fit_adj adj rows sp_rows.
End FitFrom.
Arguments IsDict {V} d.
Arguments NotDict {V}.
