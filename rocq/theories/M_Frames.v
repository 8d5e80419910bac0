(** Model of the interfaces taking a libpysal [W] or a GeoDataFrame: [fit_from_w] and
    [fit_from_geodataframe] of every class, [w_from_gdf] and [scipy_sparse_matrix_from_w] of
    region/util.py, and PRegionsExact.fit_from_networkx. *)
From Verif Require Import Base Spec M_Graph M_Util M_Objective M_Azp M_Convert.
From Coq Require Import Ascii.

(** A libpysal W, as far as util.py:125-150 reads it: the areas in the order of [w.id_order] and the
    neighbours (with non-zero weight) of each of them. *)
Record wobj := mkW { w_ids : list Z; w_neighbors : Z -> list Z }.

(** util.py:125-150: [w.sparse].  Rows and columns in the order of the areas; KeyError if a neighbour
    is not an area. *)
Definition scipy_sparse_matrix_from_w (w : wobj) : out graph :=
  if forallb (fun i => forallb (fun j => membZ j (w_ids w)) (w_neighbors w i)) (w_ids w)
  then Ok (mkG (length (w_ids w))
               (fun i j => Nat.ltb i (length (w_ids w)) && Nat.ltb j (length (w_ids w)) &&
                           membZ (nth j (w_ids w) 0%Z) (w_neighbors w (nth i (w_ids w) 0%Z))))
  else Raise KeyError.

(** [str.lower] on a character (util.py:355, 361); only ASCII characters are modelled. *)
Definition lower_char (c : ascii) : ascii :=
  let n := nat_of_ascii c in if Nat.leb 65 n && Nat.leb n 90 then ascii_of_nat (n + 32) else c.
(** [contiguity.lower()], util.py:355, 361 *)
Fixpoint lower (s : string) : string :=
  match s with EmptyString => EmptyString | String c s' => String (lower_char c) (lower s') end.

(** A GeoDataFrame (argument of util.py:339): a DataFrame and one geometry per row. *)
Record geoframe (G : Type) := mkGeo { gf_frame : frame; gf_shapes : list G }.
Arguments mkGeo {G}.
Arguments gf_frame {G}.
Arguments gf_shapes {G}.

Section Frames.
Variable G : Type.
(** [weights.Rook.from_dataframe] and [weights.Queen.from_dataframe] of libpysal (util.py:362, 364):
    any function of the index and the geometries, possibly raising. *)
Variables rook queen : list Z -> list G -> out wobj.

(** util.py:339-365; [None] stands for a contiguity argument that is not a string *)
Definition w_from_gdf (gdf : geoframe G) (contiguity : option string) : out wobj :=
  match contiguity with
  | Some s => if String.eqb (lower s) "rook" then rook (f_index (gf_frame gdf)) (gf_shapes gdf)
              else if String.eqb (lower s) "queen" then queen (f_index (gf_frame gdf)) (gf_shapes gdf)
              else Raise (ValueError "The contiguity argument must be rook or queen")
  | None => Raise (ValueError "The contiguity argument must be rook or queen")
  end.

Variable R : Type.

(** azp.py:116-148, 664-699 *)
Definition azp_fit_from_w (fit_adj : graph -> list (list Q) -> option (list Z) -> out R)
    (w : wobj) (attr : list (list Q)) (initial : option (list Z)) : out R :=
  let* adj := scipy_sparse_matrix_from_w w in fit_adj adj attr initial.
(** azp.py:200-238, 460-501 *)
Definition azp_fit_from_gdf (fit_adj : graph -> list (list Q) -> option (list Z) -> out R)
    (gdf : geoframe G) (attr : col_arg) (contiguity : option string) (initial : option (list Z)) : out R :=
  let* w := w_from_gdf gdf contiguity in
  let* rows := array_from_df_col (gf_frame gdf) attr in
  azp_fit_from_w fit_adj w rows initial.

(** p_regions/exact.py:256-288 *)
Definition pexact_fit_from_w (fit_adj : graph -> list (list Q) -> out R) (w : wobj) (attr : list (list Q)) : out R :=
  let* adj := scipy_sparse_matrix_from_w w in fit_adj adj attr.
(** p_regions/exact.py:167-209 *)
Definition pexact_fit_from_gdf (fit_adj : graph -> list (list Q) -> out R)
    (gdf : geoframe G) (attr : col_arg) (contiguity : option string) : out R :=
  let* w := w_from_gdf gdf contiguity in
  let* rows := array_from_df_col (gf_frame gdf) attr in
  pexact_fit_from_w fit_adj w rows.
(** p_regions/exact.py:211-254 *)
Definition pexact_fit_from_networkx (fit_adj : graph -> list (list Q) -> out R) (N : nxgraph) (attr : attr_arg) : out R :=
  let* adj := to_scipy_sparse_matrix N in
  let* rows := array_from_graph_or_dict N attr in
  fit_adj adj rows.

(** max_p_regions/heuristics.py:304-339, max_p_regions/exact.py:344-380 *)
Definition maxp_fit_from_w (fit_adj : graph -> list (list Q) -> list (list Q) -> out R)
    (w : wobj) (attr sp : list (list Q)) : out R :=
  let* adj := scipy_sparse_matrix_from_w w in fit_adj adj attr sp.
(** max_p_regions/heuristics.py:193-241, max_p_regions/exact.py:233-281 *)
Definition maxp_fit_from_gdf (fit_adj : graph -> list (list Q) -> list (list Q) -> out R)
    (gdf : geoframe G) (attr sp : col_arg) (contiguity : option string) : out R :=
  let* w := w_from_gdf gdf contiguity in
  let* rows := array_from_df_col (gf_frame gdf) attr in
  let* sp_rows := array_from_df_col (gf_frame gdf) sp in
  maxp_fit_from_w fit_adj w rows sp_rows.
End Frames.
