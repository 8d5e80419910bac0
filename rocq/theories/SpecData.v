(** SpecData: vocabulary for properties about inputs in other forms, call histories and number formats.
    It refers to the data types of the model (dict values, W, networkx graphs, operations of a script), to none
    of its algorithms. *)
From Verif Require Import Base Spec M_Util M_Convert M_Frames M_Azp M_Skater M_Random M_Float.

(** ** dicts *)
(** The numbers a dict value stands for. *)
Definition value_list {A} (v : value A) : list A := match v with Scalar a => [a] | Iter l => l end.
(** Is the value a list (or another iterable)? *)
Definition is_iter {A} (v : value A) : bool := match v with Scalar _ => false | Iter _ => true end.
(** All values are scalars, or all are iterables with m elements. *)
Definition uniform {A} (d : dict (value A)) (m : nat) : Prop :=
  (exists b, forall k v, In (k, v) d -> is_iter v = b) /\
  forall k v, In (k, v) d -> length (value_list v) = m.
(** Every neighbour is itself an area. *)
Definition closed_dict (nb : dict (list Z)) : Prop :=
  forall i js j, In (i, js) nb -> In j js -> In j (keys nb).
(** Area [i] has [j] among its neighbours. *)
Definition lists (nb : dict (list Z)) (i j : Z) : Prop := exists js, In (i, js) nb /\ In j js.
(** The attribute names asked for, if attributes are asked for by name. *)
Definition names_of (a : attr_arg) : option (list string) :=
  match a with ByName s => Some [s] | ByNames l => Some l | _ => None end.
(** ** the ways of giving the data of named areas *)
(** Areas [names], neighbours [nbr], attributes [val]; for a dict of neighbours: *)
Definition dict_lists (names : list Z) (nbr : Z -> Z -> bool) (nb : dict (list Z)) : Prop :=
  Permutation (keys nb) names /\
  forall i js, In (i, js) nb -> forall j, In j js <-> In j names /\ nbr i j = true.
(** a dict of numbers or of iterables of numbers *)
Definition dict_gives {A} (names : list Z) (val : Z -> list A) (d : dict (value A)) : Prop :=
  Permutation (keys d) names /\ (exists b, forall k v, In (k, v) d -> is_iter v = b) /\
  forall k v, In (k, v) d -> value_list v = val k.
(** a W *)
Definition w_lists (names : list Z) (nbr : Z -> Z -> bool) (w : wobj) : Prop :=
  Permutation (w_ids w) names /\
  forall i, In i names -> forall j, In j (w_neighbors w i) <-> In j names /\ nbr i j = true.
(** a networkx graph with the nodes inserted in increasing order *)
Definition nx_lists (names : list Z) (nbr : Z -> Z -> bool) (N : nxgraph) : Prop :=
  Permutation (nx_nodes N) names /\ StronglySorted Z.lt (nx_nodes N) /\
  forall i j, In i names -> In j names -> nx_edge N i j = nbr i j.
(** node attributes *)
Definition nx_gives (names : list Z) (val : Z -> list Q) (N : nxgraph) (a : attr_arg) : Prop :=
  (exists d, a = ByDict d /\ dict_gives names val d /\ exists m, forall k, In k names -> length (val k) = m) \/
  exists l, (a = ByNames l \/ exists s, a = ByName s /\ l = [s]) /\
    forall k, In k names -> map Some (val k) = map (fun s => nx_attr N s k) l.
(** ** others *)
(** No negative distance between two areas. *)
Definition nonneg_below (n : nat) (d : nat -> nat -> Q) : Prop := forall i j, (i < j < n)%nat -> (0 <= d i j)%Q.
(** The attributes Spanning_Forest works with: those given, or else the same number for every area. *)
Definition fit_data (g : graph) (data : option (list (list Q))) : list (list Q) :=
  match data with Some d => d | None => ones (gn g) 1 end.
(** Two strategy objects alike up to the unit of the objective: the same classes with the same parameters,
    temperatures in the ratio of the units; thresholds and amounts alike up to their units.  (The values they hold are replaced when a component is started.) *)
Inductive alike (c : Q) : strategy -> strategy -> Prop :=
| alike_azp : forall m m', alike c (SAzp m) (SAzp m')
| alike_sa : forall m m' t t' k term reached moved, (t' == c * t)%Q ->
    alike c (SSa m t k term reached moved) (SSa m' t' k term reached moved)
| alike_maxp : forall m m' sp_all sp_all' sp sp' thr thr' s s', same_amounts sp_all sp_all' thr thr' -> alike c s s' ->
    alike c (SMaxP m sp_all sp thr s) (SMaxP m' sp_all' sp' thr' s').
(** every object gets a random_state, every MaxPRegionsHeu a local search *)
Definition op_seeded (o : op) : bool :=
  match o with
  | NewAzp None | NewSa None _ | NewBasic _ _ None | NewReactive _ _ _ None | NewMaxP None _ | NewMaxP _ None => false
  | _ => true
  end.
(** the operation fits object i or hands it to a MaxPRegionsHeu object *)
Definition uses (i : nat) (o : op) : bool :=
  match o with
  | NewMaxP (Some j) _ => Nat.eqb i j
  | FitAzp j _ _ _ _ | FitSa j _ _ _ _ _ | FitMaxP j _ _ _ _ _ => Nat.eqb i j
  | _ => false
  end.
(** some MaxPRegionsHeu object searches with object i *)
Definition refers (i : nat) (o : object) : bool :=
  match o with ObjMaxP _ (Some j) _ => Nat.eqb i j | _ => false end.
(** strategies built from AllowMoveAZP and wrappers only *)
Fixpoint azp_inside (s : strategy) : Prop :=
  match s with SAzp _ => True | SSa _ _ _ _ _ _ => False | SMaxP _ _ _ _ inner => azp_inside inner end.
(** The finite float64 numbers: 53 bits times a power of two, not below 2^-1074. *)
Definition is_float (q : Q) : Prop :=
  (exists n e, (q == inject_Z n * pow2 e)%Q /\ (Z.abs n <= 2 ^ 53)%Z /\ (-1074 <= e)%Z) /\ (Qabs.Qabs q <= max_float)%Q.

(** Distances among the areas [isl], renumbered 0, 1, ... in this order. *)
Definition within (d : nat -> nat -> Q) (isl : list nat) (i j : nat) : Q := d (nth i isl 0%nat) (nth j isl 0%nat).
(** [isls] lists the islands, each once *)
Definition islands_of (g : graph) (isls : list (list nat)) : Prop :=
  NoDup isls /\ forall isl, In isl isls <-> exists v, (v < gn g)%nat /\ island g v isl.
(** a labelling of [g] in which every region is contiguous and reaches the thresholds, with as many regions as possible
    and the lowest heterogeneity among those *)
Definition best_maxp (g : graph) (d : nat -> nat -> Q) (sp : list (list Q)) (thr : list Q) (labels : list Z) : Prop :=
  feasible g labels (n_labels labels) /\ (forall z, In z labels -> meets sp thr labels z) /\
  forall l p, feasible g l p -> (forall z, In z l -> meets sp thr l z) ->
    (p <= n_labels labels)%nat /\ (p = n_labels labels -> (heterogeneity d labels <= heterogeneity d l)%Q).
