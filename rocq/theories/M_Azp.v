(** Model of region/p_regions/azp_util.py and of the AZP class of region/p_regions/azp.py. *)
From Verif Require Import Base Spec M_Graph M_Util M_Objective.

(** ** Allow-move strategies: azp_util.py *)

(** attributes set by [start_new_component], azp_util.py:31-33 (before the first call they do not
    exist in Python; the model starts with dummies) *)
Record common := mkCommon { c_attr : list (list Q); c_obj : objfun; c_val : Q }.

(** The three strategy classes.  For simulated annealing [reached] and [moved] are what the
    registered observers record (azp.py:689-693 via azp_util.py:106-137). *)
Inductive strategy :=
| SAzp (c : common)
| SSa (c : common) (t : Q) (sa term : nat) (reached moved : bool)
| SMaxP (c : common) (sp_all sp : list (list Q)) (threshold : list Q) (inner : strategy).

(** the [objective_val] attribute of the object itself (set in azp_util.py:33, 66, 90, 102; read in azp.py:320, 393) *)
Definition strat_val (s : strategy) : Q :=
  match s with SAzp c => c_val c | SSa c _ _ _ _ _ => c_val c | SMaxP c _ _ _ _ => c_val c end.

(** azp_util.py:10-33 *)
Definition start_common (labels : list Z) (attr : list (list Q)) (obj : objfun) : out common :=
  let* v := o_call obj labels attr in Ok (mkCommon attr obj v).

(** azp_util.py:10-33 and 176-183 *)
Fixpoint strat_start (obj : objfun) (s : strategy) (labels : list Z) (attr : list (list Q)) (comp_idx : list nat)
  : out strategy :=
  match s with
  | SAzp _ => let* c := start_common labels attr obj in Ok (SAzp c)
  | SSa _ t sa term reached moved =>
      let* c := start_common labels attr obj in Ok (SSa c t sa term reached moved)
  | SMaxP _ sp_all _ thr inner =>
      let* c := start_common labels attr obj in
      let* inner' := strat_start obj inner labels attr comp_idx in
      Ok (SMaxP c sp_all (map (row sp_all) comp_idx) thr inner')
  end.

(** azp_util.py:61-70 *)
Definition azp_call (c : common) (a : nat) (r : Z) (labels : list Z) : out (bool * common) :=
  let* diff := o_update (c_obj c) a r labels (c_attr c) in
  if Qle_bool diff 0 then Ok (true, mkCommon (c_attr c) (c_obj c) (c_val c + diff)%Q)
  else Ok (false, c).

(** [random.random()], azp_util.py:96: a multiple of 2^-53 in [0, 1) *)
Definition random_random (r : rng) : Q * rng :=
  ((Z.of_nat (r 0) mod 2 ^ 53) # (2 ^ 53), rnext r).

(** azp_util.py:188-202 on one area; sums of rows, compared componentwise with the threshold.
    [.any() > 0] is "some component is non-zero"; [.any() < 0] never holds. *)
Definition any_nonzero (x : list Q) : bool := existsb (fun q => negb (Qeq_bool q 0)) x.
(** azp_util.py:191: subtraction of two rows *)
Definition sub_rows (x y : list Q) : list Q := map (fun p => (fst p - snd p)%Q) (combine x y).
(** azp_util.py:191: column sums *)
Definition sum_rows (rows : list (list Q)) : list Q := fold_right add_rows [] rows.
(** the pairs compared by numpy in [x >= threshold] (azp_util.py:192, heuristics.py:379, 387): a threshold that is a number or has one
    entry is compared with every entry of [x], a single amount with every threshold; otherwise entry by entry (other shapes,
    which numpy refuses, are not modelled) *)
Definition compared (x threshold : list Q) : list (Q * Q) :=
  match x, threshold with
  | _, [t] => map (fun v => (v, t)) x
  | [v], _ => map (fun t => (v, t)) threshold
  | _, _ => combine x threshold
  end.
(** azp_util.py:192: comparison, then [.all()] *)
Definition reaches (x threshold : list Q) : bool :=
  forallb (fun p => Qle_bool (snd p) (fst p)) (compared x threshold).
(** azp_util.py:188-202: the donor keeps the threshold without the moving area *)
Definition donor_ok (sp : list (list Q)) (threshold : list Q) (a : nat) (labels : list Z) : bool :=
  if any_nonzero (row sp a)
  then reaches (sub_rows (sum_rows (rows_of labels (lab labels a) sp)) (row sp a)) threshold
  else true.

Section Strategy.
(** [math.exp] *)
Variable expf : Q -> Q.

(** azp_util.py:86-104.  A temperature of 0 makes numpy compute exp(-inf) = 0. *)
Definition sa_prob (diff t : Q) : Q := if Qeq_bool t 0 then 0%Q else expf (- diff / t)%Q.
(** azp_util.py:86-104 *)
Definition sa_call (c : common) (t : Q) (sa term : nat) (reached moved : bool)
    (a : nat) (r : Z) (labels : list Z) (rg : rng) : out (bool * strategy * rng) :=
  let* diff := o_update (c_obj c) a r labels (c_attr c) in
  let c' := mkCommon (c_attr c) (c_obj c) (c_val c + diff)%Q in
  if Qle_bool diff 0 then Ok (true, SSa c' t sa term reached true, rg)
  else let '(u, rg') := random_random rg in
       if Qltb u (sa_prob diff t)
       then Ok (true, SSa c' t (S sa) term (reached || Nat.leb term (S sa)) true, rg')
       else Ok (false, SSa c t sa term reached moved, rg').

(** [strategy(moving_area, new_region, labels)]: azp_util.py:62-70, 86-104, 185-204 *)
Fixpoint strat_call (s : strategy) (a : nat) (r : Z) (labels : list Z) (rg : rng)
  : out (bool * strategy * rng) :=
  match s with
  | SAzp c => let* '(b, c') := azp_call c a r labels in Ok (b, SAzp c', rg)
  | SSa c t sa term reached moved => sa_call c t sa term reached moved a r labels rg
  | SMaxP c sp_all sp thr inner =>
      if donor_ok sp thr a labels
      then let* '(b, inner', rg') := strat_call inner a r labels rg in
           Ok (b, SMaxP c sp_all sp thr inner', rg')
      else Ok (false, s, rg)
  end.
End Strategy.

(** ** AZP on one connected component: azp.py:284-394 *)

(** [region_neighbors[recipient]], azp.py:347; [region_neighbors] is an insertion-ordered dict (azp.py:322) *)
Definition dget (d : list (Z * list nat)) (k : Z) : out (list nat) :=
  match find (fun kv => Z.eqb (fst kv) k) d with Some kv => Ok (snd kv) | None => Raise KeyError end.
(** in-place updates of the sets in [region_neighbors], azp.py:370-388 *)
Definition dmodify (d : list (Z * list nat)) (k : Z) (f : list nat -> list nat) : list (Z * list nat) :=
  map (fun kv => if Z.eqb (fst kv) k then (fst kv, f (snd kv)) else kv) d.

Section Azp.
(** any strategy object: its [__call__] and its [objective_val] *)
Variable St : Type.
Variable call : St -> nat -> Z -> list Z -> rng -> out (bool * St * rng).
Variable objv : St -> Q.
Variable g : graph.

(** azp.py:322-328, for one region *)
Definition region_neighbors_of (labels : list Z) (r : Z) : list nat :=
  let region_areas := where_eq labels r in
  set_diff (fold_left (fun acc a => set_union acc (neighbors g a)) region_areas []) region_areas.
(** azp.py:322-328: one entry per value of np.unique (azp.py:311) *)
Definition init_region_neighbors (labels : list Z) : list (Z * list nat) :=
  map (fun r => (r, region_neighbors_of labels r)) (uniqueZ labels).

(** azp.py:346-356.  Python enumerates the set in hash order; every order of the candidates is
    covered because the next choice among them is an arbitrary draw. *)
Definition is_candidate (labels : list Z) (neigh : nat) : bool :=
  let neigh_region := lab labels neigh in
  is_connected (sub_adj_matrix g (where_eq labels neigh_region) [neigh])
  && Nat.ltb 1 (count labels neigh_region).

(** azp.py:366-388: bookkeeping of an accepted move *)
Definition after_move (cand : nat) (recipient : Z) (labels : list Z) (rn : list (Z * list nat))
  : list Z * list (Z * list nat) :=
  let donor := lab labels cand in
  let labels' := make_move cand recipient labels in
  let neighs_of_cand := neighbors g cand in
  let rn1 := dmodify rn donor (set_add cand) in
  let rn2 := dmodify rn1 recipient (fun s =>
               set_diff (set_union (set_discard cand s) neighs_of_cand) (where_eq labels' recipient)) in
  let donor_areas := where_eq labels' donor in
  let gone := filter (fun area => negb (existsb (fun a => memb a donor_areas) (neighbors g area))) neighs_of_cand in
  (labels', dmodify rn2 donor (fun s => set_diff s gone)).

(** azp.py:363-391, the [while candidates] loop; [k] is the number of candidates left. The
    boolean tells whether the loop was left by [break] (a move was made). *)
Fixpoint try_candidates (k : nat) (cands : list nat) (recipient : Z) (labels : list Z)
    (rn : list (Z * list nat)) (s : St) (r : rng)
  : out (bool * list Z * list (Z * list nat) * St * rng) :=
  match cands, k with
  | [], _ => Ok (false, labels, rn, s, r)
  | _ :: _, 0 => NoFuel
  | _ :: _, S k' =>
      let* '(cand, cands', r1) := pop_randomly_from cands r in
      let* '(ok, s', r2) := call s cand recipient labels r1 in
      if ok then let '(labels', rn') := after_move cand recipient labels rn in
                 Ok (true, labels', rn', s', r2)
      else try_candidates k' cands' recipient labels rn s' r2
  end.

(** azp.py:341-391, [while True] for one recipient *)
Fixpoint grow_recipient (fuel : nat) (recipient : Z) (labels : list Z) (rn : list (Z * list nat)) (s : St) (r : rng)
  : out (list Z * list (Z * list nat) * St * rng) :=
  match fuel with
  | 0 => NoFuel
  | S fuel' =>
      let* ns := dget rn recipient in
      let cands := filter (is_candidate labels) ns in
      let* '(moved, labels', rn', s', r') := try_candidates (length cands) cands recipient labels rn s r in
      if moved then grow_recipient fuel' recipient labels' rn' s' r'
      else Ok (labels', rn', s', r')
  end.

(** azp.py:338-391, one pass over the regions; [k] is the number of regions left *)
Fixpoint azp_pass (fuel k : nat) (regions : list Z) (labels : list Z) (rn : list (Z * list nat)) (s : St) (r : rng)
  : out (list Z * list (Z * list nat) * St * rng) :=
  match regions, k with
  | [], _ => Ok (labels, rn, s, r)
  | _ :: _, 0 => NoFuel
  | _ :: _, S k' =>
      let* '(recipient, regions', r1) := pop_randomly_from regions r in
      let* '(labels', rn', s', r2) := grow_recipient fuel recipient labels rn s r1 in
      azp_pass fuel k' regions' labels' rn' s' r2
  end.

(** azp.py:332-393; [start] is [obj_val_start] ([None] = infinity) *)
Fixpoint azp_loop (fuel : nat) (start : option Q) (regions : list Z) (labels : list Z)
    (rn : list (Z * list nat)) (s : St) (r : rng) : out (list Z * St * rng) :=
  let continue := match start with None => true | Some v => Qltb (objv s) v end in
  if continue then
    match fuel with
    | 0 => NoFuel
    | S fuel' =>
        let v := objv s in
        let* '(labels', rn', s', r') := azp_pass fuel' (length regions) regions labels rn s r in
        azp_loop fuel' (Some v) regions labels' rn' s' r'
    end
  else Ok (labels, s, r).

(** azp.py:308-394.  With no region at all, [del neighs] (line 329) fails. *)
Definition azp_component (fuel : nat) (initial : list Z) (s : St) (r : rng) : out (list Z * St * rng) :=
  let regions := uniqueZ initial in
  match regions with
  | [] => Raise NameError
  | [_] => Ok (initial, s, r)
  | _ => azp_loop fuel None regions initial (init_region_neighbors initial) s r
  end.
End Azp.

(** ** Fitting: azp.py:58-110 *)

(** [labels[comp_idx] = ...], azp.py:107, for numpy arrays: shapes must agree or broadcast *)
Definition assign_idx (base : list Z) (idx : list nat) (vals : list Z) : out (list Z) :=
  if Nat.eqb (length vals) (length idx) then Ok (scatter base idx vals)
  else match vals with
       | [v] => Ok (scatter base idx (repeat v (length idx)))
       | _ => Raise (ValueError "shape mismatch")
       end.

Section Fit.
(** [S]: everything of the object the component procedure may read or change;
    [start] = [allow_move_strategy.start_new_component], [component] = [_azp_connected_component]. *)
Variable S : Type.
Variable start : S -> list Z -> list (list Q) -> list nat -> out S.
Variable component : graph -> list Z -> list (list Q) -> S -> rng -> out (list Z * S * rng).
Variable order : list edge -> list edge.
Variable g : graph.
Variable attr : list (list Q).

(** azp.py:97-107, body of the loop over components; [acc] is the array [labels] of line 96.
    A dict (see [YDict]) makes [labels_comp[comp_idx]] raise TypeError (unhashable array). *)
Definition fit_one (y : yielded) (acc : list Z * S) (r : rng) : out ((list Z * S) * rng) :=
  match y with
  | YDict _ => Raise (TypeError "unhashable type: 'numpy.ndarray'")
  | YArr arr =>
      let comp_idx := filter (fun a => negb (Z.eqb (lab arr a) (-1))) (seq 0 (length arr)) in
      let adj_comp := sub_adj_matrix g comp_idx [] in
      let labels_comp := gather (-1)%Z arr comp_idx in
      let attr_comp := map (row attr) comp_idx in
      let* s1 := start (snd acc) labels_comp attr_comp comp_idx in
      let* '(labels_comp', s2, r') := component adj_comp labels_comp attr_comp s1 r in
      let* labels := assign_idx (fst acc) comp_idx labels_comp' in
      Ok ((labels, s2), r')
  end.

(** azp.py:97-107 over what separate_components yields (azp.py:93) *)
Fixpoint fit_arrays (arrs : list (list Z)) (acc : list Z * S) (r : rng) : out ((list Z * S) * rng) :=
  match arrs with
  | [] => Ok (acc, r)
  | arr :: arrs' => let* '(acc', r') := fit_one (YArr arr) acc r in fit_arrays arrs' acc' r'
  end.

(** azp.py:58-110: the value is [labels_] with the final state of the object.  The mask [in_comp] (util.py:846-847)
    has one entry per area; numpy raises IndexError if [labels] has another number of entries. *)
Definition fit (n_regions : Z) (initial_labels : option (list Z)) (s : S) (r : rng)
  : out ((list Z * S) * rng) :=
  let acc := (minus_ones (gn g), s) in
  match initial_labels with
  | Some l =>
      let* _ := assert_feasible l g (Some n_regions) in
      if Nat.eqb (length l) (gn g) then fit_arrays (separate_components g l) acc r
      else Raise IndexError
  | None => generate_initial_sol order g n_regions fit_one acc r
  end.
End Fit.

(** [AZP(allow_move_strategy=...)].fit: azp.py:32-110 with azp_util.py *)
Definition azp_fit (expf : Q -> Q) (order : list edge -> list edge) (obj : objfun) (fuel : nat)
    (g : graph) (attr : list (list Q)) (n_regions : Z) (initial_labels : option (list Z))
    (s : strategy) (r : rng) : out ((list Z * strategy) * rng) :=
  fit strategy (strat_start obj)
      (fun adj labels _ s r => azp_component strategy (strat_call expf) strat_val adj fuel labels s r)
      order g attr n_regions initial_labels s r.

(** ** A user driving a strategy object directly (azp_util.py:36, 62, 86, 185): each accepted move
    is carried out with make_move (util.py:515-537), as azp.py:365-368 does *)
Fixpoint run_calls (expf : Q -> Q) (calls : list (nat * Z)) (s : strategy) (labels : list Z) (rg : rng)
  : out (list bool * strategy * list Z * rng) :=
  match calls with
  | [] => Ok ([], s, labels, rg)
  | (a, r) :: calls' =>
      let* '(b, s', rg') := strat_call expf s a r labels rg in
      let* '(bs, s'', labels', rg'') :=
         run_calls expf calls' s' (if b : bool then make_move a r labels else labels) rg' in
      Ok (b :: bs, s'', labels', rg'')
  end.
