(** Model of region/max_p_regions/heuristics.py and of array_from_region_list (region/util.py).
    Not modelled: the conversions in fit_from_dict / _geodataframe / _networkx / _w (see M_Convert),
    the unused [verbose] argument.  One-dimensional attribute arrays are one-column arrays, a
    threshold that is a number is an array with one entry (see [compared] in M_Azp). *)
From Verif Require Import Base Spec M_Graph M_Util M_Objective M_Azp M_Sa.

(** util.py:286-287, the loop over the areas of one region; writing past the end of the array
    (which has as many entries as areas are listed) raises IndexError *)
Fixpoint write_region (labels : list Z) (idx : Z) (region : list nat) : out (list Z) :=
  match region with
  | [] => Ok labels
  | a :: region' => if Nat.ltb a (length labels) then write_region (upd labels a idx) idx region'
                    else Raise IndexError
  end.
(** util.py:285-287, the loop over [enumerate(region_list)] from [region_idx = idx] *)
Fixpoint write_regions (labels : list Z) (idx : Z) (regions : list (list nat)) : out (list Z) :=
  match regions with
  | [] => Ok labels
  | region :: regions' => let* labels' := write_region labels idx region in
                          write_regions labels' (idx + 1)%Z regions'
  end.
(** util.py:283-288 *)
Definition array_from_region_list (regions : list (list nat)) : out (list Z) :=
  write_regions (repeat 0%Z (length (concat regions))) 0%Z regions.

(** [min(...)] of a non-empty collection, heuristics.py:438 and 515 *)
Definition minQ (l : list Q) : Q :=
  match l with
  | [] => 0%Q
  | x :: t => fold_left (fun m y => if Qltb y m then y else m) t x
  end.
(** the keys with minimal value, heuristics.py:436-439 and 516-519 *)
Definition best_keys (f : nat -> Q) (keys : list nat) : list nat :=
  filter (fun k => Qeq_bool (f k) (minQ (map f keys))) keys.

Section Heuristic.
(** [self.metric] *)
Variable d : list Q -> list Q -> Q.
Variable g : graph.
Variable attr : list (list Q).
Variable sp : list (list Q).
Variable threshold : list Q.

(** the sums in heuristics.py:430-435 and 509-514 *)
Definition dissimilarity (area : nat) (region : list nat) : Q :=
  sumQ (map (fun area2 => d (row attr area) (row attr area2)) region).

(** heuristics.py:412-440.  The candidates are a set; any enumeration order gives the same
    possible choices. *)
Definition find_best_area (region candidates : list nat) (r : rng) : out (nat * rng) :=
  random_element_from (best_keys (fun a => dissimilarity a region) candidates) r.

(** [for area in region: assigned_areas.remove(area)], heuristics.py:405-406 *)
Fixpoint remove_all (region assigned : list nat) : out (list nat) :=
  match region with
  | [] => Ok assigned
  | a :: region' => match remove_first a assigned with
                    | Some assigned' => remove_all region' assigned'
                    | None => Raise (ValueError "list.remove(x): x not in list")
                    end
  end.

(** heuristics.py:387-407: the inner [while]; the value is ([Some region] if feasible, else [None],
    the region, unassigned_areas, assigned_areas).  [fuel]: every round assigns an area. *)
Fixpoint grow_region (fuel : nat) (region neighs : list nat) (spat_ext : list Q) (unassigned assigned : list nat) (r : rng)
  : out (bool * list nat * list nat * list nat * rng) :=
  if reaches spat_ext threshold then Ok (true, region, unassigned, assigned, r)
  else match fuel with
  | 0 => NoFuel
  | S fuel' =>
      match neighs with
      | [] => let* assigned' := remove_all region assigned in
              Ok (false, region, unassigned, assigned', r)
      | _ :: _ =>
          let* '(neigh, r1) := find_best_area region neighs r in
          let region' := set_add neigh region in
          let neighs' := set_diff (set_union (set_discard neigh neighs) (neighbors g neigh)) assigned in
          let spat_ext' := add_rows spat_ext (row sp neigh) in
          match remove_first neigh unassigned with
          | None => Raise (ValueError "list.remove(x): x not in list")
          | Some unassigned' => grow_region fuel' region' neighs' spat_ext' unassigned' (assigned ++ [neigh]) r1
          end
      end
  end.

(** heuristics.py:376-410: the outer [while]; [fuel] bounds the number of unassigned areas *)
Fixpoint grow_loop (fuel : nat) (partition : list (list nat)) (enclaves unassigned assigned : list nat) (r : rng)
  : out (list (list nat) * list nat * rng) :=
  match unassigned, fuel with
  | [], _ => Ok (partition, enclaves, r)
  | _ :: _, 0 => NoFuel
  | _ :: _, S fuel' =>
      let* '(area, unassigned1, r1) := pop_randomly_from unassigned r in
      let assigned1 := assigned ++ [area] in
      if reaches (row sp area) threshold
      then grow_loop fuel' (partition ++ [[area]]) enclaves unassigned1 assigned1 r1
      else
        let* '(feasible, region, unassigned2, assigned2, r2) :=
          grow_region (S (length unassigned1)) [area] (set_diff (neighbors g area) assigned1) (row sp area)
                      unassigned1 assigned1 r1 in
        if feasible : bool
        then grow_loop fuel' (partition ++ [region]) enclaves unassigned2 assigned2 r2
        else grow_loop fuel' partition (enclaves ++ region) unassigned2 assigned2 r2
  end.

(** heuristics.py:345-410 *)
Definition grow_regions (r : rng) : out (list (list nat) * list nat * rng) :=
  grow_loop (gn g) [] [] (seq 0 (gn g)) [] r.

(** heuristics.py:486-520.  A dict comprehension over the candidate indices: duplicates collapse;
    [min] of an empty dict raises ValueError. *)
Definition find_best_region_idx (area : nat) (partition : list (list nat)) (candidates : list nat) (r : rng)
  : out (nat * rng) :=
  match candidates with
  | [] => Raise (ValueError "min() arg is an empty sequence")
  | _ => random_element_from
           (best_keys (fun k => dissimilarity area (nth k partition [])) (set_union [] candidates)) r
  end.

(** heuristics.py:473-479: indices of the regions next to [area], LookupError ignored *)
Definition neigh_regions_idx (area : nat) (partition : list (list nat)) : list nat :=
  flat_map (fun neigh => match find_sublist_index neigh partition with Ok k => [k] | _ => [] end) (neighbors g area).

(** [partition[region_idx].add(area)], heuristics.py:482 *)
Definition add_to_region (partition : list (list nat)) (k area : nat) : list (list nat) :=
  upd partition k (set_add area (nth k partition [])).

(** heuristics.py:467-484; [fuel] bounds the number of enclaves *)
Fixpoint assign_loop (fuel : nat) (partition : list (list nat)) (enclaves : list nat) (r : rng)
  : out (list (list nat) * rng) :=
  match enclaves, fuel with
  | [], _ => Ok (partition, r)
  | _ :: _, 0 => NoFuel
  | _ :: _, S fuel' =>
      let neighbors_of_assigned :=
        filter (fun area => existsb (fun neigh => negb (memb neigh enclaves)) (neighbors g area)) enclaves in
      let* '(area, _, r1) := pop_randomly_from neighbors_of_assigned r in
      let* '(k, r2) := find_best_region_idx area partition (neigh_regions_idx area partition) r1 in
      match remove_first area enclaves with
      | None => Raise (ValueError "list.remove(x): x not in list")
      | Some enclaves' => assign_loop fuel' (add_to_region partition k area) enclaves' r2
      end
  end.
(** heuristics.py:442-484 *)
Definition assign_enclaves (partition : list (list nat)) (enclaves : list nat) (r : rng) : out (list (list nat) * rng) :=
  assign_loop (length enclaves) partition enclaves r.

(** heuristics.py:81-97, construction phase: [best] is partitions_before_enclaves_assignment *)
Fixpoint construct (max_it : nat) (max_p : nat) (best : list (list (list nat) * list nat)) (r : rng)
  : out (nat * list (list (list nat) * list nat) * rng) :=
  match max_it with
  | 0 => Ok (max_p, best, r)
  | S k =>
      let* '(partition, enclaves, r1) := grow_regions r in
      let n_regions := length partition in
      if Nat.ltb max_p n_regions then construct k n_regions [(partition, enclaves)] r1
      else if Nat.eqb n_regions max_p then construct k max_p (best ++ [(partition, enclaves)]) r1
      else construct k max_p best r1
  end.

(** heuristics.py:99-101 *)
Fixpoint assign_each (parts : list (list (list nat) * list nat)) (r : rng) : out (list (list (list nat)) * rng) :=
  match parts with
  | [] => Ok ([], r)
  | (partition, enclaves) :: parts' =>
      let* '(p, r1) := assign_enclaves partition enclaves r in
      let* '(ps, r2) := assign_each parts' r1 in
      Ok (p :: ps, r2)
  end.
End Heuristic.

(** ** Local search phase: heuristics.py:103-123 *)
Section Search.
(** [LS]: the local search object; [wrap]: decorating its strategy (lines 108-110);
    [ls_fit]: its fit_from_scipy_sparse_matrix with n_regions = max_p, returning labels_ *)
Variable LS : Type.
Variable wrap : LS -> LS.
Variable ls_fit : LS -> Z -> list Z -> rng -> out (option (list Z) * LS * rng).
Variable obj : objfun.
Variable attr : list (list Q).

(** [best_obj_value] ([None] = infinity) with [best_partition] (heuristics.py:81-82, 120-122) *)
Definition best := option (Q * list Z).

(** heuristics.py:111-122 *)
Fixpoint search_all (max_p : nat) (parts : list (list (list nat))) (ls : LS) (b : best) (r : rng) : out (LS * best * rng) :=
  match parts with
  | [] => Ok (ls, b, r)
  | partition :: parts' =>
      let* initial := array_from_region_list partition in
      let* '(labels, ls', r1) := ls_fit ls (Z.of_nat max_p) initial r in
      match labels with
      | None => Raise (TypeError "'NoneType' object is not iterable")
      | Some l =>
          let* v := o_call obj l attr in
          let better := match b with None => true | Some (w, _) => Qltb v w end in
          search_all max_p parts' ls' (if better then Some (v, l) else b) r1
      end
  end.

(** heuristics.py:103-123: the same search is repeated once per feasible partition, each time with
    one more wrapper *)
Fixpoint search_rounds (k : nat) (max_p : nat) (parts : list (list (list nat))) (ls : LS) (b : best) (r : rng)
  : out (LS * best * rng) :=
  match k with
  | 0 => Ok (ls, b, r)
  | S k' => let* '(ls', b', r') := search_all max_p parts (wrap ls) b r in
            search_rounds k' max_p parts ls' b' r'
  end.

(** heuristics.py:39-123.  [self.local_search] is [ls] or, if None, made by [new] (lines 106-107) at
    the first feasible partition; [new] may reseed the generator.  The value is [labels_] ([labels0]
    is its value before the call) with the local search object afterwards. *)
Definition maxp_fit (new : rng -> LS * rng) (d : list Q -> list Q -> Q) (g : graph) (sp : list (list Q)) (threshold : list Q) (max_it : nat)
    (labels0 : option (list Z)) (ls : option LS) (r : rng)
  : out (option (list Z) * option LS * rng) :=
  let* '(max_p, before, r1) := construct d g attr sp threshold max_it 0 [] r in
  let* '(parts, r2) := assign_each d g attr before r1 in
  match parts with
  | [] => Ok (labels0, ls, r2)
  | _ :: _ =>
      let '(ls0, r3) := match ls with Some l => (l, r2) | None => new r2 end in
      let* '(ls', b, r4) := search_rounds (length parts) max_p parts ls0 None r3 in
      Ok (option_map snd b, Some ls', r4)
  end.
End Search.

(** The attributes of a strategy nobody has started yet (before azp_util.py:31-33 ran). *)
Definition unstarted : common := mkCommon [] (mkObj (fun _ _ => NoFuel) (fun _ _ _ _ => NoFuel)) 0%Q.

(** heuristics.py:108-110 with azp_util.py:158-174 *)
Definition maxp_wrap (sp : list (list Q)) (threshold : list Q) (s : strategy) : strategy :=
  SMaxP unstarted sp [] threshold s.

(** AZP as local search (the default: heuristics.py:106-107).  [entropy]: the generator after
    random.seed(None) in AZP.__init__ (azp.py:46). *)
Definition maxp_azp_fit (expf : Q -> Q) (order : list edge -> list edge) (obj : objfun) (d : list Q -> list Q -> Q) (fuel : nat)
    (g : graph) (attr sp : list (list Q)) (threshold : list Q) (max_it : nat) (entropy : rng)
    (labels0 : option (list Z)) (ls : option strategy) (r : rng) :=
  maxp_fit strategy (maxp_wrap sp threshold)
    (fun s p l r => let* '((labels, s'), r') := azp_fit expf order obj fuel g attr p (Some l) s r in
                    Ok (Some labels, s', r'))
    obj attr (fun _ => (SAzp unstarted, entropy)) d g sp threshold max_it labels0 ls r.

(** AZPSimulatedAnnealing as local search: fit replaces [allow_move_strategy] by a new
    AllowMoveAZPSimulatedAnnealing (azp.py:620-622), so the wrapper is lost; what the object
    keeps is its memory. *)
Definition maxp_sa_fit (expf : Q -> Q) (order : list edge -> list edge) (obj : objfun) (d : list Q -> list Q -> Q) (azp_fuel fuel : nat)
    (cooling : Q) (args : sa_args) (g : graph) (attr sp : list (list Q)) (threshold : list Q) (max_it : nat)
    (labels0 : option (list Z)) (mem : sa_memory) (r : rng) :=
  maxp_fit sa_memory (fun m => m)
    (fun m p l r => sa_fit expf order obj azp_fuel g attr p fuel cooling (Some l) args m r)
    obj attr (fun r => (mem, r)) d g sp threshold max_it labels0 (Some mem) r.
