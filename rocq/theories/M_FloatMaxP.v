(** MaxPRegionsHeu with AZP as local search when the arithmetic rounds: the functions of M_MaxP.v and M_Azp.v in which
    numbers are added or subtracted, computing with the operations of [arith] (M_Float.v).  The comparisons, the draws
    and everything without arithmetic are as in those files. *)
From Verif Require Import Base Spec M_Graph M_Util M_Objective M_Azp M_MaxP M_Float.

(** rows of spatially extensive attributes: [+=] of heuristics.py:395, the additions in [sum] of azp_util.py:191
    ([sum] starts from 0; adding 0 to the first row gives the row) *)
Fixpoint fadd_rows (A : arith) (x y : list Q) : list Q :=
  match x, y with
  | a :: x', b :: y' => ar_add A a b :: fadd_rows A x' y'
  | [], _ => y
  | _, [] => x
  end.
(** azp_util.py:191: [sum(sp_ext[donor_idx])], left to right *)
Definition fsum_rows (A : arith) (rows : list (list Q)) : list Q := fold_left (fadd_rows A) rows [].
(** azp_util.py:191: the subtraction *)
Definition fsub_rows (A : arith) (x y : list Q) : list Q := map (fun p => ar_sub A (fst p) (snd p)) (combine x y).
(** azp_util.py:188-202, as [donor_ok] *)
Definition fdonor_ok (A : arith) (sp : list (list Q)) (threshold : list Q) (a : nat) (labels : list Z) : bool :=
  if any_nonzero (row sp a)
  then reaches (fsub_rows A (fsum_rows A (rows_of labels (lab labels a) sp)) (row sp a)) threshold
  else true.

(** The strategies of azp_util.py:61-70 and 147-204 *)
Inductive fstrategy :=
| FAzp (c : common)
| FMaxP (c : common) (sp_all sp : list (list Q)) (threshold : list Q) (inner : fstrategy).
(** the [objective_val] attribute of the object itself (azp_util.py:33, 66; read in azp.py:320, 393) *)
Definition fstrat_val (s : fstrategy) : Q := match s with FAzp c => c_val c | FMaxP c _ _ _ _ => c_val c end.
(** azp_util.py:10-33 and 176-183 *)
Fixpoint fstrat_start (obj : objfun) (s : fstrategy) (labels : list Z) (attr : list (list Q)) (comp_idx : list nat)
  : out fstrategy :=
  match s with
  | FAzp _ => let* c := start_common labels attr obj in Ok (FAzp c)
  | FMaxP _ sp_all _ thr inner =>
      let* c := start_common labels attr obj in
      let* inner' := fstrat_start obj inner labels attr comp_idx in
      Ok (FMaxP c sp_all (map (row sp_all) comp_idx) thr inner')
  end.
(** [strategy(moving_area, new_region, labels)]: azp_util.py:62-70, 185-204; [B] computes with the spatially extensive attributes, [A] with the
    objective *)
Fixpoint fstrat_call (B A : arith) (s : fstrategy) (a : nat) (r : Z) (labels : list Z) (rg : rng)
  : out (bool * fstrategy * rng) :=
  match s with
  | FAzp c => let* '(b, c', rg') := fcall (ar_add A) c a r labels rg in Ok (b, FAzp c', rg')
  | FMaxP c sp_all sp thr inner =>
      if fdonor_ok B sp thr a labels
      then let* '(b, inner', rg') := fstrat_call B A inner a r labels rg in
           Ok (b, FMaxP c sp_all sp thr inner', rg')
      else Ok (false, s, rg)
  end.
(** [AZP.fit_from_scipy_sparse_matrix], azp.py:49-110, with any of these strategies *)
Definition fstrat_fit (B A : arith) (order : list edge -> list edge) (obj : objfun) (fuel : nat)
    (g : graph) (attr : list (list Q)) (n_regions : Z) (initial_labels : option (list Z))
    (s : fstrategy) (r : rng) : out ((list Z * fstrategy) * rng) :=
  fit fstrategy (fstrat_start obj)
      (fun adj labels _ s r => azp_component fstrategy (fstrat_call B A) fstrat_val adj fuel labels s r)
      order g attr n_regions initial_labels s r.

Section Heuristic.
Variable A : arith.
(** the total distance from an area to the areas of a region, as computed: heuristics.py:430-435 and 509-514 *)
Variable dis : nat -> list nat -> Q.
Variable g : graph.
Variable sp : list (list Q).
Variable threshold : list Q.

(** heuristics.py:412-440 *)
Definition ffind_best_area (region candidates : list nat) (r : rng) : out (nat * rng) :=
  random_element_from (best_keys (fun a => dis a region) candidates) r.

(** heuristics.py:387-407, as [grow_region] *)
Fixpoint fgrow_region (fuel : nat) (region neighs : list nat) (spat_ext : list Q) (unassigned assigned : list nat) (r : rng)
  : out (bool * list nat * list nat * list nat * rng) :=
  if reaches spat_ext threshold then Ok (true, region, unassigned, assigned, r)
  else match fuel with
  | 0 => NoFuel
  | S fuel' =>
      match neighs with
      | [] => let* assigned' := remove_all region assigned in
              Ok (false, region, unassigned, assigned', r)
      | _ :: _ =>
          let* '(neigh, r1) := ffind_best_area region neighs r in
          let region' := set_add neigh region in
          let neighs' := set_diff (set_union (set_discard neigh neighs) (neighbors g neigh)) assigned in
          let spat_ext' := fadd_rows A spat_ext (row sp neigh) in
          match remove_first neigh unassigned with
          | None => Raise (ValueError "list.remove(x): x not in list")
          | Some unassigned' => fgrow_region fuel' region' neighs' spat_ext' unassigned' (assigned ++ [neigh]) r1
          end
      end
  end.

(** heuristics.py:376-410, as [grow_loop] *)
Fixpoint fgrow_loop (fuel : nat) (partition : list (list nat)) (enclaves unassigned assigned : list nat) (r : rng)
  : out (list (list nat) * list nat * rng) :=
  match unassigned, fuel with
  | [], _ => Ok (partition, enclaves, r)
  | _ :: _, 0 => NoFuel
  | _ :: _, S fuel' =>
      let* '(area, unassigned1, r1) := pop_randomly_from unassigned r in
      let assigned1 := assigned ++ [area] in
      if reaches (row sp area) threshold
      then fgrow_loop fuel' (partition ++ [[area]]) enclaves unassigned1 assigned1 r1
      else
        let* '(feasible, region, unassigned2, assigned2, r2) :=
          fgrow_region (S (length unassigned1)) [area] (set_diff (neighbors g area) assigned1) (row sp area)
                       unassigned1 assigned1 r1 in
        if feasible : bool
        then fgrow_loop fuel' (partition ++ [region]) enclaves unassigned2 assigned2 r2
        else fgrow_loop fuel' partition (enclaves ++ region) unassigned2 assigned2 r2
  end.

(** heuristics.py:345-410 *)
Definition fgrow_regions (r : rng) : out (list (list nat) * list nat * rng) :=
  fgrow_loop (gn g) [] [] (seq 0 (gn g)) [] r.

(** heuristics.py:486-520, as [find_best_region_idx] *)
Definition ffind_best_region_idx (area : nat) (partition : list (list nat)) (candidates : list nat) (r : rng)
  : out (nat * rng) :=
  match candidates with
  | [] => Raise (ValueError "min() arg is an empty sequence")
  | _ => random_element_from
           (best_keys (fun k => dis area (nth k partition [])) (set_union [] candidates)) r
  end.

(** heuristics.py:467-484, as [assign_loop] *)
Fixpoint fassign_loop (fuel : nat) (partition : list (list nat)) (enclaves : list nat) (r : rng)
  : out (list (list nat) * rng) :=
  match enclaves, fuel with
  | [], _ => Ok (partition, r)
  | _ :: _, 0 => NoFuel
  | _ :: _, S fuel' =>
      let neighbors_of_assigned :=
        filter (fun area => existsb (fun neigh => negb (memb neigh enclaves)) (neighbors g area)) enclaves in
      let* '(area, _, r1) := pop_randomly_from neighbors_of_assigned r in
      let* '(k, r2) := ffind_best_region_idx area partition (neigh_regions_idx g area partition) r1 in
      match remove_first area enclaves with
      | None => Raise (ValueError "list.remove(x): x not in list")
      | Some enclaves' => fassign_loop fuel' (add_to_region partition k area) enclaves' r2
      end
  end.
(** heuristics.py:442-484 *)
Definition fassign_enclaves (partition : list (list nat)) (enclaves : list nat) (r : rng) : out (list (list nat) * rng) :=
  fassign_loop (length enclaves) partition enclaves r.

(** heuristics.py:81-97, as [construct] *)
Fixpoint fconstruct (max_it : nat) (max_p : nat) (best : list (list (list nat) * list nat)) (r : rng)
  : out (nat * list (list (list nat) * list nat) * rng) :=
  match max_it with
  | 0 => Ok (max_p, best, r)
  | S k =>
      let* '(partition, enclaves, r1) := fgrow_regions r in
      let n_regions := length partition in
      if Nat.ltb max_p n_regions then fconstruct k n_regions [(partition, enclaves)] r1
      else if Nat.eqb n_regions max_p then fconstruct k max_p (best ++ [(partition, enclaves)]) r1
      else fconstruct k max_p best r1
  end.

(** heuristics.py:99-101 *)
Fixpoint fassign_each (parts : list (list (list nat) * list nat)) (r : rng) : out (list (list (list nat)) * rng) :=
  match parts with
  | [] => Ok ([], r)
  | (partition, enclaves) :: parts' =>
      let* '(p, r1) := fassign_enclaves partition enclaves r in
      let* '(ps, r2) := fassign_each parts' r1 in
      Ok (p :: ps, r2)
  end.
End Heuristic.

(** the sums in heuristics.py:430-435 and 509-514 with the default metric (util.py:479-480), over the region in the
    order in which Python enumerates the set ([enum]) *)
Definition fdissimilarity (A : arith) (enum : list nat -> list nat) (attr : list (list Q)) (area : nat) (region : list nat) : Q :=
  fsum A (map (fun area2 => fmanhattan A (row attr area) (row attr area2)) (enum region)).

(** heuristics.py:39-123 with the default metric and AZP as local search (the default: lines 106-107), as
    [maxp_azp_fit]: [ls] is the strategy of the AZP object passed, [entropy] the generator after AZP.__init__; spatially extensive attributes are
    computed with [B], dissimilarities and differences of the objective with [A] *)
Definition fmaxp_fit2 (B A : arith) (enum : list nat -> list nat) (order : list edge -> list edge) (obj : objfun) (fuel : nat)
    (g : graph) (attr sp : list (list Q)) (threshold : list Q) (max_it : nat) (entropy : rng)
    (labels0 : option (list Z)) (ls : option fstrategy) (r : rng)
  : out (option (list Z) * option fstrategy * rng) :=
  let dis := fdissimilarity A enum attr in
  let* '(max_p, before, r1) := fconstruct B dis g sp threshold max_it 0 [] r in
  let* '(parts, r2) := fassign_each dis g before r1 in
  match parts with
  | [] => Ok (labels0, ls, r2)
  | _ :: _ =>
      let '(ls0, r3) := match ls with Some l => (l, r2) | None => (FAzp unstarted, entropy) end in
      let* '(ls', b, r4) :=
        search_rounds fstrategy (FMaxP unstarted sp [] threshold)
          (fun s p l r => let* '((labels, s'), r') := fstrat_fit B A order obj fuel g attr p (Some l) s r in
                          Ok (Some labels, s', r'))
          obj attr (length parts) max_p parts ls0 None r3 in
      Ok (option_map snd b, Some ls', r4)
  end.
(** all attributes of the same type (heuristics.py:39-123) *)
Definition fmaxp_fit (A : arith) := fmaxp_fit2 A A.
