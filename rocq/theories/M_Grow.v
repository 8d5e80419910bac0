(** MaxPRegionsHeu with the comparisons of the construction phase left open: the functions of M_MaxP.v over any way of testing a row against the
    threshold and of choosing the next area or region.  M_MaxPChecked.v and M_MaxPThreshold.v fill them in. *)
From Verif Require Import Base Spec M_Graph M_Util M_Objective M_Azp M_MaxP.

Section Grow.
Variable g : graph.
Variable sp : list (list Q).
(** [(x >= threshold).all()], heuristics.py:379 *)
Variable enough : list Q -> bool.
(** [(x < threshold).any()], heuristics.py:387 *)
Variable short : list Q -> bool.
(** [self.find_best_area(region, candidates, attr)], heuristics.py:389-390 *)
Variable find_area : list nat -> list nat -> rng -> out (nat * rng).
(** [self.find_best_region_idx(area, partition, candidates, attr)], heuristics.py:480-481 *)
Variable find_region : nat -> list (list nat) -> list nat -> rng -> out (nat * rng).

(** heuristics.py:387-407, as [grow_region] *)
Fixpoint open_grow_region (fuel : nat) (region neighs : list nat) (spat_ext : list Q) (unassigned assigned : list nat) (r : rng)
  : out (bool * list nat * list nat * list nat * rng) :=
  if negb (short spat_ext) then Ok (true, region, unassigned, assigned, r)
  else match fuel with
  | 0 => NoFuel
  | S fuel' =>
      match neighs with
      | [] => let* assigned' := remove_all region assigned in
              Ok (false, region, unassigned, assigned', r)
      | _ :: _ =>
          let* '(neigh, r1) := find_area region neighs r in
          let region' := set_add neigh region in
          let neighs' := set_diff (set_union (set_discard neigh neighs) (neighbors g neigh)) assigned in
          let spat_ext' := add_rows spat_ext (row sp neigh) in
          match remove_first neigh unassigned with
          | None => Raise (ValueError "list.remove(x): x not in list")
          | Some unassigned' => open_grow_region fuel' region' neighs' spat_ext' unassigned' (assigned ++ [neigh]) r1
          end
      end
  end.

(** heuristics.py:376-410, as [grow_loop] *)
Fixpoint open_grow_loop (fuel : nat) (partition : list (list nat)) (enclaves unassigned assigned : list nat) (r : rng)
  : out (list (list nat) * list nat * rng) :=
  match unassigned, fuel with
  | [], _ => Ok (partition, enclaves, r)
  | _ :: _, 0 => NoFuel
  | _ :: _, S fuel' =>
      let* '(area, unassigned1, r1) := pop_randomly_from unassigned r in
      let assigned1 := assigned ++ [area] in
      if enough (row sp area)
      then open_grow_loop fuel' (partition ++ [[area]]) enclaves unassigned1 assigned1 r1
      else
        let* '(feasible, region, unassigned2, assigned2, r2) :=
          open_grow_region (S (length unassigned1)) [area] (set_diff (neighbors g area) assigned1) (row sp area)
                           unassigned1 assigned1 r1 in
        if feasible : bool
        then open_grow_loop fuel' (partition ++ [region]) enclaves unassigned2 assigned2 r2
        else open_grow_loop fuel' partition (enclaves ++ region) unassigned2 assigned2 r2
  end.

(** heuristics.py:345-410 *)
Definition open_grow_regions (r : rng) : out (list (list nat) * list nat * rng) :=
  open_grow_loop (gn g) [] [] (seq 0 (gn g)) [] r.

(** heuristics.py:467-484, as [assign_loop] *)
Fixpoint open_assign_loop (fuel : nat) (partition : list (list nat)) (enclaves : list nat) (r : rng)
  : out (list (list nat) * rng) :=
  match enclaves, fuel with
  | [], _ => Ok (partition, r)
  | _ :: _, 0 => NoFuel
  | _ :: _, S fuel' =>
      let neighbors_of_assigned :=
        filter (fun area => existsb (fun neigh => negb (memb neigh enclaves)) (neighbors g area)) enclaves in
      let* '(area, _, r1) := pop_randomly_from neighbors_of_assigned r in
      let* '(k, r2) := find_region area partition (neigh_regions_idx g area partition) r1 in
      match remove_first area enclaves with
      | None => Raise (ValueError "list.remove(x): x not in list")
      | Some enclaves' => open_assign_loop fuel' (add_to_region partition k area) enclaves' r2
      end
  end.
(** heuristics.py:442-484 *)
Definition open_assign_enclaves (partition : list (list nat)) (enclaves : list nat) (r : rng) : out (list (list nat) * rng) :=
  open_assign_loop (length enclaves) partition enclaves r.

(** heuristics.py:81-97, as [construct] *)
Fixpoint open_construct (max_it : nat) (max_p : nat) (best : list (list (list nat) * list nat)) (r : rng)
  : out (nat * list (list (list nat) * list nat) * rng) :=
  match max_it with
  | 0 => Ok (max_p, best, r)
  | S k =>
      let* '(partition, enclaves, r1) := open_grow_regions r in
      let n_regions := length partition in
      if Nat.ltb max_p n_regions then open_construct k n_regions [(partition, enclaves)] r1
      else if Nat.eqb n_regions max_p then open_construct k max_p (best ++ [(partition, enclaves)]) r1
      else open_construct k max_p best r1
  end.

(** heuristics.py:99-101, as [assign_each] *)
Fixpoint open_assign_each (parts : list (list (list nat) * list nat)) (r : rng) : out (list (list (list nat)) * rng) :=
  match parts with
  | [] => Ok ([], r)
  | (partition, enclaves) :: parts' =>
      let* '(p, r1) := open_assign_enclaves partition enclaves r in
      let* '(ps, r2) := open_assign_each parts' r1 in
      Ok (p :: ps, r2)
  end.

(** heuristics.py:39-123, as [maxp_fit] *)
Definition open_maxp_fit (LS : Type) (wrap : LS -> LS) (ls_fit : LS -> Z -> list Z -> rng -> out (option (list Z) * LS * rng))
    (obj : objfun) (attr : list (list Q)) (new : rng -> LS * rng) (max_it : nat) (labels0 : option (list Z)) (ls : option LS) (r : rng)
  : out (option (list Z) * option LS * rng) :=
  let* '(max_p, before, r1) := open_construct max_it 0 [] r in
  let* '(parts, r2) := open_assign_each before r1 in
  match parts with
  | [] => Ok (labels0, ls, r2)
  | _ :: _ =>
      let '(ls0, r3) := match ls with Some l => (l, r2) | None => new r2 end in
      let* '(ls', b, r4) := search_rounds LS wrap ls_fit obj attr (length parts) max_p parts ls0 None r3 in
      Ok (option_map snd b, Some ls', r4)
  end.
End Grow.
