(** MaxPRegionsHeu when spatially extensive attributes are missing (NaN): the functions of M_MaxP.v and M_Azp.v that
    read them, on rows of [option Q] with [None] for NaN.  A sum with NaN is NaN; every comparison with NaN is False;
    NaN is not zero ([bool(nan)] is True).  Everything else is as in those files. *)
From Verif Require Import Base Spec M_Graph M_Util M_Objective M_Azp M_Sa M_MaxP.

(** the row of an area (heuristics.py:379, 386; azp_util.py:188) *)
Definition nrow (sp : list (list (option Q))) (a : nat) : list (option Q) := nth a sp [].
(** [a + b] of floats, NaN if one of them is (heuristics.py:395, azp_util.py:191) *)
Definition nplus (a b : option Q) : option Q :=
  match a, b with Some p, Some q => Some (p + q)%Q | _, _ => None end.
(** [a - b] of floats (azp_util.py:191) *)
Definition nminus (a b : option Q) : option Q :=
  match a, b with Some p, Some q => Some (p - q)%Q | _, _ => None end.
(** [a >= t] (heuristics.py:379, azp_util.py:192): False for NaN *)
Definition nge (a : option Q) (t : Q) : bool := match a with Some q => Qle_bool t q | None => false end.
(** [a < t] (heuristics.py:387): False for NaN *)
Definition nlt (a : option Q) (t : Q) : bool := match a with Some q => Qltb q t | None => false end.
(** the truth value of an entry in [.any()] (azp_util.py:188): NaN is true *)
Definition ntrue (a : option Q) : bool := match a with Some q => negb (Qeq_bool q 0) | None => true end.

(** [+=] on rows, heuristics.py:395; the additions of azp_util.py:191; as [add_rows] *)
Fixpoint nadd_rows (x y : list (option Q)) : list (option Q) :=
  match x, y with
  | a :: x', b :: y' => nplus a b :: nadd_rows x' y'
  | [], _ => y
  | _, [] => x
  end.
(** azp_util.py:191: column sums *)
Definition nsum_rows (rows : list (list (option Q))) : list (option Q) := fold_right nadd_rows [] rows.
(** azp_util.py:191: subtraction of two rows *)
Definition nsub_rows (x y : list (option Q)) : list (option Q) := map (fun p => nminus (fst p) (snd p)) (combine x y).
(** the pairs compared by numpy (heuristics.py:379, 387; azp_util.py:192), as [compared] *)
Definition ncompared (x : list (option Q)) (threshold : list Q) : list (option Q * Q) :=
  match x, threshold with
  | _, [t] => map (fun v => (v, t)) x
  | [v], _ => map (fun t => (v, t)) threshold
  | _, _ => combine x threshold
  end.
(** [(x >= threshold).all()], heuristics.py:379 and azp_util.py:192 *)
Definition nreaches (x : list (option Q)) (threshold : list Q) : bool :=
  forallb (fun p => nge (fst p) (snd p)) (ncompared x threshold).
(** [(x < threshold).any()], heuristics.py:387 *)
Definition nbelow (x : list (option Q)) (threshold : list Q) : bool :=
  existsb (fun p => nlt (fst p) (snd p)) (ncompared x threshold).
(** the rows of a region (azp_util.py:189-191) *)
Definition nrows_of (labels : list Z) (r : Z) (sp : list (list (option Q))) : list (list (option Q)) :=
  map (nrow sp) (where_eq labels r).
(** azp_util.py:188-202, as [donor_ok] *)
Definition ndonor_ok (sp : list (list (option Q))) (threshold : list Q) (a : nat) (labels : list Z) : bool :=
  if existsb ntrue (nrow sp a)
  then nreaches (nsub_rows (nsum_rows (nrows_of labels (lab labels a) sp)) (nrow sp a)) threshold
  else true.

(** ** strategies: azp_util.py:147-204 around any of the strategies of M_Azp.v *)
Inductive nstrategy :=
| NBase (s : strategy)
| NMaxP (c : common) (sp_all sp : list (list (option Q))) (threshold : list Q) (inner : nstrategy).
(** the [objective_val] attribute of the object itself (azp_util.py:33, 66; read in azp.py:320, 393) *)
Definition nstrat_val (s : nstrategy) : Q := match s with NBase s => strat_val s | NMaxP c _ _ _ _ => c_val c end.
(** azp_util.py:10-33 and 176-183 *)
Fixpoint nstrat_start (obj : objfun) (s : nstrategy) (labels : list Z) (attr : list (list Q)) (comp_idx : list nat)
  : out nstrategy :=
  match s with
  | NBase s => let* s' := strat_start obj s labels attr comp_idx in Ok (NBase s')
  | NMaxP _ sp_all _ thr inner =>
      let* c := start_common labels attr obj in
      let* inner' := nstrat_start obj inner labels attr comp_idx in
      Ok (NMaxP c sp_all (map (nrow sp_all) comp_idx) thr inner')
  end.
(** [strategy(moving_area, new_region, labels)]: azp_util.py:62-70, 86-104, 185-204 *)
Fixpoint nstrat_call (expf : Q -> Q) (s : nstrategy) (a : nat) (r : Z) (labels : list Z) (rg : rng)
  : out (bool * nstrategy * rng) :=
  match s with
  | NBase s => let* '(b, s', rg') := strat_call expf s a r labels rg in Ok (b, NBase s', rg')
  | NMaxP c sp_all sp thr inner =>
      if ndonor_ok sp thr a labels
      then let* '(b, inner', rg') := nstrat_call expf inner a r labels rg in
           Ok (b, NMaxP c sp_all sp thr inner', rg')
      else Ok (false, s, rg)
  end.
(** [AZP.fit_from_scipy_sparse_matrix], azp.py:49-110, with any of these strategies *)
Definition nstrat_fit (expf : Q -> Q) (order : list edge -> list edge) (obj : objfun) (fuel : nat)
    (g : graph) (attr : list (list Q)) (n_regions : Z) (initial_labels : option (list Z))
    (s : nstrategy) (r : rng) : out ((list Z * nstrategy) * rng) :=
  fit nstrategy (nstrat_start obj)
      (fun adj labels _ s r => azp_component nstrategy (nstrat_call expf) nstrat_val adj fuel labels s r)
      order g attr n_regions initial_labels s r.

Section Heuristic.
(** [self.metric] *)
Variable d : list Q -> list Q -> Q.
Variable g : graph.
Variable attr : list (list Q).
Variable sp : list (list (option Q)).
Variable threshold : list Q.

(** heuristics.py:387-407, as [grow_region] *)
Fixpoint ngrow_region (fuel : nat) (region neighs : list nat) (spat_ext : list (option Q)) (unassigned assigned : list nat) (r : rng)
  : out (bool * list nat * list nat * list nat * rng) :=
  if negb (nbelow spat_ext threshold) then Ok (true, region, unassigned, assigned, r)
  else match fuel with
  | 0 => NoFuel
  | S fuel' =>
      match neighs with
      | [] => let* assigned' := remove_all region assigned in
              Ok (false, region, unassigned, assigned', r)
      | _ :: _ =>
          let* '(neigh, r1) := find_best_area d attr region neighs r in
          let region' := set_add neigh region in
          let neighs' := set_diff (set_union (set_discard neigh neighs) (neighbors g neigh)) assigned in
          let spat_ext' := nadd_rows spat_ext (nrow sp neigh) in
          match remove_first neigh unassigned with
          | None => Raise (ValueError "list.remove(x): x not in list")
          | Some unassigned' => ngrow_region fuel' region' neighs' spat_ext' unassigned' (assigned ++ [neigh]) r1
          end
      end
  end.

(** heuristics.py:376-410, as [grow_loop] *)
Fixpoint ngrow_loop (fuel : nat) (partition : list (list nat)) (enclaves unassigned assigned : list nat) (r : rng)
  : out (list (list nat) * list nat * rng) :=
  match unassigned, fuel with
  | [], _ => Ok (partition, enclaves, r)
  | _ :: _, 0 => NoFuel
  | _ :: _, S fuel' =>
      let* '(area, unassigned1, r1) := pop_randomly_from unassigned r in
      let assigned1 := assigned ++ [area] in
      if nreaches (nrow sp area) threshold
      then ngrow_loop fuel' (partition ++ [[area]]) enclaves unassigned1 assigned1 r1
      else
        let* '(feasible, region, unassigned2, assigned2, r2) :=
          ngrow_region (S (length unassigned1)) [area] (set_diff (neighbors g area) assigned1) (nrow sp area)
                       unassigned1 assigned1 r1 in
        if feasible : bool
        then ngrow_loop fuel' (partition ++ [region]) enclaves unassigned2 assigned2 r2
        else ngrow_loop fuel' partition (enclaves ++ region) unassigned2 assigned2 r2
  end.

(** heuristics.py:345-410 *)
Definition ngrow_regions (r : rng) : out (list (list nat) * list nat * rng) :=
  ngrow_loop (gn g) [] [] (seq 0 (gn g)) [] r.

(** heuristics.py:81-97, as [construct] *)
Fixpoint nconstruct (max_it : nat) (max_p : nat) (best : list (list (list nat) * list nat)) (r : rng)
  : out (nat * list (list (list nat) * list nat) * rng) :=
  match max_it with
  | 0 => Ok (max_p, best, r)
  | S k =>
      let* '(partition, enclaves, r1) := ngrow_regions r in
      let n_regions := length partition in
      if Nat.ltb max_p n_regions then nconstruct k n_regions [(partition, enclaves)] r1
      else if Nat.eqb n_regions max_p then nconstruct k max_p (best ++ [(partition, enclaves)]) r1
      else nconstruct k max_p best r1
  end.
End Heuristic.

(** heuristics.py:39-123, as [maxp_fit] *)
Definition nmaxp_fit (LS : Type) (wrap : LS -> LS) (ls_fit : LS -> Z -> list Z -> rng -> out (option (list Z) * LS * rng)) (obj : objfun)
    (attr : list (list Q)) (new : rng -> LS * rng) (d : list Q -> list Q -> Q) (g : graph) (sp : list (list (option Q))) (threshold : list Q)
    (max_it : nat) (labels0 : option (list Z)) (ls : option LS) (r : rng) : out (option (list Z) * option LS * rng) :=
  let* '(max_p, before, r1) := nconstruct d g attr sp threshold max_it 0 [] r in
  let* '(parts, r2) := assign_each d g attr before r1 in
  match parts with
  | [] => Ok (labels0, ls, r2)
  | _ :: _ =>
      let '(ls0, r3) := match ls with Some l => (l, r2) | None => new r2 end in
      let* '(ls', b, r4) := search_rounds LS wrap ls_fit obj attr (length parts) max_p parts ls0 None r3 in
      Ok (option_map snd b, Some ls', r4)
  end.

(** AZP as local search (heuristics.py:106-110), as [maxp_azp_fit] *)
Definition nmaxp_azp_fit (expf : Q -> Q) (order : list edge -> list edge) (obj : objfun) (d : list Q -> list Q -> Q) (fuel : nat)
    (g : graph) (attr : list (list Q)) (sp : list (list (option Q))) (threshold : list Q) (max_it : nat) (entropy : rng)
    (labels0 : option (list Z)) (ls : option nstrategy) (r : rng) :=
  nmaxp_fit nstrategy (NMaxP unstarted sp [] threshold)
    (fun s p l r => let* '((labels, s'), r') := nstrat_fit expf order obj fuel g attr p (Some l) s r in
                    Ok (Some labels, s', r'))
    obj attr (fun _ => (NBase (SAzp unstarted), entropy)) d g sp threshold max_it labels0 ls r.

(** AZPSimulatedAnnealing as local search: the wrapper is lost (azp.py:620-622), as [maxp_sa_fit] *)
Definition nmaxp_sa_fit (expf : Q -> Q) (order : list edge -> list edge) (obj : objfun) (d : list Q -> list Q -> Q) (azp_fuel fuel : nat)
    (cooling : Q) (args : sa_args) (g : graph) (attr : list (list Q)) (sp : list (list (option Q))) (threshold : list Q) (max_it : nat)
    (labels0 : option (list Z)) (mem : sa_memory) (r : rng) :=
  nmaxp_fit sa_memory (fun m => m)
    (fun m p l r => sa_fit expf order obj azp_fuel g attr p fuel cooling (Some l) args m r)
    obj attr (fun r => (mem, r)) d g sp threshold max_it labels0 (Some mem) r.
