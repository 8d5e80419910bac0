(** MaxPRegionsHeu with AZP or AZPSimulatedAnnealing as local search when thresholds may be NaN or infinite.  The amounts are numbers.  The growth tests [>=]
    (heuristics.py:379) and [<] (heuristics.py:387) are not each other's negation then, and the local search tests [>=] (azp_util.py:192). *)
From Verif Require Import Base Spec SpecBound M_Graph M_Util M_Objective M_Azp M_Sa M_MaxP M_Grow.

(** [x >= b] for a float [b], heuristics.py:379 and azp_util.py:192 *)
Definition at_least (x : Q) (b : bound) : bool :=
  match b with Number q => Qle_bool q x | NegInf => true | PosInf | NotANumber => false end.
(** [x < b] for a float [b], heuristics.py:387 *)
Definition less_than (x : Q) (b : bound) : bool :=
  match b with Number q => Qltb x q | PosInf => true | NegInf | NotANumber => false end.
(** the pairs compared (heuristics.py:379, 387, azp_util.py:192), as [compared] *)
Definition bcompared (x : list Q) (thr : list bound) : list (Q * bound) :=
  match x, thr with
  | _, [t] => map (fun v => (v, t)) x
  | [v], _ => map (fun t => (v, t)) thr
  | _, _ => combine x thr
  end.
(** [(x >= threshold).all()], heuristics.py:379 and azp_util.py:192 *)
Definition all_at_least (thr : list bound) (x : list Q) : bool := forallb (fun p => at_least (fst p) (snd p)) (bcompared x thr).
(** [(x < threshold).any()], heuristics.py:387 *)
Definition any_less (thr : list bound) (x : list Q) : bool := existsb (fun p => less_than (fst p) (snd p)) (bcompared x thr).

(** azp_util.py:188-202, as [donor_ok] *)
Definition bdonor_ok (sp : list (list Q)) (thr : list bound) (a : nat) (labels : list Z) : bool :=
  if any_nonzero (row sp a)
  then all_at_least thr (sub_rows (sum_rows (rows_of labels (lab labels a) sp)) (row sp a))
  else true.
(** the strategies of azp_util.py:61-70 and 147-204 *)
Inductive bstrategy :=
| BAzp (c : common)
| BMaxP (c : common) (sp_all sp : list (list Q)) (thr : list bound) (inner : bstrategy).
(** the [objective_val] attribute (azp_util.py:33, 66; read in azp.py:320, 393) *)
Definition bstrat_val (s : bstrategy) : Q := match s with BAzp c => c_val c | BMaxP c _ _ _ _ => c_val c end.
(** azp_util.py:10-33 and 176-183 *)
Fixpoint bstrat_start (obj : objfun) (s : bstrategy) (labels : list Z) (attr : list (list Q)) (comp_idx : list nat) : out bstrategy :=
  match s with
  | BAzp _ => let* c := start_common labels attr obj in Ok (BAzp c)
  | BMaxP _ sp_all _ thr inner =>
      let* c := start_common labels attr obj in
      let* inner' := bstrat_start obj inner labels attr comp_idx in
      Ok (BMaxP c sp_all (map (row sp_all) comp_idx) thr inner')
  end.
(** [strategy(moving_area, new_region, labels)]: azp_util.py:62-70, 185-204 *)
Fixpoint bstrat_call (s : bstrategy) (a : nat) (r : Z) (labels : list Z) (rg : rng) : out (bool * bstrategy * rng) :=
  match s with
  | BAzp c => let* '(b, c') := azp_call c a r labels in Ok (b, BAzp c', rg)
  | BMaxP c sp_all sp thr inner =>
      if bdonor_ok sp thr a labels
      then let* '(b, inner', rg') := bstrat_call inner a r labels rg in
           Ok (b, BMaxP c sp_all sp thr inner', rg')
      else Ok (false, s, rg)
  end.
(** [AZP.fit_from_scipy_sparse_matrix], azp.py:49-110, as [azp_fit] *)
Definition bazp_fit (order : list edge -> list edge) (obj : objfun) (fuel : nat) (g : graph) (attr : list (list Q)) (n_regions : Z)
    (initial_labels : option (list Z)) (s : bstrategy) (r : rng) : out ((list Z * bstrategy) * rng) :=
  fit bstrategy (bstrat_start obj)
      (fun adj labels _ s r => azp_component bstrategy bstrat_call bstrat_val adj fuel labels s r)
      order g attr n_regions initial_labels s r.
(** heuristics.py:108-110 with azp_util.py:158-174, as [maxp_wrap] *)
Definition bwrap (sp : list (list Q)) (thr : list bound) (s : bstrategy) : bstrategy := BMaxP unstarted sp [] thr s.
(** heuristics.py:39-123 with any local search: the construction phase *)
Definition bmaxp_fit (LS : Type) (wrap : LS -> LS) (ls_fit : LS -> Z -> list Z -> rng -> out (option (list Z) * LS * rng))
    (obj : objfun) (attr : list (list Q)) (new : rng -> LS * rng) (d : list Q -> list Q -> Q) (g : graph) (sp : list (list Q))
    (thr : list bound) (max_it : nat) (labels0 : option (list Z)) (ls : option LS) (r : rng) : out (option (list Z) * option LS * rng) :=
  open_maxp_fit g sp (all_at_least thr) (any_less thr) (find_best_area d attr) (find_best_region_idx d attr)
    LS wrap ls_fit obj attr new max_it labels0 ls r.
(** heuristics.py:39-123 with AZP, as [maxp_azp_fit] *)
Definition bmaxp_azp_fit (order : list edge -> list edge) (obj : objfun) (d : list Q -> list Q -> Q) (fuel : nat)
    (g : graph) (attr sp : list (list Q)) (thr : list bound) (max_it : nat) (entropy : rng)
    (labels0 : option (list Z)) (ls : option bstrategy) (r : rng) :=
  bmaxp_fit bstrategy (bwrap sp thr)
    (fun s p l r => let* '((labels, s'), r') := bazp_fit order obj fuel g attr p (Some l) s r in Ok (Some labels, s', r'))
    obj attr (fun _ => (BAzp unstarted, entropy)) d g sp thr max_it labels0 ls r.
(** heuristics.py:39-123 with AZPSimulatedAnnealing, as [maxp_sa_fit]: the wrapper with the threshold is lost (azp.py:620-622) *)
Definition bmaxp_sa_fit (expf : Q -> Q) (order : list edge -> list edge) (obj : objfun) (d : list Q -> list Q -> Q) (azp_fuel fuel : nat)
    (cooling : Q) (args : sa_args) (g : graph) (attr sp : list (list Q)) (thr : list bound) (max_it : nat)
    (labels0 : option (list Z)) (mem : sa_memory) (r : rng) :=
  bmaxp_fit sa_memory (fun m => m)
    (fun m p l r => sa_fit expf order obj azp_fuel g attr p fuel cooling (Some l) args m r)
    obj attr (fun r => (mem, r)) d g sp thr max_it labels0 (Some mem) r.
