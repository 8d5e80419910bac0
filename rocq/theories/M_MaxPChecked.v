(** MaxPRegionsHeu when attribute values are missing: the metric is one of sklearn's and raises ValueError for a row with a NaN or an infinite
    entry (M_Missing.v).  The construction phase evaluates it in two places. *)
From Verif Require Import Base Spec M_Graph M_Util M_Objective M_Azp M_Sa M_MaxP M_TabuWith M_Missing M_Grow.

Section Checked.
Variable missing : list Q -> bool.
Variable d : list Q -> list Q -> Q.
Variable attr : list (list Q).

(** the sums in heuristics.py:430-435 and 509-514, as [dissimilarity] *)
Definition checked_dissimilarity (area : nat) (region : list nat) : out Q :=
  let* ds := mapM (fun area2 => checked_distance missing d (row attr area) (row attr area2)) region in
  Ok (sumQ ds).
(** heuristics.py:412-440: all sums are computed before the smallest is looked for *)
Definition checked_find_area (region candidates : list nat) (r : rng) : out (nat * rng) :=
  let* _ := mapM (fun area => checked_dissimilarity area region) candidates in
  find_best_area d attr region candidates r.
(** heuristics.py:486-520, likewise *)
Definition checked_find_region (area : nat) (partition : list (list nat)) (candidates : list nat) (r : rng) : out (nat * rng) :=
  let* _ := mapM (fun k => checked_dissimilarity area (nth k partition [])) candidates in
  find_best_region_idx d attr area partition candidates r.

(** heuristics.py:39-123, as [maxp_fit] *)
Definition checked_maxp_fit (LS : Type) (wrap : LS -> LS) (ls_fit : LS -> Z -> list Z -> rng -> out (option (list Z) * LS * rng))
    (obj : objfun) (new : rng -> LS * rng) (g : graph) (sp : list (list Q)) (threshold : list Q) (max_it : nat)
    (labels0 : option (list Z)) (ls : option LS) (r : rng) : out (option (list Z) * option LS * rng) :=
  open_maxp_fit g sp (fun x => reaches x threshold) (fun x => negb (reaches x threshold)) checked_find_area checked_find_region
    LS wrap ls_fit obj attr new max_it labels0 ls r.

(** with AZP as local search (heuristics.py:39-123), as [maxp_azp_fit] *)
Definition checked_maxp_azp_fit (expf : Q -> Q) (order : list edge -> list edge) (obj : objfun) (fuel : nat)
    (g : graph) (sp : list (list Q)) (threshold : list Q) (max_it : nat) (entropy : rng)
    (labels0 : option (list Z)) (ls : option strategy) (r : rng) :=
  checked_maxp_fit strategy (maxp_wrap sp threshold)
    (fun s p l r => let* '((labels, s'), r') := azp_fit expf order obj fuel g attr p (Some l) s r in
                    Ok (Some labels, s', r'))
    obj (fun _ => (SAzp unstarted, entropy)) g sp threshold max_it labels0 ls r.

(** with AZPSimulatedAnnealing as local search (heuristics.py:39-123), as [maxp_sa_fit] *)
Definition checked_maxp_sa_fit (expf : Q -> Q) (order : list edge -> list edge) (obj : objfun) (azp_fuel fuel : nat)
    (cooling : Q) (args : sa_args) (g : graph) (sp : list (list Q)) (threshold : list Q) (max_it : nat)
    (labels0 : option (list Z)) (mem : sa_memory) (r : rng) :=
  checked_maxp_fit sa_memory (fun m => m)
    (fun m p l r => sa_fit expf order obj azp_fuel g attr p fuel cooling (Some l) args m r)
    obj (fun r => (mem, r)) g sp threshold max_it labels0 (Some mem) r.

(** with AZPBasicTabu as local search (heuristics.py:39-123), as [maxp_basic_fit] *)
Definition checked_maxp_basic_fit (expf : Q -> Q) (order : list edge -> list edge) (obj : objfun)
    (fuel : nat) (maxlen : option nat) (reps : nat) (g : graph) (sp : list (list Q)) (threshold : list Q) (max_it : nat)
    (labels0 : option (list Z)) (s : strategy) (r : rng) :=
  checked_maxp_fit strategy (maxp_wrap sp threshold)
    (fun s p l r => let* '((labels, s'), r') := basic_fit_with expf order obj fuel maxlen reps g attr p (Some l) s r in
                    Ok (Some labels, s', r'))
    obj (fun r => (s, r)) g sp threshold max_it labels0 (Some s) r.

(** with AZPReactiveTabu as local search (heuristics.py:39-123), as [maxp_reactive_fit] *)
Definition checked_maxp_reactive_fit (expf : Q -> Q) (order : list edge -> list edge) (obj : objfun)
    (maxit k1 k2 : nat) (g : graph) (sp : list (list Q)) (threshold : list Q) (max_it : nat)
    (labels0 : option (list Z)) (s : reactive_with strategy) (r : rng) :=
  checked_maxp_fit (reactive_with strategy)
    (fun s => mkReactiveWith (maxp_wrap sp threshold (rw_strat s)) (rw_avg s) (rw_reps s) (rw_visited s))
    (fun s p l r => let* '((labels, s'), r') := reactive_fit_with expf order obj maxit k1 k2 g attr p (Some l) s r in
                    Ok (Some labels, s', r'))
    obj (fun r => (s, r)) g sp threshold max_it labels0 (Some s) r.
End Checked.
