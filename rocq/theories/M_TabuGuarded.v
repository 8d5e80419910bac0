(** The tabu classes as local search of MaxPRegionsHeu (heuristics.py:39-123) with thresholds that may be NaN or infinite, and with missing amounts.
    Only the wrapper (azp_util.py:147-204) and the construction read thresholds and amounts: the methods are those of M_TabuWith, the wrappers those of
    M_MaxPThreshold and M_MaxPMissing. *)
From Verif Require Import Base Spec SpecBound M_Graph M_Util M_Objective M_Azp M_Sa M_Tabu M_MaxP M_TabuWith M_MaxPThreshold M_MaxPMissing.

(** [AZPBasicTabu.fit], azp.py:58-110, 788-861, as [basic_fit_with] *)
Definition bbasic_fit (order : list edge -> list edge) (obj : objfun) (fuel : nat) (maxlen : option nat) (reps : nat)
    (g : graph) (attr : list (list Q)) (n_regions : Z) (initial_labels : option (list Z)) (s : bstrategy) (r : rng)
  : out ((list Z * bstrategy) * rng) :=
  fit bstrategy (bstrat_start obj)
      (fun adj labels rows s r => basic_component_with bstrategy bstrat_call obj adj fuel maxlen reps labels rows s r)
      order g attr n_regions initial_labels s r.
(** [AZPReactiveTabu.fit], azp.py:58-110, 930-1046, as [reactive_fit_with] *)
Definition breactive_fit (order : list edge -> list edge) (obj : objfun) (maxit k1 k2 : nat)
    (g : graph) (attr : list (list Q)) (n_regions : Z) (initial_labels : option (list Z)) (s : reactive_with bstrategy) (r : rng)
  : out ((list Z * reactive_with bstrategy) * rng) :=
  fit (reactive_with bstrategy)
      (fun s labels rows idx => let* st := bstrat_start obj (rw_strat s) labels rows idx in
                                Ok (mkReactiveWith st (rw_avg s) (rw_reps s) (rw_visited s)))
      (fun adj labels rows s r => reactive_component_with bstrategy bstrat_call obj adj maxit k1 k2 labels rows s r)
      order g attr n_regions initial_labels s r.
(** heuristics.py:39-123 with an AZPBasicTabu object, as [maxp_basic_fit] *)
Definition bmaxp_basic_fit (order : list edge -> list edge) (obj : objfun) (d : list Q -> list Q -> Q)
    (fuel : nat) (maxlen : option nat) (reps : nat) (g : graph) (attr sp : list (list Q)) (thr : list bound) (max_it : nat)
    (labels0 : option (list Z)) (s : bstrategy) (r : rng) :=
  bmaxp_fit bstrategy (bwrap sp thr)
    (fun s p l r => let* '((labels, s'), r') := bbasic_fit order obj fuel maxlen reps g attr p (Some l) s r in
                    Ok (Some labels, s', r'))
    obj attr (fun r => (s, r)) d g sp thr max_it labels0 (Some s) r.
(** heuristics.py:39-123 with an AZPReactiveTabu object, as [maxp_reactive_fit] *)
Definition bmaxp_reactive_fit (order : list edge -> list edge) (obj : objfun) (d : list Q -> list Q -> Q)
    (maxit k1 k2 : nat) (g : graph) (attr sp : list (list Q)) (thr : list bound) (max_it : nat)
    (labels0 : option (list Z)) (s : reactive_with bstrategy) (r : rng) :=
  bmaxp_fit (reactive_with bstrategy)
    (fun s => mkReactiveWith (bwrap sp thr (rw_strat s)) (rw_avg s) (rw_reps s) (rw_visited s))
    (fun s p l r => let* '((labels, s'), r') := breactive_fit order obj maxit k1 k2 g attr p (Some l) s r in
                    Ok (Some labels, s', r'))
    obj attr (fun r => (s, r)) d g sp thr max_it labels0 (Some s) r.

(** [AZPBasicTabu.fit], azp.py:58-110, 788-861, as [basic_fit_with]; missing amounts *)
Definition nbasic_fit (expf : Q -> Q) (order : list edge -> list edge) (obj : objfun) (fuel : nat) (maxlen : option nat) (reps : nat)
    (g : graph) (attr : list (list Q)) (n_regions : Z) (initial_labels : option (list Z)) (s : nstrategy) (r : rng)
  : out ((list Z * nstrategy) * rng) :=
  fit nstrategy (nstrat_start obj)
      (fun adj labels rows s r => basic_component_with nstrategy (nstrat_call expf) obj adj fuel maxlen reps labels rows s r)
      order g attr n_regions initial_labels s r.
(** [AZPReactiveTabu.fit], azp.py:58-110, 930-1046, as [reactive_fit_with]; missing amounts *)
Definition nreactive_fit (expf : Q -> Q) (order : list edge -> list edge) (obj : objfun) (maxit k1 k2 : nat)
    (g : graph) (attr : list (list Q)) (n_regions : Z) (initial_labels : option (list Z)) (s : reactive_with nstrategy) (r : rng)
  : out ((list Z * reactive_with nstrategy) * rng) :=
  fit (reactive_with nstrategy)
      (fun s labels rows idx => let* st := nstrat_start obj (rw_strat s) labels rows idx in
                                Ok (mkReactiveWith st (rw_avg s) (rw_reps s) (rw_visited s)))
      (fun adj labels rows s r => reactive_component_with nstrategy (nstrat_call expf) obj adj maxit k1 k2 labels rows s r)
      order g attr n_regions initial_labels s r.
(** heuristics.py:39-123 with an AZPBasicTabu object, as [maxp_basic_fit]; missing amounts *)
Definition nmaxp_basic_fit (expf : Q -> Q) (order : list edge -> list edge) (obj : objfun) (d : list Q -> list Q -> Q)
    (fuel : nat) (maxlen : option nat) (reps : nat) (g : graph) (attr : list (list Q)) (sp : list (list (option Q))) (threshold : list Q)
    (max_it : nat) (labels0 : option (list Z)) (s : nstrategy) (r : rng) :=
  nmaxp_fit nstrategy (NMaxP unstarted sp [] threshold)
    (fun s p l r => let* '((labels, s'), r') := nbasic_fit expf order obj fuel maxlen reps g attr p (Some l) s r in
                    Ok (Some labels, s', r'))
    obj attr (fun r => (s, r)) d g sp threshold max_it labels0 (Some s) r.
(** heuristics.py:39-123 with an AZPReactiveTabu object, as [maxp_reactive_fit]; missing amounts *)
Definition nmaxp_reactive_fit (expf : Q -> Q) (order : list edge -> list edge) (obj : objfun) (d : list Q -> list Q -> Q)
    (maxit k1 k2 : nat) (g : graph) (attr : list (list Q)) (sp : list (list (option Q))) (threshold : list Q) (max_it : nat)
    (labels0 : option (list Z)) (s : reactive_with nstrategy) (r : rng) :=
  nmaxp_fit (reactive_with nstrategy)
    (fun s => mkReactiveWith (NMaxP unstarted sp [] threshold (rw_strat s)) (rw_avg s) (rw_reps s) (rw_visited s))
    (fun s p l r => let* '((labels, s'), r') := nreactive_fit expf order obj maxit k1 k2 g attr p (Some l) s r in
                    Ok (Some labels, s', r'))
    obj attr (fun r => (s, r)) d g sp threshold max_it labels0 (Some s) r.
