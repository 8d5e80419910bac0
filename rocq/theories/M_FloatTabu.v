(** The tabu classes as local search of MaxPRegionsHeu (heuristics.py:39-123) when the arithmetic rounds (M_FloatMaxP.v) or wraps around
    (M_MaxPInt.v).  The methods are those of M_TabuWith: they compute only through the objective function, which may round as it likes, and through
    the strategy.  Simplified: the moving average of AZPReactiveTabu (azp.py:1021-1024) is computed in exact numbers. *)
From Verif Require Import Base Spec M_Graph M_Util M_Objective M_Azp M_Sa M_Tabu M_MaxP M_TabuWith M_Float M_FloatMaxP M_MaxPInt.

(** [AZPBasicTabu.fit], azp.py:58-110, 788-861, as [basic_fit_with] *)
Definition fbasic_fit (B A : arith) (order : list edge -> list edge) (obj : objfun) (fuel : nat) (maxlen : option nat) (reps : nat)
    (g : graph) (attr : list (list Q)) (n_regions : Z) (initial_labels : option (list Z)) (s : fstrategy) (r : rng)
  : out ((list Z * fstrategy) * rng) :=
  fit fstrategy (fstrat_start obj)
      (fun adj labels rows s r => basic_component_with fstrategy (fstrat_call B A) obj adj fuel maxlen reps labels rows s r)
      order g attr n_regions initial_labels s r.
(** [AZPReactiveTabu.fit], azp.py:58-110, 930-1046, as [reactive_fit_with] *)
Definition freactive_fit (B A : arith) (order : list edge -> list edge) (obj : objfun) (maxit k1 k2 : nat)
    (g : graph) (attr : list (list Q)) (n_regions : Z) (initial_labels : option (list Z)) (s : reactive_with fstrategy) (r : rng)
  : out ((list Z * reactive_with fstrategy) * rng) :=
  fit (reactive_with fstrategy)
      (fun s labels rows idx => let* st := fstrat_start obj (rw_strat s) labels rows idx in
                                Ok (mkReactiveWith st (rw_avg s) (rw_reps s) (rw_visited s)))
      (fun adj labels rows s r => reactive_component_with fstrategy (fstrat_call B A) obj adj maxit k1 k2 labels rows s r)
      order g attr n_regions initial_labels s r.

(** heuristics.py:39-123 with the default metric and a local search object [ls] of any class, as [fmaxp_fit2]: [wrap] is the line
    heuristics.py:108-110, [ls_fit] the call in heuristics.py:112-116 *)
Definition fmaxp_ls (LS : Type) (wrap : LS -> LS) (ls_fit : LS -> Z -> list Z -> rng -> out (option (list Z) * LS * rng))
    (B A : arith) (enum : list nat -> list nat) (obj : objfun) (g : graph) (attr sp : list (list Q)) (threshold : list Q) (max_it : nat)
    (labels0 : option (list Z)) (ls : LS) (r : rng) : out (option (list Z) * LS * rng) :=
  let dis := fdissimilarity A enum attr in
  let* '(max_p, before, r1) := fconstruct B dis g sp threshold max_it 0 [] r in
  let* '(parts, r2) := fassign_each dis g before r1 in
  match parts with
  | [] => Ok (labels0, ls, r2)
  | _ :: _ =>
      let* '(ls', b, r4) := search_rounds LS wrap ls_fit obj attr (length parts) max_p parts ls None r2 in
      Ok (option_map snd b, ls', r4)
  end.

(** heuristics.py:39-123 with an AZPBasicTabu object, as [maxp_basic_fit] *)
Definition fmaxp_basic_fit (B A : arith) (enum : list nat -> list nat) (order : list edge -> list edge) (obj : objfun)
    (fuel : nat) (maxlen : option nat) (reps : nat) (g : graph) (attr sp : list (list Q)) (threshold : list Q) (max_it : nat)
    (labels0 : option (list Z)) (s : fstrategy) (r : rng) : out (option (list Z) * fstrategy * rng) :=
  fmaxp_ls fstrategy (FMaxP unstarted sp [] threshold)
    (fun s p l r => let* '((labels, s'), r') := fbasic_fit B A order obj fuel maxlen reps g attr p (Some l) s r in
                    Ok (Some labels, s', r'))
    B A enum obj g attr sp threshold max_it labels0 s r.
(** heuristics.py:39-123 with an AZPReactiveTabu object, as [maxp_reactive_fit] *)
Definition fmaxp_reactive_fit (B A : arith) (enum : list nat -> list nat) (order : list edge -> list edge) (obj : objfun)
    (maxit k1 k2 : nat) (g : graph) (attr sp : list (list Q)) (threshold : list Q) (max_it : nat)
    (labels0 : option (list Z)) (s : reactive_with fstrategy) (r : rng) : out (option (list Z) * reactive_with fstrategy * rng) :=
  fmaxp_ls (reactive_with fstrategy)
    (fun s => mkReactiveWith (FMaxP unstarted sp [] threshold (rw_strat s)) (rw_avg s) (rw_reps s) (rw_visited s))
    (fun s p l r => let* '((labels, s'), r') := freactive_fit B A order obj maxit k1 k2 g attr p (Some l) s r in
                    Ok (Some labels, s', r'))
    B A enum obj g attr sp threshold max_it labels0 s r.
(** the same (heuristics.py:39-123) with amounts stored in an integer type by [w], as [int_maxp_fit] *)
Definition int_maxp_basic_fit (w : Z -> Z) := fmaxp_basic_fit (int_arith w).
(** heuristics.py:39-123, AZPReactiveTabu, amounts stored by [w] *)
Definition int_maxp_reactive_fit (w : Z -> Z) := fmaxp_reactive_fit (int_arith w).
