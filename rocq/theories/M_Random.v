(** The process-wide random generator: which object's seed is in force when a fit draws from it.
    All randomness in region/ comes from the global generator of the module [random]
    (azp.py:4, azp_util.py:4, heuristics.py:1, util.py:4). *)
From Verif Require Import Base Spec M_Graph M_Util M_Objective M_Azp M_Sa M_Tabu M_MaxP M_TabuWith.

(** Objects of one process, referred to by the number of their construction (azp.py:32-56, 408-458, 742-763, 876-905;
    heuristics.py:17-37).  The local search of a MaxPRegionsHeu object is a reference, shared with
    whoever else holds it. *)
Inductive object :=
| ObjAzp (seed : option Z) (s : strategy) (labels : option (list Z))
| ObjSa (seed : option Z) (a : sa_args) (m : sa_memory) (labels : option (list Z))
| ObjBasic (seed : option Z) (tabu_length : option nat) (reps : nat) (s : strategy) (labels : option (list Z))
| ObjReactive (seed : option Z) (maxit k1 k2 : nat) (s : reactive_with strategy) (labels : option (list Z))
| ObjMaxP (seed : option Z) (local_search : option nat) (labels : option (list Z)).

(** [gen]: the state of the global generator; [ent]: the generators that successive calls of
    [random.seed(None)] (azp.py:46, heuristics.py:36) will install, supplied by the operating system. *)
Record process := mkProc { gen : rng; ent : nat -> rng; objs : list object }.

(** What a user does: construct objects and fit them: AZP(random_state=...) (azp.py:32),
    AZPSimulatedAnnealing(..., random_state=...) (azp.py:408),
    AZPBasicTabu(tabu_length, repetitions_before_termination, random_state=...) (azp.py:742),
    AZPReactiveTabu(max_iterations, k1, k2, random_state=...) (azp.py:876),
    MaxPRegionsHeu(local_search=..., random_state=...) (heuristics.py:17)
    and fit_from_scipy_sparse_matrix (azp.py:58, 585; heuristics.py:39).  [FitAzp] is the method of AZP, which the tabu
    classes inherit. *)
Inductive op :=
| NewAzp (seed : option Z)
| NewSa (seed : option Z) (a : sa_args)
| NewBasic (tabu_length : option nat) (reps : nat) (seed : option Z)
| NewReactive (max_iterations : Z) (k1 k2 : nat) (seed : option Z)
| NewMaxP (local_search : option nat) (seed : option Z)
| FitAzp (i : nat) (g : graph) (attr : list (list Q)) (n_regions : Z) (initial : option (list Z))
| FitSa (i : nat) (g : graph) (attr : list (list Q)) (n_regions : Z) (cooling : Q) (initial : option (list Z))
| FitMaxP (i : nat) (g : graph) (attr sp : list (list Q)) (threshold : list Q) (max_it : nat).

Section Machine.
(** [random.seed(s)] installs a generator determined by s. *)
Variable seeded : Z -> rng.
Variable expf : Q -> Q.
Variable order : list edge -> list edge.
(** objective and its metric, the defaults of the fit methods *)
Variable obj : objfun.
Variable metric : list Q -> list Q -> Q.
Variable azp_fuel sa_fuel : nat.

(** [random.seed(random_state)] (azp.py:46, heuristics.py:36): None takes the next entropy *)
Definition seed_with (s : option Z) (e : nat -> rng) : rng * (nat -> rng) :=
  match s with
  | Some z => (seeded z, e)
  | None => (e 0, fun k => e (S k))
  end.

(** azp.py:32-56 with the default strategy *)
Definition new_azp (seed : option Z) : object := ObjAzp seed (SAzp unstarted) None.

(** the object [i] after a fit has assigned its attributes (azp.py:109-110, 662; heuristics.py:123) *)
Definition set_obj (p : process) (gen' : rng) (ent' : nat -> rng) (i : nat) (o : object) : process :=
  mkProc gen' ent' (upd (objs p) i o).

(** AZPSimulatedAnnealing.fit_from_scipy_sparse_matrix, azp.py:585-662: after the check of the
    cooling factor the generator is seeded with the object's own random_state by AZP.__init__
    (azp.py:626-628). *)
Definition sa_fit_seeded (seed : option Z) (a : sa_args) (g : graph) (attr : list (list Q)) (n_regions : Z)
    (cooling : Q) (initial : option (list Z)) (m : sa_memory) (e : nat -> rng)
  : out (option (list Z) * sa_memory * rng * (nat -> rng)) :=
  let '(r, e') := seed_with seed e in
  let* '(l, m', r') := sa_fit expf order obj azp_fuel g attr n_regions sa_fuel cooling initial a m r in
  Ok (l, m', r', e').

(** heuristics.py:103-123 with an AZP object as local search; its labels_ are kept beside the strategy *)
Definition maxp_on_azp (g : graph) (attr sp : list (list Q)) (threshold : list Q) (max_it : nat)
    (fresh : rng) (labels0 : option (list Z)) (ls : option (strategy * option (list Z))) (r : rng) :=
  maxp_fit (strategy * option (list Z)) (fun x => (maxp_wrap sp threshold (fst x), snd x))
    (fun x p l r => let* '((labels, s'), r') := azp_fit expf order obj azp_fuel g attr p (Some l) (fst x) r in
                    Ok (Some labels, (s', Some labels), r'))
    obj attr (fun _ => ((SAzp unstarted, None), fresh)) metric g sp threshold max_it labels0 ls r.

(** the same with an AZPBasicTabu object (heuristics.py:103-123) *)
Definition maxp_on_basic (tabu_length : option nat) (reps : nat) (g : graph) (attr sp : list (list Q)) (threshold : list Q) (max_it : nat)
    (labels0 : option (list Z)) (ls : strategy * option (list Z)) (r : rng) :=
  maxp_fit (strategy * option (list Z)) (fun x => (maxp_wrap sp threshold (fst x), snd x))
    (fun x p l r => let* '((labels, s'), r') := basic_fit_with expf order obj azp_fuel tabu_length reps g attr p (Some l) (fst x) r in
                    Ok (Some labels, (s', Some labels), r'))
    obj attr (fun r => (ls, r)) metric g sp threshold max_it labels0 (Some ls) r.

(** the same with an AZPReactiveTabu object (heuristics.py:103-123) *)
Definition maxp_on_reactive (maxit k1 k2 : nat) (g : graph) (attr sp : list (list Q)) (threshold : list Q) (max_it : nat)
    (labels0 : option (list Z)) (ls : reactive_with strategy * option (list Z)) (r : rng) :=
  maxp_fit (reactive_with strategy * option (list Z))
    (fun x => (mkReactiveWith (maxp_wrap sp threshold (rw_strat (fst x))) (rw_avg (fst x)) (rw_reps (fst x)) (rw_visited (fst x)), snd x))
    (fun x p l r => let* '((labels, s'), r') := reactive_fit_with expf order obj maxit k1 k2 g attr p (Some l) (fst x) r in
                    Ok (Some labels, (s', Some labels), r'))
    obj attr (fun r => (ls, r)) metric g sp threshold max_it labels0 (Some ls) r.

(** the same with an AZPSimulatedAnnealing object, which seeds the generator at each of its fits
    (cooling_factor keeps its default 0.85, azp.py:591) *)
Definition maxp_on_sa (seed : option Z) (a : sa_args) (g : graph) (attr sp : list (list Q)) (threshold : list Q) (max_it : nat)
    (labels0 : option (list Z)) (m : sa_memory) (l0 : option (list Z)) (e : nat -> rng) (r : rng) :=
  maxp_fit (sa_memory * option (list Z) * (nat -> rng)) (fun x => x)
    (fun x p l r => let* '(labels, m', r', e') := sa_fit_seeded seed a g attr p (85 # 100) (Some l) (fst (fst x)) (snd x) in
                    Ok (labels, (m', labels, e'), r'))
    obj attr (fun r => ((m, l0, e), r)) metric g sp threshold max_it labels0 (Some (m, l0, e)) r.

(** One step of the process: azp.py:32-110, 408-458, 585-662, 742-763, 876-905; heuristics.py:17-123.  A fit that
    raises ends the history. *)
Definition step (p : process) (o : op) : out process :=
  match o with
  | NewAzp seed =>
      let '(r, e) := seed_with seed (ent p) in Ok (mkProc r e (objs p ++ [new_azp seed]))
  | NewSa seed a => Ok (mkProc (gen p) (ent p) (objs p ++ [ObjSa seed a (mkSaMemory false []) None]))
  | NewBasic tabu_length reps seed =>
      let '(r, e) := seed_with seed (ent p) in Ok (mkProc r e (objs p ++ [ObjBasic seed tabu_length reps (SAzp unstarted) None]))
  | NewReactive max_iterations k1 k2 seed =>
      let '(r, e) := seed_with seed (ent p) in
      let* s := reactive_with_new max_iterations in
      Ok (mkProc r e (objs p ++ [ObjReactive seed (Z.to_nat max_iterations) k1 k2 s None]))
  | NewMaxP ls seed =>
      let '(r, e) := seed_with seed (ent p) in Ok (mkProc r e (objs p ++ [ObjMaxP seed ls None]))
  | FitAzp i g attr n initial =>
      match nth_error (objs p) i with
      | Some (ObjAzp seed s _) =>
          let* '((labels, s'), r') := azp_fit expf order obj azp_fuel g attr n initial s (gen p) in
          Ok (set_obj p r' (ent p) i (ObjAzp seed s' (Some labels)))
      | Some (ObjBasic seed tl reps s _) =>
          let* '((labels, s'), r') := basic_fit_with expf order obj azp_fuel tl reps g attr n initial s (gen p) in
          Ok (set_obj p r' (ent p) i (ObjBasic seed tl reps s' (Some labels)))
      | Some (ObjReactive seed maxit k1 k2 s _) =>
          let* '((labels, s'), r') := reactive_fit_with expf order obj maxit k1 k2 g attr n initial s (gen p) in
          Ok (set_obj p r' (ent p) i (ObjReactive seed maxit k1 k2 s' (Some labels)))
      | _ => Raise AttributeError
      end
  | FitSa i g attr n cooling initial =>
      match nth_error (objs p) i with
      | Some (ObjSa seed a m _) =>
          let* '(labels, m', r', e') := sa_fit_seeded seed a g attr n cooling initial m (ent p) in
          Ok (set_obj p r' e' i (ObjSa seed a m' labels))
      | _ => Raise AttributeError
      end
  | FitMaxP i g attr sp threshold max_it =>
      match nth_error (objs p) i with
      | Some (ObjMaxP seed ls labels0) =>
          match ls with
          | None =>
              let* '(labels, ls', r') := maxp_on_azp g attr sp threshold max_it (ent p 0) labels0 None (gen p) in
              match ls' with
              | None => Ok (set_obj p r' (ent p) i (ObjMaxP seed None labels))
              | Some x => Ok (mkProc r' (fun k => ent p (S k))
                                (upd (objs p) i (ObjMaxP seed (Some (length (objs p))) labels) ++ [ObjAzp None (fst x) (snd x)]))
              end
          | Some j =>
              match nth_error (objs p) j with
              | Some (ObjAzp seed' s l0) =>
                  let* '(labels, ls', r') := maxp_on_azp g attr sp threshold max_it (ent p 0) labels0 (Some (s, l0)) (gen p) in
                  let x := match ls' with Some x => x | None => (s, l0) end in
                  Ok (mkProc r' (ent p) (upd (upd (objs p) i (ObjMaxP seed ls labels)) j (ObjAzp seed' (fst x) (snd x))))
              | Some (ObjSa seed' a m l0) =>
                  let* '(labels, ls', r') := maxp_on_sa seed' a g attr sp threshold max_it labels0 m l0 (ent p) (gen p) in
                  let '(m', l', e') := match ls' with Some x => x | None => (m, l0, ent p) end in
                  Ok (mkProc r' e' (upd (upd (objs p) i (ObjMaxP seed ls labels)) j (ObjSa seed' a m' l')))
              | Some (ObjBasic seed' tl reps s l0) =>
                  let* '(labels, ls', r') := maxp_on_basic tl reps g attr sp threshold max_it labels0 (s, l0) (gen p) in
                  let x := match ls' with Some x => x | None => (s, l0) end in
                  Ok (mkProc r' (ent p) (upd (upd (objs p) i (ObjMaxP seed ls labels)) j (ObjBasic seed' tl reps (fst x) (snd x))))
              | Some (ObjReactive seed' maxit k1 k2 s l0) =>
                  let* '(labels, ls', r') := maxp_on_reactive maxit k1 k2 g attr sp threshold max_it labels0 (s, l0) (gen p) in
                  let x := match ls' with Some x => x | None => (s, l0) end in
                  Ok (mkProc r' (ent p) (upd (upd (objs p) i (ObjMaxP seed ls labels)) j (ObjReactive seed' maxit k1 k2 (fst x) (snd x))))
              | _ => Raise AttributeError
              end
          end
      | _ => Raise AttributeError
      end
  end.

(** A history of constructions and fits, i.e. of calls of azp.py:32, 58, 408, 585; heuristics.py:17, 39 *)
Fixpoint run (ops : list op) (p : process) : out process :=
  match ops with
  | [] => Ok p
  | o :: ops' => let* p' := step p o in run ops' p'
  end.

(** [labels_] of an object (azp.py:110, 662; heuristics.py:123) *)
Definition labels_attr (o : object) : option (list Z) :=
  match o with
  | ObjAzp _ _ l => l | ObjSa _ _ _ l => l | ObjBasic _ _ _ _ l => l | ObjReactive _ _ _ _ _ l => l | ObjMaxP _ _ l => l
  end.
(** what a user sees of object i after a history: its labels_ (azp.py:110, 662; heuristics.py:123), or
    the exception *)
Definition seen (i : nat) (m : out process) : out (option (list Z)) :=
  let* p := m in match nth_error (objs p) i with Some o => Ok (labels_attr o) | None => Raise IndexError end.
End Machine.
