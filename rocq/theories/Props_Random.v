(** Property C39: reproducibility under the process-wide random generator. *)
From Verif Require Import Base Spec M_Graph M_Util M_Objective M_Azp M_Sa M_MaxP M_Random P_Base P_Random
  Examples Props_Objective Props_Azp Props_Sa Props_MaxP.

(** C39 (partial).  What a script shows does not depend on the state of the generator, nor on the
    operating system, if every object of the script is given a random_state and every MaxPRegionsHeu a
    local search: all labels_, and exceptions, of all its objects are functions of the script alone.
    Missing for C39: the random_state of ONE object does not determine that object's labels (refuted
    below), and a MaxPRegionsHeu without local search is not reproducible at all (refuted below). *)
Theorem C39_whole_script_partial seeded expf order O d fuel fuel' ops i r e r' e' :
  forallb op_seeded ops = true ->
  seen i (run seeded expf order O d fuel fuel' ops (mkProc r e [])) =
  seen i (run seeded expf order O d fuel fuel' ops (mkProc r' e' [])).
Proof.
  intros H. apply alike_seen. apply run_alike; [exact H|]. repeat split; auto.
Qed.

(** C39 (partial): an AZP object constructed with a random_state and fitted at once gives the same in
    every process. *)
Theorem C39_azp_at_once_partial seeded expf order O d fuel fuel' s g attr n initial p p' :
  seen (length (objs p)) (run seeded expf order O d fuel fuel' [NewAzp (Some s); FitAzp (length (objs p)) g attr n initial] p) =
  seen (length (objs p')) (run seeded expf order O d fuel fuel' [NewAzp (Some s); FitAzp (length (objs p')) g attr n initial] p').
Proof.
  assert (H : forall q, seen (length (objs q)) (run seeded expf order O d fuel fuel' [NewAzp (Some s); FitAzp (length (objs q)) g attr n initial] q) =
    bind (azp_fit expf order O fuel g attr n initial (SAzp unstarted) (seeded s)) (fun x => Ok (Some (fst (fst x))))).
  { intros q. unfold run. cbn -[azp_fit]. rewrite nth_error_app2, Nat.sub_diag by lia. cbn -[azp_fit].
    destruct (azp_fit _ _ _ _ _ _ _ _ _ _) as [[[l s'] r']|e|]; cbn [bind fst]; auto. unfold seen. cbn.
    rewrite nth_error_upd_eq by (rewrite app_length; cbn; lia). reflexivity. }
  rewrite !H. reflexivity.
Qed.

(** C39 (partial): simulated annealing seeds the generator itself.  Whatever a process did before, and
    whatever it does between the construction of the object and its fit without using that object:
    the fit gives what it gives right after the construction, in any process. *)
Theorem C39_sa_interleaved_partial seeded expf order O d fuel fuel' s a ops g attr n c initial p q p' :
  forallb (fun o => negb (refers (length (objs p)) o)) (objs p) = true ->
  forallb (fun o => negb (uses (length (objs p)) o)) ops = true ->
  run seeded expf order O d fuel fuel' (NewSa (Some s) a :: ops) p = Ok q ->
  seen (length (objs p)) (run seeded expf order O d fuel fuel' (NewSa (Some s) a :: ops ++ [FitSa (length (objs p)) g attr n c initial]) p) =
  seen (length (objs p')) (run seeded expf order O d fuel fuel' [NewSa (Some s) a; FitSa (length (objs p')) g attr n c initial] p').
Proof.
  intros Href Huse Hq. set (x := ObjSa (Some s) a (mkSaMemory false []) None).
  assert (H : forall i q, nth_error (objs q) i = Some x ->
    seen i (run seeded expf order O d fuel fuel' [FitSa i g attr n c initial] q) =
    bind (sa_fit expf order O fuel g attr n fuel' c initial a (mkSaMemory false []) (seeded s)) (fun x => Ok (fst (fst x)))).
  { intros i q0 Hi. unfold run. cbn -[sa_fit]. rewrite Hi. unfold x, sa_fit_seeded. cbn -[sa_fit].
    destruct (sa_fit _ _ _ _ _ _ _ _ _ _ _ _) as [[[l m] r']|e|]; cbn [bind fst]; auto. unfold seen. cbn.
    assert (Hl : i < length (objs q0)) by (apply nth_error_Some; congruence).
    rewrite nth_error_upd_eq by lia. reflexivity. }
  rewrite app_comm_cons, run_app, Hq. cbn [bind]. rewrite H.
  - change (run seeded expf order O d fuel fuel' [NewSa (Some s) a; FitSa (length (objs p')) g attr n c initial] p')
      with (run seeded expf order O d fuel fuel' [FitSa (length (objs p')) g attr n c initial] (mkProc (gen p') (ent p') (objs p' ++ [x]))).
    rewrite H; [reflexivity|]. cbn. rewrite nth_error_app2, Nat.sub_diag by lia. reflexivity.
  - change (run seeded expf order O d fuel fuel' ops (mkProc (gen p) (ent p) (objs p ++ [x])) = Ok q) in Hq.
    assert (U : unshared (length (objs p)) x (mkProc (gen p) (ent p) (objs p ++ [x]))).
    { split; cbn; [rewrite nth_error_app2, Nat.sub_diag by lia; reflexivity|]. rewrite forallb_app, Href. reflexivity. }
    destruct (run_unshared _ _ _ _ _ _ _ _ _ _ _ _ Huse U Hq) as [U1 _]. exact U1.
Qed.

(** C39 is false of the code for AZP objects: only the seed of the object constructed LAST counts ... *)
Theorem C39_last_seed_counts seeded expf order O d fuel fuel' s s2 g attr n initial p :
  seen (length (objs p)) (run seeded expf order O d fuel fuel' [NewAzp s; NewAzp (Some s2); FitAzp (length (objs p)) g attr n initial] p) =
  seen (length (objs p)) (run seeded expf order O d fuel fuel' [NewAzp (Some s2); FitAzp (length (objs p)) g attr n initial] p).
Proof.
  assert (H : forall t i q, nth_error (objs q) i = Some (ObjAzp t (SAzp unstarted) None) ->
    seen i (run seeded expf order O d fuel fuel' [FitAzp i g attr n initial] q) =
    bind (azp_fit expf order O fuel g attr n initial (SAzp unstarted) (gen q)) (fun x => Ok (Some (fst (fst x))))).
  { intros t i q Hi. unfold run. cbn -[azp_fit]. rewrite Hi.
    destruct (azp_fit _ _ _ _ _ _ _ _ _ _) as [[[l s'] r']|e|]; cbn [bind fst]; auto. unfold seen. cbn.
    assert (Hl : i < length (objs q)) by (apply nth_error_Some; congruence).
    rewrite nth_error_upd_eq by lia. reflexivity. }
  change (run seeded expf order O d fuel fuel' [NewAzp (Some s2); FitAzp (length (objs p)) g attr n initial] p)
    with (run seeded expf order O d fuel fuel' [FitAzp (length (objs p)) g attr n initial] (mkProc (seeded s2) (ent p) (objs p ++ [new_azp (Some s2)]))).
  rewrite (H (Some s2)) by (cbn; rewrite nth_error_app2, Nat.sub_diag by lia; reflexivity).
  unfold run at 1. cbn -[azp_fit seen]. destruct (seed_with seeded s (ent p)) as [r1 e1]. cbn -[azp_fit seen].
  refine (eq_trans (H s _ (mkProc (seeded s2) e1 ((objs p ++ [new_azp s]) ++ [new_azp (Some s2)])) _) _); [|reflexivity].
  cbn. rewrite <- app_assoc, nth_error_app2, Nat.sub_diag by lia. reflexivity.
Qed.

(** ... so that constructing another object between construction and fit changes the labels. *)
Local Notation att := (map (fun q => [q])).
Definition seeded39 (z : Z) : rng := if Z.eqb z 1 then rng0 else draws [5;0;3;0;0;1;5;0;0;5;5;3;3;3;0;2;4;5;3;3;0;3;5;4].
Definition run39 := run seeded39 expd same_order (pairwise manhattan) manhattan 40 40.
Definition fit39 i := FitAzp i (path_graph 5) (att [2;4;3;1;1]%Q) 3%Z None.
Theorem C39_interleaved_refuted :
  exists seeded s s2 g attr n l1 l2, forall p, objs p = [] ->
    seen 0 (run seeded expd same_order (pairwise manhattan) manhattan 40 40 [NewAzp (Some s); FitAzp 0 g attr n None] p) = Ok (Some l1) /\
    seen 0 (run seeded expd same_order (pairwise manhattan) manhattan 40 40 [NewAzp (Some s); NewAzp (Some s2); FitAzp 0 g attr n None] p) = Ok (Some l2) /\
    ~ same_partition l1 l2.
Proof.
  exists seeded39, 1%Z, 2%Z, (path_graph 5), (att [2;4;3;1;1]%Q), 3%Z, [0;0;0;1;2]%Z, [0;1;1;2;2]%Z.
  intros [r e os] Ho. cbn in Ho. subst os. split; [vm_compute; reflexivity|]. split; [vm_compute; reflexivity|].
  intros [_ H]. assert (H1 : 0 < 5) by lia. assert (H2 : 1 < 5) by lia. pose proof (proj1 (H 0 1 H1 H2) eq_refl). discriminate.
Qed.

(** C39 is false of the code for MaxPRegionsHeu without local search: its random_state leaves the
    result to the operating system. *)
Definition os39 (k : nat) : rng := draws [5;5;4;3;1;1;3;1;5;4;4;2;1;2;5;4;4;5;0;4;4;3;0;5].
Definition fitmp39 i := FitMaxP i (path_graph 6) (att [2;3;1;1;3;0]%Q) (repeat [1%Q] 6) [2%Q] 1.
Theorem C39_maxp_default_refuted :
  exists seeded s g attr sp thr e e' l1 l2, forall r r',
    seen 0 (run seeded expd same_order (pairwise manhattan) manhattan 40 40 [NewMaxP None (Some s); FitMaxP 0 g attr sp thr 1] (mkProc r e [])) = Ok (Some l1) /\
    seen 0 (run seeded expd same_order (pairwise manhattan) manhattan 40 40 [NewMaxP None (Some s); FitMaxP 0 g attr sp thr 1] (mkProc r' e' [])) = Ok (Some l2) /\
    ~ same_partition l1 l2.
Proof.
  exists (fun _ k => nth (k + 10) [5;5;4;3;1;1;3;1;5;4;4;2;1;2;5;4;4;5;0;4;4;3;0;5] 0), 1%Z, (path_graph 6), (att [2;3;1;1;3;0]%Q), (repeat [1%Q] 6), [2%Q],
    (fun _ => rng0), os39, [1;1;1;1;0;0]%Z, [1;1;0;0;0;0]%Z.
  intros r r'. split; [vm_compute; reflexivity|]. split; [vm_compute; reflexivity|].
  intros [_ H]. assert (H1 : 1 < 6) by lia. assert (H2 : 2 < 6) by lia. pose proof (proj1 (H 1 2 H1 H2) eq_refl). discriminate.
Qed.

(** A script as in [C39_whole_script_partial], with three kinds of objects, that ends well *)
Definition script39 : list op :=
  [NewAzp (Some 1%Z); fit39 0; NewMaxP (Some 0) (Some 2%Z); fitmp39 1; NewSa (Some 3%Z) sa_args1;
   FitSa 2 (path_graph 5) (att [2;4;3;1;1]%Q) 2%Z (1 # 2) None; NewMaxP (Some 2) (Some 4%Z)].
Example C39_script_example : forallb op_seeded script39 = true /\
  seen 0 (run39 script39 (mkProc rng0 (fun _ => rng0) [])) = Ok (Some [2;2;1;1;0;0]%Z) /\
  seen 1 (run39 script39 (mkProc rng0 (fun _ => rng0) [])) = Ok (Some [2;2;1;1;0;0]%Z) /\
  (exists l, seen 2 (run39 script39 (mkProc rng0 (fun _ => rng0) [])) = Ok (Some l)) /\
  seen 3 (run39 script39 (mkProc rng0 (fun _ => rng0) [])) = Ok None.
Proof. vm_compute. repeat split; auto. eexists; reflexivity. Qed.
Example C39_azp_example :
  seen 0 (run39 [NewAzp (Some 1%Z); fit39 0] (mkProc rng0 os39 [])) = Ok (Some [0;0;0;1;2]%Z).
Proof. vm_compute. reflexivity. Qed.
(** another object, made without a random_state and fitted in between, does not disturb *)
Definition between39 : list op := [NewAzp None; fit39 1; NewMaxP None None; fitmp39 2].
Example C39_sa_example :
  forallb (fun o => negb (uses 0 o)) between39 = true /\
  (exists q, run39 (NewSa (Some 1%Z) sa_args1 :: between39) (mkProc rng0 os39 []) = Ok q) /\
  (exists l, seen 0 (run39 (NewSa (Some 1%Z) sa_args1 :: between39 ++ [FitSa 0 (path_graph 5) (att [2;4;3;1;1]%Q) 2%Z (1 # 2) None]) (mkProc rng0 os39 [])) = Ok (Some l)).
Proof. vm_compute. split; [reflexivity|]. split; eexists; reflexivity. Qed.

Print Assumptions C39_whole_script_partial.
Print Assumptions C39_azp_at_once_partial.
Print Assumptions C39_sa_interleaved_partial.
Print Assumptions C39_last_seed_counts.
Print Assumptions C39_interleaved_refuted.
Print Assumptions C39_maxp_default_refuted.
