(** Property C144: random_state and the tabu classes. *)
From Verif Require Import Base Spec SpecData M_Graph P_Graph M_Util P_Base M_Objective P_Objective M_Azp M_Sa M_Tabu P_Reactive M_MaxP M_TabuWith P_TabuWith M_Random P_Random
  Examples Props_Objective Props_Azp Props_Sa Props_MaxP Props_Random Props_Tabu P_TwoRuns Props_MaxPTabu Props_TabuNames P_Forest P_Util P_Fit P_AzpFit Props_Descent.
From Coq Require Import Permutation.
Local Notation att := (map (fun q : Q => [q])).

(** the labels of a fit *)
Definition shown_labels {St} (o : out ((list Z * St) * rng)) : out (option (list Z)) := let* x := o in Ok (Some (fst (fst x))).

Section Machine.
Variables (seeded : Z -> rng) (expf : Q -> Q) (order : list edge -> list edge) (O : objfun) (d : list Q -> list Q -> Q) (fuel fuel' : nat).
Let run := run seeded expf order O d fuel fuel'.

Lemma fit_basic_seen i s tl reps st l g attr n initial q : nth_error (objs q) i = Some (ObjBasic s tl reps st l) ->
  seen i (run [FitAzp i g attr n initial] q) = shown_labels (basic_fit_with expf order O fuel tl reps g attr n initial st (gen q)).
Proof.
  intros Hi. unfold run. cbn -[basic_fit_with]. rewrite Hi. unfold shown_labels.
  destruct (basic_fit_with _ _ _ _ _ _ _ _ _ _ _ _) as [[[l' s'] r']|e|]; cbn [bind fst]; auto. unfold seen. cbn.
  rewrite nth_error_upd_eq by (apply nth_error_Some; congruence). reflexivity.
Qed.

Lemma fit_reactive_seen i s m k1 k2 st l g attr n initial q : nth_error (objs q) i = Some (ObjReactive s m k1 k2 st l) ->
  seen i (run [FitAzp i g attr n initial] q) = shown_labels (reactive_fit_with expf order O m k1 k2 g attr n initial st (gen q)).
Proof.
  intros Hi. unfold run. cbn -[reactive_fit_with]. rewrite Hi. unfold shown_labels.
  destruct (reactive_fit_with _ _ _ _ _ _ _ _ _ _ _ _) as [[[l' s'] r']|e|]; cbn [bind fst]; auto. unfold seen. cbn.
  rewrite nth_error_upd_eq by (apply nth_error_Some; congruence). reflexivity.
Qed.

Lemma run_cons o ops p : run (o :: ops) p = bind (run [o] p) (run ops).
Proof. unfold run. cbn. destruct (step _ _ _ _ _ _ _ p o) as [p'|e|]; reflexivity. Qed.

(** C144 (partial): a tabu object constructed with a random_state and fitted at once gives the same in every process,
    labels or exception. *)
Theorem C144_basic_at_once_partial tabu_length reps s g attr n initial p p' :
  seen (length (objs p)) (run [NewBasic tabu_length reps (Some s); FitAzp (length (objs p)) g attr n initial] p) =
  seen (length (objs p')) (run [NewBasic tabu_length reps (Some s); FitAzp (length (objs p')) g attr n initial] p').
Proof.
  assert (H : forall q, seen (length (objs q)) (run [NewBasic tabu_length reps (Some s); FitAzp (length (objs q)) g attr n initial] q) =
    shown_labels (basic_fit_with expf order O fuel tabu_length reps g attr n initial (SAzp unstarted) (seeded s))).
  { intros q. rewrite run_cons. unfold run at 1. cbn -[basic_fit_with seen run].
    erewrite fit_basic_seen; [reflexivity|]. cbn. rewrite nth_error_app2, Nat.sub_diag by lia. reflexivity. }
  rewrite !H. reflexivity.
Qed.

Theorem C144_reactive_at_once_partial max_iterations k1 k2 s g attr n initial p p' :
  seen (length (objs p)) (run [NewReactive max_iterations k1 k2 (Some s); FitAzp (length (objs p)) g attr n initial] p) =
  seen (length (objs p')) (run [NewReactive max_iterations k1 k2 (Some s); FitAzp (length (objs p')) g attr n initial] p').
Proof.
  assert (H : forall q, seen (length (objs q)) (run [NewReactive max_iterations k1 k2 (Some s); FitAzp (length (objs q)) g attr n initial] q) =
    let* st := reactive_with_new max_iterations in
    shown_labels (reactive_fit_with expf order O (Z.to_nat max_iterations) k1 k2 g attr n initial st (seeded s))).
  { intros q. rewrite run_cons. unfold run at 1. cbn -[reactive_fit_with seen run reactive_with_new].
    destruct (reactive_with_new max_iterations) as [st|e|]; cbn [bind]; [|reflexivity|reflexivity].
    erewrite fit_reactive_seen; [reflexivity|]. cbn. rewrite nth_error_app2, Nat.sub_diag by lia. reflexivity. }
  rewrite !H. reflexivity.
Qed.

(** C144: with initial labels an AZPReactiveTabu object (k1 >= 1, connected map) shows the same in every process, whatever
    happens between its construction and its first fit, and whatever the random_state, k1 and k2 of the object. *)
Theorem C144_reactive_interleaved g attr max_iterations k1 k2 k1' k2' s s' ops n initial p q p' :
  (forall l, Permutation (order l) l) ->
  symmetric g -> length attr = gn g -> n_islands g 1 -> exact_on O attr -> 1 <= k1 -> 1 <= k1' ->
  valid_request g n (Some initial) ->
  forallb (fun o => negb (refers (length (objs p)) o)) (objs p) = true ->
  forallb (fun o => negb (uses (length (objs p)) o)) ops = true ->
  run (NewReactive max_iterations k1 k2 s :: ops) p = Ok q ->
  seen (length (objs p)) (run (NewReactive max_iterations k1 k2 s :: ops ++ [FitAzp (length (objs p)) g attr n (Some initial)]) p) =
  seen (length (objs p')) (run [NewReactive max_iterations k1' k2' s'; FitAzp (length (objs p')) g attr n (Some initial)] p').
Proof.
  intros Hord Hsym Hattr Hone Hex Hk Hk' Hv Href Huse Hq.
  assert (Hnew : exists st, reactive_with_new max_iterations = Ok st).
  { rewrite run_cons in Hq. unfold run at 1 in Hq. cbn in Hq. destruct (seed_with seeded s (ent p)) as [r e].
    destruct (reactive_with_new max_iterations) as [st|e'|]; cbn in Hq; try discriminate. eauto. }
  destruct Hnew as [st Hnew].
  assert (Hpl : st = plain_of (mkReactive unstarted 1 1 []) /\ reactive_new max_iterations unstarted = Ok (mkReactive unstarted 1 1 [])).
  { revert Hnew. unfold reactive_with_new, reactive_new. destruct (Z.leb max_iterations 0); [discriminate|]. intros E. injection E as <-. split; reflexivity. }
  destruct Hpl as [-> Hold].
  set (m := Z.to_nat max_iterations).
  assert (Hi : length initial = gn g /\ ~ In (-1)%Z initial) by (destruct Hv as [_ [[L _] M]]; auto).
  assert (HP : forall k2 k1 r, 1 <= k1 -> shown_labels (reactive_fit_with expf order O m k1 k2 g attr n (Some initial) (plain_of (mkReactive unstarted 1 1 [])) r) =
    shown_labels (reactive_fit order O m k1 k2 g attr n (Some initial) (mkReactive unstarted 1 1 []) r)).
  { intros j2 j1 r Hj. pose proof (reactive_fit_plain expf order O m j1 j2 g attr n (Some initial) (mkReactive unstarted 1 1 []) r Hord Hi) as R.
    destruct (reactive_fit_with _ _ _ _ _ _ _ _ _ _ _ _) as [[[l1 s1] r1]|e1|], (reactive_fit _ _ _ _ _ _ _ _ _ _ _) as [[[l2 s2] r2]|e2|];
      cbn in R; try contradiction; cbn; [|subst; reflexivity|reflexivity]. destruct R as [R _]. cbn in R. subst. reflexivity. }
  assert (HQ : forall r r', shown_labels (reactive_fit order O m k1 k2 g attr n (Some initial) (mkReactive unstarted 1 1 []) r) =
    shown_labels (reactive_fit order O m k1' k2' g attr n (Some initial) (mkReactive unstarted 1 1 []) r')).
  { intros r r'. destruct (C115_reactive_parameters order order O g attr max_iterations unstarted unstarted _ _ k1 k2 k1' k2' n initial r r'
      Hsym Hattr Hone Hex Hold Hold Hk Hk' Hv) as [A B]. fold m in A, B.
    destruct (reactive_fit order O m k1 k2 g attr n (Some initial) _ r) as [[[l1 s1] r1]|e1|].
    - destruct (proj1 (A l1)) as [s2 [r2 ->]]; [eauto|]. reflexivity.
    - rewrite (proj1 (B e1) eq_refl). reflexivity.
    - destruct (reactive_fit order O m k1' k2' g attr n (Some initial) _ r') as [[[l2 s2] r2]|e2|]; [|discriminate (proj2 (B e2) eq_refl)|reflexivity].
      destruct (proj2 (A l2)) as [s3 [r3 E]]; [eauto|]. discriminate. }
  set (x := ObjReactive s m k1 k2 (plain_of (mkReactive unstarted 1 1 [])) None).
  assert (Hl : run (NewReactive max_iterations k1 k2 s :: ops ++ [FitAzp (length (objs p)) g attr n (Some initial)]) p =
    run [FitAzp (length (objs p)) g attr n (Some initial)] q).
  { rewrite app_comm_cons. unfold run. rewrite run_app. fold run. rewrite Hq. reflexivity. }
  rewrite Hl, (fit_reactive_seen _ s m k1 k2 (plain_of (mkReactive unstarted 1 1 [])) None).
  - rewrite run_cons. unfold run at 1. cbn -[reactive_fit_with seen run reactive_with_new].
    destruct (seed_with seeded s' (ent p')) as [r' e']. rewrite Hnew. cbn [bind].
    rewrite (fit_reactive_seen _ s' m k1' k2' (plain_of (mkReactive unstarted 1 1 [])) None).
    + rewrite !HP by auto. apply HQ.
    + cbn. rewrite nth_error_app2, Nat.sub_diag by lia. reflexivity.
  - rewrite run_cons in Hq. unfold run at 1 in Hq. cbn -[run reactive_with_new] in Hq. destruct (seed_with seeded s (ent p)) as [r e].
    rewrite Hnew in Hq. cbn [bind] in Hq. fold m in Hq. fold x in Hq.
    assert (U : unshared (length (objs p)) x (mkProc r e (objs p ++ [x]))).
    { split; cbn; [rewrite nth_error_app2, Nat.sub_diag by lia; reflexivity|]. rewrite forallb_app, Href. reflexivity. }
    destruct (run_unshared _ _ _ _ _ _ _ _ _ _ _ _ Huse U Hq) as [U1 _]. exact U1.
Qed.
End Machine.

(** C144 is false of the code without initial labels: constructing another object between the construction of a tabu
    object and its fit changes the labels.  Five areas in a row with the values 0 0 2 0 3; the generator seeded with z
    draws z all the time. *)
Definition constant_draws (z : Z) : rng := fun _ => Z.to_nat z.
Theorem C144_interleaved_refuted :
  exists seeded s s2 g attr n l1 l2, forall p, objs p = [] ->
    let run := run seeded expd same_order (pairwise manhattan) manhattan 40 40 in
    (seen 0 (run [NewBasic None 5 (Some s); FitAzp 0 g attr n None] p) = Ok (Some l1) /\
     seen 0 (run [NewBasic None 5 (Some s); NewBasic None 5 (Some s2); FitAzp 0 g attr n None] p) = Ok (Some l2)) /\
    (seen 0 (run [NewReactive 9 1 1 (Some s); FitAzp 0 g attr n None] p) = Ok (Some l1) /\
     seen 0 (run [NewReactive 9 1 1 (Some s); NewMaxP None (Some s2); FitAzp 0 g attr n None] p) = Ok (Some l2)) /\
    ~ same_partition l1 l2.
Proof.
  exists constant_draws, 1%Z, 3%Z, (path_graph 5), (att [0;0;2;0;3]%Q), 2%Z, [0;0;1;1;1]%Z, [0;0;0;0;1]%Z.
  intros [r e os] Ho. cbn in Ho. subst os. cbv zeta. split; [split; vm_compute; reflexivity|]. split; [split; vm_compute; reflexivity|].
  intros [_ H]. assert (H1 : 1 < 5) by lia. assert (H2 : 2 < 5) by lia. pose proof (proj2 (H 1 2 H1 H2) eq_refl). discriminate.
Qed.

(** A script with tabu objects, one of them as local search, that is reproducible by C39_whole_script_partial *)
Definition script144 : list op :=
  [NewBasic None 3 (Some 1%Z); fit39 0; NewReactive 4 1 1 (Some 2%Z); FitAzp 1 (path_graph 5) (att [2;4;3;1;1]%Q) 2%Z (Some [0;0;1;1;1]%Z);
   NewMaxP (Some 0) (Some 4%Z); fitmp39 2].
Example C144_script_example : forallb op_seeded script144 = true /\
  seen 1 (run39 script144 (mkProc rng0 (fun _ => rng0) [])) = Ok (Some [0;0;0;1;1]%Z) /\
  (exists l, seen 2 (run39 script144 (mkProc rng0 (fun _ => rng0) [])) = Ok (Some l)).
Proof. vm_compute. repeat split; auto. eexists; reflexivity. Qed.

(** and an AZPReactiveTabu object fitted after other objects were made and fitted *)
Example C144_example :
  n_islands (path_graph 5) 1 /\ valid_request (path_graph 5) 2 (Some [0;0;1;1;1]%Z) /\
  forallb (fun o => negb (uses 0 o)) between39 = true /\
  (exists q, run39 (NewReactive 4 1 1 None :: between39) (mkProc rng0 os39 []) = Ok q) /\
  seen 0 (run39 (NewReactive 4 1 1 None :: between39 ++ [FitAzp 0 (path_graph 5) (att [2;4;3;1;1]%Q) 2%Z (Some [0;0;1;1;1]%Z)]) (mkProc rng0 os39 []))
    = Ok (Some [0;0;0;1;1]%Z) /\
  seen 0 (run39 [NewReactive 0 1 1 (Some 1%Z)] (mkProc rng0 os39 [])) = Raise (ValueError "The `max_iterations` argument must be > 0.") /\
  seen 0 (run39 [NewBasic None 3 (Some 1%Z); FitAzp 0 (path_graph 5) (att [2;4;3;1;1]%Q) 2%Z None] (mkProc S os39 [])) = Ok (Some [0;0;0;1;1]%Z).
Proof.
  split; [apply n_islands_iff; vm_compute; reflexivity|]. split; [valid_tac|]. split; [reflexivity|].
  split; [eexists; vm_compute; reflexivity|]. split; [vm_compute; reflexivity|]. split; vm_compute; reflexivity.
Qed.

Print Assumptions C144_basic_at_once_partial.
Print Assumptions C144_reactive_at_once_partial.
Print Assumptions C144_reactive_interleaved.
Print Assumptions C144_interleaved_refuted.
