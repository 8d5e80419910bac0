(** Property C139: the number of regions of the max-p heuristic, the construction rounds and the local search. *)
From Verif Require Import Base Spec M_Graph P_Graph M_Util P_Base P_Util P_Forest P_Init P_Initial
  M_Objective P_Sum P_Objective M_Azp P_Azp P_Strategy P_Fit P_AzpFit M_Sa Examples Props_Objective Props_Strategy Props_Azp Props_Sa
  M_MaxP P_MaxP P_MaxP2 P_MaxP3 P_MaxP4 Props_MaxP M_Tabu P_Tabu P_TabuFit Props_Tabu M_TabuWith P_TabuWith Props_MaxPTabu.

(** [found d g attr sp thr max_it r labels]: a fit of MaxPRegionsHeu that starts with the draws [r] and makes [max_it]
    constructions can return [labels]: with AZP (whatever its history, or none: the default), AZPSimulatedAnnealing,
    AZPBasicTabu or, on a connected map, a new AZPReactiveTabu as local search; whatever the objective. *)
Inductive found (d : list Q -> list Q -> Q) (g : graph) (attr sp : list (list Q)) (thr : list Q) (max_it : nat) (r : rng)
  : option (list Z) -> Prop :=
| found_azp expf order O fuel entropy labels0 ls labels ls' r' : (forall l, Permutation (order l) l) ->
    maxp_azp_fit expf order O d fuel g attr sp thr max_it entropy labels0 ls r = Ok (labels, ls', r') ->
    found d g attr sp thr max_it r labels
| found_sa expf order O azp_fuel fuel cooling args labels0 mem labels mem' r' : (forall l, Permutation (order l) l) ->
    sa_maxit args <> Some 0 -> 0 < sa_nonmoving_steps args ->
    maxp_sa_fit expf order O d azp_fuel fuel cooling args g attr sp thr max_it labels0 mem r = Ok (labels, mem', r') ->
    found d g attr sp thr max_it r labels
| found_basic expf order O fuel maxlen reps labels0 s labels s' r' : (forall l, Permutation (order l) l) ->
    maxp_basic_fit expf order O d fuel maxlen reps g attr sp thr max_it labels0 s r = Ok (labels, s', r') ->
    found d g attr sp thr max_it r labels
| found_reactive expf order O maxit k1 k2 labels0 s labels s' r' : (forall l, Permutation (order l) l) -> n_islands g 1 ->
    reactive_with_new maxit = Ok s ->
    maxp_reactive_fit expf order O d (Z.to_nat maxit) k1 k2 g attr sp thr max_it labels0 s r = Ok (labels, s', r') ->
    found d g attr sp thr max_it r labels.

Lemma grows_prefix d g attr sp thr : forall r runs r1, grows d g attr sp thr r runs r1 -> forall runs' r2, grows d g attr sp thr r runs' r2 ->
  length runs <= length runs' -> forall x, In x runs -> In x runs'.
Proof.
  intros r runs r1 H. induction H as [r|r P E r1 runs r2 Hg H IH]; intros runs' r2' H' Hlen x Hx; [destruct Hx|].
  destruct H' as [r'|r' P' E' r1' runs' r2' Hg' H']; [cbn in Hlen; lia|].
  rewrite Hg in Hg'. injection Hg' as <- <- <-. destruct Hx as [<-|Hx]; [left; auto|]. right. eapply IH; eauto. cbn in Hlen. lia.
Qed.

Section Found.
Variables (d : list Q -> list Q -> Q) (g : graph) (attr sp : list (list Q)) (thr : list Q).
Hypothesis Hsym : symmetric g.
Hypothesis Hloop : no_self_loops g.
Hypothesis Hsp : shaped sp thr (gn g).
Hypothesis Hpos : non_negative sp.
Hypothesis Hthr : exists t, In t thr /\ (0 < t)%Q.

Lemma found_built max_it r labels : 0 < max_it -> found d g attr sp thr max_it r labels ->
  exists runs l, labels = Some l /\ built d g attr sp thr max_it r runs /\ feasible g l (n_labels l) /\
    (forall x, In x runs -> length (fst x) <= n_labels l) /\ (exists x, In x runs /\ length (fst x) = n_labels l).
Proof.
  intros Hit H.
  assert (Hx : exists runs p l, labels = Some l /\ built d g attr sp thr max_it r runs /\
    (forall x, In x runs -> length (fst x) <= p) /\ (exists x, In x runs /\ length (fst x) = p) /\ feasible g l p).
  { destruct H.
    - edestruct C35_maxp_valid as [runs [p [l [H1 [H2 [H3 [H4 [H5 _]]]]]]]]; [..|exists runs, p, l; eauto]; eauto.
    - edestruct C37_maxp_sa_partial as [runs [p [l [H1' [H2' [H3' [H4' H5']]]]]]]; [..|exists runs, p, l; eauto]; eauto.
    - edestruct C140_maxp_basic_valid as [runs [p [l [H1 [H2 [H3 [H4 [H5 _]]]]]]]]; [..|exists runs, p, l; eauto]; eauto.
    - edestruct C141_maxp_reactive_partial as [runs [p [l [H1' [H2' [H3' [H4' [H5' _]]]]]]]]; [..|exists runs, p, l; eauto]; eauto. }
  destruct Hx as [runs [p [l [H1 [H2 [H3 [H4 H5]]]]]]]. assert (p = n_labels l) as -> by (symmetry; apply H5). exists runs, l. auto.
Qed.

(** C139: with the same draws, more constructions never give fewer regions, whatever the local searches of the two fits. *)
Theorem C139_more_iterations max_it max_it' r labels labels' : 0 < max_it -> max_it <= max_it' ->
  found d g attr sp thr max_it r labels -> found d g attr sp thr max_it' r labels' ->
  exists l l', labels = Some l /\ labels' = Some l' /\ n_labels l <= n_labels l'.
Proof.
  intros H0 Hle H H'. destruct (found_built max_it r labels H0 H) as [runs [l [-> [[Hl [r1 Hg]] [_ [_ [x [Hx E]]]]]]]].
  destruct (found_built max_it' r labels' ltac:(lia) H') as [runs' [l' [-> [[Hl' [r1' Hg']] [_ [Hmax' _]]]]]].
  exists l, l'. split; [auto|]. split; [auto|]. rewrite <- E. apply Hmax'.
  apply (grows_prefix d g attr sp thr r runs r1 Hg runs' r1' Hg'); [lia|auto].
Qed.

(** Hence the number of regions depends on the draws and the number of constructions only. *)
Theorem C139_same_number max_it r labels labels' : 0 < max_it ->
  found d g attr sp thr max_it r labels -> found d g attr sp thr max_it r labels' ->
  exists l l', labels = Some l /\ labels' = Some l' /\ n_labels l = n_labels l'.
Proof.
  intros H0 H H'. destruct (C139_more_iterations max_it max_it r labels labels' H0 (le_n _) H H') as [l [l' [E1 [E2 H1]]]].
  destruct (C139_more_iterations max_it max_it r labels' labels H0 (le_n _) H' H) as [m' [m [E3 [E4 H2]]]].
  exists l, l'. split; [auto|]. split; [auto|]. rewrite E1 in E4. rewrite E2 in E3. injection E4 as <-. injection E3 as <-. lia.
Qed.
End Found.

(** ** Examples *)
Local Notation att := (map (fun q : Q => [q])).
Lemma found_labels fuel it g attr sp t r l : mp_labels (mp_basic_ex fuel None 2 g attr sp t it r) = Some l ->
  found manhattan g (att attr) (att sp) [t] it r (Some l).
Proof.
  unfold mp_labels, mp_basic_ex. intros H.
  destruct (maxp_basic_fit _ _ _ _ _ _ _ _ _ _ _ _ _ _ _) as [[[labels s'] r']|e|] eqn:E; [|discriminate|discriminate]. subst labels.
  eapply found_basic; [|exact E]. auto.
Qed.
Lemma found_default fuel it g attr sp t r l :
  mp_labels (maxp_azp_fit (fun x => x) same_order (pairwise manhattan) manhattan fuel g (att attr) (att sp) [t] it r None None r) = Some l ->
  found manhattan g (att attr) (att sp) [t] it r (Some l).
Proof.
  unfold mp_labels. intros H.
  destruct (maxp_azp_fit _ _ _ _ _ _ _ _ _ _ _ _ _ _) as [[[labels s'] r']|e|] eqn:E; [|discriminate|discriminate]. subst labels.
  eapply found_azp; [|exact E]. auto.
Qed.

(** seven areas in a row, two per region: with these draws the first construction has two regions and the second one three *)
Example C139_example :
  found manhattan (path_graph 7) (att [0;9;1;8;2;3;9]%Q) (att (repeat 1%Q 7)) [2%Q] 1 (draws140 8) (Some [0;0;0;1;1;1;1]%Z) /\
  found manhattan (path_graph 7) (att [0;9;1;8;2;3;9]%Q) (att (repeat 1%Q 7)) [2%Q] 2 (draws140 8) (Some [0;0;2;2;2;1;1]%Z).
Proof. split; [apply (found_default 40)|apply (found_labels 40)]; vm_compute; reflexivity. Qed.

Print Assumptions C139_more_iterations.
Print Assumptions C139_same_number.
