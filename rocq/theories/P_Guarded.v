(** The tabu classes as local search of MaxPRegionsHeu when the wrapper's test is any test that implies [spared]: NaN thresholds, missing amounts. *)
From Verif Require Import Base Spec M_Graph P_Graph M_Util P_Base P_Util P_Forest P_Init P_Initial
  M_Objective P_Sum P_Objective M_Azp P_Azp P_Strategy P_Fit P_AzpFit M_Sa P_Sa M_Tabu P_Tabu P_TabuFit P_Reactive
  M_MaxP P_MaxP P_MaxP2 P_MaxP3 P_MaxP4 M_TabuWith P_TabuWith P_FloatMaxP.

Section Guarded.
Variable St : Type.
Variable start : St -> list Z -> list (list Q) -> list nat -> out St.
Variable call : St -> nat -> Z -> list Z -> rng -> out (bool * St * rng).
Variable order : list edge -> list edge.
Hypothesis Hord : forall l, Permutation (order l) l.
Variable O : objfun.
Variable d : list Q -> list Q -> Q.
Variable g : graph.
Variables attr sp : list (list Q).
Variable thr : list Q.
Hypothesis Hsym : symmetric g.
Hypothesis Hloop : no_self_loops g.
Hypothesis Hsp : shaped sp thr (gn g).
Hypothesis Hpos : non_negative sp.
Hypothesis Hthr : exists t, In t thr /\ (0 < t)%Q.
(** the wrapped object; the object in a component; what accepted moves keep *)
Variable J : St -> Prop.
Variable K : nat -> St -> Prop.
Variable W : nat -> list Z -> list Z -> Prop.
Hypothesis HW0 : forall c l, W c l l.
Notation spc c := (map (row sp) (comp_nodes g c)).
Hypothesis Hstart : forall c l s, c < n_components g -> J s -> post anyexn True (start s l (attr_c attr g c) (comp_nodes g c)) (K c).
Hypothesis Hcall : forall c s a z l r, c < n_components g -> K c s -> length l = gn (comp_graph g c) -> a < gn (comp_graph g c) ->
  post anyexn True (call s a z l r) (fun '(b, s', _) => K c s' /\
    (b = true -> spared (spc c) thr a l /\ forall l0, W c l0 l -> W c l0 (upd l a z))).
Hypothesis HKJ : forall c s, K c s -> J s.

Definition gu_V (c : nat) (names : Z -> Prop) (l0 : list Z) : list Z -> Prop := wr_V (spc c) thr (comp_graph g c) names (W c l0).

Lemma gu_call c names l0 s a z l r : c < n_components g -> K c s -> gu_V c names l0 l -> a < gn (comp_graph g c) -> names z ->
  post anyexn True (call s a z l r) (fun '(b, s', _) => K c s' /\ (b = true -> wf (comp_graph g c) (upd l a z) -> gu_V c names l0 (upd l a z))).
Proof.
  intros Hc Hs [Hwf [Hn [Hm HW]]] Ha Hz. assert (Hz' : In z l) by (apply Hn; auto). assert (Hlen : length l = gn (comp_graph g c)) by apply Hwf.
  pose proof (Hcall c s a z l r Hc Hs Hlen Ha) as Hp.
  destruct (call s a z l r) as [[[b s'] r']|e|]; cbn [post] in *; [|auto|auto].
  destruct Hp as [Hs' Hb]. split; [auto|]. intros Eb Hwf'. destruct (Hb Eb) as [Hd HW']. specialize (HW' l0 HW).
  split; [auto|]. destruct (Z.eq_dec (lab l a) z) as [Ez|Ez].
  { assert (Eu : upd l a z = l) by (rewrite <- Ez; unfold lab; apply upd_same; lia). rewrite Eu in *. auto. }
  pose proof (comp_non_negative g sp thr Hsp Hpos c) as Hpc.
  pose proof (spared_meets (spc c) thr a z l Hpc ltac:(lia) Hz' Ez Hd Hm) as Hm'.
  split; [|auto]. intros y. rewrite <- (Hn y). split.
  - intros Hy. apply In_upd in Hy. destruct Hy as [->|Hy]; auto.
  - intros Hy. destruct (Z.eq_dec y (lab l a)) as [->|Hne].
    + destruct (in_dec Z.eq_dec (lab l a) (upd l a z)) as [H|H]; [auto|exfalso].
      destruct Hthr as [t [Ht Hpt]]. apply In_nth_error in Ht. destruct Ht as [k Hk].
      pose proof (total_absent (spc c) _ _ k H) as H0. rewrite total_upd in H0 by lia.
      rewrite Z.eqb_refl in H0. destruct (Z.eqb_spec z (lab l a)) as [C|_]; [congruence|].
      destruct Hd as [H1|H1].
      * assert (H2 : (nth k (nth a (spc c) []) 0 == 0)%Q) by exact (any_nonzero_false _ H1 k). specialize (Hm _ Hy k t Hk). lra.
      * specialize (H1 k t Hk). lra.
    + apply In_nth_error in Hy. destruct Hy as [b' Hb']. apply (nth_error_In _ b'). rewrite nth_error_upd_ne; auto.
      intros ->. apply Hne. symmetry. apply lab_of_nth_error; auto.
Qed.

(** ** AZPBasicTabu *)
Definition gu_basic_fit fuel maxlen reps p l s r :=
  fit St start (fun adj labels rows s r => basic_component_with St call O adj fuel maxlen reps labels rows s r) order g attr p l s r.
Theorem gu_basic_post fuel maxlen reps p l s r :
  (0 <= p)%Z -> feasible g l (Z.to_nat p) -> ~ In (-1)%Z l -> all_meet sp thr l -> J s ->
  post anyexn True (gu_basic_fit fuel maxlen reps p (Some l) s r)
    (fun '((labels, s'), _) => feasible g labels (Z.to_nat p) /\ all_meet sp thr labels /\ J s' /\
       forall c, c < n_components g -> W c (comp_part g l c) (comp_part g labels c)).
Proof.
  intros Hp0 Hfeas Hm1 Hmeet HJ0. unfold gu_basic_fit.
  set (R := fun c l l' => wf (comp_graph g c) l' /\ same_labels l' l /\ (forall z, In z l' -> meets (spc c) thr l' z) /\ W c l l').
  set (A := fun c l => forall z, In z l -> meets (spc c) thr l z).
  pose proof Hfeas as [Hl [Hn Hall]].
  assert (Hmc : forall c, c < n_components g -> A c (comp_part g l c)).
  { intros c Hc z Hz. apply comp_part_In in Hz; auto. destruct Hz as [a [Ha [Hca Ez]]]. subst c.
    apply meets_comp; [split; auto|auto|]. apply Hmeet. eapply nth_error_In; eauto. }
  eapply (post_weaken anyexn anyexn True True); [auto|auto| |
    apply (fit_post_from St _ _ order g attr anyexn True (fun _ => J) R A)]; auto.
  - intros [[labels s'] r'] _ [HJ' [l0 [[_ [_ ->]] [Hlen HR]]]].
    assert (Hparts : forall c, c < n_components g -> wf (comp_graph g c) (comp_part g labels c) /\ same_labels (comp_part g labels c) (comp_part g l c)).
    { intros c Hc. destruct (HR c Hc) as [H1 [H2 _]]. auto. }
    assert (Hwf : wf g labels) by (split; [auto|apply (assembled_wf g l labels (conj Hl Hall) Hlen Hparts)]).
    split; [|split; [|split; [exact HJ'|]]].
    + split; [auto|]. split; [|apply Hwf]. rewrite <- Hn. apply same_labels_n. apply (assembled_same_labels g); auto. split; auto.
    + intros z Hz. apply In_nth_error in Hz. destruct Hz as [a Ha]. assert (Hag : a < gn g) by (apply nth_error_lt in Ha; lia).
      apply (meets_comp sp thr g labels a z Hwf Ha). destruct (HR (comp_label g a) (comp_label_lt g a Hag)) as [_ [_ [H _]]].
      apply H. apply comp_part_In; eauto.
    + intros c Hc. destruct (HR c Hc) as [_ [_ [_ H]]]. exact H.
  - intros c lc s0 rg j Hc _ Hwf HA HJ1. unfold run_component. fold (attr_c attr g c).
    eapply post_bind; [apply (Hstart c lc s0 Hc HJ1)|]. intros s1 _ Hs1.
    eapply (post_weaken anyexn anyexn True True); [auto|auto| |
      apply (basic_component_with_post St call O (attr_c attr g c) (comp_graph g c) anyexn True) with (names := fun z => In z lc)
               (K := K c) (V := gu_V c (fun z => In z lc) lc) (M := fun _ => 0)]; auto.
    + intros [[l' s'] r'] _ [[Hwf' [Hs' [Hm' HW']]] HK']. split; [eapply HKJ; eauto|].
      split; [destruct Hwf, Hwf'; lia|]. split; [auto|]. split; [exact Hs'|]. split; [auto|auto].
    + intros l1 H. apply H.
    + intros l1 H z Hz. apply H; auto.
    + intros s2 a z l1 r1 Hs2 HV1 Ha Hz. apply gu_call; auto.
    + intros. apply anyexn_post.
    + split; [auto|]. split; [intros z; tauto|]. split; [exact HA|]. apply HW0.
  - split; auto.
Qed.

(** the object given by the user *)
Variable JL : St -> Prop.
Variable wrap : St -> St.
Hypothesis Hwrap : forall s, JL s -> J (wrap s).
Hypothesis HJL : forall s, J s -> JL s.
Definition gu_maxp_basic fuel maxlen reps max_it labels0 s r :=
  maxp_fit St wrap
    (fun s p l r => let* '((labels, s'), r') := gu_basic_fit fuel maxlen reps p (Some l) s r in Ok (Some labels, s', r'))
    O attr (fun r => (s, r)) d g sp thr max_it labels0 (Some s) r.
Theorem gu_maxp_basic_post fuel maxlen reps max_it labels0 s r : 0 < max_it -> JL s ->
  post anyexn True (gu_maxp_basic fuel maxlen reps max_it labels0 s r)
    (fun '(labels, _, _) => exists mp before r1 parts r2 l,
       construct d g attr sp thr max_it 0 [] r = Ok (mp, before, r1) /\ assign_each d g attr before r1 = Ok (parts, r2) /\
       labels = Some l /\ valid_result g sp thr mp l /\
       (parts <> [] /\ forall P, In P parts -> exists l0 l1 v v1, array_from_region_list P = Ok l0 /\ feasible g l0 mp /\ valid_result g sp thr mp l1 /\
         (forall c, c < n_components g -> W c (comp_part g l0 c) (comp_part g l1 c)) /\
         o_call O l attr = Ok v /\ o_call O l1 attr = Ok v1 /\ (v <= v1)%Q) /\
       exists P l0, In P parts /\ array_from_region_list P = Ok l0 /\ length l0 = gn g /\
         forall c, c < n_components g -> W c (comp_part g l0 c) (comp_part g l c)).
Proof.
  intros Hit HJLs. unfold gu_maxp_basic.
  eapply (post_weaken anyexn anyexn True True); [auto|auto| |
    apply (maxp_fit_post St _ _ O d g attr sp thr Hsym Hloop Hsp Hpos anyexn True JL J (fun mp l0 l => valid_result g sp thr mp l /\
      length l0 = gn g /\ forall c, c < n_components g -> W c (comp_part g l0 c) (comp_part g l c)))]; auto.
  - intros [[labels ls'] r'] _ [mp [before [r1 [parts [r2 [l [v [s' [H1 [H2 [H3 [_ [_ [Hne [_ [[Ev [P [l0 [HP [E0 [_ [HV [HL HK]]]]]]]] Hcov]]]]]]]]]]]]]]]].
    exists mp, before, r1, parts, r2, l. do 4 (split; [auto|]). split; [split; [auto|]|exists P, l0; auto].
    intros P' HP'. destruct (Hcov P' HP') as [l2 [l1 [v1 [E2 [[Hf _] [[HV1 [_ HW1]] [Ev1 Hle]]]]]]]. exists l2, l1, v, v1. auto 8.
  - intros mp s0 l0 r0 HJ0 [Hf [Hm1 Hmeet]].
    eapply (post_bind anyexn True _ _ _ _); [apply gu_basic_post; auto; [lia|rewrite Nat2Z.id; auto]|].
    intros [[labels s'] r'] _ [H1 [H2 [H3 H4]]]. cbn [post]. rewrite Nat2Z.id in H1.
    split; [auto|]. exists labels. split; [auto|]. split; [split; auto|]. split; [apply Hf|exact H4].
  - intros mp l0 l _ _. apply anyexn_post.
  - intros mp x m _ _. exact Logic.I.
Qed.

(** ** AZPReactiveTabu, all areas connected *)
Hypothesis Hone : n_components g = 1.
Definition gu_reactive_fit maxit k1 k2 p l s r :=
  fit (reactive_with St)
      (fun s labels rows idx => let* st := start (rw_strat s) labels rows idx in
                                Ok (mkReactiveWith st (rw_avg s) (rw_reps s) (rw_visited s)))
      (fun adj labels rows s r => reactive_component_with St call O adj maxit k1 k2 labels rows s r)
      order g attr p l s r.
Definition gr_V (mp : nat) (l : list Z) : Prop :=
  wr_V (spc 0) thr (comp_graph g 0) (fun z => 0 <= z < Z.of_nat mp)%Z (fun _ => True) l.
Definition gr_L (mp : nat) (s : reactive_with St) : Prop := JL (rw_strat s) /\ forall w, In w (rw_visited s) -> gr_V mp w.
Definition gr_W (mp : nat) (s : reactive_with St) : Prop := J (rw_strat s) /\ forall w, In w (rw_visited s) -> gr_V mp w.
Lemma gr_gu mp l : gr_V mp l -> gu_V 0 (fun z => 0 <= z < Z.of_nat mp)%Z l l.
Proof. intros [H1 [H2 [H3 _]]]. split; [auto|]. split; [auto|]. split; [auto|apply HW0]. Qed.

Lemma gu_reactive_post maxit k1 k2 mp l s r : named_start g sp thr mp l -> gr_W mp s ->
  post anyexn True (gu_reactive_fit maxit k1 k2 (Z.of_nat mp) (Some l) s r)
    (fun '((labels, s'), _) => valid_result g sp thr mp labels /\ gr_W mp s').
Proof.
  intros [[Hfeas [Hm1 Hmeet]] Hexact] Hs. unfold gu_reactive_fit. pose proof Hfeas as [Hl [Hn Hall]].
  set (R := fun (c : nat) (l l' : list Z) => gr_V mp l').
  set (A := fun (c : nat) (l : list Z) => (forall z, In z l <-> (0 <= z < Z.of_nat mp)%Z) /\
    forall z, In z l -> meets (spc 0) thr l z).
  eapply (post_weaken anyexn anyexn True True); [auto|auto| |
    apply (fit_post_from (reactive_with St) _ _ order g attr anyexn True (fun _ => gr_W mp) R A)]; auto.
  - intros [[labels s'] r'] _ [HJ' [l0 [[_ [_ ->]] [Hlen HR]]]]. split; [|auto].
    destruct (HR 0 ltac:(lia)) as [H1 [H2 [H3 _]]].
    assert (Hparts : forall c, c < n_components g -> wf (comp_graph g c) (comp_part g labels c) /\ same_labels (comp_part g labels c) (comp_part g l c)).
    { intros c Hc. assert (c = 0) as -> by lia. split; [auto|]. intros z. rewrite H2, one_part by auto. symmetry. apply Hexact. }
    assert (Hwf : wf g labels) by (split; [auto|apply (assembled_wf g l labels (conj Hl Hall) Hlen Hparts)]).
    split.
    + split; [auto|]. split; [|apply Hwf]. rewrite <- Hn. apply same_labels_n. apply (assembled_same_labels g); auto. split; auto.
    + intros z Hz. apply In_nth_error in Hz. destruct Hz as [a Ha]. assert (Hag : a < gn g) by (apply nth_error_lt in Ha; lia).
      apply (meets_comp sp thr g labels a z Hwf Ha). assert (comp_label g a = 0) as -> by (pose proof (comp_label_lt g a Hag); lia).
      apply H3. apply one_part; [auto|auto|]. eapply nth_error_In; eauto.
  - intros c lc s0 rg j Hc _ Hwf [HA1 HA2] [HJ0 Hvis]. assert (c = 0) as -> by lia.
    unfold run_component. fold (attr_c attr g 0).
    assert (Hst : post anyexn True (let* st := start (rw_strat s0) lc (attr_c attr g 0) (comp_nodes g 0) in
        Ok (mkReactiveWith st (rw_avg s0) (rw_reps s0) (rw_visited s0))) (fun s1 => K 0 (rw_strat s1) /\ rw_visited s1 = rw_visited s0)).
    { eapply post_bind; [apply (Hstart 0 lc (rw_strat s0) Hc HJ0)|]. intros st _ HK. cbn [post rw_strat rw_visited]. auto. }
    eapply post_bind; [exact Hst|]. intros s1 _ [HK1 Ev].
    eapply (post_weaken anyexn anyexn True True); [auto|auto| |
      apply (reactive_component_with_post St call O (attr_c attr g 0) (comp_graph g 0) (fun z => 0 <= z < Z.of_nat mp)%Z (K 0) (gr_V mp))]; auto.
    + intros [[l' s'] r'] _ [HV [HK' Hvis']]. split; [split; [eapply HKJ; eauto|exact Hvis']|].
      split; [destruct HV as [[HV _] _], Hwf; lia|exact HV].
    + intros l1 H. apply H.
    + intros l1 H z Hz. apply H; auto.
    + intros s2 a z l1 r1 Hs2 HV1 Ha Hz.
      pose proof (gu_call 0 (fun z => 0 <= z < Z.of_nat mp)%Z l1 s2 a z l1 r1 Hc Hs2 (gr_gu mp l1 HV1) Ha Hz) as Hp.
      destruct (call s2 a z l1 r1) as [[[b s3] r3]|e|]; cbn [post] in *; [|auto|auto]. destruct Hp as [H1 H2]. split; [auto|].
      intros Hb Hw. destruct (H2 Hb Hw) as [G1 [G2 [G3 _]]]. split; [auto|]. split; [auto|]. split; auto.
    + split; [auto|]. split; [exact HA1|]. split; [exact HA2|exact Logic.I].
    + rewrite Ev. exact Hvis.
  - split; [|split; [lia|auto]]. rewrite Nat2Z.id. auto.
  - intros c Hc. assert (c = 0) as -> by lia. split.
    + intros z. rewrite one_part by auto. apply Hexact.
    + intros z Hz. apply comp_part_In in Hz; [|auto]. destruct Hz as [a [Ha [Hca Ez]]].
      rewrite <- Hca. apply meets_comp; [split; auto|auto|]. apply Hmeet. eapply nth_error_In; eauto.
Qed.

Definition gu_maxp_reactive maxit k1 k2 max_it labels0 s r :=
  maxp_fit (reactive_with St) (fun s => mkReactiveWith (wrap (rw_strat s)) (rw_avg s) (rw_reps s) (rw_visited s))
    (fun s p l r => let* '((labels, s'), r') := gu_reactive_fit maxit k1 k2 p (Some l) s r in Ok (Some labels, s', r'))
    O attr (fun r => (s, r)) d g sp thr max_it labels0 (Some s) r.
Theorem gu_maxp_reactive_post maxit k1 k2 max_it labels0 s r : 0 < max_it -> JL (rw_strat s) -> rw_visited s = [] ->
  post anyexn True (gu_maxp_reactive maxit k1 k2 max_it labels0 s r)
    (fun '(labels, _, _) => exists mp before r1 l,
       construct d g attr sp thr max_it 0 [] r = Ok (mp, before, r1) /\ labels = Some l /\ valid_result g sp thr mp l).
Proof.
  intros Hit HJLs Hs. unfold gu_maxp_reactive.
  eapply (post_weaken anyexn anyexn True True); [auto|auto| |
    apply (maxp_fit_post_n (reactive_with St) _ _ O d g attr sp thr Hsym Hloop Hsp Hpos anyexn True gr_L gr_W (fun mp _ l => valid_result g sp thr mp l))]; auto.
  - intros [[labels ls'] r'] _ [mp [before [r1 [parts [r2 [l [v [s' [H1 [H2 [H3 [_ [_ [_ [_ [[_ [P [l0 [_ [_ [_ H]]]]]] _]]]]]]]]]]]]]]]].
    exists mp, before, r1, l. auto.
  - intros mp s0 [HL0 Hs0]. split; [cbn; apply Hwrap; exact HL0|]. exact Hs0.
  - intros mp s0 [HJ0 Hs0]. split; [apply HJL; exact HJ0|exact Hs0].
  - intros mp s0 l0 r0 HW HG.
    eapply (post_bind anyexn True _ _ _ _); [apply gu_reactive_post; eauto|].
    intros [[labels s'] r'] _ [H1 H2]. cbn [post]. split; [auto|]. exists labels. auto.
  - intros mp l0 l _ _. apply anyexn_post.
  - intros mp x m _ _. exact Logic.I.
  - intros mp. split; [exact HJLs|]. intros w Hw. rewrite Hs in Hw. destruct Hw.
Qed.
End Guarded.
