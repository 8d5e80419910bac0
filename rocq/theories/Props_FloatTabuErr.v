(** Property C155: as C120 for the tabu classes, how far rounding can lead them astray. *)
From Coq Require Import Qabs.
From Verif Require Import Base Spec SpecStep M_Graph P_Graph M_Util P_Base P_Util P_Forest P_Init P_Initial
  M_Objective P_Sum P_Objective M_Azp P_Azp P_Strategy P_Fit P_AzpFit P_TabuFit M_TabuWith M_Float P_Float P_FloatErr M_FloatMaxP M_FloatTabu P_FloatTabu3 P_FloatTabu4
  Examples Props_Util Props_Objective Props_Azp Props_Float Props_FloatErr.
Local Notation d attr := (fun i j => manhattan (nth i attr []) (nth j attr [])).

Section Common.
Variables (A : arith) (V : Q -> Prop) (u M : Q).
Hypothesis Hu : (0 <= u)%Q.
Hypothesis Hu1 : (u < 1)%Q.
Hypothesis V0 : V 0%Q.
Hypothesis Vabs : forall q, V q -> V (Qabs q).
Hypothesis Hadd : rounds_within V u M (ar_add A) Qplus.
Hypothesis Hsub : rounds_within V u M (ar_sub A) Qminus.
Variables (B : arith) (enum : list Z -> list Z) (order : list edge -> list edge) (g : graph) (attr : list (list Q)) (k : nat).
Hypothesis Hord : forall l, Permutation (order l) l.
Hypothesis Hattr : length attr = gn g.
Hypothesis HV : forall x q, In x attr -> In q x -> V q.
Hypothesis Hk : forall x, In x attr -> length x <= k.
Let N := gn g + k + 1.
Hypothesis HM : (qpow (1 + u) N * all_distances (d attr) (gn g) <= M)%Q.

Lemma near_result labels0 labels : feasible g labels0 (n_labels labels0) -> length labels = gn g ->
  (forall c, c < n_components g -> te_V u g attr k c (comp_part g labels0 c) (comp_part g labels c)) ->
  all_contiguous g labels /\ (forall z, In z labels -> In z labels0) /\
  forall v isl, v < gn g -> island g v isl ->
    exists l, moves (nearly_lower (pairwise manhattan) attr (qpow (1 - u) N) (qpow (1 + u) N) isl) labels0 l /\
      forall a, In a isl -> lab labels a = lab l a.
Proof.
  intros [Hl0 [_ Hall0]] Hlen HR. assert (Hwf : wf g labels0) by (split; auto).
  assert (Hp : forall c, c < n_components g -> wf (comp_graph g c) (comp_part g labels c) /\
     (forall z, In z (comp_part g labels c) -> In z (comp_part g labels0 c))).
  { intros c Hc. destruct (HR c Hc) as [H1 [_ H2]]. auto. }
  split; [apply (assembled_wf_sub g labels0 labels Hwf Hlen Hp)|]. split.
  - intros z Hz. apply In_nth_error in Hz. destruct Hz as [a Ha].
    destruct (assembled_comp_sub g labels0 labels Hwf Hlen Hp a z Ha) as [b [Hb _]]. eapply nth_error_In; eauto.
  - intros v isl Hv Hi. apply (near_islands u g attr Hattr k labels0 labels Hl0 Hlen HR v isl Hv Hi).
Qed.
Lemma HMp : (qpow (1 + u) N * psum (dist manhattan attr) (seq 0 (length attr)) <= M)%Q.
Proof. rewrite Hattr. rewrite all_distances_psum in HM. exact HM. Qed.

(** AZPBasicTabu, on any number of islands. *)
Theorem C155_basic_small_steps fuel maxlen reps p initial c r labels s' r' :
  shape_ok g initial -> fbasic_fit B A order (fpairwise A enum) fuel maxlen reps g attr p initial (FAzp c) r = Ok ((labels, s'), r') ->
  exists labels0, start_labels g p initial labels0 /\ all_contiguous g labels /\ (forall z, In z labels -> In z labels0) /\
    forall v isl, v < gn g -> island g v isl ->
      exists l, moves (nearly_lower (pairwise manhattan) attr (qpow (1 - u) N) (qpow (1 + u) N) isl) labels0 l /\
        forall a, In a isl -> lab labels a = lab l a.
Proof.
  intros Hsh H. assert (Hv : valid_request g p initial) by (unfold fbasic_fit in H; eapply fit_returns_valid; eauto).
  pose proof (fbasic_near A V u M Hu Hu1 V0 Vabs Hadd Hsub B enum order Hord g attr Hattr k HV Hk HMp fuel maxlen reps p initial (FAzp c) r
    (valid_good _ _ _ Hv) (ex_intro _ c eq_refl)) as Hp.
  rewrite H in Hp. destruct Hp as [_ [l0 [Hst [Hlen HR]]]]. exists l0. split; [apply started_start; auto|].
  apply near_result; auto. destruct Hst as [[H1 [_ H3]] _]. split; auto.
Qed.
(** AZPBasicTabu loses no region: a region of one area is never emptied, whatever the rounding. *)
Theorem C155_basic_keeps_regions fuel maxlen reps p initial c r labels s' r' :
  shape_ok g initial -> fbasic_fit B A order (fpairwise A enum) fuel maxlen reps g attr p initial (FAzp c) r = Ok ((labels, s'), r') ->
  feasible g labels (Z.to_nat p) /\ exists labels0, start_labels g p initial labels0 /\ forall z, In z labels <-> In z labels0.
Proof.
  intros Hsh H. assert (Hv : valid_request g p initial) by (unfold fbasic_fit in H; eapply fit_returns_valid; eauto).
  pose proof (fbasic_keeps A V u M Hu Hu1 V0 Vabs Hadd Hsub B enum order Hord g attr Hattr k HV Hk HMp fuel maxlen reps p initial (FAzp c) r
    (valid_good _ _ _ Hv) (ex_intro _ c eq_refl)) as Hp.
  rewrite H in Hp. destruct Hp as [_ [l0 [Hst [Hlen HR]]]].
  assert (Hf := proj1 Hst). destruct Hf as [Hl0 [Hn0 Hall0]]. assert (Hwf : wf g l0) by (split; auto).
  assert (Hq : forall c, c < n_components g -> wf (comp_graph g c) (comp_part g labels c) /\ same_labels (comp_part g labels c) (comp_part g l0 c)).
  { intros c1 Hc. destruct (HR c1 Hc) as [[H1 _] H2]. auto. }
  pose proof (assembled_same_labels g l0 labels Hwf Hlen Hq) as Hs. split.
  - split; [auto|]. split; [|apply (assembled_wf g l0 labels Hwf Hlen Hq)]. rewrite <- Hn0. apply same_labels_n. exact Hs.
  - exists l0. split; [apply started_start; auto|exact Hs].
Qed.
(** AZPReactiveTabu: a new object on a connected map. *)
Theorem C155_reactive_small_steps maxit k1 k2 p initial c avg reps r labels s' r' : n_islands g 1 ->
  shape_ok g initial -> freactive_fit B A order (fpairwise A enum) maxit k1 k2 g attr p initial (mkReactiveWith (FAzp c) avg reps []) r = Ok ((labels, s'), r') ->
  exists labels0, start_labels g p initial labels0 /\ all_contiguous g labels /\ (forall z, In z labels -> In z labels0) /\
    forall v isl, v < gn g -> island g v isl ->
      exists l, moves (nearly_lower (pairwise manhattan) attr (qpow (1 - u) N) (qpow (1 + u) N) isl) labels0 l /\
        forall a, In a isl -> lab labels a = lab l a.
Proof.
  intros Hn Hsh H. assert (Hv : valid_request g p initial) by (unfold freactive_fit in H; eapply fit_returns_valid; eauto).
  assert (Hone : n_components g = 1) by (apply n_islands_iff in Hn; auto).
  pose proof (freactive_near A V u M Hu Hu1 V0 Vabs Hadd Hsub B enum order Hord g attr Hattr k HV Hk HMp maxit k1 k2 p initial
    (mkReactiveWith (FAzp c) avg reps []) r Hone (valid_good _ _ _ Hv) (ex_intro _ c eq_refl) eq_refl) as Hp.
  rewrite H in Hp. destruct Hp as [l0 [Hst [Hlen HR]]]. exists l0. split; [apply started_start; auto|].
  apply near_result; auto. destruct Hst as [[H1 [_ H3]] _]. split; auto.
Qed.
End Common.

(** A new AZPReactiveTabu with k1 >= 1 on a connected map loses no region either, whatever the objective computes and however it is rounded. *)
Theorem C155_reactive_keeps_regions B A obj order g attr maxit k1 k2 p initial c avg reps r labels s' r' :
  (forall l, Permutation (order l) l) -> 1 <= k1 -> n_islands g 1 -> shape_ok g initial ->
  freactive_fit B A order obj maxit k1 k2 g attr p initial (mkReactiveWith c avg reps []) r = Ok ((labels, s'), r') ->
  feasible g labels (Z.to_nat p) /\ exists labels0, start_labels g p initial labels0 /\ forall z, In z labels <-> In z labels0.
Proof.
  intros Hord Hk1 Hn Hsh H. assert (Hv : valid_request g p initial) by (unfold freactive_fit in H; eapply fit_returns_valid; eauto).
  assert (Hone : n_components g = 1) by (apply n_islands_iff in Hn; auto).
  pose proof (reactive_once_fit B A order obj Hord g attr maxit k1 k2 p initial (mkReactiveWith c avg reps []) r Hk1 Hone (valid_good _ _ _ Hv) eq_refl) as Hp.
  rewrite H in Hp. destruct Hp as [l0 [Hst [Hlen Hq]]].
  assert (Hf := proj1 Hst). destruct Hf as [Hl0 [Hn0 Hall0]]. assert (Hwf : wf g l0) by (split; auto).
  pose proof (assembled_same_labels g l0 labels Hwf Hlen Hq) as Hs. split.
  - split; [auto|]. split; [|apply (assembled_wf g l0 labels Hwf Hlen Hq)]. rewrite <- Hn0. apply same_labels_n. exact Hs.
  - exists l0. split; [apply started_start; auto|exact Hs].
Qed.

(** Double precision. *)
Theorem C155_float64 enum order g attr k p initial labels :
  (forall l, Permutation (order l) l) -> length attr = gn g -> shape_ok g initial ->
  (forall x y, In x attr -> In y x -> is_float y) -> (forall x, In x attr -> length x <= k) ->
  let u := 1 # 2 ^ 53 in let N := gn g + k + 1 in
  (qpow (1 + u) N * all_distances (d attr) (gn g) <= max_float)%Q ->
  (exists fuel maxlen reps c r s' r', fbasic_fit float64 float64 order (fpairwise float64 enum) fuel maxlen reps g attr p initial (FAzp c) r = Ok ((labels, s'), r')) \/
  (n_islands g 1 /\ exists maxit k1 k2 c avg reps r s' r', freactive_fit float64 float64 order (fpairwise float64 enum) maxit k1 k2 g attr p initial
     (mkReactiveWith (FAzp c) avg reps []) r = Ok ((labels, s'), r')) ->
  exists labels0, start_labels g p initial labels0 /\ all_contiguous g labels /\ (forall z, In z labels -> In z labels0) /\
    forall v isl, v < gn g -> island g v isl ->
      exists l, moves (nearly_lower (pairwise manhattan) attr (qpow (1 - u) N) (qpow (1 + u) N) isl) labels0 l /\
        forall a, In a isl -> lab labels a = lab l a.
Proof.
  intros Hord Hattr Hsh HV Hk u N HM H. destruct float64_rounds as [R1 R2].
  assert (H0 : (0 <= u)%Q) by (vm_compute; discriminate). assert (H1 : (u < 1)%Q) by reflexivity.
  assert (HV0 : is_float 0) by (apply (whole_is_float 0); lia).
  destruct H as [[fuel [maxlen [reps [c [r [s' [r' H]]]]]]]|[Hn [maxit [k1 [k2 [c [avg [reps [r [s' [r' H]]]]]]]]]]].
  - exact (C155_basic_small_steps float64 is_float u max_float H0 H1 HV0 is_float_abs R1 R2 float64 enum order g attr k Hord Hattr HV Hk HM
      fuel maxlen reps p initial c r labels s' r' Hsh H).
  - exact (C155_reactive_small_steps float64 is_float u max_float H0 H1 HV0 is_float_abs R1 R2 float64 enum order g attr k Hord Hattr HV Hk HM
      maxit k1 k2 p initial c avg reps r labels s' r' Hn Hsh H).
Qed.

Theorem C155_float64_keeps_regions enum order g attr k p initial fuel maxlen reps c r labels s' r' :
  (forall l, Permutation (order l) l) -> length attr = gn g -> shape_ok g initial ->
  (forall x y, In x attr -> In y x -> is_float y) -> (forall x, In x attr -> length x <= k) ->
  (qpow (1 + (1 # 2 ^ 53)) (gn g + k + 1) * all_distances (d attr) (gn g) <= max_float)%Q ->
  fbasic_fit float64 float64 order (fpairwise float64 enum) fuel maxlen reps g attr p initial (FAzp c) r = Ok ((labels, s'), r') ->
  feasible g labels (Z.to_nat p) /\ exists labels0, start_labels g p initial labels0 /\ forall z, In z labels <-> In z labels0.
Proof.
  intros Hord Hattr Hsh HV Hk HM H. destruct float64_rounds as [R1 R2].
  assert (H0 : (0 <= 1 # 2 ^ 53)%Q) by (vm_compute; discriminate). assert (H1 : (1 # 2 ^ 53 < 1)%Q) by reflexivity.
  assert (HV0 : is_float 0) by (apply (whole_is_float 0); lia).
  exact (C155_basic_keeps_regions float64 is_float (1 # 2 ^ 53) max_float H0 H1 HV0 is_float_abs R1 R2 float64 enum order g attr k Hord Hattr HV Hk HM
    fuel maxlen reps p initial c r labels s' r' Hsh H).
Qed.

(** ** Examples *)
(** The row of C119, where AZP takes a move that raises the objective for a gain: the tabu classes take it too, within the bound. *)
Definition tabu8 := fbasic_fit float64 float64 same_order (fpairwise float64 (fun l => l)) 12 None 1 (path_graph 8) row8 2 (Some start8) (FAzp dum) rng0.
Definition reactive8 := freactive_fit float64 float64 same_order (fpairwise float64 (fun l => l)) 3 1 1 (path_graph 8) row8 2 (Some start8)
  (mkReactiveWith (FAzp dum) 1 1 []) rng0.
Example C155_example :
  (forall x y, In x row8 -> In y x -> is_float y) /\ (forall x, In x row8 -> length x <= 1) /\ n_islands (path_graph 8) 1 /\
  (qpow (1 + (1 # 2 ^ 53)) 10 * all_distances (d row8) 8 <= max_float)%Q /\
  match tabu8 with Ok ((l, _), _) => Some l | _ => None end = Some [0;0;0;0;0;1;1;1]%Z /\
  match reactive8 with Ok ((l, _), _) => Some l | _ => None end = Some [0;0;0;0;0;1;1;1]%Z /\
  (heterogeneity (d row8) start8 < heterogeneity (d row8) [0;0;0;0;0;1;1;1]%Z)%Q.
Proof.
  destruct C120_example as [H1 [H2 [H3 [_ [H4 _]]]]]. split; [exact H1|]. split; [exact H2|].
  split; [apply n_islands_iff; vm_compute; reflexivity|]. split; [exact H3|].
  split; [vm_compute; reflexivity|]. split; [vm_compute; reflexivity|exact H4].
Qed.
(** A start with a region of one area, which rounding does not empty. *)
Definition rlone8 := freactive_fit float64 float64 same_order (fpairwise float64 (fun l => l)) 3 1 1 (path_graph 8) row8 3 (Some [2;0;0;0;1;1;1;1]%Z)
  (mkReactiveWith (FAzp dum) 1 1 []) rng0.
Definition lone8 := fbasic_fit float64 float64 same_order (fpairwise float64 (fun l => l)) 12 None 1 (path_graph 8) row8 3 (Some [2;0;0;0;1;1;1;1]%Z) (FAzp dum) rng0.
Example C155_keeps_example : match lone8 with Ok ((l, _), _) => Some l | _ => None end = Some [2;0;0;0;0;0;0;1]%Z /\
  match rlone8 with Ok ((l, _), _) => Some l | _ => None end = Some [2;0;0;0;0;0;1;1]%Z.
Proof. split; vm_compute; reflexivity. Qed.

Print Assumptions C155_basic_small_steps.
Print Assumptions C155_reactive_small_steps.
Print Assumptions C155_float64.
Print Assumptions C155_basic_keeps_regions.
Print Assumptions C155_float64_keeps_regions.
Print Assumptions C155_reactive_keeps_regions.
