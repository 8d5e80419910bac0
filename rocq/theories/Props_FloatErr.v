(** Property theorem C120: how far rounding can lead AZP.fit astray. *)
From Coq Require Import Qabs.
From Verif Require Import Base Spec M_Graph P_Graph M_Util P_Base P_Util P_Forest P_Init P_Initial
  M_Objective P_Sum P_Objective M_Azp P_Azp P_Strategy P_Fit P_AzpFit P_TwoRuns M_Float P_Float P_FloatErr Examples Props_Objective Props_Azp Props_Float.

Local Notation d attr := (fun i j => manhattan (nth i attr []) (nth j attr [])).

(** ** C120: rounding errors *)
(** One question put to the objective.  Arithmetic on the numbers [V] rounds with a relative error of at most [u] and does
    not overflow; [N] is the number of areas plus the number of attributes plus one.  A move whose computed change is
    not positive multiplies the objective by at most ((1+u)/(1-u))^N; for any other the same holds of its reverse. *)
Theorem C120_one_decision A (V : Q -> Prop) u M enum attr k labels a r q :
  (0 <= u)%Q -> (u < 1)%Q -> V 0%Q -> (forall x, V x -> V (Qabs x)) ->
  rounds_within V u M (ar_add A) Qplus -> rounds_within V u M (ar_sub A) Qminus ->
  (forall x y, In x attr -> In y x -> V y) -> (forall x, In x attr -> length x <= k) ->
  let N := length attr + k + 1 in
  (qpow (1 + u) N * all_distances (d attr) (length attr) <= M)%Q ->
  length labels = length attr -> a < length labels ->
  o_update (fpairwise A enum) a r labels attr = Ok q ->
  ((q <= 0 -> qpow (1 - u) N * heterogeneity (d attr) (upd labels a r) <= qpow (1 + u) N * heterogeneity (d attr) labels) /\
   (0 < q -> qpow (1 - u) N * heterogeneity (d attr) labels < qpow (1 + u) N * heterogeneity (d attr) (upd labels a r)))%Q.
Proof.
  intros Hu Hu1 V0 Vabs Hadd Hsub HV Hk N HM Hl Ha E.
  apply (fpairwise_update_near A V u M Hu Hu1 V0 Vabs Hadd Hsub attr k N); auto.
  - rewrite all_distances_psum in HM. exact HM.
  - lia.
Qed.

(** The whole fit: on every island the result is reached from the start by legal moves none of which multiplies the
    objective of the island by more. *)
Theorem C120_small_steps A (V : Q -> Prop) u M enum order fuel g attr k p initial c r labels c' r' :
  (0 <= u)%Q -> (u < 1)%Q -> V 0%Q -> (forall x, V x -> V (Qabs x)) ->
  rounds_within V u M (ar_add A) Qplus -> rounds_within V u M (ar_sub A) Qminus ->
  (forall l, Permutation (order l) l) -> symmetric g -> length attr = gn g -> shape_ok g initial ->
  (forall x y, In x attr -> In y x -> V y) -> (forall x, In x attr -> length x <= k) ->
  let N := gn g + k + 1 in
  (qpow (1 + u) N * all_distances (d attr) (gn g) <= M)%Q ->
  fazp_fit (ar_add A) order (fpairwise A enum) fuel g attr p initial c r = Ok ((labels, c'), r') ->
  exists labels0, start_labels g p initial labels0 /\ forall v isl, v < gn g -> island g v isl ->
    exists l, moves (nearly_down (pairwise manhattan) attr g (qpow (1 - u) N) (qpow (1 + u) N) isl) labels0 l /\
      forall a, In a isl -> lab labels a = lab l a.
Proof.
  intros Hu Hu1 V0 Vabs Hadd Hsub Hord Hsym Hattr Hsh HV Hk N HM H.
  assert (Hv : valid_request g p initial) by (unfold fazp_fit in H; eapply fit_returns_valid; eauto).
  rewrite all_distances_psum, <- Hattr in HM.
  pose proof (fazp_fit_near A V u M Hu Hu1 V0 Vabs Hadd Hsub enum g Hsym attr Hattr k HV Hk HM order fuel p initial c r Hord (valid_good _ _ _ Hv)) as Hp.
  rewrite H in Hp. destruct Hp as [l0 [Hst [Hlen HR]]]. exists l0. split; [apply started_start; auto|].
  destruct Hst as [[Hl0 [_ Hall0]] _].
  intros v isl Hv1 Hi. apply (parts_moves u g attr k l0 labels (conj Hl0 Hall0) Hlen HR v isl Hv1 Hi).
Qed.

(** Double precision. *)
Theorem C120_float64 enum order fuel g attr k p initial c r labels c' r' :
  (forall l, Permutation (order l) l) -> symmetric g -> length attr = gn g -> shape_ok g initial ->
  (forall x y, In x attr -> In y x -> is_float y) -> (forall x, In x attr -> length x <= k) ->
  let u := 1 # 2 ^ 53 in let N := gn g + k + 1 in
  (qpow (1 + u) N * all_distances (d attr) (gn g) <= max_float)%Q ->
  fazp_fit (ar_add float64) order (fpairwise float64 enum) fuel g attr p initial c r = Ok ((labels, c'), r') ->
  exists labels0, start_labels g p initial labels0 /\ forall v isl, v < gn g -> island g v isl ->
    exists l, moves (nearly_down (pairwise manhattan) attr g (qpow (1 - u) N) (qpow (1 + u) N) isl) labels0 l /\
      forall a, In a isl -> lab labels a = lab l a.
Proof.
  intros Hord Hsym Hattr Hsh HV Hk u N HM H. destruct float64_rounds as [R1 R2].
  apply (C120_small_steps float64 is_float u max_float enum order fuel g attr k p initial c r labels c' r'); auto.
  - vm_compute. discriminate.
  - reflexivity.
  - apply (whole_is_float 0). lia.
  - apply is_float_abs.
Qed.

(** ** Examples *)
(** The run of C119, whose single move raises the objective: the assumptions hold, the move is within the bound. *)
Example C120_example :
  (forall x y, In x row8 -> In y x -> is_float y) /\ (forall x, In x row8 -> length x <= 1) /\
  (qpow (1 + (1 # 2 ^ 53)) 10 * all_distances (d row8) 8 <= max_float)%Q /\
  fit8 12 rng0 = Some [0;0;0;0;0;1;1;1]%Z /\
  (heterogeneity (d row8) start8 < heterogeneity (d row8) (upd start8 4 0%Z))%Q /\
  (qpow (1 - (1 # 2 ^ 53)) 10 * heterogeneity (d row8) (upd start8 4 0%Z) <= qpow (1 + (1 # 2 ^ 53)) 10 * heterogeneity (d row8) start8)%Q.
Proof.
  split; [|split; [|split; [|split; [|split]]]].
  - intros x y Hx Hy. unfold row8 in Hx. cbn [map] in Hx.
    repeat (destruct Hx as [<-|Hx]; [destruct Hy as [<-|[]]; first [apply (whole_is_float (2 ^ 53)); lia | apply (whole_is_float 1); lia | apply (whole_is_float 0); lia]|]). destruct Hx.
  - intros x Hx. unfold row8 in Hx. cbn [map] in Hx. repeat (destruct Hx as [<-|Hx]; [cbn; lia|]). destruct Hx.
  - vm_compute. discriminate.
  - vm_compute. reflexivity.
  - vm_compute. reflexivity.
  - vm_compute. discriminate.
Qed.

Print Assumptions C120_one_decision.
Print Assumptions C120_small_steps.
Print Assumptions C120_float64.
