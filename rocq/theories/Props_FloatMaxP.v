(** Property theorems C121 and C122: the thresholds of MaxPRegionsHeu when arithmetic rounds. *)
From Coq Require Import Qabs.
From Verif Require Import Base Spec SpecData M_Graph P_Graph M_Util P_Base P_Util P_Forest P_Init P_Initial
  M_Objective P_Sum P_Objective M_Azp P_Azp P_Strategy P_Fit P_AzpFit M_Sa M_MaxP P_MaxP P_MaxP2 P_MaxP3 P_MaxP4
  M_Float M_FloatMaxP P_Float P_FloatErr P_FloatMaxP P_FloatMaxP2 Examples Props_Azp Props_MaxP.

(** The total of attribute [k] over all areas. *)
Local Notation whole_map sp g k := (total_in sp (seq 0 (gn g)) k).

(** ** C121: the thresholds up to rounding *)
(** Additions and subtractions on the numbers [V] have a relative error of at most [u] and the totals do not overflow.
    Then every region of a result falls short of a threshold by at most ((1+u)^n - 1) times the total over the map
    ([n] areas), for every objective and whatever strategies earlier fits left in the local search. *)
Theorem C121_rounded_thresholds A (V : Q -> Prop) u M enum order O fuel g attr sp thr max_it entropy labels0 ls r labels ls' r' :
  (0 <= u)%Q -> (u < 1)%Q -> rounds_within V u M (ar_add A) Qplus -> rounds_within V u M (ar_sub A) Qminus ->
  (forall l, Permutation (order l) l) -> symmetric g -> no_self_loops g -> shaped sp thr (gn g) -> non_negative sp ->
  (forall x q, In x sp -> In q x -> V q) ->
  (forall k, k < length thr -> (qpow (1 + u) (gn g) * whole_map sp g k <= M)%Q) -> 0 < max_it ->
  fmaxp_fit A enum order O fuel g attr sp thr max_it entropy labels0 ls r = Ok (labels, ls', r') ->
  exists p l, labels = Some l /\ feasible g l p /\ forall z, In z l -> forall k t, nth_error thr k = Some t ->
    (t <= total sp l z k + (qpow (1 + u) (gn g) - 1) * whole_map sp g k)%Q.
Proof.
  intros Hu Hu1 Hadd Hsub Hord Hsym Hloop Hsh Hpos HV HM Hit H.
  pose proof (approx_valid A enum order Hord O g attr sp thr Hsym Hloop Hsh Hpos (slack u sp (gn g))
    (rounded_sum A V u M Hu Hu1 Hadd sp thr (gn g) Hsh Hpos HV HM)
    (rounded_dif A V u M Hu Hu1 Hadd Hsub sp thr (gn g) Hsh Hpos HV HM) fuel max_it entropy labels0 ls r Hit) as Hp.
  rewrite H in Hp. destruct Hp as [p [l [-> [Hf Hm]]]]. exists p, l. split; [auto|]. split; [auto|].
  intros z Hz. apply (lower_meets sp thr (slack u sp (gn g))). apply Hm. auto.
Qed.

(** If every island exceeds the thresholds by that much, fit returns; if an island misses one by more, fit raises
    ValueError. *)
Theorem C121_rounded_attainable A (V : Q -> Prop) u M enum order O g attr sp thr :
  (0 <= u)%Q -> (u < 1)%Q -> rounds_within V u M (ar_add A) Qplus -> rounds_within V u M (ar_sub A) Qminus ->
  (forall l, Permutation (order l) l) -> symmetric g -> no_self_loops g -> shaped sp thr (gn g) -> non_negative sp ->
  (forall x q, In x sp -> In q x -> V q) ->
  (forall k, k < length thr -> (qpow (1 + u) (gn g) * whole_map sp g k <= M)%Q) ->
  length attr = gn g -> answers O attr ->
  ((forall v isl, v < gn g -> island g v isl -> forall k t, nth_error thr k = Some t ->
      (t + (qpow (1 + u) (gn g) - 1) * whole_map sp g k <= total_in sp isl k)%Q) ->
   exists bound, forall fuel max_it entropy labels0 ls r, bound <= fuel -> 0 < max_it ->
     exists l ls' r', fmaxp_fit A enum order O fuel g attr sp thr max_it entropy labels0 ls r = Ok (Some l, ls', r')) /\
  (forall v isl k t, v < gn g -> island g v isl -> nth_error thr k = Some t ->
     (total_in sp isl k + (qpow (1 + u) (gn g) - 1) * whole_map sp g k < t)%Q ->
   forall fuel max_it entropy labels0 ls r, 0 < max_it ->
     exists m, fmaxp_fit A enum order O fuel g attr sp thr max_it entropy labels0 ls r = Raise (ValueError m)).
Proof.
  intros Hu Hu1 Hadd Hsub Hord Hsym Hloop Hsh Hpos HV HM Hattr Hans.
  pose proof (rounded_sum A V u M Hu Hu1 Hadd sp thr (gn g) Hsh Hpos HV HM) as Hsum.
  pose proof (rounded_dif A V u M Hu Hu1 Hadd Hsub sp thr (gn g) Hsh Hpos HV HM) as Hdif. split.
  - intros Hisl. exists (gn g + 2). intros fuel max_it entropy labels0 ls r Hf Hit.
    pose proof (approx_returns A enum order Hord O g attr sp thr Hsym Hloop Hsh Hpos _ Hsum Hdif Hattr Hans fuel max_it entropy labels0 ls r Hit
      ltac:(lia)) as Hp.
    destruct (fmaxp_fit A enum order O fuel g attr sp thr max_it entropy labels0 ls r) as [[[labels ls'] r']|ex|]; cbn [post] in Hp.
    + destruct Hp as [l ->]; [|eauto]. intros v isl Hv Hi k s Es. apply shifted_nth in Es. destruct Es as [t [Et ->]]. eapply Hisl; eauto.
    + exfalso. apply Hp. intros v isl Hv Hi k s Es. apply shifted_nth in Es. destruct Es as [t [Et ->]]. eapply Hisl; eauto.
    + exfalso. apply Hp. intros v isl Hv Hi k s Es. apply shifted_nth in Es. destruct Es as [t [Et ->]]. eapply Hisl; eauto.
  - intros v isl k t Hv Hi Et Hlt fuel max_it entropy labels0 ls r Hit.
    apply (approx_raises A enum order O g attr sp thr Hsym Hloop Hsh Hpos _ Hsum fuel max_it entropy labels0 ls r v isl Hit Hv Hi).
    intros Hm. specialize (Hm k (t + - slack u sp (gn g) k)%Q). rewrite shifted_nth in Hm. specialize (Hm ltac:(eauto)).
    unfold slack in Hm. lra.
Qed.

(** Double precision, with the default objective. *)
Theorem C121_float64 enum enum' order fuel g attr sp thr max_it entropy labels0 ls r labels ls' r' :
  (forall l, Permutation (order l) l) -> symmetric g -> no_self_loops g -> shaped sp thr (gn g) -> non_negative sp ->
  (forall x q, In x sp -> In q x -> is_float q) ->
  let u := 1 # 2 ^ 53 in
  (forall k, k < length thr -> (qpow (1 + u) (gn g) * whole_map sp g k <= max_float)%Q) -> 0 < max_it ->
  fmaxp_fit float64 enum order (fpairwise float64 enum') fuel g attr sp thr max_it entropy labels0 ls r = Ok (labels, ls', r') ->
  exists p l, labels = Some l /\ feasible g l p /\ forall z, In z l -> forall k t, nth_error thr k = Some t ->
    (t <= total sp l z k + (qpow (1 + u) (gn g) - 1) * whole_map sp g k)%Q.
Proof.
  intros Hord Hsym Hloop Hsh Hpos HV u HM Hit H. destruct float64_rounds as [R1 R2].
  apply (C121_rounded_thresholds float64 is_float u max_float enum order (fpairwise float64 enum') fuel g attr sp thr
    max_it entropy labels0 ls r labels ls' r'); auto.
  - vm_compute. discriminate.
  - reflexivity.
Qed.

(** ** C122: the thresholds exactly *)
(** Whole-number attributes (areas, populations, counts) with totals up to [M], where arithmetic is exact: every region
    of a result reaches the thresholds, and fit returns or raises ValueError as with exact arithmetic (C36), for every
    objective and any rounding in the objective and the dissimilarities. *)
Theorem C122_exact_thresholds_partial A M enum order O g attr sp thr :
  exact_upto M (ar_add A) Qplus -> exact_upto M (ar_sub A) Qminus ->
  (forall l, Permutation (order l) l) -> symmetric g -> no_self_loops g -> shaped sp thr (gn g) -> non_negative sp ->
  (forall x q, In x sp -> In q x -> whole q) -> (forall k, k < length thr -> (whole_map sp g k <= M)%Q) ->
  length attr = gn g -> answers O attr ->
  (forall fuel max_it entropy labels0 ls r labels ls' r', 0 < max_it ->
     fmaxp_fit A enum order O fuel g attr sp thr max_it entropy labels0 ls r = Ok (labels, ls', r') ->
     exists p l, labels = Some l /\ feasible g l p /\ forall z, In z l -> meets sp thr l z) /\
  ((forall v isl, v < gn g -> island g v isl -> meets_in sp thr isl) ->
   exists bound, forall fuel max_it entropy labels0 ls r, bound <= fuel -> 0 < max_it ->
     exists l ls' r', fmaxp_fit A enum order O fuel g attr sp thr max_it entropy labels0 ls r = Ok (Some l, ls', r')) /\
  (forall v isl, v < gn g -> island g v isl -> ~ meets_in sp thr isl -> forall fuel max_it entropy labels0 ls r, 0 < max_it ->
     exists m, fmaxp_fit A enum order O fuel g attr sp thr max_it entropy labels0 ls r = Raise (ValueError m)).
Proof.
  intros Hadd Hsub Hord Hsym Hloop Hsh Hpos Hw HM Hattr Hans.
  assert (Hsum : forall k R, k < length thr -> R <> [] -> NoDup R -> (forall a, In a R -> a < gn g) ->
    (Qabs (colsum A (column sp k R) - total_in sp R k) <= (fun _ => 0) k)%Q).
  { intros k R Hk H1 H2 H3. pose proof (whole_colsum A M Hadd sp thr (gn g) Hsh Hpos Hw HM k R Hk H1 H2 H3) as E.
    apply Qabs_Qle_condition. cbn beta. lra. }
  assert (Hdif : forall k R a, k < length thr -> NoDup R -> (forall a, In a R -> a < gn g) -> In a R ->
    (ar_sub A (colsum A (column sp k R)) (nth k (nth a sp []) 0) <= total_in sp R k - nth k (nth a sp []) 0 + (fun _ => 0) k)%Q).
  { intros k R a Hk H1 H2 H3. pose proof (whole_dif A M Hadd Hsub sp thr (gn g) Hsh Hpos Hw HM k R a Hk H1 H2 H3) as E. cbn beta. lra. }
  split; [|split].
  - intros fuel max_it entropy labels0 ls r labels ls' r' Hit H.
    pose proof (approx_valid A enum order Hord O g attr sp thr Hsym Hloop Hsh Hpos (fun _ => 0%Q) Hsum Hdif fuel max_it entropy labels0 ls r Hit) as Hp.
    rewrite H in Hp. destruct Hp as [p [l [-> [Hf Hm]]]]. exists p, l. split; [auto|]. split; [auto|].
    intros z Hz k t Et. pose proof (lower_meets sp thr (fun _ => 0%Q) l z (Hm z Hz) k t Et) as Ht. cbn beta in Ht. lra.
  - intros Hisl. exists (gn g + 2). intros fuel max_it entropy labels0 ls r Hf Hit.
    assert (Hup : forall v isl, v < gn g -> island g v isl -> meets_in sp (shifted (fun _ => 0%Q) thr) isl).
    { intros v isl Hv Hi k s Es. apply shifted_nth in Es. destruct Es as [t [Et ->]]. specialize (Hisl v isl Hv Hi k t Et). lra. }
    pose proof (approx_returns A enum order Hord O g attr sp thr Hsym Hloop Hsh Hpos _ Hsum Hdif Hattr Hans fuel max_it entropy labels0 ls r Hit
      ltac:(lia) Hup) as Hp.
    destruct (fmaxp_fit A enum order O fuel g attr sp thr max_it entropy labels0 ls r) as [[[labels ls'] r']|ex|]; cbn [post] in Hp; [|destruct Hp|destruct Hp].
    destruct Hp as [l ->]. eauto.
  - intros v isl Hv Hi Hn fuel max_it entropy labels0 ls r Hit.
    apply (approx_raises A enum order O g attr sp thr Hsym Hloop Hsh Hpos _ Hsum fuel max_it entropy labels0 ls r v isl Hit Hv Hi).
    intros Hm. apply Hn. intros k t Et. specialize (Hm k (t + - 0)%Q). rewrite shifted_nth in Hm. specialize (Hm ltac:(eauto)). lra.
Qed.

(** Double precision: totals up to 2^53. *)
Theorem C122_float64_partial enum enum' order fuel g attr sp thr max_it entropy labels0 ls r labels ls' r' :
  (forall l, Permutation (order l) l) -> symmetric g -> no_self_loops g -> shaped sp thr (gn g) -> non_negative sp ->
  (forall x q, In x sp -> In q x -> whole q) -> (forall k, k < length thr -> (whole_map sp g k <= inject_Z (2 ^ 53))%Q) ->
  length attr = gn g -> 0 < max_it ->
  fmaxp_fit float64 enum order (fpairwise float64 enum') fuel g attr sp thr max_it entropy labels0 ls r = Ok (labels, ls', r') ->
  exists p l, labels = Some l /\ feasible g l p /\ forall z, In z l -> meets sp thr l z.
Proof.
  intros Hord Hsym Hloop Hsh Hpos Hw HM Hattr Hit H. destruct float64_exact as [E1 E2].
  eapply (proj1 (C122_exact_thresholds_partial float64 _ enum order (fpairwise float64 enum') g attr sp thr E1 E2 Hord Hsym Hloop Hsh Hpos Hw HM Hattr (fpairwise_answers _ _ _))); eauto.
Qed.

(** C122 is false of the code in double precision: 2^53 + 3/2 is rounded to 2^53 + 2, so the area with 2^53 may leave
    its region, and the region left behind has a total of 3/2. *)
Definition sp122 : list (list Q) := [[2]; [inject_Z (2 ^ 53)]; [3 # 2]]%Q.
Definition attr122 : list (list Q) := [[0]; [0]; [1]]%Q.
Definition fit122 (A : arith) (r : rng) :=
  fmaxp_fit A (fun l => l) same_order (fpairwise A (fun l => l)) 10 (path_graph 3) attr122 sp122 [2%Q] 1 r None None r.
Lemma sp122_floats x q : In x sp122 -> In q x -> is_float q.
Proof.
  intros Hx Hq. assert (H : (q = 2 \/ q = inject_Z (2 ^ 53) \/ q = (3 # 2))%Q).
  { cbn [sp122 In] in Hx. destruct Hx as [<-|[<-|[<-|[]]]]; destruct Hq as [<-|[]]; auto. }
  destruct H as [ -> | [ -> | -> ] ]; [apply (whole_is_float 2); lia|apply (whole_is_float (2 ^ 53)); lia|].
  split; [exists 3%Z, (-1)%Z; split; [vm_compute; reflexivity|lia]|vm_compute; discriminate].
Qed.
Theorem C122_exact_thresholds_refuted :
  exists g attr sp thr r labels, symmetric g /\ no_self_loops g /\ shaped sp thr (gn g) /\ non_negative sp /\
    (forall x q, In x sp -> In q x -> is_float q) /\
    (forall k, k < length thr -> (qpow (1 + (1 # 2 ^ 53)) (gn g) * whole_map sp g k <= max_float)%Q) /\
    mp_labels (fmaxp_fit float64 (fun l => l) same_order (fpairwise float64 (fun l => l)) 10 g attr sp thr 1 r None None r) = Some labels /\
    exists z, In z labels /\ ~ meets sp thr labels z.
Proof.
  exists (path_graph 3), attr122, sp122, [2%Q], (draws [2;0;0;0;0;1]), [1;1;0]%Z.
  split; [apply path_symmetric|]. split; [apply path_no_self_loops|].
  split; [split; [reflexivity|]; intros x [<-|[<-|[<-|[]]]]; reflexivity|].
  split; [intros x q [<-|[<-|[<-|[]]]] [<-|[]]; vm_compute; discriminate|]. split; [apply sp122_floats|].
  split; [intros [|k] Hk; [vm_compute; discriminate|cbn in Hk; lia]|]. split; [vm_compute; reflexivity|].
  exists 0%Z. split; [cbn; auto|]. intros H. specialize (H 0 2%Q eq_refl). vm_compute in H. apply H. reflexivity.
Qed.

(** ** Examples *)
(** The same run: the bound of C121 is 2 and a bit; with exact arithmetic the area stays where it is. *)
Example C121_example :
  (forall x q, In x sp122 -> In q x -> is_float q) /\
  mp_labels (fit122 float64 (draws [2;0;0;0;0;1])) = Some [1;1;0]%Z /\
  mp_labels (fit122 (mkArith Qplus Qminus) (draws [2;0;0;0;0;1])) = Some [1;0;0]%Z /\
  ((qpow (1 + (1 # 2 ^ 53)) 3 - 1) * total_in sp122 (seq 0 3) 0 < 4)%Q /\
  (2 <= total sp122 [1;1;0]%Z 0 0 + (qpow (1 + (1 # 2 ^ 53)) 3 - 1) * total_in sp122 (seq 0 3) 0)%Q.
Proof. split; [apply sp122_floats|]. repeat split; vm_compute; try reflexivity; discriminate. Qed.

(** Two islands in double precision with tenths: threshold 1/5 is reached everywhere by more than the bound, 7/10 on one
    island only. *)
Definition tenth : Q := fl64 (1 # 10).
Definition fit121 (thr : Q) (r : rng) :=
  fmaxp_fit float64 (fun l => l) same_order (fpairwise float64 (fun l => l)) 10 two_islands (map (fun q : Q => [q]) [1;1;5;2;2]%Q)
    (map (fun q : Q => [q]) [tenth; tenth; 1; tenth; (3 # 2) * tenth])%Q [thr] 2 r None None r.
Example C121_attainable_example :
  mp_labels (fit121 (1 # 5) rng0) = Some [0;0;2;1;1]%Z /\
  match fit121 (7 # 10) rng0 with Raise (ValueError _) => True | _ => False end /\
  forallb (fun isl => Qle_bool ((1 # 5) + (qpow (1 + (1 # 2 ^ 53)) 5 - 1) * 2)
                        (total_in (map (fun q : Q => [q]) [tenth; tenth; 1; tenth; (3 # 2) * tenth])%Q isl 0)) [[0;1;2];[3;4]] = true.
Proof. vm_compute. auto. Qed.

(** Counts on a grid: the assumptions of C122 hold, the regions reach 20. *)
Definition sp3 : list (list Q) := map (fun q : Q => [q]) [10;10;5;15;5;20;7;7;9]%Q.
Example C122_example :
  (forall x q, In x sp3 -> In q x -> whole q) /\ (total_in sp3 (seq 0 9) 0 <= inject_Z (2 ^ 53))%Q /\
  mp_labels (fmaxp_fit float64 (fun l => l) same_order (fpairwise float64 (fun l => l)) 40 grid3
    (map (fun q : Q => [q]) [1;1;5;2;2;5;9;9;8]%Q) sp3 [20%Q] 3 rng0 None None rng0) = Some [0;0;3;1;1;3;2;2;2]%Z.
Proof.
  split; [|split; vm_compute; [discriminate|reflexivity]].
  intros x q Hx Hq. unfold sp3 in Hx. cbn [map] in Hx.
  repeat (destruct Hx as [<-|Hx]; [destruct Hq as [<-|[]]; match goal with |- whole ?y => exists (Qnum y); reflexivity end|]). destruct Hx.
Qed.

Print Assumptions C121_rounded_thresholds.
Print Assumptions C121_rounded_attainable.
Print Assumptions C121_float64.
Print Assumptions C122_exact_thresholds_partial.
Print Assumptions C122_float64_partial.
Print Assumptions C122_exact_thresholds_refuted.
