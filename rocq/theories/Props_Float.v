(** Property theorems C117-C119: AZP.fit when arithmetic rounds. *)
From Coq Require Import Qabs.
From Verif Require Import Base Spec M_Graph P_Graph M_Util P_Base P_Util P_Forest P_Init P_Initial
  M_Objective P_Sum P_Objective M_Azp P_Azp P_Strategy P_Fit P_AzpFit P_TwoRuns M_Float P_Float Examples Props_Objective Props_Azp.

(** ** C117: fit terminates when arithmetic rounds *)
(** Sums are rounded in any way that leaves finitely many possible values ([V]); the objective is anything that
    has such a value on every labelling and answers for every move.  Nothing else is known about either. *)
Theorem C117_rounded_azp_terminates add V order O g attr :
  finitely_many V -> (forall v q, V v -> V (add v q)) ->
  (forall rows labels, (forall x, In x rows -> In x attr) -> length labels = length rows ->
     exists v, o_call O labels rows = Ok v /\ V v) ->
  (forall rows labels a r, (forall x, In x rows -> In x attr) -> length labels = length rows ->
     a < length labels -> In r labels -> exists q, o_update O a r labels rows = Ok q) ->
  (forall l, Permutation (order l) l) -> symmetric g -> length attr = gn g ->
  exists bound, forall fuel p initial c r, bound <= fuel -> valid_request g p initial ->
    exists labels c' r', fazp_fit add order O fuel g attr p initial c r = Ok ((labels, c'), r') /\
      feasible g labels (Z.to_nat p).
Proof.
  intros [F HF] Hadd Hval Hupd Hord Hsym Hattr. exists (length F + gn g + 2). intros fuel p initial c r Hf Hv.
  destruct (fazp_fit_terminates add V F HF Hadd O attr Hval Hupd order g fuel p initial c r Hsym Hord Hattr (valid_good _ _ _ Hv) ltac:(lia))
    as [labels [c' [r' E]]].
  exists labels, c', r'. split; [exact E|]. unfold fazp_fit in E.
  eapply C18_azp_feasible; [exact Hsym|exact Hord| |exact E].
  destruct initial as [l|]; cbn in Hv |- *; [|auto]. destruct Hv as [_ [[Hl _] Hm]]. auto.
Qed.

(** The default objective in double precision, on any data: no assumption about numbers is left. *)
Theorem C117_float64 order enum g attr :
  (forall l, Permutation (order l) l) -> symmetric g -> length attr = gn g ->
  exists bound, forall fuel p initial c r, bound <= fuel -> valid_request g p initial ->
    exists labels c' r', fazp_fit (ar_add float64) order (fpairwise float64 enum) fuel g attr p initial c r = Ok ((labels, c'), r') /\
      feasible g labels (Z.to_nat p).
Proof.
  intros Hord Hsym Hattr. apply (C117_rounded_azp_terminates (ar_add float64) is_float); auto.
  - apply floats_finite.
  - intros v q _. apply fl64_is.
  - intros rows labels _ _. eexists. split; [reflexivity|]. apply fsum_is_float.
  - intros rows labels a r _ Hl Ha Hr. cbn [o_update fpairwise]. unfold fpairwise_update.
    rewrite !metric_to_point_Ok; [eexists; reflexivity| |]; apply rows_of_nonempty; auto. apply nth_In. auto.
Qed.

(** ** C118: whole numbers *)
(** On whole-number attributes whose distances add up to at most [M], arithmetic that is exact on whole numbers
    up to [M] takes the same decisions as exact arithmetic: same draws, same labels, same exceptions. *)
Theorem C118_whole_numbers A M expf order enum fuel g attr p initial c0 c r :
  exact_upto M (ar_add A) Qplus -> exact_upto M (ar_sub A) Qminus ->
  (forall l, Permutation (order l) l) -> (forall l, Permutation (enum l) l) -> symmetric g -> length attr = gn g ->
  shape_ok g initial -> (forall x q, In x attr -> In q x -> whole q) ->
  (all_distances (fun i j => manhattan (nth i attr []) (nth j attr [])) (gn g) <= M)%Q ->
  same_outcome (fazp_fit (ar_add A) order (fpairwise A enum) fuel g attr p initial c r)
               (azp_fit expf order (pairwise manhattan) fuel g attr p initial (SAzp c0) r).
Proof.
  intros Hadd Hsub Hord Henum Hsym Hattr Hsh Hw HM.
  apply (fazp_fit_exact A M); auto. rewrite Hattr, <- all_distances_psum. exact HM.
Qed.

(** Double precision: distances that add up to at most 2^53. *)
Theorem C118_float64 expf order enum fuel g attr p initial c0 c r :
  (forall l, Permutation (order l) l) -> (forall l, Permutation (enum l) l) -> symmetric g -> length attr = gn g ->
  shape_ok g initial -> (forall x q, In x attr -> In q x -> whole q) ->
  (all_distances (fun i j => manhattan (nth i attr []) (nth j attr [])) (gn g) <= inject_Z (2 ^ 53))%Q ->
  same_outcome (fazp_fit (ar_add float64) order (fpairwise float64 enum) fuel g attr p initial c r)
               (azp_fit expf order (pairwise manhattan) fuel g attr p initial (SAzp c0) r).
Proof. intros. destruct float64_exact. eapply C118_whole_numbers; eauto. Qed.

(** ** C119: the objective in double precision *)
(** Full statement: whenever fit returns, the objective of the result is not above that of the start.  Shown for
    whole-number data; in general it is false (below). *)
Theorem C119_float64_monotone_partial order enum fuel g attr p initial c r labels c' r' :
  (forall l, Permutation (order l) l) -> (forall l, Permutation (enum l) l) -> symmetric g -> length attr = gn g ->
  shape_ok g initial -> (forall x q, In x attr -> In q x -> whole q) ->
  (all_distances (fun i j => manhattan (nth i attr []) (nth j attr [])) (gn g) <= inject_Z (2 ^ 53))%Q ->
  fazp_fit (ar_add float64) order (fpairwise float64 enum) fuel g attr p initial c r = Ok ((labels, c'), r') ->
  exists labels0, start_labels g p initial labels0 /\
    (heterogeneity (fun i j => manhattan (nth i attr []) (nth j attr [])) labels <=
     heterogeneity (fun i j => manhattan (nth i attr []) (nth j attr [])) labels0)%Q.
Proof.
  intros Hord Henum Hsym Hattr Hsh Hw HM H.
  pose proof (C118_float64 (fun _ => 0%Q) order enum fuel g attr p initial (mkCommon [] (pairwise manhattan) 0%Q) c r
    Hord Henum Hsym Hattr Hsh Hw HM) as Hs.
  rewrite H in Hs. cbn [same_outcome] in Hs.
  destruct (azp_fit _ _ _ _ _ _ _ _ _ _) as [[[l s] r1]|e|] eqn:E; try contradiction. destruct Hs as [<- _].
  eapply C19_azp_monotone_pairwise; [exact Hord|exact Hsym|exact Hattr|apply manhattan_sym|apply manhattan_zero|exact Hsh|exact E].
Qed.

Local Notation att := (map (fun q : Q => [q])).
Definition far : Q := inject_Z (2 ^ 53).
Definition row8 : list (list Q) := att [far;1;1;1;0;1;1;far]%Q.
Definition start8 : list Z := [0;0;0;0;1;1;1;1]%Z.
Definition fit8 (fuel : nat) (r : rng) : option (list Z) :=
  match fazp_fit (ar_add float64) same_order (fpairwise float64 (fun l => l)) fuel (path_graph 8) row8 2 (Some start8) dum r with
  | Ok ((l, _), _) => Some l | _ => None end.

(** Adding 1 to 2^53 in double precision leaves 2^53.  The distances of area 4 are 2^53, 1, 1, 1 to the region on its
    left, summed up to 2^53, and 0, 1, 1, 2^53 to its own, summed up to 2^53 + 2: the move looks like a gain of 2
    and is a loss of 1. *)
Theorem C119_float64_monotone_refuted :
  exists g attr initial labels r,
    symmetric g /\ length attr = gn g /\ valid_request g 2 (Some initial) /\
    (forall x q, In x attr -> In q x -> fl64 q == q)%Q /\
    (forall fuel, 12 <= fuel -> exists c' r', fazp_fit (ar_add float64) same_order (fpairwise float64 (fun l => l)) fuel g attr 2
                           (Some initial) dum r = Ok ((labels, c'), r')) /\
    (heterogeneity (fun i j => manhattan (nth i attr []) (nth j attr [])) initial <
     heterogeneity (fun i j => manhattan (nth i attr []) (nth j attr [])) labels)%Q.
Proof.
  exists (path_graph 8), row8, start8, [0;0;0;0;0;1;1;1]%Z, rng0.
  split; [apply path_symmetric|]. split; [reflexivity|]. split; [|split; [|split]].
  - split; [lia|]. split; [|cbn; intuition discriminate].
    split; [reflexivity|]. split; [reflexivity|]. apply check_regions_all. vm_compute. reflexivity.
  - intros x q Hx Hq. apply fl64_whole.
    + unfold row8 in Hx. cbn [map] in Hx.
      repeat (destruct Hx as [<-|Hx]; [destruct Hq as [<-|[]]; eexists; reflexivity|]). destruct Hx.
    + unfold row8 in Hx. cbn [map] in Hx.
      repeat (destruct Hx as [<-|Hx]; [destruct Hq as [<-|[]]; vm_compute; discriminate|]). destruct Hx.
  - intros fuel Hf. replace fuel with (12 + (fuel - 12)) by lia. generalize (fuel - 12). intros k.
    assert (E : fit8 (12 + k) rng0 = Some [0;0;0;0;0;1;1;1]%Z) by (vm_compute; reflexivity).
    unfold fit8 in E. destruct (fazp_fit _ _ _ _ _ _ _ _ _ _) as [[[l c'] r']|e|]; [|discriminate|discriminate].
    injection E as ->. eauto.
  - vm_compute. reflexivity.
Qed.

(** ** Examples *)
(** Whole numbers, two islands, no rounding error; the double precision run moves an area. *)
Definition five : list (list Q) := att [1;1;5;2;2]%Q.
Example C118_example :
  (match fazp_fit (ar_add float64) same_order (fpairwise float64 (@rev Z)) 40 two_islands five 3 (Some [7;4;4;9;9]%Z) dum rng0 with
   | Ok ((l, _), _) => Some l | _ => None end) = Some [7;7;4;9;9]%Z /\
  symmetric two_islands /\ shape_ok two_islands (Some [7;4;4;9;9]%Z) /\
  (forall l : list Z, Permutation (rev l) l) /\
  (forall x q, In x five -> In q x -> whole q) /\
  (all_distances (fun i j => manhattan (nth i five []) (nth j five [])) 5 <= inject_Z (2 ^ 53))%Q.
Proof.
  split; [vm_compute; reflexivity|]. split; [apply two_islands_symmetric|].
  split; [split; [reflexivity|cbn; intuition discriminate]|].
  split; [intros l; symmetry; apply Permutation_rev|]. split.
  - intros x q Hx Hq. unfold five in Hx. cbn [map] in Hx.
    repeat (destruct Hx as [<-|Hx]; [destruct Hq as [<-|[]]; eexists; reflexivity|]). destruct Hx.
  - vm_compute. discriminate.
Qed.
(** One third is not a float64; neither is 2^53 + 1. *)
Example C117_example_rounds : (fl64 (1 # 3) < 1 # 3)%Q /\ (ar_add float64 far 1 == far)%Q /\ (ar_add float64 far 3 == far + 4)%Q /\
  fit8 12 rng0 = Some [0;0;0;0;0;1;1;1]%Z.
Proof. repeat split; vm_compute; reflexivity. Qed.
(** The assumptions of C117 about numbers and requests hold in this run. *)
Example C117_example_request : valid_request (path_graph 8) 2 (Some start8) /\ finitely_many is_float.
Proof.
  split; [|apply floats_finite]. split; [lia|]. split; [|cbn; intuition discriminate].
  split; [reflexivity|]. split; [reflexivity|]. apply check_regions_all. vm_compute. reflexivity.
Qed.

Print Assumptions C117_rounded_azp_terminates.
Print Assumptions C117_float64.
Print Assumptions C118_whole_numbers.
Print Assumptions C118_float64.
Print Assumptions C119_float64_monotone_partial.
Print Assumptions C119_float64_monotone_refuted.
