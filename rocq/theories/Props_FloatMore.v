(** Property theorems C131 and C132: the other heuristics when arithmetic rounds. *)
From Coq Require Import Qabs.
From Verif Require Import Base Spec SpecData M_Graph P_Graph M_Util P_Base P_Util P_Forest P_Init P_Initial
  M_Objective P_Sum P_Objective M_Azp P_Azp P_Strategy P_Fit P_AzpFit P_TwoRuns M_Sa P_Sa M_Tabu M_MaxP P_MaxP P_MaxP2 P_MaxP3 P_MaxP4 P_Scale
  M_Float P_Float M_FloatMaxP P_FloatMaxP P_FloatMaxP2 M_FloatSa P_FloatSa P_FloatWhole P_FloatWhole2
  Examples Props_Objective Props_Azp Props_Tabu Props_MaxP Props_Float Props_FloatMaxP.

(** The total of attribute [k] over all areas. *)
Local Notation whole_map sp g k := (total_in sp (seq 0 (gn g)) k).
(** The distance of two areas. *)
Local Notation apart attr := (fun i j => manhattan (nth i attr []) (nth j attr [])).

(** ** C131: annealing terminates when arithmetic rounds *)
(** Sums are rounded in any way that leaves finitely many possible values; the acceptance probability and the cooling
    step are any functions at all.  With a finite max_iterations, fit returns a partition with the requested number of
    regions, whatever the draws and whatever earlier fits left behind. *)
Theorem C131_rounded_sa_terminates add prob cool V order O g attr maxit reps :
  finitely_many V -> (forall v q, V v -> V (add v q)) ->
  (forall rows labels, (forall x, In x rows -> In x attr) -> length labels = length rows ->
     exists v, o_call O labels rows = Ok v /\ V v) ->
  (forall rows labels a r, (forall x, In x rows -> In x attr) -> length labels = length rows ->
     a < length labels -> In r labels -> exists q, o_update O a r labels rows = Ok q) ->
  (forall l, Permutation (order l) l) -> symmetric g -> length attr = gn g ->
  exists bound, forall fuel azp_fuel p initial a n cooling m r,
    bound <= fuel -> bound <= azp_fuel -> valid_request g p initial ->
    sa_maxit a = Some (S maxit) -> sa_reps a = reps -> sa_moves_term a = Some n -> (1 <= n)%Z -> (0 < cooling < 1)%Q ->
    exists sol m' r', fsa_fit add prob cool order O azp_fuel g attr p fuel cooling initial a m r = Ok (sol, m', r') /\
      (0 < sa_nonmoving_steps a -> exists labels, sol = Some labels) /\
      (forall labels, sol = Some labels -> feasible g labels (Z.to_nat p)).
Proof.
  intros [F HF] Hadd Hval Hupd Hord Hsym Hattr. exists (length F + gn g + 2 + (S maxit + gn g ^ gn g * reps + 1)).
  intros fuel azp_fuel p initial a n cooling m r Hf Haf Hv Hm Hr Ht Hn Hc.
  assert (Hb : S maxit + gn g ^ gn g * sa_reps a < fuel) by (rewrite Hr; lia).
  destruct (fsa_fit_terminates add prob V F HF Hadd O attr Hval Hupd cool order g maxit fuel azp_fuel p initial a n cooling m r
    Hsym Hord Hattr ltac:(lia) Hb Hv Hm Ht Hn Hc) as [sol [m' [r' [E [Hok Hs]]]]].
  exists sol, m', r'. split; [exact E|]. split; [exact Hs|]. intros labels ->. apply Hok.
Qed.

(** The default objective in double precision, on any data. *)
Theorem C131_float64 prob cool order enum g attr maxit reps :
  (forall l, Permutation (order l) l) -> symmetric g -> length attr = gn g ->
  exists bound, forall fuel azp_fuel p initial a n cooling m r,
    bound <= fuel -> bound <= azp_fuel -> valid_request g p initial ->
    sa_maxit a = Some (S maxit) -> sa_reps a = reps -> sa_moves_term a = Some n -> (1 <= n)%Z -> (0 < cooling < 1)%Q ->
    exists sol m' r', fsa_fit (ar_add float64) prob cool order (fpairwise float64 enum) azp_fuel g attr p fuel cooling initial a m r =
        Ok (sol, m', r') /\
      (0 < sa_nonmoving_steps a -> exists labels, sol = Some labels) /\
      (forall labels, sol = Some labels -> feasible g labels (Z.to_nat p)).
Proof.
  intros Hord Hsym Hattr. apply (C131_rounded_sa_terminates (ar_add float64) prob cool is_float); auto.
  - apply floats_finite.
  - intros v q _. apply fl64_is.
  - intros rows labels _ _. eexists. split; [reflexivity|]. apply fsum_is_float.
  - intros rows labels a r _ Hl Ha Hr. cbn [o_update fpairwise]. unfold fpairwise_update.
    rewrite !metric_to_point_Ok; [eexists; reflexivity| |]; apply rows_of_nonempty; auto. apply nth_In. auto.
Qed.

(** ** C132: whole numbers *)
(** On whole-number attributes whose distances add up to at most [M], arithmetic that is exact on whole numbers up to
    [M] takes the same decisions as exact arithmetic. *)
Section Whole.
Variable A : arith.
Variable M : Q.
Hypothesis Hadd : exact_upto M (ar_add A) Qplus.
Hypothesis Hsub : exact_upto M (ar_sub A) Qminus.
Variable order : list edge -> list edge.
Hypothesis Hord : forall l, Permutation (order l) l.
Variable enum : list Z -> list Z.
Hypothesis Henum : forall l, Permutation (enum l) l.
Variable g : graph.
Hypothesis Hsym : symmetric g.
Variable attr : list (list Q).
Hypothesis Hattr : length attr = gn g.
Hypothesis Hwhole : forall x q, In x attr -> In q x -> whole q.
Hypothesis HM : (all_distances (apart attr) (gn g) <= M)%Q.

Lemma pair_bound : (psum (dist manhattan attr) (seq 0 (gn g)) <= M)%Q.
Proof. rewrite <- all_distances_psum. exact HM. Qed.

Theorem C132_basic_tabu fuel maxlen reps p initial c c' r : shape_ok g initial ->
  same_outcome (basic_fit order (fpairwise A enum) fuel maxlen reps g attr p initial c r)
               (basic_fit order (pairwise manhattan) fuel maxlen reps g attr p initial c' r).
Proof.
  intros Hsh.
  pose proof (basic_fit_scale 1 ltac:(reflexivity) (pairwise manhattan) (fpairwise A enum) g attr attr
    (whole_scaled A M Hadd Hsub enum Henum attr Hwhole (gn g) pair_bound) order Hord fuel maxlen reps p initial c' c r Hsh) as H.
  destruct (basic_fit order (pairwise manhattan) _ _ _ _ _ _ _ _ _) as [[[l s] r1]|e|],
    (basic_fit order (fpairwise A enum) _ _ _ _ _ _ _ _ _) as [[[l' s'] r1']|e'|]; cbn in H |- *; auto.
  destruct H as [H1 [H2 _]]. cbn in H1, H2. auto.
Qed.

(** The record of visited solutions, which a later fit uses, is the same too. *)
Theorem C132_reactive_tabu maxit k1 k2 p initial s r : shape_ok g initial ->
  let run O := reactive_fit order O maxit k1 k2 g attr p initial s r in
  same_outcome (run (fpairwise A enum)) (run (pairwise manhattan)) /\
  (forall l s1 r1 l' s1' r1', run (fpairwise A enum) = Ok ((l, s1), r1) -> run (pairwise manhattan) = Ok ((l', s1'), r1') ->
     rt_avg s1 = rt_avg s1' /\ rt_reps s1 = rt_reps s1' /\ rt_visited s1 = rt_visited s1').
Proof.
  intros Hsh run. unfold run.
  pose proof (reactive_fit_scale 1 ltac:(reflexivity) (pairwise manhattan) (fpairwise A enum) g attr attr
    (whole_scaled A M Hadd Hsub enum Henum attr Hwhole (gn g) pair_bound) order Hord maxit k1 k2 p initial s s r Hsh
    (conj eq_refl (conj eq_refl eq_refl))) as H.
  destruct (reactive_fit order (pairwise manhattan) _ _ _ _ _ _ _ _ _) as [[[l s0] r1]|e|],
    (reactive_fit order (fpairwise A enum) _ _ _ _ _ _ _ _ _) as [[[l' s'] r1']|e'|]; cbn in H |- *;
    try contradiction; (split; [|try (intros; discriminate)]); auto.
  - destruct H as [H1 [H2 _]]. cbn in H1, H2. auto.
  - intros l1 s1 r2 l1' s1' r2' [= <- <- <-] [= <- <- <-]. destruct H as [_ [_ [H1 [H2 H3]]]]. cbn in H1, H2, H3. auto.
Qed.

(** The same for any acceptance probability and cooling step, rounded or not.  What the object keeps is the same too. *)
Theorem C132_sa (prob cool : Q -> Q -> Q) azp_fuel p fuel cooling initial a m r :
  (forall x y t, (x == y)%Q -> (prob x t == prob y t)%Q) -> shape_ok g initial ->
  fsa_fit (ar_add A) prob cool order (fpairwise A enum) azp_fuel g attr p fuel cooling initial a m r =
  fsa_fit Qplus prob cool order (pairwise manhattan) azp_fuel g attr p fuel cooling initial a m r.
Proof. intros Hp Hsh. eapply (fsa_fit_exact A M) with (n := gn g); eauto. apply pair_bound. Qed.

(** In particular only the rounding of the probability and of the temperature can matter. *)
Theorem C132_sa_exact expf azp_fuel p fuel cooling initial a m r :
  (forall x y, (x == y)%Q -> (expf x == expf y)%Q) -> shape_ok g initial ->
  fsa_fit (ar_add A) (sa_prob expf) Qmult order (fpairwise A enum) azp_fuel g attr p fuel cooling initial a m r =
  sa_fit expf order (pairwise manhattan) azp_fuel g attr p fuel cooling initial a m r.
Proof.
  intros He Hsh. rewrite C132_sa; [apply fsa_fit_plain; auto| |exact Hsh].
  intros x y t E. unfold sa_prob. destruct (Qeq_bool t 0); [reflexivity|]. apply He. rewrite E. reflexivity.
Qed.

(** MaxPRegionsHeu with AZP as local search, a new one or one that has not been used; the attributes of the thresholds
    are whole numbers with totals up to [M] too.  The thresholds themselves need not be. *)
Variable enum2 : list nat -> list nat.
Hypothesis Henum2 : forall l, Permutation (enum2 l) l.
Variable sp : list (list Q).
Variable thr : list Q.
Hypothesis Hloop : no_self_loops g.
Hypothesis Hsp : shaped sp thr (gn g).
Hypothesis Hpos : non_negative sp.
Hypothesis Hwsp : forall x q, In x sp -> In q x -> whole q.
Hypothesis HMsp : forall k, k < length thr -> (whole_map sp g k <= M)%Q.

Lemma maxp_same expf fuel max_it entropy labels0 ls ls' r : both_alike sp thr ls ls' ->
  same_outcome (fmaxp_fit A enum2 order (fpairwise A enum) fuel g attr sp thr max_it entropy labels0 ls' r)
               (maxp_azp_fit expf order (pairwise manhattan) manhattan fuel g attr sp thr max_it entropy labels0 ls r).
Proof.
  intros Hls. pose proof pair_bound as HM'. rewrite <- Hattr in HM'.
  pose proof (fmaxp_fit_exact A M Hadd Hsub enum Henum enum2 Henum2 g Hsym Hloop attr sp thr Hattr Hwhole HM' Hsp Hpos Hwsp HMsp
    order Hord expf fuel max_it entropy labels0 ls ls' r Hls) as H.
  destruct (maxp_azp_fit _ _ _ _ _ _ _ _ _ _ _ _ _ _) as [[[l s] r1]|e|], (fmaxp_fit _ _ _ _ _ _ _ _ _ _ _ _ _ _) as [[[l' s'] r1']|e'|];
    cbn in H |- *; auto. destruct H as [-> [_ ->]]. auto.
Qed.
Theorem C132_maxp expf fuel max_it entropy labels0 r :
  same_outcome (fmaxp_fit A enum2 order (fpairwise A enum) fuel g attr sp thr max_it entropy labels0 None r)
               (maxp_azp_fit expf order (pairwise manhattan) manhattan fuel g attr sp thr max_it entropy labels0 None r) /\
  forall c c',
  same_outcome (fmaxp_fit A enum2 order (fpairwise A enum) fuel g attr sp thr max_it entropy labels0 (Some (FAzp c)) r)
               (maxp_azp_fit expf order (pairwise manhattan) manhattan fuel g attr sp thr max_it entropy labels0 (Some (SAzp c')) r).
Proof. split; [|intros c c']; apply maxp_same; cbn; auto. constructor. Qed.
End Whole.

(** Double precision: distances and totals up to 2^53. *)
Theorem C132_float64 order enum enum2 g attr :
  (forall l, Permutation (order l) l) -> (forall l, Permutation (enum l) l) -> (forall l, Permutation (enum2 l) l) ->
  symmetric g -> length attr = gn g -> (forall x q, In x attr -> In q x -> whole q) ->
  (all_distances (apart attr) (gn g) <= inject_Z (2 ^ 53))%Q ->
  (forall fuel maxlen reps p initial c c' r, shape_ok g initial ->
     same_outcome (basic_fit order (fpairwise float64 enum) fuel maxlen reps g attr p initial c r)
                  (basic_fit order (pairwise manhattan) fuel maxlen reps g attr p initial c' r)) /\
  (forall maxit k1 k2 p initial s r, shape_ok g initial ->
     same_outcome (reactive_fit order (fpairwise float64 enum) maxit k1 k2 g attr p initial s r)
                  (reactive_fit order (pairwise manhattan) maxit k1 k2 g attr p initial s r)) /\
  (forall prob cool azp_fuel p fuel cooling initial a m r, (forall x y t, (x == y)%Q -> (prob x t == prob y t)%Q) -> shape_ok g initial ->
     fsa_fit (ar_add float64) prob cool order (fpairwise float64 enum) azp_fuel g attr p fuel cooling initial a m r =
     fsa_fit Qplus prob cool order (pairwise manhattan) azp_fuel g attr p fuel cooling initial a m r) /\
  (forall expf fuel sp thr max_it entropy labels0 r, no_self_loops g -> shaped sp thr (gn g) -> non_negative sp ->
     (forall x q, In x sp -> In q x -> whole q) -> (forall k, k < length thr -> (whole_map sp g k <= inject_Z (2 ^ 53))%Q) ->
     same_outcome (fmaxp_fit float64 enum2 order (fpairwise float64 enum) fuel g attr sp thr max_it entropy labels0 None r)
                  (maxp_azp_fit expf order (pairwise manhattan) manhattan fuel g attr sp thr max_it entropy labels0 None r)).
Proof.
  intros Hord Henum Henum2 Hsym Hattr Hw HM. destruct float64_exact as [E1 E2]. split; [|split; [|split]].
  - intros. eapply (C132_basic_tabu float64 (inject_Z (2 ^ 53))); eauto.
  - intros. eapply (C132_reactive_tabu float64 (inject_Z (2 ^ 53))); eauto.
  - intros. eapply (C132_sa float64 (inject_Z (2 ^ 53))); eauto.
  - intros. eapply (C132_maxp float64 (inject_Z (2 ^ 53))); eauto.
Qed.

(** ** Examples *)
Local Notation att := (map (fun q : Q => [q])).
Lemma five_whole x q : In x five -> In q x -> whole q.
Proof.
  intros Hx Hq. unfold five in Hx. cbn [map] in Hx.
  repeat (destruct Hx as [<-|Hx]; [destruct Hq as [<-|[]]; eexists; reflexivity|]). destruct Hx.
Qed.
(** A request of C131: thirds, which double precision rounds; every worse move is taken with probability 2^-60 and the
    temperature is never lowered. *)
Definition thirds : list (list Q) := att [1 # 3; 1 # 3; 5 # 3; 2 # 3; 2 # 3]%Q.
Definition rare : Q -> Q -> Q := fun _ _ => 1 # 2 ^ 60.
Definition sa131 : sa_args := mkSaArgs 1 (Some 3) (Some 2%Z) 2 2.
Definition sa_sol (o : out (option (list Z) * sa_memory * rng)) : option (list Z) := match o with Ok (l, _, _) => l | _ => None end.
Example C131_example :
  sa_sol (fsa_fit (ar_add float64) rare (fun t _ => t) same_order (fpairwise float64 (@rev Z)) 40 two_islands thirds 3 40 (1 # 2)
    (Some [7;4;4;9;9]%Z) sa131 (mkSaMemory false []) rng0) = Some [7;7;4;9;9]%Z /\
  valid_request two_islands 3 (Some [7;4;4;9;9]%Z) /\ sa_maxit sa131 = Some 3 /\ length thirds = gn two_islands.
Proof.
  split; [vm_compute; reflexivity|]. split; [|auto].
  split; [lia|]. split; [|cbn; intuition discriminate].
  split; [reflexivity|]. split; [reflexivity|]. apply check_regions_all. vm_compute. reflexivity.
Qed.
(** The hypotheses of C132 hold of the data of C118's example; each search moves an area. *)
Example C132_example :
  (forall x q, In x five -> In q x -> whole q) /\ (all_distances (apart five) (gn two_islands) <= inject_Z (2 ^ 53))%Q /\
  shape_ok two_islands (Some [7;4;4;9;9]%Z) /\
  (match basic_fit same_order (fpairwise float64 (@rev Z)) 40 (Some 3) 2 two_islands five 3 (Some [7;4;4;9;9]%Z) dum rng0 with
   | Ok ((l, _), _) => Some l | _ => None end) = Some [7;7;4;9;9]%Z /\
  (match reactive_fit same_order (fpairwise float64 (@rev Z)) 9 5 5 (path_graph 5) five 2 (Some [4;9;9;9;9]%Z) rt_fresh rng0 with
   | Ok ((l, _), _) => Some l | _ => None end) = Some [4;4;9;9;9]%Z /\
  sa_sol (fsa_fit (ar_add float64) rare Qmult same_order (fpairwise float64 (@rev Z)) 40 two_islands five 3 40 (1 # 2)
    (Some [7;4;4;9;9]%Z) sa131 (mkSaMemory false []) rng0) = Some [7;7;4;9;9]%Z.
Proof.
  split; [exact five_whole|]. split; [vm_compute; discriminate|].
  split; [split; [reflexivity|cbn; intuition discriminate]|].
  repeat split; vm_compute; reflexivity.
Qed.
(** A max-p request whose thresholds are not whole numbers. *)
Example C132_maxp_example :
  no_self_loops two_islands /\ shaped five [5 # 2]%Q (gn two_islands) /\ non_negative five /\
  (forall k, k < length [5 # 2]%Q -> (whole_map five two_islands k <= inject_Z (2 ^ 53))%Q) /\
  mp_labels (fmaxp_fit float64 (@rev nat) same_order (fpairwise float64 (@rev Z)) 40 two_islands five five [5 # 2]%Q 3 rng0 None None rng0) =
    Some [0;0;0;1;1]%Z.
Proof.
  split; [apply two_islands_no_self_loops|]. split; [split; [reflexivity|]|split; [|split]].
  - intros x Hx. unfold five in Hx. apply in_map_iff in Hx. destruct Hx as [q [<- _]]. reflexivity.
  - intros x q Hx Hq. unfold five in Hx. cbn [map] in Hx.
    repeat (destruct Hx as [<-|Hx]; [destruct Hq as [<-|[]]; lra|]). destruct Hx.
  - intros [|k] Hk; [vm_compute; discriminate|cbn in Hk; lia].
  - vm_compute. reflexivity.
Qed.

Print Assumptions C131_rounded_sa_terminates.
Print Assumptions C131_float64.
Print Assumptions C132_basic_tabu.
Print Assumptions C132_reactive_tabu.
Print Assumptions C132_sa.
Print Assumptions C132_sa_exact.
Print Assumptions C132_maxp.
Print Assumptions C132_float64.
