(** Property theorem C152: spatially extensive attributes in an integer type of fixed width. *)
From Coq Require Import Qabs Qround.
From Verif Require Import Base Spec SpecData SpecInt M_Graph P_Graph M_Util P_Base P_Util P_Forest P_Init P_Initial
  M_Objective P_Sum P_Objective M_Azp P_Azp P_Strategy P_Fit P_AzpFit M_Sa M_MaxP P_MaxP P_MaxP2 P_MaxP3 P_MaxP4
  M_Float M_FloatMaxP P_Float P_FloatErr P_FloatMaxP P_FloatMaxP2 M_MaxPInt P_MaxPInt Examples Props_Util Props_Azp Props_MaxP.
Local Notation att := (map (fun q : Q => [q])).

(** The numpy types: [bits] bits with sign hold -2^(bits-1) .. 2^(bits-1)-1, without sign 0 .. 2^bits-1. *)
Theorem C152_types bits :
  int_type (wrap_signed bits) (- 2 ^ (Zpos bits - 1)) (2 ^ Zpos bits) /\ int_type (wrap_unsigned bits) 0 (2 ^ Zpos bits).
Proof. split; [apply signed_type|apply unsigned_type]. Qed.

(** Whatever wraps around, every region of a result truly reaches the thresholds: sums in the type are never above the
    sums.  For every objective, every arithmetic of objective and dissimilarities, any AZP object passed. *)
Theorem C152_thresholds w lo size A enum order O fuel g attr sp thr max_it entropy labels0 ls r labels ls' r' :
  int_type w lo size -> (lo <= 0)%Z -> (forall l, Permutation (order l) l) -> symmetric g -> no_self_loops g ->
  shaped sp thr (gn g) -> non_negative sp -> (forall x q, In x sp -> In q x -> whole q) -> 0 < max_it ->
  int_maxp_fit w A enum order O fuel g attr sp thr max_it entropy labels0 ls r = Ok (labels, ls', r') ->
  exists p l, labels = Some l /\ feasible g l p /\ forall z, In z l -> meets sp thr l z.
Proof.
  intros Hw Hlo Hord Hsym Hloop Hsh Hpos Hwh Hit H. unfold int_maxp_fit in H.
  pose proof (int_valid w lo size Hw Hlo A enum order Hord O g attr sp thr Hsym Hloop Hsh Hpos Hwh fuel max_it entropy labels0 ls r Hit) as P.
  rewrite H in P. destruct P as [mp [l [-> [Hf [Hm _]]]]]. exists mp, l. split; [auto|]. split; [auto|].
  intros z Hz k t Et. pose proof (lower_meets sp thr (fun _ => 0%Q) l z (Hm z Hz) k t Et) as Ht. cbn beta in Ht. lra.
Qed.

(** If the total of every attribute over the map fits the type, fit does the same as without bounds: the same result
    or exception, draws and local search afterwards.  [ls]: none passed, or an AZP object not used by max-p before. *)
Theorem C152_totals_fit w lo size A enum order O fuel g attr sp thr max_it entropy labels0 ls r :
  int_type w lo size -> (lo <= 0)%Z -> (forall l, Permutation (order l) l) -> symmetric g -> no_self_loops g ->
  shaped sp thr (gn g) -> non_negative sp -> (forall x q, In x sp -> In q x -> whole q) ->
  (forall k, k < length thr -> (total_in sp (seq 0 (gn g)) k <= inject_Z (lo + size - 1))%Q) ->
  (ls = None \/ exists c, ls = Some (FAzp c)) ->
  int_maxp_fit w A enum order O fuel g attr sp thr max_it entropy labels0 ls r =
  fmaxp_fit2 exact_arith A enum order O fuel g attr sp thr max_it entropy labels0 ls r.
Proof.
  intros Hw Hlo Hord Hsym Hloop Hsh Hpos Hwh Htop Hls. unfold int_maxp_fit.
  apply (fit_fits w lo size Hw Hlo A enum order Hord O g attr sp thr Hsym Hloop Hsh Hpos Hwh Htop).
  destruct Hls as [->|[c ->]]; exact Logic.I.
Qed.

(** One attribute: if the threshold plus the largest amount does not exceed the first number too large for the type,
    the number of regions is the one without bounds, however large the total over the map is. *)
Theorem C152_number_of_regions w lo size A enum order O g attr sp t m max_it r
    fuel entropy labels0 ls l ls1 r1 fuel' entropy' labels0' ls' l' ls1' r1' :
  int_type w lo size -> (lo <= 0)%Z -> (forall l, Permutation (order l) l) -> symmetric g -> no_self_loops g ->
  shaped sp [t] (gn g) -> non_negative sp -> (forall x q, In x sp -> In q x -> whole q) ->
  (forall x q, In x sp -> In q x -> (q <= m)%Q) -> (m <= inject_Z (lo + size - 1))%Q -> (t + m <= inject_Z (lo + size))%Q -> 0 < max_it ->
  int_maxp_fit w A enum order O fuel g attr sp [t] max_it entropy labels0 ls r = Ok (Some l, ls1, r1) ->
  fmaxp_fit2 exact_arith A enum order O fuel' g attr sp [t] max_it entropy' labels0' ls' r = Ok (Some l', ls1', r1') ->
  n_labels l = n_labels l'.
Proof.
  intros Hw Hlo Hord Hsym Hloop Hsh Hpos Hwh Hm Hm0 Hroom Hit H1 H2.
  apply (one_count w lo size Hw Hlo A enum order Hord O g attr sp [t] Hsym Hloop Hsh Hpos Hwh t m eq_refl Hm Hm0 Hroom
    fuel max_it entropy labels0 ls r fuel' entropy' labels0' ls' l ls1 r1 l' ls1' r1' Hit H1 H2).
Qed.

(** That fit returns whenever every island reaches the thresholds (C36) is false of the code: 20000 + 20000 in 16 bits
    is below 0.  Whatever is drawn, fit raises ValueError. *)
Definition sp152 : list (list Q) := att [20000;20000]%Q.
Theorem C152_attainable_refuted :
  exists g sp thr, symmetric g /\ no_self_loops g /\ shaped sp thr (gn g) /\ non_negative sp /\
    (forall x q, In x sp -> In q x -> exists z, q = inject_Z z /\ wrap_signed 16 z = z) /\
    (forall v isl, v < gn g -> island g v isl -> meets_in sp thr isl) /\
    forall A enum order O fuel attr max_it entropy labels0 ls r, 0 < max_it ->
      exists m, int_maxp_fit (wrap_signed 16) A enum order O fuel g attr sp thr max_it entropy labels0 ls r = Raise (ValueError m).
Proof.
  exists (path_graph 2), sp152, [30000%Q].
  assert (Hsh : shaped sp152 [30000%Q] 2) by (split; [reflexivity|]; intros x [<-|[<-|[]]]; reflexivity).
  assert (Hpos : non_negative sp152) by (intros x q [<-|[<-|[]]] [<-|[]]; vm_compute; discriminate).
  split; [apply path_symmetric|]. split; [apply path_no_self_loops|]. split; [exact Hsh|]. split; [exact Hpos|].
  split; [intros x q [<-|[<-|[]]] [<-|[]]; exists 20000%Z; split; reflexivity|].
  assert (Hconn : forall v isl, v < 2 -> island (path_graph 2) v isl -> In 0 isl /\ In 1 isl).
  { intros v isl Hv [_ Hi].
    assert (Hc : forall a, a < 2 -> same_island (path_graph 2) v a).
    { assert (Hcn : connected_graph (path_graph 2)) by (apply Props_Util.C01_is_connected; vm_compute; reflexivity).
      intros a Ha. apply (proj2 Hcn); auto. }
    split; apply Hi; apply Hc; lia. }
  split.
  - intros v isl Hv Hi k t Et. destruct k as [|k]; [|destruct k; discriminate]. injection Et as <-.
    destruct (Hconn v isl Hv Hi) as [H0 H1].
    apply Qle_trans with (total_in sp152 [0;1] 0); [vm_compute; discriminate|]. apply total_in_mono; auto.
    + repeat constructor; cbn; intuition lia.
    + intros a [<-|[<-|[]]]; auto.
  - intros A enum order O fuel attr max_it entropy labels0 ls r Hit.
    apply (funmet_raises (int_arith (wrap_signed 16)) A enum order O (path_graph 2) attr sp152 [30000%Q] [50000%Q] [50000%Q]
      (path_symmetric 2) (path_no_self_loops 2) eq_refl Hpos) with (v := 0) (isl := [0;1]); auto.
    + intros R Hne Hnd HR.
      assert (Hcases : R = [0] \/ R = [1] \/ R = [0;1] \/ R = [1;0]).
      { pose proof (nodup_short 2 R Hnd HR) as Hl. destruct R as [|a [|b [|c R]]]; cbn in Hl; [congruence| | |lia].
        - assert (a < 2) by (apply HR; left; auto). destruct a as [|[|a]]; [auto|auto|lia].
        - assert (a < 2) by (apply HR; left; auto). assert (b < 2) by (apply HR; right; left; auto).
          inversion Hnd as [|? ? Hn _]; subst. assert (a <> b) by (intros ->; apply Hn; left; auto).
          destruct a as [|[|a]], b as [|[|b]]; try lia; auto. }
      destruct Hcases as [ -> | [ -> | [ -> | -> ] ] ]; vm_compute; intros H; specialize (H 0 _ eq_refl); vm_compute in H; apply H; reflexivity.
    + cbn; lia.
    + split; [repeat constructor|]. intros a.
      assert (Hcn : connected_graph (path_graph 2)) by (apply Props_Util.C01_is_connected; vm_compute; reflexivity).
      split; [intros [<-|[<-|[]]]; apply (proj2 Hcn); cbv; lia|]. intros H. assert (a < 2); [|cbn; lia].
      eapply linked_in_r in H; exact H.
    + intros H. specialize (H 0 _ eq_refl). vm_compute in H. apply H. reflexivity.
Qed.

(** ** Examples *)
Definition fit152 (w : Z -> Z) (attr sp : list Q) (t : Q) (r : rng) :=
  int_maxp_fit w exact_arith (fun l => l) same_order (pairwise manhattan) 40 (path_graph (length sp)) (att attr) (att sp) [t] 1 r None None r.
Definition free152 (attr sp : list Q) (t : Q) (r : rng) :=
  fmaxp_fit2 exact_arith exact_arith (fun l => l) same_order (pairwise manhattan) 40 (path_graph (length sp)) (att attr) (att sp) [t] 1 r None None r.
(** 8 bits with sign: 100 + 100 gives -56.  Both results reach the threshold; without bounds there are two regions.
    Without sign it gives 200, and another draw of the first area raises ValueError in the signed type only. *)
Example C152_example :
  wrap_signed 8 200 = (-56)%Z /\ wrap_unsigned 8 200 = 200%Z /\ wrap_unsigned 8 300 = 44%Z /\
  mp_labels (fit152 (wrap_signed 8) [0;0;0;0]%Q [100;100;27;100]%Q 120%Q (draws [3])) = Some [0;0;0;0]%Z /\
  mp_labels (fit152 (wrap_unsigned 8) [0;0;0;0]%Q [100;100;27;100]%Q 120%Q (draws [3])) = Some [1;1;0;0]%Z /\
  mp_labels (free152 [0;0;0;0]%Q [100;100;27;100]%Q 120%Q (draws [3])) = Some [1;1;0;0]%Z /\
  match fit152 (wrap_signed 8) [0;0;0;0]%Q [100;100;27;100]%Q 120%Q (draws [0]) with Raise (ValueError _) => True | _ => False end /\
  mp_labels (free152 [0;0;0;0]%Q [100;100;27;100]%Q 120%Q (draws [0])) = Some [0;0;1;1]%Z.
Proof. vm_compute. repeat split. Qed.
(** the totals fit *)
Example C152_fit_example :
  (total_in (att [30;20;27;50]%Q) (seq 0 4) 0 <= inject_Z (- 2 ^ 7 + 2 ^ 8 - 1))%Q /\
  mp_labels (fit152 (wrap_signed 8) [0;1;5;5]%Q [30;20;27;50]%Q 45%Q rng0) = Some [0;0;1;1]%Z /\
  mp_labels (free152 [0;1;5;5]%Q [30;20;27;50]%Q 45%Q rng0) = Some [0;0;1;1]%Z.
Proof. split; [vm_compute; discriminate|]. vm_compute. split; reflexivity. Qed.
(** room for one more area: 68 + 60 = 2^7; the total is 300 *)
Example C152_count_example :
  (68 + 60 <= inject_Z (- 2 ^ 7 + 2 ^ 8))%Q /\
  option_map n_labels (mp_labels (fit152 (wrap_signed 8) [0;1;5;5;7]%Q [60;60;60;60;60]%Q 68%Q rng0)) = Some 2 /\
  option_map n_labels (mp_labels (free152 [0;1;5;5;7]%Q [60;60;60;60;60]%Q 68%Q rng0)) = Some 2.
Proof. split; [vm_compute; discriminate|]. vm_compute. split; reflexivity. Qed.

Print Assumptions C152_types.
Print Assumptions C152_thresholds.
Print Assumptions C152_totals_fit.
Print Assumptions C152_number_of_regions.
Print Assumptions C152_attainable_refuted.
