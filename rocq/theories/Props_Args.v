(** Property C91: unusable arguments are reported by the documented exceptions. *)
From Verif Require Import Base Spec M_Graph P_Graph M_Util P_Base P_Util P_Forest P_Init P_Initial
  M_Objective P_Sum P_Objective M_Azp P_Azp P_Strategy P_Fit P_AzpFit M_Sa P_Sa M_Tabu M_Skater M_Exact Examples Props_Objective Props_Sa.
From Verif Require Props_Exact.

(** ** simulated annealing *)
(** The constructor complains about a missing temperature only; fit complains, with ValueError, iff the
    cooling factor is not between 0 and 1 or sa_moves_term is not a positive integer (for valid requests,
    exact objectives and max_iterations <> 0). *)
Theorem C91_sa_arguments expf order O azp_fuel fuel g attr p initial temperature maxit moves_term nonmoving reps cooling r :
  symmetric g -> (forall l, Permutation (order l) l) -> length attr = gn g -> exact_on O attr -> valid_request g p initial ->
  maxit <> Some 0 ->
  (temperature = None -> sa_new temperature maxit moves_term nonmoving reps = Raise NotImplementedError) /\
  (temperature <> None -> exists a m, sa_new temperature maxit moves_term nonmoving reps = Ok (a, m) /\
     forall m, (* also after any earlier fits *)
     let result := sa_fit expf order O azp_fuel g attr p fuel cooling initial a m r in
     ((exists e, result = Raise e) <-> ~ (0 < cooling < 1)%Q \/ ~ exists n, moves_term = Some n /\ (1 <= n)%Z) /\
     (forall e, result = Raise e -> exists msg, e = ValueError msg)).
Proof.
  intros Hsym Hord Hattr Hex Hv Hmax. split; [intros ->; reflexivity|].
  intros Ht. destruct temperature as [t|]; [|congruence]. eexists _, _. split; [reflexivity|]. intros m result.
  set (a := mkSaArgs t maxit moves_term nonmoving reps) in *.
  destruct (negb (Qltb 0 cooling && Qltb cooling 1)) eqn:Ec.
  { assert (E : result = Raise (ValueError "The cooling_factor argument must be greater than 0 and less than 1")).
    { unfold result, sa_fit. rewrite Ec. reflexivity. }
    rewrite E. split; [|intros e H; injection H as <-; eauto]. split; [|eauto]. intros _. left. intros [H1 H2].
    apply Qltb_lt in H1. apply Qltb_lt in H2. rewrite H1, H2 in Ec. discriminate. }
  assert (Hc : (0 < cooling < 1)%Q).
  { apply negb_false_iff, andb_true_iff in Ec. destruct Ec as [E1 E2]. apply Qltb_lt in E1. apply Qltb_lt in E2. auto. }
  assert (Hr : result = let* s := sa_strategy a m in sa_outer expf order O azp_fuel g attr p fuel a cooling 0 t initial s (sa_visited m) r).
  { unfold result, sa_fit. rewrite Ec. reflexivity. }
  unfold sa_strategy in Hr. cbn [sa_moves_term a] in Hr. destruct moves_term as [n|].
  2: { cbn [bind] in Hr. rewrite Hr. split; [|intros e H; injection H as <-; eauto]. split; [|eauto]. intros _. right. intros [n [E _]]. discriminate. }
  destruct (Z.ltb_spec n 1) as [Hn|Hn].
  { cbn [bind] in Hr. rewrite Hr. split; [|intros e H; injection H as <-; eauto]. split; [|eauto]. intros _. right. intros [n' [E Hn']].
    injection E as <-. lia. }
  cbn [bind] in Hr.
  assert (Hno : forall e, result <> Raise e).
  { intros e E. rewrite Hr in E.
    match type of E with sa_outer _ _ _ _ _ _ _ _ _ _ _ _ _ ?s _ _ = _ => set (s0 := s) in E end.
    assert (Hsa : is_sa s0) by (unfold is_sa; subst s0; repeat eexists).
    pose proof (sa_outer_post expf order O azp_fuel g attr p (alphabet p initial) noexn True is_sa
      is_sa_reset is_sa_temp is_sa_clear
      (fun i s r Hi Hs => sa_azp_post O attr g expf order True azp_fuel p i s r Hex Hsym Hattr Hord Hi (or_introl Logic.I) Hs)
      (valid_request_pos _ _ _ Hv) a cooling Hmax fuel 0 t initial s0 (sa_visited m) r
      (ok_initial_alphabet _ _ _ Hv) Hsa (or_introl Logic.I)) as Hp.
    rewrite E in Hp. destruct Hp. }
  split; [|intros e E; destruct (Hno e E)]. split.
  - intros [e E]. destruct (Hno e E).
  - intros [H|H]; [destruct (H Hc)|]. destruct H. exists n. auto.
Qed.

(** C91 is false of the code for max_iterations = 0: initial labels are returned as they are, feasible or
    not, and without initial labels the exception is a TypeError. *)
Theorem C91_zero_iterations_refuted expf order O azp_fuel fuel g attr p temperature n nonmoving reps cooling a m r :
  sa_new (Some temperature) (Some 0) (Some n) nonmoving reps = Ok (a, m) -> (1 <= n)%Z -> (0 < cooling < 1)%Q ->
  0 < nonmoving -> nonmoving < fuel ->
  (forall labels, exists m' r', sa_fit expf order O azp_fuel g attr p fuel cooling (Some labels) a m r = Ok (Some labels, m', r')) /\
  (exists msg, sa_fit expf order O azp_fuel g attr p fuel cooling None a m r = Raise (TypeError msg)).
Proof.
  intros E Hn [Hc1 Hc2] Hnm Hf. injection E as <- <-. unfold sa_fit, sa_strategy. cbn [sa_moves_term sa_move_made sa_visited].
  apply Qltb_lt in Hc1. apply Qltb_lt in Hc2. rewrite Hc1, Hc2. cbn [andb negb].
  destruct (Z.ltb_spec n 1); [lia|]. cbn [bind sa_init_temperature]. split.
  - intros labels.
    assert (H0 : forall fuel k t s visited, sa_is_moved s = false -> nonmoving - k < fuel ->
      exists m' r', sa_outer expf order O azp_fuel g attr p fuel (mkSaArgs temperature (Some 0) (Some n) nonmoving reps) cooling k t
        (Some labels) s visited r = Ok (Some labels, m', r')).
    { clear - nonmoving. induction fuel as [|fuel IH]; intros k t s visited Hs Hf; [lia|].
      cbn [sa_outer sa_nonmoving_steps]. destruct (Nat.ltb_spec k nonmoving); [|eauto].
      assert (Eb : forall f s, sa_step_b expf order O azp_fuel g attr p f (Some 0) (Some labels) s r = Ok (Some labels, s, r)).
      { intros [|f] s'; reflexivity. }
      cbn [sa_maxit]. rewrite Eb. cbn [bind]. destruct (Nat.leb _ _); [eauto|].
      assert (Hm : sa_is_moved (sa_set_temperature (t * cooling) (sa_reset s)) = false) by (destruct s; cbn in *; auto).
      rewrite Hm. apply IH; [auto|lia]. }
    apply H0; [reflexivity|lia].
  - destruct fuel as [|fuel]; [lia|]. cbn [sa_outer sa_nonmoving_steps]. destruct (Nat.ltb_spec 0 nonmoving); [|lia].
    cbn [sa_maxit]. destruct fuel; cbn [sa_step_b orb bind]; eauto.
Qed.

(** ** the other classes *)
(** AZPReactiveTabu: max_iterations has to be positive. *)
Theorem C91_reactive_arguments max_iterations c :
  ((max_iterations <= 0)%Z -> exists msg, reactive_new max_iterations c = Raise (ValueError msg)) /\
  ((0 < max_iterations)%Z -> exists s, reactive_new max_iterations c = Ok s).
Proof.
  unfold reactive_new. destruct (Z.leb_spec max_iterations 0) as [H|H]; split; intros; try lia; eauto.
Qed.

(** The random division of a connected graph: 1 <= n_regions <= number of areas. *)
Theorem C91_divide_arguments order g k r : (forall l, Permutation (order l) l) -> connected_graph g ->
  ((exists e, randomly_divide_connected_graph order g k r = Raise e) <-> ~ 1 <= k <= gn g) /\
  (forall e, randomly_divide_connected_graph order g k r = Raise e -> exists msg, e = ValueError msg).
Proof.
  intros Hord Hcon. destruct (Nat.eq_dec k 0) as [->|Hk].
  { split; [split; [lia|intros _; eexists; reflexivity]|]. intros e H. injection H as <-. eauto. }
  destruct (le_lt_dec k (gn g)) as [Hle|Hlt].
  - destruct (randomly_divide_spec order g k r Hord Hcon ltac:(lia)) as [ls [r' [E _]]]. rewrite E.
    split; [split; [intros [e H]; discriminate|lia]|]. intros e H. discriminate.
  - unfold randomly_divide_connected_graph. rewrite (proj2 (Nat.eqb_neq k 0) Hk), (proj2 (Nat.ltb_lt _ _) Hlt).
    split; [split; [lia|eauto]|]. intros e H. injection H as <-. eauto.
Qed.

(** Spanning_Forest.score needs labels or an earlier fit. *)
Theorem C91_score_without_labels S data quorum :
  exists msg, score S None data None quorum = Raise (ValueError msg).
Proof. unfold score. eauto. Qed.

(** MaxPRegionsExact: with everything else in order, a threshold array needs an entry for every spatially
    extensive attribute. *)
Theorem C91_short_threshold table metric_fn g attr sp threshold solver metric x :
  Props_Exact.accepted table solver metric -> (0 < total_weight (gn g) (mp_weight metric_fn attr))%Q ->
  ((exists e, maxp_exact_fit table metric_fn g attr sp (TArray threshold) solver metric x = Raise e) <->
     length threshold < length (nth 0 sp [])) /\
  (forall e, maxp_exact_fit table metric_fn g attr sp (TArray threshold) solver metric x = Raise e -> e = IndexError).
Proof.
  intros [Hs Hm] Hw. unfold maxp_exact_fit. apply Props_Exact.metric_accepted in Hm. destruct Hm as [f ->]. cbn [bind].
  unfold check_solver. rewrite (proj2 (Props_Exact.one_of_true _ solver) Hs). cbn [bind].
  unfold log10_ok. rewrite (proj2 (Qltb_lt _ _) Hw). cbn [bind threshold_build].
  destruct (Nat.ltb_spec (length threshold) (length (nth 0 sp []))) as [H|H]; cbn [bind].
  - split; [split; eauto|]. intros e E. injection E as <-. reflexivity.
  - split; [split; [intros [e E]; discriminate|lia]|]. intros e E. discriminate.
Qed.

(** ** concrete instances *)
(** sa_moves_term = 0 and a cooling factor of 1 are refused, sa_moves_term = 1 is not *)
Example C91_sa_example :
  let run := fun cooling term => sa_fit (fun q => q) same_order (pairwise manhattan) 40 two_islands [[1];[1];[5];[2];[2]]%Q 3%Z 40 cooling
    (Some [7;4;4;9;9]%Z) (mkSaArgs 1 (Some 1) term 3 1) (mkSaMemory false []) rng0 in
  (exists msg, run (1 # 2) (Some 0%Z) = Raise (ValueError msg)) /\ (exists msg, run (1 # 2) None = Raise (ValueError msg)) /\
  (exists msg, run 1%Q (Some 1%Z) = Raise (ValueError msg)) /\ sa_labels (run (1 # 2) (Some 1%Z)) = Some [7;7;4;9;9]%Z.
Proof. vm_compute. repeat split; eauto. Qed.

(** the labels [0;1;0] of a path of three areas are not contiguous, 5 regions are more than 3 areas *)
Example C91_zero_example :
  ~ feasible (path_graph 3) [0;1;0]%Z 5 /\
  sa_labels (sa_fit (fun q => q) same_order (pairwise manhattan) 40 (path_graph 3) [[1];[1];[5]]%Q 5%Z 40 (1 # 2)
    (Some [0;1;0]%Z) (mkSaArgs 1 (Some 0) (Some 1%Z) 3 1) (mkSaMemory false []) rng0) = Some [0;1;0]%Z.
Proof.
  split; [|vm_compute; reflexivity]. intros [_ [H _]]. vm_compute in H. discriminate.
Qed.

Example C91_divide_example :
  (exists msg, randomly_divide_connected_graph same_order (path_graph 3) 4 rng0 = Raise (ValueError msg)) /\
  (exists ls r', randomly_divide_connected_graph same_order (path_graph 3) 3 rng0 = Ok (ls, r')).
Proof. split; vm_compute; eauto. Qed.

(** two attributes per area, one entry in the threshold array *)
Example C91_threshold_example :
  maxp_exact_fit ["manhattan"]%string manhattan (path_graph 2) [[1]; [3]]%Q [[1; 2]; [3; 4]]%Q (TArray [2]%Q) (AStr "CBC") MNone
    (fun _ _ _ => None) = Raise IndexError /\
  Props_Exact.accepted ["manhattan"]%string (AStr "CBC") MNone /\
  (0 < total_weight 2 (mp_weight manhattan [[1]; [3]]%Q))%Q.
Proof.
  split; [vm_compute; reflexivity|]. split; [|vm_compute; reflexivity]. split.
  - exists "CBC"%string. split; [reflexivity|]. left. reflexivity.
  - left. split; [reflexivity|left; reflexivity].
Qed.

Print Assumptions C91_sa_arguments.
Print Assumptions C91_zero_iterations_refuted.
Print Assumptions C91_reactive_arguments.
Print Assumptions C91_divide_arguments.
Print Assumptions C91_score_without_labels.
Print Assumptions C91_short_threshold.
