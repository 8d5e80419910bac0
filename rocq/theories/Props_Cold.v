(** Property C138: the result of AZPSimulatedAnnealing.fit compared with the initial labels. *)
From Verif Require Import Base Spec M_Graph P_Graph M_Util P_Base P_Util P_Forest P_Init P_Initial P_Skater
  M_Objective P_Sum P_Objective M_Azp P_Azp P_Strategy P_Fit P_AzpFit Examples Props_Objective Props_Azp M_Sa P_Sa M_Tabu
  P_Zoning P_Starts P_Local Props_Tabu Props_Descent Props_Zoning P_Anneal P_Annealing Props_Anneal P_Names P_ScaleObj.

(** On no island is the objective of [l'] larger than that of [l]. *)
Definition no_worse (O : objfun) (attr : list (list Q)) (g : graph) (l l' : list Z) : Prop :=
  forall v isl x y, v < gn g -> island g v isl ->
    objective_at O attr isl l = Ok x -> objective_at O attr isl l' = Ok y -> (y <= x)%Q.
(** No single legal move raises the objective of an island by less than [delta]. *)
Definition rises_by (O : objfun) (attr : list (list Q)) (g : graph) (delta : Q) : Prop :=
  forall v isl l a K x y, v < gn g -> island g v isl -> In a isl -> legal_move g l a K ->
    objective_at O attr isl l = Ok x -> objective_at O attr isl (upd l a K) = Ok y -> (x < y)%Q -> (delta <= y - x)%Q.
(** At the temperature [t0] the exponential of [- d / t0] is 0 for every [d] from [delta] on: the floating-point
    exponential of a number below -745.2 is 0. *)
Definition cold (expf : Q -> Q) (t0 delta : Q) : Prop := forall z, (z * t0 <= - delta)%Q -> (expf z <= 0)%Q.

Lemma cold_prob expf t0 delta t d : cold expf t0 delta -> (0 < delta)%Q -> (0 <= t)%Q -> (t <= t0)%Q -> (delta <= d)%Q ->
  (acceptance expf t d <= 0)%Q.
Proof.
  intros Hc Hd0 Ht Htt Hd. unfold acceptance. destruct (Qeq_bool t 0) eqn:E; [lra|].
  apply Qeq_bool_neq in E. assert (Hp : (0 < t)%Q) by lra. apply Hc.
  assert (Hq : (d == (d / t) * t)%Q) by (field; lra).
  assert (Hdt : (0 <= d / t)%Q). { apply Qle_shift_div_l; lra. }
  setoid_replace (- d / t)%Q with (- (d / t))%Q by (field; lra). nra.
Qed.

Section Cold.
Variables (O : objfun) (attr : list (list Q)) (g : graph).
Hypothesis Hex : exact_on O attr.
Hypothesis Hattr : length attr = gn g.
Hypothesis Hsym : symmetric g.
Variables (expf : Q -> Q) (t0 delta : Q).
Hypothesis Hdelta : (0 < delta)%Q.
Hypothesis Hrise : rises_by O attr g delta.
Hypothesis Hcold : cold expf t0 delta.
Variable isl : list nat.
Variable v : nat.
Hypothesis Hv : v < gn g.
Hypothesis Hisl : island g v isl.

Definition nw (l l' : list Z) : Prop :=
  forall x y, objective_at O attr isl l = Ok x -> objective_at O attr isl l' = Ok y -> (y <= x)%Q.

Lemma isl_bound a : In a isl -> a < gn g.
Proof. intros Ha. apply (proj2 Hisl) in Ha. apply linked_in_r in Ha. exact Ha. Qed.
Lemma value_at l : exists x, objective_at O attr isl l = Ok x.
Proof. apply objective_Ok; [auto|]. intros i Hi. rewrite Hattr. apply isl_bound; auto. Qed.
Lemma nw_refl l : nw l l.
Proof. intros x y E1 E2. rewrite E1 in E2. injection E2 as <-. lra. Qed.
Lemma nw_trans l1 l2 l3 : nw l1 l2 -> nw l2 l3 -> nw l1 l3.
Proof. intros H1 H2 x y Ex Ey. destruct (value_at l2) as [z Ez]. specialize (H1 _ _ Ex Ez). specialize (H2 _ _ Ez Ey). lra. Qed.
Lemma nw_same l l1 l' : nw l l1 -> (forall a, In a isl -> lab l' a = lab l1 a) -> nw l l'.
Proof.
  intros H E x y Ex Ey. apply (H x y Ex). rewrite <- Ey. unfold objective_at, labels_at. f_equal. apply map_ext_in. intros a Ha. symmetry. auto.
Qed.

Section Temp.
Variable t : Q.
Hypothesis Ht : (0 <= t)%Q.
Hypothesis Htt : (t <= t0)%Q.
Let prob := acceptance expf t.
Lemma go_nw up l a K : can_go O attr g prob isl up l a K -> nw l (upd l a K).
Proof.
  intros [Ha [Hl [x [y [Ex [Ey Hup]]]]]] x' y' Ex' Ey'. rewrite Ex in Ex'. rewrite Ey in Ey'. injection Ex' as <-. injection Ey' as <-.
  destruct up; [|exact Hup]. destruct Hup as [Hlt Hp]. exfalso.
  pose proof (Hrise v isl l a K x y Hv Hisl Ha Hl Ex Ey Hlt) as Hd.
  pose proof (cold_prob expf t0 delta t (y - x) Hcold Hdelta Ht Htt Hd) as Hc. unfold prob in Hp. lra.
Qed.
Lemma turn_nw must K l u m l' : trial_turn (can_go O attr g prob isl) must K l u m l' -> nw l l'.
Proof. induction 1; [apply nw_refl|]. eapply nw_trans; [eapply go_nw; eauto|auto]. Qed.
Lemma round_nw must Ks l u m l' : trial_round (can_go O attr g prob isl) must Ks l u m l' -> nw l l'.
Proof. induction 1; [apply nw_refl|]. eapply nw_trans; [eapply turn_nw; eauto|auto]. Qed.
Lemma rounds_nw must low rs l u m l' : trial_rounds (can_go O attr g prob isl) must low rs l u m l' -> nw l l'.
Proof. induction 1; [eapply round_nw; eauto|]. eapply nw_trans; [eapply round_nw; eauto|auto]. Qed.
Lemma run_nw l u m l' : anneal_run O attr g prob l u m l' -> nw l l'.
Proof.
  intros [_ [isls [ups [moves [[_ Hall] [Hrun _]]]]]]. destruct (Hrun isl) as [l1 [[rs [_ [_ Hr]]] Hag]]; [apply Hall; eauto|].
  eapply nw_same; [eapply rounds_nw; eauto|auto].
Qed.
Lemma runs_nw term fresh left u l m l' : anneal_runs O attr g prob term fresh left u l m l' -> nw l l'.
Proof. induction 1; [apply nw_refl|apply nw_refl|]. eapply nw_trans; [eapply run_nw; eauto|auto]. Qed.
End Temp.

Lemma annealing_nw cooling maxit term steps reps fresh idle t moved l seen l' moved' seen' :
  (0 < cooling)%Q -> (cooling < 1)%Q -> (0 <= t)%Q -> (t <= t0)%Q ->
  annealing O attr g expf cooling maxit term steps reps fresh idle t moved l seen l' moved' seen' -> nw l l'.
Proof.
  intros Hc1 Hc2 Ht Htt H. revert Ht Htt. induction H; intros Ht Htt.
  - apply nw_refl.
  - eapply runs_nw; [| |eauto]; auto.
  - eapply nw_trans; [eapply runs_nw; [| |eauto]; auto|]. apply IHannealing; nra.
Qed.
End Cold.

(** With initial labels and a temperature so low that no worsening is ever accepted the result is on no island
    worse than the initial labels. *)
Theorem C138_cold_partial : forall expf order O attr azp_fuel g p l t0 maxit n steps reps cooling mem fuel r labels mem' r' delta,
  (forall x y, x == y -> expf x == expf y)%Q -> (forall es, Permutation (order es) es) -> symmetric g ->
  exact_on O attr -> length attr = gn g -> valid_request g p (Some l) -> (1 <= n)%Z -> (0 < cooling)%Q -> (cooling < 1)%Q ->
  (0 <= t0)%Q -> (0 < delta)%Q -> rises_by O attr g delta -> cold expf t0 delta ->
  sa_fit expf order O azp_fuel g attr p fuel cooling (Some l) (mkSaArgs t0 maxit (Some n) steps reps) mem r = Ok (Some labels, mem', r') ->
  no_worse O attr g l labels.
Proof.
  intros expf order O attr azp_fuel g p l t0 maxit n steps reps cooling mem fuel r labels mem' r' delta
    Hexpf Hord Hsym Hex Hattr Hv Hn Hc1 Hc2 Ht0 Hd Hrise Hcold H.
  destruct (C109_annealing_sound expf order g Hexpf Hord Hsym) as [T [_ Hs]].
  destruct (Hs O attr azp_fuel p (Some l) t0 maxit n steps reps cooling mem fuel r labels mem' r' Hex Hattr Hv Hn Hc1 Hc2 H)
    as [fresh [l0 [Hst Ha]]]. cbn [starting] in Hst. destruct Hst as [-> ->].
  intros v isl x y Hvg Hi. eapply (annealing_nw O attr g Hex Hattr expf t0 delta Hd Hrise Hcold isl v Hvg Hi); [exact Hc1|exact Hc2|exact Ht0|apply Qle_refl|exact Ha].
Qed.

(** *** whole-number attributes: every worsening is by 1 at least *)
Definition whole (q : Q) : Prop := exists z : Z, (q == inject_Z z)%Q.
Lemma whole_add a b : whole a -> whole b -> whole (a + b).
Proof. intros [x Hx] [y Hy]. exists (x + y)%Z. rewrite inject_Z_plus, Hx, Hy. reflexivity. Qed.
Lemma whole_sum l : (forall x, In x l -> whole x) -> whole (sumQ l).
Proof.
  induction l as [|a l IH]; intros H; [exists 0%Z; reflexivity|]. destruct (whole_add a (sumQ l)) as [z Hz]; [apply H; left; auto|apply IH; intros; apply H; right; auto|].
  exists z. rewrite sumQ_cons. exact Hz.
Qed.
Lemma whole_gap x y : whole x -> whole y -> (x < y)%Q -> (1 <= y - x)%Q.
Proof.
  intros [a Ha] [b Hb] H. rewrite Ha, Hb in H. rewrite Ha, Hb. rewrite <- Zlt_Qlt in H.
  assert (Hi : (inject_Z (a + 1) <= inject_Z b)%Q) by (rewrite <- Zle_Qle; lia). rewrite inject_Z_plus in Hi. unfold inject_Z in *. lra.
Qed.
Lemma whole_rises d attr g : (forall a b, In a attr -> In b attr -> whole (d a b)) -> length attr = gn g -> symmetric g -> rises_by (pairwise d) attr g 1.
Proof.
  intros Hd Hattr Hsym v isl l a K x y Hv Hi _ _ Ex Ey Hlt.
  assert (Hw : forall m z, objective_at (pairwise d) attr isl m = Ok z -> whole z).
  { intros m z Ez. unfold objective_at in Ez. unfold pairwise in Ez. cbn in Ez. injection Ez as <-.
    apply whole_sum. intros q Hq. apply in_map_iff in Hq. destruct Hq as [rg [<- _]]. apply whole_sum.
    intros q Hq. apply in_map_iff in Hq. destruct Hq as [[i j] [<- Hij]]. cbn [fst snd]. apply P_ScaleObj.pairs_in in Hij. destruct Hij as [H1 H2].
    assert (Hrow : forall i, In i (where_eq (labels_at m isl) rg) -> In (row (rows_at attr isl) i) attr).
    { intros k Hk. apply where_eq_In in Hk. assert (Hk' : k < length (labels_at m isl)) by (apply nth_error_Some; congruence). clear Hk. rename Hk' into Hk. unfold labels_at in Hk. rewrite map_length in Hk. unfold row, rows_at.
      assert (Hin : In (nth k (map (fun a0 => nth a0 attr []) isl) []) (map (fun a0 => nth a0 attr []) isl)) by (apply nth_In; rewrite map_length; auto).
      apply in_map_iff in Hin. destruct Hin as [b [<- Hb]]. apply nth_In. rewrite Hattr. apply (proj2 Hi) in Hb. apply linked_in_r in Hb. exact Hb. }
    apply Hd; apply Hrow; auto. }
  apply whole_gap; eauto.
Qed.

(** Expectation refuted: the labels with the smallest objective visited, or at least labels not worse than the
    initial ones, are returned.  The labels of the last run are returned. *)
Theorem C138_never_worse_refuted : forall expf azp_fuel, (forall x y, x == y -> expf x == expf y)%Q ->
  (0 < expf (-16))%Q -> (expf (-16) <= largest_draw)%Q -> 261 < azp_fuel ->
  exists fuel r labels mem' r', sa_fit expf same_order (pairwise manhattan) azp_fuel (path_graph 4) values4 2%Z fuel (1#2)
    (Some [0;0;1;1]%Z) (mkSaArgs 1 (Some 1) (Some 1%Z) 1 0) (mkSaMemory false []) r = Ok (Some labels, mem', r') /\
    ~ no_worse (pairwise manhattan) values4 (path_graph 4) [0;0;1;1]%Z labels.
Proof.
  intros expf azp_fuel Hexpf Hp1 Hp2 Hf. assert (Hv : valid_request (path_graph 4) 2 (Some [0;0;1;1]%Z)) by valid_tac.
  assert (Hex : exact_on (pairwise manhattan) values4) by (apply pairwise_exact_on; [apply manhattan_sym|apply manhattan_zero]).
  assert (Hpr : (acceptance expf 1 (18 - 2) == expf (-16))%Q) by (unfold acceptance; change (Qeq_bool 1 0) with false; cbv iota; apply Hexpf; reflexivity).
  assert (Ha : annealed (pairwise manhattan) values4 (path_graph 4) (acceptance expf 1) [0;1;2;3] [0;0;1;1]%Z (0 + (1 + 0)) (0 + (1 + 0)) [0;1;1;1]%Z).
  { exists [0;1]%Z. split; [repeat constructor; cbn; intuition; discriminate|]. split.
    { intros K. split.
      - intros [<-|[<-|[]]]; [exists 0|exists 2]; split; cbn; auto; reflexivity.
      - intros [a [Ha Hg]]. unfold region in Hg. cbn in Ha. intuition; subst; cbn in Hg; injection Hg as <-; cbn; auto. }
    apply (trials_last _ _ _ _ [0;1]%Z); [auto| |].
    - apply (trials_turn _ _ 0%Z [1]%Z _ 0 0 [0;0;1;1]%Z (1 + 0) (1 + 0)).
      + apply trial_over. intros a [_ [Hleg [x [y [Ex [Ey H]]]]]]. apply legal_to_listed in Hleg; [|wf_tac]. vm_compute in Hleg.
        destruct Hleg as [<-|[]]. vm_compute in Ex, Ey. injection Ex as <-. injection Ey as <-. destruct H as [H|[_ H]]; [vm_compute in H; congruence|].
        rewrite Hpr in H. lra.
      + apply (trials_turn _ _ 1%Z [] _ 1 1 [0;1;1;1]%Z 0 0); [|constructor].
        apply (trial_move _ _ _ true _ 1 0 0).
        * split; [cbn; auto|]. split; [apply listed_legal; [apply path_symmetric|wf_tac|vm_compute; auto 10]|].
          exists 2%Q, 18%Q. split; [vm_compute; reflexivity|]. split; [vm_compute; reflexivity|]. split; [lra|]. rewrite Hpr. exact Hp1.
        * apply trial_over. intros a [_ [Hleg _]]. apply legal_to_listed in Hleg; [|wf_tac]. vm_compute in Hleg. tauto.
    - intros [x [y [Ex [Ey Hlt]]]]. vm_compute in Ex, Ey; injection Ex as <-; injection Ey as <-; vm_compute in Hlt; discriminate. }
  destruct (C109_annealing_outcomes expf same_order (path_graph 4) Hexpf (fun l => Permutation_refl l) (path_symmetric 4)) as [T [_ Hout]].
  destruct (proj2 (Hout (pairwise manhattan) values4 azp_fuel 2%Z (Some [0;0;1;1]%Z) 1%Q (Some 1) 1%Z 1 0 (1#2)%Q (mkSaMemory false [])
      [0;1;1;1]%Z (mkSaMemory true []) Hex eq_refl Hv ltac:(lia) ltac:(lra) ltac:(lra) Hf)) as [fuel [r [r' H]]].
  { exists false, [0;0;1;1]%Z. split; [split; reflexivity|]. apply annealing_one. exists 1, 1. split; [|split; reflexivity].
    apply path4_run; [reflexivity|]. split; [reflexivity|]. exists [0;1;1;1]%Z. split; [exact Ha|reflexivity]. }
  exists fuel, r, [0;1;1;1]%Z, (mkSaMemory true []), r'. split; [exact H|]. intros Hn.
  specialize (Hn 0 [0;1;2;3] 2%Q 18%Q ltac:(cbn; lia) (comp_nodes_island (path_graph 4) 0 ltac:(cbn; lia)) ltac:(vm_compute; reflexivity) ltac:(vm_compute; reflexivity)).
  vm_compute in Hn. congruence.
Qed.

(** A stand-in for the exponential which is 0 below -745 and one half elsewhere. *)
Definition chilled : Q -> Q := fun z => if Qle_bool z (-745) then 0%Q else (1#2)%Q.
Lemma chilled_proper x y : (x == y)%Q -> (chilled x == chilled y)%Q.
Proof. intros H. unfold chilled. destruct (Qle_bool x (-745)) eqn:E, (Qle_bool y (-745)) eqn:E'; try reflexivity; exfalso.
  - apply Qle_bool_iff in E. rewrite H in E. apply Qle_bool_iff in E. congruence.
  - apply Qle_bool_iff in E'. rewrite <- H in E'. apply Qle_bool_iff in E'. congruence.
Qed.
Lemma values4_rises : rises_by (pairwise manhattan) values4 (path_graph 4) 1.
Proof.
  apply whole_rises; [|reflexivity|apply path_symmetric]. intros a b Ha Hb. cbn in Ha, Hb.
  repeat match goal with H : _ \/ _ |- _ => destruct H | H : False |- _ => destruct H end; subst;
    (eexists; vm_compute; reflexivity) || (match goal with |- whole ?q => let v := eval vm_compute in (Qnum (Qred q)) in exists v; vm_compute; reflexivity end).
Qed.
(** At the temperature 1/1000 with whole-number values: from [0;0;0;1] (objective 18) to [0;0;1;1] (objective 2). *)
Example C138_cold_example :
  rises_by (pairwise manhattan) values4 (path_graph 4) 1 /\ cold chilled (1#1000) 1 /\
  valid_request (path_graph 4) 2 (Some [0;0;0;1]%Z) /\ exact_on (pairwise manhattan) values4 /\
  exists mem' r', sa_fit chilled same_order (pairwise manhattan) 300 (path_graph 4) values4 2%Z 20 (1#2)
    (Some [0;0;0;1]%Z) (mkSaArgs (1#1000) (Some 3) (Some 1%Z) 2 1) (mkSaMemory false []) rng0 = Ok (Some [0;0;1;1]%Z, mem', r') /\
  no_worse (pairwise manhattan) values4 (path_graph 4) [0;0;0;1]%Z [0;0;1;1]%Z.
Proof.
  assert (Hc : cold chilled (1#1000) 1).
  { intros z Hz. unfold chilled. destruct (Qle_bool z (-745)) eqn:E; [lra|]. exfalso.
    assert (z <= -745)%Q by lra. apply Qle_bool_iff in H. congruence. }
  assert (Hv : valid_request (path_graph 4) 2 (Some [0;0;0;1]%Z)) by valid_tac.
  assert (Hex : exact_on (pairwise manhattan) values4) by (apply pairwise_exact_on; [apply manhattan_sym|apply manhattan_zero]).
  split; [apply values4_rises|]. split; [exact Hc|]. split; [exact Hv|]. split; [exact Hex|].
  eexists _, _.
  split; [vm_compute; reflexivity|].
  eapply (C138_cold_partial chilled same_order (pairwise manhattan) values4 300 (path_graph 4) 2%Z [0;0;0;1]%Z (1#1000) (Some 3) 1%Z 2 1 (1#2)
    (mkSaMemory false []) 20 rng0 [0;0;1;1]%Z _ _ 1%Q); [apply chilled_proper|intros; apply Permutation_refl|apply path_symmetric|exact Hex|reflexivity|exact Hv
    |lia|lra|lra|lra|lra|apply values4_rises|exact Hc|vm_compute; reflexivity].
Qed.

Print Assumptions C138_cold_partial.
Print Assumptions C138_never_worse_refuted.
