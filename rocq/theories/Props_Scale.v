(** Units and origins of the data: C126. *)
From Verif Require Import Base Spec SpecData M_Graph M_Util M_Objective M_Azp M_Sa M_Tabu M_MaxP M_Skater M_Exact P_Base P_Util P_Graph P_Sum P_Objective P_Mip2 P_Exact P_Scale P_ScaleMaxP P_ScaleObj P_ScaleSkater
  P_Initial P_Fit Props_Azp Props_Compare Examples.

(** * C126: a change of unit and origin changes nothing *)

(** ** which changes are meant *)
(** Multiplying every distance by [c] multiplies the pairwise objective and all its changes by [c]; ... *)
Theorem C126_pairwise_scaled c n d d' attr attr' : (0 < c)%Q -> distances_scaled c n d d' attr attr' ->
  scaled c n (pairwise d) (pairwise d') attr attr'.
Proof. intros Hc. apply pairwise_scaled. Qed.
(** ... multiplying also the distances to the centers does so with the centered objective, for every reduction that follows
    a change of unit, such as the sum and the maximum. *)
Theorem C126_centered_scaled c n d d' center center' reduction attr attr' : (0 < c)%Q ->
  centers_scaled c n d d' center center' attr attr' -> homogeneous reduction ->
  scaled c n (centered d center reduction) (centered d' center' reduction) attr attr'.
Proof. intros Hc. apply centered_scaled; auto. Qed.
(** The default distance and the default center follow a common change of unit and a change of the origin of each attribute. *)
Theorem C126_defaults_scaled c b n w attr attr' : (0 < c)%Q ->
  (forall i, i < n -> length (nth i attr []) = w /\ other_scale c b (nth i attr []) (nth i attr' [])) ->
  distances_scaled c n manhattan manhattan attr attr' /\ centers_scaled c n manhattan manhattan mean_row mean_row attr attr' /\
  homogeneous sumQ /\ homogeneous maxQ.
Proof.
  intros Hc H. split; [apply (other_scale_distances c b); auto; intros; apply H; auto|]. split; [apply (other_scale_centers c b n w); auto|].
  split; [apply homogeneous_sum|apply homogeneous_max].
Qed.

(** ** the heuristics *)
Section Heuristics.
Variables (c : Q) (g : graph) (O O' : objfun) (attr attr' : list (list Q)) (order : list edge -> list edge).
Hypothesis Hc : (0 < c)%Q.
Hypothesis Hsym : symmetric g.
Hypothesis Hord : forall l, Permutation (order l) l.
Hypothesis Hscale : scaled c (gn g) O O' attr attr'.

(** AZP with any strategy returns the same labels, uses up the same random numbers, or raises the same exception.  *)
Theorem C126_azp expf fuel p initial s s' r : (forall x y, (x == y)%Q -> (expf x == expf y)%Q) -> shape_ok g initial -> alike c s s' ->
  (forall labels r', (exists s1, azp_fit expf order O fuel g attr p initial s r = Ok ((labels, s1), r')) <->
                     (exists s1, azp_fit expf order O' fuel g attr' p initial s' r = Ok ((labels, s1), r'))) /\
  (forall e, azp_fit expf order O fuel g attr p initial s r = Raise e <-> azp_fit expf order O' fuel g attr' p initial s' r = Raise e).
Proof.
  intros Hexp Hi Ha. pose proof (azp_fit_scale c Hc O O' g attr attr' Hsym Hscale order Hord expf Hexp fuel p initial s s' r Hi Ha) as H.
  destruct (azp_fit expf order O fuel g attr p initial s r) as [[[l s1] r1]|e|], (azp_fit expf order O' fuel g attr' p initial s' r) as [[[l' s1'] r1']|e'|];
    cbn [rel] in H; try contradiction.
  - destruct H as [E1 [E2 _]]. cbn in E1, E2. subst l' r1'. split; [|split; discriminate]. intros labels r'. split; intros [t [= <- _ <-]]; eauto.
  - subst e'. split; [|tauto]. intros; split; intros [t Ht]; discriminate.
  - split; [|split; discriminate]. intros; split; intros [t Ht]; discriminate.
Qed.
(** Simulated annealing does so if the initial temperature, too, is expressed in the new unit. *)
Theorem C126_annealing expf azp_fuel p fuel cooling initial a mem r t' :
  (forall x y, (x == y)%Q -> (expf x == expf y)%Q) -> shape_ok g initial -> (t' == c * sa_init_temperature a)%Q ->
  sa_fit expf order O' azp_fuel g attr' p fuel cooling initial
    (mkSaArgs t' (sa_maxit a) (sa_moves_term a) (sa_nonmoving_steps a) (sa_reps a)) mem r =
  sa_fit expf order O azp_fuel g attr p fuel cooling initial a mem r.
Proof.
  intros Hexp Hi Ht. pose proof (sa_fit_scale c Hc O O' g attr attr' Hsym Hscale order Hord expf Hexp azp_fuel p fuel cooling initial a mem r t' Hi Ht) as H.
  match goal with [|- ?m' = ?m] => destruct m as [x|e|], m' as [y|e'|] end; cbn in H; try contradiction; auto; [destruct H|]; congruence.
Qed.
(** The tabu searches. *)
Theorem C126_basic_tabu fuel maxlen reps p initial k k' r : shape_ok g initial ->
  (forall labels r', (exists s1, basic_fit order O fuel maxlen reps g attr p initial k r = Ok ((labels, s1), r')) <->
                     (exists s1, basic_fit order O' fuel maxlen reps g attr' p initial k' r = Ok ((labels, s1), r'))) /\
  (forall e, basic_fit order O fuel maxlen reps g attr p initial k r = Raise e <-> basic_fit order O' fuel maxlen reps g attr' p initial k' r = Raise e).
Proof.
  intros Hi. pose proof (basic_fit_scale c Hc O O' g attr attr' Hscale order Hord fuel maxlen reps p initial k k' r Hi) as H.
  match type of H with rel _ ?m ?m' => destruct m as [[[l s1] r1]|e|], m' as [[[l' s1'] r1']|e'|] end; cbn [rel] in H; try contradiction.
  - destruct H as [E1' [E2' _]]. cbn in E1', E2'. subst l' r1'. split; [|split; discriminate]. intros labels r'. split; intros [t [= <- _ <-]]; eauto.
  - subst e'. split; [|tauto]. intros; split; intros [t Ht]; discriminate.
  - split; [|split; discriminate]. intros; split; intros [t Ht]; discriminate.
Qed.
Theorem C126_reactive_tabu maxit k1 k2 p initial s s' r : shape_ok g initial ->
  rt_avg s = rt_avg s' -> rt_reps s = rt_reps s' -> rt_visited s = rt_visited s' ->
  (forall labels r', (exists s1, reactive_fit order O maxit k1 k2 g attr p initial s r = Ok ((labels, s1), r')) <->
                     (exists s1, reactive_fit order O' maxit k1 k2 g attr' p initial s' r = Ok ((labels, s1), r'))) /\
  (forall e, reactive_fit order O maxit k1 k2 g attr p initial s r = Raise e <-> reactive_fit order O' maxit k1 k2 g attr' p initial s' r = Raise e).
Proof.
  intros Hi E1 E2 E3. pose proof (reactive_fit_scale c Hc O O' g attr attr' Hscale order Hord maxit k1 k2 p initial s s' r Hi (conj E1 (conj E2 E3))) as H.
  match type of H with rel _ ?m ?m' => destruct m as [[[l s1] r1]|e|], m' as [[[l' s1'] r1']|e'|] end; cbn [rel] in H; try contradiction.
  - destruct H as [E1' [E2' _]]. cbn in E1', E2'. subst l' r1'. split; [|split; discriminate]. intros labels r'. split; intros [t [= <- _ <-]]; eauto.
  - subst e'. split; [|tauto]. intros; split; intros [t Ht]; discriminate.
  - split; [|split; discriminate]. intros; split; intros [t Ht]; discriminate.
Qed.
(** The max-p heuristic; here the spatially extensive attributes and the threshold, too, may be given in other units. *)
Theorem C126_maxp expf d d' sp sp' thr thr' fuel max_it entropy labels0 ls ls' r :
  (forall x y, (x == y)%Q -> (expf x == expf y)%Q) -> no_self_loops g -> shaped sp thr (gn g) -> length attr = gn g -> length attr' = gn g ->
  distances_scaled c (gn g) d d' attr attr' -> same_amounts sp sp' thr thr' ->
  match ls, ls' with Some s, Some s' => alike c s s' | None, None => True | _, _ => False end ->
  (forall labels r', (exists s1, maxp_azp_fit expf order O d fuel g attr sp thr max_it entropy labels0 ls r = Ok (labels, s1, r')) <->
                     (exists s1, maxp_azp_fit expf order O' d' fuel g attr' sp' thr' max_it entropy labels0 ls' r = Ok (labels, s1, r'))) /\
  (forall e, maxp_azp_fit expf order O d fuel g attr sp thr max_it entropy labels0 ls r = Raise e <->
             maxp_azp_fit expf order O' d' fuel g attr' sp' thr' max_it entropy labels0 ls' r = Raise e).
Proof.
  intros Hexp Hloop Hsp H1 H2 Hd Hsa Hls.
  pose proof (maxp_azp_scale c Hc expf Hexp order Hord O O' d d' g attr attr' sp sp' thr thr' Hsym Hloop Hsp (conj H1 H2) Hd Hsa Hscale fuel max_it entropy labels0 ls ls' r Hls) as H.
  match type of H with rel _ ?m ?m' => destruct m as [[[l s1] r1]|e|], m' as [[[l' s1'] r1']|e'|] end; cbn in H; try contradiction.
  - destruct H as [<- [_ <-]]. split; [|split; discriminate]. intros labels r'. split; intros [t [= <- _ <-]]; eauto.
  - subst e'. split; [|tauto]. intros; split; intros [t Ht]; discriminate.
  - split; [|split; discriminate]. intros; split; intros [t Ht]; discriminate.
Qed.
Theorem C126_maxp_annealing expf d d' sp sp' thr thr' azp_fuel fuel cooling a t' max_it labels0 mem r :
  (forall x y, (x == y)%Q -> (expf x == expf y)%Q) -> no_self_loops g -> shaped sp thr (gn g) -> length attr = gn g -> length attr' = gn g ->
  distances_scaled c (gn g) d d' attr attr' -> same_amounts sp sp' thr thr' -> (t' == c * sa_init_temperature a)%Q ->
  maxp_sa_fit expf order O' d' azp_fuel fuel cooling (mkSaArgs t' (sa_maxit a) (sa_moves_term a) (sa_nonmoving_steps a) (sa_reps a)) g attr' sp' thr'
    max_it labels0 mem r =
  maxp_sa_fit expf order O d azp_fuel fuel cooling a g attr sp thr max_it labels0 mem r.
Proof.
  intros Hexp Hloop Hsp H1 H2 Hd Hsa Ht.
  pose proof (maxp_sa_scale c Hc expf Hexp order Hord O O' d d' g attr attr' sp sp' thr thr' Hsym Hloop Hsp (conj H1 H2) Hd Hsa Hscale azp_fuel fuel cooling a t' max_it labels0 mem r Ht) as H.
  match goal with [|- ?m' = ?m] => destruct m as [x|e|], m' as [y|e'|] end; cbn in H; try contradiction; auto; congruence.
Qed.
End Heuristics.

(** Spanning_Forest: the same forest, the same cuts, the same labels.  ([order] is the order of the weights, which a change of unit
    keeps.) *)
Theorem C126_skater c S1 S2 order g data data' k quorum ignoring fuel : (0 < c)%Q ->
  sk_one_arg S2 = sk_one_arg S1 -> sk_reduction S2 = sk_reduction S1 -> homogeneous (sk_reduction S1) ->
  length data = gn g -> length data' = gn g ->
  distances_scaled c (gn g) (sk_metric S1) (sk_metric S2) data data' ->
  centers_scaled c (gn g) (sk_metric S1) (sk_metric S2) (sk_center S1) (sk_center S2) data data' ->
  match skater_run S1 order g (Some data) k quorum ignoring fuel, skater_run S2 order g (Some data') k quorum ignoring fuel with
  | Ok f, Ok f' => f_labels f' = f_labels f /\ f_forest f' = f_forest f /\ f_no_moves f' = f_no_moves f /\ map fst (f_trace f') = map fst (f_trace f)
  | Raise e, Raise e' => e' = e
  | NoFuel, NoFuel => True
  | _, _ => False
  end.
Proof.
  intros Hc H1 H2 H3 H4 H5 H6 H7. pose proof (skater_scale c Hc S1 S2 (gn g) data data' H1 H2 H3 H7 (conj H4 H5) H6 order g k quorum ignoring fuel eq_refl) as H.
  match type of H with rel _ ?m ?m' => destruct m as [f|e|], m' as [f'|e'|] end; cbn in H; try contradiction; auto.
  destruct H as [A1 [A2 [A3 A4]]]. do 3 (split; [auto|]). clear - A4. induction A4 as [|x y l l' [E _] _ IH]; cbn; congruence.
Qed.

(** ** the exact methods *)
Lemma lp_cost_scaled c n d d' t : (forall i j, i < j < n -> (d' i j == c * d i j)%Q) -> (lp_cost n d' t == c * lp_cost n d t)%Q.
Proof.
  intros H. unfold lp_cost. apply sum_scaled. intros [i j] Hij. apply upper_In in Hij. cbn. rewrite H by auto. ring.
Qed.
Lemma optimal_scaled {A} c (ok : A -> Prop) (cost cost' : A -> Q) a : (0 < c)%Q -> (forall b, (cost' b == c * cost b)%Q) -> optimal ok cost a -> optimal ok cost' a.
Proof. intros Hc H [H1 H2]. split; [auto|]. intros b Hb. rewrite !H. apply Qmult_le_l; auto. Qed.
(** PRegionsExact: an optimal answer stays optimal. *)
Theorem C126_pregions c table g d d' p m labels : (0 < c)%Q -> (forall i j, i < j < gn g -> (d' i j == c * d i j)%Q) ->
  solved table g d p m labels -> solved table g d' p m labels.
Proof.
  intros Hc H Hs. destruct Hs; [eapply solved_flow|eapply solved_order|eapply solved_tree]; eauto; eapply optimal_scaled; eauto; intros b; apply lp_cost_scaled; auto.
Qed.
Lemma sumQ_ext' {A} (f h : A -> Q) l : (forall x, (f x == h x)%Q) -> (sumQ (map f l) == sumQ (map h l))%Q.
Proof. intros H. induction l as [|x l IH]; cbn [map]; [reflexivity|]. rewrite !sumQ_cons, IH, H. reflexivity. Qed.
Lemma sum_zeros {A} (l : list A) : (sumQ (map (fun _ => 0%Q) l) == 0)%Q.
Proof. induction l as [|x l IH]; cbn [map]; [reflexivity|]. rewrite sumQ_cons, IH. reflexivity. Qed.
(** MaxPRegionsExact likewise, although the weight of the number of regions in its objective depends on the unit. *)
Theorem C126_maxp_exact c table mf mf' g attr attr' sp thr labels : (0 < c)%Q -> (0 < gn g) -> nonneg_below (gn g) (mp_weight mf attr) ->
  distances_scaled c (gn g) mf mf' attr attr' ->
  solved_maxp table mf g attr sp thr labels -> solved_maxp table mf' g attr' sp thr labels.
Proof.
  intros Hc Hn Hd Hds [solver [metric [x [a [h [H1 [H2 [[H3 H4] [H5 H6]]]]]]]]].
  assert (Hd' : forall i j, i < j < gn g -> (mp_weight mf' attr' i j == c * mp_weight mf attr i j)%Q) by (intros i j Hij; apply Hds; lia).
  set (d := mp_weight mf attr) in *. set (d' := mp_weight mf' attr') in *.
  assert (Ht : (total_weight (gn g) d' == c * total_weight (gn g) d)%Q).
  { unfold total_weight. apply sum_scaled. intros [i j] Hij. apply upper_In in Hij. apply Hd'; auto. }
  assert (Hpos : (0 < total_weight (gn g) d)%Q).
  { destruct H2 as [H2 _]. eapply Qlt_le_trans; [|exact H2]. apply power10_pos. }
  assert (Hpos' : (0 < total_weight (gn g) d')%Q) by (rewrite Ht; apply Qmult_lt_0_compat; auto).
  destruct (Props_Exact.C54_exponent_exists _ Hpos') as [h' Hh'].
  exists solver, metric, x, a, h'. split; [auto|]. split; [exact Hh'|]. split; [|split; [auto|]].
  - split; [auto|]. intros b Hb. specialize (H4 b Hb). unfold maxp_cost in *. change (mp_weight mf' attr') with d'.
    pose proof (lp_cost_scaled c (gn g) d d' (or_t a) Hd') as Sa. pose proof (lp_cost_scaled c (gn g) d d' (or_t b) Hd') as Sb.
    assert (HB : forall v, maxp_ok g sp thr v -> (0 <= lp_cost (gn g) d (or_t v))%Q /\ (lp_cost (gn g) d (or_t v) <= total_weight (gn g) d)%Q).
    { intros v [Hv _]. split.
      - assert (Z0 : (lp_cost (gn g) d (fun _ _ => 0%Z) == 0)%Q) by (unfold lp_cost; rewrite (sumQ_ext' _ (fun _ => 0%Q)); [apply sum_zeros|intros; ring]).
        rewrite <- Z0. apply lp_cost_le; [intros; apply Hd; auto|]. intros i j Hij. apply Hv; auto.
      - assert (Z1 : (lp_cost (gn g) d (fun _ _ => 1%Z) == total_weight (gn g) d)%Q) by (unfold lp_cost, total_weight; rewrite (sumQ_ext' _ (fun e => d (fst e) (snd e))); [reflexivity|intros; ring]).
        rewrite <- Z1. apply lp_cost_le; [intros; apply Hd; auto|]. intros i j Hij. apply Hv; auto. }
    pose proof (HB a H3) as [A1 A2]. pose proof (HB b Hb) as [B1 B2]. clear HB.
    set (Ka := sum_ko (seq 0 (gn g)) (seq 0 (gn g)) (fun k i => or_x a i k 0)) in *. set (Kb := sum_ko (seq 0 (gn g)) (seq 0 (gn g)) (fun k i => or_x b i k 0)) in *.
    destruct H2 as [_ H2]. destruct Hh' as [_ Hh']. rewrite Ht in Hh'.
    set (La' := lp_cost (gn g) d' (or_t a)) in *. set (Lb' := lp_cost (gn g) d' (or_t b)) in *. set (La := lp_cost (gn g) d (or_t a)) in *.
    set (Lb := lp_cost (gn g) d (or_t b)) in *. set (T := Qpower 10 h) in *. set (T' := Qpower 10 h') in *. set (W := total_weight (gn g) d) in *.
    clearbody La La' Lb Lb' T T' W Ka Kb.
    assert (HK : (Kb <= Ka)%Z).
    { destruct (Z_le_gt_dec Kb Ka) as [L|L]; [auto|]. exfalso.
      assert (E : (inject_Z Ka + 1 <= inject_Z Kb)%Q) by (change 1%Q with (inject_Z 1); rewrite <- inject_Z_plus, <- Zle_Qle; lia).
      assert (0 <= T * (inject_Z Kb - (inject_Z Ka + 1)))%Q by (apply Qmult_le_0_compat; lra). lra. }
    destruct (Z.eq_dec Ka Kb) as [->|Hne].
    + assert (La <= Lb)%Q by lra. assert (c * La <= c * Lb)%Q by (apply Qmult_le_l; auto). lra.
    + assert (E : (inject_Z Kb + 1 <= inject_Z Ka)%Q) by (change 1%Q with (inject_Z 1); rewrite <- inject_Z_plus, <- Zle_Qle; lia).
      assert (c * La <= c * W)%Q by (apply Qmult_le_l; auto).
      assert (0 <= c * Lb)%Q by (apply Qmult_le_0_compat; lra).
      assert (0 <= T' * (inject_Z Ka - (inject_Z Kb + 1)))%Q by (apply Qmult_le_0_compat; lra). lra.
  - unfold maxp_exact_fit in *. fold d d' in H6 |- *. unfold log10_ok in *. rewrite (proj2 (Qltb_lt _ _) Hpos) in H6. rewrite (proj2 (Qltb_lt _ _) Hpos'). exact H6.
Qed.

(** ** what does change the answer *)
(** The temperature is a quantity in the unit of the objective: with the same initial temperature simulated annealing may answer
    differently.  ([expf] is a stand-in for exp: positive, increasing, 1 at 0; 2^-53 is the step of random.random().) *)
Definition coarse_exp (x : Q) : Q := if Qle_bool x (-30) then (1 # 2 ^ 54) else if Qle_bool x 0 then 1 else (x + 1)%Q.
Theorem C126_same_temperature_refuted : exists g attr attr' initial a r labels labels' mem' mem'' r' r'',
  (forall i, i < gn g -> other_scale 2 (fun _ => 0%Q) (nth i attr []) (nth i attr' [])) /\
  (forall x y, (x == y)%Q -> (coarse_exp x == coarse_exp y)%Q) /\ (forall x y, (x <= y)%Q -> (coarse_exp x <= coarse_exp y)%Q) /\ (forall x, (0 < coarse_exp x)%Q) /\
  sa_fit coarse_exp (fun l => l) (pairwise manhattan) 20 g attr 2 20 (1 # 2) (Some initial) a (mkSaMemory false []) r = Ok (Some labels, mem', r') /\
  sa_fit coarse_exp (fun l => l) (pairwise manhattan) 20 g attr' 2 20 (1 # 2) (Some initial) a (mkSaMemory false []) r = Ok (Some labels', mem'', r'') /\
  labels <> labels'.
Proof.
  exists (path_graph 5), [[0];[0];[0];[6];[0]]%Q, [[0];[0];[0];[12];[0]]%Q, [0;0;0;1;1]%Z, (mkSaArgs 1 (Some 1) (Some 1%Z) 2 1), (fun _ => 1).
  do 6 eexists. split; [|split; [|split; [|split]]].
  - intros i Hi. cbn in Hi. do 5 (destruct i as [|i]; [cbn; split; [reflexivity|exact Logic.I]|]). lia.
  - intros x y H. unfold coarse_exp. assert (E1 : Qle_bool x (-30) = Qle_bool y (-30)) by (apply eq_true_iff_eq; rewrite !Qle_bool_iff, H; tauto).
    assert (E2 : Qle_bool x 0 = Qle_bool y 0) by (apply eq_true_iff_eq; rewrite !Qle_bool_iff, H; tauto).
    rewrite E1, E2. destruct (Qle_bool y (-30)); [reflexivity|]. destruct (Qle_bool y 0); [reflexivity|]. rewrite H. reflexivity.
  - intros x y H. unfold coarse_exp. destruct (Qle_bool x (-30)) eqn:E1, (Qle_bool y (-30)) eqn:E2, (Qle_bool x 0) eqn:E3, (Qle_bool y 0) eqn:E4;
      repeat match goal with
      | [H : Qle_bool _ _ = true |- _] => apply Qle_bool_iff in H
      | [H : Qle_bool ?x ?y = false |- _] => assert (~ (x <= y)%Q) by (rewrite <- Qle_bool_iff; congruence); clear H
      end; try (apply Qle_refl); try lra; try (vm_compute; discriminate).
    apply Qle_trans with 1%Q; [vm_compute; discriminate|lra].
  - intros x. unfold coarse_exp. destruct (Qle_bool x (-30)); [reflexivity|]. destruct (Qle_bool x 0) eqn:E; [reflexivity|].
    assert (~ (x <= 0)%Q) by (rewrite <- Qle_bool_iff; congruence). lra.
  - split; [vm_compute; reflexivity|]. split; [vm_compute; reflexivity|]. vm_compute. discriminate.
Qed.
(** The unit of one attribute among several matters. *)
Theorem C126_one_attribute_refuted : exists g attr attr' u initial r labels labels' s' s'' r' r'',
  (forall k, (0 < u k)%Q) /\ (forall i, i < gn g -> stretched u (nth i attr []) (nth i attr' [])) /\
  azp_fit (fun _ => 0%Q) (fun l => l) (pairwise manhattan) 20 g attr 2 (Some initial) (SAzp unstarted) r = Ok ((labels, s'), r') /\
  azp_fit (fun _ => 0%Q) (fun l => l) (pairwise manhattan) 20 g attr' 2 (Some initial) (SAzp unstarted) r = Ok ((labels', s''), r'') /\
  labels = [0;0;1]%Z /\ labels' = [0;1;1]%Z.
Proof.
  exists (path_graph 3), [[0;0];[1;1];[4;1]]%Q, [[0;0];[1;10];[4;10]]%Q, (fun k => match k with 0 => 1%Q | _ => 10%Q end), [0;0;1]%Z, rng0.
  do 6 eexists. split; [intros [|k]; reflexivity|]. split.
  - intros i Hi. cbn in Hi. do 3 (destruct i as [|i]; [cbn; repeat split; reflexivity|]). lia.
  - split; [vm_compute; reflexivity|]. split; [vm_compute; reflexivity|]. split; reflexivity.
Qed.

(** ** Examples *)
Definition attr126 : list (list Q) := [[0;1];[2;1];[9;3];[10;5]]%Q.
(** three times as large, the first attribute counted from -1, the second from 2 *)
Definition attr126' : list (list Q) := [[1;1];[7;1];[28;7];[31;13]]%Q.
Definition origin126 (k : nat) : Q := match k with 0 => 1%Q | _ => (-2)%Q end.
Example C126_other_scale_example : forall i, i < 4 -> length (nth i attr126 []) = 2 /\ other_scale 3 origin126 (nth i attr126 []) (nth i attr126' []).
Proof. intros i Hi. do 4 (destruct i as [|i]; [cbn; repeat split; reflexivity|]). lia. Qed.
Example C126_scaled_example : scaled 3 4 (pairwise manhattan) (pairwise manhattan) attr126 attr126' /\
  scaled 3 4 (centered manhattan mean_row sumQ) (centered manhattan mean_row sumQ) attr126 attr126' /\
  (exists v v', o_call (pairwise manhattan) [0;0;1;1]%Z attr126 = Ok v /\ o_call (pairwise manhattan) [0;0;1;1]%Z attr126' = Ok v' /\ (v == 5)%Q /\ (v' == 15)%Q).
Proof.
  destruct (C126_defaults_scaled 3 origin126 4 2 attr126 attr126' eq_refl C126_other_scale_example) as [H1 [H2 [H3 _]]].
  split; [apply C126_pairwise_scaled; [reflexivity|auto]|]. split; [apply C126_centered_scaled; [reflexivity|auto|auto]|].
  do 2 eexists. split; [reflexivity|]. split; [reflexivity|]. split; vm_compute; reflexivity.
Qed.
Example C126_azp_example : alike 3 (SAzp unstarted) (SAzp unstarted) /\ shape_ok (path_graph 4) (Some [0;1;1;1]%Z) /\
  (exists s1 r1, azp_fit (fun _ => 0%Q) (fun l => l) (pairwise manhattan) 20 (path_graph 4) attr126 2 (Some [0;1;1;1]%Z) (SAzp unstarted) rng0 = Ok (([0;0;1;1]%Z, s1), r1)) /\
  (exists s1 r1, azp_fit (fun _ => 0%Q) (fun l => l) (pairwise manhattan) 20 (path_graph 4) attr126' 2 (Some [0;1;1;1]%Z) (SAzp unstarted) rng0 = Ok (([0;0;1;1]%Z, s1), r1)).
Proof.
  split; [constructor|]. split; [split; [reflexivity|cbn; intuition discriminate]|]. split; do 2 eexists; vm_compute; reflexivity.
Qed.
(** amounts in thousands, the threshold too *)
Example C126_maxp_example : same_amounts [[2000];[1000];[500];[3000]]%Q [[2];[1];[1 # 2];[3]]%Q [2500]%Q [5 # 2]%Q /\
  shaped [[2000];[1000];[500];[3000]]%Q [2500]%Q 4 /\ no_self_loops (path_graph 4) /\
  (exists s1 r1, maxp_azp_fit (fun _ => 0%Q) (fun l => l) (pairwise manhattan) manhattan 20 (path_graph 4) attr126 [[2000];[1000];[500];[3000]]%Q [2500]%Q 2 rng0 None None rng0 =
     Ok (Some [0;0;1;1]%Z, s1, r1)) /\
  (exists s1 r1, maxp_azp_fit (fun _ => 0%Q) (fun l => l) (pairwise manhattan) manhattan 20 (path_graph 4) attr126' [[2];[1];[1 # 2];[3]]%Q [5 # 2]%Q 2 rng0 None None rng0 =
     Ok (Some [0;0;1;1]%Z, s1, r1)).
Proof.
  split.
  { split; [cbn; lia|]. exists (fun _ => 1 # 1000)%Q. split; [reflexivity|]. split; [cbn; split; [reflexivity|exact Logic.I]|].
    exists 1. split; [auto|]. intros i. do 4 (destruct i as [|i]; [right; cbn; repeat split; reflexivity|]). left. cbn. destruct i; auto. }
  split; [split; [reflexivity|intros x Hx; cbn in Hx; intuition; subst; reflexivity]|].
  split; [intros i Hi; cbn in Hi; do 4 (destruct i as [|i]; [reflexivity|]); lia|]. split; do 2 eexists; vm_compute; reflexivity.
Qed.
Example C126_tabu_example :
  (exists s1 r1, basic_fit (fun l => l) (pairwise manhattan) 20 (Some 2) 1 (path_graph 4) attr126 2 (Some [0;1;1;1]%Z) unstarted rng0 = Ok (([0;0;1;1]%Z, s1), r1)) /\
  (exists s1 r1, basic_fit (fun l => l) (pairwise manhattan) 20 (Some 2) 1 (path_graph 4) attr126' 2 (Some [0;1;1;1]%Z) unstarted rng0 = Ok (([0;0;1;1]%Z, s1), r1)).
Proof. split; do 2 eexists; vm_compute; reflexivity. Qed.
Example C126_skater_example : let S := mkSk manhattan sumQ mean_row false in
  homogeneous (sk_reduction S) /\ centers_scaled 3 4 (sk_metric S) (sk_metric S) (sk_center S) (sk_center S) attr126 attr126' /\
  distances_scaled 3 4 (sk_metric S) (sk_metric S) attr126 attr126' /\
  (exists f f', skater_run S (fun l => l) (path_graph 4) (Some attr126) (Some 2%Z) None true 10 = Ok f /\
                skater_run S (fun l => l) (path_graph 4) (Some attr126') (Some 2%Z) None true 10 = Ok f' /\ f_labels f = [0;0;1;1]%Z /\ f_labels f' = [0;0;1;1]%Z).
Proof.
  destruct (C126_defaults_scaled 3 origin126 4 2 attr126 attr126' eq_refl C126_other_scale_example) as [H1 [H2 [H3 _]]].
  split; [exact H3|]. split; [exact H2|]. split; [exact H1|]. do 2 eexists. split; [vm_compute; reflexivity|]. split; [vm_compute; reflexivity|]. split; reflexivity.
Qed.

Print Assumptions C126_pairwise_scaled. Print Assumptions C126_centered_scaled. Print Assumptions C126_defaults_scaled.
Print Assumptions C126_azp. Print Assumptions C126_annealing. Print Assumptions C126_basic_tabu. Print Assumptions C126_reactive_tabu.
Print Assumptions C126_maxp. Print Assumptions C126_maxp_annealing. Print Assumptions C126_skater. Print Assumptions C126_pregions.
Print Assumptions C126_maxp_exact. Print Assumptions C126_same_temperature_refuted. Print Assumptions C126_one_attribute_refuted.
