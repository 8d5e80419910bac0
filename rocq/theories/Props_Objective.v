(** Property theorems C09-C13: objective functions and name dispatch. *)
From Verif Require Import Base Spec M_Graph P_Graph M_Util P_Base M_Objective P_Sum P_Objective Examples.
Local Open Scope Q_scope.

(** ** C09: the pairwise update is the change of the objective *)
Theorem C09_pairwise_update d attr labels a r :
  (forall x y, d x y == d y x) -> (forall x, d x x == 0) ->
  (a < length labels)%nat -> In r labels ->
  exists v v' q, o_call (pairwise d) labels attr = Ok v /\
    o_call (pairwise d) (upd labels a r) attr = Ok v' /\
    o_update (pairwise d) a r labels attr = Ok q /\
    q == v' - v.
Proof.
  intros Hs Hz Ha Hr. cbn.
  destruct (pairwise_call_spec d labels attr) as [v [E Hv]].
  destruct (pairwise_call_spec d (upd labels a r) attr) as [v' [E' Hv']].
  assert (exists q, pairwise_update d a r labels attr = Ok q) as [q Hq].
  { unfold pairwise_update. rewrite metric_to_point_Ok by (apply rows_of_nonempty, nth_In; auto). cbn [bind].
    rewrite metric_to_point_Ok by (apply rows_of_nonempty; auto). cbn [bind]. eauto. }
  exists v, v', q. split; [auto|]. split; [auto|]. split; [auto|].
  rewrite Hv, Hv'. apply pairwise_update_spec; auto; unfold dist; auto.
Qed.

(** moving area 2 (attribute 5) from region {0,1,2} to {3,4}: 0+1+5 etc. *)
Definition attr5 : list (list Q) := [[1]; [2]; [5]; [7]; [8]].
Example C09_example :
  o_call (pairwise manhattan) [0;0;0;1;1]%Z attr5 = Ok 9 /\
  o_call (pairwise manhattan) (upd [0;0;0;1;1] 2 1)%Z attr5 = Ok 7 /\
  o_update (pairwise manhattan) 2 1 [0;0;0;1;1]%Z attr5 = Ok (- 2) /\
  (forall x y, manhattan x y == manhattan y x) /\ (forall x, manhattan x x == 0).
Proof.
  split; [vm_compute; reflexivity|]. split; [vm_compute; reflexivity|]. split; [vm_compute; reflexivity|].
  split; [exact (fun x y => manhattan_sym x y)|exact manhattan_zero].
Qed.

(** ** C10: the pairwise objective depends only on the partition *)
Lemma het_rename d (labels labels' : list Z) : length labels = length labels' ->
  (forall i j, (i < length labels)%nat -> (j < length labels)%nat ->
     (lab labels i = lab labels j <-> lab labels' i = lab labels' j)) ->
  heterogeneity d labels == heterogeneity d labels'.
Proof.
  intros El H. unfold heterogeneity. rewrite <- El. apply sumQ_ext. intros j Hj. apply sumQ_ext. intros i Hi.
  apply in_seq in Hj. apply in_seq in Hi.
  specialize (H i j ltac:(lia) ltac:(lia)).
  destruct (Z.eqb_spec (lab labels i) (lab labels j)), (Z.eqb_spec (lab labels' i) (lab labels' j)); try tauto; reflexivity.
Qed.

Theorem C10_pairwise_partition d attr labels :
  exists v, o_call (pairwise d) labels attr = Ok v /\
    v == heterogeneity (fun i j => d (nth i attr []) (nth j attr [])) labels /\
    ((forall x y, 0 <= d x y) -> 0 <= v) /\
    (NoDup labels -> v == 0) /\
    (forall labels', length labels' = length labels ->
       (forall i j, (i < length labels)%nat -> (j < length labels)%nat ->
          (nth_error labels i = nth_error labels j <-> nth_error labels' i = nth_error labels' j)) ->
       exists v', o_call (pairwise d) labels' attr = Ok v' /\ v' == v).
Proof.
  destruct (pairwise_call_spec d labels attr) as [v [E Hv]]. exists v. split; [exact E|]. split; [exact Hv|].
  split; [|split].
  - intros Hd. rewrite Hv. unfold heterogeneity. apply sumQ_nonneg. intros j _. apply sumQ_nonneg. intros i _.
    destruct (Z.eqb _ _); [apply Hd|lra].
  - intros Hnd. rewrite Hv. unfold heterogeneity. apply sumQ_zero. intros j Hj. apply sumQ_zero. intros i Hi.
    apply in_seq in Hj. apply in_seq in Hi. destruct (Z.eqb_spec (lab labels i) (lab labels j)) as [Eq|]; [|reflexivity].
    exfalso. pose proof (proj1 (NoDup_nth labels (-1)%Z) Hnd i j ltac:(lia) ltac:(lia) Eq). lia.
  - intros labels' El H. destruct (pairwise_call_spec d labels' attr) as [v' [E' Hv']]. exists v'. split; [exact E'|].
    rewrite Hv, Hv'. symmetry. apply het_rename; [auto|]. intros i j Hi Hj. specialize (H i j Hi Hj).
    rewrite !lab_nth_error in H by (auto; congruence).
    split; intros Heq.
    + assert (Some (lab labels i) = Some (lab labels j)) as Hs by congruence. apply H in Hs. congruence.
    + assert (Some (lab labels' i) = Some (lab labels' j)) as Hs by congruence. apply H in Hs. congruence.
Qed.

Example C10_example :
  o_call (pairwise manhattan) [7;3;7;3;3]%Z attr5 = o_call (pairwise manhattan) [0;1;0;1;1]%Z attr5 /\
  o_call (pairwise manhattan) [7;3;7;3;3]%Z attr5 = Ok 16 /\
  o_call (pairwise manhattan) [4;3;2;1;0]%Z attr5 = Ok 0 /\
  heterogeneity (fun i j => manhattan (nth i attr5 []) (nth j attr5 [])) [7;3;7;3;3]%Z == 16.
Proof. vm_compute. repeat split; reflexivity. Qed.

(** ** C11: the center update, sum reduction *)
(** [center_update_st] also returns the label array as the call leaves it. *)
Theorem C11_center_update d center attr labels a r :
  (a < length labels)%nat -> In r labels ->
  (exists b, b <> a /\ nth_error labels b = nth_error labels a) ->
  exists v v' q, o_call (centered d center sumQ) labels attr = Ok v /\
    o_call (centered d center sumQ) (upd labels a r) attr = Ok v' /\
    center_update_st d center sumQ a r labels attr = Ok (q, labels) /\
    o_update (centered d center sumQ) a r labels attr = Ok q /\
    q == v' - v.
Proof.
  intros Ha Hr Hb. destruct (center_update_Ok d center sumQ labels attr a r Ha Hr Hb) as [q Hq].
  destruct (center_update_spec d center labels attr a r q Ha Hq) as [v [v' [E [E' Hd]]]].
  exists v, v', q. split; [exact E|]. split; [exact E'|]. split; [|split; [exact Hq|exact Hd]].
  unfold center_update in Hq. destruct (center_update_st d center sumQ a r labels attr) as [[q' labels']| |] eqn:Es; cbn in Hq; try discriminate.
  injection Hq as ->. apply center_update_restores in Es as El; auto. subst labels'. reflexivity.
Qed.

Example C11_example :
  match o_call (centered manhattan mean_row sumQ) [0;0;0;1;1]%Z attr5,
        o_call (centered manhattan mean_row sumQ) (upd [0;0;0;1;1] 2 1)%Z attr5,
        center_update_st manhattan mean_row sumQ 2 1 [0;0;0;1;1]%Z attr5 with
  | Ok v, Ok v', Ok (q, l) => v == 17 # 3 /\ v' == 13 # 3 /\ q == - (4 # 3) /\ l = [0;0;0;1;1]%Z
  | _, _, _ => False
  end.
Proof. vm_compute. repeat split; reflexivity. Qed.

(** the region left behind must keep an area: otherwise the call raises *)
Theorem C11_last_area_raises d center red attr labels a r :
  (a < length labels)%nat -> In r labels -> r <> lab labels a ->
  (forall b, b <> a -> nth_error labels b <> nth_error labels a) ->
  exists s, o_update (centered d center red) a r labels attr = Raise (ValueError s).
Proof.
  intros Ha Hr Hne Hb. cbn. unfold center_update, center_update_st.
  rewrite heterogeneity_of_Ok by (apply nth_In; auto). cbn [bind].
  rewrite heterogeneity_of_Ok by auto. cbn [bind].
  unfold heterogeneity_of at 1.
  assert (E : rows_of (upd labels a r) (lab labels a) attr = []).
  { destruct (rows_of (upd labels a r) (lab labels a) attr) eqn:E; [reflexivity|]. exfalso.
    assert (Hin : In (lab labels a) (upd labels a r)) by (apply (rows_of_nonempty _ _ attr); rewrite E; discriminate).
    apply In_nth_error in Hin. destruct Hin as [b Eb]. apply nth_error_upd in Eb.
    destruct Eb as [[_ [_ Eq]]|[Hba Eb]]; [congruence|].
    apply (Hb b Hba). rewrite Eb. symmetry. apply lab_nth_error; auto. }
  rewrite E. cbn. eauto.
Qed.

(** ** C12: with reduction = max the update is not the change of the objective *)
(** Regions {0,1}, {2,3} and {4,5}: the third region dominates the maximum, so moving area 1 into
    region 1 does not change the objective, but [update] reports a change. *)
Definition attr6 : list (list Q) := [[0]; [4]; [4]; [4]; [0]; [100]].
Theorem C12_center_max_refuted :
  exists labels a r q, (a < length labels)%nat /\ length labels = length attr6 /\ In r labels /\
    (exists b, b <> a /\ nth_error labels b = nth_error labels a) /\
    o_update (centered manhattan mean_row maxQ) a r labels attr6 = Ok q /\
    forall v v', o_call (centered manhattan mean_row maxQ) labels attr6 = Ok v ->
      o_call (centered manhattan mean_row maxQ) (upd labels a r) attr6 = Ok v' -> ~ q == v' - v.
Proof.
  exists [0;0;1;1;2;2]%Z, 1%nat, 1%Z. eexists. split; [cbn; lia|]. split; [reflexivity|]. split; [cbn; tauto|].
  split; [exists 0%nat; split; [lia|reflexivity]|]. split; [vm_compute; reflexivity|].
  intros v v' E E'. vm_compute in E. vm_compute in E'. injection E as <-. injection E' as <-. vm_compute. discriminate.
Qed.

(** what holds for every reduction: the call answers, restores the labels, and reports the change
    of the reduction over the two regions involved *)
Theorem C12_center_any_reduction_partial d center red attr labels a r :
  (a < length labels)%nat -> In r labels ->
  (exists b, b <> a /\ nth_error labels b = nth_error labels a) ->
  let h labels r := red (map (fun x => d x (center (rows_of labels r attr))) (rows_of labels r attr)) in
  center_update_st d center red a r labels attr =
    Ok (red [h (upd labels a r) (lab labels a); h (upd labels a r) r] -
        red [h labels (lab labels a); h labels r], labels).
Proof.
  intros Ha Hr [b [Hb Eb]] h. unfold center_update_st.
  rewrite heterogeneity_of_Ok by (apply nth_In; auto). cbn [bind].
  rewrite heterogeneity_of_Ok by auto. cbn [bind]. rewrite heterogeneity_of_Ok.
  - cbn [bind]. rewrite heterogeneity_of_Ok by (apply In_upd_new; auto). cbn [bind].
    rewrite upd_upd. unfold lab at 3. rewrite upd_same by auto. reflexivity.
  - apply nth_error_In with (n := b). rewrite nth_error_upd_ne by auto. rewrite Eb. apply lab_nth_error; auto.
Qed.

(** ** C13: name dispatch *)
Theorem C13_metric table m :
  match m with
  | MNone => get_metric_function table m = get_metric_function table (MStr "manhattan")
  | MStr s => (In s table /\ get_metric_function table m = Ok (Named s)) \/
              (~ In s table /\ exists t, get_metric_function table m = Raise (ValueError t))
  | MFun f => get_metric_function table m = Ok (Given f)
  | MOther => exists t, get_metric_function table m = Raise (ValueError t)
  end.
Proof.
  destruct m as [|s|f|]; cbn; eauto. destruct (existsb (String.eqb s) table) eqn:E.
  - left. split; [|reflexivity]. apply existsb_exists in E. destruct E as [t [Ht Eq]].
    apply String.eqb_eq in Eq. subst; auto.
  - right. split; [|eauto]. intros Hin. apply not_true_iff_false in E. apply E. apply existsb_exists.
    exists s. split; [auto|apply String.eqb_refl].
Qed.

Lemma one_of_spec names a : one_of names a = true <-> exists s, a = AStr s /\ In (lower s) names.
Proof.
  destruct a as [s|]; cbn; [|split; [discriminate|intros [s [H _]]; discriminate]].
  rewrite existsb_exists. split.
  - intros [t [Ht E]]. apply String.eqb_eq in E. subst. eauto.
  - intros [s' [E H]]. injection E as <-. exists (lower s). split; [auto|apply String.eqb_refl].
Qed.

Lemma check_names names a (e : string) :
  let res := if one_of names a then Ok tt else Raise (ValueError e) in
  (res = Ok tt <-> exists s, a = AStr s /\ In (lower s) names) /\
  (res <> Ok tt -> res = Raise (ValueError e)).
Proof.
  cbn zeta. rewrite <- one_of_spec. destruct (one_of names a); split; try tauto; try congruence; split; discriminate.
Qed.

Theorem C13_solver_and_method a :
  (check_solver a = Ok tt <-> exists s, a = AStr s /\ In (lower s) ["cbc"; "cplex"; "glpk"; "gurobi"]%string) /\
  (check_solver a <> Ok tt -> exists e, check_solver a = Raise (ValueError e)) /\
  (check_method a = Ok tt <-> exists s, a = AStr s /\ In (lower s) ["flow"; "order"; "tree"]%string) /\
  (check_method a <> Ok tt -> exists e, check_method a = Raise (ValueError e)).
Proof.
  destruct (check_names ["cbc"; "cplex"; "glpk"; "gurobi"]%string a "solver") as [H1 H2].
  destruct (check_names ["flow"; "order"; "tree"]%string a "method") as [H3 H4].
  split; [exact H1|]. split; [intros H; eexists; apply H2; auto|]. split; [exact H3|]. intros H; eexists; apply H4; auto.
Qed.

Theorem C13_contiguity a b :
  (w_from_gdf a = Ok b <-> exists s, a = AStr s /\ lower s = (if b then "rook" else "queen")%string) /\
  ((forall s, a = AStr s -> lower s <> "rook"%string /\ lower s <> "queen"%string) ->
   exists e, w_from_gdf a = Raise (ValueError e)).
Proof.
  unfold w_from_gdf. split.
  - split.
    + intros H. destruct (one_of _ a) eqn:E; [|discriminate]. apply one_of_spec in E. destruct E as [s [-> Hin]].
      exists s. split; [auto|]. injection H as H. destruct b.
      * apply String.eqb_eq in H. exact H.
      * destruct Hin as [Hin|[Hin|[]]]; [|auto]. rewrite <- Hin in H. discriminate.
    + intros [s [-> E]]. cbn. rewrite E. destruct b; reflexivity.
  - intros H. destruct (one_of _ a) eqn:E; [|eauto]. apply one_of_spec in E. destruct E as [s [-> Hin]].
    destruct (H s eq_refl) as [H1 H2]. destruct Hin as [Hin|[Hin|[]]]; congruence.
Qed.

(** the case-insensitive comparison really identifies ASCII case *)
Example C13_example :
  lower "GuRoBi" = "gurobi"%string /\ check_solver (AStr "GuRoBi") = Ok tt /\
  check_method (AStr "Flow") = Ok tt /\ (exists e, check_method (AStr "flows") = Raise e) /\
  w_from_gdf (AStr "ROOK") = Ok true /\ w_from_gdf (AStr "Queen") = Ok false /\
  get_metric_function ["manhattan"; "euclidean"]%string MNone = Ok (Named "manhattan") /\
  (exists e, get_metric_function ["manhattan"; "euclidean"]%string (MStr "Manhattan") = Raise e).
Proof. repeat split; try reflexivity; eexists; reflexivity. Qed.

Print Assumptions C09_pairwise_update.
Print Assumptions C10_pairwise_partition.
Print Assumptions C11_center_update.
Print Assumptions C11_last_area_raises.
Print Assumptions C12_center_max_refuted.
Print Assumptions C12_center_any_reduction_partial.
Print Assumptions C13_metric.
Print Assumptions C13_solver_and_method.
Print Assumptions C13_contiguity.
