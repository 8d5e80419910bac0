(** Properties of the exact solvers: C47 - C56, C73 - C76. *)
From Verif Require Import Base Spec M_Graph M_Util M_Objective M_MaxP M_Exact P_Base P_Util P_Graph P_Sum P_Objective P_Mip P_Mip2 P_Order P_Flow P_TreeMip P_TreeMip2 P_MaxPExact P_Exact Examples.
From Coq Require Import Qpower.
Local Open Scope Z_scope.

(** Arguments the documentation allows: a solver name in any case; a named metric, a function or
    the default. *)
Definition accepted (table : list string) (solver : str_arg) (metric : metric_arg) : Prop :=
  (exists s, solver = AStr s /\ In (lower s) ["cbc"; "cplex"; "glpk"; "gurobi"]%string) /\
  ((metric = MNone /\ In "manhattan"%string table) \/ (exists s, metric = MStr s /\ In s table) \/ exists f, metric = MFun f).

(** The values the solver leaves in the variables of the program. *)
Definition flow_reports (g : graph) (p : nat) (ans : answers) (a : flow_vars) : Prop :=
  forall i k, (i < gn g)%nat -> (k < p)%nat -> reports (an_y ans i k) (fl_y a i k).
Definition order_reports (g : graph) (p : nat) (ans : answers) (a : order_vars) : Prop :=
  forall i k o, (i < gn g)%nat -> (k < p)%nat -> (o < gn g - p)%nat -> reports (an_x ans i k o) (or_x a i k o).
Definition tree_reports (g : graph) (ans : answers) (a : tree_vars) : Prop :=
  forall i j, (i < gn g)%nat -> (j < gn g)%nat -> reports (an_t ans i j) (tr_t a i j).
Definition maxp_reports (g : graph) (x : nat -> nat -> nat -> option Q) (a : order_vars) : Prop :=
  forall i k o, (i < gn g)%nat -> (k < gn g)%nat -> (o < gn g)%nat -> reports (x i k o) (or_x a i k o).

Lemma one_of_true names a : one_of names a = true <-> exists s, a = AStr s /\ In (lower s) names.
Proof.
  unfold one_of. destruct a as [s|]; [|split; [discriminate|intros [s [H _]]; discriminate]].
  rewrite existsb_exists. split.
  - intros [x [Hx E]]. apply String.eqb_eq in E. exists s. subst. auto.
  - intros [s' [E H]]. injection E as ->. exists (lower s'). split; [auto|apply String.eqb_refl].
Qed.
Lemma metric_accepted table metric : 
  ((metric = MNone /\ In "manhattan"%string table) \/ (exists s, metric = MStr s /\ In s table) \/ exists f, metric = MFun f) <->
  exists m, get_metric_function table metric = Ok m.
Proof.
  assert (Hin : forall s, existsb (String.eqb s) table = true <-> In s table).
  { intros s. rewrite existsb_exists. split; [intros [x [Hx E]]; apply String.eqb_eq in E; subst; auto|intros H; exists s; split; [auto|apply String.eqb_refl]]. }
  unfold get_metric_function. destruct metric as [|s|f|]; split.
  - intros [[_ H]|[[s [H _]]|[f H]]]; try discriminate. apply Hin in H. rewrite H. eauto.
  - intros [m H]. left. split; [auto|]. apply Hin. destruct (existsb _ _); [auto|discriminate].
  - intros [[H _]|[[s' [H Hs]]|[f H]]]; try discriminate. injection H as <-. apply Hin in Hs. rewrite Hs. eauto.
  - intros [m H]. right. left. exists s. split; [auto|]. apply Hin. destruct (existsb _ _); [auto|discriminate].
  - eauto.
  - intros _. right. right. eauto.
  - intros [[H _]|[[s' [H Hs]]|[f H]]]; discriminate.
  - intros [m H]. discriminate.
Qed.

Lemma run_accepted table g p method m solver metric ans r : accepted table solver metric ->
  In (lower m) ["flow"; "order"; "tree"]%string -> method = AStr m -> (0 < p <= gn g)%nat ->
  pexact_run table g (AInt (Z.of_nat p)) method solver metric ans r = opt_func m g p ans r.
Proof.
  intros [Hs Hm] Hmeth -> Hp. unfold pexact_run.
  destruct (Z.leb_spec (Z.of_nat p) 0); [lia|]. destruct (Z.ltb_spec (Z.of_nat (gn g)) (Z.of_nat p)); [lia|].
  unfold check_method. rewrite (proj2 (one_of_true _ (AStr m))) by eauto. cbn [bind].
  unfold check_solver. rewrite (proj2 (one_of_true _ solver)) by auto. cbn [bind].
  apply metric_accepted in Hm. destruct Hm as [f ->]. cbn [bind]. rewrite Nat2Z.id. reflexivity.
Qed.

Lemma run_flow table g p m solver metric ans r : accepted table solver metric -> lower m = "flow"%string -> (0 < p <= gn g)%nat ->
  pexact_run table g (AInt (Z.of_nat p)) (AStr m) solver metric ans r = flow_fit g p (an_y ans).
Proof.
  intros Ha Hm Hp. rewrite (run_accepted table g p _ m) by (auto; rewrite Hm; cbn; auto). unfold opt_func. rewrite Hm. reflexivity.
Qed.
Lemma run_order table g p m solver metric ans r : accepted table solver metric -> lower m = "order"%string -> (0 < p <= gn g)%nat ->
  pexact_run table g (AInt (Z.of_nat p)) (AStr m) solver metric ans r = order_fit g p (an_x ans).
Proof.
  intros Ha Hm Hp. rewrite (run_accepted table g p _ m) by (auto; rewrite Hm; cbn; auto). unfold opt_func. rewrite Hm. reflexivity.
Qed.
Lemma run_tree table g p m solver metric ans r : accepted table solver metric -> lower m = "tree"%string -> (0 < p <= gn g)%nat ->
  pexact_run table g (AInt (Z.of_nat p)) (AStr m) solver metric ans r = tree_fit g p (an_t ans) r.
Proof.
  intros Ha Hm Hp. rewrite (run_accepted table g p _ m) by (auto; rewrite Hm; cbn; auto). unfold opt_func. rewrite Hm. reflexivity.
Qed.
Lemma partition_pos g p c : partition g p c -> (0 < gn g)%nat -> (0 < p <= gn g)%nat.
Proof. intros Hp Hn. pose proof (partition_le g p c Hp). pose proof (proj1 Hp 0%nat Hn). lia. Qed.

(** ** Flow model *)
(** C47 *)
Theorem C47_flow_sound table g p m solver metric ans r a :
  symmetric g -> (0 < gn g)%nat -> accepted table solver metric -> lower m = "flow"%string ->
  flow_ok g p a -> flow_reports g p ans a ->
  exists labels, pexact_run table g (AInt (Z.of_nat p)) (AStr m) solver metric ans r = Ok labels /\
    p_partition g p labels /\ (forall z, In z labels -> (region_size labels z + p <= gn g)%nat) /\
    forall d, nonneg_below (gn g) d -> optimal (flow_ok g p) (flow_cost g d) a ->
      (flow_cost g d a == heterogeneity d labels)%Q.
Proof.
  intros Hsym Hn Hacc Hm Hok Hrep. destruct (flow_sound g p a Hsym Hok) as [c [Hp [Hs [Hfit [Ht Hok']]]]].
  exists (lab_of (gn g) c). split; [rewrite run_flow; [apply Hfit, Hrep|auto|auto|apply (partition_pos _ _ _ Hp Hn)]|].
  split; [apply partition_labels; auto|]. split.
  - apply (size_matches g p _ c (lab_of_matches _ _) Hp). intros k Hk. specialize (Hs k Hk). pose proof (partition_le g p c Hp). lia.
  - intros d Hd Hopt. rewrite (flow_value g d p a c Hd Hopt Ht Hok'). apply lp_cost_het. apply lab_of_matches.
Qed.
(** an adjacency that is not symmetric is rejected while the model is built *)
Theorem C47_flow_asymmetric table g p m solver metric ans r i j :
  accepted table solver metric -> lower m = "flow"%string -> (0 < p <= gn g)%nat ->
  (i < gn g)%nat -> (j < gn g)%nat -> gadj g i j = true -> gadj g j i = false ->
  pexact_run table g (AInt (Z.of_nat p)) (AStr m) solver metric ans r = Raise KeyError.
Proof.
  intros Hacc Hm Hp Hi Hj H1 H2. rewrite run_flow by auto. unfold flow_fit, flow_build.
  destruct (forallb _ _) eqn:E; [|reflexivity]. exfalso. rewrite forallb_forall in E. specialize (E i). rewrite forallb_forall in E.
  assert (Hm' : memb i (neighbors g j) = true) by (apply E; [apply in_seq; lia|apply neighbors_In; auto]).
  apply memb_In, neighbors_In in Hm'. destruct Hm' as [_ Hm']. congruence.
Qed.

(** C48: the full claim would hold for every [l] with [feasible g l p]. *)
Theorem C48_flow_representable_partial table g p m solver metric r l :
  symmetric g -> (0 < gn g)%nat -> accepted table solver metric -> lower m = "flow"%string -> feasible g l p ->
  ((exists a, flow_ok g p a /\ forall ans, flow_reports g p ans a ->
      exists labels, pexact_run table g (AInt (Z.of_nat p)) (AStr m) solver metric ans r = Ok labels /\ same_partition l labels)
   <-> forall z, In z l -> (region_size l z + p <= gn g)%nat).
Proof.
  intros Hsym Hn Hacc Hm Hf. destruct (feasible_partition g p l Hf) as [c [Hp Hml]]. split.
  - intros [a [Hok Hrun]]. set (ans := mkAns (fun i k => Some (inject_Z (fl_y a i k))) (fun _ _ _ => None) (fun _ _ => None)).
    assert (Hrep : flow_reports g p ans a) by (intros i k _ _; eexists; split; reflexivity).
    destruct (Hrun ans Hrep) as [labels [Er Hsame]]. destruct (C47_flow_sound table g p m solver metric ans r a Hsym Hn Hacc Hm Hok Hrep) as [labels' [Er' [_ [Hsz _]]]].
    rewrite Er in Er'. injection Er' as <-. rewrite <- sizeb_spec in Hsz |- *. rewrite (sizeb_same _ _ l labels Hsame). exact Hsz.
  - intros Hz. destruct (flow_complete g p c Hsym Hp) as [f [w Hok]].
    { intros k Hk. pose proof (proj1 (size_matches g p l c Hml Hp) Hz k Hk). lia. }
    eexists. split; [exact Hok|]. intros ans Hrep. destruct (flow_sound g p _ Hsym Hok) as [c' [Hp' [_ [Hfit [Ht' _]]]]]. cbn [fl_t] in Ht'.
    exists (lab_of (gn g) c'). rewrite run_flow; [|auto|auto|apply (partition_pos _ _ _ Hp Hn)]. split; [apply Hfit, Hrep|].
    pose proof (Hfit _ Hrep) as Hfit1. unfold flow_fit in Hfit1. destruct (flow_build g); try discriminate. cbn [bind] in Hfit1. injection Hfit1 as Hdec.
    apply (matches_same (gn g) _ _ c Hml). split; [apply lab_of_length|]. intros u v Hu Hv. rewrite <- Hdec. unfold flow_decode.
    assert (HL : forall i, (i < gn g)%nat -> lab (map (fun i => fold_left (fun r k => if is_one (an_y ans i k) then Z.of_nat k else r) (seq 0 p) 0) (seq 0 (gn g))) i = Z.of_nat (c i)).
    { intros i Hi. apply lab_of_nth_error.
      rewrite (map_nth_error (fun i => fold_left (fun r k => if is_one (an_y ans i k) then Z.of_nat k else r) (seq 0 p) 0) _ _ (nth_error_seq0 _ i Hi)). f_equal.
      pose proof (proj1 Hp i Hi) as Hci. apply (fold_last (fun k => is_one (an_y ans i k)) Z.of_nat _ _ (c i)).
      - apply in_seq. lia.
      - apply (is_one_reports _ _ (Hrep i (c i) Hi Hci)). cbn [fl_y]. rewrite Nat.eqb_refl. reflexivity.
      - intros k Hk H1. apply in_seq in Hk. assert (Hkp : (k < p)%nat) by lia. apply (is_one_reports _ _ (Hrep i k Hi Hkp)) in H1. cbn [fl_y] in H1.
        destruct (Nat.eqb_spec (c i) k); [congruence|discriminate]. }
    rewrite !HL by auto. lia.
Qed.
Theorem C48_flow_best_partial table g p m solver metric ans r d a labels :
  symmetric g -> (0 < gn g)%nat -> accepted table solver metric -> lower m = "flow"%string -> nonneg_below (gn g) d ->
  optimal (flow_ok g p) (flow_cost g d) a -> flow_reports g p ans a ->
  pexact_run table g (AInt (Z.of_nat p)) (AStr m) solver metric ans r = Ok labels ->
  best_partition g d p (fun l => forall z, In z l -> (region_size l z + p <= gn g)%nat) labels.
Proof.
  intros Hsym Hn Hacc Hm Hd Hopt Hrep Hrun. destruct (C47_flow_sound table g p m solver metric ans r a Hsym Hn Hacc Hm (proj1 Hopt) Hrep) as [l' [Er [Hpl [_ Hval]]]].
  rewrite Hrun in Er. injection Er as <-. split; [apply Hpl|]. intros l Hf Hz. destruct (feasible_partition g p l Hf) as [c [Hp Hml]].
  destruct (flow_complete g p c Hsym Hp) as [f [w Hok]].
  { intros k Hk. pose proof (proj1 (size_matches g p l c Hml Hp) Hz k Hk). lia. }
  rewrite <- (Hval d Hd Hopt), <- (lp_cost_het (gn g) d l c Hml). apply (proj2 Hopt _ Hok).
Qed.
(** with n - p <= 1 the model is infeasible, although p contiguous regions may exist *)
Theorem C48_flow_infeasible_refuted g p a : symmetric g -> (0 < gn g)%nat -> (gn g <= p + 1)%nat -> ~ flow_ok g p a.
Proof.
  intros Hsym Hn Hm Hok. destruct (flow_sound g p a Hsym Hok) as [c [Hp [Hs _]]].
  pose proof (partition_sum g p c Hp) as Hsum. pose proof (partition_le g p c Hp) as Hle. pose proof (partition_pos g p c Hp Hn).
  assert (Hk : sumZ (map (fun k => Z.of_nat (length (members g (cls c k)))) (seq 0 p)) <= sumZ (map (fun _ => Z.of_nat (gn g) - Z.of_nat p) (seq 0 p))).
  { apply sumZ_le. intros k Hk. apply in_seq in Hk. apply Hs. lia. }
  rewrite sumZ_const, seq_length in Hk. nia.
Qed.

(** ** Order model *)
(** C49 *)
Theorem C49_order_sound table g p m solver metric ans r a :
  (0 < gn g)%nat -> accepted table solver metric -> lower m = "order"%string ->
  order_ok g p a -> order_reports g p ans a ->
  exists labels, pexact_run table g (AInt (Z.of_nat p)) (AStr m) solver metric ans r = Ok labels /\
    p_partition g p labels /\
    forall d, nonneg_below (gn g) d -> optimal (order_ok g p) (order_cost g d) a ->
      (order_cost g d a == heterogeneity d labels)%Q.
Proof.
  intros Hn Hacc Hm Hok Hrep. destruct (order_sound g p a Hok) as [c [Hp [Hfit [Ht Hok']]]].
  exists (lab_of (gn g) c). split; [rewrite run_order; [apply Hfit, Hrep|auto|auto|apply (partition_pos _ _ _ Hp Hn)]|].
  split; [apply partition_labels; auto|]. intros d Hd Hopt. rewrite (order_value g d p a c Hd Hopt Ht Hok'). apply lp_cost_het. apply lab_of_matches.
Qed.

(** C50 *)
Theorem C50_order_best table g p m solver metric ans r d a labels :
  symmetric g -> accepted table solver metric -> lower m = "order"%string -> nonneg_below (gn g) d -> (p + 2 <= gn g)%nat ->
  optimal (order_ok g p) (order_cost g d) a -> order_reports g p ans a ->
  pexact_run table g (AInt (Z.of_nat p)) (AStr m) solver metric ans r = Ok labels ->
  best_partition g d p (fun _ => True) labels.
Proof.
  intros Hsym Hacc Hm Hd Hnp Hopt Hrep Hrun. assert (Hn : (0 < gn g)%nat) by lia.
  destruct (C49_order_sound table g p m solver metric ans r a Hn Hacc Hm (proj1 Hopt) Hrep) as [l' [Er [Hpl Hval]]].
  rewrite Hrun in Er. injection Er as <-. split; [apply Hpl|]. intros l Hf _. destruct (feasible_partition g p l Hf) as [c [Hp Hml]].
  destruct (order_complete g p c Hsym Hp) as [x [Hok _]]; [lia|].
  rewrite <- (Hval d Hd Hopt), <- (lp_cost_het (gn g) d l c Hml). apply (proj2 Hopt _ Hok).
Qed.
Theorem C50_order_representable table g p m solver metric r l :
  symmetric g -> accepted table solver metric -> lower m = "order"%string -> feasible g l p -> (p + 2 <= gn g)%nat ->
  exists a, order_ok g p a /\ forall ans, order_reports g p ans a ->
    exists labels, pexact_run table g (AInt (Z.of_nat p)) (AStr m) solver metric ans r = Ok labels /\ same_partition l labels.
Proof.
  intros Hsym Hacc Hm Hf Hnp. assert (Hn : (0 < gn g)%nat) by lia. destruct (feasible_partition g p l Hf) as [c [Hp Hml]].
  destruct (order_complete g p c Hsym Hp) as [x [Hok Hx]]; [lia|]. eexists. split; [exact Hok|]. intros ans Hrep.
  destruct (order_sound g p _ Hok) as [c' [Hp' [Hfit [Ht' _]]]]. cbn [or_t] in Ht'.
  exists (lab_of (gn g) c'). rewrite run_order; [|auto|auto|apply (partition_pos _ _ _ Hp Hn)]. split; [apply Hfit, Hrep|].
  assert (Hc : forall i, (i < gn g)%nat -> c' i = c i).
  { intros i Hi. destruct Hok as [_ [H01 [_ [Hone _]]]]. cbn [or_x] in H01, Hone.
    destruct (order_hot g p (gn g - p) x H01 Hone) as [c1 [o1 Hco]].
    assert (E1 : order_fit g p (fun i k o => Some (inject_Z (x i k o))) = Ok (lab_of (gn g) c')) by (apply Hfit; intros; eexists; split; reflexivity).
    unfold order_fit in E1. destruct (order_build g p); try discriminate. cbn [bind] in E1. injection E1 as E1.
    rewrite (order_decoded g p (gn g - p) x c1 o1 Hco) in E1 by (intros; eexists; split; reflexivity).
    assert (E2 : lab (lab_of (gn g) c1) i = lab (lab_of (gn g) c') i) by congruence. rewrite !lab_of_lab in E2 by auto.
    destruct (Hco i Hi) as [Hc1 [Ho1 Hh]]. assert (E3 : c i = c1 i).
    { apply (Hx i (c1 i) (o1 i)). rewrite Hh by auto. unfold hot. rewrite !Nat.eqb_refl. reflexivity. }
    lia. }
  apply (matches_same (gn g) _ _ c Hml). split; [apply lab_of_length|]. intros u v Hu Hv. rewrite !lab_of_lab, !Hc by auto. lia.
Qed.
Theorem C50_order_small table g p m solver metric ans r : accepted table solver metric -> lower m = "order"%string -> (0 < p)%nat ->
  (gn g = p + 1 -> forall a, ~ order_ok g p a)%nat /\
  (gn g = p -> pexact_run table g (AInt (Z.of_nat p)) (AStr m) solver metric ans r = Raise KeyError)%nat.
Proof.
  intros Hacc Hm Hp0. split.
  - intros Hn a Hok. pose proof Hok as [_ [H01 [Hroot [Hone _]]]].
    assert (Hs : sumZ (map (fun i => sum_ko (seq 0 p) (seq 0 (gn g - p)) (or_x a i)) (seq 0 (gn g))) = Z.of_nat (gn g)).
    { rewrite (sumZ_ext _ (fun _ => 1)); [rewrite sumZ_const, seq_length; lia|]. intros i Hi. apply in_seq in Hi. apply Hone. lia. }
    replace (gn g - p)%nat with 1%nat in Hs by lia. unfold sum_ko in Hs. cbn [seq map] in Hs.
    rewrite (sumZ_ext _ (fun i => sumZ (map (fun k => or_x a i k 0%nat) (seq 0 p)))) in Hs.
    + rewrite sumZ_swap in Hs. rewrite (sumZ_ext _ (fun _ => 1)) in Hs; [rewrite sumZ_const, seq_length in Hs; lia|].
      intros k Hk. apply in_seq in Hk. apply Hroot. lia.
    + intros i _. rewrite sumZ_flat. apply sumZ_ext. intros k _. cbn. lia.
  - intros Hn. rewrite run_order by (auto; lia). unfold order_fit, order_build. rewrite Hn, Nat.sub_diag.
    destruct p; [lia|]. reflexivity.
Qed.

(** ** Tree model *)
(** C51 *)
Theorem C51_tree_sound table g p m solver metric ans r a :
  symmetric g -> no_self_loops g -> (0 < gn g)%nat -> accepted table solver metric -> lower m = "tree"%string ->
  tree_ok g p a -> tree_reports g ans a ->
  (forall d, (forall i j, (i < j < gn g)%nat -> (0 < d i j)%Q) -> optimal (tree_ok g p) (tree_cost g d) a ->
     exists labels, pexact_run table g (AInt (Z.of_nat p)) (AStr m) solver metric ans r = Ok labels /\
       p_partition g p labels /\ (tree_cost g d a == heterogeneity d labels)%Q) /\
  post (fun e => e = KeyError) False (pexact_run table g (AInt (Z.of_nat p)) (AStr m) solver metric ans r) (p_partition g p).
Proof.
  intros Hsym Hns Hn Hacc Hm Hok Hrep.
  assert (Hnp : (2 <= gn g - p)%nat) by (destruct (le_lt_dec (gn g - p) 1) as [H|]; [destruct (tree_infeasible g p a Hsym Hns Hn H Hok)|lia]).
  destruct (tree_sound g p a Hok Hnp) as [c [Hp [Ht [Hok' Hfit]]]]. specialize (Hfit (an_t ans) r Hrep).
  rewrite run_tree; [|auto|auto|apply (partition_pos _ _ _ Hp Hn)]. split.
  - intros d Hd Hopt. assert (Hd' : nonneg_below (gn g) d) by (intros i j H; apply Qlt_le_weak; auto).
    pose proof (tree_value g d p a c Hd' Hopt Ht Hok') as Hval.
    destruct (tree_fit g p (an_t ans) r) as [labels|e|]; cbn [post] in Hfit.
    + destruct Hfit as [Hmt Hex]. exists labels. split; [auto|]. split; [apply (matches_feasible g p c); auto|]. rewrite Hval. apply lp_cost_het; auto.
    + exfalso. destruct Hfit as [_ [i [j [Hi [Hj [Hij [Hc H1]]]]]]].
      assert (Hup : forall u v, (u < v < gn g)%nat -> same01 c u v <= tr_t a u v) by (intros u v H; apply Ht; lia).
      assert (Hex : exists u v, (u < v < gn g)%nat /\ c u <> c v /\ tr_t a u v = 1).
      { destruct Hok as [_ [_ [_ [_ [_ [_ [Hsy _]]]]]]]. destruct (lt_eq_lt_dec i j) as [[H|H]|H]; [exists i, j|lia|exists j, i].
        - split; [lia|auto].
        - split; [lia|]. split; [auto|]. specialize (Hsy i j Hi Hj). lia. }
      destruct Hex as [u [v [Huv [Hcuv H1']]]].
      assert (Hlt : same01 c u v < tr_t a u v) by (unfold same01; destruct (Nat.eqb_spec (c u) (c v)); [contradiction|lia]).
      pose proof (lp_cost_lt (gn g) d _ _ u v Hd' Huv (Hd u v Huv) Hup Hlt) as HL. unfold tree_cost in Hval. lra.
    + destruct Hfit.
  - destruct (tree_fit g p (an_t ans) r) as [labels|e|]; cbn [post] in *; [|tauto|auto]. destruct Hfit as [Hmt Hex]. apply (matches_feasible g p c); auto.
Qed.

(** C52 *)
Theorem C52_tree_representable g p l d : symmetric g -> feasible g l p -> (p + 2 <= gn g)%nat ->
  exists a, tree_ok g p a /\ (tree_cost g d a == heterogeneity d l)%Q /\
    forall i j, (i < gn g)%nat -> (j < gn g)%nat -> (tr_t a i j = 1 <-> lab l i = lab l j).
Proof.
  intros Hsym Hf Hnp. destruct (feasible_partition g p l Hf) as [c [Hp Hml]].
  destruct (tree_complete g p c Hsym Hp) as [x [u Hok]]; [lia|]. eexists. split; [exact Hok|].
  split; [apply (lp_cost_het (gn g) d l c Hml)|]. intros i j Hi Hj. cbn [tr_t]. unfold same01. rewrite (proj2 Hml) by auto.
  destruct (Nat.eqb_spec (c i) (c j)); split; intros; congruence || contradiction.
Qed.
Theorem C52_tree_best table g p m solver metric ans r d a labels :
  symmetric g -> accepted table solver metric -> lower m = "tree"%string -> nonneg_below (gn g) d -> (p + 2 <= gn g)%nat ->
  optimal (tree_ok g p) (tree_cost g d) a -> tree_reports g ans a ->
  pexact_run table g (AInt (Z.of_nat p)) (AStr m) solver metric ans r = Ok labels ->
  best_partition g d p (fun _ => True) labels.
Proof.
  intros Hsym Hacc Hm Hd Hnp Hopt Hrep Hrun. assert (Hn : (0 < gn g)%nat) by lia. assert (Hnp' : (2 <= gn g - p)%nat) by lia.
  destruct (tree_sound g p a (proj1 Hopt) Hnp') as [c [Hp [Ht [Hok' Hfit]]]]. specialize (Hfit (an_t ans) r Hrep).
  rewrite run_tree in Hrun; [|auto|auto|apply (partition_pos _ _ _ Hp Hn)]. rewrite Hrun in Hfit. cbn [post] in Hfit. destruct Hfit as [Hmt Hex].
  split; [apply (matches_partition_feasible g p labels c); auto|]. intros l Hf _.
  destruct (C52_tree_representable g p l d Hsym Hf Hnp) as [b [Hok [Hc _]]].
  rewrite <- (lp_cost_het (gn g) d labels c Hmt), <- (tree_value g d p a c Hd Hopt Ht Hok'), <- Hc. apply (proj2 Hopt _ Hok).
Qed.
Theorem C52_tree_infeasible g p a : symmetric g -> no_self_loops g -> (0 < gn g)%nat -> (gn g <= p + 1)%nat -> ~ tree_ok g p a.
Proof. intros H1 H2 H3 H4. apply tree_infeasible; auto. lia. Qed.

(** ** Max-p *)
(** the bounds the caller asks for, one per spatially extensive attribute *)
Definition asked (sp : list (list Q)) (thr : threshold_arg) : list Q :=
  match thr with
  | TReal q => repeat q (length (nth 0 sp []))
  | TArray l | TList l => l
  end.
Definition as_documented (sp : list (list Q)) (thr : threshold_arg) : Prop :=
  match thr with
  | TReal _ => True
  | TArray l => length l = length (nth 0 sp [])
  | TList _ => False
  end.
Lemma bounds_asked sp thr : as_documented sp thr -> bounds_of sp thr = asked sp thr /\ threshold_build sp thr = Ok tt.
Proof.
  destruct thr as [q|l|l]; cbn [as_documented bounds_of asked threshold_build]; [auto| |tauto].
  intros H. split; [rewrite <- H; apply firstn_all|]. rewrite H. rewrite Nat.ltb_irrefl. reflexivity.
Qed.
Lemma maxp_run table mf g attr sp thr solver metric x : accepted table solver metric -> as_documented sp thr ->
  (0 < total_weight (gn g) (mp_weight mf attr))%Q ->
  maxp_exact_fit table mf g attr sp thr solver metric x = Ok (order_decode (gn g) (seq 0 (gn g)) (seq 0 (gn g)) x).
Proof.
  intros [Hs Hm] Hthr Hw. unfold maxp_exact_fit. apply metric_accepted in Hm. destruct Hm as [f ->]. cbn [bind].
  unfold check_solver. rewrite (proj2 (one_of_true _ solver)) by auto. cbn [bind].
  unfold log10_ok. rewrite (proj2 (Qltb_lt _ _)) by auto. cbn [bind]. rewrite (proj2 (bounds_asked sp thr Hthr)). reflexivity.
Qed.

(** C53 *)
Theorem C53_maxp_sound table mf g attr sp thr solver metric x a :
  accepted table solver metric -> as_documented sp thr -> (0 < total_weight (gn g) (mp_weight mf attr))%Q ->
  maxp_ok g sp thr a -> maxp_reports g x a ->
  exists labels, maxp_exact_fit table mf g attr sp thr solver metric x = Ok labels /\
    feasible g labels (n_labels labels) /\ (forall z, In z labels -> 0 <= z < Z.of_nat (gn g)) /\
    forall z, In z labels -> meets sp (asked sp thr) labels z.
Proof.
  intros Hacc Hthr Hw Hok Hrep. destruct (maxp_sound g sp thr a Hok) as [c [Hc [Hcont [Hmeet [_ [Hdec _]]]]]].
  exists (lab_of (gn g) c). rewrite (maxp_run table mf g attr sp thr solver metric x Hacc Hthr Hw), (Hdec x Hrep).
  split; [auto|]. split; [apply lab_of_feasible; auto|]. split.
  - intros z Hz. apply lab_of_In in Hz. destruct Hz as [i [Hi ->]]. specialize (Hc i Hi). lia.
  - rewrite <- (proj1 (bounds_asked sp thr Hthr)). exact Hmeet.
Qed.

(** C54 *)
Theorem C54_maxp_lexicographic table mf g attr sp thr solver metric x a h labels :
  symmetric g -> (0 < gn g)%nat -> accepted table solver metric -> as_documented sp thr ->
  nonneg_below (gn g) (mp_weight mf attr) -> is_exponent (total_weight (gn g) (mp_weight mf attr)) h ->
  optimal (maxp_ok g sp thr) (maxp_cost g (mp_weight mf attr) h) a -> maxp_reports g x a ->
  maxp_exact_fit table mf g attr sp thr solver metric x = Ok labels ->
  forall l p, feasible g l p -> (forall z, In z l -> meets sp (asked sp thr) l z) ->
    (p <= n_labels labels)%nat /\
    (p = n_labels labels -> (heterogeneity (fun i j => mf (nth i attr []) (nth j attr [])) labels <=
                             heterogeneity (fun i j => mf (nth i attr []) (nth j attr [])) l)%Q).
Proof.
  intros Hsym Hn Hacc Hthr Hd [Hlo Hhi] Hopt Hrep Hrun l p Hf Hmeet.
  assert (Hw : (0 < total_weight (gn g) (mp_weight mf attr))%Q) by (eapply Qlt_le_trans; [apply (power10_pos (h - 1))|exact Hlo]).
  rewrite (maxp_run table mf g attr sp thr solver metric x Hacc Hthr Hw) in Hrun. injection Hrun as <-.
  destruct (maxp_sound g sp thr a (proj1 Hopt)) as [c [Hc [Hcont [_ [Hcount [Hdec Ht]]]]]]. rewrite (Hdec x Hrep).
  rewrite <- (proj1 (bounds_asked sp thr Hthr)) in Hmeet.
  apply (maxp_lexicographic g sp thr (mp_weight mf attr) h a _ l p Hsym Hn Hd Hhi Hopt); eauto.
Qed.
(** the exponent of the code always separates the two objectives *)
Theorem C54_exponent_exists s : (0 < s)%Q -> exists h, is_exponent s h.
Proof.
  intros Hs.
  assert (Hgt : forall z, 0 <= z -> (inject_Z z < Qpower 10 z)%Q).
  { intros z Hz. change 10%Q with (inject_Z 10). rewrite <- Zpower_Qpower by auto. rewrite <- Zlt_Qlt. apply Z.pow_gt_lin_r; lia. }
  assert (Hup : exists b, 0 <= b /\ (s < Qpower 10 b)%Q).
  { destruct s as [n d]. exists (Z.max n 0). split; [lia|]. eapply Qle_lt_trans; [|apply Hgt; lia].
    unfold Qle. cbn [Qnum Qden inject_Z]. nia. }
  assert (Hlo : exists a, (Qpower 10 a <= s)%Q).
  { destruct s as [n d]. exists (- Z.pos d). rewrite Qpower_opp.
    assert (H0 : (0 < n)%Z) by (unfold Qlt in Hs; cbn in Hs; lia).
    assert (Hd : (inject_Z (Z.pos d) < Qpower 10 (Z.pos d))%Q) by (apply Hgt; lia).
    apply Qle_trans with (/ inject_Z (Z.pos d))%Q.
    - apply Qlt_le_weak. apply -> Qinv_lt_contravar; first [exact Hd | apply power10_pos | reflexivity].
    - change (/ inject_Z (Z.pos d))%Q with (1 # d)%Q. unfold Qle. cbn [Qnum Qden]. nia. }
  destruct Hup as [b [_ Hb]], Hlo as [a Ha].
  assert (Hk : forall k, (s < Qpower 10 (a + Z.of_nat k))%Q -> exists h, is_exponent s h).
  { induction k as [|k IH]; intros H.
    - rewrite Z.add_0_r in H. lra.
    - destruct (Qlt_le_dec s (Qpower 10 (a + Z.of_nat k))) as [H1|H1]; [auto|]. exists (a + Z.of_nat (Datatypes.S k)). split; [|auto].
      replace (a + Z.of_nat (Datatypes.S k) - 1) with (a + Z.of_nat k) by lia. auto. }
  apply (Hk (Z.to_nat (b - a))). assert (Hab : a < b) by (apply (Qpower_lt_compat_l_inv 10); [lra|reflexivity]).
  replace (a + Z.of_nat (Z.to_nat (b - a))) with b by lia. auto.
Qed.

(** C55 *)
Theorem C55_maxp_identical_partial table mf g attr sp thr solver metric x :
  accepted table solver metric -> as_documented sp thr ->
  ((exists labels, maxp_exact_fit table mf g attr sp thr solver metric x = Ok labels) <->
   (0 < total_weight (gn g) (mp_weight mf attr))%Q).
Proof.
  intros Hacc Hthr. split.
  - intros [labels H]. unfold maxp_exact_fit in H. pose proof Hacc as [Hs Hm]. apply metric_accepted in Hm. destruct Hm as [f E]. rewrite E in H. cbn [bind] in H.
    unfold check_solver in H. rewrite (proj2 (one_of_true _ solver)) in H by auto. cbn [bind] in H.
    unfold log10_ok in H. destruct (Qltb 0 _) eqn:El; [apply Qltb_lt in El; auto|discriminate].
  - intros Hw. rewrite (maxp_run table mf g attr sp thr solver metric x Hacc Hthr Hw). eauto.
Qed.
Theorem C55_maxp_identical_refuted table mf g attr sp thr solver metric x :
  accepted table solver metric -> (forall i j, (i < j < gn g)%nat -> (mf (nth i attr []) (nth j attr []) == 0)%Q) ->
  maxp_exact_fit table mf g attr sp thr solver metric x = Raise (ValueError "math domain error").
Proof.
  intros [Hs Hm] Hz. unfold maxp_exact_fit. apply metric_accepted in Hm. destruct Hm as [f ->]. cbn [bind].
  unfold check_solver. rewrite (proj2 (one_of_true _ solver)) by auto. cbn [bind].
  assert (E : (total_weight (gn g) (mp_weight mf attr) == 0)%Q).
  { unfold total_weight. apply sumQ_zero. intros [i j] H. apply upper_In in H. apply Hz. auto. }
  unfold log10_ok. destruct (Qltb 0 _) eqn:El; [|reflexivity]. apply Qltb_lt in El. rewrite E in El. discriminate El.
Qed.

(** ** Validation *)
(** C56 *)
Definition valid_request (table : list string) (g : graph) (n_regions : int_arg) (method solver : str_arg) (metric : metric_arg) : Prop :=
  (exists p, n_regions = AInt (Z.of_nat p) /\ (0 < p <= gn g)%nat) /\
  (exists m, method = AStr m /\ In (lower m) ["flow"; "order"; "tree"]%string) /\ accepted table solver metric.

Lemma write_region_raises region : forall labels idx, post (fun e => e = IndexError) False (write_region labels idx region) (fun _ => True).
Proof. induction region as [|a region IH]; intros labels idx; cbn [write_region]; [exact I|]. destruct (Nat.ltb _ _); [apply IH|reflexivity]. Qed.
Lemma array_raises regions : post (fun e => e = IndexError) False (array_from_region_list regions) (fun _ => True).
Proof.
  assert (H : forall labels idx, post (fun e => e = IndexError) False (write_regions labels idx regions) (fun _ => True)); [|apply H].
  induction regions as [|R regions IH]; intros labels idx; cbn [write_regions]; [exact I|].
  pose proof (write_region_raises R labels idx) as H. destruct (write_region labels idx R); cbn [bind post] in *; [apply IH|auto|auto].
Qed.
Lemma tree_regions_raises t k : forall idx r, post (fun e => e = KeyError) False (tree_regions k idx t r) (fun _ => True).
Proof.
  induction k as [|k IH]; intros idx r; cbn [tree_regions]; [exact I|]. destruct idx as [|a idx]; [reflexivity|].
  destruct (pop_randomly_from_Ok (a :: idx) r) as [x [rest [-> _]]]; [discriminate|]. cbn [bind].
  specialize (IH (set_diff rest (x :: filter (fun o => is_one (t x o)) rest)) (rnext r)).
  destruct (tree_regions k _ t (rnext r)); cbn [bind post] in *; auto.
Qed.
Lemma opt_func_raises m g p ans r : post (fun e => e = KeyError \/ e = IndexError) False (opt_func m g p ans r) (fun _ => True).
Proof.
  unfold opt_func. destruct (String.eqb _ _); [|destruct (String.eqb _ _)].
  - unfold flow_fit, flow_build. destruct (forallb _ _); cbn; auto.
  - unfold order_fit, order_build. destruct (_ && _); cbn; auto.
  - unfold tree_fit. pose proof (tree_regions_raises (an_t ans) p (seq 0 (gn g)) r) as H. destruct (tree_regions _ _ _ _) as [R|e|]; cbn [bind post] in *; auto.
    pose proof (array_raises R) as H2. destruct (array_from_region_list R); cbn [post] in *; auto.
Qed.

Theorem C56_pexact_validation old table g n_regions method solver metric ans r :
  let '(labels, res) := pexact_fit old table g n_regions method solver metric ans r in
  (valid_request table g n_regions method solver metric -> forall e, res = Raise e -> forall msg, e <> ValueError msg) /\
  (~ valid_request table g n_regions method solver metric -> exists msg, res = Raise (ValueError msg)) /\
  ((forall e, res = Raise e -> labels = old) /\ (res = Ok tt -> exists l, labels = Some l)).
Proof.
  unfold pexact_fit.
  assert (H1 : valid_request table g n_regions method solver metric ->
    post (fun e => e = KeyError \/ e = IndexError) False (pexact_run table g n_regions method solver metric ans r) (fun _ => True)).
  { intros [[p [-> Hp]] [[m [-> Hm]] Hacc]]. rewrite (run_accepted table g p _ m) by auto. apply opt_func_raises. }
  assert (H2 : ~ valid_request table g n_regions method solver metric ->
    exists msg, pexact_run table g n_regions method solver metric ans r = Raise (ValueError msg)).
  { intros Hinv. unfold pexact_run. destruct n_regions as [z|]; [|eauto]. destruct (Z.leb_spec z 0); [eauto|]. destruct (Z.ltb_spec (Z.of_nat (gn g)) z); [eauto|].
    unfold check_method. destruct (one_of _ method) eqn:Em; [|eexists; reflexivity]. cbn [bind]. unfold check_solver. destruct (one_of ["cbc"; "cplex"; "glpk"; "gurobi"]%string solver) eqn:Es; [|eexists; reflexivity]. cbn [bind].
    destruct (get_metric_function table metric) as [f|e|] eqn:Ef.
    - exfalso. apply Hinv. split; [exists (Z.to_nat z); split; [f_equal; lia|lia]|]. apply one_of_true in Em, Es. split; [auto|]. split; [auto|].
      apply metric_accepted. eauto.
    - cbn [bind]. unfold get_metric_function in Ef. destruct metric; try destruct (existsb _ _); try discriminate; injection Ef as <-; eexists; reflexivity.
    - unfold get_metric_function in Ef. destruct metric; try destruct (existsb _ _); discriminate. }
  destruct (pexact_run table g n_regions method solver metric ans r) as [l|e|].
  - split; [intros _ e; discriminate|]. split; [intros Hi; destruct (H2 Hi); discriminate|]. split; [discriminate|eauto].
  - split; [intros Hv e' E msg; injection E as <-; destruct (H1 Hv) as [->| ->]; discriminate|].
    split; [intros Hi; destruct (H2 Hi) as [msg E]; injection E as ->; eauto|]. split; [auto|discriminate].
  - split; [intros _ e; discriminate|]. split; [intros Hi; destruct (H2 Hi); discriminate|]. split; discriminate.
Qed.

(** ** Weights of PRegionsExact with several attributes *)
(** C73 *)
Definition rows_distance (metric : list Q -> list Q -> Q) (attr : list (list Q)) (i j : nat) : Q := metric (nth i attr []) (nth j attr []).

Lemma het_ext d d' l : (forall i j, (i < j < length l)%nat -> (d i j == d' i j)%Q) -> (heterogeneity d l == heterogeneity d' l)%Q.
Proof.
  intros H. unfold heterogeneity. apply sumQ_ext. intros j Hj. apply in_seq in Hj. apply sumQ_ext. intros i Hi. apply in_seq in Hi.
  destruct (Z.eqb _ _); [apply H; lia|reflexivity].
Qed.
Theorem C73_single_attribute_best_partial table g p m solver metric ans r mf attr a labels :
  symmetric g -> accepted table solver metric -> lower m = "order"%string -> (p + 2 <= gn g)%nat ->
  (forall i, (i < gn g)%nat -> length (nth i attr []) = 1%nat) -> nonneg_below (gn g) (rows_distance mf attr) ->
  optimal (order_ok g p) (order_cost g (p_weight mf attr)) a -> order_reports g p ans a ->
  pexact_run table g (AInt (Z.of_nat p)) (AStr m) solver metric ans r = Ok labels ->
  best_partition g (rows_distance mf attr) p (fun _ => True) labels.
Proof.
  intros Hsym Hacc Hm Hnp Hrow Hd Hopt Hrep Hrun.
  assert (Hw : forall i j, (i < j < gn g)%nat -> (p_weight mf attr i j == rows_distance mf attr i j)%Q).
  { intros i j Hij. unfold p_weight, rows_distance. pose proof (Hrow i) as Hi. pose proof (Hrow j) as Hj.
    destruct (nth i attr []) as [|x [|? ?]]; cbn in Hi; try lia. destruct (nth j attr []) as [|y [|? ?]]; cbn in Hj; try lia. cbn. ring. }
  assert (Hd' : nonneg_below (gn g) (p_weight mf attr)) by (intros i j Hij; rewrite Hw by auto; auto).
  destruct (C50_order_best table g p m solver metric ans r _ a labels Hsym Hacc Hm Hd' Hnp Hopt Hrep Hrun) as [Hf Hmin].
  split; [auto|]. intros l Hl _. specialize (Hmin l Hl I).
  rewrite (het_ext _ (rows_distance mf attr) labels) in Hmin by (intros i j Hij; apply Hw; rewrite <- (proj1 Hf); auto).
  rewrite (het_ext _ (rows_distance mf attr) l) in Hmin by (intros i j Hij; apply Hw; rewrite <- (proj1 Hl); auto). auto.
Qed.

(** What is minimised instead: every value of one area is compared with every value of the other. *)
Definition values_distance (metric : list Q -> list Q -> Q) (attr : list (list Q)) (i j : nat) : Q :=
  sumQ (map (fun k => sumQ (map (fun m => metric [nth k (nth i attr []) 0%Q] [nth m (nth j attr []) 0%Q]) (seq 0 (length (nth j attr []))))) (seq 0 (length (nth i attr [])))).
Lemma values_weight mf attr i j : (p_weight mf attr i j == values_distance mf attr i j)%Q.
Proof.
  assert (Hidx : forall (f : Q -> Q) l, map (fun k => f (nth k l 0%Q)) (seq 0 (length l)) = map f l).
  { intros f l. induction l as [|x l IH]; [reflexivity|]. cbn [length seq map nth]. f_equal. rewrite <- seq_shift, map_map. exact IH. }
  unfold p_weight, values_distance. generalize (nth i attr []). intros x. generalize (nth j attr []). intros y.
  rewrite (Hidx (fun a => sumQ (map (fun m => mf [a] [nth m y 0%Q]) (seq 0 (length y)))) x).
  induction x as [|a x IH]; [reflexivity|]. cbn [flat_map map]. rewrite sumQ_app, sumQ_cons, IH, (Hidx (fun b => mf [a] [b]) y). reflexivity.
Qed.
Theorem C73_values_best table g p m solver metric ans r mf attr a labels :
  symmetric g -> accepted table solver metric -> (p + 2 <= gn g)%nat -> nonneg_below (gn g) (values_distance mf attr) ->
  (lower m = "order"%string /\ (exists b, a = inl b /\ optimal (order_ok g p) (order_cost g (p_weight mf attr)) b /\ order_reports g p ans b) \/
   lower m = "tree"%string /\ (exists b, a = inr b /\ optimal (tree_ok g p) (tree_cost g (p_weight mf attr)) b /\ tree_reports g ans b)) ->
  pexact_run table g (AInt (Z.of_nat p)) (AStr m) solver metric ans r = Ok labels ->
  best_partition g (values_distance mf attr) p (fun _ => True) labels.
Proof.
  intros Hsym Hacc Hnp Hd Hopt Hrun.
  assert (Hd' : nonneg_below (gn g) (p_weight mf attr)) by (intros i j Hij; rewrite values_weight; auto).
  assert (Hb : best_partition g (p_weight mf attr) p (fun _ => True) labels).
  { destruct Hopt as [[Hm [b [_ [Ho Hr]]]]|[Hm [b [_ [Ho Hr]]]]]; [eapply C50_order_best|eapply C52_tree_best]; eauto. }
  destruct Hb as [Hf Hmin]. split; [auto|]. intros l Hl _. specialize (Hmin l Hl I).
  rewrite (het_ext _ (values_distance mf attr) labels), (het_ext _ (values_distance mf attr) l) in Hmin by (intros; apply values_weight). auto.
Qed.
(** two values per area: |1 - 3| + |1 - 7| + |2 - 3| + |2 - 7| *)
Example C73_values_example : (p_weight manhattan [[1; 2]; [3; 7]] 0 1 == 14 /\ values_distance manhattan [[1; 2]; [3; 7]] 0 1 == 14)%Q.
Proof. split; vm_compute; reflexivity. Qed.

Lemma p_partition_words g p l : p_partition g p l -> In l (words (gn g) (names p)).
Proof.
  intros [Hf Hex]. apply words_In; [apply Hf|]. intros z Hz. apply Hex in Hz. apply in_map_iff. exists (Z.to_nat z). split; [lia|apply in_seq; lia].
Qed.

(** 0 - 1 - 2 - 3 - 0 *)
Definition cycle4 : graph := mkG 4 (fun i j => Nat.ltb i 4 && Nat.ltb j 4 && (Nat.eqb ((i + 1) mod 4) j || Nat.eqb ((j + 1) mod 4) i)).
Definition attr73 : list (list Q) := [[0; 10]; [0; 12]; [12; 0]; [10; 0]]%Q.
Lemma small_symmetric g : forallb (fun i => forallb (fun j => Bool.eqb (gadj g i j) (gadj g j i)) (seq 0 (gn g))) (seq 0 (gn g)) = true ->
  forall i j, (i < gn g)%nat -> (j < gn g)%nat -> gadj g i j = gadj g j i.
Proof.
  intros H i j Hi Hj. rewrite forallb_forall in H. specialize (H i). rewrite forallb_forall in H. apply eqb_prop. apply H; apply in_seq; lia.
Qed.
Lemma cycle4_symmetric : symmetric cycle4.
Proof.
  intros i j. change (gadj cycle4 i j) with (Nat.ltb i 4 && Nat.ltb j 4 && (Nat.eqb ((i + 1) mod 4) j || Nat.eqb ((j + 1) mod 4) i)).
  change (gadj cycle4 j i) with (Nat.ltb j 4 && Nat.ltb i 4 && (Nat.eqb ((j + 1) mod 4) i || Nat.eqb ((i + 1) mod 4) j)).
  rewrite (andb_comm (Nat.ltb i 4)), orb_comm. reflexivity.
Qed.
Lemma abs_metric_nonneg attr i j : (0 <= p_weight manhattan attr i j)%Q.
Proof.
  unfold p_weight. rewrite <- (map_id (flat_map _ _)), sumQ_flat_map. apply sumQ_nonneg. intros x _. rewrite map_id. apply sumQ_nonneg. intros y _. apply manhattan_nonneg.
Qed.
Theorem C73_several_attributes_refuted : exists g p attr,
  symmetric g /\ (exists a, optimal (order_ok g p) (order_cost g (p_weight manhattan attr)) a) /\
  forall table m solver metric ans r a labels, accepted table solver metric -> lower m = "order"%string ->
    optimal (order_ok g p) (order_cost g (p_weight manhattan attr)) a -> order_reports g p ans a ->
    pexact_run table g (AInt (Z.of_nat p)) (AStr m) solver metric ans r = Ok labels ->
    exists l, feasible g l p /\ (heterogeneity (rows_distance manhattan attr) l < heterogeneity (rows_distance manhattan attr) labels)%Q.
Proof.
  assert (Hd : nonneg_below (gn cycle4) (p_weight manhattan attr73)) by (intros i j _; apply abs_metric_nonneg).
  assert (F1 : feasible cycle4 [0; 0; 1; 1] 2) by (apply feasb_spec; [reflexivity|vm_compute; reflexivity]).
  assert (F2 : feasible cycle4 [0; 1; 1; 0] 2) by (apply feasb_spec; [reflexivity|vm_compute; reflexivity]).
  exists cycle4, 2%nat, attr73. split; [apply cycle4_symmetric|]. split.
  - apply order_optimal_exists; [apply cycle4_symmetric|auto|cbn; lia|eauto].
  - intros table m solver metric ans r a labels Hacc Hm Hopt Hrep Hrun.
    exists [0; 0; 1; 1]. split; [auto|].
    destruct (C50_order_best table cycle4 2 m solver metric ans r _ a labels cycle4_symmetric Hacc Hm Hd (le_n 4) Hopt Hrep Hrun) as [_ Hmin].
    specialize (Hmin _ F2 I).
    assert (Hn : (0 < gn cycle4)%nat) by (cbn; lia).
    destruct (C49_order_sound table cycle4 2 m solver metric ans r a Hn Hacc Hm (proj1 Hopt) Hrep) as [labels' [E [Hpp _]]].
    rewrite Hrun in E. injection E as <-. pose proof (p_partition_words _ _ _ Hpp) as Hw. apply Qltb_lt.
    assert (Hall : forallb (fun l => negb (feasb cycle4 2 l) || Qltb (heterogeneity (p_weight manhattan attr73) [0; 1; 1; 0]) (heterogeneity (p_weight manhattan attr73) l)
        || Qltb (heterogeneity (rows_distance manhattan attr73) [0; 0; 1; 1]) (heterogeneity (rows_distance manhattan attr73) l)) (words 4 (names 2)) = true) by (vm_compute; reflexivity).
    rewrite forallb_forall in Hall. specialize (Hall labels Hw). apply orb_true_iff in Hall. destruct Hall as [Hall|]; [|auto].
    apply orb_true_iff in Hall. destruct Hall as [Hall|Hall].
    + apply negb_true_iff in Hall. rewrite (proj2 (feasb_spec cycle4 2 labels (proj1 (proj1 Hpp))) (proj1 Hpp)) in Hall. discriminate.
    + apply Qltb_lt in Hall. lra.
Qed.

(** C48, a best partition missed: attributes 0, 0, 0, 9 on a path of four areas *)
Definition attr48 : list (list Q) := [[0]; [0]; [0]; [9]]%Q.
Lemma filter_all {A} f (l : list A) : (forall x, In x l -> f x = true) -> filter f l = l.
Proof. induction l as [|x l IH]; intros H; [reflexivity|]. cbn [filter]. rewrite H by (left; auto). f_equal. apply IH. intros y Hy. apply H. right. auto. Qed.
Lemma filter_none {A} f (l : list A) : (forall x, In x l -> f x = false) -> filter f l = [].
Proof. induction l as [|x l IH]; intros H; [reflexivity|]. cbn [filter]. rewrite H by (left; auto). apply IH. intros y Hy. apply H. right. auto. Qed.
Lemma forallb_false {A} f (l : list A) : forallb f l = false -> exists x, In x l /\ f x = false.
Proof.
  induction l as [|x l IH]; [discriminate|]. cbn [forallb]. destruct (f x) eqn:E; [|intros _; exists x; split; [left|]; auto].
  intros H. destruct (IH H) as [y [Hy Hf]]. exists y. split; [right; auto|auto].
Qed.
Lemma path_symmetric n : symmetric (path_graph n).
Proof.
  intros i j. change (gadj (path_graph n) i j) with ((Nat.ltb i n && Nat.ltb j n) && (Nat.eqb (S i) j || Nat.eqb (S j) i)).
  change (gadj (path_graph n) j i) with ((Nat.ltb j n && Nat.ltb i n) && (Nat.eqb (S j) i || Nat.eqb (S i) j)).
  rewrite (andb_comm (Nat.ltb i n)), orb_comm. reflexivity.
Qed.
Theorem C48_flow_misses_best_refuted : exists g p attr,
  symmetric g /\ (exists a, optimal (flow_ok g p) (flow_cost g (p_weight manhattan attr)) a) /\
  forall table m solver metric ans r a labels, accepted table solver metric -> lower m = "flow"%string ->
    optimal (flow_ok g p) (flow_cost g (p_weight manhattan attr)) a -> flow_reports g p ans a ->
    pexact_run table g (AInt (Z.of_nat p)) (AStr m) solver metric ans r = Ok labels ->
    exists l, feasible g l p /\ (heterogeneity (rows_distance manhattan attr) l < heterogeneity (rows_distance manhattan attr) labels)%Q.
Proof.
  pose proof (path_symmetric 4) as Hsym. set (g := path_graph 4) in *.
  assert (Hd : nonneg_below (gn g) (p_weight manhattan attr48)) by (intros i j _; apply abs_metric_nonneg).
  assert (F1 : feasible g [0; 0; 0; 1] 2) by (apply feasb_spec; [reflexivity|vm_compute; reflexivity]).
  assert (F2 : feasible g [0; 0; 1; 1] 2) by (apply feasb_spec; [reflexivity|vm_compute; reflexivity]).
  exists g, 2%nat, attr48. split; [auto|]. split.
  - apply flow_optimal_exists; [auto|auto|]. exists [0; 0; 1; 1]. split; [auto|]. apply sizeb_spec. vm_compute. reflexivity.
  - intros table m solver metric ans r a labels Hacc Hm Hopt Hrep Hrun.
    exists [0; 0; 0; 1]. split; [auto|]. assert (Hn : (0 < gn g)%nat) by (cbn; lia).
    destruct (C47_flow_sound table g 2 m solver metric ans r a Hsym Hn Hacc Hm (proj1 Hopt) Hrep) as [labels' [E [Hpp [Hsz _]]]].
    rewrite Hrun in E. injection E as <-. pose proof (p_partition_words _ _ _ Hpp) as Hw. apply Qltb_lt.
    assert (Hall : forallb (fun l => negb (feasb g 2 l && sizeb 4 2 l)
        || Qltb (heterogeneity (rows_distance manhattan attr48) [0; 0; 0; 1]) (heterogeneity (rows_distance manhattan attr48) l)) (words 4 (names 2)) = true) by (vm_compute; reflexivity).
    rewrite forallb_forall in Hall. specialize (Hall labels Hw). apply orb_true_iff in Hall. destruct Hall as [Hall|]; [|auto].
    apply negb_true_iff in Hall. rewrite (proj2 (feasb_spec g 2 labels (proj1 (proj1 Hpp))) (proj1 Hpp)) in Hall. apply sizeb_spec in Hsz.
    change (gn g) with 4%nat in Hsz. rewrite Hsz in Hall. discriminate.
Qed.

(** C51 with a zero distance: path 0-1-2-3, two regions, all distances zero *)
Definition tree51 : tree_vars :=
  mkTree (fun _ _ => 1) (fun i j => if (Nat.eqb i 0 && Nat.eqb j 1) || (Nat.eqb i 2 && Nat.eqb j 3) then 1 else 0)
         (fun i => if Nat.eqb i 0 || Nat.eqb i 2 then 1 else 2).
Theorem C51_tree_zero_distance table m solver metric ans r :
  accepted table solver metric -> lower m = "tree"%string -> tree_reports (path_graph 4) ans tree51 ->
  optimal (tree_ok (path_graph 4) 2) (tree_cost (path_graph 4) (fun _ _ => 0%Q)) tree51 /\
  pexact_run table (path_graph 4) (AInt 2) (AStr m) solver metric ans r = Raise KeyError.
Proof.
  intros Hacc Hm Hrep. split.
  - split.
    + assert (Hin : forall i j, In j (neighbors (path_graph 4) i) -> (i < 4)%nat -> (i = 0 /\ j = 1 \/ i = 1 /\ j = 0 \/ i = 1 /\ j = 2 \/ i = 2 /\ j = 1 \/ i = 2 /\ j = 3 \/ i = 3 /\ j = 2)%nat).
      { intros i j Hj Hi. apply neighbors_In in Hj. destruct Hj as [Hj Ha]. change (gn (path_graph 4)) with 4%nat in Hj.
        destruct i as [|[|[|[|i]]]]; try lia; destruct j as [|[|[|[|j]]]]; try lia; vm_compute in Ha; try discriminate; lia. }
      unfold tree_ok, tree51. cbn [tr_t tr_x tr_u]. change (gn (path_graph 4)) with 4%nat.
      split; [intros; lia|]. split; [intros i j _ _; destruct (_ || _); lia|]. split; [intros i _; destruct (_ || _); lia|].
      split; [reflexivity|]. split; [intros i Hi; destruct i as [|[|[|[|i]]]]; try lia; vm_compute; discriminate|].
      split; [intros; lia|]. split; [intros; lia|].
      split; [intros i j _ _; destruct (_ || _); lia|].
      split; [intros i j Hi Hj; destruct (Hin i j Hj Hi) as [[-> ->]|[[-> ->]|[[-> ->]|[[-> ->]|[[-> ->]|[-> ->]]]]]]; vm_compute; discriminate|].
      intros i Hi; destruct i as [|[|[|[|i]]]]; try lia; cbn; lia.
    + intros b Hb. unfold tree_cost, lp_cost. rewrite !sumQ_zero; [apply Qle_refl| |]; intros e _; ring.
  - change (AInt 2) with (AInt (Z.of_nat 2)). rewrite run_tree by (auto; cbn; lia). unfold tree_fit. change (gn (path_graph 4)) with 4%nat.
    cbn [tree_regions]. change (seq 0 4) with [0;1;2;3]%nat. cbn [tree_regions].
    destruct (pop_randomly_from_Ok [0;1;2;3]%nat r) as [x [rest [-> Hperm]]]; [discriminate|]. cbn [bind].
    assert (Hone : forall o, In o rest -> is_one (an_t ans x o) = true).
    { intros o Ho. assert (Hx4 : forall y, In y (x :: rest) -> (y < 4)%nat) by (intros y Hy; apply (Permutation_in _ (Permutation_sym Hperm)) in Hy; cbn in Hy; lia).
      apply (is_one_reports _ 1); [|auto]. apply (Hrep x o); apply Hx4; [left|right]; auto. }
    rewrite (filter_all _ rest Hone). 
    assert (Hd : set_diff rest (x :: rest) = []).
    { unfold set_diff. apply filter_none. intros y Hy. apply negb_false_iff. apply memb_In. right. auto. }
    rewrite Hd. reflexivity.
Qed.

(** ** Unsolved programs *)
(** C74: no regions can be reported (the program is infeasible, though p contiguous regions exist);
    the solver leaves every variable unset and fit returns one region *)
Definition unset : answers := mkAns (fun _ _ => None) (fun _ _ _ => None) (fun _ _ => None).
Lemma fold_ignore {A} (f : A -> bool) (v : A -> Z) l r : (forall x, f x = false) -> fold_left (fun r x => if f x then v x else r) l r = r.
Proof. intros H. apply fold_none. auto. Qed.
Lemma flow_unset n p : flow_decode n p (an_y unset) = repeat 0 n.
Proof.
  unfold flow_decode. generalize 0%nat at 2. induction n as [|n IH]; intros s; [reflexivity|]. cbn [seq map repeat]. rewrite IH. f_equal. apply fold_none. intros; reflexivity.
Qed.
Lemma order_unset n ks os : order_decode n ks os (an_x unset) = repeat 0 n.
Proof.
  assert (H : forall i z, fold_left (fun r k => fold_left (fun r o => if is_one (an_x unset i k o) then Z.of_nat k else r) os r) ks z = z).
  { intros i. induction ks as [|k ks IHk]; intros z; [reflexivity|]. cbn [fold_left]. rewrite IHk. apply (fold_none (fun _ => false) (fun _ => Z.of_nat k)). auto. }
  unfold order_decode. generalize 0%nat. induction n as [|n IH]; intros s; [reflexivity|]. cbn [seq map repeat]. rewrite IH, H. reflexivity.
Qed.
Lemma repeat_one_label n p : (1 < p)%nat -> ~ p_partition (mkG n (fun _ _ => false)) p (repeat 0 n) /\ forall g, ~ p_partition g p (repeat 0 n).
Proof.
  intros Hp. assert (H : forall g, ~ p_partition g p (repeat 0 n)).
  { intros g [_ Hex]. assert (H1 : In 1 (repeat 0 n)) by (apply Hex; lia). apply repeat_spec in H1. discriminate. }
  split; [apply H|exact H].
Qed.
Theorem C74_infeasible_reported_refuted table g p m solver metric r :
  symmetric g -> accepted table solver metric -> (1 < p)%nat -> gn g = (p + 1)%nat ->
  lower m = "flow"%string \/ lower m = "order"%string ->
  (forall a, ~ flow_ok g p a) /\ (forall a, ~ order_ok g p a) /\
  exists labels, pexact_run table g (AInt (Z.of_nat p)) (AStr m) solver metric unset r = Ok labels /\ ~ p_partition g p labels.
Proof.
  intros Hsym Hacc Hp Hn Hm. split; [intros a; apply C48_flow_infeasible_refuted; auto; lia|].
  split; [apply (C50_order_small table g p "order" solver metric unset r); auto; lia|].
  exists (repeat 0 (gn g)). split; [|apply repeat_one_label; auto]. destruct Hm as [Hm|Hm].
  - rewrite run_flow by (auto; lia). unfold flow_fit, flow_build.
    destruct (forallb _ _) eqn:E; [cbn [bind]; rewrite flow_unset; reflexivity|]. exfalso.
    apply forallb_false in E. destruct E as [i [Hi E]]. apply forallb_false in E. destruct E as [j [Hj E]].
    apply in_seq in Hi. apply neighbors_In in Hj. assert (memb i (neighbors g j) = true); [|congruence].
    apply memb_In, neighbors_In. split; [lia|]. rewrite Hsym; [tauto|lia|lia].
  - rewrite run_order by (auto; lia). unfold order_fit, order_build. replace (gn g - p)%nat with 1%nat by lia. cbn [Nat.eqb andb bind]. rewrite order_unset. reflexivity.
Qed.

(** C75 *)
Theorem C75_unattainable_threshold_refuted table mf g attr sp thr solver metric :
  accepted table solver metric -> as_documented sp thr -> (0 < total_weight (gn g) (mp_weight mf attr))%Q -> (0 < gn g)%nat ->
  (forall l p, feasible g l p -> exists z, In z l /\ ~ meets sp (asked sp thr) l z) ->
  (forall a, ~ maxp_ok g sp thr a) /\
  maxp_exact_fit table mf g attr sp thr solver metric (an_x unset) = Ok (repeat 0 (gn g)).
Proof.
  intros Hacc Hthr Hw Hn Hun. split.
  - intros a Hok. destruct (maxp_sound g sp thr a Hok) as [c [_ [Hcont [Hmeet _]]]]. rewrite (proj1 (bounds_asked sp thr Hthr)) in Hmeet.
    destruct (Hun _ _ (lab_of_feasible g c Hcont)) as [z [Hz Hnm]]. apply Hnm. apply Hmeet. auto.
  - rewrite (maxp_run table mf g attr sp thr solver metric _ Hacc Hthr Hw), order_unset. reflexivity.
Qed.

(** C76: a threshold given as a list is ignored; every area becomes a region *)
Lemma singletons_partition g : partition g (gn g) (fun a => a).
Proof.
  split; [auto|]. intros k Hk. split; [exists k; split; [auto|apply Nat.eqb_refl]|].
  intros u v [Hu Eu] [Hv Ev]. apply Nat.eqb_eq in Eu, Ev. subst. apply linked_refl. split; [auto|apply Nat.eqb_refl].
Qed.
Theorem C76_list_threshold_refuted table mf g attr sp bs solver metric x a h labels :
  symmetric g -> (0 < gn g)%nat -> accepted table solver metric ->
  nonneg_below (gn g) (mp_weight mf attr) -> is_exponent (total_weight (gn g) (mp_weight mf attr)) h ->
  optimal (maxp_ok g sp (TList bs)) (maxp_cost g (mp_weight mf attr) h) a -> maxp_reports g x a ->
  maxp_exact_fit table mf g attr sp (TList bs) solver metric x = Ok labels ->
  n_labels labels = gn g /\
  forall i k t, (i < gn g)%nat -> nth_error bs k = Some t -> (nth k (nth i sp []) 0 < t)%Q ->
    exists z, In z labels /\ ~ meets sp (asked sp (TList bs)) labels z.
Proof.
  intros Hsym Hn [Hs Hm] Hd [Hlo Hhi] Hopt Hrep Hrun.
  assert (Hw : (0 < total_weight (gn g) (mp_weight mf attr))%Q) by (eapply Qlt_le_trans; [apply (power10_pos (h - 1))|exact Hlo]).
  unfold maxp_exact_fit in Hrun. apply metric_accepted in Hm. destruct Hm as [f E]. rewrite E in Hrun. cbn [bind] in Hrun.
  unfold check_solver in Hrun. rewrite (proj2 (one_of_true _ solver)) in Hrun by auto. cbn [bind] in Hrun.
  unfold log10_ok in Hrun. rewrite (proj2 (Qltb_lt _ _)) in Hrun by auto. cbn [bind threshold_build] in Hrun. injection Hrun as <-.
  destruct (maxp_sound g sp (TList bs) a (proj1 Hopt)) as [c [Hc [Hcont [_ [Hcount [Hdec Ht]]]]]]. rewrite (Hdec x Hrep).
  assert (Hge : (gn g <= n_labels (lab_of (gn g) c))%nat).
  { apply (maxp_lexicographic g sp (TList bs) (mp_weight mf attr) h a _ (lab_of (gn g) (fun a => a)) (gn g) Hsym Hn Hd Hhi Hopt); [eauto|auto| |].
    - apply partition_labels. apply singletons_partition.
    - intros z _ k q Hk. cbn [bounds_of] in Hk. destruct k; discriminate. }
  assert (Hnd : NoDup (lab_of (gn g) c)).
  { apply NoDup_incl_NoDup with (l := nodup Z.eq_dec (lab_of (gn g) c)); [apply NoDup_nodup|rewrite lab_of_length; exact Hge|intros z; apply nodup_In]. }
  split.
  { unfold n_labels. rewrite nodup_fixed_point by auto. apply lab_of_length. }
  intros i k t Hi Hk Hlt. exists (lab (lab_of (gn g) c) i). split; [apply nth_In; rewrite lab_of_length; auto|].
  intros Hmeet. specialize (Hmeet k t Hk). unfold total in Hmeet.
  rewrite (sumQ_ext _ (fun b => if Nat.eq_dec b i then nth k (nth b sp []) 0 else 0)%Q) in Hmeet.
  - rewrite (sumQ_one Nat.eq_dec i (fun b => nth k (nth b sp []) 0%Q)) in Hmeet; [lra|apply seq_NoDup|apply in_seq; rewrite lab_of_length; lia].
  - intros b Hb. apply in_seq in Hb. rewrite lab_of_length in Hb. destruct (Nat.eq_dec b i) as [->|Hne]; [rewrite Z.eqb_refl; reflexivity|].
    destruct (Z.eqb_spec (lab (lab_of (gn g) c) b) (lab (lab_of (gn g) c) i)) as [El|]; [|reflexivity]. exfalso. apply Hne.
    apply (proj1 (NoDup_nth (lab_of (gn g) c) (-1)) Hnd); [rewrite lab_of_length; lia|rewrite lab_of_length; lia|exact El].
Qed.

(** ** Examples *)
Definition table0 : list string := ["manhattan"; "euclidean"]%string.
Lemma accepted0 : accepted table0 (AStr "CBC") MNone.
Proof. split; [exists "CBC"%string; split; [reflexivity|cbn; auto]|]. left. split; [reflexivity|cbn; auto]. Qed.
Ltac small4 i := destruct i as [|[|[|[|i]]]]; try lia.
Lemma path4_neighbors i j : In j (neighbors (path_graph 4) i) -> (i < 4)%nat ->
  (i = 0 /\ j = 1 \/ i = 1 /\ j = 0 \/ i = 1 /\ j = 2 \/ i = 2 /\ j = 1 \/ i = 2 /\ j = 3 \/ i = 3 /\ j = 2)%nat.
Proof.
  intros Hj Hi. apply neighbors_In in Hj. destruct Hj as [Hj Ha]. change (gn (path_graph 4)) with 4%nat in Hj.
  small4 i; small4 j; vm_compute in Ha; try discriminate; lia.
Qed.
Ltac nbr4 H Hi := destruct (path4_neighbors _ _ H Hi) as [[-> ->]|[[-> ->]|[[-> ->]|[[-> ->]|[[-> ->]|[-> ->]]]]]].

(** regions {0,1} and {2,3} of the path; area 1 sends its unit to the sink 0, area 2 to the sink 3 *)
Definition flow47 : flow_vars :=
  mkFlow (fun i j => if Nat.eqb (i / 2) (j / 2) then 1 else 0)
    (fun i j k => if (Nat.eqb i 1 && Nat.eqb j 0 && Nat.eqb k 0) || (Nat.eqb i 2 && Nat.eqb j 3 && Nat.eqb k 1) then 1 else 0)
    (fun i k => if Nat.eqb (i / 2) k then 1 else 0)
    (fun i k => if (Nat.eqb i 0 && Nat.eqb k 0) || (Nat.eqb i 3 && Nat.eqb k 1) then 1 else 0).
Example C47_flow_sound_example : exists ans,
  flow_ok (path_graph 4) 2 flow47 /\ flow_reports (path_graph 4) 2 ans flow47 /\
  pexact_run table0 (path_graph 4) (AInt 2) (AStr "Flow") (AStr "CBC") MNone ans rng0 = Ok [0; 0; 1; 1].
Proof.
  exists (mkAns (fun i k => Some (inject_Z (fl_y flow47 i k))) (fun _ _ _ => None) (fun _ _ => None)). split; [|split].
  - unfold flow_ok, flow47. cbn [fl_t fl_f fl_y fl_w]. change (gn (path_graph 4)) with 4%nat.
    split; [intros i j _; destruct (Nat.eqb _ _); lia|]. split; [intros i j k _ _ _; destruct (_ || _); lia|].
    split; [intros i k _ _; destruct (Nat.eqb _ _); lia|]. split; [intros i k _ _; destruct (_ || _); lia|].
    split; [intros i Hi; small4 i; reflexivity|].
    split; [intros i k Hi Hk; small4 i; destruct k as [|[|k]]; try lia; vm_compute; discriminate|].
    split; [intros k Hk; destruct k as [|[|k]]; try lia; reflexivity|].
    split; [intros i j k Hi Hj Hk; nbr4 Hj Hi; destruct k as [|[|k]]; try lia; vm_compute; discriminate|].
    split; [intros i j k Hi Hj Hk; nbr4 Hj Hi; destruct k as [|[|k]]; try lia; vm_compute; discriminate|].
    split; [intros i k Hi Hk; small4 i; destruct k as [|[|k]]; try lia; vm_compute; discriminate|].
    intros i j k Hij Hk. small4 j; small4 i; destruct k as [|[|k]]; try lia; vm_compute; discriminate.
  - intros i k _ _. eexists. split; reflexivity.
  - vm_compute. reflexivity.
Qed.
(** an optimal answer exists, so the optimality statements are not vacuous *)
Example C47_flow_optimal_example : exists a,
  optimal (flow_ok (path_graph 4) 2) (flow_cost (path_graph 4) (p_weight manhattan [[0];[1];[5];[7]]%Q)) a.
Proof.
  apply flow_optimal_exists; [apply path_symmetric|intros i j _; apply abs_metric_nonneg|].
  exists [0; 0; 1; 1]. split; [apply feasb_spec; [reflexivity|vm_compute; reflexivity]|]. apply sizeb_spec. vm_compute. reflexivity.
Qed.
Example C47_flow_asymmetric_example :
  pexact_run table0 (mkG 2 (fun i j => Nat.ltb i j && Nat.ltb j 2)) (AInt 1) (AStr "flow") (AStr "cbc") MNone unset rng0 = Raise KeyError.
Proof. vm_compute. reflexivity. Qed.
Definition two_two : list Z := [7; 7; -3; -3].
Definition three_one : list Z := [0; 0; 0; 1].
Example C48_flow_representable_partial_example : feasible (path_graph 4) two_two 2 /\
  (forall z, In z two_two -> (region_size two_two z + 2 <= 4)%nat) /\
  feasible (path_graph 4) three_one 2 /\ ~ (forall z, In z three_one -> (region_size three_one z + 2 <= 4)%nat).
Proof.
  split; [apply feasb_spec; [reflexivity|vm_compute; reflexivity]|]. split; [apply sizeb_spec; vm_compute; reflexivity|].
  split; [apply feasb_spec; [reflexivity|vm_compute; reflexivity]|]. rewrite <- sizeb_spec. vm_compute. discriminate.
Qed.
(** three areas in a row, two regions wanted: two partitions exist but the flow model has no solution *)
Example C48_flow_infeasible_refuted_example : feasible (path_graph 3) [0; 0; 1] 2 /\ forall a, ~ flow_ok (path_graph 3) 2 a.
Proof.
  split; [apply feasb_spec; [reflexivity|vm_compute; reflexivity]|]. intros a. apply C48_flow_infeasible_refuted; [apply path_symmetric|cbn; lia|cbn; lia].
Qed.

Definition order49 : order_vars :=
  mkOrder (fun i j => if Nat.eqb (i / 2) (j / 2) then 1 else 0) (fun i k o => if Nat.eqb (i / 2) k && Nat.eqb (i mod 2) o then 1 else 0).
Example C49_order_sound_example : exists ans,
  order_ok (path_graph 4) 2 order49 /\ order_reports (path_graph 4) 2 ans order49 /\
  pexact_run table0 (path_graph 4) (AInt 2) (AStr "order") (AStr "glpk") (MStr "euclidean") ans rng0 = Ok [0; 0; 1; 1].
Proof.
  exists (mkAns (fun _ _ => None) (fun i k o => Some (inject_Z (or_x order49 i k o))) (fun _ _ => None)). split; [|split].
  - unfold order_ok, order49. cbn [or_t or_x]. change (gn (path_graph 4)) with 4%nat.
    split; [intros i j _; destruct (Nat.eqb _ _); lia|]. split; [intros i k o _ _ _; destruct (_ && _); lia|].
    split; [intros k Hk; destruct k as [|[|k]]; try lia; reflexivity|].
    split; [intros i Hi; small4 i; reflexivity|].
    split; [intros i k o Hi Hk Ho; cbn [Nat.sub] in Ho; destruct o as [|[|o]]; try lia; small4 i; destruct k as [|[|k]]; try lia; vm_compute; discriminate|].
    intros i j k Hij Hk. small4 j; small4 i; destruct k as [|[|k]]; try lia; vm_compute; discriminate.
  - intros i k o _ _ _. eexists. split; reflexivity.
  - vm_compute. reflexivity.
Qed.
Example C50_order_optimal_example : exists a,
  optimal (order_ok (path_graph 4) 2) (order_cost (path_graph 4) (p_weight manhattan [[0];[1];[5];[7]]%Q)) a.
Proof.
  apply order_optimal_exists; [apply path_symmetric|intros i j _; apply abs_metric_nonneg|cbn; lia|].
  exists [0; 0; 1; 1]. apply feasb_spec; [reflexivity|vm_compute; reflexivity].
Qed.
Example C50_order_small_example :
  pexact_run table0 (path_graph 3) (AInt 3) (AStr "order") (AStr "cbc") MNone unset rng0 = Raise KeyError.
Proof. vm_compute. reflexivity. Qed.

Definition d51 (i j : nat) : Q := if Nat.eqb (i / 2) (j / 2) then 1%Q else 5%Q.
Example C51_tree_sound_example : exists a,
  optimal (tree_ok (path_graph 4) 2) (tree_cost (path_graph 4) d51) a /\ forall i j, (i < j < 4)%nat -> (0 < d51 i j)%Q.
Proof.
  assert (Hd : forall i j, (0 < d51 i j)%Q) by (intros i j; unfold d51; destruct (Nat.eqb _ _); reflexivity).
  destruct (tree_optimal_exists (path_graph 4) d51 2) as [a Ha]; [apply path_symmetric|intros i j _; apply Qlt_le_weak, Hd|cbn; lia| |].
  - exists [0; 0; 1; 1]. apply feasb_spec; [reflexivity|vm_compute; reflexivity].
  - exists a. split; [auto|]. intros i j _. apply Hd.
Qed.
Example C51_tree_run_example :
  pexact_run table0 (path_graph 4) (AInt 2) (AStr "TREE") (AStr "cbc") MNone
    (mkAns (fun _ _ => None) (fun _ _ _ => None) (fun i j => if Nat.eqb (i / 2) (j / 2) then Some 1%Q else Some 0%Q)) rng0 = Ok [0; 0; 1; 1].
Proof. vm_compute. reflexivity. Qed.

(** four areas in a row of population 1 each, at least 2 per region *)
Definition sp53 : list (list Q) := [[1]; [1]; [1]; [1]]%Q.
Definition attr53 : list (list Q) := [[0]; [1]; [5]; [7]]%Q.
Example C53_maxp_sound_example :
  maxp_ok (path_graph 4) sp53 (TReal 2) order49 /\
  maxp_exact_fit table0 manhattan (path_graph 4) attr53 sp53 (TReal 2) (AStr "cbc") MNone (fun i k o => Some (inject_Z (or_x order49 i k o))) = Ok [0; 0; 1; 1].
Proof.
  split; [|vm_compute; reflexivity].
  unfold maxp_ok, order49. cbn [or_t or_x]. change (gn (path_graph 4)) with 4%nat.
  split; [intros i j _; destruct (Nat.eqb _ _); lia|]. split; [intros i k o _ _ _; destruct (_ && _); lia|].
  split; [intros k Hk; small4 k; vm_compute; discriminate|].
  split; [intros i Hi; small4 i; reflexivity|].
  split; [intros i k o Hi Hk Ho; small4 o; small4 i; small4 k; vm_compute; discriminate|].
  split; [intros el k q Hel Hk Hb; cbn in Hel; destruct el; [|lia]; cbn in Hb; injection Hb as <-; small4 k; vm_compute; discriminate|].
  split; [intros i j k Hij Hk; small4 j; small4 i; small4 k; vm_compute; discriminate|].
  intros o Ho. small4 o; reflexivity.
Qed.
Example C54_maxp_optimal_example : exists a, is_exponent (total_weight 4 (mp_weight manhattan attr53)) 2 /\
  optimal (maxp_ok (path_graph 4) sp53 (TReal 2)) (maxp_cost (path_graph 4) (mp_weight manhattan attr53) 2) a.
Proof.
  destruct (maxp_optimal_exists (path_graph 4) sp53 (TReal 2) (mp_weight manhattan attr53) 2) as [a Ha].
  - apply path_symmetric.
  - cbn; lia.
  - intros i j _. apply manhattan_nonneg.
  - exists [0; 0; 1; 1], 2%nat. split; [apply feasb_spec; [reflexivity|vm_compute; reflexivity]|].
    intros z Hz. apply meetsb_spec. destruct Hz as [<-|[<-|[<-|[<-|[]]]]]; vm_compute; reflexivity.
  - exists a. split; [split; vm_compute; [discriminate|reflexivity]|auto].
Qed.
Example C55_maxp_identical_refuted_example :
  maxp_exact_fit table0 manhattan (path_graph 3) [[4]; [4]; [4]]%Q [[1]; [1]; [1]]%Q (TReal 1) (AStr "cbc") MNone (an_x unset)
  = Raise (ValueError "math domain error").
Proof. vm_compute. reflexivity. Qed.
Example C56_pexact_validation_example :
  pexact_fit (Some [5]) table0 (path_graph 3) (AInt 4) (AStr "flow") (AStr "cbc") MNone unset rng0
    = (Some [5], Raise (ValueError "The number of regions must be less than the number of areas.")) /\
  fst (pexact_fit (Some [5]) table0 (path_graph 3) (AInt 2) (AStr "flow") (AStr "CPLEX") MNone unset rng0) = Some [0; 0; 0] /\
  valid_request table0 (path_graph 3) (AInt 2) (AStr "flow") (AStr "CBC") MNone.
Proof.
  split; [reflexivity|]. split; [vm_compute; reflexivity|]. split; [exists 2%nat; split; [reflexivity|cbn; lia]|].
  split; [exists "flow"%string; split; [reflexivity|cbn; auto]|apply accepted0].
Qed.
Example C73_single_attribute_example : (forall i, (i < 4)%nat -> length (nth i attr53 []) = 1%nat) /\
  nonneg_below 4 (rows_distance manhattan attr53) /\ (p_weight manhattan attr53 1 2 == rows_distance manhattan attr53 1 2)%Q.
Proof. split; [intros i Hi; small4 i; reflexivity|]. split; [intros i j _; apply manhattan_nonneg|vm_compute; reflexivity]. Qed.
Example C74_infeasible_reported_example : feasible (path_graph 3) [0; 0; 1] 2 /\
  pexact_run table0 (path_graph 3) (AInt 2) (AStr "flow") (AStr "cbc") MNone unset rng0 = Ok [0; 0; 0].
Proof. split; [apply feasb_spec; [reflexivity|vm_compute; reflexivity]|vm_compute; reflexivity]. Qed.
(** two areas of population 1 and a threshold of 5 *)
Example C75_unattainable_example : forall l p, feasible (path_graph 2) l p ->
  exists z, In z l /\ ~ meets [[1]; [1]]%Q (asked [[1]; [1]]%Q (TReal 5)) l z.
Proof.
  intros l p [Hl _]. destruct l as [|z [|y [|? ?]]]; try discriminate Hl. exists z. split; [left; auto|]. intros H.
  specialize (H 0%nat 5%Q eq_refl). unfold total in H. cbn [length seq map lab nth] in H.
  change (lab [z; y] 0) with z in H. change (lab [z; y] 1) with y in H. rewrite Z.eqb_refl in H.
  destruct (Z.eqb y z); vm_compute in H; apply H; reflexivity.
Qed.
Example C76_list_threshold_example : exists a, is_exponent (total_weight 4 (mp_weight manhattan attr53)) 2 /\
  optimal (maxp_ok (path_graph 4) sp53 (TList [2%Q])) (maxp_cost (path_graph 4) (mp_weight manhattan attr53) 2) a.
Proof.
  destruct (maxp_optimal_exists (path_graph 4) sp53 (TList [2%Q]) (mp_weight manhattan attr53) 2) as [a Ha].
  - apply path_symmetric.
  - cbn; lia.
  - intros i j _. apply manhattan_nonneg.
  - exists [0; 1; 2; 3], 4%nat. split; [apply feasb_spec; [reflexivity|vm_compute; reflexivity]|].
    intros z _ k q Hk. destruct k; discriminate Hk.
  - exists a. split; [split; vm_compute; [discriminate|reflexivity]|auto].
Qed.
Print Assumptions C47_flow_sound.
Print Assumptions C47_flow_asymmetric.
Print Assumptions C48_flow_representable_partial.
Print Assumptions C48_flow_best_partial.
Print Assumptions C48_flow_infeasible_refuted.
Print Assumptions C49_order_sound.
Print Assumptions C50_order_best.
Print Assumptions C50_order_representable.
Print Assumptions C50_order_small.
Print Assumptions C51_tree_sound.
Print Assumptions C52_tree_representable.
Print Assumptions C52_tree_best.
Print Assumptions C52_tree_infeasible.
Print Assumptions C53_maxp_sound.
Print Assumptions C54_maxp_lexicographic.
Print Assumptions C54_exponent_exists.
Print Assumptions C55_maxp_identical_partial.
Print Assumptions C55_maxp_identical_refuted.
Print Assumptions C56_pexact_validation.
Print Assumptions C73_single_attribute_best_partial.
Print Assumptions C73_values_best.
Print Assumptions C73_several_attributes_refuted.
Print Assumptions C48_flow_misses_best_refuted.
Print Assumptions C51_tree_zero_distance.
Print Assumptions C74_infeasible_reported_refuted.
Print Assumptions C75_unattainable_threshold_refuted.
Print Assumptions C76_list_threshold_refuted.
