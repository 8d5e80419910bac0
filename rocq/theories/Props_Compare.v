(** What the answers for different methods, numbers of regions, adjacencies and thresholds have to do
    with one another: C123 - C125. *)
From Verif Require Import Base Spec SpecData M_Graph M_Util M_Objective M_Azp M_Sa M_Tabu M_MaxP M_Exact P_Base P_Util P_Graph P_Sum P_Objective P_Exact P_Split P_Forest P_Initial P_Fit P_AzpFit P_Reactive Props_Objective Props_Azp Props_Sa Props_Tabu Props_MaxP Props_Exact Examples.
Local Open Scope Z_scope.
Local Open Scope string_scope.

(** [labels] is what PRegionsExact with method [m] leaves behind when the solver has solved the
    integer program for the distances [d] to optimality. *)
Inductive solved (table : list string) (g : graph) (d : nat -> nat -> Q) (p : nat) : string -> list Z -> Prop :=
| solved_flow : forall m solver metric ans r a labels, accepted table solver metric -> lower m = "flow" ->
    optimal (flow_ok g p) (flow_cost g d) a -> flow_reports g p ans a ->
    pexact_run table g (AInt (Z.of_nat p)) (AStr m) solver metric ans r = Ok labels -> solved table g d p "flow" labels
| solved_order : forall m solver metric ans r a labels, accepted table solver metric -> lower m = "order" ->
    optimal (order_ok g p) (order_cost g d) a -> order_reports g p ans a ->
    pexact_run table g (AInt (Z.of_nat p)) (AStr m) solver metric ans r = Ok labels -> solved table g d p "order" labels
| solved_tree : forall m solver metric ans r a labels, accepted table solver metric -> lower m = "tree" ->
    optimal (tree_ok g p) (tree_cost g d) a -> tree_reports g ans a ->
    pexact_run table g (AInt (Z.of_nat p)) (AStr m) solver metric ans r = Ok labels -> solved table g d p "tree" labels.
(** the same for MaxPRegionsExact *)
Definition solved_maxp (table : list string) (mf : list Q -> list Q -> Q) (g : graph) (attr sp : list (list Q))
    (thr : threshold_arg) (labels : list Z) : Prop :=
  exists solver metric x a h, accepted table solver metric /\
    is_exponent (total_weight (gn g) (mp_weight mf attr)) h /\
    optimal (maxp_ok g sp thr) (maxp_cost g (mp_weight mf attr) h) a /\ maxp_reports g x a /\
    maxp_exact_fit table mf g attr sp thr solver metric x = Ok labels.

(** no region has more than n - p areas *)
Definition small (g : graph) (p : nat) (l : list Z) : Prop := forall z, In z l -> (region_size l z + p <= gn g)%nat.
(** the same areas with at least the links of [g] *)
Definition more_links (g g' : graph) : Prop := gn g' = gn g /\ forall i j, gadj g i j = true -> gadj g' i j = true.

Lemma solved_best table g d p m labels : symmetric g -> nonneg_below (gn g) d -> (p + 2 <= gn g)%nat ->
  solved table g d p m labels -> m <> "flow" -> best_partition g d p (fun _ => True) labels.
Proof.
  intros Hsym Hd Hp H Hm. inversion H; subst; [congruence| |]; [eapply C50_order_best|eapply C52_tree_best]; eauto.
Qed.
Lemma flow_best table g d p labels : symmetric g -> nonneg_below (gn g) d -> (0 < gn g)%nat ->
  solved table g d p "flow" labels -> best_partition g d p (small g p) labels /\ small g p labels.
Proof.
  intros Hsym Hd Hp H. inversion H; subst. split; [eapply C48_flow_best_partial; eauto|].
  match goal with [Hacc : accepted _ _ _, Hl : lower _ = _, Ho : optimal _ _ _, Hr : flow_reports _ _ _ _, He : pexact_run _ _ _ _ _ _ _ ?r = _ |- _] =>
    destruct (C47_flow_sound _ _ _ _ _ _ _ r _ Hsym Hp Hacc Hl (proj1 Ho) Hr) as [l' [Er [_ [Hs _]]]]; rewrite He in Er; injection Er as <-; exact Hs end.
Qed.
Lemma solved_feasible table g d p m labels : symmetric g -> nonneg_below (gn g) d -> (p + 2 <= gn g)%nat ->
  solved table g d p m labels -> feasible g labels p.
Proof.
  intros Hsym Hd Hp H. destruct (string_dec m "flow") as [->|Hm].
  - apply (flow_best table g d p labels); auto. lia.
  - eapply solved_best; eauto.
Qed.

(** * C123: one answer bounds the other *)

(** "order" and "tree" give partitions of equal heterogeneity; "flow" may give a worse one, and does so
    exactly when no best partition consists of regions of at most n - p areas. *)
Theorem C123_methods_agree table g d p l1 l2 m1 m2 : symmetric g -> nonneg_below (gn g) d -> (p + 2 <= gn g)%nat ->
  solved table g d p m1 l1 -> solved table g d p m2 l2 ->
  (m1 <> "flow" -> (heterogeneity d l1 <= heterogeneity d l2)%Q) /\
  (m1 <> "flow" -> m2 <> "flow" -> (heterogeneity d l1 == heterogeneity d l2)%Q) /\
  (m1 = "flow" -> m2 = "flow" -> (heterogeneity d l1 == heterogeneity d l2)%Q) /\
  (m1 <> "flow" -> m2 = "flow" ->
     ((heterogeneity d l1 == heterogeneity d l2)%Q <->
      exists l, best_partition g d p (fun _ => True) l /\ small g p l)).
Proof.
  intros Hsym Hd Hp H1 H2. pose proof (solved_feasible _ _ _ _ _ _ Hsym Hd Hp H1) as F1. pose proof (solved_feasible _ _ _ _ _ _ Hsym Hd Hp H2) as F2.
  split; [intros E; apply (solved_best _ _ _ _ _ _ Hsym Hd Hp H1 E); auto|]. split; [|split].
  - intros E1 E2. apply Qle_antisym; [apply (solved_best _ _ _ _ _ _ Hsym Hd Hp H1 E1)|apply (solved_best _ _ _ _ _ _ Hsym Hd Hp H2 E2)]; auto.
  - intros -> ->. destruct (flow_best _ _ _ _ _ Hsym Hd ltac:(lia) H1) as [B1 S1]. destruct (flow_best _ _ _ _ _ Hsym Hd ltac:(lia) H2) as [B2 S2].
    apply Qle_antisym; [apply B1|apply B2]; auto.
  - intros E1 ->. destruct (solved_best _ _ _ _ _ _ Hsym Hd Hp H1 E1) as [_ B1]. destruct (flow_best _ _ _ _ _ Hsym Hd ltac:(lia) H2) as [[_ B2] S2]. split.
    + intros Eq. exists l2. split; [split; [auto|]|auto]. intros l Hl _. rewrite <- Eq. apply B1; auto.
    + intros [l [[Fl Bl] Sl]]. apply Qle_antisym; [apply B1; auto|]. eapply Qle_trans; [apply (B2 l); auto|]. apply (Bl l1); auto.
Qed.

(** * C124: the heuristics never beat the exact methods *)

(** With one attribute no feasible labelling with p regions has a lower objective value than the answer
    of "order" or "tree" ... *)
Lemma exact_bound table mf g attr p m labels l : symmetric g -> (p + 2 <= gn g)%nat ->
  (forall i, (i < gn g)%nat -> length (nth i attr []) = 1%nat) -> nonneg_below (gn g) (rows_distance mf attr) ->
  solved table g (p_weight mf attr) p m labels -> m <> "flow" -> feasible g l p ->
  exists x y, o_call (pairwise mf) labels attr = Ok x /\ o_call (pairwise mf) l attr = Ok y /\ (x <= y)%Q.
Proof.
  intros Hsym Hnp Hrow Hd H Hm Hl.
  assert (Hw : forall i j, (i < j < gn g)%nat -> (p_weight mf attr i j == rows_distance mf attr i j)%Q).
  { intros i j Hij. unfold p_weight, rows_distance. pose proof (Hrow i) as Hi. pose proof (Hrow j) as Hj.
    destruct (nth i attr []) as [|x [|? ?]]; cbn in Hi; try lia. destruct (nth j attr []) as [|y [|? ?]]; cbn in Hj; try lia. cbn. ring. }
  assert (Hd' : nonneg_below (gn g) (p_weight mf attr)) by (intros i j Hij; rewrite Hw by auto; auto).
  destruct (solved_best _ _ _ _ _ _ Hsym Hd' Hnp H Hm) as [Hf Hb]. specialize (Hb l Hl Logic.I).
  destruct (C10_pairwise_partition mf attr labels) as [x [Ex [Vx _]]]. destruct (C10_pairwise_partition mf attr l) as [y [Ey [Vy _]]].
  exists x, y. split; [exact Ex|]. split; [exact Ey|]. fold (rows_distance mf attr) in Vx, Vy. rewrite Vx, Vy.
  rewrite <- (het_ext (p_weight mf attr) _ labels), <- (het_ext (p_weight mf attr) _ l); [exact Hb| |].
  - intros i j Hij. apply Hw. destruct Hl as [<- _]. auto.
  - intros i j Hij. apply Hw. destruct Hf as [<- _]. auto.
Qed.

(** ... so none of the heuristics beats it, whatever objective function and random numbers they use. *)
Section Heuristics.
Variables (table : list string) (mf : list Q -> list Q -> Q) (g : graph) (attr : list (list Q)) (p : nat) (m : string) (best : list Z).
Hypothesis Hsym : symmetric g.
Hypothesis Hnp : (p + 2 <= gn g)%nat.
Hypothesis Hrow : forall i, (i < gn g)%nat -> length (nth i attr []) = 1%nat.
Hypothesis Hpos : nonneg_below (gn g) (rows_distance mf attr).
Hypothesis Hbest : solved table g (p_weight mf attr) p m best.
Hypothesis Hm : m <> "flow".

Definition not_beaten (labels : list Z) : Prop :=
  exists x y, o_call (pairwise mf) best attr = Ok x /\ o_call (pairwise mf) labels attr = Ok y /\ (x <= y)%Q.

Theorem C124_azp_bound_partial St start call objv order fuel initial s r labels s' r' :
  (forall l, Permutation (order l) l) -> shape_ok g initial ->
  azp_fit_with St start call objv order fuel g attr (Z.of_nat p) initial s r = Ok ((labels, s'), r') -> not_beaten labels.
Proof.
  intros Ho Hs H. apply (exact_bound table mf g attr p m); auto.
  destruct (C18_azp_feasible _ _ _ _ _ _ _ _ _ _ _ _ _ _ _ Hsym Ho Hs H) as [Hf _]. rewrite Nat2Z.id in Hf. exact Hf.
Qed.
Theorem C124_annealing_bound_partial expf order O azp_fuel fuel cooling initial a mem r sol mem' r' :
  (forall l, Permutation (order l) l) -> shape_ok g initial -> sa_maxit a <> Some 0%nat -> (0 < sa_nonmoving_steps a)%nat ->
  sa_fit expf order O azp_fuel g attr (Z.of_nat p) fuel cooling initial a mem r = Ok (sol, mem', r') ->
  exists labels, sol = Some labels /\ not_beaten labels.
Proof.
  intros Ho Hs H1 H2 H. destruct (C24_sa_feasible _ _ _ _ _ _ _ _ _ _ _ _ _ _ _ _ Hsym Ho Hs H1 H2 H) as [labels [-> [Hf _]]].
  rewrite Nat2Z.id in Hf. exists labels. split; [reflexivity|]. apply (exact_bound table mf g attr p m); auto.
Qed.
Theorem C124_basic_tabu_bound_partial order d fuel tabu_length reps initial c0 r labels c' r' :
  (forall l, Permutation (order l) l) -> length attr = gn g ->
  (forall x y, (d x y == d y x)%Q) -> (forall x, (d x x == 0)%Q) -> (forall x y, (0 <= d x y)%Q) -> shape_ok g initial ->
  basic_fit order (pairwise d) fuel tabu_length reps g attr (Z.of_nat p) initial c0 r = Ok ((labels, c'), r') -> not_beaten labels.
Proof.
  intros Ho Ha D1 D2 D3 Hs H. apply (exact_bound table mf g attr p m); auto.
  rewrite <- (Nat2Z.id p). eapply (C27_basic_tabu_feasible_pairwise order g attr); eauto.
Qed.
Theorem C124_reactive_tabu_bound_partial order O max_iterations k1 k2 c0 s initial r labels s' r' :
  (forall l, Permutation (order l) l) -> length attr = gn g -> n_islands g 1 ->
  exact_on O attr -> reactive_new max_iterations c0 = Ok s -> shape_ok g initial ->
  reactive_fit order O (Z.to_nat max_iterations) k1 k2 g attr (Z.of_nat p) initial s r = Ok ((labels, s'), r') -> not_beaten labels.
Proof.
  intros Ho Ha H1 He Hnew Hs H. apply (exact_bound table mf g attr p m); auto.
  rewrite <- (Nat2Z.id p). eapply (C30_reactive_feasible_no_worse order O g attr); eauto.
Qed.
End Heuristics.

(** The max-p heuristic never finds more regions than MaxPRegionsExact, and no lower heterogeneity with
    the same number of regions. *)
Theorem C124_maxp_bound table mf expf order O d fuel g attr sp thr max_it entropy labels0 ls r labels ls' r' best :
  (forall l, Permutation (order l) l) -> symmetric g -> no_self_loops g -> shaped sp (asked sp thr) (gn g) -> non_negative sp ->
  (0 < gn g)%nat -> (0 < max_it)%nat -> as_documented sp thr -> nonneg_below (gn g) (rows_distance mf attr) ->
  solved_maxp table mf g attr sp thr best ->
  maxp_azp_fit expf order O d fuel g attr sp (asked sp thr) max_it entropy labels0 ls r = Ok (labels, ls', r') ->
  exists l, labels = Some l /\ (n_labels l <= n_labels best)%nat /\
    (n_labels l = n_labels best -> (heterogeneity (rows_distance mf attr) best <= heterogeneity (rows_distance mf attr) l)%Q).
Proof.
  intros Ho Hsym Hl Hsh Hnn Hn Hit Hdoc Hd (solver & metric & x & a & h & Hacc & Hex & Hopt & Hrep & Hrun) H.
  destruct (C35_maxp_valid _ _ _ _ _ _ _ _ _ _ _ _ _ _ _ _ _ Ho Hsym Hl Hsh Hnn Hit H) as [runs [q [l [-> [_ [_ [_ [Hf Hmeet]]]]]]]].
  exists l. split; [reflexivity|].
  destruct (C54_maxp_lexicographic table mf g attr sp thr solver metric x a h best Hsym Hn Hacc Hdoc Hd Hex Hopt Hrep Hrun l q Hf Hmeet) as [H1 H2].
  destruct Hf as [_ [-> _]]. split; [exact H1|exact H2].
Qed.

(** * C125: asking for less never gives a worse answer *)

Lemma more_linked g g' P u v : more_links g g' -> linked g P u v -> linked g' P u v.
Proof.
  intros [_ Hl] H. induction H as [u Hu|u v w Hu Ht H IH]; [apply linked_refl; auto|]. eapply linked_step; [auto| |apply IH].
  destruct Ht as [Ht|Ht]; [left|right]; auto.
Qed.
Lemma more_feasible g g' l p : more_links g g' -> feasible g l p -> feasible g' l p.
Proof.
  intros Hg [H1 [H2 H3]]. split; [rewrite H1; symmetry; apply Hg|]. split; [auto|]. intros z Hz. destruct (H3 z Hz) as [He Hl]. split; [auto|].
  intros u v Hu Hv. eapply more_linked; eauto.
Qed.

(** more regions: the heterogeneity never goes up *)
Theorem C125_more_regions table g d p p' m m' l l' : symmetric g -> nonneg_below (gn g) d -> (p <= p')%nat -> (p' + 2 <= gn g)%nat ->
  solved table g d p m l -> solved table g d p' m' l' -> (m' = "flow" -> m = "flow") ->
  (heterogeneity d l' <= heterogeneity d l)%Q.
Proof.
  intros Hsym Hd Hpp Hp H H' Hm. pose proof (solved_feasible table g d p m l Hsym Hd ltac:(lia) H) as Hf.
  assert (Hd' : forall i j, (i < j < length l)%nat -> (0 <= d i j)%Q) by (destruct Hf as [-> _]; exact Hd).
  destruct (string_dec m' "flow") as [->|Hm'].
  - rewrite (Hm eq_refl) in H. destruct (flow_best _ _ _ _ _ Hsym Hd ltac:(lia) H) as [_ Hs].
    destruct (refine_small g l p Hf Hs (p' - p)%nat ltac:(lia)) as [k [Hk [Hfin Hks]]]. replace (p + (p' - p))%nat with p' in * by lia.
    eapply Qle_trans; [|apply (finer_heterogeneity d k l Hfin Hd')].
    destruct (flow_best _ _ _ _ _ Hsym Hd ltac:(lia) H') as [[_ Hb] _]. apply Hb; auto.
  - destruct (refine g l p Hf (p' - p)%nat ltac:(lia)) as [k [Hk Hfin]]. replace (p + (p' - p))%nat with p' in * by lia.
    eapply Qle_trans; [|apply (finer_heterogeneity d k l Hfin Hd')].
    destruct (solved_best _ _ _ _ _ _ Hsym Hd Hp H' Hm') as [_ Hb]. apply Hb; auto.
Qed.
(** more links: likewise *)
Theorem C125_more_links table g g' d p m m' l l' : symmetric g -> symmetric g' -> more_links g g' -> nonneg_below (gn g) d -> (p + 2 <= gn g)%nat ->
  solved table g d p m l -> solved table g' d p m' l' -> (m' = "flow" -> m = "flow") ->
  (heterogeneity d l' <= heterogeneity d l)%Q.
Proof.
  intros Hsym Hsym' Hg Hd Hp H H' Hm. pose proof (solved_feasible table g d p m l Hsym Hd ltac:(lia) H) as Hf. pose proof Hg as [Hn _].
  rewrite <- Hn in Hd, Hp. destruct (string_dec m' "flow") as [->|Hm'].
  - rewrite (Hm eq_refl) in H. destruct (flow_best table g d p l Hsym ltac:(rewrite <- Hn; auto) ltac:(lia) H) as [_ Hs].
    destruct (flow_best _ _ _ _ _ Hsym' Hd ltac:(lia) H') as [[_ Hb] _]. apply Hb; [eapply more_feasible; eauto|].
    intros z Hz. rewrite Hn. apply Hs; auto.
  - destruct (solved_best _ _ _ _ _ _ Hsym' Hd Hp H' Hm') as [_ Hb]. apply Hb; [eapply more_feasible; eauto|auto].
Qed.
(** max-p: lower thresholds or more links never give fewer regions, nor a higher heterogeneity with the same number *)
Theorem C125_maxp_monotone table mf g g' attr sp thr thr' l l' : symmetric g' -> more_links g g' -> (0 < gn g)%nat ->
  as_documented sp thr -> as_documented sp thr' -> nonneg_below (gn g) (rows_distance mf attr) ->
  (forall k t', nth_error (asked sp thr') k = Some t' -> exists t, nth_error (asked sp thr) k = Some t /\ (t' <= t)%Q) ->
  solved_maxp table mf g attr sp thr l -> solved_maxp table mf g' attr sp thr' l' ->
  (n_labels l <= n_labels l')%nat /\
  (n_labels l = n_labels l' -> (heterogeneity (rows_distance mf attr) l' <= heterogeneity (rows_distance mf attr) l)%Q).
Proof.
  intros Hsym' Hg Hn0 Hdoc Hdoc' Hd Hthr (solver & metric & x & a & h & Hacc & Hex & Hopt & Hrep & Hrun) (solver' & metric' & x' & a' & h' & Hacc' & Hex' & Hopt' & Hrep' & Hrun').
  pose proof Hg as [Hn _].
  assert (Hw : (0 < total_weight (gn g) (mp_weight mf attr))%Q) by (destruct Hex as [Hlo _]; eapply Qlt_le_trans; [apply (power10_pos (h - 1))|exact Hlo]).
  destruct (C53_maxp_sound table mf g attr sp thr solver metric x a Hacc Hdoc Hw (proj1 Hopt) Hrep) as [l1 [E1 [Hf [_ Hmeet]]]].
  rewrite Hrun in E1. injection E1 as <-.
  apply (C54_maxp_lexicographic table mf g' attr sp thr' solver' metric' x' a' h' l'); auto.
  - lia.
  - rewrite Hn. exact Hd.
  - eapply more_feasible; eauto.
  - intros z Hz k t' Ht'. destruct (Hthr k t' Ht') as [t [Ht Hle]]. eapply Qle_trans; [exact Hle|]. apply (Hmeet z Hz k t Ht).
Qed.

(** * Where the bound fails *)

Definition azp_labels {A B} (o : out ((list Z * A) * B)) : option (list Z) := match o with Ok ((l, _), _) => Some l | _ => None end.

(** The answers exist: *)
Lemma flow_solved g d p : symmetric g -> nonneg_below (gn g) d -> (0 < gn g)%nat -> (exists l, feasible g l p /\ small g p l) ->
  exists l, solved table0 g d p "flow" l.
Proof.
  intros Hsym Hd Hn Hl. destruct (flow_optimal_exists g d p Hsym Hd Hl) as [a Ha].
  assert (Hrep : flow_reports g p (mkAns (fun i k => Some (inject_Z (fl_y a i k))) (fun _ _ _ => None) (fun _ _ => None)) a) by (intros i k _ _; eexists; split; reflexivity).
  destruct (C47_flow_sound table0 g p "flow" (AStr "CBC") MNone _ rng0 a Hsym Hn accepted0 eq_refl (proj1 Ha) Hrep) as [l [Hl' _]].
  exists l. eapply solved_flow; eauto; [apply accepted0|reflexivity].
Qed.
Lemma order_solved g d p : symmetric g -> nonneg_below (gn g) d -> (p + 2 <= gn g)%nat -> (exists l, feasible g l p) ->
  exists l, solved table0 g d p "order" l.
Proof.
  intros Hsym Hd Hn Hl. destruct (order_optimal_exists g d p Hsym Hd Hn Hl) as [a Ha].
  assert (Hrep : order_reports g p (mkAns (fun _ _ => None) (fun i k o => Some (inject_Z (or_x a i k o))) (fun _ _ => None)) a) by (intros i k o _ _ _; eexists; split; reflexivity).
  destruct (C49_order_sound table0 g p "order" (AStr "CBC") MNone _ rng0 a ltac:(lia) accepted0 eq_refl (proj1 Ha) Hrep) as [l [Hl' _]].
  exists l. eapply solved_order; eauto; [apply accepted0|reflexivity].
Qed.
Lemma tree_solved g d p : symmetric g -> no_self_loops g -> (forall i j, (i < j < gn g)%nat -> (0 < d i j)%Q) -> (p + 2 <= gn g)%nat -> (exists l, feasible g l p) ->
  exists l, solved table0 g d p "tree" l.
Proof.
  intros Hsym Hns Hd Hn Hl. destruct (tree_optimal_exists g d p Hsym (fun i j H => Qlt_le_weak _ _ (Hd i j H)) Hn Hl) as [a Ha].
  assert (Hrep : tree_reports g (mkAns (fun _ _ => None) (fun _ _ _ => None) (fun i j => Some (inject_Z (tr_t a i j)))) a) by (intros i j _ _; eexists; split; reflexivity).
  destruct (C51_tree_sound table0 g p "tree" (AStr "CBC") MNone _ rng0 a Hsym Hns ltac:(lia) accepted0 eq_refl (proj1 Ha) Hrep) as [H _].
  destruct (H d Hd Ha) as [l [Hl' _]].
  exists l. eapply solved_tree; eauto; [apply accepted0|reflexivity].
Qed.
Lemma maxp_solved mf g attr sp thr : symmetric g -> (0 < gn g)%nat -> nonneg_below (gn g) (mp_weight mf attr) -> (0 < total_weight (gn g) (mp_weight mf attr))%Q ->
  as_documented sp thr -> (exists l p, feasible g l p /\ forall z, In z l -> meets sp (asked sp thr) l z) ->
  exists l, solved_maxp table0 mf g attr sp thr l.
Proof.
  intros Hsym Hn Hd Hw Hdoc Hl. destruct (C54_exponent_exists _ Hw) as [h Hh].
  destruct (maxp_optimal_exists g sp thr (mp_weight mf attr) h Hsym Hn Hd) as [a Ha].
  { rewrite (proj1 (bounds_asked sp thr Hdoc)). exact Hl. }
  assert (Hrep : maxp_reports g (fun i k o => Some (inject_Z (or_x a i k o))) a) by (intros i k o _ _ _; eexists; split; reflexivity).
  destruct (C53_maxp_sound table0 mf g attr sp thr (AStr "CBC") MNone _ a accepted0 Hdoc Hw (proj1 Ha) Hrep) as [l [Hl' _]].
  exists l. exists (AStr "CBC"), MNone, (fun i k o => Some (inject_Z (or_x a i k o))), a, h. split; [apply accepted0|]. auto.
Qed.

(** AZP, from a random start, finds a partition strictly better than the optimum of "flow". *)
Theorem C124_flow_bound_refuted : symmetric (path_graph 4) /\
  (exists best, solved table0 (path_graph 4) (p_weight manhattan attr48) 2 "flow" best) /\
  azp_labels (azp_fit expd same_order (pairwise manhattan) 40 (path_graph 4) attr48 2 None (SAzp dum) rng0) = Some [0; 0; 0; 1] /\
  forall table best, solved table (path_graph 4) (p_weight manhattan attr48) 2 "flow" best ->
    exists x y, o_call (pairwise manhattan) best attr48 = Ok x /\ o_call (pairwise manhattan) [0; 0; 0; 1] attr48 = Ok y /\ (y < x)%Q.
Proof.
  pose proof (path_symmetric 4) as Hsym.
  assert (F2 : feasible (path_graph 4) [0; 0; 1; 1] 2) by (apply feasb_spec; [reflexivity|vm_compute; reflexivity]).
  split; [auto|]. split; [|split].
  - apply flow_solved; [auto|intros i j _; apply abs_metric_nonneg|cbn; lia|]. exists [0; 0; 1; 1]. split; [auto|]. unfold small. apply sizeb_spec. vm_compute. reflexivity.
  - vm_compute. reflexivity.
  - intros table best H. inversion H as [m solver metric ans r a labels Hacc Hm Hopt Hrep Hrun| |]; subst.
    assert (Hn : (0 < gn (path_graph 4))%nat) by (cbn; lia).
    destruct (C47_flow_sound table _ 2 m solver metric ans r a Hsym Hn Hacc Hm (proj1 Hopt) Hrep) as [labels' [E [Hpp [Hsz _]]]].
    rewrite Hrun in E. injection E as <-. pose proof (p_partition_words _ _ _ Hpp) as Hw.
    destruct (C10_pairwise_partition manhattan attr48 best) as [x [Ex [Vx _]]]. destruct (C10_pairwise_partition manhattan attr48 [0; 0; 0; 1]) as [y [Ey [Vy _]]].
    exists x, y. split; [exact Ex|]. split; [exact Ey|]. fold (rows_distance manhattan attr48) in Vx, Vy. rewrite Vx, Vy. apply Qltb_lt.
    assert (Hall : forallb (fun l => negb (feasb (path_graph 4) 2 l && sizeb 4 2 l)
        || Qltb (heterogeneity (rows_distance manhattan attr48) [0; 0; 0; 1]) (heterogeneity (rows_distance manhattan attr48) l)) (P_Exact.words 4 (names 2)) = true) by (vm_compute; reflexivity).
    rewrite forallb_forall in Hall. specialize (Hall best Hw). apply orb_true_iff in Hall. destruct Hall as [Hall|]; [|auto].
    apply negb_true_iff in Hall. rewrite (proj2 (feasb_spec (path_graph 4) 2 best (proj1 (proj1 Hpp))) (proj1 Hpp)) in Hall. apply sizeb_spec in Hsz.
    change (gn (path_graph 4)) with 4%nat in Hsz. rewrite Hsz in Hall. discriminate.
Qed.
(** With two attributes AZP may return a partition strictly better than the optimum of "order": the two
    work with different distances (C73). *)
Theorem C124_several_attributes_refuted : symmetric cycle4 /\
  (exists best, solved table0 cycle4 (p_weight manhattan attr73) 2 "order" best) /\
  azp_labels (azp_fit expd same_order (pairwise manhattan) 40 cycle4 attr73 2 (Some [0; 0; 1; 1]) (SAzp dum) rng0) = Some [0; 0; 1; 1] /\
  forall table best, solved table cycle4 (p_weight manhattan attr73) 2 "order" best ->
    exists x y, o_call (pairwise manhattan) best attr73 = Ok x /\ o_call (pairwise manhattan) [0; 0; 1; 1] attr73 = Ok y /\ (y < x)%Q.
Proof.
  assert (Hd : nonneg_below (gn cycle4) (p_weight manhattan attr73)) by (intros i j _; apply abs_metric_nonneg).
  assert (F2 : feasible cycle4 [0; 1; 1; 0] 2) by (apply feasb_spec; [reflexivity|vm_compute; reflexivity]).
  split; [apply cycle4_symmetric|]. split; [|split].
  - apply order_solved; [apply cycle4_symmetric|auto|cbn; lia|eauto].
  - vm_compute. reflexivity.
  - intros table best H. destruct (solved_best table cycle4 _ 2 _ best cycle4_symmetric Hd (le_n 4) H ltac:(discriminate)) as [_ Hmin]. specialize (Hmin _ F2 Logic.I).
    inversion H as [|m solver metric ans r a labels Hacc Hm Hopt Hrep Hrun|]; subst.
    assert (Hn : (0 < gn cycle4)%nat) by (cbn; lia).
    destruct (C49_order_sound table _ 2 m solver metric ans r a Hn Hacc Hm (proj1 Hopt) Hrep) as [labels' [E [Hpp _]]].
    rewrite Hrun in E. injection E as <-. pose proof (p_partition_words _ _ _ Hpp) as Hw.
    destruct (C10_pairwise_partition manhattan attr73 best) as [x [Ex [Vx _]]]. destruct (C10_pairwise_partition manhattan attr73 [0; 0; 1; 1]) as [y [Ey [Vy _]]].
    exists x, y. split; [exact Ex|]. split; [exact Ey|]. fold (rows_distance manhattan attr73) in Vx, Vy. rewrite Vx, Vy. apply Qltb_lt.
    assert (Hall : forallb (fun l => negb (feasb cycle4 2 l) || Qltb (heterogeneity (p_weight manhattan attr73) [0; 1; 1; 0]) (heterogeneity (p_weight manhattan attr73) l)
        || Qltb (heterogeneity (rows_distance manhattan attr73) [0; 0; 1; 1]) (heterogeneity (rows_distance manhattan attr73) l)) (P_Exact.words 4 (names 2)) = true) by (vm_compute; reflexivity).
    rewrite forallb_forall in Hall. specialize (Hall best Hw). apply orb_true_iff in Hall. destruct Hall as [Hall|]; [|auto].
    apply orb_true_iff in Hall. destruct Hall as [Hall|Hall].
    + apply negb_true_iff in Hall. rewrite (proj2 (feasb_spec cycle4 2 best (proj1 (proj1 Hpp))) (proj1 Hpp)) in Hall. discriminate.
    + apply Qltb_lt in Hall. lra.
Qed.

(** * Examples *)

Lemma path_no_self_loops n : no_self_loops (path_graph n).
Proof.
  intros u _. change (gadj (path_graph n) u u) with ((Nat.ltb u n && Nat.ltb u n) && (Nat.eqb (S u) u || Nat.eqb (S u) u)).
  rewrite (proj2 (Nat.eqb_neq (S u) u)) by lia. apply andb_false_r.
Qed.
(** path of five areas; all three methods have answers for two regions, "order" and "tree" also for three *)
Definition attr123 : list (list Q) := [[0]; [1]; [2]; [3]; [20]]%Q.
Definition d123 := p_weight manhattan attr123.
Lemma d123_pos : forall i j, (i < j < 5)%nat -> (0 < d123 i j)%Q.
Proof. intros i j H. destruct j as [|[|[|[|[|j]]]]]; try lia; destruct i as [|[|[|[|i]]]]; try lia; vm_compute; reflexivity. Qed.
Example C123_methods_agree_example :
  nonneg_below 5 d123 /\ (exists l, solved table0 (path_graph 5) d123 2 "flow" l) /\
  (exists l, solved table0 (path_graph 5) d123 2 "order" l) /\ exists l, solved table0 (path_graph 5) d123 2 "tree" l.
Proof.
  assert (Hd : nonneg_below 5 d123) by (intros i j H; apply Qlt_le_weak, d123_pos; auto).
  assert (F : feasible (path_graph 5) [0; 0; 0; 1; 1] 2) by (apply feasb_spec; [reflexivity|vm_compute; reflexivity]).
  split; [auto|]. split; [|split].
  - apply flow_solved; [apply path_symmetric|auto|cbn; lia|]. exists [0; 0; 0; 1; 1]. split; [auto|]. unfold small. apply sizeb_spec. vm_compute. reflexivity.
  - apply order_solved; [apply path_symmetric|auto|cbn; lia|eauto].
  - apply tree_solved; [apply path_symmetric|apply path_no_self_loops|exact d123_pos|cbn; lia|eauto].
Qed.
(** the value of every answer of "order" or "tree": regions {0,1,2,3} and {4} *)
Example C123_value_example : forall l m, solved table0 (path_graph 5) d123 2 m l -> m <> "flow" ->
  (heterogeneity d123 l <= heterogeneity d123 [0; 0; 0; 0; 1]%Z)%Q /\ (heterogeneity d123 [0; 0; 0; 0; 1]%Z < heterogeneity d123 [0; 0; 0; 1; 1]%Z)%Q.
Proof.
  intros l m H Hm. assert (Hd : nonneg_below 5 d123) by (intros i j Hij; apply Qlt_le_weak, d123_pos; auto). split; [|vm_compute; reflexivity].
  destruct (solved_best table0 (path_graph 5) d123 2 m l (path_symmetric 5) Hd ltac:(cbn; lia) H Hm) as [_ Hb]. apply Hb; [|auto].
  apply feasb_spec; [reflexivity|vm_compute; reflexivity].
Qed.
(** the heuristics on the same data *)
Example C124_heuristics_example :
  (forall i, (i < 5)%nat -> length (nth i attr123 []) = 1%nat) /\ nonneg_below 5 (rows_distance manhattan attr123) /\
  azp_labels (azp_fit expd same_order (pairwise manhattan) 40 (path_graph 5) attr123 2 None (SAzp dum) rng0) = Some [0; 0; 0; 0; 1] /\
  tabu_labels (basic_ex (pairwise manhattan) (path_graph 5) [0;1;2;3;20]%Q None 2 2%Z (Some [0;0;1;1;1]) rng0) = Some [0; 0; 0; 0; 1] /\
  n_islands (path_graph 5) 1.
Proof.
  split; [intros i Hi; destruct i as [|[|[|[|[|i]]]]]; try lia; reflexivity|]. split; [intros i j _; apply manhattan_nonneg|].
  split; [vm_compute; reflexivity|]. split; [vm_compute; reflexivity|]. apply n_islands_iff. vm_compute. reflexivity.
Qed.
(** max-p: three heuristic rounds on the path of four areas of population 1, at least 2 per region *)
Lemma two_two_meets : forall z, In z [0; 0; 1; 1] -> meets sp53 [2%Q] [0; 0; 1; 1] z.
Proof. intros z Hz. apply meetsb_spec. destruct Hz as [<-|[<-|[<-|[<-|[]]]]]; vm_compute; reflexivity. Qed.
Example C124_maxp_bound_example :
  shaped sp53 (asked sp53 (TReal 2)) 4 /\ non_negative sp53 /\ nonneg_below 4 (rows_distance manhattan attr53) /\
  (exists best, solved_maxp table0 manhattan (path_graph 4) attr53 sp53 (TReal 2) best) /\
  mp_labels (mp_ex 40 (path_graph 4) [0;1;5;7]%Q [1;1;1;1]%Q 2%Q 3 None rng0) = Some [0; 0; 1; 1].
Proof.
  split; [split; [reflexivity|intros x [<-|[<-|[<-|[<-|[]]]]]; reflexivity]|].
  split; [intros x q [<-|[<-|[<-|[<-|[]]]]] [<-|[]]; discriminate|]. split; [intros i j _; apply manhattan_nonneg|]. split; [|vm_compute; reflexivity].
  apply maxp_solved; [apply path_symmetric|cbn; lia|intros i j _; apply manhattan_nonneg|vm_compute; reflexivity|exact Logic.I|].
  exists [0; 0; 1; 1], 2%nat. split; [apply feasb_spec; [reflexivity|vm_compute; reflexivity]|exact two_two_meets].
Qed.
(** three regions instead of two; a ring instead of a path *)
Definition ring5 : graph := mkG 5 (fun i j => Nat.ltb i 5 && Nat.ltb j 5 && (Nat.eqb ((i + 1) mod 5) j || Nat.eqb ((j + 1) mod 5) i)).
Lemma ring5_symmetric : symmetric ring5.
Proof. intros i j Hi Hj. revert i j Hi Hj. apply small_symmetric. vm_compute. reflexivity. Qed.
Lemma ring5_more : more_links (path_graph 5) ring5.
Proof.
  split; [reflexivity|]. intros i j H.
  destruct (Nat.ltb_spec i 5) as [Hi|Hi], (Nat.ltb_spec j 5) as [Hj|Hj];
    try (exfalso; change (gadj (path_graph 5) i j) with ((Nat.ltb i 5 && Nat.ltb j 5) && (Nat.eqb (S i) j || Nat.eqb (S j) i)) in H;
         apply andb_prop in H; destruct H as [H _]; apply andb_prop in H; destruct H as [H1 H2]; apply Nat.ltb_lt in H1; apply Nat.ltb_lt in H2; lia).
  destruct i as [|[|[|[|[|i]]]]]; try lia; destruct j as [|[|[|[|[|j]]]]]; try lia; vm_compute in H |- *; congruence.
Qed.
Example C125_more_example :
  (exists l, solved table0 (path_graph 5) d123 3 "order" l) /\ (exists l, solved table0 ring5 d123 3 "order" l) /\
  (exists l, solved table0 (path_graph 5) d123 3 "flow" l) /\ more_links (path_graph 5) ring5 /\ symmetric ring5.
Proof.
  assert (Hd : nonneg_below 5 d123) by (intros i j H; apply Qlt_le_weak, d123_pos; auto).
  assert (F : feasible (path_graph 5) [0; 0; 1; 1; 2] 3) by (apply feasb_spec; [reflexivity|vm_compute; reflexivity]).
  split; [|split; [|split; [|split; [apply ring5_more|apply ring5_symmetric]]]].
  - apply order_solved; [apply path_symmetric|auto|cbn; lia|eauto].
  - apply order_solved; [apply ring5_symmetric|auto|cbn; lia|]. exists [0; 0; 1; 1; 2]. eapply more_feasible; [apply ring5_more|auto].
  - apply flow_solved; [apply path_symmetric|auto|cbn; lia|]. exists [0; 0; 1; 1; 2]. split; [auto|]. unfold small. apply sizeb_spec. vm_compute. reflexivity.
Qed.
(** threshold 2 instead of 3 *)
Example C125_maxp_monotone_example :
  (exists l, solved_maxp table0 manhattan (path_graph 4) attr53 sp53 (TReal 3) l) /\
  (exists l, solved_maxp table0 manhattan (path_graph 4) attr53 sp53 (TReal 2) l) /\
  forall k t', nth_error (asked sp53 (TReal 2)) k = Some t' -> exists t, nth_error (asked sp53 (TReal 3)) k = Some t /\ (t' <= t)%Q.
Proof.
  split; [|split].
  - apply maxp_solved; [apply path_symmetric|cbn; lia|intros i j _; apply manhattan_nonneg|vm_compute; reflexivity|exact Logic.I|].
    exists [0; 0; 0; 0], 1%nat. split; [apply feasb_spec; [reflexivity|vm_compute; reflexivity]|].
    intros z Hz. apply meetsb_spec. destruct Hz as [<-|[<-|[<-|[<-|[]]]]]; vm_compute; reflexivity.
  - apply C124_maxp_bound_example.
  - intros [|k] t' H; [|destruct k; discriminate]. injection H as <-. exists 3%Q. split; [reflexivity|discriminate].
Qed.

Print Assumptions C123_methods_agree.
Print Assumptions C124_azp_bound_partial.
Print Assumptions C124_annealing_bound_partial.
Print Assumptions C124_basic_tabu_bound_partial.
Print Assumptions C124_reactive_tabu_bound_partial.
Print Assumptions C124_maxp_bound.
Print Assumptions C124_flow_bound_refuted.
Print Assumptions C124_several_attributes_refuted.
Print Assumptions C125_more_regions.
Print Assumptions C125_more_links.
Print Assumptions C125_maxp_monotone.
