(** One threshold for several spatially extensive attributes and several thresholds for one: C127. *)
From Verif Require Import Base Spec SpecData M_Graph M_Util M_Objective M_Azp M_Sa M_MaxP M_Exact P_Base P_Util P_Graph P_Sum P_Objective P_Strategy P_MaxP
  P_Scale P_ScaleMaxP P_MaxPExact Props_MaxP Props_Exact Props_Scale Examples.

(** * C127: what the threshold of a max-p problem applies to *)
Lemma multiple_refl x : multiple 1 x x.
Proof. destruct x; cbn; auto. ring. Qed.
Lemma scaled_refl n O attr : scaled 1 n O O attr attr.
Proof. intros idx labels _ _ _. split; [apply multiple_refl|]. intros. apply multiple_refl. Qed.
Lemma distances_refl n d attr : distances_scaled 1 n d d attr attr.
Proof. intros i j _ _. ring. Qed.
Lemma stretched_refl x : stretched (fun _ => 1%Q) x x.
Proof. induction x as [|a x IH]; cbn; auto. split; [ring|auto]. Qed.
(** one number, every attribute *)
Lemma one_threshold_same sp t w n : (0 < w)%nat -> shaped sp (repeat t w) n -> same_amounts sp sp (repeat t w) [t].
Proof.
  intros Hw [Hl Hs]. rewrite repeat_length in Hs. split; [rewrite repeat_length; auto|]. exists (fun _ => 1%Q). split; [reflexivity|].
  rewrite repeat_length. split; [apply stretched_refl|]. exists w. split; [right; auto|]. intros i.
  destruct (Nat.lt_ge_cases i (length sp)) as [Hi|Hi]; [|left; rewrite nth_overflow by auto; auto].
  right. pose proof (Hs _ (nth_In sp [] Hi)) as Hr. split; [exact Hr|]. rewrite spread_same by auto. apply stretched_refl.
Qed.
(** one attribute, every number *)
Definition copies (w : nat) (sp : list (list Q)) : list (list Q) := map (fun x => spread w x) sp.
Lemma several_thresholds_same sp thr n : (0 < length thr)%nat -> shaped sp [0%Q] n -> same_amounts (copies (length thr) sp) sp thr thr.
Proof.
  intros Hw [Hl Hs]. split; [auto|]. exists (fun _ => 1%Q). split; [reflexivity|]. split; [rewrite spread_same by auto; apply stretched_refl|].
  exists 1. split; [left; auto|]. intros i. destruct (Nat.lt_ge_cases i (length sp)) as [Hi|Hi].
  - right. split; [apply (Hs _ (nth_In sp [] Hi))|]. unfold copies. rewrite (nth_indep _ [] (spread (length thr) [])) by (rewrite map_length; auto).
    rewrite map_nth. apply stretched_refl.
  - left. unfold copies. rewrite !nth_overflow by (try rewrite map_length; auto). auto.
Qed.
Lemma copies_shaped sp thr n : shaped sp [0%Q] n -> shaped (copies (length thr) sp) thr n.
Proof.
  intros [Hl Hs]. split; [unfold copies; rewrite map_length; auto|]. intros x Hx. unfold copies in Hx. apply in_map_iff in Hx.
  destruct Hx as [y [<- Hy]]. apply spread_length. left. apply Hs. auto.
Qed.

Section Heuristic.
Variables (expf : Q -> Q) (order : list edge -> list edge) (O : objfun) (d : list Q -> list Q -> Q) (g : graph) (attr : list (list Q)).
Hypothesis Hexp : forall x y, (x == y)%Q -> (expf x == expf y)%Q.
Hypothesis Hord : forall l, Permutation (order l) l.
Hypothesis Hsym : symmetric g.
Hypothesis Hloop : no_self_loops g.
Hypothesis Hattr : length attr = gn g.

(** A single number (or an array with one entry) as threshold of MaxPRegionsHeu means the same as that number for each
    spatially extensive attribute: the same labels and random numbers, or the same exception. *)
Theorem C127_one_number sp t w fuel max_it entropy labels0 ls ls' r : (0 < w)%nat -> shaped sp (repeat t w) (gn g) ->
  match ls, ls' with Some s, Some s' => alike 1 s s' | None, None => True | _, _ => False end ->
  (forall labels r', (exists s1, maxp_azp_fit expf order O d fuel g attr sp (repeat t w) max_it entropy labels0 ls r = Ok (labels, s1, r')) <->
                     (exists s1, maxp_azp_fit expf order O d fuel g attr sp [t] max_it entropy labels0 ls' r = Ok (labels, s1, r'))) /\
  (forall e, maxp_azp_fit expf order O d fuel g attr sp (repeat t w) max_it entropy labels0 ls r = Raise e <->
             maxp_azp_fit expf order O d fuel g attr sp [t] max_it entropy labels0 ls' r = Raise e).
Proof.
  intros Hw Hs Hls. apply (C126_maxp 1 g O O attr attr order eq_refl Hsym Hord (scaled_refl _ _ _) expf d d); auto.
  - apply distances_refl.
  - apply (one_threshold_same sp t w (gn g)); auto.
Qed.
(** Several thresholds for one attribute mean that attribute once per threshold. *)
Theorem C127_several_numbers sp thr fuel max_it entropy labels0 ls ls' r : (0 < length thr)%nat -> shaped sp [0%Q] (gn g) ->
  match ls, ls' with Some s, Some s' => alike 1 s s' | None, None => True | _, _ => False end ->
  (forall labels r', (exists s1, maxp_azp_fit expf order O d fuel g attr (copies (length thr) sp) thr max_it entropy labels0 ls r = Ok (labels, s1, r')) <->
                     (exists s1, maxp_azp_fit expf order O d fuel g attr sp thr max_it entropy labels0 ls' r = Ok (labels, s1, r'))) /\
  (forall e, maxp_azp_fit expf order O d fuel g attr (copies (length thr) sp) thr max_it entropy labels0 ls r = Raise e <->
             maxp_azp_fit expf order O d fuel g attr sp thr max_it entropy labels0 ls' r = Raise e).
Proof.
  intros Hw Hs Hls. apply (C126_maxp 1 g O O attr attr order eq_refl Hsym Hord (scaled_refl _ _ _) expf d d); auto.
  - apply copies_shaped. auto.
  - apply distances_refl.
  - apply (several_thresholds_same sp thr (gn g)); auto.
Qed.

(** Hence, for a new object: a result has every total of every region at or above the number; ... *)
Theorem C127_one_number_met sp t w fuel max_it entropy labels0 r labels ls' r' : (0 < w)%nat -> shaped sp (repeat t w) (gn g) -> non_negative sp ->
  0 < max_it -> maxp_azp_fit expf order O d fuel g attr sp [t] max_it entropy labels0 None r = Ok (labels, ls', r') ->
  exists p l, labels = Some l /\ feasible g l p /\ forall z k, In z l -> k < w -> (t <= total sp l z k)%Q.
Proof.
  intros Hw Hs Hn Hit H. pose proof (C127_one_number sp t w fuel max_it entropy labels0 None None r Hw Hs Logic.I) as [H1 _].
  destruct (proj2 (H1 labels r') (ex_intro _ ls' H)) as [s1 Hs1].
  destruct (C35_maxp_valid _ _ _ _ _ _ _ _ _ _ _ _ _ _ _ _ _ Hord Hsym Hloop Hs Hn Hit Hs1) as [runs [p [l [-> [_ [_ [_ [Hf Hm]]]]]]]].
  exists p, l. split; [auto|]. split; [auto|]. intros z k Hz Hk. apply (Hm z Hz k). rewrite (nth_error_nth' _ 0%Q) by (rewrite repeat_length; auto).
  rewrite (nth_indep _ 0%Q t) by (rewrite repeat_length; auto). rewrite nth_repeat. auto.
Qed.
(** ... with several numbers for one attribute every region reaches all of them; ... *)
Lemma total_copies w sp l z k : k < w -> (forall x, In x sp -> length x = 1) -> (total (copies w sp) l z k == total sp l z 0)%Q.
Proof.
  intros Hk Hs. unfold total. apply sumQ_ext. intros a _. destruct (Z.eqb _ _); [|reflexivity]. unfold copies.
  destruct (Nat.lt_ge_cases a (length sp)) as [Ha|Ha].
  - rewrite (nth_indep _ [] (spread w [])) by (rewrite map_length; auto). rewrite map_nth.
    pose proof (Hs _ (nth_In sp [] Ha)) as Hl. destruct (nth a sp []) as [|v [|v2 x]]; cbn in Hl; try lia. cbn [spread nth].
    rewrite (nth_indep _ 0%Q v) by (rewrite repeat_length; auto). rewrite nth_repeat. reflexivity.
  - rewrite !nth_overflow by (cbn; try rewrite nth_overflow; try rewrite map_length; cbn; auto; lia). reflexivity.
Qed.
Theorem C127_several_numbers_met sp thr fuel max_it entropy labels0 r labels ls' r' : (0 < length thr)%nat -> shaped sp [0%Q] (gn g) -> non_negative sp ->
  0 < max_it -> maxp_azp_fit expf order O d fuel g attr sp thr max_it entropy labels0 None r = Ok (labels, ls', r') ->
  exists p l, labels = Some l /\ feasible g l p /\ forall z t, In z l -> In t thr -> (t <= total sp l z 0)%Q.
Proof.
  intros Hw Hs Hn Hit H. pose proof (C127_several_numbers sp thr fuel max_it entropy labels0 None None r Hw Hs Logic.I) as [H1 _].
  destruct (proj2 (H1 labels r') (ex_intro _ ls' H)) as [s1 Hs1].
  assert (Hn' : non_negative (copies (length thr) sp)).
  { intros x q Hx Hq. unfold copies in Hx. apply in_map_iff in Hx. destruct Hx as [y [<- Hy]]. apply (Hn y q Hy).
    destruct y as [|v [|v2 y]]; cbn [spread] in Hq; auto. apply repeat_spec in Hq. subst. left. auto. }
  destruct (C35_maxp_valid _ _ _ _ _ _ _ _ _ _ _ _ _ _ _ _ _ Hord Hsym Hloop (copies_shaped sp thr _ Hs) Hn' Hit Hs1) as [runs [p [l [-> [_ [_ [_ [Hf Hm]]]]]]]].
  exists p, l. split; [auto|]. split; [auto|]. intros z t Hz Ht. apply In_nth_error in Ht. destruct Ht as [k Hk].
  rewrite <- (total_copies (length thr) sp l z k); [apply (Hm z Hz k t Hk)|apply nth_error_Some; congruence|apply Hs].
Qed.
(** ... and a fit returns exactly if every island reaches the number in each attribute. *)
Theorem C127_one_number_fails_iff sp t w : (0 < w)%nat -> shaped sp (repeat t w) (gn g) -> non_negative sp -> exact_on O attr ->
  ((forall v isl k, v < gn g -> island g v isl -> k < w -> (t <= total_in sp isl k)%Q) ->
   exists bound, forall fuel max_it entropy labels0 r, bound <= fuel -> 0 < max_it ->
     exists l ls' r', maxp_azp_fit expf order O d fuel g attr sp [t] max_it entropy labels0 None r = Ok (Some l, ls', r')) /\
  (forall v isl k, v < gn g -> island g v isl -> k < w -> (total_in sp isl k < t)%Q -> forall fuel max_it entropy labels0 r, 0 < max_it ->
     exists m, maxp_azp_fit expf order O d fuel g attr sp [t] max_it entropy labels0 None r = Raise (ValueError m)).
Proof.
  intros Hw Hs Hn Hex. destruct (C36_maxp_fails_iff expf order O d g attr sp (repeat t w) Hord Hsym Hloop Hs Hn Hattr Hex) as [H1 H2]. split.
  - intros Hi. destruct H1 as [b Hb].
    { intros v isl Hv Hisl k q Hk. assert (Hkw : k < w) by (rewrite <- (repeat_length t w); apply nth_error_Some; congruence).
      apply nth_error_In, repeat_spec in Hk. subst q. eapply Hi; eauto. }
    exists b. intros fuel max_it entropy labels0 r Hf Hit. destruct (Hb fuel max_it entropy labels0 None r Hf Hit Logic.I) as [l [ls' [r' H]]].
    destruct (proj1 (proj1 (C127_one_number sp t w fuel max_it entropy labels0 None None r Hw Hs Logic.I) (Some l) r') (ex_intro _ ls' H)) as [s1 Hs1]. eauto.
  - intros v isl k Hv Hisl Hk Hlt fuel max_it entropy labels0 r Hit.
    destruct (H2 v isl Hv Hisl) with (fuel := fuel) (max_it := max_it) (entropy := entropy) (labels0 := labels0) (ls := @None strategy) (r := r) as [m Hm]; [|auto|].
    + intros Hm. assert (Hnth : nth_error (repeat t w) k = Some t).
      { rewrite (nth_error_nth' _ t) by (rewrite repeat_length; auto). rewrite nth_repeat. auto. }
      specialize (Hm k t Hnth). lra.
    + exists m. apply (C127_one_number sp t w fuel max_it entropy labels0 None None r Hw Hs Logic.I). exact Hm.
Qed.
End Heuristic.

(** MaxPRegionsExact: a number gives the same program as an array repeating it, ... *)
Theorem C127_exact_one_number g sp t a :
  maxp_ok g sp (TReal t) a <-> maxp_ok g sp (TArray (repeat t (length (nth 0 sp [])))) a.
Proof.
  unfold maxp_ok. cbn [bound].
  assert (E : forall el, (el < length (nth 0 sp []))%nat -> nth_error (repeat t (length (nth 0 sp []))) el = Some t).
  { intros el Hel. rewrite (nth_error_nth' _ t) by (rewrite repeat_length; auto). rewrite nth_repeat. auto. }
  split; intros [H1 [H2 [H3 [H4 [H5 [H6 H7]]]]]]; do 5 (split; [assumption|]); (split; [|assumption]); intros el k q Hel Hk Hq.
  - rewrite E in Hq by auto. apply (H6 el k q); auto.
  - apply (H6 el k q); auto. rewrite E; auto.
Qed.
(** ... but unlike the heuristic it does not spread an array with one entry over several attributes, ... *)
Theorem C127_exact_one_entry_refuted table mf g attr sp t solver metric x : (1 < length (nth 0 sp []))%nat -> accepted table solver metric ->
  (0 < total_weight (gn g) (mp_weight mf attr))%Q ->
  maxp_exact_fit table mf g attr sp (TArray [t]) solver metric x = Raise IndexError.
Proof.
  intros Hl [Hs Hm] Hw. unfold maxp_exact_fit. apply metric_accepted in Hm. destruct Hm as [f ->]. cbn [bind].
  unfold check_solver. rewrite (proj2 (one_of_true _ solver)) by auto. cbn [bind].
  unfold log10_ok. rewrite (proj2 (Qltb_lt _ _)) by auto. cbn [bind threshold_build length]. rewrite (proj2 (Nat.ltb_lt _ _)) by auto. reflexivity.
Qed.
(** ... and of several thresholds for one attribute it enforces the first only. *)
Theorem C127_exact_surplus_refuted g sp t ts a : length (nth 0 sp []) = 1%nat -> (maxp_ok g sp (TArray (t :: ts)) a <-> maxp_ok g sp (TArray [t]) a).
Proof.
  intros Hl. unfold maxp_ok. rewrite Hl.
  assert (E : forall el, (el < 1)%nat -> bound (TArray (t :: ts)) el = bound (TArray [t]) el) by (intros [|el] Hel; [reflexivity|lia]).
  split; intros [H1 [H2 [H3 [H4 [H5 [H6 H7]]]]]]; do 5 (split; [assumption|]); (split; [|assumption]); intros el k q Hel Hk Hq; apply (H6 el k q); auto;
    [rewrite E|rewrite <- E]; auto.
Qed.

(** ** Examples *)
Definition sp127 : list (list Q) := [[2;1];[1;3];[1;2];[3;1]]%Q.
Example C127_one_number_example : shaped sp127 (repeat 3%Q 2) 4 /\ non_negative sp127 /\
  (exists s1 r1, maxp_azp_fit (fun _ => 0%Q) (fun l => l) (pairwise manhattan) manhattan 20 (path_graph 4) attr126 sp127 [3]%Q 2 rng0 None None rng0 =
     Ok (Some [0;0;1;1]%Z, s1, r1)) /\
  (exists s1 r1, maxp_azp_fit (fun _ => 0%Q) (fun l => l) (pairwise manhattan) manhattan 20 (path_graph 4) attr126 sp127 [3;3]%Q 2 rng0 None None rng0 =
     Ok (Some [0;0;1;1]%Z, s1, r1)) /\
  (** with a threshold for the first attribute only there would be more regions *)
  (exists l s1 r1, maxp_azp_fit (fun _ => 0%Q) (fun l => l) (pairwise manhattan) manhattan 20 (path_graph 4) attr126 sp127 [2;0]%Q 2 rng0 None None rng0 =
     Ok (Some l, s1, r1) /\ n_labels l = 3).
Proof.
  split; [split; [reflexivity|intros x Hx; cbn in Hx; intuition; subst; reflexivity]|].
  split; [intros x q Hx Hq; cbn in Hx; intuition; subst; cbn in Hq; intuition; subst; discriminate|].
  split; [do 2 eexists; vm_compute; reflexivity|]. split; [do 2 eexists; vm_compute; reflexivity|].
  do 3 eexists. split; vm_compute; reflexivity.
Qed.
Example C127_several_numbers_example : shaped [[2];[1];[1];[3]]%Q [0%Q] 4 /\
  (exists s1 r1, maxp_azp_fit (fun _ => 0%Q) (fun l => l) (pairwise manhattan) manhattan 20 (path_graph 4) attr126 [[2];[1];[1];[3]]%Q [1;3]%Q 2 rng0 None None rng0 =
     Ok (Some [0;0;1;1]%Z, s1, r1)) /\
  (exists l s1 r1, maxp_azp_fit (fun _ => 0%Q) (fun l => l) (pairwise manhattan) manhattan 20 (path_graph 4) attr126 [[2];[1];[1];[3]]%Q [1]%Q 2 rng0 None None rng0 =
     Ok (Some l, s1, r1) /\ n_labels l = 4).
Proof.
  split; [split; [reflexivity|intros x Hx; cbn in Hx; intuition; subst; reflexivity]|].
  split; [do 2 eexists; vm_compute; reflexivity|]. do 3 eexists. split; vm_compute; reflexivity.
Qed.
Example C127_exact_example : (1 < length (nth 0 sp127 []))%nat /\ accepted table0 (AStr "CBC") MNone /\
  maxp_exact_fit table0 manhattan (path_graph 4) attr126 sp127 (TArray [3%Q]) (AStr "CBC") MNone (fun _ _ _ => None) = Raise IndexError /\
  (exists l, maxp_exact_fit table0 manhattan (path_graph 4) attr126 sp127 (TReal 3%Q) (AStr "CBC") MNone (fun _ _ _ => None) = Ok l).
Proof. split; [cbn; lia|]. split; [exact accepted0|]. split; [vm_compute; reflexivity|]. eexists. vm_compute. reflexivity. Qed.

Print Assumptions C127_one_number. Print Assumptions C127_several_numbers. Print Assumptions C127_one_number_met.
Print Assumptions C127_several_numbers_met. Print Assumptions C127_one_number_fails_iff. Print Assumptions C127_exact_one_number.
Print Assumptions C127_exact_one_entry_refuted. Print Assumptions C127_exact_surplus_refuted.
