(** Property theorems C130: neighbour relations that are not mutual (a lists b as a neighbour, b does
    not list a), as given by k-nearest-neighbour weights. *)
From Verif Require Import Base Spec M_Graph P_Graph M_Util P_Base P_Util P_Forest P_Init P_Initial
  M_Objective P_Sum P_Objective M_Azp P_Azp P_Strategy P_Fit P_AzpFit Examples Props_Objective Props_Azp
  M_Sa P_Sa M_Tabu P_Tabu P_TabuFit P_Reactive Props_Tabu P_OneSided.

Local Notation att := (map (fun q : Q => [q])).

Lemma loose_assembled g l0 labels : wf g l0 -> length labels = gn g ->
  (forall c, c < n_components g -> same_labels (comp_part g labels c) (comp_part g l0 c)) ->
  same_labels labels l0 /\ forall u v z, nth_error labels u = Some z -> nth_error labels v = Some z -> same_island g u v.
Proof.
  intros [Hl0 Hall0] Hlen Hs.
  assert (Hfrom : forall a z, nth_error labels a = Some z ->
    exists b, nth_error l0 b = Some z /\ comp_label g b = comp_label g a /\ b < gn g).
  { intros a z Ha. assert (Hag : a < gn g) by (apply nth_error_lt in Ha; lia).
    destruct (proj1 (comp_part_In g l0 (comp_label g a) z Hl0)) as [b [Hb [Hc E]]]; [|exists b; auto].
    apply (Hs _ (comp_label_lt g a Hag)). apply comp_part_In; eauto. }
  assert (Hto : forall a z, nth_error l0 a = Some z -> In z labels).
  { intros a z Ha. assert (Hag : a < gn g) by (apply nth_error_lt in Ha; lia).
    destruct (proj1 (comp_part_In g labels (comp_label g a) z Hlen)) as [b [Hb [Hc E]]]; [|eapply nth_error_In; eauto].
    apply (Hs _ (comp_label_lt g a Hag)). apply comp_part_In; eauto. }
  split.
  - intros z. split; intros H; apply In_nth_error in H; destruct H as [a Ha]; [|eapply Hto; eauto].
    destruct (Hfrom a z Ha) as [b [Hb _]]. eapply nth_error_In; eauto.
  - intros u v z Hu Hv. destruct (Hfrom u z Hu) as [b [Hb [Hbc Hbg]]]. destruct (Hfrom v z Hv) as [b' [Hb' [Hbc' Hbg']]].
    apply comp_label_eq; [apply nth_error_lt in Hu; lia|apply nth_error_lt in Hv; lia|].
    rewrite <- Hbc, <- Hbc'. apply (wf_region_comp g l0 z); auto. apply Hall0. eapply nth_error_In; eauto.
Qed.

Section OneSided.
Variables (order : list edge -> list edge) (O : objfun) (g : graph) (attr : list (list Q)).
Hypothesis Hord : forall l, Permutation (order l) l.
Hypothesis Hattr : length attr = gn g.

(** C130 (partial), AZP: whatever the neighbour relation, fit returns, with every area labelled, the
    regions of the start all still there and inside the islands, and no island worse than at the
    start.  Missing: the regions need not be contiguous, see the refutation. *)
Theorem C130_azp_partial expf : exact_on O attr ->
  exists bound, forall fuel p initial c0 r, bound <= fuel -> valid_request g p initial ->
    exists labels s' r' labels0,
      azp_fit expf order O fuel g attr p initial (SAzp c0) r = Ok ((labels, s'), r') /\
      start_labels g p initial labels0 /\ length labels = gn g /\ same_labels labels labels0 /\
      n_labels labels = Z.to_nat p /\
      (forall u v z, nth_error labels u = Some z -> nth_error labels v = Some z -> same_island g u v) /\
      forall v isl, v < gn g -> island g v isl ->
        exists x y, objective_at O attr isl labels0 = Ok x /\ objective_at O attr isl labels = Ok y /\ (y <= x)%Q.
Proof.
  intros Hex. exists (S (gn g ^ gn g + gn g + 1)). intros fuel p initial c0 r Hf Hv.
  pose proof (azp_fit_loose expf O attr g Hattr Hex False order fuel p initial c0 r Hord (valid_good _ _ _ Hv) ltac:(right; lia)) as Hp.
  apply post_total in Hp. destruct Hp as [[[labels s'] r'] [E [l0 [Hst [Hlen HR]]]]].
  exists labels, s', r', l0. split; [exact E|]. split; [apply started_start; auto|]. split; [auto|].
  pose proof Hst as [[Hl0 [Hn0 Hall0]] _].
  destruct (loose_assembled g l0 labels (conj Hl0 Hall0) Hlen) as [Hs Hi]; [intros c Hc; apply (HR c Hc)|].
  split; [auto|]. split; [rewrite <- Hn0; apply same_labels_n; auto|]. split; [auto|].
  intros v isl Hv1 His. rewrite (island_comp_nodes g v isl Hv1 His).
  destruct (HR (comp_label g v) (comp_label_lt g v Hv1)) as [_ [_ [x [y Hxy]]]]. exists x, y. exact Hxy.
Qed.

(** C130, AZPBasicTabu: with every objective the regions are contiguous; with the objectives of the
    package there are also as many as asked for. *)
Theorem C130_basic_tabu fuel tabu_length reps p initial c0 r labels c' r' :
  shape_ok g initial ->
  basic_fit order O fuel tabu_length reps g attr p initial c0 r = Ok ((labels, c'), r') ->
  length labels = gn g /\ all_contiguous g labels /\
  ((exists d, O = pairwise d /\ (forall x y, d x y == d y x)%Q /\ (forall x, d x x == 0)%Q /\ (forall x y, 0 <= d x y)%Q) \/
   (exists d center, O = centered d center sumQ) -> n_labels labels = Z.to_nat p).
Proof.
  intros Hsh H. destruct (C27_basic_tabu_contiguous order O g attr Hord Hattr _ _ _ _ _ _ _ _ _ _ Hsh H) as [Hl [Hc _]].
  split; [auto|]. split; [auto|]. intros [[d [-> [Hs [Hz Hpos]]]]|[d [center ->]]].
  - apply (C27_basic_tabu_feasible_pairwise order g attr Hord Hattr d Hs Hz Hpos _ _ _ _ _ _ _ _ _ _ Hsh H).
  - apply (C27_basic_tabu_feasible_center order g attr Hord Hattr _ _ _ _ _ _ _ _ _ _ _ _ Hsh H).
Qed.

(** C130, AZPReactiveTabu on a connected area (connected when links are used either way). *)
Theorem C130_reactive_tabu max_iterations k1 k2 c0 s p initial r labels s' r' :
  n_islands g 1 -> exact_on O attr -> reactive_new max_iterations c0 = Ok s -> shape_ok g initial ->
  reactive_fit order O (Z.to_nat max_iterations) k1 k2 g attr p initial s r = Ok ((labels, s'), r') ->
  feasible g labels (Z.to_nat p).
Proof. intros Hone Hex Hnew Hsh H. eapply (C30_reactive_feasible_no_worse order O g attr); eauto. Qed.
End OneSided.

(** ** Examples *)
(** 0-1, 0-2 and 2-3 are neighbours of each other; 1 lists 2, but 2 does not list 1 *)
Definition lopsided : graph :=
  mkG 4 (fun i j => existsb (fun e => Nat.eqb (fst e) i && Nat.eqb (snd e) j) [(0,1);(1,0);(0,2);(2,0);(2,3);(3,2);(1,2)]).

(** C130 refuted for AZP: region 0 takes areas 1 and 2; area 1 is still remembered as a neighbour of
    region 1 and goes back to it, although nothing joins it to area 3 any more. *)
Theorem C130_azp_refuted : exists (g : graph) (attr : list Q) (initial labels : list Z) (r : rng),
  length attr = gn g /\ feasible g initial 2 /\ n_islands g 1 /\
  (forall fuel, 40 <= fuel -> exists s' r',
    azp_fit expd same_order (pairwise manhattan) fuel g (att attr) 2 (Some initial) (SAzp dum) r = Ok ((labels, s'), r')) /\
  ~ all_contiguous g labels.
Proof.
  exists lopsided, [0;1;0;1]%Q, [0;1;1;1]%Z, [0;1;0;1]%Z, (fun _ => 0).
  split; [reflexivity|]. split; [|split; [|split]].
  - split; [reflexivity|]. split; [reflexivity|]. apply check_regions_all. vm_compute. reflexivity.
  - apply n_islands_iff. vm_compute. reflexivity.
  - intros fuel Hf. replace fuel with (40 + (fuel - 40)) by lia. generalize (fuel - 40). intros k.
    eexists _, _. vm_compute. reflexivity.
  - intros H. apply check_regions_all in H. vm_compute in H. discriminate.
Qed.

Lemma lopsided_not_symmetric : ~ symmetric lopsided.
Proof. intros H. specialize (H 1 2 ltac:(cbn; lia) ltac:(cbn; lia)). discriminate. Qed.

Lemma lopsided_valid : valid_request lopsided 2 (Some [0;1;1;1]%Z).
Proof.
  cbn. split; [lia|]. split; [|intros [H|[H|[H|[H|[]]]]]; discriminate].
  split; [reflexivity|]. split; [reflexivity|]. apply check_regions_all. vm_compute. reflexivity.
Qed.

(** the partial claim applies to the very run of the refutation: it gains, and keeps both regions *)
Example C130_azp_partial_example : exists labels s' r',
  azp_fit expd same_order (pairwise manhattan) 400 lopsided (att [0;1;0;1]%Q) 2 (Some [0;1;1;1]%Z) (SAzp dum) (fun _ => 0)
    = Ok ((labels, s'), r') /\ n_labels labels = 2 /\
  exists x y, o_call (pairwise manhattan) [0;1;1;1]%Z (att [0;1;0;1]%Q) = Ok x /\
    o_call (pairwise manhattan) labels (att [0;1;0;1]%Q) = Ok y /\ (y < x)%Q.
Proof.
  eexists _, _, _. split; [vm_compute; reflexivity|]. split; [reflexivity|].
  eexists _, _. split; [vm_compute; reflexivity|]. split; [vm_compute; reflexivity|]. vm_compute. reflexivity.
Qed.
Example C130_azp_partial_hyps : exact_on (pairwise manhattan) (att [0;1;0;1]%Q) /\ valid_request lopsided 2 (Some [0;1;1;1]%Z) /\
  ~ symmetric lopsided.
Proof. split; [apply pairwise_exact_on; [apply manhattan_sym|apply manhattan_zero]|]. split; [apply lopsided_valid|apply lopsided_not_symmetric]. Qed.

(** the same data and start with the tabu searches: the regions stay contiguous *)
Example C130_basic_tabu_example : exists labels c' r',
  basic_fit same_order (pairwise manhattan) 400 None 2 lopsided (att [0;1;0;1]%Q) 2 (Some [0;1;1;1]%Z) dum (fun _ => 0)
    = Ok ((labels, c'), r') /\ labels <> [0;1;1;1]%Z /\ all_contiguous lopsided labels /\ n_labels labels = 2.
Proof.
  eexists _, _, _. split; [vm_compute; reflexivity|]. split; [discriminate|].
  split; [apply check_regions_all; vm_compute; reflexivity|reflexivity].
Qed.
Example C130_reactive_tabu_example : exists labels s' r',
  reactive_fit same_order (pairwise manhattan) 5 2 2 lopsided (att [0;1;0;1]%Q) 2 (Some [0;1;1;1]%Z) rt_fresh (fun _ => 0)
    = Ok ((labels, s'), r') /\ labels <> [0;1;1;1]%Z /\ all_contiguous lopsided labels.
Proof.
  eexists _, _, _. split; [vm_compute; reflexivity|]. split; [discriminate|].
  apply check_regions_all; vm_compute; reflexivity.
Qed.

Print Assumptions C130_azp_partial.
Print Assumptions C130_basic_tabu.
Print Assumptions C130_reactive_tabu.
Print Assumptions C130_azp_refuted.
