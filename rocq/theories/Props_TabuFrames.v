(** Property C143: the tabu classes through a dict, a W and a GeoDataFrame. *)
From Verif Require Import Base Spec SpecData M_Graph P_Graph M_Util P_Base P_Util P_Forest P_Init P_Initial P_Skater
  M_Objective P_Sum P_Objective M_Azp P_Azp P_Strategy P_Fit P_AzpFit Examples Props_Objective Props_Azp M_Sa P_Sa M_Tabu
  P_Zoning P_Names Props_Tabu Props_Descent Props_Zoning P_TabuNames Props_TabuNames
  M_Convert P_Convert Props_Convert M_Frames P_Frames Props_Frames.
From Coq Require Import Permutation Sorting.Sorted.

(** The call returns an object with these labels. *)
Definition returns {St} (o : out ((list Z * St) * rng)) (labels : list Z) : Prop := exists s r, o = Ok ((labels, s), r).

(** Each [AZP…] class inherits fit_from_dict, fit_from_w and fit_from_geodataframe, which pass the matrix, the rows and
    the labels on to its own fit. *)
Section Interfaces.
Variables (names : list Z) (nbr : Z -> Z -> bool) (val : Z -> list Q) (L0 : Z -> Z).
Hypothesis Hn : NoDup names.
Hypothesis Hne : names <> [].
Hypothesis Hdim : exists m, forall k, In k names -> length (val k) = m.
Variable St : Type.
Variables (fit1 fit2 fit3 fit0 : graph -> list (list Q) -> option (list Z) -> out ((list Z * St) * rng)).
Definition agrees (fit : graph -> list (list Q) -> option (list Z) -> out ((list Z * St) * rng)) : Prop :=
  forall ids g, Permutation ids names -> shown nbr val ids g (map val ids) ->
    (forall L, returns (fit g (map val ids) (Some (map L0 ids))) (map L ids) <->
               returns (fit0 (survey_graph names nbr) (map val names) (Some (map L0 names))) (map L names)) /\
    (forall e, fit g (map val ids) (Some (map L0 ids)) = Raise e <->
               fit0 (survey_graph names nbr) (map val names) (Some (map L0 names)) = Raise e).

Lemma interfaces_agree G rook queen nb attr d0 w (gdf : geoframe G) a contiguity up :
  agrees fit1 -> agrees fit2 -> agrees fit3 ->
  Permutation up names -> StronglySorted Z.lt up ->
  dict_lists names nbr nb -> dict_gives names val attr -> dict_gives names (fun k => [L0 k]) d0 ->
  w_lists names nbr w ->
  gdf_lists rook queen names nbr gdf contiguity -> frame_gives (gf_frame gdf) a val ->
  let ids := w_ids w in let index := f_index (gf_frame gdf) in
  let by_dict := azp_fit_from_dict _ fit1 nb attr (Some d0) in
  let by_w := azp_fit_from_w _ fit2 w (map val ids) (Some (map L0 ids)) in
  let by_frame := azp_fit_from_gdf G rook queen _ fit3 gdf a (Some contiguity) (Some (map L0 index)) in
  (forall L, (returns by_dict (map L up) <-> returns by_w (map L ids)) /\
             (returns by_frame (map L index) <-> returns by_w (map L ids))) /\
  (forall e, (by_dict = Raise e <-> by_w = Raise e) /\ (by_frame = Raise e <-> by_w = Raise e)).
Proof.
  intros H1 H2 H3 Hup Hups Hnb Hat Hd0 Hw Hg Hf ids index.
  assert (Hu : uniqueZ names = up).
  { rewrite <- (sorted_uniqueZ _ Hups). apply uniqueZ_ext. intros x. split; apply Permutation_in; auto using Permutation_sym. }
  destruct (w_shown names nbr w val Hw) as [gw [Egw Hsw]]. fold ids in Hsw.
  destruct (dict_matrix_shown names nbr Hn nb val Hnb) as [gd [Egd Hsd]]. rewrite Hu in Hsd.
  destruct (gdf_w rook queen names nbr gdf contiguity Hg) as [w' [Ew [Ei Hw']]].
  destruct (w_shown names nbr w' val Hw') as [gf [Egf Hsf]]. rewrite Ei in Hsf. fold index in Hsf.
  assert (Hpi : Permutation index names) by (unfold index; rewrite <- Ei; apply Hw').
  assert (Hpw : Permutation ids names) by apply Hw.
  intros by_dict by_w by_frame.
  assert (E1 : by_dict = fit1 gd (map val up) (Some (map L0 up))).
  { unfold by_dict, azp_fit_from_dict. rewrite (sorted_keys_perm names nb (proj1 Hnb)), Egd, (labels_given names Hn Hne d0 L0 Hd0). cbn [bind].
    destruct (dict_given names Hn Hne attr val (Some (uniqueZ names)) Hat Hdim) as [-> _]; [auto|]. cbn [bind]. rewrite Hu. reflexivity. }
  assert (E2 : by_w = fit2 gw (map val ids) (Some (map L0 ids))).
  { unfold by_w, azp_fit_from_w. rewrite Egw. reflexivity. }
  assert (E3 : by_frame = fit3 gf (map val index) (Some (map L0 index))).
  { unfold by_frame, azp_fit_from_gdf. rewrite Ew. cbn [bind].
    rewrite (frame_given (gf_frame gdf) a val) by (auto; fold index; intros E; rewrite E in Hpi; apply Permutation_nil in Hpi; auto).
    cbn [bind]. unfold azp_fit_from_w. rewrite Egf. reflexivity. }
  rewrite E1, E2, E3.
  destruct (H1 up gd Hup Hsd) as [A1 B1], (H2 ids gw Hpw Hsw) as [A2 B2], (H3 index gf Hpi Hsf) as [A3 B3].
  split; [intros L; rewrite A1, A2, A3; tauto|intros e; rewrite B1, B2, B3; tauto].
Qed.
End Interfaces.

(** ** C143 *)
Section Tabu.
Variables (names : list Z) (nbr : Z -> Z -> bool) (val : Z -> list Q) (L0 : Z -> Z) (O : objfun) (p : Z).
Hypothesis Hn : NoDup names.
Hypothesis Hne : names <> [].
Hypothesis Hsym : forall i j, In i names -> In j names -> nbr i j = nbr j i.
Hypothesis Hdim : exists m, forall k, In k names -> length (val k) = m.
Hypothesis Hone : n_islands (survey_graph names nbr) 1.
Hypothesis Hex : exact_on O (map val names).
Hypothesis Hname : nameless O.
Hypothesis Hfail : nameless_failures O.
Hypothesis Hv : valid_request (survey_graph names nbr) p (Some (map L0 names)).
Hypothesis Hriv : no_rivals O (map val names) (survey_graph names nbr) (map L0 names).

(** [AZPBasicTabu(tabu_length, repetitions_before_termination)] *)
Definition basic_object (order : list edge -> list edge) (fuel : nat) (tabu_length : option nat) (reps : nat) (c : common) (r : rng)
    (adj : graph) (rows : list (list Q)) (initial : option (list Z)) :=
  basic_fit order O fuel tabu_length reps adj rows p initial c r.
(** [AZPReactiveTabu(max_iterations, k1, k2)] *)
Definition reactive_object (order : list edge -> list edge) (maxit k1 k2 : nat) (s : reactive) (r : rng)
    (adj : graph) (rows : list (list Q)) (initial : option (list Z)) :=
  reactive_fit order O maxit k1 k2 adj rows p initial s r.

Lemma basic_agrees order order0 fuel tabu_length reps c c0 r :
  agrees names nbr val L0 common (basic_object order0 fuel tabu_length reps c0 r) (basic_object order fuel tabu_length reps c r).
Proof.
  intros ids g Hp Hs. apply Permutation_sym in Hp. unfold basic_object.
  assert (Hm1 : ~ In (-1)%Z (map L0 ids)).
  { intros H. apply (In_map_perm L0 ids names) in H; [|apply Permutation_sym; auto]. destruct Hv as [_ [_ Hm]]. auto. }
  assert (Hrn := shown_renumbered names ids Hn Hp nbr val _ _ _ _ (survey_shown names nbr val) Hs).
  destruct (C116_basic_tabu_partial O (survey_graph names nbr) g (map val names) (map val ids)
    (fun i => find_in names (nth i ids 0%Z)) (fun z => z) p (map L0 names) (map L0 ids)
    (shown_symmetric nbr val names _ _ (survey_shown names nbr val) Hsym) (map_length _ _) Hone Hex Hname Hfail Hv Hrn
    (relabelled_map names ids Hp L0) (fun a b _ _ E => E) Hm1 Hriv order0 order fuel tabu_length reps c0 c r) as [A B].
  split; [|exact B]. intros L. split.
  - intros [s [r' E]]. destruct (A (map L ids) r') as [A1 _]. destruct (A1 (ex_intro _ s E)) as [l [s0 [Hl E0]]].
    apply (relabelled_map_inv names ids Hn Hp) in Hl. subst l. exists s0, r'. auto.
  - intros [s [r' E]]. destruct (A (map L ids) r') as [_ A2]. destruct A2 as [c' E'].
    + exists (map L names), s. split; [apply relabelled_map; auto|auto].
    + exists c', r'. auto.
Qed.

Lemma reactive_agrees order order0 max_iterations k1 k2 k1' k2' c c0 s s0 r r0 :
  reactive_new max_iterations c = Ok s -> reactive_new max_iterations c0 = Ok s0 -> 1 <= k1 -> 1 <= k1' ->
  agrees names nbr val L0 reactive (reactive_object order0 (Z.to_nat max_iterations) k1' k2' s0 r0) (reactive_object order (Z.to_nat max_iterations) k1 k2 s r).
Proof.
  intros Hs0 Hs1 Hk Hk' ids g Hp Hs. apply Permutation_sym in Hp. unfold reactive_object.
  assert (Hm1 : ~ In (-1)%Z (map L0 ids)).
  { intros H. apply (In_map_perm L0 ids names) in H; [|apply Permutation_sym; auto]. destruct Hv as [_ [_ Hm]]. auto. }
  assert (Hrn := shown_renumbered names ids Hn Hp nbr val _ _ _ _ (survey_shown names nbr val) Hs).
  destruct (C116_reactive_tabu_partial O (survey_graph names nbr) g (map val names) (map val ids)
    (fun i => find_in names (nth i ids 0%Z)) (fun z => z) p (map L0 names) (map L0 ids)
    (shown_symmetric nbr val names _ _ (survey_shown names nbr val) Hsym) (map_length _ _) Hone Hex Hname Hfail Hv Hrn
    (relabelled_map names ids Hp L0) (fun a b _ _ E => E) Hm1 Hriv order0 order max_iterations c0 c k1' k2' k1 k2 s0 s r0 r Hs1 Hs0 Hk' Hk) as [A B].
  split; [|exact B]. intros L. split.
  - intros [s1 [r' E]]. destruct (A (map L ids)) as [A1 _]. destruct (A1 (ex_intro _ s1 (ex_intro _ r' E))) as [l [s2 [r2 [Hl E0]]]].
    apply (relabelled_map_inv names ids Hn Hp) in Hl. subst l. exists s2, r2. auto.
  - intros [s1 [r' E]]. destruct (A (map L ids)) as [_ A2]. destruct A2 as [s2 [r2 E']].
    + exists (map L names), s1, r'. split; [apply relabelled_map; auto|auto].
    + exists s2, r2. auto.
Qed.

(** AZPBasicTabu: with the same random draws the three interfaces give every area the same label, or raise the same
    exception, however each of them orders the areas (see the refutation for what is missing: ties). *)
Theorem C143_basic_interfaces_partial G rook queen order1 order2 order3 fuel tabu_length reps c1 c2 c3 r nb attr d0 w
    (gdf : geoframe G) a contiguity up :
  Permutation up names -> StronglySorted Z.lt up ->
  dict_lists names nbr nb -> dict_gives names val attr -> dict_gives names (fun k => [L0 k]) d0 ->
  w_lists names nbr w ->
  gdf_lists rook queen names nbr gdf contiguity -> frame_gives (gf_frame gdf) a val ->
  let ids := w_ids w in let index := f_index (gf_frame gdf) in
  let by_dict := azp_fit_from_dict _ (basic_object order1 fuel tabu_length reps c1 r) nb attr (Some d0) in
  let by_w := azp_fit_from_w _ (basic_object order2 fuel tabu_length reps c2 r) w (map val ids) (Some (map L0 ids)) in
  let by_frame := azp_fit_from_gdf G rook queen _ (basic_object order3 fuel tabu_length reps c3 r) gdf a (Some contiguity) (Some (map L0 index)) in
  (forall L, (returns by_dict (map L up) <-> returns by_w (map L ids)) /\
             (returns by_frame (map L index) <-> returns by_w (map L ids))) /\
  (forall e, (by_dict = Raise e <-> by_w = Raise e) /\ (by_frame = Raise e <-> by_w = Raise e)).
Proof.
  apply (interfaces_agree names nbr val L0 Hn Hne Hdim common _ _ _ (basic_object (fun l => l) fuel tabu_length reps c1 r));
    apply basic_agrees.
Qed.

(** AZPReactiveTabu with k1 >= 1: the same whatever the draws and the parameters k1 and k2. *)
Theorem C143_reactive_interfaces_partial G rook queen order1 order2 order3 max_iterations c1 c2 c3 s1 s2 s3
    k11 k21 k12 k22 k13 k23 r1 r2 r3 nb attr d0 w (gdf : geoframe G) a contiguity up :
  reactive_new max_iterations c1 = Ok s1 -> reactive_new max_iterations c2 = Ok s2 -> reactive_new max_iterations c3 = Ok s3 ->
  1 <= k11 -> 1 <= k12 -> 1 <= k13 ->
  Permutation up names -> StronglySorted Z.lt up ->
  dict_lists names nbr nb -> dict_gives names val attr -> dict_gives names (fun k => [L0 k]) d0 ->
  w_lists names nbr w ->
  gdf_lists rook queen names nbr gdf contiguity -> frame_gives (gf_frame gdf) a val ->
  let m := Z.to_nat max_iterations in
  let ids := w_ids w in let index := f_index (gf_frame gdf) in
  let by_dict := azp_fit_from_dict _ (reactive_object order1 m k11 k21 s1 r1) nb attr (Some d0) in
  let by_w := azp_fit_from_w _ (reactive_object order2 m k12 k22 s2 r2) w (map val ids) (Some (map L0 ids)) in
  let by_frame := azp_fit_from_gdf G rook queen _ (reactive_object order3 m k13 k23 s3 r3) gdf a (Some contiguity) (Some (map L0 index)) in
  (forall L, (returns by_dict (map L up) <-> returns by_w (map L ids)) /\
             (returns by_frame (map L index) <-> returns by_w (map L ids))) /\
  (forall e, (by_dict = Raise e <-> by_w = Raise e) /\ (by_frame = Raise e <-> by_w = Raise e)).
Proof.
  intros E1 E2 E3 K1 K2 K3.
  apply (interfaces_agree names nbr val L0 Hn Hne Hdim reactive _ _ _ (reactive_object (fun l => l) (Z.to_nat max_iterations) k11 k21 s1 r1));
    eapply reactive_agrees; eauto.
Qed.
End Tabu.

(** *** Four areas 30 - 10 - 20 - 40 in a row with attributes 0, 1, 9, 7. *)
Definition rowt_val (k : Z) : list Q := [if Z.eqb k 30 then 0 else if Z.eqb k 10 then 1 else if Z.eqb k 20 then 9 else 7]%Q.
Definition rowt_attr : dict (value Q) := [(30%Z, Scalar 0%Q); (40%Z, Scalar 7%Q); (20%Z, Scalar 9%Q); (10%Z, Scalar 1%Q)].
Definition rowt_gdf : geoframe (Q * Q) :=
  mkGeo (mkFrame [20; 40; 10; 30]%Z [("size"%string, repeat 1%Q 4); ("value"%string, [9; 7; 1; 0]%Q)]) [(2, 3); (3, 4); (1, 2); (0, 1)]%Q.

Lemma rowt_given : dict_gives row_names rowt_val rowt_attr /\
  gdf_lists touching touching row_names row_nbr rowt_gdf "rook" /\ frame_gives (gf_frame rowt_gdf) (OneCol "value") rowt_val.
Proof.
  destruct row_given as [_ [[Hp _] [_ [_ [[w [Hw Hi]] _]]]]]. split; [|split].
  - split; [exact Hp|]. split; [exists false|]; intros k v H; repeat (destruct H as [E|H]; [injection E as <- <-; reflexivity|]); destruct H.
  - exists w. split; [exact Hw|exact Hi].
  - split; [intros s c [E|[E|[]]]; injection E as <- <-; reflexivity|]. split; [repeat constructor; cbn; intuition congruence|].
    exists ["value"%string]. split; [left; eexists; split; reflexivity|].
    intros i k H. do 4 (destruct i as [|i]; [injection H as <-; repeat constructor; eexists; split; [right; left; reflexivity|reflexivity]|]). destruct i; discriminate.
Qed.

Lemma rowt_rivals : no_rivals (pairwise manhattan) (map rowt_val row_names) (survey_graph row_names row_nbr) (map row_start row_names).
Proof.
  assert (H : no_rivals (pairwise manhattan) (map rowt_val row_names) (survey_graph row_names row_nbr) [0;1]%Z).
  2:{ intros l a z b y u v Hl Hin. apply H; auto. intros x Hx. apply Hin in Hx. cbn in *. tauto. }
  apply no_rivals_by_cases; [apply (shown_symmetric row_nbr rowt_val row_names _ _ (survey_shown _ _ _)), row_facts|]. intros l Hl Hwf. vm_compute in Hl.
  repeat (destruct Hl as [<-|Hl];
    [first [exfalso; destruct Hwf as [_ Hwf]; apply (proj2 (check_regions_all _ _)) in Hwf; vm_compute in Hwf; discriminate
           |intros m m' u v Hm Hm' Hne Hu Hv; vm_compute in Hm, Hm';
            repeat (destruct Hm as [<-|Hm]; [repeat (destruct Hm' as [<-|Hm'];
              [first [congruence|vm_compute in Hu, Hv; injection Hu as <-; injection Hv as <-; vm_compute; discriminate]|]);
              destruct Hm'|]); destruct Hm]|]); destruct Hl.
Qed.

(** The hypotheses of C143 are met and the three interfaces find {30, 10} and {20, 40}. *)
Example C143_example :
  let obj := basic_object (pairwise manhattan) 2 same_order 60 None 3 dum rng0 in
  let robj := fun k => reactive_object (pairwise manhattan) 2 same_order 17 k k rt_fresh (fun n => n + k) in
  n_islands (survey_graph row_names row_nbr) 1 /\ nameless_failures (pairwise manhattan) /\
  no_rivals (pairwise manhattan) (map rowt_val row_names) (survey_graph row_names row_nbr) (map row_start row_names) /\
  dict_gives row_names rowt_val rowt_attr /\ frame_gives (gf_frame rowt_gdf) (OneCol "value") rowt_val /\
  gdf_lists touching touching row_names row_nbr rowt_gdf "rook" /\
  reactive_new 17 dum = Ok rt_fresh /\
  tabu_labels (azp_fit_from_dict _ obj row_dict rowt_attr (Some row_init)) = Some (map row_found [10; 20; 30; 40]%Z) /\
  tabu_labels (azp_fit_from_w _ obj row_w (map rowt_val (w_ids row_w)) (Some (map row_start (w_ids row_w)))) = Some (map row_found (w_ids row_w)) /\
  tabu_labels (azp_fit_from_gdf _ touching touching _ obj rowt_gdf (OneCol "value") (Some "rook"%string) (Some (map row_start [20; 40; 10; 30]%Z)))
    = Some (map row_found [20; 40; 10; 30]%Z) /\
  tabu_labels (azp_fit_from_dict _ (robj 1) row_dict rowt_attr (Some row_init)) = Some (map row_found [10; 20; 30; 40]%Z) /\
  tabu_labels (azp_fit_from_w _ (robj 2) row_w (map rowt_val (w_ids row_w)) (Some (map row_start (w_ids row_w)))) = Some (map row_found (w_ids row_w)) /\
  map row_found (w_ids row_w) = [1; 0; 1; 0]%Z.
Proof.
  cbv zeta. split; [apply n_islands_iff; vm_compute; reflexivity|]. split; [apply pairwise_failures|]. split; [apply rowt_rivals|].
  split; [apply rowt_given|]. split; [apply rowt_given|]. split; [apply rowt_given|]. split; [reflexivity|].
  repeat (split; [vm_compute; reflexivity|]). vm_compute. reflexivity.
Qed.

(** *** Refuted with ties: the areas 1 - 2 - ... - 6 in a row with the values 0 0 1 9 10 10 and the regions {1,2} {3,4}
    {5,6}, in a dict and in a W that lists them from 6 to 1. *)
Definition six_names : list Z := [1; 2; 3; 4; 5; 6]%Z.
Definition six_nbr (i j : Z) : bool := Z.eqb (Z.abs (i - j)) 1.
Definition six_val (k : Z) : list Q := [if Z.leb k 2 then 0 else if Z.eqb k 3 then 1 else if Z.eqb k 4 then 9 else 10]%Q.
Definition six_start (k : Z) : Z := if Z.leb k 2 then 0%Z else if Z.leb k 4 then 1%Z else 2%Z.
Definition six_dict : dict (list Z) := [(1, [2]); (2, [1; 3]); (3, [2; 4]); (4, [3; 5]); (5, [4; 6]); (6, [5])]%Z.
Definition six_attr : dict (value Q) := [(1%Z, Scalar 0%Q); (2%Z, Scalar 0%Q); (3%Z, Scalar 1%Q); (4%Z, Scalar 9%Q); (5%Z, Scalar 10%Q); (6%Z, Scalar 10%Q)].
Definition six_init : dict (value Z) := [(1, Scalar 0); (2, Scalar 0); (3, Scalar 1); (4, Scalar 1); (5, Scalar 2); (6, Scalar 2)]%Z.
Definition six_w : wobj := mkW [6; 5; 4; 3; 2; 1]%Z (fun k => match dlookup six_dict k with Some l => l | None => [] end).

Lemma six_given : NoDup six_names /\ StronglySorted Z.lt six_names /\ dict_lists six_names six_nbr six_dict /\ dict_gives six_names six_val six_attr /\
  dict_gives six_names (fun k => [six_start k]) six_init /\ w_lists six_names six_nbr six_w.
Proof.
  split; [repeat constructor; cbn; intuition congruence|]. split; [repeat constructor|].
  split; [split; [reflexivity|intros i js H; repeat (destruct H as [E|H]; [injection E as <- <-; intros j; same_neighbours|]); destruct H]|].
  split; [split; [reflexivity|split; [exists false|]; intros k v H; repeat (destruct H as [E|H]; [injection E as <- <-; reflexivity|]); destruct H]|].
  split; [split; [reflexivity|split; [exists false|]; intros k v H; repeat (destruct H as [E|H]; [injection E as <- <-; reflexivity|]); destruct H]|].
  split; [apply Permutation_sym, (Permutation_rev six_names)|]. intros i H; repeat (destruct H as [<-|H]; [intros j; same_neighbours|]); destruct H.
Qed.

Theorem C143_tabu_interfaces_refuted :
  exists (names : list Z) (nbr : Z -> Z -> bool) (val : Z -> list Q) (L0 : Z -> Z) nb attr d0 w (L L' : Z -> Z),
    NoDup names /\ StronglySorted Z.lt names /\
    (forall i j, In i names -> In j names -> nbr i j = nbr j i) /\ n_islands (survey_graph names nbr) 1 /\
    valid_request (survey_graph names nbr) 3 (Some (map L0 names)) /\
    dict_lists names nbr nb /\ dict_gives names val attr /\ dict_gives names (fun k => [L0 k]) d0 /\ w_lists names nbr w /\
    (exists k, In k names /\ L k <> L' k) /\
    (forall r, let obj := basic_object (pairwise manhattan) 3 same_order 60 None 5 dum r in
      tabu_labels (azp_fit_from_dict _ obj nb attr (Some d0)) = Some (map L names) /\
      tabu_labels (azp_fit_from_w _ obj w (map val (w_ids w)) (Some (map L0 (w_ids w)))) = Some (map L' (w_ids w))) /\
    (forall maxit k1 k2 r, 1 <= k1 -> let obj := reactive_object (pairwise manhattan) 3 same_order (3 + maxit) k1 k2 rt_fresh r in
      tabu_labels (azp_fit_from_dict _ obj nb attr (Some d0)) = Some (map L names) /\
      tabu_labels (azp_fit_from_w _ obj w (map val (w_ids w)) (Some (map L0 (w_ids w)))) = Some (map L' (w_ids w))).
Proof.
  exists six_names, six_nbr, six_val, six_start, six_dict, six_attr, six_init, six_w,
    (fun k => if Z.leb k 3 then 0%Z else if Z.leb k 4 then 1%Z else 2%Z), (fun k => if Z.leb k 2 then 0%Z else if Z.leb k 3 then 1%Z else 2%Z).
  destruct six_given as [H1 [H2 [H3 [H4 [H5 H6]]]]].
  split; [exact H1|]. split; [exact H2|].
  split; [intros i j Hi Hj; repeat (destruct Hi as [<-|Hi]; [repeat (destruct Hj as [<-|Hj]; [reflexivity|]); destruct Hj|]); destruct Hi|].
  split; [apply n_islands_iff; vm_compute; reflexivity|]. split; [valid_tac|].
  split; [exact H3|]. split; [exact H4|]. split; [exact H5|]. split; [exact H6|].
  split; [exists 3%Z; split; [cbn; tauto|discriminate]|]. split.
  - intros r. split; vm_compute; reflexivity.
  - intros maxit k1 k2 r Hk. destruct k1 as [|k1]; [lia|]. split; vm_compute; reflexivity.
Qed.

Print Assumptions C143_basic_interfaces_partial.
Print Assumptions C143_reactive_interfaces_partial.
Print Assumptions C143_tabu_interfaces_refuted.
