(** Property C108: the possible results of the max-p heuristic do not depend on how the areas are numbered. *)
From Verif Require Import Base Spec M_Graph P_Graph M_Util P_Base P_Util P_Forest P_Init P_Initial
  M_Objective P_Sum P_Objective M_Azp P_Azp P_Strategy P_Fit P_AzpFit M_Sa Examples Props_Objective Props_Strategy Props_Azp Props_Sa
  M_MaxP P_MaxP P_MaxP2 P_MaxP3 P_MaxP4 P_Greedy Props_MaxP Props_Greedy P_Zoning P_Names Props_Zoning P_MaxPZone Props_MaxPZone P_MaxPNames.

Lemma twins_same f h U g g' attr attr' :
  gn g' = gn g -> (forall i, i < gn g -> f i < gn g /\ h (f i) = i) -> (forall i, i < gn g -> h i < gn g /\ f (h i) = i) ->
  (forall i j, i < gn g -> j < gn g -> gadj g' i j = gadj g (f i) (f j)) ->
  (forall i, i < gn g -> nth i attr' [] = nth (f i) attr []) -> twins f h same_name same_name U U g g' attr attr'.
Proof. intros. constructor; auto. Qed.

Lemma maxp_outcome_twin O d f h g g' attr attr' sp sp' thr l :
  gn g' = gn g -> (forall i, i < gn g -> f i < gn g /\ h (f i) = i) -> (forall i, i < gn g -> h i < gn g /\ f (h i) = i) ->
  (forall i j, i < gn g -> j < gn g -> gadj g' i j = gadj g (f i) (f j)) ->
  (forall i, i < gn g -> nth i attr' [] = nth (f i) attr []) -> (forall i, i < gn g -> nth i sp' [] = nth (f i) sp []) ->
  nameless O -> length attr = gn g -> length attr' = gn g -> exact_on O attr -> exact_on O attr' ->
  maxp_outcome O d g attr sp thr l ->
  maxp_outcome O d g' attr' sp' thr (map (fun i => lab l (f i)) (seq 0 (gn g))).
Proof.
  intros Hn Hf Hh Hadj Hrow Hspr Hno Hattr Hattr' Hex Hex' [regions [rest [P [l0 [Hgr [Hab [Hio [Hl Hz]]]]]]]].
  pose proof (twins_same f h l0 g g' attr attr' Hn Hf Hh Hadj Hrow) as Htw.
  set (l0' := map (fun i => lab l0 (f i)) (seq 0 (gn g))). set (l' := map (fun i => lab l (f i)) (seq 0 (gn g))).
  assert (Hmk : forall m i, i < gn g -> lab (map (fun i => lab m (f i)) (seq 0 (gn g))) i = lab m (f i)).
  { intros m i Hi. apply lab_of_nth_error. rewrite nth_error_map, (nth_error_nth' _ 0) by (rewrite seq_length; auto).
    rewrite seq_nth by auto. reflexivity. }
  assert (Hl0 : length l0 = gn g) by apply Hio.
  assert (Hrel : lrel f same_name l0 g l0 l0').
  { split; [auto|]. split; [unfold l0'; rewrite map_length, seq_length; auto|]. split; [auto|]. intros i Hi. apply (Hmk l0 i Hi). }
  assert (Hrng : forall a, In a (concat regions ++ rest) -> a < gn g) by (destruct Hgr as [[_ [H _]] _]; intros a Ha; apply H; auto).
  assert (Hz' : forall v isl isl', v < gn g -> island g (f v) isl -> island g' v isl' ->
    exists l2 l2', one_round O attr g sp thr isl l0 l2 /\ (forall a, In a isl -> lab l a = lab l2 a) /\
      one_round O attr' g' sp' thr isl' l0' l2' /\ lrel f same_name l0 g l2 l2' /\ Permutation (map f isl') isl).
  { intros v isl isl' Hv Hi Hi'. destruct (Hf v Hv) as [Hfv _]. destruct (Hz (f v) isl Hfv Hi) as [l2 [H1 H2]].
    pose proof (twin_island _ _ _ _ _ _ _ _ _ _ Htw v isl' isl Hv Hi' Hi) as HP.
    destruct (twin_one_round f h l0 g g' attr attr' sp sp' O thr Htw Hspr Hno Hattr Hattr' Hex Hex' isl isl' HP) with (l := l0) (l2 := l2) (l' := l0')
      as [l2' [H3 H4]]; auto.
    { intros i Hin. apply Hi' in Hin. apply linked_in_r in Hin. unfold areas in Hin. lia. }
    exists l2, l2'. auto 6. }
  exists (map (map h) regions), (map h rest), (map (map h) P), l0'.
  split; [apply (greedy_maph f h l0 g g' attr attr' sp sp' d thr Htw Hspr); auto|].
  split.
  { apply (absorbed_maph f h l0 g g' attr attr' d thr Htw); auto.
    - intros R HR a Ha. apply Hrng, in_or_app. left. apply in_concat. eauto.
    - intros a Ha. apply Hrng, in_or_app. auto. }
  split.
  { split; [rewrite Hn; apply Hrel|]. intros k R' i Hk Hi. rewrite nth_error_map in Hk. destruct (nth_error P k) as [R|] eqn:E; [|discriminate].
    injection Hk as <-. apply in_map_iff in Hi. destruct Hi as [a [<- Ha]].
    assert (Hag : a < gn g).
    { assert (Hrr : forall regions enclaves regions', absorbed d g attr regions enclaves regions' ->
        (forall a, In a (concat regions ++ enclaves) -> a < gn g) -> forall a, In a (concat regions') -> a < gn g).
      { clear. induction 1 as [rs|rs es a k rest rs' HP Hk Hb _ _ IH]; intros H b Hb'; [apply H, in_or_app; auto|].
        apply IH; [|auto]. intros c Hc. apply in_app_iff in Hc. destruct Hc as [Hc|Hc].
        - apply in_concat in Hc. destruct Hc as [R [HR HcR]]. apply In_nth_error in HR. destruct HR as [j Hj]. apply nth_error_upd in Hj.
          destruct Hj as [[-> [_ ->]]|[_ Hj]].
          + apply in_app_iff in HcR. destruct HcR as [HcR|[<-|[]]].
            * apply H, in_or_app. left. apply in_concat. exists (nth k rs []). split; [apply nth_In; auto|auto].
            * apply H, in_or_app. right. rewrite HP. left; auto.
          + apply H, in_or_app. left. apply in_concat. exists R. split; [eapply nth_error_In; eauto|auto].
        - apply H, in_or_app. right. rewrite HP. right; auto. }
      apply (Hrr _ _ _ Hab Hrng). apply in_concat. exists R. split; [eapply nth_error_In; eauto|auto]. }
    destruct (Hh a Hag) as [H1 H2]. unfold l0'. rewrite Hmk, H2 by auto. apply (proj2 Hio k R); auto. }
  split; [unfold l'; rewrite map_length, seq_length; auto|].
  intros v isl' Hv Hi'. rewrite Hn in Hv. destruct (Hf v Hv) as [Hfv _].
  destruct (Hz' v (comp_nodes g (comp_label g (f v))) isl' Hv) as [l2 [l2' [_ [H2 [H3 [H4 HP]]]]]]; auto; [apply comp_nodes_island; auto|].
  exists l2'. split; [auto|]. intros i Hin. assert (Hig : i < gn g) by (apply Hi' in Hin; apply linked_in_r in Hin; unfold areas in Hin; lia).
  unfold l'. rewrite Hmk by auto. destruct H4 as [_ [_ [_ H4]]]. rewrite H4 by auto. unfold same_name. apply H2. rewrite <- HP. apply in_map; auto.
Qed.

(** Numbering the areas differently changes the possible results in the same way; the numbers of the regions do
    not change. *)
Theorem C108_maxp_numbers expf expf' order order' O d g g' attr attr' sp sp' thr f fuel fuel' max_it max_it' labels0 labels0' ls ls' l' :
  (forall l, Permutation (order l) l) -> (forall l, Permutation (order' l) l) -> symmetric g -> no_self_loops g ->
  shaped sp thr (gn g) -> non_negative sp -> length attr = gn g -> exact_on O attr -> nameless O ->
  renumbered f g attr g' attr' -> renumbered f g sp g' sp' ->
  0 < max_it -> 0 < max_it' -> gn g + 1 < fuel -> gn g + 1 < fuel' -> fresh_search sp thr ls -> fresh_search sp' thr ls' ->
  ((exists r entropy s r', maxp_azp_fit expf' order' O d fuel' g' attr' sp' thr max_it' entropy labels0' ls' r = Ok (Some l', s, r')) <->
   (exists l, relabelled f (fun z => z) l l' /\
      exists r entropy s r', maxp_azp_fit expf order O d fuel g attr sp thr max_it entropy labels0 ls r = Ok (Some l, s, r'))).
Proof.
  intros Hord Hord' Hsym Hloop Hsh Hpos Hattr Hex Hno [Hn [Hla [Hf [Hinj [Hadj Hrow]]]]] [_ [Hls [_ [_ [_ Hspr]]]]] Hit Hit' Hfu Hfu' Hfr Hfr'.
  destruct (inv_of_spec (gn g) f Hf Hinj) as [Hi1 Hi2]. set (h := inv_of (gn g) f) in *.
  assert (Hback : forall (m m' : list (list Q)), length m = gn g -> length m' = length m -> (forall i, i < gn g -> nth i m' [] = nth (f i) m []) ->
    forall x, In x m' -> In x m).
  { intros m m' Hm Hm' Hr x Hx. apply (In_nth _ _ []) in Hx. destruct Hx as [i [Hi <-]]. rewrite Hr by lia. apply nth_In. rewrite Hm. apply Hf. lia. }
  assert (Hsym' : symmetric g') by (intros u v Hu Hv; rewrite Hn in Hu, Hv; rewrite !Hadj by auto; apply Hsym; auto).
  assert (Hloop' : no_self_loops g') by (intros u Hu; rewrite Hn in Hu; rewrite Hadj by auto; apply Hloop; auto).
  pose proof Hsh as [Hsl Hsw].
  assert (Hsh' : shaped sp' thr (gn g')) by (split; [lia|]; intros x Hx; apply Hsw, (Hback sp sp'); auto).
  assert (Hpos' : non_negative sp') by (intros x q Hx Hq; apply (Hpos x q); [apply (Hback sp sp'); auto|auto]).
  assert (Hattr' : length attr' = gn g) by lia.
  assert (Hex' : exact_on O attr') by (intros rows Hrows; apply Hex; intros x Hx; apply (Hback attr attr'); auto).
  rewrite (C107_maxp_outcomes expf' order' O d g' attr' sp' thr Hord' Hsym' Hloop' Hsh' Hpos' ltac:(lia) Hex' fuel' max_it' labels0' ls' l' Hit'
    ltac:(lia) Hfr').
  assert (Hf' : forall i, i < gn g -> f i < gn g /\ h (f i) = i) by auto.
  split.
  - intros Ho. set (l := map (fun i => lab l' (h i)) (seq 0 (gn g))).
    assert (Ho' : maxp_outcome O d g attr sp thr l).
    { unfold l. rewrite <- Hn. apply (maxp_outcome_twin O d h f g' g attr' attr sp' sp thr l'); auto; rewrite ?Hn; auto.
      - intros i j Hi Hj. destruct (Hi2 i Hi) as [H1 H2], (Hi2 j Hj) as [H3 H4]. rewrite Hadj, H2, H4 by auto. reflexivity.
      - intros i Hi. destruct (Hi2 i Hi) as [H1 H2]. rewrite Hrow, H2 by auto. reflexivity.
      - intros i Hi. destruct (Hi2 i Hi) as [H1 H2]. rewrite Hspr, H2 by auto. reflexivity. }
    exists l. split.
    + assert (Hll : length l = gn g) by (unfold l; rewrite map_length, seq_length; auto).
      split; [destruct Ho as [? [? [? [? [_ [_ [_ [H _]]]]]]]]; lia|]. intros i Hi. rewrite Hll in Hi. destruct (Hf' i Hi) as [H1 H2].
      symmetry. apply lab_of_nth_error. unfold l. rewrite nth_error_map, (nth_error_nth' _ 0) by (rewrite seq_length; auto).
      rewrite seq_nth by auto. cbn [Nat.add option_map]. rewrite H2. reflexivity.
    + apply (C107_maxp_outcomes expf order O d g attr sp thr Hord Hsym Hloop Hsh Hpos Hattr Hex fuel max_it labels0 ls l Hit Hfu Hfr). exact Ho'.
  - intros [l [[Hll Hlab] Hr]].
    apply (C107_maxp_outcomes expf order O d g attr sp thr Hord Hsym Hloop Hsh Hpos Hattr Hex fuel max_it labels0 ls l Hit Hfu Hfr) in Hr.
    assert (Hl : length l = gn g) by (destruct Hr as [? [? [? [? [_ [_ [_ [H _]]]]]]]]; lia).
    assert (E : l' = map (fun i => lab l (f i)) (seq 0 (gn g))).
    { apply list_of_labs; [rewrite map_length, seq_length; lia|]. intros i Hi. rewrite Hlab by lia. symmetry. apply lab_of_nth_error.
      rewrite nth_error_map, (nth_error_nth' _ 0) by (rewrite seq_length; lia). rewrite seq_nth by lia. reflexivity. }
    rewrite E. apply (maxp_outcome_twin O d f h g g' attr attr' sp sp' thr l); auto.
Qed.

(** ** Example *)
Local Notation att := (map (fun q => [q])).
Definition shuffled (i : nat) : nat := (2 * i) mod 5.
Definition shuffled_path : graph := mkG 5 (fun i j => gadj (path_graph 5) (shuffled i) (shuffled j)).
(** The path of C107's example with its areas numbered 0, 3, 1, 4, 2: what is possible for the path is possible for
    this graph, with the labels in the order of the new numbers, and a result with a region of one area is not. *)
Example C108_example : renumbered shuffled (path_graph 5) (att [0;3;5;6;6]%Q) shuffled_path (att [0;5;6;3;6]%Q) /\
  renumbered shuffled (path_graph 5) (repeat [1%Q] 5) shuffled_path (repeat [1%Q] 5) /\ nameless (pairwise manhattan) /\
  (exists r entropy s r', maxp_azp_fit expd same_order (pairwise manhattan) manhattan 20 shuffled_path (att [0;5;6;3;6]%Q) (repeat [1%Q] 5) [2%Q]
     3 entropy None None r = Ok (Some [0;1;1;0;1]%Z, s, r')) /\
  ~ (exists r entropy s r', maxp_azp_fit expd same_order (pairwise manhattan) manhattan 20 shuffled_path (att [0;5;6;3;6]%Q) (repeat [1%Q] 5) [2%Q]
     3 entropy None None r = Ok (Some [0;1;1;1;1]%Z, s, r')).
Proof.
  assert (Hex : exact_on (pairwise manhattan) (att [0;3;5;6;6]%Q)) by (apply pairwise_exact_on; [apply manhattan_sym|apply manhattan_zero]).
  destruct (all_ones 5) as [Hsh Hpos].
  assert (Hren : forall m m', length m' = length m -> (forall i, i < 5 -> nth i m' [] = nth (shuffled i) m []) ->
    renumbered shuffled (path_graph 5) m shuffled_path m').
  { intros m m' Hm Hr. split; [reflexivity|]. split; [auto|]. cbn [gn path_graph]. split; [|split; [|split; [reflexivity|auto]]].
    - intros i Hi. unfold shuffled. apply Nat.mod_upper_bound. lia.
    - intros i j Hi Hj. do 5 (destruct i as [|i]; [do 5 (destruct j as [|j]; [vm_compute; congruence|]); lia|]). lia. }
  assert (H1 : renumbered shuffled (path_graph 5) (att [0;3;5;6;6]%Q) shuffled_path (att [0;5;6;3;6]%Q)).
  { apply Hren; [reflexivity|]. intros i Hi. do 5 (destruct i as [|i]; [reflexivity|]). lia. }
  assert (H2 : renumbered shuffled (path_graph 5) (repeat [1%Q] 5) shuffled_path (repeat [1%Q] 5)).
  { apply Hren; [reflexivity|]. intros i Hi. do 5 (destruct i as [|i]; [reflexivity|]). lia. }
  assert (Hno : nameless (pairwise manhattan)) by (apply pairwise_nameless, manhattan_sym).
  assert (Hiff := fun l' => C108_maxp_numbers expd expd same_order same_order (pairwise manhattan) manhattan (path_graph 5) shuffled_path
    (att [0;3;5;6;6]%Q) (att [0;5;6;3;6]%Q) (repeat [1%Q] 5) (repeat [1%Q] 5) [2%Q] shuffled 20 20 1 3 None None None None l'
    same_order_perm same_order_perm (path_symmetric 5) (path_no_self_loops 5) Hsh Hpos eq_refl Hex Hno H1 H2
    ltac:(lia) ltac:(lia) ltac:(cbn; lia) ltac:(cbn; lia) Logic.I Logic.I).
  split; [auto|]. split; [auto|]. split; [auto|]. split.
  - apply Hiff. exists [0;0;1;1;1]%Z. split.
    + split; [reflexivity|]. intros i Hi. cbn in Hi. do 5 (destruct i as [|i]; [reflexivity|]). lia.
    + exists (draws [1]), (draws []). eexists. eexists. vm_compute. reflexivity.
  - intros H. apply Hiff in H. destruct H as [l [[Hl Hlab] H]]. cbn in Hl.
    do 6 (destruct l as [|? l]; try discriminate Hl).
    pose proof (Hlab 0 ltac:(cbn; lia)) as E0. pose proof (Hlab 1 ltac:(cbn; lia)) as E1. pose proof (Hlab 2 ltac:(cbn; lia)) as E2.
    pose proof (Hlab 3 ltac:(cbn; lia)) as E3. pose proof (Hlab 4 ltac:(cbn; lia)) as E4. vm_compute in E0, E1, E2, E3, E4. rewrite <- E0, <- E1, <- E2, <- E3, <- E4 in H.
    destruct (C107_example 1 ltac:(lia)) as [_ [_ [_ [_ [_ [_ [_ Hnot]]]]]]]. apply Hnot.
    destruct H as [r [entropy [s [r' H]]]].
    eapply C107_maxp_sound in H; eauto using same_order_perm, path_symmetric, path_no_self_loops. exact Logic.I.
Qed.

Print Assumptions C108_maxp_numbers.
