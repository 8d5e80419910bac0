(** Islands one by one: C128. *)
From Verif Require Import Base Spec SpecData M_Graph M_Util M_Objective M_Azp M_Sa P_Base P_Util P_Graph P_Init P_Sum P_Objective P_Strategy P_Fit P_Azp P_AzpFit P_Starts P_Zoning
  Props_Azp Props_Descent Props_Tabu Props_Mean Props_Zoning P_Names Examples.

Lemma comp_alone g c : comp_graph g c = alone g (comp_nodes g c).
Proof. unfold comp_graph, sub_adj_matrix, alone. rewrite sub_nodes_nil. reflexivity. Qed.

(** ** zoning where all areas belong to the island *)
Section Ext.
Variables (ok ok' : list Z -> nat -> Z -> Prop) (lower lower' : list Z -> list Z -> Prop) (n : nat).
Hypothesis Hok : forall l a K, length l = n -> (ok l a K <-> ok' l a K).
Hypothesis Hlow : forall l l', length l = n -> length l' = n -> (lower l l' <-> lower' l l').
Lemma turn_ext K l l' : zone_turn ok K l l' -> length l = n -> zone_turn ok' K l l' /\ length l' = n.
Proof.
  induction 1 as [l H|l a l' H _ IH]; intros Hl.
  - split; [|auto]. apply turn_over. intros a Ha. apply (H a), Hok; auto.
  - destruct IH as [H1 H2]; [rewrite upd_length; auto|]. split; [|auto]. eapply turn_move; [apply Hok; eauto|auto].
Qed.
Lemma round_ext Ks l l' : zone_round ok Ks l l' -> length l = n -> zone_round ok' Ks l l' /\ length l' = n.
Proof.
  induction 1 as [l|K Ks l l1 l2 H _ IH]; intros Hl; [split; [constructor|auto]|].
  destruct (turn_ext K l l1 H Hl) as [H1 H2]. destruct (IH H2) as [H3 H4]. split; [econstructor; eauto|auto].
Qed.
Lemma rounds_ext regions l l' : zone_rounds ok lower regions l l' -> length l = n -> zone_rounds ok' lower' regions l l' /\ length l' = n.
Proof.
  induction 1 as [Ks l l1 HP Hr Hn|Ks l l1 l2 HP Hr Hn _ IH]; intros Hl; destruct (round_ext Ks l l1 Hr Hl) as [H1 H2].
  - split; [|auto]. eapply rounds_last; eauto. intros H. apply Hn, Hlow; auto.
  - destruct (IH H2) as [H3 H4]. split; [|auto]. eapply rounds_more; eauto. apply Hlow; auto.
Qed.
End Ext.

Section Whole.
Variables (O : objfun) (attr : list (list Q)) (h : graph).
Hypothesis Hattr : length attr = gn h.
Lemma objective_whole l : length l = gn h -> objective_at O attr (seq 0 (gn h)) l = o_call O l attr.
Proof.
  intros Hl. unfold objective_at, labels_at, rows_at. f_equal.
  - rewrite <- Hl. unfold lab. apply map_nth_seq.
  - rewrite <- Hattr. apply map_nth_seq.
Qed.
Lemma may_go_whole l a K : length l = gn h -> (may_go O attr h (seq 0 (gn h)) l a K <-> az_ok O attr h l a K).
Proof.
  intros Hl. unfold may_go, az_ok. rewrite !objective_whole by (try rewrite upd_length; auto). split; [intros [_ H]; auto|].
  intros [H1 H2]. split; [|auto]. destruct H1 as [Ha _]. apply in_seq. lia.
Qed.
Lemma lower_whole l l' : length l = gn h -> length l' = gn h -> (lower_at O attr (seq 0 (gn h)) l l' <-> az_lower O attr l l').
Proof. intros Hl Hl'. unfold lower_at, az_lower. rewrite !objective_whole by auto. tauto. Qed.
Lemma zoning_whole l l' : length l = gn h ->
  (zoning O attr h (seq 0 (gn h)) l l' <-> zone_rounds (az_ok O attr h) (az_lower O attr) (uniqueZ l) l l').
Proof.
  intros Hl. assert (Hreg : forall K, (exists a, In a (seq 0 (gn h)) /\ region l K a) <-> In K (uniqueZ l)).
  { intros K. rewrite uniqueZ_In. split; [intros [a [_ Ha]]; eapply nth_error_In; eauto|]. intros HK. apply In_nth_error in HK. destruct HK as [a Ha].
    exists a. split; [|exact Ha]. apply in_seq. apply nth_error_lt in Ha. lia. }
  split.
  - intros [regions [Hnd [Hin H]]]. apply (rounds_perm _ _ regions).
    + apply NoDup_Permutation; [auto|apply uniqueZ_NoDup|]. intros K. rewrite Hin. apply Hreg.
    + exact (proj1 (rounds_ext _ _ _ _ (gn h) may_go_whole lower_whole regions l l' H Hl)).
  - intros H. exists (uniqueZ l). split; [apply uniqueZ_NoDup|]. split; [intros K; symmetry; apply Hreg|].
    refine (proj1 (rounds_ext (az_ok O attr h) _ (az_lower O attr) _ (gn h) _ _ _ l l' H Hl)); intros; symmetry; [apply may_go_whole|apply lower_whole]; auto.
Qed.
End Whole.
Lemma only_island h v isl : connected_graph h -> v < gn h -> island h v isl -> isl = seq 0 (gn h).
Proof.
  intros [_ Hc] Hv [Hs Hin]. apply nat_sorted_ext; auto; [apply seq_sorted|]. intros a. rewrite Hin, in_seq. split.
  - intros H. assert (Ha : a < gn h) by (clear - H; induction H; auto). lia.
  - intros Ha. apply Hc; unfold areas; lia.
Qed.
Lemma zoning_length O attr h isl l l' : zoning O attr h isl l l' -> length l' = length l.
Proof.
  intros [regions [_ [_ H]]]. destruct (rounds_ext (may_go O attr h isl) (may_go O attr h isl) (lower_at O attr isl) (lower_at O attr isl) (length l)
    ltac:(tauto) ltac:(tauto) regions l l' H eq_refl) as [_ H']. exact H'.
Qed.

(** * C128: every island is treated as if it were alone *)
Section Alone.
Variables (expf : Q -> Q) (order : list edge -> list edge) (O : objfun) (attr : list (list Q)) (g : graph).
Hypothesis Hord : forall l, Permutation (order l) l.
Hypothesis Hsym : symmetric g.
Hypothesis Hattr : length attr = gn g.
Hypothesis Hex : exact_on O attr.

Lemma part_feasible initial c : wf g initial -> feasible (comp_graph g c) (comp_part g initial c) (n_labels (comp_part g initial c)).
Proof. intros Hwf. destruct (wf_part g initial c Hwf) as [H1 H2]. split; [auto|]. split; auto. Qed.

(** AZP.fit from given labels can return [labels] exactly if, for every island, AZP.fit can return this part of [labels] when it is
    given nothing but the island: its areas, the links among them, their attributes and initial labels. *)
Theorem C128_islands_alone fuel p initial c0 labels :
  valid_request g p (Some initial) -> gn g ^ gn g + gn g + 1 < fuel ->
  ((exists r s' r', azp_fit expf order O fuel g attr p (Some initial) (SAzp c0) r = Ok ((labels, s'), r')) <->
   length labels = gn g /\ forall v isl, v < gn g -> island g v isl ->
     exists r s' r', azp_fit expf order O fuel (alone g isl) (rows_at attr isl) (Z.of_nat (n_labels (labels_at initial isl)))
       (Some (labels_at initial isl)) (SAzp c0) r = Ok ((labels_at labels isl, s'), r')).
Proof.
  intros Hv Hf. rewrite (C100_azp_outcomes expf order O g attr Hord Hsym Hattr Hex fuel p initial c0 labels Hv Hf).
  pose proof Hv as [Hp [[Hl0 [Hn Hall]] Hm1]]. assert (Hwf : wf g initial) by (split; auto).
  split; intros [Hl H]; (split; [auto|]).
  - rewrite <- (parts_zoning O attr g initial labels Hwf Hl) in H.
    intros v isl Hv' Hisl. rewrite (island_comp_nodes g v isl Hv' Hisl). set (c := comp_label g v). assert (Hc : c < n_components g) by (apply comp_label_lt; auto).
    specialize (H c Hc). unfold zone_R in H. rewrite <- comp_alone.
    assert (Ha : length (rows_at attr (comp_nodes g c)) = gn (comp_graph g c)) by (unfold rows_at; rewrite map_length, comp_graph_n; auto).
    apply (C100_azp_outcomes expf order O (comp_graph g c) (rows_at attr (comp_nodes g c))); auto.
    + apply comp_symmetric; auto.
    + intros rows Hrows. apply Hex. intros x Hx. specialize (Hrows x Hx). unfold rows_at in Hrows. apply in_map_iff in Hrows.
      destruct Hrows as [a [<- Ha']]. apply nth_In. rewrite Hattr. apply (comp_nodes_lt g c). auto.
    + split; [lia|]. rewrite Nat2Z.id. split; [apply (part_feasible initial c Hwf)|]. intros Hin. unfold labels_at in Hin. apply in_map_iff in Hin.
      destruct Hin as [a [Ea Ha']]. apply Hm1. rewrite <- Ea. eapply nth_error_In. apply lab_nth_error. rewrite Hl0. apply (comp_nodes_lt g c). auto.
    + apply (fuel_comp attr); auto.
    + split; [unfold labels_at; rewrite map_length, comp_graph_n; auto|]. intros u isl' Hu Hisl'.
      rewrite (only_island _ _ _ (comp_connected g c Hc) Hu Hisl'). exists (labels_at labels (comp_nodes g c)). split; [|auto].
      apply zoning_whole; auto. unfold labels_at. rewrite map_length, comp_graph_n; auto.
  - apply (parts_zoning O attr g initial labels Hwf Hl). intros c Hc. destruct (comp_label_onto g c Hc) as [v [Hv' Ev]].
    destruct (H v (comp_nodes g c) Hv') as [r [s' [r' Hr]]]; [rewrite <- Ev; apply comp_nodes_island; auto|].
    rewrite <- comp_alone in Hr.
    assert (Ha : length (rows_at attr (comp_nodes g c)) = gn (comp_graph g c)) by (unfold rows_at; rewrite map_length, comp_graph_n; auto).
    assert (Hn0 : 0 < gn (comp_graph g c)).
    { rewrite comp_graph_n. assert (Hin : In v (comp_nodes g c)) by (apply comp_nodes_In; auto). destruct (comp_nodes g c); [destruct Hin|cbn; lia]. }
    apply (C100_azp_rounds expf order O (comp_graph g c) (rows_at attr (comp_nodes g c))) in Hr; auto.
    + destruct Hr as [l0 [Hst [Hll Hz]]]. cbn [start_labels] in Hst.
      destruct (Hz 0 (seq 0 (gn (comp_graph g c))) Hn0) as [l' [Hzo Hag]].
      { split; [apply seq_sorted|]. intros a. rewrite in_seq. destruct (comp_connected g c Hc) as [_ Hcc]. split.
        - intros Ha'. apply Hcc; unfold areas; lia.
        - intros Hli. assert (a < gn (comp_graph g c)) by (clear - Hli; induction Hli; auto). lia. }
      subst l0.
      assert (Hlen : length (labels_at initial (comp_nodes g c)) = gn (comp_graph g c)) by (unfold labels_at; rewrite map_length, comp_graph_n; auto).
      assert (El : l' = labels_at labels (comp_nodes g c)).
      { symmetry. apply list_of_labs; [rewrite (zoning_length _ _ _ _ _ _ Hzo), Hlen; auto|]. intros a Ha'. apply Hag, in_seq. lia. }
      subst l'. apply zoning_whole in Hzo; auto.
    + apply comp_symmetric; auto.
    + intros rows Hrows. apply Hex. intros x Hx. specialize (Hrows x Hx). unfold rows_at in Hrows. apply in_map_iff in Hrows.
      destruct Hrows as [a [<- Ha']]. apply nth_In. rewrite Hattr. apply (comp_nodes_lt g c). auto.
    + split; [unfold labels_at; rewrite map_length, comp_graph_n; auto|]. intros Hin. unfold labels_at in Hin. apply in_map_iff in Hin.
      destruct Hin as [a [Ea Ha']]. apply Hm1. rewrite <- Ea. eapply nth_error_In. apply lab_nth_error. rewrite Hl0. apply (comp_nodes_lt g c). auto.
Qed.
End Alone.

Lemma alone_request g p initial v isl : valid_request g p (Some initial) -> v < gn g -> island g v isl ->
  valid_request (alone g isl) (Z.of_nat (n_labels (labels_at initial isl))) (Some (labels_at initial isl)).
Proof.
  intros [Hp [[Hl0 [Hn Hall]] Hm1]] Hv Hisl. rewrite (island_comp_nodes g v isl Hv Hisl). set (c := comp_label g v). rewrite <- comp_alone.
  split; [lia|]. rewrite Nat2Z.id. split; [apply (part_feasible g initial c); split; auto|]. intros Hin. unfold labels_at in Hin. apply in_map_iff in Hin.
  destruct Hin as [a [Ea Ha']]. apply Hm1. rewrite <- Ea. eapply nth_error_In. apply lab_nth_error. rewrite Hl0. apply (comp_nodes_lt g c). auto.
Qed.
Lemma alone_symmetric g v isl : symmetric g -> v < gn g -> island g v isl -> symmetric (alone g isl).
Proof. intros H Hv Hi. rewrite (island_comp_nodes g v isl Hv Hi), <- comp_alone. apply comp_symmetric; auto. Qed.
Lemma island_lt g v isl a : v < gn g -> island g v isl -> In a isl -> a < gn g.
Proof. intros Hv [_ Hin] Ha. apply Hin in Ha. clear - Ha. induction Ha; auto. Qed.
Lemma rows_exact O attr g v isl : length attr = gn g -> exact_on O attr -> v < gn g -> island g v isl -> exact_on O (rows_at attr isl).
Proof.
  intros Ha Hex Hv Hi rows Hrows. apply Hex. intros x Hx. specialize (Hrows x Hx). unfold rows_at in Hrows. apply in_map_iff in Hrows.
  destruct Hrows as [a [<- Ha']]. apply nth_In. rewrite Ha. eapply island_lt; eauto.
Qed.
Lemma island_le g v isl : v < gn g -> island g v isl -> length isl <= gn g.
Proof.
  intros Hv Hi. rewrite (island_comp_nodes g v isl Hv Hi). unfold comp_nodes. rewrite <- (seq_length (gn g) 0) at 2. apply filter_length_le.
Qed.
Lemma island_of g v isl w : v < gn g -> island g v isl -> In w isl -> island g w isl.
Proof.
  intros Hv Hi Hw. pose proof (island_lt g v isl w Hv Hi Hw) as Hwl. rewrite (island_comp_nodes g v isl Hv Hi) in *.
  apply comp_nodes_In in Hw. destruct Hw as [_ <-]. apply comp_nodes_island; auto.
Qed.

(** What can be returned on an island is the same in any two calls that agree on the island, whatever the other areas, links, attributes
    and initial labels are. *)
Corollary C128_elsewhere expf order O g attr p initial g' attr' p' initial' fuel c0 c0' v isl :
  (forall l, Permutation (order l) l) -> nameless O ->
  symmetric g -> length attr = gn g -> exact_on O attr -> valid_request g p (Some initial) -> gn g ^ gn g + gn g + 1 < fuel ->
  symmetric g' -> length attr' = gn g' -> exact_on O attr' -> valid_request g' p' (Some initial') -> gn g' ^ gn g' + gn g' + 1 < fuel ->
  v < gn g -> v < gn g' -> island g v isl -> island g' v isl ->
  (forall a b, In a isl -> In b isl -> gadj g' a b = gadj g a b) -> (forall a, In a isl -> nth a attr' [] = nth a attr []) ->
  (forall a, In a isl -> lab initial' a = lab initial a) ->
  forall r labels s' r1, azp_fit expf order O fuel g attr p (Some initial) (SAzp c0) r = Ok ((labels, s'), r1) ->
  exists r' labels' s'' r1', azp_fit expf order O fuel g' attr' p' (Some initial') (SAzp c0') r' = Ok ((labels', s''), r1') /\
    forall a, In a isl -> lab labels' a = lab labels a.
Proof.
  intros Hord Hnl Hs Ha Hex Hv Hf Hs' Ha' Hex' Hv' Hf' Hlt Hlt' Hi Hi' Eg Er El r labels s' r1 E.
  assert (H1 : exists r s' r', azp_fit expf order O fuel g attr p (Some initial) (SAzp c0) r = Ok ((labels, s'), r')) by (do 3 eexists; exact E).
  apply (C128_islands_alone expf order O attr g Hord Hs Ha Hex fuel p initial c0 labels Hv Hf) in H1. destruct H1 as [Hl H1].
  specialize (H1 v isl Hlt Hi).
  assert (Elab : labels_at initial' isl = labels_at initial isl) by (apply map_ext_in; auto).
  assert (Erow : rows_at attr' isl = rows_at attr isl) by (apply map_ext_in; auto).
  assert (H2 : exists r s' r', azp_fit expf order O fuel (alone g' isl) (rows_at attr' isl) (Z.of_nat (n_labels (labels_at initial' isl)))
       (Some (labels_at initial' isl)) (SAzp c0') r = Ok ((labels_at labels isl, s'), r')).
  { rewrite Elab, Erow. pose proof (alone_request g p initial v isl Hv Hlt Hi) as Hva.
    assert (Hle : length isl ^ length isl + length isl + 1 < fuel).
    { rewrite (island_comp_nodes g v isl Hlt Hi). rewrite <- comp_graph_n. apply (fuel_comp attr); auto. }
    apply (C101_numbers_and_names expf expf order order O (alone g isl) (alone g' isl) (rows_at attr isl) (rows_at attr isl) (fun i => i) (fun z => z)
      fuel fuel (Z.of_nat (n_labels (labels_at initial isl))) (labels_at initial isl) (labels_at initial isl) c0 c0' (labels_at labels isl)); auto.
    - eapply alone_symmetric; eauto.
    - unfold rows_at. rewrite map_length. reflexivity.
    - eapply rows_exact; eauto.
    - split; [reflexivity|]. split; [reflexivity|]. split; [auto|]. split; [auto|]. split; [|auto]. intros i j Hii Hjj. cbn in *.
      destruct (nth_error isl i) as [a|] eqn:Ea; [|auto]. destruct (nth_error isl j) as [b|] eqn:Eb; [|auto]. apply Eg; eapply nth_error_In; eauto.
    - split; auto.
    - destruct Hva as [_ [_ H]]. exact H.
    - exists (labels_at labels isl). split; [split; auto|exact H1]. }
  destruct (C20_azp_terminates expf order O g' attr' Hord Hs' Ha' Hex') as [bound Hb].
  set (big := bound + (gn g' ^ gn g' + gn g' + 1) + 1).
  destruct (Hb big p' (Some initial') c0' (fun k => k) ltac:(unfold big; lia) Hv') as [lab0 [t [rt H3]]].
  assert (H4 : exists r s' r', azp_fit expf order O big g' attr' p' (Some initial') (SAzp c0') r = Ok ((lab0, s'), r')) by (do 3 eexists; exact H3).
  rewrite (C100_azp_outcomes expf order O g' attr' Hord Hs' Ha' Hex' big p' initial' c0' lab0 Hv') in H4 by (unfold big; lia).
  rewrite <- (C100_azp_outcomes expf order O g' attr' Hord Hs' Ha' Hex' fuel p' initial' c0' lab0 Hv' Hf') in H4.
  apply (C128_islands_alone expf order O attr' g' Hord Hs' Ha' Hex' fuel p' initial' c0' lab0 Hv' Hf') in H4. destruct H4 as [Hl0 H4].
  set (labels' := map (fun a => if existsb (Nat.eqb a) isl then lab labels a else lab lab0 a) (seq 0 (gn g'))).
  assert (Hlab : forall a, a < gn g' -> lab labels' a = if existsb (Nat.eqb a) isl then lab labels a else lab lab0 a).
  { intros a Hlta. unfold labels', lab at 1. rewrite (nth_indep _ _ (if existsb (Nat.eqb 0) isl then lab labels 0 else lab lab0 0)) by (rewrite map_length, seq_length; auto).
    rewrite (map_nth (fun a => if existsb (Nat.eqb a) isl then lab labels a else lab lab0 a)). rewrite seq_nth by auto. reflexivity. }
  assert (Hex1 : forall a, In a isl -> existsb (Nat.eqb a) isl = true) by (intros a Hin; apply existsb_exists; exists a; split; [auto|apply Nat.eqb_refl]).
  assert (H5 : exists r s' r', azp_fit expf order O fuel g' attr' p' (Some initial') (SAzp c0') r = Ok ((labels', s'), r')).
  { apply (C128_islands_alone expf order O attr' g' Hord Hs' Ha' Hex' fuel p' initial' c0' labels' Hv' Hf').
    split; [unfold labels'; rewrite map_length, seq_length; auto|]. intros w iw Hw Hiw.
    destruct (existsb (Nat.eqb w) isl) eqn:Ew.
    - apply existsb_exists in Ew. destruct Ew as [w' [Hw' Eqw]]. apply Nat.eqb_eq in Eqw. subst w'.
      pose proof (island_of g' v isl w Hlt' Hi' Hw') as Hi2. assert (iw = isl) by (rewrite (island_comp_nodes g' w iw Hw Hiw), (island_comp_nodes g' w isl Hw Hi2); auto).
      subst iw. replace (labels_at labels' isl) with (labels_at labels isl); [exact H2|]. apply map_ext_in. intros a Hin.
      rewrite Hlab by (eapply island_lt; [exact Hlt'|exact Hi'|auto]). rewrite Hex1; auto.
    - replace (labels_at labels' iw) with (labels_at lab0 iw); [apply (H4 w iw Hw Hiw)|]. apply map_ext_in. intros a Hin.
      rewrite Hlab by (eapply island_lt; [exact Hw|exact Hiw|auto]). destruct (existsb (Nat.eqb a) isl) eqn:Ea; [|auto]. exfalso.
      apply existsb_exists in Ea. destruct Ea as [a' [Ha2 Eqa]]. apply Nat.eqb_eq in Eqa. subst a'.
      pose proof (island_of g' v isl a Hlt' Hi' Ha2) as K1. pose proof (island_of g' w iw a Hw Hiw Hin) as K2.
      pose proof (island_lt g' w iw a Hw Hiw Hin) as Hal.
      assert (iw = isl) by (rewrite (island_comp_nodes g' a iw Hal K2), (island_comp_nodes g' a isl Hal K1); auto). subst iw.
      assert (Hwin : In w isl) by (rewrite (island_comp_nodes g' w isl Hw Hiw); apply comp_nodes_In; auto).
      rewrite (Hex1 w Hwin) in Ew. discriminate. }
  destruct H5 as [r' [s'' [r1' H5]]]. exists r', labels', s'', r1'. split; [exact H5|]. intros a Hin.
  rewrite Hlab by (eapply island_lt; [exact Hlt'|exact Hi'|auto]). rewrite Hex1; auto.
Qed.

(** * C129: fitting from labels that cannot be improved *)
Section Refit.
Variables (expf : Q -> Q) (order : list edge -> list edge) (O : objfun) (attr : list (list Q)) (g : graph).
Hypothesis Hord : forall l, Permutation (order l) l.
Hypothesis Hsym : symmetric g.
Hypothesis Hattr : length attr = gn g.
Hypothesis Hex : exact_on O attr.

Lemma zoning_stuck isl l l' : (forall a K, ~ may_go O attr g isl l a K) -> zoning O attr g isl l l' -> l' = l.
Proof.
  intros Hno [regions [_ [_ H]]].
  assert (Ht : forall K l1, zone_turn (may_go O attr g isl) K l l1 -> l1 = l).
  { intros K l1 H1. inversion H1; subst; auto. exfalso. eapply Hno; eauto. }
  assert (Hr : forall Ks l0 l1, zone_round (may_go O attr g isl) Ks l0 l1 -> l0 = l -> l1 = l).
  { induction 1 as [x|K Ks x x1 x2 H1 _ IH]; intros E; [auto|]. subst x. apply IH. eapply Ht; eauto. }
  inversion H as [Ks x l1 HP Hrd Hn|Ks x l1 l2 HP Hrd Hlow Hrest]; subst.
  - eapply Hr; eauto.
  - exfalso. assert (E : l1 = l) by (eapply Hr; eauto). subst l1. destruct Hlow as [x [y [E1 [E2 Hlt]]]]. rewrite E1 in E2. injection E2 as <-. lra.
Qed.

Lemma zoning_incl isl l l' : zoning O attr g isl l l' -> incl l' l.
Proof.
  intros [regions [_ [_ H]]].
  assert (Ht : forall K l0 l1, zone_turn (may_go O attr g isl) K l0 l1 -> incl l1 l0).
  { induction 1 as [x|x a x' Hm _ IH]; [apply incl_refl|]. intros z Hz. apply IH in Hz. destruct Hm as [_ [[_ [d [_ [_ [_ [b [_ [Hb _]]]]]]]] _]].
    apply In_upd in Hz. destruct Hz as [-> | Hz]; [eapply nth_error_In; eauto|auto]. }
  assert (Hr : forall Ks l0 l1, zone_round (may_go O attr g isl) Ks l0 l1 -> incl l1 l0).
  { induction 1 as [x|K Ks x x1 x2 H1 _ IH]; [apply incl_refl|]. eapply incl_tran; [exact IH|eapply Ht; eauto]. }
  clear - H Hr. induction H as [Ks x l1 HP Hrd Hn|Ks x l1 l2 HP Hrd Hlow _ IH]; [eapply Hr; eauto|]. eapply incl_tran; [exact IH|eapply Hr; eauto].
Qed.

(** If every legal move would raise the objective of its island, AZP.fit returns the initial labels. *)
Theorem C129_settled fuel p initial c0 r labels s' r' : valid_request g p (Some initial) ->
  (forall v isl a z, v < gn g -> island g v isl -> In a isl -> legal_move g initial a z ->
     exists x y, objective_at O attr isl initial = Ok x /\ objective_at O attr isl (upd initial a z) = Ok y /\ (x < y)%Q) ->
  azp_fit expf order O fuel g attr p (Some initial) (SAzp c0) r = Ok ((labels, s'), r') -> labels = initial.
Proof.
  intros [Hp [[Hl0 _] Hm1]] Hup E.
  apply (C100_azp_rounds expf order O g attr Hord Hsym Hattr Hex) in E; [|split; auto].
  destruct E as [l0 [Hst [Hl H]]]. cbn in Hst. subst l0. apply list_of_labs; [congruence|]. intros a Ha. rewrite Hl in Ha.
  destruct (H a (comp_nodes g (comp_label g a)) Ha (comp_nodes_island g a Ha)) as [l' [Hz Hag]].
  rewrite Hag by (apply comp_nodes_In; auto). f_equal. eapply zoning_stuck; [|exact Hz]. intros b K [Hb [Hleg [x [y [E1 [E2 Hle]]]]]].
  destruct (Hup a _ b K Ha (comp_nodes_island g a Ha) Hb Hleg) as [x' [y' [E1' [E2' Hlt]]]]. rewrite E1 in E1'. rewrite E2 in E2'.
  injection E1' as <-. injection E2' as <-. lra.
Qed.

(** Full statement: fitting again from the labels that a fit has returned returns the same labels.  Here: if no legal move leaves the
    objective of its island unchanged. *)
Theorem C129_refit_partial fuel p initial c0 r labels s' r' fuel2 c2 r2 labels2 s2 r2' :
  valid_request g p initial ->
  azp_fit expf order O fuel g attr p initial (SAzp c0) r = Ok ((labels, s'), r') ->
  (forall v isl a z x y, v < gn g -> island g v isl -> In a isl -> legal_move g labels a z ->
     objective_at O attr isl labels = Ok x -> objective_at O attr isl (upd labels a z) = Ok y -> ~ (x == y)%Q) ->
  azp_fit expf order O fuel2 g attr p (Some labels) (SAzp c2) r2 = Ok ((labels2, s2), r2') -> labels2 = labels.
Proof.
  intros Hv E1 Hnt E2.
  assert (Hsh : shape_ok g initial).
  { destruct initial as [l|]; [|exact I]. destruct Hv as [_ [[Hl _] Hm]]. split; auto. }
  pose proof (C18_azp_feasible strategy _ _ _ order fuel g attr p initial (SAzp c0) r labels s' r' Hsym Hord Hsh E1) as [Hfe Hp].
  assert (Hm1 : ~ In (-1)%Z labels).
  { destruct (C100_azp_rounds expf order O g attr Hord Hsym Hattr Hex fuel p initial c0 r labels s' r' Hsh E1) as [l0 [Hst [Hl H]]].
    assert (Hm0 : ~ In (-1)%Z l0 /\ length l0 = gn g).
    { destruct initial as [l|]; [cbn in Hst; subst l0; destruct Hsh; auto|]. destruct Hst as [[Hll _] Hle]. split; [|auto]. intros Hin. apply Hle in Hin. lia. }
    destruct Hm0 as [Hm0 Hll]. intros Hin. apply Hm0. apply In_nth_error in Hin. destruct Hin as [a Ha]. pose proof (nth_error_lt _ _ _ Ha) as Hlt. rewrite Hl in Hlt.
    destruct (H a (comp_nodes g (comp_label g a)) Hlt (comp_nodes_island g a Hlt)) as [l' [Hz Hag]].
    apply (zoning_incl _ _ _ Hz). rewrite <- (lab_of_nth_error _ _ _ Ha), Hag by (apply comp_nodes_In; auto).
    eapply nth_error_In. apply lab_nth_error. rewrite (zoning_length _ _ _ _ _ _ Hz), Hll. auto. }
  apply (C129_settled fuel2 p labels c2 r2 labels2 s2 r2'); [split; auto| |exact E2].
  intros v isl a z Hlt Hi Ha Hleg.
  destruct (C22_azp_local_optimum_partial expf order O g attr Hord Hsym Hattr Hex fuel p initial c0 r labels s' r' Hsh E1 v isl Hlt Hi) as [H|H]; [exfalso|auto].
  destruct H as [a' [z' [x [y [Ha' [Hleg' [Ex [Ey Eq]]]]]]]]. exact (Hnt v isl a' z' x y Hlt Hi Ha' Hleg' Ex Ey Eq).
Qed.
End Refit.

(** ** Examples *)
Local Notation att := (map (fun q : Q => [q])).
(** Islands 0-1-2 and 3-4: from 0 0 1 | 2 2 on values 0 9 10 | 3 4 the only result on the first island is 0 1 1, as it is for the
    three areas alone. *)
Example C128_example :
  valid_request two_islands 3 (Some [0;0;1;2;2]%Z) /\ exact_on (pairwise manhattan) (att [0;9;10;3;4]%Q) /\
  island two_islands 0 [0;1;2] /\ island two_islands 3 [3;4] /\
  tabu_labels (azp_fit (fun x => x) same_order (pairwise manhattan) 4000 two_islands (att [0;9;10;3;4]%Q) 3%Z (Some [0;0;1;2;2]%Z) (SAzp dum) rng0) = Some [0;1;1;2;2]%Z /\
  tabu_labels (azp_fit (fun x => x) same_order (pairwise manhattan) 4000 (alone two_islands [0;1;2]) (att [0;9;10]%Q) 2%Z (Some [0;0;1]%Z) (SAzp dum) rng0) = Some [0;1;1]%Z /\
  tabu_labels (azp_fit (fun x => x) same_order (pairwise manhattan) 4000 (alone two_islands [3;4]) (att [3;4]%Q) 1%Z (Some [2;2]%Z) (SAzp dum) rng0) = Some [2;2]%Z.
Proof.
  split; [valid_tac|]. split; [apply pairwise_exact_on; [apply manhattan_sym|apply manhattan_zero]|].
  split; [apply (comp_nodes_island two_islands 0); cbn; lia|]. split; [apply (comp_nodes_island two_islands 3); cbn; lia|].
  repeat split; vm_compute; reflexivity.
Qed.
(** C128_elsewhere: the first island again, beside another second island (values 7 1 in two regions). *)
Example C128_elsewhere_example :
  valid_request two_islands 4 (Some [0;0;1;5;3]%Z) /\ exact_on (pairwise manhattan) (att [0;9;10;7;1]%Q) /\
  tabu_labels (azp_fit (fun x => x) same_order (pairwise manhattan) 4000 two_islands (att [0;9;10;7;1]%Q) 4%Z (Some [0;0;1;5;3]%Z) (SAzp dum) rng0) = Some [0;1;1;5;3]%Z.
Proof.
  split; [valid_tac|]. split; [apply pairwise_exact_on; [apply manhattan_sym|apply manhattan_zero]|]. vm_compute. reflexivity.
Qed.

(** C129: the run of C22_azp_local_optimum_refuted; fitting from what it has returned finds better labels. *)
Theorem C129_refit_refuted :
  exists (g : graph) (attr : list (list Q)) (initial labels labels2 : list Z) (r : rng),
    symmetric g /\ length attr = gn g /\ valid_request g 3 (Some initial) /\ exact_on (pairwise manhattan) attr /\
    tabu_labels (azp_fit (fun x => x) same_order (pairwise manhattan) 300 g attr 3%Z (Some initial) (SAzp dum) r) = Some labels /\
    tabu_labels (azp_fit (fun x => x) same_order (pairwise manhattan) 300 g attr 3%Z (Some labels) (SAzp dum) r) = Some labels2 /\
    (heterogeneity (fun i j => manhattan (nth i attr []) (nth j attr [])) labels2 <
     heterogeneity (fun i j => manhattan (nth i attr []) (nth j attr [])) labels)%Q.
Proof.
  exists (path_graph 4), (att [2;1;2;2]%Q), [0;0;1;2]%Z, [0;1;1;2]%Z, [0;1;2;2]%Z, draws22.
  split; [apply path_symmetric|]. split; [reflexivity|]. split; [valid_tac|].
  split; [apply pairwise_exact_on; [apply manhattan_sym|apply manhattan_zero]|].
  split; [vm_compute; reflexivity|]. split; vm_compute; reflexivity.
Qed.
(** Five areas in a row, values 0 0 0 9 9, from 0|1 1 1 1: the result 0 0 0|1 1 has no neighbour of the same objective, and stays. *)
Example C129_example :
  tabu_labels (azp_fit (fun x => x) same_order (pairwise manhattan) 4000 (path_graph 5) (att [0;0;0;9;9]%Q) 2%Z (Some [0;1;1;1;1]%Z) (SAzp dum) rng0) = Some [0;0;0;1;1]%Z /\
  (forall v isl a z x y, v < 5 -> island (path_graph 5) v isl -> In a isl -> legal_move (path_graph 5) [0;0;0;1;1]%Z a z ->
     objective_at (pairwise manhattan) (att [0;0;0;9;9]%Q) isl [0;0;0;1;1]%Z = Ok x ->
     objective_at (pairwise manhattan) (att [0;0;0;9;9]%Q) isl (upd [0;0;0;1;1]%Z a z) = Ok y -> ~ (x == y)%Q) /\
  tabu_labels (azp_fit (fun x => x) same_order (pairwise manhattan) 4000 (path_graph 5) (att [0;0;0;9;9]%Q) 2%Z (Some [0;0;0;1;1]%Z) (SAzp dum) draws22) = Some [0;0;0;1;1]%Z.
Proof.
  split; [vm_compute; reflexivity|]. split; [|vm_compute; reflexivity].
  intros v isl a z x y Hv Hi Ha Hleg Ex Ey. rewrite (island_comp_nodes (path_graph 5) v isl Hv Hi) in *.
  assert (E5 : comp_nodes (path_graph 5) (comp_label (path_graph 5) v) = [0;1;2;3;4]) by (do 5 (destruct v as [|v]; [vm_compute; reflexivity|]); lia).
  rewrite E5 in *. listed Hleg; vm_compute in Ex; vm_compute in Ey; injection Ex as <-; injection Ey as <-; vm_compute; discriminate.
Qed.

Print Assumptions C129_settled.
Print Assumptions C129_refit_partial.
Print Assumptions C129_refit_refuted.
Print Assumptions C128_islands_alone.
Print Assumptions C128_elsewhere.
