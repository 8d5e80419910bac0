(** The tree model. *)
From Verif Require Import Base Spec M_Graph M_Util M_Objective M_MaxP M_Exact P_Base P_Graph P_Sum P_Objective P_MaxP P_MaxP2 P_Initial P_Mip P_Mip2 P_Order.
Local Open Scope Z_scope.

Lemma matches_feasible g p c l : partition g p c -> matches (gn g) l c -> labels_exactly l p -> p_partition g p l.
Proof.
  intros [Hb Hc] [Hl Hm] Hex. split; [|exact Hex]. split; [exact Hl|]. split; [apply labels_exactly_n; exact Hex|].
  intros z Hz. apply In_nth_error in Hz. destruct Hz as [a Ha]. assert (Han : (a < gn g)%nat) by (apply nth_error_lt in Ha; lia).
  apply (contiguous_ext g (inside g (cls c (c a)))); [|apply Hc, Hb; auto].
  intros b. unfold inside, cls, region. rewrite Nat.eqb_eq. split.
  - intros [Hbn Hcb]. apply Hm in Hcb; auto. rewrite lab_nth_error by lia. rewrite Hcb. f_equal. apply lab_of_nth_error. exact Ha.
  - intros Hbz. assert (Hbn : (b < gn g)%nat) by (apply nth_error_lt in Hbz; lia). split; [auto|]. apply Hm; auto.
    rewrite (lab_of_nth_error _ _ _ Hbz), (lab_of_nth_error _ _ _ Ha). reflexivity.
Qed.

Lemma NoDup_app_intro {A} (l m : list A) : NoDup l -> NoDup m -> (forall x, In x l -> In x m -> False) -> NoDup (l ++ m).
Proof.
  induction l as [|x l IH]; intros Hl Hm Hd; [exact Hm|]. inversion Hl as [|? ? Hx Hl']; subst. cbn [app]. constructor.
  - rewrite in_app_iff. intros [H|H]; [auto|]. apply (Hd x); [left; auto|auto].
  - apply IH; auto. intros y Hy. apply Hd. right; auto.
Qed.
Lemma NoDup_app_l {A} (l m : list A) : NoDup (l ++ m) -> NoDup l.
Proof.
  induction l as [|x l IH]; intros H; [constructor|]. cbn [app] in H. inversion H as [|? ? Hx Hl']; subst. constructor; [|auto].
  intros Hin. apply Hx. apply in_or_app. left; auto.
Qed.
Lemma concat_disjoint {A} (ls : list (list A)) : NoDup (concat ls) -> forall k k' R R' x,
  nth_error ls k = Some R -> nth_error ls k' = Some R' -> In x R -> In x R' -> k = k'.
Proof.
  induction ls as [|L ls IH]; intros Hnd k k' R R' x Hk Hk' Hx Hx'; [destruct k; discriminate|]. cbn [concat] in Hnd.
  assert (Hin : forall j S, nth_error ls j = Some S -> In x S -> In x (concat ls)).
  { intros j S Hj HS. apply in_concat. exists S. split; [eapply nth_error_In; eauto|auto]. }
  destruct k as [|k], k' as [|k']; cbn in Hk, Hk'; auto.
  - injection Hk as <-. exfalso. eapply (NoDup_app_disj L); eauto.
  - injection Hk' as <-. exfalso. eapply (NoDup_app_disj L); eauto.
  - f_equal. apply (IH (NoDup_app_r _ _ Hnd) k k' R R' x); auto.
Qed.

Section TreeSound.
Variable g : graph.
Variable p : nat.
Variable a : tree_vars.
Hypothesis Ha : tree_ok g p a.
Hypothesis Hm : (2 <= gn g - p)%nat.

Definition arc_of (i : nat) (o : option nat) : Prop :=
  match o with
  | Some j => In j (neighbors g i) /\ tr_x a i j = 1 /\ sumZ (map (fun j => tr_x a i j) (neighbors g i)) = 1
  | None => sumZ (map (fun j => tr_x a i j) (neighbors g i)) = 0
  end.

Lemma arcs_exist : exists arc, forall i, (i < gn g)%nat -> arc_of i (arc i).
Proof.
  destruct Ha as [_ [Hx [_ [_ [H5 _]]]]]. apply (finite_choice None). intros i Hi.
  assert (Hb : forall j, In j (neighbors g i) -> 0 <= tr_x a i j <= 1) by (intros j Hj; apply neighbors_In in Hj; apply Hx; tauto).
  assert (H0 : 0 <= sumZ (map (fun j => tr_x a i j) (neighbors g i))) by (apply sumZ_nonneg; intros j Hj; apply Hb; auto).
  specialize (H5 i Hi). destruct (Z.eq_dec (sumZ (map (fun j => tr_x a i j) (neighbors g i))) 0) as [E|E].
  - exists None. exact E.
  - assert (E1 : sumZ (map (fun j => tr_x a i j) (neighbors g i)) = 1) by lia.
    destruct (one_hot _ _ (filter_seq_NoDup _ _) Hb E1) as [j [Hj [Ej _]]]. exists (Some j). split; [auto|]. split; auto.
Qed.

Variable arc : nat -> option nat.
Hypothesis Harc : forall i, (i < gn g)%nat -> arc_of i (arc i).

Definition is_root (i : nat) : bool := match arc i with None => true | Some _ => false end.
Definition roots : list nat := filter is_root (seq 0 (gn g)).

Lemma roots_length : length roots = p.
Proof.
  destruct Ha as [_ [_ [_ [H4 _]]]]. rewrite sumZ_flat in H4.
  rewrite (sumZ_ext _ (fun i => 1 - b01 (is_root i))) in H4.
  - rewrite sumZ_minus, sumZ_const, seq_length in H4. unfold roots, b01 in *. rewrite sumZ_ones in H4. lia.
  - intros i Hi. apply in_seq in Hi. specialize (Harc i (proj2 Hi)). unfold is_root. destruct (arc i); cbn [arc_of] in Harc.
    + destruct Harc as [_ [_ ->]]. reflexivity.
    + rewrite Harc. reflexivity.
Qed.

Lemma arc_facts i j : (i < gn g)%nat -> arc i = Some j -> (j < gn g)%nat /\ gadj g i j = true /\ tr_x a i j = 1 /\ tr_u a i < tr_u a j /\ tr_t a i j = 1.
Proof.
  intros Hi E. specialize (Harc i Hi). rewrite E in Harc. destruct Harc as [Hj [Ex _]].
  pose proof (proj1 (neighbors_In _ _ _) Hj) as [Hjn Hadj].
  destruct Ha as [Ht [Hx [_ [_ [_ [_ [_ [H8 [H9 _]]]]]]]]]. split; [auto|]. split; [auto|]. split; [auto|]. split.
  - specialize (H9 i j Hi Hj). rewrite Ex in H9. pose proof (Hx j i Hjn Hi). nia.
  - specialize (H8 i j Hi Hj). specialize (Ht i j Hi Hjn). lia.
Qed.

Inductive chain : nat -> nat -> Prop :=
| chain_root : forall i, (i < gn g)%nat -> arc i = None -> chain i i
| chain_step : forall i j r, (i < gn g)%nat -> arc i = Some j -> chain j r -> chain i r.

Lemma chain_exists i : (i < gn g)%nat -> exists r, chain i r.
Proof.
  assert (H : forall k i, (i < gn g)%nat -> (Z.to_nat (Z.of_nat (gn g) - Z.of_nat p - tr_u a i) <= k)%nat -> exists r, chain i r).
  { induction k as [|k IH]; intros i' Hi Hk; destruct (arc i') as [j|] eqn:E; try (solve [exists i'; apply chain_root; auto]).
    - destruct (arc_facts i' j Hi E) as [Hj [_ [_ [Hu _]]]]. destruct Ha as [_ [_ [_ [_ [_ [_ [_ [_ [_ H10]]]]]]]]]. specialize (H10 j Hj). lia.
    - destruct (arc_facts i' j Hi E) as [Hj [_ [_ [Hu _]]]]. destruct Ha as [_ [_ [_ [_ [_ [_ [_ [_ [_ H10]]]]]]]]]. specialize (H10 j Hj).
      assert (Hk' : (Z.to_nat (Z.of_nat (gn g) - Z.of_nat p - tr_u a j) <= k)%nat) by lia.
      destruct (IH j Hj Hk') as [r Hr]. exists r. exact (chain_step i' j r Hi E Hr). }
  intros Hi. apply (H _ i Hi (le_n _)).
Qed.

Lemma chain_fun i r r' : chain i r -> chain i r' -> r = r'.
Proof.
  intros H. revert r'. induction H as [i Hi E|i j r Hi E Hj IH]; intros r' H'; inversion H'; subst; auto; try congruence.
  apply IH. congruence.
Qed.
Lemma chain_in_roots i r : chain i r -> In r roots.
Proof. intros H. induction H as [i Hi E|]; [|auto]. apply filter_In. split; [apply in_seq; lia|]. unfold is_root. rewrite E. reflexivity. Qed.
Lemma chain_lt i r : chain i r -> (i < gn g)%nat.
Proof. intros H. inversion H; auto. Qed.
Lemma root_chain r : In r roots -> chain r r.
Proof.
  intros H. apply filter_In in H. destruct H as [H1 H2]. apply in_seq in H1. apply chain_root; [lia|]. unfold is_root in H2.
  destruct (arc r); [discriminate|reflexivity].
Qed.

(** the relation described by t *)
Definition together (i j : nat) : Prop := i = j \/ tr_t a i j = 1.
Lemma together_sym i j : (i < gn g)%nat -> (j < gn g)%nat -> together i j -> together j i.
Proof.
  intros Hi Hj [E|E]; [left; auto|right]. destruct Ha as [_ [_ [_ [_ [_ [_ [H7 _]]]]]]]. specialize (H7 i j Hi Hj). lia.
Qed.
Lemma together_trans i j k : (i < gn g)%nat -> (j < gn g)%nat -> (k < gn g)%nat -> together i j -> together j k -> together i k.
Proof.
  intros Hi Hj Hk Hij Hjk. destruct (Nat.eq_dec i k) as [E|Hik]; [left; auto|].
  destruct Hij as [->|Hij]; [auto|]. destruct Hjk as [<-|Hjk]; [right; auto|].
  destruct (Nat.eq_dec i j) as [->|Nij]; [right; auto|]. destruct (Nat.eq_dec j k) as [<-|Njk]; [right; auto|].
  destruct Ha as [Ht [_ [_ [_ [_ [H6 [H7 _]]]]]]].
  assert (H := H6 j i k Hj Hi Hk (not_eq_sym Nij) Njk Hik). pose proof (H7 i j Hi Hj). specialize (Ht i k Hi Hk). right. lia.
Qed.
Lemma chain_together i r : chain i r -> together i r.
Proof.
  intros H. induction H as [i Hi E|i j r Hi E Hj IH]; [left; auto|].
  destruct (arc_facts i j Hi E) as [Hjn [_ [_ [_ Et]]]]. apply (together_trans i j r); auto.
  - pose proof (chain_in_roots _ _ Hj) as Hr. apply filter_In in Hr. destruct Hr as [Hr _]. apply in_seq in Hr. lia.
  - right. exact Et.
Qed.

(** tree number of an area *)
Lemma tree_classes : exists c, forall i, (i < gn g)%nat -> (c i < p)%nat /\ chain i (nth (c i) roots 0%nat).
Proof.
  apply (finite_choice 0%nat (fun i k => (k < p)%nat /\ chain i (nth k roots 0%nat))). intros i Hi.
  destruct (chain_exists i Hi) as [r Hr]. destruct (In_nth _ _ 0%nat (chain_in_roots _ _ Hr)) as [k [Hk E]].
  exists k. rewrite roots_length in Hk. split; [auto|]. rewrite E. exact Hr.
Qed.

Variable c : nat -> nat.
Hypothesis Hc : forall i, (i < gn g)%nat -> (c i < p)%nat /\ chain i (nth (c i) roots 0%nat).

Lemma roots_NoDup : NoDup roots.
Proof. apply filter_seq_NoDup. Qed.
Lemma root_inj k k' : (k < p)%nat -> (k' < p)%nat -> nth k roots 0%nat = nth k' roots 0%nat -> k = k'.
Proof. intros Hk Hk' E. pose proof roots_NoDup as H. rewrite NoDup_nth in H. rewrite <- roots_length in Hk, Hk'. apply (H k k'); auto. exact E. Qed.
Lemma class_chain i r : (i < gn g)%nat -> chain i r -> r = nth (c i) roots 0%nat.
Proof. intros Hi H. apply (chain_fun i); auto. apply Hc; auto. Qed.
Lemma class_eq i j : (i < gn g)%nat -> (j < gn g)%nat -> (c i = c j <-> exists r, chain i r /\ chain j r).
Proof.
  intros Hi Hj. destruct (Hc i Hi) as [Hci Hch]. destruct (Hc j Hj) as [Hcj Hch']. split.
  - intros E. exists (nth (c i) roots 0%nat). split; [auto|]. rewrite E. auto.
  - intros [r [H1 H2]]. apply root_inj; auto. rewrite <- (class_chain i r Hi H1), <- (class_chain j r Hj H2). reflexivity.
Qed.
Lemma class_together i j : (i < gn g)%nat -> (j < gn g)%nat -> c i = c j -> together i j.
Proof.
  intros Hi Hj E. apply class_eq in E; auto. destruct E as [r [H1 H2]].
  pose proof (chain_in_roots _ _ H1) as Hr. apply filter_In in Hr. destruct Hr as [Hr _]. apply in_seq in Hr.
  apply (together_trans i r j); auto; [lia|apply chain_together; auto|]. apply together_sym; auto; [lia|]. apply chain_together; auto.
Qed.

Lemma chain_linked i r : chain i r -> linked g (inside g (cls c (c i))) i r.
Proof.
  intros H. induction H as [i Hi E|i j r Hi E Hj IH].
  - apply linked_refl. split; [auto|apply Nat.eqb_refl].
  - destruct (arc_facts i j Hi E) as [Hjn [Hadj _]].
    assert (Ec : c j = c i). { apply class_eq; auto. exists r. split; [auto|]. exact (chain_step i j r Hi E Hj). }
    rewrite Ec in IH. apply linked_step with j; [split; [auto|apply Nat.eqb_refl]|left; auto|auto].
Qed.

Lemma tree_partition : partition g p c.
Proof.
  split; [intros i Hi; apply Hc; auto|]. intros k Hk. set (r := nth k roots 0%nat).
  assert (Hr : In r roots) by (apply nth_In; rewrite roots_length; auto). pose proof (root_chain r Hr) as Hch.
  pose proof (chain_lt _ _ Hch) as Hrn.
  assert (Ecr : c r = k). { apply root_inj; auto; [apply Hc; auto|]. symmetry. apply (class_chain r r Hrn Hch). }
  assert (Hrin : inside g (cls c k) r) by (split; [auto|apply Nat.eqb_eq; auto]).
  apply (contiguous_root g _ r Hrin). intros v [Hv1 Hv2]. apply Nat.eqb_eq in Hv2. apply linked_sym.
  rewrite <- Hv2. apply chain_linked. unfold r. rewrite <- Hv2. apply Hc; auto.
Qed.

Lemma same01_le_t i j : (i < gn g)%nat -> (j < gn g)%nat -> i <> j -> same01 c i j <= tr_t a i j.
Proof.
  intros Hi Hj Hne. unfold same01. destruct (Nat.eqb_spec (c i) (c j)) as [E|E].
  - apply class_together in E; auto. destruct E as [E|E]; [contradiction|lia].
  - destruct Ha as [Ht _]. apply Ht; auto.
Qed.

Lemma tree_same_t : tree_ok g p (mkTree (same01 c) (tr_x a) (tr_u a)).
Proof.
  destruct Ha as [Ht [Hx [Hu [H4 [H5 [H6 [H7 [H8 [H9 H10]]]]]]]]].
  split; [intros i j _ _; cbn [tr_t]; unfold same01; destruct (Nat.eqb _ _); lia|].
  do 4 (split; [assumption|]). cbn [tr_t tr_x tr_u]. split.
  { intros i j l _ _ _ _ _ _. unfold same01. destruct (Nat.eqb_spec (c i) (c j)), (Nat.eqb_spec (c i) (c l)), (Nat.eqb_spec (c j) (c l)); lia. }
  split. { intros i j _ _. unfold same01. rewrite Nat.eqb_sym. lia. }
  split.
  { intros i j Hi Hj. pose proof (proj1 (neighbors_In _ _ _) Hj) as [Hjn _]. specialize (Hx i j Hi Hjn).
    destruct (Z.eq_dec (tr_x a i j) 1) as [E1|E1]; [|assert (tr_x a i j = 0) by lia; unfold same01; destruct (Nat.eqb _ _); lia].
    assert (Earc : arc i = Some j).
    { specialize (Harc i Hi). destruct (arc i) as [j'|]; cbn [arc_of] in Harc.
      - destruct (Nat.eq_dec j' j) as [->|Hne]; [reflexivity|]. exfalso. destruct Harc as [Hj' [Ex' Es]].
        assert (Hnn : forall z, In z (neighbors g i) -> 0 <= tr_x a i z).
        { intros z Hz. apply neighbors_In in Hz. destruct Ha as [_ [Hx' _]]. apply Hx'; tauto. }
        pose proof (sumZ_two (fun j => tr_x a i j) (neighbors g i) j' j Hnn Hj' Hj Hne) as Htwo. cbv beta in Htwo. lia.
      - exfalso. assert (Hnn : forall z, In z (neighbors g i) -> 0 <= tr_x a i z).
        { intros z Hz. apply neighbors_In in Hz. destruct Ha as [_ [Hx' _]]. apply Hx'; tauto. }
        pose proof (sumZ_member (fun j => tr_x a i j) (neighbors g i) j Hnn Hj) as Hmem. cbv beta in Hmem. lia. }
    assert (Ec : c i = c j). { apply class_eq; auto. destruct (chain_exists j Hjn) as [r Hr]. exists r. split; [exact (chain_step i j r Hi Earc Hr)|auto]. }
    unfold same01. rewrite Ec, Nat.eqb_refl. lia. }
  split; assumption.
Qed.

(** ** the decoder *)
Variable ans : nat -> nat -> option Q.
Hypothesis Hans : forall i j, (i < gn g)%nat -> (j < gn g)%nat -> reports (ans i j) (tr_t a i j).

Lemma ans_together i j : (i < gn g)%nat -> (j < gn g)%nat -> i <> j -> (is_one (ans i j) = true <-> together i j).
Proof.
  intros Hi Hj Hne. rewrite (is_one_reports _ _ (Hans i j Hi Hj)). unfold together. tauto.
Qed.

Definition closed_idx (idx : list nat) : Prop :=
  NoDup idx /\ (forall i, In i idx -> (i < gn g)%nat) /\
  (forall i j, In i idx -> (j < gn g)%nat -> together i j -> In j idx).
Definition spread (S idx : list nat) : Prop :=
  NoDup S /\ incl S idx /\ forall i j, In i S -> In j S -> together i j -> i = j.

Lemma tree_regions_post k : forall idx r, closed_idx idx ->
  post (fun e => e = KeyError /\ ~ exists S, spread S idx /\ length S = k) False (tree_regions k idx ans r)
    (fun regions => length regions = k /\ NoDup (concat regions) /\ incl (concat regions) idx /\
       forall R, In R regions -> exists i, In i R /\ forall j, In j R <-> (j < gn g)%nat /\ together i j).
Proof.
  induction k as [|k IH]; intros idx r Hidx.
  - cbn. split; [auto|]. split; [constructor|]. split; [intros ? []|intros ? []].
  - cbn [tree_regions]. destruct idx as [|z0 l0] eqn:Eidx.
    + cbn [post]. split; [reflexivity|]. intros [S0 [[Hnd [Hincl _]] Hlen]]. destruct S0 as [|x S0]; [discriminate|]. destruct (Hincl x (or_introl eq_refl)).
    + rewrite <- Eidx in *. assert (Hne : idx <> []) by (rewrite Eidx; discriminate). clear Eidx z0 l0.
      destruct (pop_randomly_from_Ok idx r Hne) as [x [rest [E Hperm]]]. set (r' := rnext r) in *. rewrite E. cbn [bind].
      destruct Hidx as [Hnd [Hlt Hcl]].
      assert (Hx : In x idx) by (eapply Permutation_in; [apply Permutation_sym; exact Hperm|left; auto]).
      assert (Hrest : forall y, In y rest <-> In y idx /\ y <> x).
      { intros y. assert (Hnd2 : NoDup (x :: rest)) by (eapply Permutation_NoDup; eauto). inversion Hnd2 as [|? ? Hni _]; subst. split.
        - intros Hy. split; [eapply Permutation_in; [apply Permutation_sym; exact Hperm|right; auto]|]. intros ->. contradiction.
        - intros [Hy Hn]. assert (Hy' : In y (x :: rest)) by (eapply Permutation_in; eauto). destruct Hy' as [->|]; [contradiction|auto]. }
      assert (Hndr : NoDup rest). { assert (Hnd2 : NoDup (x :: rest)) by (eapply Permutation_NoDup; eauto). inversion Hnd2; auto. }
      set (reg := x :: filter (fun o => is_one (ans x o)) rest).
      assert (Hreg : forall j, In j reg <-> (j < gn g)%nat /\ together x j).
      { intros j. unfold reg. cbn [In]. rewrite filter_In, Hrest. split.
        - intros [<-|[[Hj Hn] H1]]; [split; [auto|left; auto]|]. split; [auto|]. apply ans_together; auto.
        - intros [Hj Ht]. destruct (Nat.eq_dec x j) as [->|Hn]; [left; auto|]. right. split; [split; [apply (Hcl x j); auto|auto]|].
          apply ans_together; auto. }
      assert (Hndreg : NoDup reg).
      { constructor; [rewrite filter_In, Hrest; tauto|apply NoDup_filter; auto]. }
      assert (Hcl' : closed_idx (set_diff rest reg)).
      { unfold set_diff. split; [apply NoDup_filter; auto|]. split.
        - intros i Hi. apply filter_In in Hi. apply Hlt. apply Hrest. tauto.
        - intros i j Hi Hj Ht. apply filter_In in Hi. destruct Hi as [Hi Hin]. apply negb_true_iff, memb_notIn in Hin.
          apply Hrest in Hi. destruct Hi as [Hi Hix].
          assert (Hjreg : ~ In j reg).
          { intros H. apply Hin. apply Hreg in H. apply Hreg. split; [auto|]. apply (together_trans x j i); auto; [tauto|].
            apply together_sym; auto. }
          apply filter_In. split; [|apply negb_true_iff, memb_notIn; auto]. apply Hrest. split; [apply (Hcl i j); auto|].
          intros ->. apply Hjreg. left; auto. }
      fold reg. eapply post_bind.
      * eapply (post_weaken _ (fun e => e = KeyError /\ ~ exists S, spread S idx /\ length S = Datatypes.S k) False False);
          [| | |apply (IH (set_diff rest reg) r' Hcl')]; [|auto|intros regions _ H; exact H].
        intros e [He Hn]. split; [auto|]. intros [S0 [[HS1 [HS2 HS3]] HS4]]. apply Hn.
        (* drop the member of S in the region just taken *)
        set (S1 := filter (fun y => negb (memb y reg)) S0).
        assert (HS1' : spread S1 (set_diff rest reg)).
        { unfold S1. split; [apply NoDup_filter; auto|]. split.
          - intros y Hy. apply filter_In in Hy. destruct Hy as [Hy1 Hy2]. apply filter_In. split; [|auto]. apply Hrest. split; [auto|].
            intros ->. apply negb_true_iff, memb_notIn in Hy2. apply Hy2. left; auto.
          - intros i j Hi Hj. apply filter_In in Hi. apply filter_In in Hj. apply HS3; tauto. }
        assert (Hlen : (k <= length S1)%nat).
        { destruct (existsb (fun y => memb y reg) S0) eqn:Ee.
          - apply existsb_exists in Ee. destruct Ee as [y [Hy Hyr]]. apply memb_In in Hyr.
            assert (Hi : incl S0 (y :: S1)).
            { intros z Hz. destruct (memb z reg) eqn:Ez.
              - left. apply memb_In in Ez. apply HS3; auto. apply Hreg in Hyr. apply Hreg in Ez.
                apply (together_trans y x z); try tauto; [apply Hlt; auto|]. apply together_sym; try tauto. apply Hlt; auto.
              - right. apply filter_In. split; [auto|]. rewrite Ez. reflexivity. }
            apply NoDup_incl_length in Hi; auto. cbn [length] in Hi. lia.
          - assert (Hi : incl S0 S1).
            { intros z Hz. apply filter_In. split; [auto|]. destruct (memb z reg) eqn:Ez; [|reflexivity].
              assert (existsb (fun y => memb y reg) S0 = true) by (apply existsb_exists; exists z; auto). congruence. }
            apply NoDup_incl_length in Hi; auto. lia. }
        exists (firstn k S1). split; [|rewrite firstn_length; lia]. destruct HS1' as [A [B C]].
        assert (Hf : forall y, In y (firstn k S1) -> In y S1) by (intros y Hy; rewrite <- (firstn_skipn k S1); apply in_or_app; left; auto).
        split; [|split].
        -- rewrite <- (firstn_skipn k S1) in A. exact (NoDup_app_l _ _ A).
        -- intros y Hy. apply B, Hf; auto.
        -- intros i j Hi Hj. apply C; auto.
      * intros regions _ [Hl [Hnd' [Hinc HR]]]. cbn [post]. split; [cbn [length]; lia|]. split.
        -- cbn [concat]. apply NoDup_app_intro; auto. intros y Hy1 Hy2. apply Hinc in Hy2. apply filter_In in Hy2.
           destruct Hy2 as [_ Hy2]. apply negb_true_iff, memb_notIn in Hy2. contradiction.
        -- split.
           ++ intros y Hy. cbn [concat] in Hy. apply in_app_or in Hy. destruct Hy as [Hy|Hy].
              ** apply Hreg in Hy. apply (Hcl x y); tauto.
              ** apply Hinc in Hy. apply filter_In in Hy. apply Hrest. tauto.
           ++ intros R [<-|HR']; [|apply HR; auto]. exists x. split; [left; auto|exact Hreg].
Qed.

Lemma seq_closed : closed_idx (seq 0 (gn g)).
Proof. split; [apply seq_NoDup|]. split; [intros i Hi; apply in_seq in Hi; lia|]. intros i j _ Hj _. apply in_seq. lia. Qed.

Lemma rt_facts i : (i < gn g)%nat -> let r := nth (c i) roots 0%nat in In r roots /\ (r < gn g)%nat /\ together i r.
Proof.
  intros Hi r. destruct (Hc i Hi) as [_ Hch]. fold r in Hch. pose proof (chain_in_roots _ _ Hch) as Hr. split; [auto|].
  pose proof Hr as Hr'. apply filter_In in Hr'. destruct Hr' as [Hr' _]. apply in_seq in Hr'. split; [lia|]. apply chain_together; auto.
Qed.

Theorem tree_decoded r : post (fun e => e = KeyError /\ exists i j, (i < gn g)%nat /\ (j < gn g)%nat /\ c i <> c j /\ together i j) False
  (tree_fit g p ans r) (fun l => matches (gn g) l c /\ labels_exactly l p).
Proof.
  unfold tree_fit. eapply post_bind.
  - eapply (post_weaken _ (fun e => e = KeyError /\ exists i j, (i < gn g)%nat /\ (j < gn g)%nat /\ c i <> c j /\ together i j) False False);
      [| | |apply (tree_regions_post p (seq 0 (gn g)) r seq_closed)]; [|auto|intros regions _ H; exact H].
    intros e [He Hn]. split; [auto|].
    (* if together implied the same tree, the roots would be spread *)
    destruct (existsb (fun i => existsb (fun j => negb (Nat.eqb (c i) (c j)) && (Nat.eqb i j || Z.eqb (tr_t a i j) 1)) (seq 0 (gn g))) (seq 0 (gn g))) eqn:E.
    + apply existsb_exists in E. destruct E as [i [Hi E]]. apply existsb_exists in E. destruct E as [j [Hj E]].
      apply in_seq in Hi. apply in_seq in Hj. apply andb_true_iff in E. destruct E as [E1 E2]. apply negb_true_iff, Nat.eqb_neq in E1.
      exists i, j. split; [lia|]. split; [lia|]. split; [auto|]. apply orb_true_iff in E2. destruct E2 as [E2|E2]; [left; apply Nat.eqb_eq; auto|right; apply Z.eqb_eq; auto].
    + exfalso. apply Hn. exists roots. split; [|apply roots_length]. split; [apply roots_NoDup|]. split; [intros x Hx; apply filter_In in Hx; tauto|].
      intros i j Hi Hj Ht. pose proof (root_chain i Hi) as Hci. pose proof (root_chain j Hj) as Hcj.
      pose proof (chain_lt _ _ Hci) as Hin. pose proof (chain_lt _ _ Hcj) as Hjn.
      assert (Ec : c i = c j).
      { destruct (Nat.eq_dec (c i) (c j)) as [|Hne]; [auto|]. exfalso. assert (true = false); [|discriminate]. rewrite <- E. symmetry.
        apply existsb_exists. exists i. split; [apply in_seq; lia|]. apply existsb_exists. exists j. split; [apply in_seq; lia|].
        apply andb_true_iff. split; [apply negb_true_iff, Nat.eqb_neq; auto|]. apply orb_true_iff. destruct Ht as [Ht|Ht]; [left; apply Nat.eqb_eq; auto|right; apply Z.eqb_eq; auto]. }
      rewrite (class_chain i i Hin Hci), (class_chain j j Hjn Hcj), Ec. reflexivity.
  - intros regions _ [Hl [Hnd [Hinc HR]]].
    (* every region contains the root of its areas *)
    assert (Hroot : forall k R i, nth_error regions k = Some R -> In i R -> In (nth (c i) roots 0%nat) R).
    { intros k R i Hk Hi. destruct (HR R (nth_error_In _ _ Hk)) as [x [Hx HRx]]. apply HRx in Hi. destruct Hi as [Hi Ht].
      destruct (rt_facts i Hi) as [_ [Hrn Htr]]. apply HRx. split; [auto|]. apply HRx in Hx. apply (together_trans x i _); tauto. }
    assert (Hdisj : forall k k' R R' i, nth_error regions k = Some R -> nth_error regions k' = Some R' -> In i R -> In i R' -> k = k').
    { intros k k' R R' i H1 H2 Hi1 Hi2. eapply concat_disjoint; eauto. }
    set (rho := fun R : list nat => nth (c (hd 0%nat R)) roots 0%nat).
    assert (Hhd : forall R, In R regions -> In (hd 0%nat R) R).
    { intros R HRin. destruct (HR R HRin) as [x [Hx _]]. destruct R; [destruct Hx|left; reflexivity]. }
    assert (Hlt : forall R i, In R regions -> In i R -> (i < gn g)%nat).
    { intros R i HRin Hi. destruct (HR R HRin) as [x [_ HRx]]. apply HRx in Hi. tauto. }
    assert (Hrho : forall R, In R regions -> In (rho R) R /\ In (rho R) roots).
    { intros R HRin. pose proof HRin as HRin'. apply In_nth_error in HRin. destruct HRin as [k Hk]. split; [apply (Hroot k R); auto|].
      apply rt_facts. apply (Hlt R); auto. }
    assert (Hndrho : NoDup (map rho regions)).
    { apply NoDup_nth_error. intros k k' Hk E. rewrite map_length in Hk. rewrite !nth_error_map in E.
      destruct (nth_error regions k) as [R|] eqn:E1; [|apply nth_error_None in E1; lia]. cbn in E.
      destruct (nth_error regions k') as [R'|] eqn:E2; [|discriminate]. cbn in E. injection E as E.
      destruct (Hrho R (nth_error_In _ _ E1)) as [H1 _]. destruct (Hrho R' (nth_error_In _ _ E2)) as [H2 _]. rewrite <- E in H2.
      eapply Hdisj; eauto. }
    assert (Hall : incl roots (map rho regions)).
    { apply NoDup_length_incl; auto.
      - rewrite map_length, roots_length. lia.
      - intros y Hy. apply in_map_iff in Hy. destruct Hy as [R [<- HRin]]. apply Hrho; auto. }
    assert (Honly : forall k R r, nth_error regions k = Some R -> In r R -> In r roots -> r = rho R).
    { intros k R y Hk Hy Hyr. apply Hall in Hyr. apply in_map_iff in Hyr. destruct Hyr as [R' [E HR']]. pose proof HR' as HR''.
      apply In_nth_error in HR'. destruct HR' as [k' Hk']. destruct (Hrho R' HR'') as [H1 _]. rewrite E in H1.
      assert (k = k') by (eapply Hdisj; eauto). subst k'. rewrite Hk in Hk'. injection Hk' as <-. auto. }
    assert (Hcover : forall i, In i (concat regions) <-> (i < gn g)%nat).
    { intros i. split; [intros H; apply Hinc in H; apply in_seq in H; lia|]. intros Hi. destruct (rt_facts i Hi) as [Hr1 [Hr2 Hr3]].
      apply Hall in Hr1. apply in_map_iff in Hr1. destruct Hr1 as [R [E HRin]]. apply in_concat. exists R. split; [auto|].
      destruct (Hrho R HRin) as [H1 _]. rewrite E in H1. destruct (HR R HRin) as [x [Hx HRx]]. apply HRx. split; [auto|].
      apply HRx in H1. apply HRx in Hx. eapply (together_trans x _ i); [tauto|exact Hr2|auto|tauto|]. apply together_sym; auto. }
    destruct (array_from_region_list_spec (gn g) regions Hnd Hcover) as [l [El [Hll Hnth]]]. rewrite El. cbn [post].
    assert (Hlab : forall i, (i < gn g)%nat -> exists k R, lab l i = Z.of_nat k /\ nth_error regions k = Some R /\ In i R).
    { intros i Hi. assert (H := lab_nth_error l i). rewrite Hll in H. specialize (H Hi). apply Hnth in H. exact H. }
    split.
    + split; [exact Hll|]. intros u v Hu Hv. destruct (Hlab u Hu) as [k [R [E1 [HR1 Hu1]]]]. destruct (Hlab v Hv) as [k' [R' [E2 [HR2 Hv1]]]]. split.
      * intros E. assert (k = k') by lia. subst k'. rewrite HR1 in HR2. injection HR2 as <-.
        apply root_inj; [apply Hc; auto|apply Hc; auto|].
        rewrite (Honly k R (nth (c u) roots 0%nat) HR1 (Hroot k R u HR1 Hu1) (proj1 (rt_facts u Hu))).
        rewrite (Honly k R (nth (c v) roots 0%nat) HR1 (Hroot k R v HR1 Hv1) (proj1 (rt_facts v Hv))). reflexivity.
      * intros E. assert (Hk : k = k'); [|lia]. pose proof (Hroot k R u HR1 Hu1) as H1. pose proof (Hroot k' R' v HR2 Hv1) as H2. rewrite E in H1.
        eapply Hdisj; eauto.
    + intros z. split.
      * intros Hz. apply In_nth_error in Hz. destruct Hz as [i Hi]. apply Hnth in Hi. destruct Hi as [k [R [-> [HR1 _]]]].
        apply nth_error_lt in HR1. lia.
      * intros Hz. destruct (nth_error regions (Z.to_nat z)) as [R|] eqn:E; [|apply nth_error_None in E; lia].
        destruct (HR R (nth_error_In _ _ E)) as [x [Hx _]]. apply (nth_error_In l x). apply Hnth. exists (Z.to_nat z), R. split; [lia|auto].
Qed.
End TreeSound.
