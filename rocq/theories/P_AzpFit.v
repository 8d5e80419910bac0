(** AZP.fit with the default strategy and an exact objective. *)
From Verif Require Import Base Spec M_Graph P_Graph M_Util P_Base P_Util P_Forest P_Init P_Initial
  M_Objective P_Sum P_Objective M_Azp P_Azp P_Strategy P_Fit.

(** ** counting labellings *)
Fixpoint words (U : list Z) (n : nat) : list (list Z) :=
  match n with
  | 0 => [[]]
  | S n' => flat_map (fun w => map (fun z => z :: w) U) (words U n')
  end.

Lemma words_In U n : forall l, length l = n -> (forall z, In z l -> In z U) -> In l (words U n).
Proof.
  induction n as [|n IH]; intros [|z l] Hl Hin; cbn in *; try discriminate; [auto|].
  apply in_flat_map. exists l. split; [apply IH; auto|]. apply in_map_iff. exists z. split; [auto|apply Hin; auto].
Qed.

Lemma words_length U n : length (words U n) = length U ^ n.
Proof.
  induction n as [|n IH]; [reflexivity|]. cbn [words Nat.pow].
  rewrite <- IH. clear IH. generalize (words U n). intros ws.
  induction ws as [|w ws IHw]; cbn [flat_map length]; [lia|].
  rewrite app_length, map_length, IHw. lia.
Qed.

Section Default.
Variable O : objfun.
Variable attr : list (list Q).
Hypothesis Hex : exact_objective O attr.
Variable g : graph.
Hypothesis Hsym : symmetric g.
Hypothesis Hattr : length attr = gn g.
Variable v0 : Q.
Variable N : Prop.
Variable expf : Q -> Q.

Definition az_I (s : strategy) (l : list Z) : Prop :=
  exists c, s = SAzp c /\ tracks O attr c l /\ (c_val c <= v0)%Q.
Definition az_Iv (v : Q) (s : strategy) (l : list Z) : Prop := az_I s l /\ (strat_val s <= v)%Q.
Definition az_acc (v : Q) (l : list Z) (a : nat) (r : Z) : Prop :=
  exists x y, o_call O l attr = Ok x /\ o_call O (upd l a r) attr = Ok y /\ (y <= x)%Q /\ (x <= v)%Q.
Definition az_rej (l : list Z) (a : nat) (r : Z) : Prop :=
  exists x y, o_call O l attr = Ok x /\ o_call O (upd l a r) attr = Ok y /\ (x < y)%Q.

Lemma legal_mate (l : list Z) a r : wf g l -> legal_move g l a r ->
  In r l /\ exists b, b <> a /\ nth_error l b = nth_error l a.
Proof.
  intros _ [_ [D [HD [_ [[[b [Hb Hne]] _] [c [_ [Hc _]]]]]]]]. split; [eapply nth_error_In; eauto|].
  exists b. split; [auto|]. rewrite HD. exact Hb.
Qed.

Lemma az_call_post v s a r l rg : wf g l -> legal_move g l a r -> az_Iv v s l ->
  post noexn N (strat_call expf s a r l rg)
    (fun '(b, s', _) => if b : bool then az_Iv v s' (upd l a r) /\ az_acc v l a r
                        else az_Iv v s' l /\ az_rej l a r).
Proof.
  intros Hwf Hl [[c [-> [Ht Hv0]]] Hv]. cbn [strat_call strat_val] in *.
  pose proof Hwf as [Hlen _]. assert (Ha : a < length l) by (destruct Hl as [Ha _]; lia).
  destruct (legal_mate l a r Hwf Hl) as [Hr Hmate]. pose proof Ht as [Ho [Hat [x [Ex Hx]]]].
  destruct Hex as [_ [Hup _]]. destruct (Hup a r l ltac:(lia) Ha Hr Hmate) as [q Eq].
  assert (Ecall : exists b c', azp_call c a r l = Ok (b, c')).
  { unfold azp_call. rewrite Ho, Hat, Eq. cbn [bind]. destruct (Qle_bool q 0); eauto. }
  destruct Ecall as [b [c' Ec]]. rewrite Ec. cbn [bind post].
  destruct (azp_call_post O attr c l a r Hex ltac:(lia) Ha Ht b c' Ec) as [x' [y [Ex' [Ey [Hb Hc']]]]].
  rewrite Ex in Ex'. injection Ex' as <-.
  destruct b.
  - assert (Hyx : (y <= x)%Q) by (apply Hb; auto). pose proof Hc' as [Ho' [Hat' [y' [Ey' Hy']]]].
    rewrite Ey in Ey'. injection Ey' as <-. split.
    + split; [exists c'; split; [reflexivity|split; [exact Hc'|lra]]|]. cbn [strat_val]. lra.
    + exists x, y. repeat split; auto. lra.
  - subst c'. split; [split; [exists c; split; [reflexivity|split; [exact Ht|exact Hv0]]|exact Hv]|].
    exists x, y. repeat split; auto. apply Qnot_le_lt. intros H. apply Hb in H. discriminate.
Qed.

Variable labels0 : list Z.
Definition az_m (q : Q) : nat :=
  length (filter (fun l => match o_call O l attr with Ok v => Qltb v q | _ => false end)
                 (words (uniqueZ labels0) (gn g))).

Lemma az_m_bound q : length labels0 = gn g -> az_m q <= gn g ^ gn g.
Proof.
  intros Hl. unfold az_m. etransitivity; [apply filter_length_le|]. rewrite words_length.
  apply Nat.pow_le_mono_l. rewrite <- Hl. rewrite uniqueZ_length. unfold n_labels.
  apply NoDup_incl_length; [apply NoDup_nodup|]. intros z Hz. apply nodup_In in Hz. auto.
Qed.

Lemma az_m_dec s l s' l' : wf g l -> same_labels l labels0 -> az_I s l ->
  wf g l' -> same_labels l' labels0 -> az_I s' l' -> (strat_val s' < strat_val s)%Q ->
  az_m (strat_val s') < az_m (strat_val s).
Proof.
  intros _ _ _ [Hlen' _] Hs' [c' [-> [[_ [_ [v' [Ev' Hv']]]] _]]] Hlt. cbn [strat_val] in *.
  unfold az_m. apply filter_length_lt with (x := l').
  - intros y _ Hy. destruct (o_call O y attr) as [q|e|]; auto. apply Qltb_lt in Hy. apply Qltb_lt. lra.
  - apply words_In; auto. intros z Hz. apply uniqueZ_In, Hs'; auto.
  - rewrite Ev'. apply Qltb_lt. lra.
  - rewrite Ev'. apply Qltb_ge. lra.
Qed.

(** the labels at which AZP stops *)
Definition az_opt (l : list Z) : Prop :=
  (exists a r x y, legal_move g l a r /\ o_call O l attr = Ok x /\ o_call O (upd l a r) attr = Ok y /\ (x == y)%Q) \/
  (forall a r, legal_move g l a r -> az_rej l a r).

Lemma stopped_opt s l : wf g l -> stopped strategy strat_val g az_Iv az_acc az_rej s l -> az_opt l.
Proof.
  intros Hwf [v [[[c [-> [Ht _]]] Hv1] [Hv2 Hor]]]. cbn [strat_val] in *. destruct Hor as [Hmv|Hst].
  - left. destruct Hmv as [l0 [a [r [Hwf0 [Hl [[x [y [Ex [Ey [Hyx Hxv]]]]] ->]]]]]].
    pose proof Hl as [Ha [D [HD _]]]. destruct Ht as [_ [_ [y' [Ey' Hy']]]]. rewrite Ey in Ey'. injection Ey' as <-.
    exists a, D, y, x. split; [apply (legal_reverse g l0 a r D); auto|]. split; [auto|].
    rewrite upd_upd. rewrite <- (lab_of_nth_error _ _ _ HD). unfold lab. rewrite upd_same by (destruct Hwf0; lia).
    split; [auto|]. lra.
  - right. intros a r Hl. assert (Hr : In r l) by (eapply legal_mate; eauto). apply (Hst r Hr a Hl).
Qed.

Theorem az_component_post fuel s rg : wf g labels0 -> labels0 <> [] -> az_I s labels0 ->
  (N \/ gn g ^ gn g + gn g + 1 < fuel) ->
  post noexn N (azp_component strategy (strat_call expf) strat_val g fuel labels0 s rg)
    (fun '(labels', s', _) => wf g labels' /\ same_labels labels' labels0 /\ az_I s' labels' /\ az_opt labels').
Proof.
  intros Hwf Hne HI Hf.
  assert (Hm : N \/ az_m (strat_val s) + gn g + 1 < fuel).
  { destruct Hf as [Hf|Hf]; [auto|right]. pose proof (az_m_bound (strat_val s)). destruct Hwf as [Hl _]. specialize (H Hl). lia. }
  eapply (post_weaken noexn noexn N N); [auto|auto| |
    apply (azp_component_post strategy (strat_call expf) strat_val g Hsym noexn N az_I az_Iv az_acc az_rej)
     with (m := az_m)]; auto.
  - intros [[l' s'] rg'] _ [Hwf' [Hs' [HI' Hor]]]. split; [auto|]. split; [auto|]. split; [auto|].
    destruct Hor as [[-> Hone]|Hst].
    + right. intros a r Hl. exfalso. destruct Hl as [_ [D [HD [Hd [_ [b [_ [Hb _]]]]]]]].
      assert (HDin : In D labels0) by (eapply nth_error_In; eauto).
      assert (Hrin : In r labels0) by (eapply nth_error_In; eauto).
      assert (Hle : 2 <= n_labels labels0).
      { unfold n_labels. change 2 with (length [D; r]). apply NoDup_incl_length.
        - constructor; [intros [H|[]]; auto|]. constructor; [intros []|constructor].
        - intros z [<-|[<-|[]]]; apply nodup_In; auto. }
      lia.
    + apply (stopped_opt s'); auto.
  - intros s1 l H. split; [auto|]. lra.
  - intros v s1 l [H _]. auto.
  - intros v s1 a r l rg1 H1 H2 H3. apply az_call_post; auto.
  - right. exact az_m_dec.
Qed.
End Default.

(** ** islands *)
Lemma seq_sorted n : forall k, StronglySorted lt (seq k n).
Proof.
  induction n as [|n IH]; intros k; cbn; constructor; auto.
  apply Forall_forall. intros x Hx. apply in_seq in Hx. lia.
Qed.
Lemma filter_sorted {A} (R : A -> A -> Prop) f l : StronglySorted R l -> StronglySorted R (filter f l).
Proof.
  induction 1 as [|x l Hs IH HF]; cbn; [constructor|]. destruct (f x); [|auto]. constructor; auto.
  rewrite Forall_forall in *. intros y Hy. apply filter_In in Hy. apply HF; tauto.
Qed.
Lemma nat_sorted_ext l1 : forall l2, StronglySorted lt l1 -> StronglySorted lt l2 ->
  (forall x, In x l1 <-> In x l2) -> l1 = l2.
Proof.
  induction l1 as [|x l1 IH]; intros [|y l2] H1 H2 H.
  - reflexivity.
  - destruct (proj2 (H y) (or_introl eq_refl)).
  - destruct (proj1 (H x) (or_introl eq_refl)).
  - inversion H1 as [|? ? S1 F1]; inversion H2 as [|? ? S2 F2]; subst. rewrite Forall_forall in F1, F2.
    assert (x = y).
    { destruct (proj1 (H x) (or_introl eq_refl)) as [->|Hx]; [auto|].
      destruct (proj2 (H y) (or_introl eq_refl)) as [->|Hy]; [auto|].
      specialize (F1 y Hy). specialize (F2 x Hx). lia. }
    subst y. f_equal. apply IH; auto. intros z. split; intros Hz.
    + destruct (proj1 (H z) (or_intror Hz)) as [->|]; auto. specialize (F1 z Hz). lia.
    + destruct (proj2 (H z) (or_intror Hz)) as [->|]; auto. specialize (F2 z Hz). lia.
Qed.

Lemma comp_nodes_island g v : v < gn g -> island g v (comp_nodes g (comp_label g v)).
Proof.
  intros Hv. split; [apply filter_sorted, seq_sorted|]. intros a. rewrite comp_nodes_In. split.
  - intros [Ha Hc]. apply comp_label_eq; auto.
  - intros H. assert (Ha : a < gn g) by (apply linked_in_r in H; exact H).
    split; [auto|]. symmetry. apply comp_label_eq; auto.
Qed.

Lemma island_comp_nodes g v isl : v < gn g -> island g v isl -> isl = comp_nodes g (comp_label g v).
Proof.
  intros Hv [Hs Hin]. destruct (comp_nodes_island g v Hv) as [Hs' Hin'].
  apply nat_sorted_ext; auto. intros a. rewrite Hin, Hin'. tauto.
Qed.

(** ** moves inside a component *)
Lemma comp_part_upd g labels c i a r : length labels = gn g -> nth_error (comp_nodes g c) i = Some a ->
  comp_part g (upd labels a r) c = upd (comp_part g labels c) i r.
Proof.
  intros Hlen Hi. assert (Ha : a < gn g) by (eapply comp_nodes_lt, nth_error_In; eauto).
  assert (Hil : i < length (comp_part g labels c)) by (rewrite comp_part_length, comp_graph_n; eapply nth_error_lt; eauto).
  apply nth_error_ext'; [rewrite upd_length; unfold comp_part; rewrite !gather_length; auto|].
  intros j Hj. unfold comp_part in Hj. rewrite gather_length in Hj.
  destruct (nth_error (comp_nodes g c) j) as [b|] eqn:Eb; [|apply nth_error_None in Eb; lia].
  assert (Hb : b < gn g) by (eapply comp_nodes_lt, nth_error_In; eauto).
  unfold comp_part at 1. rewrite (gather_nth _ _ _ j b) by (auto; rewrite upd_length; lia).
  destruct (Nat.eq_dec j i) as [->|Hne].
  - rewrite Hi in Eb. injection Eb as <-. rewrite !nth_error_upd_eq; auto. lia.
  - assert (Hba : b <> a).
    { intros ->. apply Hne. apply (NoDup_nth_error (comp_nodes g c)); [apply comp_nodes_NoDup|auto|congruence]. }
    rewrite !nth_error_upd_ne by auto. unfold comp_part. rewrite (gather_nth _ _ _ j b); auto. lia.
Qed.

Lemma legal_to_comp g labels c i a r : wf g labels -> nth_error (comp_nodes g c) i = Some a ->
  legal_move g labels a r -> legal_move (comp_graph g c) (comp_part g labels c) i r.
Proof.
  intros [Hlen Hall] Hi [Ha [D [HD [Hne [Hc [b [Hb [Hrb Ht]]]]]]]].
  assert (Hca : comp_label g a = c) by (apply nth_error_In, comp_nodes_In in Hi; tauto).
  assert (HregD : contiguous g (region labels D)) by (apply Hall; eapply nth_error_In; eauto).
  assert (HDin : forall x, region labels D x -> In x (comp_nodes g c)).
  { intros x Hx. apply comp_nodes_In. split; [apply nth_error_lt in Hx; lia|]. rewrite <- Hca.
    apply (wf_region_comp g labels D); auto. }
  assert (Hnd : NoDup (comp_nodes g c)) by apply comp_nodes_NoDup.
  split; [rewrite comp_graph_n; eapply nth_error_lt; eauto|]. exists D.
  split; [apply comp_part_region; auto; exists a; auto|]. split; [auto|]. split.
  - apply (contiguous_ext _ (fun k => exists x, nth_error (comp_nodes g c) k = Some x /\ (region labels D x /\ x <> a))).
    + intros k. rewrite comp_part_region by auto. split.
      * intros [x [Hx [HxD Hxa]]]. split; [eauto|]. intros ->. rewrite Hi in Hx. congruence.
      * intros [[x [Hx HxD]] Hki]. exists x. split; [auto|]. split; [auto|]. intros ->.
        apply Hki. apply (NoDup_nth_error (comp_nodes g c)); auto; [eapply nth_error_lt; eauto|congruence].
    + apply sub_contiguous_inv; auto. intros x [Hx _]. auto.
  - destruct (In_nth_error (comp_nodes g c) b) as [j Hj].
    { apply comp_nodes_In. split; [auto|]. rewrite <- Hca. apply comp_label_eq; auto.
      apply linked_one; auto. }
    exists j. split; [rewrite comp_graph_n; eapply nth_error_lt; eauto|]. split.
    + apply comp_part_region; eauto.
    + apply (sub_touch g (comp_nodes g c) j i b a); auto.
Qed.

Lemma legal_of_comp g labels c i a r : wf g labels -> nth_error (comp_nodes g c) i = Some a ->
  legal_move (comp_graph g c) (comp_part g labels c) i r -> legal_move g labels a r.
Proof.
  intros [Hlen Hall] Hi [_ [D [HD [Hne [Hc [j [Hj [Hrj Ht]]]]]]]].
  assert (Hca : comp_label g a = c) by (apply nth_error_In, comp_nodes_In in Hi; tauto).
  assert (Ha : a < gn g) by (apply nth_error_In in Hi; eapply comp_nodes_lt; eauto).
  apply comp_part_region in HD; auto. destruct HD as [a' [Ha' HDa]]. rewrite Hi in Ha'. injection Ha' as <-.
  apply comp_part_region in Hrj; auto. destruct Hrj as [b [Hb Hrb]].
  assert (HregD : contiguous g (region labels D)) by (apply Hall; eapply nth_error_In; eauto).
  split; [auto|]. exists D. split; [auto|]. split; [auto|]. split.
  - apply (contiguous_ext g (fun x => exists k, (region (comp_part g labels c) D k /\ k <> i) /\ nth_error (comp_nodes g c) k = Some x)).
    + intros x. split.
      * intros [k [[Hk Hki] Hx]]. apply comp_part_region in Hk; auto. destruct Hk as [x' [Hx' HxD]].
        rewrite Hx in Hx'. injection Hx' as <-. split; [auto|]. intros ->. apply Hki.
        apply (NoDup_nth_error (comp_nodes g c)); [apply comp_nodes_NoDup|eapply nth_error_lt; eauto|congruence].
      * intros [HxD Hxa]. destruct (In_nth_error (comp_nodes g c) x) as [k Hk].
        { apply comp_nodes_In. split; [apply nth_error_lt in HxD; lia|]. rewrite <- Hca.
          apply (wf_region_comp g labels D); auto. }
        exists k. split; [|auto]. split; [apply comp_part_region; eauto|]. intros ->. congruence.
    + apply sub_contiguous; auto. intros k [Hk _]. apply nth_error_lt in Hk. rewrite comp_part_length, comp_graph_n in Hk. auto.
  - exists b. split; [apply nth_error_In in Hb; eapply comp_nodes_lt; eauto|]. split; [auto|].
    apply (sub_touch g (comp_nodes g c) j i b a) in Ht; auto.
Qed.

(** ** the default fit *)
Section FitDefault.
Variable O : objfun.
Variable attr : list (list Q).
Hypothesis Hex : exact_on O attr.
Variable g : graph.
Hypothesis Hsym : symmetric g.
Hypothesis Hattr : length attr = gn g.
Variable N : Prop.
Variable expf : Q -> Q.

Definition attr_c (c : nat) : list (list Q) := map (row attr) (comp_nodes g c).
Lemma attr_c_length c : length (attr_c c) = gn (comp_graph g c).
Proof. unfold attr_c. rewrite map_length, comp_graph_n. reflexivity. Qed.
Lemma attr_c_exact c : exact_objective O (attr_c c).
Proof.
  apply Hex. intros x Hx. unfold attr_c in Hx. apply in_map_iff in Hx. destruct Hx as [a [<- Ha]].
  apply nth_In. rewrite Hattr. eapply comp_nodes_lt; eauto.
Qed.

Definition def_R (c : nat) (l l' : list Z) : Prop :=
  wf (comp_graph g c) l' /\ same_labels l' l /\
  (exists x y, o_call O l (attr_c c) = Ok x /\ o_call O l' (attr_c c) = Ok y /\ (y <= x)%Q) /\
  az_opt O (attr_c c) (comp_graph g c) l'.

Lemma comp_graph_le c : gn (comp_graph g c) <= gn g.
Proof.
  rewrite comp_graph_n. unfold comp_nodes. etransitivity; [apply filter_length_le|]. rewrite seq_length. auto.
Qed.

Lemma comp_part_nonempty c labels : c < n_components g -> wf (comp_graph g c) labels -> labels <> [].
Proof.
  intros Hc [Hl _] ->. cbn [length] in Hl. rewrite comp_graph_n in Hl.
  destruct (comp_label_onto g c Hc) as [v [Hv Ev]].
  assert (H : In v (comp_nodes g c)) by (apply comp_nodes_In; auto). destruct (comp_nodes g c); [destruct H|discriminate].
Qed.

Theorem azp_fit_post order fuel n_regions initial c0 r : (forall l, Permutation (order l) l) ->
  good_input g n_regions initial -> (N \/ gn g ^ gn g + gn g + 1 < fuel) ->
  post noexn N (azp_fit expf order O fuel g attr n_regions initial (SAzp c0) r)
    (fun '((labels, s'), _) => exists labels0, started_from g n_regions initial labels0 /\
       length labels = gn g /\
       forall c, c < n_components g -> def_R c (comp_part g labels0 c) (comp_part g labels c)).
Proof.
  intros Hord Hgood Hfuel. unfold azp_fit.
  eapply (post_weaken noexn noexn N N); [auto|auto| |
    apply (fit_post strategy _ _ order g attr noexn N (fun s => exists c, s = SAzp c) def_R)]; auto.
  - intros [[labels s'] r'] _ [_ H]. exact H.
  - intros c l s rg Hc Hwf [cc ->]. unfold run_component. cbn [strat_start].
    fold (attr_c c). unfold start_common.
    pose proof (attr_c_exact c) as Hexc. destruct Hexc as [Hcall _].
    assert (Hll : length l = length (attr_c c)) by (rewrite attr_c_length; apply Hwf).
    destruct (Hcall l Hll) as [x Ex]. rewrite Ex. cbn [bind].
    set (s1 := SAzp (mkCommon (attr_c c) O x)).
    assert (HI : az_I O (attr_c c) x s1 l).
    { eexists. split; [reflexivity|]. split; [|cbn; lra]. split; [auto|]. split; [auto|]. exists x. split; [auto|reflexivity]. }
    assert (Hf : N \/ gn (comp_graph g c) ^ gn (comp_graph g c) + gn (comp_graph g c) + 1 < fuel).
    { destruct Hfuel as [HN|Hfuel]; [auto|right]. pose proof (comp_graph_le c). destruct (Nat.eq_dec (gn (comp_graph g c)) 0) as [E0|E0].
      - rewrite E0 in *. cbn. destruct (Nat.eq_dec (gn g) 0) as [E1|E1]; [rewrite E1 in Hfuel; cbn in Hfuel; lia|].
        assert (1 <= gn g ^ gn g) by (change 1 with (gn g ^ 0); apply Nat.pow_le_mono_r; lia). lia.
      - assert (gn (comp_graph g c) ^ gn (comp_graph g c) <= gn g ^ gn g).
        { etransitivity; [apply Nat.pow_le_mono_l; eauto|]. apply Nat.pow_le_mono_r; lia. }
        lia. }
    eapply (post_weaken noexn noexn N N); [auto|auto| |
      apply (az_component_post O (attr_c c) (attr_c_exact c) (comp_graph g c) (comp_symmetric g c Hsym) (attr_c_length c) x N expf)];
      auto.
    + intros [[l' s'] r'] _ [Hwf' [Hs' [[c' [-> [[_ [_ [y [Ey Hy]]]] Hle]]] Hopt]]].
      split; [eauto|]. split; [destruct Hwf, Hwf'; lia|]. split; [auto|]. split; [auto|]. split; [|auto].
      exists x, y. repeat split; auto. lra.
    + eapply comp_part_nonempty; eauto.
  - eauto.
Qed.
End FitDefault.

(** ** the pairwise objective is the sum over the components *)
Lemma psum_map {A B} (F : B -> B -> Q) (f : A -> B) l :
  (psum F (map f l) == psum (fun x y => F (f x) (f y)) l)%Q.
Proof.
  induction l as [|x l IH]; [reflexivity|]. cbn [map]. rewrite !psum_cons, IH, map_map. reflexivity.
Qed.

Lemma map_nth_seq {A} (d : A) l : map (fun i => nth i l d) (seq 0 (length l)) = l.
Proof.
  apply nth_error_ext'; [rewrite map_length, seq_length; auto|]. rewrite map_length, seq_length.
  intros i Hi. rewrite nth_error_map, (nth_error_nth' (seq 0 (length l)) 0) by (rewrite seq_length; auto).
  rewrite seq_nth by auto. cbn. symmetry. apply nth_error_nth'. auto.
Qed.

Lemma het_part d attr labels idx :
  (heterogeneity (dist d (rows_at attr idx)) (labels_at labels idx) ==
   psum (fun i j => if Z.eqb (lab labels i) (lab labels j) then dist d attr i j else 0) idx)%Q.
Proof.
  rewrite heterogeneity_psum.
  replace (length (labels_at labels idx)) with (length idx) by (unfold labels_at; rewrite map_length; reflexivity).
  transitivity (psum (fun i j => if Z.eqb (lab labels i) (lab labels j) then dist d attr i j else 0%Q)
                     (map (fun i => nth i idx 0) (seq 0 (length idx)))); [|rewrite map_nth_seq; reflexivity].
  rewrite psum_map. apply psum_ext.
  intros i j Hi Hj. apply in_seq in Hi, Hj.
  assert (Hlab : forall k, k < length idx -> lab (labels_at labels idx) k = lab labels (nth k idx 0)).
  { intros k Hk. apply lab_of_nth_error. unfold labels_at. rewrite nth_error_map, (nth_error_nth' idx 0) by auto. reflexivity. }
  assert (Hrow : forall k, k < length idx -> row (rows_at attr idx) k = row attr (nth k idx 0)).
  { intros k Hk. unfold row. apply nth_error_nth. unfold rows_at. rewrite nth_error_map, (nth_error_nth' idx 0) by auto. reflexivity. }
  rewrite !Hlab by lia. unfold dist. rewrite !Hrow by lia. reflexivity.
Qed.

Lemma het_comps d attr g labels : wf g labels ->
  (heterogeneity (dist d attr) labels ==
   sumQ (map (fun c => heterogeneity (dist d (rows_at attr (comp_nodes g c))) (labels_at labels (comp_nodes g c)))
             (seq 0 (n_components g))))%Q.
Proof.
  intros [Hlen Hall]. rewrite heterogeneity_psum, Hlen.
  set (F := fun i j => if Z.eqb (lab labels i) (lab labels j) then dist d attr i j else 0%Q).
  rewrite (sumQ_ext _ (fun c => psum F (comp_nodes g c))) by (intros; apply het_part).
  set (U := map Z.of_nat (seq 0 (n_components g))).
  assert (Hcls : (sumQ (map (fun r => psum F (filter (fun x => Z.eqb (Z.of_nat (comp_label g x)) r) (seq 0 (gn g)))) U) ==
    psum (fun x y => if Z.eqb (Z.of_nat (comp_label g x)) (Z.of_nat (comp_label g y)) then F x y else 0) (seq 0 (gn g)))%Q).
  { apply (psum_classes F (fun x => Z.of_nat (comp_label g x))).
    - apply NoDup_map_inj; [intros; lia|apply seq_NoDup].
    - intros x Hx. apply in_seq in Hx. apply in_map_iff. exists (comp_label g x). split; [auto|].
      apply in_seq. pose proof (comp_label_lt g x). lia. }
  unfold U in Hcls. rewrite map_map in Hcls.
  rewrite (sumQ_ext (fun c => psum F (comp_nodes g c))
            (fun x => psum F (filter (fun x0 => Z.eqb (Z.of_nat (comp_label g x0)) (Z.of_nat x)) (seq 0 (gn g))))).
  - rewrite Hcls. apply psum_ext. intros i j Hi Hj. apply in_seq in Hi, Hj.
    destruct (Z.eqb_spec (Z.of_nat (comp_label g i)) (Z.of_nat (comp_label g j))) as [_|Hne]; [reflexivity|].
    unfold F. destruct (Z.eqb_spec (lab labels i) (lab labels j)) as [El|_]; [|reflexivity].
    exfalso. apply Hne. f_equal. apply (wf_region_comp g labels (lab labels i)); auto.
    + apply Hall. eapply nth_error_In. apply lab_nth_error. lia.
    + apply lab_nth_error. lia.
    + rewrite El. apply lab_nth_error. lia.
  - intros c _. replace (comp_nodes g c) with (filter (fun x0 : nat => (Z.of_nat (comp_label g x0) =? Z.of_nat c)%Z) (seq 0 (gn g))); [reflexivity|].
    apply filter_ext. intros a. apply eq_true_iff_eq. rewrite Z.eqb_eq, Nat.eqb_eq. lia.
Qed.
