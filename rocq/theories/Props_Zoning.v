(** Properties C100 and C101: the possible results of AZP.fit with the default strategy. *)
From Verif Require Import Base Spec M_Graph P_Graph M_Util P_Base P_Util P_Forest P_Init P_Initial
  M_Objective P_Sum P_Objective M_Azp P_Azp P_Strategy P_Fit P_AzpFit Examples Props_Objective Props_Azp
  M_Sa P_Sa M_Tabu P_Tabu P_TabuFit P_Reactive Props_Tabu P_Descent Props_Descent P_Zoning P_Names Props_Mean.

(** ** C100 *)
Section Zoning.
Variables (expf : Q -> Q) (order : list edge -> list edge) (O : objfun) (g : graph) (attr : list (list Q)).
Hypothesis Hord : forall l, Permutation (order l) l.
Hypothesis Hsym : symmetric g.
Hypothesis Hattr : length attr = gn g.
Hypothesis Hex : exact_on O attr.

(** Every result is, on every island, the end of some zoning that starts from the start labels. *)
Theorem C100_azp_rounds fuel p initial c0 r labels s' r' :
  shape_ok g initial ->
  azp_fit expf order O fuel g attr p initial (SAzp c0) r = Ok ((labels, s'), r') ->
  exists labels0, start_labels g p initial labels0 /\ length labels = gn g /\
    forall v isl, v < gn g -> island g v isl ->
      exists l', zoning O attr g isl labels0 l' /\ forall a, In a isl -> lab labels a = lab l' a.
Proof.
  intros Hsh H. assert (Hv : valid_request g p initial) by (eapply fit_returns_valid; eauto).
  destruct (azp_fit_sound O attr Hex g Hsym Hattr expf order fuel p initial c0 r labels s' r' Hord (valid_good _ _ _ Hv) H)
    as [l0 [Hst [Hl Hz]]].
  exists l0. split; [apply started_start; auto|]. split; [auto|]. destruct Hst as [[Hl0 [_ Hall]] _].
  apply (parts_zoning O attr g l0 labels (conj Hl0 Hall) Hl). exact Hz.
Qed.

(** From given labels: exactly the ends of such zonings, chosen independently for the islands, are
    possible, each for suitable random draws. *)
Theorem C100_azp_outcomes fuel p initial c0 labels :
  valid_request g p (Some initial) -> gn g ^ gn g + gn g + 1 < fuel ->
  ((exists r s' r', azp_fit expf order O fuel g attr p (Some initial) (SAzp c0) r = Ok ((labels, s'), r')) <->
   length labels = gn g /\ forall v isl, v < gn g -> island g v isl ->
     exists l', zoning O attr g isl initial l' /\ forall a, In a isl -> lab labels a = lab l' a).
Proof.
  intros Hv Hf. pose proof Hv as [Hp [[Hl0 [Hn Hall]] Hm1]]. split.
  - intros [r [s' [r' H]]]. destruct (C100_azp_rounds fuel p (Some initial) c0 r labels s' r') as [l0 [-> H']]; auto. split; auto.
  - intros [Hl H]. pose proof (proj2 (parts_zoning O attr g initial labels (conj Hl0 Hall) Hl) H) as Hz.
    destruct (azp_fit_reach O attr Hex g Hsym Hattr expf order fuel p initial labels c0) as [s' Hr]; auto.
    { split; [auto|]. split; auto. }
    destruct (Hr (fun _ => 0)) as [r Er]. eauto.
Qed.
End Zoning.

(** ** C101: the numbers of the areas and the names of the regions *)
Definition outcome (O : objfun) (attr : list (list Q)) (g : graph) (initial labels : list Z) : Prop :=
  length labels = gn g /\ forall v isl, v < gn g -> island g v isl ->
    exists l', zoning O attr g isl initial l' /\ forall a, In a isl -> lab labels a = lab l' a.

Lemma list_of_labs (l l' : list Z) : length l = length l' -> (forall a, a < length l -> lab l a = lab l' a) -> l = l'.
Proof. intros Hl H. apply nth_error_ext'; [auto|]. intros a Ha. rewrite !lab_nth_error by lia. f_equal. auto. Qed.

Lemma outcome_twin O f h s t U U' g g' attr attr' initial initial' labels : nameless O ->
  twins f h s t U U' g g' attr attr' -> length attr = gn g -> length attr' = gn g -> exact_on O attr -> exact_on O attr' ->
  lrel f s U g initial initial' -> outcome O attr g initial labels ->
  exists labels', lrel f s U g labels labels' /\ outcome O attr' g' initial' labels'.
Proof.
  intros Hno Htw Hattr Hattr' Hex Hex' Hrel [Hl Ho]. pose proof (tw_n _ _ _ _ _ _ _ _ _ _ Htw) as Hn.
  set (labels' := map (fun i => s (lab labels (f i))) (seq 0 (gn g))).
  assert (Hl' : length labels' = gn g) by (unfold labels'; rewrite map_length, seq_length; auto).
  assert (Hlab : forall i, i < gn g -> lab labels' i = s (lab labels (f i))).
  { intros i Hi. apply lab_of_nth_error. unfold labels'. rewrite nth_error_map, (nth_error_nth' _ 0) by (rewrite seq_length; auto).
    rewrite seq_nth by auto. reflexivity. }
  assert (Hz : forall v isl isl', v < gn g -> island g (f v) isl -> island g' v isl' ->
    exists l2 l2', zoning O attr g isl initial l2 /\ (forall a, In a isl -> lab labels a = lab l2 a) /\
      zoning O attr' g' isl' initial' l2' /\ lrel f s U g l2 l2' /\ Permutation (map f isl') isl).
  { intros v isl isl' Hv Hi Hi'. destruct (tw_f _ _ _ _ _ _ _ _ _ _ Htw v Hv) as [Hfv _].
    destruct (Ho (f v) isl Hfv Hi) as [l2 [H1 H2]]. pose proof (twin_island _ _ _ _ _ _ _ _ _ _ Htw v isl' isl Hv Hi' Hi) as HP.
    destruct (twin_zoning O Hno f h s t U U' g g' attr attr' isl isl') with (l := initial) (l2 := l2) (l' := initial') as [l2' [H3 H4]]; auto.
    { intros i Hin. apply Hi' in Hin. apply linked_in_r in Hin. unfold areas in Hin. lia. }
    exists l2, l2'. auto 6. }
  exists labels'. split.
  - split; [auto|]. split; [auto|]. split; [|auto]. intros z Hz'. apply In_nth_error in Hz'. destruct Hz' as [a Ha].
    assert (Hag : a < gn g) by (apply nth_error_lt in Ha; lia). apply lab_of_nth_error in Ha. subst z.
    destruct (tw_h _ _ _ _ _ _ _ _ _ _ Htw a Hag) as [Hh Eh].
    destruct (Hz (h a) (comp_nodes g (comp_label g a)) (comp_nodes g' (comp_label g' (h a)))) as [l2 [l2' [_ [H2 [_ [H4 _]]]]]]; auto.
    + rewrite Eh. apply comp_nodes_island; auto.
    + apply comp_nodes_island. lia.
    + rewrite H2 by (apply comp_nodes_In; auto). destruct H4 as [L1 [_ [L3 _]]]. apply L3, lab_in. lia.
  - split; [lia|]. intros v isl' Hv Hi'. rewrite Hn in Hv. destruct (tw_f _ _ _ _ _ _ _ _ _ _ Htw v Hv) as [Hfv _].
    destruct (Hz v (comp_nodes g (comp_label g (f v))) isl' Hv) as [l2 [l2' [_ [H2 [H3 [H4 HP]]]]]]; auto; [apply comp_nodes_island; auto|].
    exists l2'. split; [auto|]. intros i Hin. assert (Hig : i < gn g) by (apply Hi' in Hin; apply linked_in_r in Hin; unfold areas in Hin; lia).
    rewrite Hlab by auto. destruct H4 as [_ [_ [_ H4]]]. rewrite H4 by auto. f_equal. apply H2. rewrite <- HP. apply in_map; auto.
Qed.

Lemma twin_valid f h s t U U' g g' attr attr' l l' p :
  twins f h s t U U' g g' attr attr' -> lrel f s U g l l' -> feasible g l p -> feasible g' l' p.
Proof.
  intros Htw Hrel [Hl [Hnl Hall]]. pose proof (tw_n _ _ _ _ _ _ _ _ _ _ Htw) as Hn.
  pose proof Hrel as [_ [Hl' [Hin Hlab]]]. pose proof (lrel_sym _ _ _ _ _ _ _ _ _ _ Htw l l' Hrel) as Hrel'.
  pose proof Hrel' as [_ [_ [Hin' _]]].
  split; [lia|]. split.
  - rewrite <- Hnl. unfold n_labels. symmetry. rewrite <- (map_length s (nodup Z.eq_dec l)). apply Permutation_length.
    apply NoDup_Permutation; [|apply NoDup_nodup|].
    + assert (H : forall m, NoDup m -> (forall z, In z m -> In z U) -> NoDup (map s m)).
      { induction m as [|z m IH]; intros Hnd Hm; cbn [map]; constructor; inversion Hnd; subst.
        - intros H. apply in_map_iff in H. destruct H as [y [E Hy]]. apply (f_equal t) in E.
          destruct (tw_s _ _ _ _ _ _ _ _ _ _ Htw z (Hm z (or_introl eq_refl))) as [_ E1].
          destruct (tw_s _ _ _ _ _ _ _ _ _ _ Htw y (Hm y (or_intror Hy))) as [_ E2]. rewrite E, E1 in E2. subst. auto.
        - apply IH; auto. intros y Hy. apply Hm. right; auto. }
      apply H; [apply NoDup_nodup|]. intros z Hz. apply nodup_In in Hz. auto.
    + intros z. rewrite in_map_iff, nodup_In. split.
      * intros [y [<- Hy]]. apply nodup_In in Hy. apply In_nth_error in Hy. destruct Hy as [a Ha].
        assert (Hag : a < gn g) by (apply nth_error_lt in Ha; lia). destruct (tw_h _ _ _ _ _ _ _ _ _ _ Htw a Hag) as [H1 H2].
        eapply nth_error_In. apply (twin_region' f s U g l l' y (h a) Hrel H1). rewrite H2. exact Ha.
      * intros Hz. apply In_nth_error in Hz. destruct Hz as [i Hi]. destruct (twin_region _ _ _ _ _ _ _ _ _ _ Htw l l' z i Hrel Hi) as [H1 _].
        exists (t z). split; [|apply nodup_In; eapply nth_error_In; eauto].
        apply (tw_t _ _ _ _ _ _ _ _ _ _ Htw). apply Hin'. eapply nth_error_In; eauto.
  - intros K' HK'. assert (HKU : In K' U') by auto. destruct (tw_t _ _ _ _ _ _ _ _ _ _ Htw K' HKU) as [_ EK].
    apply In_nth_error in HK'. destruct HK' as [i Hi]. destruct (twin_region _ _ _ _ _ _ _ _ _ _ Htw l l' K' i Hrel Hi) as [H1 H2].
    assert (Hc : contiguous g (region l (t K'))) by (apply Hall; eapply nth_error_In; eauto).
    split; [exists i; exact Hi|]. intros x y Hx Hy.
    destruct (twin_region _ _ _ _ _ _ _ _ _ _ Htw l l' K' x Hrel Hx) as [Hx1 Hx2].
    destruct (twin_region _ _ _ _ _ _ _ _ _ _ Htw l l' K' y Hrel Hy) as [Hy1 Hy2].
    destruct (tw_f _ _ _ _ _ _ _ _ _ _ Htw x Hx2) as [_ Ex]. destruct (tw_f _ _ _ _ _ _ _ _ _ _ Htw y Hy2) as [_ Ey].
    rewrite <- Ex, <- Ey. apply (twin_linked _ _ _ _ _ _ _ _ _ _ (twins_sym _ _ _ _ _ _ _ _ _ _ Htw) _ (region l (t K'))); [|apply Hc; auto].
    intros a Ha. assert (Hag : a < gn g) by (apply nth_error_lt in Ha; lia). split; [lia|].
    destruct (tw_h _ _ _ _ _ _ _ _ _ _ Htw a Hag) as [H3 H4]. rewrite <- EK. apply (twin_region' f s U g l); auto. rewrite H4. auto.
Qed.

(** Numbering the areas differently and renaming the regions changes the possible results in the same way. *)
Theorem C101_numbers_and_names expf expf' order order' O g g' attr attr' f s fuel fuel' p initial initial' c0 c0' labels' :
  (forall l, Permutation (order l) l) -> (forall l, Permutation (order' l) l) -> symmetric g -> length attr = gn g ->
  exact_on O attr -> nameless O -> valid_request g p (Some initial) ->
  renumbered f g attr g' attr' -> relabelled f s initial initial' ->
  (forall a b, In a initial -> In b initial -> s a = s b -> a = b) -> ~ In (-1)%Z initial' ->
  gn g ^ gn g + gn g + 1 < fuel -> gn g ^ gn g + gn g + 1 < fuel' ->
  ((exists r s' r', azp_fit expf' order' O fuel' g' attr' p (Some initial') (SAzp c0') r = Ok ((labels', s'), r')) <->
   (exists labels, relabelled f s labels labels' /\
      exists r s' r', azp_fit expf order O fuel g attr p (Some initial) (SAzp c0) r = Ok ((labels, s'), r'))).
Proof.
  intros Hord Hord' Hsym Hattr Hex Hno Hv [Hn [Hla [Hf [Hinj [Hadj Hrow]]]]] [Hli Hlab] Hs Hm1 Hfu Hfu'.
  pose proof Hv as [Hp [Hfeas Hm0]]. pose proof Hfeas as [Hl0 _].
  destruct (inv_of_spec (gn g) f Hf Hinj) as [Hi1 Hi2]. set (h := inv_of (gn g) f) in *.
  set (t := name_inv initial s).
  assert (Htw : twins f h s t initial (map s initial) g g' attr attr').
  { constructor; auto.
    - intros z Hz. split; [apply in_map; auto|apply name_inv_spec; auto].
    - intros z Hz. apply in_map_iff in Hz. destruct Hz as [y [<- Hy]]. unfold t. rewrite name_inv_spec; auto. }
  assert (Hrel : lrel f s initial g initial initial').
  { split; [auto|]. split; [lia|]. split; [auto|]. intros i Hi. apply Hlab. lia. }
  assert (Hsym' : symmetric g').
  { intros u v Hu Hv'. rewrite Hn in Hu, Hv'. rewrite !Hadj by auto. apply Hsym; auto. }
  assert (Hattr' : length attr' = gn g) by lia.
  assert (Hex' : exact_on O attr').
  { intros rows Hrows. apply Hex. intros x Hx. apply Hrows in Hx. apply (In_nth _ _ []) in Hx. destruct Hx as [i [Hi <-]].
    rewrite Hrow by lia. apply nth_In. rewrite Hattr. apply Hf. lia. }
  assert (Hfeas' : feasible g' initial' (Z.to_nat p)) by (eapply twin_valid; eauto).
  assert (Hv' : valid_request g' p (Some initial')) by (split; auto).
  rewrite (C100_azp_outcomes expf' order' O g' attr' Hord' Hsym' ltac:(lia) Hex' fuel' p initial' c0' labels' Hv') by (rewrite Hn; auto).
  fold (outcome O attr' g' initial' labels'). split.
  - intros Ho. destruct (outcome_twin O h f t s (map s initial) initial g' g attr' attr initial' initial labels' Hno) as [labels [H1 H2]]; auto; try lia.
    + apply twins_sym; auto.
    + eapply lrel_sym; eauto.
    + assert (H3 : lrel f s initial g labels labels').
      { apply (lrel_sym _ _ _ _ _ _ _ _ _ _ (twins_sym _ _ _ _ _ _ _ _ _ _ Htw)). exact H1. }
      exists labels. split.
      * destruct H3 as [L1 [L2 [_ L4]]]. split; [lia|]. intros i Hi. apply L4. lia.
      * apply (C100_azp_outcomes expf order O g attr Hord Hsym Hattr Hex fuel p initial c0 labels Hv Hfu). exact H2.
  - intros [labels [[Hll Hlab'] Hr]].
    apply (C100_azp_outcomes expf order O g attr Hord Hsym Hattr Hex fuel p initial c0 labels Hv Hfu) in Hr.
    destruct (outcome_twin O f h s t initial (map s initial) g g' attr attr' initial initial' labels Hno Htw Hattr Hattr' Hex Hex' Hrel Hr)
      as [l2 [H1 H2]].
    assert (E : labels' = l2); [|subst l2; exact H2]. destruct H1 as [L1 [L2 [_ L4]]]. apply list_of_labs; [lia|].
    intros i Hi. rewrite L4, Hlab' by lia. reflexivity.
Qed.

(** *** objectives that qualify *)
Lemma pairwise_nameless d : (forall x y, d x y == d y x)%Q -> nameless (pairwise d).
Proof.
  intros Hd f s attr attr' idx idx' l l' x y HP Hi Hs Hx Hy. unfold objective_at in Hx, Hy. cbn [pairwise o_call] in Hx, Hy.
  destruct (pairwise_call_spec d (labels_at l idx) (rows_at attr idx)) as [v [Ev Hv]]. rewrite Ev in Hx. injection Hx as <-.
  destruct (pairwise_call_spec d (labels_at l' idx') (rows_at attr' idx')) as [w [Ew Hw]]. rewrite Ew in Hy. injection Hy as <-.
  rewrite Hv, Hw, !het_part. clear v w Ev Hv Ew Hw.
  set (F := fun i j : nat => if Z.eqb (lab l i) (lab l j) then dist d attr i j else 0%Q).
  assert (HF : forall a b, (F a b == F b a)%Q).
  { intros a b. unfold F. rewrite (Z.eqb_sym (lab l b)). destruct (Z.eqb _ _); [unfold dist; apply Hd|reflexivity]. }
  rewrite <- (psum_perm F _ _ HF HP). unfold F.
  rewrite psum_map. apply psum_ext. intros i j Hi1 Hj1. destruct (Hi i Hi1) as [E1 E2]. destruct (Hi j Hj1) as [E3 E4].
  unfold dist, row. rewrite E1, E2, E3, E4.
  destruct (Z.eqb_spec (lab l (f i)) (lab l (f j))) as [E|E], (Z.eqb_spec (s (lab l (f i))) (s (lab l (f j)))) as [E'|E']; try reflexivity.
  - destruct E'. f_equal. exact E.
  - destruct E. apply Hs; auto; rewrite <- HP; apply in_map; auto.
Qed.

Lemma filter_map_swap {A B} (h : A -> B) p l : filter p (map h l) = map h (filter (fun a => p (h a)) l).
Proof. induction l as [|a l IH]; cbn; [reflexivity|]. destruct (p (h a)); cbn; rewrite IH; reflexivity. Qed.

Lemma rows_of_at l attr idx z : rows_of (labels_at l idx) z (rows_at attr idx) = rows_at attr (filter (fun a => Z.eqb (lab l a) z) idx).
Proof.
  unfold rows_of, where_eq. unfold labels_at at 2. rewrite map_length.
  transitivity (map (fun i => nth (nth i idx 0) attr []) (filter (fun i => Z.eqb (lab l (nth i idx 0)) z) (seq 0 (length idx)))).
  - rewrite (filter_ext_in _ (fun i => Z.eqb (lab l (nth i idx 0)) z)).
    + apply map_ext_in. intros i Hi. apply filter_In in Hi. destruct Hi as [Hi _]. apply in_seq in Hi.
      unfold row. apply nth_error_nth. unfold rows_at. rewrite nth_error_map, (nth_error_nth' idx 0) by lia. reflexivity.
    + intros i Hi. apply in_seq in Hi. f_equal. apply lab_of_nth_error. unfold labels_at.
      rewrite nth_error_map, (nth_error_nth' idx 0) by lia. reflexivity.
  - unfold rows_at. rewrite <- (map_map (fun i => nth i idx 0) (fun a => nth a attr [])). f_equal.
    rewrite <- (filter_map_swap (fun i => nth i idx 0) (fun a => Z.eqb (lab l a) z)), map_nth_seq. reflexivity.
Qed.

(** the sum of the distances from a centre that does not depend on the order of the rows *)
Lemma centered_nameless d center :
  (forall rows rows' x, Permutation rows rows' -> d x (center rows) == d x (center rows'))%Q -> nameless (centered d center sumQ).
Proof.
  intros Hc f s attr attr' idx idx' l l' x y HP Hi Hs Hx Hy. unfold objective_at in Hx, Hy. cbn [centered o_call] in Hx, Hy.
  rewrite center_call_Ok in Hx, Hy. injection Hx as <-. injection Hy as <-.
  assert (HPu : Permutation (map s (uniqueZ (labels_at l idx))) (uniqueZ (labels_at l' idx'))).
  { apply NoDup_Permutation; [|apply uniqueZ_NoDup|].
    - assert (H : forall m, NoDup m -> (forall z, In z m -> In z (labels_at l idx)) -> NoDup (map s m)).
      { induction m as [|z m IH]; intros Hnd Hm; cbn [map]; constructor; inversion Hnd; subst.
        - intros H. apply in_map_iff in H. destruct H as [w [E Hw]].
          assert (G1 := Hm z (or_introl eq_refl)). assert (G2 := Hm w (or_intror Hw)). unfold labels_at in G1, G2.
          apply in_map_iff in G1, G2. destruct G1 as [i [<- G1]], G2 as [j [<- G2]]. apply Hs in E; auto. congruence.
        - apply IH; auto. intros w Hw. apply Hm. right; auto. }
      apply H; [apply uniqueZ_NoDup|]. intros z Hz. apply -> uniqueZ_In in Hz. auto.
    - intros z. rewrite in_map_iff, uniqueZ_In. unfold labels_at. rewrite in_map_iff. split.
      + intros [w [<- Hw]]. apply -> uniqueZ_In in Hw. apply in_map_iff in Hw. destruct Hw as [a [<- Ha]]. rewrite <- HP in Ha.
        apply in_map_iff in Ha. destruct Ha as [i [<- Hi1]]. exists i. split; [apply Hi; auto|auto].
      + intros [i [<- Hi1]]. destruct (Hi i Hi1) as [E _]. exists (lab l (f i)). split; [auto|]. apply uniqueZ_In, in_map. rewrite <- HP. apply in_map; auto. }
  rewrite <- (sumQ_map_perm _ _ _ HPu), map_map. apply sumQ_ext. intros z Hz. apply -> uniqueZ_In in Hz. unfold labels_at in Hz.
  apply in_map_iff in Hz. destruct Hz as [a [<- Ha]]. unfold hval. rewrite !rows_of_at.
  set (A := filter (fun b => Z.eqb (lab l b) (lab l a)) idx). set (B := filter (fun i => Z.eqb (lab l' i) (s (lab l a))) idx').
  assert (HAB : Permutation (rows_at attr A) (rows_at attr' B)).
  { assert (E : rows_at attr' B = rows_at attr (map f B)).
    { unfold rows_at. rewrite map_map. apply map_ext_in. intros i Hi1. unfold B in Hi1. apply filter_In in Hi1. apply Hi. tauto. }
    rewrite E. unfold rows_at. apply Permutation_map.
    assert (E2 : map f B = filter (fun b => Z.eqb (lab l b) (lab l a)) (map f idx')).
    { rewrite filter_map_swap. unfold B. f_equal. apply filter_ext_in. intros i Hi1. destruct (Hi i Hi1) as [E1 _]. rewrite E1.
      apply eq_true_iff_eq. rewrite !Z.eqb_eq. split; [|congruence]. intros H. apply Hs; auto. rewrite <- HP. apply in_map; auto. }
    rewrite E2. unfold A. clear - HP. induction HP as [|b m m' _ IH|b c m|m1 m2 m3 _ IH1 _ IH2]; cbn.
    - constructor.
    - destruct (Z.eqb _ _); auto.
    - destruct (Z.eqb (lab l b) _), (Z.eqb (lab l c) _); auto using perm_swap, Permutation_refl.
    - etransitivity; eauto. }
  rewrite (sumQ_ext _ (fun x => d x (center (rows_at attr' B)))) by (intros x _; apply Hc; auto).
  apply sumQ_map_perm. auto.
Qed.

(** the default centre and metric *)
Lemma rows_refl x : Forall2 Qeq x x.
Proof. induction x; constructor; [reflexivity|auto]. Qed.
Lemma add_rows_compat x y y' : Forall2 Qeq y y' -> Forall2 Qeq (add_rows x y) (add_rows x y').
Proof.
  intros H. revert x. induction H as [|a b y y' Hab H IH]; intros [|c x]; cbn; try apply rows_refl; constructor; auto.
  rewrite Hab. reflexivity.
Qed.
Lemma add_rows_swap x y m : Forall2 Qeq (add_rows x (add_rows y m)) (add_rows y (add_rows x m)).
Proof.
  revert y m. induction x as [|a x IH]; intros [|b y] [|c m]; cbn; try apply rows_refl; constructor; try ring; auto.
  - pose proof (IH y []) as H. destruct x, y; cbn in *; auto.
Qed.
Lemma rows_trans x y z : Forall2 Qeq x y -> Forall2 Qeq y z -> Forall2 Qeq x z.
Proof.
  intros H. revert z. induction H as [|a b x y Hab _ IH]; intros z Hz; inversion Hz; subst; constructor; auto. etransitivity; eauto.
Qed.
Lemma mean_row_perm rows rows' : Permutation rows rows' -> Forall2 Qeq (mean_row rows) (mean_row rows').
Proof.
  intros HP. unfold mean_row. rewrite <- (Permutation_length HP). generalize (length rows). intros n.
  assert (H : Forall2 Qeq (fold_right add_rows [] rows) (fold_right add_rows [] rows')).
  { induction HP as [|x m m' _ IH|x y m|m1 m2 m3 _ IH1 _ IH2]; cbn.
    - constructor.
    - apply add_rows_compat; auto.
    - apply add_rows_swap.
    - eapply rows_trans; eauto. }
  induction H as [|a b x y Hab _ IH]; cbn; constructor; auto. rewrite Hab. reflexivity.
Qed.
Lemma manhattan_compat x y y' : Forall2 Qeq y y' -> (manhattan x y == manhattan x y')%Q.
Proof.
  intros H. revert x. induction H as [|a b y y' Hab H IH]; intros [|c x]; cbn [manhattan]; try reflexivity. rewrite Hab, IH. reflexivity.
Qed.
Lemma mean_nameless : nameless (centered manhattan mean_row sumQ).
Proof. apply centered_nameless. intros rows rows' x HP. apply manhattan_compat, mean_row_perm; auto. Qed.

(** ** Examples *)
Local Notation att := (map (fun q : Q => [q])).
(** Four areas in a row, values 0 5 5 10, from 0 5|5 10: exactly the results 0|5 5 10 and 0 5 5|10 are possible. *)
Definition row4 : list (list Q) := att [0;5;5;10]%Q.
Lemma path4_island v isl : v < 4 -> island (path_graph 4) v isl -> isl = [0;1;2;3].
Proof.
  intros Hv Hi. rewrite (island_comp_nodes (path_graph 4) v isl Hv Hi). do 4 (destruct v as [|v]; [vm_compute; reflexivity|]). lia.
Qed.
Local Notation may4 := (may_go (pairwise manhattan) row4 (path_graph 4) [0;1;2;3]).
Ltac go := split; [cbn; auto|]; split; [apply listed_legal; [apply path_symmetric|wf_tac|vm_compute; auto 10]|];
  eexists _, _; split; [vm_compute; reflexivity|]; split; [vm_compute; reflexivity|]; vm_compute; discriminate.
Lemma legal_to_listed l a K : wf (path_graph 4) l -> legal_move (path_graph 4) l a K ->
  In a (map fst (filter (fun az => Z.eqb (snd az) K) (map (fun m => (mv_area m, mv_new m)) (possible_moves (path_graph 4) l [])))).
Proof.
  intros Hwf Hl. apply legal_listed in Hl; [|apply path_symmetric|auto]. apply (in_map fst _ (a, K)). apply filter_In. split; [auto|].
  cbn. apply Z.eqb_refl.
Qed.
(** the only area that may go to K is [a]; or there is none *)
Ltac just_it := let a := fresh "a" in let H := fresh "H" in intros a H; pose proof H as [_ [Hl _]];
  apply legal_to_listed in Hl; [|wf_tac]; vm_compute in Hl; intuition; subst; auto.
Lemma turn_one (ok : list Z -> nat -> Z -> Prop) K l a l' : ok l a K -> (forall b, ok l b K -> b = a) -> (zone_turn ok K l l' <-> zone_turn ok K (upd l a K) l').
Proof.
  intros Ha Hu. split.
  - intros H. inversion H as [? Hno|? b ? Hb Ht]; subst; [destruct (Hno a Ha)|]. rewrite <- (Hu b Hb). auto.
  - intros H. eapply turn_move; eauto.
Qed.
Lemma turn_none (ok : list Z -> nat -> Z -> Prop) K l l' : (forall b, ~ ok l b K) -> (zone_turn ok K l l' <-> l' = l).
Proof.
  intros Hno. split; [|intros ->; apply turn_over; auto].
  intros H. inversion H as [|? b ? Hb Ht]; subst; [auto|destruct (Hno b Hb)].
Qed.
Lemma turn_0_first l' : zone_turn may4 0 [0;0;1;1]%Z l' <-> l' = [0;0;0;1]%Z.
Proof. rewrite (turn_one _ _ _ 2); [|go|just_it]. rewrite turn_none; [reflexivity|just_it]. Qed.
Lemma turn_1_next l' : zone_turn may4 1 [0;0;0;1]%Z l' <-> l' = [0;1;1;1]%Z.
Proof. rewrite (turn_one _ _ _ 2); [|go|just_it]. cbn [upd]. rewrite (turn_one _ _ _ 1); [|go|just_it]. rewrite turn_none; [reflexivity|just_it]. Qed.
Lemma turn_1_first l' : zone_turn may4 1 [0;0;1;1]%Z l' <-> l' = [0;1;1;1]%Z.
Proof. rewrite (turn_one _ _ _ 1); [|go|just_it]. rewrite turn_none; [reflexivity|just_it]. Qed.
Lemma turn_0_next l' : zone_turn may4 0 [0;1;1;1]%Z l' <-> l' = [0;0;0;1]%Z.
Proof. rewrite (turn_one _ _ _ 1); [|go|just_it]. cbn [upd]. rewrite (turn_one _ _ _ 2); [|go|just_it]. rewrite turn_none; [reflexivity|just_it]. Qed.

Lemma zoning_row4 l' : zoning (pairwise manhattan) row4 (path_graph 4) [0;1;2;3] [0;0;1;1]%Z l' <-> l' = [0;1;1;1]%Z \/ l' = [0;0;0;1]%Z.
Proof.
  assert (Hround : forall Ks l, Permutation Ks [0;1]%Z -> zone_round may4 Ks [0;0;1;1]%Z l -> l = [0;1;1;1]%Z \/ l = [0;0;0;1]%Z).
  { intros Ks l HP H. assert (HK : Ks = [0;1]%Z \/ Ks = [1;0]%Z).
    { symmetry in HP. apply Permutation_length_2_inv in HP. auto. }
    destruct HK as [-> | ->]; inversion H as [|? ? ? l1 ? T1 H1]; subst; inversion H1 as [|? ? ? l2 ? T2 H2]; subst; inversion H2; subst.
    - apply turn_0_first in T1. subst. apply turn_1_next in T2. auto.
    - apply turn_1_first in T1. subst. apply turn_0_next in T2. auto. }
  assert (Hflat : forall l, l = [0;1;1;1]%Z \/ l = [0;0;0;1]%Z -> ~ lower_at (pairwise manhattan) row4 [0;1;2;3] [0;0;1;1]%Z l).
  { intros l Hl [x [y [Ex [Ey Hlt]]]]. destruct Hl as [-> | ->]; vm_compute in Ex, Ey; injection Ex as <-; injection Ey as <-; vm_compute in Hlt; discriminate. }
  split.
  - intros [regions [Hnd [Hreg Hz]]].
    assert (HP : Permutation regions [0;1]%Z).
    { apply NoDup_Permutation; [auto|repeat constructor; cbn; intuition; discriminate|]. intros K. rewrite Hreg. split.
      - intros [a [Ha Hr]]. unfold region in Hr. cbn in Ha. intuition; subst; cbn in Hr; injection Hr as <-; cbn; auto.
      - intros [<-|[<-|[]]]; [exists 0|exists 2]; split; cbn; auto; reflexivity. }
    inversion Hz as [Ks ? ? HK Hr _|Ks ? l1 ? HK Hr Hlow _]; subst; rewrite HP in HK.
    + eauto.
    + destruct (Hflat l1); eauto.
  - intros Hl. exists [0;1]%Z. split; [repeat constructor; cbn; intuition; discriminate|]. split.
    { intros K. split.
      - intros [<-|[<-|[]]]; [exists 0|exists 2]; split; cbn; auto; reflexivity.
      - intros [a [Ha Hr]]. unfold region in Hr. cbn in Ha. intuition; subst; cbn in Hr; injection Hr as <-; cbn; auto. }
    pose proof (Hflat l' Hl) as Hf. destruct Hl as [-> | ->].
    + apply (rounds_last _ _ _ [0;1]%Z); [auto| |auto]. econstructor; [apply turn_0_first; reflexivity|].
      econstructor; [apply turn_1_next; reflexivity|constructor].
    + apply (rounds_last _ _ _ [1;0]%Z); [apply perm_swap| |auto]. econstructor; [apply turn_1_first; reflexivity|].
      econstructor; [apply turn_0_next; reflexivity|constructor].
Qed.

Example C100_example fuel labels : 261 < fuel ->
  valid_request (path_graph 4) 2 (Some [0;0;1;1]%Z) /\ exact_on (pairwise manhattan) row4 /\
  ((exists r s' r', azp_fit (fun x => x) same_order (pairwise manhattan) fuel (path_graph 4) row4 2%Z (Some [0;0;1;1]%Z) (SAzp dum) r =
      Ok ((labels, s'), r')) <-> labels = [0;1;1;1]%Z \/ labels = [0;0;0;1]%Z).
Proof.
  intros Hf. assert (Hv : valid_request (path_graph 4) 2 (Some [0;0;1;1]%Z)) by valid_tac.
  assert (Hex : exact_on (pairwise manhattan) row4) by (apply pairwise_exact_on; [apply manhattan_sym|apply manhattan_zero]).
  split; [auto|]. split; [auto|].
  rewrite (C100_azp_outcomes (fun x => x) same_order (pairwise manhattan) (path_graph 4) row4 (fun l => Permutation_refl l)
    (path_symmetric 4) eq_refl Hex fuel 2 [0;0;1;1]%Z dum labels Hv) by (change (gn (path_graph 4) ^ gn (path_graph 4) + gn (path_graph 4) + 1) with 261; auto).
  split.
  - intros [Hl H]. destruct (H 0 [0;1;2;3]) as [l' [Hz Hag]].
    + cbn; lia.
    + apply (comp_nodes_island (path_graph 4) 0). cbn; lia.
    + apply zoning_row4 in Hz. assert (E : labels = l'); [|subst l'; auto].
      apply list_of_labs; [destruct Hz as [-> | ->]; exact Hl|]. intros a Ha. rewrite Hl in Ha. cbn in Ha. apply Hag. cbn. lia.
  - intros Hl. split; [destruct Hl as [-> | ->]; reflexivity|]. intros v isl Hv1 Hi. rewrite (path4_island v isl Hv1 Hi).
    exists labels. split; [apply zoning_row4; auto|auto].
Qed.

(** C101: the same areas in reverse order, regions called 7 and 5 instead of 0 and 1. *)
Example C101_example :
  let f := fun i => 3 - i in let s := fun z => if Z.eqb z 0 then 7%Z else 5%Z in
  renumbered f (path_graph 4) (att [0;1;9;10]%Q) (path_graph 4) (att [10;9;1;0]%Q) /\ relabelled f s [0;1;1;1]%Z [5;5;5;7]%Z /\
  nameless (pairwise manhattan) /\ nameless (centered manhattan mean_row sumQ) /\
  tabu_labels (azp_fit (fun x => x) same_order (pairwise manhattan) 300 (path_graph 4) (att [0;1;9;10]%Q) 2%Z (Some [0;1;1;1]%Z) (SAzp dum) rng0) = Some [0;0;1;1]%Z /\
  tabu_labels (azp_fit (fun x => x) same_order (pairwise manhattan) 300 (path_graph 4) (att [10;9;1;0]%Q) 2%Z (Some [5;5;5;7]%Z) (SAzp dum) rng0) = Some [5;5;7;7]%Z /\
  relabelled f s [0;0;1;1]%Z [5;5;7;7]%Z.
Proof.
  cbn zeta. split; [|split; [|split; [apply pairwise_nameless, manhattan_sym|split; [apply mean_nameless|split; [|split]]]]].
  - split; [reflexivity|]. split; [reflexivity|]. split; [intros i Hi; cbn [gn path_graph] in *; lia|]. split; [intros i j Hi Hj; cbn [gn path_graph] in *; lia|]. split.
    + intros i j Hi Hj. cbn in Hi, Hj. do 4 (destruct i as [|i]; [do 4 (destruct j as [|j]; [reflexivity|]); lia|]). lia.
    + intros i Hi. cbn in Hi. do 4 (destruct i as [|i]; [reflexivity|]). lia.
  - split; [reflexivity|]. intros i Hi. cbn in Hi. do 4 (destruct i as [|i]; [reflexivity|]). lia.
  - vm_compute. reflexivity.
  - vm_compute. reflexivity.
  - split; [reflexivity|]. intros i Hi. cbn in Hi. do 4 (destruct i as [|i]; [reflexivity|]). lia.
Qed.

Print Assumptions C100_azp_rounds.
Print Assumptions C100_azp_outcomes.
Print Assumptions C101_numbers_and_names.
