(** The tabu searches with rounding: every move hardly raises the objective. *)
From Coq Require Import Qabs.
From Verif Require Import Base Spec SpecStep M_Graph P_Graph M_Util P_Base P_Util P_Forest P_Init P_Initial
  M_Objective P_Sum P_Objective M_Azp P_Azp P_Strategy P_Fit P_AzpFit M_Sa M_Tabu P_Tabu P_TabuFit M_MaxP P_TwoRuns M_TabuWith P_TabuWith
  M_Float P_Float P_FloatErr M_FloatMaxP M_FloatTabu.

Section TabuErr.
Variable A : arith.
Variable V : Q -> Prop.
Variables u M : Q.
Hypothesis Hu : (0 <= u)%Q.
Hypothesis Hu1 : (u < 1)%Q.
Hypothesis V0 : V 0%Q.
Hypothesis Vabs : forall q, V q -> V (Qabs q).
Hypothesis Hadd : rounds_within V u M (ar_add A) Qplus.
Hypothesis Hsub : rounds_within V u M (ar_sub A) Qminus.
Variable B : arith.
Variable enum : list Z -> list Z.
Variable order : list edge -> list edge.
Hypothesis Hord : forall l, Permutation (order l) l.
Variable g : graph.
Variable attr : list (list Q).
Hypothesis Hattr : length attr = gn g.
Variable k : nat.
Hypothesis HV : forall x q, In x attr -> In q x -> V q.
Hypothesis Hk : forall x, In x attr -> length x <= k.
Let N := gn g + k + 1.
Let e := qpow (1 - u) N.
Let f := qpow (1 + u) N.
Hypothesis HM : (f * psum (dist manhattan attr) (seq 0 (length attr)) <= M)%Q.
Notation O := (pairwise manhattan).
Notation FO := (fpairwise A enum).

Definition okt (c : nat) (m : list Z) (i : nat) (K : Z) : Prop :=
  i < length m /\ In K m /\
  exists x y, o_call O m (attr_c attr g c) = Ok x /\ o_call O (upd m i K) (attr_c attr g c) = Ok y /\ (e * y <= f * x)%Q.
Definition te_K (c : nat) (s : fstrategy) : Prop := exists cm, s = FAzp cm /\ c_obj cm = FO /\ c_attr cm = attr_c attr g c.
Definition te_V (c : nat) (l0 l : list Z) : Prop := wf (comp_graph g c) l /\ moves (okt c) l0 l /\ forall z, In z l -> In z l0.
Definition plain (s : fstrategy) : Prop := exists cm, s = FAzp cm.

Lemma te_call c l0 s a z l r : c < n_components g -> te_K c s -> te_V c l0 l -> a < gn (comp_graph g c) ->
  post anyexn True (fstrat_call B A s a z l r) (fun '(b, s', _) => te_K c s' /\ (b = true -> wf (comp_graph g c) (upd l a z) -> te_V c l0 (upd l a z))).
Proof.
  intros Hc [cm [-> [Ho Ha]]] [Hwf [Hmv Hn]] Hal. destruct (comp_rows g attr Hattr k c) as [Hlr [Hin Hps]]. set (rows := attr_c attr g c) in *.
  cbn [fstrat_call]. unfold fcall. rewrite Ho, Ha. cbn [o_update fpairwise].
  destruct (fpairwise_update A a z l rows) as [q|x|] eqn:Eq; cbn [bind post]; [|exact Logic.I|exact Logic.I].
  assert (Hml : length l = length rows) by (destruct Hwf; congruence).
  destruct (Qle_bool q 0) eqn:Eb; cbn [bind post]; (split; [eexists; split; [reflexivity|]; cbn; auto|]); [|discriminate].
  intros _ Hw. assert (Hz : In z l).
  { unfold fpairwise_update in Eq. apply bind_Ok in Eq. destruct Eq as [ds [_ Eq]]. apply bind_Ok in Eq. destruct Eq as [rs [Er _]].
    apply metric_to_point_inv in Er. apply (rows_of_nonempty l z rows), Er. }
  split; [exact Hw|]. split.
  2: { intros y Hy. apply In_upd in Hy. destruct Hy as [->|Hy]; auto. }
  apply moves_snoc; [auto|]. split; [lia|]. split; [exact Hz|]. fold rows.
  destruct (pairwise_call_spec manhattan l rows) as [x [Ex Hx]].
  destruct (pairwise_call_spec manhattan (upd l a z) rows) as [y [Ey Hy]].
  exists x, y. split; [exact Ex|]. split; [exact Ey|]. rewrite Hx, Hy. apply Qle_bool_iff in Eb.
  assert (Hnear := fpairwise_update_near A V u M Hu Hu1 V0 Vabs Hadd Hsub rows k N).
  destruct (Hnear) with (labels := l) (a := a) (r := z) (q := q) as [H _]; auto.
  - intros x0 q0 Hx0. apply HV. auto.
  - rewrite Hlr. pose proof (comp_graph_le g c). unfold N. lia.
  - eapply Qle_trans; [|exact HM]. unfold f. rewrite !(Qmult_comm (qpow (1 + u) N)). apply Qmult_le_compat_r; [exact Hps|].
    apply qpow_nonneg. lra.
  - lia.
Qed.
Lemma te_start c l s : plain s -> post anyexn True (fstrat_start FO s l (attr_c attr g c) (comp_nodes g c)) (te_K c).
Proof. intros [cm ->]. cbn. eexists. split; [reflexivity|]. cbn. auto. Qed.

Lemma fbasic_near_run fuel maxlen reps c lc s0 rg : c < n_components g -> wf (comp_graph g c) lc -> plain s0 ->
  post anyexn True (run_component fstrategy (fstrat_start FO) (fun g' l a s r => basic_component_with fstrategy (fstrat_call B A) FO g' fuel maxlen reps l a s r) g attr c lc s0 rg)
    (fun '(l', s', _) => plain s' /\ length l' = length lc /\ te_V c lc l').
Proof.
  intros Hc Hwf Hs0. unfold run_component. fold (attr_c attr g c).
  eapply post_bind; [apply (te_start c lc s0 Hs0)|]. intros s1 _ Hs1.
  eapply (post_weaken anyexn anyexn True True); [auto|auto| |
    apply (basic_component_with_post fstrategy (fstrat_call B A) FO (attr_c attr g c) (comp_graph g c) anyexn True)
      with (names := fun _ => True) (K := te_K c) (V := te_V c lc) (M := fun _ => 0)]; auto.
  - intros [[l' s'] r'] _ [HV' [cm [-> _]]]. split; [exists cm; auto|]. split; [destruct HV' as [[H _] _], Hwf; lia|exact HV'].
  - intros l1 H. apply H.
  - intros s2 a z l1 r1 Hs2 HV1 Ha _. apply te_call; auto.
  - intros. apply anyexn_post.
  - split; [auto|]. split; [constructor|auto].
Qed.
Theorem fbasic_near fuel maxlen reps p initial s r : good_input g p initial -> plain s ->
  post anyexn True (fbasic_fit B A order FO fuel maxlen reps g attr p initial s r)
    (fun '((labels, s'), _) => plain s' /\ exists labels0, started_from g p initial labels0 /\ length labels = gn g /\
       forall c, c < n_components g -> te_V c (comp_part g labels0 c) (comp_part g labels c)).
Proof.
  intros Hgood Hs. unfold fbasic_fit. apply (fit_post fstrategy _ _ order g attr anyexn True plain te_V); auto.
  intros c lc s0 rg Hc Hwf Hs0. apply (fbasic_near_run fuel maxlen reps c lc s0 rg Hc Hwf Hs0).
Qed.

Theorem freactive_near maxit k1 k2 p initial s r : n_components g = 1 -> good_input g p initial -> plain (rw_strat s) -> rw_visited s = [] ->
  post anyexn True (freactive_fit B A order FO maxit k1 k2 g attr p initial s r)
    (fun '((labels, _), _) => exists labels0, started_from g p initial labels0 /\ length labels = gn g /\
       forall c, c < n_components g -> te_V c (comp_part g labels0 c) (comp_part g labels c)).
Proof.
  intros Hone Hgood Hs Hv. unfold freactive_fit.
  eapply (post_weaken anyexn anyexn True True); [auto|auto| |
    apply (fit_post_from (reactive_with fstrategy) _ _ order g attr anyexn True (fun j s => j = 0 -> plain (rw_strat s) /\ rw_visited s = []) te_V (fun _ _ => True))]; auto.
  - intros [[labels s'] r'] _ [_ H]. exact H.
  - intros c lc s0 rg j Hc Hj Hwf _ HJ. assert (j = 0) as -> by lia. destruct (HJ eq_refl) as [Hs0 Hv0]. unfold run_component. fold (attr_c attr g c).
    eapply post_bind with (P := fun s1 => te_K c (rw_strat s1) /\ rw_visited s1 = []).
    { eapply post_bind; [apply (te_start c lc _ Hs0)|]. intros st _ HK. cbn. auto. }
    intros s1 _ [HK1 Ev].
    eapply (post_weaken anyexn anyexn True True); [auto|auto| |
      apply (reactive_component_with_post fstrategy (fstrat_call B A) FO (attr_c attr g c) (comp_graph g c) (fun _ => True) (te_K c) (te_V c lc))]; auto.
    + intros [[l' s'] r'] _ [HV' _]. split; [discriminate|]. split; [destruct HV' as [[H _] _], Hwf; lia|exact HV'].
    + intros l1 H. apply H.
    + intros s2 a z l1 r1 Hs2 HV1 Ha _. apply te_call; auto.
    + split; [auto|]. split; [constructor|auto].
    + rewrite Ev. intros w [].
  - destruct initial; cbn; auto.
Qed.

(** back to the whole map *)
Lemma okt_whole c l m' : length l = gn g -> moves (okt c) (comp_part g l c) m' ->
  exists l', moves (nearly_lower O attr e f (comp_nodes g c)) l l' /\ comp_part g l' c = m'.
Proof.
  intros Hl H. remember (comp_part g l c) as m eqn:E. revert l Hl E. induction H as [m|m i K m' Hok _ IH]; intros l Hl ->.
  - exists l. split; [constructor|auto].
  - destruct Hok as [Hi [HK Hxy]]. assert (Hlt : i < length (comp_nodes g c)) by (unfold comp_part, gather in Hi; rewrite map_length in Hi; auto).
    destruct (nth_error (comp_nodes g c) i) as [a|] eqn:E; [|apply nth_error_None in E; lia].
    destruct (IH (upd l a K)) as [l' [H1 H2]]; [rewrite upd_length; auto|symmetry; apply comp_part_upd; auto|].
    exists l'. split; [|auto]. econstructor; [|exact H1]. split; [eapply nth_error_In; eauto|]. split.
    + unfold comp_part, gather in HK. apply in_map_iff in HK. destruct HK as [b [Eb Hb]]. exists b. auto.
    + rewrite <- (comp_part_upd g l c i a K Hl E) in Hxy. exact Hxy.
Qed.
Lemma near_islands labels0 labels : length labels0 = gn g -> length labels = gn g ->
  (forall c, c < n_components g -> te_V c (comp_part g labels0 c) (comp_part g labels c)) ->
  forall v isl, v < gn g -> island g v isl ->
    exists l', moves (nearly_lower O attr e f isl) labels0 l' /\ forall a, In a isl -> lab labels a = lab l' a.
Proof.
  intros Hl0 Hl H v isl Hv Hisl. rewrite (island_comp_nodes g v isl Hv Hisl).
  destruct (H (comp_label g v) (comp_label_lt g v Hv)) as [_ [Hz _]].
  apply okt_whole in Hz; auto. destruct Hz as [l' [Hz E]]. exists l'. split; [auto|]. intros a Ha. destruct (In_nth_error _ _ Ha) as [i Hi].
  assert (E' : nth_error (labels_at l' (comp_nodes g (comp_label g v))) i = nth_error (labels_at labels (comp_nodes g (comp_label g v))) i)
    by (f_equal; exact E).
  unfold labels_at in E'. rewrite !nth_error_map, Hi in E'. cbn in E'. congruence.
Qed.
End TabuErr.
