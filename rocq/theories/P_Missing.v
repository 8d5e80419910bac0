(** Missing attribute values: proofs. *)
From Verif Require Import Base Spec SpecMissing M_Graph P_Graph M_Util P_Base P_Util P_Forest P_Init P_Initial M_Objective P_Sum P_Objective
  M_Azp P_Azp P_Strategy P_Fit P_AzpFit P_OneSided M_Sa P_Sa M_Tabu P_Tabu P_TabuFit P_Reactive M_MaxP M_TabuWith P_TabuWith M_Missing P_Upto.

Definition value_error (e : exn) : Prop := exists m, e = ValueError m.

(** ** the checked objectives against the plain ones *)
Section Objectives.
Variable missing : list Q -> bool.
Variable d : list Q -> list Q -> Q.
Variable E : exn -> Prop.
Variables rows rows' : list (list Q).
Hypothesis Hfill : forall i, missing (row rows i) = false -> row rows' i = row rows i.
(** a missing value somewhere makes ValueError one of the exceptions allowed for *)
Hypothesis HE : forall m i, missing (row rows i) = true -> E (ValueError m).

Lemma checked_distance_upto i j : upto E eq (checked_distance missing d (row rows i) (row rows j)) (Ok (d (row rows' i) (row rows' j))).
Proof.
  unfold checked_distance. destruct (missing (row rows i)) eqn:E1; [left; eexists; split; [reflexivity|eauto]|].
  destruct (missing (row rows j)) eqn:E2; [left; eexists; split; [reflexivity|eauto]|].
  rewrite !Hfill by auto. apply upto_Ok. reflexivity.
Qed.
Lemma mapM_upto {A B} (f : A -> out B) (h : A -> out B) : forall l, (forall x, In x l -> upto E eq (f x) (h x)) -> upto E eq (mapM f l) (mapM h l).
Proof.
  induction l as [|x l IH]; intros H; cbn [mapM]; [apply upto_Ok; auto|]. eapply upto_bind; [apply H; left; auto|]. intros y y' <-.
  eapply upto_bind; [apply IH; intros; apply H; right; auto|]. intros t t' <-. apply upto_Ok; auto.
Qed.
Lemma upto_bind_pure {A B C} (x : out A) (y : A) (k : A -> out B) (R : B -> C -> Prop) z : upto E eq x (Ok y) -> upto E R (k y) z -> upto E R (bind x k) z.
Proof. intros [[e [-> He]]|H] Hk; [left; exists e; auto|]. destruct x; cbn in H; try contradiction. subst. exact Hk. Qed.
Lemma mapM_pure_upto {A B} (f : A -> out B) (h : A -> B) : forall l, (forall x, In x l -> upto E eq (f x) (Ok (h x))) -> upto E eq (mapM f l) (Ok (map h l)).
Proof.
  induction l as [|x l IH]; intros H; cbn [mapM map]; [apply upto_Ok; auto|]. eapply upto_bind_pure; [apply H; left; auto|].
  eapply upto_bind_pure; [apply IH; intros; apply H; right; auto|]. apply upto_Ok; auto.
Qed.

Lemma checked_call_upto l : upto E eq (checked_call missing d l rows) (pairwise_call d l rows').
Proof.
  unfold checked_call, pairwise_call. eapply upto_bind_pure; [|apply upto_Ok; reflexivity].
  apply mapM_pure_upto. intros r _. eapply upto_bind_pure; [|apply upto_Ok; reflexivity].
  apply mapM_pure_upto. intros ij _. apply checked_distance_upto.
Qed.

Lemma rows_of_fill l r : existsb missing (rows_of l r rows) = false -> rows_of l r rows' = rows_of l r rows.
Proof.
  unfold rows_of. intros H. apply map_ext_in. intros i Hi. apply Hfill. apply not_true_is_false. intros Ht.
  assert (existsb missing (map (row rows) (where_eq l r)) = true) by (apply existsb_exists; exists (row rows i); split; [apply in_map; auto|auto]). congruence.
Qed.

Lemma rows_of_missing l r m : existsb missing (rows_of l r rows) = true -> E (ValueError m).
Proof. intros H. apply existsb_exists in H. destruct H as [x [Hx Hm]]. unfold rows_of in Hx. apply in_map_iff in Hx. destruct Hx as [i [<- _]]. eauto. Qed.

Lemma to_point_upto l r p p' : (missing p = false -> p' = p) -> (existsb missing (rows_of l r rows) = false -> missing p = true -> forall m, E (ValueError m)) ->
  upto E eq (checked_to_point missing d (rows_of l r rows) p) (metric_to_point d (rows_of l r rows') p').
Proof.
  intros Hp HpE. unfold checked_to_point. destruct (existsb missing (rows_of l r rows)) eqn:E1.
  { left. eexists. split; [reflexivity|]. eapply rows_of_missing; eauto. }
  destruct (missing p) eqn:E2; [left; eexists; split; [reflexivity|eauto]|].
  rewrite (rows_of_fill l r E1), (Hp eq_refl). apply upto_refl. auto.
Qed.

Lemma checked_update_upto a r l : upto E eq (checked_update missing d a r l rows) (pairwise_update d a r l rows').
Proof.
  unfold checked_update, pairwise_update. eapply upto_bind; [apply to_point_upto; eauto|]. intros x x' <-.
  eapply upto_bind; [apply to_point_upto; eauto|]. intros y y' <-. apply upto_Ok; auto.
Qed.

Variable center : list (list Q) -> list Q.
Hypothesis HC : forall l r, existsb missing (rows_of l r rows) = false -> missing (center (rows_of l r rows)) = true -> forall m, E (ValueError m).
Lemma heterogeneity_upto reduction l r :
  upto E eq (checked_heterogeneity missing d center reduction l r rows) (heterogeneity_of d center reduction l r rows').
Proof.
  unfold checked_heterogeneity, heterogeneity_of. destruct (existsb missing (rows_of l r rows)) eqn:E1.
  - left. unfold checked_to_point. rewrite E1. cbn. eexists. split; [reflexivity|].
    eapply rows_of_missing; eauto.
  - eapply upto_bind; [apply to_point_upto; [rewrite (rows_of_fill l r E1); auto|eauto]|]. intros y y' <-. apply upto_Ok; auto.
Qed.
Lemma checked_center_call_upto reduction l :
  upto E eq (checked_center_call missing d center reduction l rows) (center_call d center reduction l rows').
Proof.
  unfold checked_center_call, center_call. eapply upto_bind; [apply mapM_upto; intros; apply heterogeneity_upto|].
  intros y y' <-. apply upto_Ok; auto.
Qed.
Lemma checked_center_update_upto reduction a r l :
  upto E eq (checked_center_update missing d center reduction a r l rows) (center_update d center reduction a r l rows').
Proof.
  unfold checked_center_update, center_update, center_update_st.
  rewrite <- bind_assoc. eapply upto_bind; [apply heterogeneity_upto|]. intros x1 ? <-.
  rewrite <- bind_assoc. eapply upto_bind; [apply heterogeneity_upto|]. intros x2 ? <-.
  rewrite <- bind_assoc. eapply upto_bind; [apply heterogeneity_upto|]. intros x3 ? <-.
  rewrite <- bind_assoc. eapply upto_bind; [apply heterogeneity_upto|]. intros x4 ? <-. cbn [bind]. apply upto_Ok; auto.
Qed.
End Objectives.

(** the rows handed to a component *)
Lemma filled_rows missing attr attr' idx : filled missing attr attr' ->
  forall i, missing (row (map (row attr) idx) i) = false -> row (map (row attr') idx) i = row (map (row attr) idx) i.
Proof.
  intros [Hl Hf] i. unfold row at 1 3 5. destruct (Nat.lt_ge_cases i (length idx)) as [Hi|Hi].
  - rewrite (nth_indep _ [] (row attr 0)), (nth_indep (map (row attr') idx) [] (row attr' 0)) by (rewrite map_length; auto).
    rewrite !map_nth. set (a := nth i idx 0). unfold row. intros H. destruct (Nat.lt_ge_cases a (length attr)) as [Ha|Ha]; [auto|].
    rewrite !nth_overflow by lia. reflexivity.
  - intros _. rewrite !nth_overflow by (rewrite map_length; auto). reflexivity.
Qed.

Lemma complete_rows missing attr idx : missing [] = false -> complete missing attr -> forall i, missing (row (map (row attr) idx) i) = false.
Proof.
  intros H0 Hc i. unfold row at 1. destruct (Nat.lt_ge_cases i (length idx)) as [Hi|Hi].
  - rewrite (nth_indep _ [] (row attr 0)) by (rewrite map_length; auto). rewrite map_nth. unfold row.
    destruct (Nat.lt_ge_cases (nth i idx 0) (length attr)) as [Ha|Ha]; [auto|]. rewrite nth_overflow; auto.
  - rewrite nth_overflow; auto. rewrite map_length; auto.
Qed.

(** ** what a successful evaluation tells *)
Section Apart.
Variable missing : list Q -> bool.
Variable d : list Q -> list Q -> Q.

Lemma mapM_Ok_all {A B} (f : A -> out B) : forall l ys, mapM f l = Ok ys -> forall x, In x l -> exists y, f x = Ok y.
Proof.
  induction l as [|a l IH]; intros ys H x Hx; [destruct Hx|]. cbn [mapM] in H. destruct (f a) as [y|e|] eqn:Ea; try discriminate. cbn [bind] in H.
  destruct (mapM f l) as [t|e|] eqn:El; try discriminate. destruct Hx as [<-|Hx]; eauto.
Qed.
Lemma pairs_In {A} (x y : A) : forall l, In x l -> In y l -> x <> y -> In (x, y) (pairs l) \/ In (y, x) (pairs l).
Proof.
  induction l as [|z l IH]; intros Hx Hy Hne; [destruct Hx|]. cbn [pairs]. rewrite !in_app_iff, !in_map_iff.
  destruct Hx as [->|Hx], Hy as [->|Hy]; [congruence| | |].
  - left. left. eauto.
  - right. left. eauto.
  - destruct (IH Hx Hy Hne); auto.
Qed.

Lemma checked_call_apart rows l v : checked_call missing d l rows = Ok v -> kept_apart missing rows l.
Proof.
  intros H a b z Ha Hb Hm. destruct (Nat.eq_dec b a) as [|Hne]; [auto|exfalso]. unfold checked_call in H.
  destruct (mapM _ (uniqueZ l)) as [hs|e|] eqn:Eh; try discriminate.
  destruct (mapM_Ok_all _ _ _ Eh z) as [y Ey]; [apply uniqueZ_In; eapply nth_error_In; eauto|].
  destruct (mapM _ (pairs (where_eq l z))) as [ds|e|] eqn:Ed; try discriminate.
  assert (Hin : In (a, b) (pairs (where_eq l z)) \/ In (b, a) (pairs (where_eq l z))) by (apply pairs_In; auto; apply where_eq_In; auto).
  destruct Hin as [Hin|Hin]; destruct (mapM_Ok_all _ _ _ Ed _ Hin) as [q Eq]; cbn [fst snd] in Eq; unfold checked_distance, row in Eq; rewrite Hm, ?orb_true_r in Eq; discriminate.
Qed.

Lemma checked_update_apart rows l a r q : a < length l -> kept_apart missing rows l -> checked_update missing d a r l rows = Ok q -> kept_apart missing rows (upd l a r).
Proof.
  intros Ha Hl H. unfold checked_update, checked_to_point in H.
  destruct (existsb missing (rows_of l (lab l a) rows)) eqn:E1; [discriminate|]. cbn [orb] in H.
  destruct (missing (row rows a)) eqn:E2; [discriminate|].
  destruct (metric_to_point d (rows_of l (lab l a) rows) (row rows a)) as [x|e|]; cbn [bind] in H; try discriminate.
  destruct (existsb missing (rows_of l r rows)) eqn:E3; [discriminate|].
  assert (Hnot : forall i, nth_error l i = Some r -> missing (nth i rows []) = true -> False).
  { intros i Hi Hm. assert (existsb missing (rows_of l r rows) = true); [|congruence].
    apply existsb_exists. exists (row rows i). split; [|exact Hm]. unfold rows_of. apply in_map, where_eq_In; auto. }
  intros x' b z Hx Hb Hm. destruct (Nat.eq_dec x' a) as [->|Hxa]; [unfold row in E2; congruence|].
  rewrite nth_error_upd_ne in Hx by auto. destruct (Nat.eq_dec b a) as [->|Hba].
  - rewrite nth_error_upd_eq in Hb by auto. injection Hb as <-. exfalso. eauto.
  - rewrite nth_error_upd_ne in Hb by auto. eapply Hl; eauto.
Qed.

(** strategies evaluating a given objective on given rows *)
Fixpoint asks (O : objfun) (rows : list (list Q)) (s : strategy) : Prop :=
  match s with
  | SAzp c => c_obj c = O /\ c_attr c = rows
  | SSa c _ _ _ _ _ => c_obj c = O /\ c_attr c = rows
  | SMaxP _ _ _ _ i => asks O rows i
  end.
Lemma asks_start O rows l idx : forall s s', strat_start O s l rows idx = Ok s' -> asks O rows s' /\ exists v, o_call O l rows = Ok v.
Proof.
  induction s as [c|c t sa term re mo|c sa sp th i IH]; intros s' H; cbn [strat_start] in H; unfold start_common in H;
    destruct (o_call O l rows) as [v|e|]; try discriminate; cbn [bind] in H.
  - injection H as <-. cbn. eauto.
  - injection H as <-. cbn. eauto.
  - destruct (strat_start O i l rows idx) as [i'|e|] eqn:Ei; try discriminate. injection H as <-. cbn. split; [apply (IH i'); auto|eauto].
Qed.
Lemma asks_call expf O rows a r l : forall s rg b s' rg', asks O rows s -> strat_call expf s a r l rg = Ok (b, s', rg') ->
  asks O rows s' /\ (b = true -> exists q, o_update O a r l rows = Ok q).
Proof.
  induction s as [c|c t sa term re mo|c sa sp th i IH]; intros rg b s' rg' Hs H; cbn [strat_call] in H.
  - unfold azp_call in H. destruct Hs as [Ho Hr]. rewrite Ho, Hr in H. destruct (o_update O a r l rows) as [q|e|]; try discriminate. cbn [bind] in H.
    destruct (Qle_bool q 0); cbn [bind] in H; injection H as <- <- <-; cbn; eauto.
  - unfold sa_call in H. destruct Hs as [Ho Hr]. rewrite Ho, Hr in H. destruct (o_update O a r l rows) as [q|e|]; try discriminate. cbn [bind] in H.
    destruct (Qle_bool q 0); [injection H as <- <- <-; cbn; eauto|]. destruct (random_random rg) as [u rg1].
    destruct (Qltb u (sa_prob expf q t)); injection H as <- <- <-; cbn; eauto.
  - destruct (donor_ok sp th a l); [|injection H as <- <- <-; split; [auto|discriminate]].
    destruct (strat_call expf i a r l rg) as [[[b1 i1] rg1]|e|] eqn:Ei; try discriminate. cbn [bind] in H. injection H as <- <- <-. cbn.
    apply (IH rg b1 i1 rg1); auto.
Qed.
Lemma any_outcome {A} (m : out A) (P : A -> Prop) : (forall x, m = Ok x -> P x) -> post anyexn True m P.
Proof. destruct m; cbn; unfold anyexn; auto. Qed.

(** ** one component *)
Section Component.
Variable expf : Q -> Q.
Variable rows : list (list Q).
Variable g : graph.
Notation O := (checked_pairwise missing d).

Lemma apart_component fuel l s r : length l = gn g -> l <> [] -> asks O rows s -> kept_apart missing rows l ->
  post anyexn True (azp_component strategy (strat_call expf) strat_val g fuel l s r)
    (fun '(l', s', _) => length l' = gn g /\ (forall z, In z l' -> In z l) /\ asks O rows s' /\ kept_apart missing rows l').
Proof.
  intros Hl Hne Hs Hk.
  eapply (post_weaken anyexn anyexn True True); [auto|auto| |
    apply (component_loose strategy (strat_call expf) strat_val g anyexn True (fun s l => asks O rows s /\ kept_apart missing rows l)) with (m := fun _ => 0)]; auto.
  - intros [[l' s'] r'] _ [H1 [H2 [H3 H4]]]. split; [auto|]. split; [intros z; apply H2|auto].
  - intros s1 a z l1 rg Hl1 Hlo [H1 H2]. apply any_outcome. intros [[b s2] rg2] E. destruct (asks_call expf O rows a z l1 s1 rg b s2 rg2 H1 E) as [H3 H4].
    split; [auto|]. destruct b; [|auto]. destruct (H4 eq_refl) as [q Eq]. destruct Hlo as [Ha _]. apply (checked_update_apart rows l1 a z q); auto. lia.
Qed.

Lemma apart_basic fuel maxlen reps l s r : wf g l -> asks O rows s -> kept_apart missing rows l ->
  post anyexn True (basic_component_with strategy (strat_call expf) O g fuel maxlen reps l rows s r)
    (fun '(l', s', _) => length l' = gn g /\ (forall z, In z l' -> In z l) /\ asks O rows s' /\ kept_apart missing rows l').
Proof.
  intros Hl Hs Hk.
  eapply (post_weaken anyexn anyexn True True); [auto|auto| |
    apply (basic_component_with_post strategy (strat_call expf) O rows g anyexn True (fun z => In z l) (asks O rows)
      (fun l1 => wf g l1 /\ (forall z, In z l1 -> In z l) /\ kept_apart missing rows l1)) with (M := fun _ => 0)]; auto.
  - intros [[l' s'] r'] _ [[H1 [H2 H3]] H4]. split; [apply H1|auto].
  - intros l1 [H _]. exact H.
  - intros l1 [_ [H _]]. exact H.
  - intros s1 a z l1 rg H1 [H2 [H3 H4]] Ha Hz. apply any_outcome. intros [[b s2] rg2] E. destruct (asks_call expf O rows a z l1 s1 rg b s2 rg2 H1 E) as [H5 H6].
    split; [auto|]. intros -> Hwf. split; [auto|]. split; [intros y Hy; apply In_upd in Hy; destruct Hy as [->|Hy]; auto|].
    destruct (H6 eq_refl) as [q Eq]. apply (checked_update_apart rows l1 a z q); auto. destruct H2. lia.
  - intros. apply anyexn_post.
Qed.

Lemma apart_reactive maxit k1 k2 l s r : wf g l -> asks O rows (rw_strat s) -> rw_visited s = [] -> kept_apart missing rows l ->
  post anyexn True (reactive_component_with strategy (strat_call expf) O g maxit k1 k2 l rows s r)
    (fun '(l', s', _) => length l' = gn g /\ (forall z, In z l' -> In z l) /\ kept_apart missing rows l').
Proof.
  intros Hl Hs Hv Hk.
  eapply (post_weaken anyexn anyexn True True); [auto|auto| |
    apply (reactive_component_with_post strategy (strat_call expf) O rows g (fun z => In z l) (asks O rows)
      (fun l1 => wf g l1 /\ (forall z, In z l1 -> In z l) /\ kept_apart missing rows l1))]; auto.
  - intros [[l' s'] r'] _ [[H1 [H2 H3]] H4]. split; [apply H1|auto].
  - intros l1 [H _]. exact H.
  - intros l1 [_ [H _]]. exact H.
  - intros s1 a z l1 rg H1 [H2 [H3 H4]] Ha Hz. apply any_outcome. intros [[b s2] rg2] E. destruct (asks_call expf O rows a z l1 s1 rg b s2 rg2 H1 E) as [H5 H6].
    split; [auto|]. intros -> Hwf. split; [auto|]. split; [intros y Hy; apply In_upd in Hy; destruct Hy as [->|Hy]; auto|].
    destruct (H6 eq_refl) as [q Eq]. apply (checked_update_apart rows l1 a z q); auto. destruct H2. lia.
  - intros w Hw. rewrite Hv in Hw. destruct Hw.
Qed.
End Component.

(** ** putting the components together *)
Lemma apart_assembled g attr labels0 labels : wf g labels0 -> length labels = gn g ->
  (forall c, c < n_components g -> (forall z, In z (comp_part g labels c) -> In z (comp_part g labels0 c)) /\
     kept_apart missing (attr_c attr g c) (comp_part g labels c)) -> kept_apart missing attr labels.
Proof.
  intros [Hl0 Hall] Hl Hc a b z Ha Hb Hm.
  assert (Hag : a < gn g) by (apply nth_error_lt in Ha; lia). assert (Hbg : b < gn g) by (apply nth_error_lt in Hb; lia).
  assert (Hback : forall x, x < gn g -> nth_error labels x = Some z -> exists y, comp_label g y = comp_label g x /\ region labels0 z y).
  { intros x Hx Ex. destruct (Hc (comp_label g x) (comp_label_lt g x Hx)) as [Hsub _].
    assert (Hin : In z (comp_part g labels (comp_label g x))) by (apply comp_part_In; eauto).
    apply Hsub, comp_part_In in Hin; auto. destruct Hin as [y [_ [Hy Ey]]]. exists y. auto. }
  assert (Ec : comp_label g b = comp_label g a).
  { destruct (Hback a Hag Ha) as [y [Hy1 Hy2]], (Hback b Hbg Hb) as [y' [Hy1' Hy2']]. rewrite <- Hy1, <- Hy1'.
    apply (wf_region_comp g labels0 z); auto. apply Hall. eapply nth_error_In; eauto. }
  set (c := comp_label g a) in *. destruct (Hc c (comp_label_lt g a Hag)) as [_ Hk].
  assert (Hpos : forall x, x < gn g -> comp_label g x = c -> exists i, nth_error (comp_nodes g c) i = Some x).
  { intros x Hx Hxc. apply In_nth_error. apply comp_nodes_In. auto. }
  destruct (Hpos a Hag eq_refl) as [i Hi], (Hpos b Hbg Ec) as [j Hj].
  assert (Eij : j = i).
  { apply (Hk i j z).
    - apply (comp_part_region g labels c z i Hl). eauto.
    - apply (comp_part_region g labels c z j Hl). eauto.
    - unfold attr_c. erewrite nth_error_nth; [|apply map_nth_error; exact Hi]. exact Hm. }
  subst j. rewrite Hi in Hj. injection Hj as <-. reflexivity.
Qed.

Lemma kept_initial g attr n_regions initial labels0 : started_from g n_regions initial labels0 ->
  (forall c, c < n_components g -> kept_apart missing (attr_c attr g c) (comp_part g labels0 c)) ->
  match initial with Some l => kept_apart missing attr l | None => True end.
Proof.
  intros [[Hl0 [_ Hall]] [_ Hi]] Hk. destruct initial as [l|]; [|auto]. subst l.
  apply (apart_assembled g attr labels0 labels0); [split; auto|auto|]. auto.
Qed.

Lemma apart_fit (S : Type) start component order g attr (J : nat -> S -> Prop) : (forall l, Permutation (order l) l) ->
  (forall c l s r j, c < n_components g -> j < n_components g -> wf (comp_graph g c) l -> J j s ->
     post anyexn True (run_component S start component g attr c l s r)
       (fun '(l', s2, _) => J (Datatypes.S j) s2 /\ length l' = length l /\ kept_apart missing (attr_c attr g c) l /\
          (forall z, In z l' -> In z l) /\ kept_apart missing (attr_c attr g c) l')) ->
  forall n_regions initial s r, good_input g n_regions initial -> J 0 s ->
  post anyexn True (fit S start component order g attr n_regions initial s r)
    (fun '((labels, _), _) => kept_apart missing attr labels /\ match initial with Some l => kept_apart missing attr l | None => True end).
Proof.
  intros Hord Hcomp n_regions initial s r Hgood HJ.
  eapply (post_weaken anyexn anyexn True True); [auto|auto| |
    apply (fit_post_n S start component order g attr anyexn True J (fun c l l' => kept_apart missing (attr_c attr g c) l /\
      (forall z, In z l' -> In z l) /\ kept_apart missing (attr_c attr g c) l')); auto].
  intros [[labels s'] r'] _ [_ [labels0 [Hst [Hlen HR]]]]. split.
  - destruct Hst as [[Hl0 [_ Hall]] _]. apply (apart_assembled g attr labels0 labels); [split; auto|auto|]. intros c Hc. apply HR in Hc. tauto.
  - apply (kept_initial g attr n_regions initial labels0 Hst). intros c Hc. apply HR; auto.
Qed.

Section Fits.
Variable expf : Q -> Q.
Variable order : list edge -> list edge.
Hypothesis Hord : forall l, Permutation (order l) l.
Variable g : graph.
Variable attr : list (list Q).
Notation O := (checked_pairwise missing d).
Notation apart_result initial := (fun '((labels, _), _) => kept_apart missing attr labels /\ match initial with Some l => kept_apart missing attr l | None => True end).

Lemma start_facts s l idx rows s1 : strat_start O s l rows idx = Ok s1 -> asks O rows s1 /\ kept_apart missing rows l.
Proof. intros E. destruct (asks_start O rows l idx s s1 E) as [H1 [v Hv]]. split; [auto|]. eapply checked_call_apart; eauto. Qed.

Theorem azp_fit_apart fuel n_regions initial s r : good_input g n_regions initial ->
  post anyexn True (azp_fit expf order O fuel g attr n_regions initial s r) (apart_result initial).
Proof.
  intros Hgood. unfold azp_fit. apply (apart_fit strategy _ _ order g attr (fun _ _ => True)); auto.
  intros c l s0 rg j Hc Hj Hwf _. unfold run_component. fold (attr_c attr g c).
  destruct (strat_start O s0 l (attr_c attr g c) (comp_nodes g c)) as [s1|e|] eqn:Es; cbn [bind post]; unfold anyexn; auto.
  destruct (start_facts _ _ _ _ _ Es) as [Ha Hk].
  eapply (post_weaken anyexn anyexn True True); [auto|auto| |apply (apart_component expf (attr_c attr g c) (comp_graph g c)); auto].
  - intros [[l' s'] r'] _ [H1 [H2 [H3 H4]]]. destruct Hwf as [Hl _]. split; [auto|]. split; [lia|auto].
  - apply Hwf.
  - apply (comp_part_nonempty g c l Hc Hwf).
Qed.

Theorem basic_fit_apart fuel maxlen reps n_regions initial s r : good_input g n_regions initial ->
  post anyexn True (basic_fit_with expf order O fuel maxlen reps g attr n_regions initial s r) (apart_result initial).
Proof.
  intros Hgood. unfold basic_fit_with. apply (apart_fit strategy _ _ order g attr (fun _ _ => True)); auto.
  intros c l s0 rg j Hc Hj Hwf _. unfold run_component. fold (attr_c attr g c).
  destruct (strat_start O s0 l (attr_c attr g c) (comp_nodes g c)) as [s1|e|] eqn:Es; cbn [bind post]; unfold anyexn; auto.
  destruct (start_facts _ _ _ _ _ Es) as [Ha Hk].
  eapply (post_weaken anyexn anyexn True True); [auto|auto| |apply (apart_basic expf (attr_c attr g c) (comp_graph g c)); auto].
  intros [[l' s'] r'] _ [H1 [H2 [H3 H4]]]. destruct Hwf as [Hl _]. split; [auto|]. split; [lia|auto].
Qed.

Theorem reactive_fit_apart maxit k1 k2 n_regions initial s r : good_input g n_regions initial -> n_components g <= 1 -> rw_visited s = [] ->
  post anyexn True (reactive_fit_with expf order O maxit k1 k2 g attr n_regions initial s r) (apart_result initial).
Proof.
  intros Hgood H1 Hv. unfold reactive_fit_with. apply (apart_fit _ _ _ order g attr (fun j s => j = 0 -> rw_visited s = [])); auto.
  intros c l s0 rg j Hc Hj Hwf HJ. unfold run_component. fold (attr_c attr g c).
  destruct (strat_start O (rw_strat s0) l (attr_c attr g c) (comp_nodes g c)) as [s1|e|] eqn:Es; cbn [bind post]; unfold anyexn; auto.
  destruct (start_facts _ _ _ _ _ Es) as [Ha Hk].
  eapply (post_weaken anyexn anyexn True True); [auto|auto| |apply (apart_reactive expf (attr_c attr g c) (comp_graph g c)); auto].
  - intros [[l' s'] r'] _ [H2 [H3 H4]]. destruct Hwf as [Hl _]. split; [discriminate|]. split; [lia|auto].
  - cbn. apply HJ. lia.
Qed.

Hypothesis Hsym : symmetric g.

Section SaLoops.
Variables (azp_fuel : nat) (p : Z).
Notation kept := (fun i => match i with Some l => kept_apart missing attr l | None => True end).
Hypothesis Hazp : forall i s r labels s' r', valid_request g p i -> azp_fit expf order O azp_fuel g attr p i s r = Ok ((labels, s'), r') ->
  valid_request g p (Some labels) /\ kept_apart missing attr labels /\ kept i.

Lemma sa_step_b_apart : forall fuel lft i s r sol s' r', valid_request g p i ->
  sa_step_b expf order O azp_fuel g attr p fuel lft i s r = Ok (sol, s', r') ->
  (sol = i /\ (lft = Some 0 \/ sa_is_reached s = true)) \/ (exists l, sol = Some l /\ valid_request g p (Some l) /\ kept_apart missing attr l /\ kept i).
Proof.
  assert (Hstop : forall lft s, (match lft with Some 0 => true | _ => false end) || sa_is_reached s = true -> lft = Some 0 \/ sa_is_reached s = true).
  { intros lft s H. apply orb_true_iff in H. destruct H; [|auto]. destruct lft as [[|]|]; auto; discriminate. }
  induction fuel as [|fuel IH]; intros lft i s r sol s' r' Hv H; cbn [sa_step_b] in H;
    (destruct ((match lft with Some 0 => true | _ => false end) || sa_is_reached s) eqn:Een;
      [injection H as <- <- <-; left; split; [reflexivity|apply Hstop; exact Een]|]); [discriminate|].
  destruct (azp_fit expf order O azp_fuel g attr p i s r) as [[[labels s1] r1]|e|] eqn:Ea; try discriminate. cbn [bind] in H.
  destruct (Hazp _ _ _ _ _ _ Hv Ea) as [H1 [H2 H3]].
  destruct (match i with Some old => same_solution old labels | None => false end).
  - injection H as <- <- <-. right. exists labels. auto.
  - destruct (IH _ _ _ _ _ _ _ H1 H) as [[-> _]|[l [-> [H4 [H5 _]]]]]; right; [exists labels|exists l]; auto.
Qed.

Lemma sa_outer_apart a cooling : sa_maxit a <> Some 0 -> forall fuel nonmoving t i s visited r sol m' r', valid_request g p i ->
  sa_outer expf order O azp_fuel g attr p fuel a cooling nonmoving t i s visited r = Ok (sol, m', r') ->
  (sol = i /\ sa_nonmoving_steps a <= nonmoving) \/ (exists l, sol = Some l /\ kept_apart missing attr l /\ kept i).
Proof.
  intros Hm. induction fuel as [|fuel IH]; intros nonmoving t i s visited r sol m' r' Hv H; cbn [sa_outer] in H;
    (destruct (Nat.ltb_spec nonmoving (sa_nonmoving_steps a)) as [Hlt|Hge]; [|injection H as <- <- <-; left; auto]); [discriminate|].
  destruct (sa_step_b expf order O azp_fuel g attr p fuel (sa_maxit a) i (sa_reset s) r) as [[[sol1 s1] r1]|e|] eqn:Es; try discriminate. cbn [bind] in H.
  destruct (sa_step_b_apart _ _ _ _ _ _ _ _ Hv Es) as [[_ [H0|H0]]|[l [-> [Hvl [Hk Hki]]]]]; [congruence|rewrite sa_reset_not_reached in H0; discriminate|].
  destruct (Nat.leb _ _); [injection H as <- <- <-; right; exists l; auto|]. right.
  destruct (sa_is_moved (sa_set_temperature (t * cooling) s1)); (destruct (IH _ _ _ _ _ _ _ _ _ Hvl H) as [[-> _]|[l' [-> [H5 _]]]]; [exists l|exists l']; auto).
Qed.
End SaLoops.
End Fits.
End Apart.

(** ** ObjectiveFunctionCenter looks at every row at once *)
Section Center.
Variables (missing : list Q -> bool) (d : list Q -> list Q -> Q) (center : list (list Q) -> list Q) (reduction : list Q -> Q).
Notation O := (checked_centered missing d center reduction).

Lemma checked_center_none rows l v i : checked_center_call missing d center reduction l rows = Ok v -> i < length l -> missing (row rows i) = false.
Proof.
  intros H Hi. unfold checked_center_call in H. destruct (mapM _ (uniqueZ l)) as [hs|e|] eqn:Eh; try discriminate.
  destruct (nth_error l i) as [z|] eqn:Ez; [|apply nth_error_None in Ez; lia].
  destruct (mapM_Ok_all _ _ _ Eh z) as [y Ey]; [apply uniqueZ_In; eapply nth_error_In; eauto|].
  unfold checked_heterogeneity, checked_to_point in Ey. destruct (existsb missing (rows_of l z rows)) eqn:E1; [discriminate|].
  apply not_true_is_false. intros Hm. assert (existsb missing (rows_of l z rows) = true); [|congruence].
  apply existsb_exists. exists (row rows i). split; [|auto]. unfold rows_of. apply in_map, where_eq_In; auto.
Qed.

Variable g : graph.
Variable attr : list (list Q).
Definition none_missing (c : nat) : Prop := forall a, In a (comp_nodes g c) -> missing (row attr a) = false.

Lemma center_start c s l s1 : wf (comp_graph g c) l -> strat_start O s l (map (row attr) (comp_nodes g c)) (comp_nodes g c) = Ok s1 -> none_missing c.
Proof.
  intros [Hl _] E a Ha. destruct (asks_start O _ _ _ _ _ E) as [_ [v Hv]]. cbn in Hv. apply In_nth_error in Ha. destruct Ha as [i Hi].
  assert (Hlt : i < length l) by (rewrite Hl, comp_graph_n; eapply nth_error_lt; eauto).
  pose proof (checked_center_none _ _ _ i Hv Hlt) as H. unfold row at 1 in H. erewrite nth_error_nth in H; [exact H|]. apply map_nth_error. exact Hi.
Qed.

Lemma center_fit (S : Type) start component order (J : nat -> S -> Prop) : (forall l, Permutation (order l) l) ->
  (forall c l s r j, c < n_components g -> j < n_components g -> wf (comp_graph g c) l -> J j s ->
     post anyexn True (run_component S start component g attr c l s r)
       (fun '(l', s2, _) => J (Datatypes.S j) s2 /\ length l' = length l /\ none_missing c)) ->
  forall n_regions initial s r, good_input g n_regions initial -> J 0 s ->
  post anyexn True (fit S start component order g attr n_regions initial s r) (fun _ => forall a, a < gn g -> missing (nth a attr []) = false).
Proof.
  intros Hord Hcomp n_regions initial s r Hgood HJ.
  eapply (post_weaken anyexn anyexn True True); [auto|auto| |
    apply (fit_post_n S start component order g attr anyexn True J (fun c _ _ => none_missing c)); auto].
  intros [[labels s'] r'] _ [_ [labels0 [_ [_ HR]]]] a Ha. apply (HR (comp_label g a) (comp_label_lt g a Ha)). apply comp_nodes_In. auto.
Qed.

Variable expf : Q -> Q.
Variable order : list edge -> list edge.
Hypothesis Hord : forall l, Permutation (order l) l.

Theorem azp_fit_center fuel n_regions initial s r : good_input g n_regions initial ->
  post anyexn True (azp_fit expf order O fuel g attr n_regions initial s r) (fun _ => forall a, a < gn g -> missing (nth a attr []) = false).
Proof.
  intros Hgood. unfold azp_fit. apply (center_fit strategy _ _ order (fun _ _ => True)); auto.
  intros c l s0 rg j Hc Hj Hwf _. unfold run_component.
  destruct (strat_start O s0 l (map (row attr) (comp_nodes g c)) (comp_nodes g c)) as [s1|e|] eqn:Es; cbn [bind post]; unfold anyexn; auto.
  pose proof (center_start c s0 l s1 Hwf Es) as Hno.
  eapply (post_weaken anyexn anyexn True True); [auto|auto| |
    apply (component_loose strategy (strat_call expf) strat_val (comp_graph g c) anyexn True (fun _ _ => True)) with (m := fun _ => 0)]; auto.
  - intros [[l' s'] r'] _ [H1 _]. destruct Hwf as [Hl _]. split; [auto|]. split; [lia|auto].
  - intros. apply any_outcome. intros [[b ?] ?] _. destruct b; auto.
  - apply Hwf.
  - apply (comp_part_nonempty g c l Hc Hwf).
Qed.

Theorem basic_fit_center fuel maxlen reps n_regions initial s r : good_input g n_regions initial ->
  post anyexn True (basic_fit_with expf order O fuel maxlen reps g attr n_regions initial s r) (fun _ => forall a, a < gn g -> missing (nth a attr []) = false).
Proof.
  intros Hgood. unfold basic_fit_with. apply (center_fit strategy _ _ order (fun _ _ => True)); auto.
  intros c l s0 rg j Hc Hj Hwf _. unfold run_component.
  destruct (strat_start O s0 l (map (row attr) (comp_nodes g c)) (comp_nodes g c)) as [s1|e|] eqn:Es; cbn [bind post]; unfold anyexn; auto.
  pose proof (center_start c s0 l s1 Hwf Es) as Hno.
  eapply (post_weaken anyexn anyexn True True); [auto|auto| |
    apply (basic_component_with_post strategy (strat_call expf) O (map (row attr) (comp_nodes g c)) (comp_graph g c) anyexn True (fun _ => True) (fun _ => True)
      (wf (comp_graph g c))) with (M := fun _ => 0)]; auto.
  - intros [[l' s'] r'] _ [[H1 _] _]. destruct Hwf as [Hl _]. split; [auto|]. split; [lia|auto].
  - intros. apply any_outcome. intros [[? ?] ?] _. auto.
  - intros. apply anyexn_post.
Qed.

Theorem reactive_fit_center maxit k1 k2 n_regions initial s r : good_input g n_regions initial -> n_components g <= 1 -> rw_visited s = [] ->
  post anyexn True (reactive_fit_with expf order O maxit k1 k2 g attr n_regions initial s r) (fun _ => forall a, a < gn g -> missing (nth a attr []) = false).
Proof.
  intros Hgood H1 Hv. unfold reactive_fit_with. apply (center_fit _ _ _ order (fun j s => j = 0 -> rw_visited s = [])); auto.
  intros c l s0 rg j Hc Hj Hwf HJ. unfold run_component.
  destruct (strat_start O (rw_strat s0) l (map (row attr) (comp_nodes g c)) (comp_nodes g c)) as [s1|e|] eqn:Es; cbn [bind post]; unfold anyexn; auto.
  pose proof (center_start c _ l s1 Hwf Es) as Hno.
  eapply (post_weaken anyexn anyexn True True); [auto|auto| |
    apply (reactive_component_with_post strategy (strat_call expf) O (map (row attr) (comp_nodes g c)) (comp_graph g c) (fun _ => True) (fun _ => True)
      (wf (comp_graph g c)))]; auto.
  - intros [[l' s'] r'] _ [[H2 _] _]. destruct Hwf as [Hl _]. split; [discriminate|]. split; [lia|auto].
  - intros. apply any_outcome. intros [[? ?] ?] _. auto.
  - cbn. rewrite HJ by lia. intros w [].
Qed.
End Center.
