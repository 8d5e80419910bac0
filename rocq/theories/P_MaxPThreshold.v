(** Thresholds that are NaN or infinite in MaxPRegionsHeu: proofs. *)
From Verif Require Import Base Spec SpecData SpecBound M_Graph P_Graph M_Util P_Base P_Util P_Forest P_Init P_Initial
  M_Objective P_Sum P_Objective M_Azp P_Azp P_Strategy P_Fit P_AzpFit M_Sa M_MaxP P_MaxP P_MaxP2 P_MaxP3 P_MaxP4 Props_Strategy
  P_Upto M_Grow P_MaxPChecked M_MaxPThreshold.

(** ** the comparisons *)
Lemma bcompared_same_length x thr : length x = length thr -> bcompared x thr = combine x thr.
Proof. destruct x as [|v [|v2 x]], thr as [|t [|t2 thr]]; cbn; intros H; auto; lia. Qed.
Lemma all_at_least_spec x : forall thr, length x = length thr ->
  (all_at_least thr x = true <-> forall k b, nth_error thr k = Some b -> at_least (nth k x 0%Q) b = true).
Proof.
  unfold all_at_least. intros thr0 H0. rewrite bcompared_same_length by auto. revert thr0 H0.
  induction x as [|a x IH]; intros [|t thr] H; cbn in H; try lia.
  - cbn. split; [|auto]. intros _ k t Hk. destruct k; discriminate.
  - cbn [combine forallb fst snd]. rewrite andb_true_iff, IH by lia. split.
    + intros [H1 H2] [|k] t' Hk; cbn in *; [injection Hk as <-; auto|apply H2; auto].
    + intros Hall. split; [apply (Hall 0); reflexivity|]. intros k t' Hk. apply (Hall (S k)). auto.
Qed.
Lemma any_less_spec x : forall thr, length x = length thr ->
  (any_less thr x = false <-> forall k b, nth_error thr k = Some b -> less_than (nth k x 0%Q) b = false).
Proof.
  unfold any_less. intros thr0 H0. rewrite bcompared_same_length by auto. revert thr0 H0.
  induction x as [|a x IH]; intros [|t thr] H; cbn in H; try lia.
  - cbn. split; [|auto]. intros _ k t Hk. destruct k; discriminate.
  - cbn [combine existsb fst snd]. rewrite orb_false_iff, IH by lia. split.
    + intros [H1 H2] [|k] t' Hk; cbn in *; [injection Hk as <-; auto|apply H2; auto].
    + intros Hall. split; [apply (Hall 0); reflexivity|]. intros k t' Hk. apply (Hall (S k)). auto.
Qed.
Lemma bcompared_nil thr : bcompared [] thr = [].
Proof. destruct thr as [|t [|t2 thr]]; reflexivity. Qed.
Lemma compared_nil thr : compared [] thr = [].
Proof. destruct thr as [|t [|t2 thr]]; reflexivity. Qed.
Lemma made_finite_length thr thr' : made_finite thr thr' -> length thr = length thr'.
Proof. intros H. induction H; cbn; auto. Qed.
Lemma made_finite_nth thr thr' : made_finite thr thr' -> forall k t, nth_error thr' k = Some t ->
  exists b, nth_error thr k = Some b /\ match b with Number q => t = q | _ => (t <= 0)%Q end.
Proof.
  intros H. induction H as [|b t thr thr' Hb H IH]; intros k u Hk; [destruct k; discriminate|].
  destruct k as [|k]; cbn in Hk; [injection Hk as <-; exists b; split; [reflexivity|exact Hb]|cbn; apply IH; auto].
Qed.
Lemma made_finite_nth_l thr thr' : made_finite thr thr' -> forall k b, nth_error thr k = Some b ->
  exists t, nth_error thr' k = Some t /\ match b with Number q => t = q | _ => (t <= 0)%Q end.
Proof.
  intros H. induction H as [|b t thr thr' Hb H IH]; intros k u Hk; [destruct k; discriminate|].
  destruct k as [|k]; cbn in Hk; [injection Hk as <-; exists t; split; [reflexivity|exact Hb]|cbn; apply IH; auto].
Qed.
Lemma Qltb_false x y : Qltb x y = false <-> (y <= x)%Q.
Proof.
  split; intros H.
  - apply Qnot_lt_le. intros C. apply Qltb_lt in C. congruence.
  - destruct (Qltb x y) eqn:E; [|auto]. apply Qltb_lt in E. lra.
Qed.
Definition nonneg (x : list Q) : Prop := forall q, In q x -> (0 <= q)%Q.
Lemma nonneg_nth x k : nonneg x -> (0 <= nth k x 0)%Q.
Proof. intros H. destruct (nth_in_or_default k x 0%Q) as [Hi|Hi]; [auto|rewrite Hi; lra]. Qed.
Lemma nonneg_add x : forall y, nonneg x -> nonneg y -> nonneg (add_rows x y).
Proof.
  induction x as [|a x IH]; intros [|b y] Hx Hy; cbn [add_rows]; auto.
  intros q [<-|Hq].
  - pose proof (Hx a (or_introl eq_refl)). pose proof (Hy b (or_introl eq_refl)). lra.
  - apply (IH y); auto; intros z Hz; [apply Hx|apply Hy]; right; auto.
Qed.
Lemma add_rows_length_same x : forall y, length x = length y -> length (add_rows x y) = length x.
Proof. induction x as [|a x IH]; intros [|b y] H; cbn in *; auto; lia. Qed.
Lemma add_rows_nil x : add_rows x [] = x.
Proof. destruct x; reflexivity. Qed.

(** ** the construction phase *)
Section Same.
Variables (g : graph) (sp : list (list Q)) (thr : list bound) (thr' : list Q).
Hypothesis Hsh : forall x, In x sp -> length x = length thr.
Hypothesis Hpos : non_negative sp.
Hypothesis Hfin : made_finite thr thr'.
Hypothesis Hno : ~ In PosInf thr.

Definition amounts (x x' : list Q) : Prop := x = x' /\ nonneg x /\ (x = [] \/ length x = length thr).
Lemma row_amounts a : amounts (row sp a) (row sp a).
Proof.
  split; [auto|]. unfold row. destruct (nth_in_or_default a sp []) as [H|H]; [|rewrite H; split; [intros q []|auto]].
  split; [intros q Hq; apply (Hpos (nth a sp [])); auto|right; auto].
Qed.
Lemma add_amounts x x' a : amounts x x' -> amounts (add_rows x (row sp a)) (add_rows x' (row sp a)).
Proof.
  intros [<- [Hx Hl]]. split; [auto|]. destruct (row_amounts a) as [_ [Ha Hla]]. split; [apply nonneg_add; auto|].
  destruct Hl as [-> | Hl]; [cbn; auto|]. destruct Hla as [-> | Hla]; [rewrite add_rows_nil; auto|]. right. rewrite add_rows_length_same; lia.
Qed.
Lemma short_amounts x x' : amounts x x' -> any_less thr x = negb (reaches x' thr').
Proof.
  intros [<- [Hx Hl]]. destruct Hl as [-> | Hl].
  - unfold any_less, reaches. rewrite bcompared_nil, compared_nil. reflexivity.
  - pose proof (made_finite_length _ _ Hfin) as Hlt. assert (Hiff : any_less thr x = false <-> reaches x thr' = true).
    { rewrite any_less_spec, reaches_spec by lia. split; intros H k t Hk.
      - destruct (made_finite_nth _ _ Hfin k t Hk) as [b [Eb Hb]]. specialize (H k b Eb). pose proof (nonneg_nth x k Hx).
        destruct b; cbn in H; [subst; apply Qltb_false; auto|discriminate|lra|lra].
      - destruct (made_finite_nth_l _ _ Hfin k t Hk) as [u [Eu Hu]]. specialize (H k u Eu).
        destruct t; cbn; [subst; apply Qltb_false; auto| |auto|auto]. exfalso. apply Hno. eapply nth_error_In; eauto. }
    destruct (any_less thr x) eqn:E1, (reaches x thr') eqn:E2; auto; [destruct Hiff as [_ Hiff]|destruct Hiff as [Hiff _]]; specialize (Hiff eq_refl); discriminate.
Qed.
Lemma enough_amounts x : amounts x x -> all_at_least thr x = true -> reaches x thr' = true.
Proof.
  intros [_ [Hx Hl]] H. destruct Hl as [-> | Hl]; [unfold reaches; rewrite compared_nil; reflexivity|].
  pose proof (made_finite_length _ _ Hfin) as Hlt. apply reaches_spec; [lia|]. intros k t Hk. rewrite all_at_least_spec in H by auto.
  destruct (made_finite_nth _ _ Hfin k t Hk) as [b [Eb Hb]]. specialize (H k b Eb). pose proof (nonneg_nth x k Hx).
  destruct b; cbn in H; [subst; apply Qle_bool_iff; auto|discriminate|lra|lra].
Qed.

Lemma same_construction (LS : Type) wrap ls_fit obj attr new d max_it labels0 (ls : option LS) r :
  bmaxp_fit LS wrap ls_fit obj attr new d g sp thr max_it labels0 ls r = maxp_fit LS wrap ls_fit obj attr new d g sp thr' max_it labels0 ls r.
Proof.
  unfold bmaxp_fit.
  pose proof (open_maxp_fit_upto noexn d g attr sp sp thr' (all_at_least thr) (any_less thr) (find_best_area d attr) (find_best_region_idx d attr) amounts
    row_amounts add_amounts (fun a => enough_amounts (row sp a) (row_amounts a)) short_amounts
    (fun R C r => upto_refl noexn eq _ (fun a => eq_refl)) (fun a P C r => upto_refl noexn eq _ (fun x => eq_refl))
    LS LS wrap wrap ls_fit ls_fit obj obj attr (@eq LS)) as H.
  assert (H1 : forall s s' : LS, s = s' -> wrap s = wrap s') by (intros; subst; auto).
  assert (H2 : forall s s' mp l r, s = s' -> upto noexn (fun '(x, t, r1) '(x', t', r1') => x = x' /\ r1 = r1' /\ t = t') (ls_fit s mp l r) (ls_fit s' mp l r)).
  { intros s s' mp l r0 <-. apply upto_refl. intros [[x t] r1]. auto. }
  specialize (H H1 H2 (fun l => upto_refl noexn eq _ (fun a => eq_refl)) new new max_it labels0 ls ls r ltac:(destruct ls; auto) ltac:(intros _ r0; auto)).
  destruct H as [[e [_ []]]|H].
  destruct (open_maxp_fit _ _ _ _ _ _ _ _ _ _ _ _ _ _ _ _) as [[[l t] r1]|e|], (maxp_fit _ _ _ _ _ _ _ _ _ _ _ _ _ _) as [[[l' t'] r1']|e'|]; cbn in H; try contradiction; [|congruence|auto].
  destruct H as [-> [-> Ht]]. destruct t, t'; try contradiction; congruence.
Qed.
End Same.

(** ** a threshold of plus infinity *)
Section Infinite.
Variables (g : graph) (sp : list (list Q)) (thr : list bound).
Hypothesis Hsh : shaped_for sp thr (gn g).
Hypothesis Hpos : non_negative sp.
Definition keep (b : bound) (q : Q) : Q := match b with Number _ => q | _ => 0%Q end.
Definition masked (x : list Q) : list Q := map (fun p => keep (snd p) (fst p)) (combine x thr).
Definition instead : list Q := map (fun b => match b with Number q => q | PosInf => 1%Q | _ => 0%Q end) thr.
Lemma masked_length x : length x = length thr -> length (masked x) = length thr.
Proof. intros H. unfold masked. rewrite map_length, combine_length. lia. Qed.
Lemma masked_nth x k b : length x = length thr -> nth_error thr k = Some b -> nth k (masked x) 0%Q = keep b (nth k x 0%Q).
Proof.
  unfold masked. clear. revert thr k. induction x as [|a x IH]; intros [|t thr] [|k] H Hk; cbn in *; try lia; try discriminate; [injection Hk as <-; auto|apply IH; auto].
Qed.
Lemma masked_add x y : length x = length thr -> length y = length thr -> masked (add_rows x y) = add_rows (masked x) (masked y).
Proof.
  unfold masked. clear. revert thr y. induction x as [|a x IH]; intros [|t thr] [|b y] Hx Hy; cbn in *; try lia; auto. rewrite IH by lia. f_equal. destruct t; reflexivity.
Qed.
Lemma masked_nil : masked [] = [].
Proof. reflexivity. Qed.
Definition stands (x x' : list Q) : Prop := x' = masked x /\ (x = [] \/ length x = length thr).
Definition masked_sp : list (list Q) := map masked sp.
Lemma row_masked a : row masked_sp a = masked (row sp a).
Proof. unfold row, masked_sp. rewrite <- masked_nil at 1. apply map_nth. Qed.
Lemma row_stands a : stands (row sp a) (row masked_sp a).
Proof. split; [apply row_masked|]. unfold row. destruct (nth_in_or_default a sp []) as [H|H]; [right; apply Hsh; auto|auto]. Qed.
Lemma add_stands x x' a : stands x x' -> stands (add_rows x (row sp a)) (add_rows x' (row masked_sp a)).
Proof.
  intros [-> Hl]. destruct (row_stands a) as [Ea Hla]. rewrite Ea.
  destruct Hl as [-> | Hl]; [split; auto|]. destruct Hla as [Hla|Hla].
  - rewrite Hla, masked_nil, !add_rows_nil. split; auto.
  - split; [rewrite masked_add; auto|right; rewrite add_rows_length_same; lia].
Qed.
Lemma instead_nth k t : nth_error instead k = Some t -> exists b, nth_error thr k = Some b /\ t = match b with Number q => q | PosInf => 1%Q | _ => 0%Q end.
Proof. unfold instead. intros H. rewrite nth_error_map in H. destruct (nth_error thr k) as [b|]; [|discriminate]. injection H as <-. eauto. Qed.
Lemma short_stands x x' : stands x x' -> any_less thr x = negb (reaches x' instead).
Proof.
  intros [-> Hl]. destruct Hl as [-> | Hl].
  - unfold any_less, reaches. rewrite masked_nil, bcompared_nil, compared_nil. reflexivity.
  - assert (Hli : length instead = length thr) by (unfold instead; apply map_length).
    assert (Hiff : any_less thr x = false <-> reaches (masked x) instead = true).
    { rewrite any_less_spec, reaches_spec by (rewrite ?masked_length; lia). split; intros H k t Hk.
      - destruct (instead_nth k t Hk) as [b [Eb ->]]. specialize (H k b Eb). rewrite (masked_nth x k b Hl Eb).
        destruct b; cbn in *; [apply Qltb_false; auto|discriminate|lra|lra].
      - specialize (H k (match t with Number q => q | PosInf => 1%Q | _ => 0%Q end)). unfold instead in H. rewrite nth_error_map, Hk in H. specialize (H eq_refl).
        rewrite (masked_nth x k t Hl Hk) in H. destruct t; cbn in *; [apply Qltb_false; auto|lra|auto|auto]. }
    destruct (any_less thr x) eqn:E1, (reaches (masked x) instead) eqn:E2; auto; [destruct Hiff as [_ Hiff]|destruct Hiff as [Hiff _]]; specialize (Hiff eq_refl); discriminate.
Qed.
Lemma enough_stands a : all_at_least thr (row sp a) = true -> reaches (row masked_sp a) instead = true.
Proof.
  destruct (row_stands a) as [-> Hl]. intros H. destruct Hl as [-> | Hl]; [unfold reaches; rewrite masked_nil, compared_nil; reflexivity|].
  assert (Hli : length instead = length thr) by (unfold instead; apply map_length).
  apply reaches_spec; [rewrite masked_length; lia|]. intros k t Hk. rewrite all_at_least_spec in H by auto.
  destruct (instead_nth k t Hk) as [b [Eb ->]]. specialize (H k b Eb). rewrite (masked_nth _ k b Hl Eb).
  destruct b; cbn in *; [apply Qle_bool_iff; auto|discriminate|lra|discriminate].
Qed.
Lemma masked_shaped : shaped masked_sp instead (gn g).
Proof.
  destruct Hsh as [H1 H2]. split; [unfold masked_sp; rewrite map_length; auto|]. intros x Hx. apply in_map_iff in Hx. destruct Hx as [y [<- Hy]].
  unfold instead. rewrite map_length. apply masked_length, H2, Hy.
Qed.
Lemma masked_zero k : nth_error thr k = Some PosInf -> forall l, (total_in masked_sp l k == 0)%Q.
Proof.
  intros Hk l. unfold total_in. induction l as [|a l IH]; [reflexivity|]. cbn [map]. rewrite sumQ_cons, IH.
  change (nth a masked_sp []) with (row masked_sp a). rewrite row_masked. destruct (row_stands a) as [_ [-> | Hl]].
  - rewrite masked_nil. destruct k; cbn; lra.
  - rewrite (masked_nth _ k _ Hl Hk). cbn. lra.
Qed.

Theorem infinite_raises (LS : Type) wrap ls_fit obj attr new d max_it labels0 (ls : option LS) r :
  symmetric g -> no_self_loops g -> 0 < gn g -> 0 < max_it -> In PosInf thr ->
  exists m, bmaxp_fit LS wrap ls_fit obj attr new d g sp thr max_it labels0 ls r = Raise (ValueError m).
Proof.
  intros Hsym Hloop Hn Hit Hin. unfold bmaxp_fit.
  apply In_nth_error in Hin. destruct Hin as [k Hk].
  assert (Hmpos : non_negative masked_sp).
  { intros x q Hx Hq. apply in_map_iff in Hx. destruct Hx as [y [<- Hy]]. unfold masked in Hq. apply in_map_iff in Hq. destruct Hq as [[v b] [<- Hq]].
    cbn. apply in_combine_l in Hq. destruct b; cbn; try lra. apply (Hpos y); auto. }
  pose proof (comp_nodes_island g 0 Hn) as Hi.
  destruct (unmet_raises LS wrap ls_fit obj d g attr masked_sp instead Hsym Hloop masked_shaped Hmpos new max_it labels0 ls r 0 _ Hit Hn Hi) as [m Hm].
  { intros C. specialize (C k 1%Q). unfold instead in C. rewrite nth_error_map, Hk in C. specialize (C eq_refl). rewrite (masked_zero k Hk) in C. lra. }
  exists m.
  pose proof (open_maxp_fit_upto noexn d g attr sp masked_sp instead (all_at_least thr) (any_less thr) (find_best_area d attr) (find_best_region_idx d attr) stands
    row_stands add_stands enough_stands short_stands
    (fun R C r => upto_refl noexn eq _ (fun a => eq_refl)) (fun a P C r => upto_refl noexn eq _ (fun x => eq_refl))
    LS LS wrap wrap ls_fit ls_fit obj obj attr (@eq LS)) as H.
  assert (H1 : forall s s' : LS, s = s' -> wrap s = wrap s') by (intros; subst; auto).
  assert (H2 : forall s s' mp l r, s = s' -> upto noexn (fun '(x, t, r1) '(x', t', r1') => x = x' /\ r1 = r1' /\ t = t') (ls_fit s mp l r) (ls_fit s' mp l r)).
  { intros s s' mp l r0 <-. apply upto_refl. intros [[x t] r1]. auto. }
  specialize (H H1 H2 (fun l => upto_refl noexn eq _ (fun a => eq_refl)) new new max_it labels0 ls ls r ltac:(destruct ls; auto) ltac:(intros _ r0; auto)).
  rewrite Hm in H. destruct H as [[e [_ []]]|H].
  destruct (open_maxp_fit _ _ _ _ _ _ _ _ _ _ _ _ _ _ _ _) as [[[l t] r1]|e|]; cbn in H; try contradiction. congruence.
Qed.
End Infinite.
