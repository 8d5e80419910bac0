(** Two fits in different units: if all objective values are multiplied by a positive number, every
    comparison comes out the same. *)
From Verif Require Import Base Spec SpecData M_Graph P_Graph M_Util P_Base P_Util P_Forest P_Init M_Objective P_Sum P_Objective
  M_Azp P_Azp P_Strategy P_Fit M_Sa M_Tabu P_TwoRuns P_Reactive P_Initial P_AzpFit Props_Azp P_Sa.

Lemma azp_fit_shape expf order O fuel g attr p initial s r labels s' r' : symmetric g -> (forall l, Permutation (order l) l) -> shape_ok g initial ->
  azp_fit expf order O fuel g attr p initial s r = Ok ((labels, s'), r') -> length labels = gn g /\ ~ In (-1)%Z labels.
Proof.
  intros Hsym Hord Hsh H. unfold azp_fit in H. pose proof (fit_returns_valid _ _ _ _ _ _ _ _ _ _ _ Hsh H) as Hv.
  pose proof (any_strategy_post strategy (strat_start O) (strat_call expf) strat_val order fuel g attr p initial s r anyexn Hsym Hord Hv) as Hp.
  rewrite H in Hp.
  assert (Hd : azp_delivers g p initial labels).
  { apply Hp; intros; [destruct (strat_start _ _ _ _ _)|destruct (strat_call _ _ _ _ _)]; cbn; unfold anyexn; auto. }
  destruct (azp_delivers_ok _ _ _ _ Hd) as [[H1 _] [H2 _]]. auto.
Qed.

(** ** amounts and thresholds *)
Lemma stretched_add x : forall u x' y y', stretched u x x' -> stretched u y y' -> stretched u (add_rows x y) (add_rows x' y').
Proof.
  induction x as [|a x IH]; intros u [|b x'] [|a1 y] [|b1 y'] Hx Hy; cbn in Hx, Hy |- *; try contradiction; auto.
  destruct Hx as [E1 H1], Hy as [E2 H2]. split; [rewrite E1, E2; ring|]. apply IH; auto.
Qed.
Lemma stretched_sub x : forall u x' y y', stretched u x x' -> stretched u y y' -> stretched u (sub_rows x y) (sub_rows x' y').
Proof.
  induction x as [|a x IH]; intros u [|b x'] [|a1 y] [|b1 y'] Hx Hy; cbn in Hx, Hy |- *; try contradiction; auto.
  destruct Hx as [E1 H1], Hy as [E2 H2]. split; [rewrite E1, E2; ring|]. apply IH; auto.
Qed.
Lemma stretched_length x : forall u x', stretched u x x' -> length x = length x'.
Proof. induction x as [|a x IH]; intros u [|b x'] H; cbn in H |- *; try contradiction; auto. f_equal. destruct H as [_ H]. eauto. Qed.
Lemma stretched_combine x : forall u x' t t', (forall k, (0 < u k)%Q) -> stretched u x x' -> stretched u t t' ->
  forallb (fun p => Qle_bool (snd p) (fst p)) (combine x t) = forallb (fun p => Qle_bool (snd p) (fst p)) (combine x' t').
Proof.
  induction x as [|a x IH]; intros u [|b x'] [|a1 t] [|b1 t'] Hu Hx Hy; cbn in Hx, Hy |- *; try contradiction; auto.
  destruct Hx as [E1 H1], Hy as [E2 H2]. f_equal; [|apply (IH (fun k => u (S k))); auto].
  apply eq_true_iff_eq. rewrite !Qle_bool_iff, E1, E2. symmetry. apply Qmult_le_l, Hu.
Qed.
Lemma stretched_reaches x u x' t t' : (forall k, (0 < u k)%Q) -> length x = length t -> stretched u x x' -> stretched u t t' -> reaches x t = reaches x' t'.
Proof.
  intros Hu Hl Hx Ht. unfold reaches. rewrite !compared_same_length; [eapply stretched_combine; eauto| |auto].
  rewrite <- (stretched_length _ _ _ Hx), <- (stretched_length _ _ _ Ht). auto.
Qed.
Lemma spread_length w x : length x = 1 \/ length x = w -> length (spread w x) = w.
Proof. intros H. destruct x as [|v [|v2 x]]; cbn in *; try lia. apply repeat_length. Qed.
Lemma spread_same w x : length x = w -> spread w x = x.
Proof. intros <-. destruct x as [|v [|v2 x]]; reflexivity. Qed.
Lemma forallb_repeat {A} (f : A -> bool) x n : forallb f (repeat x (S n)) = f x.
Proof. induction n as [|n IH]; cbn in *; [destruct (f x); auto|]. rewrite IH. destruct (f x); auto. Qed.
Lemma combine_repeat_l (v : Q) (t : list Q) : combine (repeat v (length t)) t = map (fun q => (v, q)) t.
Proof. induction t as [|q t IH]; cbn; congruence. Qed.
Lemma combine_repeat_r (t : Q) (x : list Q) : combine x (repeat t (length x)) = map (fun q => (q, t)) x.
Proof. induction x as [|q x IH]; cbn; congruence. Qed.
(** numpy's comparison is the comparison of the arrays with repeated entries *)
Lemma reaches_spread w x t : 0 < w -> length x = 1 \/ length x = w -> length t = 1 \/ length t = w ->
  reaches (spread w x) (spread w t) = reaches x t.
Proof.
  intros Hw Hx Ht. unfold reaches. rewrite compared_same_length by (rewrite !spread_length; auto).
  destruct x as [|v [|v2 x]], t as [|q [|q2 t]]; cbn [length] in *; try lia.
  - cbn [spread compared map]. destruct w as [|w]; [lia|]. clear. induction w as [|w IH]; [reflexivity|].
    change (repeat v (S (S w))) with (v :: repeat v (S w)). change (repeat q (S (S w))) with (q :: repeat q (S w)).
    cbn [combine forallb]. rewrite IH. cbn. destruct (Qle_bool q v); reflexivity.
  - cbn [spread compared]. replace w with (length (q :: q2 :: t)) by (cbn; lia). rewrite combine_repeat_l. reflexivity.
  - cbn [spread compared]. replace w with (length (v :: v2 :: x)) by (cbn; lia). rewrite combine_repeat_r. reflexivity.
  - reflexivity.
Qed.
Lemma nonzero_spread w x : 0 < w -> length x = 1 \/ length x = w -> any_nonzero (spread w x) = any_nonzero x.
Proof.
  intros Hw H. destruct x as [|v [|v2 x]]; try reflexivity. cbn [spread]. unfold any_nonzero. destruct w as [|w]; [lia|]. clear.
  induction w as [|w IH]; [reflexivity|]. change (repeat v (S (S w))) with (v :: repeat v (S w)). cbn [existsb]. rewrite IH. cbn.
  destruct (negb (Qeq_bool v 0)); reflexivity.
Qed.
Lemma spread_add w k x y : k = 1 \/ k = w -> length x = k -> length y = k -> spread w (add_rows x y) = add_rows (spread w x) (spread w y).
Proof.
  intros [ -> | -> ] Hx Hy.
  - destruct x as [|v [|v2 x]], y as [|q [|q2 y]]; cbn in Hx, Hy; try lia. cbn [add_rows spread]. induction w as [|w IH]; [reflexivity|]. cbn in *. congruence.
  - assert (Hl : length (add_rows x y) = w).
    { clear - Hx Hy. revert y w Hx Hy. induction x as [|v x IH]; intros [|q y] w Hx Hy; cbn in *; auto. destruct w; [lia|]. f_equal. apply IH; lia. }
    rewrite !spread_same; auto.
Qed.
Lemma spread_sub w k x y : k = 1 \/ k = w -> length x = k -> length y = k -> spread w (sub_rows x y) = sub_rows (spread w x) (spread w y).
Proof.
  intros [ -> | -> ] Hx Hy.
  - destruct x as [|v [|v2 x]], y as [|q [|q2 y]]; cbn in Hx, Hy; try lia. cbn [sub_rows combine map fst snd spread]. induction w as [|w IH]; [reflexivity|].
    unfold sub_rows in *. cbn in *. congruence.
  - assert (Hl : length (sub_rows x y) = w) by (unfold sub_rows; rewrite map_length, combine_length; lia).
    rewrite !spread_same; auto.
Qed.
Lemma stretched_nonzero x : forall u x', (forall k, (0 < u k)%Q) -> stretched u x x' -> any_nonzero x = any_nonzero x'.
Proof.
  induction x as [|a x IH]; intros u [|b x'] Hu Hx; cbn in Hx |- *; try contradiction; auto.
  destruct Hx as [E1 H1]. f_equal; [|apply (IH (fun k => u (S k))); auto]. f_equal.
  apply eq_true_iff_eq. rewrite !Qeq_bool_iff, E1. specialize (Hu 0%nat). split; [intros ->; ring|]. intros H. apply Qmult_integral in H. destruct H as [H|H]; [lra|auto].
Qed.
(** Two sets of rows on which all tests of the algorithm agree. *)
Definition tests_alike (R : list Q -> list Q -> Prop) (thr thr' : list Q) : Prop :=
  R [] [] /\ (forall x x' y y', R x x' -> R y y' -> R (add_rows x y) (add_rows x' y')) /\
  (forall x x' y y', R x x' -> R y y' -> R (sub_rows x y) (sub_rows x' y')) /\
  forall x x', R x x' -> reaches x thr = reaches x' thr' /\ any_nonzero x = any_nonzero x'.
Lemma same_amounts_tests sp sp' thr thr' : same_amounts sp sp' thr thr' -> exists R, tests_alike R thr thr' /\ forall i, R (nth i sp []) (nth i sp' []).
Proof.
  intros [Hw [u [Hu [Ht [k [Hk Hs]]]]]]. set (w := length thr) in *.
  assert (Ht' : length thr' = 1 \/ length thr' = w).
  { apply stretched_length in Ht. fold w in Ht. destruct thr' as [|q [|q2 t']]; cbn in Ht |- *; auto; lia. }
  assert (Hk' : forall x : list Q, length x = k -> length x = 1 \/ length x = w) by (intros x <-; tauto).
  exists (fun x x' => (x = [] /\ x' = []) \/ (length x' = k /\ stretched u x (spread w x'))).
  split; [|exact Hs]. split; [left; auto|]. split; [|split].
  - intros x x' y y' [[-> ->]|[Lx Hx]] Hy; [exact Hy|]. destruct Hy as [[-> ->]|[Ly Hy]].
    + right. destruct x, x'; auto.
    + right. split.
      * clear - Lx Ly. revert y' k Lx Ly. induction x' as [|v x IH]; intros [|q y] k Hx Hy; cbn in *; auto. destruct k; [lia|]. f_equal. apply IH; lia.
      * rewrite (spread_add w k) by auto. apply stretched_add; auto.
  - intros x x' y y' [[-> ->]|[Lx Hx]] Hy; [left; auto|]. destruct Hy as [[-> ->]|[Ly Hy]].
    + left. unfold sub_rows. destruct x, x'; auto.
    + right. split; [unfold sub_rows; rewrite map_length, combine_length; lia|].
      rewrite (spread_sub w k) by auto. apply stretched_sub; auto.
  - intros x x' [[-> ->]|[Lx Hx]].
    + split; [|auto]. assert (H : forall t, reaches [] t = true) by (intros [|q [|q2 t]]; reflexivity). rewrite !H. auto.
    + split.
      * rewrite <- (reaches_spread w x' thr') by auto. apply (stretched_reaches _ u); auto.
        rewrite (stretched_length _ _ _ Hx), spread_length by auto. reflexivity.
      * rewrite <- (nonzero_spread w x') by auto. apply (stretched_nonzero _ u); auto.
Qed.
Lemma tests_sum R thr thr' (f f' : nat -> list Q) l : tests_alike R thr thr' -> (forall i, R (f i) (f' i)) -> R (sum_rows (map f l)) (sum_rows (map f' l)).
Proof. intros [H0 [H1 _]] H. induction l as [|i l IH]; cbn; [auto|]. apply H1; auto. Qed.
Lemma same_amounts_donor sp sp' thr thr' a labels : same_amounts sp sp' thr thr' -> donor_ok sp thr a labels = donor_ok sp' thr' a labels.
Proof.
  intros H. apply same_amounts_tests in H. destruct H as [R [HT Hs]]. pose proof HT as [H0 [H1 [H2 H3]]].
  unfold donor_ok. change (any_nonzero (row sp a)) with (any_nonzero (nth a sp [])). rewrite (proj2 (H3 _ _ (Hs a))). destruct (any_nonzero _); [|auto].
  apply H3. apply H2; [|apply Hs]. apply (tests_sum R thr thr' (row sp) (row sp')); auto.
Qed.
Lemma same_amounts_start sp sp' thr thr' idx : same_amounts sp sp' thr thr' -> same_amounts (map (row sp) idx) (map (row sp') idx) thr thr'.
Proof.
  intros [Hw [u [Hu [Ht [k [Hk Hs]]]]]]. split; [auto|]. exists u. split; [auto|]. split; [auto|]. exists k. split; [auto|]. intros i.
  destruct (Nat.lt_ge_cases i (length idx)) as [H|H].
  - rewrite (nth_indep _ [] (row sp 0)), (nth_indep (map (row sp') idx) [] (row sp' 0)) by (rewrite map_length; auto). rewrite !map_nth. apply Hs.
  - left. rewrite !nth_overflow by (rewrite map_length; auto). auto.
Qed.

Section Scale.
Variable c : Q.
Hypothesis Hc : (0 < c)%Q.

Lemma scale_ltb x x' y y' : (x' == c * x)%Q -> (y' == c * y)%Q -> Qltb x y = Qltb x' y'.
Proof. intros Ex Ey. apply eq_true_iff_eq. rewrite !Qltb_lt, Ex, Ey. symmetry. apply Qmult_lt_l; auto. Qed.
Lemma scale_neg x x' : (x' == c * x)%Q -> Qltb x 0 = Qltb x' 0.
Proof. intros Ex. apply scale_ltb; [auto|ring]. Qed.
Lemma scale_le0 x x' : (x' == c * x)%Q -> Qle_bool x 0 = Qle_bool x' 0.
Proof.
  intros Ex. apply eq_true_iff_eq. rewrite !Qle_bool_iff, Ex. rewrite <- (Qmult_le_l x 0 c Hc). 
  split; intros H; eapply Qle_trans; try exact H; apply Qle_lteq; right; ring.
Qed.
Lemma scale_eq0 x x' : (x' == c * x)%Q -> Qeq_bool x 0 = Qeq_bool x' 0.
Proof.
  intros Ex. apply eq_true_iff_eq. rewrite !Qeq_bool_iff, Ex. split; [intros ->; ring|]. intros H. apply Qmult_integral in H. destruct H as [H|H]; [|auto].
  rewrite H in Hc. apply Qlt_irrefl in Hc. contradiction.
Qed.

(** ** one component *)
Section Comp.
Variables (O O' : objfun) (rows rows' : list (list Q)) (n : nat).
Hypothesis Hs : forall labels, length labels = n ->
  multiple c (o_call O labels rows) (o_call O' labels rows') /\
  forall a r, a < n -> multiple c (o_update O a r labels rows) (o_update O' a r labels rows').

Definition mult (x y : Q) : Prop := (y == c * x)%Q.
Lemma call_rel labels : length labels = n -> rel mult (o_call O labels rows) (o_call O' labels rows').
Proof. intros H. apply (proj1 (Hs labels H)). Qed.
Lemma update_rel labels a r : length labels = n -> a < n -> rel mult (o_update O a r labels rows) (o_update O' a r labels rows').
Proof. intros H Ha. apply (proj2 (Hs labels H) a r Ha). Qed.

Definition cr (m m' : common) : Prop :=
  c_attr m = rows /\ c_attr m' = rows' /\ c_obj m = O /\ c_obj m' = O' /\ mult (c_val m) (c_val m').

Lemma start_common_rel labels : length labels = n -> rel cr (start_common labels rows O) (start_common labels rows' O').
Proof.
  intros H. unfold start_common. eapply rel_bind; [apply call_rel; auto|]. intros x y _ _ Hxy. cbn. unfold cr. cbn. auto 10.
Qed.
Lemma azp_call_rel m m' a r labels : length labels = n -> a < n -> cr m m' ->
  rel (fun '(b, m1) '(b', m1') => b = b' /\ cr m1 m1') (azp_call m a r labels) (azp_call m' a r labels).
Proof.
  intros Hl Ha [E1 [E2 [E3 [E4 E5]]]]. unfold azp_call. rewrite E1, E2, E3, E4. eapply rel_bind; [apply update_rel; auto|].
  intros x y _ _ Hxy. rewrite <- (scale_le0 x y Hxy). destruct (Qle_bool x 0); cbn; split; auto; unfold cr; cbn; auto 10.
  do 4 (split; auto). unfold mult in *. rewrite E5, Hxy. ring.
Qed.

Inductive sr : strategy -> strategy -> Prop :=
| sr_azp : forall m m', cr m m' -> sr (SAzp m) (SAzp m')
| sr_sa : forall m m' t t' k term reached moved, cr m m' -> (t' == c * t)%Q -> sr (SSa m t k term reached moved) (SSa m' t' k term reached moved)
| sr_maxp : forall m m' sp_all sp_all' sp sp' thr thr' s s', cr m m' -> same_amounts sp_all sp_all' thr thr' -> same_amounts sp sp' thr thr' -> sr s s' ->
    sr (SMaxP m sp_all sp thr s) (SMaxP m' sp_all' sp' thr' s').
Lemma sr_alike s s' : sr s s' -> alike c s s'.
Proof. induction 1; constructor; auto. Qed.
Lemma sr_val s s' : sr s s' -> mult (strat_val s) (strat_val s').
Proof. intros H. inversion H as [? ? K|? ? ? ? ? ? ? ? K|? ? ? ? ? ? ? ? ? ? K]; subst; cbn; apply K. Qed.

Lemma strat_start_rel labels idx : length labels = n -> forall s s', alike c s s' ->
  rel sr (strat_start O s labels rows idx) (strat_start O' s' labels rows' idx).
Proof.
  intros Hl s s' H. induction H as [m m'|m m' t t' k term reached moved Ht|m m' spa spa' sp sp' thr thr' s s' Hsp H IH]; cbn [strat_start].
  - eapply rel_bind; [apply start_common_rel; auto|]. intros x y _ _ Hxy. cbn. constructor; auto.
  - eapply rel_bind; [apply start_common_rel; auto|]. intros x y _ _ Hxy. cbn. constructor; auto.
  - eapply rel_bind; [apply start_common_rel; auto|]. intros x y _ _ Hxy. eapply rel_bind; [apply IH|]. intros i j _ _ Hij. cbn. constructor; auto. apply same_amounts_start; auto.
Qed.

Section Calls.
Variable expf : Q -> Q.
Hypothesis Hexp : forall x y, (x == y)%Q -> (expf x == expf y)%Q.
Lemma sa_prob_rel x x' t t' : mult x x' -> (t' == c * t)%Q -> (sa_prob expf x t == sa_prob expf x' t')%Q.
Proof.
  intros Hx Ht. unfold sa_prob. rewrite <- (scale_eq0 t t' Ht). destruct (Qeq_bool t 0) eqn:E; [reflexivity|]. apply Hexp.
  unfold mult in Hx. rewrite Hx, Ht. assert (Hc0 : ~ (c == 0)%Q) by (intros K; rewrite K in Hc; apply Qlt_irrefl in Hc; auto).
  assert (Ht0 : ~ (t == 0)%Q) by (intros K; apply Qeq_bool_iff in K; congruence). field. auto.
Qed.
Lemma strat_call_rel labels a r : length labels = n -> a < n -> forall s s' rg, sr s s' ->
  rel (fun '(b, s1, r1) '(b', s1', r1') => b = b' /\ r1 = r1' /\ sr s1 s1') (strat_call expf s a r labels rg) (strat_call expf s' a r labels rg).
Proof.
  intros Hl Ha s s' rg H. revert rg. induction H as [m m' K|m m' t t' k term reached moved K Ht|m m' spa spa' sp sp' thr thr' s s' K Hsa Hsp H IH]; intros rg; cbn [strat_call].
  - eapply rel_bind; [apply azp_call_rel; auto|]. intros [b m1] [b' m1'] _ _ [<- Hm]. cbn. split; [auto|]. split; [auto|]. constructor; auto.
  - pose proof K as [E1 [E2 [E3 [E4 E5]]]]. unfold sa_call. rewrite E1, E2, E3, E4. eapply rel_bind; [apply update_rel; auto|].
    intros x y _ _ Hxy. rewrite <- (scale_le0 x y Hxy).
    assert (Kc : cr (mkCommon rows O (c_val m + x)%Q) (mkCommon rows' O' (c_val m' + y)%Q)).
    { unfold cr, mult in *. cbn. do 4 (split; auto). rewrite E5, Hxy. ring. }
    destruct (Qle_bool x 0); [cbn; split; [auto|]; split; [auto|]; constructor; auto|].
    destruct (random_random rg) as [u rg1]. pose proof (sa_prob_rel x y t t' Hxy Ht) as Hp.
    assert (Eb : Qltb u (sa_prob expf x t) = Qltb u (sa_prob expf y t')) by (apply eq_true_iff_eq; rewrite !Qltb_lt, Hp; tauto).
    rewrite <- Eb. destruct (Qltb u _); cbn; split; auto; split; auto; constructor; auto.
  - rewrite <- (same_amounts_donor sp sp' thr thr' a labels Hsp). destruct (donor_ok sp thr a labels); [|cbn; split; [auto|]; split; [auto|]; constructor; auto].
    eapply rel_bind; [apply IH|]. intros [[b s1] r1] [[b' s1'] r1'] _ _ [<- [<- Hs1]]. cbn. split; [auto|]. split; [auto|]. constructor; auto.
Qed.
End Calls.

(** ** the tabu searches *)
Definition br (b b' : option (tmove * nat * Q)) : Prop :=
  match b, b' with None, None => True | Some (m, k, q), Some (m', k', q') => m = m' /\ k = k' /\ mult q q' | _, _ => False end.
Lemma best_of_rel labels : length labels = n -> forall moves i b b', (forall m, In m moves -> mv_area m < n) ->
  br b b' -> rel br
    (best_of O rows labels i moves b) (best_of O' rows' labels i moves b').
Proof.
  intros Hl moves. induction moves as [|m moves IH]; intros i b b' Hm Hb; cbn [best_of]; [exact Hb|].
  eapply rel_bind; [apply update_rel; auto; apply Hm; left; auto|]. intros x y _ _ Hxy. apply IH; [intros; apply Hm; right; auto|].
  destruct b as [[[m1 k1] q1]|], b' as [[[m1' k1'] q1']|]; try contradiction; [|cbn; auto].
  destruct Hb as [<- [<- Hq]]. rewrite <- (scale_ltb x y q1 q1' Hxy Hq). destruct (Qltb x q1); cbn; auto.
Qed.
Lemma improving_tabus_rel labels : length labels = n -> forall tabu, (forall m, In m tabu -> mv_area m < n) ->
  rel (fun a b => a = b /\ forall m, In m a -> In m tabu) (improving_tabus O rows labels tabu) (improving_tabus O' rows' labels tabu).
Proof.
  intros Hl tabu. induction tabu as [|m tabu IH]; intros Hm; cbn [improving_tabus]; [cbn; auto|].
  assert (IH' := IH (fun m' H' => Hm m' (or_intror H'))). destruct (Z.eqb _ _).
  - eapply rel_bind; [apply update_rel; auto; apply Hm; left; auto|]. intros x y _ _ Hxy.
    eapply rel_bind; [exact IH'|]. intros u v _ _ [<- Hu]. rewrite <- (scale_neg x y Hxy). destruct (Qltb x 0); cbn; split; auto.
    intros m' [<-|H']; [left|right]; auto.
  - destruct (improving_tabus O rows labels tabu), (improving_tabus O' rows' labels tabu); cbn in IH' |- *; auto.
    destruct IH' as [-> H']. split; [auto|]. intros m' Hm'. right. auto.
Qed.
Variable g : graph.

Definition tabu_in (tabu : list tmove) : Prop := forall m, In m tabu -> mv_area m < n.
Lemma make_move_tabu_keeps maxlen a r labels tabu l' t' b : length labels = n -> a < n -> tabu_in tabu ->
  make_move_tabu g maxlen a r labels tabu = Ok (l', t', b) -> length l' = n /\ tabu_in t'.
Proof.
  intros Hl Ha Ht H. unfold make_move_tabu, make_move in H. apply bind_Ok in H. destruct H as [ok [_ H]].
  assert (Hd : tabu_in (deque_append maxlen (mkMove a r (lab labels a)) tabu)).
  { intros m Hm. unfold deque_append in Hm. assert (Hm' : In m (tabu ++ [mkMove a r (lab labels a)])).
    { destruct maxlen as [k|]; [|auto]. rewrite <- (firstn_skipn (length (tabu ++ [mkMove a r (lab labels a)]) - k) (tabu ++ [mkMove a r (lab labels a)])).
      apply in_or_app. right. exact Hm. }
    apply in_app_or in Hm'. destruct Hm' as [Hm'|[<-|[]]]; [auto|exact Ha]. }
  destruct ok; injection H as <- <- _; rewrite ?upd_length; auto.
Qed.
Lemma try_move_rel maxlen m labels tabu k k' : length labels = n -> mv_area m < n -> tabu_in tabu -> cr k k' ->
  rel (fun '(l, t, k1) '(l', t', k1') => l = l' /\ t = t' /\ cr k1 k1' /\ length l = n /\ tabu_in t)
    (try_move g maxlen m labels tabu k) (try_move g maxlen m labels tabu k').
Proof.
  intros Hl Hm Ht Hk. unfold try_move. eapply rel_bind; [apply azp_call_rel; auto|]. intros [b k1] [b' k1'] _ _ [<- H1]. destruct b; [|cbn; auto 10].
  destruct (make_move_tabu g maxlen (mv_area m) (mv_new m) labels tabu) as [[[l' t'] b]|e|] eqn:E; cbn; auto.
  destruct (make_move_tabu_keeps _ _ _ _ _ _ _ _ Hl Hm Ht E) as [A B]. auto 10.
Qed.
Lemma possible_in labels tabu m : length labels = n -> In m (possible_moves g labels tabu) -> mv_area m < n.
Proof.
  intros Hl H. unfold possible_moves in H. apply in_flat_map in H. destruct H as [a [Ha H]]. apply in_seq in Ha.
  destruct (_ && _); [|destruct H]. apply filter_In in H. destruct H as [H _]. apply in_map_iff in H. destruct H as [k [<- _]]. cbn. lia.
Qed.

Lemma best_of_In labels : forall ms P j b0 res, best_of O rows labels j ms b0 = Ok res -> forall x, res = Some x ->
  (forall x, b0 = Some x -> In (fst (fst x)) P) -> (forall x, In x ms -> In x P) -> In (fst (fst x)) P.
Proof.
  induction ms as [|m0 ms IH]; intros P j b0 res E x Ex H0 Hms; cbn [best_of] in E; [injection E as <-; auto|].
  apply bind_Ok in E. destruct E as [q0 [_ E]]. eapply IH; [exact E|exact Ex| |intros; apply Hms; right; eauto].
  intros y Hy. destruct (match b0 with None => true | Some (_, _, q1) => Qltb q0 q1 end); [injection Hy as <-; apply Hms; left; auto|auto].
Qed.
Lemma basic_loop_rel maxlen reps : forall fuel stop visited labels tabu k k' r, length labels = n -> tabu_in tabu -> cr k k' ->
  rel (fun '(l, k1, r1) '(l', k1', r1') => l = l' /\ r1 = r1' /\ cr k1 k1')
    (basic_loop O g fuel maxlen reps rows stop visited labels tabu k r) (basic_loop O' g fuel maxlen reps rows' stop visited labels tabu k' r).
Proof.
  induction fuel as [|fuel IH]; intros stop visited labels tabu k k' r Hl Ht Hk; cbn [basic_loop]; [exact Logic.I|].
  eapply rel_bind; [apply best_of_rel; [auto|intros m Hm; eapply possible_in; eauto|exact Logic.I]|]. intros best best' Eb _ Hb. unfold br in Hb.
  assert (Hbest : forall m i q, best = Some (m, i, q) -> mv_area m < n).
  { intros m i q ->. eapply (possible_in labels tabu); [auto|]. apply (best_of_In labels _ (possible_moves g labels tabu) _ _ _ Eb (m, i, q) eq_refl); [intros x H; discriminate|auto]. }
  eapply (rel_bind (fun '(md, l, t, k1) '(md', l', t', k1') => md = md' /\ l = l' /\ t = t' /\ cr k1 k1' /\ length l = n /\ tabu_in t)).
  { destruct best as [[[m i] q]|], best' as [[[m' i'] q']|]; try contradiction; [|cbn; auto 10].
    destruct Hb as [<- [<- Hq]]. rewrite <- (scale_le0 q q' Hq). destruct (Qle_bool q 0); [|cbn; auto 10].
    eapply rel_bind; [apply azp_call_rel; eauto|]. intros [b k1] [b' k1'] _ _ [<- H1]. destruct b; [|cbn; auto 10].
    destruct (make_move_tabu g maxlen (mv_area m) (mv_new m) labels tabu) as [[[l' t'] b]|e|] eqn:E; cbn; auto.
    destruct (make_move_tabu_keeps _ _ _ _ _ _ _ _ Hl (Hbest m i q eq_refl) Ht E) as [A B]. auto 10. }
  intros [[[md l1] t1] k1] [[[md' l1'] t1'] k1'] _ _ [<- [<- [<- [H1 [Hl1 Ht1]]]]]. destruct md; [apply IH; auto|].
  eapply rel_bind; [apply improving_tabus_rel; auto|]. intros its its' _ _ [<- Hin].
  eapply (rel_bind (fun '(l, t, k1, r1) '(l', t', k1', r1') => l = l' /\ t = t' /\ r1 = r1' /\ cr k1 k1' /\ length l = n /\ tabu_in t)).
  { destruct its as [|m0 its]; [cbn; auto 10|].
    destruct (random_element_from (m0 :: its) r) as [[m r1]|e|] eqn:Er; cbn [bind rel]; auto.
    assert (Hm : In m (m0 :: its)) by (apply (random_element_from_inv _ _ _ _ Er)).
    eapply rel_bind; [apply try_move_rel; auto|]. intros [[l2 t2] k2] [[l2' t2'] k2'] _ _ [<- [<- [A [B C]]]]. cbn. auto 10. }
  intros [[[l2 t2] k2] r2] [[[l2' t2'] k2'] r2'] _ _ [<- [<- [<- [H2 [Hl2 Ht2]]]]]. destruct (stop || _); [cbn; auto|].
  eapply (rel_bind (fun '(l, t, k1) '(l', t', k1') => l = l' /\ t = t' /\ cr k1 k1' /\ length l = n /\ tabu_in t)).
  { destruct best as [[[m i] q]|], best' as [[[m' i'] q']|]; try contradiction; [|cbn; auto 10]. destruct Hb as [<- _]. apply try_move_rel; eauto. }
  intros [[l3 t3] k3] [[l3' t3'] k3'] _ _ [<- [<- [H3 [Hl3 Ht3]]]]. apply IH; auto.
Qed.
Lemma basic_component_rel fuel maxlen reps labels k k' r : length labels = n -> cr k k' ->
  rel (fun '(l, k1, r1) '(l', k1', r1') => l = l' /\ r1 = r1' /\ cr k1 k1')
    (basic_component O g fuel maxlen reps labels rows k r) (basic_component O' g fuel maxlen reps labels rows' k' r).
Proof.
  intros Hl Hk. unfold basic_component. destruct (Nat.eqb _ 1); [cbn; auto|]. apply basic_loop_rel; auto. intros m [].
Qed.

Definition rr (s s' : reactive) : Prop :=
  cr (rt_common s) (rt_common s') /\ rt_avg s = rt_avg s' /\ rt_reps s = rt_reps s' /\ rt_visited s = rt_visited s'.
Lemma random_moves_rel : forall p moves labels tabu k k' r, tabu_in moves -> length labels = n -> tabu_in tabu -> cr k k' ->
  rel (fun '(l, t, k1, r1) '(l', t', k1', r1') => l = l' /\ t = t' /\ r1 = r1' /\ cr k1 k1' /\ length l = n /\ tabu_in t)
    (random_moves g p moves labels tabu k r) (random_moves g p moves labels tabu k' r).
Proof.
  induction p as [|p IH]; intros moves labels tabu k k' r Hm Hl Ht Hk; cbn [random_moves]; [cbn; auto 10|].
  destruct (pop_randomly_from moves r) as [[[m rest] r1]|e|] eqn:E; cbn [bind rel]; auto.
  assert (Hp : Permutation moves (m :: rest)).
  { destruct moves as [|m0 ms]; [discriminate|]. destruct (pop_randomly_from_Ok (m0 :: ms) r ltac:(discriminate)) as [x [rs [E' Hp]]]. rewrite E in E'. injection E' as <- <- _. exact Hp. }
  eapply rel_bind; [apply try_move_rel; auto; apply Hm; rewrite Hp; left; auto|].
  intros [[l1 t1] k1] [[l1' t1'] k1'] _ _ [<- [<- [A [B C]]]]. apply IH; auto. intros x Hx. apply Hm. rewrite Hp. right. auto.
Qed.
Lemma reactive_loop_rel k1 k2 : forall maxit start start' ls labels tabu s s' r, length labels = n -> tabu_in tabu -> rr s s' ->
  match start, start' with None, None => True | Some v, Some v' => mult v v' | _, _ => False end ->
  rel (fun '(l, s1, ls1, r1) '(l', s1', ls1', r1') => l = l' /\ ls1 = ls1' /\ r1 = r1' /\ rr s1 s1')
    (reactive_loop O g maxit k1 k2 rows start ls labels tabu s r) (reactive_loop O' g maxit k1 k2 rows' start' ls labels tabu s' r).
Proof.
  induction maxit as [|maxit IH]; intros start start' ls labels tabu s s' r Hl Ht Hs' Hst; cbn [reactive_loop]; [cbn; auto|].
  eapply rel_bind; [apply call_rel; auto|]. intros v v' _ _ Hv.
  assert (Ec : match start with None => true | Some x => Qltb v x end = match start' with None => true | Some x => Qltb v' x end).
  { destruct start as [x|], start' as [x'|]; try contradiction; [apply scale_ltb; auto|reflexivity]. }
  rewrite <- Ec. destruct (negb _); [cbn; auto|].
  eapply rel_bind; [apply best_of_rel; [auto|intros m Hm; eapply possible_in; eauto|exact Logic.I]|]. intros best best' Eb _ Hb. unfold br in Hb.
  destruct best as [[[m i] q]|], best' as [[[m' i'] q']|]; try contradiction; [|reflexivity]. destruct Hb as [<- [<- _]].
  assert (Hm : mv_area m < n).
  { eapply (possible_in labels tabu); [auto|]. apply (best_of_In labels _ (possible_moves g labels tabu) _ _ _ Eb (m, i, q) eq_refl); [intros x H; discriminate|auto]. }
  pose proof Hs' as [H1 [H2 [H3 H4]]].
  eapply rel_bind; [apply try_move_rel; auto|]. intros [[l1 t1] c1] [[l1' t1'] c1'] _ _ [<- [<- [A [B C]]]]. rewrite <- H4, <- H2, <- H3.
  destruct (_ && _).
  - destruct (Nat.leb _ _); [|reflexivity]. eapply rel_bind; [apply random_moves_rel; auto|].
    + intros x Hx. apply (possible_in labels tabu); auto. eapply remove_nth_In; eauto.
    + intros [[[l2 t2] c2] r2] [[[l2' t2'] c2'] r2'] _ _ [<- [<- [<- [D [E F]]]]]. apply IH; auto. unfold rr. cbn. auto.
  - apply IH; auto. unfold rr. cbn. auto.
Qed.
Lemma reactive_component_rel maxit k1 k2 labels s s' r : length labels = n -> rr s s' ->
  rel (fun '(l, s1, r1) '(l', s1', r1') => l = l' /\ r1 = r1' /\ rr s1 s1')
    (reactive_component O g maxit k1 k2 labels rows s r) (reactive_component O' g maxit k1 k2 labels rows' s' r).
Proof.
  intros Hl Hr. unfold reactive_component. destruct (Nat.eqb _ 1); [cbn; auto|].
  eapply rel_bind; [apply reactive_loop_rel; auto; intros m []|]. intros [[[l1 s1] ls1] r1] [[[l1' s1'] ls1'] r1'] _ _ [<- [<- [<- H]]].
  pose proof H as [_ [_ [_ Ev]]]. rewrite <- Ev. destruct (reactive_result ls1 (rt_visited s1)); cbn; auto.
Qed.
End Comp.

(** ** whole fits *)
Section Fits.
Variables (O O' : objfun) (g : graph) (attr attr' : list (list Q)).
Hypothesis Hsym : symmetric g.
Hypothesis Hscale : scaled c (gn g) O O' attr attr'.
Variable order : list edge -> list edge.
Hypothesis Hord : forall l, Permutation (order l) l.

Lemma comp_scale k : forall labels, length labels = gn (comp_graph g k) ->
  multiple c (o_call O labels (map (row attr) (comp_nodes g k))) (o_call O' labels (map (row attr') (comp_nodes g k))) /\
  forall a r, a < gn (comp_graph g k) -> multiple c (o_update O a r labels (map (row attr) (comp_nodes g k))) (o_update O' a r labels (map (row attr') (comp_nodes g k))).
Proof.
  intros labels Hl. rewrite comp_graph_n in *. destruct (Hscale (comp_nodes g k) labels) as [H1 H2]; [apply comp_nodes_NoDup|intros i Hi; apply comp_nodes_In in Hi; tauto|auto|].
  split; [exact H1|]. intros a r Ha. apply H2. lia.
Qed.

Section Exp.
Variable expf : Q -> Q.
Hypothesis Hexp : forall x y, (x == y)%Q -> (expf x == expf y)%Q.

Theorem azp_fit_scale fuel p initial s s' r :
  match initial with Some l => length l = gn g /\ ~ In (-1)%Z l | None => True end -> alike c s s' ->
  rel (two_acc strategy strategy (alike c)) (azp_fit expf order O fuel g attr p initial s r) (azp_fit expf order O' fuel g attr' p initial s' r).
Proof.
  intros Hi Ha. unfold azp_fit. apply fit_two; auto.
  intros k l s1 s1' rg Hk Hwf H1. unfold run_component.
  eapply rel_bind; [apply (strat_start_rel O O' _ _ (gn (comp_graph g k)) (comp_scale k) l (comp_nodes g k) (proj1 Hwf) s1 s1' H1)|].
  intros s2 s2' _ _ H2.
  pose proof (azp_component_two strategy strategy (strat_call expf) (strat_call expf) strat_val strat_val (comp_graph g k) (comp_symmetric g k Hsym)
    (fun x y _ => sr O O' (map (row attr) (comp_nodes g k)) (map (row attr') (comp_nodes g k)) x y) mult
    (fun x x' y y' => scale_ltb x x' y y') (fun x y _ => sr_val O O' _ _ x y)) as Hc'.
  match goal with [|- rel _ ?m ?m'] => assert (Hres : rel (fun '(l1, t1, r1) '(l1', t1', r1') => l1 = l1' /\ r1 = r1' /\
     sr O O' (map (row attr) (comp_nodes g k)) (map (row attr') (comp_nodes g k)) t1 t1') m m') end.
  { apply Hc'; auto. intros x y a z l1 rg1 Hwf1 Hm HI.
    pose proof (strat_call_rel O O' _ _ (gn (comp_graph g k)) (comp_scale k) expf Hexp l1 a z (proj1 Hwf1) (proj1 Hm) x y rg1 HI) as Hr.
    destruct (strat_call expf x a z l1 rg1) as [[[b t1] r1]|e|], (strat_call expf y a z l1 rg1) as [[[b' t1'] r1']|e'|]; cbn in Hr |- *; auto. }
  destruct (azp_component strategy (strat_call expf) strat_val (comp_graph g k) fuel l s2 rg) as [[[l1 t1] r1]|e|],
    (azp_component strategy (strat_call expf) strat_val (comp_graph g k) fuel l s2' rg) as [[[l1' t1'] r1']|e'|]; cbn in Hres |- *; auto.
  destruct Hres as [A [B C]]. split; [auto|]. split; [auto|]. eapply sr_alike; eauto.
Qed.

Lemma alike_reset s s' : alike c s s' -> alike c (sa_reset s) (sa_reset s').
Proof. destruct 1; cbn; constructor; auto. Qed.
Lemma alike_clear s s' : alike c s s' -> alike c (sa_clear_moved s) (sa_clear_moved s').
Proof. destruct 1; cbn; constructor; auto. Qed.
Lemma alike_temperature s s' t t' : (t' == c * t)%Q -> alike c s s' -> alike c (sa_set_temperature t s) (sa_set_temperature t' s').
Proof. intros Ht. destruct 1; cbn; constructor; auto. Qed.
Lemma alike_flags s s' : alike c s s' -> sa_is_reached s = sa_is_reached s' /\ sa_is_moved s = sa_is_moved s'.
Proof. destruct 1; cbn; auto. Qed.

Lemma sa_step_b_scale azp_fuel p : forall fuel left initial s s' r,
  match initial with Some l => length l = gn g /\ ~ In (-1)%Z l | None => True end -> alike c s s' ->
  rel (fun '(l, s1, r1) '(l', s1', r1') => l = l' /\ r1 = r1' /\ alike c s1 s1' /\ match l with Some l => length l = gn g /\ ~ In (-1)%Z l | None => True end)
    (sa_step_b expf order O azp_fuel g attr p fuel left initial s r) (sa_step_b expf order O' azp_fuel g attr' p fuel left initial s' r).
Proof.
  induction fuel as [|fuel IH]; intros left initial s s' r Hi Ha; cbn [sa_step_b]; destruct (alike_flags s s' Ha) as [<- _];
    (destruct (_ || _); [cbn; auto|]); [exact Logic.I|].
  eapply rel_bind; [apply azp_fit_scale; eauto|]. intros [[l s1] r1] [[l' s1'] r1'] E1 _ [H1 [H2 H3]]. cbn in H1, H2, H3. subst l' r1'.
  assert (Hl : length l = gn g /\ ~ In (-1)%Z l).
  { apply (azp_fit_shape expf order O azp_fuel g attr p initial s r l s1 r1); auto. }
  destruct (match initial with Some old => same_solution old l | None => false end); [cbn; auto|]. apply IH; auto.
Qed.

Definition same_sol (x y : option (list Z) * sa_memory * rng) : Prop :=
  x = y /\ match fst (fst x) with Some l => length l = gn g | None => True end.
Lemma sa_outer_scale azp_fuel p a a' cooling : sa_maxit a' = sa_maxit a -> sa_nonmoving_steps a' = sa_nonmoving_steps a -> sa_reps a' = sa_reps a ->
  forall fuel nonmoving t t' initial s s' visited r,
  match initial with Some l => length l = gn g /\ ~ In (-1)%Z l | None => True end -> alike c s s' -> (t' == c * t)%Q ->
  rel same_sol (sa_outer expf order O azp_fuel g attr p fuel a cooling nonmoving t initial s visited r)
         (sa_outer expf order O' azp_fuel g attr' p fuel a' cooling nonmoving t' initial s' visited r).
Proof.
  intros E1 E2 E3. induction fuel as [|fuel IH]; intros nonmoving t t' initial s s' visited r Hi Ha Ht; cbn [sa_outer]; rewrite E2;
    destruct (Nat.ltb nonmoving (sa_nonmoving_steps a)); cbn [rel]; auto; try (destruct (alike_flags s s' Ha) as [_ <-]; split; [reflexivity|]; destruct initial; cbn; tauto).
  rewrite E1. eapply rel_bind; [apply (sa_step_b_scale azp_fuel p fuel (sa_maxit a)); [exact Hi|apply alike_reset, Ha]|].
  intros [[sol s1] r1] [[sol' s1'] r1'] _ _ [<- [<- [H1 H2]]]. destruct sol as [l|]; [|reflexivity].
  cbv zeta. rewrite E3. destruct (alike_flags s1 s1' H1) as [_ Em]. destruct (Nat.leb _ _); [cbn; rewrite Em; split; [reflexivity|cbn; tauto]|].
  assert (H3 : alike c (sa_set_temperature (t * cooling) s1) (sa_set_temperature (t' * cooling) s1')).
  { apply alike_temperature; [rewrite Ht; ring|auto]. }
  destruct (alike_flags _ _ H3) as [_ E4]. rewrite <- E4. clear E4. destruct (sa_is_moved (sa_set_temperature (t * cooling) s1));
    apply IH; auto; try (apply alike_clear; auto); rewrite Ht; ring.
Qed.
Theorem sa_fit_scale azp_fuel p fuel cooling initial a m r t' : shape_ok g initial -> (t' == c * sa_init_temperature a)%Q ->
  rel same_sol (sa_fit expf order O azp_fuel g attr p fuel cooling initial a m r)
         (sa_fit expf order O' azp_fuel g attr' p fuel cooling initial (mkSaArgs t' (sa_maxit a) (sa_moves_term a) (sa_nonmoving_steps a) (sa_reps a)) m r).
Proof.
  intros Hi Ht. unfold sa_fit. destruct (negb _); [reflexivity|]. unfold sa_strategy. cbn [sa_moves_term sa_init_temperature].
  destruct (sa_moves_term a) as [k|]; [|reflexivity]. destruct (Z.ltb k 1); [reflexivity|]. cbn [bind]. apply sa_outer_scale; auto. constructor. auto.
Qed.
End Exp.

Theorem basic_fit_scale fuel maxlen reps p initial k k' r : shape_ok g initial ->
  rel (two_acc common common (fun _ _ => True)) (basic_fit order O fuel maxlen reps g attr p initial k r) (basic_fit order O' fuel maxlen reps g attr' p initial k' r).
Proof.
  intros Hi. unfold basic_fit. apply fit_two; auto. intros j l s1 s1' rg Hk Hwf _. unfold run_component.
  eapply rel_bind; [apply (start_common_rel O O' _ _ (gn (comp_graph g j)) (comp_scale j) l (proj1 Hwf))|]. intros x y _ _ Hxy.
  pose proof (basic_component_rel O O' _ _ (gn (comp_graph g j)) (comp_scale j) (comp_graph g j) fuel maxlen reps l x y rg (proj1 Hwf) Hxy) as H.
  match goal with [|- rel _ ?m ?m'] => destruct m as [[[? ?] ?]|?|], m' as [[[? ?] ?]|?|] end; cbn in H |- *; tauto.
Qed.
Definition same_record (s s' : reactive) : Prop := rt_avg s = rt_avg s' /\ rt_reps s = rt_reps s' /\ rt_visited s = rt_visited s'.
Theorem reactive_fit_scale maxit k1 k2 p initial s s' r : shape_ok g initial -> same_record s s' ->
  rel (two_acc reactive reactive same_record) (reactive_fit order O maxit k1 k2 g attr p initial s r) (reactive_fit order O' maxit k1 k2 g attr' p initial s' r).
Proof.
  intros Hi Hs. unfold reactive_fit. apply fit_two; auto. intros j l s1 s1' rg Hk Hwf [A1 [A2 A3]]. unfold run_component.
  eapply (rel_bind (rr O O' (map (row attr) (comp_nodes g j)) (map (row attr') (comp_nodes g j)))).
  { eapply rel_bind; [apply (start_common_rel O O' _ _ (gn (comp_graph g j)) (comp_scale j) l (proj1 Hwf))|]. intros x y _ _ Hxy. cbn. unfold rr. cbn. auto. }
  intros x y _ _ Hxy.
  pose proof (reactive_component_rel O O' _ _ (gn (comp_graph g j)) (comp_scale j) (comp_graph g j) maxit k1 k2 l x y rg (proj1 Hwf) Hxy) as H.
  match goal with [|- rel _ ?m ?m'] => destruct m as [[[? ?] ?]|?|], m' as [[[? ?] ?]|?|] end; cbn in H |- *; auto.
  destruct H as [B1 [B2 [_ B3]]]. auto.
Qed.
End Fits.
End Scale.
