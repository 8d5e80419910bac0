(** Proofs about rounded arithmetic. *)
From Coq Require Import Qabs Qminmax Qround Qpower.
From Verif Require Export SpecData.
From Verif Require Import Base Spec M_Graph P_Graph M_Util P_Base P_Util M_Objective P_Sum P_Objective M_Azp P_Azp P_Strategy P_Fit P_AzpFit P_TwoRuns M_Float.
Local Open Scope Q_scope.

(** ** powers of two *)
Lemma pow2_pos e : 0 < pow2 e.
Proof. unfold pow2. apply Qpower_0_lt. reflexivity. Qed.
Lemma pow2_add e e' : pow2 (e + e') == pow2 e * pow2 e'.
Proof. unfold pow2. apply Qpower_plus. discriminate. Qed.
Lemma pow2_0 : pow2 0 == 1.
Proof. reflexivity. Qed.
Lemma pow2_inv e : pow2 e * pow2 (- e) == 1.
Proof. rewrite <- pow2_add, Z.add_opp_diag_r. reflexivity. Qed.
Lemma pow2_Z e : (0 <= e)%Z -> pow2 e == inject_Z (2 ^ e).
Proof. intros H. unfold pow2. rewrite Zpower_Qpower by auto. reflexivity. Qed.
Lemma pow2_le e e' : (e <= e')%Z -> pow2 e <= pow2 e'.
Proof.
  intros H. replace e' with (e + (e' - e))%Z by lia. rewrite pow2_add, (pow2_Z (e' - e)) by lia.
  pose proof (pow2_pos e). assert (1 <= inject_Z (2 ^ (e' - e))).
  { change 1 with (inject_Z 1). rewrite <- Zle_Qle. assert (0 < 2 ^ (e' - e))%Z by (apply Z.pow_pos_nonneg; lia). lia. }
  rewrite <- (Qmult_1_r (pow2 e)) at 1. apply Qmult_le_l; auto.
Qed.
Lemma pow2_lt_inv e e' : pow2 e < pow2 e' -> (e < e')%Z.
Proof. intros H. apply Z.nle_gt. intros H'. apply pow2_le in H'. lra. Qed.

(** ** the exponent *)
Lemma log2_frac q : 0 < q -> let e := (Z.log2 (Qnum q) - Z.log2 (QDen q))%Z in pow2 (e - 1) < q /\ q < pow2 (e + 1).
Proof.
  destruct q as [a d]. intros Hq. unfold Qlt in Hq. cbn in Hq. cbn [Qnum Qden]. set (la := Z.log2 a). set (ld := Z.log2 (Z.pos d)).
  assert (Ha : (2 ^ la <= a < 2 ^ Z.succ la)%Z) by (apply Z.log2_spec; lia).
  assert (Hd : (2 ^ ld <= Z.pos d < 2 ^ Z.succ ld)%Z) by (apply Z.log2_spec; lia).
  assert (H1 : (0 <= la)%Z) by apply Z.log2_nonneg. assert (H2 : (0 <= ld)%Z) by apply Z.log2_nonneg.
  assert (Eq : (a # d) == inject_Z a / inject_Z (Z.pos d)) by (rewrite <- Qmake_Qdiv; reflexivity).
  assert (Hdp : 0 < inject_Z (Z.pos d)) by reflexivity.
  assert (Hmul : (a # d) * inject_Z (Z.pos d) == inject_Z a) by (rewrite Eq; field; lra).
  split.
  - apply (Qmult_lt_r _ _ (inject_Z (Z.pos d))); auto. rewrite Hmul.
    apply Qlt_le_trans with (pow2 (la - ld - 1) * pow2 (Z.succ ld)).
    + apply Qmult_lt_l; [apply pow2_pos|]. rewrite pow2_Z by lia. rewrite <- Zlt_Qlt. lia.
    + rewrite <- pow2_add. replace (la - ld - 1 + Z.succ ld)%Z with la by lia. rewrite pow2_Z by auto. rewrite <- Zle_Qle. lia.
  - apply (Qmult_lt_r _ _ (inject_Z (Z.pos d))); auto. rewrite Hmul.
    apply Qlt_le_trans with (pow2 (la - ld + 1) * pow2 ld).
    + rewrite <- pow2_add. replace (la - ld + 1 + ld)%Z with (Z.succ la) by lia. rewrite pow2_Z by lia. rewrite <- Zlt_Qlt. lia.
    + apply Qmult_le_l; [apply pow2_pos|]. rewrite pow2_Z by lia. rewrite <- Zle_Qle. lia.
Qed.

Lemma expo_spec q : 0 < q -> pow2 (expo q) <= q /\ q < pow2 (expo q + 1).
Proof.
  intros Hq. destruct (log2_frac q Hq) as [H1 H2]. unfold expo. set (e := (Z.log2 (Qnum q) - Z.log2 (QDen q))%Z) in *.
  destruct (Qle_bool (pow2 e) q) eqn:E.
  - apply Qle_bool_iff in E. auto.
  - assert (~ pow2 e <= q) by (intros H; apply Qle_bool_iff in H; congruence). replace (e - 1 + 1)%Z with e by lia. split; lra.
Qed.
Lemma expo_mono x y : 0 < x -> x <= y -> (expo x <= expo y)%Z.
Proof.
  intros Hx Hy. destruct (expo_spec x Hx) as [H1 _]. destruct (expo_spec y ltac:(lra)) as [_ H2].
  assert (H : (expo x < expo y + 1)%Z) by (apply pow2_lt_inv; lra). lia.
Qed.
Lemma expo_lt q e : 0 < q -> q < pow2 e -> (expo q < e)%Z.
Proof. intros Hq H. apply pow2_lt_inv. destruct (expo_spec q Hq). lra. Qed.

(** ** to the nearest whole number *)
Lemma half_even_cases q : half_even q = Qfloor q \/ half_even q = (Qfloor q + 1)%Z.
Proof. unfold half_even. destruct (Qltb _ _); auto. destruct (Qltb _ _); auto. destruct (Z.even _); auto. Qed.
Lemma half_even_whole z q : q == inject_Z z -> half_even q = z.
Proof.
  intros H. assert (Hf : Qfloor q = z) by (rewrite H; apply Qfloor_Z). unfold half_even. rewrite Hf.
  assert (E : Qltb (q - inject_Z z) (1 # 2) = true) by (apply Qltb_lt; lra). rewrite E. reflexivity.
Qed.
Lemma half_even_mono x y : x <= y -> (half_even x <= half_even y)%Z.
Proof.
  intros H. pose proof (Qfloor_resp_le x y H) as Hf. destruct (Z.eq_dec (Qfloor x) (Qfloor y)) as [E|E].
  - unfold half_even. rewrite E. set (f := Qfloor y). destruct (Qltb (x - inject_Z f) (1 # 2)) eqn:E1.
    + destruct (Qltb (y - inject_Z f) (1 # 2)); [lia|]. destruct (Qltb (1 # 2) (y - inject_Z f)); [lia|]. destruct (Z.even f); lia.
    + apply Qltb_ge in E1. assert (E2 : Qltb (y - inject_Z f) (1 # 2) = false) by (apply Qltb_ge; lra). rewrite E2.
      destruct (Qltb (1 # 2) (x - inject_Z f)) eqn:E3.
      * apply Qltb_lt in E3. assert (E4 : Qltb (1 # 2) (y - inject_Z f) = true) by (apply Qltb_lt; lra). rewrite E4. lia.
      * destruct (Qltb (1 # 2) (y - inject_Z f)); destruct (Z.even f); lia.
  - destruct (half_even_cases x) as [-> | ->], (half_even_cases y) as [-> | ->]; lia.
Qed.
Lemma half_even_le q z : q <= inject_Z z -> (half_even q <= z)%Z.
Proof. intros H. rewrite <- (half_even_whole z (inject_Z z)) by reflexivity. apply half_even_mono; auto. Qed.
Lemma half_even_ge q z : inject_Z z <= q -> (z <= half_even q)%Z.
Proof. intros H. rewrite <- (half_even_whole z (inject_Z z)) by reflexivity. apply half_even_mono; auto. Qed.

(** ** rounding positive numbers *)
Lemma fl_pos_eq q : let e := Z.max (expo q - 52) (-1074) in fl_pos q == inject_Z (half_even (q * pow2 (- e))) * pow2 e.
Proof. unfold fl_pos. apply Qred_correct. Qed.

Lemma scale_lt q e : 0 < q -> (expo q - 52 <= e)%Z -> q * pow2 (- e) < inject_Z (2 ^ 53).
Proof.
  intros Hq He. destruct (expo_spec q Hq) as [_ H]. rewrite <- (pow2_Z 53) by lia.
  apply Qlt_le_trans with (pow2 (expo q + 1) * pow2 (- e)).
  - apply Qmult_lt_r; [apply pow2_pos|auto].
  - rewrite <- pow2_add. apply pow2_le. lia.
Qed.

Lemma fl_pos_mono x y : 0 < x -> x <= y -> fl_pos x <= fl_pos y.
Proof.
  intros Hx Hy. rewrite (fl_pos_eq x), (fl_pos_eq y). pose proof (expo_mono x y Hx Hy) as He.
  set (ex := Z.max (expo x - 52) (-1074)). set (ey := Z.max (expo y - 52) (-1074)). cbv zeta.
  assert (Hxy : (ex <= ey)%Z) by (unfold ex, ey; lia).
  destruct (Z.eq_dec ex ey) as [E|E].
  - rewrite E. apply Qmult_le_compat_r; [|apply Qlt_le_weak, pow2_pos]. rewrite <- Zle_Qle. apply half_even_mono.
    apply Qmult_le_compat_r; [auto|apply Qlt_le_weak, pow2_pos].
  - assert (Ey : ey = (expo y - 52)%Z) by (unfold ex, ey in *; lia).
    apply Qle_trans with (inject_Z (2 ^ 53) * pow2 ex).
    + apply Qmult_le_compat_r; [|apply Qlt_le_weak, pow2_pos]. rewrite <- Zle_Qle. apply half_even_le.
      apply Qlt_le_weak, scale_lt; [auto|]. unfold ex. lia.
    + apply Qle_trans with (inject_Z (2 ^ 52) * pow2 ey).
      * rewrite <- (pow2_Z 53), <- (pow2_Z 52), <- !pow2_add by lia. apply pow2_le. lia.
      * apply Qmult_le_compat_r; [|apply Qlt_le_weak, pow2_pos]. rewrite <- Zle_Qle. apply half_even_ge.
        rewrite <- (pow2_Z 52) by lia. apply Qle_trans with (pow2 (expo y) * pow2 (- ey)).
        -- rewrite <- pow2_add. apply pow2_le. lia.
        -- apply Qmult_le_compat_r; [|apply Qlt_le_weak, pow2_pos]. apply expo_spec. lra.
Qed.
Lemma fl_pos_nonneg x : 0 < x -> 0 <= fl_pos x.
Proof.
  intros Hx. rewrite fl_pos_eq. cbv zeta. set (e := Z.max _ _). apply Qmult_le_0_compat; [|apply Qlt_le_weak, pow2_pos].
  change 0 with (inject_Z 0). rewrite <- Zle_Qle. apply half_even_ge. change (inject_Z 0) with 0.
  apply Qmult_le_0_compat; [lra|apply Qlt_le_weak, pow2_pos].
Qed.

(** numbers that need no rounding *)
Lemma fl_pos_exact q n e : 0 < q -> q == inject_Z n * pow2 e -> (n <= 2 ^ 53)%Z -> (-1074 <= e)%Z -> fl_pos q == q.
Proof.
  intros Hq E Hn He. rewrite fl_pos_eq. cbv zeta. set (e' := Z.max (expo q - 52) (-1074)).
  assert (Hup : q <= pow2 (e + 53)).
  { rewrite E, Z.add_comm, pow2_add, (pow2_Z 53) by lia. apply Qmult_le_compat_r; [rewrite <- Zle_Qle; auto|apply Qlt_le_weak, pow2_pos]. }
  assert (W : exists w, q * pow2 (- e') == inject_Z w).
  { destruct (Qlt_le_dec q (pow2 (e + 53))) as [H|H].
    - assert (Hx : (expo q < e + 53)%Z) by (apply expo_lt; auto). exists (n * 2 ^ (e - e'))%Z.
      rewrite inject_Z_mult, <- (pow2_Z (e - e')) by (unfold e'; lia). rewrite E, <- Qmult_assoc, <- pow2_add.
      replace (e + - e')%Z with (e - e')%Z by lia. reflexivity.
    - assert (Eq : q == pow2 (e + 53)) by lra.
      assert (Hx : (expo q < e + 54)%Z).
      { apply expo_lt; auto. rewrite Eq. replace (e + 54)%Z with ((e + 53) + 1)%Z by lia. rewrite (pow2_add (e + 53) 1).
        pose proof (pow2_pos (e + 53)). change (pow2 1) with 2. lra. }
      exists (2 ^ (e + 53 - e'))%Z. rewrite <- (pow2_Z (e + 53 - e')) by (unfold e'; lia). rewrite Eq, <- pow2_add.
      replace (e + 53 + - e')%Z with (e + 53 - e')%Z by lia. reflexivity. }
  destruct W as [w Hw]. rewrite (half_even_whole w) by auto. rewrite <- Hw, <- Qmult_assoc, (Qmult_comm (pow2 (- e'))), pow2_inv. ring.
Qed.
Lemma fl_pos_form x : 0 < x -> exists n e, fl_pos x == inject_Z n * pow2 e /\ (0 <= n <= 2 ^ 53)%Z /\ (-1074 <= e)%Z.
Proof.
  intros Hx. exists (half_even (x * pow2 (- Z.max (expo x - 52) (-1074)))), (Z.max (expo x - 52) (-1074)).
  split; [apply fl_pos_eq|]. split; [|lia]. split.
  - apply half_even_ge. change (inject_Z 0) with 0. apply Qmult_le_0_compat; [lra|apply Qlt_le_weak, pow2_pos].
  - apply half_even_le, Qlt_le_weak, scale_lt; [auto|lia].
Qed.

(** ** float64 *)
Lemma max_float_pos : 0 < max_float.
Proof. unfold max_float. apply Qmult_lt_0_compat; [reflexivity|apply pow2_pos]. Qed.

Lemma fl64_pos x : 0 < x -> fl64 x = Qmin (fl_pos x) max_float.
Proof. intros H. unfold fl64. apply Qltb_lt in H. rewrite H. reflexivity. Qed.
Lemma fl64_neg x : x < 0 -> fl64 x = - Qmin (fl_pos (- x)) max_float.
Proof.
  intros H. unfold fl64. assert (E : Qltb 0 x = false) by (apply Qltb_ge; lra). apply Qltb_lt in H. rewrite E, H. reflexivity.
Qed.
Lemma fl64_zero x : x == 0 -> fl64 x = 0.
Proof.
  intros H. unfold fl64. assert (E : Qltb 0 x = false) by (apply Qltb_ge; lra).
  assert (E' : Qltb x 0 = false) by (apply Qltb_ge; lra). rewrite E, E'. reflexivity.
Qed.
Lemma fl64_sign x : (0 < x -> 0 <= fl64 x) /\ (x < 0 -> fl64 x <= 0).
Proof.
  split; intros H.
  - rewrite fl64_pos by auto. apply Q.min_glb; [apply fl_pos_nonneg; auto|apply Qlt_le_weak, max_float_pos].
  - rewrite fl64_neg by auto. assert (0 <= Qmin (fl_pos (- x)) max_float); [|lra].
    apply Q.min_glb; [apply fl_pos_nonneg; lra|apply Qlt_le_weak, max_float_pos].
Qed.
Lemma Qmin_mono a b c : a <= b -> Qmin a c <= Qmin b c.
Proof. intros H. apply Q.min_le_compat_r; auto. Qed.

(** rounding keeps the order *)
Theorem fl64_mono x y : x <= y -> fl64 x <= fl64 y.
Proof.
  intros H. destruct (Q_dec x 0) as [[Hx|Hx]|Hx].
  - destruct (Q_dec y 0) as [[Hy|Hy]|Hy].
    + rewrite !fl64_neg by auto. apply Qopp_le_compat, Qmin_mono, fl_pos_mono; lra.
    + pose proof (proj2 (fl64_sign x) Hx). pose proof (proj1 (fl64_sign y) Hy). lra.
    + rewrite (fl64_zero y) by auto. apply fl64_sign; auto.
  - rewrite !fl64_pos by lra. apply Qmin_mono, fl_pos_mono; auto.
  - rewrite (fl64_zero x) by auto. destruct (Q_dec y 0) as [[Hy|Hy]|Hy]; [lra|apply fl64_sign; auto|rewrite fl64_zero by auto; lra].
Qed.
Lemma fl64_proper x y : x == y -> fl64 x == fl64 y.
Proof. intros H. apply Qle_antisym; apply fl64_mono; lra. Qed.
Lemma fl64_opp x : fl64 (- x) == - fl64 x.
Proof.
  destruct (Q_dec x 0) as [[Hx|Hx]|Hx].
  - rewrite (fl64_neg x) by auto. rewrite (fl64_pos (- x)) by lra. lra.
  - rewrite (fl64_pos x) by auto. rewrite (fl64_neg (- x)) by lra.
    assert (E : fl_pos (- - x) == fl_pos x) by (apply Qle_antisym; apply fl_pos_mono; lra).
    rewrite (Q.min_compat _ _ E _ _ (Qeq_refl max_float)). reflexivity.
  - rewrite !fl64_zero by lra. reflexivity.
Qed.


Lemma is_float_opp q : is_float (- q) -> is_float q.
Proof.
  intros [[n [e [E [Hn He]]]] H]. split; [|rewrite Qabs_opp in H; auto]. exists (- n)%Z, e. split; [|split; [lia|auto]].
  rewrite inject_Z_opp. lra.
Qed.
Lemma is_float_proper q q' : q == q' -> is_float q -> is_float q'.
Proof. intros E [[n [e [E1 H]]] H2]. split; [exists n, e; split; [lra|auto]|rewrite <- E; auto]. Qed.

Theorem fl64_exact q : is_float q -> fl64 q == q.
Proof.
  intros [[n [e [E [Hn He]]]] Hm]. destruct (Q_dec q 0) as [[Hq|Hq]|Hq].
  - rewrite fl64_neg by auto. assert (H : fl_pos (- q) == - q).
    { apply (fl_pos_exact (- q) (- n) e); [lra| |lia|auto]. rewrite inject_Z_opp. lra. }
    rewrite (Q.min_compat _ _ H _ _ (Qeq_refl max_float)), Q.min_l; [lra|]. rewrite Qabs_neg in Hm by lra. auto.
  - rewrite fl64_pos by auto. assert (H : fl_pos q == q) by (apply (fl_pos_exact q n e); auto; lia).
    rewrite (Q.min_compat _ _ H _ _ (Qeq_refl max_float)), Q.min_l; [lra|]. rewrite Qabs_pos in Hm by lra. auto.
  - rewrite fl64_zero by auto. lra.
Qed.

Lemma max_float_is : is_float max_float.
Proof.
  split; [|rewrite Qabs_pos; [lra|apply Qlt_le_weak, max_float_pos]]. exists (2 ^ 53 - 1)%Z, 971%Z. split; [reflexivity|]. split; lia.
Qed.
Lemma fl_pos_is x : 0 < x -> is_float (Qmin (fl_pos x) max_float).
Proof.
  intros Hx. destruct (Q.min_dec (fl_pos x) max_float) as [E|E].
  - destruct (fl_pos_form x Hx) as [n [e [E1 [Hn He]]]]. split.
    + exists n, e. split; [rewrite E; auto|]. split; [lia|auto].
    + rewrite Qabs_pos; [apply Q.le_min_r|]. apply Q.min_glb; [apply fl_pos_nonneg; auto|apply Qlt_le_weak, max_float_pos].
  - eapply is_float_proper; [symmetry; exact E|apply max_float_is].
Qed.
Theorem fl64_is x : is_float (fl64 x).
Proof.
  destruct (Q_dec x 0) as [[Hx|Hx]|Hx].
  - rewrite fl64_neg by auto. apply is_float_opp. eapply is_float_proper; [symmetry; apply Qopp_involutive|]. apply fl_pos_is. lra.
  - rewrite fl64_pos by auto. apply fl_pos_is. auto.
  - rewrite fl64_zero by auto. split; [exists 0%Z, 0%Z; split; [reflexivity|split; lia]|]. apply Qlt_le_weak, max_float_pos.
Qed.

(** whole numbers up to 2^53 *)
Lemma whole_is_float z : (Z.abs z <= 2 ^ 53)%Z -> is_float (inject_Z z).
Proof.
  intros H. split; [exists z, 0%Z; split; [rewrite pow2_0; lra|split; [auto|lia]]|].
  apply Qle_trans with (inject_Z (2 ^ 53)).
  - change (Qabs (inject_Z z)) with (inject_Z (Z.abs z)). rewrite <- Zle_Qle. auto.
  - unfold max_float. rewrite <- (pow2_Z 53) by lia. apply Qle_trans with (pow2 971); [apply pow2_le; lia|].
    rewrite <- (Qmult_1_l (pow2 971)) at 1. apply Qmult_le_compat_r; [discriminate|apply Qlt_le_weak, pow2_pos].
Qed.

(** there are finitely many *)
Theorem floats_finite : exists F : list Q, forall q, is_float q -> exists y, In y F /\ q == y.
Proof.
  set (K := (2 ^ 53 * 2 ^ 2045)%Z).
  assert (HK : max_float * pow2 1074 <= inject_Z K).
  { unfold max_float, K. rewrite inject_Z_mult, <- (pow2_Z 2045), <- Qmult_assoc, <- pow2_add by lia. change (971 + 1074)%Z with 2045%Z.
    apply Qmult_le_compat_r; [|apply Qlt_le_weak, pow2_pos]. rewrite <- Zle_Qle. lia. }
  clearbody K. exists (map (fun i => inject_Z (Z.of_nat i - K) * pow2 (-1074)) (seq 0 (Z.to_nat (2 * K + 1)))).
  intros q [[n [e [E [Hn He]]]] Hm]. set (k := (n * 2 ^ (e + 1074))%Z).
  assert (Ek : q == inject_Z k * pow2 (-1074)).
  { unfold k. rewrite inject_Z_mult, <- (pow2_Z (e + 1074)), <- Qmult_assoc, <- pow2_add by lia.
    replace (e + 1074 + -1074)%Z with e by lia. auto. }
  assert (Hk : (Z.abs k <= K)%Z).
  { rewrite Zle_Qle. change (inject_Z (Z.abs k)) with (Qabs (inject_Z k)).
    assert (E1 : inject_Z k == q * pow2 1074).
    { rewrite Ek, <- Qmult_assoc. rewrite (Qmult_comm (pow2 (-1074))). change (-1074)%Z with (- (1074))%Z. rewrite pow2_inv. ring. }
    rewrite E1, Qabs_Qmult, (Qabs_pos (pow2 1074)) by (apply Qlt_le_weak, pow2_pos).
    apply Qle_trans with (max_float * pow2 1074); [|auto]. apply Qmult_le_compat_r; [auto|apply Qlt_le_weak, pow2_pos]. }
  exists (inject_Z k * pow2 (-1074)). split; [|auto]. apply in_map_iff. exists (Z.to_nat (k + K)). split.
  - f_equal. f_equal. lia.
  - apply in_seq. lia.
Qed.

(** ** whole numbers *)
Lemma whole_Z z : whole (inject_Z z).
Proof. exists z. reflexivity. Qed.
Lemma whole_eq x y : x == y -> whole x -> whole y.
Proof. intros E [z H]. exists z. rewrite <- E. auto. Qed.
Lemma whole_add x y : whole x -> whole y -> whole (x + y).
Proof. intros [z H] [w K]. exists (z + w)%Z. rewrite inject_Z_plus, H, K. reflexivity. Qed.
Lemma whole_sub x y : whole x -> whole y -> whole (x - y).
Proof. intros [z H] [w K]. exists (z - w)%Z. unfold Z.sub. rewrite inject_Z_plus, inject_Z_opp, H, K. reflexivity. Qed.
Lemma whole_abs x : whole x -> whole (Qabs x).
Proof. intros [z H]. exists (Z.abs z). rewrite H. reflexivity. Qed.
Lemma whole_sum l : (forall x, In x l -> whole x) -> whole (sumQ l).
Proof.
  induction l as [|x l IH]; intros H; [exists 0%Z; reflexivity|]. rewrite sumQ_cons. apply whole_add; [apply H; left; auto|].
  apply IH. intros y Hy. apply H. right; auto.
Qed.
Lemma sumQ_nonneg_list l : (forall x, In x l -> 0 <= x) -> 0 <= sumQ l.
Proof. intros H. rewrite <- (map_id l). apply sumQ_nonneg. auto. Qed.
Lemma sumQ_ge l x : (forall y, In y l -> 0 <= y) -> In x l -> x <= sumQ l.
Proof.
  induction l as [|y l IH]; intros H [].
  - subst y. rewrite sumQ_cons. assert (0 <= sumQ l) by (apply sumQ_nonneg_list; intros z Hz; apply H; right; auto). lra.
  - rewrite sumQ_cons. assert (0 <= y) by (apply H; left; auto). assert (x <= sumQ l); [|lra].
    apply IH; auto. intros z Hz. apply H. right; auto.
Qed.

(** float64 is exact on whole numbers *)
Theorem fl64_whole x : whole x -> Qabs x <= inject_Z (2 ^ 53) -> fl64 x == x.
Proof.
  intros [z H] Hb. apply fl64_exact. apply (is_float_proper (inject_Z z)); [symmetry; auto|]. apply whole_is_float.
  rewrite H in Hb. change (Qabs (inject_Z z)) with (inject_Z (Z.abs z)) in Hb. rewrite <- Zle_Qle in Hb. auto.
Qed.
Lemma float64_exact : exact_upto (inject_Z (2 ^ 53)) (ar_add float64) Qplus /\ exact_upto (inject_Z (2 ^ 53)) (ar_sub float64) Qminus.
Proof. split; intros x y Hx Hy H; apply fl64_whole; auto; [apply whole_add|apply whole_sub]; auto. Qed.

(** ** sums over pairs *)
Lemma pairs_In {A} (l : list A) x y : In (x, y) (pairs l) -> In x l /\ In y l.
Proof.
  induction l as [|z l IH]; cbn [pairs]; [intros []|]. intros H. apply in_app_or in H. destruct H as [H|H].
  - apply in_map_iff in H. destruct H as [w [E Hw]]. injection E as <- <-. split; [left|right]; auto.
  - apply IH in H. split; right; tauto.
Qed.
Lemma psum_le {A} (F G : A -> A -> Q) l : (forall x y, In x l -> In y l -> F x y <= G x y) -> psum F l <= psum G l.
Proof.
  intros H. induction l as [|x l IH]; [apply Qle_refl|]. rewrite !psum_cons. apply Qplus_le_compat.
  - apply sumQ_le. intros y Hy. apply H; [left|right]; auto.
  - apply IH. intros a b Ha Hb. apply H; right; auto.
Qed.
Lemma psum_filter {A} (F : A -> A -> Q) (p : A -> bool) l : (forall x y, 0 <= F x y) -> psum F (filter p l) <= psum F l.
Proof.
  intros H. induction l as [|x l IH]; [apply Qle_refl|]. cbn [filter].
  assert (Hs : sumQ (map (F x) (filter p l)) <= sumQ (map (F x) l)).
  { rewrite sumQ_filter. apply sumQ_le. intros y _. destruct (p y); [lra|apply H]. }
  destruct (p x); rewrite ?psum_cons; [lra|].
  assert (0 <= sumQ (map (F x) l)) by (apply sumQ_nonneg; auto). lra.
Qed.
Lemma all_distances_psum d n : all_distances d n == psum d (seq 0 n).
Proof.
  unfold all_distances. induction n as [|n IH]; [reflexivity|].
  rewrite seq_S, map_app, sumQ_app, psum_snoc, IH. cbn [map Nat.add]. rewrite sumQ_cons, sumQ_nil. ring.
Qed.
(** a part of the areas *)
Lemma psum_part d attr (p : nat -> bool) n : (forall x y, 0 <= d x y) -> let idx := filter p (seq 0 n) in
  psum (dist d (map (row attr) idx)) (seq 0 (length idx)) <= psum (dist d attr) (seq 0 n).
Proof.
  intros Hd idx. apply Qle_trans with (psum (dist d attr) idx); [|apply psum_filter; intros; apply Hd].
  assert (E : psum (dist d (map (row attr) idx)) (seq 0 (length idx)) == psum (dist d attr) idx); [|rewrite E; apply Qle_refl].
  transitivity (psum (dist d attr) (map (fun i => nth i idx 0%nat) (seq 0 (length idx)))); [|rewrite map_nth_seq; reflexivity].
  rewrite psum_map. apply psum_ext. intros i j Hi Hj. apply in_seq in Hi, Hj.
  assert (Hrow : forall k, (k < length idx)%nat -> row (map (row attr) idx) k = row attr (nth k idx 0%nat)).
  { intros k Hk. unfold row at 1. apply nth_error_nth. rewrite nth_error_map, (nth_error_nth' idx 0%nat) by auto. reflexivity. }
  unfold dist. rewrite !Hrow by lia. reflexivity.
Qed.

(** ** exact results on whole numbers *)
Section Whole.
Variable A : arith.
Variable M : Q.
Hypothesis Hadd : exact_upto M (ar_add A) Qplus.
Hypothesis Hsub : exact_upto M (ar_sub A) Qminus.
Variable enum : list Z -> list Z.
Hypothesis Henum : forall l, Permutation (enum l) l.

Lemma fsum_from l : forall acc a, acc == a -> whole a -> 0 <= a -> (forall x, In x l -> whole x /\ 0 <= x) -> a + sumQ l <= M ->
  fold_left (ar_add A) l acc == a + sumQ l.
Proof.
  induction l as [|x l IH]; intros acc a Ea Hw Ha Hl HM; cbn [fold_left].
  - rewrite sumQ_nil, Ea. lra.
  - rewrite sumQ_cons in *. destruct (Hl x (or_introl eq_refl)) as [Hx Hx0].
    assert (Hl' : forall y, In y l -> whole y /\ 0 <= y) by (intros y Hy; apply Hl; right; auto).
    assert (0 <= sumQ l) by (apply sumQ_nonneg_list; intros y Hy; apply Hl'; auto).
    rewrite (IH (ar_add A acc x) (a + x)).
    + ring.
    + rewrite <- Ea. apply Hadd; auto; [apply (whole_eq a); [symmetry|]; auto|]. rewrite Ea, Qabs_pos by lra. lra.
    + apply whole_add; auto.
    + lra.
    + auto.
    + lra.
Qed.
Lemma fsum_exact l : (forall x, In x l -> whole x /\ 0 <= x) -> sumQ l <= M -> fsum A l == sumQ l.
Proof.
  intros Hl HM. unfold fsum. rewrite (fsum_from l 0 0); [lra|lra|exists 0%Z; reflexivity|lra|auto|lra].
Qed.

Lemma manhattan_whole x : forall y, (forall q, In q x -> whole q) -> (forall q, In q y -> whole q) -> whole (manhattan x y).
Proof.
  induction x as [|a x IH]; intros y Hx Hy; cbn [manhattan]; [exists 0%Z; reflexivity|].
  destruct y as [|b y]; [exists 0%Z; reflexivity|]. apply whole_add.
  - apply whole_abs, whole_sub; [apply Hx|apply Hy]; left; auto.
  - apply IH; intros q Hq; [apply Hx|apply Hy]; right; auto.
Qed.
Lemma fmanhattan_parts x : forall y, (forall q, In q x -> whole q) -> (forall q, In q y -> whole q) -> manhattan x y <= M ->
  let l := map (fun p => Qabs (ar_sub A (fst p) (snd p))) (combine x y) in
  (forall q, In q l -> whole q /\ 0 <= q) /\ sumQ l == manhattan x y.
Proof.
  induction x as [|a x IH]; intros y Hx Hy HM; cbn [manhattan combine map] in *; [split; [intros q []|reflexivity]|].
  destruct y as [|b y]; [split; [intros q []|reflexivity]|]. cbn [map fst snd].
  assert (Ha : whole a) by (apply Hx; left; auto). assert (Hb : whole b) by (apply Hy; left; auto).
  pose proof (manhattan_nonneg x y) as Hn. pose proof (Qabs_nonneg (a - b)) as Hp.
  destruct (IH y) as [H1 H2]; [intros; apply Hx; right; auto|intros; apply Hy; right; auto|lra|].
  assert (Es : ar_sub A a b == a - b) by (apply Hsub; auto; lra).
  assert (Eq : Qabs (ar_sub A a b) == Qabs (a - b)) by (rewrite Es; reflexivity).
  split.
  - intros q [<-|Hq]; [|auto]. split; [|apply Qabs_nonneg]. apply (whole_eq (Qabs (a - b))); [symmetry; auto|]. apply whole_abs, whole_sub; auto.
  - rewrite sumQ_cons, H2, Eq. reflexivity.
Qed.
Lemma fmanhattan_exact x y : (forall q, In q x -> whole q) -> (forall q, In q y -> whole q) -> manhattan x y <= M ->
  fmanhattan A x y == manhattan x y.
Proof.
  intros Hx Hy HM. destruct (fmanhattan_parts x y Hx Hy HM) as [H1 H2]. unfold fmanhattan. rewrite fsum_exact; auto. rewrite H2. auto.
Qed.

Variable attr : list (list Q).
Hypothesis Hwhole : forall x q, In x attr -> In q x -> whole q.
Hypothesis HM : psum (dist manhattan attr) (seq 0 (length attr)) <= M.
Let n := length attr.
Let D := dist manhattan attr.

Lemma D_sym i j : D i j == D j i.
Proof. apply manhattan_sym. Qed.
Lemma D_zero i : D i i == 0.
Proof. apply manhattan_zero. Qed.
Lemma D_nonneg i j : 0 <= D i j.
Proof. apply manhattan_nonneg. Qed.
Lemma row_whole i q : In q (row attr i) -> whole q.
Proof.
  intros H. unfold row in H. destruct (nth_in_or_default i attr []) as [Hi|E]; [eauto|]. rewrite E in H. destruct H.
Qed.
Lemma D_whole i j : whole (D i j).
Proof. apply manhattan_whole; intros q; apply row_whole. Qed.
Lemma star_le a : (a < n)%nat -> sumQ (map (D a) (others n a)) <= M.
Proof.
  intros Ha. eapply Qle_trans; [|exact HM]. rewrite (psum_perm _ _ (a :: others n a)).
  - rewrite psum_cons. assert (0 <= psum (dist manhattan attr) (others n a)) by (apply psum_nonneg; intros; apply manhattan_nonneg).
    unfold D. lra.
  - intros; apply manhattan_sym.
  - apply seq_perm_take; auto.
Qed.
Lemma M_nonneg : 0 <= M.
Proof. eapply Qle_trans; [|exact HM]. apply psum_nonneg. intros; apply manhattan_nonneg. Qed.
Lemma D_le i j : (i < n)%nat -> (j < n)%nat -> D i j <= M.
Proof.
  intros Hi Hj. destruct (Nat.eq_dec j i) as [->|Hne]; [rewrite D_zero; apply M_nonneg|].
  eapply Qle_trans; [|apply (star_le i); auto]. apply sumQ_ge; [|apply in_map, others_In; auto].
  intros y Hy. apply in_map_iff in Hy. destruct Hy as [x [<- _]]. apply D_nonneg.
Qed.
Lemma fD i j : (i < n)%nat -> (j < n)%nat -> fmanhattan A (row attr i) (row attr j) == D i j.
Proof. intros Hi Hj. apply fmanhattan_exact; [apply row_whole|apply row_whole|]. apply (D_le i j); auto. Qed.

Lemma het_le labels : length labels = n -> 0 <= heterogeneity D labels <= M.
Proof.
  intros Hl. rewrite heterogeneity_psum, Hl. split.
  - apply psum_nonneg. intros x y _ _. destruct (Z.eqb _ _); [apply D_nonneg|lra].
  - eapply Qle_trans; [|exact HM]. apply psum_le. intros x y _ _. destruct (Z.eqb _ _); [apply Qle_refl|apply D_nonneg].
Qed.
Lemma het_whole labels : whole (heterogeneity D labels).
Proof.
  unfold heterogeneity. apply whole_sum. intros x Hx. apply in_map_iff in Hx. destruct Hx as [j [<- _]].
  apply whole_sum. intros y Hy. apply in_map_iff in Hy. destruct Hy as [i [<- _]]. destruct (Z.eqb _ _); [apply D_whole|exists 0%Z; reflexivity].
Qed.

Lemma where_lt (labels : list Z) r i : length labels = n -> In i (where_eq labels r) -> (i < n)%nat.
Proof. intros Hl H. apply where_eq_In in H. apply nth_error_lt in H. lia. Qed.

Theorem fpairwise_call_exact labels : length labels = n ->
  exists v, fpairwise_call A enum labels attr = Ok v /\ v == heterogeneity D labels.
Proof.
  intros Hl. eexists. split; [reflexivity|].
  set (L := flat_map _ _).
  assert (Es : sumQ L == heterogeneity D labels).
  { unfold L. rewrite <- (map_id (flat_map _ _)), sumQ_flat_map.
    rewrite (sumQ_ext _ (fun r => psum D (where_eq labels r))).
    - rewrite (sumQ_map_perm _ _ _ (Henum (uniqueZ labels))).
      destruct (pairwise_call_spec manhattan labels attr) as [v [E Hv]]. injection E as E. transitivity v; [rewrite <- E; reflexivity|exact Hv].
    - intros r _. rewrite map_id. unfold psum. apply sumQ_ext. intros [i j] Hij. apply pairs_In in Hij. cbn [fst snd].
      apply fD; eapply where_lt; try eassumption; apply Hij. }
  rewrite fsum_exact; [exact Es| |rewrite Es; apply het_le; auto].
  intros x Hx. unfold L in Hx. apply in_flat_map in Hx. destruct Hx as [r [_ Hx]]. apply in_map_iff in Hx.
  destruct Hx as [[i j] [<- Hij]]. apply pairs_In in Hij. cbn [fst snd].
  assert (E : fmanhattan A (row attr i) (row attr j) == D i j) by (apply fD; eapply where_lt; try eassumption; apply Hij).
  split; [apply (whole_eq (D i j)); [symmetry; auto|apply D_whole]|rewrite E; apply D_nonneg].
Qed.

Lemma region_sum labels a r : length labels = n -> (a < n)%nat ->
  let ds := map (fun x => fmanhattan A x (row attr a)) (rows_of labels r attr) in
  let es := map (fun x => manhattan x (row attr a)) (rows_of labels r attr) in
  fsum A ds == sumQ es /\ 0 <= sumQ es <= M /\ whole (sumQ es).
Proof.
  intros Hl Ha ds es.
  assert (E : forall i, In i (where_eq labels r) -> fmanhattan A (row attr i) (row attr a) == D i a)
    by (intros i Hi; apply fD; auto; eapply where_lt; eauto).
  assert (Es : sumQ ds == sumQ es).
  { unfold ds, es, rows_of. rewrite !map_map. apply sumQ_ext. intros i Hi. apply (E i Hi). }
  assert (Hle : sumQ es <= M).
  { unfold es. rewrite P_Objective.sum_rows; [|apply D_sym|apply D_zero|lia]. rewrite Hl.
    eapply Qle_trans; [|apply (star_le a Ha)]. apply sumQ_le. intros b _. destruct (Z.eqb _ _); [apply Qle_refl|apply D_nonneg]. }
  assert (Hn : 0 <= sumQ es).
  { unfold es, rows_of. rewrite map_map. apply sumQ_nonneg. intros; apply manhattan_nonneg. }
  assert (Hw : whole (sumQ es)).
  { unfold es, rows_of. rewrite map_map. apply whole_sum. intros x Hx. apply in_map_iff in Hx. destruct Hx as [i [<- _]]. apply D_whole. }
  split; [|auto]. rewrite fsum_exact; auto; [|rewrite Es; auto].
  intros x Hx. unfold ds, rows_of in Hx. rewrite map_map in Hx. apply in_map_iff in Hx. destruct Hx as [i [<- Hi]].
  split; [apply (whole_eq (D i a)); [symmetry; apply E; auto|apply D_whole]|rewrite (E i Hi); apply D_nonneg].
Qed.

Theorem fpairwise_update_exact labels a r : length labels = n -> (a < n)%nat ->
  rel (fun q q' => q == q' /\ q == heterogeneity D (upd labels a r) - heterogeneity D labels)
    (pairwise_update manhattan a r labels attr) (fpairwise_update A a r labels attr).
Proof.
  intros Hl Ha. destruct (pairwise_update manhattan a r labels attr) as [q|e|] eqn:E.
  - pose proof (pairwise_update_spec manhattan labels attr a r q D_sym D_zero ltac:(lia) E) as Hq. unfold pairwise_update in E.
    unfold fpairwise_update. binv E. binv E. apply metric_to_point_inv in E0. apply metric_to_point_inv in E1.
    destruct E0 as [-> N1], E1 as [-> N2]. injection E as <-.
    rewrite !metric_to_point_Ok by auto. cbn [bind rel]. split; [|exact Hq].
    destruct (region_sum labels a r Hl Ha) as [K1 [K2 K3]]. destruct (region_sum labels a (lab labels a) Hl Ha) as [L1 [L2 L3]].
    assert (Eq : forall x y x' y', x == x' -> y == y' -> whole x' -> whole y' -> 0 <= x' <= M -> 0 <= y' <= M -> ar_sub A x y == x' - y').
    { intros x y x' y' Ex Ey Wx Wy Bx By. rewrite <- Ex, <- Ey. apply Hsub.
      - apply (whole_eq x'); [symmetry|]; auto.
      - apply (whole_eq y'); [symmetry|]; auto.
      - rewrite Ex, Ey. apply Qabs_Qle_condition. lra. }
    symmetry. apply Eq; auto.
  - unfold pairwise_update in E. unfold fpairwise_update. destruct (rows_of labels (lab labels a) attr); cbn in E |- *; [congruence|].
    destruct (rows_of labels r attr); cbn in E |- *; [congruence|discriminate].
  - unfold pairwise_update in E. destruct (rows_of labels (lab labels a) attr); cbn in E; [discriminate|].
    destruct (rows_of labels r attr); cbn in E; discriminate.
Qed.

(** the states of the exact and the rounded strategy *)
Definition both (s : strategy) (c : common) (l : list Z) : Prop :=
  length l = n /\ exists v v', s = SAzp (mkCommon attr (pairwise manhattan) v) /\ c = mkCommon attr (fpairwise A enum) v' /\
    v == v' /\ v == heterogeneity D l.

Lemma both_call expf s c l a r rg : (a < n)%nat -> both s c l ->
  rel (fun '(b, s1, r1) '(b', c1, r1') => b = b' /\ r1 = r1' /\ both s1 c1 (if b : bool then upd l a r else l))
    (strat_call expf s a r l rg) (fcall (ar_add A) c a r l rg).
Proof.
  intros Ha [Hl [v [v' [-> [-> [Ev Hv]]]]]]. cbn [strat_call]. unfold azp_call, fcall. cbn [c_obj c_attr c_val o_update pairwise fpairwise].
  pose proof (fpairwise_update_exact l a r Hl Ha) as Hu.
  destruct (pairwise_update manhattan a r l attr) as [q|e|], (fpairwise_update A a r l attr) as [q'|e'|]; cbn in Hu |- *; auto; try contradiction.
  destruct Hu as [Eq Hq].
  assert (Eb : Qle_bool q 0 = Qle_bool q' 0) by (apply eq_true_iff_eq; rewrite !Qle_bool_iff, Eq; tauto).
  rewrite <- Eb. destruct (Qle_bool q 0); cbn.
  - split; [auto|]. split; [auto|]. split; [rewrite upd_length; auto|]. eexists _, _. split; [reflexivity|]. split; [reflexivity|].
    split; [|rewrite Hv, Hq; ring].
    assert (Hl' : length (upd l a r) = n) by (rewrite upd_length; auto). pose proof (het_le _ Hl') as Hb.
    symmetry. rewrite Ev, Eq. apply Hadd.
    + apply (whole_eq (heterogeneity D l)); [rewrite <- Hv, Ev; reflexivity|apply het_whole].
    + apply (whole_eq (heterogeneity D (upd l a r) - heterogeneity D l)); [rewrite <- Hq, Eq; reflexivity|apply whole_sub; apply het_whole].
    + rewrite <- Ev, <- Eq, Hv, Hq. apply Qabs_Qle_condition. lra.
  - split; [auto|]. split; [auto|]. split; [auto|]. eexists _, _. split; [reflexivity|]. split; [reflexivity|]. auto.
Qed.
End Whole.

(** ** the whole fit *)
Theorem fazp_fit_exact A M expf order enum fuel g attr p initial c0 c r :
  exact_upto M (ar_add A) Qplus -> exact_upto M (ar_sub A) Qminus ->
  symmetric g -> (forall l, Permutation (order l) l) -> (forall l, Permutation (enum l) l) -> length attr = gn g ->
  match initial with Some l => length l = gn g /\ ~ In (-1)%Z l | None => True end ->
  (forall x q, In x attr -> In q x -> whole q) -> psum (dist manhattan attr) (seq 0 (length attr)) <= M ->
  same_outcome (fazp_fit (ar_add A) order (fpairwise A enum) fuel g attr p initial c r)
               (azp_fit expf order (pairwise manhattan) fuel g attr p initial (SAzp c0) r).
Proof.
  intros Hadd Hsub Hsym Hord Henum Hattr Hsh Hw HM.
  assert (H : rel (two_acc strategy common (fun s _ => exists c, s = SAzp c))
    (azp_fit expf order (pairwise manhattan) fuel g attr p initial (SAzp c0) r)
    (fazp_fit (ar_add A) order (fpairwise A enum) fuel g attr p initial c r)).
  { unfold azp_fit, fazp_fit. apply fit_two; eauto.
    intros k l s c' rg Hk Hwf [c1 ->]. unfold run_component. cbn [strat_start]. unfold start_common.
    set (rows := map (row attr) (comp_nodes g k)).
    assert (Hlr : length rows = length (comp_nodes g k)) by apply map_length.
    assert (Hll : length l = length rows) by (rewrite Hlr, <- comp_graph_n; apply Hwf).
    assert (Hwr : forall x q, In x rows -> In q x -> whole q).
    { intros x q Hx Hq. apply in_map_iff in Hx. destruct Hx as [i [<- _]]. unfold row in Hq.
      destruct (nth_in_or_default i attr []) as [Hi|E]; [eauto|]. rewrite E in Hq. destruct Hq. }
    assert (HMr : psum (dist manhattan rows) (seq 0 (length rows)) <= M).
    { eapply Qle_trans; [|exact HM]. rewrite Hlr, Hattr. apply (psum_part manhattan attr (fun a => Nat.eqb (comp_label g a) k) (gn g)).
      intros; apply manhattan_nonneg. }
    destruct (pairwise_call_spec manhattan l rows) as [v [Ev Hv]].
    destruct (fpairwise_call_exact A M Hadd Hsub enum Henum rows Hwr HMr l Hll) as [v' [Ev' Hv']].
    cbn [o_call pairwise fpairwise]. rewrite Ev, Ev'. cbn [bind].
    pose proof (azp_component_two strategy common (strat_call expf) (fcall (ar_add A)) strat_val c_val (comp_graph g k)
      (comp_symmetric g k Hsym) (both A enum rows) Qeq) as Hc.
    assert (Hres : rel (fun '(l1, s1, r1) '(l1', s1', r1') => l1 = l1' /\ r1 = r1' /\ both A enum rows s1 s1' l1)
      (azp_component strategy (strat_call expf) strat_val (comp_graph g k) fuel l (SAzp (mkCommon rows (pairwise manhattan) v)) rg)
      (azp_component common (fcall (ar_add A)) c_val (comp_graph g k) fuel l (mkCommon rows (fpairwise A enum) v') rg)).
    { apply Hc; auto.
      - intros x x' y y' Ex Ey. apply eq_true_iff_eq. rewrite !Qltb_lt, Ex, Ey. tauto.
      - intros s s' l1 [_ [x [y [-> [-> [E _]]]]]]. exact E.
      - intros s s' a z l1 rg1 Hwf1 Hm HI. eapply both_call; eauto. destruct Hm as [Ha _]. rewrite comp_graph_n in Ha. lia.
      - split; [auto|]. exists v, v'. split; [auto|]. split; [auto|]. split; [rewrite Hv, Hv'; reflexivity|exact Hv]. }
    destruct (azp_component strategy _ _ _ _ _ _ _) as [[[l1 s1] r1]|e|], (azp_component common _ _ _ _ _ _ _) as [[[l1' s1'] r1']|e'|];
      cbn in Hres |- *; auto. destruct Hres as [E1 [E2 [_ [x [y [-> _]]]]]]. eauto. }
  unfold same_outcome.
  destruct (azp_fit _ _ _ _ _ _ _ _ _ _) as [[[l s] r1]|e|], (fazp_fit _ _ _ _ _ _ _ _ _ _) as [[[l' s'] r1']|e'|]; cbn in H; auto.
  destruct H as [H1 [H2 _]]. cbn in H1, H2. auto.
Qed.

(** ** termination *)
Section Finite.
Variable add : Q -> Q -> Q.
Variable V : Q -> Prop.
Variable F : list Q.
Hypothesis HF : forall q, V q -> exists y, In y F /\ q == y.
Hypothesis Hadd : forall v q, V v -> V (add v q).
Variable O : objfun.
Variable attr : list (list Q).
Hypothesis Hval : forall rows labels, (forall x, In x rows -> In x attr) -> length labels = length rows ->
  exists v, o_call O labels rows = Ok v /\ V v.
Hypothesis Hupd : forall rows labels a r, (forall x, In x rows -> In x attr) -> length labels = length rows ->
  (a < length labels)%nat -> In r labels -> exists q, o_update O a r labels rows = Ok q.

Definition below (q : Q) : nat := length (filter (fun y => Qltb y q) F).
Lemma below_dec q q' : V q' -> q' < q -> (below q' < below q)%nat.
Proof.
  intros Hv Hlt. destruct (HF q' Hv) as [y [Hy Ey]]. apply (filter_length_lt _ _ F y).
  - intros z _ Hz. apply Qltb_lt in Hz. apply Qltb_lt. lra.
  - auto.
  - apply Qltb_lt. lra.
  - apply Qltb_ge. lra.
Qed.
Lemma below_le q : (below q <= length F)%nat.
Proof. apply filter_length_le. Qed.

Theorem fazp_fit_terminates order g fuel p initial c r : symmetric g -> (forall l, Permutation (order l) l) -> length attr = gn g ->
  good_input g p initial -> (length F + gn g + 1 < fuel)%nat ->
  exists labels c' r', fazp_fit add order O fuel g attr p initial c r = Ok ((labels, c'), r').
Proof.
  intros Hsym Hord Hattr Hgood Hf.
  assert (Hp : post noexn False (fazp_fit add order O fuel g attr p initial c r) (fun _ => True)).
  { unfold fazp_fit. eapply (post_weaken noexn noexn False False); [auto|auto| |
      apply (fit_post common _ _ order g attr noexn False (fun _ => True) (fun _ _ _ => True))]; auto.
    intros k l c1 rg Hk Hwf _. unfold run_component, start_common.
    set (rows := map (row attr) (comp_nodes g k)).
    assert (Hlr : length rows = gn (comp_graph g k)) by (rewrite comp_graph_n; apply map_length).
    assert (Hin : forall x, In x rows -> In x attr).
    { intros x Hx. apply in_map_iff in Hx. destruct Hx as [i [<- Hi]]. apply comp_nodes_lt in Hi. apply nth_In. lia. }
    destruct (Hval rows l Hin) as [v [Ev Hv]]; [rewrite Hlr; apply Hwf|]. rewrite Ev. cbn [bind].
    set (J := fun (c : common) (l : list Z) => c_obj c = O /\ c_attr c = rows /\ V (c_val c)).
    eapply (post_weaken noexn noexn False False); [auto|auto| |
      apply (azp_component_post common (fcall add) c_val (comp_graph g k) (comp_symmetric g k Hsym) noexn False J (fun _ => J)
               (fun _ _ _ _ => True) (fun _ _ _ => True)) with (m := below)]; auto.
    - intros [[l' c'] r'] _ [Hwf' _]. split; [auto|]. split; [destruct Hwf, Hwf'; congruence|auto].
    - intros v0 c2 a z l1 rg1 Hwf1 Hm [Ho [Ha Hv2]]. unfold fcall. rewrite Ho, Ha.
      destruct (Hupd rows l1 a z Hin) as [q Eq]; [rewrite Hlr; apply Hwf1| | |].
      { destruct Hwf1 as [Hl1 _]. destruct Hm as [Hal _]. lia. }
      { destruct Hm as [_ [D [_ [_ [_ [b [_ [Hb _]]]]]]]]. eapply nth_error_In; eauto. }
      rewrite Eq. cbn [bind]. destruct (Qle_bool q 0); cbn; (split; [|exact Logic.I]).
      + split; [auto|]. split; [auto|]. cbn. apply Hadd. exact Hv2.
      + split; [auto|]. split; auto.
    - right. intros s l1 s' l1' _ _ _ _ _ [_ [_ Hv']] Hlt. apply below_dec; auto.
    - eapply comp_part_nonempty; eauto.
    - split; [auto|]. split; auto.
    - right. pose proof (below_le (c_val (mkCommon rows O v))). pose proof (comp_graph_le g k). lia. }
  apply post_total in Hp. destruct Hp as [[[labels c'] r'] [E _]]. eauto.
Qed.
End Finite.

(** float64 *)
Lemma fsum_is_float l : is_float (fsum float64 l).
Proof.
  unfold fsum. assert (H : is_float 0) by (apply (whole_is_float 0); lia). revert H. generalize 0.
  induction l as [|x l IH]; intros acc H; cbn [fold_left]; [auto|]. apply IH. apply fl64_is.
Qed.
