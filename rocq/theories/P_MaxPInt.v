(** Spatially extensive attributes in an integer type of fixed width. *)
From Coq Require Import Qabs Qround.
From Verif Require Import Base Spec SpecInt M_Graph P_Graph M_Util P_Base P_Util P_Forest P_Init P_Initial
  M_Objective P_Sum P_Objective M_Azp P_Azp P_Strategy P_Fit P_AzpFit P_TwoRuns M_Sa P_Sa M_MaxP P_MaxP P_MaxP2 P_MaxP3 P_MaxP4 P_Scale P_ScaleMaxP
  M_Float P_Float M_FloatMaxP P_FloatMaxP P_FloatMaxP2 P_FloatWhole2 M_MaxPInt Props_Azp.

(** ** the types *)
Lemma signed_type bits : int_type (wrap_signed bits) (- 2 ^ (Zpos bits - 1)) (2 ^ Zpos bits).
Proof.
  intros z. unfold wrap_signed. assert (Hp : (0 < 2 ^ Zpos bits)%Z) by (apply Z.pow_pos_nonneg; lia).
  pose proof (Z.mod_pos_bound (z + 2 ^ (Zpos bits - 1)) (2 ^ Zpos bits) Hp).
  pose proof (Z.div_mod (z + 2 ^ (Zpos bits - 1)) (2 ^ Zpos bits) ltac:(lia)).
  split; [lia|]. exists (- ((z + 2 ^ (Zpos bits - 1)) / 2 ^ Zpos bits))%Z. lia.
Qed.
Lemma unsigned_type bits : int_type (wrap_unsigned bits) 0 (2 ^ Zpos bits).
Proof.
  intros z. unfold wrap_unsigned. assert (Hp : (0 < 2 ^ Zpos bits)%Z) by (apply Z.pow_pos_nonneg; lia).
  pose proof (Z.mod_pos_bound z (2 ^ Zpos bits) Hp). pose proof (Z.div_mod z (2 ^ Zpos bits) ltac:(lia)).
  split; [lia|]. exists (- (z / 2 ^ Zpos bits))%Z. lia.
Qed.

Lemma whole_floor q : whole q -> (q == inject_Z (Qfloor q))%Q.
Proof. intros [z E]. rewrite E at 1. rewrite (Qfloor_comp _ _ E), Qfloor_Z. reflexivity. Qed.

Section Wrap.
Variable w : Z -> Z.
Variables lo size : Z.
Hypothesis Hw : int_type w lo size.
Hypothesis Hlo : (lo <= 0)%Z.
Local Notation B := (int_arith w).

Lemma size_pos : (0 < size)%Z.
Proof. destruct (Hw 0%Z) as [H _]. lia. Qed.
Lemma wrap_id z : (lo <= z < lo + size)%Z -> w z = z.
Proof. intros H. destruct (Hw z) as [H1 [m E]]. rewrite E in *. assert (m = 0)%Z by nia. subst. lia. Qed.
Lemma wrap_le z : (0 <= z)%Z -> (w z <= z)%Z.
Proof. intros H. destruct (Hw z) as [H1 [m E]]. rewrite E in *. assert (m <= 0)%Z by nia. nia. Qed.

(** [x] stands for the number [z] *)
Definition congr (x : Q) (z : Z) : Prop := exists m, (x == inject_Z (z + m * size))%Q.
Lemma congr_floor x z : congr x z -> exists m, Qfloor x = (z + m * size)%Z.
Proof. intros [m E]. exists m. rewrite (Qfloor_comp _ _ E). apply Qfloor_Z. Qed.
Lemma fold_congr l : forall x z, congr x z -> (forall q, In q l -> whole q) ->
  exists t, (sumQ l == inject_Z t)%Q /\ congr (fold_left (ar_add B) l x) (z + t).
Proof.
  induction l as [|q l IH]; intros x z Hx Hl; cbn [fold_left].
  - exists 0%Z. split; [reflexivity|]. rewrite Z.add_0_r. auto.
  - destruct (congr_floor x z Hx) as [m Em]. set (y := Qfloor q).
    assert (Hq : (q == inject_Z y)%Q) by (apply whole_floor, Hl; left; auto).
    destruct (IH (ar_add B x q) (z + y)%Z) as [t [Et Ht]].
    + destruct (Hw (Qfloor x + y)%Z) as [_ [m' E']]. exists (m + m')%Z. cbn [ar_add int_arith]. fold y. rewrite E', Em.
      replace (z + m * size + y + m' * size)%Z with (z + y + (m + m') * size)%Z by ring. reflexivity.
    + intros p Hp. apply Hl. right; auto.
    + exists (y + t)%Z. rewrite Z.add_assoc. split; [|auto]. rewrite sumQ_cons, Et, Hq, inject_Z_plus. reflexivity.
Qed.
Lemma fold_range l : forall x, (exists z, (x == inject_Z z)%Q /\ (z < lo + size)%Z) ->
  exists z, (fold_left (ar_add B) l x == inject_Z z)%Q /\ (z < lo + size)%Z.
Proof.
  induction l as [|q l IH]; intros x Hx; cbn [fold_left]; [auto|]. apply IH.
  exists (w (Qfloor x + Qfloor q)). split; [reflexivity|apply Hw].
Qed.

(** a computed sum is never above the sum *)
Lemma colsum_le l : (forall q, In q l -> whole q /\ (0 <= q)%Q) -> l <> [] ->
  (colsum B l <= sumQ l)%Q /\ exists t m, (sumQ l == inject_Z t)%Q /\ Qfloor (colsum B l) = (t + m * size)%Z.
Proof.
  intros Hl Hne. destruct l as [|q l]; [congruence|]. cbn [colsum].
  assert (Hq : (q == inject_Z (Qfloor q))%Q) by (apply whole_floor, Hl; left; auto).
  assert (Hc : congr q (Qfloor q)) by (exists 0%Z; rewrite Z.mul_0_l, Z.add_0_r; auto).
  destruct (fold_congr l q (Qfloor q) Hc ltac:(intros p Hp; apply Hl; right; auto)) as [t [Et Ht]].
  destruct (congr_floor _ _ Ht) as [m Em].
  assert (Es : (sumQ (q :: l) == inject_Z (Qfloor q + t))%Q) by (rewrite sumQ_cons, Et, inject_Z_plus; lra).
  assert (H0 : (0 <= sumQ (q :: l))%Q) by (apply sumQ_nonneg_list; intros p Hp; apply Hl; auto).
  rewrite Es in H0. change 0%Q with (inject_Z 0) in H0. rewrite <- Zle_Qle in H0.
  split; [|exists (Qfloor q + t)%Z, m; auto].
  destruct l as [|q2 l].
  - cbn [fold_left]. rewrite sumQ_cons, sumQ_nil. lra.
  - destruct Ht as [m2 Ht]. rewrite Ht, Es, <- Zle_Qle.
    destruct (fold_range l (ar_add B q q2)) as [z [Ez Hz]]; [exists (w (Qfloor q + Qfloor q2)); split; [reflexivity|apply Hw]|].
    cbn [fold_left] in Ht. rewrite Ez in Ht. assert (E : z = (Qfloor q + t + m2 * size)%Z) by (apply inject_Z_injective; auto).
    pose proof size_pos. assert (m2 <= 0)%Z by nia. nia.
Qed.
(** nor a computed difference above the difference *)
Lemma coldif_le l q : (forall q, In q l -> whole q /\ (0 <= q)%Q) -> In q l ->
  (ar_sub B (colsum B l) q <= sumQ l - q)%Q.
Proof.
  intros Hl Hq. assert (Hne : l <> []) by (intros ->; destruct Hq).
  destruct (colsum_le l Hl Hne) as [_ [t [m [Et Em]]]]. cbn [ar_sub int_arith]. rewrite Em.
  assert (Eq : (q == inject_Z (Qfloor q))%Q) by (apply whole_floor, Hl; auto).
  assert (Hle : (q <= sumQ l)%Q) by (apply sumQ_ge; [intros y Hy; apply Hl; auto|auto]).
  set (y := Qfloor q) in *. clearbody y. assert (Hz : (y <= t)%Z) by (rewrite Zle_Qle; lra).
  destruct (Hw (t + m * size - y)%Z) as [H1 [m' E]]. pose proof size_pos.
  assert (Hz2 : (w (t + m * size - y) <= t + - y)%Z) by (rewrite E in *; assert (m + m' <= 0)%Z by nia; nia).
  rewrite Zle_Qle, inject_Z_plus, inject_Z_opp in Hz2. lra.
Qed.

(** ** exact as long as the numbers fit *)
Lemma int_exact M : (M <= inject_Z (lo + size - 1))%Q ->
  (forall x y, whole x -> whole y -> (0 <= x + y)%Q -> (x + y <= M)%Q -> (ar_add B x y == x + y)%Q) /\
  (forall x y, whole x -> whole y -> (0 <= x - y)%Q -> (x - y <= M)%Q -> (ar_sub B x y == x - y)%Q).
Proof.
  intros HM. split; intros x y Hx Hy H0 H1; cbn [ar_add ar_sub int_arith].
  - pose proof (whole_floor x Hx) as Ex. pose proof (whole_floor y Hy) as Ey.
    set (u := Qfloor x) in *. set (v := Qfloor y) in *. clearbody u v.
    assert (0 <= u + v <= lo + size - 1)%Z by (split; rewrite Zle_Qle, inject_Z_plus; [change (inject_Z 0) with 0%Q|]; lra).
    rewrite wrap_id, inject_Z_plus by lia. lra.
  - pose proof (whole_floor x Hx) as Ex. pose proof (whole_floor y Hy) as Ey.
    set (u := Qfloor x) in *. set (v := Qfloor y) in *. clearbody u v.
    assert (0 <= u + - v <= lo + size - 1)%Z by (split; rewrite Zle_Qle, inject_Z_plus, inject_Z_opp; [change (inject_Z 0) with 0%Q|]; lra).
    rewrite wrap_id by lia. unfold Z.sub. rewrite inject_Z_plus, inject_Z_opp. lra.
Qed.
Lemma fold_int_exact l : forall x, whole x -> (0 <= x)%Q -> (forall q, In q l -> whole q /\ (0 <= q)%Q) ->
  (x + sumQ l <= inject_Z (lo + size - 1))%Q -> (fold_left (ar_add B) l x == x + sumQ l)%Q.
Proof.
  destruct (int_exact _ (Qle_refl _)) as [Hadd _].
  induction l as [|q l IH]; intros x Hx H0 Hl HM; cbn [fold_left]; [rewrite sumQ_nil; lra|].
  rewrite sumQ_cons in *. destruct (Hl q (or_introl eq_refl)) as [Hq Hq0].
  assert (Hs : (0 <= sumQ l)%Q) by (apply sumQ_nonneg_list; intros y Hy; apply Hl; right; auto).
  assert (E : (ar_add B x q == x + q)%Q) by (apply Hadd; auto; lra).
  rewrite (IH (ar_add B x q)).
  - rewrite E. ring.
  - apply (whole_eq (x + q)%Q); [symmetry; auto|apply whole_add; auto].
  - lra.
  - intros y Hy. apply Hl. right; auto.
  - lra.
Qed.
Lemma colsum_int_exact l : (forall q, In q l -> whole q /\ (0 <= q)%Q) -> (sumQ l <= inject_Z (lo + size - 1))%Q ->
  (colsum B l == sumQ l)%Q.
Proof.
  intros Hl HM. destruct l as [|q l]; [reflexivity|]. cbn [colsum]. rewrite sumQ_cons in *.
  destruct (Hl q (or_introl eq_refl)). apply fold_int_exact; auto. intros y Hy. apply Hl. right; auto.
Qed.
Lemma coldif_int_exact l q : (forall q, In q l -> whole q /\ (0 <= q)%Q) -> (sumQ l <= inject_Z (lo + size - 1))%Q -> In q l ->
  (ar_sub B (colsum B l) q == sumQ l - q)%Q.
Proof.
  intros Hl HM Hq. pose proof (colsum_int_exact l Hl HM) as E. destruct (int_exact _ (Qle_refl _)) as [_ Hsub].
  assert (Hle : (q <= sumQ l)%Q) by (apply sumQ_ge; [intros y Hy; apply Hl; auto|auto]). destruct (Hl q Hq).
  rewrite Hsub; rewrite ?E; auto; try lra.
  apply (whole_eq (sumQ l)); [symmetry; auto|]. apply whole_sum. intros y Hy. apply Hl; auto.
Qed.
End Wrap.

Lemma colsum_exact_arith l : (colsum exact_arith l == sumQ l)%Q.
Proof.
  destruct l as [|x l]; [reflexivity|]. cbn [colsum]. rewrite sumQ_cons.
  assert (H : forall l x, (fold_left (ar_add exact_arith) l x == x + sumQ l)%Q); [|apply H].
  clear. induction l as [|y l IH]; intros x; cbn [fold_left]; [rewrite sumQ_nil; lra|]. rewrite IH, sumQ_cons. cbn [ar_add exact_arith]. ring.
Qed.

Lemma column_good sp thr n k R q : shaped sp thr n -> non_negative sp -> (forall x q, In x sp -> In q x -> whole q) ->
  k < length thr -> (forall a, In a R -> a < n) -> In q (column sp k R) -> whole q /\ (0 <= q)%Q.
Proof.
  intros Hsh Hpos Hw Hk Hlt Hq. split; [|eapply column_nonneg; eauto].
  destruct (column_entry sp thr n k R q Hsh Hk Hlt Hq) as [x [H1 H2]]. eauto.
Qed.

(** ** every result reaches the thresholds *)
Section Valid.
Variable w : Z -> Z.
Variables lo size : Z.
Hypothesis Hw : int_type w lo size.
Hypothesis Hlo : (lo <= 0)%Z.
Variable A : arith.
Variable enum : list nat -> list nat.
Variable order : list edge -> list edge.
Hypothesis Hord : forall l, Permutation (order l) l.
Variable O : objfun.
Variable g : graph.
Variables attr sp : list (list Q).
Variable thr : list Q.
Hypothesis Hsym : symmetric g.
Hypothesis Hloop : no_self_loops g.
Hypothesis Hsh : shaped sp thr (gn g).
Hypothesis Hpos : non_negative sp.
Hypothesis Hwh : forall x q, In x sp -> In q x -> whole q.
Local Notation B := (int_arith w).
Local Notation lower := (shifted (fun k => - (fun _ => 0) k)%Q thr).
(** never reached *)
Definition beyond : list Q := map (fun k => total_in sp (seq 0 (gn g)) k + 1)%Q (seq 0 (length thr)).

Lemma int_check R : R <> [] -> NoDup R -> (forall a, In a R -> a < gn g) ->
  if reaches (tracked B sp R) thr then meets_in sp lower R else ~ meets_in sp beyond R.
Proof.
  intros Hne Hnd Hlt. rewrite tracked_rows.
  pose proof (fsum_rows_length B sp thr (gn g) Hsh R Hne Hlt) as Hlen.
  destruct (reaches (fsum_rows B (map (row sp) R)) thr) eqn:Er.
  - rewrite reaches_spec in Er by auto. intros k s Es. apply shifted_nth in Es. destruct Es as [t [Et ->]].
    assert (Hk : k < length thr) by (apply nth_error_Some; congruence).
    specialize (Er k t Et). rewrite (fsum_rows_nth B sp thr (gn g) Hsh R k Hne Hlt Hk) in Er.
    assert (Hc : column sp k R <> []) by (destruct R; [congruence|discriminate]).
    destruct (colsum_le w lo size Hw Hlo (column sp k R)) as [Hle _]; auto; [intros q Hq; eapply column_good; eauto|].
    change (total_in sp R k) with (sumQ (column sp k R)). lra.
  - intros Hm. assert (Hk : 0 < length thr).
    { destruct (Nat.eq_dec (length thr) 0) as [E0|E0]; [|lia]. apply length_zero_iff_nil in E0.
      assert (Ht : reaches (fsum_rows B (map (row sp) R)) thr = true); [|congruence].
      apply reaches_spec; [auto|]. rewrite E0. intros [|k] t H; discriminate. }
    assert (E0 : nth_error beyond 0 = Some (total_in sp (seq 0 (gn g)) 0 + 1)%Q).
    { unfold beyond. destruct (length thr); [lia|]. reflexivity. }
    specialize (Hm 0 _ E0). pose proof (total_in_all sp (gn g) 0 R Hpos Hnd Hlt). lra.
Qed.
Lemma int_donors c l a : c < n_components g -> length l = length (comp_nodes g c) -> a < length l ->
  fdonor_ok B (map (row sp) (comp_nodes g c)) thr a l = true -> spared (map (row sp) (comp_nodes g c)) lower a l.
Proof.
  intros Hc Hl Ha. apply (approx_donor B sp thr (gn g) Hsh (fun _ => 0%Q)); auto; [|apply comp_nodes_NoDup|intros b Hb; eapply comp_nodes_lt; eauto].
  intros k R b Hk Hnd Hlt Hb. change (total_in sp R k) with (sumQ (column sp k R)).
  assert (H : (ar_sub B (colsum B (column sp k R)) (nth k (nth b sp []) 0) <= sumQ (column sp k R) - nth k (nth b sp []) 0)%Q); [|cbv beta; lra].
  apply (coldif_le w lo size Hw Hlo); [intros q Hq; eapply column_good; eauto|]. unfold column. apply in_map_iff. eauto.
Qed.
Theorem int_valid fuel max_it entropy labels0 ls r : 0 < max_it ->
  post anyexn True (fmaxp_fit2 B A enum order O fuel g attr sp thr max_it entropy labels0 ls r)
    (fun '(labels, _, _) => exists mp l, labels = Some l /\ feasible g l mp /\ all_meet sp lower l /\
       exists before r1, fconstruct B (fdissimilarity A enum attr) g sp thr max_it 0 [] r = Ok (mp, before, r1)).
Proof.
  intros Hit.
  apply (fmaxp_fit_post B A enum order Hord O g attr sp thr lower beyond Hsym Hloop (proj1 Hsh) Hpos
    int_check int_donors anyexn True (fun _ _ _ => True)); auto.
  - intros c l inner _ _. destruct (start_common l (attr_c attr g c) O); cbn [bind]; try exact Logic.I.
    destruct (fstrat_start O inner l (attr_c attr g c) (comp_nodes g c)); exact Logic.I.
  - intros c s a r1 l rg _ _ _ _. destruct (fstrat_call B A s a r1 l rg) as [[[b s1] rg1]| |]; exact Logic.I.
  - intros l _. destruct (o_call O l attr); exact Logic.I.
  - intros mp x m _ _. exact Logic.I.
Qed.
End Valid.

(** ** two arithmetics that answer the tests alike *)
Lemma remove_first_nodup a : forall l l', remove_first a l = Some l' -> NoDup l -> NoDup l'.
Proof.
  induction l as [|c l IH]; intros l' Er Hl; cbn in Er; [discriminate|]. inversion Hl; subst.
  destruct (Nat.eqb _ _); [injection Er as <-; auto|]. destruct (remove_first _ l) as [t|] eqn:Et; [|discriminate].
  injection Er as <-. constructor; [|auto]. intros Hc. eapply remove_first_In in Hc; eauto.
Qed.
Section Alike.
Variables B B' : arith.
Variable dis : nat -> list nat -> Q.
Variable g : graph.
Variable sp : list (list Q).
Variable thr : list Q.
(** no shorter part of the region, from its first area on, reaches the thresholds *)
Definition fresh (R : list nat) : Prop := forall R1 R2, R = R1 ++ R2 -> R1 <> [] -> R2 <> [] -> reaches (tracked B sp R1) thr = false.
Hypothesis Hreach : forall R, R <> [] -> NoDup R -> (forall a, In a R -> a < gn g) -> fresh R ->
  reaches (tracked B sp R) thr = reaches (tracked B' sp R) thr.

Lemma fresh_snoc R v : fresh R -> reaches (tracked B sp R) thr = false -> fresh (R ++ [v]).
Proof.
  intros HR Hr R1 R2 E H1 H2. destruct (exists_last H2) as [R3 [x ->]]. rewrite app_assoc in E. apply app_inj_tail in E. destruct E as [-> <-].
  destruct R3 as [|y R3]; [rewrite app_nil_r in *; auto|]. apply (HR R1 (y :: R3)); auto. discriminate.
Qed.
Lemma fresh_one a : fresh [a].
Proof.
  intros R1 R2 E H1 H2. exfalso. apply (f_equal (@length nat)) in E. rewrite app_length in E. cbn in E.
  destruct R1, R2; cbn in E; try congruence; lia.
Qed.
Lemma fgrow_region_alike fuel : forall R N U Z r, R <> [] -> NoDup (R ++ U) -> (forall a, In a R -> a < gn g) -> (forall a, In a U -> a < gn g) ->
  fresh R ->
  fgrow_region B dis g sp thr fuel R N (tracked B sp R) U Z r = fgrow_region B' dis g sp thr fuel R N (tracked B' sp R) U Z r.
Proof.
  induction fuel as [|fuel IH]; intros R N U Z r Hne Hnd HR HU Hf; cbn [fgrow_region];
    rewrite <- (Hreach R) by (auto; apply NoDup_app_l in Hnd; auto); destruct (reaches (tracked B sp R) thr) eqn:Er0; auto.
  destruct N as [|b N]; [auto|].
  destruct (ffind_best_area dis R (b :: N) r) as [[v r1]|e|] eqn:Eb; cbn [bind]; auto.
  destruct (remove_first v U) as [U'|] eqn:Er; [|auto].
  assert (Hin : In v U) by (eapply remove_first_was; eauto).
  assert (HvR : ~ In v R) by (intros H; eapply NoDup_app_disj; eauto).
  destruct (remove_first_perm v U Hin) as [U2 [E2 HU2]]. rewrite Er in E2. injection E2 as <-.
  rewrite (set_add_new v R HvR), <- !(tracked_snoc _ sp R v Hne). apply IH.
  - destruct R; discriminate.
  - eapply Permutation_NoDup; [|exact Hnd]. rewrite <- app_assoc. apply Permutation_app_head. exact HU2.
  - intros i Hi. apply in_app_or in Hi. destruct Hi as [Hi|[<-|[]]]; auto.
  - intros i Hi. apply HU. eapply remove_first_In; eauto.
  - apply fresh_snoc; auto.
Qed.
Lemma fgrow_region_rest C fuel : forall R N x U Z r b R' U' Z' r', fgrow_region C dis g sp thr fuel R N x U Z r = Ok (b, R', U', Z', r') ->
  NoDup U -> NoDup U' /\ forall a, In a U' -> In a U.
Proof.
  induction fuel as [|fuel IH]; intros R N x U Z r b R' U' Z' r' H HU; cbn [fgrow_region] in H; destruct (reaches x thr).
  - injection H as <- <- <- <- <-. auto.
  - discriminate.
  - injection H as <- <- <- <- <-. auto.
  - destruct N as [|c N].
    + binv H. injection H as <- <- <- <- <-. auto.
    + binv H. destruct (remove_first _ _) as [U1|] eqn:Er; [|discriminate]. apply IH in H; [|eapply remove_first_nodup; eauto].
      destruct H as [H1 H2]. split; [auto|]. intros a Ha. eapply remove_first_In; eauto.
Qed.
Lemma fgrow_loop_alike fuel : forall P E U Z r, NoDup U -> (forall a, In a U -> a < gn g) ->
  fgrow_loop B dis g sp thr fuel P E U Z r = fgrow_loop B' dis g sp thr fuel P E U Z r.
Proof.
  induction fuel as [|fuel IH]; intros P E U Z r Hnd HU; destruct U as [|b U]; cbn [fgrow_loop]; auto.
  destruct (pop_randomly_from (b :: U) r) as [[[a U1] r1]|e|] eqn:Ep; cbn [bind]; auto.
  apply pop_randomly_from_inv in Ep. destruct Ep as [Hp _].
  assert (Hnd' : NoDup (a :: U1)) by (eapply Permutation_NoDup; eauto).
  assert (Ha : a < gn g) by (apply HU; eapply Permutation_in; [symmetry; exact Hp|left; auto]).
  assert (HU1 : forall i, In i U1 -> i < gn g) by (intros i Hi; apply HU; eapply Permutation_in; [symmetry; exact Hp|right; auto]).
  assert (HndU : NoDup U1) by (inversion Hnd'; auto).
  destruct (reaches (row sp a) thr); [apply IH; auto|].
  assert (Eg : fgrow_region B dis g sp thr (S (length U1)) [a] (set_diff (neighbors g a) (Z ++ [a])) (row sp a) U1 (Z ++ [a]) r1 =
               fgrow_region B' dis g sp thr (S (length U1)) [a] (set_diff (neighbors g a) (Z ++ [a])) (row sp a) U1 (Z ++ [a]) r1).
  { change (row sp a) with (tracked B sp [a]) at 1. change (row sp a) with (tracked B' sp [a]). apply fgrow_region_alike; auto.
    - discriminate.
    - intros i [<-|[]]; auto.
    - apply fresh_one. }
  rewrite Eg. destruct (fgrow_region B' dis g sp thr _ _ _ _ _ _ _) as [[[[[b1 R] U2] A2] r2]|e|] eqn:Egr; cbn [bind]; auto.
  destruct (fgrow_region_rest _ _ _ _ _ _ _ _ _ _ _ _ _ Egr HndU) as [Hnd2 HU2].
  destruct b1; apply IH; auto.
Qed.
Theorem fconstruct_alike k : forall mp best r, fconstruct B dis g sp thr k mp best r = fconstruct B' dis g sp thr k mp best r.
Proof.
  induction k as [|k IH]; intros mp best r; cbn [fconstruct]; [auto|].
  assert (E : fgrow_regions B dis g sp thr r = fgrow_regions B' dis g sp thr r).
  { apply fgrow_loop_alike; [apply seq_NoDup|]. intros i Hi. apply in_seq in Hi. lia. }
  rewrite E. destruct (fgrow_regions B' dis g sp thr r) as [[[P E1] r1]|e|]; cbn [bind]; auto.
  destruct (Nat.ltb _ _); [apply IH|]. destruct (Nat.eqb _ _); apply IH.
Qed.
End Alike.

(** the fit *)
Section AlikeFit.
Variables B B' A : arith.
Variable enum : list nat -> list nat.
Variable order : list edge -> list edge.
Hypothesis Hord : forall l, Permutation (order l) l.
Variable O : objfun.
Variable g : graph.
Variables attr sp : list (list Q).
Variable thr : list Q.
Hypothesis Hsym : symmetric g.
Hypothesis Hdonor : forall c l a, c < n_components g -> length l = length (comp_nodes g c) -> a < length l ->
  fdonor_ok B (map (row sp) (comp_nodes g c)) thr a l = fdonor_ok B' (map (row sp) (comp_nodes g c)) thr a l.

(** strategies around which only these amounts and thresholds were wrapped *)
Fixpoint reads (s : fstrategy) : Prop :=
  match s with FAzp _ => True | FMaxP _ sp0 _ thr0 inner => sp0 = sp /\ thr0 = thr /\ reads inner end.
Fixpoint reads_in (idx : list nat) (s : fstrategy) : Prop :=
  match s with FAzp _ => True | FMaxP _ sp0 spc thr0 inner => sp0 = sp /\ spc = map (row sp) idx /\ thr0 = thr /\ reads_in idx inner end.
Lemma reads_in_reads idx s : reads_in idx s -> reads s.
Proof. induction s as [c|c sp0 spc thr0 inner IH]; cbn; [auto|]. intros [H1 [_ [H2 H3]]]. auto. Qed.

Lemma start_alike idx l rows : forall s, reads s ->
  rel (fun s1 s2 => s1 = s2 /\ reads_in idx s1) (fstrat_start O s l rows idx) (fstrat_start O s l rows idx).
Proof.
  induction s as [c|c sp0 spc thr0 inner IH]; intros H; cbn [fstrat_start reads] in *.
  - destruct (start_common l rows O); cbn; auto.
  - destruct H as [-> [-> H]]. specialize (IH H). destruct (start_common l rows O); cbn [bind rel]; auto.
    destruct (fstrat_start O inner l rows idx) as [s1|e|]; cbn [bind rel] in *; auto. destruct IH as [_ IH]. cbn [reads_in]. auto.
Qed.
Lemma call_alike c l a r : c < n_components g -> length l = length (comp_nodes g c) -> a < length l ->
  forall s rg, reads_in (comp_nodes g c) s ->
  rel (fun '(b, s1, r1) '(b', s1', r1') => b = b' /\ r1 = r1' /\ s1 = s1' /\ reads_in (comp_nodes g c) s1)
    (fstrat_call B A s a r l rg) (fstrat_call B' A s a r l rg).
Proof.
  intros Hc Hl Ha. induction s as [cc|cc sp0 spc thr0 inner IH]; intros rg H; cbn [fstrat_call reads_in] in *.
  - destruct (fcall (ar_add A) cc a r l rg) as [[[b c'] rg']|e|]; cbn; auto.
  - destruct H as [-> [-> [-> H]]]. rewrite <- Hdonor by auto.
    destruct (fdonor_ok B (map (row sp) (comp_nodes g c)) thr a l); [|cbn; auto 8].
    eapply rel_bind; [apply IH; auto|]. intros [[b s1] r1] [[b' s1'] r1'] _ _ [-> [-> [-> H1]]]. cbn. auto 8.
Qed.
Theorem fstrat_fit_alike fuel p initial s r :
  match initial with Some l => length l = gn g /\ ~ In (-1)%Z l | None => True end -> reads s ->
  rel (two_acc fstrategy fstrategy (fun s1 s2 => s1 = s2 /\ reads s1)) (fstrat_fit B A order O fuel g attr p initial s r)
    (fstrat_fit B' A order O fuel g attr p initial s r).
Proof.
  intros Hi Ha. unfold fstrat_fit. apply fit_two; auto.
  intros k l s1 s1' rg Hk Hwf [<- H1]. unfold run_component.
  assert (Hll : length l = length (comp_nodes g k)) by (rewrite <- comp_graph_n; apply Hwf).
  eapply rel_bind; [apply start_alike; auto|]. intros s2 s2' _ _ [<- H2].
  match goal with [|- rel _ ?m ?m'] => assert (Hres : rel (fun '(l1, t1, r1) '(l1', t1', r1') => l1 = l1' /\ r1 = r1' /\ t1 = t1' /\ reads_in (comp_nodes g k) t1) m m') end.
  { apply (azp_component_two fstrategy fstrategy (fstrat_call B A) (fstrat_call B' A) fstrat_val fstrat_val (comp_graph g k) (comp_symmetric g k Hsym)
      (fun x y l => x = y /\ reads_in (comp_nodes g k) x) eq); auto.
    - intros x x' y y' -> ->. auto.
    - intros x y l1 [-> _]. auto.
    - intros x y a z l1 rg1 Hwf1 Hm [<- HI]. apply (call_alike k l1 a z); auto.
      + rewrite <- comp_graph_n. apply Hwf1.
      + destruct Hwf1 as [-> _]. apply Hm. }
  match goal with [|- rel _ ?m ?m'] => destruct m as [[[l1 s3] r1]|e|], m' as [[[l1' s3'] r1']|e'|] end; cbn in Hres |- *; auto.
  destruct Hres as [-> [-> [-> H3]]]. split; [auto|]. split; [auto|]. split; [auto|]. eapply reads_in_reads; eauto.
Qed.
End AlikeFit.

Lemma fstrat_fit_shape B A order O fuel g attr p initial s r labels s' r' : symmetric g -> (forall l, Permutation (order l) l) -> match initial with Some l => length l = gn g /\ ~ In (-1)%Z l | None => True end ->
  fstrat_fit B A order O fuel g attr p initial s r = Ok ((labels, s'), r') -> length labels = gn g /\ ~ In (-1)%Z labels.
Proof.
  intros Hsym Hord Hsh H. unfold fstrat_fit in H. pose proof (fit_returns_valid _ _ _ _ _ _ _ _ _ _ _ Hsh H) as Hv.
  pose proof (any_strategy_post fstrategy (fstrat_start O) (fstrat_call B A) fstrat_val order fuel g attr p initial s r anyexn Hsym Hord Hv) as Hp.
  rewrite H in Hp.
  assert (Hd : azp_delivers g p initial labels).
  { apply Hp; intros; [destruct (fstrat_start _ _ _ _ _)|destruct (fstrat_call _ _ _ _ _ _ _)]; cbn; unfold anyexn; auto. }
  destruct (azp_delivers_ok _ _ _ _ Hd) as [[H1 _] [H2 _]]. auto.
Qed.

(** ** the same as without bounds *)
Section Fits.
Variable w : Z -> Z.
Variables lo size : Z.
Hypothesis Hw : int_type w lo size.
Hypothesis Hlo : (lo <= 0)%Z.
Variable A : arith.
Variable enum : list nat -> list nat.
Variable order : list edge -> list edge.
Hypothesis Hord : forall l, Permutation (order l) l.
Variable O : objfun.
Variable g : graph.
Variables attr sp : list (list Q).
Variable thr : list Q.
Hypothesis Hsym : symmetric g.
Hypothesis Hloop : no_self_loops g.
Hypothesis Hsh : shaped sp thr (gn g).
Hypothesis Hpos : non_negative sp.
Hypothesis Hwh : forall x q, In x sp -> In q x -> whole q.
Local Notation B := (int_arith w).
Local Notation top := (inject_Z (lo + size - 1)).

(** a region whose totals fit *)
Lemma reach_fits R : R <> [] -> (forall a, In a R -> a < gn g) -> (forall k, k < length thr -> (total_in sp R k <= top)%Q) ->
  reaches (tracked B sp R) thr = reaches (tracked exact_arith sp R) thr.
Proof.
  intros Hne HR Hfit. rewrite !tracked_rows. apply eq_true_iff_eq.
  rewrite !reaches_spec by (apply (fsum_rows_length _ sp thr (gn g) Hsh R Hne HR)).
  assert (E : forall k t, nth_error thr k = Some t -> (nth k (fsum_rows B (map (row sp) R)) 0 == nth k (fsum_rows exact_arith (map (row sp) R)) 0)%Q).
  { intros k t Ek. assert (Hk : k < length thr) by (apply nth_error_Some; congruence).
    rewrite !(fsum_rows_nth _ sp thr (gn g) Hsh R k Hne HR Hk), colsum_exact_arith.
    apply (colsum_int_exact w lo size Hw Hlo); [intros q Hq; eapply column_good; eauto|]. exact (Hfit k Hk). }
  split; intros H k t Ek; specialize (H k t Ek); specialize (E k t Ek); lra.
Qed.

Section Whole.
Hypothesis Htop : forall k, k < length thr -> (total_in sp (seq 0 (gn g)) k <= top)%Q.
Lemma fits_everywhere R k : NoDup R -> (forall a, In a R -> a < gn g) -> k < length thr -> (total_in sp R k <= top)%Q.
Proof. intros Hnd HR Hk. eapply Qle_trans; [apply (total_in_all sp (gn g)); auto|auto]. Qed.

Lemma donor_fits c l a : c < n_components g -> length l = length (comp_nodes g c) -> a < length l ->
  fdonor_ok B (map (row sp) (comp_nodes g c)) thr a l = fdonor_ok exact_arith (map (row sp) (comp_nodes g c)) thr a l.
Proof.
  intros Hc Hl Ha. set (idx := comp_nodes g c) in *. pose proof (comp_nodes_NoDup g c : NoDup idx) as Hnd.
  assert (Hlt : forall b, In b idx -> b < gn g) by (intros b Hb; eapply comp_nodes_lt; eauto). clearbody idx.
  unfold fdonor_ok. set (spc := map (row sp) idx).
  destruct (any_nonzero (row spc a)) eqn:En; [|auto].
  assert (Hrow : forall i, (i < length idx)%nat -> row spc i = row sp (nth i idx 0%nat)).
  { intros i Hi. unfold row at 1. apply nth_error_nth. unfold spc. rewrite nth_error_map, (nth_error_nth' idx 0%nat) by auto. reflexivity. }
  set (R := map (fun i => nth i idx 0%nat) (where_eq l (lab l a))).
  assert (Hwi : forall i, In i (where_eq l (lab l a)) -> (i < length idx)%nat).
  { intros i Hi. apply where_eq_In in Hi. apply nth_error_lt in Hi. lia. }
  assert (Hrows : rows_of l (lab l a) spc = map (row sp) R).
  { unfold rows_of, R. rewrite map_map. apply map_ext_in. intros i Hi. apply Hrow. auto. }
  assert (HaR : In (nth a idx 0%nat) R).
  { unfold R. apply in_map_iff. exists a. split; [auto|]. apply where_eq_In. unfold lab. apply nth_error_nth'. auto. }
  assert (HndR : NoDup R).
  { unfold R. apply NoDup_map_inj; [|apply where_eq_NoDup]. intros i j Hi Hj E.
    apply (proj1 (NoDup_nth idx 0%nat) Hnd); auto. }
  assert (HltR : forall b, In b R -> (b < gn g)%nat).
  { intros b Hb. unfold R in Hb. apply in_map_iff in Hb. destruct Hb as [i [<- Hi]]. apply Hlt, nth_In. auto. }
  assert (HneR : R <> []) by (intros E; rewrite E in HaR; destruct HaR).
  rewrite Hrows, Hrow by lia.
  assert (Hlen1 : forall C, length (fsum_rows C (map (row sp) R)) = length thr) by (intros C; apply (fsum_rows_length C sp thr (gn g)); auto).
  assert (Hlen2 : length (row sp (nth a idx 0%nat)) = length thr) by (apply (P_MaxP.row_length g sp thr Hsh); auto).
  apply eq_true_iff_eq.
  rewrite !reaches_spec by (unfold fsub_rows; rewrite map_length, combine_length, Hlen1; lia).
  assert (E : forall k t, nth_error thr k = Some t ->
    (nth k (fsub_rows B (fsum_rows B (map (row sp) R)) (row sp (nth a idx 0%nat))) 0 ==
     nth k (fsub_rows exact_arith (fsum_rows exact_arith (map (row sp) R)) (row sp (nth a idx 0%nat))) 0)%Q).
  { intros k t Ek. assert (Hk : k < length thr) by (apply nth_error_Some; congruence).
    rewrite !fsub_rows_nth, !(fsum_rows_nth _ sp thr (gn g)) by (auto; rewrite ?Hlen1; lia).
    unfold row at 1 2. rewrite (coldif_int_exact w lo size Hw Hlo).
    - cbn [ar_sub exact_arith]. rewrite colsum_exact_arith. reflexivity.
    - intros q Hq; eapply column_good; eauto.
    - apply (fits_everywhere R k); auto.
    - unfold column. apply in_map_iff. exists (nth a idx 0). auto. }
  split; intros H k t Ek; specialize (H k t Ek); specialize (E k t Ek); lra.
Qed.

Theorem fit_fits fuel max_it entropy labels0 ls r : match ls with Some s => reads sp thr s | None => True end ->
  fmaxp_fit2 B A enum order O fuel g attr sp thr max_it entropy labels0 ls r =
  fmaxp_fit2 exact_arith A enum order O fuel g attr sp thr max_it entropy labels0 ls r.
Proof.
  intros Hls. unfold fmaxp_fit2. cbv zeta. set (dis := fdissimilarity A enum attr).
  rewrite <- (fconstruct_alike B exact_arith dis g sp thr).
  2: { intros R Hne Hnd HR _. apply reach_fits; auto. intros k Hk. apply fits_everywhere; auto. }
  pose proof (fconstruct_post B dis g sp thr (shifted (fun k => - (fun _ => 0) k)%Q thr) (beyond g sp thr) Hsym Hloop
    (int_check w lo size Hw Hlo g sp thr Hsh Hpos Hwh) max_it 0 [] r (fun x (H : In x []) => match H with end) (or_intror eq_refl)) as Hk.
  destruct (fconstruct B dis g sp thr max_it 0 [] r) as [[[mp before] r1]|e|]; cbn [bind post] in *; [|destruct Hk|destruct Hk].
  destruct Hk as [Hk _].
  pose proof (fassign_each_post dis g sp _ _ Hsym mp before r1 Hk) as Ha.
  destruct (fassign_each dis g before r1) as [[parts r2]|e|] eqn:Ea; cbn [bind post] in *; [|reflexivity|reflexivity].
  destruct Ha as [_ Hall].
  assert (HP : forall P, In P parts -> exists l, array_from_region_list P = Ok l /\ length l = gn g /\ ~ In (-1)%Z l).
  { intros P HP. apply In_nth_error in HP. destruct HP as [k HP]. destruct (Forall2_nth_r _ _ _ Hall k P HP) as [x [_ [Hpp _]]].
    destruct (array_of_partition g P Hpp) as [l [El [[Hf _] [Hm _]]]]. exists l. auto. }
  destruct parts as [|P0 parts0]; [reflexivity|]. set (parts := P0 :: parts0) in *.
  assert (Hj : reads sp thr (fst match ls with Some l => (l, r2) | None => (FAzp unstarted, entropy) end)) by (destruct ls; cbn; auto).
  destruct (match ls with Some l => (l, r2) | None => (FAzp unstarted, entropy) end) as [s0 r3]. cbn [fst] in Hj.
  match goal with [|- ?m = ?m'] => assert (Hres : rel eq m m') end.
  2: { match goal with [|- ?m = ?m'] => destruct m, m' end; cbn in Hres; congruence || contradiction. }
  eapply rel_bind.
  { eapply (search_rounds_scale 1 ltac:(reflexivity) fstrategy fstrategy _ _ _ _ O O attr attr (gn g) (fun s1 s2 => s1 = s2 /\ reads sp thr s1));
      [| | |exact HP|split; [reflexivity|exact Hj]|exact Logic.I].
  - intros s s' [<- Hs]. split; [auto|]. cbn. auto.
  - intros s s' mp' l rg [<- Hs] Hl Hm. eapply rel_bind; [apply (fstrat_fit_alike B exact_arith A order Hord O g attr sp thr Hsym donor_fits fuel mp' (Some l) s rg (conj Hl Hm) Hs)|].
    intros [[x t] r5] [[x' t'] r5'] E _ [H1 [H2 H3]]. cbn in H1, H2, H3 |- *. subst. split; [auto|]. split; [auto|]. split; [auto|].
    intros l1 [= <-]. apply (fstrat_fit_shape _ _ _ _ _ _ _ _ (Some l) _ _ _ _ _ Hsym Hord (conj Hl Hm) E).
  - intros l Hl. destruct (o_call O l attr); cbn; auto. lra. }
  intros [[t x] r4] [[t' x'] r4'] _ _ [[<- _] [H2 <-]]. cbn.
  destruct x as [[v l]|], x' as [[v' l']|]; cbn in H2 |- *; try contradiction; auto. destruct H2 as [<- _]. auto.
Qed.
End Whole.

(** ** one attribute, and room for one more area on top of the threshold *)
Section One.
Variables t m : Q.
Hypothesis Hthr : thr = [t].
Hypothesis Hm : forall x q, In x sp -> In q x -> (q <= m)%Q.
Hypothesis Hm0 : (m <= top)%Q.
Hypothesis Hroom : (t + m <= inject_Z (lo + size))%Q.

Lemma one_fits R : R <> [] -> NoDup R -> (forall a, In a R -> a < gn g) -> fresh B sp thr R -> forall k, k < length thr -> (total_in sp R k <= top)%Q.
Proof.
  revert R. apply (rev_ind (fun R => R <> [] -> NoDup R -> (forall a, In a R -> a < gn g) -> fresh B sp thr R -> forall k, k < length thr -> (total_in sp R k <= top)%Q));
    [congruence|]. intros a R IH _ Hnd HR Hf k Hk.
  assert (Ha : a < gn g) by (apply HR, in_app_iff; right; left; auto).
  assert (Hlast : (nth k (nth a sp []) 0 <= m)%Q).
  { destruct Hsh as [Hl Hs]. assert (Hin : In (nth a sp []) sp) by (apply nth_In; lia). apply (Hm (nth a sp [])); [auto|]. apply nth_In. rewrite Hs; auto. }
  rewrite total_in_app. assert (E1 : (total_in sp [a] k == nth k (nth a sp []) 0)%Q) by (unfold total_in; cbn [map]; rewrite sumQ_cons, sumQ_nil; ring).
  destruct R as [|b R].
  - unfold total_in at 1. cbn [map]. rewrite sumQ_nil, E1. lra.
  - set (R1 := b :: R) in *. assert (Hne : R1 <> []) by discriminate.
    assert (Hnd1 : NoDup R1) by (apply NoDup_app_l in Hnd; auto).
    assert (HR1 : forall i, In i R1 -> i < gn g) by (intros i Hi; apply HR, in_app_iff; auto).
    assert (Hf1 : fresh B sp thr R1).
    { intros P1 P2 E H1 H2. apply (Hf P1 (P2 ++ [a])); [rewrite E, app_assoc; auto|auto|destruct P2; discriminate]. }
    pose proof (IH Hne Hnd1 HR1 Hf1) as Hfit.
    assert (Hno : reaches (tracked B sp R1) thr = false) by (apply (Hf R1 [a]); auto; discriminate).
    assert (Hk0 : k = 0) by (rewrite Hthr in Hk; cbn in Hk; lia). subst k.
    assert (Hlt : (total_in sp R1 0 < t)%Q).
    { apply Qnot_le_lt. intros Hle. assert (Ht : reaches (tracked B sp R1) thr = true); [|congruence].
      rewrite tracked_rows. apply reaches_spec; [apply (fsum_rows_length _ sp thr (gn g) Hsh R1 Hne HR1)|].
      intros k s Es. rewrite Hthr in Es. destruct k as [|k]; [|destruct k; discriminate]. injection Es as <-.
      rewrite (fsum_rows_nth _ sp thr (gn g) Hsh R1 0 Hne HR1 Hk), (colsum_int_exact w lo size Hw Hlo); [exact Hle|intros q Hq; eapply column_good; eauto|].
      exact (Hfit 0 Hk). }
    assert (Hwr : forall Q', (forall i, In i Q' -> i < gn g) -> whole (total_in sp Q' 0)).
    { intros Q' HQ. change (total_in sp Q' 0) with (sumQ (column sp 0 Q')). apply whole_sum. intros q Hq. eapply column_good; eauto. }
    assert (Hws : whole (total_in sp R1 0 + total_in sp [a] 0)%Q) by (apply whole_add; apply Hwr; auto; intros i [<-|[]]; auto).
    destruct Hws as [z Ez]. rewrite Ez. rewrite <- Zle_Qle.
    assert (Hz : (inject_Z z < inject_Z (lo + size))%Q) by (rewrite <- Ez, E1; lra). rewrite <- Zlt_Qlt in Hz. lia.
Qed.
Theorem one_construct max_it mp best r : fconstruct B (fdissimilarity A enum attr) g sp thr max_it mp best r =
  fconstruct exact_arith (fdissimilarity A enum attr) g sp thr max_it mp best r.
Proof.
  apply fconstruct_alike. intros R Hne Hnd HR Hf. apply reach_fits; auto. apply one_fits; auto.
Qed.
Lemma exact_sum k R : (Qabs (colsum exact_arith (column sp k R) - total_in sp R k) <= (fun _ => 0) k)%Q.
Proof.
  assert (E : (colsum exact_arith (column sp k R) == total_in sp R k)%Q) by apply colsum_exact_arith. apply Qabs_Qle_condition. cbv beta. lra.
Qed.
Lemma exact_dif k R a : (ar_sub exact_arith (colsum exact_arith (column sp k R)) (nth k (nth a sp []) 0) <=
  total_in sp R k - nth k (nth a sp []) 0 + (fun _ => 0) k)%Q.
Proof.
  assert (E : (colsum exact_arith (column sp k R) == total_in sp R k)%Q) by apply colsum_exact_arith. cbn [ar_sub exact_arith]. lra.
Qed.
Theorem one_count fuel max_it entropy labels0 ls r fuel2 entropy2 labels2 ls2 l s1 r1 l' s1' r1' : 0 < max_it ->
  fmaxp_fit2 B A enum order O fuel g attr sp thr max_it entropy labels0 ls r = Ok (Some l, s1, r1) ->
  fmaxp_fit2 exact_arith A enum order O fuel2 g attr sp thr max_it entropy2 labels2 ls2 r = Ok (Some l', s1', r1') ->
  n_labels l = n_labels l'.
Proof.
  intros Hit H1 H2.
  pose proof (int_valid w lo size Hw Hlo A enum order Hord O g attr sp thr Hsym Hloop Hsh Hpos Hwh fuel max_it entropy labels0 ls r Hit) as P1.
  rewrite H1 in P1. destruct P1 as [mp [l1 [E1 [[_ [F1 _]] [_ [before [q C1]]]]]]]. injection E1 as <-.
  assert (P2 : post anyexn True (fmaxp_fit2 exact_arith A enum order O fuel2 g attr sp thr max_it entropy2 labels2 ls2 r)
    (fun '(labels, _, _) => exists mp l, labels = Some l /\ feasible g l mp /\ all_meet sp (shifted (fun k => - (fun _ => 0) k)%Q thr) l /\
       exists before r1, fconstruct exact_arith (fdissimilarity A enum attr) g sp thr max_it 0 [] r = Ok (mp, before, r1))).
  { apply (fmaxp_fit_post exact_arith A enum order Hord O g attr sp thr _ _ Hsym Hloop (proj1 Hsh) Hpos
      (approx_check exact_arith sp thr (gn g) Hsh (fun _ => 0%Q) (fun k R _ _ _ _ => exact_sum k R))
      (approx_donors exact_arith g sp thr Hsh (fun _ => 0%Q) (fun k R a _ _ _ _ => exact_dif k R a)) anyexn True (fun _ _ _ => True)); auto.
    - intros c x inner _ _. destruct (start_common x (attr_c attr g c) O); cbn [bind]; try exact Logic.I.
      destruct (fstrat_start O inner x (attr_c attr g c) (comp_nodes g c)); exact Logic.I.
    - intros c s a r0 x rg _ _ _ _. destruct (fstrat_call exact_arith A s a r0 x rg) as [[[b s0] rg1]| |]; exact Logic.I.
    - intros x _. destruct (o_call O x attr); exact Logic.I.
    - intros n x e _ _. exact Logic.I. }
  rewrite H2 in P2. destruct P2 as [mp' [l2 [E2 [[_ [F2 _]] [_ [before' [q' C2]]]]]]]. injection E2 as <-.
  rewrite one_construct, C2 in C1. injection C1 as -> _ _. congruence.
Qed.
End One.
End Fits.
