(** AZP with the simulated-annealing strategy: which outcomes are possible. *)
From Verif Require Import Base Spec M_Graph P_Graph M_Util P_Base P_Util P_Forest P_Init P_Initial
  M_Objective P_Sum P_Objective M_Azp P_Azp P_Strategy P_Fit P_AzpFit M_Sa P_Sa M_MaxP P_MaxP P_MaxP2 P_Greedy P_Zoning.

(** ** turns and passes with a strategy that draws *)
Definition b2n (b : bool) : nat := if b then 1 else 0.

Section TrialTurns.
Variable g : graph.
Hypothesis Hsym : symmetric g.
Variable expf : Q -> Q.
Variable goes : bool -> list Z -> nat -> Z -> Prop.
Variable must : list Z -> nat -> Z -> Prop.
Variable T : nat -> bool -> strategy -> list Z -> Prop.
Hypothesis goes_legal : forall up l a K, goes up l a K -> legal_move g l a K.
Hypothesis must_legal : forall l a K, must l a K -> legal_move g l a K.
Hypothesis call_sound : forall n mv s a K l rg b s' rg', wf g l -> legal_move g l a K -> T n mv s l ->
  strat_call expf s a K l rg = Ok (b, s', rg') ->
  if b : bool then exists up, goes up l a K /\ T (b2n up + n) true s' (upd l a K) else ~ must l a K /\ T n mv s' l.
Hypothesis call_go : forall n mv s up a K l, wf g l -> goes up l a K -> T n mv s l ->
  exists s', T (b2n up + n) true s' (upd l a K) /\ forall r', exists r, strat_call expf s a K l r = Ok (true, s', r').
Hypothesis call_stay : forall n mv s a K l, wf g l -> legal_move g l a K -> ~ must l a K -> T n mv s l ->
  exists s', T n mv s' l /\ forall r', exists r, strat_call expf s a K l r = Ok (false, s', r').

Lemma ttry_sound K n mv : forall k cands labels rn s r m labels' rn' s' r',
  wf g labels -> rn_ok g labels rn -> (forall a, In a cands -> legal_move g labels a K) -> T n mv s labels ->
  try_candidates strategy (strat_call expf) g k cands K labels rn s r = Ok (m, labels', rn', s', r') ->
  wf g labels' /\ rn_ok g labels' rn' /\ same_labels labels' labels /\
  if m : bool then exists up a, goes up labels a K /\ labels' = upd labels a K /\ T (b2n up + n) true s' labels'
  else labels' = labels /\ T n mv s' labels /\ forall a, In a cands -> ~ must labels a K.
Proof.
  induction k as [|k IH]; intros cands labels rn s r m labels' rn' s' r' Hwf Hrn Hc HT H; destruct cands as [|c0 cs];
    cbn [try_candidates] in H; try discriminate.
  - injection H as <- <- <- <- <-. split; [auto|]. split; [auto|]. split; [apply same_labels_refl|]. split; [auto|]. split; [auto|]. intros a [].
  - injection H as <- <- <- <- <-. split; [auto|]. split; [auto|]. split; [apply same_labels_refl|]. split; [auto|]. split; [auto|]. intros a [].
  - destruct (pop_randomly_from_Ok (c0 :: cs) r ltac:(discriminate)) as [x [rest [Ep Hp]]]. rewrite Ep in H. cbn [bind] in H.
    assert (Hx : In x (c0 :: cs)) by (rewrite Hp; left; auto). pose proof (Hc x Hx) as Hlx.
    destruct (strat_call expf s x K labels (rnext r)) as [[[b s1] r1]|e|] eqn:Ec; cbn [bind] in H; try discriminate.
    pose proof (call_sound _ _ _ _ _ _ _ _ _ _ Hwf Hlx HT Ec) as Hb. destruct b.
    + destruct Hb as [up [Hg HT1]]. pose proof (after_move_ok g labels rn x K Hsym Hwf Hrn Hlx) as Ham.
      destruct (after_move g x K labels rn) as [l1 rn1]. destruct Ham as [-> Hrn'].
      destruct (legal_upd g labels x K Hwf Hlx) as [Hwf' Hset]. injection H as <- <- <- <- <-.
      split; [auto|]. split; [auto|]. split; [auto|]. exists up, x. auto.
    + destruct Hb as [Hno HT1]. destruct (IH rest labels rn s1 r1 m labels' rn' s' r' Hwf Hrn) as [H1 [H2 [H4 H5]]]; auto.
      { intros a Ha. apply Hc. rewrite Hp. right; auto. }
      split; [auto|]. split; [auto|]. split; [auto|]. destruct m; [auto|]. destruct H5 as [-> [H5 H6]]. split; [auto|]. split; [auto|].
      intros a Ha Hok. rewrite Hp in Ha. destruct Ha as [<-|Ha]; [auto|apply (H6 a Ha Hok)].
Qed.

Lemma tgrow_sound K : forall fuel n mv labels rn s r labels' rn' s' r',
  wf g labels -> rn_ok g labels rn -> In K labels -> T n mv s labels ->
  grow_recipient strategy (strat_call expf) g fuel K labels rn s r = Ok (labels', rn', s', r') ->
  wf g labels' /\ rn_ok g labels' rn' /\ same_labels labels' labels /\
  exists u m, trial_turn goes must K labels u m labels' /\ T (u + n) (mv || Nat.ltb 0 m) s' labels'.
Proof.
  induction fuel as [|fuel IH]; intros n mv labels rn s r labels' rn' s' r' Hwf Hrn HK HT H; cbn [grow_recipient] in H; [discriminate|].
  destruct (Hrn K HK) as [ns [Hns _]]. rewrite Hns in H. cbn [bind] in H.
  pose proof (candidates_legal g labels rn K ns Hsym Hwf HK Hrn Hns) as Hcl.
  destruct (try_candidates _ _ _ _ _ _ _ _ _ _) as [[[[[m l1] rn1] s1] r1]|e|] eqn:Et; cbn [bind] in H; try discriminate.
  destruct (ttry_sound K n mv _ _ _ _ _ _ _ _ _ _ _ Hwf Hrn (fun a Ha => proj1 (Hcl a) Ha) HT Et) as [H1 [H2 [H4 H5]]].
  destruct m.
  - destruct H5 as [up [a [Ha [-> HT1]]]]. destruct (IH _ _ _ _ _ _ _ _ _ _ H1 H2 (proj2 (H4 K) HK) HT1 H) as [K1 [K2 [K4 [u [m [K5 K6]]]]]].
    split; [auto|]. split; [auto|]. split; [eapply same_labels_trans; eauto|].
    exists (b2n up + u), (1 + m). split; [apply trial_move with (a := a); auto|].
    replace (b2n up + u + n) with (u + (b2n up + n)) by lia. rewrite orb_true_r. exact K6.
  - destruct H5 as [-> [HT1 H5]]. injection H as <- <- <- <-. split; [auto|]. split; [auto|]. split; [auto|].
    exists 0, 0. split; [|rewrite orb_false_r; exact HT1]. apply trial_over. intros a Ha. apply (H5 a); [apply Hcl, must_legal; auto|auto].
Qed.

Lemma orb_moves mv m1 m2 : (mv || Nat.ltb 0 m1) || Nat.ltb 0 m2 = mv || Nat.ltb 0 (m1 + m2).
Proof. destruct mv, m1, m2; reflexivity. Qed.

Lemma tpass_sound fuel : forall k n mv regions labels rn s r labels' rn' s' r',
  wf g labels -> rn_ok g labels rn -> (forall K, In K regions -> In K labels) -> T n mv s labels ->
  azp_pass strategy (strat_call expf) g fuel k regions labels rn s r = Ok (labels', rn', s', r') ->
  wf g labels' /\ rn_ok g labels' rn' /\ same_labels labels' labels /\
  exists Ks u m, Permutation Ks regions /\ trial_round goes must Ks labels u m labels' /\ T (u + n) (mv || Nat.ltb 0 m) s' labels'.
Proof.
  induction k as [|k IH]; intros n mv regions labels rn s r labels' rn' s' r' Hwf Hrn HK HT H; destruct regions as [|z zs];
    cbn [azp_pass] in H; try discriminate.
  - injection H as <- <- <- <-. split; [auto|]. split; [auto|]. split; [apply same_labels_refl|].
    exists [], 0, 0. split; [auto|]. split; [constructor|]. rewrite orb_false_r. exact HT.
  - injection H as <- <- <- <-. split; [auto|]. split; [auto|]. split; [apply same_labels_refl|].
    exists [], 0, 0. split; [auto|]. split; [constructor|]. rewrite orb_false_r. exact HT.
  - destruct (pop_randomly_from_Ok (z :: zs) r ltac:(discriminate)) as [x [rest [Ep Hp]]]. rewrite Ep in H. cbn [bind] in H.
    destruct (grow_recipient _ _ _ _ _ _ _ _ _) as [[[[l1 rn1] s1] r1]|e|] eqn:Eg; cbn [bind] in H; try discriminate.
    assert (Hx : In x labels) by (apply HK; rewrite Hp; left; auto).
    destruct (tgrow_sound x _ _ _ _ _ _ _ _ _ _ _ Hwf Hrn Hx HT Eg) as [H1 [H2 [H4 [u1 [m1 [H5 H6]]]]]].
    destruct (IH (u1 + n) (mv || Nat.ltb 0 m1) rest l1 rn1 s1 r1 labels' rn' s' r' H1 H2) as [K1 [K2 [K4 [Ks [u2 [m2 [HKs [K5 K6]]]]]]]]; auto.
    { intros y Hy. apply H4, HK. rewrite Hp. right; auto. }
    split; [auto|]. split; [auto|]. split; [eapply same_labels_trans; eauto|].
    exists (x :: Ks), (u1 + u2), (m1 + m2). split; [rewrite Hp; auto|]. split; [econstructor; eauto|].
    rewrite <- orb_moves. replace (u1 + u2 + n) with (u2 + (u1 + n)) by lia. exact K6.
Qed.

Lemma ttry_reach K up a n mv : forall k cands labels rn s, length cands <= k -> In a cands ->
  wf g labels -> rn_ok g labels rn -> goes up labels a K -> T n mv s labels ->
  exists rn' s', wf g (upd labels a K) /\ rn_ok g (upd labels a K) rn' /\ T (b2n up + n) true s' (upd labels a K) /\
    same_labels (upd labels a K) labels /\
    forall r', exists r, try_candidates strategy (strat_call expf) g k cands K labels rn s r = Ok (true, upd labels a K, rn', s', r').
Proof.
  intros k cands labels rn s Hk Ha Hwf Hrn Hok HT. pose proof (goes_legal _ _ _ _ Hok) as Hl.
  destruct (call_go n mv s up a K labels Hwf Hok HT) as [s' [HT' Ec]].
  pose proof (after_move_ok g labels rn a K Hsym Hwf Hrn Hl) as Ham.
  destruct (after_move g a K labels rn) as [l1 rn1] eqn:Eam. destruct Ham as [-> Hrn1].
  destruct (legal_upd g labels a K Hwf Hl) as [Hwf' Hset].
  exists rn1, s'. split; [auto|]. split; [auto|]. split; [auto|]. split; [auto|]. intros r'.
  destruct (pop_choice cands a Ha) as [i [rest [_ Hpop]]]. destruct (Ec r') as [r1 E1]. exists (rcons i r1).
  destruct cands as [|c0 cs]; [destruct Ha|]. destruct k as [|k]; [cbn in Hk; lia|]. cbn [try_candidates].
  rewrite Hpop. cbn [bind]. rewrite E1. cbn [bind]. rewrite Eam. reflexivity.
Qed.

Lemma ttry_reach_none K n mv : forall k cands labels rn s, length cands <= k ->
  (forall a, In a cands -> legal_move g labels a K) -> wf g labels -> (forall a, In a cands -> ~ must labels a K) -> T n mv s labels ->
  exists s', T n mv s' labels /\
    forall r', exists r, try_candidates strategy (strat_call expf) g k cands K labels rn s r = Ok (false, labels, rn, s', r').
Proof.
  induction k as [|k IH]; intros cands labels rn s Hk Hc Hwf Hno HT; destruct cands as [|c0 cs]; cbn [length] in Hk; try lia.
  - exists s. split; [auto|]. intros r'. exists r'. reflexivity.
  - exists s. split; [auto|]. intros r'. exists r'. reflexivity.
  - destruct (pop_choice (c0 :: cs) c0 (or_introl eq_refl)) as [i [rest [Hp Hpop]]].
    destruct (call_stay n mv s c0 K labels Hwf (Hc c0 (or_introl eq_refl)) (Hno c0 (or_introl eq_refl)) HT) as [s1 [HT1 Ec]].
    assert (Hin : forall x, In x rest -> In x (c0 :: cs)) by (intros x Hx; rewrite Hp; right; auto).
    apply Permutation_length in Hp. cbn [length] in Hp.
    destruct (IH rest labels rn s1) as [s' [HT' Hr]]; auto; [lia|]. exists s'. split; [auto|]. intros r'. destruct (Hr r') as [r Er].
    destruct (Ec r) as [r1 E1].
    exists (rcons i r1). cbn [try_candidates]. rewrite Hpop. cbn [bind]. rewrite E1. cbn [bind]. exact Er.
Qed.

Lemma tgrow_reach K labels u m labels' : trial_turn goes must K labels u m labels' -> forall fuel n mv rn s, outside g labels K < fuel ->
  wf g labels -> rn_ok g labels rn -> In K labels -> T n mv s labels ->
  exists rn' s', wf g labels' /\ rn_ok g labels' rn' /\ T (u + n) (mv || Nat.ltb 0 m) s' labels' /\ same_labels labels' labels /\
    forall r', exists r, grow_recipient strategy (strat_call expf) g fuel K labels rn s r = Ok (labels', rn', s', r').
Proof.
  induction 1 as [labels Hno|up labels a u m labels' Hok _ IH]; intros fuel n mv rn s Hf Hwf Hrn HK HT;
    (destruct fuel as [|fuel]; [lia|]); cbn [grow_recipient];
    destruct (Hrn K HK) as [ns [Hns _]]; rewrite Hns; cbn [bind];
    pose proof (candidates_legal g labels rn K ns Hsym Hwf HK Hrn Hns) as Hcl.
  - destruct (ttry_reach_none K n mv (length (filter (is_candidate g labels) ns)) (filter (is_candidate g labels) ns) labels rn s) as [s' [HT' Hr]]; auto.
    { intros a Ha. apply Hcl; auto. }
    exists rn, s'. split; [auto|]. split; [auto|]. rewrite orb_false_r. split; [auto|]. split; [apply same_labels_refl|]. intros r'.
    destruct (Hr r') as [r Er]. exists r. rewrite Er. reflexivity.
  - destruct (ttry_reach K up a n mv (length (filter (is_candidate g labels) ns)) (filter (is_candidate g labels) ns) labels rn s) as
      [rn1 [s1 [H1 [H2 [H3 [H4 Hr]]]]]]; auto.
    { apply Hcl. eapply goes_legal; eauto. }
    destruct (IH fuel (b2n up + n) true rn1 s1) as [rn' [s' [K1 [K2 [K3 [K4 Hr']]]]]]; auto.
    { pose proof (outside_upd g labels a K (proj1 Hwf) (goes_legal _ _ _ _ Hok)). lia. }
    { apply H4; auto. }
    exists rn', s'. split; [auto|]. split; [auto|].
    split; [change (Nat.ltb 0 (1 + m)) with true; rewrite orb_true_r; replace ((if up then 1 else 0) + u + n) with (u + (b2n up + n)) by (unfold b2n; lia); exact K3|].
    split; [eapply same_labels_trans; eauto|]. intros r'.
    destruct (Hr' r') as [r1 E1]. destruct (Hr r1) as [r Er]. exists r. rewrite Er. cbn [bind]. exact E1.
Qed.

Lemma tpass_reach fuel Ks labels u m labels' : gn g < fuel -> trial_round goes must Ks labels u m labels' -> forall k n mv regions rn s,
  Permutation Ks regions -> length regions <= k ->
  wf g labels -> rn_ok g labels rn -> (forall K, In K regions -> In K labels) -> T n mv s labels ->
  exists rn' s', wf g labels' /\ rn_ok g labels' rn' /\ T (u + n) (mv || Nat.ltb 0 m) s' labels' /\ same_labels labels' labels /\
    forall r', exists r, azp_pass strategy (strat_call expf) g fuel k regions labels rn s r = Ok (labels', rn', s', r').
Proof.
  intros Hf H. induction H as [labels|K Ks labels u1 m1 l1 u2 m2 l2 Ht _ IH]; intros k n mv regions rn s HP Hk Hwf Hrn HK HT.
  - apply Permutation_nil in HP. subst regions. exists rn, s. split; [auto|]. split; [auto|]. rewrite orb_false_r.
    split; [auto|]. split; [apply same_labels_refl|]. intros r'. exists r'. destruct k; reflexivity.
  - assert (Hin : In K regions) by (rewrite <- HP; left; auto).
    destruct (pop_choice regions K Hin) as [i [rest [Hp Hpop]]].
    assert (HP' : Permutation Ks rest) by (apply Permutation_cons_inv with (a := K); rewrite HP; auto).
    destruct (tgrow_reach K labels u1 m1 l1 Ht fuel n mv rn s) as [rn1 [s1 [H1 [H2 [H3 [H4 Hr]]]]]]; auto.
    { pose proof (outside_le g labels K). lia. }
    assert (Hlen : length regions = S (length rest)) by (rewrite Hp; reflexivity).
    destruct k as [|k]; [lia|].
    destruct (IH k (u1 + n) (mv || Nat.ltb 0 m1) rest rn1 s1) as [rn2 [s2 [K1 [K2 [K3 [K4 Hr2]]]]]]; auto; try lia.
    { intros y Hy. apply H4, HK. rewrite Hp. right; auto. }
    exists rn2, s2. split; [auto|]. split; [auto|].
    split; [rewrite <- orb_moves; replace (u1 + u2 + n) with (u2 + (u1 + n)) by lia; exact K3|].
    split; [eapply same_labels_trans; eauto|]. intros r'.
    destruct (Hr2 r') as [r2 E2]. destruct (Hr r2) as [r1 E1]. exists (rcons i r1). destruct regions as [|z zs]; [destruct Hin|].
    cbn [azp_pass]. rewrite Hpop. cbn [bind]. rewrite E1. cbn [bind]. exact E2.
Qed.
End TrialTurns.

(** ** one component *)
Lemma acceptance_eq expf : (forall x y, x == y -> expf x == expf y)%Q -> forall t d d', (d == d')%Q -> (acceptance expf t d == acceptance expf t d')%Q.
Proof. intros H t d d' E. unfold acceptance. destruct (Qeq_bool t 0); [reflexivity|]. apply H. rewrite E. reflexivity. Qed.

Lemma draw_bounds r : (0 <= fst (random_random r) <= largest_draw)%Q.
Proof.
  unfold random_random, largest_draw. cbn [fst]. pose proof (Z.mod_pos_bound (Z.of_nat (r 0)) (2 ^ 53) eq_refl) as H.
  generalize dependent (Z.modulo (Z.of_nat (r 0)) (2 ^ 53)). intros z Hz. unfold Qle. cbn [Qnum Qden].
  change (Z.pos (2 ^ 53)) with (2 ^ 53)%Z. split; [lia|]. apply Z.mul_le_mono_nonneg_r; lia.
Qed.
Lemma draw_zero r : (fst (random_random (rcons 0 r)) == 0)%Q.
Proof. reflexivity. Qed.
Lemma draw_largest r : fst (random_random (rcons (Z.to_nat (2 ^ 53 - 1)) r)) = largest_draw.
Proof.
  unfold random_random, largest_draw. cbn [fst]. change (rcons (Z.to_nat (2 ^ 53 - 1)) r 0) with (Z.to_nat (2 ^ 53 - 1)).
  rewrite Z2Nat.id by (vm_compute; discriminate). reflexivity.
Qed.

Section AnnealComponent.
Variable O : objfun.
Variable attr : list (list Q).
Hypothesis Hex : exact_objective O attr.
Variable g : graph.
Hypothesis Hsym : symmetric g.
Hypothesis Hattr : length attr = gn g.
Variable expf : Q -> Q.
Hypothesis Hexpf : forall x y, (x == y -> expf x == expf y)%Q.
Variable t : Q.
Variable term : nat.
Notation prob := (acceptance expf t).

Definition an_goes (up : bool) (l : list Z) (a : nat) (K : Z) : Prop :=
  legal_move g l a K /\ exists x y, o_call O l attr = Ok x /\ o_call O (upd l a K) attr = Ok y /\
    if up then (x < y /\ 0 < prob (y - x))%Q else (y <= x)%Q.
Definition an_must (l : list Z) (a : nat) (K : Z) : Prop :=
  legal_move g l a K /\ exists x y, o_call O l attr = Ok x /\ o_call O (upd l a K) attr = Ok y /\
    (y <= x \/ (x < y /\ largest_draw < prob (y - x)))%Q.
Definition an_T (n : nat) (mv : bool) (s : strategy) (l : list Z) : Prop :=
  exists c, s = SSa c t n term (Nat.leb term n) mv /\ tracks O attr c l.

Lemma an_goes_legal up l a K : an_goes up l a K -> legal_move g l a K.
Proof. intros [H _]. exact H. Qed.
Lemma an_must_legal l a K : an_must l a K -> legal_move g l a K.
Proof. intros [H _]. exact H. Qed.

Lemma reached_more n : Nat.leb term n || Nat.leb term (S n) = Nat.leb term (S n).
Proof. destruct (Nat.leb_spec term n), (Nat.leb_spec term (S n)); try reflexivity. lia. Qed.

Lemma an_call_total c n re mv a K l rg : wf g l -> legal_move g l a K -> tracks O attr c l ->
  exists b s' rg', sa_call expf c t n term re mv a K l rg = Ok (b, s', rg').
Proof.
  intros Hwf Hl Ht. pose proof Hwf as [Hlen _]. assert (Ha : a < length l) by (destruct Hl as [Ha _]; lia).
  destruct (legal_mate g l a K Hwf Hl) as [Hr Hmate]. pose proof Ht as [Ho [Hat _]].
  destruct Hex as [_ [Hup _]]. destruct (Hup a K l ltac:(lia) Ha Hr Hmate) as [q Eq].
  unfold sa_call. rewrite Ho, Hat, Eq. cbn [bind]. destruct (Qle_bool q 0); [eauto|].
  unfold random_random. destruct (Qltb _ _); eauto.
Qed.

Lemma an_call c n mv a K l rg b s' rg' : wf g l -> legal_move g l a K -> tracks O attr c l ->
  strat_call expf (SSa c t n term (Nat.leb term n) mv) a K l rg = Ok (b, s', rg') ->
  exists x y, o_call O l attr = Ok x /\ o_call O (upd l a K) attr = Ok y /\
    (y <= x -> b = true /\ rg' = rg /\ an_T n true s' (upd l a K))%Q /\
    (x < y -> rg' = rnext rg /\ (b = true <-> fst (random_random rg) < prob (y - x)) /\
       if b then an_T (S n) true s' (upd l a K) else an_T n mv s' l)%Q.
Proof.
  intros Hwf Hl Ht H. cbn [strat_call] in H. pose proof Hwf as [Hlen _]. assert (Ha : a < length l) by (destruct Hl as [Ha _]; lia).
  destruct (sa_call_post expf O attr c t n term (Nat.leb term n) mv l a K rg Hex ltac:(lia) Ha Ht b s' rg' H)
    as [x [y [Ex [Ey [Hle Hlt]]]]].
  exists x, y. split; [auto|]. split; [auto|]. split.
  - intros Hxy. destruct (Hle Hxy) as [-> [-> [c' [-> Ht']]]]. split; [auto|]. split; [auto|]. exists c'. auto.
  - intros Hxy. destruct (Hlt Hxy) as [q [Eq [-> [Hb Hs]]]]. split; [auto|]. split.
    + rewrite Hb. change (sa_prob expf q t) with (prob q). rewrite (acceptance_eq expf Hexpf t q (y - x) Eq). tauto.
    + destruct b.
      * destruct Hs as [c' [-> Ht']]. exists c'. rewrite reached_more. auto.
      * subst s'. exists c. auto.
Qed.

Lemma an_call_sound n mv s a K l rg b s' rg' : wf g l -> legal_move g l a K -> an_T n mv s l ->
  strat_call expf s a K l rg = Ok (b, s', rg') ->
  if b : bool then exists up, an_goes up l a K /\ an_T (b2n up + n) true s' (upd l a K) else ~ an_must l a K /\ an_T n mv s' l.
Proof.
  intros Hwf Hl [c [-> Ht]] H. destruct (an_call c n mv a K l rg b s' rg' Hwf Hl Ht H) as [x [y [Ex [Ey [Hle Hlt]]]]].
  destruct (Qlt_le_dec x y) as [Hxy|Hxy].
  - destruct (Hlt Hxy) as [_ [Hb Hs]]. pose proof (draw_bounds rg) as [D1 D2]. destruct b.
    + exists true. split; [|exact Hs]. split; [auto|]. exists x, y. split; [auto|]. split; [auto|]. split; [auto|].
      pose proof (proj1 Hb eq_refl). lra.
    + split; [|exact Hs]. intros [_ [x' [y' [Ex' [Ey' Hm]]]]]. rewrite Ex in Ex'. rewrite Ey in Ey'. injection Ex' as <-. injection Ey' as <-.
      destruct Hm as [Hm|[_ Hm]]; [lra|]. assert (false = true) by (apply Hb; lra). discriminate.
  - destruct (Hle Hxy) as [-> [_ HT]]. exists false. split; [|exact HT]. split; [auto|]. exists x, y. auto.
Qed.

Lemma an_call_go n mv s up a K l : wf g l -> an_goes up l a K -> an_T n mv s l ->
  exists s', an_T (b2n up + n) true s' (upd l a K) /\ forall r', exists r, strat_call expf s a K l r = Ok (true, s', r').
Proof.
  intros Hwf [Hl [x [y [Ex [Ey Hup]]]]] [c [-> Ht]].
  destruct (an_call_total c n (Nat.leb term n) mv a K l (rcons 0 (fun _ => 0)) Hwf Hl Ht) as [b [s' [rg' E]]].
  destruct (an_call c n mv a K l _ b s' rg' Hwf Hl Ht E) as [x1 [y1 [Ex1 [Ey1 [Hle Hlt]]]]].
  rewrite Ex in Ex1. rewrite Ey in Ey1. injection Ex1 as <-. injection Ey1 as <-.
  assert (Hb : b = true /\ an_T (b2n up + n) true s' (upd l a K)).
  { destruct up.
    - destruct Hup as [H1 H2]. destruct (Hlt H1) as [_ [Hb Hs]]. assert (E1 : b = true) by (apply Hb; rewrite draw_zero; exact H2).
      rewrite E1 in Hs. auto.
    - destruct (Hle Hup) as [E1 [_ HT]]. auto. }
  destruct Hb as [-> HT]. exists s'. split; [exact HT|]. intros r'.
  cbn [strat_call]. unfold sa_call in *. destruct (o_update _ _ _ _ _) as [q|e|]; cbn [bind] in *; try discriminate.
  destruct (Qle_bool q 0); [injection E as <- _; exists r'; reflexivity|].
  exists (rcons 0 r'). unfold random_random in *. change (rcons 0 r' 0) with 0. change (rcons 0 (fun _ => 0) 0) with 0 in E.
  destruct (Qltb _ _); [|discriminate]. injection E as <- _. reflexivity.
Qed.

Lemma an_call_stay n mv s a K l : wf g l -> legal_move g l a K -> ~ an_must l a K -> an_T n mv s l ->
  exists s', an_T n mv s' l /\ forall r', exists r, strat_call expf s a K l r = Ok (false, s', r').
Proof.
  intros Hwf Hl Hno [c [-> Ht]]. set (i := Z.to_nat (2 ^ 53 - 1)).
  destruct (an_call_total c n (Nat.leb term n) mv a K l (rcons i (fun _ => 0)) Hwf Hl Ht) as [b [s' [rg' E]]].
  destruct (an_call c n mv a K l _ b s' rg' Hwf Hl Ht E) as [x [y [Ex [Ey [Hle Hlt]]]]].
  assert (Hxy : (x < y)%Q).
  { destruct (Qlt_le_dec x y) as [H|H]; [auto|]. destruct Hno. split; [auto|]. exists x, y. auto. }
  destruct (Hlt Hxy) as [_ [Hb Hs]]. unfold i in Hb. rewrite draw_largest in Hb.
  destruct b.
  { destruct Hno. split; [auto|]. exists x, y. split; [auto|]. split; [auto|]. right. split; [auto|]. apply Hb; auto. }
  exists s'. split; [exact Hs|]. intros r'. exists (rcons i r').
  cbn [strat_call]. unfold sa_call in *. destruct (o_update _ _ _ _ _) as [q|e|]; cbn [bind] in *; try discriminate.
  destruct (Qle_bool q 0); [discriminate|].
  unfold random_random in *. change (rcons i r' 0) with i. change (rcons i (fun _ => 0) 0) with i in E.
  destruct (Qltb _ _); [discriminate|]. injection E as <- _. reflexivity.
Qed.

Lemma an_T_val n mv s l : an_T n mv s l -> exists x, o_call O l attr = Ok x /\ (strat_val s == x)%Q.
Proof. intros [c [-> [_ [_ [x [Ex Hx]]]]]]. exists x. split; [auto|exact Hx]. Qed.

Lemma an_T_lower n mv s l n' mv' s' l' : an_T n mv s l -> an_T n' mv' s' l' -> (az_lower O attr l l' <-> (strat_val s' < strat_val s)%Q).
Proof.
  intros H H'. destruct (an_T_val _ _ s l H) as [x [Ex Hx]]. destruct (an_T_val _ _ s' l' H') as [y [Ey Hy]]. split.
  - intros [x1 [y1 [E1 [E2 Hlt]]]]. rewrite Ex in E1. rewrite Ey in E2. injection E1 as <-. injection E2 as <-. lra.
  - intros Hlt. exists x, y. split; [auto|]. split; [auto|]. lra.
Qed.

Local Notation rounds := (trial_rounds an_goes an_must (az_lower O attr)).
Local Notation pass_sound_an := (tpass_sound g Hsym expf an_goes an_must an_T an_must_legal an_call_sound).
Local Notation pass_reach_an := (tpass_reach g Hsym expf an_goes an_must an_T an_goes_legal an_call_go an_call_stay).

Lemma an_loop_sound regions : forall fuel start n mv labels rn s r labels' s' r',
  wf g labels -> rn_ok g labels rn -> (forall K, In K regions -> In K labels) -> an_T n mv s labels ->
  azp_loop strategy (strat_call expf) strat_val g fuel start regions labels rn s r = Ok (labels', s', r') ->
  wf g labels' /\ same_labels labels' labels /\
  ((exists v, start = Some v /\ ~ (strat_val s < v)%Q /\ labels' = labels /\ an_T n mv s' labels) \/
   ((forall v, start = Some v -> (strat_val s < v)%Q) /\
    exists u m, rounds regions labels u m labels' /\ an_T (u + n) (mv || Nat.ltb 0 m) s' labels')).
Proof.
  induction fuel as [|fuel IH]; intros start n mv labels rn s r labels' s' r' Hwf Hrn HK HT H; cbn [azp_loop] in H.
  - destruct (match start with None => true | Some v => Qltb (strat_val s) v end) eqn:Ec; [discriminate|].
    destruct start as [v|]; [|discriminate]. injection H as <- <- <-. split; [auto|]. split; [apply same_labels_refl|].
    left. exists v. apply Qltb_ge in Ec. split; [auto|]. split; [lra|auto].
  - destruct (match start with None => true | Some v => Qltb (strat_val s) v end) eqn:Ec.
    + destruct (azp_pass _ _ _ _ _ _ _ _ _ _) as [[[[l1 rn1] s1] r1]|e|] eqn:Ep; cbn [bind] in H; try discriminate.
      destruct (pass_sound_an fuel _ _ _ _ _ _ _ _ _ _ _ _ Hwf Hrn HK HT Ep) as [H1 [H2 [H4 [Ks [u1 [m1 [HKs [H5 H3]]]]]]]].
      destruct (IH (Some (strat_val s)) (u1 + n) (mv || Nat.ltb 0 m1) l1 rn1 s1 r1 labels' s' r' H1 H2) as [K1 [K3 K4]]; auto.
      { intros K HKr. apply H4, HK; auto. }
      split; [auto|]. split; [eapply same_labels_trans; eauto|]. right. split.
      * intros v ->. apply Qltb_lt; auto.
      * pose proof (an_T_lower _ _ s labels _ _ s1 l1 HT H3) as Hlow. destruct K4 as [[v [Ev [Hv [-> HT']]]]|[Hlt [u2 [m2 [Hz HT']]]]].
        -- injection Ev as <-. exists u1, m1. split; [|auto]. eapply trials_last; eauto. rewrite Hlow. auto.
        -- exists (u1 + u2), (m1 + m2). split.
           ++ eapply trials_more; eauto. apply Hlow. apply Hlt; auto.
           ++ rewrite <- orb_moves. replace (u1 + u2 + n) with (u2 + (u1 + n)) by lia. exact HT'.
    + destruct start as [v|]; [|discriminate]. injection H as <- <- <-. split; [auto|]. split; [apply same_labels_refl|].
      left. exists v. apply Qltb_ge in Ec. split; [auto|]. split; [lra|auto].
Qed.

Lemma an_single labels a K : n_labels labels = 1 -> ~ legal_move g labels a K.
Proof.
  intros Hn [_ [D [HD [Hd [_ [b [_ [Hb _]]]]]]]].
  assert (Hle : 2 <= n_labels labels); [|lia].
  unfold n_labels. change 2 with (length [D; K]). apply NoDup_incl_length.
  - constructor; [intros [E|[]]; auto|]. constructor; [intros []|constructor].
  - intros z [<-|[<-|[]]]; apply nodup_In; eapply nth_error_In; eauto.
Qed.

Theorem an_component_sound fuel n mv labels s r labels' s' r' : wf g labels -> an_T n mv s labels ->
  azp_component strategy (strat_call expf) strat_val g fuel labels s r = Ok (labels', s', r') ->
  wf g labels' /\ same_labels labels' labels /\
  exists u m, rounds (uniqueZ labels) labels u m labels' /\ an_T (u + n) (mv || Nat.ltb 0 m) s' labels'.
Proof.
  intros Hwf HT H. unfold azp_component in H. destruct (uniqueZ labels) as [|K0 [|K1 Ks]] eqn:Eu; [discriminate| |].
  - injection H as <- <- <-. split; [auto|]. split; [apply same_labels_refl|].
    assert (Hn : n_labels labels = 1) by (rewrite <- uniqueZ_length, Eu; reflexivity).
    exists 0, 0. rewrite orb_false_r. split; [|auto]. apply trials_last with (Ks := [K0]); auto.
    + change (trial_round an_goes an_must [K0] labels (0 + 0) (0 + 0) labels).
      econstructor; [|constructor]. apply trial_over. intros a [Ha _]. eapply an_single; eauto.
    + intros [x [y [E1 [E2 Hlt]]]]. rewrite E1 in E2. injection E2 as <-. lra.
  - rewrite <- Eu in *. destruct (an_loop_sound (uniqueZ labels) fuel None n mv labels _ s r labels' s' r' Hwf (init_rn_ok g labels (proj1 Hwf))) as [H1 [H3 H4]]; auto.
    { intros K HK. apply uniqueZ_In; auto. }
    split; [auto|]. split; [auto|]. destruct H4 as [[v [Ev _]]|[_ H4]]; [discriminate|auto].
Qed.

Lemma an_loop_reach labels0 labels u m labels' : rounds (uniqueZ labels0) labels u m labels' -> forall fuel start n mv rn s,
  az_m O attr g labels0 (strat_val s) + gn g + 1 < fuel -> same_labels labels labels0 ->
  (forall v, start = Some v -> (strat_val s < v)%Q) -> wf g labels -> rn_ok g labels rn -> an_T n mv s labels ->
  exists s', an_T (u + n) (mv || Nat.ltb 0 m) s' labels' /\ wf g labels' /\ same_labels labels' labels0 /\
    forall r', exists r, azp_loop strategy (strat_call expf) strat_val g fuel start (uniqueZ labels0) labels rn s r = Ok (labels', s', r').
Proof.
  induction 1 as [Ks l u m l1 HP Hr Hlow|Ks l u m l1 u2 m2 l2 HP Hr Hlow _ IH]; intros fuel start n mv rn s Hf Hset Hst Hwf Hrn HT;
    (destruct fuel as [|fuel]; [lia|]);
    (destruct (pass_reach_an fuel Ks l u m l1 ltac:(lia) Hr (length (uniqueZ labels0)) n mv (uniqueZ labels0) rn s HP) as [rn1 [s1 [H1 [H2 [H3 [H4 Hp]]]]]]; auto;
     [intros K HK; apply Hset, uniqueZ_In; auto|]);
    assert (Hset1 : same_labels l1 labels0) by (eapply same_labels_trans; eauto);
    assert (Hgo : match start with None => true | Some v => Qltb (strat_val s) v end = true)
      by (destruct start as [v|]; [apply Qltb_lt; auto|reflexivity]);
    pose proof (an_T_lower _ _ s l _ _ s1 l1 HT H3) as Hlt.
  - exists s1. split; [auto|]. split; [auto|]. split; [auto|]. intros r'. destruct (Hp r') as [r Er]. exists r.
    cbn [azp_loop]. rewrite Hgo, Er. cbn [bind].
    assert (Hno : Qltb (strat_val s1) (strat_val s) = false) by (apply Qltb_ge; rewrite Hlt in Hlow; lra).
    destruct fuel; cbn [azp_loop]; rewrite Hno; reflexivity.
  - assert (Hq : (strat_val s1 < strat_val s)%Q) by (apply Hlt; auto).
    assert (Hdec : az_m O attr g labels0 (strat_val s1) < az_m O attr g labels0 (strat_val s)).
    { destruct HT as [c [-> Ht]]. destruct H3 as [c1 [-> Ht1]]. cbn [strat_val] in *.
      eapply az_m_dec_tracks; eauto. apply H1. }
    destruct (IH fuel (Some (strat_val s)) (u + n) (mv || Nat.ltb 0 m) rn1 s1) as [s' [K1 [K2 [K3 K4]]]]; auto; [lia|intros v Ev; injection Ev as <-; auto|].
    exists s'. split; [rewrite <- orb_moves; replace (u + u2 + n) with (u2 + (u + n)) by lia; exact K1|].
    split; [auto|]. split; [auto|]. intros r'. destruct (K4 r') as [r1 E1]. destruct (Hp r1) as [r Er].
    exists r. cbn [azp_loop]. rewrite Hgo, Er. cbn [bind]. exact E1.
Qed.

Theorem an_component_reach fuel n mv labels s u m labels' : wf g labels -> labels <> [] -> an_T n mv s labels ->
  gn g ^ gn g + gn g + 1 < fuel -> rounds (uniqueZ labels) labels u m labels' ->
  exists s', an_T (u + n) (mv || Nat.ltb 0 m) s' labels' /\ wf g labels' /\ same_labels labels' labels /\
    forall r', exists r, azp_component strategy (strat_call expf) strat_val g fuel labels s r = Ok (labels', s', r').
Proof.
  intros Hwf Hne HT Hf Hz. unfold azp_component. destruct (uniqueZ labels) as [|K0 [|K1 Ks]] eqn:Eu.
  - exfalso. destruct labels as [|x l]; [congruence|]. assert (H : In x (uniqueZ (x :: l))) by (apply uniqueZ_In; left; auto).
    rewrite Eu in H. destruct H.
  - assert (Hn : n_labels labels = 1) by (rewrite <- uniqueZ_length, Eu; reflexivity).
    assert (Hround : forall Ks u m l, trial_round an_goes an_must Ks labels u m l -> u = 0 /\ m = 0 /\ l = labels).
    { clear - Hn Hattr. intros Ks u m l H. remember labels as l0 eqn:E in H. revert E. induction H as [l|K Ks l u1 m1 l1 u2 m2 l2 Ht _ IH]; intros E; [auto|].
      subst l. inversion Ht as [|? ? a ? ? ? Hok _]; subst; [apply IH; auto|]. destruct Hok as [Hok _]. destruct (an_single labels a K Hn Hok). }
    assert (El : u = 0 /\ m = 0 /\ labels' = labels).
    { inversion Hz as [Ks ? ? ? ? _ Hr _|Ks ? u1 m1 l1 ? ? ? _ Hr Hlow _]; subst; [eauto|]. apply Hround in Hr. destruct Hr as [_ [_ ->]].
      destruct Hlow as [x [y [E1 [E2 Hlt]]]]. rewrite E1 in E2. injection E2 as <-. lra. }
    destruct El as [-> [-> ->]]. exists s. rewrite orb_false_r. split; [auto|]. split; [auto|]. split; [apply same_labels_refl|]. intros r'. exists r'. reflexivity.
  - rewrite <- Eu in *. destruct (an_loop_reach labels labels u m labels' Hz fuel None n mv (init_region_neighbors g labels) s) as [s' [H1 [H2 [H3 H4]]]]; auto.
    + pose proof (az_m_bound O attr g labels (strat_val s) (proj1 Hwf)). lia.
    + apply same_labels_refl.
    + discriminate.
    + apply init_rn_ok. apply Hwf.
    + exists s'. auto.
Qed.
End AnnealComponent.

(** ** trials of the regions of an island in the whole graph and in its component *)
Section TrialsTransfer.
Variable g : graph.
Variable c : nat.
Notation isl := (comp_nodes g c).
Notation G l := (comp_part g l c).
Variables goesw goesc : bool -> list Z -> nat -> Z -> Prop.
Variables mustw mustc : list Z -> nat -> Z -> Prop.
Variables lowerw lowerc : list Z -> list Z -> Prop.
Hypothesis goesw_in : forall up l a K, goesw up l a K -> In a isl /\ legal_move g l a K.
Hypothesis goesc_legal : forall up m i K, goesc up m i K -> legal_move (comp_graph g c) m i K.
Hypothesis mustw_in : forall l a K, mustw l a K -> In a isl /\ legal_move g l a K.
Hypothesis mustc_legal : forall m i K, mustc m i K -> legal_move (comp_graph g c) m i K.
Hypothesis goes_comp : forall up l i a K, wf g l -> nth_error isl i = Some a -> (goesw up l a K <-> goesc up (G l) i K).
Hypothesis must_comp : forall l i a K, wf g l -> nth_error isl i = Some a -> (mustw l a K <-> mustc (G l) i K).
Hypothesis lower_comp : forall l l', lowerw l l' <-> lowerc (G l) (G l').

Lemma comp_member m i K : legal_move (comp_graph g c) m i K -> exists a, nth_error isl i = Some a.
Proof.
  intros [Hi _]. rewrite comp_graph_n in Hi. destruct (nth_error isl i) as [a|] eqn:E; [eauto|]. apply nth_error_None in E. lia.
Qed.

Lemma trial_turn_to K l u m l' : trial_turn goesw mustw K l u m l' -> wf g l ->
  wf g l' /\ same_labels l' l /\ trial_turn goesc mustc K (G l) u m (G l').
Proof.
  induction 1 as [l Hno|up l a u m l' Hok _ IH]; intros Hwf.
  - split; [auto|]. split; [apply same_labels_refl|]. apply trial_over. intros i Hi.
    destruct (comp_member _ _ _ (mustc_legal _ _ _ Hi)) as [a E]. apply (Hno a). apply (must_comp l i a K); auto.
  - destruct (goesw_in _ _ _ _ Hok) as [Hin Hl]. destruct (legal_upd g l a K Hwf Hl) as [Hwf1 Hs1].
    destruct (IH Hwf1) as [H1 [H2 H4]]. split; [auto|]. split; [eapply same_labels_trans; eauto|].
    destruct (In_nth_error _ _ Hin) as [i Hi]. apply (trial_move _ _ _ up _ i).
    + apply (goes_comp up l i a K); auto.
    + rewrite <- (comp_part_upd g l c i a K (proj1 Hwf) Hi). exact H4.
Qed.

Lemma trial_turn_of K l u m k' : wf g l -> trial_turn goesc mustc K (G l) u m k' ->
  exists l', trial_turn goesw mustw K l u m l' /\ G l' = k'.
Proof.
  intros Hwf H. remember (G l) as k eqn:E. revert l Hwf E. induction H as [k Hno|up k i u m k' Hok _ IH]; intros l Hwf ->.
  - exists l. split; [|auto]. apply trial_over. intros a Ha. destruct (mustw_in _ _ _ Ha) as [Hin _]. destruct (In_nth_error _ _ Hin) as [i Hi].
    apply (Hno i). apply (must_comp l i a K); auto.
  - destruct (comp_member _ _ _ (goesc_legal _ _ _ _ Hok)) as [a E].
    apply (goes_comp up l i a K) in Hok; auto. destruct (goesw_in _ _ _ _ Hok) as [Hin Hl]. destruct (legal_upd g l a K Hwf Hl) as [Hwf1 _].
    destruct (IH (upd l a K) Hwf1) as [l' [H1 H2]]; [symmetry; apply comp_part_upd; auto; apply Hwf|].
    exists l'. split; [|auto]. eapply trial_move; eauto.
Qed.

Lemma trial_round_to Ks l u m l' : trial_round goesw mustw Ks l u m l' -> wf g l ->
  wf g l' /\ same_labels l' l /\ trial_round goesc mustc Ks (G l) u m (G l').
Proof.
  induction 1 as [l|K Ks l u1 m1 l1 u2 m2 l2 Ht _ IH]; intros Hwf.
  - split; [auto|]. split; [apply same_labels_refl|]. constructor.
  - destruct (trial_turn_to K l u1 m1 l1 Ht Hwf) as [H1 [H2 H4]]. destruct (IH H1) as [K1 [K2 K4]].
    split; [auto|]. split; [eapply same_labels_trans; eauto|]. econstructor; eauto.
Qed.

Lemma trial_round_of Ks l u m k' : wf g l -> trial_round goesc mustc Ks (G l) u m k' ->
  exists l', trial_round goesw mustw Ks l u m l' /\ G l' = k'.
Proof.
  intros Hwf H. remember (G l) as k eqn:E. revert l Hwf E. induction H as [k|K Ks k u1 m1 k1 u2 m2 k2 Ht _ IH]; intros l Hwf ->.
  - exists l. split; [constructor|auto].
  - destruct (trial_turn_of K l u1 m1 k1 Hwf Ht) as [l1 [H1 <-]]. destruct (trial_turn_to K l u1 m1 l1 H1 Hwf) as [Hwf1 _].
    destruct (IH l1 Hwf1 eq_refl) as [l2 [H2 H3]]. exists l2. split; [econstructor; eauto|auto].
Qed.

Lemma trial_rounds_to regions l u m l' : trial_rounds goesw mustw lowerw regions l u m l' -> wf g l ->
  wf g l' /\ same_labels l' l /\ trial_rounds goesc mustc lowerc regions (G l) u m (G l').
Proof.
  induction 1 as [Ks l u m l1 HP Hr Hlow|Ks l u1 m1 l1 u2 m2 l2 HP Hr Hlow _ IH]; intros Hwf.
  - destruct (trial_round_to Ks l u m l1 Hr Hwf) as [H1 [H2 H4]].
    split; [auto|]. split; [auto|]. eapply trials_last; eauto. rewrite <- lower_comp. auto.
  - destruct (trial_round_to Ks l u1 m1 l1 Hr Hwf) as [H1 [H2 H4]]. destruct (IH H1) as [K1 [K2 K4]].
    split; [auto|]. split; [eapply same_labels_trans; eauto|]. eapply trials_more; eauto. apply lower_comp. auto.
Qed.

Lemma trial_rounds_of regions l u m k' : wf g l -> trial_rounds goesc mustc lowerc regions (G l) u m k' ->
  exists l', trial_rounds goesw mustw lowerw regions l u m l' /\ G l' = k'.
Proof.
  intros Hwf H. remember (G l) as k eqn:E. revert l Hwf E.
  induction H as [Ks k u m k1 HP Hr Hlow|Ks k u1 m1 k1 u2 m2 k2 HP Hr Hlow _ IH]; intros l Hwf ->.
  - destruct (trial_round_of Ks l u m k1 Hwf Hr) as [l1 [H1 <-]].
    exists l1. split; [eapply trials_last; eauto; rewrite lower_comp; auto|auto].
  - destruct (trial_round_of Ks l u1 m1 k1 Hwf Hr) as [l1 [H1 <-]].
    destruct (trial_round_to Ks l u1 m1 l1 H1 Hwf) as [Hwf1 _]. destruct (IH l1 Hwf1 eq_refl) as [l2 [H2 H3]].
    exists l2. split; [eapply trials_more; eauto; apply lower_comp; auto|auto].
Qed.
End TrialsTransfer.

Lemma trial_rounds_perm goes must lower regions regions' l u m l' : Permutation regions regions' ->
  trial_rounds goes must lower regions l u m l' -> trial_rounds goes must lower regions' l u m l'.
Proof.
  intros Hp. induction 1 as [Ks l u m l1 HP Hr Hlow|Ks l u1 m1 l1 u2 m2 l2 HP Hr Hlow _ IH].
  - apply (trials_last _ _ _ _ Ks); auto. rewrite HP. auto.
  - apply (trials_more _ _ _ _ Ks l u1 m1 l1); auto. rewrite HP. auto.
Qed.

Section AnnealTransfer.
Variable O : objfun.
Variable attr : list (list Q).
Variable g : graph.
Variable expf : Q -> Q.
Variable t : Q.
Variable c : nat.
Notation isl := (comp_nodes g c).
Notation G l := (comp_part g l c).
Notation goesc := (an_goes O (attr_c attr g c) (comp_graph g c) expf t).
Notation mustc := (an_must O (attr_c attr g c) (comp_graph g c) expf t).
Notation lowc := (az_lower O (attr_c attr g c)).
Notation goesw := (can_go O attr g (acceptance expf t) isl).
Notation mustw := (must_go O attr g (acceptance expf t) isl).

Lemma can_go_comp up l i a K : wf g l -> nth_error isl i = Some a -> (goesw up l a K <-> goesc up (G l) i K).
Proof.
  intros Hwf Hi. unfold can_go, an_goes. rewrite <- (comp_part_upd g l c i a K (proj1 Hwf) Hi). split.
  - intros [_ [Hl H]]. split; [apply (legal_to_comp g l c i a K); auto|exact H].
  - intros [Hl H]. split; [eapply nth_error_In; eauto|]. split; [eapply legal_of_comp; eauto|exact H].
Qed.
Lemma must_go_comp l i a K : wf g l -> nth_error isl i = Some a -> (mustw l a K <-> mustc (G l) i K).
Proof.
  intros Hwf Hi. unfold must_go, an_must. rewrite <- (comp_part_upd g l c i a K (proj1 Hwf) Hi). split.
  - intros [_ [Hl H]]. split; [apply (legal_to_comp g l c i a K); auto|exact H].
  - intros [Hl H]. split; [eapply nth_error_In; eauto|]. split; [eapply legal_of_comp; eauto|exact H].
Qed.
Lemma can_go_in up l a K : goesw up l a K -> In a isl /\ legal_move g l a K.
Proof. intros [H1 [H2 _]]. auto. Qed.
Lemma must_go_in l a K : mustw l a K -> In a isl /\ legal_move g l a K.
Proof. intros [H1 [H2 _]]. auto. Qed.
Lemma goesc_legal up m i K : goesc up m i K -> legal_move (comp_graph g c) m i K.
Proof. intros [H _]. exact H. Qed.
Lemma mustc_legal m i K : mustc m i K -> legal_move (comp_graph g c) m i K.
Proof. intros [H _]. exact H. Qed.
Lemma lower_comp l l' : lower_at O attr isl l l' <-> lowc (G l) (G l').
Proof. split; intros H; exact H. Qed.

Lemma annealed_comp l u m k' : wf g l ->
  (trial_rounds goesc mustc lowc (uniqueZ (G l)) (G l) u m k' <->
   exists l', annealed O attr g (acceptance expf t) isl l u m l' /\ G l' = k').
Proof.
  intros Hwf. split.
  - intros H. destruct (trial_rounds_of g c _ _ _ _ _ _ can_go_in goesc_legal must_go_in mustc_legal can_go_comp must_go_comp lower_comp
      _ l u m k' Hwf H) as [l' [H1 H2]].
    exists l'. split; [|auto]. exists (uniqueZ (G l)).
    split; [apply uniqueZ_NoDup|]. split; [|auto]. intros K. rewrite uniqueZ_In, comp_part_In by apply Hwf. destruct Hwf as [Hl _].
    split; intros [a Ha]; exists a.
    + destruct Ha as [_ [Hc Hr]]. split; [|auto]. apply comp_nodes_In. split; [apply nth_error_lt in Hr; lia|auto].
    + destruct Ha as [Ha Hr]. apply comp_nodes_In in Ha. tauto.
  - intros [l' [[regions [Hnd [Hreg H]]] <-]]. apply (trial_rounds_perm _ _ _ regions); [apply regions_perm; auto; apply Hwf|].
    apply (trial_rounds_to g c _ _ _ _ _ _ can_go_in mustc_legal can_go_comp must_go_comp lower_comp _ _ _ _ _ H Hwf).
Qed.
End AnnealTransfer.

(** ** a fit from given labels, component after component *)
Section Threads.
Variable S : Type.
Variable start : S -> list Z -> list (list Q) -> list nat -> out S.
Variable component : graph -> list Z -> list (list Q) -> S -> rng -> out (list Z * S * rng).
Variable g : graph.
Variable attr : list (list Q).
Variable X : Type.
Variable J : X -> S -> Prop.
Variable R : nat -> list Z -> list Z -> X -> X -> Prop.
Hypothesis Hsound : forall c l s x r l' s' r', c < n_components g -> wf (comp_graph g c) l -> J x s ->
  run_component S start component g attr c l s r = Ok (l', s', r') ->
  length l' = length l /\ exists x', R c l l' x x' /\ J x' s'.
Hypothesis Hreach : forall c l s x l' x', c < n_components g -> wf (comp_graph g c) l -> J x s -> R c l l' x x' ->
  exists s', J x' s' /\ forall r', exists r, run_component S start component g attr c l s r = Ok (l', s', r').
Variable l0 : list Z.
Hypothesis Hwf0 : wf g l0.
Hypothesis Hm0 : ~ In (-1)%Z l0.

Fixpoint threads (target : list Z) (cs : list nat) (x x' : X) : Prop :=
  match cs with
  | [] => x' = x
  | c :: cs => exists x1, R c (comp_part g l0 c) (comp_part g target c) x x1 /\ threads target cs x1 x'
  end.

Lemma part_separate c : comp_part g (separate_one g l0 c) c = comp_part g l0 c.
Proof.
  destruct Hwf0 as [Hlen _]. unfold comp_part, gather. apply map_ext_in. intros a Ha. apply comp_nodes_In in Ha. destruct Ha as [Ha Hca].
  pose proof (separate_one_in g l0 c a Hlen Ha Hca) as Hs.
  rewrite (nth_error_nth l0 a (-1)%Z (x := lab l0 a)) by (apply lab_nth_error; lia).
  apply nth_error_nth. rewrite Hs. apply lab_nth_error. lia.
Qed.

Lemma one_separate c labels s r : c < n_components g ->
  fit_one S start component g attr (YArr (separate_one g l0 c)) (labels, s) r =
  let* '(l', s2, r') := run_component S start component g attr c (comp_part g l0 c) s r in
  let* labels' := assign_idx labels (comp_nodes g c) l' in Ok ((labels', s2), r').
Proof.
  intros Hc. destruct Hwf0 as [Hlen _]. rewrite (fit_one_run S start component g attr c); auto; [|apply separate_one_length|].
  - rewrite part_separate. reflexivity.
  - intros a Ha. split.
    + intros Hs Hca. rewrite separate_one_in in Hs by auto. apply Hm0. eapply nth_error_In; eauto.
    + apply separate_one_out; auto.
Qed.

Lemma scatter_part c labels l' : length labels = gn g -> length l' = length (comp_nodes g c) ->
  comp_part g (scatter labels (comp_nodes g c) l') c = l'.
Proof.
  intros Hl Hl'. unfold comp_part. apply gather_scatter_same; auto; [apply comp_nodes_NoDup|].
  intros b Hb. rewrite Hl. eapply comp_nodes_lt; eauto.
Qed.

Lemma scatter_out c labels l' a : length labels = gn g -> a < gn g -> comp_label g a <> c ->
  lab (scatter labels (comp_nodes g c) l') a = lab labels a.
Proof.
  intros Hl Ha Hc. apply lab_of_nth_error. rewrite scatter_notin; [apply lab_nth_error; lia|].
  intros H. apply comp_nodes_In in H. tauto.
Qed.

Lemma part_ext l l' c : length l = gn g -> length l' = gn g -> (forall a, a < gn g -> comp_label g a = c -> lab l a = lab l' a) ->
  comp_part g l c = comp_part g l' c.
Proof.
  intros Hl Hl' H. unfold comp_part, gather. apply map_ext_in. intros a Ha. apply comp_nodes_In in Ha. destruct Ha as [Ha Hc].
  specialize (H a Ha Hc).
  rewrite (nth_error_nth l a (-1)%Z (x := lab l a)) by (apply lab_nth_error; lia).
  rewrite (nth_error_nth l' a (-1)%Z (x := lab l' a)) by (apply lab_nth_error; lia). exact H.
Qed.

Lemma arrays_sound : forall k labels s r x labels' s' r', k <= n_components g -> length labels = gn g -> J x s ->
  fit_arrays S start component g attr (map (separate_one g l0) (seq (n_components g - k) k)) (labels, s) r = Ok ((labels', s'), r') ->
  length labels' = gn g /\ (forall a, a < gn g -> comp_label g a < n_components g - k -> lab labels' a = lab labels a) /\
  exists x', threads labels' (seq (n_components g - k) k) x x' /\ J x' s'.
Proof.
  induction k as [|k IH]; intros labels s r x labels' s' r' Hk Hl HJ H; cbn [seq map fit_arrays] in H.
  - injection H as <- <- <-. split; [auto|]. split; [auto|]. exists x. split; [reflexivity|auto].
  - set (c := n_components g - Datatypes.S k) in *. assert (Hc : c < n_components g) by lia.
    rewrite one_separate in H by auto.
    destruct (run_component S start component g attr c (comp_part g l0 c) s r) as [[[lc s1] r1]|e|] eqn:Er; cbn [bind] in H; try discriminate.
    destruct (Hsound c _ s x r lc s1 r1 Hc (wf_part g l0 c Hwf0) HJ Er) as [Hlc [x1 [HR HJ1]]].
    rewrite comp_part_length, comp_graph_n in Hlc.
    unfold assign_idx in H. rewrite Hlc, Nat.eqb_refl in H. cbn [bind] in H.
    replace (Datatypes.S c) with (n_components g - k) in H by lia.
    destruct (IH (scatter labels (comp_nodes g c) lc) s1 r1 x1 labels' s' r') as [H1 [H2 [x' [H3 H4]]]]; auto; [lia|rewrite scatter_length; auto|].
    split; [auto|]. split.
    + intros a Ha Hca. rewrite H2 by (auto; lia). apply scatter_out; auto; lia.
    + exists x'. split; [|auto]. cbn [seq threads]. exists x1. split.
      * replace (comp_part g labels' c) with lc; [exact HR|]. symmetry. rewrite <- (scatter_part c labels lc Hl Hlc).
        apply part_ext; auto; [rewrite scatter_length; auto|]. intros a Ha Hca. apply H2; [auto|lia].
      * replace (Datatypes.S c) with (n_components g - k) by lia. exact H3.
Qed.

Lemma arrays_reach target : length target = gn g ->
  forall k labels s x x', k <= n_components g -> length labels = gn g ->
  (forall a, a < gn g -> comp_label g a < n_components g - k -> lab labels a = lab target a) -> J x s ->
  threads target (seq (n_components g - k) k) x x' ->
  exists s', J x' s' /\ forall r', exists r,
    fit_arrays S start component g attr (map (separate_one g l0) (seq (n_components g - k) k)) (labels, s) r = Ok ((target, s'), r').
Proof.
  intros Ht. induction k as [|k IH]; intros labels s x x' Hk Hl Hagree HJ H; cbn [seq map fit_arrays threads] in *.
  - subst x'. exists s. split; [auto|]. intros r'. exists r'. do 3 f_equal. apply nth_error_ext'; [lia|]. intros a Ha.
    rewrite !lab_nth_error by lia. f_equal. apply Hagree; [lia|]. rewrite Nat.sub_0_r. apply comp_label_lt. lia.
  - set (c := n_components g - Datatypes.S k) in *. assert (Hc : c < n_components g) by lia.
    destruct H as [x1 [HR Hrest]].
    destruct (Hreach c _ s x _ x1 Hc (wf_part g l0 c Hwf0) HJ HR) as [s1 [HJ1 Hrun]].
    assert (Hlc : length (comp_part g target c) = length (comp_nodes g c)) by (rewrite comp_part_length, comp_graph_n; auto).
    replace (Datatypes.S c) with (n_components g - k) in * by lia.
    destruct (IH (scatter labels (comp_nodes g c) (comp_part g target c)) s1 x1 x') as [s' [HJ' Hr]]; auto; [lia|rewrite scatter_length; auto| |].
    { intros a Ha Hca. destruct (Nat.eq_dec (comp_label g a) c) as [E|E].
      - assert (Hp := scatter_part c labels (comp_part g target c) Hl Hlc).
        destruct (In_nth_error (comp_nodes g c) a) as [i Hi]; [apply comp_nodes_In; auto|].
        apply lab_of_nth_error.
        assert (Hn := gather_nth (-1)%Z (scatter labels (comp_nodes g c) (comp_part g target c)) (comp_nodes g c) i a Hi
          ltac:(rewrite scatter_length; lia)).
        unfold comp_part in Hp at 1. rewrite Hp in Hn. rewrite <- Hn. unfold comp_part. rewrite (gather_nth _ _ _ i a) by (auto; lia).
        apply lab_nth_error. lia.
      - rewrite scatter_out by auto. apply Hagree; [auto|lia]. }
    exists s'. split; [auto|]. intros r'. destruct (Hr r') as [r1 E1]. destruct (Hrun r1) as [r Er]. exists r.
    rewrite one_separate by auto. rewrite Er. cbn [bind]. unfold assign_idx. rewrite Hlc, Nat.eqb_refl. cbn [bind]. exact E1.
Qed.

Variable order : list edge -> list edge.
Variable p : Z.
Hypothesis Hfeas : feasible g l0 (Z.to_nat p).
Hypothesis Hp : (0 <= p)%Z.

Lemma fit_is_arrays s r : fit S start component order g attr p (Some l0) s r =
  fit_arrays S start component g attr (map (separate_one g l0) (seq 0 (n_components g))) (minus_ones (gn g), s) r.
Proof.
  unfold fit. destruct Hfeas as [Hlen [Hn Hall]].
  assert (Haf : assert_feasible l0 g (Some p) = Ok tt) by (apply assert_feasible_Ok; [lia|]; split; [lia|auto]).
  rewrite Haf, (proj2 (Nat.eqb_eq _ _) Hlen). reflexivity.
Qed.

Theorem threads_sound s r x labels s' r' : J x s ->
  fit S start component order g attr p (Some l0) s r = Ok ((labels, s'), r') ->
  length labels = gn g /\ exists x', threads labels (seq 0 (n_components g)) x x' /\ J x' s'.
Proof.
  intros HJ H. rewrite fit_is_arrays in H. rewrite <- (Nat.sub_diag (n_components g)) in H at 1.
  apply (arrays_sound (n_components g) _ s r x) in H; auto; [|apply repeat_length].
  destruct H as [H1 [_ H2]]. rewrite Nat.sub_diag in H2. auto.
Qed.

Theorem threads_reach s x labels x' : J x s -> length labels = gn g -> threads labels (seq 0 (n_components g)) x x' ->
  exists s', J x' s' /\ forall r', exists r, fit S start component order g attr p (Some l0) s r = Ok ((labels, s'), r').
Proof.
  intros HJ Hl H.
  destruct (arrays_reach labels Hl (n_components g) (minus_ones (gn g)) s x x') as [s' [H1 H2]]; auto.
  - apply repeat_length.
  - intros a _ Ha. lia.
  - rewrite Nat.sub_diag. exact H.
  - exists s'. split; [auto|]. intros r'. destruct (H2 r') as [r Er]. exists r. rewrite fit_is_arrays.
    rewrite Nat.sub_diag in Er. exact Er.
Qed.
End Threads.
