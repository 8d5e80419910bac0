(** AZP with the default strategy: which outcomes are possible. *)
From Verif Require Import Base Spec M_Graph P_Graph M_Util P_Base P_Util P_Forest P_Init P_Initial
  M_Objective P_Sum P_Objective M_Azp P_Azp P_Strategy P_Fit P_AzpFit M_Sa M_MaxP P_MaxP P_MaxP2 P_Greedy.

(** ** turns and passes with any strategy that decides by [ok] *)
Section Turns.
Variable g : graph.
Hypothesis Hsym : symmetric g.
Variable expf : Q -> Q.
Variable ok : list Z -> nat -> Z -> Prop.
Variable T : strategy -> list Z -> Prop.
Hypothesis ok_legal : forall l a K, ok l a K -> legal_move g l a K.
Hypothesis call_exact : forall s a K l, wf g l -> legal_move g l a K -> T s l ->
  exists b s', (forall rg, strat_call expf s a K l rg = Ok (b, s', rg)) /\ (b = true <-> ok l a K) /\
    T s' (if b then upd l a K else l).

Lemma try_sound K : forall k cands labels rn s r m labels' rn' s' r',
  wf g labels -> rn_ok g labels rn -> (forall a, In a cands -> legal_move g labels a K) -> T s labels ->
  try_candidates strategy (strat_call expf) g k cands K labels rn s r = Ok (m, labels', rn', s', r') ->
  wf g labels' /\ rn_ok g labels' rn' /\ T s' labels' /\ same_labels labels' labels /\
  if m : bool then exists a, ok labels a K /\ labels' = upd labels a K
  else labels' = labels /\ forall a, In a cands -> ~ ok labels a K.
Proof.
  induction k as [|k IH]; intros cands labels rn s r m labels' rn' s' r' Hwf Hrn Hc HT H; destruct cands as [|c0 cs];
    cbn [try_candidates] in H; try discriminate.
  - injection H as <- <- <- <- <-. split; [auto|]. split; [auto|]. split; [auto|]. split; [apply same_labels_refl|]. split; [auto|]. intros a [].
  - injection H as <- <- <- <- <-. split; [auto|]. split; [auto|]. split; [auto|]. split; [apply same_labels_refl|]. split; [auto|]. intros a [].
  - destruct (pop_randomly_from_Ok (c0 :: cs) r ltac:(discriminate)) as [x [rest [Ep Hp]]]. rewrite Ep in H. cbn [bind] in H.
    assert (Hx : In x (c0 :: cs)) by (rewrite Hp; left; auto). pose proof (Hc x Hx) as Hlx.
    destruct (call_exact s x K labels Hwf Hlx HT) as [b [s1 [Ec [Hb HT1]]]]. rewrite Ec in H. cbn [bind] in H. destruct b.
    + pose proof (after_move_ok g labels rn x K Hsym Hwf Hrn Hlx) as Ham.
      destruct (after_move g x K labels rn) as [l1 rn1]. destruct Ham as [-> Hrn'].
      destruct (legal_upd g labels x K Hwf Hlx) as [Hwf' Hset]. injection H as <- <- <- <- <-.
      split; [auto|]. split; [auto|]. split; [auto|]. split; [auto|]. exists x. split; [apply Hb; auto|auto].
    + destruct (IH rest labels rn s1 (rnext r) m labels' rn' s' r' Hwf Hrn) as [H1 [H2 [H3 [H4 H5]]]]; auto.
      { intros a Ha. apply Hc. rewrite Hp. right; auto. }
      split; [auto|]. split; [auto|]. split; [auto|]. split; [auto|]. destruct m; [auto|]. destruct H5 as [-> H5]. split; [auto|].
      intros a Ha Hok. rewrite Hp in Ha. destruct Ha as [<-|Ha]; [|apply (H5 a Ha Hok)].
      apply Hb in Hok. discriminate.
Qed.

Lemma grow_sound K : forall fuel labels rn s r labels' rn' s' r',
  wf g labels -> rn_ok g labels rn -> In K labels -> T s labels ->
  grow_recipient strategy (strat_call expf) g fuel K labels rn s r = Ok (labels', rn', s', r') ->
  wf g labels' /\ rn_ok g labels' rn' /\ T s' labels' /\ same_labels labels' labels /\ zone_turn ok K labels labels'.
Proof.
  induction fuel as [|fuel IH]; intros labels rn s r labels' rn' s' r' Hwf Hrn HK HT H; cbn [grow_recipient] in H; [discriminate|].
  destruct (Hrn K HK) as [ns [Hns _]]. rewrite Hns in H. cbn [bind] in H.
  pose proof (candidates_legal g labels rn K ns Hsym Hwf HK Hrn Hns) as Hcl.
  destruct (try_candidates _ _ _ _ _ _ _ _ _ _) as [[[[[m l1] rn1] s1] r1]|e|] eqn:Et; cbn [bind] in H; try discriminate.
  destruct (try_sound K _ _ _ _ _ _ _ _ _ _ _ Hwf Hrn (fun a Ha => proj1 (Hcl a) Ha) HT Et) as [H1 [H2 [H3 [H4 H5]]]].
  destruct m.
  - destruct H5 as [a [Ha ->]]. destruct (IH _ _ _ _ _ _ _ _ H1 H2 (proj2 (H4 K) HK) H3 H) as [K1 [K2 [K3 [K4 K5]]]].
    split; [auto|]. split; [auto|]. split; [auto|]. split; [eapply same_labels_trans; eauto|]. eapply turn_move; eauto.
  - destruct H5 as [-> H5]. injection H as <- <- <- <-. split; [auto|]. split; [auto|]. split; [auto|]. split; [auto|].
    apply turn_over. intros a Ha. apply (H5 a); [apply Hcl, ok_legal; auto|auto].
Qed.

Lemma pass_sound fuel : forall k regions labels rn s r labels' rn' s' r',
  wf g labels -> rn_ok g labels rn -> (forall K, In K regions -> In K labels) -> T s labels ->
  azp_pass strategy (strat_call expf) g fuel k regions labels rn s r = Ok (labels', rn', s', r') ->
  wf g labels' /\ rn_ok g labels' rn' /\ T s' labels' /\ same_labels labels' labels /\
  exists Ks, Permutation Ks regions /\ zone_round ok Ks labels labels'.
Proof.
  induction k as [|k IH]; intros regions labels rn s r labels' rn' s' r' Hwf Hrn HK HT H; destruct regions as [|z zs];
    cbn [azp_pass] in H; try discriminate.
  - injection H as <- <- <- <-. split; [auto|]. split; [auto|]. split; [auto|]. split; [apply same_labels_refl|].
    exists []. split; [auto|constructor].
  - injection H as <- <- <- <-. split; [auto|]. split; [auto|]. split; [auto|]. split; [apply same_labels_refl|].
    exists []. split; [auto|constructor].
  - destruct (pop_randomly_from_Ok (z :: zs) r ltac:(discriminate)) as [x [rest [Ep Hp]]]. rewrite Ep in H. cbn [bind] in H.
    destruct (grow_recipient _ _ _ _ _ _ _ _ _) as [[[[l1 rn1] s1] r1]|e|] eqn:Eg; cbn [bind] in H; try discriminate.
    assert (Hx : In x labels) by (apply HK; rewrite Hp; left; auto).
    destruct (grow_sound x _ _ _ _ _ _ _ _ _ Hwf Hrn Hx HT Eg) as [H1 [H2 [H3 [H4 H5]]]].
    destruct (IH rest l1 rn1 s1 r1 labels' rn' s' r' H1 H2) as [K1 [K2 [K3 [K4 [Ks [HKs K5]]]]]]; auto.
    { intros y Hy. apply H4, HK. rewrite Hp. right; auto. }
    split; [auto|]. split; [auto|]. split; [auto|]. split; [eapply same_labels_trans; eauto|].
    exists (x :: Ks). split; [rewrite Hp; auto|]. econstructor; eauto.
Qed.

Lemma try_reach K a : forall k cands labels rn s, length cands <= k -> In a cands ->
  wf g labels -> rn_ok g labels rn -> ok labels a K -> T s labels ->
  exists rn' s', wf g (upd labels a K) /\ rn_ok g (upd labels a K) rn' /\ T s' (upd labels a K) /\ same_labels (upd labels a K) labels /\
    forall r', exists r, try_candidates strategy (strat_call expf) g k cands K labels rn s r = Ok (true, upd labels a K, rn', s', r').
Proof.
  intros k cands labels rn s Hk Ha Hwf Hrn Hok HT. pose proof (ok_legal _ _ _ Hok) as Hl.
  destruct (call_exact s a K labels Hwf Hl HT) as [b [s' [Ec [Hb HT']]]]. rewrite (proj2 Hb Hok) in *.
  pose proof (after_move_ok g labels rn a K Hsym Hwf Hrn Hl) as Ham.
  destruct (after_move g a K labels rn) as [l1 rn1] eqn:Eam. destruct Ham as [-> Hrn1].
  destruct (legal_upd g labels a K Hwf Hl) as [Hwf' Hset].
  exists rn1, s'. split; [auto|]. split; [auto|]. split; [auto|]. split; [auto|]. intros r'.
  destruct (pop_choice cands a Ha) as [i [rest [_ Hpop]]]. exists (rcons i r').
  destruct cands as [|c0 cs]; [destruct Ha|]. destruct k as [|k]; [cbn in Hk; lia|]. cbn [try_candidates].
  rewrite Hpop. cbn [bind]. rewrite Ec. cbn [bind]. rewrite Eam. reflexivity.
Qed.

Lemma try_reach_none K : forall k cands labels rn s, length cands <= k ->
  (forall a, In a cands -> legal_move g labels a K) -> wf g labels -> (forall a, In a cands -> ~ ok labels a K) -> T s labels ->
  exists s', T s' labels /\
    forall r', exists r, try_candidates strategy (strat_call expf) g k cands K labels rn s r = Ok (false, labels, rn, s', r').
Proof.
  induction k as [|k IH]; intros cands labels rn s Hk Hc Hwf Hno HT; destruct cands as [|c0 cs]; cbn [length] in Hk; try lia.
  - exists s. split; [auto|]. intros r'. exists r'. reflexivity.
  - exists s. split; [auto|]. intros r'. exists r'. reflexivity.
  - destruct (pop_choice (c0 :: cs) c0 (or_introl eq_refl)) as [i [rest [Hp Hpop]]].
    destruct (call_exact s c0 K labels Hwf (Hc c0 (or_introl eq_refl)) HT) as [b [s1 [Ec [Hb HT1]]]].
    destruct b; [destruct (Hno c0 (or_introl eq_refl)); apply Hb; auto|].
    assert (Hin : forall x, In x rest -> In x (c0 :: cs)) by (intros x Hx; rewrite Hp; right; auto).
    apply Permutation_length in Hp. cbn [length] in Hp.
    destruct (IH rest labels rn s1) as [s' [HT' Hr]]; auto; [lia|]. exists s'. split; [auto|]. intros r'. destruct (Hr r') as [r Er].
    exists (rcons i r). cbn [try_candidates]. rewrite Hpop. cbn [bind]. rewrite Ec. cbn [bind]. exact Er.
Qed.

Lemma grow_reach K labels labels' : zone_turn ok K labels labels' -> forall fuel rn s, outside g labels K < fuel ->
  wf g labels -> rn_ok g labels rn -> In K labels -> T s labels ->
  exists rn' s', wf g labels' /\ rn_ok g labels' rn' /\ T s' labels' /\ same_labels labels' labels /\
    forall r', exists r, grow_recipient strategy (strat_call expf) g fuel K labels rn s r = Ok (labels', rn', s', r').
Proof.
  induction 1 as [labels Hno|labels a labels' Hok _ IH]; intros fuel rn s Hf Hwf Hrn HK HT;
    (destruct fuel as [|fuel]; [lia|]); cbn [grow_recipient];
    destruct (Hrn K HK) as [ns [Hns _]]; rewrite Hns; cbn [bind];
    pose proof (candidates_legal g labels rn K ns Hsym Hwf HK Hrn Hns) as Hcl.
  - destruct (try_reach_none K (length (filter (is_candidate g labels) ns)) (filter (is_candidate g labels) ns) labels rn s) as [s' [HT' Hr]]; auto.
    { intros a Ha. apply Hcl; auto. }
    exists rn, s'. split; [auto|]. split; [auto|]. split; [auto|]. split; [apply same_labels_refl|]. intros r'.
    destruct (Hr r') as [r Er]. exists r. rewrite Er. reflexivity.
  - destruct (try_reach K a (length (filter (is_candidate g labels) ns)) (filter (is_candidate g labels) ns) labels rn s) as
      [rn1 [s1 [H1 [H2 [H3 [H4 Hr]]]]]]; auto.
    { apply Hcl, ok_legal; auto. }
    destruct (IH fuel rn1 s1) as [rn' [s' [K1 [K2 [K3 [K4 Hr']]]]]]; auto.
    { pose proof (outside_upd g labels a K (proj1 Hwf) (ok_legal _ _ _ Hok)). lia. }
    { apply H4; auto. }
    exists rn', s'. split; [auto|]. split; [auto|]. split; [auto|]. split; [eapply same_labels_trans; eauto|]. intros r'.
    destruct (Hr' r') as [r1 E1]. destruct (Hr r1) as [r Er]. exists r. rewrite Er. cbn [bind]. exact E1.
Qed.

Lemma pass_reach fuel Ks labels labels' : gn g < fuel -> zone_round ok Ks labels labels' -> forall k regions rn s,
  Permutation Ks regions -> length regions <= k ->
  wf g labels -> rn_ok g labels rn -> (forall K, In K regions -> In K labels) -> T s labels ->
  exists rn' s', wf g labels' /\ rn_ok g labels' rn' /\ T s' labels' /\ same_labels labels' labels /\
    forall r', exists r, azp_pass strategy (strat_call expf) g fuel k regions labels rn s r = Ok (labels', rn', s', r').
Proof.
  intros Hf H. induction H as [labels|K Ks labels l1 l2 Ht _ IH]; intros k regions rn s HP Hk Hwf Hrn HK HT.
  - apply Permutation_nil in HP. subst regions. exists rn, s. split; [auto|]. split; [auto|]. split; [auto|]. split; [apply same_labels_refl|].
    intros r'. exists r'. destruct k; reflexivity.
  - assert (Hin : In K regions) by (rewrite <- HP; left; auto).
    destruct (pop_choice regions K Hin) as [i [rest [Hp Hpop]]].
    assert (HP' : Permutation Ks rest) by (apply Permutation_cons_inv with (a := K); rewrite HP; auto).
    destruct (grow_reach K labels l1 Ht fuel rn s) as [rn1 [s1 [H1 [H2 [H3 [H4 Hr]]]]]]; auto.
    { pose proof (outside_le g labels K). lia. }
    assert (Hlen : length regions = S (length rest)) by (rewrite Hp; reflexivity).
    destruct k as [|k]; [lia|].
    destruct (IH k rest rn1 s1) as [rn2 [s2 [K1 [K2 [K3 [K4 Hr2]]]]]]; auto; try lia.
    { intros y Hy. apply H4, HK. rewrite Hp. right; auto. }
    exists rn2, s2. split; [auto|]. split; [auto|]. split; [auto|]. split; [eapply same_labels_trans; eauto|]. intros r'.
    destruct (Hr2 r') as [r2 E2]. destruct (Hr r2) as [r1 E1]. exists (rcons i r1). destruct regions as [|z zs]; [destruct Hin|].
    cbn [azp_pass]. rewrite Hpop. cbn [bind]. rewrite E1. cbn [bind]. exact E2.
Qed.
End Turns.

(** ** one component *)
Section Component.
Variable O : objfun.
Variable attr : list (list Q).
Hypothesis Hex : exact_objective O attr.
Variable g : graph.
Hypothesis Hsym : symmetric g.
Hypothesis Hattr : length attr = gn g.
Variable expf : Q -> Q.

Definition az_ok (l : list Z) (a : nat) (K : Z) : Prop :=
  legal_move g l a K /\ exists x y, o_call O l attr = Ok x /\ o_call O (upd l a K) attr = Ok y /\ (y <= x)%Q.
Definition az_lower (l l' : list Z) : Prop :=
  exists x y, o_call O l attr = Ok x /\ o_call O l' attr = Ok y /\ (y < x)%Q.
Definition az_T (s : strategy) (l : list Z) : Prop := exists c, s = SAzp c /\ tracks O attr c l.

Lemma az_call_exact s a K l : wf g l -> legal_move g l a K -> az_T s l ->
  exists b s', (forall rg, strat_call expf s a K l rg = Ok (b, s', rg)) /\ (b = true <-> az_ok l a K) /\
    az_T s' (if b then upd l a K else l).
Proof.
  intros Hwf Hl [c [-> Ht]]. pose proof Hwf as [Hlen _]. assert (Ha : a < length l) by (destruct Hl as [Ha _]; lia).
  destruct (legal_mate g l a K Hwf Hl) as [Hr Hmate]. pose proof Ht as [Ho [Hat [x [Ex Hx]]]].
  destruct Hex as [_ [Hup _]]. destruct (Hup a K l ltac:(lia) Ha Hr Hmate) as [q Eq].
  assert (Ecall : exists b c', azp_call c a K l = Ok (b, c')).
  { unfold azp_call. rewrite Ho, Hat, Eq. cbn [bind]. destruct (Qle_bool q 0); eauto. }
  destruct Ecall as [b [c' Ec]]. exists b, (SAzp c'). split; [intros rg; cbn [strat_call]; rewrite Ec; reflexivity|].
  destruct (azp_call_post O attr c l a K Hex ltac:(lia) Ha Ht b c' Ec) as [x' [y [Ex' [Ey [Hb Hc']]]]].
  split.
  - rewrite Hb. split.
    + intros H. split; [auto|]. exists x', y. auto.
    + intros [_ [x1 [y1 [E1 [E2 H]]]]]. rewrite Ex' in E1. rewrite Ey in E2. injection E1 as <-. injection E2 as <-. auto.
  - destruct b; [exists c'; auto|subst c'; exists c; auto].
Qed.

Lemma az_T_val s l : az_T s l -> exists x, o_call O l attr = Ok x /\ (strat_val s == x)%Q.
Proof. intros [c [-> [_ [_ [x [Ex Hx]]]]]]. exists x. split; [auto|exact Hx]. Qed.

Lemma az_T_lower s l s' l' : az_T s l -> az_T s' l' -> (az_lower l l' <-> (strat_val s' < strat_val s)%Q).
Proof.
  intros H H'. destruct (az_T_val s l H) as [x [Ex Hx]]. destruct (az_T_val s' l' H') as [y [Ey Hy]]. split.
  - intros [x1 [y1 [E1 [E2 Hlt]]]]. rewrite Ex in E1. rewrite Ey in E2. injection E1 as <-. injection E2 as <-. lra.
  - intros Hlt. exists x, y. split; [auto|]. split; [auto|]. lra.
Qed.

(** *** soundness *)
Lemma az_ok_legal l a K : az_ok l a K -> legal_move g l a K.
Proof. intros [H _]. exact H. Qed.
Local Notation pass_sound_az := (pass_sound g Hsym expf az_ok az_T az_ok_legal az_call_exact).

Lemma loop_sound regions : forall fuel start labels rn s r labels' s' r',
  wf g labels -> rn_ok g labels rn -> (forall K, In K regions -> In K labels) -> az_T s labels ->
  azp_loop strategy (strat_call expf) strat_val g fuel start regions labels rn s r = Ok (labels', s', r') ->
  wf g labels' /\ az_T s' labels' /\ same_labels labels' labels /\
  ((exists v, start = Some v /\ ~ (strat_val s < v)%Q /\ labels' = labels) \/
   ((forall v, start = Some v -> (strat_val s < v)%Q) /\ zone_rounds az_ok az_lower regions labels labels')).
Proof.
  induction fuel as [|fuel IH]; intros start labels rn s r labels' s' r' Hwf Hrn HK HT H; cbn [azp_loop] in H.
  - destruct (match start with None => true | Some v => Qltb (strat_val s) v end) eqn:Ec; [discriminate|].
    destruct start as [v|]; [|discriminate]. injection H as <- <- <-. split; [auto|]. split; [auto|]. split; [apply same_labels_refl|].
    left. exists v. apply Qltb_ge in Ec. split; [auto|]. split; [lra|auto].
  - destruct (match start with None => true | Some v => Qltb (strat_val s) v end) eqn:Ec.
    + destruct (azp_pass _ _ _ _ _ _ _ _ _ _) as [[[[l1 rn1] s1] r1]|e|] eqn:Ep; cbn [bind] in H; try discriminate.
      destruct (pass_sound_az fuel _ _ _ _ _ _ _ _ _ _ Hwf Hrn HK HT Ep) as [H1 [H2 [H3 [H4 [Ks [HKs H5]]]]]].
      destruct (IH (Some (strat_val s)) l1 rn1 s1 r1 labels' s' r' H1 H2) as [K1 [K2 [K3 K4]]]; auto.
      { intros K HKr. apply H4, HK; auto. }
      split; [auto|]. split; [auto|]. split; [eapply same_labels_trans; eauto|]. right. split.
      * intros v ->. apply Qltb_lt; auto.
      * pose proof (az_T_lower s labels s1 l1 HT H3) as Hlow. destruct K4 as [[v [Ev [Hv ->]]]|[Hlt Hz]].
        -- injection Ev as <-. eapply rounds_last; eauto. rewrite Hlow. auto.
        -- eapply rounds_more; eauto. apply Hlow. apply Hlt; auto.
    + destruct start as [v|]; [|discriminate]. injection H as <- <- <-. split; [auto|]. split; [auto|]. split; [apply same_labels_refl|].
      left. exists v. apply Qltb_ge in Ec. split; [auto|]. split; [lra|auto].
Qed.

(** with a single region nothing can move *)
Lemma single_stays labels a K : n_labels labels = 1 -> ~ az_ok labels a K.
Proof.
  intros Hn [[_ [D [HD [Hd [_ [b [_ [Hb _]]]]]]]] _].
  assert (Hle : 2 <= n_labels labels); [|lia].
  unfold n_labels. change 2 with (length [D; K]). apply NoDup_incl_length.
  - constructor; [intros [E|[]]; auto|]. constructor; [intros []|constructor].
  - intros z [<-|[<-|[]]]; apply nodup_In; eapply nth_error_In; eauto.
Qed.

Theorem component_sound fuel labels s r labels' s' r' : wf g labels -> az_T s labels ->
  azp_component strategy (strat_call expf) strat_val g fuel labels s r = Ok (labels', s', r') ->
  wf g labels' /\ az_T s' labels' /\ same_labels labels' labels /\ zone_rounds az_ok az_lower (uniqueZ labels) labels labels'.
Proof.
  intros Hwf HT H. unfold azp_component in H. destruct (uniqueZ labels) as [|K0 [|K1 Ks]] eqn:Eu; [discriminate| |].
  - injection H as <- <- <-. split; [auto|]. split; [auto|]. split; [apply same_labels_refl|].
    assert (Hn : n_labels labels = 1) by (rewrite <- uniqueZ_length, Eu; reflexivity).
    apply rounds_last with (Ks := [K0]); auto.
    + econstructor; [|constructor]. apply turn_over. intros a. apply single_stays; auto.
    + intros [x [y [E1 [E2 Hlt]]]]. rewrite E1 in E2. injection E2 as <-. lra.
  - rewrite <- Eu in *. destruct (loop_sound (uniqueZ labels) fuel None labels _ s r labels' s' r' Hwf (init_rn_ok g labels (proj1 Hwf))) as [H1 [H2 [H3 H4]]]; auto.
    { intros K HK. apply uniqueZ_In; auto. }
    split; [auto|]. split; [auto|]. split; [auto|]. destruct H4 as [[v [Ev _]]|[_ H4]]; [discriminate|auto].
Qed.

(** *** completeness *)
Local Notation pass_reach_az := (pass_reach g Hsym expf az_ok az_T az_ok_legal az_call_exact).

Lemma loop_reach labels0 labels labels' : zone_rounds az_ok az_lower (uniqueZ labels0) labels labels' -> forall fuel start rn s,
  az_m O attr g labels0 (strat_val s) + gn g + 1 < fuel -> same_labels labels labels0 ->
  (forall v, start = Some v -> (strat_val s < v)%Q) -> wf g labels -> rn_ok g labels rn -> az_T s labels ->
  exists s', az_T s' labels' /\ wf g labels' /\ same_labels labels' labels0 /\
    forall r', exists r, azp_loop strategy (strat_call expf) strat_val g fuel start (uniqueZ labels0) labels rn s r = Ok (labels', s', r').
Proof.
  induction 1 as [Ks l l1 HP Hr Hlow|Ks l l1 l2 HP Hr Hlow _ IH]; intros fuel start rn s Hf Hset Hst Hwf Hrn HT;
    (destruct fuel as [|fuel]; [lia|]);
    (destruct (pass_reach_az fuel Ks l l1 ltac:(lia) Hr (length (uniqueZ labels0)) (uniqueZ labels0) rn s HP) as [rn1 [s1 [H1 [H2 [H3 [H4 Hp]]]]]]; auto;
     [intros K HK; apply Hset, uniqueZ_In; auto|]);
    assert (Hset1 : same_labels l1 labels0) by (eapply same_labels_trans; eauto);
    assert (Hgo : match start with None => true | Some v => Qltb (strat_val s) v end = true)
      by (destruct start as [v|]; [apply Qltb_lt; auto|reflexivity]);
    pose proof (az_T_lower s l s1 l1 HT H3) as Hlt.
  - exists s1. split; [auto|]. split; [auto|]. split; [auto|]. intros r'. destruct (Hp r') as [r Er]. exists r.
    cbn [azp_loop]. rewrite Hgo, Er. cbn [bind].
    assert (Hno : Qltb (strat_val s1) (strat_val s) = false) by (apply Qltb_ge; rewrite Hlt in Hlow; lra).
    destruct fuel; cbn [azp_loop]; rewrite Hno; reflexivity.
  - assert (Hq : (strat_val s1 < strat_val s)%Q) by (apply Hlt; auto).
    assert (Hdec : az_m O attr g labels0 (strat_val s1) < az_m O attr g labels0 (strat_val s)).
    { apply (az_m_dec O attr g (strat_val s) labels0 s l s1 l1); auto.
      - destruct HT as [c [-> Ht]]. exists c. split; [auto|]. split; [auto|]. cbn. lra.
      - destruct H3 as [c [-> Ht]]. exists c. split; [auto|]. split; [auto|]. cbn in *. lra. }
    destruct (IH fuel (Some (strat_val s)) rn1 s1) as [s' [K1 [K2 [K3 K4]]]]; auto; [lia|intros v Ev; injection Ev as <-; auto|].
    exists s'. split; [auto|]. split; [auto|]. split; [auto|]. intros r'. destruct (K4 r') as [r1 E1]. destruct (Hp r1) as [r Er].
    exists r. cbn [azp_loop]. rewrite Hgo, Er. cbn [bind]. exact E1.
Qed.

Theorem component_reach fuel labels s labels' : wf g labels -> labels <> [] -> az_T s labels ->
  gn g ^ gn g + gn g + 1 < fuel -> zone_rounds az_ok az_lower (uniqueZ labels) labels labels' ->
  exists s', az_T s' labels' /\ wf g labels' /\ same_labels labels' labels /\
    forall r', exists r, azp_component strategy (strat_call expf) strat_val g fuel labels s r = Ok (labels', s', r').
Proof.
  intros Hwf Hne HT Hf Hz. unfold azp_component. destruct (uniqueZ labels) as [|K0 [|K1 Ks]] eqn:Eu.
  - exfalso. destruct labels as [|x l]; [congruence|]. assert (H : In x (uniqueZ (x :: l))) by (apply uniqueZ_In; left; auto).
    rewrite Eu in H. destruct H.
  - assert (Hn : n_labels labels = 1) by (rewrite <- uniqueZ_length, Eu; reflexivity).
    assert (Hround : forall Ks l, zone_round az_ok Ks labels l -> l = labels).
    { clear - Hn Hattr Hex Hsym Hattr. intros Ks l H. remember labels as l0 eqn:E in H. revert E. induction H as [l|K Ks l l1 l2 Ht _ IH]; intros E; [auto|].
      subst l. inversion Ht as [|? a ? Hok _]; subst; [apply IH; auto|]. destruct (single_stays labels a K Hn Hok). }
    assert (El : labels' = labels).
    { inversion Hz as [Ks ? ? _ Hr _|Ks ? l1 ? _ Hr Hlow _]; subst; [eauto|]. apply Hround in Hr. subst l1.
      destruct Hlow as [x [y [E1 [E2 Hlt]]]]. rewrite E1 in E2. injection E2 as <-. lra. }
    subst labels'. exists s. split; [auto|]. split; [auto|]. split; [apply same_labels_refl|]. intros r'. exists r'. reflexivity.
  - rewrite <- Eu in *. destruct (loop_reach labels labels labels' Hz fuel None (init_region_neighbors g labels) s) as [s' [H1 [H2 [H3 H4]]]]; auto.
    + pose proof (az_m_bound O attr g labels (strat_val s) (proj1 Hwf)). lia.
    + apply same_labels_refl.
    + discriminate.
    + apply init_rn_ok. apply Hwf.
    + exists s'. auto.
Qed.
End Component.

(** ** turns of the regions of an island in the whole graph and in its component *)
Section TurnsTransfer.
Variable g : graph.
Variable c : nat.
Notation isl := (comp_nodes g c).
Notation G l := (comp_part g l c).
Variables okw okc : list Z -> nat -> Z -> Prop.
Hypothesis okw_in : forall l a K, okw l a K -> In a isl /\ legal_move g l a K.
Hypothesis okc_legal : forall m i K, okc m i K -> legal_move (comp_graph g c) m i K.
Hypothesis ok_comp : forall l i a K, wf g l -> nth_error isl i = Some a -> (okw l a K <-> okc (G l) i K).

Lemma turn_to_comp K l l' : zone_turn okw K l l' -> wf g l ->
  wf g l' /\ same_labels l' l /\ (forall a, ~ In a isl -> lab l' a = lab l a) /\ zone_turn okc K (G l) (G l').
Proof.
  induction 1 as [l Hno|l a l' Hok _ IH]; intros Hwf.
  - split; [auto|]. split; [apply same_labels_refl|]. split; [auto|]. apply turn_over. intros i Hi.
    assert (Hlt : i < length isl) by (destruct (okc_legal _ _ _ Hi) as [Hi' _]; rewrite comp_graph_n in Hi'; auto).
    destruct (nth_error isl i) as [a|] eqn:E; [|apply nth_error_None in E; lia].
    apply (Hno a). apply (ok_comp l i a K); auto.
  - destruct (okw_in _ _ _ Hok) as [Hin Hl]. destruct (legal_upd g l a K Hwf Hl) as [Hwf1 Hs1].
    destruct (IH Hwf1) as [H1 [H2 [H3 H4]]]. split; [auto|]. split; [eapply same_labels_trans; eauto|]. split.
    + intros b Hb. rewrite H3 by auto. apply lab_upd_ne. intros ->. auto.
    + destruct (In_nth_error _ _ Hin) as [i Hi]. apply (turn_move _ _ _ i).
      * apply (ok_comp l i a K); auto.
      * rewrite <- (comp_part_upd g l c i a K (proj1 Hwf) Hi). exact H4.
Qed.

Lemma turn_of_comp K l m' : wf g l -> zone_turn okc K (G l) m' ->
  exists l', zone_turn okw K l l' /\ G l' = m'.
Proof.
  intros Hwf H. remember (G l) as m eqn:E. revert l Hwf E. induction H as [m Hno|m i m' Hok _ IH]; intros l Hwf ->.
  - exists l. split; [|auto]. apply turn_over. intros a Ha. destruct (okw_in _ _ _ Ha) as [Hin _]. destruct (In_nth_error _ _ Hin) as [i Hi].
    apply (Hno i). apply (ok_comp l i a K); auto.
  - assert (Hlt : i < length isl) by (destruct (okc_legal _ _ _ Hok) as [Hi _]; rewrite comp_graph_n in Hi; auto).
    destruct (nth_error isl i) as [a|] eqn:E; [|apply nth_error_None in E; lia].
    apply (ok_comp l i a K) in Hok; auto. destruct (okw_in _ _ _ Hok) as [Hin Hl]. destruct (legal_upd g l a K Hwf Hl) as [Hwf1 _].
    destruct (IH (upd l a K) Hwf1) as [l' [H1 H2]]; [symmetry; apply comp_part_upd; auto; apply Hwf|].
    exists l'. split; [|auto]. eapply turn_move; eauto.
Qed.

Lemma round_to_comp Ks l l' : zone_round okw Ks l l' -> wf g l ->
  wf g l' /\ same_labels l' l /\ (forall a, ~ In a isl -> lab l' a = lab l a) /\ zone_round okc Ks (G l) (G l').
Proof.
  induction 1 as [l|K Ks l l1 l2 Ht _ IH]; intros Hwf.
  - split; [auto|]. split; [apply same_labels_refl|]. split; [auto|]. constructor.
  - destruct (turn_to_comp K l l1 Ht Hwf) as [H1 [H2 [H3 H4]]]. destruct (IH H1) as [K1 [K2 [K3 K4]]].
    split; [auto|]. split; [eapply same_labels_trans; eauto|]. split; [intros a Ha; rewrite K3, H3; auto|]. econstructor; eauto.
Qed.

Lemma round_of_comp Ks l m' : wf g l -> zone_round okc Ks (G l) m' ->
  exists l', zone_round okw Ks l l' /\ G l' = m'.
Proof.
  intros Hwf H. remember (G l) as m eqn:E. revert l Hwf E. induction H as [m|K Ks m m1 m2 Ht _ IH]; intros l Hwf ->.
  - exists l. split; [constructor|auto].
  - destruct (turn_of_comp K l m1 Hwf Ht) as [l1 [H1 <-]]. destruct (turn_to_comp K l l1 H1 Hwf) as [Hwf1 _].
    destruct (IH l1 Hwf1 eq_refl) as [l2 [H2 H3]]. exists l2. split; [econstructor; eauto|auto].
Qed.
End TurnsTransfer.

(** ** zoning of an island in the whole graph and in its component *)
Section Transfer.
Variable O : objfun.
Variable attr : list (list Q).
Variable g : graph.
Variable c : nat.
Notation isl := (comp_nodes g c).
Notation G l := (comp_part g l c).
Notation okc := (az_ok O (attr_c attr g c) (comp_graph g c)).
Notation lowc := (az_lower O (attr_c attr g c)).

Lemma may_go_comp l i a K : wf g l -> nth_error isl i = Some a -> (may_go O attr g isl l a K <-> okc (G l) i K).
Proof.
  intros Hwf Hi. unfold may_go, az_ok. rewrite <- (comp_part_upd g l c i a K (proj1 Hwf) Hi). split.
  - intros [_ [Hl H]]. split; [apply (legal_to_comp g l c i a K); auto|exact H].
  - intros [Hl H]. split; [eapply nth_error_In; eauto|]. split; [eapply legal_of_comp; eauto|exact H].
Qed.

Lemma may_go_in l a K : may_go O attr g isl l a K -> In a isl /\ legal_move g l a K.
Proof. intros [H1 [H2 _]]. auto. Qed.
Lemma okc_legal m i K : okc m i K -> legal_move (comp_graph g c) m i K.
Proof. intros [H _]. exact H. Qed.
Local Notation round_to_may := (round_to_comp g c _ _ may_go_in okc_legal may_go_comp).
Local Notation round_of_may := (round_of_comp g c _ _ may_go_in okc_legal may_go_comp).

Lemma rounds_to_comp regions l l' : zone_rounds (may_go O attr g isl) (lower_at O attr isl) regions l l' -> wf g l ->
  wf g l' /\ same_labels l' l /\ (forall a, ~ In a isl -> lab l' a = lab l a) /\ zone_rounds okc lowc regions (G l) (G l').
Proof.
  induction 1 as [Ks l l1 HP Hr Hlow|Ks l l1 l2 HP Hr Hlow _ IH]; intros Hwf;
    destruct (round_to_may Ks l l1 Hr Hwf) as [H1 [H2 [H3 H4]]].
  - split; [auto|]. split; [auto|]. split; [auto|]. eapply rounds_last; eauto.
  - destruct (IH H1) as [K1 [K2 [K3 K4]]].
    split; [auto|]. split; [eapply same_labels_trans; eauto|]. split; [intros a Ha; rewrite K3, H3; auto|].
    eapply rounds_more; eauto.
Qed.

Lemma rounds_of_comp regions l m' : wf g l -> zone_rounds okc lowc regions (G l) m' ->
  exists l', zone_rounds (may_go O attr g isl) (lower_at O attr isl) regions l l' /\ G l' = m'.
Proof.
  intros Hwf H. remember (G l) as m eqn:E. revert l Hwf E.
  induction H as [Ks m m1 HP Hr Hlow|Ks m m1 m2 HP Hr Hlow _ IH]; intros l Hwf ->;
    destruct (round_of_may Ks l m1 Hwf Hr) as [l1 [H1 <-]].
  - exists l1. split; [eapply rounds_last; eauto|auto].
  - destruct (round_to_may Ks l l1 H1 Hwf) as [Hwf1 _]. destruct (IH l1 Hwf1 eq_refl) as [l2 [H2 H3]].
    exists l2. split; [eapply rounds_more; eauto|auto].
Qed.

Lemma rounds_perm ok lower regions regions' l l' : Permutation regions regions' ->
  zone_rounds ok lower regions l l' -> zone_rounds ok lower regions' l l'.
Proof.
  intros Hp. induction 1 as [Ks l l1 HP Hr Hlow|Ks l l1 l2 HP Hr Hlow _ IH].
  - apply (rounds_last _ _ _ Ks); auto. rewrite HP. auto.
  - apply (rounds_more _ _ _ Ks l l1); auto. rewrite HP. auto.
Qed.

Lemma regions_perm l regions : length l = gn g -> NoDup regions ->
  (forall K, In K regions <-> exists a, In a isl /\ region l K a) -> Permutation regions (uniqueZ (G l)).
Proof.
  intros Hl Hnd H. apply NoDup_Permutation; [auto|apply uniqueZ_NoDup|]. intros K. rewrite H, uniqueZ_In.
  rewrite comp_part_In by auto. split; intros [a Ha]; exists a.
  - destruct Ha as [Ha Hr]. apply comp_nodes_In in Ha. tauto.
  - destruct Ha as [_ [Hc Hr]]. split; [|auto]. apply comp_nodes_In. split; [apply nth_error_lt in Hr; lia|auto].
Qed.

Lemma zoning_comp l m' : wf g l ->
  (zone_rounds okc lowc (uniqueZ (G l)) (G l) m' <-> exists l', zoning O attr g isl l l' /\ G l' = m').
Proof.
  intros Hwf. split.
  - intros H. destruct (rounds_of_comp _ l m' Hwf H) as [l' [H1 H2]]. exists l'. split; [|auto]. exists (uniqueZ (G l)).
    split; [apply uniqueZ_NoDup|]. split; [|auto]. intros K. rewrite uniqueZ_In, comp_part_In by apply Hwf. destruct Hwf as [Hl _].
    split; intros [a Ha]; exists a.
    + destruct Ha as [_ [Hc Hr]]. split; [|auto]. apply comp_nodes_In. split; [apply nth_error_lt in Hr; lia|auto].
    + destruct Ha as [Ha Hr]. apply comp_nodes_In in Ha. tauto.
  - intros [l' [[regions [Hnd [Hreg H]]] <-]]. apply (rounds_perm _ _ regions); [apply regions_perm; auto; apply Hwf|].
    apply rounds_to_comp; auto.
Qed.
End Transfer.

(** ** the fit *)
Section Reach.
Variable S : Type.
Variable start : S -> list Z -> list (list Q) -> list nat -> out S.
Variable component : graph -> list Z -> list (list Q) -> S -> rng -> out (list Z * S * rng).
Variable g : graph.
Variable attr : list (list Q).
Variable J : S -> Prop.
Variable R : nat -> list Z -> list Z -> Prop.
Hypothesis Hcomp : forall c labels_c s l', c < n_components g -> wf (comp_graph g c) labels_c -> J s -> R c labels_c l' ->
  exists s2, J s2 /\ forall r', exists r, run_component S start component g attr c labels_c s r = Ok (l', s2, r').

Lemma fit_one_run c arr labels s r : c < n_components g -> length arr = gn g ->
  (forall a, a < gn g -> (nth_error arr a = Some (-1)%Z <-> comp_label g a <> c)) ->
  fit_one S start component g attr (YArr arr) (labels, s) r =
  let* '(l', s2, r') := run_component S start component g attr c (comp_part g arr c) s r in
  let* labels' := assign_idx labels (comp_nodes g c) l' in Ok ((labels', s2), r').
Proof.
  intros Hc Harr Hout.
  assert (Hidx : filter (fun a => negb (Z.eqb (lab arr a) (-1))) (seq 0 (length arr)) = comp_nodes g c).
  { unfold comp_nodes. rewrite Harr. apply filter_ext_in. intros a Ha. apply in_seq in Ha.
    apply eq_true_iff_eq. rewrite negb_true_iff, Z.eqb_neq, Nat.eqb_eq.
    specialize (Hout a ltac:(lia)). split.
    - intros Hne. destruct (Nat.eq_dec (comp_label g a) c) as [->|Hn]; [auto|].
      exfalso. apply Hne, lab_of_nth_error, Hout. exact Hn.
    - intros Hce Hl. apply Hout in Hce; auto. rewrite <- Hl. apply lab_nth_error. lia. }
  cbn [fit_one fst snd]. rewrite Hidx. fold (comp_graph g c). fold (comp_part g arr c). unfold run_component.
  destruct (start s _ _ _) as [s1|e|]; reflexivity.
Qed.

Lemma fit_arrays_reach labels0 target : wf g labels0 -> ~ In (-1)%Z labels0 -> length target = gn g ->
  (forall c, c < n_components g -> R c (comp_part g labels0 c) (comp_part g target c)) ->
  forall k labels s, k <= n_components g -> length labels = gn g ->
  (forall a, a < gn g -> comp_label g a < n_components g - k -> lab labels a = lab target a) -> J s ->
  exists s', J s' /\ forall r', exists r,
    fit_arrays S start component g attr (map (separate_one g labels0) (seq (n_components g - k) k)) (labels, s) r = Ok ((target, s'), r').
Proof.
  intros Hwf Hm1 Ht HR. induction k as [|k IH]; intros labels s Hk Hl Hagree HJ; cbn [seq map fit_arrays].
  - exists s. split; [auto|]. intros r'. exists r'. do 3 f_equal. apply nth_error_ext'; [lia|]. intros a Ha.
    rewrite !lab_nth_error by lia. f_equal. apply Hagree; [lia|]. rewrite Nat.sub_0_r. apply comp_label_lt. lia.
  - set (c := n_components g - Datatypes.S k). assert (Hc : c < n_components g) by lia.
    pose proof Hwf as [Hlen Hall].
    assert (Hcp : comp_part g (separate_one g labels0 c) c = comp_part g labels0 c).
    { unfold comp_part, gather. apply map_ext_in. intros a Ha. apply comp_nodes_In in Ha. destruct Ha as [Ha Hca].
      pose proof (separate_one_in g labels0 c a Hlen Ha Hca) as Hs.
      rewrite (nth_error_nth labels0 a (-1)%Z (x := lab labels0 a)) by (apply lab_nth_error; lia).
      apply nth_error_nth. rewrite Hs. apply lab_nth_error. lia. }
    destruct (Hcomp c (comp_part g labels0 c) s (comp_part g target c) Hc (wf_part g labels0 c Hwf) HJ (HR c Hc)) as [s2 [HJ2 Hrun]].
    assert (Hlc : length (comp_part g target c) = length (comp_nodes g c)) by (rewrite comp_part_length, comp_graph_n; auto).
    destruct (IH (scatter labels (comp_nodes g c) (comp_part g target c)) s2) as [s' [HJ' Hrest]]; auto; [lia|rewrite scatter_length; auto| |].
    { intros a Ha Hca. destruct (Nat.eq_dec (comp_label g a) c) as [E|E].
      - destruct (In_nth_error (comp_nodes g c) a) as [i Hi]; [apply comp_nodes_In; auto|].
        apply lab_of_nth_error.
        assert (Hg : comp_part g (scatter labels (comp_nodes g c) (comp_part g target c)) c = comp_part g target c).
        { unfold comp_part at 1. apply gather_scatter_same; auto; [apply comp_nodes_NoDup|].
          intros b Hb. rewrite Hl. eapply comp_nodes_lt; eauto. }
        assert (Hn := gather_nth (-1)%Z (scatter labels (comp_nodes g c) (comp_part g target c)) (comp_nodes g c) i a Hi
          ltac:(rewrite scatter_length; lia)).
        unfold comp_part in Hg at 1. rewrite Hg in Hn. rewrite <- Hn. unfold comp_part. rewrite (gather_nth _ _ _ i a) by (auto; lia).
        apply lab_nth_error. lia.
      - rewrite <- Hagree by (auto; lia). apply lab_of_nth_error. rewrite scatter_notin; [apply lab_nth_error; lia|].
        intros H. apply comp_nodes_In in H. tauto. }
    exists s'. split; [auto|]. intros r'. destruct (Hrest r') as [r1 E1]. destruct (Hrun r1) as [r Er]. exists r.
    rewrite (fit_one_run c); auto; [|apply separate_one_length|].
    + rewrite Hcp, Er. cbn [bind]. unfold assign_idx. rewrite Hlc, Nat.eqb_refl. cbn [bind].
      replace (Datatypes.S c) with (n_components g - k) by lia. exact E1.
    + intros a Ha. split.
      * intros Hs Hca. rewrite separate_one_in in Hs by auto. apply Hm1. eapply nth_error_In; eauto.
      * apply separate_one_out; auto.
Qed.

Theorem fit_reach order n_regions labels0 target s : feasible g labels0 (Z.to_nat n_regions) -> (0 <= n_regions)%Z -> ~ In (-1)%Z labels0 ->
  length target = gn g -> (forall c, c < n_components g -> R c (comp_part g labels0 c) (comp_part g target c)) -> J s ->
  exists s', J s' /\ forall r', exists r,
    fit S start component order g attr n_regions (Some labels0) s r = Ok ((target, s'), r').
Proof.
  intros [Hlen [Hn Hall]] Hpos Hm1 Ht HR HJ. unfold fit.
  assert (Haf : assert_feasible labels0 g (Some n_regions) = Ok tt).
  { apply assert_feasible_Ok; [lia|]. split; [lia|auto]. }
  rewrite Haf. cbn [bind]. rewrite (proj2 (Nat.eqb_eq _ _) Hlen). unfold separate_components.
  destruct (fit_arrays_reach labels0 target (conj Hlen Hall) Hm1 Ht HR (n_components g) (minus_ones (gn g)) s) as [s' [H1 H2]]; auto.
  - apply repeat_length.
  - intros a _ H. lia.
  - rewrite Nat.sub_diag in H2. exists s'. auto.
Qed.
End Reach.

Section FitZoning.
Variable O : objfun.
Variable attr : list (list Q).
Hypothesis Hex : exact_on O attr.
Variable g : graph.
Hypothesis Hsym : symmetric g.
Hypothesis Hattr : length attr = gn g.
Variable expf : Q -> Q.

Definition zone_R (c : nat) (l l' : list Z) : Prop :=
  zone_rounds (az_ok O (attr_c attr g c) (comp_graph g c)) (az_lower O (attr_c attr g c)) (uniqueZ l) l l'.

Lemma start_T c l cc : wf (comp_graph g c) l ->
  exists s1, strat_start O (SAzp cc) l (attr_c attr g c) (comp_nodes g c) = Ok s1 /\ az_T O (attr_c attr g c) s1 l.
Proof.
  intros Hwf. pose proof (attr_c_exact O attr Hex g Hattr c) as [Hcall _].
  assert (Hll : length l = length (attr_c attr g c)) by (rewrite attr_c_length; apply Hwf).
  destruct (Hcall l Hll) as [x Ex]. cbn [strat_start]. unfold start_common. rewrite Ex. cbn [bind].
  eexists. split; [reflexivity|]. eexists. split; [reflexivity|]. split; [auto|]. split; [auto|]. exists x. split; [auto|reflexivity].
Qed.

Lemma fuel_comp c fuel : gn g ^ gn g + gn g + 1 < fuel -> gn (comp_graph g c) ^ gn (comp_graph g c) + gn (comp_graph g c) + 1 < fuel.
Proof.
  intros Hfuel. pose proof (comp_graph_le g c). destruct (Nat.eq_dec (gn (comp_graph g c)) 0) as [E0|E0].
  - rewrite E0 in *. cbn. destruct (Nat.eq_dec (gn g) 0) as [E1|E1]; [rewrite E1 in Hfuel; cbn in Hfuel; lia|].
    assert (1 <= gn g ^ gn g) by (change 1 with (gn g ^ 0); apply Nat.pow_le_mono_r; lia). lia.
  - assert (gn (comp_graph g c) ^ gn (comp_graph g c) <= gn g ^ gn g).
    { etransitivity; [apply Nat.pow_le_mono_l; eauto|]. apply Nat.pow_le_mono_r; lia. }
    lia.
Qed.

Theorem azp_fit_sound order fuel n_regions initial c0 r labels s' r' : (forall l, Permutation (order l) l) ->
  good_input g n_regions initial ->
  azp_fit expf order O fuel g attr n_regions initial (SAzp c0) r = Ok ((labels, s'), r') ->
  exists labels0, started_from g n_regions initial labels0 /\ length labels = gn g /\
    forall c, c < n_components g -> zone_R c (comp_part g labels0 c) (comp_part g labels c).
Proof.
  intros Hord Hgood Hrun.
  assert (H : post anyexn True (azp_fit expf order O fuel g attr n_regions initial (SAzp c0) r)
    (fun '((labels, s'), _) => (exists c, s' = SAzp c) /\ exists labels0, started_from g n_regions initial labels0 /\ length labels = gn g /\
       forall c, c < n_components g -> zone_R c (comp_part g labels0 c) (comp_part g labels c))).
  { unfold azp_fit. apply (fit_post strategy _ _ order g attr anyexn True (fun s => exists c, s = SAzp c) zone_R); eauto.
    intros c l s rg Hc Hwf [cc ->]. unfold run_component. fold (attr_c attr g c).
    destruct (start_T c l cc Hwf) as [s1 [-> HT]]. cbn [bind].
    destruct (azp_component _ _ _ _ _ _ _ _) as [[[l' s2] r2]|e|] eqn:E; cbn [post]; [|exact I|exact I].
    apply (component_sound O (attr_c attr g c) (attr_c_exact O attr Hex g Hattr c) (comp_graph g c) (comp_symmetric g c Hsym)
      (attr_c_length attr g c)) in E; auto.
    destruct E as [H1 [[c' [-> _]] [H3 H4]]]. split; [eauto|]. split; [destruct H1, Hwf; lia|exact H4]. }
  rewrite Hrun in H. apply H.
Qed.

Theorem azp_fit_reach order fuel n_regions labels0 target c0 : gn g ^ gn g + gn g + 1 < fuel ->
  feasible g labels0 (Z.to_nat n_regions) -> (0 <= n_regions)%Z -> ~ In (-1)%Z labels0 -> length target = gn g ->
  (forall c, c < n_components g -> zone_R c (comp_part g labels0 c) (comp_part g target c)) ->
  exists s', forall r', exists r, azp_fit expf order O fuel g attr n_regions (Some labels0) (SAzp c0) r = Ok ((target, s'), r').
Proof.
  intros Hf Hfeas Hpos Hm1 Ht HR. unfold azp_fit.
  destruct (fit_reach strategy (strat_start O)
     (fun adj labels _ s r => azp_component strategy (strat_call expf) strat_val adj fuel labels s r) g attr (fun s => exists c, s = SAzp c) zone_R)
    with (order := order) (n_regions := n_regions) (labels0 := labels0) (target := target) (s := SAzp c0) as [s' [_ H]]; eauto.
  intros c l s l' Hc Hwf [cc ->] HRc. destruct (start_T c l cc Hwf) as [s1 [Es HT]].
  destruct (component_reach O (attr_c attr g c) (attr_c_exact O attr Hex g Hattr c) (comp_graph g c) (comp_symmetric g c Hsym)
      (attr_c_length attr g c) expf fuel l s1 l' Hwf (comp_part_nonempty g c l Hc Hwf) HT (fuel_comp c fuel Hf) HRc)
    as [s2 [[c2 [-> _]] [_ [_ Hr]]]].
  exists (SAzp c2). split; [eauto|]. intros r'. destruct (Hr r') as [r Er]. exists r. unfold run_component. fold (attr_c attr g c).
  rewrite Es. cbn [bind]. exact Er.
Qed.

(** the parts of a result as zoning of the islands *)
Lemma parts_zoning labels0 labels : wf g labels0 -> length labels = gn g ->
  ((forall c, c < n_components g -> zone_R c (comp_part g labels0 c) (comp_part g labels c)) <->
   forall v isl, v < gn g -> island g v isl -> exists l', zoning O attr g isl labels0 l' /\ forall a, In a isl -> lab labels a = lab l' a).
Proof.
  intros Hwf Hl. split.
  - intros H v isl Hv Hisl. rewrite (island_comp_nodes g v isl Hv Hisl).
    pose proof (H (comp_label g v) (comp_label_lt g v Hv)) as Hz. unfold zone_R in Hz. apply zoning_comp in Hz; auto.
    destruct Hz as [l' [Hz E]]. exists l'. split; [auto|]. intros a Ha. destruct (In_nth_error _ _ Ha) as [i Hi].
    assert (E' : nth_error (labels_at l' (comp_nodes g (comp_label g v))) i = nth_error (labels_at labels (comp_nodes g (comp_label g v))) i)
      by (f_equal; exact E).
    unfold labels_at in E'. rewrite !nth_error_map, Hi in E'. cbn in E'. congruence.
  - intros H c Hc. destruct (comp_label_onto g c Hc) as [v [Hv Ev]].
    destruct (H v (comp_nodes g c) Hv) as [l' [Hz Hag]]; [rewrite <- Ev; apply comp_nodes_island; auto|].
    unfold zone_R. apply zoning_comp; auto. exists l'. split; [auto|].
    change (labels_at l' (comp_nodes g c) = labels_at labels (comp_nodes g c)). unfold labels_at.
    apply map_ext_in. intros a Ha. symmetry. auto.
Qed.
End FitZoning.
