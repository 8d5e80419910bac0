(** AZPReactiveTabu is the search of SpecReactive.v. *)
From Verif Require Import Base Spec SpecTabu SpecReactive M_Graph P_Graph M_Util P_Base P_Util P_Forest P_Init P_Initial
  M_Objective P_Sum P_Objective M_Azp P_Azp P_Strategy P_Fit P_AzpFit M_Sa P_Sa M_Tabu P_Tabu P_Greedy P_TabuWalk M_Skater P_Skater P_Anneal.

(** ** cycles in the memory *)
Lemma first_upto_app l post : forall pre, ~ In l pre -> first_upto l (pre ++ l :: post) = pre ++ [l].
Proof.
  induction pre as [|v pre IH]; intros H; cbn [app first_upto].
  - destruct (list_eq_dec Z.eq_dec l l); [reflexivity|congruence].
  - destruct (list_eq_dec Z.eq_dec v l) as [->|]; [destruct H; left; reflexivity|]. f_equal. apply IH. intros Hin. apply H. right. exact Hin.
Qed.
Lemma cycle_of_stretch early rest l : ~ In l rest -> cycle_of (early ++ l :: rest) l = l :: rest.
Proof.
  intros H. unfold cycle_of. rewrite rev_app_distr. cbn [rev]. rewrite <- app_assoc. cbn [app].
  rewrite first_upto_app by (rewrite <- in_rev; exact H). rewrite rev_app_distr, rev_involutive. reflexivity.
Qed.
Lemma last_stretch_eq memory l cycle : last_stretch memory l cycle -> cycle = cycle_of memory l.
Proof. intros [early [rest [-> [-> H]]]]. symmetry. apply cycle_of_stretch. exact H. Qed.
Lemma split_last (l : list Z) : forall memory, In l memory -> exists early rest, memory = early ++ l :: rest /\ ~ In l rest.
Proof.
  induction memory as [|v memory IH]; intros H; [destruct H|]. destruct (in_dec (list_eq_dec Z.eq_dec) l memory) as [Hin|Hn].
  - destruct (IH Hin) as [early [rest [-> Hr]]]. exists (v :: early), rest. auto.
  - destruct H as [->|H]; [|contradiction]. exists [], memory. auto.
Qed.
Lemma last_stretch_ex memory l : In l memory -> last_stretch memory l (cycle_of memory l).
Proof.
  intros H. destruct (split_last l memory H) as [early [rest [-> Hr]]]. rewrite cycle_of_stretch by auto. exists early, rest. auto.
Qed.
Lemma found_iff memory cycle i : found_at memory cycle i <-> i < length memory - length cycle /\ sublist_at i (length cycle) memory = cycle.
Proof.
  unfold found_at, sublist_at. split.
  - intros [early [late [-> [<- Hl]]]]. rewrite !app_length. split.
    + destruct late; [congruence|]. cbn [length]. lia.
    + rewrite skipn_app, skipn_all, Nat.sub_diag. cbn [skipn app]. rewrite firstn_app, Nat.sub_diag, firstn_all. cbn [firstn]. apply app_nil_r.
  - intros [Hi Hc]. exists (firstn i memory), (skipn (length cycle) (skipn i memory)). split; [|split].
    + rewrite <- Hc at 1. rewrite firstn_skipn, firstn_skipn. reflexivity.
    + apply firstn_length_le. lia.
    + intros E. apply (f_equal (@length _)) in E. rewrite !skipn_length in E. cbn in E. lia.
Qed.
Lemma times_In memory l : 0 < times memory l <-> In l memory.
Proof.
  unfold times. split.
  - intros H. destruct (filter _ memory) as [|m t] eqn:E; [cbn in H; lia|]. assert (Hm : In m (filter (fun m => if list_eq_dec Z.eq_dec m l then true else false) memory)) by (rewrite E; left; auto).
    apply filter_In in Hm. destruct Hm as [Hm Hd]. destruct (list_eq_dec Z.eq_dec m l) as [->|]; [exact Hm|discriminate].
  - intros H. assert (Hm : In l (filter (fun m => if list_eq_dec Z.eq_dec m l then true else false) memory)).
    { apply filter_In. split; [exact H|]. destruct (list_eq_dec Z.eq_dec l l); congruence. }
    destruct (filter _ memory); [destruct Hm|cbn; lia].
Qed.
Lemma times_visits memory l : times memory l = visits memory l.
Proof. reflexivity. Qed.
Lemma cyclic_iff k2 memory l : In l memory ->
  (cyclic k2 memory l <-> Nat.leb k2 (times_cycle_found memory (cycle_of memory l) k2) = true).
Proof.
  intros Hin. unfold times_cycle_found. set (c := cycle_of memory l).
  set (F := filter (fun i => if list_eq_dec (list_eq_dec Z.eq_dec) (sublist_at i (length c) memory) c then true else false) (seq 0 (length memory - length c))).
  assert (HF : forall i, In i F <-> found_at memory c i).
  { intros i. unfold F. rewrite filter_In, in_seq, found_iff. destruct (list_eq_dec _ (sublist_at i (length c) memory) c); split; intros [H1 H2]; split; auto; try lia; congruence. }
  assert (Hnd : NoDup F) by (apply NoDup_filter, seq_NoDup).
  rewrite Nat.leb_le. split.
  - intros [cycle [places [Hs [Hp [Hk Hf]]]]]. apply last_stretch_eq in Hs. subst cycle. fold c in Hf.
    assert (length places <= length F) by (apply NoDup_incl_length; [exact Hp|]; intros i Hi; apply HF, Hf, Hi). lia.
  - intros H. exists c, F. split; [apply last_stretch_ex; exact Hin|]. split; [exact Hnd|]. split; [lia|]. intros i Hi. apply HF, Hi.
Qed.

(** ** the moves left besides the best one *)
Lemma remove_nth_mid {A} (x : A) after : forall before, remove_nth (length before) (before ++ x :: after) = before ++ after.
Proof. induction before as [|y before IH]; cbn; [reflexivity|]. f_equal. exact IH. Qed.

Section Walk.
Variable O : objfun.
Variable attr : list (list Q).
Variable g : graph.
Hypothesis Hsym : symmetric g.
Hypothesis Hattr : length attr = gn g.
Hypothesis Hex : exact_objective O attr.
Variables k1 k2 : nat.
Notation update a r l := (o_update O a r l attr).
Notation T := (tabu_list (Some 1)).

Lemma spare_list l h m i q m' : wf g l -> best_of O attr l 0 (possible_moves g l (T h)) None = Ok (Some (m, i, q)) ->
  (In m' (remove_nth i (possible_moves g l (T h))) <-> mv_old m' = lab l (mv_area m') /\ spare_move g l h (mv_area m) (mv_new m) (mv_area m') (mv_new m')).
Proof.
  intros Hw E. assert (Hl : length l = gn g) by apply Hw.
  pose proof (best_of_first O attr l _ 0 None [] _ E eq_refl eq_refl) as H. cbn [app first_best] in H.
  destruct H as [Eq [before [after [Es [Hi [H1 _]]]]]]. rewrite Es, <- Hi, remove_nth_mid. rewrite in_app_iff.
  assert (Hnb : ~ In m before).
  { intros Hin. destruct (H1 m Hin) as [q' [E' Hq']]. rewrite Eq in E'. injection E' as <-. lra. }
  assert (Hm : In m (possible_moves g l (T h))) by (rewrite Es; apply in_elt).
  destruct (proj1 (possible_free g Hsym (Some 1) l h m Hw) Hm) as [Hold Hfree].
  pose proof (keyed_sorted g l (T h) (length l) 0) as Hs.
  destruct (keyed_split g l (T h) before m after Es) as [kb [k [ka [Ek [Ekb Eka]]]]].
  assert (Hkin : In (k, m) (flat_map (keyed_moves g l (T h)) (seq 0 (length l)))) by (rewrite Ek; apply in_elt).
  assert (Hadjk : forall k', In (k', m) (flat_map (keyed_moves g l (T h)) (seq 0 (length l))) -> gadj g (mv_area m) k' = true /\ region l (mv_new m) k').
  { intros k' Hk'. apply in_flat_map in Hk'. destruct Hk' as [a' [_ Hk']]. pose proof (keyed_area _ _ _ _ _ Hk') as Ea. cbn in Ea. subst a'.
    apply (keyed_In g l (T h) _ _ _ Hl Hk'). }
  split.
  - intros H. assert (Hin : In m' (possible_moves g l (T h))) by (rewrite Es; apply in_app_iff; destruct H; [auto|right; right; auto]).
    destruct (proj1 (possible_free g Hsym (Some 1) l h m' Hw) Hin) as [Hold' Hfree']. split; [exact Hold'|]. split; [exact Hfree'|].
    destruct (Nat.eq_dec (mv_area m') (mv_area m)) as [Ea|Ea]; [|left; congruence]. destruct (Z.eq_dec (mv_new m') (mv_new m)) as [En|En]; [|left; congruence].
    right. assert (m' = m) as -> by (destruct m, m'; cbn in *; congruence). destruct H as [H|H]; [contradiction|].
    rewrite <- Eka in H. apply in_map_iff in H. destruct H as [[k' m''] [Em Hk']]. cbn in Em. subst m''.
    assert (Hlt : key_lt (k, m) (k', m)) by (rewrite Ek in Hs; apply (sorted_split _ _ _ _ Hs); exact Hk').
    assert (Hk'in : In (k', m) (flat_map (keyed_moves g l (T h)) (seq 0 (length l)))) by (rewrite Ek; apply in_or_app; right; right; exact Hk').
    destruct (Hadjk k Hkin), (Hadjk k' Hk'in). exists k, k'. split; [|auto]. destruct Hlt as [Hlt|[_ Hlt]]; cbn in Hlt; lia.
  - intros [Hold' [Hfree' Hc]]. assert (Hin : In m' (possible_moves g l (T h))) by (apply (possible_free g Hsym (Some 1) l h m' Hw); auto).
    rewrite Es in Hin. apply in_app_iff in Hin. destruct Hin as [Hin|[Em|Hin]]; [auto| |auto]. subst m'.
    destruct Hc as [Hc|[x [y [Hxy [Hx [Hy [Rx Ry]]]]]]]; [congruence|]. right.
    assert (Hlt : forall z, region l (mv_new m) z -> z < gn g) by (intros z Hz; rewrite <- Hl; eapply nth_error_lt; exact Hz).
    assert (Hz : exists z, z <> k /\ In (z, m) (flat_map (keyed_moves g l (T h)) (seq 0 (length l)))).
    { destruct (Nat.eq_dec x k) as [->|]; [exists y|exists x]; (split; [auto|]); apply (keyed_all g l (T h) (mv_area m)); auto. }
    destruct Hz as [z [Hz Hzin]]. rewrite Ek in Hzin. apply in_app_iff in Hzin. destruct Hzin as [Hzin|[Hzin|Hzin]].
    + exfalso. apply Hnb. rewrite <- Ekb. apply (in_map snd) in Hzin. exact Hzin.
    + congruence.
    + rewrite <- Eka. apply (in_map snd) in Hzin. exact Hzin.
Qed.

(** ** one move *)
Lemma tried_same l h a r l1 h1 l2 h2 : tried O attr g l h a r l1 h1 -> tried O attr g l h a r l2 h2 -> l1 = l2 /\ h1 = h2.
Proof. intros [l1' h1' A1 N1 T1|A1 N1] [l2' h2' A2 N2 T2|A2 N2]; auto; try contradiction. eapply attempted_same; eauto. Qed.
Lemma try_tried m l h c : wf g l -> in_range (gn g) h -> c_ok O attr c -> mv_area m < gn g ->
  match update (mv_area m) (mv_new m) l with
  | Ok _ => exists l1 h1 c1, try_move g (Some 1) m l (T h) c = Ok (l1, T h1, c1) /\ tried O attr g l h (mv_area m) (mv_new m) l1 h1 /\
      c_ok O attr c1 /\ wf g l1 /\ in_range (gn g) h1
  | Raise e => try_move g (Some 1) m l (T h) c = Raise e
  | NoFuel => try_move g (Some 1) m l (T h) c = NoFuel
  end.
Proof.
  intros Hw Hr Hc Ha. destruct (update (mv_area m) (mv_new m) l) as [q|e|] eqn:Eq.
  - assert (Hl : length l = gn g) by apply Hw. destruct (try_complete O attr g (Some 1) m l h c q Hw Hc Ha Eq) as [c1 [Hc1 [H1 H2]]].
    pose proof (update_no_worse O attr g Hattr Hex l _ _ q Hl Ha Eq) as Hn. destruct (Qlt_le_dec 0 q) as [Hq|Hq].
    + exists l, h, c1. split; [auto|]. split; [apply tried_not; [exists q; exact Eq|]; intros Hx; apply Hn in Hx; lra|auto].
    + destruct (make_attempt g (Some 1) l h (mv_area m) (mv_new m) Hw Ha) as [l1 [b [_ Hat]]]. eexists l1, _, c1. split; [apply H2; [exact Hq|exact Hat]|].
      split; [apply tried_made; [exists q; exact Eq|apply Hn; exact Hq|exact Hat]|]. split; [exact Hc1|]. split; [eapply attempted_wf; eauto|eapply attempted_range; eauto].
  - unfold try_move. rewrite (azp_call_eq O attr) by auto. rewrite Eq. reflexivity.
  - unfold try_move. rewrite (azp_call_eq O attr) by auto. rewrite Eq. reflexivity.
Qed.
Lemma best_tried_same l h a r l1 h1 b s l2 h2 : wf g l -> best_tried O attr g l h a r l1 h1 -> best_tried O attr g l h b s l2 h2 ->
  a = b /\ r = s /\ l1 = l2 /\ h1 = h2.
Proof.
  intros Hw [Hb1 Ht1] [Hb2 Ht2]. assert (Hl : length l = gn g) by apply Hw.
  destruct (proj1 Hex (upd l a r)) as [x Ex]; [rewrite upd_length; congruence|]. destruct (proj1 Hex (upd l b s)) as [y Ey]; [rewrite upd_length; congruence|].
  pose proof (best_unique O attr g Hattr (Some 1) l h a r b s x y Hl Hb1 Hb2 Ex Ey) as E. injection E as <- <-.
  destruct (tried_same _ _ _ _ _ _ _ _ Ht1 Ht2) as [-> ->]. auto.
Qed.

(** ** one round *)
Definition starts (prev : option (list Z)) (start : option Q) : Prop :=
  match prev, start with None, None => True | Some l0, Some x => o_call O l0 attr = Ok x | _, _ => False end.
Definition saves (saved : option (list Z)) (ls : last) : Prop :=
  match saved, ls with None, Step10 => True | Some a, Step11 b => a = b | _, _ => False end.
Definition good (s : reactive) : Prop := c_ok O attr (rt_common s) /\ (rt_avg s == 1)%Q.

Lemma test_iff prev start l v : starts prev start -> o_call O l attr = Ok v ->
  (match start with None => true | Some x => Qltb v x end = true <-> goes_on O attr prev l).
Proof.
  intros Hs Ev. destruct prev as [l0|], start as [x|]; cbn [starts goes_on] in *; try contradiction; [|tauto].
  rewrite Qltb_lt. split.
  - intros H. exists x, v. auto.
  - intros [x' [y' [E1 [E2 H]]]]. rewrite Hs in E1. rewrite Ev in E2. injection E1 as <-. injection E2 as <-. exact H.
Qed.

Lemma round_stops n prev start ls l t s r : length l = gn g -> starts prev start -> ~ goes_on O attr prev l ->
  reactive_loop O g n k1 k2 attr start ls l t s r = Ok (l, s, ls, r).
Proof.
  intros Hl Hs Hg. destruct n as [|n]; [reflexivity|]. cbn [reactive_loop]. destruct (proj1 Hex l) as [v Ev]; [congruence|]. rewrite Ev. cbn [bind].
  pose proof (test_iff prev start l v Hs Ev) as Ht. destruct (match start with None => true | Some x => Qltb v x end); [destruct Hg; apply Ht; reflexivity|]. reflexivity.
Qed.

(** what a round does *)
Definition after_best (n : nat) (v : Q) (moves : list tmove) (i : nat) (l1 : list Z) (t1 : list tmove) (c1 : common) (s : reactive) (r : rng) :=
  if Nat.ltb k1 (times (rt_visited s) l1) then
    if Nat.leb k2 (times_cycle_found (rt_visited s) (cycle_of (rt_visited s) l1) k2) then
      let* '(m, _, r1) := pop_randomly_from (remove_nth i moves) r in
      let* '(l2, t2, c2) := try_move g (Some 1) m l1 t1 c1 in
      reactive_loop O g n k1 k2 attr (Some v) (Step11 l1) l2 t2 (mkReactive c2 (rt_avg s) (rt_reps s) []) r1
    else Raise (TypeError "'float' object cannot be interpreted as an integer")
  else reactive_loop O g n k1 k2 attr (Some v) Step10 l1 t1 (mkReactive c1 (rt_avg s) (rt_reps s) (rt_visited s ++ [l1])) r.

Lemma round_runs n prev start ls l h s : wf g l -> in_range (gn g) h -> good s -> starts prev start -> goes_on O attr prev l ->
  ((forall a r, ~ free_move g (Some 1) l h a r) /\ forall r, reactive_loop O g (S n) k1 k2 attr start ls l (T h) s r = Raise AttributeError) \/
  exists m i q v l1 h1 c1, best_of O attr l 0 (possible_moves g l (T h)) None = Ok (Some (m, i, q)) /\ o_call O l attr = Ok v /\
    best_tried O attr g l h (mv_area m) (mv_new m) l1 h1 /\ c_ok O attr c1 /\ wf g l1 /\ in_range (gn g) h1 /\
    forall r, reactive_loop O g (S n) k1 k2 attr start ls l (T h) s r = after_best n v (possible_moves g l (T h)) i l1 (T h1) c1 s r.
Proof.
  intros Hw Hr [Hc Havg] Hs Hg. assert (Hl : length l = gn g) by apply Hw. destruct (proj1 Hex l) as [v Ev]; [congruence|].
  pose proof (test_iff prev start l v Hs Ev) as Ht. apply Ht in Hg. clear Ht.
  destruct (best_computed O attr g Hsym Hattr Hex (Some 1) l h Hw) as [best Eb].
  pose proof (best_found O attr g Hsym Hattr Hex (Some 1) l h best Hw Eb) as Hb. destruct best as [[[m i] q]|].
  - right. destruct Hb as [Eq [Ha Hb]]. pose proof (try_tried m l h (rt_common s) Hw Hr Hc Ha) as Htry. rewrite Eq in Htry.
    destruct Htry as [l1 [h1 [c1 [Etry [Htried [Hc1 [Hw1 Hr1]]]]]]]. exists m, i, q, v, l1, h1, c1.
    split; [exact Eb|]. split; [exact Ev|]. split; [split; auto|]. split; [exact Hc1|]. split; [exact Hw1|]. split; [exact Hr1|].
    intros r. cbn [reactive_loop]. rewrite Ev. cbn [bind]. rewrite Hg. cbn [negb]. rewrite Eb. cbn [bind]. rewrite Etry. cbn [bind].
    unfold after_best. change (times (rt_visited s) l1) with (visits (rt_visited s) l1).
    assert (Ek : Nat.ltb 0 (visits (rt_visited s) l1) && Nat.ltb k1 (visits (rt_visited s) l1) = Nat.ltb k1 (visits (rt_visited s) l1)).
    { destruct (Nat.ltb_spec k1 (visits (rt_visited s) l1)); [|apply andb_false_r]. rewrite andb_true_r. apply Nat.ltb_lt. lia. }
    rewrite Ek. destruct (Nat.ltb k1 _); [|reflexivity]. destruct (Nat.leb k2 _); [|reflexivity].
    assert (Hp : Z.to_nat (Qround.Qfloor (1 + rt_avg s / 2)) = 1).
    { rewrite (Qround.Qfloor_comp _ (3#2)%Q); [reflexivity|]. rewrite Havg. reflexivity. }
    rewrite Hp. cbn [random_moves]. destruct (pop_randomly_from _ r) as [[[m' moves'] r1]|e|]; cbn [bind]; [|reflexivity|reflexivity].
    destruct (try_move g (Some 1) m' l1 (T h1) c1) as [[[l2 t2] c2]|e|]; reflexivity.
  - left. split; [exact Hb|]. intros r. cbn [reactive_loop]. rewrite Ev. cbn [bind]. rewrite Hg. cbn [negb]. rewrite Eb. reflexivity.
Qed.

(** ** the whole search *)
Definition finish (x : out (list Z * reactive * last * rng)) : out (list Z * reactive * rng) :=
  let* '(_, s', ls', r') := x in let* l := reactive_result ls' (rt_visited s') in Ok (l, s', r').

Lemma recalled_iff saved ls memory x : saves saved ls -> (reactive_result ls memory = Ok x <-> recalled memory saved x).
Proof.
  intros Hs. destruct saved as [a|], ls as [|b]; cbn [saves] in Hs; try contradiction; cbn [reactive_result].
  - subst b. split; [intros H; injection H as <-; constructor|]. intros H. inversion H; reflexivity.
  - destruct (rev memory) as [|y [|z t]] eqn:E.
    + split; [discriminate|]. intros H. inversion H as [|? ? ? Em|? Em]; subst; cbn in E; try discriminate. rewrite rev_app_distr in E. discriminate.
    + assert (Em : memory = [y]) by (rewrite <- (rev_involutive memory), E; reflexivity). split.
      * intros H. injection H as <-. apply recalled_only. exact Em.
      * intros H. inversion H as [|? ? ? Em'|? Em']; subst; [|injection Em' as ->; reflexivity]. exfalso.
        apply (f_equal (@length _)) in Em'. rewrite app_length in Em'. cbn in Em'. lia.
    + assert (Em : memory = rev t ++ [z; y]) by (rewrite <- (rev_involutive memory), E; cbn; rewrite <- app_assoc; reflexivity). split.
      * intros H. injection H as <-. eapply recalled_last_but_one. exact Em.
      * intros H. inversion H as [|early l l' Em'|? Em']; subst.
        -- apply (f_equal (@rev _)) in Em'. rewrite !rev_app_distr in Em'. cbn in Em'. injection Em' as -> -> _. reflexivity.
        -- exfalso. apply (f_equal (@length _)) in Em'. rewrite app_length in Em'. cbn in Em'. lia.
Qed.
Lemma result_ok ls memory : memory <> [] \/ ls <> Step10 -> exists x, reactive_result ls memory = Ok x.
Proof.
  intros H. destruct ls as [|b]; cbn [reactive_result]; [|eauto]. destruct H as [H|H]; [|congruence].
  destruct (rev memory) as [|y [|z t]] eqn:E; eauto. exfalso. apply H. rewrite <- (rev_involutive memory), E. reflexivity.
Qed.

Lemma spare_area l h a r b s : spare_move g l h a r b s -> b < gn g.
Proof. intros [[[H _] _] _]. exact H. Qed.

Theorem reactive_sound : forall n prev saved start ls l h s r, wf g l -> in_range (gn g) h -> good s -> starts prev start -> saves saved ls ->
  (rt_visited s <> [] \/ ls <> Step10 \/ (n <> 0 /\ prev = None)) ->
  match finish (reactive_loop O g n k1 k2 attr start ls l (T h) s r) with
  | Ok (x, s', r') => reactive_walk O attr g k1 k2 n prev saved (rt_visited s) l h (Returns x (rt_visited s')) /\ (rt_avg s' == 1)%Q
  | Raise e => reactive_walk O attr g k1 k2 n prev saved (rt_visited s) l h (Fails e)
  | NoFuel => True
  end.
Proof.
  induction n as [|n IH]; intros prev saved start ls l h s r Hw Hr Hgood Hs Hsv Hne; assert (Hl : length l = gn g) by apply Hw.
  - cbn [reactive_loop finish bind]. destruct (result_ok ls (rt_visited s)) as [x Ex]; [intuition congruence|]. rewrite Ex. cbn [bind].
    split; [|apply Hgood]. apply walk_over; [auto|]. eapply recalled_iff; eauto.
  - assert (Hdec : goes_on O attr prev l \/ ~ goes_on O attr prev l).
    { destruct (proj1 Hex l) as [v Ev]; [congruence|]. pose proof (test_iff prev start l v Hs Ev) as Ht.
      destruct (match start with None => true | Some x => Qltb v x end); [left; apply Ht; auto|right; intros H; apply Ht in H; discriminate]. }
    destruct Hdec as [Hg|Hg].
    2:{ rewrite (round_stops (S n) prev start ls l (T h) s r Hl Hs Hg). cbn [finish bind].
      destruct (result_ok ls (rt_visited s)) as [x Ex]; [destruct Hne as [|[|[_ ->]]]; auto; destruct Hg; exact Logic.I|]. rewrite Ex. cbn [bind].
      split; [|apply Hgood]. apply walk_over; [auto|]. eapply recalled_iff; eauto. }
    destruct (round_runs n prev start ls l h s Hw Hr Hgood Hs Hg) as [[Hno E]|[m [i [q [v [l1 [h1 [c1 [Eb [Ev [Hbt [Hc1 [Hw1 [Hr1 E]]]]]]]]]]]]]]; rewrite E.
    + cbn [finish bind]. apply walk_stuck; auto.
    + unfold after_best. destruct (Nat.ltb_spec k1 (times (rt_visited s) l1)) as [Hk|Hk].
      * assert (Hin : In l1 (rt_visited s)) by (apply times_In; lia). pose proof (cyclic_iff k2 (rt_visited s) l1 Hin) as Hcy.
        destruct (Nat.leb k2 _).
        -- assert (Hcyc : cyclic k2 (rt_visited s) l1) by (apply Hcy; reflexivity).
           pose proof (fun m' => spare_list l h m i q m' Hw Eb) as Hsp.
           destruct (remove_nth i (possible_moves g l (T h))) as [|m0 rest] eqn:Erem.
           ++ cbn. eapply walk_no_spare; eauto. intros b z Hz. apply (Hsp (mkMove b (lab l b) z)). cbn. auto.
           ++ destruct (pop_randomly_from_Ok (m0 :: rest) r ltac:(discriminate)) as [m' [rest' [Epop Hperm]]]. rewrite Epop. cbn [bind].
              assert (Hm' : In m' (m0 :: rest)) by (apply (Permutation_in _ (Permutation_sym Hperm)); left; auto). apply Hsp in Hm'. destruct Hm' as [_ Hm'].
              pose proof (try_tried m' l1 h1 c1 Hw1 Hr1 Hc1 (spare_area _ _ _ _ _ _ Hm')) as Htry.
              destruct (update (mv_area m') (mv_new m') l1) as [q'|e|] eqn:Eq'.
              ** destruct Htry as [l2 [h2 [c2 [Etry [Htried [Hc2 [Hw2 Hr2]]]]]]]. rewrite Etry. cbn [bind].
                 pose proof (IH (Some l) (Some l1) (Some v) (Step11 l1) l2 h2 (mkReactive c2 (rt_avg s) (rt_reps s) []) (rnext r) Hw2 Hr2
                   ltac:(split; [exact Hc2|apply Hgood]) Ev eq_refl ltac:(right; left; discriminate)) as H. cbn [rt_visited] in H.
                 destruct (finish _) as [[[x s'] r']|e|]; [|eapply walk_restart; eauto|exact Logic.I]. destruct H as [H Ha]. split; [|exact Ha]. eapply walk_restart; eauto.
              ** rewrite Htry. cbn. eapply walk_no_answer; eauto.
              ** rewrite Htry. cbn. exact Logic.I.
        -- cbn. eapply walk_longer; eauto. intros Hx. apply Hcy in Hx. discriminate.
      * pose proof (IH (Some l) None (Some v) Step10 l1 h1 (mkReactive c1 (rt_avg s) (rt_reps s) (rt_visited s ++ [l1])) r Hw1 Hr1
          ltac:(split; [exact Hc1|apply Hgood]) Ev Logic.I ltac:(left; cbn; intros Hx; apply app_eq_nil in Hx; destruct Hx; discriminate)) as H. cbn [rt_visited] in H.
        destruct (finish _) as [[[x s'] r']|e|]; [|eapply walk_round; eauto|exact Logic.I]. destruct H as [H Ha]. split; [|exact Ha]. eapply walk_round; eauto.
Qed.

Definition reached (run : rng -> out (list Z * reactive * rng)) (o : routcome) : Prop :=
  match o with
  | Returns x memory => exists s', rt_visited s' = memory /\ (rt_avg s' == 1)%Q /\ forall r', exists r, run r = Ok (x, s', r')
  | Fails e => exists r, run r = Raise e
  end.
Lemma reached_step run run' o : (forall q, exists r, run r = run' q) -> reached run' o -> reached run o.
Proof.
  intros H. destruct o as [x memory|e]; cbn [reached].
  - intros [s' [H1 [H2 H3]]]. exists s'. split; [auto|]. split; [auto|]. intros r'. destruct (H3 r') as [q Eq]. destruct (H q) as [r Er]. exists r. congruence.
  - intros [q Eq]. destruct (H q) as [r Er]. exists r. congruence.
Qed.

Theorem reactive_complete : forall n prev saved memory l h o, reactive_walk O attr g k1 k2 n prev saved memory l h o ->
  forall start ls s, wf g l -> in_range (gn g) h -> good s -> starts prev start -> saves saved ls -> rt_visited s = memory ->
  reached (fun r => finish (reactive_loop O g n k1 k2 attr start ls l (T h) s r)) o.
Proof.
  induction 1 as [n prev saved memory l h l' Hend Hrec|n prev saved memory l h Hg Hno|n prev saved memory l h a z l1 h1 o Hg Hb Hk Hwalk IH
    |n prev saved memory l h a z l1 h1 Hg Hb Hk Hnc|n prev saved memory l h a z l1 h1 b z' l2 h2 o Hg Hb Hk Hcy Hsp Htr Hwalk IH
    |n prev saved memory l h a z l1 h1 Hg Hb Hk Hcy Hno|n prev saved memory l h a z l1 h1 b z' e Hg Hb Hk Hcy Hsp Hup];
    intros start ls s Hw Hr Hgood Hs Hsv Hmem; assert (Hl : length l = gn g) by apply Hw.
  1:{ cbn [reached]. exists s. split; [exact Hmem|]. split; [apply Hgood|]. intros r'. exists r'.
    assert (E : reactive_loop O g n k1 k2 attr start ls l (T h) s r' = Ok (l, s, ls, r')) by (destruct Hend as [->|Hg]; [reflexivity|eapply round_stops; eauto]).
    rewrite E. cbn [finish bind]. rewrite Hmem. apply (recalled_iff saved ls memory l' Hsv) in Hrec. rewrite Hrec. reflexivity. }
  all: destruct (round_runs n prev start ls l h s Hw Hr Hgood Hs Hg) as [[Hno' E]|[m [i [q [v [l1' [h1' [c1 [Eb [Ev [Hbt [Hc1 [Hw1 [Hr1 E]]]]]]]]]]]]]].
  1: cbn [reached]; exists (fun k => k); rewrite E; reflexivity.
  1: exfalso; destruct Hbt as [Hbt _]; eapply Hno; apply Hbt.
  all: try (exfalso; destruct Hb as [Hb _]; eapply Hno'; apply Hb).
  all: destruct (best_tried_same _ _ _ _ _ _ _ _ _ _ Hw Hb Hbt) as [-> [-> [<- <-]]].
  - (* another round *)
    eapply reached_step; [|eapply (IH (Some v) Step10 (mkReactive c1 (rt_avg s) (rt_reps s) (rt_visited s ++ [l1]))); auto].
    + intros r. exists r. rewrite E. unfold after_best. rewrite Hmem. destruct (Nat.ltb_spec k1 (times memory l1)); [lia|]. reflexivity.
    + split; [exact Hc1|apply Hgood].
    + exact Logic.I.
    + cbn. rewrite Hmem. reflexivity.
  - cbn [reached]. exists (fun k => k). rewrite E. unfold after_best. rewrite Hmem. destruct (Nat.ltb_spec k1 (times memory l1)); [|lia].
    assert (Hin : In l1 memory) by (apply times_In; lia). destruct (Nat.leb k2 _) eqn:El; [|reflexivity]. exfalso. apply Hnc. apply cyclic_iff; auto.
  - assert (Hin : In l1 memory) by (apply times_In; lia).
    assert (Hm' : In (mkMove b (lab l b) z') (remove_nth i (possible_moves g l (T h)))) by (apply (spare_list l h m i q _ Hw Eb); cbn; auto).
    destruct (pop_choice _ _ Hm') as [j [rest [_ Hpop]]].
    pose proof (try_tried (mkMove b (lab l b) z') l1 h1 c1 Hw1 Hr1 Hc1 (spare_area _ _ _ _ _ _ Hsp)) as Htry. cbn [mv_area mv_new] in Htry.
    destruct (update b z' l1) as [q'|e|] eqn:Eq'; [|destruct Htr as [? ? [? ?] _ _|[? ?] _]; congruence|destruct Htr as [? ? [? ?] _ _|[? ?] _]; congruence].
    destruct Htry as [l2' [h2' [c2 [Etry [Htried [Hc2 [Hw2 Hr2]]]]]]]. destruct (tried_same _ _ _ _ _ _ _ _ Htr Htried) as [<- <-].
    eapply reached_step; [|eapply (IH (Some v) (Step11 l1) (mkReactive c2 (rt_avg s) (rt_reps s) [])); auto].
    + intros r. exists (rcons j r). rewrite E. unfold after_best. rewrite Hmem. destruct (Nat.ltb_spec k1 (times memory l1)); [|lia].
      rewrite (proj1 (cyclic_iff k2 memory l1 Hin) Hcy). rewrite Hpop. cbn [bind]. rewrite Etry. reflexivity.
    + split; [exact Hc2|apply Hgood].
    + reflexivity.
  - assert (Hin : In l1 memory) by (apply times_In; lia). cbn [reached]. exists (fun k => k). rewrite E. unfold after_best. rewrite Hmem.
    destruct (Nat.ltb_spec k1 (times memory l1)); [|lia]. rewrite (proj1 (cyclic_iff k2 memory l1 Hin) Hcy).
    destruct (remove_nth i (possible_moves g l (T h))) as [|m0 rest] eqn:Erem; [reflexivity|]. exfalso.
    assert (Hm0 : In m0 (remove_nth i (possible_moves g l (T h)))) by (rewrite Erem; left; auto). apply (spare_list l h m i q _ Hw Eb) in Hm0. eapply Hno. apply Hm0.
  - assert (Hin : In l1 memory) by (apply times_In; lia).
    assert (Hm' : In (mkMove b (lab l b) z') (remove_nth i (possible_moves g l (T h)))) by (apply (spare_list l h m i q _ Hw Eb); cbn; auto).
    destruct (pop_choice _ _ Hm') as [j [rest [_ Hpop]]].
    pose proof (try_tried (mkMove b (lab l b) z') l1 h1 c1 Hw1 Hr1 Hc1 (spare_area _ _ _ _ _ _ Hsp)) as Htry. cbn [mv_area mv_new] in Htry. rewrite Hup in Htry.
    cbn [reached]. exists (rcons j (fun k => k)). rewrite E. unfold after_best. rewrite Hmem. destruct (Nat.ltb_spec k1 (times memory l1)); [|lia].
    rewrite (proj1 (cyclic_iff k2 memory l1 Hin) Hcy). rewrite Hpop. cbn [bind]. rewrite Htry. reflexivity.
Qed.

(** ** one island *)
Theorem component_sound maxit l s r : wf g l -> good s -> 1 <= maxit ->
  match reactive_component O g maxit k1 k2 l attr s r with
  | Ok (x, s', r') => reactive_search O attr g k1 k2 maxit (rt_visited s) l (Returns x (rt_visited s')) /\ (rt_avg s' == 1)%Q
  | Raise e => reactive_search O attr g k1 k2 maxit (rt_visited s) l (Fails e)
  | NoFuel => True
  end.
Proof.
  intros Hw Hgood Hm. unfold reactive_component, reactive_search. rewrite <- uniqueZ_length. destruct (Nat.eqb_spec (length (uniqueZ l)) 1) as [E1|E1].
  - split; [auto|apply Hgood].
  - pose proof (reactive_sound maxit None None None Step10 l [] s r Hw ltac:(intros a x y []) Hgood Logic.I Logic.I ltac:(right; right; split; [lia|reflexivity])) as H.
    rewrite (no_tabus (Some 1)) in H. unfold finish in H. destruct (let* '(_, s', ls, r') := reactive_loop _ _ _ _ _ _ _ _ _ _ _ _ in _) as [[[x s'] r']|e|].
    + destruct H. split; [right; auto|auto].
    + right. auto.
    + exact Logic.I.
Qed.
Theorem component_complete maxit l s o : wf g l -> good s -> reactive_search O attr g k1 k2 maxit (rt_visited s) l o ->
  reached (reactive_component O g maxit k1 k2 l attr s) o.
Proof.
  intros Hw Hgood H. unfold reactive_component. unfold reactive_search in H. rewrite <- uniqueZ_length in H. destruct (Nat.eqb_spec (length (uniqueZ l)) 1) as [E1|E1].
  - destruct H as [[_ ->]|[H _]]; [|contradiction]. cbn [reached]. exists s. split; [auto|]. split; [apply Hgood|]. eauto.
  - destruct H as [[H _]|[_ H]]; [contradiction|].
    pose proof (reactive_complete _ _ _ _ _ _ _ H None Step10 s Hw ltac:(intros a x y []) Hgood Logic.I Logic.I eq_refl) as Hr. rewrite (no_tabus (Some 1)) in Hr. exact Hr.
Qed.
End Walk.

(** ** the memory holds labels of several areas *)
Definition long (memory : list (list Z)) : Prop := forall m, In m memory -> 2 <= length m.
Lemma tried_length O attr g l h a r l1 h1 : tried O attr g l h a r l1 h1 -> length l1 = length l.
Proof. intros [l' h' _ _ [H|H]|_ _]; [apply upd_length|reflexivity|reflexivity]. Qed.
Lemma walk_long O attr g k1 k2 : forall n prev saved memory l h o, reactive_walk O attr g k1 k2 n prev saved memory l h o -> long memory -> 2 <= length l ->
  (forall y, saved = Some y -> 2 <= length y) -> match o with Returns x memory' => 2 <= length x /\ long memory' | Fails _ => True end.
Proof.
  induction 1 as [n prev saved memory l h l' Hend Hrec|n prev saved memory l h Hg Hno|n prev saved memory l h a z l1 h1 o Hg Hb Hk Hwalk IH
    |n prev saved memory l h a z l1 h1 Hg Hb Hk Hnc|n prev saved memory l h a z l1 h1 b z' l2 h2 o Hg Hb Hk Hcy Hsp Htr Hwalk IH
    |n prev saved memory l h a z l1 h1 Hg Hb Hk Hcy Hno|n prev saved memory l h a z l1 h1 b z' e Hg Hb Hk Hcy Hsp Hup]; intros Hm Hl Hs; auto.
  - split; [|exact Hm]. destruct Hrec as [x|early x y ->|x ->]; [auto| |]; apply Hm; [apply in_or_app; right|]; left; reflexivity.
  - destruct Hb as [_ Hb]. apply tried_length in Hb. apply IH; [|lia|discriminate]. intros m Hin. apply in_app_iff in Hin. destruct Hin as [Hin|[<-|[]]]; [auto|lia].
  - destruct Hb as [_ Hb]. apply tried_length in Hb. apply tried_length in Htr. apply IH; [intros m []|lia|]. intros y Hy. injection Hy as <-. lia.
Qed.
Lemma several l : l <> [] -> n_labels l <> 1 -> 2 <= length l.
Proof. intros Hl Hn. destruct l as [|x [|y l]]; [congruence| |cbn; lia]. exfalso. apply Hn. reflexivity. Qed.
Lemma search_long O attr g k1 k2 n memory l x memory' : l <> [] -> reactive_search O attr g k1 k2 n memory l (Returns x memory') -> long memory ->
  long memory' /\ (x = l \/ 2 <= length x).
Proof.
  intros Hl [[_ E]|[Hn H]] Hm.
  - injection E as -> ->. auto.
  - apply walk_long in H; auto; [|apply several; auto|discriminate]. destruct H. auto.
Qed.

(** ** island after island *)
Section Over.
Variable g : graph.
Variable M : Type.
Variable R : list nat -> M -> M -> Prop.
Fixpoint chain (cs : list nat) (x x' : M) : Prop :=
  match cs with [] => x' = x | c :: cs => exists x1, R (comp_nodes g c) x x1 /\ chain cs x1 x' end.
Definition seen_before (v k : nat) : Prop := (forall u, u < v -> comp_label g u < k) /\ (forall c, c < k -> exists u, u < v /\ comp_label g u = c).

Lemma seen_old v k u : v < gn g -> seen_before v k -> u < v -> same_island g u v -> seen_before (S v) k.
Proof.
  intros Hv [H1 H2] Hu Hs. assert (E : comp_label g u = comp_label g v) by (apply comp_label_eq; auto; lia). split.
  - intros w Hw. destruct (Nat.eq_dec w v) as [->|]; [rewrite <- E; auto|apply H1; lia].
  - intros c Hc. destruct (H2 c Hc) as [w [Hw Ew]]. exists w. split; [lia|auto].
Qed.
Lemma seen_new v k : v < gn g -> seen_before v k -> (forall u, u < v -> ~ same_island g u v) -> comp_label g v = k /\ seen_before (S v) (S k).
Proof.
  intros Hv [H1 H2] Hn. assert (Hge : k <= comp_label g v).
  { apply Nat.nlt_ge. intros Hlt. destruct (H2 _ Hlt) as [u [Hu Eu]]. apply (Hn u Hu). apply comp_label_eq; auto. lia. }
  assert (E : comp_label g v = k).
  { destruct (Nat.eq_dec (comp_label g v) k) as [|Hne]; [auto|]. destruct (comp_label_growth g v k Hv ltac:(lia)) as [b [Hb Eb]]. specialize (H1 b Hb). lia. }
  split; [exact E|]. split.
  - intros w Hw. destruct (Nat.eq_dec w v) as [->|]; [lia|]. specialize (H1 w ltac:(lia)). lia.
  - intros c Hc. destruct (Nat.eq_dec c k) as [->|]; [exists v; split; [lia|auto]|]. destruct (H2 c ltac:(lia)) as [w [Hw Ew]]. exists w. split; [lia|auto].
Qed.
Lemma seen_end k : seen_before (gn g) k -> k = n_components g.
Proof.
  intros [H1 H2]. apply Nat.le_antisymm.
  - apply Nat.nlt_ge. intros Hlt. destruct (H2 _ Hlt) as [u [Hu Eu]]. pose proof (comp_label_lt g u Hu). lia.
  - apply Nat.nlt_ge. intros Hlt. destruct (comp_label_onto g k Hlt) as [u [Hu Eu]]. specialize (H1 u Hu). lia.
Qed.
Lemma over_to_chain v m m' : over_islands g R v m m' -> forall k, seen_before v k -> chain (seq k (n_components g - k)) m m'.
Proof.
  induction 1 as [m|v u m m' Hv Hu Hs H IH|v isl m m1 m' Hv Hn Hi HR H IH]; intros k Hk.
  - apply seen_end in Hk. subst k. rewrite Nat.sub_diag. reflexivity.
  - apply IH. eapply seen_old; eauto.
  - destruct (seen_new v k Hv Hk Hn) as [E Hk']. assert (Hlt : k < n_components g) by (rewrite <- E; apply comp_label_lt; auto).
    replace (n_components g - k) with (S (n_components g - S k)) by lia. cbn [seq chain]. exists m1. split; [|apply IH; exact Hk'].
    rewrite (island_comp_nodes g v isl Hv Hi), E in HR. exact HR.
Qed.
Lemma chain_to_over : forall d v k m m', gn g - v = d -> v <= gn g -> seen_before v k -> chain (seq k (n_components g - k)) m m' -> over_islands g R v m m'.
Proof.
  induction d as [|d IH]; intros v k m m' Hd Hv Hk H.
  - assert (v = gn g) as -> by lia. apply seen_end in Hk. subst k. rewrite Nat.sub_diag in H. cbn in H. subst m'. constructor.
  - assert (Hlt : v < gn g) by lia. destruct (existsb (fun u => Nat.eqb (comp_label g u) (comp_label g v)) (seq 0 v)) eqn:E.
    + apply existsb_exists in E. destruct E as [u [Hu E]]. apply in_seq in Hu. apply Nat.eqb_eq in E. apply comp_label_eq in E; [|lia|lia].
      apply (over_old g R v u); [exact Hlt|lia|exact E|]. apply (IH (S v) k); [lia|lia|eapply seen_old; eauto; lia|exact H].
    + assert (Hn : forall u, u < v -> ~ same_island g u v).
      { intros u Hu Hs. apply comp_label_eq in Hs; [|lia|lia]. assert (Ht : existsb (fun u => Nat.eqb (comp_label g u) (comp_label g v)) (seq 0 v) = true).
        { apply existsb_exists. exists u. split; [apply in_seq; lia|apply Nat.eqb_eq; exact Hs]. } congruence. }
      destruct (seen_new v k Hlt Hk Hn) as [Ek Hk']. assert (Hkn : k < n_components g) by (rewrite <- Ek; apply comp_label_lt; auto).
      replace (n_components g - k) with (S (n_components g - S k)) in H by lia. cbn [seq chain] in H. destruct H as [m1 [HR H]].
      apply (over_new g R v (comp_nodes g k) m m1); [exact Hlt|exact Hn|rewrite <- Ek; apply comp_nodes_island; auto|exact HR|]. apply (IH (S v) (S k)); auto; lia.
Qed.
Theorem over_chain m m' : over_islands g R 0 m m' <-> chain (seq 0 (n_components g)) m m'.
Proof.
  assert (H0 : seen_before 0 0) by (split; intros; lia). rewrite <- (Nat.sub_0_r (n_components g)). split; intros H; [eapply over_to_chain; eauto|].
  eapply (chain_to_over (gn g) 0 0); auto; lia.
Qed.
End Over.

(** ** a fit from given labels (P_Anneal.v, for a component procedure whose result may have a wrong length) *)
Section Threads.
Variable S : Type.
Variable start : S -> list Z -> list (list Q) -> list nat -> out S.
Variable component : graph -> list Z -> list (list Q) -> S -> rng -> out (list Z * S * rng).
Variable g : graph.
Variable attr : list (list Q).
Variable X : Type.
Variable J : X -> S -> Prop.
Variable R : nat -> list Z -> list Z -> X -> X -> Prop.
Hypothesis Hsound : forall c l s x r l' s' r', c < n_components g -> wf (comp_graph g c) l -> J x s ->
  run_component S start component g attr c l s r = Ok (l', s', r') ->
  (length l' = length l \/ 2 <= length l') /\ exists x', R c l l' x x' /\ J x' s'.
Variable l0 : list Z.
Hypothesis Hwf0 : wf g l0.
Hypothesis Hm0 : ~ In (-1)%Z l0.

Lemma arrays_sound_any : forall k labels s r x labels' s' r', k <= n_components g -> length labels = gn g -> J x s ->
  fit_arrays S start component g attr (map (separate_one g l0) (seq (n_components g - k) k)) (labels, s) r = Ok ((labels', s'), r') ->
  length labels' = gn g /\ (forall a, a < gn g -> comp_label g a < n_components g - k -> lab labels' a = lab labels a) /\
  exists x', threads g X R l0 labels' (seq (n_components g - k) k) x x' /\ J x' s'.
Proof.
  induction k as [|k IH]; intros labels s r x labels' s' r' Hk Hl HJ H; cbn [seq map fit_arrays] in H.
  - injection H as <- <- <-. split; [auto|]. split; [auto|]. exists x. split; [reflexivity|auto].
  - set (c := n_components g - Datatypes.S k) in *. assert (Hc : c < n_components g) by lia.
    rewrite one_separate in H by auto.
    destruct (run_component S start component g attr c (comp_part g l0 c) s r) as [[[lc s1] r1]|e|] eqn:Er; cbn [bind] in H; try discriminate.
    destruct (Hsound c _ s x r lc s1 r1 Hc (wf_part g l0 c Hwf0) HJ Er) as [Hlc0 [x1 [HR HJ1]]].
    rewrite comp_part_length, comp_graph_n in Hlc0. assert (Hlc : length lc = length (comp_nodes g c)).
    { destruct Hlc0 as [|H2]; [auto|]. unfold assign_idx in H. destruct (Nat.eqb_spec (length lc) (length (comp_nodes g c))); [auto|].
      destruct lc as [|y [|z lc]]; cbn [length] in H2; try lia. discriminate. }
    unfold assign_idx in H. rewrite Hlc, Nat.eqb_refl in H. cbn [bind] in H.
    replace (Datatypes.S c) with (n_components g - k) in H by lia.
    destruct (IH (scatter labels (comp_nodes g c) lc) s1 r1 x1 labels' s' r') as [H1 [H2 [x' [H3 H4]]]]; auto; [lia|rewrite scatter_length; auto|].
    split; [auto|]. split.
    + intros a Ha Hca. rewrite H2 by (auto; lia). apply scatter_out; auto; lia.
    + exists x'. split; [|auto]. cbn [seq threads]. exists x1. split.
      * replace (comp_part g labels' c) with lc; [exact HR|]. symmetry. rewrite <- (scatter_part g c labels lc Hl Hlc).
        apply part_ext; auto; [rewrite scatter_length; auto|]. intros a Ha Hca. apply H2; [auto|lia].
      * replace (Datatypes.S c) with (n_components g - k) by lia. exact H3.
Qed.
Variable order : list edge -> list edge.
Variable p : Z.
Hypothesis Hfeas : feasible g l0 (Z.to_nat p).
Hypothesis Hp : (0 <= p)%Z.
Theorem threads_sound_any s r x labels s' r' : J x s ->
  fit S start component order g attr p (Some l0) s r = Ok ((labels, s'), r') ->
  length labels = gn g /\ exists x', threads g X R l0 labels (seq 0 (n_components g)) x x' /\ J x' s'.
Proof.
  intros HJ H. rewrite fit_is_arrays in H by auto. rewrite <- (Nat.sub_diag (n_components g)) in H at 1.
  apply (arrays_sound_any (n_components g) _ s r x) in H; auto; [|apply repeat_length].
  destruct H as [H1 [_ H2]]. rewrite Nat.sub_diag in H2. auto.
Qed.
End Threads.
