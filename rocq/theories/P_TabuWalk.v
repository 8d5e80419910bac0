(** AZPBasicTabu is the tabu search of SpecTabu.v. *)
From Verif Require Import Base Spec SpecTabu M_Graph P_Graph M_Util P_Base P_Util P_Forest P_Init P_Initial
  M_Objective P_Sum P_Objective M_Azp P_Azp P_Strategy P_Fit P_AzpFit M_Sa P_Sa M_Tabu P_Tabu P_Greedy.

(** ** the tabu list *)
Definition entry (m : tattempt) : tmove := let '(a, x, y) := m in mkMove a y x.
Definition tabu_list (len : option nat) (h : list tattempt) : list tmove := map entry (rev (most_recent len h)).

Lemma tabu_list_add len a x y h : deque_append len (mkMove a y x) (tabu_list len h) = tabu_list len ((a, x, y) :: h).
Proof.
  unfold tabu_list, deque_append. destruct len as [n|]; cbn [most_recent].
  - destruct n as [|n].
    + cbn. reflexivity.
    + rewrite app_length, map_length, rev_length, firstn_length. cbn [length].
      change (firstn (S n) ((a, x, y) :: h)) with ((a, x, y) :: firstn n h). cbn [rev]. rewrite map_app. cbn [map entry].
      destruct (Nat.le_gt_cases (S n) (length h)) as [Hl|Hl].
      * replace (Nat.min (S n) (length h) + 1 - S n) with 1 by lia.
        replace (firstn (S n) h) with (firstn n h ++ match nth_error h n with Some v => [v] | None => [] end).
        2:{ clear -Hl. revert h Hl. induction n as [|n IH]; intros [|v h] Hl; cbn [length] in *; try lia; [reflexivity|].
            cbn [firstn nth_error app]. rewrite IH by lia. reflexivity. }
        destruct (nth_error h n) as [v|] eqn:Ev; [|apply nth_error_None in Ev; lia].
        rewrite rev_app_distr. cbn. reflexivity.
      * replace (Nat.min (S n) (length h) + 1 - S n) with 0 by lia. cbn [skipn].
        rewrite !firstn_all2 by lia. reflexivity.
  - cbn [rev]. rewrite map_app. reflexivity.
Qed.

Lemma in_tabu_list len h a x y : in_tabu (mkMove a x y) (tabu_list len h) = true <-> takes_back len h a x y.
Proof.
  unfold in_tabu, tabu_list, takes_back. rewrite existsb_exists. split.
  - intros [m [Hm E]]. apply in_map_iff in Hm. destruct Hm as [[[b u] v] [<- Hm]]. apply in_rev in Hm.
    unfold tmove_eqb in E. cbn in E. rewrite !andb_true_iff in E. destruct E as [[E1 E2] E3].
    apply Nat.eqb_eq in E1. apply Z.eqb_eq in E2, E3. subst. exact Hm.
  - intros H. exists (mkMove a x y). split; [|unfold tmove_eqb; cbn; rewrite Nat.eqb_refl, !Z.eqb_refl; reflexivity].
    apply in_map_iff. exists (a, y, x). split; [reflexivity|]. apply in_rev in H. exact H.
Qed.
Lemma not_in_tabu_list len h a x y : in_tabu (mkMove a x y) (tabu_list len h) = false <-> ~ takes_back len h a x y.
Proof. rewrite <- in_tabu_list. destruct (in_tabu _ _); intuition congruence. Qed.

Lemma tabu_list_In len h m : In m (tabu_list len h) <-> takes_back len h (mv_area m) (mv_old m) (mv_new m).
Proof.
  unfold tabu_list, takes_back. rewrite in_map_iff. split.
  - intros [[[b u] v] [<- Hm]]. apply in_rev in Hm. exact Hm.
  - intros H. exists (mv_area m, mv_new m, mv_old m). split; [destruct m; reflexivity|]. apply in_rev in H. exact H.
Qed.

Definition in_range (n : nat) (h : list tattempt) : Prop := forall a x y, In (a, x, y) h -> a < n.
Lemma takes_back_range n len h a x y : in_range n h -> takes_back len h a x y -> a < n.
Proof.
  intros Hr H. unfold takes_back, most_recent in H. destruct len as [k|]; [|eapply Hr; eauto].
  eapply Hr. rewrite <- (firstn_skipn k h). apply in_or_app. left. exact H.
Qed.
Lemma in_range_cons n a x y h : in_range n h -> a < n -> in_range n ((a, x, y) :: h).
Proof. intros H Ha b u v [E|Hb]; [injection E as <- <- <-; auto|eapply H; eauto]. Qed.

(** ** visits *)
Lemma times_rev seen l : times (rev seen) l = visits seen l.
Proof.
  unfold times, visits. induction seen as [|m seen IH]; [reflexivity|]. cbn [rev]. rewrite filter_app, app_length, IH. cbn [filter].
  destruct (list_eq_dec Z.eq_dec m l); cbn [length]; lia.
Qed.
Lemma worn_cons reps l seen : worn reps (l :: seen) <-> worn reps seen \/ reps <= times seen l.
Proof.
  unfold worn. split.
  - intros [m Hm]. unfold times in Hm. cbn [filter] in Hm. destruct (list_eq_dec Z.eq_dec l m) as [->|Hne]; [right; cbn [length] in Hm; fold (times seen m) in Hm; lia|].
    left. exists m. exact Hm.
  - intros [[m Hm]|H].
    + exists m. unfold times in *. cbn [filter]. destruct (list_eq_dec Z.eq_dec l m); cbn [length]; lia.
    + exists l. unfold times in *. cbn [filter]. destruct (list_eq_dec Z.eq_dec l l); [cbn [length]; lia|congruence].
Qed.

(** ** the order of the moves *)
Lemma sorted_app {A} (R : A -> A -> Prop) l1 l2 : StronglySorted R l1 -> StronglySorted R l2 -> (forall x y, In x l1 -> In y l2 -> R x y) ->
  StronglySorted R (l1 ++ l2).
Proof.
  intros H1 H2 H. induction H1 as [|x l1 H1 IH Hx]; [exact H2|]. cbn. constructor; [apply IH; intros; apply H; [right|]; auto|].
  apply Forall_app. split; [exact Hx|]. apply Forall_forall. intros y Hy. apply H; [left|]; auto.
Qed.
Lemma sorted_filter {A} (R : A -> A -> Prop) p l : StronglySorted R l -> StronglySorted R (filter p l).
Proof.
  induction 1 as [|x l H IH Hx]; cbn [filter]; [constructor|]. destruct (p x); [|exact IH]. constructor; [exact IH|].
  apply Forall_forall. intros y Hy. apply filter_In in Hy. rewrite Forall_forall in Hx. apply Hx. tauto.
Qed.
Lemma sorted_map {A B} (R : A -> A -> Prop) (R' : B -> B -> Prop) (f : A -> B) l : (forall x y, R x y -> R' (f x) (f y)) -> StronglySorted R l -> StronglySorted R' (map f l).
Proof.
  intros Hf. induction 1 as [|x l H IH Hx]; cbn [map]; constructor; [exact IH|]. apply Forall_map. eapply Forall_impl; [|exact Hx]. auto.
Qed.
Lemma sorted_seq n : forall s, StronglySorted lt (seq s n).
Proof. induction n as [|n IH]; intros s; cbn [seq]; constructor; [apply IH|]. apply Forall_forall. intros x Hx. apply in_seq in Hx. lia. Qed.
Lemma sorted_split {A} (R : A -> A -> Prop) l1 x l2 : StronglySorted R (l1 ++ x :: l2) -> forall y, In y l2 -> R x y.
Proof.
  induction l1 as [|z l1 IH]; cbn [app]; intros H; inversion H as [|? ? H1 H2]; subst; [|auto]. rewrite Forall_forall in H2. exact H2.
Qed.

Section Order.
Variable g : graph.
(** the moves together with the neighbour they come from *)
Definition keyed_moves (labels : list Z) (tabu : list tmove) (area : nat) : list (nat * tmove) :=
  let old_region := lab labels area in
  if is_connected (sub_adj_matrix g (where_eq labels old_region) [area]) && Nat.ltb 1 (count labels old_region)
  then filter (fun km => negb (in_tabu (snd km) tabu))
         (map (fun neigh => (neigh, mkMove area old_region (lab labels neigh)))
            (filter (fun neigh => negb (Z.eqb (lab labels neigh) old_region)) (neighbors g area)))
  else [].
Definition key_lt (x y : nat * tmove) : Prop :=
  mv_area (snd x) < mv_area (snd y) \/ (mv_area (snd x) = mv_area (snd y) /\ fst x < fst y).

Lemma keyed_area labels tabu a x : In x (keyed_moves labels tabu a) -> mv_area (snd x) = a.
Proof.
  unfold keyed_moves. cbv zeta. destruct (_ && _); [|intros []]. intros H. apply filter_In in H. destruct H as [H _].
  apply in_map_iff in H. destruct H as [k [<- _]]. reflexivity.
Qed.
Lemma keyed_sorted labels tabu : forall n s, StronglySorted key_lt (flat_map (keyed_moves labels tabu) (seq s n)).
Proof.
  induction n as [|n IH]; intros s; cbn [seq flat_map]; [constructor|]. apply sorted_app.
  - unfold keyed_moves. cbv zeta. destruct (_ && _); [|constructor]. apply sorted_filter. apply (sorted_map lt).
    + intros x y H. right. cbn. auto.
    + apply sorted_filter. unfold neighbors. apply sorted_filter. apply sorted_seq.
  - apply IH.
  - intros x y Hx Hy. apply keyed_area in Hx. apply in_flat_map in Hy. destruct Hy as [a [Ha Hy]]. apply keyed_area in Hy.
    apply in_seq in Ha. left. lia.
Qed.
Lemma filter_map_snd {A} (p : tmove -> bool) (f : A -> nat * tmove) l : map snd (filter (fun km => p (snd km)) (map f l)) = filter p (map (fun x => snd (f x)) l).
Proof. induction l as [|x l IH]; [reflexivity|]. cbn [map filter]. destruct (p (snd (f x))); cbn [map]; rewrite IH; reflexivity. Qed.
Lemma keyed_possible labels tabu : map snd (flat_map (keyed_moves labels tabu) (seq 0 (length labels))) = possible_moves g labels tabu.
Proof.
  unfold possible_moves. generalize (seq 0 (length labels)). induction l as [|a l IH]; [reflexivity|].
  cbn [flat_map]. rewrite map_app, IH. f_equal. unfold keyed_moves. cbv zeta. destruct (_ && _); [|reflexivity].
  rewrite (filter_map_snd (fun m => negb (in_tabu m tabu))). reflexivity.
Qed.
Lemma keyed_In labels tabu a k m : length labels = gn g -> In (k, m) (keyed_moves labels tabu a) ->
  gadj g a k = true /\ region labels (mv_new m) k.
Proof.
  intros Hl. unfold keyed_moves. cbv zeta. destruct (_ && _); [|intros []]. intros H. apply filter_In in H. destruct H as [H _].
  apply in_map_iff in H. destruct H as [k' [E H]]. injection E as -> <-. apply filter_In in H. destruct H as [H _]. apply neighbors_In in H.
  split; [tauto|]. cbn [mv_new]. apply lab_nth_error. lia.
Qed.
(** every neighbour of the region is listed *)
Lemma keyed_all labels tabu a m j : length labels = gn g -> In m (possible_moves g labels tabu) -> mv_area m = a ->
  j < gn g -> gadj g a j = true -> region labels (mv_new m) j -> In (j, m) (flat_map (keyed_moves labels tabu) (seq 0 (length labels))).
Proof.
  intros Hl Hin Ea Hj Hadj Hr. rewrite <- keyed_possible in Hin. apply in_map_iff in Hin. destruct Hin as [[k m'] [E Hin]]. cbn in E. subst m'.
  apply in_flat_map in Hin. destruct Hin as [b [Hb Hin]]. pose proof (keyed_area _ _ _ _ Hin) as Eb. cbn in Eb.
  rewrite Ea in Eb. subst b. apply in_flat_map. exists a. split; [exact Hb|]. unfold keyed_moves in *. cbv zeta in *.
  destruct (_ && _); [|destruct Hin]. apply filter_In in Hin. destruct Hin as [Hin Ht]. apply filter_In. split; [|exact Ht].
  apply in_map_iff in Hin. destruct Hin as [k' [E Hk]]. injection E as -> <-. cbn [mv_new] in Hr. pose proof (lab_of_nth_error _ _ _ Hr) as Hr'.
  apply in_map_iff. exists j. rewrite Hr'. split; [reflexivity|]. apply filter_In in Hk. destruct Hk as [_ Hk].
  apply filter_In. split; [apply neighbors_In; auto|]. rewrite Hr'. exact Hk.
Qed.
Lemma keyed_split labels tabu before m after : possible_moves g labels tabu = before ++ m :: after ->
  exists kb k ka, flat_map (keyed_moves labels tabu) (seq 0 (length labels)) = kb ++ (k, m) :: ka /\ map snd kb = before /\ map snd ka = after.
Proof.
  intros Es. pose proof (keyed_possible labels tabu) as Hk. rewrite Es in Hk. revert before Es Hk.
  generalize (flat_map (keyed_moves labels tabu) (seq 0 (length labels))). intros ks before _ Hk. revert before Hk.
  induction ks as [|[k m'] ks IH]; intros [|b0 before] Hk; cbn in Hk; try discriminate.
  - injection Hk as -> Hk. exists [], k, ks. auto.
  - injection Hk as <- Hk. destruct (IH before Hk) as [kb [k' [ka [E1 [E2 E3]]]]]. exists ((k, m') :: kb), k', ka. rewrite E1. cbn. rewrite E2. auto.
Qed.
End Order.

Section First.
Variable O : objfun.
Variable attr : list (list Q).
Notation update a r l := (o_update O a r l attr).
Definition first_best (l : list Z) (moves : list tmove) (best : option (tmove * nat * Q)) : Prop :=
  match best with
  | None => moves = []
  | Some (m, i, q) => update (mv_area m) (mv_new m) l = Ok q /\ exists before after, moves = before ++ m :: after /\ length before = i /\
      (forall m', In m' before -> exists q', update (mv_area m') (mv_new m') l = Ok q' /\ (q < q')%Q) /\
      (forall m', In m' after -> exists q', update (mv_area m') (mv_new m') l = Ok q' /\ (q <= q')%Q)
  end.
Lemma best_of_first l : forall moves i best finished res, best_of O attr l i moves best = Ok res -> i = length finished -> first_best l finished best ->
  first_best l (finished ++ moves) res.
Proof.
  induction moves as [|m moves IH]; intros i best finished res E Hi Hb; cbn [best_of] in E.
  - injection E as <-. rewrite app_nil_r. exact Hb.
  - apply bind_Ok in E. destruct E as [q [Eq E]]. replace (finished ++ m :: moves) with ((finished ++ [m]) ++ moves) by (rewrite <- app_assoc; reflexivity).
    eapply IH; [exact E|rewrite app_length; cbn [length]; lia|]. destruct best as [[[m0 i0] q0]|]; cbn [first_best] in *.
    + destruct Hb as [E0 [before [after [-> [Hbi [H1 H2]]]]]]. destruct (Qltb q q0) eqn:El.
      * apply Qltb_lt in El. split; [auto|]. exists (before ++ m0 :: after), []. split; [reflexivity|]. split; [symmetry; exact Hi|]. split; [|intros m' []].
        intros m' Hm'. apply in_app_iff in Hm'. destruct Hm' as [Hm'|[<-|Hm']].
        -- destruct (H1 m' Hm') as [q' [E' Hq']]. exists q'. split; [auto|]. lra.
        -- exists q0. auto.
        -- destruct (H2 m' Hm') as [q' [E' Hq']]. exists q'. split; [auto|]. lra.
      * apply Qltb_ge in El. split; [auto|]. exists before, (after ++ [m]). split; [rewrite <- app_assoc; reflexivity|]. split; [exact Hbi|]. split; [auto|].
        intros m' Hm'. apply in_app_iff in Hm'. destruct Hm' as [Hm'|[<-|[]]]; [auto|]. exists q. auto.
    + subst finished. split; [auto|]. exists [], []. split; [reflexivity|]. split; [symmetry; exact Hi|]. split; intros m' [].
Qed.
Lemma best_of_answers l : forall moves i best, (forall m, In m moves -> exists q, update (mv_area m) (mv_new m) l = Ok q) ->
  exists res, best_of O attr l i moves best = Ok res.
Proof.
  induction moves as [|m moves IH]; intros i best H; cbn [best_of]; [eauto|]. destruct (H m ltac:(left; auto)) as [q ->]. cbn [bind].
  apply IH. intros; apply H; right; auto.
Qed.
Lemma improving_sound l : forall tabu its, improving_tabus O attr l tabu = Ok its ->
  forall m, In m its <-> In m tabu /\ lab l (mv_area m) = mv_old m /\ exists q, update (mv_area m) (mv_new m) l = Ok q /\ (q < 0)%Q.
Proof.
  intros tabu its E m. assert (Hu : forall m, In m tabu -> lab l (mv_area m) = mv_old m -> post anyexn True (update (mv_area m) (mv_new m) l) (fun _ => True)).
  { intros m0 _ _. destruct (update _ _ _); exact Logic.I. }
  pose proof (improving_tabus_post O attr anyexn True l tabu Hu) as H. rewrite E in H. apply H.
Qed.
Lemma improving_asked l : forall tabu its, improving_tabus O attr l tabu = Ok its ->
  forall m, In m tabu -> lab l (mv_area m) = mv_old m -> exists q, update (mv_area m) (mv_new m) l = Ok q.
Proof.
  induction tabu as [|m tabu IH]; intros its Ei m' Hin Hold; [destruct Hin|]. cbn [improving_tabus] in Ei. destruct Hin as [<-|Hin].
  - rewrite Hold, Z.eqb_refl in Ei. apply bind_Ok in Ei. destruct Ei as [q [Eq _]]. eauto.
  - destruct (Z.eqb _ _); [|eauto]. apply bind_Ok in Ei. destruct Ei as [q [_ Ei]]. apply bind_Ok in Ei. destruct Ei as [rest [Ei _]]. eauto.
Qed.
Lemma improving_answers l : forall tabu, (forall m, In m tabu -> lab l (mv_area m) = mv_old m -> exists q, update (mv_area m) (mv_new m) l = Ok q) ->
  exists its, improving_tabus O attr l tabu = Ok its.
Proof.
  induction tabu as [|m tabu IH]; intros H; cbn [improving_tabus]; [eauto|]. destruct (IH ltac:(intros; apply H; [right; auto|auto])) as [its Ei].
  destruct (Z.eqb_spec (lab l (mv_area m)) (mv_old m)) as [Eo|]; [|eauto]. destruct (H m ltac:(left; auto) Eo) as [q ->]. cbn [bind]. rewrite Ei. cbn [bind]. eauto.
Qed.
End First.

Section Walk.
Variable O : objfun.
Variable attr : list (list Q).
Variable g : graph.
Hypothesis Hsym : symmetric g.
Hypothesis Hattr : length attr = gn g.
Hypothesis Hex : exact_objective O attr.
Variable len : option nat.
Variable reps : nat.
Notation update a r l := (o_update O a r l attr).
Notation T := (tabu_list len).

Lemma update_value l a r q : length l = gn g -> a < gn g -> update a r l = Ok q ->
  exists v v', o_call O l attr = Ok v /\ o_call O (upd l a r) attr = Ok v' /\ (q == v' - v)%Q.
Proof. intros Hl Ha E. destruct Hex as [_ [_ H]]. apply (H a r l q); [congruence|lia|exact E]. Qed.
Lemma update_no_worse l a r q : length l = gn g -> a < gn g -> update a r l = Ok q -> (no_worse O attr l a r <-> (q <= 0)%Q).
Proof.
  intros Hl Ha E. destruct (update_value l a r q Hl Ha E) as [v [v' [E1 [E2 E3]]]]. split.
  - intros [x [y [H1 [H2 H3]]]]. rewrite E1 in H1. rewrite E2 in H2. injection H1 as <-. injection H2 as <-. lra.
  - intros H. exists v, v'. split; [auto|]. split; [auto|]. lra.
Qed.
Lemma update_improves l a r q : length l = gn g -> a < gn g -> update a r l = Ok q -> (improves O attr l a r <-> (q < 0)%Q).
Proof.
  intros Hl Ha E. destruct (update_value l a r q Hl Ha E) as [v [v' [E1 [E2 E3]]]]. split.
  - intros [x [y [H1 [H2 H3]]]]. rewrite E1 in H1. rewrite E2 in H2. injection H1 as <-. injection H2 as <-. lra.
  - intros H. exists v, v'. split; [auto|]. split; [auto|]. lra.
Qed.

Lemma possible_free l h m : wf g l ->
  (In m (possible_moves g l (T h)) <-> mv_old m = lab l (mv_area m) /\ free_move g len l h (mv_area m) (mv_new m)).
Proof.
  intros Hw. rewrite (possible_moves_spec g l (T h) m Hsym Hw). unfold free_move. destruct m as [a x y]; cbn [mv_area mv_old mv_new].
  rewrite not_in_tabu_list. split.
  - intros [H1 [H2 H3]]. subst x. auto.
  - intros [-> [H1 H2]]. auto.
Qed.

Lemma best_found l h res : wf g l -> best_of O attr l 0 (possible_moves g l (T h)) None = Ok res ->
  match res with
  | None => forall a r, ~ free_move g len l h a r
  | Some (m, _, q) => update (mv_area m) (mv_new m) l = Ok q /\ mv_area m < gn g /\ best_free O attr g len l h (mv_area m) (mv_new m)
  end.
Proof.
  intros Hw E. assert (Hl : length l = gn g) by apply Hw.
  pose proof (best_of_first O attr l _ 0 None [] res E eq_refl eq_refl) as H. cbn [app] in H. destruct res as [[[m i] q]|]; cbn [first_best] in H.
  - destruct H as [Eq [before [after [Es [_ [H1 H2]]]]]]. split; [exact Eq|].
    assert (Hm : In m (possible_moves g l (T h))) by (rewrite Es; apply in_elt).
    destruct (proj1 (possible_free l h m Hw) Hm) as [Hold Hfree]. assert (Ha : mv_area m < gn g) by apply Hfree. split; [exact Ha|].
    split; [exact Hfree|]. intros b s x y Hb Hne Ex Ey.
    assert (Hm' : In (mkMove b (lab l b) s) (possible_moves g l (T h))) by (apply possible_free; [auto|]; cbn; auto).
    assert (Hbl : b < gn g) by apply Hb.
    destruct (update_value l _ _ q Hl Ha Eq) as [v [v1 [Ev [Ev1 Eqv]]]]. rewrite Ex in Ev1. injection Ev1 as <-.
    assert (Hval : forall q', update b s l = Ok q' -> (q' == y - v)%Q).
    { intros q' E'. destruct (update_value l b s q' Hl Hbl E') as [u [u' [Eu [Eu' Equ]]]]. rewrite Ev in Eu. rewrite Ey in Eu'. injection Eu as <-. injection Eu' as <-. exact Equ. }
    destruct (Qlt_le_dec x y) as [Hlt|Hle]; [left; exact Hlt|right].
    (* all occurrences come later *)
    assert (Hbefore : ~ In (mkMove b (lab l b) s) before).
    { intros Hin. destruct (H1 _ Hin) as [q' [E' Hq']]. cbn in E'. specialize (Hval q' E'). lra. }
    assert (Hneq : mkMove b (lab l b) s <> m) by (intros Em; apply Hne; rewrite <- Em; reflexivity).
    assert (Hafter : In (mkMove b (lab l b) s) after).
    { rewrite Es in Hm'. apply in_app_iff in Hm'. destruct Hm' as [Hm'|[Hm'|Hm']]; [contradiction|symmetry in Hm'; contradiction|exact Hm']. }
    split.
    { destruct (H2 _ Hafter) as [q' [E' Hq']]. cbn in E'. specialize (Hval q' E'). lra. }
    (* the order *)
    pose proof (keyed_sorted g l (T h) (length l) 0) as Hs.
    pose proof (keyed_split g l (T h) before m after Es) as Hsplit.
    destruct Hsplit as [kb [k [ka [Ek [Ekb Eka]]]]]. rewrite Ek in Hs.
    assert (Hlater : forall j, In (j, mkMove b (lab l b) s) (kb ++ (k, m) :: ka) -> key_lt (k, m) (j, mkMove b (lab l b) s)).
    { intros j Hj. apply in_app_iff in Hj. destruct Hj as [Hj|[Hj|Hj]].
      - exfalso. apply Hbefore. rewrite <- Ekb. apply (in_map snd) in Hj. exact Hj.
      - exfalso. apply Hneq. congruence.
      - apply (sorted_split _ _ _ _ Hs). exact Hj. }
    assert (Hsome : exists j, In (j, mkMove b (lab l b) s) (kb ++ (k, m) :: ka)).
    { rewrite <- Eka in Hafter. apply in_map_iff in Hafter. destruct Hafter as [[j m'] [Em Hj]]. cbn in Em. subst m'. exists j. apply in_or_app. right. right. exact Hj. }
    destruct Hsome as [j0 Hj0]. destruct (Hlater j0 Hj0) as [Hlt|[Heq _]]; cbn in *; [left; exact Hlt|right]. split; [exact Heq|].
    assert (Hkm : In (k, m) (flat_map (keyed_moves g l (T h)) (seq 0 (length l)))) by (rewrite Ek; apply in_elt).
    apply in_flat_map in Hkm. destruct Hkm as [a' [_ Hkm]]. pose proof (keyed_area _ _ _ _ _ Hkm) as Ea'. cbn in Ea'. subst a'.
    destruct (keyed_In g l (T h) _ _ _ Hl Hkm) as [Hadj Hreg]. exists k. split; [exact Hadj|]. split; [exact Hreg|].
    intros j Hj Hadj' Hreg'. assert (Hin : In (j, mkMove b (lab l b) s) (kb ++ (k, m) :: ka)).
    { rewrite <- Ek. apply (keyed_all g l (T h) b); cbn; auto. rewrite <- Heq. exact Hadj'. }
    destruct (Hlater j Hin) as [Hlt|[_ Hlt]]; cbn in Hlt; [lia|exact Hlt].
  - intros a r Hf. assert (Hin : In (mkMove a (lab l a) r) (possible_moves g l (T h))) by (apply possible_free; cbn; auto).
    rewrite H in Hin. destruct Hin.
Qed.

Lemma best_unique l h a r b s x y : length l = gn g -> best_free O attr g len l h a r -> best_free O attr g len l h b s ->
  o_call O (upd l a r) attr = Ok x -> o_call O (upd l b s) attr = Ok y -> (a, r) = (b, s).
Proof.
  intros Hl [Ha H1] [Hb H2] Ex Ey. destruct (Nat.eq_dec a b) as [->|Hab].
  - destruct (Z.eq_dec r s) as [->|Hrs]; [reflexivity|exfalso].
    assert (Hne : (b, r) <> (b, s)) by congruence. assert (Hne' : (b, s) <> (b, r)) by congruence.
    destruct (H1 b s x y Hb Hne Ex Ey) as [Hlt|[Heq [Hc|[_ [i [Hi [Hri Hc]]]]]]];
      destruct (H2 b r y x Ha Hne' Ey Ex) as [Hlt'|[Heq' [Hc'|[_ [j [Hj [Hrj Hc']]]]]]]; try lra; try lia.
    assert (Hil : i < gn g) by (rewrite <- Hl; eapply nth_error_lt; exact Hri).
    assert (Hjl : j < gn g) by (rewrite <- Hl; eapply nth_error_lt; exact Hrj).
    specialize (Hc j Hjl Hj Hrj). specialize (Hc' i Hil Hi Hri). lia.
  - exfalso. assert (Hne : (a, r) <> (b, s)) by congruence. assert (Hne' : (b, s) <> (a, r)) by congruence.
    destruct (H1 b s x y Hb Hne Ex Ey) as [Hlt|[Heq [Hc|[Hc _]]]]; destruct (H2 a r y x Ha Hne' Ey Ex) as [Hlt'|[Heq' [Hc'|[Hc' _]]]]; try lra; try lia.
Qed.

(** one attempt *)
Lemma make_attempt l h a r : wf g l -> a < gn g ->
  exists l' b, make_move_tabu g len a r l (T h) = Ok (l', T ((a, lab l a, r) :: h), b) /\ attempted g l h a r l' ((a, lab l a, r) :: h).
Proof.
  intros Hw Ha. destruct (make_move_tabu_spec g len a r l (T h) ltac:(apply Hw) Ha) as [b [E Hb]]. rewrite tabu_list_add in E.
  rewrite E. destruct b; eexists; eexists; (split; [reflexivity|]); constructor; intuition congruence.
Qed.
Lemma attempted_same l h a r l1 h1 l2 h2 : attempted g l h a r l1 h1 -> attempted g l h a r l2 h2 -> l1 = l2 /\ h1 = h2.
Proof. intros [H1|H1] [H2|H2]; auto; contradiction. Qed.
Lemma attempted_wf l h a r l' h' : wf g l -> attempted g l h a r l' h' -> wf g l'.
Proof. intros Hw [H|H]; [|exact Hw]. split; [rewrite upd_length; apply Hw|exact H]. Qed.
Lemma attempted_range l h a r l' h' : in_range (gn g) h -> a < gn g -> attempted g l h a r l' h' -> in_range (gn g) h'.
Proof. intros Hr Ha [H|H]; apply in_range_cons; auto. Qed.
Lemma legal_attempted l h a r l' h' : wf g l -> legal_move g l a r -> attempted g l h a r l' h' -> l' = upd l a r /\ h' = (a, lab l a, r) :: h.
Proof. intros Hw Hm [H|H]; [auto|]. destruct (legal_upd g l a r Hw Hm) as [[_ H'] _]. contradiction. Qed.

Lemma try_sound m l h c l' t' c' : wf g l -> c_ok O attr c -> mv_area m < gn g -> try_move g len m l (T h) c = Ok (l', t', c') ->
  c_ok O attr c' /\ exists q, update (mv_area m) (mv_new m) l = Ok q /\
    (((0 < q)%Q /\ l' = l /\ t' = T h) \/ ((q <= 0)%Q /\ exists h', attempted g l h (mv_area m) (mv_new m) l' h' /\ t' = T h')).
Proof.
  intros Hw Hc Ha E. unfold try_move in E. rewrite (azp_call_eq O attr) in E by auto. apply bind_Ok in E. destruct E as [[ok c1] [E1 E2]].
  apply bind_Ok in E1. destruct E1 as [q [Eq E1]]. destruct (Qle_bool q 0) eqn:Eb.
  - injection E1 as <- <-. apply Qle_bool_iff in Eb. destruct (make_attempt l h (mv_area m) (mv_new m) Hw Ha) as [l1 [b [Em Hat]]].
    rewrite Em in E2. cbn [bind] in E2. injection E2 as <- <- <-. split; [split; reflexivity|]. exists q. split; [auto|]. right. split; [auto|]. eauto.
  - injection E1 as <- <-. injection E2 as <- <- <-. split; [auto|]. exists q. split; [auto|]. left. split; [|auto].
    apply Qnot_le_lt. intros H. apply Qle_bool_iff in H. congruence.
Qed.
Lemma try_complete m l h c q : wf g l -> c_ok O attr c -> mv_area m < gn g -> update (mv_area m) (mv_new m) l = Ok q ->
  exists c', c_ok O attr c' /\
    ((0 < q)%Q -> try_move g len m l (T h) c = Ok (l, T h, c')) /\
    ((q <= 0)%Q -> forall l' h', attempted g l h (mv_area m) (mv_new m) l' h' -> try_move g len m l (T h) c = Ok (l', T h', c')).
Proof.
  intros Hw Hc Ha Eq. unfold try_move. rewrite (azp_call_eq O attr) by auto. rewrite Eq. cbn [bind]. destruct (Qle_bool q 0) eqn:Eb.
  - exists (mkCommon attr O (c_val c + q)%Q). split; [split; reflexivity|]. apply Qle_bool_iff in Eb. split; [intros H; lra|]. intros _ l' h' Hat. cbn [bind].
    destruct (make_attempt l h (mv_area m) (mv_new m) Hw Ha) as [l1 [b [Em Hat']]]. rewrite Em. cbn [bind].
    destruct (attempted_same _ _ _ _ _ _ _ _ Hat Hat') as [-> ->]. reflexivity.
  - exists c. split; [auto|]. split; [intros _; reflexivity|]. intros H. apply Qle_bool_iff in H. congruence.
Qed.

Lemma again_same l h m q a r : wf g l -> update (mv_area m) (mv_new m) l = Ok q -> mv_area m < gn g ->
  best_free O attr g len l h (mv_area m) (mv_new m) -> best_free O attr g len l h a r -> (a, r) = (mv_area m, mv_new m).
Proof.
  intros Hw Eq Ha H1 H2. assert (Hl : length l = gn g) by apply Hw. destruct (update_value l _ _ q Hl Ha Eq) as [v [v' [_ [E1 _]]]].
  destruct Hex as [Hv _]. destruct (Hv (upd l a r)) as [y Ey]; [rewrite upd_length; congruence|].
  symmetry. eapply best_unique; eauto.
Qed.

Theorem walk_sound : forall fuel stop visited seen l h c r l' c' r',
  wf g l -> in_range (gn g) h -> c_ok O attr c -> seen = rev visited -> (stop = true <-> worn reps seen) ->
  basic_loop O g fuel len reps attr stop visited l (T h) c r = Ok (l', c', r') -> tabu_walk O attr g len reps seen l h l'.
Proof.
  induction fuel as [|fuel IH]; intros stop visited seen l h c r l' c' r' Hw Hr Hc Hseen Hstop E; [discriminate|].
  cbn [basic_loop] in E. cbv zeta in E. assert (Hl : length l = gn g) by apply Hw.
  set (stop' := stop || Nat.leb reps (visits visited l)) in E.
  assert (Hstop' : stop' = true <-> worn reps (l :: seen)).
  { unfold stop'. rewrite orb_true_iff, Nat.leb_le, worn_cons, Hstop, Hseen, times_rev. reflexivity. }
  assert (Hseen' : l :: seen = rev (visited ++ [l])) by (rewrite rev_app_distr, Hseen; reflexivity).
  clearbody stop'. apply bind_Ok in E. destruct E as [best [Eb E]]. pose proof (best_found l h best Hw Eb) as Hbest.
  apply bind_Ok in E. destruct E as [[[[made l1] t1] c1] [E1 E]].
  assert (Hcase : (made = true /\ exists a r', best_free O attr g len l h a r' /\ no_worse O attr l a r' /\ l1 = upd l a r' /\ t1 = T ((a, lab l a, r') :: h) /\ c_ok O attr c1 /\ a < gn g) \/
                  (made = false /\ l1 = l /\ t1 = T h /\ c1 = c /\ forall a r', best_free O attr g len l h a r' -> ~ no_worse O attr l a r')).
  { destruct best as [[[m i] q]|].
    - destruct Hbest as [Eq [Ha Hb]]. destruct (Qle_bool q 0) eqn:Eqb.
      + rewrite (azp_call_eq O attr) in E1 by auto. rewrite Eq in E1. cbn [bind] in E1. rewrite Eqb in E1. cbn [bind] in E1.
        destruct (make_attempt l h (mv_area m) (mv_new m) Hw Ha) as [l2 [b [Em Hat]]]. rewrite Em in E1. cbn [bind] in E1. injection E1 as <- <- <- <-.
        left. split; [reflexivity|]. exists (mv_area m), (mv_new m). apply Qle_bool_iff in Eqb.
        destruct (legal_attempted _ _ _ _ _ _ Hw (proj1 (proj1 Hb)) Hat) as [-> _].
        split; [auto|]. split; [eapply update_no_worse; eauto|]. split; [auto|]. split; [auto|]. split; [split; reflexivity|auto].
      + injection E1 as <- <- <- <-. right. repeat (split; [reflexivity|]). intros a r0 Hb' Hn.
        pose proof (again_same l h m q a r0 Hw Eq Ha Hb Hb') as Ep. injection Ep as -> ->.
        apply (update_no_worse l _ _ q Hl Ha Eq) in Hn. apply Qle_bool_iff in Hn. congruence.
    - injection E1 as <- <- <- <-. right. repeat (split; [reflexivity|]). intros a r0 Hb' _. apply (Hbest a r0). apply Hb'. }
  destruct Hcase as [[-> [a [z [Hb [Hn [-> [-> [Hc1 Ha]]]]]]]]|[-> [-> [-> [-> Hno]]]]].
  - eapply walk_move; [exact Hb|exact Hn|]. eapply (IH stop' (visited ++ [l])); [|apply in_range_cons; auto|exact Hc1|exact Hseen'|exact Hstop'|exact E].
    apply (legal_upd g l a z Hw). apply Hb.
  - apply bind_Ok in E. destruct E as [its [Ei E]]. apply bind_Ok in E. destruct E as [[[[l2 t2] c2] r2] [E2 E]].
    pose proof (improving_sound O attr l (T h) its Ei) as Hits.
    assert (Hass : assessed O attr len l h).
    { intros a z Ht. apply (improving_asked O attr l (T h) its Ei (mkMove a (lab l a) z)); [apply tabu_list_In; exact Ht|reflexivity]. }
    assert (Hasp : exists h2, aspired O attr g len l h l2 h2 /\ t2 = T h2 /\ c_ok O attr c2).
    { destruct its as [|m0 its].
      - injection E2 as <- <- <- <-. exists h. split; [|auto]. apply aspired_none; [exact Hass|]. intros a z [Ht Hi].
        assert (Ha : a < gn g) by (eapply takes_back_range; eauto).
        assert (Hin : In (mkMove a (lab l a) z) (T h)) by (apply tabu_list_In; exact Ht).
        pose proof (Hass a z Ht) as Hup.
        destruct Hup as [q Eq]. destruct (proj2 (Hits (mkMove a (lab l a) z))). cbn. split; [exact Hin|]. split; [reflexivity|].
        exists q. split; [exact Eq|]. eapply update_improves; eauto.
      - apply bind_Ok in E2. destruct E2 as [[m r1] [Em E2]]. apply bind_Ok in E2. destruct E2 as [[[l3 t3] c3] [E3 E2]]. injection E2 as <- <- <- <-.
        assert (Hm : In m (m0 :: its)).
        { unfold random_element_from in Em. apply bind_Ok in Em. destruct Em as [[p r3] [_ Em]]. destruct (nth_error (m0 :: its) p) eqn:En; [|discriminate].
          injection Em as <- _. eapply nth_error_In; eauto. }
        apply Hits in Hm. destruct Hm as [Hin [Hold [q [Eq Hq]]]]. apply tabu_list_In in Hin.
        assert (Ha : mv_area m < gn g) by (eapply takes_back_range; eauto).
        destruct (try_sound m l h c l3 t3 c3 Hw Hc Ha E3) as [Hc3 [q' [Eq' Hcase]]]. rewrite Eq in Eq'. injection Eq' as <-.
        destruct Hcase as [[Hpos _]|[_ [h' [Hat Ht']]]]; [lra|]. exists h'. split; [|auto]. eapply aspired_move; [exact Hass| |exact Hat].
        split; [rewrite Hold; exact Hin|]. eapply update_improves; eauto. }
    destruct Hasp as [h2 [Hasp [-> Hc2]]]. destruct stop'.
    + injection E as <- <- <-. eapply walk_end; [exact Hno|apply Hstop'; reflexivity|exact Hasp].
    + assert (Hnw : ~ worn reps (l :: seen)) by (intros Hx; apply Hstop' in Hx; discriminate).
      assert (Hw2 : wf g l2 /\ in_range (gn g) h2).
      { destruct Hasp as [_ _|a z l2 h2 _ [Ht _] Hat]; [auto|]. split; [eapply attempted_wf; eauto|eapply attempted_range; [eauto| |eauto]]. eapply takes_back_range; eauto. }
      destruct Hw2 as [Hw2 Hr2]. apply bind_Ok in E. destruct E as [[[l3 t3] c3] [E3 E]].
      assert (Hag : exists h3, tried_again O attr g len l h l2 h2 l3 h3 /\ t3 = T h3 /\ c_ok O attr c3 /\ wf g l3 /\ in_range (gn g) h3).
      { destruct best as [[[m i] q]|].
        - destruct Hbest as [Eq [Ha Hb]]. destruct (try_sound m l2 h2 c2 l3 t3 c3 Hw2 Hc2 Ha E3) as [Hc3 [q' [Eq' Hcase]]].
          destruct Hcase as [[Hpos [-> ->]]|[Hneg [h3 [Hat ->]]]].
          + exists h2. split; [|auto]. eapply again_worse; [exact Hb|exists q'; exact Eq'|]. intros Hn. apply (update_no_worse l2 _ _ q') in Hn; auto; [lra|apply Hw2].
          + exists h3. split; [eapply again_move; [exact Hb|exists q'; exact Eq'| |exact Hat]; eapply update_no_worse; eauto; apply Hw2|]. split; [auto|]. split; [auto|].
            split; [eapply attempted_wf; eauto|eapply attempted_range; eauto].
        - injection E3 as <- <- <-. exists h2. split; [apply again_none; exact Hbest|auto]. }
      destruct Hag as [h3 [Hag [-> [Hc3 [Hw3 Hr3]]]]]. eapply walk_on; [exact Hno|exact Hnw|exact Hasp|exact Hag|].
      eapply (IH false (visited ++ [l])); [exact Hw3|exact Hr3|exact Hc3|exact Hseen'|exact Hstop'|exact E].
Qed.

Lemma legal_answered l a r : wf g l -> a < gn g -> legal_move g l a r -> exists q, update a r l = Ok q.
Proof.
  intros Hw Ha Hm. destruct Hex as [_ [H _]]. assert (Hl : length l = gn g) by apply Hw. destruct Hm as [_ [D [HD [_ [[[b [Hb Hne]] _] [c [_ [Hc _]]]]]]]].
  apply H; [congruence|lia|eapply nth_error_In; eauto|]. exists b. split; [auto|]. rewrite HD. exact Hb.
Qed.

Lemma best_computed l h : wf g l -> exists best, best_of O attr l 0 (possible_moves g l (T h)) None = Ok best.
Proof.
  intros Hw. apply best_of_answers. intros m Hm. apply (possible_free l h m Hw) in Hm. apply legal_answered; [exact Hw|apply Hm|apply Hm].
Qed.
Lemma none_better l h a r : wf g l -> best_free O attr g len l h a r -> ~ no_worse O attr l a r -> exists q, update a r l = Ok q /\ Qle_bool q 0 = false.
Proof.
  intros Hw Hb Hn. assert (Ha : a < gn g) by apply Hb. assert (Hl : length l = gn g) by apply Hw. destruct (legal_answered l a r Hw Ha ltac:(apply Hb)) as [q Eq]. exists q. split; [auto|].
  destruct (Qle_bool q 0) eqn:E; [|reflexivity]. apply Qle_bool_iff in E. exfalso. apply Hn. eapply update_no_worse; eauto.
Qed.

(** the first part of a round without an improving move that is not tabu *)
Lemma step2_none l h best c : wf g l -> c_ok O attr c -> best_of O attr l 0 (possible_moves g l (T h)) None = Ok best ->
  (forall a r, best_free O attr g len l h a r -> ~ no_worse O attr l a r) ->
  match best with
  | Some (m, _, q) =>
      if Qle_bool q 0 then
        let* '(ok, c') := azp_call c (mv_area m) (mv_new m) l in
        if ok : bool then
          let* '(labels', tabu', _) := make_move_tabu g len (mv_area m) (mv_new m) l (T h) in Ok (true, labels', tabu', c')
        else Ok (false, l, T h, c')
      else Ok (false, l, T h, c)
  | None => Ok (false, l, T h, c)
  end = Ok (false, l, T h, c).
Proof.
  intros Hw Hc E Hno. pose proof (best_found l h best Hw E) as Hb. destruct best as [[[m i] q]|]; [|reflexivity].
  destruct Hb as [Eq [Ha Hb]]. destruct (none_better l h _ _ Hw Hb (Hno _ _ Hb)) as [q' [Eq' Hq']]. rewrite Eq in Eq'. injection Eq' as <-. rewrite Hq'. reflexivity.
Qed.

(** the aspiration move *)
Lemma step3_reach l h l1 h1 c : wf g l -> in_range (gn g) h -> c_ok O attr c -> aspired O attr g len l h l1 h1 ->
  exists its c1, improving_tabus O attr l (T h) = Ok its /\ c_ok O attr c1 /\ forall r', exists r,
    match its with
    | [] => Ok (l, T h, c, r)
    | _ => let* '(m, r') := random_element_from its r in
           let* '(l', t', c') := try_move g len m l (T h) c in Ok (l', t', c', r')
    end = Ok (l1, T h1, c1, r').
Proof.
  intros Hw Hr Hc Hasp. assert (Hl : length l = gn g) by apply Hw.
  assert (Hass : assessed O attr len l h) by (destruct Hasp; assumption). destruct (improving_answers O attr l (T h)) as [its Ei].
  { intros m Hm Ho. apply tabu_list_In in Hm. apply Hass. rewrite Ho. exact Hm. }
  exists its. pose proof (improving_sound O attr l (T h) its Ei) as Hits. destruct Hasp as [_ Hnone|a z l1 h1 _ [Ht Hi] Hat].
  - exists c. split; [exact Ei|]. split; [exact Hc|]. assert (its = []) as ->.
    { destruct its as [|m its]; [reflexivity|exfalso]. destruct (proj1 (Hits m) (or_introl eq_refl)) as [Hin [Hold [q [Eq Hq]]]]. apply tabu_list_In in Hin.
      apply (Hnone (mv_area m) (mv_new m)). split; [rewrite Hold; exact Hin|]. eapply update_improves; eauto. eapply takes_back_range; eauto. }
    intros r'. exists r'. reflexivity.
  - assert (Ha : a < gn g) by (eapply takes_back_range; eauto). destruct (Hass a z Ht) as [q Eq].
    pose proof (proj1 (update_improves l a z q Hl Ha Eq) Hi) as Hq.
    assert (Hin : In (mkMove a (lab l a) z) its) by (apply Hits; cbn; split; [apply tabu_list_In; exact Ht|]; eauto).
    destruct (try_complete (mkMove a (lab l a) z) l h c q Hw Hc Ha Eq) as [c1 [Hc1 [_ Htry]]]. exists c1. split; [exact Ei|]. split; [exact Hc1|].
    destruct (element_choice its _ Hin) as [i Hi']. intros r'. exists (rcons i r'). rewrite Hi'. cbn [bind]. cbn [mv_area mv_new] in Htry.
    rewrite (Htry ltac:(lra) l1 h1 Hat). cbn [bind]. destruct its; [destruct Hin|reflexivity].
Qed.

Lemma step4_reach l h best l1 h1 l2 h2 c : wf g l -> wf g l1 -> c_ok O attr c -> best_of O attr l 0 (possible_moves g l (T h)) None = Ok best ->
  tried_again O attr g len l h l1 h1 l2 h2 ->
  exists c2, c_ok O attr c2 /\
    match best with Some (m, _, _) => try_move g len m l1 (T h1) c | None => Ok (l1, T h1, c) end = Ok (l2, T h2, c2).
Proof.
  intros Hw Hw1 Hc E Hag. pose proof (best_found l h best Hw E) as Hb. assert (Hl1 : length l1 = gn g) by apply Hw1. destruct best as [[[m i] q]|].
  - destruct Hb as [Eq [Ha Hb]]. destruct Hag as [Hn|a z Hb' [q1 Eq1] Hn|a z l2 h2 Hb' [q1 Eq1] Hn Hat].
    + destruct (Hn (mv_area m) (mv_new m)). apply Hb.
    + pose proof (again_same l h m q a z Hw Eq Ha Hb Hb') as Ep. injection Ep as -> ->.
      destruct (try_complete m l1 h1 c q1 Hw1 Hc Ha Eq1) as [c2 [Hc2 [H1 H2]]]. exists c2. split; [exact Hc2|]. apply H1.
      apply Qnot_le_lt. intros Hq. apply Hn. eapply update_no_worse; eauto.
    + pose proof (again_same l h m q a z Hw Eq Ha Hb Hb') as Ep. injection Ep as -> ->.
      destruct (try_complete m l1 h1 c q1 Hw1 Hc Ha Eq1) as [c2 [Hc2 [H1 H2]]]. exists c2. split; [exact Hc2|]. apply H2; [|exact Hat]. eapply update_no_worse; eauto.
  - exists c. split; [exact Hc|]. destruct Hag as [Hn|a z Hb' _ Hn|a z l2 h2 Hb' _ Hn Hat]; [reflexivity|reflexivity|]. destruct (Hb a z). apply Hb'.
Qed.

Theorem walk_complete : forall seen l h l', tabu_walk O attr g len reps seen l h l' -> wf g l -> in_range (gn g) h ->
  forall stop visited c, c_ok O attr c -> seen = rev visited -> (stop = true <-> worn reps seen) ->
  exists fuel c', forall r', exists r, basic_loop O g fuel len reps attr stop visited l (T h) c r = Ok (l', c', r').
Proof.
  induction 1 as [seen l h a z l' Hb Hn Hwalk IH|seen l h l' h' Hno Hworn Hasp|seen l h l1 h1 l2 h2 l' Hno Hworn Hasp Hag Hwalk IH];
    intros Hw Hr stop visited c Hc Hseen Hstop; assert (Hl : length l = gn g) by apply Hw;
    assert (Hstop' : stop || Nat.leb reps (visits visited l) = true <-> worn reps (l :: seen))
      by (rewrite orb_true_iff, Nat.leb_le, worn_cons, Hstop, Hseen, times_rev; reflexivity);
    assert (Hseen' : l :: seen = rev (visited ++ [l])) by (rewrite rev_app_distr, Hseen; reflexivity);
    destruct (best_computed l h Hw) as [best Eb].
  - pose proof (best_found l h best Hw Eb) as Hbest. assert (Ha : a < gn g) by apply Hb.
    destruct best as [[[m i] q]|]; [|destruct (Hbest a z); apply Hb]. destruct Hbest as [Eq [Ham Hbm]].
    pose proof (again_same l h m q a z Hw Eq Ham Hbm Hb) as Ep. injection Ep as -> ->.
    pose proof (proj1 (update_no_worse l _ _ q Hl Ham Eq) Hn) as Hq. apply Qle_bool_iff in Hq.
    destruct (IH ltac:(apply (legal_upd g l _ _ Hw); apply Hb) ltac:(apply in_range_cons; auto) (stop || Nat.leb reps (visits visited l)) (visited ++ [l])
      (mkCommon attr O (c_val c + q)%Q) ltac:(split; reflexivity) Hseen' Hstop') as [fuel [c' Hrun]].
    exists (S fuel), c'. intros r'. destruct (Hrun r') as [r Er]. exists r. cbn [basic_loop]. cbv zeta. rewrite Eb. cbn [bind]. rewrite Hq.
    rewrite (azp_call_eq O attr) by auto. rewrite Eq. cbn [bind]. rewrite Hq. cbn [bind].
    destruct (make_attempt l h (mv_area m) (mv_new m) Hw Ham) as [l2 [b [Em Hat]]]. rewrite Em. cbn [bind].
    destruct (legal_attempted _ _ _ _ _ _ Hw (proj1 (proj1 Hb)) Hat) as [-> _]. exact Er.
  - destruct (step3_reach l h l' h' c Hw Hr Hc Hasp) as [its [c1 [Ei [Hc1 Hrun]]]]. exists 1, c1. intros r'. destruct (Hrun r') as [r Er]. exists r.
    cbn [basic_loop]. cbv zeta. rewrite Eb. cbn [bind]. rewrite (step2_none l h best c Hw Hc Eb Hno). cbn [bind]. rewrite Ei. cbn [bind]. rewrite Er. cbn [bind].
    rewrite (proj2 Hstop' Hworn). reflexivity.
  - destruct (step3_reach l h l1 h1 c Hw Hr Hc Hasp) as [its [c1 [Ei [Hc1 Hrun]]]].
    assert (Hw1 : wf g l1 /\ in_range (gn g) h1).
    { destruct Hasp as [_ _|a z l1 h1 _ [Ht _] Hat]; [auto|]. split; [eapply attempted_wf; eauto|eapply attempted_range; [eauto| |eauto]]. eapply takes_back_range; eauto. }
    destruct Hw1 as [Hw1 Hr1].
    assert (Hw2 : wf g l2 /\ in_range (gn g) h2).
    { destruct Hag as [_|a z _ _ _|a z l2 h2 Hb _ _ Hat]; auto. split; [eapply attempted_wf; eauto|eapply attempted_range; [eauto| |eauto]]. apply Hb. }
    destruct Hw2 as [Hw2 Hr2]. destruct (step4_reach l h best l1 h1 l2 h2 c1 Hw Hw1 Hc1 Eb Hag) as [c2 [Hc2 E4]].
    assert (Ef : stop || Nat.leb reps (visits visited l) = false) by (destruct (stop || Nat.leb reps (visits visited l)); [destruct Hworn; apply Hstop'; reflexivity|reflexivity]).
    rewrite Ef in Hstop'.
    destruct (IH Hw2 Hr2 false (visited ++ [l]) c2 Hc2 Hseen' Hstop') as [fuel [c' Hrun']].
    exists (S fuel), c'. intros r'. destruct (Hrun' r') as [r1 Er1]. destruct (Hrun r1) as [r Er]. exists r.
    cbn [basic_loop]. cbv zeta. rewrite Eb. cbn [bind]. rewrite (step2_none l h best c Hw Hc Eb Hno). cbn [bind]. rewrite Ei. cbn [bind]. rewrite Er. cbn [bind].
    rewrite Ef. rewrite E4. cbn [bind]. exact Er1.
Qed.

Lemma no_tabus : T [] = [].
Proof. unfold tabu_list, most_recent. destruct len as [[|n]|]; reflexivity. Qed.
Theorem component_walk_sound fuel l c r l' c' r' : wf g l -> c_ok O attr c ->
  basic_component O g fuel len reps l attr c r = Ok (l', c', r') -> tabu_search O attr g len reps l l'.
Proof.
  intros Hw Hc E. unfold basic_component in E. unfold tabu_search. rewrite <- uniqueZ_length. destruct (Nat.eqb_spec (length (uniqueZ l)) 1) as [E1|E1].
  - injection E as <- <- <-. left. auto.
  - right. split; [exact E1|]. eapply (walk_sound fuel false [] [] l []); [exact Hw|intros a x y []|exact Hc|reflexivity| |rewrite no_tabus; exact E].
    split; [discriminate|]. intros [m Hm]. cbn in Hm. lia.
Qed.
Theorem component_walk_complete l l' c : wf g l -> c_ok O attr c ->
  tabu_search O attr g len reps l l' -> exists fuel r c' r', basic_component O g fuel len reps l attr c r = Ok (l', c', r').
Proof.
  intros Hw Hc H. unfold basic_component. unfold tabu_search in H. rewrite <- uniqueZ_length in H. destruct (Nat.eqb_spec (length (uniqueZ l)) 1) as [E1|E1].
  - destruct H as [[_ ->]|[H _]]; [|contradiction]. exists 0, (fun k => k), c, (fun k => k). reflexivity.
  - destruct H as [[H _]|[_ H]]; [contradiction|].
    destruct (walk_complete [] l [] l' H Hw ltac:(intros a x y []) false [] c Hc eq_refl ltac:(split; [discriminate|intros [m Hm]; cbn in Hm; lia])) as [fuel [c' Hrun]].
    rewrite no_tabus in Hrun. destruct (Hrun (fun k => k)) as [r Er]. exists fuel, r, c', (fun k => k). exact Er.
Qed.
End Walk.

(** more fuel *)
Lemma basic_loop_more O g len reps attr : forall fuel stop visited l tabu c r x k,
  basic_loop O g fuel len reps attr stop visited l tabu c r = Ok x -> basic_loop O g (fuel + k) len reps attr stop visited l tabu c r = Ok x.
Proof.
  induction fuel as [|fuel IH]; intros stop visited l tabu c r x k E; [discriminate|]. cbn [Nat.add basic_loop] in *. cbv zeta in *.
  apply bind_Ok in E. destruct E as [best [E1 E]]. rewrite E1. cbn [bind]. apply bind_Ok in E. destruct E as [[[[made l1] t1] c1] [E2 E]]. rewrite E2. cbn [bind].
  destruct made; [apply IH; exact E|]. apply bind_Ok in E. destruct E as [its [E3 E]]. rewrite E3. cbn [bind].
  apply bind_Ok in E. destruct E as [[[[l2 t2] c2] r2] [E4 E]]. rewrite E4. cbn [bind]. destruct (_ || _); [exact E|].
  apply bind_Ok in E. destruct E as [[[l3 t3] c3] [E5 E]]. rewrite E5. cbn [bind]. apply IH. exact E.
Qed.
Lemma basic_component_more O g len reps attr fuel l c r x k :
  basic_component O g fuel len reps l attr c r = Ok x -> basic_component O g (fuel + k) len reps l attr c r = Ok x.
Proof. unfold basic_component. destruct (Nat.eqb _ _); [auto|apply basic_loop_more]. Qed.
