(** The tabu variants of AZP: proofs about one connected component. *)
From Verif Require Import Base Spec M_Graph P_Graph M_Util P_Base P_Util P_Forest P_Init P_Initial
  M_Objective P_Sum P_Objective M_Azp P_Azp P_Strategy P_Fit P_AzpFit M_Sa P_Sa M_Tabu.

Section Moves.
Variable g : graph.

Lemma donor_connected_spec labels a D : nth_error labels a = Some D ->
  (is_connected (sub_adj_matrix g (where_eq labels D) [a]) && Nat.ltb 1 (count labels D) = true <->
   contiguous g (fun x => region labels D x /\ x <> a)).
Proof.
  intros HD. rewrite <- (is_candidate_spec g labels a D HD). unfold is_candidate.
  rewrite (lab_of_nth_error _ _ _ HD). reflexivity.
Qed.

(** one direction holds for one-sided links too *)
Lemma possible_moves_sound labels tabu m : wf g labels -> In m (possible_moves g labels tabu) ->
  legal_move g labels (mv_area m) (mv_new m) /\ mv_old m = lab labels (mv_area m) /\ in_tabu m tabu = false.
Proof.
  intros [Hlen Hall]. unfold possible_moves. rewrite in_flat_map.
  intros [a [Ha Hin]]. apply in_seq in Ha. cbn zeta in Hin.
  pose proof (lab_nth_error labels a ltac:(lia)) as HD.
  destruct (_ && _) eqn:Ec in Hin; [|destruct Hin].
  apply (donor_connected_spec labels a _ HD) in Ec. apply filter_In in Hin. destruct Hin as [Hin Ht].
  apply in_map_iff in Hin. destruct Hin as [b [<- Hb]]. apply filter_In in Hb. destruct Hb as [Hb Hne].
  apply neighbors_In in Hb. destruct Hb as [Hbn Hadj]. cbn [mv_area mv_old mv_new].
  apply negb_true_iff, Z.eqb_neq in Hne. apply negb_true_iff in Ht.
  split; [|split; [reflexivity|exact Ht]]. split; [lia|]. exists (lab labels a). split; [auto|]. split; [auto|].
  split; [auto|]. exists b. split; [auto|]. split; [apply lab_nth_error; lia|]. right. auto.
Qed.

Lemma possible_moves_spec labels tabu m : symmetric g -> wf g labels ->
  (In m (possible_moves g labels tabu) <->
   legal_move g labels (mv_area m) (mv_new m) /\ mv_old m = lab labels (mv_area m) /\ in_tabu m tabu = false).
Proof.
  intros Hsym Hwf. split; [apply possible_moves_sound; auto|]. destruct Hwf as [Hlen Hall]. unfold possible_moves. rewrite in_flat_map.
  intros [[Ha [D [HD [Hne [Hc [b [Hbn [Hb Ht]]]]]]]] [Hold Htabu]]. destruct m as [a old new]; cbn [mv_area mv_old mv_new] in *.
  pose proof (lab_of_nth_error _ _ _ HD) as HD'. rewrite HD' in *. subst old.
  exists a. split; [apply in_seq; lia|]. cbn zeta. rewrite HD'.
  apply (donor_connected_spec labels a D HD) in Hc. rewrite Hc. apply filter_In. split; [|apply negb_true_iff; auto].
  apply in_map_iff. exists b. pose proof (lab_of_nth_error _ _ _ Hb) as Hb'. rewrite Hb'. split; [reflexivity|].
  apply filter_In. rewrite Hb'. split; [|apply negb_true_iff, Z.eqb_neq; auto].
  apply neighbors_In. split; [auto|]. rewrite touch_adj in Ht by auto. rewrite (Hsym a b) by auto. exact Ht.
Qed.

Lemma make_move_tabu_spec maxlen a r labels tabu : length labels = gn g -> a < gn g ->
  exists b : bool, make_move_tabu g maxlen a r labels tabu =
    Ok (if b then upd labels a r else labels, deque_append maxlen (mkMove a r (lab labels a)) tabu, b) /\
    (b = true <-> all_contiguous g (upd labels a r)).
Proof.
  intros Hlen Ha. unfold make_move_tabu, make_move.
  destruct (boolean_assert_feasible_None (upd labels a r) g ltac:(rewrite upd_length; lia)) as [b [E Hb]]. rewrite E. cbn [bind]. exists b.
  split; [|exact Hb]. destruct b; [reflexivity|]. rewrite upd_upd. unfold lab at 1. rewrite upd_same by lia. reflexivity.
Qed.

Lemma skipn_In {A} n (l : list A) x : In x (skipn n l) -> In x l.
Proof. revert l. induction n as [|n IH]; intros [|y l]; cbn; auto. Qed.

Lemma deque_append_In maxlen m tabu x : In x (deque_append maxlen m tabu) -> x = m \/ In x tabu.
Proof.
  unfold deque_append. intros H. assert (H' : In x (tabu ++ [m])).
  { destruct maxlen; [eapply skipn_In; eauto|auto]. }
  apply in_app_iff in H'. destruct H' as [H'|[<-|[]]]; auto.
Qed.
End Moves.

Section Best.
Variable obj : objfun.
Variable attr : list (list Q).
Variable E : exn -> Prop.
Variable N : Prop.

Definition is_best (labels : list Z) (moves : list tmove) (best : option (tmove * nat * Q)) : Prop :=
  match best with
  | None => moves = []
  | Some (m, i, q) => nth_error moves i = Some m /\ o_update obj (mv_area m) (mv_new m) labels attr = Ok q /\
      forall m' q', In m' moves -> o_update obj (mv_area m') (mv_new m') labels attr = Ok q' -> (q <= q')%Q
  end.

Lemma best_of_post labels : forall moves done best,
  (forall m, In m moves -> post E N (o_update obj (mv_area m) (mv_new m) labels attr) (fun _ => True)) ->
  is_best labels done best ->
  post E N (best_of obj attr labels (length done) moves best) (is_best labels (done ++ moves)).
Proof.
  induction moves as [|m moves IH]; intros done best Hu Hb; cbn [best_of].
  - rewrite app_nil_r. exact Hb.
  - eapply post_bind; [apply Hu; left; auto|]. intros q Eq _.
    replace (S (length done)) with (length (done ++ [m])) by (rewrite app_length; cbn; lia).
    replace (done ++ m :: moves) with ((done ++ [m]) ++ moves) by (rewrite <- app_assoc; reflexivity).
    apply IH; [intros m' Hm'; apply Hu; right; auto|].
    destruct best as [[[m0 i0] q0]|]; cbn [is_best] in *.
    + destruct Hb as [Hn [E0 Hmin]]. destruct (Qltb q q0) eqn:El.
      * apply Qltb_lt in El. split; [rewrite nth_error_app2, Nat.sub_diag by lia; reflexivity|]. split; [auto|].
        intros m' q' Hin E'. apply in_app_iff in Hin. destruct Hin as [Hin|[<-|[]]].
        -- specialize (Hmin m' q' Hin E'). lra.
        -- rewrite Eq in E'. injection E' as <-. lra.
      * apply Qltb_ge in El. split; [rewrite nth_error_app1; [auto|eapply nth_error_lt; eauto]|]. split; [auto|].
        intros m' q' Hin E'. apply in_app_iff in Hin. destruct Hin as [Hin|[<-|[]]]; [eauto|].
        rewrite Eq in E'. injection E' as <-. lra.
    + subst done. cbn. split; [reflexivity|]. split; [auto|]. intros m' q' [<-|[]] E'.
      rewrite Eq in E'. injection E' as <-. lra.
Qed.

Lemma best_of_post' labels moves :
  (forall m, In m moves -> post E N (o_update obj (mv_area m) (mv_new m) labels attr) (fun _ => True)) ->
  post E N (best_of obj attr labels 0 moves None) (is_best labels moves).
Proof. intros H. apply (best_of_post labels moves [] None); [auto|reflexivity]. Qed.

Lemma improving_tabus_post labels : forall tabu,
  (forall m, In m tabu -> lab labels (mv_area m) = mv_old m ->
     post E N (o_update obj (mv_area m) (mv_new m) labels attr) (fun _ => True)) ->
  post E N (improving_tabus obj attr labels tabu)
    (fun its => forall m, In m its <-> In m tabu /\ lab labels (mv_area m) = mv_old m /\
       exists q, o_update obj (mv_area m) (mv_new m) labels attr = Ok q /\ (q < 0)%Q).
Proof.
  induction tabu as [|m tabu IH]; intros Hu; cbn [improving_tabus].
  - cbn [post]. intros m. cbn. tauto.
  - destruct (Z.eqb_spec (lab labels (mv_area m)) (mv_old m)) as [Eo|Eo].
    + eapply post_bind; [apply Hu; [left; auto|auto]|]. intros q Eq _.
      eapply post_bind; [apply IH; intros m' Hm'; apply Hu; right; auto|]. intros rest _ Hrest. cbn [post].
      intros m'. destruct (Qltb q 0) eqn:El.
      * apply Qltb_lt in El. cbn [In]. rewrite (Hrest m'). split; [|intuition].
        intros [<-|H]; [|intuition]. split; [auto|]. split; [auto|]. eauto.
      * apply Qltb_ge in El. rewrite (Hrest m'). cbn [In]. split; [intuition|].
        intros [[<-|H] [H2 [q' [E' Hq']]]]; [|eauto]. rewrite Eq in E'. injection E' as <-. lra.
    + eapply (post_weaken E E N N); [auto|auto| |apply IH; intros m' Hm'; apply Hu; right; auto].
      intros its _ H m'. rewrite (H m'). cbn [In]. split; [intuition|]. intros [[<-|H'] H2]; [tauto|tauto].
Qed.
End Best.

Definition c_ok (obj : objfun) (attr : list (list Q)) (c : common) : Prop := c_obj c = obj /\ c_attr c = attr.

Lemma azp_call_eq obj attr c a r labels : c_ok obj attr c ->
  azp_call c a r labels = let* q := o_update obj a r labels attr in
    if Qle_bool q 0 then Ok (true, mkCommon attr obj (c_val c + q)%Q) else Ok (false, c).
Proof. intros [<- <-]. reflexivity. Qed.

(** ** AZPBasicTabu *)
Section Basic.
Variable obj : objfun.
Variable attr : list (list Q).
Variable g : graph.
Variable E : exn -> Prop.
Variable N : Prop.
(** invariants of the labels and of the tabu moves *)
Variable I : list Z -> Prop.
Variable T : tmove -> Prop.
Notation update a r l := (o_update obj a r l attr).
Hypothesis HTarea : forall m, T m -> mv_area m < gn g.
Hypothesis HT : forall l a r, wf g l -> I l -> a < gn g -> T (mkMove a r (lab l a)).
Hypothesis HUlegal : forall l a r, wf g l -> I l -> legal_move g l a r -> post E N (update a r l) (fun _ => True).
Hypothesis HUtabu : forall l m, wf g l -> I l -> T m -> lab l (mv_area m) = mv_old m ->
  post E N (update (mv_area m) (mv_new m) l) (fun _ => True).
Hypothesis HMlegal : forall l a r q, wf g l -> I l -> legal_move g l a r -> update a r l = Ok q -> (q <= 0)%Q ->
  I (upd l a r).
Hypothesis HMtabu : forall l m q, wf g l -> I l -> T m -> lab l (mv_area m) = mv_old m ->
  update (mv_area m) (mv_new m) l = Ok q -> (q < 0)%Q -> wf g (upd l (mv_area m) (mv_new m)) ->
  I (upd l (mv_area m) (mv_new m)).
(** the best move of the first search, tried again after the aspiration move [m] *)
Hypothesis HUstale : forall l m a r q, wf g l -> I l -> T m -> lab l (mv_area m) = mv_old m ->
  update (mv_area m) (mv_new m) l = Ok q -> (q < 0)%Q -> wf g (upd l (mv_area m) (mv_new m)) ->
  I (upd l (mv_area m) (mv_new m)) -> legal_move g l a r ->
  post E N (update a r (upd l (mv_area m) (mv_new m))) (fun _ => True).
Hypothesis HMstale : forall l m a r q q1 q2, wf g l -> I l -> T m -> lab l (mv_area m) = mv_old m ->
  update (mv_area m) (mv_new m) l = Ok q -> (q < 0)%Q -> wf g (upd l (mv_area m) (mv_new m)) ->
  I (upd l (mv_area m) (mv_new m)) -> legal_move g l a r -> update a r l = Ok q1 -> (0 < q1)%Q ->
  update a r (upd l (mv_area m) (mv_new m)) = Ok q2 -> (q2 <= 0)%Q ->
  wf g (upd (upd l (mv_area m) (mv_new m)) a r) -> I (upd (upd l (mv_area m) (mv_new m)) a r).
(** ranking for termination: the first rank falls with every improvement, the second one with every
    move of step 2 that leaves the objective unchanged *)
Variable maxlen : option nat.
Variables (M1 : list Z -> nat) (M2 : list Z -> list tmove -> nat) (B : nat).
Hypothesis Hmu : N \/
  (forall l tabu, M2 l tabu <= B) /\
  (forall l tabu x, M2 l (deque_append maxlen x tabu) <= M2 l tabu) /\
  (forall l a r q, wf g l -> I l -> a < gn g -> update a r l = Ok q -> (q <= 0)%Q -> M1 (upd l a r) <= M1 l) /\
  (forall l a r q, wf g l -> I l -> a < gn g -> update a r l = Ok q -> (q < 0)%Q -> M1 (upd l a r) < M1 l) /\
  (forall l tabu a r q, wf g l -> I l -> legal_move g l a r -> in_tabu (mkMove a (lab l a) r) tabu = false ->
     update a r l = Ok q -> (q <= 0)%Q -> M1 (upd l a r) < M1 l \/
     M1 (upd l a r) <= M1 l /\ M2 (upd l a r) (deque_append maxlen (mkMove a r (lab l a)) tabu) < M2 l tabu).

Definition down (l : list Z) (tabu : list tmove) (l' : list Z) (tabu' : list tmove) : Prop :=
  N \/ (l' = l /\ M2 l tabu' <= M2 l tabu) \/ M1 l' < M1 l \/ (M1 l' <= M1 l /\ M2 l' tabu' < M2 l tabu).

Definition tabu_ok (tabu : list tmove) : Prop := forall m, In m tabu -> T m.

Lemma tabu_ok_append m tabu : tabu_ok tabu -> T m -> tabu_ok (deque_append maxlen m tabu).
Proof. intros H1 H2 x Hx. apply deque_append_In in Hx. destruct Hx as [->|Hx]; auto. Qed.

(** [try_move] for an area that may be moved *)
Lemma try_move_post m l tabu c : wf g l -> I l -> c_ok obj attr c -> tabu_ok tabu ->
  mv_area m < gn g ->
  post E N (update (mv_area m) (mv_new m) l) (fun _ => True) ->
  post E N (try_move g maxlen m l tabu c)
    (fun '(l', tabu', c') => c_ok obj attr c' /\ tabu_ok tabu' /\
       (l' = l /\ (N \/ M2 l tabu' <= M2 l tabu) \/ exists q, update (mv_area m) (mv_new m) l = Ok q /\ (q <= 0)%Q /\
          wf g (upd l (mv_area m) (mv_new m)) /\ l' = upd l (mv_area m) (mv_new m))).
Proof.
  intros Hwf HI Hc Ht Ha Hu. unfold try_move. rewrite (azp_call_eq obj attr) by auto.
  eapply post_bind with (P := fun '(ok, c') => c_ok obj attr c' /\
     exists q, update (mv_area m) (mv_new m) l = Ok q /\ (ok = true <-> (q <= 0)%Q)).
  - eapply post_bind; [apply Hu|]. intros q Eq _. destruct (Qle_bool q 0) eqn:El; cbn [post].
    + split; [split; reflexivity|]. exists q. apply Qle_bool_iff in El. tauto.
    + split; [auto|]. exists q. apply Qle_bool_false in El. split; [auto|]. split; [discriminate|intros; lra].
  - intros [ok c'] _ [Hc' [q [Eq Hq]]]. destruct ok.
    + destruct (make_move_tabu_spec g maxlen (mv_area m) (mv_new m) l tabu (proj1 Hwf) Ha) as [b [Em Hb]].
      rewrite Em. cbn [bind post]. split; [auto|]. split.
      { apply tabu_ok_append; auto. }
      assert (Hq0 : (q <= 0)%Q) by (apply Hq; auto).
      destruct b; [|left; split; [auto|]; destruct Hmu as [HN|[_ [H _]]]; auto]. right. exists q.
      split; [auto|]. split; [auto|]. split; [|auto]. split; [rewrite upd_length; apply Hwf|apply Hb; auto].
    + cbn [post]. split; [auto|]. split; [auto|]. left. auto.
Qed.

Lemma random_element_from_post {A} (l : list A) r : l <> [] ->
  post E N (random_element_from l r) (fun '(x, _) => In x l).
Proof.
  intros Hne. unfold random_element_from, randrange. destruct (Nat.eqb_spec (length l) 0) as [H|H].
  { destruct l; [congruence|discriminate]. }
  cbn [bind]. destruct (nth_error l (r 0 mod length l)) eqn:E1.
  - cbn [post]. eapply nth_error_In; eauto.
  - exfalso. apply nth_error_None in E1. pose proof (Nat.mod_upper_bound (r 0) (length l) H). lia.
Qed.

Definition weight (l : list Z) (tabu : list tmove) : nat := M1 l * (B + 1) + M2 l tabu.

Lemma basic_loop_post reps : forall fuel stop visited l tabu c r,
  wf g l -> I l -> c_ok obj attr c -> tabu_ok tabu ->
  (N \/ weight l tabu * (reps + 2) + (reps + 1 - visits visited l) < fuel) ->
  post E N (basic_loop obj g fuel maxlen reps attr stop visited l tabu c r)
    (fun '(l', c', _) => wf g l' /\ I l' /\ c_ok obj attr c').
Proof.
  induction fuel as [|fuel IH]; intros stop visited l tabu c r Hwf HI Hc Ht Hf.
  - cbn [basic_loop post]. destruct Hf as [HN|Hf]; [auto|lia].
  - cbn [basic_loop].
    set (stop' := stop || Nat.leb reps (visits visited l)).
    assert (Hmoves : forall m, In m (possible_moves g l tabu) -> legal_move g l (mv_area m) (mv_new m)).
    { intros m Hm. apply (possible_moves_sound g l tabu m Hwf) in Hm. tauto. }
    (* what [IH] needs after a step from l to l' *)
    assert (Hnext : forall l' tabu', down l tabu l' tabu' -> (l' = l -> stop' = false) ->
      N \/ weight l' tabu' * (reps + 2) + (reps + 1 - visits (visited ++ [l]) l') < fuel).
    { intros l' tabu' [HN|[[-> Hd]|Hd]] Hs; [auto| |].
      - specialize (Hs eq_refl). destruct Hf as [HN|Hf]; [auto|right].
        unfold stop' in Hs. apply orb_false_iff in Hs. destruct Hs as [_ Hs]. apply Nat.leb_gt in Hs.
        rewrite visits_snoc. destruct (list_eq_dec Z.eq_dec l l) as [_|n]; [|exfalso; apply n; reflexivity].
        assert (weight l tabu' * (reps + 2) <= weight l tabu * (reps + 2)) by (apply Nat.mul_le_mono_r; unfold weight; lia).
        lia.
      - destruct Hf as [HN|Hf]; [auto|]. destruct Hmu as [HN|[HB _]]; [auto|right].
        assert (Hw : weight l' tabu' < weight l tabu).
        { unfold weight. pose proof (HB l' tabu') as H1. pose proof (HB l tabu) as H2.
          destruct Hd as [Hd|[Hd1 Hd2]].
          - assert (S (M1 l') * (B + 1) <= M1 l * (B + 1)) by (apply Nat.mul_le_mono_r; lia). lia.
          - assert (M1 l' * (B + 1) <= M1 l * (B + 1)) by (apply Nat.mul_le_mono_r; lia). lia. }
        assert (S (weight l' tabu') * (reps + 2) <= weight l tabu * (reps + 2)) by (apply Nat.mul_le_mono_r; lia). lia. }
    eapply post_bind; [apply (best_of_post' obj attr E N l (possible_moves g l tabu))|].
    { intros m Hm. apply HUlegal; auto. }
    intros best _ Hbest.
    (* step 2 *)
    eapply post_bind with (P := fun '(made, l1, tabu1, c1) => c_ok obj attr c1 /\ tabu_ok tabu1 /\
      if made : bool then wf g l1 /\ I l1 /\ down l tabu l1 tabu1 /\ (N \/ l1 <> l)
      else l1 = l /\ tabu1 = tabu /\ match best with Some (m, _, q) => (0 < q)%Q | None => True end).
    { destruct best as [[[m i] q]|]; [|cbn [post]; auto]. cbn [is_best] in Hbest. destruct Hbest as [Hn [Eq Hmin]].
      apply nth_error_In in Hn. pose proof (Hmoves m Hn) as Hl.
      destruct (Qle_bool q 0) eqn:El; [|cbn [post]; apply Qle_bool_false in El; auto].
      apply Qle_bool_iff in El. rewrite (azp_call_eq obj attr) by auto. rewrite Eq. cbn [bind].
      rewrite (proj2 (Qle_bool_iff q 0) El). cbn [bind].
      assert (Ha : mv_area m < gn g) by apply Hl.
      destruct (make_move_tabu_spec g maxlen (mv_area m) (mv_new m) l tabu (proj1 Hwf) Ha) as [b [Em Hb]].
      rewrite Em. cbn [bind post]. destruct (legal_upd g l _ _ Hwf Hl) as [Hwf' Hs'].
      assert (b = true) as -> by (apply Hb, Hwf').
      split; [split; reflexivity|]. split.
      { apply tabu_ok_append; auto. }
      split; [auto|]. split; [eapply HMlegal; eauto|]. split.
      { destruct Hmu as [HN|[_ [_ [_ [_ H]]]]]; [left; auto|]. right. right.
        apply (H l tabu (mv_area m) (mv_new m) q); auto. pose proof (possible_moves_sound g l tabu m Hwf Hn) as Hps. destruct Hps as [_ [Ho Hnt]]. rewrite <- Ho. destruct m as [a0 o0 n0]. exact Hnt. }
      right.
      intros Eu. destruct Hl as [_ [D [HD [Hne _]]]]. assert (H : nth_error (upd l (mv_area m) (mv_new m)) (mv_area m) = Some D) by congruence.
      rewrite nth_error_upd_eq in H by (destruct Hwf; lia). congruence. }
    intros [[[made l1] tabu1] c1] _ [Hc1 [Ht1 Hmade]]. destruct made.
    { destruct Hmade as [Hwf1 [HI1 [Hd1 Hne1]]]. apply IH; auto.
      destruct Hne1 as [HN|Hne1]; [auto|]. apply Hnext; auto. intros H; congruence. }
    destruct Hmade as [-> [-> Hq]].
    (* step 3 *)
    eapply post_bind; [apply (improving_tabus_post obj attr E N l tabu)|].
    { intros m Hm Ho. apply HUtabu; auto. }
    intros its _ Hits.
    eapply post_bind with (P := fun '(l2, tabu2, c2, _) => c_ok obj attr c2 /\ tabu_ok tabu2 /\ wf g l2 /\ I l2 /\
      (l2 = l /\ (N \/ M2 l tabu2 <= M2 l tabu) \/ exists m q, T m /\ lab l (mv_area m) = mv_old m /\ update (mv_area m) (mv_new m) l = Ok q /\ (q < 0)%Q /\
         l2 = upd l (mv_area m) (mv_new m))).
    { destruct its as [|m0 its0]; [cbn [post]|].
      { split; [auto|]. split; [auto|]. split; [auto|]. split; [auto|]. left. auto. }
      eapply post_bind; [apply (random_element_from_post (m0 :: its0)); discriminate|].
      intros [m r'] _ Hm. apply Hits in Hm. destruct Hm as [Hm [Ho [q [Eq Hq0]]]]. pose proof (Ht1 m Hm) as HTm.
      eapply post_bind; [apply (try_move_post m l tabu c1); auto|].
      intros [[l' t'] c'] _ [Hc' [Ht' Hl']]. cbn [post]. split; [auto|]. split; [auto|].
      destruct Hl' as [[-> HM]|[q' [Eq' [Hq' [Hwf' ->]]]]]; [split; [auto|]; split; auto|].
      split; [auto|]. split; [apply (HMtabu l m q); auto|]. right. exists m, q. auto. }
    intros [[[l2 tabu2] c2] r2] _ [Hc2 [Ht2 [Hwf2 [HI2 Hl2]]]].
    destruct stop' eqn:Estop; [cbn [post]; auto|].
    (* step 4 *)
    eapply post_bind with (P := fun '(l3, tabu3, c3) => c_ok obj attr c3 /\ tabu_ok tabu3 /\ down l tabu l3 tabu3 /\ wf g l3 /\ I l3).
    { assert (Hd2 : down l tabu l2 tabu2).
      { destruct Hl2 as [[-> HM]|[m2 [q2 [HTm2 [Ho2 [Eq2 [Hq2 ->]]]]]]]; unfold down.
        - destruct HM; auto.
        - destruct Hmu as [HN|[_ [_ [_ [H _]]]]]; [auto|]. right. right. left. eapply H; eauto. }
      destruct best as [[[m i] q]|].
      2: { cbn [post]. auto. }
      cbn [is_best] in Hbest. destruct Hbest as [Hn [Eq Hmin]]. apply nth_error_In in Hn. pose proof (Hmoves m Hn) as Hl.
      destruct Hl2 as [[-> HM]|[m2 [q2 [HTm2 [Ho2 [Eq2 [Hq2 ->]]]]]]].
      - eapply (post_weaken E E N N); [auto|auto| |apply (try_move_post m l tabu2 c2); auto].
        + intros [[l3 t3] c3] _ [Hc3 [Ht3 [[-> HM3]|[q' [Eq' [Hq' _]]]]]].
          * split; [auto|]. split; [auto|]. split; [|auto]. unfold down. destruct HM, HM3; auto. right. left. split; [auto|lia].
          * exfalso. rewrite Eq in Eq'. injection Eq' as <-. lra.
        + apply Hl.
      - eapply (post_weaken E E N N); [auto|auto| |
          apply (try_move_post m (upd l (mv_area m2) (mv_new m2)) tabu2 c2); auto].
        + assert (Hlt : N \/ M1 (upd l (mv_area m2) (mv_new m2)) < M1 l).
          { destruct Hmu as [HN|[_ [_ [_ [H _]]]]]; [auto|]. right. eapply H; eauto. }
          intros [[l3 t3] c3] _ [Hc3 [Ht3 Hl3]]. split; [auto|]. split; [auto|].
          destruct Hl3 as [[-> HM3]|[q' [Eq' [Hq' [Hwf' ->]]]]].
          * split; [|auto]. unfold down. tauto.
          * split; [|split; [auto|]].
            -- unfold down. destruct Hlt as [HN|Hlt]; [auto|]. destruct Hmu as [HN|[_ [_ [H _]]]]; [auto|]. right. right. left.
               eapply Nat.le_lt_trans; [eapply H; [| | |exact Eq'|]; auto; apply Hl|exact Hlt].
            -- eapply (HMstale l m2 (mv_area m) (mv_new m)); eauto.
        + apply Hl.
        + eapply HUstale; eauto. }
    intros [[l3 tabu3] c3] _ [Hc3 [Ht3 [Hd3 [Hwf3 HI3]]]]. apply IH; auto.
Qed.
End Basic.
