(** AZPReactiveTabu with k1 >= 1 is steepest descent: proofs. *)
From Verif Require Import Base Spec M_Graph P_Graph M_Util P_Base P_Util P_Forest P_Init P_Initial
  M_Objective P_Sum P_Objective M_Azp P_Azp P_Strategy P_Fit P_AzpFit M_Sa P_Sa M_Tabu P_Tabu P_TabuFit P_Reactive.

Section Comp.
Variable obj : objfun.
Variable attr : list (list Q).
Variable g : graph.
Hypothesis Hsym : symmetric g.
Hypothesis Hattr : length attr = gn g.
Hypothesis Hex : exact_objective obj attr.
Notation update a r l := (o_update obj a r l attr).
Notation val l := (value obj attr l).
Notation steep := (steepest obj attr g).
Notation desc := (descent obj attr g).
Notation opt := (local_optimum obj attr g).

Lemma call_val l : length l = gn g -> o_call obj l attr = Ok (val l).
Proof. intros Hl. destruct (proj1 Hex l) as [v Ev]; [lia|]. unfold value. rewrite Ev. reflexivity. Qed.

Lemma update_val l a r : wf g l -> legal_move g l a r ->
  exists q, update a r l = Ok q /\ (q == val (upd l a r) - val l)%Q.
Proof.
  intros Hwf Hl. destruct (legal_update_Ok obj attr g Hattr Hex l a r Hwf Hl) as [q Eq]. exists q. split; [auto|].
  pose proof Hwf as [Hlen _]. pose proof (legal_lt g _ _ _ Hl).
  destruct (proj2 (proj2 Hex) a r l q) as [v [v' [E1 [E2 Hd]]]]; [lia|lia|auto|].
  unfold value. rewrite E1, E2. exact Hd.
Qed.

Lemma steep_wf l l' : wf g l -> steep l l' -> wf g l'.
Proof. intros Hwf [a [z [x [x' [Hl [-> _]]]]]]. apply legal_upd; auto. Qed.
Lemma desc_wf k l l' : wf g l -> desc k l l' -> wf g l'.
Proof. intros Hwf H. revert Hwf. induction H; intros Hwf; auto. eapply steep_wf; [apply IHdescent; auto|eauto]. Qed.
Lemma desc_one l l' : steep l l' -> desc 1 l l'.
Proof. intros H. econstructor; [constructor|auto]. Qed.

(** a legal move that leaves the objective unchanged *)
Definition tie (l l' : list Z) : Prop := exists a z, legal_move g l a z /\ l' = upd l a z /\ (val l' == val l)%Q.

(** the state after i iterations, the i-th starting from [w] *)
Definition after (l0 : list Z) (i : nat) (start : option Q) (l : list Z) (tabu : list tmove) (visited : list (list Z)) : Prop :=
  seen obj attr start l visited /\
  match start with
  | None => i = 0 /\ l = l0 /\ tabu = [] /\ visited = []
  | Some x => exists k w, i = S k /\ desc k l0 w /\ x = val w /\ wf g l /\
      (visits visited l <= 1 \/ (x <= val l)%Q) /\
      (exists v, visited = v ++ [l] /\ match k with 0 => v = [] | S _ => exists v', v = v' ++ [w] end) /\
      ((steep w l /\ exists a z, l = upd w a z /\ a < gn g /\ tabu = [mkMove a z (lab w a)]) \/
       (opt w /\ (l = w \/ tie w l)))
  end.

(** where the AttributeError comes from: nothing can be moved, except back *)
Definition dead_end (M : nat) (l0 : list Z) (e : exn) : Prop :=
  e = AttributeError /\ exists k l, k < M /\ desc k l0 l /\
    ((forall a z, ~ legal_move g l a z) \/
     exists k' w, k = S k' /\ desc k' l0 w /\ steep w l /\ forall a z, legal_move g l a z -> upd l a z = w).

Lemma deque_one m tabu : deque_append (Some 1) m tabu = [m].
Proof.
  unfold deque_append. rewrite app_length. cbn [length]. replace (length tabu + 1 - 1) with (length tabu) by lia.
  rewrite skipn_app, skipn_all, Nat.sub_diag. reflexivity.
Qed.

Lemma try_value l m tabu c q : wf g l -> c_ok obj attr c -> legal_move g l (mv_area m) (mv_new m) ->
  update (mv_area m) (mv_new m) l = Ok q ->
  exists c', c_ok obj attr c' /\ try_move g (Some 1) m l tabu c =
    Ok (if Qle_bool q 0 then (upd l (mv_area m) (mv_new m), [mkMove (mv_area m) (mv_new m) (lab l (mv_area m))], c') else (l, tabu, c')).
Proof.
  intros Hwf Hc Hl Eq. unfold try_move. rewrite (azp_call_eq obj attr) by auto. rewrite Eq. cbn [bind].
  destruct (Qle_bool q 0); cbn [bind]; [|exists c; auto].
  destruct (make_move_tabu_spec g (Some 1) (mv_area m) (mv_new m) l tabu (proj1 Hwf) (legal_lt g _ _ _ Hl)) as [b [Em Hb]].
  rewrite Em. cbn [bind]. destruct (legal_upd g l _ _ Hwf Hl) as [[_ Hall] _].
  assert (b = true) as -> by (apply Hb; auto). rewrite deque_one. eexists. split; [|reflexivity]. split; reflexivity.
Qed.

(** what was recorded before (elsewhere) has other region names *)
Definition foreign (v0 : list (list Z)) (l0 : list Z) : Prop := forall w, In w v0 -> ~ same_labels w l0.

Lemma visits_foreign v0 vis l0 l : foreign v0 l0 -> same_labels l l0 -> visits (v0 ++ vis) l = visits vis l.
Proof.
  intros Hf Hs. rewrite !visits_count, count_occ_app.
  rewrite (proj1 (count_occ_not_In (list_eq_dec Z.eq_dec) v0 l)); [reflexivity|].
  intros Hin. apply (Hf l Hin). exact Hs.
Qed.

Lemma reactive_loop_descent v0 l0 M k1 k2 : wf g l0 -> foreign v0 l0 -> 1 <= k1 -> forall m i start l tabu vis s r, i + m = M ->
  c_ok obj attr (rt_common s) -> rt_visited s = v0 ++ vis -> after l0 i start l tabu vis ->
  same_labels l l0 -> (forall w, In w vis -> same_labels w l0) ->
  post (dead_end M l0) False (reactive_loop obj g m k1 k2 attr start Step10 l tabu s r)
    (fun '(l', s', ls', _) => ls' = Step10 /\ exists i' start' tabu' vis', rt_visited s' = v0 ++ vis' /\
       after l0 i' start' l' tabu' vis' /\ (forall w, In w vis' -> same_labels w l0) /\
       i' <= M /\ (i' = M \/ exists x, start' = Some x /\ (x <= val l')%Q)).
Proof.
  intros Hwf0 Hfor Hk. induction m as [|m IH]; intros i start l tabu vis s r Hi Hc Hvis Ha Hsl Hsv; cbn [reactive_loop].
  - cbn [post]. split; [auto|]. exists i, start, tabu, vis. split; [auto|]. split; [auto|]. split; [auto|split; [lia|left; lia]].
  - pose proof Ha as [Hseen Hst].
    assert (Hwf : wf g l) by (destruct start as [x|]; [destruct Hst as [k [w Hst]]; tauto|destruct Hst as [_ [-> _]]; auto]).
    rewrite (call_val l (proj1 Hwf)). cbn [bind].
    destruct (negb _) eqn:Eneg.
    { apply negb_true_iff in Eneg. destruct start as [x|]; [|discriminate]. apply Qltb_ge in Eneg. cbn [post].
      split; [auto|]. exists i, (Some x), tabu, vis. split; [auto|]. split; [auto|]. split; [auto|split; [lia|right; eauto]]. }
    apply negb_false_iff in Eneg.
    (* descent so far, and what the tabu list forbids *)
    assert (Hd : desc i l0 l /\ (tabu = [] \/ exists k' w, i = S k' /\ desc k' l0 w /\ steep w l /\ (val l < val w)%Q /\
                   forall a z, legal_move g l a z -> in_tabu (mkMove a (lab l a) z) tabu = true -> upd l a z = w)).
    { destruct start as [x|].
      - destruct Hst as [k [w [-> [Hdk [-> [_ [_ [_ Hcase]]]]]]]]. apply Qltb_lt in Eneg.
        destruct Hcase as [[Hs [a [z [El [Hag ->]]]]]|[_ [->|[a [z [_ [_ Ev]]]]]]]; [|exfalso; lra|exfalso; lra].
        split; [econstructor; eauto|]. right. exists k, w. split; [auto|]. split; [auto|]. split; [auto|]. split; [auto|]. intros b y Hl Hin.
        unfold in_tabu in Hin. cbn [existsb] in Hin. rewrite orb_false_r in Hin. unfold tmove_eqb in Hin. cbn in Hin.
        apply andb_true_iff in Hin. destruct Hin as [Hin E3]. apply andb_true_iff in Hin. destruct Hin as [E1 _].
        apply Nat.eqb_eq in E1. apply Z.eqb_eq in E3. subst b y.
        assert (Hww : wf g w) by (apply (desc_wf k l0 w); auto).
        rewrite El, upd_upd. unfold lab. apply upd_same. destruct Hww; lia.
      - destruct Hst as [-> [-> [-> _]]]. split; [constructor|left; auto]. }
    destruct Hd as [Hd Htab].
    assert (Htabu : forall a z, legal_move g l a z -> in_tabu (mkMove a (lab l a) z) tabu = true -> (val l < val (upd l a z))%Q).
    { intros a z Hl Hin. destruct Htab as [->|[k' [w [_ [_ [_ [Hlt Hw]]]]]]]; [discriminate|]. rewrite (Hw a z Hl Hin). exact Hlt. }
    assert (Hpm : forall m, In m (possible_moves g l tabu) -> legal_move g l (mv_area m) (mv_new m)).
    { intros m' Hm. apply (possible_moves_spec g l tabu m' Hsym Hwf) in Hm. tauto. }
    eapply post_bind; [apply (best_of_post' obj attr (dead_end M l0) False l (possible_moves g l tabu))|].
    { intros m' Hm. destruct (update_val l _ _ Hwf (Hpm m' Hm)) as [q [Eq _]]. rewrite Eq. exact Logic.I. }
    intros best _ Hbest.
    assert (Hall : forall a z, legal_move g l a z -> in_tabu (mkMove a (lab l a) z) tabu = false ->
                     In (mkMove a (lab l a) z) (possible_moves g l tabu)).
    { intros a z Hl Hin. apply (possible_moves_spec g l tabu _ Hsym Hwf). split; [exact Hl|]. split; [reflexivity|exact Hin]. }
    destruct best as [[[mv j] q]|].
    2:{ cbn [is_best] in Hbest. cbn [post]. split; [reflexivity|]. exists i, l. split; [lia|]. split; [auto|].
        assert (Hin : forall a z, legal_move g l a z -> in_tabu (mkMove a (lab l a) z) tabu = true).
        { intros a z Hl. destruct (in_tabu (mkMove a (lab l a) z) tabu) eqn:Et; [reflexivity|].
          specialize (Hall a z Hl Et). rewrite Hbest in Hall. destruct Hall. }
        destruct Htab as [->|[k' [w [E1 [Hd1 [Hs [_ Hw]]]]]]].
        - left. intros a z Hl. specialize (Hin a z Hl). discriminate.
        - right. exists k', w. repeat (split; [auto; fail|]). auto. }
    destruct Hbest as [Hn [Eq Hmin]]. pose proof (Hpm mv (nth_error_In _ _ Hn)) as Hl.
    destruct (update_val l _ _ Hwf Hl) as [q' [Eq' Hq]]. rewrite Eq in Eq'. injection Eq' as <-.
    destruct (try_value l mv tabu (rt_common s) q Hwf Hc Hl Eq) as [c1 [Hc1 Et]]. rewrite Et. cbn [bind]. clear Et.
    (* the change of every legal move *)
    assert (Hbest : forall a z, legal_move g l a z -> (q <= val (upd l a z) - val l)%Q \/ (0 < val (upd l a z) - val l)%Q).
    { intros a z Hlz. destruct (in_tabu (mkMove a (lab l a) z) tabu) eqn:Et.
      - right. pose proof (Htabu a z Hlz Et). lra.
      - left. destruct (update_val l a z Hwf Hlz) as [q2 [Eq2 Hq2]]. rewrite <- Hq2.
        apply (Hmin _ q2 (Hall a z Hlz Et)). exact Eq2. }
    set (o := if Qle_bool q 0 then _ else _).
    assert (Ho : exists l1 t1, o = (l1, t1, c1) /\ wf g l1 /\ (val l1 <= val l)%Q /\
      ((steep l l1 /\ exists a z, l1 = upd l a z /\ a < gn g /\ t1 = [mkMove a z (lab l a)]) \/ (opt l /\ (l1 = l \/ tie l l1)))).
    { unfold o. destruct (Qle_bool q 0) eqn:El.
      - apply Qle_bool_iff in El. destruct (legal_upd g l _ _ Hwf Hl) as [Hwf1 _]. eexists _, _. split; [reflexivity|].
        split; [auto|]. split; [lra|]. destruct (Qlt_le_dec q 0) as [Hneg|Hge].
        + left. split; [|eexists _, _; split; [reflexivity|split; [apply Hl|reflexivity]]].
          exists (mv_area mv), (mv_new mv), (val l), (val (upd l (mv_area mv) (mv_new mv))).
          split; [auto|]. split; [auto|]. split; [apply call_val, Hwf|]. split; [apply call_val, Hwf1|]. split; [lra|].
          intros b z y Hlb Ey. rewrite (call_val (upd l b z)) in Ey by (rewrite upd_length; apply Hwf). injection Ey as <-.
          destruct (Hbest b z Hlb); lra.
        + right. split; [|right; exists (mv_area mv), (mv_new mv); split; [exact Hl|split; [reflexivity|lra]]].
          intros a z x y Hlz Ex Ey. rewrite (call_val l) in Ex by apply Hwf.
          rewrite (call_val (upd l a z)) in Ey by (rewrite upd_length; apply Hwf). injection Ex as <-. injection Ey as <-.
          destruct (Hbest a z Hlz); lra.
      - assert (Hpos : (0 < q)%Q) by (apply Qle_bool_false; auto). exists l, tabu. split; [reflexivity|]. split; [auto|]. split; [lra|]. right.
        split; [|left; auto].
        intros a z x y Hlz Ex Ey. rewrite (call_val l) in Ex by apply Hwf.
        rewrite (call_val (upd l a z)) in Ey by (rewrite upd_length; apply Hwf). injection Ex as <-. injection Ey as <-.
        destruct (Hbest a z Hlz); lra. }
    destruct Ho as [l1 [t1 [-> [Hwf1 [Hv1 Hcase]]]]].
    assert (Hs1 : same_labels l1 l0).
    { assert (H : same_labels l1 l) by (clear IH; destruct Hcase as [[[a [z [x [x' [Hlz [-> _]]]]]] _]|[_ [->|[a [z [Hlz [-> _]]]]]]];
        [apply (legal_upd g l a z Hwf Hlz)|intros y; tauto|apply (legal_upd g l a z Hwf Hlz)]).
      intros y. rewrite <- (Hsl y). apply H. }
    rewrite Hvis, (visits_foreign v0 vis l0 l1 Hfor Hs1).
    assert (Hin : In l1 vis -> l1 = l /\ visits vis l1 <= 1).
    { intros Hin. unfold seen in Hseen. destruct start as [x|]; [|rewrite Hseen in Hin; destruct Hin].
      apply Qltb_lt in Eneg. assert (l1 = l) as ->. { destruct (Hseen l1 Hin) as [H|H]; [auto|exfalso; lra]. }
      split; [auto|]. destruct Hst as [k [w [_ [_ [_ [_ [[H|H] _]]]]]]]; [auto|exfalso; lra]. }
    assert (Hfew : visits vis l1 <= 1).
    { destruct (in_dec (list_eq_dec Z.eq_dec) l1 vis) as [H|H]; [apply Hin; auto|rewrite (visits_notin attr g Hattr) by auto; auto]. }
    replace (Nat.ltb k1 (visits vis l1)) with false by (symmetry; apply Nat.ltb_ge; lia).
    rewrite andb_false_r.
    apply (IH (S i) (Some (val l)) l1 t1 (vis ++ [l1])); [lia|exact Hc1|cbn [rt_visited]; apply app_assoc_reverse| |exact Hs1|
      intros w Hw; apply in_app_iff in Hw; destruct Hw as [Hw|[<-|[]]]; auto]. split.
    + cbn [seen]. intros w Hw. apply in_app_iff in Hw. destruct Hw as [Hw|[<-|[]]]; [right|left; auto].
      destruct start as [x|]; cbn [seen] in Hseen; [|rewrite Hseen in Hw; destruct Hw].
      destruct (Hseen w Hw) as [->|H]; [lra|]. apply Qltb_lt in Eneg. lra.
    + exists i, l. split; [auto|]. split; [auto|]. split; [auto|]. split; [auto|]. split; [|split; [|exact Hcase]].
      * rewrite visits_snoc. destruct (list_eq_dec Z.eq_dec l1 l1) as [_|n]; [|exfalso; apply n; reflexivity].
        destruct (in_dec (list_eq_dec Z.eq_dec) l1 vis) as [H|H].
        -- right. apply Hin in H. destruct H as [-> _]. lra.
        -- left. rewrite (visits_notin attr g Hattr) by auto. lia.
      * exists vis. split; [auto|]. destruct start as [x|].
        -- destruct Hst as [k [w [-> [_ [_ [_ [_ [[v [Hv _]] _]]]]]]]]. eauto.
        -- destruct Hst as [-> [_ [_ ->]]]. auto.
Qed.

Definition descended (M : nat) (l0 labels : list Z) : Prop :=
  (exists k, desc k l0 labels /\ k <= max 1 (M - 1) /\ (opt labels \/ k = max 1 (M - 1))) \/
  (opt l0 /\ tie l0 labels).

Lemma one_region_moves l a z : wf g l -> length (uniqueZ l) = 1 -> ~ legal_move g l a z.
Proof.
  intros Hwf E Hl. pose proof (legal_In g l a z Hl) as Hz. destruct Hl as [_ [D [HD [Hne _]]]].
  apply nth_error_In in HD. apply uniqueZ_In in HD. apply uniqueZ_In in Hz.
  destruct (uniqueZ l) as [|x [|y t]]; cbn in E; try lia. destruct HD as [HD|[]], Hz as [Hz|[]]. congruence.
Qed.

Lemma reactive_component_islands maxit k1 k2 v0 l0 s r : wf g l0 -> c_ok obj attr (rt_common s) ->
  rt_visited s = v0 -> foreign v0 l0 -> 1 <= k1 -> 1 <= maxit ->
  length (uniqueZ l0) = 1 \/ v0 = [] \/ (2 <= maxit /\ ~ opt l0) ->
  post (dead_end maxit l0) False (reactive_component obj g maxit k1 k2 l0 attr s r)
    (fun '(l', s', _) => wf g l' /\ descended maxit l0 l' /\
       (length (uniqueZ l0) = 1 -> l' = l0 /\ rt_visited s' = v0) /\
       forall w, In w (rt_visited s') -> In w v0 \/ same_labels w l0).
Proof.
  intros Hwf Hc Hvis Hfor Hk Hm Hor. unfold reactive_component. destruct (Nat.eqb_spec (length (uniqueZ l0)) 1) as [E|E].
  { cbn [post]. split; [auto|]. split; [|split; [auto|rewrite Hvis; auto]]. left. exists 0. split; [constructor|]. split; [lia|]. left.
    intros a z x y Hl. destruct (one_region_moves l0 a z Hwf E Hl). }
  eapply post_bind; [apply (reactive_loop_descent v0 l0 maxit k1 k2 Hwf Hfor Hk maxit 0) with (vis := [])|].
  { reflexivity. }
  { auto. }
  { rewrite app_nil_r. auto. }
  { split; cbn [seen]; auto. }
  { intros z; tauto. }
  { intros w []. }
  intros [[[l' s'] ls] r'] _ [-> [i [start [tabu [vis [Evis [[_ Ha] [Hsv [Hi Hend]]]]]]]]]. cbn [reactive_result].
  assert (Hnames : forall w, In w (rt_visited s') -> In w v0 \/ same_labels w l0).
  { intros w Hw. rewrite Evis in Hw. apply in_app_iff in Hw. destruct Hw; auto. }
  destruct start as [x|].
  2:{ exfalso. destruct Ha as [-> _]. destruct Hend as [Hend|[x [Hx _]]]; [lia|discriminate]. }
  destruct Ha as [k [w [-> [Hd [-> [Hwl [_ [[v [Ev Hv]] Hcase]]]]]]]].
  assert (Hopt : S k = maxit \/ opt w).
  { destruct Hend as [->|[x [Hx Hle]]]; [auto|]. injection Hx as <-.
    destruct Hcase as [[[a [z [x [x' [Hl [El [Ex [Ex' [Hlt _]]]]]]]]] _]|[Ho _]]; [|auto]. exfalso.
    unfold value in Hle. rewrite Ex, Ex' in Hle. lra. }
  rewrite Evis, Ev, app_assoc, rev_app_distr. cbn [rev app].
  destruct k as [|k].
  - subst v. rewrite app_nil_r. inversion Hd; subst.
    assert (Ev0 : rt_visited s = []).
    { destruct Hor as [H|[H|[H2 Hno]]]; [congruence|auto|exfalso]. destruct Hopt as [H|H]; [lia|auto]. }
    rewrite Ev0. cbn [rev bind post]. split; [auto|].
    split; [|split; [intros; congruence|rewrite <- Ev0; auto]].
    destruct Hcase as [[Hs _]|[Ho [->|Ht]]].
    + left. exists 1. split; [apply desc_one; auto|]. destruct Hopt as [<-|Ho]; [cbn; auto|].
      exfalso. destruct Hs as [a [z [x [x' [Hl [El [Ex [Ex' [Hlt _]]]]]]]]]. subst l'.
      specialize (Ho a z x x' Hl Ex Ex'). lra.
    + left. exists 0. split; [constructor|]. split; [lia|auto].
    + right. auto.
  - destruct Hv as [v' ->]. rewrite app_assoc, rev_app_distr. cbn [rev app bind post].
    split; [apply (desc_wf (S k) l0 w); auto|]. split; [|split; [intros; congruence|auto]]. left. exists (S k). split; [auto|].
    split; [lia|]. destruct Hopt as [<-|Ho]; [right; lia|left; auto].
Qed.

Lemma reactive_component_descent maxit k1 k2 l0 s r : wf g l0 -> c_ok obj attr (rt_common s) ->
  rt_visited s = [] -> 1 <= k1 -> 1 <= maxit ->
  post (dead_end maxit l0) False (reactive_component obj g maxit k1 k2 l0 attr s r)
    (fun '(l', _, _) => wf g l' /\ descended maxit l0 l').
Proof.
  intros Hwf Hc Hvis Hk Hm.
  eapply (post_weaken (dead_end maxit l0) (dead_end maxit l0) False False); [auto|auto| |
    apply (reactive_component_islands maxit k1 k2 [] l0 s r); auto; intros w []].
  intros [[l' s'] r'] _ [H1 [H2 _]]. auto.
Qed.
End Comp.

(** ** fit on a connected graph *)
Section Whole.
Variable g : graph.
Variable attr : list (list Q).
Hypothesis Hattr : length attr = gn g.
Hypothesis Hone : n_components g = 1.

Lemma whole_nodes : comp_nodes g 0 = seq 0 (gn g).
Proof.
  unfold comp_nodes. apply filter_all. intros a Ha. apply in_seq in Ha. apply Nat.eqb_eq.
  pose proof (comp_label_lt g a ltac:(lia)). lia.
Qed.
Lemma whole_part l : length l = gn g -> comp_part g l 0 = l.
Proof. intros Hl. unfold comp_part, gather. rewrite whole_nodes, <- Hl. apply map_nth_seq. Qed.
Lemma whole_attr : attr_c attr g 0 = attr.
Proof. unfold attr_c, row. rewrite whole_nodes, <- Hattr. apply map_nth_seq. Qed.
Lemma whole_legal l a z : wf g l -> (legal_move (comp_graph g 0) l a z <-> legal_move g l a z).
Proof.
  intros Hwf. pose proof (whole_part l (proj1 Hwf)) as Hp.
  assert (Hn : a < gn g -> nth_error (comp_nodes g 0) a = Some a).
  { intros Ha. rewrite whole_nodes. rewrite (nth_error_nth' _ 0) by (rewrite seq_length; auto). rewrite seq_nth by auto. reflexivity. }
  split; intros Hl.
  - assert (Ha : a < gn g).
    { destruct Hl as [Hl _]. rewrite comp_graph_n, whole_nodes, seq_length in Hl. auto. }
    apply (legal_of_comp g l 0 a a z Hwf (Hn Ha)). rewrite Hp. exact Hl.
  - rewrite <- Hp at 1. apply (legal_to_comp g l 0 a a z Hwf); auto. apply Hn, Hl.
Qed.

Variable O : objfun.
Lemma whole_steepest l l' : wf g l -> (steepest O attr (comp_graph g 0) l l' <-> steepest O attr g l l').
Proof.
  intros Hwf. split; intros [a [z [x [x' [Hl [-> [Ex [Ex' [Hlt Hmin]]]]]]]]]; exists a, z, x, x'; repeat (split; [auto; fail|]);
    (split; [apply whole_legal; auto|]); repeat (split; [auto; fail|]); intros b y q Hb; apply (whole_legal l b y Hwf) in Hb; eauto.
Qed.
Lemma whole_descent k l l' : wf g l -> descent O attr (comp_graph g 0) k l l' -> descent O attr g k l l'.
Proof.
  intros Hwf H. revert Hwf. induction H as [l|k l l1 l2 H IH Hs]; intros Hwf; [constructor|].
  econstructor; [apply IH; auto|]. apply whole_steepest; auto. apply (desc_wf O attr g k l l1); auto.
Qed.
Lemma whole_optimum l : wf g l -> local_optimum O attr (comp_graph g 0) l -> local_optimum O attr g l.
Proof. intros Hwf H a z x y Hl. apply H, whole_legal; auto. Qed.
End Whole.

Section Fit.
Variable O : objfun.
Variable attr : list (list Q).
Variable g : graph.
Hypothesis Hsym : symmetric g.
Hypothesis Hattr : length attr = gn g.
Variable order : list edge -> list edge.
Hypothesis Hord : forall l, Permutation (order l) l.
Hypothesis Hone : n_components g = 1.
Hypothesis Hex : exact_on O attr.

Lemma whole_descended M l0 labels : wf g l0 -> descended O attr (comp_graph g 0) M l0 labels -> descended O attr g M l0 labels.
Proof.
  intros Hwf [[k [Hd [Hk Ho]]]|[Ho [a [z [Hl [-> Hv]]]]]].
  - pose proof (whole_descent g attr Hattr Hone O k l0 labels Hwf Hd) as Hd'. left. exists k. split; [auto|]. split; [auto|].
    destruct Ho as [Ho|Ho]; [left|right; auto]. apply (whole_optimum g attr Hattr Hone); auto. eapply desc_wf; eauto.
  - right. split; [apply (whole_optimum g attr Hattr Hone); auto|]. exists a, z. split; [apply (whole_legal g attr Hattr Hone); auto|auto].
Qed.

Theorem reactive_fit_descent maxit k1 k2 p initial s r :
  good_input g p initial -> fresh_reactive s -> 1 <= k1 -> 1 <= maxit ->
  post (fun e => forall l, initial = Some l -> dead_end O attr g maxit l e) False
    (reactive_fit order O maxit k1 k2 g attr p initial s r)
    (fun '((labels, _), _) => exists labels0, started_from g p initial labels0 /\ descended O attr g maxit labels0 labels).
Proof.
  intros Hgood Hfresh Hk Hm. unfold reactive_fit.
  set (E := fun e => forall l, initial = Some l -> dead_end O attr g maxit l e).
  eapply (post_weaken E E False False); [auto|auto| |
    apply (fit_post_from reactive _ _ order g attr E False (fun j s => j = 0 -> fresh_reactive s)
      (fun c l0 l' => wf (comp_graph g c) l' /\ descended O (attr_c attr g c) (comp_graph g c) maxit l0 l')
      (fun c lc => forall l, initial = Some l -> lc = comp_part g l c))]; auto.
  - intros [[labels s'] r'] _ [_ [l0 [Hst [Hlen HR]]]]. exists l0. split; [auto|].
    destruct (HR 0 ltac:(lia)) as [_ HR0]. pose proof Hst as [[Hl0 [_ Hall0]] _].
    rewrite !(whole_part g attr Hattr Hone), (whole_attr g attr Hattr Hone) in HR0 by auto.
    apply whole_descended; auto. split; auto.
  - intros c lc s0 rg j Hc Hj Hwfc HA HJ. unfold run_component. fold (attr_c attr g c). unfold start_common.
    assert (Hf : fresh_reactive s0) by (apply HJ; lia). destruct Hf as [Hvis Havg].
    pose proof (attr_c_exact O attr Hex g Hattr c) as Hexc. pose proof (attr_c_length attr g c) as Hla.
    destruct (proj1 Hexc lc) as [x Ex]; [rewrite Hla; apply Hwfc|]. rewrite Ex. cbn [bind].
    set (s1 := mkReactive _ _ _ _).
    assert (Hc1 : c_ok O (attr_c attr g c) (rt_common s1)) by (split; reflexivity).
    eapply (post_weaken (dead_end O (attr_c attr g c) (comp_graph g c) maxit lc) E False False); [|auto| |
      apply (reactive_component_descent O (attr_c attr g c) (comp_graph g c) (comp_symmetric g c Hsym) Hla Hexc); auto].
    + intros e [He [k [l [Hkm [Hd Hback]]]]] l0 Hi. split; [auto|]. specialize (HA l0 Hi). subst lc.
      assert (c = 0) as -> by lia. rewrite Hi in Hgood. destruct Hgood as [[Hl0 [_ Hall0]] _].
      rewrite (whole_part g attr Hattr Hone), (whole_attr g attr Hattr Hone) in * by auto.
      assert (Hwf0 : wf g l0) by (split; auto).
      pose proof (whole_descent g attr Hattr Hone O k l0 l Hwf0 Hd) as Hd'.
      exists k, l. split; [auto|]. split; [auto|].
      assert (Hwl : wf g l) by (apply (desc_wf O attr g k l0 l); auto).
      destruct Hback as [Hno|[k' [w [-> [Hd2 [Hs Hw]]]]]].
      * left. intros a z Hl. apply (Hno a z), (whole_legal g attr Hattr Hone); auto.
      * pose proof (whole_descent g attr Hattr Hone O k' l0 w Hwf0 Hd2) as Hd3.
        right. exists k', w. split; [auto|]. split; [auto|]. split.
        -- apply (whole_steepest g attr Hattr Hone); auto. apply (desc_wf O attr g k' l0 w); auto.
        -- intros a z Hl. apply Hw, (whole_legal g attr Hattr Hone); auto.
    + intros [[l' s'] r'] _ [Hwf' Hd]. split; [discriminate|]. split; [destruct Hwfc, Hwf'; lia|auto].
  - destruct initial as [l|]; cbn; intros; [congruence|discriminate].
Qed.
End Fit.
