(** AZPBasicTabu with rounding: no region disappears. *)
From Coq Require Import Qabs.
From Verif Require Import Base Spec SpecStep M_Graph P_Graph M_Util P_Base P_Util P_Forest P_Init P_Initial
  M_Objective P_Sum P_Objective M_Azp P_Azp P_Strategy P_Fit P_AzpFit M_Sa M_Tabu P_Tabu P_TabuFit M_MaxP P_TwoRuns M_TabuWith P_TabuWith P_Reactive
  M_Float P_Float P_FloatErr M_FloatMaxP M_FloatTabu P_FloatTabu3.

(** ** the value that is added up does not matter *)
Section Blind.
Variables B A : arith.
Variable obj : objfun.
Variable attr : list (list Q).
Variable g : graph.
Notation call := (fstrat_call B A).
Notation okc c := (c_ok obj attr c).

Lemma blind_call c c' a z l r : okc c -> okc c' ->
  rel (fun '(b, s1, r1) '(b', c1) => b = b' /\ r1 = r /\ exists c2, s1 = FAzp c2 /\ okc c2 /\ okc c1) (call (FAzp c) a z l r) (azp_call c' a z l).
Proof.
  intros [H1 H2] Hc'. rewrite (azp_call_eq obj attr c' a z l Hc'). cbn [fstrat_call]. unfold fcall. rewrite H1, H2.
  destruct (o_update obj a z l attr) as [q|e|]; cbn [bind rel]; auto. destruct (Qle_bool q 0); cbn [bind rel]; (split; [auto|]; split; [auto|]);
    eexists; (split; [reflexivity|]); split; try (split; auto); auto; apply Hc'.
Qed.
Lemma blind_try maxlen m l tabu c c' r : okc c -> okc c' ->
  rel (fun '(l1, t1, s1, r1) '(l2, t2, c1) => l1 = l2 /\ t1 = t2 /\ r1 = r /\ exists c2, s1 = FAzp c2 /\ okc c2 /\ okc c1)
    (try_move_with fstrategy call g maxlen m l tabu (FAzp c) r) (try_move g maxlen m l tabu c').
Proof.
  intros Hc Hc'. unfold try_move_with, try_move. eapply rel_bind; [apply (blind_call c c' _ _ l r Hc Hc')|].
  intros [[b s1] r1] [b' c1] _ _ [<- [-> [c2 [-> [H1 H2]]]]]. destruct b; [|cbn [rel]; eauto 8].
  destruct (make_move_tabu g maxlen (mv_area m) (mv_new m) l tabu) as [[[l' t'] b]|e|]; cbn [bind rel]; eauto 8.
Qed.
Definition blind_rel : list Z * fstrategy * rng -> list Z * common * rng -> Prop :=
  fun '(l1, s1, r1) '(l2, c1, r2) => l1 = l2 /\ r1 = r2 /\ exists c2, s1 = FAzp c2 /\ okc c2 /\ okc c1.
Lemma blind_loop maxlen reps : forall fuel stop visited l tabu c c' r, okc c -> okc c' ->
  rel blind_rel (basic_loop_with fstrategy call obj g fuel maxlen reps attr stop visited l tabu (FAzp c) r)
    (basic_loop obj g fuel maxlen reps attr stop visited l tabu c' r).
Proof.
  induction fuel as [|fuel IH]; intros stop visited l tabu c c' r Hc Hc'; [exact Logic.I|].
  cbn [basic_loop_with basic_loop]. cbv zeta.
  destruct (best_of obj attr l 0 (possible_moves g l tabu) None) as [best|e|]; cbn [bind rel]; auto.
  set (stop' := stop || Nat.leb reps (visits visited l)).
  eapply rel_bind with (R := fun '(m1, l1, t1, s1, r1) '(m2, l2, t2, c1) => m1 = m2 /\ l1 = l2 /\ t1 = t2 /\ r1 = r /\ exists c2, s1 = FAzp c2 /\ okc c2 /\ okc c1).
  { destruct best as [[[m i] q]|]; [|cbn; eauto 10]. destruct (Qle_bool q 0); [|cbn; eauto 10].
    eapply rel_bind; [apply (blind_call c c' _ _ l r Hc Hc')|].
    intros [[b s1] r1] [b' c1] _ _ [<- [-> [c2 [-> [H1 H2]]]]]. destruct b; [|cbn [rel]; eauto 10].
    destruct (make_move_tabu g maxlen (mv_area m) (mv_new m) l tabu) as [[[l' t'] b]|e|]; cbn [bind rel]; eauto 10. }
  intros [[[[m1 l1] t1] s1] r1] [[[m2 l2] t2] c1] _ _ [<- [<- [<- [-> [c2 [-> [H1 H2]]]]]]].
  destruct m1; [apply IH; auto|].
  destruct (improving_tabus obj attr l1 t1) as [its|e|]; cbn [bind rel]; auto.
  eapply rel_bind with (R := fun '(l3, t3, s3, r3) '(l4, t4, c4, r4) => l3 = l4 /\ t3 = t4 /\ r3 = r4 /\ exists c5, s3 = FAzp c5 /\ okc c5 /\ okc c4).
  { destruct its as [|m its]; [cbn; eauto 10|]. destruct (random_element_from (m :: its) r) as [[m' r']|e|]; cbn [bind rel]; auto.
    pose proof (blind_try maxlen m' l1 t1 c2 c1 r' H1 H2) as Hp.
    destruct (try_move_with fstrategy call g maxlen m' l1 t1 (FAzp c2) r') as [[[[l3 t3] s3] r3]|e|],
      (try_move g maxlen m' l1 t1 c1) as [[[l4 t4] c4]|e'|]; cbn [bind rel] in *; auto; try contradiction. }
  intros [[[l3 t3] s3] r3] [[[l4 t4] c4] r4] _ _ [<- [<- [<- [c5 [-> [H3 H4]]]]]].
  destruct stop'; [cbn; eauto 10|].
  destruct best as [[[m i] q]|]; [|cbn [bind]; apply IH; auto].
  pose proof (blind_try maxlen m l3 t3 c5 c4 r3 H3 H4) as Hp.
  destruct (try_move_with fstrategy call g maxlen m l3 t3 (FAzp c5) r3) as [[[[l6 t6] s6] r6]|e|],
    (try_move g maxlen m l3 t3 c4) as [[[l7 t7] c7]|e'|]; cbn [bind rel] in *; auto; try contradiction.
  destruct Hp as [<- [<- [-> [c8 [-> [H5 H6]]]]]]. apply IH; auto.
Qed.
Lemma blind_component maxlen reps fuel l c c' r : okc c -> okc c' ->
  rel blind_rel (basic_component_with fstrategy call obj g fuel maxlen reps l attr (FAzp c) r) (basic_component obj g fuel maxlen reps l attr c' r).
Proof.
  intros Hc Hc'. unfold basic_component_with, basic_component. destruct (Nat.eqb _ 1); [cbn; eauto 10|]. apply blind_loop; auto.
Qed.
End Blind.

(** ** what the sign of the computed change says about regions of one area *)
Section Lone.
Variable A : arith.
Variable V : Q -> Prop.
Variables u M : Q.
Hypothesis Hu : (0 <= u)%Q.
Hypothesis Hu1 : (u < 1)%Q.
Hypothesis V0 : V 0%Q.
Hypothesis Vabs : forall q, V q -> V (Qabs q).
Hypothesis Hadd : rounds_within V u M (ar_add A) Qplus.
Hypothesis Hsub : rounds_within V u M (ar_sub A) Qminus.
Variable enum : list Z -> list Z.
Variable attr : list (list Q).
Variables k N : nat.
Hypothesis HV : forall x q, In x attr -> In q x -> V q.
Hypothesis Hk : forall x, In x attr -> length x <= k.
Hypothesis HN : length attr + k + 1 <= N.
Hypothesis HM : (qpow (1 + u) N * psum (dist manhattan attr) (seq 0 (length attr)) <= M)%Q.
Notation tn := (P_TabuFit.near manhattan attr).
Notation FO := (fpairwise A enum).

Lemma lone_facts l a r q : length l = length attr -> a < length l -> o_update FO a r l attr = Ok q ->
  In r l /\ ((tn l a (lab l a) == 0)%Q -> (q <= 0)%Q -> (tn l a r <= 0)%Q) /\ ((tn l a (lab l a) == 0)%Q -> ~ (q < 0)%Q) /\
  ((tn l a r <= 0)%Q -> (q <= 0)%Q) /\ (r = lab l a -> ~ (q < 0)%Q).
Proof.
  intros Hl Ha E. cbn [o_update fpairwise] in E. unfold fpairwise_update in E.
  apply bind_Ok in E. destruct E as [ds [Ed E]]. apply bind_Ok in E. destruct E as [rs [Er E]]. injection E as <-.
  apply metric_to_point_inv in Ed. apply metric_to_point_inv in Er. destruct Ed as [-> _], Er as [-> Hne].
  split; [apply (rows_of_nonempty l r attr); exact Hne|].
  pose proof (region_near A V u M Hu Hu1 V0 Vabs Hadd Hsub attr k N HV Hk HN HM l a r Hl ltac:(lia)) as Hr.
  pose proof (region_near A V u M Hu Hu1 V0 Vabs Hadd Hsub attr k N HV Hk HN HM l a (lab l a) Hl ltac:(lia)) as Hd.
  cbv zeta in Hr, Hd. rewrite <- Hl in Hr, Hd.
  change (sumQ (map (fun b => if Z.eqb r (lab l b) then dist manhattan attr a b else 0%Q) (others (length l) a))) with (tn l a r) in Hr.
  change (sumQ (map (fun b => if Z.eqb (lab l a) (lab l b) then dist manhattan attr a b else 0%Q) (others (length l) a))) with (tn l a (lab l a)) in Hd.
  set (x := fsum A (map (fun y => fmanhattan A y (row attr a)) (rows_of l r attr))) in *.
  set (y := fsum A (map (fun y => fmanhattan A y (row attr a)) (rows_of l (lab l a) attr))) in *.
  assert (Exy : r = lab l a -> x = y) by (intros ->; reflexivity). clearbody x y.
  set (nr := tn l a r) in *. set (nd := tn l a (lab l a)) in *. clearbody nr nd.
  destruct Hr as [Vx [Hnr [[X1 X2] X3]]]. destruct Hd as [Vy [Hnd [[Y1 Y2] Y3]]].
  assert (Hlo : (0 < qpow (1 - u) N)%Q) by (apply qpow_pos; lra).
  assert (Hup : (0 < qpow (1 + u) N)%Q) by (apply qpow_pos; lra).
  assert (Lx : (0 <= qpow (1 - u) N * nr)%Q) by (apply Qmult_le_0_compat; lra).
  assert (Ly : (0 <= qpow (1 - u) N * nd)%Q) by (apply Qmult_le_0_compat; lra).
  assert (Bx : (0 <= x <= M)%Q) by lra. assert (By : (0 <= y <= M)%Q) by lra.
  pose proof (sub_sign A V u M Hu1 Hsub x y Vx Vy Bx By) as Hs.
  assert (Hzero : (x == y)%Q -> (ar_sub A x y == 0)%Q).
  { intros Eq. destruct (Hsub x y Vx Vy) as [_ H]; [apply Qabs_Qle_condition; lra|].
    rewrite (Qabs_wd (x - y) 0) in H by lra. change (Qabs 0) with 0%Q in H. apply Qabs_Qle_condition in H. lra. }
  assert (Zx : (nr <= 0)%Q -> (x == 0)%Q).
  { intros H. assert (E0 : (nr == 0)%Q) by lra. rewrite E0 in X1, X2. lra. }
  assert (Zy : (nd == 0)%Q -> (y == 0)%Q).
  { intros H. rewrite H in Y1, Y2. lra. }
  split; [|split; [|split]].
  - intros H0 Hq. apply Hs in Hq. specialize (Zy H0). destruct (Qlt_le_dec 0 nr) as [H|H]; [|lra].
    assert (0 < qpow (1 - u) N * nr)%Q by (apply Qmult_lt_0_compat; lra). lra.
  - intros H0 Hq. specialize (Zy H0). assert (Hq' : (ar_sub A x y <= 0)%Q) by lra. apply Hs in Hq'.
    assert (E0 : (x == y)%Q) by lra. apply Hzero in E0. lra.
  - intros H0. apply Hs. specialize (Zx H0). lra.
  - intros E0 Hq. specialize (Exy E0). assert (E1 : (x == y)%Q) by (rewrite Exy; reflexivity). apply Hzero in E1. lra.
Qed.

Lemma flone l a r q : length l = length attr -> a < length l -> o_update FO a r l attr = Ok q -> (q < 0)%Q -> In (lab l a) (upd l a r).
Proof.
  intros Hl Ha E Hq. apply mate_stays. destruct (mate_dec l a) as [H|H]; [auto|exfalso].
  destruct (lone_facts l a r q Hl Ha E) as [_ [_ [H2 _]]]. apply H2; [|exact Hq]. apply near_lone. exact H.
Qed.
Lemma fstale l x e a r q1 q2 : length l = length attr -> x < length l -> a < length l -> a <> x -> lab l a <> r ->
  (exists b, b < length l /\ b <> a /\ lab l b = lab l a) ->
  o_update FO a r l attr = Ok q1 -> (0 < q1)%Q -> o_update FO a r (upd l x e) attr = Ok q2 -> (q2 <= 0)%Q ->
  In (lab (upd l x e) a) (upd (upd l x e) a r).
Proof.
  intros Hl Hx Ha Hax Hne [b [Hb [Hba Eb]]] E1 Hq1 E2 Hq2. apply mate_stays.
  destruct (mate_dec (upd l x e) a) as [H|H]; [auto|exfalso].
  destruct (lone_facts l a r q1 Hl Ha E1) as [_ [_ [_ [F1 _]]]].
  destruct (lone_facts (upd l x e) a r q2 ltac:(rewrite upd_length; auto) ltac:(rewrite upd_length; auto) E2) as [_ [F2 _]].
  specialize (F2 (near_lone manhattan attr (upd l x e) a _ H) Hq2).
  assert (Hbx : b = x).
  { destruct (Nat.eq_dec b x) as [Hbx|Hbx]; [auto|exfalso]. apply (H b); [rewrite upd_length; auto|auto|].
    rewrite !lab_upd_ne by auto. auto. }
  subst b.
  assert (Hle : (tn l a r <= tn (upd l x e) a r)%Q).
  { unfold P_TabuFit.near. rewrite upd_length. apply sumQ_le. intros b Hb'. destruct (Nat.eq_dec b x) as [->|Hbx].
    - rewrite Eb. destruct (Z.eqb_spec r (lab l a)) as [E|_]; [congruence|]. destruct (Z.eqb _ _); [apply manhattan_nonneg|lra].
    - rewrite lab_upd_ne by auto. lra. }
  assert (q1 <= 0)%Q by (apply F1; lra). lra.
Qed.

Variable g : graph.
Hypothesis Hattr : length attr = gn g.
Theorem fbasic_keep maxlen reps fuel labels0 c r : wf g labels0 -> c_ok FO attr c ->
  post anyexn True (basic_component FO g fuel maxlen reps labels0 attr c r) (fun '(l', _, _) => same_labels l' labels0).
Proof.
  intros Hwf Hc. unfold basic_component. destruct (Nat.eqb _ 1); [cbn [post]; intros z; tauto|].
  assert (Hstep : forall l a z, length l = gn g -> same_labels l labels0 -> a < gn g -> In z l -> In (lab l a) (upd l a z) -> same_labels (upd l a z) labels0).
  { intros l a z Hl HI Ha Hz Hd y. rewrite <- (HI y). apply upd_same_set; auto. lia. }
  eapply (post_weaken anyexn anyexn True True); [auto|auto| |
    apply (basic_loop_post FO attr g anyexn True (fun l => same_labels l labels0) (any_T g labels0)) with (M1 := fun _ => 0) (M2 := fun _ _ => 0) (B := 0)]; auto.
  - intros [[l' c'] r'] _ [_ [H _]]. exact H.
  - intros m [H _]. auto.
  - intros l a z [Hl _] HI Ha. split; [auto|]. cbn. apply HI, nth_In. lia.
  - intros. apply anyexn_post.
  - intros. apply anyexn_post.
  - intros l a z q [Hl _] HI Hlm Eq Hq. apply Hstep; auto; [eapply legal_lt; eauto|eapply legal_In; eauto|apply (legal_keep attr g Hattr); auto].
  - intros l m q [Hl _] HI [Ha Hn] _ Eq Hq _. apply Hstep; auto; [apply HI; auto|]. apply flone with (q := q); auto; lia.
  - intros. apply anyexn_post.
  - intros l m a z q q1 q2 [Hl _] HI [Hx Hn] _ Eq Hq [Hl2 _] HI2 Hlm Eq1 Hq1 Eq2 Hq2 _.
    assert (Ha : a < gn g) by (eapply legal_lt; eauto). destruct (legal_keep attr g Hattr l a z Hl Hlm) as [Hd [Hne [b0 [Hb0 Hmate]]]].
    apply Hstep; auto; [apply HI2, HI; eapply legal_In; eauto|].
    destruct (Nat.eq_dec a (mv_area m)) as [->|Hax].
    + rewrite lab_upd_eq by lia. rewrite upd_upd.
      assert (Hn' : In (mv_new m) l) by (apply HI; auto). apply In_nth_error in Hn'. destruct Hn' as [b Hb].
      destruct (Nat.eq_dec b (mv_area m)) as [->|Hba].
      * exfalso. destruct (lone_facts l (mv_area m) (mv_new m) q ltac:(lia) ltac:(lia) Eq) as [_ [_ [_ [_ H]]]].
        apply H; [|exact Hq]. symmetry. apply lab_of_nth_error; auto.
      * apply nth_error_In with (n := b). rewrite nth_error_upd_ne by auto. exact Hb.
    + apply fstale with (q1 := q1) (q2 := q2); auto; try lia. exists b0. rewrite Hl. auto.
  - intros z; tauto.
  - intros m [].
Qed.
End Lone.

(** ** AZPReactiveTabu with k1 >= 1: no solution comes up a third time, whatever the objective computes *)
Section Once.
Variable St : Type.
Variable call : St -> nat -> Z -> list Z -> rng -> out (bool * St * rng).
Variable obj : objfun.
Variable attr : list (list Q).
Variable g : graph.
Variable labels0 : list Z.
Definition kept (l : list Z) : Prop := wf g l /\ same_labels l labels0.

Lemma try_kept m l tabu s r : kept l -> legal_move g l (mv_area m) (mv_new m) ->
  post anyexn True (try_move_with St call g (Some 1) m l tabu s r) (fun '(l', _, _, _) => kept l').
Proof.
  intros Hk Hm. unfold try_move_with. destruct (call s (mv_area m) (mv_new m) l r) as [[[b s1] r1]|e|]; cbn [bind post]; auto; try exact Logic.I.
  destruct b; [|exact Hk]. destruct Hk as [Hwf Hs].
  destruct (make_move_tabu_spec g (Some 1) (mv_area m) (mv_new m) l tabu (proj1 Hwf) (proj1 Hm)) as [b [-> _]]. cbn [bind post].
  destruct b; [|split; auto]. destruct (legal_upd g l _ _ Hwf Hm) as [H1 H2]. split; [exact H1|]. intros z. rewrite (H2 z). apply Hs.
Qed.
(** all visited solutions but the last, which is the present one, differ and were no better than the last bound *)
Definition lately (start : option Q) (l : list Z) (visited : list (list Z)) : Prop :=
  match start with
  | None => visited = []
  | Some x => exists before, visited = before ++ [l] /\ NoDup before /\ forall w, In w before -> exists y, o_call obj w attr = Ok y /\ (x <= y)%Q
  end.
Lemma visits_once visited l : NoDup visited -> visits visited l <= 1.
Proof.
  unfold visits. induction 1 as [|w t Hw Ht IH]; [cbn; lia|]. cbn [filter]. destruct (list_eq_dec Z.eq_dec w l) as [->|_]; [|exact IH].
  cbn [length]. rewrite (proj2 (length_zero_iff_nil _)); [lia|]. clear IH Ht. induction t as [|w t IH]; [reflexivity|]. cbn [filter].
  destruct (list_eq_dec Z.eq_dec w l) as [->|_]; [exfalso; apply Hw; left; auto|]. apply IH. intros H. apply Hw. right. exact H.
Qed.
Lemma reactive_once k1 k2 : 1 <= k1 -> forall maxit start l tabu s r, kept l -> (forall w, In w (rw_visited s) -> kept w) -> lately start l (rw_visited s) ->
  post anyexn True (reactive_loop_with St call obj g maxit k1 k2 attr start Step10 l tabu s r)
    (fun '(_, s', ls', _) => (forall w, In w (rw_visited s') -> kept w) /\ ls' = Step10).
Proof.
  intros Hk1. induction maxit as [|maxit IH]; intros start l tabu s r Hl Hvis Hlate; cbn [reactive_loop_with]; [cbn [post]; auto|].
  eapply post_bind; [apply anyexn_post|]. intros v Ev _. destruct (negb _) eqn:Eneg; [cbn [post]; auto|]. apply negb_false_iff in Eneg.
  eapply post_bind; [apply (best_of_any obj attr)|]. intros best _ Hbest. destruct best as [[[m i] q]|]; [|exact Logic.I].
  destruct Hbest as [Hn _]. apply nth_error_In in Hn. apply possible_moves_sound in Hn; [|apply Hl]. destruct Hn as [Hm _].
  eapply post_bind; [apply try_kept; auto|]. intros [[[l1 t1] s1] r1] _ Hl1.
  assert (Hnd : NoDup (rw_visited s) /\ forall w, In w (rw_visited s) -> exists y, o_call obj w attr = Ok y /\ (v <= y)%Q).
  { destruct start as [x|]; cbn [lately] in Hlate; [|rewrite Hlate; split; [constructor|intros w []]].
    apply Qltb_lt in Eneg. destruct Hlate as [before [-> [Hb Hw]]]. split.
    - apply NoDup_Add with (a := l) (l := before); [|split; [exact Hb|]].
      + rewrite <- (app_nil_r before) at 1. apply Add_app.
      + intros Hin. destruct (Hw l Hin) as [y [Ey Hy]]. rewrite Ev in Ey. injection Ey as <-. lra.
    - intros w Hin. apply in_app_iff in Hin. destruct Hin as [Hin|[<-|[]]]; [|exists v; split; [exact Ev|lra]].
      destruct (Hw w Hin) as [y [Ey Hy]]. exists y. split; [exact Ey|lra]. }
  destruct Hnd as [Hnd Hge]. pose proof (visits_once (rw_visited s) l1 Hnd) as Hone.
  assert (E : Nat.ltb k1 (visits (rw_visited s) l1) = false) by (apply Nat.ltb_ge; lia).
  rewrite E, andb_false_r. apply IH; cbn [rw_visited]; auto.
  - intros w Hw. apply in_app_iff in Hw. destruct Hw as [Hw|[<-|[]]]; auto.
  - exists (rw_visited s). auto.
Qed.
Lemma reactive_component_once maxit k1 k2 s r : 1 <= k1 -> wf g labels0 -> rw_visited s = [] ->
  post anyexn True (reactive_component_with St call obj g maxit k1 k2 labels0 attr s r) (fun '(l', _, _) => kept l').
Proof.
  intros Hk1 Hwf Ev. assert (H0 : kept labels0) by (split; [auto|intros z; tauto]).
  unfold reactive_component_with. destruct (Nat.eqb _ 1); [exact H0|].
  eapply post_bind; [apply reactive_once; auto; rewrite Ev; intros w []|].
  intros [[[l' s'] ls] r'] _ [Hvis ->]. unfold reactive_result.
  assert (Hrev : forall w, In w (rev (rw_visited s')) -> kept w) by (intros w Hw; apply Hvis, in_rev; auto).
  destruct (rev (rw_visited s')) as [|w1 [|w2 t]]; cbn [bind post]; [exact Logic.I| |]; apply Hrev; cbn; auto.
Qed.
End Once.
Theorem reactive_once_fit B A order obj (Hord : forall l, Permutation (order l) l) g attr maxit k1 k2 p initial s r :
  1 <= k1 -> n_components g = 1 -> good_input g p initial -> rw_visited s = [] ->
  post anyexn True (freactive_fit B A order obj maxit k1 k2 g attr p initial s r)
    (fun '((labels, _), _) => exists labels0, started_from g p initial labels0 /\ length labels = gn g /\
       forall c, c < n_components g -> kept (comp_graph g c) (comp_part g labels0 c) (comp_part g labels c)).
Proof.
  intros Hk1 Hone Hgood Hv. unfold freactive_fit.
  eapply (post_weaken anyexn anyexn True True); [auto|auto| |
    apply (fit_post_from (reactive_with fstrategy) _ _ order g attr anyexn True (fun j s => j = 0 -> rw_visited s = []) (fun c => kept (comp_graph g c)) (fun _ _ => True))]; auto.
  - intros [[labels s'] r'] _ [_ H]. exact H.
  - intros c lc s0 rg j Hc Hj Hwf _ HJ. assert (j = 0) as -> by lia. specialize (HJ eq_refl). unfold run_component.
    eapply post_bind with (P := fun s1 => rw_visited s1 = []).
    { eapply post_bind; [apply anyexn_post|]. intros st _ _. cbn. auto. }
    intros s1 _ Ev. eapply (post_weaken anyexn anyexn True True); [auto|auto| |apply (reactive_component_once fstrategy (fstrat_call B A) obj); auto].
    intros [[l' s'] r'] _ Hl. split; [discriminate|]. split; [destruct Hl as [[H _] _], Hwf; lia|exact Hl].
  - destruct initial; cbn; auto.
Qed.

(** ** fit *)
Section Keep.
Variable A : arith.
Variable V : Q -> Prop.
Variables u M : Q.
Hypothesis Hu : (0 <= u)%Q.
Hypothesis Hu1 : (u < 1)%Q.
Hypothesis V0 : V 0%Q.
Hypothesis Vabs : forall q, V q -> V (Qabs q).
Hypothesis Hadd : rounds_within V u M (ar_add A) Qplus.
Hypothesis Hsub : rounds_within V u M (ar_sub A) Qminus.
Variable B : arith.
Variable enum : list Z -> list Z.
Variable order : list edge -> list edge.
Hypothesis Hord : forall l, Permutation (order l) l.
Variable g : graph.
Variable attr : list (list Q).
Hypothesis Hattr : length attr = gn g.
Variable k : nat.
Hypothesis HV : forall x q, In x attr -> In q x -> V q.
Hypothesis Hk : forall x, In x attr -> length x <= k.
Let N := gn g + k + 1.
Hypothesis HM : (qpow (1 + u) N * psum (dist manhattan attr) (seq 0 (length attr)) <= M)%Q.
Notation FO := (fpairwise A enum).

Definition fk_V (c : nat) (l0 l : list Z) : Prop := te_V u g attr k c l0 l /\ same_labels l l0.

Lemma fkeep_component c fuel maxlen reps lc cm r : c < n_components g -> wf (comp_graph g c) lc -> c_ok FO (attr_c attr g c) cm ->
  post anyexn True (basic_component_with fstrategy (fstrat_call B A) FO (comp_graph g c) fuel maxlen reps lc (attr_c attr g c) (FAzp cm) r)
    (fun '(l', _, _) => same_labels l' lc).
Proof.
  intros Hc Hwf Hcm. destruct (comp_rows g attr Hattr k c) as [Hlr [Hin Hps]].
  pose proof (blind_component B A FO (attr_c attr g c) (comp_graph g c) maxlen reps fuel lc cm cm r Hcm Hcm) as Hb.
  assert (Hp : post anyexn True (basic_component FO (comp_graph g c) fuel maxlen reps lc (attr_c attr g c) cm r) (fun '(l', _, _) => same_labels l' lc)).
  { apply (fbasic_keep A V u M Hu Hu1 V0 Vabs Hadd Hsub enum (attr_c attr g c) k N); auto.
    - intros x0 q0 Hx0. apply HV. auto.
    - rewrite Hlr. pose proof (comp_graph_le g c). unfold N. lia.
    - eapply Qle_trans; [|exact HM]. rewrite !(Qmult_comm (qpow (1 + u) N)). apply Qmult_le_compat_r; [exact Hps|].
      apply qpow_nonneg. lra. }
  destruct (basic_component_with fstrategy (fstrat_call B A) FO (comp_graph g c) fuel maxlen reps lc (attr_c attr g c) (FAzp cm) r) as [[[l1 s1] r1]|e|],
    (basic_component FO (comp_graph g c) fuel maxlen reps lc (attr_c attr g c) cm r) as [[[l2 c2] r2]|e'|]; cbn [rel post blind_rel] in *; auto; try contradiction.
  destruct Hb as [-> _]. exact Hp.
Qed.

Theorem fbasic_keeps fuel maxlen reps p initial s r : good_input g p initial -> plain s ->
  post anyexn True (fbasic_fit B A order FO fuel maxlen reps g attr p initial s r)
    (fun '((labels, s'), _) => plain s' /\ exists labels0, started_from g p initial labels0 /\ length labels = gn g /\
       forall c, c < n_components g -> fk_V c (comp_part g labels0 c) (comp_part g labels c)).
Proof.
  intros Hgood Hs. unfold fbasic_fit. apply (fit_post fstrategy _ _ order g attr anyexn True plain fk_V); auto.
  intros c lc s0 rg Hc Hwf Hs0. 
  pose proof (fbasic_near_run A V u M Hu Hu1 V0 Vabs Hadd Hsub B enum g attr Hattr k HV Hk HM fuel maxlen reps c lc s0 rg Hc Hwf Hs0) as Hn.
  assert (Hk' : post anyexn True (run_component fstrategy (fstrat_start FO) (fun g' l a s r => basic_component_with fstrategy (fstrat_call B A) FO g' fuel maxlen reps l a s r) g attr c lc s0 rg)
    (fun '(l', _, _) => same_labels l' lc)).
  { unfold run_component. fold (attr_c attr g c). eapply post_bind; [apply (te_start A enum g attr c lc s0 Hs0)|]. intros s1 _ [cm [-> Hcm]].
    apply fkeep_component; auto. }
  match goal with |- post _ _ ?m _ => destruct m as [[[l1 s1] r1]|e|] end; cbn [post] in *; auto.
  destruct Hn as [H1 [H2 H3]]. split; [exact H1|]. split; [exact H2|]. split; auto.
Qed.
End Keep.
