(** On whole numbers double precision makes no difference to the tabu searches and to the annealing. *)
From Coq Require Import Qabs.
From Verif Require Import Base Spec SpecData M_Graph P_Graph M_Util P_Base P_Util P_Forest P_Init P_Initial
  M_Objective P_Sum P_Objective M_Azp P_Azp P_Strategy P_Fit P_AzpFit P_TwoRuns M_Sa P_Sa M_Tabu P_Reactive P_Scale
  M_Float P_Float M_FloatSa P_FloatSa Props_Azp.

(** ** the objective *)
Lemma idx_filter idx n : NoDup idx -> (forall i, In i idx -> i < n) ->
  Permutation idx (filter (fun i => existsb (Nat.eqb i) idx) (seq 0 n)).
Proof.
  intros Hnd Hlt. apply NoDup_Permutation; [auto|apply NoDup_filter, seq_NoDup|]. intros i. rewrite filter_In, in_seq, existsb_exists. split.
  - intros Hi. split; [split; [lia|apply Hlt; auto]|]. exists i. split; [auto|apply Nat.eqb_refl].
  - intros [_ [j [Hj E]]]. apply Nat.eqb_eq in E. subst j. auto.
Qed.

(** distances within a selection of the areas *)
Lemma psum_selection attr idx n : NoDup idx -> (forall i, In i idx -> i < n) ->
  (psum (dist manhattan (map (row attr) idx)) (seq 0 (length idx)) <= psum (dist manhattan attr) (seq 0 n))%Q.
Proof.
  intros Hnd Hlt. apply Qle_trans with (psum (dist manhattan attr) idx).
  - assert (E : (psum (dist manhattan (map (row attr) idx)) (seq 0 (length idx)) == psum (dist manhattan attr) idx)%Q); [|rewrite E; apply Qle_refl].
    transitivity (psum (dist manhattan attr) (map (fun i => nth i idx 0%nat) (seq 0 (length idx)))); [|rewrite map_nth_seq; reflexivity].
    rewrite psum_map. apply psum_ext. intros i j Hi Hj. apply in_seq in Hi, Hj.
    assert (Hrow : forall k, (k < length idx)%nat -> row (map (row attr) idx) k = row attr (nth k idx 0%nat)).
    { intros k Hk. unfold row at 1. apply nth_error_nth. rewrite nth_error_map, (nth_error_nth' idx 0%nat) by auto. reflexivity. }
    unfold dist. rewrite !Hrow by lia. reflexivity.
  - rewrite (psum_perm _ _ _ (fun x y => manhattan_sym (row attr x) (row attr y)) (idx_filter idx n Hnd Hlt)).
    apply psum_filter. intros; apply manhattan_nonneg.
Qed.

Section Whole.
Variable A : arith.
Variable M : Q.
Hypothesis Hadd : exact_upto M (ar_add A) Qplus.
Hypothesis Hsub : exact_upto M (ar_sub A) Qminus.
Variable enum : list Z -> list Z.
Hypothesis Henum : forall l, Permutation (enum l) l.
Variable attr : list (list Q).
Hypothesis Hwhole : forall x q, In x attr -> In q x -> whole q.
Variable n : nat.
Hypothesis HM : (psum (dist manhattan attr) (seq 0 n) <= M)%Q.

Lemma selection_whole idx x q : In x (map (row attr) idx) -> In q x -> whole q.
Proof.
  intros Hx Hq. apply in_map_iff in Hx. destruct Hx as [i [<- _]]. unfold row in Hq.
  destruct (nth_in_or_default i attr []) as [Hi|E]; [eauto|]. rewrite E in Hq. destruct Hq.
Qed.
Lemma selection_bound idx : NoDup idx -> (forall i, In i idx -> i < n) ->
  (psum (dist manhattan (map (row attr) idx)) (seq 0 (length (map (row attr) idx))) <= M)%Q.
Proof. intros H1 H2. rewrite map_length. eapply Qle_trans; [apply psum_selection; eauto|exact HM]. Qed.

Theorem whole_scaled : scaled 1 n (pairwise manhattan) (fpairwise A enum) attr attr.
Proof.
  intros idx labels Hnd Hlt Hl. change (map (fun i => nth i attr []) idx) with (map (row attr) idx).
  assert (Hll : length labels = length (map (row attr) idx)) by (rewrite map_length; auto).
  pose proof (selection_bound idx Hnd Hlt) as Hb. split.
  - destruct (fpairwise_call_exact A M Hadd Hsub enum Henum _ (selection_whole idx) Hb labels Hll) as [v [E Hv]].
    destruct (pairwise_call_spec manhattan labels (map (row attr) idx)) as [w [E' Hw]].
    cbn [o_call pairwise fpairwise]. rewrite E, E'. cbn [multiple]. rewrite Hv, Hw. ring.
  - intros a r Ha. cbn [o_update pairwise fpairwise].
    pose proof (fpairwise_update_exact A M Hadd Hsub _ (selection_whole idx) Hb labels a r Hll ltac:(rewrite <- Hll; exact Ha)) as H.
    destruct (pairwise_update manhattan a r labels _) as [q|e|], (fpairwise_update A a r labels _) as [q'|e'|]; cbn in H |- *; auto.
    destruct H as [E _]. rewrite <- E. ring.
Qed.

(** ** the annealing *)
Variables (prob cool : Q -> Q -> Q).
Hypothesis Hprob : forall x y t, (x == y)%Q -> (prob x t == prob y t)%Q.

(** the states of the two runs on the areas with the data [rows] *)
Definition sa_both (rows : list (list Q)) (s s' : strategy) (l : list Z) : Prop :=
  length l = length rows /\ exists v v' t k term reached moved,
    s = SSa (mkCommon rows (pairwise manhattan) v) t k term reached moved /\
    s' = SSa (mkCommon rows (fpairwise A enum) v') t k term reached moved /\
    (v == v')%Q /\ (v == heterogeneity (dist manhattan rows) l)%Q.

Lemma sa_both_call rows s s' l a r rg :
  (forall x q, In x rows -> In q x -> whole q) -> (psum (dist manhattan rows) (seq 0 (length rows)) <= M)%Q ->
  a < length rows -> sa_both rows s s' l ->
  rel (fun '(b, s1, r1) '(b', s1', r1') => b = b' /\ r1 = r1' /\ sa_both rows s1 s1' (if b : bool then upd l a r else l))
    (fsa_strat_call Qplus prob s a r l rg) (fsa_strat_call (ar_add A) prob s' a r l rg).
Proof.
  intros Hw HMr Ha [Hl [v [v' [t [k [term [reached [moved [-> [-> [Ev Hv]]]]]]]]]]]. cbn [fsa_strat_call]. unfold fsa_call.
  cbn [c_obj c_attr c_val o_update pairwise fpairwise].
  pose proof (fpairwise_update_exact A M Hadd Hsub rows Hw HMr l a r Hl Ha) as Hu.
  destruct (pairwise_update manhattan a r l rows) as [q|e|], (fpairwise_update A a r l rows) as [q'|e'|]; cbn in Hu |- *; auto; try contradiction.
  destruct Hu as [Eq Hq].
  assert (Eb : Qle_bool q 0 = Qle_bool q' 0) by (apply eq_true_iff_eq; rewrite !Qle_bool_iff, Eq; tauto).
  rewrite <- Eb.
  assert (Hnew : (v + q == ar_add A v' q')%Q /\ (v + q == heterogeneity (dist manhattan rows) (upd l a r))%Q).
  { split; [|rewrite Hv, Hq; ring].
    assert (Hl' : length (upd l a r) = length rows) by (rewrite upd_length; auto). pose proof (het_le M rows HMr _ Hl') as Hb.
    symmetry. rewrite Ev, Eq. apply Hadd.
    + apply (whole_eq (heterogeneity (dist manhattan rows) l)); [rewrite <- Hv, Ev; reflexivity|apply het_whole; auto].
    + apply (whole_eq (heterogeneity (dist manhattan rows) (upd l a r) - heterogeneity (dist manhattan rows) l)%Q);
        [rewrite <- Hq, Eq; reflexivity|apply whole_sub; apply het_whole; auto].
    + rewrite <- Ev, <- Eq, Hv, Hq. apply Qabs_Qle_condition. lra. }
  assert (Hl' : length (upd l a r) = length rows) by (rewrite upd_length; auto).
  destruct (Qle_bool q 0).
  - cbn. split; [auto|]. split; [auto|]. split; [auto|]. repeat eexists; apply Hnew.
  - unfold random_random. set (u := (_ # _)%Q) || set (u := inject_Z _) || idtac.
    match goal with [|- context [Qltb ?w (prob q t)]] =>
      assert (Ep : Qltb w (prob q t) = Qltb w (prob q' t)) by (apply eq_true_iff_eq; rewrite !Qltb_lt, (Hprob q q' t Eq); tauto) end.
    rewrite <- Ep. destruct (Qltb _ _); cbn; (split; [auto|]); (split; [auto|]).
    + split; [auto|]. repeat eexists; apply Hnew.
    + split; [auto|]. repeat eexists; auto.
Qed.

Definition sa_alike (s s' : strategy) : Prop :=
  exists c c' t k term reached moved, s = SSa c t k term reached moved /\ s' = SSa c' t k term reached moved.

Variable g : graph.
Hypothesis Hsym : symmetric g.
Hypothesis Hn : n = gn g.
Variable order : list edge -> list edge.
Hypothesis Hord : forall l, Permutation (order l) l.
Local Notation shape initial := (match initial with Some l => length l = gn g /\ ~ In (-1)%Z l | None => True end).

Theorem fsa_azp_exact fuel p initial s s' r : shape initial -> sa_alike s s' ->
  rel (two_acc strategy strategy sa_alike)
    (fsa_azp Qplus prob order (pairwise manhattan) fuel g attr p initial s r)
    (fsa_azp (ar_add A) prob order (fpairwise A enum) fuel g attr p initial s' r).
Proof.
  intros Hi Ha. unfold fsa_azp. apply fit_two; auto.
  intros k l s1 s1' rg Hk Hwf [c [c' [t [ct [term [re [mo [-> ->]]]]]]]]. unfold run_component. cbn [strat_start]. unfold start_common.
  set (rows := map (row attr) (comp_nodes g k)).
  assert (Hlr : length rows = length (comp_nodes g k)) by apply map_length.
  assert (Hll : length l = length rows) by (rewrite Hlr, <- comp_graph_n; apply Hwf).
  pose proof (selection_whole (comp_nodes g k)) as Hwr. fold rows in Hwr.
  assert (HMr : (psum (dist manhattan rows) (seq 0 (length rows)) <= M)%Q).
  { apply selection_bound; [apply comp_nodes_NoDup|]. intros i Hin. apply comp_nodes_In in Hin. rewrite Hn. tauto. }
  destruct (pairwise_call_spec manhattan l rows) as [v [Ev Hv]].
  destruct (fpairwise_call_exact A M Hadd Hsub enum Henum rows Hwr HMr l Hll) as [v' [Ev' Hv']].
  cbn [o_call pairwise fpairwise]. rewrite Ev, Ev'. cbn [bind].
  pose proof (azp_component_two strategy strategy (fsa_strat_call Qplus prob) (fsa_strat_call (ar_add A) prob) strat_val strat_val (comp_graph g k)
    (comp_symmetric g k Hsym) (sa_both rows) Qeq) as Hc.
  match goal with [|- rel _ ?m ?m'] => assert (Hres : rel (fun '(l1, t1, r1) '(l1', t1', r1') => l1 = l1' /\ r1 = r1' /\ sa_both rows t1 t1' l1) m m') end.
  { apply Hc; auto.
    - intros x x' y y' Ex Ey. apply eq_true_iff_eq. rewrite !Qltb_lt, Ex, Ey. tauto.
    - intros s2 s2' l1 [_ [x [y [? [? [? [? [? [-> [-> [E _]]]]]]]]]]]. exact E.
    - intros s2 s2' a z l1 rg1 Hwf1 Hm HI. eapply sa_both_call; eauto. destruct Hm as [Hal _]. rewrite comp_graph_n in Hal. lia.
    - split; [auto|]. exists v, v', t, ct, term, re, mo. split; [auto|]. split; [auto|]. split; [rewrite Hv, Hv'; reflexivity|exact Hv]. }
  match goal with [|- rel _ ?m ?m'] => destruct m as [[[l1 s2] r1]|e|], m' as [[[l1' s2'] r1']|e'|] end; cbn in Hres |- *; auto.
  destruct Hres as [E1 [E2 [_ [x [y [? [? [? [? [? [-> [-> _]]]]]]]]]]]]. split; [auto|]. split; [auto|]. repeat eexists.
Qed.

Lemma fsa_azp_shape add O fuel p initial s r labels s' r' : shape initial ->
  fsa_azp add prob order O fuel g attr p initial s r = Ok ((labels, s'), r') -> length labels = gn g /\ ~ In (-1)%Z labels.
Proof.
  intros Hsh H. unfold fsa_azp in H. pose proof (fit_returns_valid _ _ _ _ _ _ _ _ _ _ _ Hsh H) as Hv.
  pose proof (any_strategy_post strategy (strat_start O) (fsa_strat_call add prob) strat_val order fuel g attr p initial s r anyexn Hsym Hord Hv) as Hp.
  rewrite H in Hp.
  assert (Hd : azp_delivers g p initial labels).
  { apply Hp; intros; [destruct (strat_start _ _ _ _ _)|destruct (fsa_strat_call _ _ _ _ _ _ _)]; cbn; unfold anyexn; auto. }
  destruct (azp_delivers_ok _ _ _ _ Hd) as [[H1 _] [H2 _]]. auto.
Qed.

Lemma sa_alike_reset s s' : sa_alike s s' -> sa_alike (sa_reset s) (sa_reset s').
Proof. intros [c [c' [t [k [te [re [mo [-> ->]]]]]]]]. cbn. repeat eexists. Qed.
Lemma sa_alike_clear s s' : sa_alike s s' -> sa_alike (sa_clear_moved s) (sa_clear_moved s').
Proof. intros [c [c' [t [k [te [re [mo [-> ->]]]]]]]]. cbn. repeat eexists. Qed.
Lemma sa_alike_temperature q s s' : sa_alike s s' -> sa_alike (sa_set_temperature q s) (sa_set_temperature q s').
Proof. intros [c [c' [t [k [te [re [mo [-> ->]]]]]]]]. cbn. repeat eexists. Qed.
Lemma sa_alike_flags s s' : sa_alike s s' -> sa_is_reached s = sa_is_reached s' /\ sa_is_moved s = sa_is_moved s'.
Proof. intros [c [c' [t [k [te [re [mo [-> ->]]]]]]]]. auto. Qed.

Lemma fsa_step_b_exact azp_fuel p : forall fuel left initial s s' r, shape initial -> sa_alike s s' ->
  rel (fun '(l, s1, r1) '(l', s1', r1') => l = l' /\ r1 = r1' /\ sa_alike s1 s1' /\ shape l)
    (fsa_step_b Qplus prob order (pairwise manhattan) azp_fuel g attr p fuel left initial s r)
    (fsa_step_b (ar_add A) prob order (fpairwise A enum) azp_fuel g attr p fuel left initial s' r).
Proof.
  induction fuel as [|fuel IH]; intros left initial s s' r Hi Ha; cbn [fsa_step_b]; destruct (sa_alike_flags s s' Ha) as [<- _];
    (destruct (_ || _); [cbn; auto|]); [exact Logic.I|].
  eapply rel_bind; [apply fsa_azp_exact; eauto|]. intros [[l s1] r1] [[l' s1'] r1'] E1 _ [H1 [H2 H3]]. cbn in H1, H2, H3. subst l' r1'.
  assert (Hl : length l = gn g /\ ~ In (-1)%Z l) by (eapply fsa_azp_shape; eauto).
  destruct (match initial with Some old => same_solution old l | None => false end); [cbn; auto|]. apply IH; auto.
Qed.
Lemma fsa_outer_exact azp_fuel p a cooling : forall fuel nonmoving t initial s s' visited r, shape initial -> sa_alike s s' ->
  rel eq (fsa_outer Qplus prob cool order (pairwise manhattan) azp_fuel g attr p fuel a cooling nonmoving t initial s visited r)
         (fsa_outer (ar_add A) prob cool order (fpairwise A enum) azp_fuel g attr p fuel a cooling nonmoving t initial s' visited r).
Proof.
  induction fuel as [|fuel IH]; intros nonmoving t initial s s' visited r Hi Ha; cbn [fsa_outer];
    destruct (Nat.ltb nonmoving (sa_nonmoving_steps a)); cbn [rel]; auto; try (destruct (sa_alike_flags s s' Ha) as [_ <-]; reflexivity).
  eapply rel_bind; [apply (fsa_step_b_exact azp_fuel p fuel (sa_maxit a)); [exact Hi|apply sa_alike_reset, Ha]|].
  intros [[sol s1] r1] [[sol' s1'] r1'] _ _ [<- [<- [H1 H2]]]. destruct sol as [l|]; [|reflexivity].
  cbv zeta. destruct (sa_alike_flags s1 s1' H1) as [_ Em]. destruct (Nat.leb _ _); [cbn; rewrite Em; reflexivity|].
  pose proof (sa_alike_temperature (cool t cooling) s1 s1' H1) as H3.
  destruct (sa_alike_flags _ _ H3) as [_ E4]. rewrite <- E4. clear E4. destruct (sa_is_moved (sa_set_temperature (cool t cooling) s1));
    apply IH; auto. apply sa_alike_clear; auto.
Qed.
Theorem fsa_fit_exact azp_fuel p fuel cooling initial a m r : shape_ok g initial ->
  fsa_fit (ar_add A) prob cool order (fpairwise A enum) azp_fuel g attr p fuel cooling initial a m r =
  fsa_fit Qplus prob cool order (pairwise manhattan) azp_fuel g attr p fuel cooling initial a m r.
Proof.
  intros Hi. unfold fsa_fit. destruct (negb _); [reflexivity|]. unfold sa_strategy.
  destruct (sa_moves_term a) as [k|]; cbn [bind]; [|reflexivity]. destruct (Z.ltb k 1); cbn [bind]; [reflexivity|].
  match goal with [|- ?m' = fsa_outer _ _ _ _ _ _ _ _ _ _ _ _ _ ?t _ ?s ?v _] =>
    pose proof (fsa_outer_exact azp_fuel p a cooling fuel 0 t initial s s v r Hi ltac:(repeat eexists)) as H end.
  match type of H with rel _ ?m ?m' => destruct m as [x|e|], m' as [y|e'|] end; cbn in H; try contradiction; congruence.
Qed.
End Whole.

(** with exact arithmetic this is the annealing of M_Sa.v *)
Section Plain.
Variable expf : Q -> Q.
Variable order : list edge -> list edge.
Variable O : objfun.
Variable g : graph.
Variable attr : list (list Q).
Hypothesis Hsym : symmetric g.
Hypothesis Hord : forall l, Permutation (order l) l.
Definition same_sa (s s' : strategy) : Prop := s = s' /\ is_sa s.

Lemma fsa_azp_plain fuel p initial s r : match initial with Some l => length l = gn g /\ ~ In (-1)%Z l | None => True end -> is_sa s ->
  rel (two_acc strategy strategy same_sa)
    (fsa_azp Qplus (sa_prob expf) order O fuel g attr p initial s r) (azp_fit expf order O fuel g attr p initial s r).
Proof.
  intros Hi Hs. unfold fsa_azp, azp_fit. apply fit_two; auto; [|split; auto].
  intros k l s1 s1' rg Hk Hwf [<- [c [t [ct [term [re [mo ->]]]]]]]. unfold run_component. cbn [strat_start].
  destruct (start_common l _ O) as [c1|e|]; cbn [bind rel]; auto.
  pose proof (azp_component_two strategy strategy (fsa_strat_call Qplus (sa_prob expf)) (strat_call expf) strat_val strat_val (comp_graph g k)
    (comp_symmetric g k Hsym) (fun x y _ => same_sa x y) Qeq) as Hc.
  match goal with [|- rel _ ?m ?m'] => assert (Hres : rel (fun '(l1, t1, r1) '(l1', t1', r1') => l1 = l1' /\ r1 = r1' /\ same_sa t1 t1') m m') end.
  { apply Hc; auto.
    - intros x x' y y' Ex Ey. apply eq_true_iff_eq. rewrite !Qltb_lt, Ex, Ey. tauto.
    - intros s2 s2' l1 [-> _]. reflexivity.
    - intros s2 s2' a z l1 rg1 _ _ [<- [c2 [t2 [ct2 [term2 [re2 [mo2 ->]]]]]]]. cbn [fsa_strat_call strat_call]. unfold fsa_call, sa_call.
      destruct (o_update (c_obj c2) a z l1 (c_attr c2)) as [q|e|]; cbn [bind rel]; auto. unfold random_random.
      destruct (Qle_bool q 0); [|destruct (Qltb _ _)]; cbn; (split; [auto|]); (split; [auto|]); (split; [auto|]); repeat eexists.
    - split; [auto|]. repeat eexists. }
  match goal with [|- rel _ ?m ?m'] => destruct m as [[[l1 s2] r1]|e|], m' as [[[l1' s2'] r1']|e'|] end; cbn in Hres |- *; auto.
Qed.
Lemma fsa_step_b_plain azp_fuel p : forall fuel left initial s r,
  match initial with Some l => length l = gn g /\ ~ In (-1)%Z l | None => True end -> is_sa s ->
  rel (fun '(l, s1, r1) '(l', s1', r1') => l = l' /\ r1 = r1' /\ same_sa s1 s1' /\ match l with Some l => length l = gn g /\ ~ In (-1)%Z l | None => True end)
    (fsa_step_b Qplus (sa_prob expf) order O azp_fuel g attr p fuel left initial s r) (sa_step_b expf order O azp_fuel g attr p fuel left initial s r).
Proof.
  induction fuel as [|fuel IH]; intros left initial s r Hi Ha; cbn [fsa_step_b sa_step_b];
    (destruct (_ || _); [cbn; unfold same_sa; auto|]); [exact Logic.I|].
  eapply rel_bind; [apply fsa_azp_plain; eauto|]. intros [[l s1] r1] [[l' s1'] r1'] E1 _ [H1 [H2 [H3 H4]]]. cbn in H1, H2, H3, H4. subst l' r1' s1'.
  assert (Hl : length l = gn g /\ ~ In (-1)%Z l) by (eapply fsa_azp_shape; eauto).
  destruct (match initial with Some old => same_solution old l | None => false end); [cbn; unfold same_sa; auto|]. apply IH; auto.
Qed.
Lemma fsa_outer_plain azp_fuel p a cooling : forall fuel nonmoving t initial s visited r,
  match initial with Some l => length l = gn g /\ ~ In (-1)%Z l | None => True end -> is_sa s ->
  rel eq (fsa_outer Qplus (sa_prob expf) Qmult order O azp_fuel g attr p fuel a cooling nonmoving t initial s visited r)
         (sa_outer expf order O azp_fuel g attr p fuel a cooling nonmoving t initial s visited r).
Proof.
  induction fuel as [|fuel IH]; intros nonmoving t initial s visited r Hi Ha; cbn [fsa_outer sa_outer];
    destruct (Nat.ltb nonmoving (sa_nonmoving_steps a)); cbn [rel]; auto.
  eapply rel_bind; [apply (fsa_step_b_plain azp_fuel p fuel (sa_maxit a)); [exact Hi|apply is_sa_reset, Ha]|].
  intros [[sol s1] r1] [[sol' s1'] r1'] _ _ [<- [<- [[<- H1] H2]]]. destruct sol as [l|]; [|reflexivity].
  cbv zeta. destruct (Nat.leb _ _); [reflexivity|].
  destruct (sa_is_moved (sa_set_temperature (t * cooling) s1)); apply IH; auto; [apply is_sa_clear|]; apply is_sa_temp; auto.
Qed.
Theorem fsa_fit_plain azp_fuel p fuel cooling initial a m r : shape_ok g initial ->
  fsa_fit Qplus (sa_prob expf) Qmult order O azp_fuel g attr p fuel cooling initial a m r =
  sa_fit expf order O azp_fuel g attr p fuel cooling initial a m r.
Proof.
  intros Hi. unfold fsa_fit, sa_fit. destruct (negb _); [reflexivity|]. unfold sa_strategy.
  destruct (sa_moves_term a) as [k|]; cbn [bind]; [|reflexivity]. destruct (Z.ltb k 1); cbn [bind]; [reflexivity|].
  match goal with [|- fsa_outer _ _ _ _ _ _ _ _ _ _ _ _ _ ?t _ ?s ?v _ = _] =>
    pose proof (fsa_outer_plain azp_fuel p a cooling fuel 0 t initial s v r Hi ltac:(repeat eexists)) as H end.
  match type of H with rel _ ?m ?m' => destruct m as [x|e|], m' as [y|e'|] end; cbn in H; try contradiction; congruence.
Qed.
End Plain.
