(** Thresholds that are NaN or infinite in MaxPRegionsHeu: the local search. *)
From Verif Require Import Base Spec SpecData SpecBound M_Graph P_Graph M_Util P_Base P_Util P_Forest P_Init P_Initial
  M_Objective P_Sum P_Objective M_Azp P_Azp P_Strategy P_Fit P_AzpFit M_Sa M_MaxP P_MaxP P_MaxP2 P_MaxP3 P_MaxP4 Props_Strategy Props_Azp
  P_TwoRuns P_Scale P_ScaleMaxP P_Upto M_Grow P_MaxPChecked M_MaxPThreshold P_MaxPThreshold.

(** ** several wrappers with finite thresholds in the place of one *)
Section Stack.
Variable expf : Q -> Q.
Variables sp : list (list Q).
Variable thr : list bound.
Variable ts : list (list Q).
Hypothesis Hts : ts <> [].
Fixpoint stack (c : common) (sp1 : list (list Q)) (ts : list (list Q)) (s : strategy) : strategy :=
  match ts with [] => s | t :: ts => SMaxP c sp sp1 t (stack c sp1 ts s) end.
Inductive img (ok : list (list Q) -> Prop) : strategy -> bstrategy -> Prop :=
| img_azp c : img ok (SAzp c) (BAzp c)
| img_wrap c sp1 i i' : ok sp1 -> img ok i i' -> img ok (stack c sp1 ts i) (BMaxP c sp sp1 thr i').

Lemma stack_val c sp1 s : strat_val (stack c sp1 ts s) = c_val c.
Proof. destruct ts; [contradiction|reflexivity]. Qed.
Lemma stack_call c sp1 s a r l rg : forall us, strat_call expf (stack c sp1 us s) a r l rg =
  if forallb (fun t => donor_ok sp1 t a l) us then let* '(b, s', rg') := strat_call expf s a r l rg in Ok (b, stack c sp1 us s', rg')
  else Ok (false, stack c sp1 us s, rg).
Proof.
  induction us as [|t us IH]; cbn [stack forallb strat_call].
  - destruct (strat_call expf s a r l rg) as [[[b s'] rg']|e|]; reflexivity.
  - destruct (donor_ok sp1 t a l); cbn [andb]; [|reflexivity]. rewrite IH. destruct (forallb _ us); [|reflexivity].
    destruct (strat_call expf s a r l rg) as [[[b s'] rg']|e|]; reflexivity.
Qed.
Lemma stack_start O c sp1 s l attr idx : strat_start O (stack c sp1 ts s) l attr idx =
  let* c' := start_common l attr O in let* s' := strat_start O s l attr idx in Ok (stack c' (map (row sp) idx) ts s').
Proof.
  revert Hts. induction ts as [|t [|t2 ts0] IH]; intros H; [contradiction|reflexivity|].
  change (strat_start O (stack c sp1 (t :: t2 :: ts0) s) l attr idx) with
    (let* c' := start_common l attr O in let* s' := strat_start O (stack c sp1 (t2 :: ts0) s) l attr idx in Ok (SMaxP c' sp (map (row sp) idx) t s')).
  rewrite IH by discriminate. destruct (start_common l attr O); cbn [bind]; [|reflexivity|reflexivity].
  destruct (strat_start O s l attr idx); reflexivity.
Qed.

Lemma img_val ok s s' : img ok s s' -> strat_val s = bstrat_val s'.
Proof. intros H. destruct H; [reflexivity|apply stack_val]. Qed.
Lemma img_weaken (ok ok' : list (list Q) -> Prop) s s' : (forall x, ok x -> ok' x) -> img ok s s' -> img ok' s s'.
Proof. intros H K. induction K; constructor; auto. Qed.
Lemma img_start ok O l attr idx s s' : img ok s s' -> rel (img (fun x => x = map (row sp) idx)) (strat_start O s l attr idx) (bstrat_start O s' l attr idx).
Proof.
  intros H. induction H as [c|c sp1 i i' _ H IH]; cbn [strat_start bstrat_start].
  - destruct (start_common l attr O); cbn; auto. constructor.
  - rewrite stack_start. destruct (start_common l attr O); cbn [bind]; [|reflexivity|exact Logic.I].
    eapply rel_bind; [apply IH|]. intros x y _ _ Hxy. cbn. constructor; auto.
Qed.
Lemma img_call spc a r l rg s s' : bdonor_ok spc thr a l = forallb (fun t => donor_ok spc t a l) ts -> img (fun x => x = spc) s s' ->
  rel (fun '(b, s1, r1) '(b', s1', r1') => b = b' /\ r1 = r1' /\ img (fun x => x = spc) s1 s1') (strat_call expf s a r l rg) (bstrat_call s' a r l rg).
Proof.
  intros Hd H. induction H as [c|c sp1 i i' -> H IH]; cbn [strat_call bstrat_call].
  - destruct (azp_call c a r l) as [[b c']|e|]; cbn; auto. split; [auto|]. split; [auto|constructor].
  - rewrite stack_call, <- Hd. destruct (bdonor_ok spc thr a l).
    + eapply rel_bind; [apply IH|]. intros [[b s1] r1] [[b' s1'] r1'] _ _ [<- [<- H1]]. cbn. split; [auto|]. split; [auto|constructor; auto].
    + cbn. split; [auto|]. split; [auto|constructor; auto].
Qed.
End Stack.

(** ** the sum of the donor without the moving area *)
Lemma donor_rest (sp : list (list Q)) (m n : nat) (l : list Z) a : length sp = n -> (forall x, In x sp -> length x = m) -> non_negative sp -> length l = n -> a < n ->
  let x := sub_rows (sum_rows (rows_of l (lab l a) sp)) (row sp a) in
  length x = m /\ forall k, k < m -> (0 <= nth k x 0 /\ nth k x 0 <= total sp l (lab l a) k)%Q.
Proof.
  intros Hn Hx Hpos Hl Ha x.
  assert (Hrows : forall y, In y (rows_of l (lab l a) sp) -> length y = m).
  { intros y Hy. unfold rows_of in Hy. apply in_map_iff in Hy. destruct Hy as [i [<- Hi]]. apply Hx. unfold row. apply nth_In. unfold where_eq in Hi. apply filter_In in Hi. destruct Hi as [Hi _]. apply in_seq in Hi. lia. }
  assert (Hne : rows_of l (lab l a) sp <> []).
  { intros C. assert (Hi : In (row sp a) (rows_of l (lab l a) sp)); [|rewrite C in Hi; destruct Hi]. unfold rows_of. apply in_map_iff. exists a. split; [auto|].
    unfold where_eq. apply filter_In. split; [apply in_seq; lia|apply Z.eqb_refl]. }
  assert (Hra : length (row sp a) = m) by (apply Hx; unfold row; apply nth_In; lia).
  assert (Hls : length (sum_rows (rows_of l (lab l a) sp)) = m) by (apply sum_rows_length; auto).
  split; [unfold x; rewrite sub_rows_length; lia|]. intros k Hk.
  assert (Ex : (nth k x 0 == total sp l (lab l a) k - nth k (nth a sp []) 0)%Q).
  { unfold x. rewrite nth_sub_rows by lia. rewrite nth_sum_rows, <- total_rows. reflexivity. }
  assert (Hq : (0 <= nth k (nth a sp []) 0)%Q).
  { destruct (nth_in_or_default k (nth a sp []) 0%Q) as [Hi|Hi]; [|rewrite Hi; lra]. apply (Hpos (nth a sp [])); auto. apply nth_In. lia. }
  split; [|rewrite Ex; lra]. rewrite Ex.
  assert (Hle : (nth k (nth a sp []) 0 <= total sp l (lab l a) k)%Q); [|lra].
  assert (Hal : a < length l) by lia. unfold total. rewrite (sumQ_map_perm _ _ _ (seq_perm_take _ a Hal)). cbn [map]. rewrite sumQ_cons, Z.eqb_refl.
  match goal with |- (?x <= ?x + ?y)%Q => assert (H0 : (0 <= y)%Q); [|lra] end.
  apply sumQ_nonneg. intros b Hb. destruct (Z.eqb _ _); [|lra]. destruct (nth_in_or_default k (nth b sp []) 0%Q) as [Hi|Hi]; [|rewrite Hi; lra].
  destruct (Nat.lt_ge_cases b (length sp)); [|rewrite (nth_overflow sp) in Hi by lia; destruct Hi]. apply (Hpos (nth b sp [])); auto. apply nth_In. auto.
Qed.
Lemma total_le_all sp l z k : non_negative sp -> (total sp l z k <= total_in sp (seq 0 (length l)) k)%Q.
Proof.
  intros Hpos. unfold total, total_in. induction (seq 0 (length l)) as [|b L IH]; [cbn; lra|]. cbn [map]. rewrite !sumQ_cons.
  assert (0 <= nth k (nth b sp []) 0)%Q.
  { destruct (nth_in_or_default k (nth b sp []) 0%Q) as [Hi|Hi]; [|rewrite Hi; lra]. destruct (Nat.lt_ge_cases b (length sp)); [|rewrite (nth_overflow sp) in Hi by lia; destruct Hi].
    apply (Hpos (nth b sp [])); auto. apply nth_In. auto. }
  destruct (Z.eqb _ _); lra.
Qed.
Lemma total_in_map sp k : forall idx, (total_in (map (row sp) idx) (seq 0 (length idx)) k == total_in sp idx k)%Q.
Proof.
  intros idx. unfold total_in. transitivity (sumQ (map (fun a => nth k (nth a sp []) 0%Q) (map (fun i => nth i idx 0) (seq 0 (length idx))))); [|rewrite map_nth_seq; reflexivity].
  rewrite map_map. apply sumQ_ext. intros i Hi. apply in_seq in Hi.
  erewrite (nth_error_nth (map (row sp) idx) i); [reflexivity|]. rewrite nth_error_map, (nth_error_nth' idx 0) by lia. reflexivity.
Qed.

Lemma rel_weaken {A B} (R R' : A -> B -> Prop) x y : (forall a b, R a b -> R' a b) -> rel R x y -> rel R' x y.
Proof. intros H. destruct x, y; cbn; auto. Qed.
Lemma stretched_self x : stretched (fun _ => 1%Q) x x.
Proof. induction x as [|a x IH]; cbn; auto. split; [lra|exact IH]. Qed.
Lemma spread_self x : spread (length x) x = x.
Proof. destruct x as [|a [|b x]]; reflexivity. Qed.
Lemma same_amounts_self sp (thr : list Q) n : thr <> [] -> shaped sp thr n -> same_amounts sp sp thr thr.
Proof.
  intros Hne [_ Hx]. split; [destruct thr; [contradiction|cbn; lia]|]. exists (fun _ => 1%Q). split; [intros; lra|]. split; [rewrite spread_self; apply stretched_self|].
  exists (length thr). split; [auto|]. intros i. destruct (nth_in_or_default i sp []) as [H|H]; [right|left; rewrite H; auto].
  specialize (Hx _ H). split; [auto|]. rewrite <- Hx, spread_self. apply stretched_self.
Qed.

(** ** the whole fit *)
Section Whole.
Variable expf : Q -> Q.
Variable order : list edge -> list edge.
Hypothesis Hord : forall l, Permutation (order l) l.
Variable O : objfun.
Variable d : list Q -> list Q -> Q.
Variable g : graph.
Variables attr sp : list (list Q).
Variable thr : list bound.
Variable thr' : list Q.
Hypothesis Hsym : symmetric g.
Hypothesis Hloop : no_self_loops g.
Hypothesis Hsh : shaped_for sp thr (gn g).
Hypothesis Hpos : non_negative sp.
Hypothesis Hfin : made_finite thr thr'.
Hypothesis Hno : ~ In PosInf thr.
Hypothesis Hsome : thr <> [].

Lemma finite_shaped : shaped sp thr' (gn g).
Proof. destruct Hsh as [H1 H2]. split; [auto|]. intros x Hx. rewrite <- (made_finite_length _ _ Hfin). auto. Qed.

(** a number above every sum *)
Definition too_large : list Q := map (fun k => (total_in sp (seq 0 (gn g)) k + 1)%Q) (seq 0 (length thr)).
Definition in_place : list (list Q) := if existsb (fun b => match b with NotANumber => true | _ => false end) thr then [thr'; too_large] else [thr'].
Lemma in_place_some : in_place <> [].
Proof. unfold in_place. destruct (existsb _ thr); discriminate. Qed.

Lemma donor_same c l a : c < n_components g -> length l = gn (comp_graph g c) -> a < gn (comp_graph g c) ->
  bdonor_ok (map (row sp) (comp_nodes g c)) thr a l = forallb (fun t => donor_ok (map (row sp) (comp_nodes g c)) t a l) in_place.
Proof.
  intros Hc Hl Ha. set (spc := map (row sp) (comp_nodes g c)).
  assert (Hs1 : shaped spc thr' (gn (comp_graph g c))) by (apply comp_shaped, finite_shaped).
  assert (Hp1 : non_negative spc) by (eapply comp_non_negative; [apply finite_shaped|exact Hpos]).
  pose proof (made_finite_length _ _ Hfin) as Hlt. destruct Hs1 as [Hn1 Hx1].
  pose proof (donor_rest spc (length thr') (gn (comp_graph g c)) l a Hn1 Hx1 Hp1 Hl Ha) as Hr. cbv zeta in Hr.
  unfold bdonor_ok, donor_ok. set (x := sub_rows (sum_rows (rows_of l (lab l a) spc)) (row spc a)) in *. destruct Hr as [Hlx Hx].
  destruct (any_nonzero (row spc a)); [|unfold in_place; destruct (existsb _ thr); reflexivity].
  assert (Hnn : forall k, (0 <= nth k x 0)%Q).
  { intros k. destruct (Nat.lt_ge_cases k (length thr')) as [Hk|Hk]; [apply Hx; auto|]. rewrite nth_overflow by lia. lra. }
  unfold in_place. destruct (existsb _ thr) eqn:En.
  - apply existsb_exists in En. destruct En as [b [Hb Eb]]. destruct b; try discriminate. apply In_nth_error in Hb. destruct Hb as [k Hk].
    assert (Hkl : k < length thr) by (apply nth_error_Some; congruence).
    assert (E1 : all_at_least thr x = false).
    { destruct (all_at_least thr x) eqn:E; [|auto]. rewrite all_at_least_spec in E by lia. specialize (E k _ Hk). discriminate. }
    assert (Hll : length too_large = length thr) by (unfold too_large; rewrite map_length, seq_length; auto).
    assert (E2 : reaches x too_large = false).
    { destruct (reaches x too_large) eqn:E; [|auto]. rewrite reaches_spec in E by lia.
      assert (Ek : nth_error too_large k = Some (total_in sp (seq 0 (gn g)) k + 1)%Q).
      { unfold too_large. rewrite nth_error_map, (nth_error_nth' _ 0) by (rewrite seq_length; lia). rewrite seq_nth by lia. reflexivity. }
      specialize (E k _ Ek). destruct (Hx k ltac:(lia)) as [_ Hle]. pose proof (total_le_all spc l (lab l a) k Hp1) as H1.
      assert (H2 : (total_in spc (seq 0 (length l)) k <= total_in sp (seq 0 (gn g)) k)%Q).
      { rewrite Hl, comp_graph_n. unfold spc. rewrite total_in_map. apply total_in_mono; [auto|apply comp_nodes_NoDup|].
        intros i Hi. apply in_seq. split; [lia|]. eapply comp_nodes_lt; eauto. }
      lra. }
    cbn [forallb]. rewrite E1, E2. rewrite andb_comm. reflexivity.
  - cbn [forallb]. rewrite andb_true_r. apply eq_true_iff_eq. rewrite all_at_least_spec, reaches_spec by lia. split; intros H k t Hk.
    + destruct (made_finite_nth _ _ Hfin k t Hk) as [b [Eb Hb]]. specialize (H k b Eb). specialize (Hnn k).
      destruct b; cbn in H; [subst; apply Qle_bool_iff; auto|discriminate|lra|discriminate].
    + destruct (made_finite_nth_l _ _ Hfin k t Hk) as [u [Eu Hu]]. specialize (H k u Eu).
      destruct t; cbn; [subst; apply Qle_bool_iff; auto| |auto|].
      * exfalso. apply Hno. eapply nth_error_In; eauto.
      * apply nth_error_In in Hk. assert (C : existsb (fun b => match b with NotANumber => true | _ => false end) thr = true) by (apply existsb_exists; eauto). congruence.
Qed.

Notation J := (img sp thr in_place (fun _ => True)).
Lemma bazp_two fuel p l s s' r : length l = gn g /\ ~ In (-1)%Z l -> J s s' ->
  rel (two_acc strategy bstrategy J) (azp_fit expf order O fuel g attr p (Some l) s r) (bazp_fit order O fuel g attr p (Some l) s' r).
Proof.
  intros Hl HJ. unfold azp_fit, bazp_fit. apply fit_two; auto. intros c lc s0 s0' r0 Hc Hwf H0. unfold run_component.
  eapply rel_bind; [apply (img_start sp thr in_place in_place_some (fun _ => True)); auto|]. intros s1 s1' _ _ H1.
  set (spc := map (row sp) (comp_nodes g c)) in *.
  pose proof (azp_component_two strategy bstrategy (strat_call expf) bstrat_call strat_val bstrat_val (comp_graph g c) (comp_symmetric g c Hsym)
    (fun s s' _ => img sp thr in_place (fun x => x = spc) s s') eq) as H.
  specialize (H ltac:(intros x x' y y' -> ->; reflexivity)).
  specialize (H ltac:(intros s2 s2' l2 H2; eapply img_val; [apply in_place_some|exact H2])).
  assert (Hcall : forall s s' a r l rg, wf (comp_graph g c) l -> legal_move (comp_graph g c) l a r -> img sp thr in_place (fun x => x = spc) s s' ->
    rel (fun '(b, s1, r1) '(b', s1', r1') => b = b' /\ r1 = r1' /\ img sp thr in_place (fun x => x = spc) s1 s1') (strat_call expf s a r l rg) (bstrat_call s' a r l rg)).
  { intros s2 s2' a z l2 rg Hwf2 Hlm H2. apply img_call; auto. destruct Hwf2 as [Hl2 _], Hlm as [Ha _]. apply donor_same; auto. }
  specialize (H Hcall fuel lc s1 s1' r0 Hwf H1).
  eapply rel_weaken; [|exact H]. intros [[l3 s3] r3] [[l3' s3'] r3'] [<- [<- H3]]. split; [auto|]. split; [auto|]. eapply img_weaken; [|exact H3]. auto.
Qed.

(** the max-p fit that wraps [in_place] *)
Definition stack_fit (fuel max_it : nat) (entropy : rng) (labels0 : option (list Z)) (ls : option strategy) (r : rng) :=
  maxp_fit strategy (stack sp unstarted [] in_place)
    (fun s p l r => let* '((labels, s'), r') := azp_fit expf order O fuel g attr p (Some l) s r in Ok (Some labels, s', r'))
    O attr (fun _ => (SAzp unstarted, entropy)) d g sp thr' max_it labels0 ls r.
Definition ls_img (ls : option strategy) (ls' : option bstrategy) : Prop :=
  match ls, ls' with Some s, Some s' => J s s' | None, None => True | _, _ => False end.
Theorem bmaxp_stack fuel max_it entropy labels0 ls ls' r : ls_img ls ls' ->
  rel (fun '(x, t, r1) '(x', t', r1') => x = x' /\ ls_img t t' /\ r1 = r1')
    (stack_fit fuel max_it entropy labels0 ls r) (bmaxp_azp_fit order O d fuel g attr sp thr max_it entropy labels0 ls' r).
Proof.
  intros Hls. unfold bmaxp_azp_fit. destruct Hsh as [Hn Hx]. rewrite (same_construction g sp thr thr' Hx Hpos Hfin Hno). unfold stack_fit.
  apply (maxp_fit_scale 1 ltac:(lra) strategy bstrategy _ _ _ _ O O attr attr (gn g) J); auto.
  - intros s s' H. constructor; auto.
  - intros s s' mp l r0 Hs Hl Hm. eapply rel_bind; [apply (bazp_two fuel mp l s s' r0 (conj Hl Hm) Hs)|].
    intros [[x t] r1] [[x' t'] r1'] E _ [H1 [H2 H3]]. cbn in H1, H2, H3 |- *. subst. split; [auto|]. split; [auto|]. split; [auto|].
    intros l1 [= <-]. apply (azp_fit_shape _ _ _ _ _ _ _ (Some l) _ _ _ _ _ Hsym Hord (conj Hl Hm) E).
  - intros l _. destruct (o_call O l attr); cbn; auto. lra.
  - apply finite_shaped.
  - intros i j _ _. lra.
  - apply (same_amounts_self sp thr' (gn g)); [|apply finite_shaped]. intros C. pose proof (made_finite_length _ _ Hfin) as E. rewrite C in E. destruct thr; [contradiction|discriminate].
  - destruct ls, ls'; auto. intros r0. cbn. split; [constructor|auto].
Qed.
End Whole.
