(** Thresholds that are NaN or infinite in MaxPRegionsHeu: what fit returns. *)
From Verif Require Import Base Spec SpecData SpecBound M_Graph P_Graph M_Util P_Base P_Util P_Forest P_Init P_Initial
  M_Objective P_Sum P_Objective M_Azp P_Azp P_Strategy P_Fit P_AzpFit M_Sa M_MaxP P_MaxP P_MaxP2 P_MaxP3 P_MaxP4 Props_Strategy Props_Azp
  P_TwoRuns P_Scale P_ScaleMaxP P_Upto M_Grow P_MaxPChecked M_MaxPThreshold P_MaxPThreshold P_MaxPThreshold2.

Section Result.
Variable expf : Q -> Q.
Variable order : list edge -> list edge.
Hypothesis Hord : forall l, Permutation (order l) l.
Variable O : objfun.
Variable d : list Q -> list Q -> Q.
Variable g : graph.
Variables attr sp : list (list Q).
Variable thr : list bound.
Variable thr' : list Q.
Hypothesis Hsym : symmetric g.
Hypothesis Hloop : no_self_loops g.
Hypothesis Hsh : shaped_for sp thr (gn g).
Hypothesis Hpos : non_negative sp.
Hypothesis Hfin : made_finite thr thr'.
Notation ts := (in_place g sp thr thr').
Notation Hsp := (finite_shaped g sp thr thr' Hsh Hfin).

Lemma in_place_first : exists us, ts = thr' :: us.
Proof. unfold in_place. destruct (existsb _ thr); eauto. Qed.
Lemma stack_inside c sp1 s : azp_inside s -> forall us, azp_inside (stack sp c sp1 us s).
Proof. intros H. induction us as [|t us IH]; cbn; auto. Qed.

Theorem stack_any fuel max_it entropy labels0 ls r : 0 < max_it ->
  post anyexn True (stack_fit expf order O d g attr sp thr thr' fuel max_it entropy labels0 ls r)
    (fun '(labels, ls', _) => exists mp before r1 l,
       construct d g attr sp thr' max_it 0 [] r = Ok (mp, before, r1) /\ labels = Some l /\ valid_result g sp thr' mp l).
Proof.
  intros Hit. unfold stack_fit.
  set (JW := fun s => exists c1 sp1 inner, s = SMaxP c1 sp sp1 thr' inner).
  eapply (post_weaken anyexn anyexn True True); [auto|auto| |
    apply (maxp_fit_post strategy _ _ O d g attr sp thr' Hsym Hloop Hsp Hpos anyexn True (fun _ => True) JW (fun mp _ l => valid_result g sp thr' mp l))]; auto.
  - intros [[labels ls'] r'] _ [mp [before [r1 [parts [r2 [l [v [s' [H1 [H2 [H3 [_ [_ [_ [_ [[_ [P [l0 [_ [_ [_ H]]]]]] _]]]]]]]]]]]]]]]].
    exists mp, before, r1, l. auto.
  - intros s _. unfold JW. destruct in_place_first as [us ->]. cbn [stack]. eauto.
  - intros mp s l0 r0 [c1 [sp1 [inner ->]]] [Hf [Hm1 Hmeet]].
    eapply (post_bind anyexn True _ _ _ _).
    + apply (wrapped_fit_post expf order Hord O g Hsym attr sp thr' Hsp Hpos anyexn True (fun _ => True) (fun _ _ _ _ => True)); auto.
      * intros c l inner' _ _ _. destruct (start_common l (attr_c attr g c) O); cbn [bind]; try exact Logic.I. destruct (strat_start O inner' l (attr_c attr g c) (comp_nodes g c)); exact Logic.I.
      * intros c l1 s a r1 l rg _ _ _ _. destruct (strat_call expf s a r1 l rg) as [[[b s1] rg1]| |]; exact Logic.I.
      * lia.
      * rewrite Nat2Z.id. auto.
    + intros [[labels s'] r'] _ [H1 [H2 [[c2 [sp2 [i2 [-> _]]]] _]]]. cbn [post]. rewrite Nat2Z.id in H1.
      split; [exists c2, sp2, i2; auto|]. exists labels. split; [auto|split; auto].
  - intros mp l0 l _ _. destruct (o_call O l attr); exact Logic.I.
  - intros mp x m _ _. exact Logic.I.
  - destruct ls; auto.
Qed.

Hypothesis Hattr : length attr = gn g.
Hypothesis Hex : exact_on O attr.
Theorem stack_default N fuel max_it entropy labels0 ls r : 0 < max_it -> (N \/ gn g + 1 < fuel) ->
  match ls with Some s => azp_inside s | None => True end ->
  post (fun e => (exists v isl, v < gn g /\ island g v isl /\ ~ meets_in sp thr' isl) /\ exists m, e = ValueError m) N
    (stack_fit expf order O d g attr sp thr thr' fuel max_it entropy labels0 ls r) (fun _ => True).
Proof.
  intros Hit Hfuel Hls. unfold stack_fit.
  set (JW := fun s => exists c1 sp1 inner, s = SMaxP c1 sp sp1 thr' inner /\ azp_inside inner).
  set (Ex := fun e => (exists v isl, v < gn g /\ island g v isl /\ ~ meets_in sp thr' isl) /\ exists m, e = ValueError m).
  eapply (post_weaken Ex Ex N N); [auto|auto| |
    apply (maxp_fit_post strategy _ _ O d g attr sp thr' Hsym Hloop Hsp Hpos Ex N azp_inside JW (fun mp l0 l => valid_result g sp thr' mp l))]; auto.
  - intros s Hs. unfold JW. destruct in_place_first as [us ->]. cbn [stack]. eexists _, _, _. split; [reflexivity|]. apply stack_inside. exact Hs.
  - intros s [c1 [sp1 [inner [-> Hi]]]]. exact Hi.
  - intros mp s l0 r0 [c1 [sp1 [inner [-> Hi]]]] [Hf [Hm1 Hmeet]].
    eapply (post_bind Ex N _ _ _ _).
    + set (Inner := fun c l0 s l => exists v0, o_call O l0 (attr_c attr g c) = Ok v0 /\ tr O (attr_c attr g c) v0 s l).
      apply (wrapped_fit_post expf order Hord O g Hsym attr sp thr' Hsp Hpos Ex N azp_inside Inner); auto.
      * intros c l i Hc Hwf Hii. destruct (attr_c_exact O attr Hex g Hattr c) as [Hcall _].
        destruct (Hcall l) as [v Ev]; [rewrite attr_c_length; apply Hwf|].
        unfold start_common. rewrite Ev. cbn [bind]. destruct (tr_start O (attr_c attr g c) i l (comp_nodes g c) v Hii Ev) as [s' [Es Ht]].
        rewrite Es. cbn [post]. exists v. auto.
      * intros c l1 s a r1 l rg Hc Hwf Hl [v0 [Ev0 Ht]].
        eapply (post_weaken noexn Ex N N); [intros e []|auto| |apply (tr_call_post expf O (attr_c attr g c) (comp_graph g c) v0 N)]; auto.
        -- intros [[b s'] rg'] _ H. exists v0. auto.
        -- apply attr_c_exact; auto.
        -- apply attr_c_length.
      * intros c l1 s l [v0 [_ Ht]]. eapply tr_inside; eauto.
      * lia.
      * rewrite Nat2Z.id. auto.
    + intros [[labels s'] r'] _ [H1 [H2 [[c2 [sp2 [i2 [-> Hi2]]]] HIn]]]. cbn [post]. rewrite Nat2Z.id in H1.
      split; [exists c2, sp2, i2; auto|]. exists labels. split; [auto|]. split; auto.
  - intros mp l0 l _ [[Hl _] _]. destruct (Hex attr (fun x H => H)) as [Hcall _].
    destruct (Hcall l) as [v Ev]; [lia|]. rewrite Ev. cbn; auto.
  - intros mp x m [Hl [F [HE HG]]] Hn. split; [|eauto].
    destruct (unmet_island g sp thr') as [H|H]; [|exact H].
    exfalso. apply Hn. apply (island_served g Hsym sp thr' (fst x) F HG). exact H.
  - destruct ls; auto.
Qed.
End Result.

(** ** a threshold that is not a number: only areas without amounts move *)
Section Frozen.
Variable order : list edge -> list edge.
Hypothesis Hord : forall l, Permutation (order l) l.
Variable O : objfun.
Variable g : graph.
Variables attr sp : list (list Q).
Variable thr : list bound.
Hypothesis Hsym : symmetric g.
Hypothesis Hsh : shaped_for sp thr (gn g).
Hypothesis Hnan : In NotANumber thr.
Hypothesis Hnz : forall a, a < gn g -> any_nonzero (row sp a) = true.
Definition wrapped (s : bstrategy) : Prop := exists c sp1 i, s = BMaxP c sp sp1 thr i.

Lemma donor_never c l a : c < n_components g -> length l = gn (comp_graph g c) -> a < gn (comp_graph g c) -> bdonor_ok (map (row sp) (comp_nodes g c)) thr a l = false.
Proof.
  intros Hc Hl Ha. set (spc := map (row sp) (comp_nodes g c)). rewrite comp_graph_n in Ha, Hl.
  assert (Erow : row spc a = row sp (nth a (comp_nodes g c) 0)).
  { unfold row at 1, spc. erewrite nth_error_nth; [reflexivity|]. rewrite nth_error_map, (nth_error_nth' _ 0) by auto. reflexivity. }
  assert (Hlen : length spc = length (comp_nodes g c)) by (unfold spc; apply map_length).
  assert (Hx : forall x, In x spc -> length x = length thr).
  { intros x Hx. apply in_map_iff in Hx. destruct Hx as [i [<- Hi]]. destruct Hsh as [Hn Hx]. apply Hx. unfold row. apply nth_In. rewrite Hn. eapply comp_nodes_lt; eauto. }
  unfold bdonor_ok. rewrite Erow at 1. rewrite Hnz by (eapply comp_nodes_lt, nth_In; eauto).
  set (x := sub_rows _ _).
  assert (Hlx : length x = length thr).
  { unfold x. rewrite sub_rows_length, (sum_rows_length _ (length thr)).
    - rewrite (Hx (row spc a)); [lia|]. unfold row. apply nth_In. lia.
    - intros C. assert (Hi : In (row spc a) (rows_of l (lab l a) spc)); [|rewrite C in Hi; destruct Hi]. unfold rows_of. apply in_map_iff. exists a. split; [auto|].
      unfold where_eq. apply filter_In. split; [apply in_seq; lia|apply Z.eqb_refl].
    - intros y Hy. unfold rows_of in Hy. apply in_map_iff in Hy. destruct Hy as [i [<- Hi]]. apply Hx. unfold row. apply nth_In. unfold where_eq in Hi.
      apply filter_In in Hi. destruct Hi as [Hi _]. apply in_seq in Hi. lia. }
  destruct (all_at_least thr x) eqn:E; [|auto]. rewrite all_at_least_spec in E by auto. apply In_nth_error in Hnan. destruct Hnan as [k Hk].
  specialize (E k _ Hk). discriminate.
Qed.

Lemma frozen_fit fuel p l s r : feasible g l (Z.to_nat p) -> (0 <= p)%Z -> ~ In (-1)%Z l -> wrapped s ->
  post anyexn True (bazp_fit order O fuel g attr p (Some l) s r) (fun '((labels, s'), _) => labels = l /\ wrapped s').
Proof.
  intros Hf Hp Hm Hw. unfold bazp_fit.
  eapply (post_weaken anyexn anyexn True True); [auto|auto| |
    apply (fit_post bstrategy (bstrat_start O) _ order g attr anyexn True wrapped (fun _ l l' => l' = l))]; auto.
  - intros [[labels s'] r'] _ [HW [l0 [[_ [_ ->]] [Hlen HR]]]]. split; [|auto]. destruct Hf as [Hl _].
    apply nth_error_ext'; [lia|]. intros a Ha.
    assert (Hag : a < gn g) by lia.
    pose proof (HR (comp_label g a) (comp_label_lt g a Hag)) as E.
    destruct (nth_error labels a) as [z|] eqn:Ez; [|apply nth_error_None in Ez; lia].
    assert (Hi : In a (comp_nodes g (comp_label g a))) by (apply comp_nodes_In; auto).
    apply In_nth_error in Hi. destruct Hi as [i Hi].
    unfold comp_part, gather in E. apply (f_equal (fun L => nth_error L i)) in E. rewrite !nth_error_map, Hi in E. cbn in E. injection E as E.
    unfold lab in E. rewrite (nth_error_nth' l (-1)%Z) by lia. rewrite <- E. f_equal. symmetry. apply nth_error_nth. exact Ez.
  - intros c lc s0 r0 Hc Hwf [c0 [sp1 [i ->]]]. unfold run_component. cbn [bstrat_start].
    destruct (start_common _ _ _) as [cc|e|]; cbn [bind]; [|exact Logic.I|exact Logic.I].
    destruct (bstrat_start _ _ _ _ _) as [i'|e|]; cbn [bind]; [|exact Logic.I|exact Logic.I].
    set (spc := map (row sp) (comp_nodes g c)). set (s1 := BMaxP cc sp spc thr i').
    eapply (post_weaken anyexn anyexn True True); [auto|auto| |
      apply (azp_component_post bstrategy bstrat_call bstrat_val (comp_graph g c) (comp_symmetric g c Hsym) anyexn True
        (fun s l => l = lc /\ s = s1) (fun _ s l => l = lc /\ s = s1) (fun _ _ _ _ => True) (fun _ _ _ => True)) with (m := fun _ => 0)]; auto.
    + intros [[l' s'] r'] _ [Hwf' [Hs' [[-> ->] _]]]. split; [unfold wrapped, s1; eauto|]. auto.
    + intros _ s2 a z l2 rg Hwf2 Hlm [-> ->]. unfold s1. cbn [bstrat_call].
      destruct Hwf2 as [Hl2 _], Hlm as [Ha _]. unfold spc. rewrite donor_never by auto. cbn. auto.
    + eapply comp_part_nonempty; eauto.
  - split; auto.
Qed.
End Frozen.

(** ** every area large enough by itself *)
Section Alone.
Variables (d : list Q -> list Q -> Q) (g : graph) (attr sp : list (list Q)) (thr : list Q).
Hypothesis Hall : forall a, a < gn g -> reaches (row sp a) thr = true.
Lemma grow_loop_alone : forall fuel P F U A r P' F' r', (forall a, In a U -> a < gn g) ->
  grow_loop d g attr sp thr fuel P F U A r = Ok (P', F', r') -> length P' = length P + length U.
Proof.
  induction fuel as [|fuel IH]; intros P F U A r P' F' r' HU H; destruct U as [|u U]; cbn [grow_loop] in H; try discriminate.
  1,2: injection H as <- _ _; cbn; lia.
  apply bind_Ok in H. destruct H as [[[a U1] r1] [Ep H]]. apply pop_randomly_from_inv in Ep. destruct Ep as [Hp _].
  rewrite Hall in H by (apply HU; rewrite Hp; left; auto). cbv zeta in H.
  apply IH in H; [|intros b Hb; apply HU; rewrite Hp; right; auto]. apply Permutation_length in Hp. rewrite app_length in H. cbn in *. lia.
Qed.
Lemma construct_alone : forall k mp best r mp' best' r', mp <= gn g -> (0 < k \/ mp = gn g) ->
  construct d g attr sp thr k mp best r = Ok (mp', best', r') -> mp' = gn g.
Proof.
  induction k as [|k IH]; intros mp best r mp' best' r' Hm Hk H; cbn [construct] in H; [injection H as <- _ _; lia|].
  apply bind_Ok in H. destruct H as [[[P F] r1] [Hg H]]. unfold grow_regions in Hg. apply grow_loop_alone in Hg; [|intros a Ha; apply in_seq in Ha; lia].
  rewrite seq_length in Hg. cbn in Hg. cbv zeta in H. rewrite Hg in H. destruct (Nat.ltb_spec mp (gn g)); [eapply IH in H; auto|].
  destruct (Nat.eqb_spec (gn g) mp); [|lia]. eapply IH in H; auto.
Qed.
End Alone.
Lemma all_distinct l : n_labels l = length l -> NoDup l.
Proof.
  unfold n_labels. induction l as [|z l IH]; intros H; [constructor|]. cbn [nodup length] in H.
  assert (Hle : length (nodup Z.eq_dec l) <= length l) by (clear; induction l as [|y l IH]; cbn; [lia|destruct (in_dec Z.eq_dec y l); cbn; lia]).
  destruct (in_dec Z.eq_dec z l); cbn [length] in H; [lia|]. constructor; auto.
Qed.

(** ** a local search that moves nothing *)
Section Still.
Variable LS : Type.
Variable wrap : LS -> LS.
Variable ls_fit : LS -> Z -> list Z -> rng -> out (option (list Z) * LS * rng).
Variables (obj : objfun) (attr : list (list Q)) (mp : nat) (JW : LS -> Prop) (Good : list Z -> Prop).
Hypothesis Hwrap : forall s, JW (wrap s).
Hypothesis Hfit : forall s l0 r x s' r', JW s -> Good l0 -> ls_fit s (Z.of_nat mp) l0 r = Ok (x, s', r') -> x = Some l0 /\ JW s'.
Definition still : unit -> Z -> list Z -> rng -> out (option (list Z) * unit * rng) := fun _ _ l r => Ok (Some l, tt, r).
Lemma search_all_still : forall parts s b r s' b' r' r0, JW s -> (forall P l, In P parts -> array_from_region_list P = Ok l -> Good l) ->
  search_all LS ls_fit obj attr mp parts s b r = Ok (s', b', r') -> search_all unit still obj attr mp parts tt b r0 = Ok (tt, b', r0).
Proof.
  induction parts as [|P parts IH]; intros s b r s' b' r' r0 Hs HP H; cbn [search_all] in H |- *; [congruence|].
  apply bind_Ok in H. destruct H as [l0 [E0 H]]. apply bind_Ok in H. destruct H as [[[x s1] r1] [E1 H]].
  rewrite E0. cbn [bind still].
  destruct (Hfit _ _ _ _ _ _ Hs (HP P l0 (or_introl eq_refl) E0) E1) as [-> Hs1].
  apply bind_Ok in H. destruct H as [v [Ev H]]. rewrite Ev. cbn [bind].
  eapply IH; eauto. intros P' l HP'. apply HP. right; auto.
Qed.
Lemma search_rounds_still parts : (forall P l, In P parts -> array_from_region_list P = Ok l -> Good l) -> forall k s b r s' b' r' r0,
  search_rounds LS wrap ls_fit obj attr k mp parts s b r = Ok (s', b', r') ->
  search_rounds unit (fun u => u) still obj attr k mp parts tt b r0 = Ok (tt, b', r0).
Proof.
  intros HP. induction k as [|k IH]; intros s b r s' b' r' r0 H; cbn [search_rounds] in H |- *; [congruence|].
  apply bind_Ok in H. destruct H as [[[s1 b1] r1] [E1 H]].
  rewrite (search_all_still _ _ _ _ _ _ _ r0 (Hwrap s) HP E1). cbn [bind]. eapply IH; eauto.
Qed.
End Still.

Section StillFit.
Variable LS : Type.
Variable wrap : LS -> LS.
Variable ls_fit : LS -> Z -> list Z -> rng -> out (option (list Z) * LS * rng).
Variables (obj : objfun) (d : list Q -> list Q -> Q) (g : graph) (attr sp : list (list Q)) (thr : list Q).
Hypothesis Hsym : symmetric g.
Hypothesis Hloop : no_self_loops g.
Hypothesis Hsp : shaped sp thr (gn g).
Hypothesis Hpos : non_negative sp.
Variable JW : LS -> Prop.
Hypothesis Hwrap : forall s, JW (wrap s).
Hypothesis Hfit : forall mp s l0 r x s' r', JW s -> feasible g l0 mp -> ~ In (-1)%Z l0 -> ls_fit s (Z.of_nat mp) l0 r = Ok (x, s', r') -> x = Some l0 /\ JW s'.
Lemma maxp_fit_still new max_it labels0 ls r labels ls' r' : 0 < max_it ->
  maxp_fit LS wrap ls_fit obj attr new d g sp thr max_it labels0 ls r = Ok (labels, ls', r') ->
  exists r2, maxp_fit unit (fun u => u) still obj attr (fun r => (tt, r)) d g sp thr max_it labels0 None r = Ok (labels, Some tt, r2).
Proof.
  intros Hit H. unfold maxp_fit in *.
  pose proof (construct_post d g attr sp thr Hsym Hloop Hsp max_it 0 [] r (fun x (H : In x []) => match H with end) (or_intror eq_refl)) as Hc.
  destruct (construct d g attr sp thr max_it 0 [] r) as [[[mp before] r1]|e|]; cbn [bind post] in *; [|discriminate|discriminate].
  destruct Hc as [Hk [Hne|[H0 _]]]; [|lia].
  pose proof (assign_each_post d g attr sp thr Hsym mp before r1 Hk) as Ha.
  destruct (assign_each d g attr before r1) as [[parts r2]|e|] eqn:Ea; cbn [bind post] in *; [|discriminate|discriminate].
  destruct Ha as [_ Hall].
  assert (Hst : forall P, In P parts -> startable g sp thr mp P).
  { intros P HP. apply In_nth_error in HP. destruct HP as [k HP]. destruct (Forall2_nth_r _ _ _ Hall k P HP) as [x [Hx [Hpp Hi]]].
    apply (kept_startable g sp thr Hpos mp x P); auto. apply Hk. eapply nth_error_In; eauto. }
  assert (Hpne : parts <> []) by (intros ->; inversion Hall; subst; contradiction).
  destruct parts as [|P0 parts0]; [contradiction|]. set (parts := P0 :: parts0) in *.
  destruct (match ls with Some l => (l, r2) | None => new r2 end) as [ls0 r3] eqn:Els.
  apply bind_Ok in H. destruct H as [[[s1 b1] r4] [E1 H]]. injection H as <- _ _.
  exists r2. rewrite (search_rounds_still LS wrap ls_fit obj attr mp JW (fun l => feasible g l mp /\ ~ In (-1)%Z l) Hwrap) with (s := ls0) (r := r3) (s' := s1) (b' := b1) (r' := r4); auto.
  - intros s l0 r0 x s' r5 HJ [Hf Hm]. apply Hfit; auto.
  - intros P l HP El. destruct (Hst P HP) as [l1 [E2 [Hf [Hm _]]]]. rewrite El in E2. injection E2 as <-. auto.
Qed.
End StillFit.
