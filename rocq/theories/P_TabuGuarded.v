(** NaN and infinite thresholds, and missing amounts, with the tabu classes as local search of MaxPRegionsHeu: proofs. *)
From Verif Require Import Base Spec SpecData SpecBound M_Graph P_Graph M_Util P_Base P_Util P_Forest P_Init P_Initial
  M_Objective P_Sum P_Objective M_Azp P_Azp P_Strategy P_Fit P_AzpFit M_Sa P_Sa M_Tabu P_Tabu P_TabuFit P_Reactive
  M_MaxP P_MaxP P_MaxP2 P_MaxP3 P_MaxP4 M_TabuWith P_TabuWith P_FloatMaxP P_Guarded
  M_Grow P_MaxPChecked M_MaxPThreshold P_MaxPThreshold P_MaxPThreshold2 P_MaxPThreshold3 M_MaxPMissing SpecAmounts P_MaxPMissing P_MaxPMissing2 M_TabuGuarded.

(** ** thresholds *)
Section Threshold.
Variable order : list edge -> list edge.
Hypothesis Hord : forall l, Permutation (order l) l.
Variable O : objfun.
Variable d : list Q -> list Q -> Q.
Variable g : graph.
Variables attr sp : list (list Q).
Variable thr : list bound.
Variable thr' : list Q.
Hypothesis Hsym : symmetric g.
Hypothesis Hloop : no_self_loops g.
Hypothesis Hsh : shaped_for sp thr (gn g).
Hypothesis Hpos : non_negative sp.
Hypothesis Hfin : made_finite thr thr'.
Hypothesis Hno : ~ In PosInf thr.
Hypothesis Hsome : exists t, In t thr' /\ (0 < t)%Q.
Notation Hsp := (finite_shaped g sp thr thr' Hsh Hfin).
Notation spc c := (map (row sp) (comp_nodes g c)).
Definition bt_K (c : nat) (s : bstrategy) : Prop := exists cc i, s = BMaxP cc sp (spc c) thr i.

Lemma bt_start c l s : c < n_components g -> wrapped sp thr s -> post anyexn True (bstrat_start O s l (attr_c attr g c) (comp_nodes g c)) (bt_K c).
Proof.
  intros _ [c0 [sp1 [i ->]]]. cbn [bstrat_start].
  destruct (start_common _ _ _) as [cc|e|]; cbn [bind]; [|exact Logic.I|exact Logic.I].
  destruct (bstrat_start _ _ _ _ _) as [i'|e|]; cbn [bind post]; [|exact Logic.I|exact Logic.I]. unfold bt_K. eauto.
Qed.
Lemma bt_spared c l a : c < n_components g -> length l = gn (comp_graph g c) -> a < gn (comp_graph g c) ->
  bdonor_ok (spc c) thr a l = true -> spared (spc c) thr' a l.
Proof.
  intros Hc Hl Ha H. rewrite (donor_same g sp thr thr' Hsh Hpos Hfin Hno c l a Hc Hl Ha) in H.
  destruct (in_place_first g sp thr thr') as [us E]. rewrite E in H. cbn [forallb] in H. apply andb_true_iff in H. destruct H as [H _].
  apply donor_ok_spec in H; [exact H| |lia]. rewrite Hl. apply (comp_shaped g sp thr' Hsp).
Qed.
Lemma bt_call c s a z l r : c < n_components g -> bt_K c s -> length l = gn (comp_graph g c) -> a < gn (comp_graph g c) ->
  post anyexn True (bstrat_call s a z l r) (fun '(b, s', _) => bt_K c s' /\
    (b = true -> spared (spc c) thr' a l /\ forall l0 : list Z, True -> True)).
Proof.
  intros Hc [cc [i ->]] Hl Ha. cbn [bstrat_call]. destruct (bdonor_ok (spc c) thr a l) eqn:Ed.
  2: { cbn [post]. split; [unfold bt_K; eauto|discriminate]. }
  destruct (bstrat_call i a z l r) as [[[b i'] r']|e|]; cbn [bind post]; [|exact Logic.I|exact Logic.I].
  split; [unfold bt_K; eauto|]. intros _. split; [apply bt_spared; auto|auto].
Qed.
Lemma bt_KJ c s : bt_K c s -> wrapped sp thr s.
Proof. intros [cc [i ->]]. unfold wrapped. eauto. Qed.

Theorem bmaxp_basic_any fuel maxlen reps max_it labels0 s r : 0 < max_it ->
  post anyexn True (bmaxp_basic_fit order O d fuel maxlen reps g attr sp thr max_it labels0 s r)
    (fun '(labels, _, _) => exists mp before r1 l,
       construct d g attr sp thr' max_it 0 [] r = Ok (mp, before, r1) /\ labels = Some l /\ valid_result g sp thr' mp l).
Proof.
  intros Hit. unfold bmaxp_basic_fit. rewrite (same_construction g sp thr thr' (proj2 Hsh) Hpos Hfin Hno).
  eapply (post_weaken anyexn anyexn True True); [auto|auto| |
    apply (gu_maxp_basic_post bstrategy (bstrat_start O) bstrat_call order Hord O d g attr sp thr' Hsym Hloop Hsp Hpos Hsome
      (wrapped sp thr) bt_K (fun _ _ _ => True) (fun _ _ => Logic.I) bt_start bt_call bt_KJ (fun _ => True) (bwrap sp thr))]; auto.
  - intros [[labels s'] r'] _ [mp [before [r1 [parts [r2 [l [H1 [_ [H2 [H3 _]]]]]]]]]]. exists mp, before, r1, l. auto.
  - intros s0. unfold wrapped, bwrap. eauto.
Qed.
Theorem bmaxp_reactive_any maxit k1 k2 max_it labels0 s r : n_components g = 1 -> 0 < max_it -> rw_visited s = [] ->
  post anyexn True (bmaxp_reactive_fit order O d maxit k1 k2 g attr sp thr max_it labels0 s r)
    (fun '(labels, _, _) => exists mp before r1 l,
       construct d g attr sp thr' max_it 0 [] r = Ok (mp, before, r1) /\ labels = Some l /\ valid_result g sp thr' mp l).
Proof.
  intros Hone Hit Hv. unfold bmaxp_reactive_fit. rewrite (same_construction g sp thr thr' (proj2 Hsh) Hpos Hfin Hno).
  apply (gu_maxp_reactive_post bstrategy (bstrat_start O) bstrat_call order Hord O d g attr sp thr' Hsym Hloop Hsp Hpos Hsome
      (wrapped sp thr) bt_K (fun _ _ _ => True) (fun _ _ => Logic.I) bt_start bt_call bt_KJ (fun _ => True) (bwrap sp thr)); auto.
  intros s0. unfold wrapped, bwrap. eauto.
Qed.
End Threshold.

(** a threshold that is not a number: areas with an amount do not move *)
Section FrozenBasic.
Variable order : list edge -> list edge.
Hypothesis Hord : forall l, Permutation (order l) l.
Variable O : objfun.
Variable g : graph.
Variables attr sp : list (list Q).
Variable thr : list bound.
Hypothesis Hsh : shaped_for sp thr (gn g).
Hypothesis Hnan : In NotANumber thr.
Hypothesis Hnz : forall a, a < gn g -> any_nonzero (row sp a) = true.

Lemma parts_same l labels : length l = gn g -> length labels = gn g -> (forall c, c < n_components g -> comp_part g labels c = comp_part g l c) -> labels = l.
Proof.
  intros Hl Hlen HR. apply nth_error_ext'; [lia|]. intros a Ha.
  assert (Hag : a < gn g) by lia.
  pose proof (HR (comp_label g a) (comp_label_lt g a Hag)) as E.
  destruct (nth_error labels a) as [z|] eqn:Ez; [|apply nth_error_None in Ez; lia].
  assert (Hi : In a (comp_nodes g (comp_label g a))) by (apply comp_nodes_In; auto).
  apply In_nth_error in Hi. destruct Hi as [i Hi].
  unfold comp_part, gather in E. apply (f_equal (fun L => nth_error L i)) in E. rewrite !nth_error_map, Hi in E. cbn in E. injection E as E.
  unfold lab in E. rewrite (nth_error_nth' l (-1)%Z) by lia. rewrite <- E. f_equal. symmetry. apply nth_error_nth. exact Ez.
Qed.
Lemma frozen_basic fuel maxlen reps p l s r : feasible g l (Z.to_nat p) -> (0 <= p)%Z -> ~ In (-1)%Z l -> wrapped sp thr s ->
  post anyexn True (bbasic_fit order O fuel maxlen reps g attr p (Some l) s r) (fun '((labels, s'), _) => labels = l /\ wrapped sp thr s').
Proof.
  intros Hf Hp Hm Hw. unfold bbasic_fit.
  eapply (post_weaken anyexn anyexn True True); [auto|auto| |
    apply (fit_post bstrategy (bstrat_start O) _ order g attr anyexn True (wrapped sp thr) (fun _ l l' => l' = l))]; auto.
  - intros [[labels s'] r'] _ [HW [l0 [[_ [_ ->]] [Hlen HR]]]]. split; [|auto]. apply parts_same; [apply Hf|auto|auto].
  - intros c lc s0 r0 Hc Hwf Hw0. unfold run_component. fold (attr_c attr g c).
    eapply post_bind; [apply (bt_start O g attr sp thr c lc s0 Hc Hw0)|]. intros s1 _ Hs1.
    eapply (post_weaken anyexn anyexn True True); [auto|auto| |
      apply (basic_component_with_post bstrategy bstrat_call O (attr_c attr g c) (comp_graph g c) anyexn True) with (names := fun z => In z lc)
               (K := bt_K g sp thr c) (V := fun l => l = lc) (M := fun _ => 0)]; auto.
    + intros [[l' s'] r'] _ [-> HK']. split; [eapply bt_KJ; eauto|]. auto.
    + intros l1 ->. auto.
    + intros l1 ->. auto.
    + intros s2 a z l1 r1 [cc [i ->]] -> Ha Hz. cbn [bstrat_call]. rewrite (donor_never g sp thr Hsh Hnan Hnz) by (auto; apply Hwf).
      cbn [post]. split; [unfold bt_K; eauto|discriminate].
    + intros. apply anyexn_post.
  - split; auto.
Qed.
End FrozenBasic.

(** ** missing amounts *)
Section Missing.
Variable expf : Q -> Q.
Variable order : list edge -> list edge.
Hypothesis Hord : forall l, Permutation (order l) l.
Variable O : objfun.
Variable d : list Q -> list Q -> Q.
Variable g : graph.
Variable attr : list (list Q).
Variable sp : list (list (option Q)).
Variable sp' : list (list Q).
Variable thr : list Q.
Hypothesis Hsym : symmetric g.
Hypothesis Hloop : no_self_loops g.
Hypothesis Hrec : recorded sp thr (gn g).
Hypothesis Hknown : known_non_negative sp.
Hypothesis Hfill : amply_filled thr sp sp'.
Hypothesis Hsome : exists t, In t thr /\ (0 < t)%Q.
Notation spc c := (map (nrow sp) (comp_nodes g c)).
Notation Hsp := (filled_shaped sp sp' thr (gn g) Hrec Hknown Hfill).
Notation Hnn := (filled_non_negative sp sp' thr (gn g) Hrec Hknown Hfill).
Notation Hrows := (filled_rows sp sp' thr (gn g) Hrec Hknown Hfill).
Definition nt_J (s : nstrategy) : Prop := exists c sp1 i, s = NMaxP c sp sp1 thr i.
Definition nt_K (c : nat) (s : nstrategy) : Prop := exists cc i, s = NMaxP cc sp (spc c) thr i.
Definition nt_W (c : nat) (l0 l : list Z) : Prop := forall a k, lacks (spc c) a k -> lab l a = lab l0 a.

Lemma nt_start c l s : c < n_components g -> nt_J s -> post anyexn True (nstrat_start O s l (attr_c attr g c) (comp_nodes g c)) (nt_K c).
Proof.
  intros _ [c0 [sp1 [i ->]]]. cbn [nstrat_start].
  destruct (start_common _ _ _) as [cc|e|]; cbn [bind]; [|exact Logic.I|exact Logic.I].
  destruct (nstrat_start _ _ _ _ _) as [i'|e|]; cbn [bind post]; [|exact Logic.I|exact Logic.I]. unfold nt_K. eauto.
Qed.
Lemma nt_call c s a z l r : c < n_components g -> nt_K c s -> length l = gn (comp_graph g c) -> a < gn (comp_graph g c) ->
  post anyexn True (nstrat_call expf s a z l r) (fun '(b, s', _) => nt_K c s' /\
    (b = true -> spared (map (row sp') (comp_nodes g c)) thr a l /\ forall l0, nt_W c l0 l -> nt_W c l0 (upd l a z))).
Proof.
  intros Hc [cc [i ->]] Hl Ha. cbn [nstrat_call]. destruct (ndonor_ok (spc c) thr a l) eqn:Ed.
  2: { cbn [post]. split; [unfold nt_K; eauto|discriminate]. }
  destruct (nstrat_call expf i a z l r) as [[[b i'] r']|e|]; cbn [bind post]; [|exact Logic.I|exact Logic.I].
  split; [unfold nt_K; eauto|]. intros _.
  destruct (ndonor_spec (spc c) (map (row sp') (comp_nodes g c)) thr (gn (comp_graph g c)) (comp_recorded g sp thr Hrec c) (comp_known g sp thr Hrec Hknown c)
    (comp_filled g sp sp' thr Hrec Hfill c) l a Hl Ha Ed) as [Hs Hnl].
  split; [exact Hs|]. intros l0 HW b' k Hk. rewrite <- (HW b' k Hk). destruct (Nat.eq_dec b' a) as [->|Hne]; [exfalso; eapply Hnl; eauto|].
  unfold lab. destruct (Nat.lt_ge_cases b' (length l)) as [Hb|Hb].
  - apply nth_error_nth. rewrite nth_error_upd_ne by auto. apply nth_error_nth'. auto.
  - rewrite !nth_overflow; auto. rewrite upd_length. auto.
Qed.
Lemma nt_KJ c s : nt_K c s -> nt_J s.
Proof. intros [cc [i ->]]. unfold nt_J. eauto. Qed.
Lemma nt_W0 c l : nt_W c l l.
Proof. intros a k _. reflexivity. Qed.
Lemma nt_keeps l l' : length l = gn g -> length l' = gn g -> (forall c, c < n_components g -> nt_W c (comp_part g l c) (comp_part g l' c)) -> keeps sp l l'.
Proof.
  intros Hl Hlen HR a k Hk. destruct Hrec as [Hls _].
  assert (Hag : a < gn g).
  { destruct (Nat.ltb_spec a (gn g)) as [|Hge]; [auto|]. unfold lacks in Hk. rewrite nth_overflow in Hk by lia. destruct k; discriminate. }
  assert (Hin : In a (comp_nodes g (comp_label g a))) by (apply comp_nodes_In; auto).
  apply (In_nth _ _ 0) in Hin. destruct Hin as [i [Hi Ei]].
  pose proof (HR (comp_label g a) (comp_label_lt g a Hag)) as H.
  assert (Hlk : lacks (map (nrow sp) (comp_nodes g (comp_label g a))) i k).
  { unfold lacks. rewrite (nth_indep _ [] (nrow sp 0)) by (rewrite map_length; auto). rewrite map_nth, Ei. exact Hk. }
  specialize (H i k Hlk).
  assert (Hpart : forall lb, length lb = gn g -> lab (comp_part g lb (comp_label g a)) i = lab lb a).
  { intros lb Hlb. apply lab_of_nth_error. unfold comp_part. pose proof (gather_nth (-1)%Z lb (comp_nodes g (comp_label g a)) i a) as Hg.
    rewrite Hg; [apply nth_error_nth'; lia|pose proof (nth_error_nth' (comp_nodes g (comp_label g a)) 0 Hi) as He; rewrite Ei in He; exact He|lia]. }
  rewrite !Hpart in H by auto. rewrite (nth_error_nth' l' (-1)%Z) by lia. rewrite (nth_error_nth' l (-1)%Z) by lia.
  f_equal. exact H.
Qed.

Theorem nmaxp_basic_any fuel maxlen reps max_it labels0 s r : 0 < max_it ->
  post anyexn True (nmaxp_basic_fit expf order O d fuel maxlen reps g attr sp thr max_it labels0 s r)
    (fun '(labels, _, _) => exists mp before r1 parts r2 l,
       construct d g attr sp' thr max_it 0 [] r = Ok (mp, before, r1) /\ assign_each d g attr before r1 = Ok (parts, r2) /\
       labels = Some l /\ valid_result g sp' thr mp l /\
       exists P l0, In P parts /\ array_from_region_list P = Ok l0 /\ keeps sp l0 l).
Proof.
  intros Hit. unfold nmaxp_basic_fit. rewrite (nmaxp_fit_same d g attr sp sp' thr Hrows).
  eapply (post_weaken anyexn anyexn True True); [auto|auto| |
    apply (gu_maxp_basic_post nstrategy (nstrat_start O) (nstrat_call expf) order Hord O d g attr sp' thr Hsym Hloop Hsp Hnn Hsome
      nt_J nt_K nt_W nt_W0 nt_start nt_call nt_KJ (fun _ => True) (NMaxP unstarted sp [] thr))]; auto.
  - intros [[labels s'] r'] _ [mp [before [r1 [parts [r2 [l [H1 [H2 [H3 [H4 [_ [P [l0 [HP [E0 [HL HW]]]]]]]]]]]]]]]].
    exists mp, before, r1, parts, r2, l. do 4 (split; [auto|]). exists P, l0. split; [auto|]. split; [auto|]. apply nt_keeps; auto. apply H4.
  - intros s0. unfold nt_J. eauto.
Qed.
Theorem nmaxp_reactive_any maxit k1 k2 max_it labels0 s r : n_components g = 1 -> 0 < max_it -> rw_visited s = [] ->
  post anyexn True (nmaxp_reactive_fit expf order O d maxit k1 k2 g attr sp thr max_it labels0 s r)
    (fun '(labels, _, _) => exists mp before r1 l,
       construct d g attr sp' thr max_it 0 [] r = Ok (mp, before, r1) /\ labels = Some l /\ valid_result g sp' thr mp l).
Proof.
  intros Hone Hit Hv. unfold nmaxp_reactive_fit. rewrite (nmaxp_fit_same d g attr sp sp' thr Hrows).
  apply (gu_maxp_reactive_post nstrategy (nstrat_start O) (nstrat_call expf) order Hord O d g attr sp' thr Hsym Hloop Hsp Hnn Hsome
      nt_J nt_K nt_W nt_W0 nt_start nt_call nt_KJ (fun _ => True) (NMaxP unstarted sp [] thr)); auto.
  intros s0. unfold nt_J. eauto.
Qed.
End Missing.
