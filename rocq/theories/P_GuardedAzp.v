(** AZP as local search of MaxPRegionsHeu when the wrapper's test is any test that implies [spared]; the objective under the tabu classes. *)
From Verif Require Import Base Spec SpecData SpecBound M_Graph P_Graph M_Util P_Base P_Util P_Forest P_Init P_Initial
  M_Objective P_Sum P_Objective M_Azp P_Azp P_Strategy P_Fit P_AzpFit M_Sa P_Sa M_Tabu P_Tabu P_TabuFit P_Reactive
  M_MaxP P_MaxP P_MaxP2 P_MaxP3 P_MaxP4 M_TabuWith P_TabuWith P_FloatMaxP P_Guarded
  M_Grow P_MaxPChecked M_MaxPThreshold P_MaxPThreshold P_MaxPThreshold2 P_MaxPThreshold3 M_MaxPMissing SpecAmounts P_MaxPMissing P_MaxPMissing2 M_TabuGuarded P_TabuGuarded.

Section GuardedAzp.
Variable St : Type.
Variable start : St -> list Z -> list (list Q) -> list nat -> out St.
Variable call : St -> nat -> Z -> list Z -> rng -> out (bool * St * rng).
Variable val : St -> Q.
Variable order : list edge -> list edge.
Hypothesis Hord : forall l, Permutation (order l) l.
Variable O : objfun.
Variable d : list Q -> list Q -> Q.
Variable g : graph.
Variables attr sp : list (list Q).
Variable thr : list Q.
Hypothesis Hsym : symmetric g.
Hypothesis Hloop : no_self_loops g.
Hypothesis Hsp : shaped sp thr (gn g).
Hypothesis Hpos : non_negative sp.
Variable E : exn -> Prop.
Variable N : Prop.
(** the wrapped object; the object in a component, with the value of the wrapper; what accepted moves keep *)
Variable J : St -> Prop.
Variable K : nat -> Q -> St -> Prop.
Variable W : nat -> list Z -> list Z -> Prop.
Hypothesis HW0 : forall c l, W c l l.
Notation spc c := (map (row sp) (comp_nodes g c)).
Hypothesis Hval : forall c v s, K c v s -> val s = v.
Hypothesis Hstart : forall c l s, c < n_components g -> wf (comp_graph g c) l -> J s ->
  post E N (start s l (attr_c attr g c) (comp_nodes g c)) (fun s' => exists v, K c v s').
Hypothesis Hcall : forall c v s a z l r, c < n_components g -> K c v s -> wf (comp_graph g c) l -> legal_move (comp_graph g c) l a z ->
  post E N (call s a z l r) (fun '(b, s', _) => K c v s' /\
    (b = true -> spared (spc c) thr a l /\ forall l0, W c l0 l -> W c l0 (upd l a z))).
Hypothesis HKJ : forall c v s, K c v s -> J s.

Definition gz_fit fuel p l s r :=
  fit St start (fun adj labels (_ : list (list Q)) s r => azp_component St call val adj fuel labels s r) order g attr p l s r.

Theorem gz_fit_post fuel p l s r : (N \/ gn g + 1 < fuel) ->
  (0 <= p)%Z -> feasible g l (Z.to_nat p) -> ~ In (-1)%Z l -> all_meet sp thr l -> J s ->
  post E N (gz_fit fuel p (Some l) s r)
    (fun '((labels, s'), _) => feasible g labels (Z.to_nat p) /\ all_meet sp thr labels /\ J s' /\
       forall c, c < n_components g -> W c (comp_part g l c) (comp_part g labels c)).
Proof.
  intros Hfuel Hp0 Hfeas Hm1 Hmeet HJ0. unfold gz_fit.
  set (R := fun c l l' => wf (comp_graph g c) l' /\ same_labels l' l /\ (forall z, In z l' -> meets (spc c) thr l' z) /\ W c l l').
  set (A := fun c l => forall z, In z l -> meets (spc c) thr l z).
  pose proof Hfeas as [Hl [Hn Hall]].
  assert (Hmc : forall c, c < n_components g -> A c (comp_part g l c)).
  { intros c Hc z Hz. apply comp_part_In in Hz; auto. destruct Hz as [a [Ha [Hca Ez]]]. subst c.
    apply meets_comp; [split; auto|auto|]. apply Hmeet. eapply nth_error_In; eauto. }
  eapply (post_weaken E E N N); [auto|auto| |
    apply (fit_post_from St _ _ order g attr E N (fun _ => J) R A)]; auto.
  - intros [[labels s'] r'] _ [HJ' [l0 [[_ [_ ->]] [Hlen HR]]]].
    assert (Hparts : forall c, c < n_components g -> wf (comp_graph g c) (comp_part g labels c) /\ same_labels (comp_part g labels c) (comp_part g l c)).
    { intros c Hc. destruct (HR c Hc) as [H1 [H2 _]]. auto. }
    assert (Hwf : wf g labels) by (split; [auto|apply (assembled_wf g l labels (conj Hl Hall) Hlen Hparts)]).
    split; [|split; [|split; [exact HJ'|]]].
    + split; [auto|]. split; [|apply Hwf]. rewrite <- Hn. apply same_labels_n. apply (assembled_same_labels g); auto. split; auto.
    + intros z Hz. apply In_nth_error in Hz. destruct Hz as [a Ha]. assert (Hag : a < gn g) by (apply nth_error_lt in Ha; lia).
      apply (meets_comp sp thr g labels a z Hwf Ha). destruct (HR (comp_label g a) (comp_label_lt g a Hag)) as [_ [_ [H _]]].
      apply H. apply comp_part_In; eauto.
    + intros c Hc. destruct (HR c Hc) as [_ [_ [_ H]]]. exact H.
  - intros c lc s0 rg j Hc Hne Hwf HA HJ1. unfold run_component. fold (attr_c attr g c).
    eapply post_bind; [apply (Hstart c lc s0 Hc Hwf HJ1)|]. intros s1 _ [v Hs1].
    set (I := fun s l => K c v s /\ (forall z, In z l -> meets (spc c) thr l z) /\ W c lc l).
    eapply (post_weaken E E N N); [auto|auto| |
      apply (azp_component_post St call val (comp_graph g c) (comp_symmetric g c Hsym) E N I (fun _ => I) (fun _ _ _ _ => True) (fun _ _ _ => True))
       with (m := fun _ => 0)]; auto.
    + intros [[l' s'] r'] _ [Hwf' [Hs' [[HK' [Hm' HW']] _]]]. split; [eapply HKJ; eauto|].
      split; [destruct Hwf, Hwf'; lia|]. split; [auto|]. split; [exact Hs'|]. split; [auto|auto].
    + intros _ s2 a z l1 r1 Hwf1 Hlm [HK1 [Hm HW1]]. pose proof (Hcall c v s2 a z l1 r1 Hc HK1 Hwf1 Hlm) as Hp.
      destruct (call s2 a z l1 r1) as [[[b s3] r3]|e|]; cbn [post] in *; [|auto|auto]. destruct Hp as [HK3 Hb].
      destruct b; [|split; [split; auto|auto]]. destruct (Hb eq_refl) as [Hsd HW2].
      assert (Hlen : length l1 = gn (comp_graph g c)) by apply Hwf1. destruct Hlm as [Ha [D [HD [Hned [_ [b' [_ [Hb' _]]]]]]]].
      split; [|auto]. split; [auto|]. split; [|auto].
      apply (spared_meets (spc c) thr a z l1); auto.
      * apply (comp_non_negative g sp thr Hsp Hpos c).
      * lia.
      * eapply nth_error_In; eauto.
      * apply lab_of_nth_error in HD. congruence.
    + right. intros s2 l2 s3 l3 _ _ [H2 _] _ _ [H3 _] Hlt. rewrite (Hval _ _ _ H2), (Hval _ _ _ H3) in Hlt. lra.
    + exact (comp_part_nonempty g c lc Hc Hwf).
    + split; [auto|]. split; [exact HA|apply HW0].
    + destruct Hfuel as [?|Hf]; [auto|right]. pose proof (comp_graph_le g c). lia.
  - split; auto.
Qed.

Variable JL : St -> Prop.
Variable wrap : St -> St.
Hypothesis Hwrap : forall s, JL s -> J (wrap s).
Hypothesis HJL : forall s, J s -> JL s.
Hypothesis Hobj : forall l, length l = gn g -> post E N (o_call O l attr) (fun _ => True).
Hypothesis HE : (exists v isl, v < gn g /\ island g v isl /\ ~ meets_in sp thr isl) -> forall m, E (ValueError m).
Theorem gz_maxp_post fuel max_it labels0 new ls r : 0 < max_it -> (N \/ gn g + 1 < fuel) ->
  match ls with Some s => JL s | None => forall r, JL (fst (new r)) end ->
  post E N (maxp_fit St wrap (fun s p l r => let* '((labels, s'), r') := gz_fit fuel p (Some l) s r in Ok (Some labels, s', r'))
              O attr new d g sp thr max_it labels0 ls r)
    (fun '(labels, ls', _) => exists mp before r1 parts r2 l,
       construct d g attr sp thr max_it 0 [] r = Ok (mp, before, r1) /\ assign_each d g attr before r1 = Ok (parts, r2) /\
       labels = Some l /\ valid_result g sp thr mp l /\ parts <> [] /\
       forall P, In P parts -> exists l0 l1 v v1, array_from_region_list P = Ok l0 /\ feasible g l0 mp /\ valid_result g sp thr mp l1 /\
         (forall c, c < n_components g -> W c (comp_part g l0 c) (comp_part g l1 c)) /\
         o_call O l attr = Ok v /\ o_call O l1 attr = Ok v1 /\ (v <= v1)%Q).
Proof.
  intros Hit Hfuel Hls.
  eapply (post_weaken E E N N); [auto|auto| |
    apply (maxp_fit_post St _ _ O d g attr sp thr Hsym Hloop Hsp Hpos E N JL J (fun mp l0 l => valid_result g sp thr mp l /\
      forall c, c < n_components g -> W c (comp_part g l0 c) (comp_part g l c)))]; auto.
  - intros [[labels ls'] r'] _ [mp [before [r1 [parts [r2 [l [v [s' [H1 [H2 [H3 [_ [_ [Hne [_ [[Ev [_ [_ [_ [_ [_ [HV _]]]]]]] Hcov]]]]]]]]]]]]]]]].
    exists mp, before, r1, parts, r2, l. do 5 (split; [auto|]). intros P HP. destruct (Hcov P HP) as [l0 [l1 [v1 [E0 [[Hf _] [[HV1 HW1] [Ev1 Hle]]]]]]].
    exists l0, l1, v, v1. auto 8.
  - intros mp s0 l0 r0 HJ0 [Hf [Hm1 Hmeet]].
    eapply (post_bind E N _ _ _ _); [apply gz_fit_post; auto; [lia|rewrite Nat2Z.id; auto]|].
    intros [[labels s'] r'] _ [H1 [H2 [H3 H4]]]. cbn [post]. rewrite Nat2Z.id in H1.
    split; [auto|]. exists labels. split; [auto|]. split; [split; auto|auto].
  - intros mp l0 l _ [[[Hl _] _] _]. apply Hobj. auto.
  - intros mp x m [Hl [F [HEq HG]]] Hn. apply HE.
    destruct (unmet_island g sp thr) as [H|H]; [|exact H].
    exfalso. apply Hn. apply (island_served g Hsym sp thr (fst x) F HG). exact H.
Qed.
End GuardedAzp.

(** the objective of a component does not rise *)
Section Objective.
Variable O : objfun.
Variable g : graph.
Variable attr : list (list Q).
Hypothesis Hattr : length attr = gn g.
Hypothesis Hex : exact_on O attr.
Definition ob_W (c : nat) (l0 l : list Z) : Prop :=
  forall v0, o_call O l0 (attr_c attr g c) = Ok v0 -> exists v, o_call O l (attr_c attr g c) = Ok v /\ (v <= v0)%Q.
Lemma ob_W0 c l : ob_W c l l.
Proof. intros v E. exists v. split; [auto|lra]. Qed.
Lemma ob_step c a z l q : length l = gn (comp_graph g c) -> a < gn (comp_graph g c) ->
  o_update O a z l (attr_c attr g c) = Ok q -> (q <= 0)%Q -> forall l0, ob_W c l0 l -> ob_W c l0 (upd l a z).
Proof.
  intros Hl Ha Eq Hq l0 HW v0 E0. destruct (HW v0 E0) as [v1 [E1 H1]].
  destruct (attr_c_exact O attr Hex g Hattr c) as [_ [_ Hup]]. pose proof (attr_c_length attr g c) as Hlen.
  destruct (Hup a z l q ltac:(lia) ltac:(lia) Eq) as [v [v' [Ev [Ev' Hd]]]]. rewrite E1 in Ev. injection Ev as <-.
  exists v'. split; [auto|lra].
Qed.
(** a legal move: the objective answers *)
Lemma ob_answers (E : exn -> Prop) N c a z l : wf (comp_graph g c) l -> legal_move (comp_graph g c) l a z ->
  post E N (o_update O a z l (attr_c attr g c)) (fun _ => True).
Proof.
  intros Hwf [Ha [D [HD [Hne [Hcon [b [Hb [Hrb _]]]]]]]]. destruct (attr_c_exact O attr Hex g Hattr c) as [_ [Hup _]]. pose proof (attr_c_length attr g c) as Hlen.
  assert (Hl : length l = gn (comp_graph g c)) by apply Hwf.
  destruct (Hup a z l) as [q Eq]; [lia|lia| | |rewrite Eq; exact Logic.I].
  - eapply nth_error_In. exact Hrb.
  - destruct Hcon as [[x [Hrx Hxa]] _]. exists x. split; [auto|]. rewrite HD. exact Hrx.
Qed.
End Objective.
Lemma ob_het d g attr p l0 l1 l v v1 : feasible g l0 p -> feasible g l1 p ->
  (forall c, c < n_components g -> ob_W (pairwise d) g attr c (comp_part g l0 c) (comp_part g l1 c)) ->
  o_call (pairwise d) l attr = Ok v -> o_call (pairwise d) l1 attr = Ok v1 -> (v <= v1)%Q ->
  (heterogeneity (dist d attr) l <= heterogeneity (dist d attr) l0)%Q.
Proof.
  intros Hf0 Hf1 Hnw Ev Ev1 Hle.
  destruct (pairwise_call_spec d l attr) as [x [Ex Hx]]. destruct (pairwise_call_spec d l1 attr) as [x1 [Ex1 Hx1]].
  cbn [o_call pairwise] in Ev, Ev1. rewrite Ev in Ex. rewrite Ev1 in Ex1. injection Ex as <-. injection Ex1 as <-.
  assert (Hh : (heterogeneity (dist d attr) l1 <= heterogeneity (dist d attr) l0)%Q).
  { destruct Hf0 as [A0 [_ B0]]. destruct Hf1 as [A1 [_ B1]].
    rewrite (het_comps d attr g l1 (conj A1 B1)), (het_comps d attr g l0 (conj A0 B0)). apply sumQ_le. intros c Hc. apply in_seq in Hc.
    destruct (pairwise_call_spec d (comp_part g l0 c) (attr_c attr g c)) as [x' [Ex' Hx']].
    destruct (pairwise_call_spec d (comp_part g l1 c) (attr_c attr g c)) as [y' [Ey' Hy']].
    destruct (Hnw c ltac:(lia) x' Ex') as [y1 [Ey1 Hy]].
    cbn [o_call pairwise] in Ey1. rewrite Ey1 in Ey'. injection Ey' as <-.
    change (comp_part g l0 c) with (labels_at l0 (comp_nodes g c)) in Hx'.
    change (comp_part g l1 c) with (labels_at l1 (comp_nodes g c)) in Hy'.
    change (attr_c attr g c) with (rows_at attr (comp_nodes g c)) in *. lra. }
  lra.
Qed.

(** ** thresholds that are NaN or infinite *)
Section ThresholdAzp.
Variable order : list edge -> list edge.
Hypothesis Hord : forall l, Permutation (order l) l.
Variable O : objfun.
Variable d : list Q -> list Q -> Q.
Variable g : graph.
Variables attr sp : list (list Q).
Variable thr : list bound.
Variable thr' : list Q.
Hypothesis Hsym : symmetric g.
Hypothesis Hloop : no_self_loops g.
Hypothesis Hsh : shaped_for sp thr (gn g).
Hypothesis Hpos : non_negative sp.
Hypothesis Hfin : made_finite thr thr'.
Hypothesis Hno : ~ In PosInf thr.
Notation Hsp := (finite_shaped g sp thr thr' Hsh Hfin).
Notation spc c := (map (row sp) (comp_nodes g c)).

(** any objective, any object *)
Definition ba_K (c : nat) (v : Q) (s : bstrategy) : Prop := exists cc i, s = BMaxP cc sp (spc c) thr i /\ c_val cc = v.
Lemma ba_start c l s : c < n_components g -> wf (comp_graph g c) l -> wrapped sp thr s ->
  post anyexn True (bstrat_start O s l (attr_c attr g c) (comp_nodes g c)) (fun s' => exists v, ba_K c v s').
Proof.
  intros _ _ [c0 [sp1 [i ->]]]. cbn [bstrat_start].
  destruct (start_common _ _ _) as [cc|e|]; cbn [bind]; [|exact Logic.I|exact Logic.I].
  destruct (bstrat_start _ _ _ _ _) as [i'|e|]; cbn [bind post]; [|exact Logic.I|exact Logic.I]. unfold ba_K. eauto.
Qed.
Lemma ba_call c v s a z l r : c < n_components g -> ba_K c v s -> wf (comp_graph g c) l -> legal_move (comp_graph g c) l a z ->
  post anyexn True (bstrat_call s a z l r) (fun '(b, s', _) => ba_K c v s' /\
    (b = true -> spared (spc c) thr' a l /\ forall l0 : list Z, True -> True)).
Proof.
  intros Hc [cc [i [-> Hv]]] [Hl _] [Ha _]. cbn [bstrat_call]. destruct (bdonor_ok (spc c) thr a l) eqn:Ed.
  2: { cbn [post]. split; [unfold ba_K; eauto|discriminate]. }
  destruct (bstrat_call i a z l r) as [[[b i'] r']|e|]; cbn [bind post]; [|exact Logic.I|exact Logic.I].
  split; [unfold ba_K; eauto|]. intros _. split; [apply (bt_spared g sp thr thr' Hsh Hpos Hfin Hno); auto|auto].
Qed.
Theorem bmaxp_any fuel max_it entropy labels0 ls r : 0 < max_it ->
  post anyexn True (bmaxp_azp_fit order O d fuel g attr sp thr max_it entropy labels0 ls r)
    (fun '(labels, _, _) => exists mp before r1 l,
       construct d g attr sp thr' max_it 0 [] r = Ok (mp, before, r1) /\ labels = Some l /\ valid_result g sp thr' mp l).
Proof.
  intros Hit. unfold bmaxp_azp_fit. rewrite (same_construction g sp thr thr' (proj2 Hsh) Hpos Hfin Hno).
  eapply (post_weaken anyexn anyexn True True); [auto|auto| |
    apply (gz_maxp_post bstrategy (bstrat_start O) bstrat_call bstrat_val order Hord O d g attr sp thr' Hsym Hloop Hsp Hpos anyexn True
      (wrapped sp thr) ba_K (fun _ _ _ => True)) with (JL := fun _ => True)]; auto.
  - intros [[labels s'] r'] _ [mp [before [r1 [parts [r2 [l [H1 [_ [H2 [H3 _]]]]]]]]]]. exists mp, before, r1, l. auto.
  - intros c v s [cc [i [-> Hv]]]. exact Hv.
  - exact ba_start.
  - exact ba_call.
  - intros c v s [cc [i [-> Hv]]]. unfold wrapped. eauto.
  - intros s _. unfold wrapped, bwrap. eauto.
  - intros l _. apply anyexn_post.
  - intros _ m. exact Logic.I.
  - destruct ls; auto.
Qed.

(** an exact objective, any object *)
Hypothesis Hattr : length attr = gn g.
Hypothesis Hex : exact_on O attr.
Fixpoint bruns (c : nat) (s : bstrategy) : Prop :=
  match s with BAzp cc => c_ok O (attr_c attr g c) cc | BMaxP _ _ _ _ i => bruns c i end.
Definition be_K (c : nat) (v : Q) (s : bstrategy) : Prop := exists cc i, s = BMaxP cc sp (spc c) thr i /\ c_val cc = v /\ bruns c i.
Lemma bruns_start E N c l v s : o_call O l (attr_c attr g c) = Ok v -> post E N (bstrat_start O s l (attr_c attr g c) (comp_nodes g c)) (bruns c).
Proof.
  intros Ev. induction s as [cc|cc sa s1 t i IH]; cbn [bstrat_start]; unfold start_common; rewrite Ev; cbn [bind].
  - cbn. split; reflexivity.
  - eapply post_bind; [apply IH|]. intros i' _ Hi. exact Hi.
Qed.
Lemma bruns_start_any c l s : post anyexn True (bstrat_start O s l (attr_c attr g c) (comp_nodes g c)) (bruns c).
Proof.
  destruct (o_call O l (attr_c attr g c)) as [v|e|] eqn:Ev; [apply (bruns_start _ _ c l v); auto| |].
  - destruct s; cbn [bstrat_start]; unfold start_common; rewrite Ev; exact Logic.I.
  - destruct s; cbn [bstrat_start]; unfold start_common; rewrite Ev; exact Logic.I.
Qed.
Lemma bruns_call (E : exn -> Prop) (N : Prop) c s a z l : bruns c s -> post E N (o_update O a z l (attr_c attr g c)) (fun _ => True) ->
  forall r, post E N (bstrat_call s a z l r)
    (fun '(b, s', _) => bruns c s' /\ (b = true -> exists q, o_update O a z l (attr_c attr g c) = Ok q /\ (q <= 0)%Q)).
Proof.
  intros Hs Hu r. induction s as [cc|cc sa s1 t i IH]; cbn [bruns bstrat_call] in *.
  - rewrite (azp_call_eq O (attr_c attr g c)) by auto. destruct (o_update O a z l (attr_c attr g c)) as [q|e|]; cbn [bind post] in *; [|auto|auto].
    destruct (Qle_bool q 0) eqn:El; cbn [bind post bruns].
    + split; [split; reflexivity|]. intros _. exists q. split; [auto|]. apply Qle_bool_iff; auto.
    + split; [auto|discriminate].
  - destruct (bdonor_ok s1 t a l); [|cbn [post bruns]; split; [auto|discriminate]].
    eapply post_bind; [apply IH; auto|]. intros [[b s'] r'] _ [H1 H2]. cbn [post bruns]. auto.
Qed.
Lemma be_call (E : exn -> Prop) (N : Prop) c v s a z l r : c < n_components g -> be_K c v s -> length l = gn (comp_graph g c) -> a < gn (comp_graph g c) ->
  post E N (o_update O a z l (attr_c attr g c)) (fun _ => True) ->
  post E N (bstrat_call s a z l r) (fun '(b, s', _) => be_K c v s' /\
    (b = true -> spared (spc c) thr' a l /\ forall l0, ob_W O g attr c l0 l -> ob_W O g attr c l0 (upd l a z))).
Proof.
  intros Hc [cc [i [-> [Hv Hr]]]] Hl Ha Hu. cbn [bstrat_call]. destruct (bdonor_ok (spc c) thr a l) eqn:Ed.
  2: { cbn [post]. split; [unfold be_K; eauto 6|discriminate]. }
  eapply post_bind; [apply (bruns_call E N c i a z l Hr Hu)|]. intros [[b i'] r'] _ [H1 H2]. cbn [post].
  split; [unfold be_K; eauto 6|]. intros Hb. split; [apply (bt_spared g sp thr thr' Hsh Hpos Hfin Hno); auto|].
  destruct (H2 Hb) as [q [Eq Hq]]. apply (ob_step O g attr Hattr Hex c a z l q); auto.
Qed.
Lemma be_KJ c v s : be_K c v s -> wrapped sp thr s.
Proof. intros [cc [i [-> _]]]. unfold wrapped. eauto. Qed.

Theorem bmaxp_default N fuel max_it entropy labels0 ls r : 0 < max_it -> (N \/ gn g + 1 < fuel) ->
  post (fun e => (exists v isl, v < gn g /\ island g v isl /\ ~ meets_in sp thr' isl) /\ exists m, e = ValueError m) N
    (bmaxp_azp_fit order O d fuel g attr sp thr max_it entropy labels0 ls r)
    (fun '(labels, ls', _) => exists mp before r1 parts r2 l,
       construct d g attr sp thr' max_it 0 [] r = Ok (mp, before, r1) /\ assign_each d g attr before r1 = Ok (parts, r2) /\
       labels = Some l /\ valid_result g sp thr' mp l /\ parts <> [] /\
       forall P, In P parts -> exists l0 l1 v v1, array_from_region_list P = Ok l0 /\ feasible g l0 mp /\ valid_result g sp thr' mp l1 /\
         (forall c, c < n_components g -> ob_W O g attr c (comp_part g l0 c) (comp_part g l1 c)) /\
         o_call O l attr = Ok v /\ o_call O l1 attr = Ok v1 /\ (v <= v1)%Q).
Proof.
  intros Hit Hfuel. unfold bmaxp_azp_fit. rewrite (same_construction g sp thr thr' (proj2 Hsh) Hpos Hfin Hno).
  set (Ex := fun e => (exists v isl, v < gn g /\ island g v isl /\ ~ meets_in sp thr' isl) /\ exists m, e = ValueError m).
  apply (gz_maxp_post bstrategy (bstrat_start O) bstrat_call bstrat_val order Hord O d g attr sp thr' Hsym Hloop Hsp Hpos Ex N
      (wrapped sp thr) be_K (ob_W O g attr)) with (JL := fun _ => True); auto.
  - apply ob_W0.
  - intros c v s [cc [i [-> [Hv _]]]]. exact Hv.
  - intros c l s Hc Hwf [c0 [sp1 [i ->]]]. cbn [bstrat_start]. destruct (attr_c_exact O attr Hex g Hattr c) as [Hcall _].
    destruct (Hcall l) as [v Ev]; [rewrite attr_c_length; apply Hwf|].
    unfold start_common at 1. rewrite Ev. cbn [bind]. eapply post_bind; [apply (bruns_start Ex N c l v i Ev)|]. intros i' _ Hi.
    cbn [post]. exists v, (mkCommon (attr_c attr g c) O v), i'. auto.
  - intros c v s a z l r0 Hc HK Hwf Hlm. apply be_call; auto; [apply Hwf|apply Hlm|]. apply ob_answers; auto.
  - apply be_KJ.
  - intros s _. unfold wrapped, bwrap. eauto.
  - intros l Hl. destruct (Hex attr (fun x H => H)) as [Hcall _]. destruct (Hcall l) as [v Ev]; [lia|]. rewrite Ev. exact Logic.I.
  - intros H m. split; eauto.
  - destruct ls; auto.
Qed.

(** AZPBasicTabu *)
Hypothesis Hsome : exists t, In t thr' /\ (0 < t)%Q.
Theorem bmaxp_basic_exact fuel maxlen reps max_it labels0 s r : 0 < max_it ->
  post anyexn True (bmaxp_basic_fit order O d fuel maxlen reps g attr sp thr max_it labels0 s r)
    (fun '(labels, _, _) => exists mp before r1 parts r2 l,
       construct d g attr sp thr' max_it 0 [] r = Ok (mp, before, r1) /\ assign_each d g attr before r1 = Ok (parts, r2) /\
       labels = Some l /\ valid_result g sp thr' mp l /\ parts <> [] /\
       forall P, In P parts -> exists l0 l1 v v1, array_from_region_list P = Ok l0 /\ feasible g l0 mp /\ valid_result g sp thr' mp l1 /\
         (forall c, c < n_components g -> ob_W O g attr c (comp_part g l0 c) (comp_part g l1 c)) /\
         o_call O l attr = Ok v /\ o_call O l1 attr = Ok v1 /\ (v <= v1)%Q).
Proof.
  intros Hit. unfold bmaxp_basic_fit. rewrite (same_construction g sp thr thr' (proj2 Hsh) Hpos Hfin Hno).
  eapply (post_weaken anyexn anyexn True True); [auto|auto| |
    apply (gu_maxp_basic_post bstrategy (bstrat_start O) bstrat_call order Hord O d g attr sp thr' Hsym Hloop Hsp Hpos Hsome
      (wrapped sp thr) (fun c s => exists v, be_K c v s) (ob_W O g attr)) with (JL := fun _ => True) (wrap := bwrap sp thr)]; auto.
  - intros [[labels s'] r'] _ [mp [before [r1 [parts [r2 [l [H1 [H2 [H3 [H4 [[H5 H6] _]]]]]]]]]]]. exists mp, before, r1, parts, r2, l. auto 8.
  - apply ob_W0.
  - intros c l s0 Hc [c0 [sp1 [i ->]]]. cbn [bstrat_start].
    destruct (start_common _ _ _) as [cc|e|]; cbn [bind]; [|exact Logic.I|exact Logic.I].
    eapply post_bind; [apply bruns_start_any|]. intros i' _ Hi. cbn [post]. exists (c_val cc), cc, i'. auto.
  - intros c s0 a z l r0 Hc [v HK] Hl Ha. eapply (post_weaken anyexn anyexn True True); [auto|auto| |apply (be_call anyexn True c v s0 a z l r0); auto; apply anyexn_post].
    intros [[b s1] r1] _ [H1 H2]. eauto.
  - intros c s0 [v HK]. eapply be_KJ; eauto.
  - intros s0 _. unfold wrapped, bwrap. eauto.
Qed.
End ThresholdAzp.

(** ** missing amounts: AZPBasicTabu *)
Section MissingBasic.
Variable expf : Q -> Q.
Variable order : list edge -> list edge.
Hypothesis Hord : forall l, Permutation (order l) l.
Variable O : objfun.
Variable d : list Q -> list Q -> Q.
Variable g : graph.
Variable attr : list (list Q).
Variable sp : list (list (option Q)).
Variable sp' : list (list Q).
Variable thr : list Q.
Hypothesis Hsym : symmetric g.
Hypothesis Hloop : no_self_loops g.
Hypothesis Hrec : recorded sp thr (gn g).
Hypothesis Hknown : known_non_negative sp.
Hypothesis Hfill : amply_filled thr sp sp'.
Hypothesis Hsome : exists t, In t thr /\ (0 < t)%Q.
Hypothesis Hattr : length attr = gn g.
Hypothesis Hex : exact_on O attr.
Notation spc c := (map (nrow sp) (comp_nodes g c)).
Notation Hsp := (filled_shaped sp sp' thr (gn g) Hrec Hknown Hfill).
Notation Hnn := (filled_non_negative sp sp' thr (gn g) Hrec Hknown Hfill).
Notation Hrows := (filled_rows sp sp' thr (gn g) Hrec Hknown Hfill).
Fixpoint nruns (c : nat) (s : nstrategy) : Prop :=
  match s with NBase s => runs O (attr_c attr g c) s | NMaxP _ _ _ _ i => nruns c i end.
Lemma nruns_inside c s : nruns c s -> nazp_inside s.
Proof. induction s; cbn; [apply runs_inside|auto]. Qed.
Lemma nruns_start c l s : nazp_inside s -> post anyexn True (nstrat_start O s l (attr_c attr g c) (comp_nodes g c)) (nruns c).
Proof.
  intros Hi. destruct (o_call O l (attr_c attr g c)) as [v|e|] eqn:Ev.
  - induction s as [s|cc sa s1 t i IH]; cbn [nstrat_start nazp_inside] in *.
    + destruct (runs_start O (attr_c attr g c) s l (comp_nodes g c) v Hi Ev) as [s' [Es Hs']]. rewrite Es. exact Hs'.
    + unfold start_common. rewrite Ev. cbn [bind]. eapply post_bind; [apply IH; auto|]. intros i' _ H. exact H.
  - destruct s as [[| |]|]; cbn [nstrat_start strat_start]; try unfold start_common; rewrite ?Ev; exact Logic.I.
  - destruct s as [[| |]|]; cbn [nstrat_start strat_start]; try unfold start_common; rewrite ?Ev; exact Logic.I.
Qed.
Lemma nruns_call c s a z l : nruns c s -> forall r, post anyexn True (nstrat_call expf s a z l r)
    (fun '(b, s', _) => nruns c s' /\ (b = true -> exists q, o_update O a z l (attr_c attr g c) = Ok q /\ (q <= 0)%Q)).
Proof.
  intros Hs r. induction s as [s|cc sa s1 t i IH]; cbn [nruns nstrat_call] in *.
  - eapply post_bind; [apply (runs_call expf O (attr_c attr g c) anyexn True s a z l Hs (anyexn_post _) r)|]. intros [[b s'] r'] _ H. exact H.
  - destruct (ndonor_ok s1 t a l); [|cbn [post nruns]; split; [auto|discriminate]].
    eapply post_bind; [apply IH; auto|]. intros [[b s'] r'] _ [H1 H2]. cbn [post nruns]. auto.
Qed.
Definition ne_J (s : nstrategy) : Prop := exists c sp1 i, s = NMaxP c sp sp1 thr i /\ nazp_inside i.
Definition ne_K (c : nat) (s : nstrategy) : Prop := exists cc i, s = NMaxP cc sp (spc c) thr i /\ nruns c i.

Theorem nmaxp_basic_exact fuel maxlen reps max_it labels0 s r : 0 < max_it -> nazp_inside s ->
  post anyexn True (nmaxp_basic_fit expf order O d fuel maxlen reps g attr sp thr max_it labels0 s r)
    (fun '(labels, _, _) => exists mp before r1 parts r2 l,
       construct d g attr sp' thr max_it 0 [] r = Ok (mp, before, r1) /\ assign_each d g attr before r1 = Ok (parts, r2) /\
       labels = Some l /\ valid_result g sp' thr mp l /\ parts <> [] /\
       forall P, In P parts -> exists l0 l1 v v1, array_from_region_list P = Ok l0 /\ feasible g l0 mp /\ valid_result g sp' thr mp l1 /\
         (forall c, c < n_components g -> ob_W O g attr c (comp_part g l0 c) (comp_part g l1 c)) /\
         o_call O l attr = Ok v /\ o_call O l1 attr = Ok v1 /\ (v <= v1)%Q).
Proof.
  intros Hit Hs. unfold nmaxp_basic_fit. rewrite (nmaxp_fit_same d g attr sp sp' thr Hrows).
  eapply (post_weaken anyexn anyexn True True); [auto|auto| |
    apply (gu_maxp_basic_post nstrategy (nstrat_start O) (nstrat_call expf) order Hord O d g attr sp' thr Hsym Hloop Hsp Hnn Hsome
      ne_J ne_K (ob_W O g attr)) with (JL := nazp_inside) (wrap := NMaxP unstarted sp [] thr)]; auto.
  - intros [[labels s'] r'] _ [mp [before [r1 [parts [r2 [l [H1 [H2 [H3 [H4 [[H5 H6] _]]]]]]]]]]]. exists mp, before, r1, parts, r2, l. auto 8.
  - apply ob_W0.
  - intros c l s0 Hc [c0 [sp1 [i [-> Hi]]]]. cbn [nstrat_start].
    destruct (start_common _ _ _) as [cc|e|]; cbn [bind]; [|exact Logic.I|exact Logic.I].
    eapply post_bind; [apply nruns_start; auto|]. intros i' _ H. cbn [post]. exists cc, i'. auto.
  - intros c s0 a z l r0 Hc [cc [i [-> Hr]]] Hl Ha. cbn [nstrat_call]. destruct (ndonor_ok (spc c) thr a l) eqn:Ed.
    2: { cbn [post]. split; [unfold ne_K; eauto|discriminate]. }
    eapply post_bind; [apply (nruns_call c i a z l Hr r0)|]. intros [[b i'] r'] _ [H1 H2]. cbn [post].
    split; [unfold ne_K; eauto|]. intros Hb.
    destruct (ndonor_spec (spc c) (map (row sp') (comp_nodes g c)) thr (gn (comp_graph g c)) (comp_recorded g sp thr Hrec c) (comp_known g sp thr Hrec Hknown c)
      (comp_filled g sp sp' thr Hrec Hfill c) l a Hl Ha Ed) as [Hsd _].
    split; [exact Hsd|]. destruct (H2 Hb) as [q [Eq Hq]]. apply (ob_step O g attr Hattr Hex c a z l q); auto.
  - intros c s0 [cc [i [-> Hr]]]. exists cc, (spc c), i. split; [auto|]. eapply nruns_inside; eauto.
  - intros s0 H0. exists unstarted, [], s0. auto.
  - intros s0 [c0 [sp1 [i [-> Hi]]]]. exact Hi.
Qed.
End MissingBasic.
