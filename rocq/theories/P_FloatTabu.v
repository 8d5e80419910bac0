(** The tabu classes as local search of MaxPRegionsHeu with rounded or wrapping amounts. *)
From Coq Require Import Qabs.
From Verif Require Import Base Spec SpecData SpecInt M_Graph P_Graph M_Util P_Base P_Util P_Forest P_Init P_Initial
  M_Objective P_Sum P_Objective M_Azp P_Azp P_Strategy P_Fit P_AzpFit M_Sa P_Sa M_Tabu P_Tabu P_TabuFit P_Reactive
  M_MaxP P_MaxP P_MaxP2 P_MaxP3 P_MaxP4 M_TabuWith P_TabuWith M_Float M_FloatMaxP P_Float P_FloatErr P_FloatMaxP P_FloatMaxP2
  M_MaxPInt P_MaxPInt P_Guarded M_FloatTabu.

Lemma shifted_shaped e sp thr n : shaped sp thr n -> shaped sp (shifted e thr) n.
Proof. intros [H1 H2]. split; [auto|]. intros x Hx. rewrite (H2 x Hx). unfold shifted. rewrite map_length, seq_length. auto. Qed.

Section FloatTabu.
Variables B A : arith.
Variable enum : list nat -> list nat.
Variable order : list edge -> list edge.
Hypothesis Hord : forall l, Permutation (order l) l.
Variable O : objfun.
Variable g : graph.
Variables attr sp : list (list Q).
Variables thr lo hi : list Q.
Hypothesis Hsym : symmetric g.
Hypothesis Hloop : no_self_loops g.
Hypothesis Hsp : shaped sp lo (gn g).
Hypothesis Hpos : non_negative sp.
Hypothesis Hcheck : forall R, R <> [] -> NoDup R -> (forall a, In a R -> a < gn g) ->
  if reaches (tracked B sp R) thr then meets_in sp lo R else ~ meets_in sp hi R.
Hypothesis Hdonor : forall c l a, c < n_components g -> length l = length (comp_nodes g c) -> a < length l ->
  fdonor_ok B (map (row sp) (comp_nodes g c)) thr a l = true -> spared (map (row sp) (comp_nodes g c)) lo a l.

(** ** any local search *)
Section Any.
Variable LS : Type.
Variable wrap : LS -> LS.
Variable ls_fit : LS -> Z -> list Z -> rng -> out (option (list Z) * LS * rng).

Lemma fls_raises max_it labels0 s r v isl : 0 < max_it -> v < gn g -> island g v isl -> ~ meets_in sp lo isl ->
  exists m, fmaxp_ls LS wrap ls_fit B A enum O g attr sp thr max_it labels0 s r = Raise (ValueError m).
Proof.
  intros Hit Hv Hi Hnm. unfold fmaxp_ls. set (dis := fdissimilarity A enum attr).
  pose proof (fconstruct_post B dis g sp thr lo hi Hsym Hloop Hcheck max_it 0 [] r (fun x (H : In x []) => match H with end) (or_intror eq_refl)) as Hc.
  destruct (fconstruct B dis g sp thr max_it 0 [] r) as [[[mp before] r1]|e|]; cbn [bind post] in *; [|destruct Hc|destruct Hc].
  destruct Hc as [Hk [Hne|[H0 _]]]; [|lia].
  pose proof (fassign_each_post dis g sp lo hi Hsym mp before r1 Hk) as Ha.
  destruct (fassign_each dis g before r1) as [[parts r2]|e|]; cbn [bind post] in *.
  - exfalso. destruct Ha as [Hs _]. destruct before as [|x before]; [contradiction|].
    destruct (Hk x (or_introl eq_refl)) as [_ [F [HE HG]]].
    apply (not_served2 g sp lo hi (fst x) F v isl); auto. apply Hs. left; auto.
  - destruct Ha as [_ [m ->]]. eauto.
  - destruct Ha.
Qed.

Variables JL JW : nat -> LS -> Prop.
Hypothesis Hwrap : forall mp s, JL mp s -> JW mp (wrap s).
Hypothesis Hkeep : forall mp s, JW mp s -> JL mp s.
Hypothesis Hfit : forall mp s l0 rg, JW mp s -> named_start g sp lo mp l0 ->
  post anyexn True (ls_fit s (Z.of_nat mp) l0 rg) (fun '(l, s', _) => JW mp s' /\ exists l', l = Some l' /\ valid_result g sp lo mp l').

Theorem fls_post max_it labels0 s r : 0 < max_it -> (forall mp, JL mp s) ->
  post anyexn True (fmaxp_ls LS wrap ls_fit B A enum O g attr sp thr max_it labels0 s r)
    (fun '(labels, _, _) => exists mp l before r1, labels = Some l /\ valid_result g sp lo mp l /\
       fconstruct B (fdissimilarity A enum attr) g sp thr max_it 0 [] r = Ok (mp, before, r1)).
Proof.
  intros Hit Hs. unfold fmaxp_ls. set (dis := fdissimilarity A enum attr).
  pose proof (fconstruct_post B dis g sp thr lo hi Hsym Hloop Hcheck max_it 0 [] r (fun x (H : In x []) => match H with end) (or_intror eq_refl)) as Hc.
  destruct (fconstruct B dis g sp thr max_it 0 [] r) as [[[mp before] r1]|e|] eqn:Econ; cbn [bind post] in *; [|destruct Hc|destruct Hc].
  destruct Hc as [Hk [Hne|[H0 _]]]; [|lia].
  pose proof (fassign_each_post dis g sp lo hi Hsym mp before r1 Hk) as Ha.
  destruct (fassign_each dis g before r1) as [[parts r2]|e|] eqn:Ea; cbn [bind post] in *; [| |destruct Ha].
  2: exact Logic.I.
  destruct Ha as [_ Hall].
  assert (Hnamed : forall P, In P parts -> exists l0, array_from_region_list P = Ok l0 /\ named_start g sp lo mp l0).
  { intros P HP. apply In_nth_error in HP. destruct HP as [k HP]. destruct (Forall2_nth_r _ _ _ Hall k P HP) as [x [Hx [Hpp Hi]]].
    apply nth_error_In in Hx. assert (HsP : startable g sp lo mp P) by (apply (kept2_startable g sp lo hi Hpos mp x P); auto).
    apply startable_named; auto. destruct (Hk x Hx) as [Hlx _]. rewrite <- Hlx. symmetry. eapply Forall2_len; eauto. }
  assert (Hpne : parts <> []) by (intros ->; inversion Hall; subst; contradiction).
  destruct parts as [|P0 parts0]; [contradiction|]. set (parts := P0 :: parts0) in *.
  eapply post_bind.
  - apply (search_rounds_post LS wrap ls_fit O attr anyexn True mp (JL mp) (JW mp) (named_start g sp lo mp) (fun _ l => valid_result g sp lo mp l)); auto.
    + intros l0 l _ _. apply anyexn_post.
    + exact Logic.I.
  - intros [[ls' b] r4] _ [_ [Hfrom [_ Hcov]]]. specialize (Hcov ltac:(cbn; lia)). cbn [post].
    destruct b as [[v l]|].
    + destruct Hfrom as [_ [P [l0 [_ [_ [_ HR]]]]]]. exists mp, l, before, r1. auto.
    + exfalso. destruct (Hcov P0 (or_introl eq_refl)) as [? [? [? [_ [_ [_ [_ []]]]]]]].
Qed.
End Any.

(** ** the tabu classes *)
Hypothesis Hlo : exists t, In t lo /\ (0 < t)%Q.
Definition ft_J (s : fstrategy) : Prop := exists cc spx i, s = FMaxP cc sp spx thr i.
Definition ft_K (c : nat) (s : fstrategy) : Prop := exists cc i, s = FMaxP cc sp (map (row sp) (comp_nodes g c)) thr i.
Lemma ft_start c l s : c < n_components g -> ft_J s -> post anyexn True (fstrat_start O s l (attr_c attr g c) (comp_nodes g c)) (ft_K c).
Proof.
  intros _ [cc [spx [i ->]]]. cbn [fstrat_start]. destruct (start_common l (attr_c attr g c) O) as [c1|e|]; cbn [bind post]; try exact Logic.I.
  destruct (fstrat_start O i l (attr_c attr g c) (comp_nodes g c)) as [i'|e|]; cbn [bind post]; try exact Logic.I. exists c1, i'. reflexivity.
Qed.
Lemma ft_call c s a z l r : c < n_components g -> ft_K c s -> length l = gn (comp_graph g c) -> a < gn (comp_graph g c) ->
  post anyexn True (fstrat_call B A s a z l r) (fun '(b, s', _) => ft_K c s' /\
    (b = true -> spared (map (row sp) (comp_nodes g c)) lo a l /\ forall l0 : list Z, True -> True)).
Proof.
  intros Hc [cc [i ->]] Hl Ha. cbn [fstrat_call]. rewrite comp_graph_n in Hl, Ha.
  destruct (fdonor_ok B (map (row sp) (comp_nodes g c)) thr a l) eqn:Ed.
  - destruct (fstrat_call B A i a z l r) as [[[b i'] r']|e|]; cbn [bind post]; try exact Logic.I.
    split; [exists cc, i'; reflexivity|]. intros _. split; [apply Hdonor; auto; lia|auto].
  - cbn [post]. split; [exists cc, i; reflexivity|discriminate].
Qed.
Lemma ft_KJ c s : ft_K c s -> ft_J s.
Proof. intros [cc [i ->]]. exists cc, (map (row sp) (comp_nodes g c)), i. reflexivity. Qed.

Theorem fmaxp_basic_post fuel maxlen reps max_it labels0 s r : 0 < max_it ->
  post anyexn True (fmaxp_basic_fit B A enum order O fuel maxlen reps g attr sp thr max_it labels0 s r)
    (fun '(labels, _, _) => exists mp l before r1, labels = Some l /\ valid_result g sp lo mp l /\
       fconstruct B (fdissimilarity A enum attr) g sp thr max_it 0 [] r = Ok (mp, before, r1)).
Proof.
  intros Hit. unfold fmaxp_basic_fit.
  apply (fls_post fstrategy _ _ (fun _ _ => True) (fun _ => ft_J)); auto.
  - intros mp s0 _. exists unstarted, [], s0. reflexivity.
  - intros mp s0 l0 rg HJ [[Hf [Hm1 Hm]] _].
    eapply (post_bind anyexn True _ _ _ _).
    { apply (gu_basic_post fstrategy (fstrat_start O) (fstrat_call B A) order Hord O manhattan g attr sp lo Hsp Hpos Hlo ft_J ft_K (fun _ _ _ => True)
        (fun _ _ => Logic.I) ft_start ft_call ft_KJ fuel maxlen reps (Z.of_nat mp) l0 s0 rg); auto; [lia|rewrite Nat2Z.id; auto]. }
    intros [[labels s'] r'] _ [H1 [H2 [H3 _]]]. cbn [post]. rewrite Nat2Z.id in H1. split; [auto|]. exists labels. split; [auto|split; auto].
Qed.

Hypothesis Hone : n_components g = 1.
Theorem fmaxp_reactive_post maxit k1 k2 max_it labels0 s r : 0 < max_it -> rw_visited s = [] ->
  post anyexn True (fmaxp_reactive_fit B A enum order O maxit k1 k2 g attr sp thr max_it labels0 s r)
    (fun '(labels, _, _) => exists mp l before r1, labels = Some l /\ valid_result g sp lo mp l /\
       fconstruct B (fdissimilarity A enum attr) g sp thr max_it 0 [] r = Ok (mp, before, r1)).
Proof.
  intros Hit Hv. unfold fmaxp_reactive_fit.
  apply (fls_post (reactive_with fstrategy) _ _ (fun mp s => forall w, In w (rw_visited s) -> gr_V g sp lo mp w) (gr_W fstrategy g sp lo ft_J)); auto.
  - intros mp s0 H. split; [exists unstarted, [], (rw_strat s0); reflexivity|exact H].
  - intros mp s0 [_ H]. exact H.
  - intros mp s0 l0 rg HJ HG.
    eapply (post_bind anyexn True _ _ _ _).
    { apply (gu_reactive_post fstrategy (fstrat_start O) (fstrat_call B A) order Hord O g attr sp lo Hsp Hpos Hlo ft_J ft_K (fun _ _ _ => True)
        (fun _ _ => Logic.I) ft_start ft_call ft_KJ Hone maxit k1 k2 mp l0 s0 rg HG HJ). }
    intros [[labels s'] r'] _ [H1 H2]. cbn [post]. split; [auto|]. exists labels. auto.
  - intros mp w Hw. rewrite Hv in Hw. destruct Hw.
Qed.
End FloatTabu.
