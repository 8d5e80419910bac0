(** Two strategies that answer alike give the same tabu search; amounts that fit an integer type. *)
From Coq Require Import Qabs.
From Verif Require Import Base Spec SpecData SpecInt M_Graph P_Graph M_Util P_Base P_Util P_Forest P_Init P_Initial
  M_Objective P_Sum P_Objective M_Azp P_Azp P_Strategy P_Fit P_AzpFit M_Sa P_Sa M_Tabu P_Tabu P_TabuFit P_Reactive
  M_MaxP P_MaxP P_MaxP2 P_MaxP3 P_MaxP4 P_TwoRuns P_ScaleMaxP M_TabuWith P_TabuWith M_Float M_FloatMaxP P_Float P_FloatErr P_FloatMaxP P_FloatMaxP2
  M_MaxPInt P_MaxPInt P_Guarded M_FloatTabu P_FloatTabu.

Lemma alike_post {T} (m m' : out T) (P : T -> Prop) : m = m' -> post anyexn True m P -> rel (fun x y => x = y /\ P x) m m'.
Proof. intros <- H. destruct m; cbn in *; auto. Qed.
Lemma alike_eq {T} (m m' : out T) (P : T -> Prop) : rel (fun x y => x = y /\ P x) m m' -> m = m'.
Proof. destruct m, m'; cbn; intros H; try contradiction; try congruence. destruct H as [-> _]. auto. Qed.

Section TabuAlike.
Variable St : Type.
Variables call call' : St -> nat -> Z -> list Z -> rng -> out (bool * St * rng).
Variable obj : objfun.
Variable attr : list (list Q).
Variable g : graph.
Variable K : St -> Prop.
Hypothesis Hsame : forall s a z l r, K s -> wf g l -> a < gn g -> call s a z l r = call' s a z l r.
Hypothesis Hkeep : forall s a z l r, K s -> wf g l -> a < gn g -> post anyexn True (call s a z l r) (fun '(_, s', _) => K s').

Notation anyname := (fun _ : Z => True).
Notation goodt := (tabu_ok (good_move g anyname)).
Lemma al_call s a z l r : K s -> wf g l -> a < gn g -> anyname z ->
  post anyexn True (call s a z l r) (fun '(b, s', _) => K s' /\ (b = true -> wf g (upd l a z) -> wf g (upd l a z))).
Proof.
  intros Hs Hl Ha _. pose proof (Hkeep s a z l r Hs Hl Ha) as H. destruct (call s a z l r) as [[[b s'] r']|e|]; cbn [post] in *; auto.
Qed.

Lemma try_alike maxlen m l tabu s r : K s -> wf g l -> good_move g anyname m -> goodt tabu ->
  rel (fun x y => x = y /\ let '(l', t', s', _) := x in wf g l' /\ goodt t' /\ K s')
    (try_move_with St call g maxlen m l tabu s r) (try_move_with St call' g maxlen m l tabu s r).
Proof.
  intros Hs Hl Hm Ht. apply alike_post.
  - unfold try_move_with. rewrite (Hsame s (mv_area m) (mv_new m) l r Hs Hl (proj1 Hm)). reflexivity.
  - eapply (post_weaken anyexn anyexn True True); [auto|auto| |
      apply (try_with_post St call g anyexn True anyname K (wf g)) with (M := fun _ => 0); auto].
    + intros [[[l' t'] s'] r'] _ [H1 [H2 [H3 _]]]. auto.
    + intros s1 a z l1 r1 H1 H2 H3 _. apply al_call; auto.
Qed.

Lemma possible_al l tabu m : wf g l -> In m (possible_moves g l tabu) -> good_move g anyname m.
Proof. intros Hl Hm. apply (possible_good g anyname (wf g)) with (l := l) (tabu := tabu); auto. Qed.

Lemma basic_loop_alike maxlen reps : forall fuel stop visited l tabu s r, K s -> wf g l -> goodt tabu ->
  rel (fun x y => x = y /\ let '(l', s', _) := x in wf g l' /\ K s')
    (basic_loop_with St call obj g fuel maxlen reps attr stop visited l tabu s r)
    (basic_loop_with St call' obj g fuel maxlen reps attr stop visited l tabu s r).
Proof.
  induction fuel as [|fuel IH]; intros stop visited l tabu s r Hs Hl Ht; cbn [basic_loop_with]; [exact Logic.I|]. cbv zeta.
  pose proof (best_of_any obj attr l (possible_moves g l tabu)) as Hb.
  destruct (best_of obj attr l 0 (possible_moves g l tabu) None) as [best|e|]; cbn [bind rel]; auto. cbn [post] in Hb.
  assert (Hgood : match best with Some (m, _, _) => good_move g anyname m | None => True end).
  { destruct best as [[[m i] q]|]; [|auto]. destruct Hb as [Hn _]. apply nth_error_In in Hn. eapply possible_al; eauto. }
  eapply rel_bind with (R := fun x y => x = y /\ let '(_, l1, t1, s1, _) := x in wf g l1 /\ goodt t1 /\ K s1).
  { destruct best as [[[m i] q]|]; [|cbn; auto]. destruct (Qle_bool q 0); [|cbn; auto].
    pose proof (try_alike maxlen m l tabu s r Hs Hl Hgood Ht) as Hp. unfold try_move_with in Hp.
    rewrite <- (Hsame s (mv_area m) (mv_new m) l r Hs Hl (proj1 Hgood)) in *.
    pose proof (Hkeep s (mv_area m) (mv_new m) l r Hs Hl (proj1 Hgood)) as Hk.
    destruct (call s (mv_area m) (mv_new m) l r) as [[[b s'] r']|e|]; cbn [bind rel post] in *; auto. destruct b; [|cbn [rel]; auto].
    destruct (make_move_tabu g maxlen (mv_area m) (mv_new m) l tabu) as [[[l' t'] b']|e|]; cbn [bind rel] in *; auto. destruct Hp as [_ Hp]. auto. }
  intros [[[[made l1] t1] s1] r1] y1 _ _ [<- [Hl1 [Ht1 Hs1]]]. destruct made; [apply IH; auto|].
  pose proof (improving_tabus_post obj attr anyexn True l1 t1) as Hi.
  assert (Hi' : post anyexn True (improving_tabus obj attr l1 t1) (fun its => forall m, In m its -> In m t1)).
  { eapply (post_weaken anyexn anyexn True True); [auto|auto| |apply Hi; intros; apply anyexn_post]. intros its _ H m Hm. apply H in Hm. apply Hm. }
  destruct (improving_tabus obj attr l1 t1) as [its|e|]; cbn [bind rel post] in *; auto.
  eapply rel_bind with (R := fun x y => x = y /\ let '(l2, t2, s2, _) := x in wf g l2 /\ goodt t2 /\ K s2).
  { destruct its as [|m0 its0]; [cbn; auto|].
    pose proof (random_element_from_post anyexn True (m0 :: its0) r1 ltac:(discriminate)) as Hr.
    destruct (random_element_from (m0 :: its0) r1) as [[m r']|e|]; cbn [bind rel post] in *; auto. apply try_alike; auto. }
  intros [[[l2 t2] s2] r2] y2 _ _ [<- [Hl2 [Ht2 Hs2]]]. destruct (_ || _)%bool; [cbn; auto|].
  eapply rel_bind with (R := fun x y => x = y /\ let '(l3, t3, s3, _) := x in wf g l3 /\ goodt t3 /\ K s3).
  { destruct best as [[[m i] q]|]; [apply try_alike; auto|cbn; auto]. }
  intros [[[l3 t3] s3] r3] y3 _ _ [<- [Hl3 [Ht3 Hs3]]]. apply IH; auto.
Qed.
Lemma basic_component_alike fuel maxlen reps l s r : K s -> wf g l ->
  rel (fun x y => x = y /\ let '(_, s', _) := x in K s')
    (basic_component_with St call obj g fuel maxlen reps l attr s r) (basic_component_with St call' obj g fuel maxlen reps l attr s r).
Proof.
  intros Hs Hl. unfold basic_component_with. destruct (Nat.eqb _ 1); [cbn; auto|].
  pose proof (basic_loop_alike maxlen reps fuel false [] l [] s r Hs Hl (fun m (H : In m []) => match H with end)) as Hp.
  revert Hp. generalize (basic_loop_with St call' obj g fuel maxlen reps attr false [] l [] s r).
  generalize (basic_loop_with St call obj g fuel maxlen reps attr false [] l [] s r).
  intros m m' Hp. destruct m as [[[l1 s1] r1]|e|], m' as [y|e'|]; cbn [rel] in *; auto. destruct Hp as [<- [_ H]]. auto.
Qed.

Lemma random_alike p : forall moves l tabu s r, K s -> wf g l -> goodt tabu -> (forall m, In m moves -> good_move g anyname m) ->
  rel (fun x y => x = y /\ let '(l', t', s', _) := x in wf g l' /\ goodt t' /\ K s')
    (random_moves_with St call g p moves l tabu s r) (random_moves_with St call' g p moves l tabu s r).
Proof.
  induction p as [|p IH]; intros moves l tabu s r Hs Hl Ht Hm; cbn [random_moves_with]; [cbn; auto|].
  pose proof (pop_randomly_post moves r) as Hp'.
  destruct (pop_randomly_from moves r) as [[[m moves'] r1]|e|]; cbn [bind rel post] in *; auto. destruct Hp' as [Hin Hsub].
  eapply rel_bind; [apply try_alike; auto|]. intros [[[l1 t1] s1] r2] y _ _ [<- [H1 [H2 H3]]]. apply IH; auto.
Qed.
Lemma reactive_loop_alike k1 k2 : forall maxit start ls l tabu s r, K (rw_strat s) -> wf g l -> goodt tabu ->
  rel (fun x y => x = y /\ let '(_, s', _, _) := x in K (rw_strat s'))
    (reactive_loop_with St call obj g maxit k1 k2 attr start ls l tabu s r)
    (reactive_loop_with St call' obj g maxit k1 k2 attr start ls l tabu s r).
Proof.
  induction maxit as [|maxit IH]; intros start ls l tabu s r Hs Hl Ht; cbn [reactive_loop_with]; [cbn; auto|].
  destruct (o_call obj l attr) as [v|e|]; cbn [bind rel]; auto. destruct (negb _); [cbn; auto|]. cbv zeta.
  pose proof (best_of_any obj attr l (possible_moves g l tabu)) as Hb.
  destruct (best_of obj attr l 0 (possible_moves g l tabu) None) as [best|e|]; cbn [bind rel]; auto. cbn [post] in Hb.
  destruct best as [[[m i] q]|]; [|cbn; auto]. destruct Hb as [Hn _]. apply nth_error_In in Hn.
  assert (Hall : forall m, In m (possible_moves g l tabu) -> good_move g anyname m) by (intros m' Hm'; eapply possible_al; eauto).
  eapply rel_bind; [apply try_alike; auto|]. intros [[[l1 t1] s1] r1] y _ _ [<- [H1 [H2 H3]]]. destruct (_ && _)%bool.
  - destruct (Nat.leb _ _); [|cbn; auto].
    eapply rel_bind; [apply random_alike; auto; intros m' Hm'; apply remove_nth_In in Hm'; auto|].
    intros [[[l2 t2] s2] r2] y2 _ _ [<- [G1 [G2 G3]]]. apply IH; auto.
  - apply IH; auto.
Qed.
Lemma reactive_component_alike maxit k1 k2 l s r : K (rw_strat s) -> wf g l ->
  rel (fun x y => x = y /\ let '(_, s', _) := x in K (rw_strat s'))
    (reactive_component_with St call obj g maxit k1 k2 l attr s r) (reactive_component_with St call' obj g maxit k1 k2 l attr s r).
Proof.
  intros Hs Hl. unfold reactive_component_with. destruct (Nat.eqb _ 1); [cbn; auto|].
  eapply rel_bind; [apply reactive_loop_alike; auto; intros m []|]. intros [[[l1 s1] ls1] r1] y _ _ [<- H1].
  destruct (reactive_result ls1 (rw_visited s1)); cbn [bind rel]; auto.
Qed.
End TabuAlike.

(** the array returned has one entry per area *)
Lemma fit_some_length S start component order g attr p l s r labels s' r' :
  fit S start component order g attr p (Some l) s r = Ok ((labels, s'), r') -> length labels = gn g.
Proof.
  unfold fit. intros H. apply bind_Ok in H. destruct H as [_ [_ H]]. destruct (Nat.eqb _ _); [|discriminate].
  assert (G : forall arrs acc r, length (fst acc) = gn g -> fit_arrays S start component g attr arrs acc r = Ok ((labels, s'), r') -> length labels = gn g).
  { clear H r. induction arrs as [|arr arrs IH]; intros acc r Hacc H; cbn [fit_arrays] in H; [injection H as -> _; exact Hacc|].
    apply bind_Ok in H. destruct H as [[acc' r1] [H1 H]]. apply (IH acc' r1); [|exact H]. cbn [fit_one] in H1.
    apply bind_Ok in H1. destruct H1 as [s1 [_ H1]]. apply bind_Ok in H1. destruct H1 as [[[lc s2] r2] [_ H1]].
    apply bind_Ok in H1. destruct H1 as [l2 [H2 H1]]. injection H1 as <- _. cbn [fst]. unfold assign_idx in H2.
    destruct (Nat.eqb _ _); [injection H2 as <-; rewrite scatter_length; auto|]. destruct lc as [|v [|]]; try discriminate.
    injection H2 as <-. rewrite scatter_length. auto. }
  apply (G (separate_components g l) (minus_ones (gn g), s) r); [apply repeat_length|exact H].
Qed.

(** ** amounts that fit the type *)
Section TabuFits.
Variable w : Z -> Z.
Variables lo size : Z.
Hypothesis Hw : int_type w lo size.
Hypothesis Hlo : (lo <= 0)%Z.
Variable A : arith.
Variable enum : list nat -> list nat.
Variable order : list edge -> list edge.
Hypothesis Hord : forall l, Permutation (order l) l.
Variable O : objfun.
Variable g : graph.
Variables attr sp : list (list Q).
Variable thr : list Q.
Hypothesis Hsym : symmetric g.
Hypothesis Hloop : no_self_loops g.
Hypothesis Hsh : shaped sp thr (gn g).
Hypothesis Hpos : non_negative sp.
Hypothesis Hwh : forall x q, In x sp -> In q x -> whole q.
Local Notation B := (int_arith w).
Hypothesis Htop : forall k, k < length thr -> (total_in sp (seq 0 (gn g)) k <= inject_Z (lo + size - 1))%Q.

Lemma tf_donor c l a : c < n_components g -> length l = length (comp_nodes g c) -> a < length l ->
  fdonor_ok B (map (row sp) (comp_nodes g c)) thr a l = fdonor_ok exact_arith (map (row sp) (comp_nodes g c)) thr a l.
Proof. exact (donor_fits w lo size Hw Hlo g sp thr Hsh Hpos Hwh Htop c l a). Qed.
Lemma tf_same c s a z l r : c < n_components g -> reads_in sp thr (comp_nodes g c) s -> wf (comp_graph g c) l -> a < gn (comp_graph g c) ->
  fstrat_call B A s a z l r = fstrat_call exact_arith A s a z l r /\
  post anyexn True (fstrat_call B A s a z l r) (fun '(_, s', _) => reads_in sp thr (comp_nodes g c) s').
Proof.
  intros Hc Hs Hl Ha. rewrite comp_graph_n in Ha. assert (Hlen : length l = length (comp_nodes g c)) by (rewrite <- comp_graph_n; apply Hl).
  pose proof (call_alike B exact_arith A g sp thr tf_donor c l a z Hc Hlen ltac:(lia) s r Hs) as Hp.
  destruct (fstrat_call B A s a z l r) as [[[b s1] r1]|e|], (fstrat_call exact_arith A s a z l r) as [[[b' s1'] r1']|e'|]; cbn [rel post] in *; try contradiction.
  - destruct Hp as [-> [-> [-> H]]]. auto.
  - subst e'. split; [auto|exact Logic.I].
  - auto.
Qed.

Theorem fbasic_fit_alike fuel maxlen reps p l s r : length l = gn g -> ~ In (-1)%Z l -> reads sp thr s ->
  rel (two_acc fstrategy fstrategy (fun s1 s2 => s1 = s2 /\ reads sp thr s1)) (fbasic_fit B A order O fuel maxlen reps g attr p (Some l) s r)
    (fbasic_fit exact_arith A order O fuel maxlen reps g attr p (Some l) s r).
Proof.
  intros Hl Hm Hs. unfold fbasic_fit. apply fit_two; auto.
  intros k lc s1 s1' rg Hk Hwf [<- H1]. unfold run_component.
  eapply rel_bind with (R := fun t t' => t = t' /\ reads_in sp thr (comp_nodes g k) t); [apply start_alike; auto|]. intros s2 s2' _ _ [<- H2].
  match goal with [|- rel _ ?m ?m'] => assert (Hres : rel (fun x y => x = y /\ let '(_, t, _) := x in reads_in sp thr (comp_nodes g k) t) m m') end.
  { apply (basic_component_alike fstrategy (fstrat_call B A) (fstrat_call exact_arith A) O _ (comp_graph g k) (reads_in sp thr (comp_nodes g k))); auto.
    - intros x a z l1 r1 Hx Hw1 Ha. apply (tf_same k x a z l1 r1 Hk Hx Hw1 Ha).
    - intros x a z l1 r1 Hx Hw1 Ha. apply (tf_same k x a z l1 r1 Hk Hx Hw1 Ha). }
  match goal with [|- rel _ ?m ?m'] => destruct m as [[[l1 s3] r1]|e|], m' as [y|e'|] end; cbn [rel] in Hres |- *; auto.
  destruct Hres as [<- H3]. split; [auto|]. split; [auto|]. split; [auto|]. eapply reads_in_reads; eauto.
Qed.
Theorem freactive_fit_alike maxit k1 k2 p l s r : length l = gn g -> ~ In (-1)%Z l -> reads sp thr (rw_strat s) ->
  rel (two_acc (reactive_with fstrategy) (reactive_with fstrategy) (fun s1 s2 => s1 = s2 /\ reads sp thr (rw_strat s1)))
    (freactive_fit B A order O maxit k1 k2 g attr p (Some l) s r) (freactive_fit exact_arith A order O maxit k1 k2 g attr p (Some l) s r).
Proof.
  intros Hl Hm Hs. unfold freactive_fit. apply fit_two; auto.
  intros k lc s1 s1' rg Hk Hwf [<- H1]. unfold run_component.
  eapply rel_bind with (R := fun t t' => t = t' /\ reads_in sp thr (comp_nodes g k) (rw_strat t)).
  { pose proof (start_alike O sp thr (comp_nodes g k) lc (map (row attr) (comp_nodes g k)) (rw_strat s1) H1) as Hp.
    destruct (fstrat_start O (rw_strat s1) lc (map (row attr) (comp_nodes g k)) (comp_nodes g k)) as [st|e|]; cbn [bind rel] in *; auto.
    destruct Hp as [_ Hp]. auto. }
  intros s2 s2' _ _ [<- H2].
  match goal with [|- rel _ ?m ?m'] => assert (Hres : rel (fun x y => x = y /\ let '(_, t, _) := x in reads_in sp thr (comp_nodes g k) (rw_strat t)) m m') end.
  { apply (reactive_component_alike fstrategy (fstrat_call B A) (fstrat_call exact_arith A) O _ (comp_graph g k) (reads_in sp thr (comp_nodes g k))); auto.
    - intros x a z l1 r1 Hx Hw1 Ha. apply (tf_same k x a z l1 r1 Hk Hx Hw1 Ha).
    - intros x a z l1 r1 Hx Hw1 Ha. apply (tf_same k x a z l1 r1 Hk Hx Hw1 Ha). }
  match goal with [|- rel _ ?m ?m'] => destruct m as [[[l1 s3] r1]|e|], m' as [y|e'|] end; cbn [rel] in Hres |- *; auto.
  destruct Hres as [<- H3]. split; [auto|]. split; [auto|]. split; [auto|]. eapply reads_in_reads; eauto.
Qed.

(** any local search whose fits agree *)
Section AnyAlike.
Variable LS : Type.
Variable wrap : LS -> LS.
Variables ls_fit ls_fit' : LS -> Z -> list Z -> rng -> out (option (list Z) * LS * rng).
Variable J : LS -> Prop.
Hypothesis Hwrap : forall s, J s -> J (wrap s).
Hypothesis Hfit : forall s p l r, J s -> length l = gn g -> ~ In (-1)%Z l ->
  rel (fun '(x, t, r1) '(x', t', r1') => x = x' /\ r1 = r1' /\ (t = t' /\ J t) /\ forall l, x = Some l -> length l = gn g) (ls_fit s p l r) (ls_fit' s p l r).
Theorem fls_alike max_it labels0 s r : J s ->
  fmaxp_ls LS wrap ls_fit B A enum O g attr sp thr max_it labels0 s r = fmaxp_ls LS wrap ls_fit' exact_arith A enum O g attr sp thr max_it labels0 s r.
Proof.
  intros Hs. unfold fmaxp_ls. cbv zeta. set (dis := fdissimilarity A enum attr).
  rewrite <- (fconstruct_alike B exact_arith dis g sp thr).
  2: { intros R Hne Hnd HR _. apply (reach_fits w lo size Hw Hlo g sp thr Hsh Hpos Hwh); auto. intros k Hk.
       apply (fits_everywhere lo size g sp thr Hpos Htop); auto. }
  pose proof (fconstruct_post B dis g sp thr (shifted (fun k => - (fun _ => 0) k)%Q thr) (beyond g sp thr) Hsym Hloop
    (int_check w lo size Hw Hlo g sp thr Hsh Hpos Hwh) max_it 0 [] r (fun x (H : In x []) => match H with end) (or_intror eq_refl)) as Hk.
  destruct (fconstruct B dis g sp thr max_it 0 [] r) as [[[mp before] r1]|e|]; cbn [bind post] in *; [|destruct Hk|destruct Hk].
  destruct Hk as [Hk _].
  pose proof (fassign_each_post dis g sp _ _ Hsym mp before r1 Hk) as Ha.
  destruct (fassign_each dis g before r1) as [[parts r2]|e|] eqn:Ea; cbn [bind post] in *; [|reflexivity|reflexivity].
  destruct Ha as [_ Hall].
  assert (HP : forall P, In P parts -> exists l, array_from_region_list P = Ok l /\ length l = gn g /\ ~ In (-1)%Z l).
  { intros P HP. apply In_nth_error in HP. destruct HP as [k HP]. destruct (Forall2_nth_r _ _ _ Hall k P HP) as [x [_ [Hpp _]]].
    destruct (array_of_partition g P Hpp) as [l [El [[Hf _] [Hm _]]]]. exists l. auto. }
  destruct parts as [|P0 parts0]; [reflexivity|]. set (parts := P0 :: parts0) in *.
  match goal with [|- ?m = ?m'] => assert (Hres : rel eq m m') end.
  2: { match goal with [|- ?m = ?m'] => destruct m, m' end; cbn in Hres; congruence || contradiction. }
  eapply rel_bind.
  { eapply (search_rounds_scale 1 ltac:(reflexivity) LS LS _ _ _ _ O O attr attr (gn g) (fun s1 s2 => s1 = s2 /\ J s1));
      [| | |exact HP|split; [reflexivity|exact Hs]|exact Logic.I].
  - intros t t' [<- Ht]. auto.
  - intros t t' mp' l rg [<- Ht] Hl Hm. apply Hfit; auto.
  - intros l Hl. destruct (o_call O l attr); cbn; auto. lra. }
  intros [[t x] r4] [[t' x'] r4'] _ _ [[<- _] [H2 <-]]. cbn.
  destruct x as [[v l]|], x' as [[v' l']|]; cbn in H2 |- *; try contradiction; auto. destruct H2 as [<- _]. auto.
Qed.
End AnyAlike.

Theorem basic_fits fuel maxlen reps max_it labels0 s r : reads sp thr s ->
  fmaxp_basic_fit B A enum order O fuel maxlen reps g attr sp thr max_it labels0 s r =
  fmaxp_basic_fit exact_arith A enum order O fuel maxlen reps g attr sp thr max_it labels0 s r.
Proof.
  intros Hs. unfold fmaxp_basic_fit. apply (fls_alike fstrategy _ _ _ (reads sp thr)); [|intros t p l rg Ht Hl Hm|exact Hs].
  - intros t Ht. cbn. auto.
  - eapply rel_bind; [apply (fbasic_fit_alike fuel maxlen reps p l t rg Hl Hm Ht)|].
    intros [[x t1] r5] [[x' t1'] r5'] E _ [H1 [H2 H3]]. cbn in H1, H2, H3 |- *. subst. split; [auto|]. split; [auto|]. split; [exact H3|].
    intros l1 [= <-]. unfold fbasic_fit in E. apply fit_some_length in E. exact E.
Qed.
Theorem reactive_fits maxit k1 k2 max_it labels0 s r : reads sp thr (rw_strat s) ->
  fmaxp_reactive_fit B A enum order O maxit k1 k2 g attr sp thr max_it labels0 s r =
  fmaxp_reactive_fit exact_arith A enum order O maxit k1 k2 g attr sp thr max_it labels0 s r.
Proof.
  intros Hs. unfold fmaxp_reactive_fit. apply (fls_alike (reactive_with fstrategy) _ _ _ (fun s => reads sp thr (rw_strat s))); [|intros t p l rg Ht Hl Hm|exact Hs].
  - intros t Ht. cbn. auto.
  - eapply rel_bind; [apply (freactive_fit_alike maxit k1 k2 p l t rg Hl Hm Ht)|].
    intros [[x t1] r5] [[x' t1'] r5'] E _ [H1 [H2 H3]]. cbn in H1, H2, H3 |- *. subst. split; [auto|]. split; [auto|]. split; [exact H3|].
    intros l1 [= <-]. unfold freactive_fit in E. apply fit_some_length in E. exact E.
Qed.
End TabuFits.
