(** Properties C140, C141: the tabu classes as local search of the max-p heuristic. *)
From Verif Require Import Base Spec M_Graph P_Graph M_Util P_Base P_Util P_Forest P_Init P_Initial
  M_Objective P_Sum P_Objective M_Azp P_Azp P_Strategy P_Fit P_AzpFit M_Sa Examples Props_Objective Props_Strategy Props_Azp Props_Sa
  M_MaxP P_MaxP P_MaxP2 P_MaxP3 P_MaxP4 Props_MaxP P_TwoRuns M_Tabu P_Tabu P_TabuFit Props_Tabu M_TabuWith P_TabuWith.

Local Notation att := (map (fun q : Q => [q])).

(** ** M_Tabu is the case of AllowMoveAZP *)
(** AZPBasicTabu.fit as modelled in M_Tabu and in M_TabuWith: the same labels, the same exceptions and
    the same draws. *)
Lemma basic_fit_plain expf order O fuel maxlen reps g attr n_regions initial c r : (forall l, Permutation (order l) l) ->
  match initial with Some l => length l = gn g /\ ~ In (-1)%Z l | None => True end ->
  rel (two_acc strategy common (fun s c => s = SAzp c))
    (basic_fit_with expf order O fuel maxlen reps g attr n_regions initial (SAzp c) r)
    (basic_fit order O fuel maxlen reps g attr n_regions initial c r).
Proof.
  intros Hord Hi. unfold basic_fit_with, basic_fit. apply fit_two; auto.
  intros comp l s c' rg Hc Hwf ->. cbn [run_component strat_start]. unfold run_component.
  cbn [strat_start]. destruct (start_common l _ O) as [c1|e|]; cbn [bind rel]; auto.
  unfold basic_component_with, basic_component. destruct (Nat.eqb _ 1); [cbn; auto|].
  rewrite basic_plain. destruct (basic_loop _ _ _ _ _ _ _ _ _ _ _ _) as [[[l' c2] r']|e|]; cbn; auto.
Qed.

Lemma reactive_fit_plain expf order O maxit k1 k2 g attr n_regions initial s r : (forall l, Permutation (order l) l) ->
  match initial with Some l => length l = gn g /\ ~ In (-1)%Z l | None => True end ->
  rel (two_acc (reactive_with strategy) reactive (fun s' s => s' = plain_of s))
    (reactive_fit_with expf order O maxit k1 k2 g attr n_regions initial (plain_of s) r)
    (reactive_fit order O maxit k1 k2 g attr n_regions initial s r).
Proof.
  intros Hord Hi. unfold reactive_fit_with, reactive_fit. apply fit_two; auto.
  intros comp l s' s0 rg Hc Hwf ->. unfold run_component. cbn [plain_of rw_strat strat_start].
  destruct (start_common l _ O) as [c1|e|]; cbn [bind rel]; auto.
  unfold reactive_component_with, reactive_component. destruct (Nat.eqb _ 1); [cbn; auto|].
  cbn [plain_of rw_avg rw_reps rw_visited].
  change (mkReactiveWith (SAzp c1) (rt_avg s0) (rt_reps s0) (rt_visited s0)) with (plain_of (mkReactive c1 (rt_avg s0) (rt_reps s0) (rt_visited s0))).
  rewrite reactive_plain. destruct (reactive_loop _ _ _ _ _ _ _ _ _ _ _ _) as [[[[l' s2] ls] r']|e|]; cbn [bind rel]; auto.
  cbn [plain_of rw_visited]. destruct (reactive_result ls (rt_visited s2)); cbn; auto.
Qed.

(** ** C140: AZPBasicTabu *)
(** Whatever the objective, the strategy object inside (any history), the tabu length and the draws: when fit
    returns, the regions are contiguous, meet the threshold and are as many as in the best constructed partition.
    Some component of the threshold is positive (otherwise every area is a region of its own). *)
Theorem C140_maxp_basic_valid expf order O d fuel maxlen reps g attr sp thr max_it labels0 s r labels s' r' :
  (forall l, Permutation (order l) l) -> symmetric g -> no_self_loops g -> shaped sp thr (gn g) -> non_negative sp ->
  (exists t, In t thr /\ (0 < t)%Q) -> 0 < max_it ->
  maxp_basic_fit expf order O d fuel maxlen reps g attr sp thr max_it labels0 s r = Ok (labels, s', r') ->
  exists runs p l, labels = Some l /\ built d g attr sp thr max_it r runs /\
    (forall x, In x runs -> length (fst x) <= p) /\ (exists x, In x runs /\ length (fst x) = p) /\
    feasible g l p /\ forall z, In z l -> meets sp thr l z.
Proof.
  intros Hord Hsym Hloop Hsp Hpos Hthr Hit H.
  pose proof (maxp_basic_any expf order Hord O d g attr sp thr Hsym Hloop Hsp Hpos Hthr fuel maxlen reps max_it labels0 s r Hit) as Hp.
  rewrite H in Hp. destruct Hp as [p [before [r1 [l [Hc [-> [Hf Hm]]]]]]].
  destruct (construct_spec d g attr sp thr max_it 0 [] r p before r1 Hc) as [runs [Hg [Hl [_ [Hle [_ Hmax]]]]]]; [intros x []|].
  exists runs, p, l. split; [auto|]. split; [split; [auto|eauto]|]. split; [auto|]. split; [|split; [exact Hf|exact Hm]].
  destruct Hmax as [->|Hmax]; [|auto]. destruct runs as [|x runs]; [cbn in Hl; lia|].
  exists x. split; [left; auto|]. specialize (Hle x (or_introl eq_refl)). lia.
Qed.

(** For the pairwise objective and the strategy these classes are constructed with (possibly wrapped by
    earlier fits), the heterogeneity is at most that of every completed partition. *)
Theorem C140_maxp_basic_not_worse expf order d fuel maxlen reps g attr sp thr max_it labels0 s r labels s' r' :
  (forall l, Permutation (order l) l) -> symmetric g -> no_self_loops g -> shaped sp thr (gn g) -> non_negative sp ->
  (exists t, In t thr /\ (0 < t)%Q) -> length attr = gn g -> (forall x y, d x y == d y x)%Q -> (forall x, d x x == 0)%Q ->
  0 < max_it -> azp_inside s ->
  maxp_basic_fit expf order (pairwise d) d fuel maxlen reps g attr sp thr max_it labels0 s r = Ok (labels, s', r') ->
  exists p before r1 parts r2 l, construct d g attr sp thr max_it 0 [] r = Ok (p, before, r1) /\
    assign_each d g attr before r1 = Ok (parts, r2) /\ parts <> [] /\ labels = Some l /\
    forall P, In P parts -> exists l0, array_from_region_list P = Ok l0 /\ feasible g l0 p /\
      (heterogeneity (fun i j => d (nth i attr []) (nth j attr [])) l <=
       heterogeneity (fun i j => d (nth i attr []) (nth j attr [])) l0)%Q.
Proof.
  intros Hord Hsym Hloop Hsp Hpos Hthr Hattr Hds Hdz Hit Hs H. pose proof (pairwise_exact_on d attr Hds Hdz) as Hex.
  assert (Hp := maxp_basic_default expf order Hord (pairwise d) d g attr sp thr Hsym Hloop Hsp Hpos Hthr Hattr Hex anyexn True
    (or_introl Logic.I) (fun m _ => Logic.I) (fun c a z l _ _ _ _ => anyexn_post _) fuel maxlen reps max_it labels0 s r Hit Hs (or_introl Logic.I)).
  rewrite H in Hp. destruct Hp as [p [before [r1 [parts [r2 [l [s1 [H1 [H2 [-> [_ [_ [Hl [Hne Hall]]]]]]]]]]]]]].
  exists p, before, r1, parts, r2, l. do 4 (split; [auto|]). intros P HP.
  destruct (Hall P HP) as [l0 [l1 [v [v1 [E0 [[Hf0 _] [[Hf1 _] [Hnw [Ev [Ev1 Hle]]]]]]]]]]. exists l0. split; [auto|]. split; [auto|].
  change (fun i j => d (nth i attr []) (nth j attr [])) with (dist d attr).
  destruct (pairwise_call_spec d l attr) as [x [Ex Hx]]. destruct (pairwise_call_spec d l1 attr) as [x1 [Ex1 Hx1]].
  cbn [o_call pairwise] in Ev, Ev1. rewrite Ev in Ex. rewrite Ev1 in Ex1. injection Ex as <-. injection Ex1 as <-.
  assert (Hh : (heterogeneity (dist d attr) l1 <= heterogeneity (dist d attr) l0)%Q).
  { destruct Hf0 as [A0 [_ B0]]. destruct Hf1 as [A1 [_ B1]].
    rewrite (het_comps d attr g l1 (conj A1 B1)), (het_comps d attr g l0 (conj A0 B0)). apply sumQ_le. intros c Hc. apply in_seq in Hc.
    destruct (Hnw c ltac:(lia)) as [y0 [y1 [Ey0 [Ey1 Hy]]]].
    destruct (pairwise_call_spec d (comp_part g l0 c) (attr_c attr g c)) as [x' [Ex' Hx']].
    destruct (pairwise_call_spec d (comp_part g l1 c) (attr_c attr g c)) as [y' [Ey' Hy']].
    cbn [o_call pairwise] in Ey0, Ey1. rewrite Ey0 in Ex'. rewrite Ey1 in Ey'. injection Ex' as <-. injection Ey' as <-.
    change (comp_part g l0 c) with (labels_at l0 (comp_nodes g c)) in Hx'.
    change (comp_part g l1 c) with (labels_at l1 (comp_nodes g c)) in Hy'.
    change (attr_c attr g c) with (rows_at attr (comp_nodes g c)) in *. lra. }
  lra.
Qed.

(** Exceptions, for the pairwise objective: none when the total of every island reaches the threshold, and a
    ValueError when that of some island does not. *)
Theorem C140_maxp_basic_exceptions expf order d g attr sp thr :
  (forall l, Permutation (order l) l) -> symmetric g -> no_self_loops g -> shaped sp thr (gn g) -> non_negative sp ->
  (exists t, In t thr /\ (0 < t)%Q) -> length attr = gn g -> (forall x y, d x y == d y x)%Q -> (forall x, d x x == 0)%Q ->
  ((forall v isl, v < gn g -> island g v isl -> meets_in sp thr isl) ->
   forall fuel maxlen reps max_it labels0 s r e, 0 < max_it -> azp_inside s ->
     maxp_basic_fit expf order (pairwise d) d fuel maxlen reps g attr sp thr max_it labels0 s r <> Raise e) /\
  (forall v isl, v < gn g -> island g v isl -> ~ meets_in sp thr isl ->
   forall fuel maxlen reps max_it labels0 s r, 0 < max_it ->
     exists m, maxp_basic_fit expf order (pairwise d) d fuel maxlen reps g attr sp thr max_it labels0 s r = Raise (ValueError m)).
Proof.
  intros Hord Hsym Hloop Hsp Hpos Hthr Hattr Hds Hdz. pose proof (pairwise_exact_on d attr Hds Hdz) as Hex. split.
  - intros Hisl fuel maxlen reps max_it labels0 s r e Hit Hs E.
    pose proof (maxp_basic_default expf order Hord (pairwise d) d g attr sp thr Hsym Hloop Hsp Hpos Hthr Hattr Hex noexn True (or_introl Logic.I)) as Hp.
    specialize (Hp ltac:(intros m [v [isl [H1 [H2 H3]]]]; exfalso; apply H3; eapply Hisl; eauto)).
    specialize (Hp ltac:(intros c a z l Hc Hwf Ha Hz; apply pairwise_upd_post; [rewrite (proj1 Hwf); auto|auto])).
    specialize (Hp fuel maxlen reps max_it labels0 s r Hit Hs (or_introl Logic.I)). rewrite E in Hp. exact Hp.
  - intros v isl Hv Hi Hnm fuel maxlen reps max_it labels0 s r Hit. unfold maxp_basic_fit.
    apply (unmet_raises strategy _ _ (pairwise d) d g attr sp thr Hsym Hloop Hsp Hpos _ max_it labels0 (Some s) r v isl); auto.
Qed.

(** ** C141: AZPReactiveTabu *)
(** C141 (partial): on a connected map and with a new object, whatever the objective: when fit returns, the regions
    are contiguous, meet the threshold and are as many as in the best constructed partition.
    Missing: several islands, objects that have been fitted before, and exceptions; see the refutations. *)
Theorem C141_maxp_reactive_partial expf order O d maxit k1 k2 g attr sp thr max_it labels0 s r labels s' r' :
  (forall l, Permutation (order l) l) -> symmetric g -> no_self_loops g -> shaped sp thr (gn g) -> non_negative sp ->
  (exists t, In t thr /\ (0 < t)%Q) -> 0 < max_it -> n_islands g 1 ->
  reactive_with_new maxit = Ok s ->
  maxp_reactive_fit expf order O d (Z.to_nat maxit) k1 k2 g attr sp thr max_it labels0 s r = Ok (labels, s', r') ->
  exists runs p l, labels = Some l /\ built d g attr sp thr max_it r runs /\
    (forall x, In x runs -> length (fst x) <= p) /\ (exists x, In x runs /\ length (fst x) = p) /\
    feasible g l p /\ forall z, In z l -> meets sp thr l z.
Proof.
  intros Hord Hsym Hloop Hsp Hpos Hthr Hit Hn Hnew H.
  assert (Hone : n_components g = 1) by (apply n_islands_iff in Hn; auto).
  assert (Hv : rw_visited s = []).
  { unfold reactive_with_new in Hnew. destruct (Z.leb maxit 0); [discriminate|]. injection Hnew as <-. reflexivity. }
  pose proof (maxp_reactive_any expf order Hord O d g attr sp thr Hsym Hloop Hsp Hpos Hthr Hone (Z.to_nat maxit) k1 k2 max_it labels0 s r Hit Hv) as Hp.
  rewrite H in Hp. destruct Hp as [p [before [r1 [l [Hc [-> [Hf Hm]]]]]]].
  destruct (construct_spec d g attr sp thr max_it 0 [] r p before r1 Hc) as [runs [Hg [Hl [_ [Hle [_ Hmax]]]]]]; [intros x []|].
  exists runs, p, l. split; [auto|]. split; [split; [auto|eauto]|]. split; [auto|]. split; [|split; [exact Hf|exact Hm]].
  destruct Hmax as [->|Hmax]; [|auto]. destruct runs as [|x runs]; [cbn in Hl; lia|].
  exists x. split; [left; auto|]. specialize (Hle x (or_introl eq_refl)). lia.
Qed.

(** ** C142: termination with AZPBasicTabu *)
(** C142 (partial): when every island reaches the threshold and no move leaves the objective of an island unchanged,
    fit returns, whatever the draws and the tabu length.  Missing: with ties it may run for ever, see the refutation. *)
Theorem C142_maxp_basic_returns_partial expf order d g attr sp thr reps :
  (forall l, Permutation (order l) l) -> symmetric g -> no_self_loops g -> shaped sp thr (gn g) -> non_negative sp ->
  (exists t, In t thr /\ (0 < t)%Q) -> length attr = gn g -> (forall x y, d x y == d y x)%Q -> (forall x, d x x == 0)%Q ->
  (forall v isl, v < gn g -> island g v isl -> meets_in sp thr isl) ->
  (forall v isl, v < gn g -> island g v isl -> no_ties (pairwise d) (rows_at attr isl)) ->
  exists bound, forall fuel maxlen max_it labels0 s r, bound <= fuel -> 0 < max_it -> azp_inside s ->
    exists l s' r', maxp_basic_fit expf order (pairwise d) d fuel maxlen reps g attr sp thr max_it labels0 s r = Ok (Some l, s', r').
Proof.
  intros Hord Hsym Hloop Hsp Hpos Hthr Hattr Hds Hdz Hisl Hnt. pose proof (pairwise_exact_on d attr Hds Hdz) as Hex.
  exists (S (tabu_fuel (gn g) reps)). intros fuel maxlen max_it labels0 s r Hf Hit Hs.
  pose proof (maxp_basic_default expf order Hord (pairwise d) d g attr sp thr Hsym Hloop Hsp Hpos Hthr Hattr Hex noexn False) as Hp.
  specialize (Hp (or_intror (quiet_islands g attr (pairwise d) Hnt))).
  specialize (Hp ltac:(intros m [v [isl [H1 [H2 H3]]]]; exfalso; apply H3; eapply Hisl; eauto)).
  specialize (Hp ltac:(intros c a z l Hc Hwf Ha Hz; apply pairwise_upd_post; [rewrite (proj1 Hwf); auto|auto])).
  specialize (Hp fuel maxlen reps max_it labels0 s r Hit Hs (or_intror Hf)). apply post_total in Hp.
  destruct Hp as [[[labels s'] r'] [E [mp [before [r1 [parts [r2 [l [s1 [_ [_ [-> _]]]]]]]]]]]]. eauto.
Qed.

(** The star of C29 with the threshold 1 and the totals 0 1 1 1: the construction makes three regions, the centre
    joins one of them and then goes round the three regions for ever. *)
Definition star_sp : list (list Q) := att [0;1;1;1]%Q.
Definition star_wrap (c : common) (s : strategy) : Prop :=
  exists c1, s = SMaxP c star_sp star_sp [1%Q] (SAzp c1) /\ c_ok (pairwise manhattan) eq4 c1.

Lemma star_with_step expf reps fuel stop visited tabu cc s r k : k < 3 -> star_inv k tabu -> star_wrap cc s ->
  exists stop' visited' s', star_wrap cc s' /\
  basic_loop_with strategy (strat_call expf) (pairwise manhattan) star_c (S fuel) None reps eq4 stop visited (star_labels k) tabu s r =
  basic_loop_with strategy (strat_call expf) (pairwise manhattan) star_c fuel None reps eq4 stop' visited'
    (star_labels (match k with 0 => 1 | 1 => 2 | _ => 0 end))
    (tabu ++ [mkMove 0 (mv_new (star_next k)) (mv_old (star_next k))]) s' r.
Proof.
  intros Hk [Hnt Halt] [c [-> [Ho Ha]]]. cbn [basic_loop_with]. set (stop' := stop || _).
  exists stop', (visited ++ [star_labels k]), (SMaxP cc star_sp star_sp [1%Q] (SAzp (mkCommon eq4 (pairwise manhattan) (c_val c + 0)%Q))).
  split; [eexists; split; [reflexivity|split; reflexivity]|]. rewrite possible_moves_filter.
  assert (Hbest : best_of (pairwise manhattan) eq4 (star_labels k) 0
    (filter (fun m => negb (in_tabu m tabu)) (possible_moves star_c (star_labels k) [])) None =
    Ok (Some (star_next k, 0, 0%Q))).
  { pose proof (Hnt 0) as H0. pose proof (Hnt 1) as H1. pose proof (Hnt 2) as H2.
    destruct k as [|[|[|k]]]; [| | |lia].
    - change (possible_moves star_c (star_labels 0) []) with [star_next 0; star_alt 0]. cbn [filter]. rewrite H0. cbn [negb].
      destruct (in_tabu (star_alt 0) tabu); vm_compute; reflexivity.
    - change (possible_moves star_c (star_labels 1) []) with [star_alt 1; star_next 1]. cbn [filter]. rewrite H1, Halt by auto.
      vm_compute; reflexivity.
    - change (possible_moves star_c (star_labels 2) []) with [star_next 2; star_alt 2]. cbn [filter]. rewrite H2. cbn [negb].
      destruct (in_tabu (star_alt 2) tabu); vm_compute; reflexivity. }
  rewrite Hbest. cbn [bind]. cbn [strat_call].
  assert (Hd : donor_ok star_sp [1%Q] (mv_area (star_next k)) (star_labels k) = true).
  { destruct k as [|[|[|k]]]; [| | |lia]; vm_compute; reflexivity. }
  rewrite Hd. unfold azp_call. rewrite Ho, Ha.
  assert (Hu : o_update (pairwise manhattan) (mv_area (star_next k)) (mv_new (star_next k)) (star_labels k) eq4 = Ok 0%Q).
  { destruct k as [|[|[|k]]]; [| | |lia]; vm_compute; reflexivity. }
  rewrite Hu. cbn [bind Qle_bool]. unfold make_move_tabu.
  assert (Hb : boolean_assert_feasible (make_move (mv_area (star_next k)) (mv_new (star_next k)) (star_labels k)) star_c None = Ok true).
  { destruct k as [|[|[|k]]]; [| | |lia]; vm_compute; reflexivity. }
  change (Qle_bool 0 0) with true. cbn [bind]. rewrite Hb. cbn [bind deque_append].
  destruct k as [|[|[|k]]]; [| | |lia]; reflexivity.
Qed.

Lemma star_with_forever expf reps cc : forall fuel stop visited tabu s r k, k < 3 -> star_inv k tabu -> star_wrap cc s ->
  basic_loop_with strategy (strat_call expf) (pairwise manhattan) star_c fuel None reps eq4 stop visited (star_labels k) tabu s r = NoFuel.
Proof.
  induction fuel as [|fuel IH]; intros stop visited tabu s r k Hk Hi Hc; [reflexivity|].
  destruct (star_with_step expf reps fuel stop visited tabu cc s r k Hk Hi Hc) as [stop' [visited' [s' [Hs' E]]]]. rewrite E.
  apply IH; auto; [destruct k as [|[|k]]; lia|]. apply star_inv_step; auto.
Qed.

Theorem C142_maxp_basic_returns_refuted :
  symmetric star3 /\ no_self_loops star3 /\ shaped star_sp [1%Q] (gn star3) /\ non_negative star_sp /\
  (forall v isl, v < gn star3 -> island star3 v isl -> meets_in star_sp [1%Q] isl) /\
  forall expf fuel reps labels0 c,
    maxp_basic_fit expf same_order (pairwise manhattan) manhattan fuel None reps star3 eq4 star_sp [1%Q] 1 labels0 (SAzp c) (draws []) = NoFuel.
Proof.
  assert (Hsym : symmetric star3).
  { intros u v Hu Hv. cbn in Hu, Hv. do 4 (destruct u as [|u]; [do 4 (destruct v as [|v]; [reflexivity|]); lia|]). lia. }
  assert (Hloop : no_self_loops star3) by (intros v; do 4 (destruct v as [|v]; [reflexivity|]); reflexivity).
  assert (Hsp : shaped star_sp [1%Q] (gn star3)).
  { split; [reflexivity|]. intros x Hx. repeat (destruct Hx as [<-|Hx]; [reflexivity|]). destruct Hx. }
  assert (Hpos : non_negative star_sp).
  { intros x q Hx Hq. repeat (destruct Hx as [<-|Hx]; [destruct Hq as [<-|[]]; vm_compute; discriminate|]). destruct Hx. }
  assert (Hrun : forall expf fuel reps labels0 c,
    maxp_basic_fit expf same_order (pairwise manhattan) manhattan fuel None reps star3 eq4 star_sp [1%Q] 1 labels0 (SAzp c) (draws []) = NoFuel).
  { intros expf fuel reps labels0 c. unfold maxp_basic_fit, maxp_fit.
    assert (Hc : exists b r1 P r2, construct manhattan star3 eq4 star_sp [1%Q] 1 0 [] (draws []) = Ok (3, b, r1) /\
      assign_each manhattan star3 eq4 b r1 = Ok ([P], r2) /\ array_from_region_list P = Ok [0;0;1;2]%Z).
    { do 4 eexists. split; [vm_compute; reflexivity|]. split; vm_compute; reflexivity. }
    destruct Hc as [b [r1 [P [r2 [E1 [E2 E3]]]]]]. rewrite E1. cbn [bind]. rewrite E2. cbn [bind length search_rounds search_all].
    rewrite E3. cbn [bind]. unfold basic_fit_with, fit.
    change (assert_feasible [0;0;1;2]%Z star3 (Some (Z.of_nat 3))) with (Ok tt). cbn [bind].
    change (separate_components star3 [0;0;1;2]%Z) with [[0;0;1;2]%Z]. cbn [fit_arrays fit_one fst snd].
    change (filter (fun a => negb (Z.eqb (lab [0;0;1;2]%Z a) (-1))) (seq 0 (length [0;0;1;2]%Z))) with [0;1;2;3].
    fold star_c. change (gather (-1)%Z [0;0;1;2]%Z [0;1;2;3]) with (star_labels 0).
    change (map (row eq4) [0;1;2;3]) with eq4. unfold maxp_wrap. cbn [strat_start]. unfold start_common.
    change (o_call (pairwise manhattan) (star_labels 0) eq4) with (Ok 0%Q : out Q). cbn [bind].
    unfold basic_component_with. change (Nat.eqb (length (uniqueZ (star_labels 0))) 1) with false. cbn [bind].
    change (map (row star_sp) [0;1;2;3]) with star_sp.
    erewrite star_with_forever; [reflexivity|lia| |eexists; split; [reflexivity|split; reflexivity]].
    split; [reflexivity|discriminate]. }
  do 4 (split; [auto|]). split; [|exact Hrun].
  destruct (unmet_island star3 star_sp [1%Q]) as [H|[v [isl [H1 [H2 H3]]]]]; [exact H|exfalso].
  destruct (unmet_raises strategy (maxp_wrap star_sp [1%Q]) (fun s p l r => let* '((labels, s'), r') :=
      basic_fit_with (fun x => x) same_order (pairwise manhattan) 0 None 0 star3 eq4 p (Some l) s r in Ok (Some labels, s', r'))
    (pairwise manhattan) manhattan star3 eq4 star_sp [1%Q] Hsym Hloop Hsp Hpos (fun r => (SAzp unstarted, r)) 1 None
    (Some (SAzp unstarted)) (draws []) v isl ltac:(lia) H1 H2 H3) as [m Hm].
  pose proof (Hrun (fun x => x) 0 0 None unstarted) as Hr. unfold maxp_basic_fit in Hr. rewrite Hr in Hm. discriminate.
Qed.

(** ** Examples and refutations *)
Definition rw_fresh : reactive_with strategy := mkReactiveWith (SAzp unstarted) 1 1 [].
Definition mp_basic_ex fuel maxlen reps g attr sp thr it r :=
  maxp_basic_fit (fun x => x) same_order (pairwise manhattan) manhattan fuel maxlen reps g (att attr) (att sp) [thr] it None (SAzp unstarted) r.
Definition mp_reactive_ex maxit k1 k2 g attr sp thr it r :=
  maxp_reactive_fit (fun x => x) same_order (pairwise manhattan) manhattan maxit k1 k2 g (att attr) (att sp) [thr] it None rw_fresh r.
Definition mp_exn {A} (o : out A) : option exn := match o with Raise e => Some e | _ => None end.
(** the draws of the examples below *)
Definition draws140 (i : nat) : rng := draws (map (fun k => (k * k * 7 + k * i + i) mod 11) (seq 0 60)).

Lemma ones_shaped n t : shaped (att (repeat 1%Q n)) [t] n /\ non_negative (att (repeat 1%Q n)).
Proof.
  split; [split; [rewrite map_length, repeat_length; reflexivity|]|].
  - intros x Hx. apply in_map_iff in Hx. destruct Hx as [q [<- _]]. reflexivity.
  - intros x q Hx Hq. apply in_map_iff in Hx. destruct Hx as [q0 [<- H0]]. apply repeat_spec in H0. subst q0.
    destruct Hq as [<-|[]]. lra.
Qed.

(** fit raises on maps with an island that does not reach the threshold, so an example in which it does not raise
    shows that all of them do *)
Lemma not_raised fuel reps g attr sp t r : symmetric g -> no_self_loops g -> shaped (att sp) [t] (gn g) -> non_negative (att sp) ->
  mp_raises (mp_basic_ex fuel None reps g attr sp t 1 r) = false ->
  forall v isl, v < gn g -> island g v isl -> meets_in (att sp) [t] isl.
Proof.
  intros Hsym Hloop Hsp Hpos H. destruct (unmet_island g (att sp) [t]) as [Hm|[v [isl [H1 [H2 H3]]]]]; [exact Hm|exfalso].
  unfold mp_basic_ex, maxp_basic_fit in H.
  destruct (unmet_raises strategy (maxp_wrap (att sp) [t]) (fun s p l r => let* '((labels, s'), r') :=
      basic_fit_with (fun x => x) same_order (pairwise manhattan) fuel None reps g (att attr) p (Some l) s r in Ok (Some labels, s', r'))
    (pairwise manhattan) manhattan g (att attr) (att sp) [t] Hsym Hloop Hsp Hpos (fun r => (SAzp unstarted, r)) 1 None
    (Some (SAzp unstarted)) r v isl ltac:(lia) H1 H2 H3) as [m Hm]. rewrite Hm in H. discriminate.
Qed.

(** seven areas in a row, two areas per region: the hypotheses of C140 and of C141 hold, and both searches return *)
Example C140_example :
  symmetric (path_graph 7) /\ no_self_loops (path_graph 7) /\ n_islands (path_graph 7) 1 /\
  shaped (att (repeat 1%Q 7)) [2%Q] 7 /\ non_negative (att (repeat 1%Q 7)) /\ (exists t, In t [2%Q] /\ (0 < t)%Q) /\
  mp_labels (mp_basic_ex 40 None 2 (path_graph 7) [0;9;1;8;2;3;9]%Q (repeat 1%Q 7) 2%Q 2 (draws140 1)) = Some [0;0;2;2;2;1;1]%Z /\
  reactive_with_new 3 = Ok rw_fresh /\
  mp_labels (mp_reactive_ex 3 1 1 (path_graph 7) [0;9;1;8;2;3;9]%Q (repeat 1%Q 7) 2%Q 1 (draws140 1)) = Some [0;0;2;2;2;1;1]%Z.
Proof.
  split; [apply path_symmetric|]. split; [apply path_no_self_loops|]. split; [apply n_islands_iff; vm_compute; reflexivity|].
  split; [apply ones_shaped|]. split; [apply (ones_shaped 7 2%Q)|]. split; [exists 2%Q; split; [left; auto|lra]|].
  split; [vm_compute; reflexivity|]. split; [reflexivity|vm_compute; reflexivity].
Qed.

(** the total of the island of two areas does not reach 3 *)
Example C140_exception_example :
  mp_raises (mp_basic_ex 40 None 2 two_islands [0;9;1;8;2]%Q (repeat 1%Q 5) 3%Q 1 rng0) = true.
Proof. vm_compute. reflexivity. Qed.

(** two rows of three areas: the regions of the first island are given to the second one as well *)
Theorem C141_maxp_reactive_islands_refuted :
  reactive_with_new 2 = Ok rw_fresh /\ symmetric two_paths /\ no_self_loops two_paths /\
  shaped (att [2;1;2;2;1;2]%Q) [2%Q] 6 /\ non_negative (att [2;1;2;2;1;2]%Q) /\
  exists runs l, built manhattan two_paths (att [0;0;5;5;0;0]%Q) (att [2;1;2;2;1;2]%Q) [2%Q] 1 (draws140 1) runs /\
    (exists x, In x runs /\ length (fst x) = 4) /\
    mp_labels (mp_reactive_ex 2 1 1 two_paths [0;0;5;5;0;0]%Q [2;1;2;2;1;2]%Q 2%Q 1 (draws140 1)) = Some l /\
    n_labels l = 2 /\ ~ all_contiguous two_paths l.
Proof.
  split; [reflexivity|]. split; [|split; [|split; [|split]]].
  - intros u v Hu Hv. cbn in Hu, Hv. do 6 (destruct u as [|u]; [do 6 (destruct v as [|v]; [reflexivity|]); lia|]). lia.
  - intros u Hu. cbn in Hu. do 6 (destruct u as [|u]; [reflexivity|]). lia.
  - split; [reflexivity|]. intros x Hx. repeat (destruct Hx as [<-|Hx]; [reflexivity|]). destruct Hx.
  - intros x q Hx Hq. repeat (destruct Hx as [<-|Hx]; [destruct Hq as [<-|[]]; lra|]). destruct Hx.
  - exists [([[1; 0]; [3]; [4; 5]; [2]], [])]. eexists. split; [|split; [|split; [vm_compute; reflexivity|split; [reflexivity|]]]].
    + split; [reflexivity|]. eexists. econstructor; [vm_compute; reflexivity|constructor].
    + eexists. split; [left; reflexivity|reflexivity].
    + intros H. apply check_regions_all in H. vm_compute in H. discriminate.
Qed.

(** two areas, each a region of its own: there is nothing to move, and fit raises AttributeError *)
Theorem C141_maxp_reactive_no_exception_refuted :
  symmetric (path_graph 2) /\ no_self_loops (path_graph 2) /\ n_islands (path_graph 2) 1 /\
  shaped (att (repeat 1%Q 2)) [1%Q] 2 /\ non_negative (att (repeat 1%Q 2)) /\
  (forall v isl, v < 2 -> island (path_graph 2) v isl -> meets_in (att (repeat 1%Q 2)) [1%Q] isl) /\
  forall maxit k1 k2, mp_exn (mp_reactive_ex (S maxit) k1 k2 (path_graph 2) [0;9]%Q (repeat 1%Q 2) 1%Q 1 rng0) = Some AttributeError.
Proof.
  split; [apply path_symmetric|]. split; [apply path_no_self_loops|]. split; [apply n_islands_iff; vm_compute; reflexivity|].
  split; [apply ones_shaped|]. split; [apply (ones_shaped 2 1%Q)|]. split.
  - apply (not_raised 9 0 (path_graph 2) [0;9]%Q (repeat 1%Q 2) 1%Q rng0);
      [apply path_symmetric|apply path_no_self_loops|apply ones_shaped|apply (ones_shaped 2 1%Q)|vm_compute; reflexivity].
  - intros maxit k1 k2. vm_compute. reflexivity.
Qed.

(** C142: three areas in a row with the values 0 1 5, whose totals 2 1 2 make two regions *)
Example C142_example :
  (forall v isl, v < 3 -> island (path_graph 3) v isl -> meets_in (att [2;1;2]%Q) [2%Q] isl) /\
  (forall v isl, v < 3 -> island (path_graph 3) v isl -> no_ties (pairwise manhattan) (rows_at (att [0;1;5]%Q) isl)) /\
  mp_labels (mp_basic_ex 40 None 5 (path_graph 3) [0;1;5]%Q [2;1;2]%Q 2%Q 1 (draws140 2)) = Some [1;1;0]%Z.
Proof.
  split; [|split; [apply C29_example|vm_compute; reflexivity]].
  apply (not_raised 40 5 (path_graph 3) [0;1;5]%Q [2;1;2]%Q 2%Q (draws140 2)); [apply path_symmetric|apply path_no_self_loops| | |].
  - split; [reflexivity|]. intros x Hx. repeat (destruct Hx as [<-|Hx]; [reflexivity|]). destruct Hx.
  - intros x q Hx Hq. repeat (destruct Hx as [<-|Hx]; [destruct Hq as [<-|[]]; lra|]). destruct Hx.
  - vm_compute. reflexivity.
Qed.

Print Assumptions basic_fit_plain.
Print Assumptions reactive_fit_plain.
Print Assumptions C140_maxp_basic_valid.
Print Assumptions C140_maxp_basic_not_worse.
Print Assumptions C140_maxp_basic_exceptions.
Print Assumptions C141_maxp_reactive_partial.
Print Assumptions C141_maxp_reactive_islands_refuted.
Print Assumptions C141_maxp_reactive_no_exception_refuted.
Print Assumptions C142_maxp_basic_returns_partial.
Print Assumptions C142_maxp_basic_returns_refuted.
