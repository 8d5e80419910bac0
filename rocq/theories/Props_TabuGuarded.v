(** Properties C148 and C154 with the tabu classes as local search of the max-p heuristic. *)
From Verif Require Import Base Spec SpecData SpecBound M_Graph P_Graph M_Util P_Base P_Util P_Forest P_Init P_Initial
  M_Objective P_Sum P_Objective M_Azp P_Azp P_Strategy P_Fit P_AzpFit M_Sa P_Sa Examples Props_Objective Props_Strategy Props_Azp Props_Sa M_Tabu P_Tabu P_TabuFit P_Reactive
  M_MaxP P_MaxP P_MaxP2 P_MaxP3 P_MaxP4 Props_MaxP M_TabuWith P_TabuWith Props_MaxPTabu P_FloatMaxP P_Guarded
  M_Grow P_MaxPChecked M_MaxPThreshold P_MaxPThreshold P_MaxPThreshold2 P_MaxPThreshold3 Props_MaxPThreshold
  M_MaxPMissing SpecAmounts P_MaxPMissing P_MaxPMissing2 Props_MaxPMissing M_TabuGuarded P_TabuGuarded P_GuardedAzp.

Local Notation att := (map (fun q : Q => [q])).
Local Notation amt := (map (fun o : option Q => [o])).

(** ** C154: thresholds that are NaN or infinite *)
Section C154Tabu.
Variables (order : list edge -> list edge) (O : objfun) (d : list Q -> list Q -> Q) (g : graph) (attr sp : list (list Q)) (thr : list bound).
Hypothesis Hord : forall l, Permutation (order l) l.
Hypothesis Hsym : symmetric g.
Hypothesis Hloop : no_self_loops g.
Hypothesis Hsh : shaped_for sp thr (gn g).
Hypothesis Hpos : non_negative sp.

Theorem C154_tabu_infinite : In PosInf thr -> 0 < gn g ->
  (forall fuel maxlen reps max_it labels0 s r, 0 < max_it -> exists m, bmaxp_basic_fit order O d fuel maxlen reps g attr sp thr max_it labels0 s r = Raise (ValueError m)) /\
  (forall maxit k1 k2 max_it labels0 s r, 0 < max_it -> exists m, bmaxp_reactive_fit order O d maxit k1 k2 g attr sp thr max_it labels0 s r = Raise (ValueError m)).
Proof.
  intros Hin Hn. split; intros.
  - unfold bmaxp_basic_fit. apply (infinite_raises g sp thr Hsh Hpos); auto.
  - unfold bmaxp_reactive_fit. apply (infinite_raises g sp thr Hsh Hpos); auto.
Qed.
(** an island that does not reach the numbers *)
Theorem C154_tabu_unmet v isl : ~ In PosInf thr -> v < gn g -> island g v isl -> ~ meets_numbers_in sp thr isl ->
  (forall fuel maxlen reps max_it labels0 s r, 0 < max_it -> exists m, bmaxp_basic_fit order O d fuel maxlen reps g attr sp thr max_it labels0 s r = Raise (ValueError m)) /\
  (forall maxit k1 k2 max_it labels0 s r, 0 < max_it -> exists m, bmaxp_reactive_fit order O d maxit k1 k2 g attr sp thr max_it labels0 s r = Raise (ValueError m)).
Proof.
  intros Hno Hv Hi Hnm. pose proof (numbers_finite thr) as Hfin. split; intros.
  - unfold bmaxp_basic_fit. rewrite (same_construction g sp thr _ (proj2 Hsh) Hpos Hfin Hno).
    apply (unmet_raises bstrategy _ _ O d g attr sp (numbers thr) Hsym Hloop (finite_shaped g sp thr _ Hsh Hfin) Hpos _ max_it labels0 (Some s) r v isl); auto.
    rewrite meets_in_numbers; auto.
  - unfold bmaxp_reactive_fit. rewrite (same_construction g sp thr _ (proj2 Hsh) Hpos Hfin Hno).
    apply (unmet_raises (reactive_with bstrategy) _ _ O d g attr sp (numbers thr) Hsym Hloop (finite_shaped g sp thr _ Hsh Hfin) Hpos _ max_it labels0 (Some s) r v isl); auto.
    rewrite meets_in_numbers; auto.
Qed.

Lemma some_number q thr' : made_finite thr thr' -> In (Number q) thr -> (0 < q)%Q -> exists t, In t thr' /\ (0 < t)%Q.
Proof.
  intros Hfin Hq H. apply In_nth_error in Hq. destruct Hq as [k Hk]. destruct (made_finite_nth_l _ _ Hfin k _ Hk) as [t [Ht ->]].
  exists q. split; [eapply nth_error_In; eauto|auto].
Qed.
(** some threshold is a positive number: the regions are valid, and as many as if the thresholds that are not numbers were zero *)
Theorem C154_basic_valid q fuel maxlen reps max_it labels0 s r labels s' r' : ~ In PosInf thr -> In (Number q) thr -> (0 < q)%Q -> 0 < max_it ->
  bmaxp_basic_fit order O d fuel maxlen reps g attr sp thr max_it labels0 s r = Ok (labels, s', r') ->
  exists l p runs, labels = Some l /\ feasible g l p /\ (forall z, In z l -> meets_numbers sp thr l z) /\
    built d g attr sp (numbers thr) max_it r runs /\ (forall x, In x runs -> length (fst x) <= p) /\ exists x, In x runs /\ length (fst x) = p.
Proof.
  intros Hno Hq Hpq Hit H. pose proof (numbers_finite thr) as Hfin.
  pose proof (bmaxp_basic_any order Hord O d g attr sp thr _ Hsym Hloop Hsh Hpos Hfin Hno (some_number q _ Hfin Hq Hpq) fuel maxlen reps max_it labels0 s r Hit) as Hp.
  rewrite H in Hp. destruct Hp as [p [before [r1 [l [Hc [-> [Hf Hm]]]]]]].
  destruct (construct_spec d g attr sp _ max_it 0 [] r p before r1 Hc) as [runs [Hg [Hl [_ [Hle [_ Hmax]]]]]]; [intros x []|].
  exists l, p, runs. split; [auto|]. split; [exact Hf|]. split; [|split; [split; [auto|eauto]|split; [auto|]]].
  - intros z Hz k t Hk. apply (Hm z Hz). unfold numbers. rewrite nth_error_map, Hk. reflexivity.
  - destruct Hmax as [->|Hmax]; [|auto]. destruct runs as [|x runs]; [cbn in Hl; lia|].
    exists x. split; [left; auto|]. specialize (Hle x (or_introl eq_refl)). lia.
Qed.
(** a new AZPReactiveTabu object, all areas connected *)
Theorem C154_reactive_valid q maxit k1 k2 max_it labels0 s r labels s' r' : ~ In PosInf thr -> In (Number q) thr -> (0 < q)%Q -> 0 < max_it ->
  n_islands g 1 -> rw_visited s = [] ->
  bmaxp_reactive_fit order O d maxit k1 k2 g attr sp thr max_it labels0 s r = Ok (labels, s', r') ->
  exists l p runs, labels = Some l /\ feasible g l p /\ (forall z, In z l -> meets_numbers sp thr l z) /\
    built d g attr sp (numbers thr) max_it r runs /\ (forall x, In x runs -> length (fst x) <= p) /\ exists x, In x runs /\ length (fst x) = p.
Proof.
  intros Hno Hq Hpq Hit Hn Hv H. pose proof (numbers_finite thr) as Hfin. assert (Hone : n_components g = 1) by (apply n_islands_iff in Hn; auto).
  pose proof (bmaxp_reactive_any order Hord O d g attr sp thr _ Hsym Hloop Hsh Hpos Hfin Hno (some_number q _ Hfin Hq Hpq) maxit k1 k2 max_it labels0 s r Hone Hit Hv) as Hp.
  rewrite H in Hp. destruct Hp as [p [before [r1 [l [Hc [-> [Hf Hm]]]]]]].
  destruct (construct_spec d g attr sp _ max_it 0 [] r p before r1 Hc) as [runs [Hg [Hl [_ [Hle [_ Hmax]]]]]]; [intros x []|].
  exists l, p, runs. split; [auto|]. split; [exact Hf|]. split; [|split; [split; [auto|eauto]|split; [auto|]]].
  - intros z Hz k t Hk. apply (Hm z Hz). unfold numbers. rewrite nth_error_map, Hk. reflexivity.
  - destruct Hmax as [->|Hmax]; [|auto]. destruct runs as [|x runs]; [cbn in Hl; lia|].
    exists x. split; [left; auto|]. specialize (Hle x (or_introl eq_refl)). lia.
Qed.
(** the pairwise objective: at most the heterogeneity of every completed partition *)
Theorem C154_basic_not_worse q thr' fuel maxlen reps max_it labels0 s r labels s' r' : ~ In PosInf thr -> made_finite thr thr' -> In (Number q) thr -> (0 < q)%Q -> 0 < max_it ->
  length attr = gn g -> (forall x y, d x y == d y x)%Q -> (forall x, d x x == 0)%Q ->
  bmaxp_basic_fit order (pairwise d) d fuel maxlen reps g attr sp thr max_it labels0 s r = Ok (labels, s', r') ->
  exists p before r1 parts r2 l, construct d g attr sp thr' max_it 0 [] r = Ok (p, before, r1) /\
    assign_each d g attr before r1 = Ok (parts, r2) /\ parts <> [] /\ labels = Some l /\
    forall P, In P parts -> exists l0, array_from_region_list P = Ok l0 /\ feasible g l0 p /\
      (heterogeneity (fun i j => d (nth i attr []) (nth j attr [])) l <=
       heterogeneity (fun i j => d (nth i attr []) (nth j attr [])) l0)%Q.
Proof.
  intros Hno Hfin Hq Hpq Hit Hattr Hds Hdz H. pose proof (pairwise_exact_on d attr Hds Hdz) as Hex.
  pose proof (bmaxp_basic_exact order Hord (pairwise d) d g attr sp thr thr' Hsym Hloop Hsh Hpos Hfin Hno Hattr Hex (some_number q _ Hfin Hq Hpq) fuel maxlen reps max_it labels0 s r Hit) as Hp.
  rewrite H in Hp. destruct Hp as [p [before [r1 [parts [r2 [l [H1 [H2 [-> [Hv [Hne Hall]]]]]]]]]]].
  exists p, before, r1, parts, r2, l. do 4 (split; [auto|]). intros P HP.
  destruct (Hall P HP) as [l0 [l1 [v [v1 [E0 [Hf0 [[Hf1 _] [Hnw [Ev [Ev1 Hle]]]]]]]]]]. exists l0. split; [auto|]. split; [auto|].
  exact (ob_het d g attr p l0 l1 l v v1 Hf0 Hf1 Hnw Ev Ev1 Hle).
Qed.
(** NaN switches the tabu search off as well: the labels are those of the construction alone *)
Theorem C154_basic_no_search thr' fuel maxlen reps max_it labels0 s r labels s' r' : In NotANumber thr -> ~ In PosInf thr -> made_finite thr thr' -> 0 < max_it ->
  (forall a, a < gn g -> exists k, ~ (nth k (nth a sp []) 0 == 0)%Q) ->
  bmaxp_basic_fit order O d fuel maxlen reps g attr sp thr max_it labels0 s r = Ok (labels, s', r') ->
  mp_labels (construction_only O d g attr sp thr' max_it labels0 r) = labels.
Proof.
  intros Hnan Hno Hfin Hit Hamt H.
  assert (Hnz : forall a, a < gn g -> any_nonzero (row sp a) = true).
  { intros a Ha. destruct (Hamt a Ha) as [k Hk]. unfold any_nonzero. apply existsb_exists. exists (nth k (row sp a) 0%Q). split.
    - apply nth_In. destruct (Nat.lt_ge_cases k (length (row sp a))); [auto|]. exfalso. apply Hk. fold (row sp a). rewrite nth_overflow by lia. reflexivity.
    - apply negb_true_iff. destruct (Qeq_bool _ _) eqn:E; [|auto]. exfalso. apply Hk. apply Qeq_bool_iff in E. exact E. }
  unfold bmaxp_basic_fit in H. rewrite (same_construction g sp thr _ (proj2 Hsh) Hpos Hfin Hno) in H.
  apply (maxp_fit_still bstrategy _ _ O d g attr sp thr' Hsym Hloop (finite_shaped g sp thr _ Hsh Hfin) Hpos (wrapped sp thr)) in H; auto.
  - destruct H as [r2 H]. unfold construction_only. change (fun (_ : unit) (_ : Z) (l : list Z) (r0 : rng) => Ok (Some l, tt, r0)) with still. rewrite H. reflexivity.
  - intros s0. unfold wrapped, bwrap. eauto.
  - intros mp s0 l0 r0 x s1 r1 Hw Hf Hm E. apply bind_Ok in E. destruct E as [[[l1 s2] r2] [E1 E]]. injection E as <- <- _.
    pose proof (frozen_basic order Hord O g attr sp thr Hsh Hnan Hnz fuel maxlen reps (Z.of_nat mp) l0 s0 r0) as Hp. rewrite Nat2Z.id in Hp.
    specialize (Hp Hf ltac:(lia) Hm Hw). rewrite E1 in Hp. destruct Hp as [-> Hw1]. auto.
Qed.
End C154Tabu.

(** ** C148: missing amounts *)
Section C148Tabu.
Variables (expf : Q -> Q) (order : list edge -> list edge) (O : objfun) (d : list Q -> list Q -> Q) (g : graph) (attr : list (list Q)) (sp : list (list (option Q))) (thr : list Q).
Hypothesis Hord : forall l, Permutation (order l) l.
Hypothesis Hsym : symmetric g.
Hypothesis Hloop : no_self_loops g.
Hypothesis Hrec : recorded sp thr (gn g).
Hypothesis Hk : known_non_negative sp.
Hypothesis Hsome : exists t, In t thr /\ (0 < t)%Q.

Theorem C148_basic_valid fuel maxlen reps max_it labels0 s r labels s' r' : 0 < max_it ->
  nmaxp_basic_fit expf order O d fuel maxlen reps g attr sp thr max_it labels0 s r = Ok (labels, s', r') ->
  exists runs p l, labels = Some l /\
    (forall sp', amply_filled thr sp sp' -> built d g attr sp' thr max_it r runs) /\
    (forall x, In x runs -> length (fst x) <= p) /\ (exists x, In x runs /\ length (fst x) = p) /\
    feasible g l p /\ (forall z, In z l -> meets_known sp thr l z) /\
    exists x r1 P r2 l0, In x runs /\ assign_enclaves d g attr (fst x) (snd x) r1 = Ok (P, r2) /\
      array_from_region_list P = Ok l0 /\ keeps sp l0 l.
Proof.
  intros Hit H. set (sp0 := map (enough thr) sp).
  pose proof (ample_exists sp thr (gn g) Hrec) as Hf0. fold sp0 in Hf0.
  pose proof (nmaxp_basic_any expf order Hord O d g attr sp sp0 thr Hsym Hloop Hrec Hk Hf0 Hsome fuel maxlen reps max_it labels0 s r Hit) as Hp.
  rewrite H in Hp. destruct Hp as [p [before [r1 [parts [r2 [l [Hc [Ha [-> [[Hf Hm] [P [l0 [HP [E0 HK]]]]]]]]]]]]]].
  destruct (construct_spec d g attr sp0 thr max_it 0 [] r p before r1 Hc) as [runs [Hg [Hl [_ [Hle [Hin Hmax]]]]]]; [intros x []|].
  exists runs, p, l. split; [auto|]. split; [|split; [auto|split; [|split; [exact Hf|split]]]].
  - intros sp' Hf'. split; [auto|]. exists r1. eapply (grows_filled d g attr sp thr sp0 sp'); eauto.
  - destruct Hmax as [->|Hmax]; [|auto]. destruct runs as [|x runs]; [cbn in Hl; lia|].
    exists x. split; [left; auto|]. specialize (Hle x (or_introl eq_refl)). lia.
  - intros z Hz. apply (filled_meets sp sp0 thr (gn g) Hrec Hk Hf0); [apply Hf|auto].
  - assert (Hx : exists x ra rb, In x before /\ assign_enclaves d g attr (fst x) (snd x) ra = Ok (P, rb)).
    { clear - Ha HP. revert r1 parts r2 Ha HP. induction before as [|[part enc] before IH]; intros r1 parts r2 Ha HP; cbn [assign_each] in Ha.
      - injection Ha as <- <-. destruct HP.
      - apply bind_Ok in Ha. destruct Ha as [[P1 ra] [E1 Ha]]. apply bind_Ok in Ha. destruct Ha as [[Ps rb] [E2 Ha]]. injection Ha as <- <-.
        destruct HP as [->|HP]; [exists (part, enc), r1, ra; split; [left; auto|auto]|].
        destruct (IH ra Ps rb E2 HP) as [x [r3 [r4 [Hx E]]]]. exists x, r3, r4. split; [right; auto|auto]. }
    destruct Hx as [x [ra [rb [Hx Ex]]]]. exists x, ra, P, rb, l0. split; [|auto]. rewrite Hin in Hx. apply filter_In in Hx. apply Hx.
Qed.
(** a new AZPReactiveTabu object, all areas connected *)
Theorem C148_reactive_valid maxit k1 k2 max_it labels0 s r labels s' r' : 0 < max_it -> n_islands g 1 -> rw_visited s = [] ->
  nmaxp_reactive_fit expf order O d maxit k1 k2 g attr sp thr max_it labels0 s r = Ok (labels, s', r') ->
  exists runs p l, labels = Some l /\
    (forall sp', amply_filled thr sp sp' -> built d g attr sp' thr max_it r runs) /\
    (forall x, In x runs -> length (fst x) <= p) /\ (exists x, In x runs /\ length (fst x) = p) /\
    feasible g l p /\ (forall z, In z l -> meets_known sp thr l z).
Proof.
  intros Hit Hn Hv H. set (sp0 := map (enough thr) sp). assert (Hone : n_components g = 1) by (apply n_islands_iff in Hn; auto).
  pose proof (ample_exists sp thr (gn g) Hrec) as Hf0. fold sp0 in Hf0.
  pose proof (nmaxp_reactive_any expf order Hord O d g attr sp sp0 thr Hsym Hloop Hrec Hk Hf0 Hsome maxit k1 k2 max_it labels0 s r Hone Hit Hv) as Hp.
  rewrite H in Hp. destruct Hp as [p [before [r1 [l [Hc [-> [Hf Hm]]]]]]].
  destruct (construct_spec d g attr sp0 thr max_it 0 [] r p before r1 Hc) as [runs [Hg [Hl [_ [Hle [Hin Hmax]]]]]]; [intros x []|].
  exists runs, p, l. split; [auto|]. split; [|split; [auto|split; [|split; [exact Hf|]]]].
  - intros sp' Hf'. split; [auto|]. exists r1. eapply (grows_filled d g attr sp thr sp0 sp'); eauto.
  - destruct Hmax as [->|Hmax]; [|auto]. destruct runs as [|x runs]; [cbn in Hl; lia|].
    exists x. split; [left; auto|]. specialize (Hle x (or_introl eq_refl)). lia.
  - intros z Hz. apply (filled_meets sp sp0 thr (gn g) Hrec Hk Hf0); [apply Hf|auto].
Qed.
(** the pairwise objective: at most the heterogeneity of every completed partition *)
Theorem C148_basic_not_worse sp' fuel maxlen reps max_it labels0 s r labels s' r' : amply_filled thr sp sp' -> 0 < max_it -> nazp_inside s ->
  length attr = gn g -> (forall x y, d x y == d y x)%Q -> (forall x, d x x == 0)%Q ->
  nmaxp_basic_fit expf order (pairwise d) d fuel maxlen reps g attr sp thr max_it labels0 s r = Ok (labels, s', r') ->
  exists p before r1 parts r2 l, construct d g attr sp' thr max_it 0 [] r = Ok (p, before, r1) /\
    assign_each d g attr before r1 = Ok (parts, r2) /\ parts <> [] /\ labels = Some l /\
    forall P, In P parts -> exists l0, array_from_region_list P = Ok l0 /\ feasible g l0 p /\
      (heterogeneity (fun i j => d (nth i attr []) (nth j attr [])) l <=
       heterogeneity (fun i j => d (nth i attr []) (nth j attr [])) l0)%Q.
Proof.
  intros Hfill Hit Hs Hattr Hds Hdz H. pose proof (pairwise_exact_on d attr Hds Hdz) as Hex.
  pose proof (nmaxp_basic_exact expf order Hord (pairwise d) d g attr sp sp' thr Hsym Hloop Hrec Hk Hfill Hsome Hattr Hex fuel maxlen reps max_it labels0 s r Hit Hs) as Hp.
  rewrite H in Hp. destruct Hp as [p [before [r1 [parts [r2 [l [H1 [H2 [-> [Hv [Hne Hall]]]]]]]]]]].
  exists p, before, r1, parts, r2, l. do 4 (split; [auto|]). intros P HP.
  destruct (Hall P HP) as [l0 [l1 [v [v1 [E0 [Hf0 [[Hf1 _] [Hnw [Ev [Ev1 Hle]]]]]]]]]]. exists l0. split; [auto|]. split; [auto|].
  exact (ob_het d g attr p l0 l1 l v v1 Hf0 Hf1 Hnw Ev Ev1 Hle).
Qed.
(** an island without a missing amount whose total is too small *)
Theorem C148_tabu_unmet v isl : v < gn g -> island g v isl -> ~ meets_known_in sp thr isl ->
  (forall fuel maxlen reps max_it labels0 s r, 0 < max_it -> exists m, nmaxp_basic_fit expf order O d fuel maxlen reps g attr sp thr max_it labels0 s r = Raise (ValueError m)) /\
  (forall maxit k1 k2 max_it labels0 s r, 0 < max_it -> exists m, nmaxp_reactive_fit expf order O d maxit k1 k2 g attr sp thr max_it labels0 s r = Raise (ValueError m)).
Proof.
  intros Hv Hi Hnm. set (sp0 := map (enough thr) sp). pose proof (ample_exists sp thr (gn g) Hrec) as Hf0. fold sp0 in Hf0.
  assert (Hnm' : ~ meets_in sp0 thr isl).
  { intros C. apply Hnm. apply (filled_meets_in sp sp0 thr (gn g) Hrec Hk Hf0); auto. intros a Ha. apply Hi in Ha. apply linked_in_r in Ha. exact Ha. }
  pose proof (filled_shaped sp sp0 thr (gn g) Hrec Hk Hf0) as Hs0. pose proof (filled_non_negative sp sp0 thr (gn g) Hrec Hk Hf0) as Hn0.
  pose proof (filled_rows sp sp0 thr (gn g) Hrec Hk Hf0) as Hrows. split; intros.
  - unfold nmaxp_basic_fit. rewrite (nmaxp_fit_same d g attr sp sp0 thr Hrows).
    apply (unmet_raises nstrategy _ _ O d g attr sp0 thr Hsym Hloop Hs0 Hn0 _ max_it labels0 (Some s) r v isl); auto.
  - unfold nmaxp_reactive_fit. rewrite (nmaxp_fit_same d g attr sp sp0 thr Hrows).
    apply (unmet_raises (reactive_with nstrategy) _ _ O d g attr sp0 thr Hsym Hloop Hs0 Hn0 _ max_it labels0 (Some s) r v isl); auto.
Qed.
End C148Tabu.

(** ** Examples: five areas in a row with two amounts each *)
Definition bt_basic thr r := bmaxp_basic_fit same_order (pairwise manhattan) manhattan 40 None 2 (path_graph 5) (att [2;2;1;3;3]%Q) amounts5 thr 1 None (BAzp unstarted) r.
Definition bt_reactive thr r := bmaxp_reactive_fit same_order (pairwise manhattan) manhattan 3 1 1 (path_graph 5) (att [2;2;1;3;3]%Q) amounts5 thr 1 None (mkReactiveWith (BAzp unstarted) 1 1 []) r.
Definition nt_basic r := nmaxp_basic_fit (fun x => x) same_order (pairwise manhattan) manhattan 40 None 2 (path_graph 6) (att [1;1;5;5;2;2]%Q) (amt gap) [2%Q] 1 None (NBase (SAzp unstarted)) r.
Definition nt_reactive r := nmaxp_reactive_fit (fun x => x) same_order (pairwise manhattan) manhattan 3 1 1 (path_graph 6) (att [1;1;5;5;2;2]%Q) (amt gap) [2%Q] 1 None (mkReactiveWith (NBase (SAzp unstarted)) 1 1 []) r.
(** the hypotheses on the graph and the amounts: [ex154_hypotheses], [C148_example] *)
Example ex154_tabu :
  ~ In PosInf [Number 2; NotANumber] /\ In (Number 2) [Number 2; NotANumber] /\ n_islands (path_graph 5) 1 /\
  mp_labels (bt_basic [Number 2; NegInf] draws62) = Some [0;0;0;1;1]%Z /\ mp_labels (bt_basic [Number 2; NotANumber] draws62) = Some [0;0;1;1;1]%Z /\
  mp_labels (bt_reactive [Number 2; NegInf] draws62) = Some [0;0;0;1;1]%Z /\ mp_labels (bt_reactive [Number 2; NotANumber] draws62) = Some [0;0;1;1;1]%Z /\
  mp_raises (bt_basic [Number 2; PosInf] draws62) = true /\ mp_raises (bt_basic [Number 6; NotANumber] draws62) = true /\
  mp_raises (bt_reactive [Number 2; PosInf] draws62) = true /\ mp_raises (bt_reactive [Number 6; NotANumber] draws62) = true.
Proof.
  split; [intros [C|[C|[]]]; discriminate|]. split; [left; auto|]. split; [apply n_islands_iff; vm_compute; reflexivity|].
  repeat split; vm_compute; reflexivity.
Qed.
Example ex154_unmet : island (path_graph 5) 0 [0;1;2;3;4] /\ ~ meets_numbers_in amounts5 [Number 6; NotANumber] [0;1;2;3;4].
Proof.
  split.
  - apply (comp_nodes_island (path_graph 5) 0). cbn. lia.
  - intros H. specialize (H 0 6%Q eq_refl). revert H. apply Qlt_not_le. vm_compute. reflexivity.
Qed.
Example ex148_tabu :
  (exists t, In t [2%Q] /\ (0 < t)%Q) /\ n_islands (path_graph 6) 1 /\
  mp_labels (nt_basic (draws140 1)) = Some [0;0;1;1;2;2]%Z /\ mp_labels (nt_reactive (draws140 1)) = Some [0;0;1;1;2;2]%Z.
Proof.
  split; [exists 2%Q; split; [left; auto|lra]|]. split; [apply n_islands_iff; vm_compute; reflexivity|]. split; vm_compute; reflexivity.
Qed.

Print Assumptions C154_tabu_infinite.
Print Assumptions C154_tabu_unmet.
Print Assumptions C154_basic_valid.
Print Assumptions C154_reactive_valid.
Print Assumptions C154_basic_not_worse.
Print Assumptions C154_basic_no_search.
Print Assumptions C148_basic_valid.
Print Assumptions C148_reactive_valid.
Print Assumptions C148_basic_not_worse.
Print Assumptions C148_tabu_unmet.
