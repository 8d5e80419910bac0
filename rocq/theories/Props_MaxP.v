(** Properties C33-C38, C60, C62, C66-C68: the max-p heuristic. *)
From Verif Require Import Base Spec M_Graph P_Graph M_Util P_Base P_Util P_Forest P_Init P_Initial
  M_Objective P_Sum P_Objective M_Azp P_Azp P_Strategy P_Fit P_AzpFit M_Sa Examples Props_Objective Props_Strategy Props_Azp Props_Sa
  M_MaxP P_MaxP P_MaxP2 P_MaxP3 P_MaxP4.

(** ** C33, C68: grow_regions *)
(** Whatever the metric, the attributes and the random draws: grow_regions returns disjoint contiguous
    regions that meet the threshold, and together with the enclaves they contain every area once. *)
Theorem C33_grow_regions d g attr sp thr r : symmetric g -> no_self_loops g -> shaped sp thr (gn g) ->
  exists regions enclaves r', grow_regions d g attr sp thr r = Ok (regions, enclaves, r') /\
    partial_partition g regions enclaves /\ forall R, In R regions -> meets_in sp thr R.
Proof.
  intros Hsym Hloop Hsp. pose proof (grow_regions_post d g attr sp thr Hsym Hloop Hsp r) as Hp.
  apply post_total in Hp. destruct Hp as [[[P E] r'] [Eq [F [-> HG]]]]. exists P, (concat F), r'. split; [auto|].
  split; [eapply grown_partial; eauto|]. intros R HR. destruct HG as [_ [HG _]]. apply (HG R HR).
Qed.

(** C68: with non-negative attributes nothing is given away: no contiguous set of enclaves could have
    been a further region. *)
Theorem C68_no_further_region d g attr sp thr r regions enclaves r' S :
  symmetric g -> no_self_loops g -> shaped sp thr (gn g) -> non_negative sp ->
  grow_regions d g attr sp thr r = Ok (regions, enclaves, r') ->
  NoDup S -> (forall a, In a S -> In a enclaves) -> contiguous g (fun a => In a S) -> ~ meets_in sp thr S.
Proof.
  intros Hsym Hloop Hsp Hpos H Hnd Hin Hc. pose proof (grow_regions_post d g attr sp thr Hsym Hloop Hsp r) as Hp.
  rewrite H in Hp. destruct Hp as [F [-> HG]]. apply (no_more_regions g Hsym sp thr regions F); auto.
Qed.

(** ** C67: the choices are greedy *)
Theorem C67_find_best_area d attr region cands : cands <> [] ->
  (forall r, exists a r', find_best_area d attr region cands r = Ok (a, r') /\ In a cands /\
     forall b, In b cands -> (distance_to d attr a region <= distance_to d attr b region)%Q) /\
  (forall a, In a cands -> (forall b, In b cands -> (distance_to d attr a region <= distance_to d attr b region)%Q) ->
     exists r r', find_best_area d attr region cands r = Ok (a, r')).
Proof.
  intros Hne. unfold find_best_area. set (f := fun a => dissimilarity d attr a region). split.
  - intros r. pose proof (best_keys_nonempty f cands Hne) as Hb. unfold random_element_from, randrange.
    destruct (Nat.eqb_spec (length (best_keys f cands)) 0) as [E|E]; [destruct (best_keys f cands); [congruence|discriminate]|].
    cbn [bind]. assert (Hlt : r 0 mod length (best_keys f cands) < length (best_keys f cands)) by (apply Nat.mod_upper_bound; auto).
    destruct (nth_error (best_keys f cands) (r 0 mod length (best_keys f cands))) as [a|] eqn:Ea; [|apply nth_error_None in Ea; lia].
    exists a, (rnext r). split; [auto|]. apply nth_error_In in Ea. apply best_keys_In in Ea. exact Ea.
  - intros a Ha Hmin. assert (Hin : In a (best_keys f cands)) by (apply best_keys_In; auto).
    apply In_nth_error in Hin. destruct Hin as [k Hk]. exists (fun _ => k), (rnext (fun _ => k)).
    assert (Hlt : k < length (best_keys f cands)) by (eapply nth_error_lt; eauto).
    unfold random_element_from, randrange. destruct (Nat.eqb_spec (length (best_keys f cands)) 0) as [E|E]; [lia|].
    cbn [bind]. rewrite Nat.mod_small by auto. rewrite Hk. reflexivity.
Qed.

Theorem C67_find_best_region d attr a partition cands : cands <> [] ->
  (forall r, exists k r', find_best_region_idx d attr a partition cands r = Ok (k, r') /\ In k cands /\
     forall j, In j cands -> (distance_to d attr a (nth k partition []) <= distance_to d attr a (nth j partition []))%Q) /\
  (forall k, In k cands -> (forall j, In j cands -> (distance_to d attr a (nth k partition []) <= distance_to d attr a (nth j partition []))%Q) ->
     exists r r', find_best_region_idx d attr a partition cands r = Ok (k, r')).
Proof.
  intros Hne. unfold find_best_region_idx. set (f := fun k => dissimilarity d attr a (nth k partition [])).
  assert (Hset : forall x, In x (set_union [] cands) <-> In x cands) by (intros x; rewrite set_union_In; cbn; tauto).
  assert (Hne' : set_union [] cands <> []).
  { destruct cands as [|c cands]; [congruence|]. intros E. assert (H : In c (set_union [] (c :: cands))) by (apply Hset; left; auto). rewrite E in H. destruct H. }
  set (keys := set_union [] cands) in *.
  assert (Hm : forall r, match cands with [] => Raise (ValueError "min() arg is an empty sequence") | _ => random_element_from (best_keys f keys) r end = random_element_from (best_keys f keys) r)
    by (intros r; destruct cands; [congruence|reflexivity]).
  split.
  - intros r. rewrite Hm. pose proof (best_keys_nonempty f keys Hne') as Hb. unfold random_element_from, randrange.
    destruct (Nat.eqb_spec (length (best_keys f keys)) 0) as [E|E]; [destruct (best_keys f keys); [congruence|discriminate]|].
    cbn [bind]. assert (Hlt : r 0 mod length (best_keys f keys) < length (best_keys f keys)) by (apply Nat.mod_upper_bound; auto).
    destruct (nth_error (best_keys f keys) (r 0 mod length (best_keys f keys))) as [k|] eqn:Ek; [|apply nth_error_None in Ek; lia].
    exists k, (rnext r). split; [auto|]. apply nth_error_In in Ek. apply best_keys_In in Ek. destruct Ek as [Hk Hmin].
    split; [apply Hset; auto|]. intros j Hj. apply Hmin. apply Hset; auto.
  - intros k Hk Hmin. assert (Hin : In k (best_keys f keys)).
    { apply best_keys_In. split; [apply Hset; auto|]. intros j Hj. apply Hmin. apply Hset; auto. }
    apply In_nth_error in Hin. destruct Hin as [p Hp]. exists (fun _ => p), (rnext (fun _ => p)). rewrite Hm.
    assert (Hlt : p < length (best_keys f keys)) by (eapply nth_error_lt; eauto).
    unfold random_element_from, randrange. destruct (Nat.eqb_spec (length (best_keys f keys)) 0) as [E|E]; [lia|].
    cbn [bind]. rewrite Nat.mod_small by auto. rewrite Hp. reflexivity.
Qed.

(** ** C34: assign_enclaves *)
(** It completes the partition (same number of regions, each enlarged, contiguous) whenever every
    island has a region, and raises ValueError whenever some island has none. *)
Theorem C34_assign_enclaves d g attr regions enclaves r : symmetric g -> partial_partition g regions enclaves ->
  (every_island_served g regions -> exists regions' r', assign_enclaves d g attr regions enclaves r = Ok (regions', r') /\
     partial_partition g regions' [] /\ Forall2 (@incl nat) regions regions') /\
  (~ every_island_served g regions -> exists m, assign_enclaves d g attr regions enclaves r = Raise (ValueError m)).
Proof.
  intros Hsym Hpp. pose proof (assign_enclaves_post d g attr Hsym regions enclaves r Hpp) as Hp.
  destruct (assign_enclaves d g attr regions enclaves r) as [[P' r']|e|]; cbn [post] in Hp.
  - destruct Hp as [Hs [H1 H2]]. split; [intros _; exists P', r'; auto|contradiction].
  - destruct Hp as [Hn [m ->]]. split; [contradiction|eauto].
  - destruct Hp.
Qed.

(** ** C60: array_from_region_list *)
Theorem C60_array_from_region_list n regions : NoDup (concat regions) -> (forall a, In a (concat regions) <-> a < n) ->
  exists labels, array_from_region_list regions = Ok labels /\ length labels = n /\
    forall a k, a < n -> (nth_error labels a = Some (Z.of_nat k) <-> exists R, nth_error regions k = Some R /\ In a R).
Proof.
  intros Hnd Hin. destruct (array_from_region_list_spec n regions Hnd Hin) as [l [E [Hl H]]]. exists l. split; [auto|]. split; [auto|].
  intros a k _. rewrite H. split.
  - intros [k' [R [Ek [HR Ha]]]]. assert (k' = k) by lia. subst. eauto.
  - intros [R [HR Ha]]. exists k, R. auto.
Qed.

(** ** C35, C36, C66: the whole heuristic *)
(** What grow_regions built in [n] successive calls. *)
Definition built (d : list Q -> list Q -> Q) g attr sp thr (n : nat) (r : rng) (runs : list (list (list nat) * list nat)) : Prop :=
  length runs = n /\ exists r', grows d g attr sp thr r runs r'.

(** C35: for every local search that is an AZP object, whatever its strategy (also one left behind by
    earlier fits), whatever the objective: if fit returns, the regions are contiguous, each meets the
    threshold, and there are as many as in the best of the [max_it] constructed partitions. *)
Theorem C35_maxp_valid expf order O d fuel g attr sp thr max_it entropy labels0 ls r labels ls' r' :
  (forall l, Permutation (order l) l) -> symmetric g -> no_self_loops g -> shaped sp thr (gn g) -> non_negative sp ->
  0 < max_it -> maxp_azp_fit expf order O d fuel g attr sp thr max_it entropy labels0 ls r = Ok (labels, ls', r') ->
  exists runs p l, labels = Some l /\ built d g attr sp thr max_it r runs /\
    (forall x, In x runs -> length (fst x) <= p) /\ (exists x, In x runs /\ length (fst x) = p) /\
    feasible g l p /\ forall z, In z l -> meets sp thr l z.
Proof.
  intros Hord Hsym Hloop Hsp Hpos Hit H.
  pose proof (maxp_azp_any expf order Hord O d g attr sp thr Hsym Hloop Hsp Hpos fuel max_it entropy labels0 ls r Hit) as Hp.
  rewrite H in Hp. destruct Hp as [p [before [r1 [l [Hc [-> [Hf Hm]]]]]]].
  destruct (construct_spec d g attr sp thr max_it 0 [] r p before r1 Hc) as [runs [Hg [Hl [_ [Hle [_ Hmax]]]]]]; [intros x []|].
  exists runs, p, l. split; [auto|]. split; [split; [auto|eauto]|]. split; [auto|]. split; [|split; [exact Hf|exact Hm]].
  destruct Hmax as [->|Hmax]; [|auto]. destruct runs as [|x runs]; [cbn in Hl; lia|].
  exists x. split; [left; auto|]. specialize (Hle x (or_introl eq_refl)). lia.
Qed.

(** C36: with an AZP local search using the default strategy (possibly wrapped by earlier fits) fit
    returns when every island's total reaches the threshold, and raises ValueError otherwise. *)
Theorem C36_maxp_fails_iff expf order O d g attr sp thr :
  (forall l, Permutation (order l) l) -> symmetric g -> no_self_loops g -> shaped sp thr (gn g) -> non_negative sp ->
  length attr = gn g -> exact_on O attr ->
  ((forall v isl, v < gn g -> island g v isl -> meets_in sp thr isl) ->
   exists bound, forall fuel max_it entropy labels0 ls r, bound <= fuel -> 0 < max_it ->
     match ls with Some s => azp_inside s | None => True end ->
     exists l ls' r', maxp_azp_fit expf order O d fuel g attr sp thr max_it entropy labels0 ls r = Ok (Some l, ls', r')) /\
  (forall v isl, v < gn g -> island g v isl -> ~ meets_in sp thr isl -> forall fuel max_it entropy labels0 ls r, 0 < max_it ->
     exists m, maxp_azp_fit expf order O d fuel g attr sp thr max_it entropy labels0 ls r = Raise (ValueError m)).
Proof.
  intros Hord Hsym Hloop Hsp Hpos Hattr Hex. split.
  - intros Hisl. exists (gn g + 2). intros fuel max_it entropy labels0 ls r Hf Hit Hls. assert (Hfuel : False \/ gn g + 1 < fuel) by lia.
    pose proof (maxp_azp_default expf order Hord O d g attr sp thr Hsym Hloop Hsp Hpos Hattr Hex False fuel max_it entropy labels0 ls r Hit Hfuel Hls) as Hp.
    destruct (maxp_azp_fit expf order O d fuel g attr sp thr max_it entropy labels0 ls r) as [[[labels ls'] r']|e|]; cbn [post] in Hp.
    + destruct Hp as [mp [before [r1 [parts [r2 [l [s' [_ [_ [-> _]]]]]]]]]]. eauto.
    + destruct Hp as [[v [isl [H1 [H2 H3]]]] _]. exfalso. apply H3. eapply Hisl; eauto.
    + destruct Hp.
  - intros v isl Hv Hi Hnm fuel max_it entropy labels0 ls r Hit. unfold maxp_azp_fit.
    apply (unmet_raises strategy _ _ O d g attr sp thr Hsym Hloop Hsp Hpos _ max_it labels0 ls r v isl); auto.
Qed.

(** C66: the search never loses: for the pairwise objective the heterogeneity of the result is at most
    that of every completed partition of the construction phase. *)
Theorem C66_maxp_not_worse expf order d fuel g attr sp thr max_it entropy labels0 ls r labels ls' r' :
  (forall l, Permutation (order l) l) -> symmetric g -> no_self_loops g -> shaped sp thr (gn g) -> non_negative sp ->
  length attr = gn g -> (forall x y, d x y == d y x)%Q -> (forall x, d x x == 0)%Q -> 0 < max_it ->
  match ls with Some s => azp_inside s | None => True end ->
  maxp_azp_fit expf order (pairwise d) d fuel g attr sp thr max_it entropy labels0 ls r = Ok (labels, ls', r') ->
  exists p before r1 parts r2 l, construct d g attr sp thr max_it 0 [] r = Ok (p, before, r1) /\
    assign_each d g attr before r1 = Ok (parts, r2) /\ parts <> [] /\ labels = Some l /\
    forall P, In P parts -> exists l0, array_from_region_list P = Ok l0 /\ feasible g l0 p /\
      (heterogeneity (fun i j => d (nth i attr []) (nth j attr [])) l <=
       heterogeneity (fun i j => d (nth i attr []) (nth j attr [])) l0)%Q.
Proof.
  intros Hord Hsym Hloop Hsp Hpos Hattr Hds Hdz Hit Hls H. pose proof (pairwise_exact_on d attr Hds Hdz) as Hex.
  pose proof (maxp_azp_default expf order Hord (pairwise d) d g attr sp thr Hsym Hloop Hsp Hpos Hattr Hex True fuel max_it entropy labels0 ls r Hit (or_introl Logic.I) Hls) as Hp.
  rewrite H in Hp. destruct Hp as [p [before [r1 [parts [r2 [l [s' [H1 [H2 [-> [_ [_ [Hl [Hne Hall]]]]]]]]]]]]]].
  exists p, before, r1, parts, r2, l. do 4 (split; [auto|]). intros P HP.
  destruct (Hall P HP) as [l0 [l1 [v [v1 [E0 [[Hf0 _] [[Hf1 _] [Hnw [Ev [Ev1 Hle]]]]]]]]]]. exists l0. split; [auto|]. split; [auto|].
  change (fun i j => d (nth i attr []) (nth j attr [])) with (dist d attr).
  destruct (pairwise_call_spec d l attr) as [x [Ex Hx]]. destruct (pairwise_call_spec d l1 attr) as [x1 [Ex1 Hx1]].
  cbn [o_call pairwise] in Ev, Ev1. rewrite Ev in Ex. rewrite Ev1 in Ex1. injection Ex as <-. injection Ex1 as <-.
  assert (Hh : (heterogeneity (dist d attr) l1 <= heterogeneity (dist d attr) l0)%Q).
  { destruct Hf0 as [A0 [_ B0]]. destruct Hf1 as [A1 [_ B1]].
    rewrite (het_comps d attr g l1 (conj A1 B1)), (het_comps d attr g l0 (conj A0 B0)). apply sumQ_le. intros c Hc. apply in_seq in Hc.
    destruct (Hnw c ltac:(lia)) as [y0 [y1 [Ey0 [Ey1 Hy]]]].
    destruct (pairwise_call_spec d (comp_part g l0 c) (attr_c attr g c)) as [x' [Ex' Hx']].
    destruct (pairwise_call_spec d (comp_part g l1 c) (attr_c attr g c)) as [y' [Ey' Hy']].
    cbn [o_call pairwise] in Ey0, Ey1. rewrite Ey0 in Ex'. rewrite Ey1 in Ey'. injection Ex' as <-. injection Ey' as <-.
    change (comp_part g l0 c) with (labels_at l0 (comp_nodes g c)) in Hx'.
    change (comp_part g l1 c) with (labels_at l1 (comp_nodes g c)) in Hy'.
    change (attr_c attr g c) with (rows_at attr (comp_nodes g c)) in *. lra. }
  lra.
Qed.

(** ** C37: simulated annealing as local search *)
(** C37 (partial): the result is contiguous, with as many regions as the best constructed partition.
    Missing for the full property: the regions need not meet the threshold, see the refutation. *)
Theorem C37_maxp_sa_partial expf order O d azp_fuel fuel cooling args g attr sp thr max_it labels0 mem r labels mem' r' :
  (forall l, Permutation (order l) l) -> symmetric g -> no_self_loops g -> shaped sp thr (gn g) -> non_negative sp ->
  0 < max_it -> sa_maxit args <> Some 0 -> 0 < sa_nonmoving_steps args ->
  maxp_sa_fit expf order O d azp_fuel fuel cooling args g attr sp thr max_it labels0 mem r = Ok (labels, mem', r') ->
  exists runs p l, labels = Some l /\ built d g attr sp thr max_it r runs /\
    (forall x, In x runs -> length (fst x) <= p) /\ (exists x, In x runs /\ length (fst x) = p) /\
    feasible g l p.
Proof.
  intros Hord Hsym Hloop Hsp Hpos Hit Hm Hn H. unfold maxp_sa_fit in H.
  assert (Hp : post anyexn True (Ok (labels, mem', r')) (fun '(labels, ls', _) => exists mp before r1 l,
       construct d g attr sp thr max_it 0 [] r = Ok (mp, before, r1) /\ labels = Some l /\ feasible g l mp)).
  { rewrite <- H. eapply (post_weaken anyexn anyexn True True); [auto|auto| |
      apply (maxp_fit_post sa_memory _ _ O d g attr sp thr Hsym Hloop Hsp Hpos anyexn True (fun _ => True) (fun _ => True) (fun mp _ l => feasible g l mp))]; auto.
    - intros [[lb ls'] r1] _ [mp [before [r2 [parts [r3 [l [v [s' [H1 [H2 [H3 [_ [_ [_ [_ [[_ [P [l0 [_ [_ [_ H4]]]]]] _]]]]]]]]]]]]]]]].
      exists mp, before, r2, l. auto.
    - intros mp s l0 r0 _ [Hf [Hm1 _]]. apply post_partial. intros [[sol m'] r1] E.
      destruct (C24_sa_feasible expf order O azp_fuel g attr (Z.of_nat mp) fuel cooling (Some l0) args s r0 sol m' r1) as [l [-> [Hl _]]]; auto.
      + split; [apply Hf|auto].
      + rewrite Nat2Z.id in Hl. split; [auto|]. exists l. auto.
    - intros mp l0 l _ _. destruct (o_call O l attr); exact Logic.I.
    - intros mp x m _ _. exact Logic.I. }
  destruct Hp as [p [before [r1 [l [Hc [-> Hf]]]]]].
  destruct (construct_spec d g attr sp thr max_it 0 [] r p before r1 Hc) as [runs [Hg [Hl [_ [Hle [_ Hmax]]]]]]; [intros x []|].
  exists runs, p, l. split; [auto|]. split; [split; [auto|eauto]|]. split; [auto|]. split; [|exact Hf].
  destruct Hmax as [->|Hmax]; [|auto]. destruct runs as [|x runs]; [cbn in Hl; lia|].
  exists x. split; [left; auto|]. specialize (Hle x (or_introl eq_refl)). lia.
Qed.

(** ** C38: the search under the threshold wrapper makes exactly one pass *)
Section OnePass.
Variable expf : Q -> Q.
Variable g : graph.

Definition outer (c : common) (s : strategy) : Prop := exists sp_all sp thr inner, s = SMaxP c sp_all sp thr inner.

Lemma outer_call c s a z l rg b s' rg' : outer c s -> strat_call expf s a z l rg = Ok (b, s', rg') -> outer c s'.
Proof.
  intros [sa [sp [thr [inner ->]]]] H. cbn [strat_call] in H. destruct (donor_ok sp thr a l).
  - apply bind_Ok in H. destruct H as [[[b1 i1] rg1] [_ H]]. injection H as _ <- _. unfold outer. eauto.
  - injection H as _ <- _. unfold outer. eauto.
Qed.
Lemma outer_candidates c k : forall cands z l rn s r b l' rn' s' r',
  try_candidates strategy (strat_call expf) g k cands z l rn s r = Ok (b, l', rn', s', r') -> outer c s -> outer c s'.
Proof.
  induction k as [|k IH]; intros [|x cands] z l rn s r b l' rn' s' r' H Ho; cbn [try_candidates] in H; try discriminate;
    try (injection H as _ _ _ <- _; auto; fail).
  apply bind_Ok in H. destruct H as [[[cand cs] r1] [_ H]]. apply bind_Ok in H. destruct H as [[[ok s1] r2] [Hc H]].
  apply (outer_call c) in Hc; auto. destruct ok; [|eapply IH; eauto].
  destruct (after_move g cand z l rn). injection H as _ _ _ <- _. auto.
Qed.
Lemma outer_grow c k : forall z l rn s r l' rn' s' r',
  grow_recipient strategy (strat_call expf) g k z l rn s r = Ok (l', rn', s', r') -> outer c s -> outer c s'.
Proof.
  induction k as [|k IH]; intros z l rn s r l' rn' s' r' H Ho; cbn [grow_recipient] in H; [discriminate|].
  apply bind_Ok in H. destruct H as [ns [_ H]]. apply bind_Ok in H. destruct H as [[[[[b l1] rn1] s1] r1] [Hc H]].
  apply (outer_candidates c) in Hc; auto. destruct b; [eapply IH; eauto|]. injection H as _ _ <- _. auto.
Qed.
Lemma outer_pass c fuel k : forall zs l rn s r l' rn' s' r',
  azp_pass strategy (strat_call expf) g fuel k zs l rn s r = Ok (l', rn', s', r') -> outer c s -> outer c s'.
Proof.
  induction k as [|k IH]; intros [|z zs] l rn s r l' rn' s' r' H Ho; cbn [azp_pass] in H; try discriminate;
    try (injection H as _ _ <- _; auto; fail).
  apply bind_Ok in H. destruct H as [[[z1 zs1] r1] [_ H]]. apply bind_Ok in H. destruct H as [[[[l1 rn1] s1] r2] [Hc H]].
  apply (outer_grow c) in Hc; auto. eapply IH; eauto.
Qed.

(** C38 (partial): the local search on an island with several regions is a single pass over the regions.
    Missing for the full property: the passes are not repeated, see the refutation. *)
Theorem C38_one_pass_partial fuel initial c sp_all sp thr inner r : 2 <= n_labels initial ->
  azp_component strategy (strat_call expf) strat_val g (S fuel) initial (SMaxP c sp_all sp thr inner) r =
  (let* '(labels, _, s', r') := azp_pass strategy (strat_call expf) g fuel (length (uniqueZ initial)) (uniqueZ initial) initial
      (init_region_neighbors g initial) (SMaxP c sp_all sp thr inner) r in
   Ok (labels, s', r')).
Proof.
  intros H2. unfold azp_component. pose proof (uniqueZ_length initial) as Hu.
  destruct (uniqueZ initial) as [|z1 [|z2 zs]] eqn:E; [cbn in Hu; lia|cbn in Hu; lia|].
  cbn [azp_loop]. set (zz := z1 :: z2 :: zs) in *.
  destruct (azp_pass strategy (strat_call expf) g fuel (length zz) zz initial (init_region_neighbors g initial) (SMaxP c sp_all sp thr inner) r)
    as [[[[l rn] s'] r']|e|] eqn:Ep; cbn [bind]; auto.
  assert (Ho : outer c s') by (eapply outer_pass; eauto; unfold outer; eauto).
  destruct Ho as [a1 [a2 [a3 [a4 ->]]]]. assert (Hq : Qltb (c_val c) (c_val c) = false) by (apply Qltb_ge; lra).
  destruct fuel; cbn [azp_loop strat_val]; rewrite Hq; reflexivity.
Qed.
End OnePass.

(** ** Examples and refutations *)
Local Notation att := (map (fun q => [q])).
Definition mp_ex fuel g attr sp thr it ls r :=
  maxp_azp_fit expd same_order (pairwise manhattan) manhattan fuel g (att attr) (att sp) [thr] it r None ls r.
Definition mp_labels {A} (o : out (option (list Z) * A * rng)) : option (list Z) := match o with Ok (l, _, _) => l | _ => None end.
Definition mp_raises {A} (o : out A) : bool := match o with Raise (ValueError _) => true | _ => false end.
Definition draws (l : list nat) : rng := fun k => nth k l 0.

Lemma path_no_self_loops n : no_self_loops (path_graph n).
Proof.
  intros u _. cbn [gadj path_graph]. assert (H : Nat.eqb (S u) u = false) by (apply Nat.eqb_neq; lia).
  rewrite H, andb_false_r. reflexivity.
Qed.

Lemma two_islands_no_self_loops : no_self_loops two_islands.
Proof. intros u Hu. cbn in Hu. do 5 (destruct u as [|u]; [reflexivity|]). lia. Qed.
Lemma all_ones n : shaped (repeat [1%Q] n) [2%Q] n /\ non_negative (repeat [1%Q] n).
Proof.
  split; [split; [apply repeat_length|]|].
  - intros x Hx. apply repeat_spec in Hx. subst. reflexivity.
  - intros x q Hx Hq. apply repeat_spec in Hx. subst. destruct Hq as [<-|[]]. lra.
Qed.

(** C33, C68: threshold 2 on a path of 7; with these draws three regions and the enclave 0 *)
Example C33_example :
  symmetric (path_graph 7) /\ no_self_loops (path_graph 7) /\ shaped (repeat [1%Q] 7) [2%Q] 7 /\ non_negative (repeat [1%Q] 7) /\
  match grow_regions manhattan (path_graph 7) (att [1;2;2;0;1;3;0]%Q) (repeat [1%Q] 7) [2%Q] (draws [1;1;2]) with
  | Ok (regions, enclaves, _) => regions = [[1;2];[4;3];[5;6]] /\ enclaves = [0]
  | _ => False
  end.
Proof.
  split; [apply path_symmetric|]. split; [apply path_no_self_loops|]. split; [apply all_ones|]. split; [apply all_ones|].
  vm_compute. auto.
Qed.
(** Without self loops is necessary: an area that is its own neighbour may be taken twice. *)
Example C33_self_loop :
  mp_raises (grow_regions manhattan (mkG 3 (fun i j => Nat.eqb i j || gadj (path_graph 3) i j)) (att [1;2;2]%Q) (repeat [1%Q] 3) [3%Q]
    (fun _ => 0)) = true.
Proof. vm_compute. reflexivity. Qed.

(** C34: the enclave joins the closer of its neighbouring regions; an island without region fails *)
Example C34_example :
  (match assign_enclaves manhattan (path_graph 5) (att [1;2;4;5;5]%Q) [[0;1];[3;4]] [2] rng0 with
   | Ok (regions, _) => regions = [[0;1];[3;4;2]] | _ => False end) /\
  mp_raises (assign_enclaves manhattan two_islands (att [1;1;5;2;2]%Q) [[0;1;2]] [3;4] rng0) = true.
Proof. vm_compute. auto. Qed.

Example C60_example : array_from_region_list [[0;1;2;5];[3;4]] = Ok [0;0;0;1;1;0]%Z.
Proof. vm_compute. reflexivity. Qed.

Example C67_example :
  match find_best_area manhattan (att [1;2;4;5;0]%Q) [0;1] [2;3;4] rng0 with Ok (a, _) => a = 4 | _ => False end.
Proof. vm_compute. reflexivity. Qed.

(** C35, C36, C66: two islands; threshold 2 is attainable on both, 3 only on the first *)
Example C35_example :
  symmetric two_islands /\ no_self_loops two_islands /\ shaped (repeat [1%Q] 5) [2%Q] 5 /\ non_negative (repeat [1%Q] 5) /\
  mp_labels (mp_ex 40 two_islands [1;1;5;2;2]%Q [1;1;1;1;1]%Q 2%Q 3 None rng0) = Some [0;0;0;1;1]%Z /\
  mp_raises (mp_ex 40 two_islands [1;1;5;2;2]%Q [1;1;1;1;1]%Q 3%Q 3 None rng0) = true /\
  mp_labels (mp_ex 40 grid3 [1;1;5;2;2;5;9;9;8]%Q [1;1;1;1;1;1;1;1;1]%Q 2%Q 3 None rng0) = Some [0;0;3;1;1;3;2;2;2]%Z.
Proof.
  split; [apply two_islands_symmetric|]. split; [apply two_islands_no_self_loops|]. split; [apply all_ones|]. split; [apply all_ones|].
  vm_compute. auto.
Qed.

(** C37 is false of the code: simulated annealing forgets the threshold. *)
Definition draws37 : rng := draws [5;0;5;2;4;3;1;5;5;1;4;1;0;1;4;0;5;4;1;1;5;0;1;4;2;2;5;5;2;0].
Theorem C37_maxp_sa_refuted :
  exists g attr sp thr r labels, symmetric g /\ no_self_loops g /\ shaped sp [thr] (gn g) /\ non_negative sp /\
    mp_labels (maxp_sa_fit expd same_order (pairwise manhattan) manhattan 40 40 (1 # 2) sa_args1 g attr sp [thr] 1 None (mkSaMemory false []) r)
      = Some labels /\
    exists z, In z labels /\ ~ meets sp [thr] labels z.
Proof.
  exists (path_graph 4), (att [2;1;2;0]%Q), (repeat [1%Q] 4), 2%Q, draws37, [0;0;0;1]%Z.
  split; [apply path_symmetric|]. split; [apply path_no_self_loops|]. split; [apply all_ones|]. split; [apply all_ones|].
  split; [vm_compute; reflexivity|]. exists 1%Z. split; [cbn; auto|]. intros H. specialize (H 0 2%Q eq_refl).
  vm_compute in H. apply H. reflexivity.
Qed.

(** C38 is false of the code: the single pass improves on the only constructed partition, and yet an
    improving move that respects the threshold is left in the result. *)
Definition draws38 : rng := draws [0;4;3;5;0;0;4;2;0;3;5;3;5;5;5;5;3;5;0;4;1;2;5;1].
Theorem C38_maxp_local_search_refuted :
  exists g attr sp thr r P l0 l1 a z, symmetric g /\ no_self_loops g /\ shaped sp [thr] (gn g) /\ non_negative sp /\
    (exists before r1 r2, construct manhattan g attr sp [thr] 1 0 [] r = Ok (3, before, r1) /\
       assign_each manhattan g attr before r1 = Ok ([P], r2)) /\ array_from_region_list P = Ok l0 /\
    (forall fuel, 40 <= fuel ->
       mp_labels (maxp_azp_fit expd same_order (pairwise manhattan) manhattan fuel g attr sp [thr] 1 r None None r) = Some l1) /\
    (heterogeneity (fun i j => manhattan (nth i attr []) (nth j attr [])) l1 <
     heterogeneity (fun i j => manhattan (nth i attr []) (nth j attr [])) l0)%Q /\
    legal_move g l1 a z /\ (forall z', In z' (upd l1 a z) -> meets sp [thr] (upd l1 a z) z') /\
    (heterogeneity (fun i j => manhattan (nth i attr []) (nth j attr [])) (upd l1 a z) <
     heterogeneity (fun i j => manhattan (nth i attr []) (nth j attr [])) l1)%Q.
Proof.
  exists (path_graph 7), (att [1;2;2;0;1;3;0]%Q), (repeat [1%Q] 7), 2%Q, draws38, [[0;1];[5;4;6];[2;3]],
    [0;0;2;2;1;1;1]%Z, [0;0;2;2;2;1;1]%Z, 2, 0%Z.
  split; [apply path_symmetric|]. split; [apply path_no_self_loops|]. split; [apply all_ones|]. split; [apply all_ones|].
  split; [eexists _, _, _; split; vm_compute; reflexivity|]. split; [vm_compute; reflexivity|]. split; [|split; [|split; [|split]]].
  - intros fuel Hf. replace fuel with (40 + (fuel - 40)) by lia. generalize (fuel - 40). intros k. vm_compute. reflexivity.
  - vm_compute. reflexivity.
  - split; [cbn; lia|]. exists 2%Z. split; [reflexivity|]. split; [discriminate|]. split.
    + apply (proj1 (is_candidate_spec (path_graph 7) [0;0;2;2;2;1;1]%Z 2 2%Z eq_refl)). vm_compute. reflexivity.
    + exists 1. split; [cbn; lia|]. split; [reflexivity|]. left. reflexivity.
  - intros z' Hz'. cbn in Hz'. intros [|[|k]] t Ht; try discriminate. injection Ht as <-.
    repeat (destruct Hz' as [<-|Hz']; [vm_compute; discriminate|]). destruct Hz'.
  - vm_compute. reflexivity.
Qed.
(** C38 (partial) speaks about such runs *)
Example C38_example : 2 <= n_labels [0;0;2;2;1;1;1]%Z.
Proof. vm_compute. lia. Qed.

(** C62 is false of the code: a second fit with a lower threshold is still bound by the first one. *)
Definition draws62 : rng := draws [5;0;3;0;0;1;5;0;0;5;5;3;3;3;0;2;4;5;3;3;0;3;5;4].
Definition fit62 thr ls := mp_ex 40 (path_graph 5) [2;2;1;3;3]%Q [1;1;1;1;1]%Q thr 1 ls draws62.
Theorem C62_maxp_refit_refuted :
  exists labels ls r', fit62 3%Q None = Ok (labels, Some ls, r') /\
    mp_labels (fit62 2%Q None) = Some [0;0;0;1;1]%Z /\ mp_labels (fit62 2%Q (Some ls)) = Some [0;0;1;1;1]%Z.
Proof. eexists _, _, _. split; [vm_compute; reflexivity|]. vm_compute. auto. Qed.

Print Assumptions C33_grow_regions.
Print Assumptions C34_assign_enclaves.
Print Assumptions C35_maxp_valid.
Print Assumptions C36_maxp_fails_iff.
Print Assumptions C37_maxp_sa_partial.
Print Assumptions C37_maxp_sa_refuted.
Print Assumptions C38_one_pass_partial.
Print Assumptions C38_maxp_local_search_refuted.
Print Assumptions C60_array_from_region_list.
Print Assumptions C62_maxp_refit_refuted.
Print Assumptions C66_maxp_not_worse.
Print Assumptions C67_find_best_area.
Print Assumptions C67_find_best_region.
Print Assumptions C68_no_further_region.
