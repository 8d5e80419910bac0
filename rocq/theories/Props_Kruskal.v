(** SKATER prunes a lightest spanning forest, greedily: C105, C106. *)
From Verif Require Import Base Spec M_Graph P_Graph M_Util P_Base P_Forest P_Initial M_Objective P_Sum P_Objective M_Skater P_Skater P_Starts P_Kruskal Props_Skater Examples.

(** Dissimilarity of the ends of a link. *)
Definition link_weight (S : skater) (data : option (list (list Q))) (e : nat * nat) : Q := dis S data (fst e) (snd e).

(** The number of regions asked for has been reached. *)
Definition enough (k : option Z) (m : nat) : Prop :=
  match k with None => False | Some k => (k <= Z.of_nat m)%Z end.

Lemma more_enough c k : more_clusters c k = true <-> ~ enough k c.
Proof. destruct k as [k|]; cbn; [rewrite Z.ltb_lt; lia|tauto]. Qed.
Lemma more_enough_false c k : more_clusters c k = false <-> enough k c.
Proof. destruct k as [k|]; cbn; [rewrite Z.ltb_ge; lia|split; [discriminate|tauto]]. Qed.

(** What a fit that starts from the forest [T] leaves behind. *)
Definition pruned (S : skater) (n : nat) (data : list (list Q)) (quorum : option Z) (k : option Z)
    (T : list edge) (c : nat) (r : skater_fit) : Prop :=
  exists l0 rest,
    f_trace r = (l0, None) :: rest /\
    island_labelling (links n T) l0 /\
    prunes n (fun es => cost_of_cut S n es data quorum) T rest (f_forest r) /\
    island_labelling (links n (f_forest r)) (f_labels r) /\
    (forall i, i < length rest -> ~ enough k (c + i)) /\
    if f_no_moves r
    then ~ enough k (c + length rest) /\ cheapest (cost_of_cut S n (f_forest r) data quorum) (f_forest r) None
    else enough k (c + length rest).

Lemma prunes_snoc n cost es rest mid e q labels : prunes n cost es rest mid ->
  cheapest (cost mid) mid (Some (e, q)) -> island_labelling (links n (without e mid)) labels ->
  prunes n cost es (rest ++ [(labels, Some (e, q))]) (without e mid).
Proof.
  intros H Hc Hl. induction H as [es|es e0 q0 l0 rest final Hc0 Hl0 Hp IH]; cbn [app].
  - constructor; auto. constructor.
  - constructor; auto.
Qed.

Lemma prune_pruned S n data quorum k T c0 fuel : length data = n -> c0 = n_components (edges_graph n T) ->
  forall es c labels l0 rest r,
  forest n es -> c = c0 + length rest -> c = n_components (edges_graph n es) -> labels = forest_labels n es ->
  island_labelling (links n T) l0 ->
  prunes n (fun es => cost_of_cut S n es data quorum) T rest es ->
  (forall i, i < length rest -> ~ enough k (c0 + i)) ->
  prune S n data quorum k fuel es c labels ((l0, None) :: rest) = Ok r ->
  pruned S n data quorum k T c0 r.
Proof.
  intros Hd Hc0. induction fuel as [|fuel IH]; intros es c labels l0 rest r Hf Ec En El Hl0 Hp Hne Hr; cbn [prune] in Hr.
  - destruct (more_clusters c k) eqn:Em; [discriminate|]. injection Hr as <-. apply more_enough_false in Em.
    exists l0, rest. cbn. rewrite <- Ec. subst labels. repeat (split; auto using forest_labels_islands).
  - destruct (more_clusters c k) eqn:Em.
    + apply more_enough in Em.
      pose proof (find_cut_post S n es data quorum Hf Hd) as Hb.
      destruct (find_cut S n es (Some data) quorum None None) as [best| |]; cbn [bind post] in *; try discriminate.
      apply (cheapest_ext _ (cost_of_cut S n es data quorum)) in Hb; [|intros; symmetry; apply cost_of_cut_iff].
      destruct best as [[e q]|].
      * destruct (cheapest_In _ _ _ _ Hb) as [He _]. cbn [make_cut bind] in Hr.
        destruct (forest_remove n e es Hf He) as [Hf' [Hn' _]].
        apply (IH _ _ _ l0 (rest ++ [(forest_labels n (remove_edge e es), Some (e, q))])) in Hr; auto.
        -- rewrite app_length. cbn [length]. lia.
        -- rewrite <- without_remove. apply prunes_snoc; auto. rewrite without_remove. apply forest_labels_islands.
        -- intros i Hi. rewrite app_length in Hi. cbn [length] in Hi.
           destruct (Nat.eq_dec i (length rest)) as [->|Hd']; [rewrite <- Ec; auto|apply Hne; lia].
      * injection Hr as <-. exists l0, rest. cbn [f_trace f_forest f_labels f_no_moves]. rewrite <- Ec.
        split; [auto|]. split; [auto|]. split; [auto|]. split; [apply forest_labels_islands|]. split; [auto|]. split; auto.
    + injection Hr as <-. apply more_enough_false in Em.
      exists l0, rest. cbn. rewrite <- Ec. subst labels. repeat (split; auto using forest_labels_islands).
Qed.

(** The whole outcome is determined by the forest it starts from. *)
Lemma cost_of_cut_fun S n es data quorum e q q' : cost_of_cut S n es data quorum e q -> cost_of_cut S n es data quorum e q' -> q = q'.
Proof.
  intros [l [Hl Hs]] [l' [Hl' Hs']]. rewrite (island_labelling_unique _ _ _ Hl Hl') in Hs. congruence.
Qed.

Lemma cheapest_unique {A} (cost : A -> option Q -> Prop) cands b b' :
  (forall e q q', cost e q -> cost e q' -> q = q') -> cheapest cost cands b -> cheapest cost cands b' -> b = b'.
Proof.
  intros Hfun H H'. destruct b as [[e q]|], b' as [[e' q']|]; auto.
  - destruct H as [Hc [l1 [l2 [E [H1 H2]]]]], H' as [Hc' [m1 [m2 [E' [H1' H2']]]]].
    assert (Hcase : e = e').
    { rewrite E in E'. clear E. revert m1 H1' E'. induction l1 as [|x l1 IH]; intros m1 H1' E'.
      - destruct m1 as [|y m1]; cbn in E'; injection E' as -> ->; [auto|]. exfalso.
        destruct (H1' y (or_introl eq_refl)) as [Hx|[q2 [Hx Hlt]]].
        + pose proof (Hfun _ _ _ Hc Hx) as E0. discriminate.
        + pose proof (Hfun _ _ _ Hc Hx) as E0. injection E0 as <-.
          destruct (H2 e') as [Hy|[q3 [Hy Hle]]]; [apply in_or_app; right; left; auto| |].
          * pose proof (Hfun _ _ _ Hc' Hy) as E0. discriminate.
          * pose proof (Hfun _ _ _ Hc' Hy) as E0. injection E0 as <-. lra.
      - destruct m1 as [|y m1]; cbn in E'; injection E' as -> E'.
        + exfalso. destruct (H1 e' (or_introl eq_refl)) as [Hx|[q2 [Hx Hlt]]].
          * pose proof (Hfun _ _ _ Hc' Hx) as E0. discriminate.
          * pose proof (Hfun _ _ _ Hc' Hx) as E0. injection E0 as <-.
            destruct (H2' e) as [Hy|[q3 [Hy Hle]]]; [rewrite <- E'; apply in_or_app; right; left; auto| |].
            -- pose proof (Hfun _ _ _ Hc Hy) as E0. discriminate.
            -- pose proof (Hfun _ _ _ Hc Hy) as E0. injection E0 as <-. lra.
        + apply (IH (fun f Hf => H1 f (or_intror Hf)) m1 (fun f Hf => H1' f (or_intror Hf)) E'). }
    subst e'. pose proof (Hfun _ _ _ Hc Hc') as E0. injection E0 as ->. auto.
  - destruct (cheapest_In _ _ _ _ H) as [Hi Hc]. pose proof (Hfun _ _ _ Hc (H' e Hi)) as E0. discriminate.
  - destruct (cheapest_In _ _ _ _ H') as [Hi Hc]. pose proof (Hfun _ _ _ Hc (H e' Hi)) as E0. discriminate.
Qed.

Lemma prunes_unique S n data quorum k c T : forall rest r rest' r',
  let cost := fun es => cost_of_cut S n es data quorum in
  prunes n cost T rest (f_forest r) -> prunes n cost T rest' (f_forest r') ->
  (forall i, i < length rest -> ~ enough k (c + i)) ->
  (forall i, i < length rest' -> ~ enough k (c + i)) ->
  (if f_no_moves r then ~ enough k (c + length rest) /\ cheapest (cost (f_forest r)) (f_forest r) None
   else enough k (c + length rest)) ->
  (if f_no_moves r' then ~ enough k (c + length rest') /\ cheapest (cost (f_forest r')) (f_forest r') None
   else enough k (c + length rest')) ->
  rest = rest' /\ f_forest r = f_forest r' /\ f_no_moves r = f_no_moves r'.
Proof.
  intros rest r rest' r' cost H H' Hn Hn' Hs Hs'.
  assert (Hfun : forall es e q q', cost es e q -> cost es e q' -> q = q') by (intros es e q q'; apply cost_of_cut_fun).
  clearbody cost. revert c rest' H' Hn Hn' Hs Hs'. remember (f_forest r) as F eqn:EF.
  induction H as [es|es e q labels rest final Hc Hl Hp IH]; intros c rest' H' Hn Hn' Hs Hs'.
  - inversion H' as [es0 E1 E2 E3|es0 e q labels rest final Hc Hl Hp E1 E2 E3]; subst.
    + split; [auto|]. split; [auto|]. cbn [length] in *. destruct (f_no_moves r), (f_no_moves r'); tauto.
    + exfalso. cbn [length] in *. specialize (Hn' 0). destruct (f_no_moves r).
      * destruct Hs as [_ Hs]. pose proof (cheapest_unique _ _ _ _ (Hfun (f_forest r)) Hc Hs). discriminate.
      * apply Hn'; [lia|auto].
  - inversion H' as [es0 E1 E2 E3|es0 e' q' labels' rest2 final' Hc' Hl' Hp' E1 E2 E3]; subst.
    + exfalso. cbn [length] in *. specialize (Hn 0). destruct (f_no_moves r').
      * destruct Hs' as [_ Hs']. pose proof (cheapest_unique _ _ _ _ (Hfun (f_forest r')) Hc Hs'). discriminate.
      * apply Hn; [lia|auto].
    + pose proof (cheapest_unique _ _ _ _ (Hfun es) Hc Hc') as E. injection E as <- <-.
      rewrite (island_labelling_unique _ _ _ Hl' Hl).
      destruct (IH eq_refl (Datatypes.S c) rest2 Hp') as [E1 [E2 E3]]; cbn [length] in *.
      * intros i Hi. replace (Datatypes.S c + i) with (c + Datatypes.S i) by lia. apply Hn. lia.
      * intros i Hi. replace (Datatypes.S c + i) with (c + Datatypes.S i) by lia. apply Hn'. lia.
      * replace (Datatypes.S c + length rest) with (c + Datatypes.S (length rest)) by lia. exact Hs.
      * replace (Datatypes.S c + length rest2) with (c + Datatypes.S (length rest2)) by lia. exact Hs'.
      * subst rest2. auto.
Qed.

Lemma pruned_unique S n data quorum k T c r r' :
  pruned S n data quorum k T c r -> pruned S n data quorum k T c r' -> r = r'.
Proof.
  intros [l0 [rest [Et [Hl0 [Hp [Hl [Hn Hs]]]]]]] [l0' [rest' [Et' [Hl0' [Hp' [Hl' [Hn' Hs']]]]]]].
  destruct (prunes_unique S n data quorum k c T rest r rest' r' Hp Hp' Hn Hn' Hs Hs') as [-> [Ef En]].
  rewrite (island_labelling_unique _ _ _ Hl0 Hl0') in Et. rewrite Ef in Hl.
  pose proof (island_labelling_unique _ _ _ Hl Hl') as El.
  destruct r, r'; cbn in *. congruence.
Qed.

(** C105 *)
(** A fit is exactly this: take a lightest spanning forest of the neighbours that differ, and cut its
    cheapest link again and again until there are enough regions or no cut is left. *)
Theorem C105_skater_exact : forall S order g data k quorum ign fuel c,
  lightest_first (link_weight S data) order -> (forall d, data = Some d -> length d = gn g) ->
  sk_one_arg S = false -> n_islands (dissimilar g (dis S data)) c -> gn g < fuel ->
  exists T,
    lightest (dissimilar g (dis S data)) (link_weight S data) T /\ row_by_row T /\
    forall r, skater_run S order g data k quorum ign fuel = Ok r <->
      (1 < c -> forall l, island_labelling (dissimilar g (dis S data)) l -> meets_quorum quorum l) /\
      pruned S (gn g) (fit_data g data) quorum (wanted k c ign) T c r.
Proof.
  intros S order g data k quorum ign fuel c Ho Hd H1 Hc Hfuel.
  assert (Hperm : forall l, Permutation (order l) l) by (intros; apply Ho).
  exists (minimum_spanning_tree order (dissim_matrix S g data)). rewrite <- dissim_dissimilar in *.
  split; [apply mst_lightest; auto|]. split; [apply mst_row_by_row|].
  pose proof (n_islands_iff (dissim_matrix S g data) c) as Hi. apply Hi in Hc. clear Hi.
  pose proof (msf_components S order g data Hperm) as Hmc.
  pose proof (msf_labels S order g data Hperm) as Hml.
  destruct (dissim_spanning S order g data Hperm) as [Hf _]. rewrite dissim_gn in Hf.
  assert (Hfwd : forall r, skater_run S order g data k quorum ign fuel = Ok r ->
    (1 < c -> forall l, island_labelling (dissim_matrix S g data) l -> meets_quorum quorum l) /\
    pruned S (gn g) (fit_data g data) quorum (wanted k c ign) (minimum_spanning_tree order (dissim_matrix S g data)) c r).
  { intros r Hr. unfold skater_run in Hr. set (msf := minimum_spanning_tree order (dissim_matrix S g data)) in *.
    rewrite Hmc, <- Hc, wanted_adjust in Hr.
    destruct (Nat.ltb 1 c && below_quorum quorum (forest_labels (gn g) msf)) eqn:Eq; [discriminate|].
    split.
    - intros Hlt l Hl. rewrite (island_labelling_unique _ _ _ Hl Hml). apply below_quorum_false.
      apply Nat.ltb_lt in Hlt. rewrite Hlt in Eq. exact Eq.
    - eapply (prune_pruned S (gn g) (fit_data g data) quorum (wanted k c ign) msf c fuel (fit_data_length g data Hd)); [congruence| | | | | | | |exact Hr]; auto.
      + congruence.
      + apply forest_labels_islands.
      + constructor.
      + cbn. intros i Hi. lia. }
  intros r. split; [apply Hfwd|]. intros [Hq Hr].
  destruct (C46_skater_terminates S order g data k quorum ign fuel Hperm Hd H1 Hfuel) as [[r' [Hr' _]]|Hr'].
  - rewrite Hr'. f_equal. eapply pruned_unique; [apply Hfwd; exact Hr'|exact Hr].
  - exfalso. pose proof (skater_run_post S order g data k quorum ign fuel Hperm Hd) as Hp. rewrite Hr' in Hp. cbn [post] in Hp.
    destruct Hp as [[H _]|[_ [Hlt Hnq]]]; [congruence|]. apply Hnq, Hq; [congruence|exact Hml].
Qed.

(** C106 *)
(** No two neighbouring pairs are equally dissimilar. *)
Definition all_differ (g : graph) (d : nat -> nat -> Q) : Prop :=
  forall i j x y, i < gn g -> j < gn g -> x < gn g -> y < gn g -> gadj g i j = true -> gadj g x y = true ->
    (d i j == d x y)%Q -> (i = x /\ j = y) \/ (i = y /\ j = x).
(** No two cuts of a forest of neighbours are equally good. *)
Definition cuts_differ (S : skater) (g : graph) (data : list (list Q)) (quorum : option Z) : Prop :=
  forall es e f q q', is_forest (gn g) es -> (forall x, In x es -> gadj g (fst x) (snd x) = true) ->
    In e es -> In f es ->
    cost_of_cut S (gn g) es data quorum e (Some q) -> cost_of_cut S (gn g) es data quorum f (Some q') ->
    (q == q')%Q -> e = f.

Lemma forest_links_kept : forall S order g data a b,
  lightest_first (link_weight S data) order -> symmetric g ->
  (forall i j, i < gn g -> j < gn g -> (dis S data i j == dis S data j i)%Q) -> all_differ g (dis S data) ->
  a < gn g -> b < gn g ->
  (In (a, b) (minimum_spanning_tree order (dissimilar g (dis S data))) \/
   In (b, a) (minimum_spanning_tree order (dissimilar g (dis S data)))) <->
  gadj (dissimilar g (dis S data)) a b = true /\
  ~ same_island (lighter (dissimilar g (dis S data)) (link_weight S data) (dis S data a b)) a b.
Proof.
  intros S order g data a b Ho Hsym Hd Hdiff Ha Hb. change (dis S data a b) with (link_weight S data (a, b)). apply mst_links; auto.
  - intros u v Hu Hv. cbn in *. rewrite (Hsym u v Hu Hv). f_equal. f_equal.
    destruct (Qeq_bool (dis S data u v) 0) eqn:E1, (Qeq_bool (dis S data v u) 0) eqn:E2; auto.
    + apply Qeq_bool_iff in E1. rewrite Hd in E1 by auto. apply (proj2 (Qeq_bool_iff _ _)) in E1. congruence.
    + apply Qeq_bool_iff in E2. rewrite Hd in E2 by auto. apply (proj2 (Qeq_bool_iff _ _)) in E2. congruence.
  - intros i j x y Hi Hj Hx Hy H1 H2. cbn in H1, H2. apply andb_true_iff in H1, H2. apply Hdiff; cbn in *; tauto.
Qed.

Lemma same_links_island n es es2 : same_links es es2 ->
  forall u v, same_island (links n es) u v <-> same_island (links n es2) u v.
Proof.
  intros H u v. rewrite !links_edges. split; apply same_island_touch_ext; auto; intros x y; rewrite !edges_touch; apply H.
Qed.

Lemma same_links_labelling n es es2 l : same_links es es2 ->
  island_labelling (links n es) l -> island_labelling (links n es2) l.
Proof. intros H. apply island_labelling_ext; [reflexivity|]. apply same_links_island; auto. Qed.

Lemma same_links_sym es es2 : same_links es es2 -> same_links es2 es.
Proof. intros H a b. symmetry. apply H. Qed.

Lemma forest_one_way n es a b : is_forest n es -> In (a, b) es -> In (b, a) es -> False.
Proof.
  intros [Hnd [Hr Hs]] H1 H2. pose proof (Hr _ H1) as [Ha Hb]. cbn in Ha, Hb. apply (Hs _ H1). cbn [fst snd].
  destruct (Nat.eq_dec a b) as [->|Hne]; [apply linked_refl; auto|].
  rewrite links_edges, without_remove. apply linked_one; unfold areas; cbn; auto. apply edges_touch. right.
  apply remove_edge_In. split; [auto|]. intros E. injection E as E _. congruence.
Qed.

Lemma same_links_without n es es2 a b c d : is_forest n es -> is_forest n es2 -> same_links es es2 ->
  In (a, b) es -> In (c, d) es2 -> (a, b) = (c, d) \/ (a, b) = (d, c) -> same_links (without (a, b) es) (without (c, d) es2).
Proof.
  intros Hf Hf2 H H1 H2 Hcd x y. rewrite !without_remove, !remove_edge_In.
  assert (N1 : ~ In (b, a) es) by (intros N; exact (forest_one_way n es a b Hf H1 N)).
  assert (N2 : ~ In (d, c) es2) by (intros N; exact (forest_one_way n es2 c d Hf2 H2 N)).
  specialize (H x y).
  assert (E1 : (In (x, y) es /\ (x, y) <> (a, b) \/ In (y, x) es /\ (y, x) <> (a, b)) <->
    ((In (x, y) es \/ In (y, x) es) /\ ~ ((x, y) = (a, b) \/ (y, x) = (a, b)))).
  { split.
    - intros [[A B]|[A B]]; (split; [auto|]); intros [E|E]; try (exact (B E)); injection E as <- <-; auto.
    - intros [A B]. destruct A; [left|right]; split; auto. }
  assert (E2 : (In (x, y) es2 /\ (x, y) <> (c, d) \/ In (y, x) es2 /\ (y, x) <> (c, d)) <->
    ((In (x, y) es2 \/ In (y, x) es2) /\ ~ ((x, y) = (c, d) \/ (y, x) = (c, d)))).
  { split.
    - intros [[A B]|[A B]]; (split; [auto|]); intros [E|E]; try (exact (B E)); injection E as <- <-; auto.
    - intros [A B]. destruct A; [left|right]; split; auto. }
  rewrite E1, E2, H.
  assert (E3 : ((x, y) = (a, b) \/ (y, x) = (a, b)) <-> ((x, y) = (c, d) \/ (y, x) = (c, d))).
  { destruct Hcd as [E|E]; injection E as -> ->; [tauto|].
    split; (intros [E|E]; injection E as -> ->; auto). }
  rewrite E3. reflexivity.
Qed.

Lemma without_forest n e es : is_forest n es -> In e es -> is_forest n (without e es).
Proof. intros H He. rewrite without_remove. apply forest_is_forest. apply forest_remove; auto. apply forest_is_forest; auto. Qed.

Lemma same_links_match es es2 e : same_links es es2 -> In e es -> exists e2, In e2 es2 /\ (e2 = e \/ e2 = flip e).
Proof.
  intros H He. destruct e as [a b]. destruct (proj1 (H a b) (or_introl He)) as [H1|H1]; eexists; split; eauto.
Qed.

Lemma same_links_cost S n data quorum es es2 e e2 q : is_forest n es -> is_forest n es2 -> same_links es es2 ->
  In e es -> In e2 es2 -> e2 = e \/ e2 = flip e ->
  cost_of_cut S n es data quorum e q -> cost_of_cut S n es2 data quorum e2 q.
Proof.
  intros Hf Hf2 H He He2 Hcd [l [Hl Hs]]. exists l. split; [|auto].
  destruct e as [a b], e2 as [c d]. eapply same_links_labelling; [|exact Hl].
  eapply same_links_without; eauto. destruct Hcd as [E|E]; injection E as -> ->; auto.
Qed.

Section Ties.
  Variables (S : skater) (g : graph) (data : list (list Q)) (quorum : option Z).
  Let n := gn g.
  Let cost := fun es => cost_of_cut S n es data quorum.
  Hypothesis Hdiff : cuts_differ S g data quorum.

  Lemma cheapest_same es es2 b b2 : is_forest n es -> is_forest n es2 ->
    (forall x, In x es -> gadj g (fst x) (snd x) = true) -> same_links es es2 ->
    cheapest (cost es) es b -> cheapest (cost es2) es2 b2 ->
    match b, b2 with
    | None, None => True
    | Some (e, q), Some (e2, q2) => q2 = q /\ (e2 = e \/ e2 = flip e)
    | _, _ => False
    end.
  Proof.
    intros Hf Hf2 Hg H Hb Hb2.
    assert (Hfun : forall es e q q', cost es e q -> cost es e q' -> q = q') by (intros; eapply cost_of_cut_fun; eauto).
    assert (Hle : forall es e q f q', cheapest (cost es) es (Some (e, q)) -> In f es -> cost es f (Some q') -> (q <= q')%Q).
    { clear -Hfun. intros es e q f q' [Hc [l1 [l2 [-> [H1 H2]]]]] Hin Hcf. apply in_app_or in Hin. destruct Hin as [Hin|[<-|Hin]].
      - destruct (H1 f Hin) as [Hx|[q2 [Hx Hlt]]]; pose proof (Hfun _ _ _ _ Hcf Hx) as E; [discriminate|injection E as <-; lra].
      - pose proof (Hfun _ _ _ _ Hc Hcf) as E. injection E as <-. lra.
      - destruct (H2 f Hin) as [Hx|[q2 [Hx Hlt]]]; pose proof (Hfun _ _ _ _ Hcf Hx) as E; [discriminate|injection E as <-; lra]. }
    destruct b as [[e q]|], b2 as [[e2 q2]|]; auto.
    - destruct (cheapest_In _ _ _ _ Hb) as [He Hc]. destruct (cheapest_In _ _ _ _ Hb2) as [He2 Hc2].
      destruct (same_links_match _ _ e H He) as [e' [He' Hee']].
      destruct (same_links_match _ _ e2 (same_links_sym _ _ H) He2) as [e2' [He2' Hee2']].
      assert (Hc' : cost es2 e' (Some q)) by (eapply (same_links_cost S n data quorum es es2 e e'); eauto).
      assert (Hc2' : cost es e2' (Some q2)) by (eapply (same_links_cost S n data quorum es2 es e2 e2'); eauto using same_links_sym).
      pose proof (Hle _ _ _ _ _ Hb He2' Hc2'). pose proof (Hle _ _ _ _ _ Hb2 He' Hc').
      assert (Heq : (q == q2)%Q) by lra.
      pose proof (Hdiff es e e2' q q2 Hf Hg He He2' Hc Hc2' Heq) as ->.
      pose proof (Hfun _ _ _ _ Hc Hc2') as E. injection E as ->. split; [auto|].
      destruct e2 as [x y], e2' as [u v]. destruct Hee2' as [E|E]; injection E as -> ->; auto.
    - destruct (cheapest_In _ _ _ _ Hb) as [He Hc]. destruct (same_links_match _ _ e H He) as [e' [He' Hee']].
      assert (Hc' : cost es2 e' (Some q)) by (eapply (same_links_cost S n data quorum es es2 e e'); eauto).
      pose proof (Hfun _ _ _ _ Hc' (Hb2 e' He')). discriminate.
    - destruct (cheapest_In _ _ _ _ Hb2) as [He2 Hc2].
      destruct (same_links_match _ _ e2 (same_links_sym _ _ H) He2) as [e2' [He2' Hee2']].
      assert (Hc2' : cost es e2' (Some q2)) by (eapply (same_links_cost S n data quorum es2 es e2 e2'); eauto using same_links_sym).
      pose proof (Hfun _ _ _ _ Hc2' (Hb e2' He2')). discriminate.
  Qed.

  Lemma prunes_same k T rest r : prunes n cost T rest (f_forest r) -> forall c T2 rest2 r2, 
    is_forest n T -> is_forest n T2 -> (forall x, In x T -> gadj g (fst x) (snd x) = true) -> same_links T T2 ->
    prunes n cost T2 rest2 (f_forest r2) ->
    (forall i, i < length rest -> ~ enough k (c + i)) ->
    (forall i, i < length rest2 -> ~ enough k (c + i)) ->
    (if f_no_moves r then ~ enough k (c + length rest) /\ cheapest (cost (f_forest r)) (f_forest r) None
     else enough k (c + length rest)) ->
    (if f_no_moves r2 then ~ enough k (c + length rest2) /\ cheapest (cost (f_forest r2)) (f_forest r2) None
     else enough k (c + length rest2)) ->
    map fst rest = map fst rest2 /\ map (fun x => option_map snd (snd x)) rest = map (fun x => option_map snd (snd x)) rest2 /\
    same_links (f_forest r) (f_forest r2) /\ f_no_moves r = f_no_moves r2.
  Proof.
    intros H. remember (f_forest r) as F eqn:EF.
    induction H as [es|es e q labels rest final Hc Hl Hp IH]; intros c T2 rest2 r2 Hf Hf2 Hg Hsl H' Hn Hn' Hs Hs'.
    - inversion H' as [es0 E1 E2 E3|es0 e q labels rest final Hc Hl Hp E1 E2 E3]; subst.
      + split; [auto|]. split; [auto|]. split; [auto|]. cbn [length] in *. destruct (f_no_moves r), (f_no_moves r2); tauto.
      + exfalso. cbn [length] in *. specialize (Hn' 0). destruct (f_no_moves r).
        * destruct Hs as [_ Hs]. apply (cheapest_same _ _ _ _ Hf Hf2 Hg Hsl Hs Hc).
        * apply Hn'; [lia|auto].
    - inversion H' as [es0 E1 E2 E3|es0 e' q' labels' rest2' final' Hc' Hl' Hp' E1 E2 E3]; subst.
      + exfalso. cbn [length] in *. specialize (Hn 0). destruct (f_no_moves r2).
        * destruct Hs' as [_ Hs']. apply (cheapest_same _ _ _ _ Hf Hf2 Hg Hsl Hc Hs').
        * apply Hn; [lia|auto].
      + destruct (cheapest_same _ _ _ _ Hf Hf2 Hg Hsl Hc Hc') as [-> He].
        destruct (cheapest_In _ _ _ _ Hc) as [Hin _]. destruct (cheapest_In _ _ _ _ Hc') as [Hin' _].
        assert (Hsl' : same_links (without e es) (without e' T2)).
        { destruct e as [a b], e' as [a' b']. eapply same_links_without; eauto. destruct He as [E|E]; injection E as -> ->; auto. }
        pose proof (same_links_labelling n _ _ _ Hsl' Hl) as Hl2. rewrite (island_labelling_unique _ _ _ Hl' Hl2) in *.
        destruct (IH eq_refl (Datatypes.S c) (without e' T2) rest2' r2) as [E1 [E2 [E3 E4]]]; cbn [length] in *; auto.
        * apply without_forest; auto.
        * apply without_forest; auto.
        * intros x Hx. rewrite without_remove in Hx. apply remove_edge_In in Hx. apply Hg; tauto.
        * intros i Hi. replace (Datatypes.S c + i) with (c + Datatypes.S i) by lia. apply Hn. lia.
        * intros i Hi. replace (Datatypes.S c + i) with (c + Datatypes.S i) by lia. apply Hn'. lia.
        * replace (Datatypes.S c + length rest) with (c + Datatypes.S (length rest)) by lia. exact Hs.
        * replace (Datatypes.S c + length rest2') with (c + Datatypes.S (length rest2')) by lia. exact Hs'.
        * cbn [map fst snd option_map]. rewrite E1, E2. auto.
  Qed.
End Ties.

(** A fit that cuts nothing returns the links that no chain of lighter links bypasses. *)
Theorem C106_uncut_forest : forall S order g data k quorum ign fuel r a b,
  lightest_first (link_weight S data) order -> symmetric g ->
  (forall d, data = Some d -> length d = gn g) ->
  (forall i j, i < gn g -> j < gn g -> (dis S data i j == dis S data j i)%Q) -> all_differ g (dis S data) ->
  skater_run S order g data k quorum ign fuel = Ok r -> length (f_trace r) = 1 ->
  a < gn g -> b < gn g ->
  (In (a, b) (f_forest r) \/ In (b, a) (f_forest r)) <->
  gadj (dissimilar g (dis S data)) a b = true /\
  ~ same_island (lighter (dissimilar g (dis S data)) (link_weight S data) (dis S data a b)) a b.
Proof.
  intros S order g data k quorum ign fuel r a b Ho Hsym Hd Hds Hdiff Hr Hlen Ha Hb.
  assert (Hperm : forall l, Permutation (order l) l) by (intros; apply Ho).
  pose proof (skater_run_post S order g data k quorum ign fuel Hperm Hd) as Hp. rewrite Hr in Hp. cbn [post] in Hp.
  destruct Hp as [[m [[Hf [Em [El [Hin [_ [_ [_ [Hc _]]]]]]]] _]] _].
  rewrite dissim_dissimilar in *. set (T := minimum_spanning_tree order (dissimilar g (dis S data))) in *.
  assert (HfT : forest (gn g) T) by (destruct (minimum_spanning_tree_spec order (dissimilar g (dis S data)) Hperm) as [H _]; exact H).
  assert (Heq : forall e, In e (f_forest r) <-> In e T).
  { intros e. split; [apply Hin|]. destruct Hf as [N1 [_ C1]], HfT as [N2 [_ C2]].
    apply (NoDup_length_incl N1); [lia|exact Hin]. }
  rewrite !Heq. unfold T. apply forest_links_kept; auto.
Qed.

(** If neither dissimilarities nor cuts tie, a fit does not depend on how the spanning-tree routine
    orders its links. *)
Theorem C106_no_ties_determined : forall S order order' g data k quorum ign fuel r r',
  lightest_first (link_weight S data) order -> lightest_first (link_weight S data) order' ->
  (forall d, data = Some d -> length d = gn g) -> symmetric g ->
  (forall i j, i < gn g -> j < gn g -> (dis S data i j == dis S data j i)%Q) -> all_differ g (dis S data) ->
  cuts_differ S g (fit_data g data) quorum ->
  skater_run S order g data k quorum ign fuel = Ok r ->
  skater_run S order' g data k quorum ign fuel = Ok r' ->
  f_labels r = f_labels r' /\ map fst (f_trace r) = map fst (f_trace r') /\
  map (fun x => option_map snd (snd x)) (f_trace r) = map (fun x => option_map snd (snd x)) (f_trace r') /\
  same_links (f_forest r) (f_forest r') /\ f_no_moves r = f_no_moves r'.
Proof.
  intros S order order' g data k quorum ign fuel r r' Ho Ho' Hd Hsym Hdsym Hdiff Hcuts Hr Hr'.
  assert (Hrun : forall ord r, lightest_first (link_weight S data) ord -> skater_run S ord g data k quorum ign fuel = Ok r ->
    pruned S (gn g) (fit_data g data) quorum (wanted k (n_components (dissim_matrix S g data)) ign)
      (minimum_spanning_tree ord (dissim_matrix S g data)) (n_components (dissim_matrix S g data)) r /\
    is_forest (gn g) (minimum_spanning_tree ord (dissim_matrix S g data))).
  { clear r r' Hr Hr'. intros ord r Hord Hr. assert (Hperm : forall l, Permutation (ord l) l) by (intros; apply Hord).
    destruct (dissim_spanning S ord g data Hperm) as [Hf _]. rewrite dissim_gn in Hf. split; [|apply forest_is_forest; auto].
    unfold skater_run in Hr. rewrite (msf_components S ord g data Hperm), wanted_adjust in Hr.
    destruct (Nat.ltb 1 _ && below_quorum _ _); [discriminate|].
    eapply (prune_pruned S (gn g) (fit_data g data) quorum); [apply fit_data_length; auto| | | | | | | | |exact Hr]; auto.
    - symmetry. apply msf_components; auto.
    - symmetry. apply msf_components; auto.
    - apply forest_labels_islands.
    - constructor.
    - cbn. intros i Hi. lia. }
  destruct (Hrun _ _ Ho Hr) as [[l0 [rest [Et [Hl0 [Hp [Hl [Hn Hs]]]]]]] Hf].
  destruct (Hrun _ _ Ho' Hr') as [[l0' [rest' [Et' [Hl0' [Hp' [Hl' [Hn' Hs']]]]]]] Hf'].
  assert (Hsl : same_links (minimum_spanning_tree order (dissim_matrix S g data)) (minimum_spanning_tree order' (dissim_matrix S g data))).
  { assert (Hr1 : forall ord a b, lightest_first (link_weight S data) ord -> In (a, b) (minimum_spanning_tree ord (dissim_matrix S g data)) \/
      In (b, a) (minimum_spanning_tree ord (dissim_matrix S g data)) -> a < gn g /\ b < gn g).
    { intros ord a b Hord H. assert (Hperm : forall l, Permutation (ord l) l) by (intros; apply Hord).
      destruct (dissim_spanning S ord g data Hperm) as [[_ [Hrg _]] _]. rewrite dissim_gn in Hrg.
      destruct H as [H|H]; apply Hrg in H; cbn in H; tauto. }
    intros a b. split; intros H.
    - pose proof (Hr1 _ _ _ Ho H) as [Ha Hb]. rewrite dissim_dissimilar in *. apply forest_links_kept in H; auto. apply forest_links_kept; auto.
    - pose proof (Hr1 _ _ _ Ho' H) as [Ha Hb]. rewrite dissim_dissimilar in *. apply forest_links_kept in H; auto. apply forest_links_kept; auto. }
  assert (Hadj : forall x, In x (minimum_spanning_tree order (dissim_matrix S g data)) -> gadj g (fst x) (snd x) = true).
  { intros x Hx. assert (Hperm : forall l, Permutation (order l) l) by (intros; apply Ho).
    destruct (dissim_spanning S order g data Hperm) as [_ [H _]]. specialize (H x Hx). rewrite dissim_dissimilar in H.
    cbn in H. apply andb_true_iff in H. tauto. }
  destruct (prunes_same S g (fit_data g data) quorum Hcuts _ _ _ _ Hp _ _ _ _ Hf Hf' Hadj Hsl Hp' Hn Hn' Hs Hs') as [E1 [E2 [E3 E4]]].
  rewrite Et, Et'. cbn [map fst snd option_map].
  rewrite (island_labelling_unique _ _ _ Hl0' (same_links_labelling _ _ _ _ Hsl Hl0)).
  split; [|split; [f_equal; exact E1|split; [f_equal; exact E2|auto]]].
  apply (island_labelling_unique (links (gn g) (f_forest r'))); [|auto].
  eapply same_links_labelling; eauto.
Qed.

(** ** Examples: the hypotheses can be met *)
Fixpoint put (w : edge -> Q) (e : edge) (l : list edge) : list edge :=
  match l with
  | [] => [e]
  | f :: l' => if Qle_bool (w e) (w f) then e :: l else f :: put w e l'
  end.
(** Sorting by weight; ties stay in their order. *)
Definition sort_by (w : edge -> Q) (l : list edge) : list edge := fold_right (put w) [] l.

Lemma put_perm w e l : Permutation (put w e l) (e :: l).
Proof.
  induction l as [|f l IH]; cbn [put]; [auto|]. destruct (Qle_bool (w e) (w f)); [auto|].
  rewrite IH. constructor.
Qed.
Lemma put_sorted w e l : StronglySorted (fun e f => (w e <= w f)%Q) l -> StronglySorted (fun e f => (w e <= w f)%Q) (put w e l).
Proof.
  induction 1 as [|f l Hs IH Hall]; cbn [put]; [repeat constructor|].
  destruct (Qle_bool (w e) (w f)) eqn:E.
  - apply Qle_bool_iff in E. constructor; [constructor; auto|]. constructor; [auto|].
    rewrite Forall_forall in *. intros x Hx. specialize (Hall x Hx). lra.
  - assert (Hlt : (w f < w e)%Q) by (apply Qnot_le_lt; intros H; apply Qle_bool_iff in H; congruence).
    constructor; [auto|]. rewrite Forall_forall in *. intros x Hx.
    apply (Permutation_in _ (put_perm w e l)) in Hx. destruct Hx as [<-|Hx]; [lra|auto].
Qed.
Lemma sort_by_lightest_first w : lightest_first w (sort_by w).
Proof.
  intros l. induction l as [|e l [IH1 IH2]]; cbn [sort_by fold_right]; [split; [auto|constructor]|].
  split; [rewrite put_perm; constructor; exact IH1|apply put_sorted; exact IH2].
Qed.
(** The same, ties in reverse order. *)
Definition sort_rev (w : edge -> Q) (l : list edge) : list edge := sort_by w (rev l).
Lemma sort_rev_lightest_first w : lightest_first w (sort_rev w).
Proof.
  intros l. destruct (sort_by_lightest_first w (rev l)) as [H1 H2]. split; [|exact H2].
  unfold sort_rev. rewrite H1. symmetry. apply Permutation_rev.
Qed.

(** On the grid the forest of weight 18 is pruned; links taken in another order give weight 42. *)
Definition grid_weight := link_weight default_skater (Some grid_data).
Example exact_example : exists r, let g := dissimilar grid3 (dis default_skater (Some grid_data)) in
  lightest_first grid_weight (sort_by grid_weight) /\ sk_one_arg default_skater = false /\ n_islands g 1 /\
  skater_run default_skater (sort_by grid_weight) grid3 (Some grid_data) (Some 3%Z) (Some 2%Z) false 10 = Ok r /\
  f_labels r = [0; 0; 1; 0; 0; 1; 2; 2; 2]%Z /\ map (fun x => option_map fst (snd x)) (f_trace r) = [None; Some (4, 5); Some (5, 8)] /\
  (weight grid_weight (minimum_spanning_tree (sort_by grid_weight) g) == 18)%Q /\
  (weight grid_weight (minimum_spanning_tree same_order g) == 42)%Q.
Proof.
  eexists. cbv zeta. split; [apply sort_by_lightest_first|]. split; [reflexivity|].
  split; [apply n_islands_iff; vm_compute; reflexivity|]. split; [vm_compute; reflexivity|].
  split; [reflexivity|]. split; [reflexivity|]. split; vm_compute; reflexivity.
Qed.

(** A row of four areas without ties. *)
Definition row_data : list (list Q) := [[0]; [1]; [3]; [10]]%Q.
Definition row_weight := link_weight default_skater (Some row_data).
Definition row_links : list edge := [(0, 1); (1, 2); (2, 3)].
Definition row_part (es : list edge) : list edge :=
  filter (fun e => existsb (edge_eqb e) es || existsb (edge_eqb (flip e)) es) row_links.

Lemma row_part_same es : (forall x, In x es -> gadj (path_graph 4) (fst x) (snd x) = true) -> is_forest 4 es ->
  same_links es (row_part es).
Proof.
  intros Hg [_ [Hr _]] a b. unfold row_part. rewrite !filter_In, !orb_true_iff, !existsb_edge. unfold flip. cbn [fst snd].
  split; [|tauto]. intros H.
  assert (Hab : In (a, b) row_links \/ In (b, a) row_links); [|tauto].
  assert (Hl : forall x y, In (x, y) es -> In (x, y) row_links \/ In (y, x) row_links).
  { intros x y Hxy. pose proof (Hr _ Hxy) as [Hx Hy]. pose proof (Hg _ Hxy) as Hadj. cbn [fst snd] in Hx, Hy, Hadj.
    destruct x as [|[|[|[|x]]]], y as [|[|[|[|y]]]]; try lia; cbn in Hadj; try discriminate; cbn; auto 8. }
  destruct H as [H|H]; apply Hl in H; tauto.
Qed.

Lemma row_cuts_differ : cuts_differ default_skater (path_graph 4) row_data None.
Proof.
  intros es e f q q' Hf Hg He Hfe Hc Hc' Heq.
  change (gn (path_graph 4)) with 4 in *.
  pose proof (row_part_same es Hg Hf) as Hsl. set (P := row_part es) in *.
  assert (HfP : is_forest 4 P).
  { unfold P, row_part. apply forest_is_forest, forest_filter. split; [repeat constructor; cbn; intuition congruence|].
    split; [intros x [<-|[<-|[<-|[]]]]; cbn; lia|reflexivity]. }
  destruct (same_links_match _ _ e Hsl He) as [e2 [He2 Hee2]].
  destruct (same_links_match _ _ f Hsl Hfe) as [f2 [Hf2 Hff2]].
  pose proof (same_links_cost _ _ _ _ _ _ _ _ _ Hf HfP Hsl He He2 Hee2 Hc) as Hc2.
  pose proof (same_links_cost _ _ _ _ _ _ _ _ _ Hf HfP Hsl Hfe Hf2 Hff2 Hc') as Hc2'.
  apply cost_of_cut_iff in Hc2, Hc2'. unfold cut_cost in Hc2, Hc2'.
  assert (E : e2 = f2).
  { clear -Hc2 Hc2' He2 Hf2 Heq. unfold P, row_part, row_links in *. cbn [filter] in *.
    destruct (existsb (edge_eqb (0, 1)) es || existsb (edge_eqb (flip (0, 1))) es),
      (existsb (edge_eqb (1, 2)) es || existsb (edge_eqb (flip (1, 2))) es),
      (existsb (edge_eqb (2, 3)) es || existsb (edge_eqb (flip (2, 3))) es);
    cbn [In] in He2, Hf2; repeat match goal with H : _ \/ _ |- _ => destruct H as [H|H] end; try contradiction; subst; auto;
    exfalso; vm_compute in Hc2; vm_compute in Hc2'; injection Hc2 as <-; injection Hc2' as <-; vm_compute in Heq; discriminate. }
  subst f2. destruct e as [a b], f as [c d]. unfold flip in *. cbn [fst snd] in *.
  destruct Hee2 as [-> | ->], Hff2 as [E|E]; injection E as <- <-; auto;
    exfalso; exact (forest_one_way 4 es _ _ Hf He Hfe).
Qed.

Example no_ties_example : exists r r',
  lightest_first row_weight (sort_by row_weight) /\ lightest_first row_weight (sort_rev row_weight) /\
  symmetric (path_graph 4) /\
  (forall i j, i < 4 -> j < 4 -> (dis default_skater (Some row_data) i j == dis default_skater (Some row_data) j i)%Q) /\
  all_differ (path_graph 4) (dis default_skater (Some row_data)) /\
  cuts_differ default_skater (path_graph 4) row_data None /\
  skater_run default_skater (sort_by row_weight) (path_graph 4) (Some row_data) (Some 3%Z) None false 5 = Ok r /\
  skater_run default_skater (sort_rev row_weight) (path_graph 4) (Some row_data) (Some 3%Z) None false 5 = Ok r' /\
  f_labels r = [0; 0; 1; 2]%Z /\ f_forest r = [(0, 1)] /\ f_forest r' = [(1, 0)].
Proof.
  eexists. eexists. split; [apply sort_by_lightest_first|]. split; [apply sort_rev_lightest_first|].
  split; [intros [|[|[|[|u]]]] [|[|[|[|v]]]] Hu Hv; cbn [gn path_graph] in *; try lia; reflexivity|].
  split; [intros [|[|[|[|u]]]] [|[|[|[|v]]]] Hu Hv; try lia; vm_compute; reflexivity|].
  split.
  { intros [|[|[|[|i]]]] [|[|[|[|j]]]] [|[|[|[|x]]]] [|[|[|[|y]]]] Hi Hj Hx Hy H1 H2 H3; cbn [gn path_graph] in *; try lia;
      try discriminate; auto; exfalso; vm_compute in H3; discriminate. }
  split; [apply row_cuts_differ|]. split; [vm_compute; reflexivity|]. split; [vm_compute; reflexivity|]. repeat split.
Qed.
(** Three areas, all neighbours: the heaviest link is bypassed. *)
Definition triangle : graph := mkG 3 (fun i j => negb (Nat.eqb i j)).
Definition triangle_data : list (list Q) := [[0]; [3]; [1]]%Q.
Definition triangle_weight := link_weight default_skater (Some triangle_data).
Example uncut_example : exists r,
  lightest_first triangle_weight (sort_by triangle_weight) /\ symmetric triangle /\
  (forall i j, i < 3 -> j < 3 -> (dis default_skater (Some triangle_data) i j == dis default_skater (Some triangle_data) j i)%Q) /\
  all_differ triangle (dis default_skater (Some triangle_data)) /\
  skater_run default_skater (sort_by triangle_weight) triangle (Some triangle_data) (Some 1%Z) None false 5 = Ok r /\
  length (f_trace r) = 1 /\ f_forest r = [(0, 2); (1, 2)].
Proof.
  eexists. split; [apply sort_by_lightest_first|].
  split; [intros [|[|[|u]]] [|[|[|v]]] Hu Hv; cbn [gn triangle] in *; try lia; reflexivity|].
  split; [intros [|[|[|u]]] [|[|[|v]]] Hu Hv; try lia; vm_compute; reflexivity|].
  split.
  { intros [|[|[|i]]] [|[|[|j]]] [|[|[|x]]] [|[|[|y]]] Hi Hj Hx Hy H1 H2 H3; cbn [gn triangle] in *; try lia;
      try discriminate; auto; exfalso; vm_compute in H3; discriminate. }
  split; [vm_compute; reflexivity|]. split; reflexivity.
Qed.

Print Assumptions C105_skater_exact.
Print Assumptions C106_uncut_forest.
Print Assumptions C106_no_ties_determined.
