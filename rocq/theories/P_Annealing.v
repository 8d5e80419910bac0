(** AZPSimulatedAnnealing: which outcomes of a whole fit are possible. *)
From Verif Require Import Base Spec M_Graph P_Graph M_Util P_Base P_Util P_Forest P_Init P_Initial P_Skater
  M_Objective P_Sum P_Objective M_Azp P_Azp P_Strategy P_Fit P_AzpFit Examples Props_Objective Props_Azp M_Sa P_Sa M_Tabu
  M_MaxP P_MaxP P_MaxP2 P_Greedy P_Zoning P_Starts P_Local P_Anneal.

(** ** one AZP run *)
Section AnnealRun.
Variable O : objfun.
Variable attr : list (list Q).
Hypothesis Hex : exact_on O attr.
Variable g : graph.
Hypothesis Hsym : symmetric g.
Hypothesis Hattr : length attr = gn g.
Variable expf : Q -> Q.
Hypothesis Hexpf : forall x y, (x == y -> expf x == expf y)%Q.
Variable fuel : nat.
Variable t : Q.
Variable term : nat.
Notation prob := (acceptance expf t).

Definition an_J (x : nat * bool) (s : strategy) : Prop := exists c, s = SSa c t (fst x) term (Nat.leb term (fst x)) (snd x).
Definition an_rounds (c : nat) (l : list Z) (u m : nat) (l' : list Z) : Prop :=
  trial_rounds (an_goes O (attr_c attr g c) (comp_graph g c) expf t) (an_must O (attr_c attr g c) (comp_graph g c) expf t)
    (az_lower O (attr_c attr g c)) (uniqueZ l) l u m l'.
Definition an_R (c : nat) (l l' : list Z) (x x' : nat * bool) : Prop :=
  exists u m, an_rounds c l u m l' /\ x' = (u + fst x, snd x || Nat.ltb 0 m).
Local Notation comp := (fun adj labels (_ : list (list Q)) s r => azp_component strategy (strat_call expf) strat_val adj fuel labels s r).

Lemma an_start c l x s : wf (comp_graph g c) l -> an_J x s ->
  exists s1, strat_start O s l (attr_c attr g c) (comp_nodes g c) = Ok s1 /\ an_T O (attr_c attr g c) t term (fst x) (snd x) s1 l.
Proof.
  intros Hwf [cc ->]. pose proof (attr_c_exact O attr Hex g Hattr c) as [Hcall _].
  assert (Hll : length l = length (attr_c attr g c)) by (rewrite attr_c_length; apply Hwf).
  destruct (Hcall l Hll) as [v Ev]. cbn [strat_start]. unfold start_common. rewrite Ev. cbn [bind].
  eexists. split; [reflexivity|]. eexists. split; [reflexivity|]. split; [auto|]. split; [auto|]. exists v. split; [auto|reflexivity].
Qed.

Lemma an_run_sound c l s x r l' s' r' : c < n_components g -> wf (comp_graph g c) l -> an_J x s ->
  run_component strategy (strat_start O) comp g attr c l s r = Ok (l', s', r') ->
  length l' = length l /\ exists x', an_R c l l' x x' /\ an_J x' s'.
Proof.
  intros Hc Hwf HJ H. unfold run_component in H. fold (attr_c attr g c) in H.
  destruct (an_start c l x s Hwf HJ) as [s1 [E1 HT]]. rewrite E1 in H. cbn [bind] in H.
  apply (an_component_sound O (attr_c attr g c) (attr_c_exact O attr Hex g Hattr c) (comp_graph g c) (comp_symmetric g c Hsym)
    (attr_c_length attr g c) expf Hexpf t term fuel (fst x) (snd x)) in H; auto.
  destruct H as [H1 [_ [u [m [H2 [c' [-> _]]]]]]]. split; [destruct H1, Hwf; lia|].
  exists (u + fst x, snd x || Nat.ltb 0 m). split; [exists u, m; auto|exists c'; reflexivity].
Qed.

Lemma an_run_reach c l s x l' x' : gn g ^ gn g + gn g + 1 < fuel -> c < n_components g -> wf (comp_graph g c) l -> an_J x s -> an_R c l l' x x' ->
  exists s', an_J x' s' /\ forall r', exists r, run_component strategy (strat_start O) comp g attr c l s r = Ok (l', s', r').
Proof.
  intros Hf Hc Hwf HJ [u [m [HR ->]]]. destruct (an_start c l x s Hwf HJ) as [s1 [E1 HT]].
  destruct (an_component_reach O (attr_c attr g c) (attr_c_exact O attr Hex g Hattr c) (comp_graph g c) (comp_symmetric g c Hsym)
      (attr_c_length attr g c) expf Hexpf t term fuel (fst x) (snd x) l s1 u m l' Hwf (comp_part_nonempty g c l Hc Hwf) HT (fuel_comp attr g Hattr c fuel Hf) HR)
    as [s2 [[c2 [-> _]] [_ [_ Hr]]]].
  eexists. split; [exists c2; reflexivity|]. intros r'. destruct (Hr r') as [r Er]. exists r. unfold run_component. fold (attr_c attr g c).
  rewrite E1. cbn [bind]. exact Er.
Qed.

Lemma list_sum_cons a l : list_sum (a :: l) = a + list_sum l.
Proof. reflexivity. Qed.

Lemma threads_counts l0 target cs : NoDup cs -> forall x x',
  threads g _ an_R l0 target cs x x' <->
  exists U M, (forall c, In c cs -> an_rounds c (comp_part g l0 c) (U c) (M c) (comp_part g target c)) /\
    x' = (list_sum (map U cs) + fst x, snd x || Nat.ltb 0 (list_sum (map M cs))).
Proof.
  induction cs as [|c cs IH]; intros Hnd x x'; cbn [threads].
  - split.
    + intros ->. exists (fun _ => 0), (fun _ => 0). split; [intros c []|]. cbn. rewrite orb_false_r. destruct x; reflexivity.
    + intros [U [M [_ ->]]]. cbn. rewrite orb_false_r. destruct x; reflexivity.
  - apply NoDup_cons_iff in Hnd. destruct Hnd as [Hc Hnd]. split.
    + intros [x1 [[u [m [Hr ->]]] Ht]]. apply IH in Ht; auto. destruct Ht as [U [M [Hall ->]]].
      exists (fun k => if Nat.eqb k c then u else U k), (fun k => if Nat.eqb k c then m else M k).
      assert (EU : map (fun k => if Nat.eqb k c then u else U k) cs = map U cs).
      { apply map_ext_in. intros k Hk. destruct (Nat.eqb_spec k c); [subst; contradiction|auto]. }
      assert (EM : map (fun k => if Nat.eqb k c then m else M k) cs = map M cs).
      { apply map_ext_in. intros k Hk. destruct (Nat.eqb_spec k c); [subst; contradiction|auto]. }
      split.
      * intros k [<-|Hk]; [rewrite Nat.eqb_refl; exact Hr|]. destruct (Nat.eqb_spec k c); [subst; contradiction|auto].
      * cbn [map fst snd]. rewrite EU, EM, Nat.eqb_refl, !list_sum_cons, orb_moves. f_equal. lia.
    + intros [U [M [Hall ->]]]. exists (U c + fst x, snd x || Nat.ltb 0 (M c)). split.
      * exists (U c), (M c). split; [apply Hall; left; auto|auto].
      * apply IH; [auto|]. exists U, M. split; [intros k Hk; apply Hall; right; auto|].
        cbn [map fst snd]. rewrite !list_sum_cons, orb_moves. f_equal. lia.
Qed.

Lemma comp_nodes_inj c c' : c < n_components g -> comp_nodes g c = comp_nodes g c' -> c = c'.
Proof.
  intros Hc E. destruct (comp_label_onto g c Hc) as [v [Hv Ev]].
  assert (H : In v (comp_nodes g c)) by (apply comp_nodes_In; auto). rewrite E in H. apply comp_nodes_In in H. destruct H as [_ H]. congruence.
Qed.

Lemma comps_every_island : every_island g (map (comp_nodes g) (seq 0 (n_components g))).
Proof.
  split.
  - assert (H : forall cs, NoDup cs -> (forall c, In c cs -> c < n_components g) -> NoDup (map (comp_nodes g) cs)).
    { induction cs as [|c cs IH]; intros Hnd Hlt; cbn [map]; constructor; apply NoDup_cons_iff in Hnd; destruct Hnd as [H1 H2].
      - intros H. apply in_map_iff in H. destruct H as [k [E Hk]]. apply comp_nodes_inj in E; [subst; auto|]. apply Hlt. right; auto.
      - apply IH; auto. intros k Hk. apply Hlt. right; auto. }
    apply H; [apply seq_NoDup|]. intros c Hc. apply in_seq in Hc. lia.
  - intros isl. rewrite in_map_iff. split.
    + intros [c [<- Hc]]. apply in_seq in Hc. destruct (comp_label_onto g c ltac:(lia)) as [v [Hv <-]].
      exists v. split; [auto|]. apply comp_nodes_island; auto.
    + intros [v [Hv Hi]]. exists (comp_label g v). split; [symmetry; apply island_comp_nodes; auto|].
      apply in_seq. pose proof (comp_label_lt g v Hv). lia.
Qed.

Lemma every_island_perm isls : every_island g isls -> Permutation isls (map (comp_nodes g) (seq 0 (n_components g))).
Proof.
  intros [Hnd Hin]. destruct comps_every_island as [Hnd' Hin']. apply NoDup_Permutation; auto.
  intros isl. rewrite Hin, Hin'. tauto.
Qed.

Lemma list_sum_perm l l' : Permutation l l' -> list_sum l = list_sum l'.
Proof. induction 1; rewrite ?list_sum_cons in *; lia. Qed.

Lemma part_at l l' c : comp_part g l c = comp_part g l' c <-> forall a, In a (comp_nodes g c) -> lab l a = lab l' a.
Proof.
  change (labels_at l (comp_nodes g c) = labels_at l' (comp_nodes g c) <-> forall a, In a (comp_nodes g c) -> lab l a = lab l' a).
  unfold labels_at. split; [|apply map_ext_in].
  intros E a Ha. destruct (In_nth_error _ _ Ha) as [i Hi]. apply (f_equal (fun l => nth_error l i)) in E.
  rewrite !nth_error_map, Hi in E. cbn in E. congruence.
Qed.

Lemma threads_run l0 labels x x' : wf g l0 -> length labels = gn g ->
  (threads g _ an_R l0 labels (seq 0 (n_components g)) x x' <->
   exists u m, anneal_run O attr g prob l0 u m labels /\ x' = (u + fst x, snd x || Nat.ltb 0 m)).
Proof.
  intros Hwf Hl. rewrite threads_counts by apply seq_NoDup. split.
  - intros [U [M [Hall ->]]]. eexists. eexists. split; [|reflexivity]. split; [auto|].
    exists (map (comp_nodes g) (seq 0 (n_components g))), (fun isl => U (comp_label g (hd 0 isl))), (fun isl => M (comp_label g (hd 0 isl))).
    assert (Hhd : forall c, In c (seq 0 (n_components g)) -> comp_label g (hd 0 (comp_nodes g c)) = c).
    { intros c Hc. apply in_seq in Hc. destruct (comp_label_onto g c ltac:(lia)) as [v [Hv Ev]].
      assert (H : In v (comp_nodes g c)) by (apply comp_nodes_In; auto).
      destruct (comp_nodes g c) as [|w ws] eqn:E; [destruct H|]. cbn [hd].
      assert (H' : In w (comp_nodes g c)) by (rewrite E; left; auto). apply comp_nodes_In in H'. tauto. }
    split; [apply comps_every_island|]. split; [|split].
    + intros isl Hi. apply in_map_iff in Hi. destruct Hi as [c [<- Hc]]. rewrite (Hhd c Hc).
      pose proof (Hall c Hc) as Hr. unfold an_rounds in Hr. apply annealed_comp in Hr; auto. destruct Hr as [l' [H1 H2]].
      exists l'. split; [auto|]. intros a Ha. symmetry. revert a Ha. apply part_at. exact H2.
    + rewrite map_map. f_equal. apply map_ext_in. intros c Hc. rewrite (Hhd c Hc). auto.
    + rewrite map_map. f_equal. apply map_ext_in. intros c Hc. rewrite (Hhd c Hc). auto.
  - intros [u [m [[_ [isls [ups [moves [Hisl [Hall [-> ->]]]]]]] ->]]].
    pose proof (every_island_perm isls Hisl) as HP.
    exists (fun c => ups (comp_nodes g c)), (fun c => moves (comp_nodes g c)). split.
    + intros c Hc. unfold an_rounds. apply annealed_comp; auto.
      destruct (Hall (comp_nodes g c)) as [l1 [H1 H2]]; [rewrite HP; apply in_map; auto|].
      exists l1. split; [auto|]. apply part_at. intros a Ha. symmetry. auto.
    + rewrite (list_sum_perm _ _ (Permutation_map ups HP)), (list_sum_perm _ _ (Permutation_map moves HP)), !map_map. reflexivity.
Qed.

Variable order : list edge -> list edge.
Hypothesis Hord : forall l, Permutation (order l) l.
Variable p : Z.

Theorem run_sound l0 s r x labels s' r' : valid_request g p (Some l0) -> an_J x s ->
  azp_fit expf order O fuel g attr p (Some l0) s r = Ok ((labels, s'), r') ->
  exists u m, anneal_run O attr g prob l0 u m labels /\ an_J (u + fst x, snd x || Nat.ltb 0 m) s'.
Proof.
  intros [Hp [Hf Hm]] HJ H. assert (Hwf : wf g l0) by (destruct Hf as [H1 [_ H2]]; split; auto).
  destruct (threads_sound strategy (strat_start O) comp g attr _ an_J an_R an_run_sound l0 Hwf Hm order p Hf Hp s r x labels s' r' HJ H)
    as [Hl [x' [Ht HJ']]].
  apply threads_run in Ht; auto. destruct Ht as [u [m [Hr ->]]]. exists u, m. auto.
Qed.

Theorem run_reach l0 s x labels u m : gn g ^ gn g + gn g + 1 < fuel -> valid_request g p (Some l0) -> an_J x s ->
  anneal_run O attr g prob l0 u m labels ->
  exists s', an_J (u + fst x, snd x || Nat.ltb 0 m) s' /\
    forall r', exists r, azp_fit expf order O fuel g attr p (Some l0) s r = Ok ((labels, s'), r').
Proof.
  intros Hfu [Hp [Hf Hm]] HJ H. assert (Hwf : wf g l0) by (destruct Hf as [H1 [_ H2]]; split; auto).
  apply (threads_reach strategy (strat_start O) comp g attr _ an_J an_R) with (x := x); auto.
  - intros. eapply an_run_reach; eauto.
  - apply H.
  - apply threads_run; auto; [apply H|]. eauto.
Qed.

(** the result is valid again *)
Theorem run_valid initial s r x labels s' r' : valid_request g p initial -> an_J x s ->
  azp_fit expf order O fuel g attr p initial s r = Ok ((labels, s'), r') -> valid_request g p (Some labels).
Proof.
  intros Hv [c ->] H.
  pose proof (sa_azp_post O attr g expf order True fuel p initial (SSa c t (fst x) term (Nat.leb term (fst x)) (snd x)) r
    Hex Hsym Hattr Hord Hv (or_introl I)) as Hp.
  rewrite H in Hp. cbn [post] in Hp. destruct Hp as [_ Hd]; [repeat eexists|].
  destruct (azp_delivers_ok _ _ _ _ Hd) as [H1 [H2 _]]. split; [eapply valid_request_pos; eauto|]. auto.
Qed.
End AnnealRun.

(** ** a fit without initial labels, with the state of the generator afterwards *)
Section FreshReach.
Variable order : list edge -> list edge.
Variable g : graph.
Hypothesis Hord : forall l, Permutation (order l) l.
Variable S : Type.
Variable start : S -> list Z -> list (list Q) -> list nat -> out S.
Variable component : graph -> list Z -> list (list Q) -> S -> rng -> out (list Z * S * rng).
Variable attr : list (list Q).
Hypothesis Hcomp : forall adj labels rows s r x r', component adj labels rows s r = Ok (x, r') ->
  forall q', exists q, component adj labels rows s q = Ok (x, q').
Local Notation one := (fit_one S start component g attr).
Local Notation all := (fit_arrays S start component g attr).

Lemma gen_comps_reach h : (forall c, c < n_components g -> 1 <= h c <= length (comp_nodes g c)) ->
  forall m c acc x r', c + m <= n_components g ->
  (exists ff, (forall k, c <= k < c + m -> length (kept order g ff k) + h k = length (comp_nodes g k)) /\
     exists r, all (map (arr_of order g h ff) (seq c m)) acc r = Ok (x, r')) ->
  exists r, gen_comps order g one (map (fun k => (k, h k)) (seq c m)) (base h c) acc r = Ok (x, r').
Proof.
  intros Hb. induction m as [|m IH]; intros c acc x r' Hcm.
  - cbn [seq map gen_comps]. intros [ff [_ [r H]]]. exists r. exact H.
  - cbn [seq map gen_comps]. rewrite <- (base_S g). intros [ff [Hff [r H]]]. cbn [fit_arrays] in H.
    assert (Hin : forall q, exists q0, initial_for_comp order g c (h c) (base h c) q0 = Ok (arr_of order g h ff c, q)).
    { intros q. pose proof (Hff c ltac:(lia)) as Hfc. pose proof (tree_length order g Hord c ltac:(lia)) as Ht. pose proof (Hb c ltac:(lia)) as Hbc.
      unfold initial_for_comp. fold (comp_graph g c). unfold randomly_divide_connected_graph.
      rewrite comp_graph_n. destruct (Nat.eqb_spec (h c) 0); [lia|]. destruct (Nat.ltb_spec (length (comp_nodes g c)) (h c)); [lia|].
      destruct (cut_links_reach (length (comp_nodes g c)) (ff c) (h c - 1) (tree order g c) q) as [q0 E0].
      - apply tree_forest; auto.
      - unfold kept in Hfc. lia.
      - exists q0. fold (tree order g c). rewrite E0. cbn [bind]. reflexivity. }
    destruct (one (YArr (arr_of order g h ff c)) acc r) as [[acc1 r2]|e|] eqn:E2; cbn [bind] in H; try discriminate.
    destruct (IH (Datatypes.S c) acc1 x r' ltac:(lia)) as [q2 Hq2].
    { exists ff. split; [intros k Hk; apply Hff; lia|]. eauto. }
    destruct (fit_one_local g S start component attr Hcomp _ _ _ _ _ E2 q2) as [q1 Hq1]. destruct (Hin q1) as [q Hq].
    exists q. rewrite Hq. cbn [bind]. rewrite Hq1. cbn [bind]. exact Hq2.
Qed.

Theorem fit_none_reach p : p <> 1%Z -> 0 < gn g -> (Z.of_nat (n_components g) <= p <= Z.of_nat (gn g))%Z ->
  forall l0 s r x r', tree_start g (forest_of order g) (Z.to_nat p) l0 ->
  fit S start component order g attr p (Some l0) s r = Ok (x, r') ->
  exists q, fit S start component order g attr p None s q = Ok (x, r').
Proof.
  intros Hp1 Hg Hp l0 s r x r' Hts H. apply tree_start_iff in Hts; [|auto]. destruct Hts as [h [ff [Hf [Hbase ->]]]].
  assert (Hsome : fit S start component order g attr p (Some (start_of order g h ff)) s r =
    all (map (arr_of order g h ff) (seq 0 (n_components g))) (minus_ones (gn g), s) r).
  { unfold fit.
    assert (Hfe : assert_feasible (start_of order g h ff) g (Some p) = Ok tt).
    { assert (Hts : tree_start g (forest_of order g) (Z.to_nat p) (start_of order g h ff)) by (rewrite <- Hbase; apply start_of_tree; auto).
      destruct (tree_start_feasible g (forest_of order g) (Z.to_nat p) (start_of order g h ff) (forest_spans order g Hord) Hts) as [Hfeas _].
      destruct Hfeas as [Hl [Hn Hc]]. apply assert_feasible_Ok; [lia|]. split; [lia|exact Hc]. }
    rewrite Hfe. cbn [bind]. rewrite (proj2 (Nat.eqb_eq _ _) (start_of_length order g h ff)). unfold separate_components.
    rewrite (map_ext _ _ (fun c => arr_separate order g h ff c)). reflexivity. }
  rewrite Hsome in H. cbn [fit]. unfold generate_initial_sol.
  destruct (Nat.eqb_spec (gn g) 0); [lia|]. destruct (Z.ltb_spec (Z.of_nat (gn g)) p); [lia|].
  destruct (Z.eqb_spec p 1); [lia|]. destruct (Z.ltb_spec p (Z.of_nat (n_components g))); [lia|].
  assert (Hb : forall c, c < n_components g -> 1 <= h c <= length (comp_nodes g c)) by (intros c Hc; eapply fits_bounds; eauto).
  destruct (gen_comps_reach h Hb (n_components g) 0 (minus_ones (gn g), s) x r' (le_n _)) as [q Hq].
  { exists ff. split; [intros k Hk; apply Hf; lia|]. eauto. }
  destruct (distribute_reach (component_labels g) (n_components g) (Z.to_nat p) h q) as [q0 E].
  { apply component_labels_numbered. } { apply n_components_pos; auto. }
  { intros k Hk. rewrite count_occ_comp_labels. eapply fits_bounds; eauto. } { exact Hbase. }
  exists q0. rewrite E. cbn [bind]. exact Hq.
Qed.
End FreshReach.

(** ** the loops of the annealing class *)
Lemma same_solution_eq l l' : length l = length l' -> (same_solution l l' = true <-> l = l').
Proof.
  unfold same_solution. revert l'. induction l as [|a l IH]; intros [|b l'] H; cbn in H; try discriminate; [cbn; tauto|].
  cbn [combine forallb fst snd]. rewrite andb_true_iff, Z.eqb_eq, IH by lia. split; [intros [-> ->]; auto|intros E; injection E; auto].
Qed.

Section AnnealLoops.
Variable O : objfun.
Variable attr : list (list Q).
Hypothesis Hex : exact_on O attr.
Variable g : graph.
Hypothesis Hsym : symmetric g.
Hypothesis Hattr : length attr = gn g.
Variable expf : Q -> Q.
Hypothesis Hexpf : forall x y, (x == y -> expf x == expf y)%Q.
Variable azp_fuel : nat.
Variable term : nat.
Hypothesis Hterm : 1 <= term.
Variable order : list edge -> list edge.
Hypothesis Hord : forall l, Permutation (order l) l.
Variable p : Z.
Notation valid := (valid_request g p).
Notation azp := (azp_fit expf order O azp_fuel g attr p).
Notation stepb := (sa_step_b expf order O azp_fuel g attr p).
Notation outer := (sa_outer expf order O azp_fuel g attr p).
Notation T := (forest_of order g).
Notation J t := (an_J t term).
Notation runs t := (anneal_runs O attr g (acceptance expf t) term).

Lemma azp_length t initial x s r labels s' r' : valid initial -> J t x s ->
  azp initial s r = Ok ((labels, s'), r') -> length labels = gn g.
Proof. intros Hv HJ H. destruct (run_valid O attr Hex g Hsym Hattr expf azp_fuel t term order Hord p _ _ _ _ _ _ _ Hv HJ H) as [_ [[Hl _] _]]. exact Hl. Qed.

Lemma enough_spec (left : option nat) u : match left with Some 0 => true | _ => false end || Nat.leb term u = true <-> left = Some 0 \/ term <= u.
Proof.
  rewrite orb_true_iff, Nat.leb_le. split; (intros [H|H]; [left|right; auto]); destruct left as [[|]|]; auto; discriminate.
Qed.
Lemma enough_no (left : option nat) u : match left with Some 0 => true | _ => false end || Nat.leb term u = false <-> left <> Some 0 /\ u < term.
Proof.
  rewrite orb_false_iff, Nat.leb_gt. split; (intros [H1 H2]; split; auto); destruct left as [[|]|]; congruence.
Qed.

Lemma stepb_sound t : forall fuel left u mv l s r sol s' r', valid (Some l) -> J t (u, mv) s ->
  stepb fuel left (Some l) s r = Ok (sol, s', r') ->
  exists l' m u', sol = Some l' /\ valid (Some l') /\ runs t false left u l m l' /\ J t (u', mv || Nat.ltb 0 m) s'.
Proof.
  induction fuel as [|fuel IH]; intros left u mv l s r sol s' r' Hv HJ H; pose proof HJ as [c Es]; cbn [sa_step_b] in H;
    replace (sa_is_reached s) with (Nat.leb term u) in H by (rewrite Es; reflexivity).
  - destruct (_ || _) eqn:Een in H; [|discriminate]. injection H as <- <- <-. apply enough_spec in Een.
    exists l, 0, u. rewrite orb_false_r. split; [auto|]. split; [auto|]. split; [constructor; auto|auto].
  - destruct (_ || _) eqn:Een in H.
    + injection H as <- <- <-. apply enough_spec in Een.
      exists l, 0, u. rewrite orb_false_r. split; [auto|]. split; [auto|]. split; [constructor; auto|auto].
    + apply enough_no in Een. destruct Een as [Hleft Hu].
      destruct (azp (Some l) s r) as [[[labels s1] r1]|e|] eqn:Ea; cbn [bind] in H; try discriminate.
      pose proof (run_valid O attr Hex g Hsym Hattr expf azp_fuel t term order Hord p _ _ _ _ _ _ _ Hv HJ Ea) as Hv1.
      destruct (run_sound O attr Hex g Hsym Hattr expf Hexpf azp_fuel t term order p _ _ _ _ _ _ _ Hv HJ Ea) as [u1 [m1 [Hr HJ1]]].
      cbn [fst snd] in HJ1. assert (Hlen : length l = length labels) by (destruct Hv as [_ [[E1 _] _]], Hv1 as [_ [[E2 _] _]]; lia).
      destruct (same_solution l labels) eqn:Esame.
      * injection H as <- <- <-. apply same_solution_eq in Esame; auto. subst labels.
        exists l, m1, (u1 + u). split; [auto|]. split; [auto|]. split; [eapply runs_same; eauto|auto].
      * rewrite Nat.add_comm in HJ1. destruct (IH _ _ _ _ _ _ _ _ _ Hv1 HJ1 H) as [l' [m [u' [E [Hv' [Hruns HJ']]]]]].
        exists l', (m1 + m), u'. split; [auto|]. split; [auto|]. split.
        -- eapply runs_more; eauto. right. intros ->. rewrite same_solution_refl in Esame. discriminate.
        -- rewrite <- orb_moves. exact HJ'.
Qed.

Lemma stepb_fresh_sound t fuel left u mv s r l' s' r' : valid None -> J t (u, mv) s ->
  stepb fuel left None s r = Ok (Some l', s', r') ->
  exists l0 m u', tree_start g T (Z.to_nat p) l0 /\ valid (Some l') /\ runs t true left u l0 m l' /\ J t (u', mv || Nat.ltb 0 m) s'.
Proof.
  intros Hv HJ H. pose proof HJ as [c Es]. destruct fuel as [|fuel]; cbn [sa_step_b] in H;
    replace (sa_is_reached s) with (Nat.leb term u) in H by (rewrite Es; reflexivity).
  - destruct (_ || _) in H; discriminate.
  - destruct (_ || _) eqn:Een in H; [discriminate|]. apply enough_no in Een. destruct Een as [Hleft Hu].
    destruct (azp None s r) as [[[labels s1] r1]|e|] eqn:Ea; cbn [bind] in H; try discriminate.
    pose proof (run_valid O attr Hex g Hsym Hattr expf azp_fuel t term order Hord p _ _ _ _ _ _ _ Hv HJ Ea) as Hv1.
    pose proof Hv as [Hp1 [Hg [k [Hk Hp]]]]. apply n_islands_iff in Hk. subst k.
    assert (Hcl : forall adj labels (rows : list (list Q)) s r x r',
      azp_component strategy (strat_call expf) strat_val adj azp_fuel labels s r = Ok (x, r') ->
      forall q', exists q, azp_component strategy (strat_call expf) strat_val adj azp_fuel labels s q = Ok (x, q')).
    { intros adj lc rows s2 r2 x r2'. apply component_local. intros s3 a3 k0 l3 r3 b s3' r3'. apply strat_call_local. }
    destruct (proj1 (fit_none_answers order g Hord strategy (strat_start O) _ attr Hcl p Hp1 Hg Hp s (Ok (labels, s1)))) as [l0 [Hts [q Hq]]].
    { exists r. unfold azp_fit in Ea. rewrite Ea. reflexivity. }
    destruct (tree_start_feasible g T (Z.to_nat p) l0 (forest_spans order g Hord) Hts) as [Hfe Hexa].
    assert (Hv0 : valid (Some l0)).
    { split; [lia|]. split; [auto|]. intros Hin. apply Hexa in Hin. lia. }
    fold (azp (Some l0) s q) in Hq. destruct (azp (Some l0) s q) as [[[labels2 s2] r2]|e|] eqn:Ea2; try discriminate. injection Hq as -> ->.
    destruct (run_sound O attr Hex g Hsym Hattr expf Hexpf azp_fuel t term order p _ _ _ _ _ _ _ Hv0 HJ Ea2) as [u1 [m1 [Hr HJ1]]].
    cbn [fst snd] in HJ1. rewrite Nat.add_comm in HJ1.
    destruct (stepb_sound t _ _ _ _ _ _ _ _ _ _ Hv1 HJ1 H) as [l2 [m [u' [E [Hv' [Hruns HJ']]]]]]. injection E as <-.
    exists l0, (m1 + m), u'. split; [auto|]. split; [auto|]. split; [eapply runs_more; eauto|]. rewrite <- orb_moves. exact HJ'.
Qed.

(** the state of the strategy object between two temperatures *)
Definition an_K (t : Q) (mv : bool) (s : strategy) : Prop := exists c n re, s = SSa c t n term re mv.
Lemma K_reset t mv s : an_K t mv s -> J t (0, mv) (sa_reset s).
Proof.
  intros [c [n [re ->]]]. exists c. cbn [sa_reset fst snd]. f_equal. symmetry. apply Nat.leb_gt. lia.
Qed.
Lemma K_next t x mv s q : J t (x, mv) s -> sa_is_moved (sa_set_temperature q s) = mv /\
  an_K q false (sa_clear_moved (sa_set_temperature q s)) /\ an_K q mv (sa_set_temperature q s).
Proof.
  intros [c ->]. cbn. split; [auto|]. split; repeat eexists.
Qed.

Variable a : sa_args.
Variable cooling : Q.
Notation result := (annealing O attr g expf cooling (sa_maxit a) term (sa_nonmoving_steps a) (sa_reps a)).

Lemma outer_sound : forall fuel idle t mv l s seen r sol mem r', valid (Some l) -> an_K t mv s ->
  outer fuel a cooling idle t (Some l) s seen r = Ok (sol, mem, r') ->
  exists l', sol = Some l' /\ result false idle t mv l seen l' (sa_move_made mem) (sa_visited mem).
Proof.
  induction fuel as [|fuel IH]; intros idle t mv l s seen r sol mem r' Hv HK H; cbn [sa_outer] in H;
    destruct (Nat.ltb_spec idle (sa_nonmoving_steps a)) as [Hlt|Hge]; try discriminate.
  - injection H as <- <- <-. exists l. split; [auto|]. destruct HK as [c [n [re ->]]]. cbn. apply annealing_idle. lia.
  - destruct (stepb fuel (sa_maxit a) (Some l) (sa_reset s) r) as [[[sol1 s1] r1]|e|] eqn:Eb; cbn [bind] in H; try discriminate.
    destruct (stepb_sound t _ _ _ _ _ _ _ _ _ _ Hv (K_reset _ _ _ HK) Eb) as [l1 [m [u' [-> [Hv1 [Hruns HJ1]]]]]].
    rewrite visits_count in H. destruct (Nat.leb_spec (sa_reps a) (count_occ (list_eq_dec Z.eq_dec) seen l1)) as [Hle|Hgt].
    + injection H as <- <- <-. exists l1. split; [auto|]. destruct HJ1 as [c ->]. cbn. eapply annealing_seen; eauto.
    + destruct (K_next t u' _ s1 (t * cooling)%Q HJ1) as [Em [K1 K2]]. rewrite Em in H. destruct (mv || Nat.ltb 0 m) eqn:Emv.
      * destruct (IH _ _ _ _ _ _ _ _ _ _ Hv1 K1 H) as [l' [E Hres]]. exists l'. split; [auto|].
        eapply annealing_next; eauto. rewrite Emv. exact Hres.
      * destruct (IH _ _ _ _ _ _ _ _ _ _ Hv1 K2 H) as [l' [E Hres]]. exists l'. split; [auto|].
        eapply annealing_next; eauto. rewrite Emv. exact Hres.
  - injection H as <- <- <-. exists l. split; [auto|]. destruct HK as [c [n [re ->]]]. cbn. apply annealing_idle. lia.
Qed.

Lemma outer_fresh_sound fuel idle t mv s seen r l' mem r' : valid None -> an_K t mv s ->
  outer fuel a cooling idle t None s seen r = Ok (Some l', mem, r') ->
  exists l0, tree_start g T (Z.to_nat p) l0 /\ result true idle t mv l0 seen l' (sa_move_made mem) (sa_visited mem).
Proof.
  intros Hv HK H. destruct fuel as [|fuel]; cbn [sa_outer] in H;
    destruct (Nat.ltb_spec idle (sa_nonmoving_steps a)) as [Hlt|Hge]; try discriminate.
  destruct (stepb fuel (sa_maxit a) None (sa_reset s) r) as [[[[l1|] s1] r1]|e|] eqn:Eb; cbn [bind] in H; try discriminate.
  destruct (stepb_fresh_sound t _ _ _ _ _ _ _ _ _ Hv (K_reset _ _ _ HK) Eb) as [l0 [m [u' [Hts [Hv1 [Hruns HJ1]]]]]].
  exists l0. split; [auto|].
  rewrite visits_count in H. destruct (Nat.leb_spec (sa_reps a) (count_occ (list_eq_dec Z.eq_dec) seen l1)) as [Hle|Hgt].
  - injection H as <- <- <-. destruct HJ1 as [c ->]. cbn. eapply annealing_seen; eauto.
  - destruct (K_next t u' _ s1 (t * cooling)%Q HJ1) as [Em [K1 K2]]. rewrite Em in H. destruct (mv || Nat.ltb 0 m) eqn:Emv.
    + destruct (outer_sound _ _ _ _ _ _ _ _ _ _ _ Hv1 K1 H) as [l2 [E Hres]]. injection E as <-.
      eapply annealing_next; eauto. rewrite Emv. exact Hres.
    + destruct (outer_sound _ _ _ _ _ _ _ _ _ _ _ Hv1 K2 H) as [l2 [E Hres]]. injection E as <-.
      eapply annealing_next; eauto. rewrite Emv. exact Hres.
Qed.

Hypothesis Hfuel : gn g ^ gn g + gn g + 1 < azp_fuel.

Lemma run_reach_valid t l s x labels u m : valid (Some l) -> J t x s -> anneal_run O attr g (acceptance expf t) l u m labels ->
  valid (Some labels) /\ exists s', J t (u + fst x, snd x || Nat.ltb 0 m) s' /\ forall r', exists r, azp (Some l) s r = Ok ((labels, s'), r').
Proof.
  intros Hv HJ Hr. destruct (run_reach O attr Hex g Hsym Hattr expf Hexpf azp_fuel t term order p l s x labels u m Hfuel Hv HJ Hr) as [s' [HJ' H]].
  destruct (H (fun _ => 0)) as [r Er]. split; [|eauto].
  apply (run_valid O attr Hex g Hsym Hattr expf azp_fuel t term order Hord p _ _ _ _ _ _ _ Hv HJ Er).
Qed.

Lemma stepb_reach t left u l m l' : runs t false left u l m l' -> forall mv s, valid (Some l) -> J t (u, mv) s ->
  valid (Some l') /\ exists N u' s', J t (u', mv || Nat.ltb 0 m) s' /\
    forall fuel, N <= fuel -> forall r', exists r, stepb fuel left (Some l) s r = Ok (Some l', s', r').
Proof.
  intros H. remember false as fresh eqn:Efr. revert Efr.
  induction H as [left u l Hend|left u l u1 m Hleft Hu Hr|fresh left u l u1 m1 l1 m2 l2 Hleft Hu Hr Hne _ IH]; intros Efr mv s Hv HJ;
    pose proof HJ as [c Es]; assert (Ere : sa_is_reached s = Nat.leb term u) by (rewrite Es; reflexivity).
  - split; [auto|]. exists 0, u, s. rewrite orb_false_r. split; [auto|]. intros fuel _ r'. exists r'.
    apply enough_spec in Hend. destruct fuel; cbn [sa_step_b]; rewrite Ere, Hend; reflexivity.
  - destruct (run_reach_valid t l s (u, mv) l u1 m Hv HJ Hr) as [Hv1 [s' [HJ' Hrun]]]. cbn [fst snd] in HJ'.
    split; [auto|]. exists 1, (u1 + u), s'. split; [auto|]. intros fuel Hf r'. destruct fuel as [|fuel]; [lia|].
    destruct (Hrun r') as [r Er]. exists r. cbn [sa_step_b]. rewrite Ere, (proj2 (enough_no left u) (conj Hleft Hu)), Er. cbn [bind].
    rewrite same_solution_refl. reflexivity.
  - subst fresh. destruct Hne as [Hne|Hne]; [discriminate|].
    destruct (run_reach_valid t l s (u, mv) l1 u1 m1 Hv HJ Hr) as [Hv1 [s1 [HJ1 Hrun]]]. cbn [fst snd] in HJ1. rewrite Nat.add_comm in HJ1.
    destruct (IH eq_refl _ _ Hv1 HJ1) as [Hv2 [N [u' [s' [HJ' Hrest]]]]]. split; [auto|].
    exists (S N), u', s'. split; [rewrite <- orb_moves; exact HJ'|]. intros fuel Hf r'. destruct fuel as [|fuel]; [lia|].
    destruct (Hrest fuel ltac:(lia) r') as [r1 E1]. destruct (Hrun r1) as [r Er]. exists r. cbn [sa_step_b].
    rewrite Ere, (proj2 (enough_no left u) (conj Hleft Hu)), Er. cbn [bind].
    destruct (same_solution l l1) eqn:Esame; [|exact E1]. apply same_solution_eq in Esame; [congruence|].
    destruct Hv as [_ [[E2 _] _]], Hv1 as [_ [[E3 _] _]]. lia.
Qed.

Lemma stepb_fresh_reach t left u l0 m l' : runs t true left u l0 m l' -> forall mv s, valid None -> tree_start g T (Z.to_nat p) l0 -> J t (u, mv) s ->
  valid (Some l') /\ exists N u' s', J t (u', mv || Nat.ltb 0 m) s' /\
    forall fuel, N <= fuel -> forall r', exists r, stepb fuel left None s r = Ok (Some l', s', r').
Proof.
  intros H mv s Hv Hts HJ. inversion H as [| |fresh left' u0 l u1 m1 l1 m2 l2 Hleft Hu Hr Hne Hrest]; subst.
  pose proof Hv as [Hp1 [Hg [k [Hk Hp]]]]. apply n_islands_iff in Hk. subst k.
  destruct (tree_start_feasible g T (Z.to_nat p) l0 (forest_spans order g Hord) Hts) as [Hfe Hexa].
  assert (Hv0 : valid (Some l0)).
  { split; [lia|]. split; [auto|]. intros Hin. apply Hexa in Hin. lia. }
  destruct (run_reach_valid t l0 s (u, mv) l1 u1 m1 Hv0 HJ Hr) as [Hv1 [s1 [HJ1 Hrun]]]. cbn [fst snd] in HJ1. rewrite Nat.add_comm in HJ1.
  destruct (stepb_reach t _ _ _ _ _ Hrest _ _ Hv1 HJ1) as [Hv2 [N [u' [s' [HJ' Hstep]]]]]. split; [auto|].
  exists (S N), u', s'. split; [rewrite <- orb_moves; exact HJ'|]. intros fuel Hf r'. destruct fuel as [|fuel]; [lia|].
  destruct (Hstep fuel ltac:(lia) r') as [r1 E1]. destruct (Hrun r1) as [r Er].
  assert (Hcl : forall adj labels (rows : list (list Q)) s r x r',
    azp_component strategy (strat_call expf) strat_val adj azp_fuel labels s r = Ok (x, r') ->
    forall q', exists q, azp_component strategy (strat_call expf) strat_val adj azp_fuel labels s q = Ok (x, q')).
  { intros adj lc rows s2 r2 x r2'. apply component_local. intros s3 a3 k0 l3 r3 b s3' r3'. apply strat_call_local. }
  destruct (fit_none_reach order g Hord strategy (strat_start O) _ attr Hcl p Hp1 Hg Hp l0 s r _ r1 Hts Er) as [q Eq].
  fold (azp None s q) in Eq.
  pose proof HJ as [c Es]. assert (Ere : sa_is_reached s = Nat.leb term u) by (rewrite Es; reflexivity).
  exists q. cbn [sa_step_b]. rewrite Ere, (proj2 (enough_no left u) (conj Hleft Hu)), Eq. cbn [bind]. exact E1.
Qed.

(** with or without initial labels *)
Definition begins (fresh : bool) (l : list Z) (initial : option (list Z)) : Prop :=
  if fresh then initial = None /\ valid None /\ tree_start g T (Z.to_nat p) l else initial = Some l /\ valid (Some l).

Lemma stepb_any_reach t fresh left u l m l' initial mv s : runs t fresh left u l m l' -> begins fresh l initial -> J t (u, mv) s ->
  valid (Some l') /\ exists N u' s', J t (u', mv || Nat.ltb 0 m) s' /\
    forall fuel, N <= fuel -> forall r', exists r, stepb fuel left initial s r = Ok (Some l', s', r').
Proof.
  destruct fresh; cbn [begins].
  - intros H [-> [Hv Hts]] HJ. eapply stepb_fresh_reach; eauto.
  - intros H [-> Hv] HJ. eapply stepb_reach; eauto.
Qed.

Lemma outer_reach fresh idle t mv l seen l' mv' seen' : result fresh idle t mv l seen l' mv' seen' -> forall initial s,
  begins fresh l initial -> an_K t mv s ->
  exists N, forall fuel, N <= fuel -> forall r', exists r, outer fuel a cooling idle t initial s seen r = Ok (Some l', mkSaMemory mv' seen', r').
Proof.
  induction 1 as [idle t mv l seen Hge|fresh idle t mv l seen m l' Hlt Hruns Hseen
    |fresh idle t mv l seen m l1 l' mv' seen' Hlt Hruns Hseen _ IH]; intros initial s Hb HK.
  - destruct Hb as [-> Hv]. exists 0. intros fuel _ r'. exists r'. destruct HK as [c [n [re ->]]].
    destruct fuel; cbn [sa_outer]; (destruct (Nat.ltb_spec idle (sa_nonmoving_steps a)); [lia|]); reflexivity.
  - destruct (stepb_any_reach t _ _ _ _ _ _ initial mv (sa_reset s) Hruns Hb (K_reset _ _ _ HK)) as [Hv1 [N [u' [s1 [HJ1 Hrun]]]]].
    exists (S N). intros fuel Hf r'. destruct fuel as [|fuel]; [lia|]. destruct (Hrun fuel ltac:(lia) r') as [r Er].
    exists r. cbn [sa_outer]. destruct (Nat.ltb_spec idle (sa_nonmoving_steps a)); [|lia]. rewrite Er. cbn [bind].
    rewrite visits_count. destruct (Nat.leb_spec (sa_reps a) (count_occ (list_eq_dec Z.eq_dec) seen l')); [|lia].
    destruct HJ1 as [c ->]. reflexivity.
  - destruct (stepb_any_reach t _ _ _ _ _ _ initial mv (sa_reset s) Hruns Hb (K_reset _ _ _ HK)) as [Hv1 [N [u' [s1 [HJ1 Hrun]]]]].
    destruct (K_next t u' _ s1 (t * cooling)%Q HJ1) as [Em [K1 K2]].
    set (s2 := if mv || Nat.ltb 0 m then sa_clear_moved (sa_set_temperature (t * cooling)%Q s1) else sa_set_temperature (t * cooling)%Q s1).
    assert (HK2 : an_K (t * cooling)%Q false s2).
    { unfold s2. destruct (mv || Nat.ltb 0 m); auto. }
    destruct (IH (Some l1) s2 (conj eq_refl Hv1) HK2) as [N2 Hrest].
    exists (S (N + N2)). intros fuel Hf r'. destruct fuel as [|fuel]; [lia|]. destruct (Hrest fuel ltac:(lia) r') as [r1 E1].
    destruct (Hrun fuel ltac:(lia) r1) as [r Er].
    exists r. cbn [sa_outer]. destruct (Nat.ltb_spec idle (sa_nonmoving_steps a)); [|lia]. rewrite Er. cbn [bind].
    rewrite visits_count. destruct (Nat.leb_spec (sa_reps a) (count_occ (list_eq_dec Z.eq_dec) seen l1)); [lia|].
    rewrite Em. unfold s2 in E1. destruct (mv || Nat.ltb 0 m); exact E1.
Qed.
End AnnealLoops.
