(** Property theorems C08, C18-C23, C64: AZP.fit. *)
From Verif Require Import Base Spec M_Graph P_Graph M_Util P_Base P_Util P_Forest P_Init P_Initial
  M_Objective P_Sum P_Objective M_Azp P_Azp P_Strategy P_Fit P_AzpFit Examples Props_Objective.

(** AZP.fit with an arbitrary (user-defined) allow-move strategy: azp.py:58-110 *)
Notation azp_fit_with St start call objv order fuel :=
  (fit St start (fun adj labels _ s r => azp_component St call objv adj fuel labels s r) order).

(** Only the shape of given initial labels matters below. *)
Definition shape_ok (g : graph) (initial : option (list Z)) : Prop :=
  match initial with Some l => length l = gn g /\ ~ In (-1)%Z l | None => True end.

Lemma valid_good g p initial : valid_request g p initial -> good_input g p initial.
Proof.
  destruct initial as [l|]; cbn.
  - tauto.
  - intros [H1 [H2 [c [Hc Hb]]]]. apply n_islands_iff in Hc. subst c. auto.
Qed.

Lemma started_start g p initial l0 : started_from g p initial l0 -> start_labels g p initial l0.
Proof. intros [Hf [_ H]]. destruct initial; cbn; auto. Qed.

(** a request that does not raise at once is valid *)
Lemma fit_returns_valid S start component order g attr p initial s r res :
  shape_ok g initial -> fit S start component order g attr p initial s r = Ok res -> valid_request g p initial.
Proof.
  intros Hsh H. unfold fit in H. destruct initial as [l|].
  - destruct Hsh as [Hl Hm]. destruct (assert_feasible l g (Some p)) as [[]|e|] eqn:E; try discriminate.
    apply assert_feasible_Ok in E; [|lia]. destruct E as [En Hall]. cbn. split; [lia|]. split; [|auto].
    split; [auto|]. split; [lia|auto].
  - unfold generate_initial_sol in H. destruct (Nat.eqb_spec (gn g) 0); [discriminate|].
    destruct (Z.ltb_spec (Z.of_nat (gn g)) p); [discriminate|].
    destruct (Z.eqb_spec p 1); [discriminate|].
    destruct (Z.ltb_spec p (Z.of_nat (n_components g))); [discriminate|].
    cbn. split; [auto|]. split; [lia|]. exists (n_components g). split; [apply n_islands_iff; auto|lia].
Qed.

(** what every strategy leaves intact *)
Lemma any_strategy_post St start call objv order fuel g attr p initial s r E :
  symmetric g -> (forall l, Permutation (order l) l) -> valid_request g p initial ->
  (forall s l rows idx, post E True (start s l rows idx) (fun _ => True)) ->
  (forall s a z l rg, post E True (call s a z l rg) (fun _ => True)) ->
  post E True (azp_fit_with St start call objv order fuel g attr p initial s r)
    (fun '((labels, _), _) => exists l0, started_from g p initial l0 /\ length labels = gn g /\
       forall c, c < n_components g ->
         wf (comp_graph g c) (comp_part g labels c) /\ same_labels (comp_part g labels c) (comp_part g l0 c)).
Proof.
  intros Hsym Hord Hv Hstart Hcall.
  eapply (post_weaken E E True True); [auto|auto| |
    apply (fit_post St start _ order g attr E True (fun _ => True)
             (fun c l l' => wf (comp_graph g c) l' /\ same_labels l' l))]; auto.
  - intros [[labels s'] r'] _ [_ H]. exact H.
  - intros c l s0 rg Hc Hwf _. unfold run_component. eapply post_bind; [apply Hstart|].
    intros s1 _ _. eapply (post_weaken E E True True); [auto|auto| |
      apply (azp_component_post St call objv (comp_graph g c) (comp_symmetric g c Hsym) E True
               (fun _ _ => True) (fun _ _ _ => True) (fun _ _ _ _ => True) (fun _ _ _ => True))
        with (m := fun _ => 0)]; auto.
    + intros [[l' s2] rg'] _ [Hwf' [Hs' _]]. split; [auto|]. split; [destruct Hwf, Hwf'; lia|auto].
    + intros v s2 a z l2 rg2 _ _ _. eapply (post_weaken E E True True); [auto|auto| |apply Hcall].
      intros [[b s3] rg3] _ _. destruct b; auto.
    + eapply comp_part_nonempty; eauto.
  - apply valid_good; auto.
Qed.

(** ** C18: the result is feasible *)
(** For every strategy object and objective, every graph and start, every random history: when
    fit returns, every area is labelled and there are exactly n_regions contiguous regions. *)
Theorem C18_azp_feasible St start call objv order fuel g attr p initial s r labels s' r' :
  symmetric g -> (forall l, Permutation (order l) l) -> shape_ok g initial ->
  azp_fit_with St start call objv order fuel g attr p initial s r = Ok ((labels, s'), r') ->
  feasible g labels (Z.to_nat p) /\ (0 <= p)%Z.
Proof.
  intros Hsym Hord Hsh H. pose proof (fit_returns_valid _ _ _ _ _ _ _ _ _ _ _ Hsh H) as Hv.
  pose proof (any_strategy_post St start call objv order fuel g attr p initial s r anyexn Hsym Hord Hv) as Hp.
  rewrite H in Hp. destruct Hp as [l0 [[[Hl0 [Hn0 Hall0]] _] [Hlen Hparts]]].
  { intros. destruct (start _ _ _ _); cbn; unfold anyexn; auto. }
  { intros. destruct (call _ _ _ _ _); cbn; unfold anyexn; auto. }
  split.
  - split; [auto|]. split.
    + rewrite <- Hn0. apply same_labels_n. apply (assembled_same_labels g); auto. split; auto.
    + apply (assembled_wf g l0 labels); auto. split; auto.
  - destruct initial; cbn in Hv; [lia|]. destruct Hv as [_ [_ [c [_ Hb]]]]. lia.
Qed.

(** ** C23: region names and islands are kept *)
Theorem C23_azp_labels_islands St start call objv order fuel g attr p l s r labels s' r' :
  symmetric g -> (forall l, Permutation (order l) l) -> length l = gn g -> ~ In (-1)%Z l ->
  azp_fit_with St start call objv order fuel g attr p (Some l) s r = Ok ((labels, s'), r') ->
  (forall z, In z labels <-> In z l) /\
  (forall a b, nth_error labels a = nth_error l b -> a < gn g -> same_island g a b).
Proof.
  intros Hsym Hord Hl Hm H.
  assert (Hv : valid_request g p (Some l)) by (eapply fit_returns_valid; [|exact H]; split; auto).
  pose proof (any_strategy_post St start call objv order fuel g attr p (Some l) s r anyexn Hsym Hord Hv) as Hp.
  rewrite H in Hp. destruct Hp as [l0 [[[Hl0 [Hn0 Hall0]] [_ E0]] [Hlen Hparts]]].
  { intros. destruct (start _ _ _ _); cbn; unfold anyexn; auto. }
  { intros. destruct (call _ _ _ _ _); cbn; unfold anyexn; auto. }
  subst l0. split; [apply (assembled_same_labels g); auto; split; auto|].
  intros a b E Ha. destruct (nth_error labels a) as [z|] eqn:Ez; [|apply nth_error_None in Ez; lia].
  destruct (assembled_comp g l labels (conj Hl Hall0) Hlen Hparts a z Ez) as [b' [Eb' [Hc Hb']]].
  assert (Hb : b < gn g) by (symmetry in E; apply nth_error_lt in E; lia).
  apply comp_label_eq; auto. rewrite <- Hc. apply (wf_region_comp g l z); auto.
  - apply Hall0. eapply nth_error_In; eauto.
  - unfold region. auto.
Qed.

(** ** C21: exceptions *)
(** A strategy that never raises: fit never raises on a valid request. *)
Theorem C21_azp_no_exception St start call objv order fuel g attr p initial s r e :
  symmetric g -> (forall l, Permutation (order l) l) -> valid_request g p initial ->
  (forall s l rows idx e, start s l rows idx <> Raise e) ->
  (forall s a z l rg e, call s a z l rg <> Raise e) ->
  azp_fit_with St start call objv order fuel g attr p initial s r <> Raise e.
Proof.
  intros Hsym Hord Hv Hs Hc H.
  pose proof (any_strategy_post St start call objv order fuel g attr p initial s r noexn Hsym Hord Hv) as Hp.
  rewrite H in Hp. apply Hp.
  - intros s0 l rows idx. specialize (Hs s0 l rows idx). destruct (start _ _ _ _); cbn; auto. eapply Hs; eauto.
  - intros s0 a z l rg. specialize (Hc s0 a z l rg). destruct (call _ _ _ _ _); cbn; auto. eapply Hc; eauto.
Qed.

(** Requests that are not valid (apart from n_regions = 1 without initial labels, see C08) are
    answered by ValueError. *)
Theorem C21_azp_bad_request St start call objv order fuel g attr p initial s r :
  (match initial with
   | Some l => length l <= gn g /\ ~ (Z.of_nat (n_labels l) = p /\ all_contiguous g l)
   | None => p <> 1%Z /\ ~ (0 < gn g /\ exists c, n_islands g c /\ (Z.of_nat c <= p <= Z.of_nat (gn g))%Z)
   end) ->
  exists m, azp_fit_with St start call objv order fuel g attr p initial s r = Raise (ValueError m).
Proof.
  intros Hbad. unfold fit. destruct initial as [l|].
  - destruct Hbad as [Hle Hbad]. destruct (assert_feasible_total l g (Some p) Hle) as [E|[m E]]; rewrite E; cbn [bind]; [|eauto].
    exfalso. apply Hbad. apply assert_feasible_Ok; auto.
  - destruct Hbad as [Hp1 Hbad]. unfold generate_initial_sol.
    destruct (Nat.eqb_spec (gn g) 0); [eauto|]. destruct (Z.ltb_spec (Z.of_nat (gn g)) p); [eauto|].
    destruct (Z.eqb_spec p 1); [lia|]. destruct (Z.ltb_spec p (Z.of_nat (n_components g))); [eauto|].
    exfalso. apply Hbad. split; [lia|]. exists (n_components g). split; [apply n_islands_iff; auto|lia].
Qed.

(** ** C19, C20, C22: the default strategy *)
Section Default.
Variables (expf : Q -> Q) (order : list edge -> list edge) (O : objfun) (g : graph) (attr : list (list Q)).
Hypothesis Hord : forall l, Permutation (order l) l.
Hypothesis Hsym : symmetric g.
Hypothesis Hattr : length attr = gn g.
Hypothesis Hex : exact_on O attr.

(** C19: in every island the objective is not worse than at the start. *)
Theorem C19_azp_monotone fuel p initial c0 r labels s' r' :
  shape_ok g initial ->
  azp_fit expf order O fuel g attr p initial (SAzp c0) r = Ok ((labels, s'), r') ->
  exists labels0, start_labels g p initial labels0 /\
    forall v isl, v < gn g -> island g v isl ->
      exists x y, objective_at O attr isl labels0 = Ok x /\ objective_at O attr isl labels = Ok y /\ (y <= x)%Q.
Proof.
  intros Hsh H. assert (Hv : valid_request g p initial) by (eapply fit_returns_valid; eauto).
  pose proof (azp_fit_post O attr Hex g Hsym Hattr True expf order fuel p initial c0 r Hord (valid_good _ _ _ Hv) (or_introl Logic.I)) as Hp.
  rewrite H in Hp. destruct Hp as [l0 [Hst [Hlen HR]]]. exists l0. split; [apply started_start; auto|].
  intros v isl Hv1 Hi. rewrite (island_comp_nodes g v isl Hv1 Hi).
  destruct (HR (comp_label g v) (comp_label_lt g v Hv1)) as [_ [_ [[x [y Hxy]] _]]]. exists x, y. exact Hxy.
Qed.

(** C20: fit terminates and returns, whatever the random draws. *)
Theorem C20_azp_terminates : exists bound, forall fuel p initial c0 r, bound <= fuel -> valid_request g p initial ->
  exists labels s' r', azp_fit expf order O fuel g attr p initial (SAzp c0) r = Ok ((labels, s'), r').
Proof.
  exists (gn g ^ gn g + gn g + 2). intros fuel p initial c0 r Hf Hv.
  assert (Hf' : False \/ gn g ^ gn g + gn g + 1 < fuel) by (right; lia).
  pose proof (azp_fit_post O attr Hex g Hsym Hattr False expf order fuel p initial c0 r Hord (valid_good _ _ _ Hv) Hf') as Hp.
  apply post_total in Hp. destruct Hp as [[[labels s'] r'] [E _]]. eauto.
Qed.

(** C22 (partial): an island of the result either still has a legal move that leaves its objective
    unchanged, or every legal move in it makes it strictly worse.  Missing for the full property: a
    result with a strictly improving legal move is possible in the first case, see the refutation. *)
Theorem C22_azp_local_optimum_partial fuel p initial c0 r labels s' r' :
  shape_ok g initial ->
  azp_fit expf order O fuel g attr p initial (SAzp c0) r = Ok ((labels, s'), r') ->
  forall v isl, v < gn g -> island g v isl ->
    (exists a z x y, In a isl /\ legal_move g labels a z /\ objective_at O attr isl labels = Ok x /\
       objective_at O attr isl (upd labels a z) = Ok y /\ (x == y)%Q) \/
    (forall a z, In a isl -> legal_move g labels a z -> exists x y, objective_at O attr isl labels = Ok x /\
       objective_at O attr isl (upd labels a z) = Ok y /\ (x < y)%Q).
Proof.
  intros Hsh H v isl Hv1 Hi. assert (Hv : valid_request g p initial) by (eapply fit_returns_valid; eauto).
  pose proof (azp_fit_post O attr Hex g Hsym Hattr True expf order fuel p initial c0 r Hord (valid_good _ _ _ Hv) (or_introl Logic.I)) as Hp.
  rewrite H in Hp. destruct Hp as [l0 [[[Hl0 [_ Hall0]] _] [Hlen HR]]].
  rewrite (island_comp_nodes g v isl Hv1 Hi). set (c := comp_label g v).
  assert (Hwf : wf g labels).
  { apply (assembled_wf g l0 labels); auto; [split; auto|]. intros c' Hc'. destruct (HR c' Hc') as [H1 [H2 _]]. auto. }
  destruct (HR c (comp_label_lt g v Hv1)) as [_ [_ [_ Hopt]]].
  destruct Hopt as [[i [z [x [y [Hl [Ex [Ey Hxy]]]]]]]|Hrej].
  - left. assert (Hi' : i < length (comp_nodes g c)) by (destruct Hl as [Hl _]; rewrite comp_graph_n in Hl; auto).
    destruct (nth_error (comp_nodes g c) i) as [a|] eqn:Ea; [|apply nth_error_None in Ea; lia].
    exists a, z, x, y. split; [eapply nth_error_In; eauto|]. split; [eapply legal_of_comp; eauto|].
    split; [exact Ex|]. split; [|auto]. unfold objective_at, labels_at.
    change (map (lab (upd labels a z)) (comp_nodes g c)) with (comp_part g (upd labels a z) c).
    rewrite (comp_part_upd g labels c i a z Hlen Ea). exact Ey.
  - right. intros a z Ha Hl. apply In_nth_error in Ha. destruct Ha as [i Ea].
    destruct (Hrej i z) as [x [y [Ex [Ey Hxy]]]]; [eapply legal_to_comp; eauto|].
    exists x, y. split; [exact Ex|]. split; [|auto]. unfold objective_at, labels_at.
    change (map (lab (upd labels a z)) (comp_nodes g c)) with (comp_part g (upd labels a z) c).
    rewrite (comp_part_upd g labels c i a z Hlen Ea). exact Ey.
Qed.
End Default.

(** C19 for the pairwise objective, over all areas at once *)
Lemma pairwise_exact_on d attr : (forall x y, d x y == d y x)%Q -> (forall x, d x x == 0)%Q -> exact_on (pairwise d) attr.
Proof. intros H1 H2 rows _. apply pairwise_exact; auto. Qed.

Theorem C19_azp_monotone_pairwise expf order d g attr fuel p initial c0 r labels s' r' :
  (forall l, Permutation (order l) l) -> symmetric g -> length attr = gn g ->
  (forall x y, d x y == d y x)%Q -> (forall x, d x x == 0)%Q -> shape_ok g initial ->
  azp_fit expf order (pairwise d) fuel g attr p initial (SAzp c0) r = Ok ((labels, s'), r') ->
  exists labels0, start_labels g p initial labels0 /\
    (heterogeneity (fun i j => d (nth i attr []) (nth j attr [])) labels <=
     heterogeneity (fun i j => d (nth i attr []) (nth j attr [])) labels0)%Q.
Proof.
  intros Hord Hsym Hattr Hs Hz Hsh H. pose proof (pairwise_exact_on d attr Hs Hz) as Hex.
  assert (Hv : valid_request g p initial) by (eapply fit_returns_valid; eauto).
  pose proof (azp_fit_post (pairwise d) attr Hex g Hsym Hattr True expf order fuel p initial c0 r Hord (valid_good _ _ _ Hv) (or_introl Logic.I)) as Hp.
  rewrite H in Hp. destruct Hp as [l0 [Hst [Hlen HR]]]. exists l0. split; [apply started_start; auto|].
  destruct Hst as [[Hl0 [_ Hall0]] _].
  assert (Hwf : wf g labels).
  { apply (assembled_wf g l0 labels); auto; [split; auto|]. intros c' Hc'. destruct (HR c' Hc') as [H1 [H2 _]]. auto. }
  change (fun i j => d (nth i attr []) (nth j attr [])) with (dist d attr).
  rewrite (het_comps d attr g labels Hwf), (het_comps d attr g l0 (conj Hl0 Hall0)).
  apply sumQ_le. intros c Hc. apply in_seq in Hc.
  destruct (HR c ltac:(lia)) as [_ [_ [[x [y [Ex [Ey Hxy]]]] _]]].
  destruct (pairwise_call_spec d (comp_part g l0 c) (attr_c attr g c)) as [x' [Ex' Hx']].
  destruct (pairwise_call_spec d (comp_part g labels c) (attr_c attr g c)) as [y' [Ey' Hy']].
  cbn [o_call pairwise] in Ex, Ey. rewrite Ex in Ex'. rewrite Ey in Ey'. injection Ex' as <-. injection Ey' as <-.
  change (comp_part g l0 c) with (labels_at l0 (comp_nodes g c)) in Hx'.
  change (comp_part g labels c) with (labels_at labels (comp_nodes g c)) in Hy'.
  change (attr_c attr g c) with (rows_at attr (comp_nodes g c)) in *. lra.
Qed.

(** ** Examples and refutations *)
Local Notation att := (map (fun q => [q])).
Definition dum : common := mkCommon [] (pairwise manhattan) 0.
Definition expd : Q -> Q := fun _ => 0%Q.
Definition fit_ex g attr p initial r :=
  match azp_fit expd same_order (pairwise manhattan) 40 g (att attr) p initial (SAzp dum) r with
  | Ok ((labels, _), _) => Some labels
  | _ => None
  end.

Lemma path_symmetric n : symmetric (path_graph n).
Proof.
  intros u v _ _. cbn. rewrite (andb_comm (Nat.ltb u n)), (orb_comm (Nat.eqb (S u) v)). reflexivity.
Qed.
Lemma two_islands_symmetric : symmetric two_islands.
Proof.
  intros u v Hu Hv. cbn in Hu, Hv.
  do 5 (destruct u as [|u]; [do 5 (destruct v as [|v]; [reflexivity|]); lia|]). lia.
Qed.

(** C18-C21, C23 are about runs such as this one (two islands, three regions, one area moved). *)
Example C18_example :
  fit_ex two_islands [1;1;5;2;2]%Q 3%Z (Some [7;4;4;9;9]%Z) rng0 = Some [7;7;4;9;9]%Z /\
  symmetric two_islands /\ shape_ok two_islands (Some [7;4;4;9;9]%Z) /\
  valid_request two_islands 3 (Some [7;4;4;9;9]%Z).
Proof.
  assert (Hs : shape_ok two_islands (Some [7;4;4;9;9]%Z)) by (split; [reflexivity|cbn; intuition discriminate]).
  split; [vm_compute; reflexivity|]. split; [apply two_islands_symmetric|]. split; [auto|].
  destruct (azp_fit expd same_order (pairwise manhattan) 40 two_islands (att [1;1;5;2;2]%Q) 3 (Some [7;4;4;9;9]%Z) (SAzp dum) rng0) as [res|e|] eqn:E.
  - unfold azp_fit in E. exact (fit_returns_valid _ _ _ _ _ _ _ _ _ _ _ Hs E).
  - vm_compute in E. discriminate.
  - vm_compute in E. discriminate.
Qed.
Example C18_example_random_start :
  fit_ex (path_graph 4) [1;1;5;5]%Q 2%Z None rng0 = Some [0;0;1;1]%Z.
Proof. vm_compute. reflexivity. Qed.

Example C21_example_bad :
  azp_fit expd same_order (pairwise manhattan) 40 (path_graph 3) (att [1;1;5]%Q) 2 (Some [0;1;0]%Z) (SAzp dum) rng0
  = Raise (ValueError "Region is not spatially contiguous.").
Proof. vm_compute; reflexivity. Qed.

(** C22: a run that stops although moving one area strictly lowers the objective. *)
Definition draws22 : rng := fun k => match k with 0 => 2 | _ => 0 end.
Theorem C22_azp_local_optimum_refuted :
  exists (g : graph) (attr : list Q) (initial labels : list Z) (r : rng) (a : nat) (z : Z),
    symmetric g /\ length attr = gn g /\ feasible g initial 3 /\
    (forall fuel, 40 <= fuel -> exists s' r',
      azp_fit expd same_order (pairwise manhattan) fuel g (att attr) 3 (Some initial) (SAzp dum) r = Ok ((labels, s'), r')) /\
    legal_move g labels a z /\
    (heterogeneity (fun i j => manhattan (nth i (att attr) []) (nth j (att attr) [])) (upd labels a z) <
     heterogeneity (fun i j => manhattan (nth i (att attr) []) (nth j (att attr) [])) labels)%Q.
Proof.
  exists (path_graph 4), [2;1;2;2]%Q, [0;0;1;2]%Z, [0;1;1;2]%Z, draws22, 2, 2%Z.
  split; [apply path_symmetric|]. split; [reflexivity|]. split; [|split; [|split]].
  - split; [reflexivity|]. split; [reflexivity|]. apply check_regions_all. vm_compute. reflexivity.
  - intros fuel Hf. replace fuel with (40 + (fuel - 40)) by lia. generalize (fuel - 40). intros k.
    eexists _, _. vm_compute. reflexivity.
  - split; [cbn; lia|]. exists 1%Z. split; [reflexivity|]. split; [discriminate|]. split.
    + apply (contiguous_ext _ (fun x => In x [1] /\ ~ In x [])).
      * intros x. unfold region. cbn. split.
        -- intros [[<-|[]] _]. split; [reflexivity|discriminate].
        -- intros [Hx Hne]. do 4 (destruct x as [|x]; [try discriminate; try congruence; auto|]). destruct x; discriminate.
      * apply sub_connected_spec; [constructor; [intros []|constructor]|]. vm_compute. reflexivity.
    + exists 3. split; [cbn; lia|]. split; [reflexivity|]. left. reflexivity.
  - vm_compute. reflexivity.
Qed.

(** ** C08: one region without initial labels always fails *)
Theorem C08_single_region_refuted S start component order g attr s r : 0 < gn g ->
  exists m, fit S start component order g attr 1 None s r = Raise (TypeError m).
Proof.
  intros Hg. unfold fit, generate_initial_sol. destruct (Nat.eqb_spec (gn g) 0); [lia|].
  destruct (Z.ltb_spec (Z.of_nat (gn g)) 1); [lia|]. cbn. eauto.
Qed.

(** What works: passing the single region as initial labels. *)
Theorem C08_single_region_partial expf order O g attr fuel z c0 r :
  connected_graph g -> z <> (-1)%Z -> length attr = gn g -> exact_on O attr ->
  exists s' , azp_fit expf order O fuel g attr 1 (Some (repeat z (gn g))) (SAzp c0) r = Ok ((repeat z (gn g), s'), r).
Proof.
  intros Hconn Hz Hattr Hex. pose proof (proj2 (is_connected_spec g) Hconn) as Hic.
  unfold is_connected in Hic. apply Nat.eqb_eq in Hic.
  assert (Hg : 0 < gn g). { destruct Hconn as [[u Hu] _]. unfold areas in Hu. lia. }
  assert (Hu : uniqueZ (repeat z (gn g)) = [z]).
  { destruct (gn g) as [|n]; [lia|]. clear. induction n as [|n IH]; [reflexivity|].
    change (repeat z (S (S n))) with (z :: repeat z (S n)). cbn [uniqueZ fold_right]. unfold uniqueZ in IH. rewrite IH.
    cbn. rewrite Z.ltb_irrefl, Z.eqb_refl. reflexivity. }
  assert (Hreg : forall a, region (repeat z (gn g)) z a <-> a < gn g).
  { intros a. unfold region. split; intros H; [apply nth_error_lt in H; rewrite repeat_length in H; auto|].
    apply nth_error_repeat; auto. }
  assert (Haf : assert_feasible (repeat z (gn g)) g (Some 1%Z) = Ok tt).
  { apply assert_feasible_Ok; [rewrite repeat_length; auto|]. split; [rewrite <- uniqueZ_length, Hu; reflexivity|].
    intros x Hx. apply repeat_spec in Hx. subst x. eapply contiguous_ext; [|exact Hconn]. intros a. symmetry. apply Hreg. }
  unfold azp_fit, fit. rewrite Haf. cbn [bind]. rewrite repeat_length, Nat.eqb_refl. unfold separate_components. rewrite Hic. cbn [seq map fit_arrays].
  assert (Hnodes : comp_nodes g 0 = seq 0 (gn g)).
  { apply filter_all. intros a Ha. apply in_seq in Ha. pose proof (comp_label_lt g a). rewrite Hic in H. apply Nat.eqb_eq. lia. }
  assert (Hsep : separate_one g (repeat z (gn g)) 0 = repeat z (gn g)).
  { apply nth_error_ext'; [rewrite separate_one_length, repeat_length; auto|]. rewrite separate_one_length. intros i Hi.
    apply separate_one_in; auto; [apply repeat_length|]. pose proof (comp_label_lt g i Hi). lia. }
  rewrite Hsep. cbn [fit_one fst snd].
  assert (Hidx : filter (fun a => negb (Z.eqb (lab (repeat z (gn g)) a) (-1))) (seq 0 (length (repeat z (gn g)))) = seq 0 (gn g)).
  { rewrite repeat_length. apply filter_all. intros a Ha. apply in_seq in Ha.
    rewrite (lab_of_nth_error _ a z) by (apply nth_error_repeat; lia). destruct (Z.eqb_spec z (-1)); [congruence|reflexivity]. }
  rewrite Hidx.
  assert (Hgath : gather (-1)%Z (repeat z (gn g)) (seq 0 (gn g)) = repeat z (gn g)).
  { rewrite <- (repeat_length z (gn g)) at 2. apply (map_nth_seq (-1)%Z). }
  rewrite Hgath. cbn [strat_start]. unfold start_common.
  destruct (Hex (map (row attr) (seq 0 (gn g)))) as [Hcall _].
  { intros x Hx. apply in_map_iff in Hx. destruct Hx as [a [<- Ha]]. apply in_seq in Ha. apply nth_In. lia. }
  destruct (Hcall (repeat z (gn g))) as [v Ev]; [rewrite repeat_length, map_length, seq_length; auto|].
  rewrite Ev. cbn [bind]. unfold azp_component. rewrite Hu. cbn [bind]. unfold assign_idx.
  rewrite repeat_length, seq_length, Nat.eqb_refl. cbn [bind].
  assert (Hsc : scatter (minus_ones (gn g)) (seq 0 (gn g)) (repeat z (gn g)) = repeat z (gn g)).
  { apply nth_error_ext'; [rewrite scatter_length; unfold minus_ones; rewrite !repeat_length; auto|].
    rewrite scatter_length. unfold minus_ones at 1. rewrite repeat_length. intros i Hi. rewrite nth_error_repeat by auto.
    apply (scatter_in (seq 0 (gn g)) _ _ i i); auto; [apply seq_NoDup| | |].
    - rewrite (nth_error_nth' _ 0), seq_nth by (try rewrite seq_length; auto). reflexivity.
    - apply nth_error_repeat; auto.
    - unfold minus_ones. rewrite repeat_length. auto. }
  rewrite Hsc. eauto.
Qed.

(** ** C64: -1 as a region name *)
(** Feasible initial labels that call the only region -1: NameError on every connected graph. *)
Theorem C64_minus_one_refuted St start call objv order fuel g attr s r :
  connected_graph g -> (forall s l rows idx, exists s', start s l rows idx = Ok s') ->
  feasible g (repeat (-1)%Z (gn g)) 1 /\
  azp_fit_with St start call objv order fuel g attr 1 (Some (repeat (-1)%Z (gn g))) s r = Raise NameError.
Proof.
  intros Hconn Hstart. pose proof (proj2 (is_connected_spec g) Hconn) as Hic.
  unfold is_connected in Hic. apply Nat.eqb_eq in Hic.
  assert (Hg : 0 < gn g). { destruct Hconn as [[u Hu] _]. unfold areas in Hu. lia. }
  assert (Hn : n_labels (repeat (-1)%Z (gn g)) = 1).
  { rewrite <- uniqueZ_length. destruct (gn g) as [|n]; [lia|]. clear.
    replace (uniqueZ (repeat (-1)%Z (S n))) with [(-1)%Z]; [reflexivity|].
    induction n as [|n IH]; [reflexivity|].
    change (repeat (-1)%Z (S (S n))) with ((-1)%Z :: repeat (-1)%Z (S n)). cbn [uniqueZ fold_right]. unfold uniqueZ in IH. rewrite <- IH. reflexivity. }
  assert (Hall : all_contiguous g (repeat (-1)%Z (gn g))).
  { intros x Hx. apply repeat_spec in Hx. subst x. eapply contiguous_ext; [|exact Hconn]. intros a. unfold region, areas.
    split; intros H; [apply nth_error_repeat; auto|apply nth_error_lt in H; rewrite repeat_length in H; auto]. }
  split; [split; [apply repeat_length|auto]|].
  assert (Haf : assert_feasible (repeat (-1)%Z (gn g)) g (Some 1%Z) = Ok tt) by (apply assert_feasible_Ok; [rewrite repeat_length; auto|]; split; [lia|auto]).
  unfold fit. rewrite Haf. cbn [bind]. rewrite repeat_length, Nat.eqb_refl. unfold separate_components. rewrite Hic. cbn [seq map fit_arrays].
  assert (Hsep : separate_one g (repeat (-1)%Z (gn g)) 0 = repeat (-1)%Z (gn g)).
  { apply nth_error_ext'; [rewrite separate_one_length, repeat_length; auto|]. rewrite separate_one_length. intros i Hi.
    apply separate_one_in; auto; [apply repeat_length|]. pose proof (comp_label_lt g i Hi). lia. }
  rewrite Hsep. cbn [fit_one fst snd].
  assert (Hidx : filter (fun a => negb (Z.eqb (lab (repeat (-1)%Z (gn g)) a) (-1))) (seq 0 (length (repeat (-1)%Z (gn g)))) = []).
  { rewrite repeat_length. generalize (seq 0 (gn g)) as q. induction q as [|a q IH]; [reflexivity|]. cbn [filter].
    replace (lab (repeat (-1)%Z (gn g)) a) with (-1)%Z; [exact IH|].
    unfold lab. destruct (nth_in_or_default a (repeat (-1)%Z (gn g)) (-1)%Z) as [H|H]; [apply repeat_spec in H; auto|auto]. }
  rewrite Hidx. cbn [gather map]. destruct (Hstart s [] [] []) as [s1 E1]. rewrite E1. reflexivity.
Qed.

(** An area of a region called -1 is never moved. *)
Example C64_frozen_example :
  feasible (path_graph 3) [-1;0;0]%Z 2 /\
  fit_ex (path_graph 3) [1;1;5]%Q 2%Z (Some [-1;0;0]%Z) rng0 = Some [-1;0;0]%Z /\
  fit_ex (path_graph 3) [1;1;5]%Q 2%Z (Some [1;0;0]%Z) rng0 = Some [1;1;0]%Z.
Proof.
  split; [split; [reflexivity|]; split; [reflexivity|]; apply check_regions_all; vm_compute; reflexivity|].
  split; vm_compute; reflexivity.
Qed.

Print Assumptions C18_azp_feasible.
Print Assumptions C23_azp_labels_islands.
Print Assumptions C21_azp_no_exception.
Print Assumptions C21_azp_bad_request.
Print Assumptions C19_azp_monotone.
Print Assumptions C19_azp_monotone_pairwise.
Print Assumptions C20_azp_terminates.
Print Assumptions C22_azp_local_optimum_partial.
Print Assumptions C22_azp_local_optimum_refuted.
Print Assumptions C08_single_region_refuted.
Print Assumptions C08_single_region_partial.
Print Assumptions C64_minus_one_refuted.
