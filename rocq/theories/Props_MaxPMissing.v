(** Property C148: the max-p heuristic with missing spatially extensive amounts. *)
From Verif Require Import Base Spec M_Graph P_Graph M_Util P_Base P_Util P_Forest P_Init P_Initial
  M_Objective P_Sum P_Objective M_Azp P_Azp P_Strategy P_Fit P_AzpFit M_Sa Examples Props_Objective Props_Strategy Props_Azp Props_Sa
  M_MaxP P_MaxP P_MaxP2 P_MaxP3 P_MaxP4 Props_MaxP M_MaxPMissing SpecAmounts P_MaxPMissing P_MaxPMissing2 P_Random.

(** The construction takes a missing amount for one that reaches the threshold: whatever ample amounts are put in the place of
    the missing ones, grow_regions makes the same choices with the same draws. *)
Theorem C148_grow_regions d g attr sp thr sp' r : recorded sp thr (gn g) -> known_non_negative sp -> amply_filled thr sp sp' ->
  ngrow_regions d g attr sp thr r = grow_regions d g attr sp' thr r.
Proof. intros H1 H2 H3. apply ngrow_regions_same. apply (filled_rows sp sp' thr (gn g)); auto. Qed.

Lemma grows_filled d g attr sp thr sp1 sp2 : recorded sp thr (gn g) -> known_non_negative sp -> amply_filled thr sp sp1 -> amply_filled thr sp sp2 ->
  forall r runs r', grows d g attr sp1 thr r runs r' -> grows d g attr sp2 thr r runs r'.
Proof.
  intros H1 H2 H3 H4 r runs r' H. induction H as [r|r P E r1 runs r2 H Hs IH]; [constructor|]. econstructor; [|exact IH].
  rewrite <- (C148_grow_regions d g attr sp thr sp2) by auto. rewrite (C148_grow_regions d g attr sp thr sp1) by auto. exact H.
Qed.

(** If fit returns, the regions are contiguous; there are as many as in the best partition constructed with ample amounts in the place
    of the missing ones; a region without a missing amount meets the threshold; the areas with a missing amount are where one of the
    completed partitions had them. *)
Theorem C148_valid expf order O d fuel g attr sp thr max_it entropy labels0 ls r labels ls' r' :
  (forall l, Permutation (order l) l) -> symmetric g -> no_self_loops g -> recorded sp thr (gn g) -> known_non_negative sp ->
  0 < max_it -> nmaxp_azp_fit expf order O d fuel g attr sp thr max_it entropy labels0 ls r = Ok (labels, ls', r') ->
  exists runs p l, labels = Some l /\
    (forall sp', amply_filled thr sp sp' -> built d g attr sp' thr max_it r runs) /\
    (forall x, In x runs -> length (fst x) <= p) /\ (exists x, In x runs /\ length (fst x) = p) /\
    feasible g l p /\ (forall z, In z l -> meets_known sp thr l z) /\
    exists x r1 P r2 l0, In x runs /\ assign_enclaves d g attr (fst x) (snd x) r1 = Ok (P, r2) /\
      array_from_region_list P = Ok l0 /\ keeps sp l0 l.
Proof.
  intros Hord Hsym Hloop Hrec Hk Hit H. set (sp0 := map (enough thr) sp).
  pose proof (ample_exists sp thr (gn g) Hrec) as Hf0. fold sp0 in Hf0.
  pose proof (nmaxp_azp_any expf order Hord O d g attr sp sp0 thr Hsym Hloop Hrec Hk Hf0 fuel max_it entropy labels0 ls r Hit) as Hp.
  rewrite H in Hp. destruct Hp as [p [before [r1 [parts [r2 [l [Hc [Ha [-> [[Hf Hm] [P [l0 [HP [E0 HK]]]]]]]]]]]]]].
  destruct (construct_spec d g attr sp0 thr max_it 0 [] r p before r1 Hc) as [runs [Hg [Hl [_ [Hle [Hin Hmax]]]]]]; [intros x []|].
  exists runs, p, l. split; [auto|]. split; [|split; [auto|split; [|split; [exact Hf|split]]]].
  - intros sp' Hf'. split; [auto|]. exists r1. eapply (grows_filled d g attr sp thr sp0 sp'); eauto.
  - destruct Hmax as [->|Hmax]; [|auto]. destruct runs as [|x runs]; [cbn in Hl; lia|].
    exists x. split; [left; auto|]. specialize (Hle x (or_introl eq_refl)). lia.
  - intros z Hz. apply (filled_meets sp sp0 thr (gn g) Hrec Hk Hf0); [apply Hf|auto].
  - assert (Hx : exists x ra rb, In x before /\ assign_enclaves d g attr (fst x) (snd x) ra = Ok (P, rb)).
    { clear - Ha HP. revert r1 parts r2 Ha HP. induction before as [|[part enc] before IH]; intros r1 parts r2 Ha HP; cbn [assign_each] in Ha.
      - injection Ha as <- <-. destruct HP.
      - apply bind_Ok in Ha. destruct Ha as [[P1 ra] [E1 Ha]]. apply bind_Ok in Ha. destruct Ha as [[Ps rb] [E2 Ha]]. injection Ha as <- <-.
        destruct HP as [->|HP]; [exists (part, enc), r1, ra; split; [left; auto|auto]|].
        destruct (IH ra Ps rb E2 HP) as [x [r3 [r4 [Hx E]]]]. exists x, r3, r4. split; [right; auto|auto]. }
    destruct Hx as [x [ra [rb [Hx Ex]]]]. exists x, ra, P, rb, l0. split; [|auto]. rewrite Hin in Hx. apply filter_In in Hx. apply Hx.
Qed.

(** With an AZP local search using the default strategy fit returns when every island has, in each component, a missing amount or a
    total that reaches the threshold; it raises ValueError otherwise. *)
Theorem C148_fails_iff expf order O d g attr sp thr :
  (forall l, Permutation (order l) l) -> symmetric g -> no_self_loops g -> recorded sp thr (gn g) -> known_non_negative sp ->
  length attr = gn g -> exact_on O attr ->
  ((forall v isl, v < gn g -> island g v isl -> meets_known_in sp thr isl) ->
   exists bound, forall fuel max_it entropy labels0 ls r, bound <= fuel -> 0 < max_it ->
     match ls with Some s => nazp_inside s | None => True end ->
     exists l ls' r', nmaxp_azp_fit expf order O d fuel g attr sp thr max_it entropy labels0 ls r = Ok (Some l, ls', r')) /\
  (forall v isl, v < gn g -> island g v isl -> ~ meets_known_in sp thr isl -> forall fuel max_it entropy labels0 ls r, 0 < max_it ->
     exists m, nmaxp_azp_fit expf order O d fuel g attr sp thr max_it entropy labels0 ls r = Raise (ValueError m)).
Proof.
  intros Hord Hsym Hloop Hrec Hk Hattr Hex. set (sp0 := map (enough thr) sp).
  pose proof (ample_exists sp thr (gn g) Hrec) as Hf0. fold sp0 in Hf0.
  assert (Hmi : forall v isl, v < gn g -> island g v isl -> (meets_in sp0 thr isl <-> meets_known_in sp thr isl)).
  { intros v isl Hv [_ Hi]. apply (filled_meets_in sp sp0 thr (gn g) Hrec Hk Hf0). intros a Ha. apply Hi in Ha. apply linked_in_r in Ha. exact Ha. }
  split.
  - intros Hisl. exists (gn g + 2). intros fuel max_it entropy labels0 ls r Hf Hit Hls. assert (Hfuel : False \/ gn g + 1 < fuel) by lia.
    pose proof (nmaxp_azp_default expf order Hord O d g attr sp sp0 thr Hsym Hloop Hrec Hk Hf0 Hattr Hex False fuel max_it entropy labels0 ls r Hit Hfuel Hls) as Hp.
    destruct (nmaxp_azp_fit expf order O d fuel g attr sp thr max_it entropy labels0 ls r) as [[[labels ls'] r']|e|]; cbn [post] in Hp.
    + destruct Hp as [mp [before [r1 [parts [r2 [l [s' [_ [_ [-> _]]]]]]]]]]. eauto.
    + destruct Hp as [[v [isl [H1 [H2 H3]]]] _]. exfalso. apply H3. apply (Hmi v isl); auto. eapply Hisl; eauto.
    + destruct Hp.
  - intros v isl Hv Hi Hnm fuel max_it entropy labels0 ls r Hit. unfold nmaxp_azp_fit.
    rewrite (nmaxp_fit_same d g attr sp sp0 thr) by (apply (filled_rows sp sp0 thr (gn g)); auto).
    apply (unmet_raises nstrategy _ _ O d g attr sp0 thr Hsym Hloop (filled_shaped sp sp0 thr (gn g) Hrec Hk Hf0)
      (filled_non_negative sp sp0 thr (gn g) Hrec Hk Hf0) _ max_it labels0 ls r v isl); auto.
    intros H. apply Hnm. apply (Hmi v isl); auto.
Qed.

(** The search never loses, also with missing amounts: for the pairwise objective the heterogeneity of the result is at most that of
    every completed partition. *)
Theorem C148_not_worse expf order d fuel g attr sp thr sp' max_it entropy labels0 ls r labels ls' r' :
  (forall l, Permutation (order l) l) -> symmetric g -> no_self_loops g -> recorded sp thr (gn g) -> known_non_negative sp -> amply_filled thr sp sp' ->
  length attr = gn g -> (forall x y, d x y == d y x)%Q -> (forall x, d x x == 0)%Q -> 0 < max_it ->
  match ls with Some s => nazp_inside s | None => True end ->
  nmaxp_azp_fit expf order (pairwise d) d fuel g attr sp thr max_it entropy labels0 ls r = Ok (labels, ls', r') ->
  exists p before r1 parts r2 l, construct d g attr sp' thr max_it 0 [] r = Ok (p, before, r1) /\
    assign_each d g attr before r1 = Ok (parts, r2) /\ parts <> [] /\ labels = Some l /\
    forall P, In P parts -> exists l0, array_from_region_list P = Ok l0 /\ feasible g l0 p /\
      (heterogeneity (fun i j => d (nth i attr []) (nth j attr [])) l <=
       heterogeneity (fun i j => d (nth i attr []) (nth j attr [])) l0)%Q.
Proof.
  intros Hord Hsym Hloop Hrec Hk Hf0 Hattr Hds Hdz Hit Hls H. pose proof (pairwise_exact_on d attr Hds Hdz) as Hex.
  pose proof (nmaxp_azp_default expf order Hord (pairwise d) d g attr sp sp' thr Hsym Hloop Hrec Hk Hf0 Hattr Hex True fuel max_it entropy labels0 ls r Hit (or_introl Logic.I) Hls) as Hp.
  rewrite H in Hp. destruct Hp as [p [before [r1 [parts [r2 [l [s' [H1 [H2 [-> [_ [_ [Hl [Hne Hall]]]]]]]]]]]]]].
  exists p, before, r1, parts, r2, l. do 4 (split; [auto|]). intros P HP.
  destruct (Hall P HP) as [l0 [l1 [v [v1 [E0 [[Hf0' _] [[Hf1 _] [Hnw [Ev [Ev1 Hle]]]]]]]]]]. exists l0. split; [auto|]. split; [auto|].
  change (fun i j => d (nth i attr []) (nth j attr [])) with (dist d attr).
  destruct (pairwise_call_spec d l attr) as [x [Ex Hx]]. destruct (pairwise_call_spec d l1 attr) as [x1 [Ex1 Hx1]].
  cbn [o_call pairwise] in Ev, Ev1. rewrite Ev in Ex. rewrite Ev1 in Ex1. injection Ex as <-. injection Ex1 as <-.
  assert (Hh : (heterogeneity (dist d attr) l1 <= heterogeneity (dist d attr) l0)%Q).
  { destruct Hf0' as [A0 [_ B0]]. destruct Hf1 as [A1 [_ B1]].
    rewrite (het_comps d attr g l1 (conj A1 B1)), (het_comps d attr g l0 (conj A0 B0)). apply sumQ_le. intros c Hc. apply in_seq in Hc.
    destruct (Hnw c ltac:(lia)) as [y0 [y1 [Ey0 [Ey1 Hy]]]].
    destruct (pairwise_call_spec d (comp_part g l0 c) (attr_c attr g c)) as [x' [Ex' Hx']].
    destruct (pairwise_call_spec d (comp_part g l1 c) (attr_c attr g c)) as [y' [Ey' Hy']].
    cbn [o_call pairwise] in Ey0, Ey1. rewrite Ey0 in Ex'. rewrite Ey1 in Ey'. injection Ex' as <-. injection Ey' as <-.
    change (comp_part g l0 c) with (labels_at l0 (comp_nodes g c)) in Hx'.
    change (comp_part g l1 c) with (labels_at l1 (comp_nodes g c)) in Hy'.
    change (attr_c attr g c) with (rows_at attr (comp_nodes g c)) in *. lra. }
  lra.
Qed.

(** AZPSimulatedAnnealing as local search never asks for the amounts: the fit is the one with ample amounts, to the last draw. *)
Theorem C148_sa expf order O d azp_fuel fuel cooling args g attr sp thr sp' max_it labels0 mem r :
  recorded sp thr (gn g) -> known_non_negative sp -> amply_filled thr sp sp' ->
  nmaxp_sa_fit expf order O d azp_fuel fuel cooling args g attr sp thr max_it labels0 mem r =
  maxp_sa_fit expf order O d azp_fuel fuel cooling args g attr sp' thr max_it labels0 mem r.
Proof. intros H1 H2 H3. apply nmaxp_fit_same. apply (filled_rows sp sp' thr (gn g)); auto. Qed.

(** Nothing missing: the labels, the exception and the draws are those of the fit with plain amounts. *)
Theorem C148_complete expf order O d fuel g attr sp thr max_it entropy labels0 n s r : plain_object n s ->
  match nmaxp_azp_fit expf order O d fuel g attr (full sp) thr max_it entropy labels0 n r,
        maxp_azp_fit expf order O d fuel g attr sp thr max_it entropy labels0 s r with
  | Ok (labels, n', r1), Ok (labels', s', r2) => labels = labels' /\ r1 = r2 /\ plain_object n' s'
  | Raise e, Raise e' => e = e'
  | NoFuel, NoFuel => True
  | _, _ => False
  end.
Proof.
  intros H. pose proof (plain_maxp expf order O d fuel g attr sp thr max_it entropy labels0 n s r H) as Hp.
  destruct (nmaxp_azp_fit _ _ _ _ _ _ _ _ _ _ _ _ _ _) as [[[l1 s1] r1]|e|], (maxp_azp_fit _ _ _ _ _ _ _ _ _ _ _ _ _ _) as [[[l2 s2] r2]|e'|]; cbn in Hp; auto.
Qed.

(** ** Examples and refutation *)
Local Notation att := (map (fun q : Q => [q])).
Definition mp_na fuel g attr sp thr it ls r :=
  nmaxp_azp_fit expd same_order (pairwise manhattan) manhattan fuel g (att attr) (map (fun o => [o]) sp) [thr] it r None ls r.
Local Notation amt := (map (fun o : option Q => [o])).

(** threshold 2 on a path of 6; nothing is known of area 3 *)
Definition gap : list (option Q) := [Some 1; Some 1; Some 1; None; Some 1; Some 1]%Q.
Lemma gap_recorded : recorded (amt gap) [2%Q] 6 /\ known_non_negative (amt gap).
Proof.
  split; [split; [reflexivity|intros x Hx; repeat (destruct Hx as [<-|Hx]; [reflexivity|]); destruct Hx]|].
  intros x q Hx Hq. repeat (destruct Hx as [<-|Hx]; [destruct Hq as [Hq|[]]; (discriminate || (injection Hq as <-; lra))|]). destruct Hx.
Qed.
Lemma gap_filled : amply_filled [2%Q] (amt gap) (att [1;1;1;7;1;1]%Q).
Proof.
  repeat constructor; intros [|[|k]] t Hk; cbn in *; try discriminate; injection Hk as <-; try reflexivity; lra.
Qed.
Example C148_example :
  symmetric (path_graph 6) /\ no_self_loops (path_graph 6) /\ recorded (amt gap) [2%Q] 6 /\ known_non_negative (amt gap) /\
  amply_filled [2%Q] (amt gap) (att [1;1;1;7;1;1]%Q) /\
  (forall v isl, v < 6 -> island (path_graph 6) v isl -> meets_known_in (amt gap) [2%Q] isl) /\
  mp_labels (mp_na 40 (path_graph 6) [1;1;5;5;2;2]%Q gap 2%Q 3 None rng0) = Some [0;0;2;2;1;1]%Z.
Proof.
  split; [apply path_symmetric|]. split; [apply path_no_self_loops|]. split; [apply gap_recorded|]. split; [apply gap_recorded|]. split; [apply gap_filled|].
  split; [|vm_compute; reflexivity].
  intros v isl Hv [_ Hi] [|[|k]] t Hk; cbn in Hk; try discriminate. left. exists 3. split; [|reflexivity].
  apply Hi. apply comp_label_eq; cbn; try lia. do 6 (destruct v as [|v]; [vm_compute; reflexivity|]). lia.
Qed.

(** The known amounts of a region may be far from the threshold: with threshold 2 and one unknown amount in a row of three, fit returns
    the area with the unknown amount as a region of its own; an area of amount 0 in its place would not be one. *)
Theorem C148_known_amounts_refuted :
  ~ (forall expf order O d fuel g attr sp thr max_it entropy labels0 ls r labels ls' r',
    (forall l, Permutation (order l) l) -> symmetric g -> no_self_loops g -> recorded sp thr (gn g) -> known_non_negative sp ->
    0 < max_it -> nmaxp_azp_fit expf order O d fuel g attr sp thr max_it entropy labels0 ls r = Ok (labels, ls', r') ->
    forall l, labels = Some l -> forall z, In z l -> meets (known sp) thr l z).
Proof.
  intros C. destruct (mp_na 40 (path_graph 3) [1;1;5]%Q [None;Some 1;Some 1]%Q 2%Q 1 None (draws [])) as [[[labels ls'] r']|e|] eqn:E.
  - assert (E1 : mp_labels (mp_na 40 (path_graph 3) [1;1;5]%Q [None;Some 1;Some 1]%Q 2%Q 1 None (draws [])) = Some [0;1;1]%Z) by (vm_compute; reflexivity).
    rewrite E in E1. cbn in E1. subst labels. unfold mp_na in E.
    assert (Hr : recorded (amt [None;Some 1;Some 1]%Q) [2%Q] (gn (path_graph 3))).
    { split; [reflexivity|]. intros x Hx. repeat (destruct Hx as [<-|Hx]; [reflexivity|]). destruct Hx. }
    assert (Hk : known_non_negative (amt [None;Some 1;Some 1]%Q)).
    { intros x q Hx Hq. repeat (destruct Hx as [<-|Hx]; [destruct Hq as [Hq|[]]; (discriminate || (injection Hq as <-; lra))|]). destruct Hx. }
    pose proof (C _ _ _ _ _ _ _ _ _ _ _ _ _ _ _ _ _ (fun l => Permutation_refl l) (path_symmetric 3) (path_no_self_loops 3) Hr Hk Nat.lt_0_1 E
      _ eq_refl 0%Z (or_introl eq_refl) 0 2%Q eq_refl) as K. vm_compute in K. apply K. reflexivity.
  - apply (f_equal mp_labels) in E. vm_compute in E. discriminate.
  - apply (f_equal mp_labels) in E. vm_compute in E. discriminate.
Qed.

Print Assumptions C148_grow_regions.
Print Assumptions C148_valid.
Print Assumptions C148_fails_iff.
Print Assumptions C148_not_worse.
Print Assumptions C148_sa.
Print Assumptions C148_complete.
Print Assumptions C148_known_amounts_refuted.
