(** fit with given initial labels: the islands are processed in the order of their first areas, and
    AZPReactiveTabu on several islands: proofs. *)
From Verif Require Import Base Spec M_Graph P_Graph M_Util P_Base P_Util P_Forest P_Init P_Initial
  M_Objective P_Sum P_Objective M_Azp P_Azp P_Strategy P_Fit P_AzpFit M_Sa P_Sa M_Tabu P_Tabu P_TabuFit P_Reactive
  P_Skater P_Descent.

Section Given.
Variable S : Type.
Variable start : S -> list Z -> list (list Q) -> list nat -> out S.
Variable component : graph -> list Z -> list (list Q) -> S -> rng -> out (list Z * S * rng).
Variable order : list edge -> list edge.
Variable g : graph.
Variable attr : list (list Q).
Variable E : exn -> Prop.
Variable N : Prop.
Variable labels0 : list Z.
(** the state when the components before the given one are done *)
Variable J : nat -> S -> Prop.
Variable R : nat -> list Z -> list Z -> Prop.

Hypothesis Hcomp : forall c s r, c < n_components g ->
  wf (comp_graph g c) (comp_part g labels0 c) -> J c s ->
  post E N (run_component S start component g attr c (comp_part g labels0 c) s r)
    (fun '(l', s2, _) => J (Datatypes.S c) s2 /\ length l' = length (comp_part g labels0 c) /\ R c (comp_part g labels0 c) l').

Lemma fit_one_given c arr labels s r : c < n_components g -> length arr = gn g ->
  (forall a, a < gn g -> (nth_error arr a = Some (-1)%Z <-> comp_label g a <> c)) ->
  comp_part g arr c = comp_part g labels0 c ->
  wf (comp_graph g c) (comp_part g labels0 c) -> length labels = gn g -> J c s ->
  post E N (fit_one S start component g attr (YArr arr) (labels, s) r)
    (fun '((labels', s'), _) => J (Datatypes.S c) s' /\
       exists l', R c (comp_part g labels0 c) l' /\ length l' = length (comp_nodes g c) /\
         labels' = scatter labels (comp_nodes g c) l').
Proof.
  intros Hc Harr Hout Epart Hwf Hlab HJ.
  assert (Hidx : filter (fun a => negb (Z.eqb (lab arr a) (-1))) (seq 0 (length arr)) = comp_nodes g c).
  { unfold comp_nodes. rewrite Harr. apply filter_ext_in. intros a Ha. apply in_seq in Ha.
    apply eq_true_iff_eq. rewrite negb_true_iff, Z.eqb_neq, Nat.eqb_eq.
    specialize (Hout a ltac:(lia)). split.
    - intros Hne. destruct (Nat.eq_dec (comp_label g a) c) as [->|Hn]; [auto|].
      exfalso. apply Hne, lab_of_nth_error, Hout. exact Hn.
    - intros Hce Hl. apply Hout in Hce; auto. rewrite <- Hl. apply lab_nth_error. lia. }
  cbn [fit_one fst snd]. rewrite Hidx. fold (comp_graph g c). fold (comp_part g arr c). rewrite Epart.
  pose proof (Hcomp c s r Hc Hwf HJ) as Hp. unfold run_component in Hp.
  destruct (start s _ _ _) as [s1|e|]; cbn [bind] in *; [|exact Hp|exact Hp].
  eapply post_bind; [exact Hp|]. intros [[l' s2] r'] _ [HJ2 [Hl' HR]].
  assert (Hll : length l' = length (comp_nodes g c)) by (rewrite Hl', comp_part_length, comp_graph_n; auto).
  unfold assign_idx. rewrite Hll, Nat.eqb_refl. cbn [bind post]. split; [auto|].
  exists l'. auto.
Qed.

Lemma fit_arrays_given : wf g labels0 -> ~ In (-1)%Z labels0 -> forall k done labels s r,
  k <= n_components g -> (forall c, In c done <-> c < n_components g - k) ->
  parts_done g R done labels0 labels -> J (n_components g - k) s ->
  post E N (fit_arrays S start component g attr
              (map (separate_one g labels0) (seq (n_components g - k) k)) (labels, s) r)
    (fun '((labels', s'), _) => J (n_components g) s' /\ parts_done g R (seq 0 (n_components g)) labels0 labels').
Proof.
  intros Hwf Hm1. induction k as [|k IH]; intros done labels s r Hk Hd Hparts HJ; cbn [seq map fit_arrays].
  - cbn [post]. rewrite Nat.sub_0_r in HJ. split; [auto|]. destruct Hparts as [H0 [Hl HR]]. split; [auto|]. split; [auto|].
    intros c Hc. apply HR. apply Hd. apply in_seq in Hc. lia.
  - set (c := n_components g - Datatypes.S k). assert (Hc : c < n_components g) by lia.
    destruct Hwf as [Hlen Hall].
    assert (Hcp : comp_part g (separate_one g labels0 c) c = comp_part g labels0 c).
    { unfold comp_part, gather. apply map_ext_in. intros a Ha. apply comp_nodes_In in Ha. destruct Ha as [Ha Hca].
      pose proof (separate_one_in g labels0 c a Hlen Ha Hca) as Hs.
      rewrite (nth_error_nth labels0 a (-1)%Z (x := lab labels0 a)) by (apply lab_nth_error; lia).
      apply nth_error_nth. rewrite Hs. apply lab_nth_error. lia. }
    eapply post_bind.
    + apply (fit_one_given c); auto; [apply separate_one_length| | |apply Hparts].
      * intros a Ha. split.
        -- intros Hs Hca. rewrite separate_one_in in Hs by auto. apply Hm1. eapply nth_error_In; eauto.
        -- apply separate_one_out; auto.
      * apply wf_part. split; auto.
    + intros [[labels' s'] r'] _ [HJ' [l' [HR [Hl' ->]]]].
      replace (Datatypes.S c) with (n_components g - k) in * by lia.
      apply (IH (c :: done)); auto; [lia| |].
      * intros x. cbn [In]. rewrite Hd. lia.
      * apply (parts_done_step g R done labels0 labels labels0 c (comp_part g labels0 c)); auto.
        rewrite Hd. lia.
Qed.

Theorem fit_given_post n_regions s r :
  feasible g labels0 (Z.to_nat n_regions) -> (0 <= n_regions)%Z -> ~ In (-1)%Z labels0 -> J 0 s ->
  post E N (fit S start component order g attr n_regions (Some labels0) s r)
    (fun '((labels, s'), _) => J (n_components g) s' /\ length labels = gn g /\
       forall c, c < n_components g -> R c (comp_part g labels0 c) (comp_part g labels c)).
Proof.
  intros [Hlen [Hn Hall]] Hpos Hm1 HJ. unfold fit.
  assert (Haf : assert_feasible labels0 g (Some n_regions) = Ok tt).
  { apply assert_feasible_Ok; [lia|]. split; [lia|auto]. }
  rewrite Haf. cbn [bind]. rewrite (proj2 (Nat.eqb_eq _ _) Hlen). unfold separate_components.
  pose proof (fit_arrays_given (conj Hlen Hall) Hm1 (n_components g) [] (minus_ones (gn g)) s r) as Hp.
  rewrite Nat.sub_diag in Hp.
  eapply (post_weaken E E N N); [auto|auto| |apply Hp; auto].
  - intros [[labels s'] r'] _ [HJ' [_ [HL HR]]]. split; [auto|]. split; [auto|].
    intros c Hc. apply HR. apply in_seq. lia.
  - intros c. split; [intros []|lia].
  - split; [auto|]. split; [apply repeat_length|]. intros c [].
Qed.
End Given.

(** ** AZPReactiveTabu *)
Lemma desc_names O attr g k l l' : wf g l -> descent O attr g k l l' -> same_labels l' l.
Proof.
  intros Hwf H. revert Hwf. induction H as [l|k l l1 l2 Hd IH Hs]; intros Hwf; [intros y; tauto|].
  pose proof (desc_wf O attr g k l l1 Hwf Hd) as Hwf1. destruct Hs as [a [z [x [x' [Hl [-> _]]]]]].
  intros y. rewrite <- (IH Hwf y). apply (legal_upd g l1 a z Hwf1 Hl).
Qed.
Lemma desc_down O attr g k l l' : descent O attr g k l l' -> exact_objective O attr -> length attr = gn g -> wf g l ->
  (value O attr l' <= value O attr l)%Q /\ (0 < k -> (value O attr l' < value O attr l)%Q).
Proof.
  intros H Hex Hattr Hwf. revert Hwf. induction H as [l|k l l1 l2 Hd IH Hs]; intros Hwf; [split; [lra|lia]|].
  destruct (IH Hwf) as [H1 _]. destruct Hs as [a [z [x [x' [Hl [-> [Ex [Ex' [Hlt _]]]]]]]]].
  unfold value at 1 3. rewrite Ex'. unfold value at 1 in H1. rewrite Ex in H1. split; [lra|intros; lra].
Qed.
Lemma descended_facts O attr g M l0 l : exact_objective O attr -> length attr = gn g -> wf g l0 ->
  descended O attr g M l0 l ->
  same_labels l l0 /\ (value O attr l <= value O attr l0)%Q /\
  (~ local_optimum O attr g l0 -> (value O attr l < value O attr l0)%Q).
Proof.
  intros Hex Hattr Hwf [[k [Hd [_ Ho]]]|[Ho [a [z [Hl [-> Hv]]]]]].
  - split; [eapply desc_names; eauto|]. destruct (desc_down O attr g k l0 l Hd Hex Hattr Hwf) as [H1 H2]. split; [auto|].
    intros Hno. apply H2. destruct k as [|k]; [|lia]. exfalso. inversion Hd; subst. destruct Ho as [Ho|Ho]; [auto|lia].
  - split; [apply (legal_upd g l0 a z Hwf Hl)|]. split; [lra|]. intros H; destruct (H Ho).
Qed.

Section Fit.
Variable O : objfun.
Variable attr : list (list Q).
Variable g : graph.
Hypothesis Hsym : symmetric g.
Hypothesis Hattr : length attr = gn g.
Variable order : list edge -> list edge.
Hypothesis Hex : exact_on O attr.
Variable labels0 : list Z.
Variable s0 : reactive.
Variable maxit : nat.
Local Notation part c := (comp_part g labels0 c).
Local Notation single c := (length (uniqueZ (part c)) = 1).
Local Notation nc := (n_components g).

(** what lets an island come out right *)
Definition usable (c : nat) : Prop :=
  single c \/ (2 <= maxit /\ ~ local_optimum O (attr_c attr g c) (comp_graph g c) (part c)) \/
  (rt_visited s0 = [] /\ forall c', c' < c -> single c').

Definition reactive_inv (c : nat) (s : reactive) : Prop :=
  (forall w, In w (rt_visited s) -> In w (rt_visited s0) \/ exists c', c' < c /\ same_labels w (part c')) /\
  (rt_visited s0 = [] -> (forall c', c' < c -> single c') -> rt_visited s = []).

Lemma parts_foreign c c' : wf g labels0 -> c < nc -> c' < nc -> c <> c' -> ~ same_labels (part c) (part c').
Proof.
  intros Hwf Hc Hc' Hne Hs. pose proof Hwf as [Hlen Hall]. destruct (comp_label_onto g c Hc) as [v [Hv Hl]].
  assert (Hz : In (lab labels0 v) (part c)).
  { apply comp_part_In; auto. exists v. split; [auto|]. split; [auto|]. apply lab_nth_error. lia. }
  apply Hs in Hz. apply comp_part_In in Hz; auto. destruct Hz as [a [Ha [Hca Ea]]].
  assert (Hco : contiguous g (region labels0 (lab labels0 v))) by (apply Hall; eapply nth_error_In; apply lab_nth_error; lia).
  assert (Hva : same_island g v a).
  { apply (linked_mono g (region labels0 (lab labels0 v))).
    - intros x Hx. unfold region in Hx. apply nth_error_lt in Hx. unfold areas. lia.
    - apply Hco; [apply lab_nth_error; lia|exact Ea]. }
  apply comp_label_eq in Hva; auto. congruence.
Qed.

Theorem reactive_fit_islands k1 k2 p r :
  feasible g labels0 (Z.to_nat p) -> (0 <= p)%Z -> ~ In (-1)%Z labels0 -> 1 <= k1 -> 1 <= maxit ->
  (forall w c, In w (rt_visited s0) -> c < nc -> ~ same_labels w (part c)) ->
  (forall c, c < nc -> usable c) ->
  post (fun e => e = AttributeError) False (reactive_fit order O maxit k1 k2 g attr p (Some labels0) s0 r)
    (fun '((labels, s'), _) => reactive_inv nc s' /\ length labels = gn g /\ forall c, c < nc ->
       wf (comp_graph g c) (comp_part g labels c) /\ (single c -> comp_part g labels c = part c) /\
       descended O (attr_c attr g c) (comp_graph g c) maxit (part c) (comp_part g labels c)).
Proof.
  intros Hf Hp Hm1 Hk Hm Hfor Huse. unfold reactive_fit.
  assert (Hwf0 : wf g labels0) by (destruct Hf as [H1 [_ H2]]; split; auto).
  apply (fit_given_post reactive _ _ order g attr (fun e => e = AttributeError) False labels0 reactive_inv
    (fun c l0 l' => wf (comp_graph g c) l' /\ (length (uniqueZ l0) = 1 -> l' = l0) /\
       descended O (attr_c attr g c) (comp_graph g c) maxit l0 l')); auto.
  2:{ split; [auto|]. auto. }
  intros c s rg Hc Hwfc [HJ1 HJ2]. unfold run_component. fold (attr_c attr g c). unfold start_common.
  pose proof (attr_c_exact O attr Hex g Hattr c) as Hexc. pose proof (attr_c_length attr g c) as Hla.
  destruct (proj1 Hexc (part c)) as [x Ex]; [rewrite Hla; apply Hwfc|]. rewrite Ex. cbn [bind].
  set (s1 := mkReactive _ _ _ _).
  assert (Hc1 : c_ok O (attr_c attr g c) (rt_common s1)) by (split; reflexivity).
  assert (Hforc : foreign (rt_visited s) (part c)).
  { intros w Hw Hs. destruct (HJ1 w Hw) as [Hw0|[c' [Hc' Hs']]]; [apply (Hfor w c Hw0 Hc Hs)|].
    apply (parts_foreign c' c); auto; try lia. intros y. rewrite <- (Hs' y). apply Hs. }
  eapply (post_weaken (dead_end O (attr_c attr g c) (comp_graph g c) maxit (part c)) _ False False); [|auto| |
    apply (reactive_component_islands O (attr_c attr g c) (comp_graph g c) (comp_symmetric g c Hsym) Hla Hexc maxit k1 k2
      (rt_visited s) (part c) s1 rg); auto].
  - intros e [He _]. exact He.
  - intros [[l' s'] r'] _ [Hwf' [Hd [Hs1 Hs2]]]. split; [|split; [destruct Hwfc, Hwf'; lia|split; [auto|]]].
    + split.
      * intros w Hw. destruct (Hs2 w Hw) as [Hw'|Hw'].
        -- destruct (HJ1 w Hw') as [H|[c' [H1 H2]]]; [auto|right; exists c'; split; [lia|auto]].
        -- right. exists c. split; [lia|auto].
      * intros E0 Hall. destruct Hs1 as [_ ->]; [apply Hall; lia|]. apply HJ2; auto.
    + split; [intros H; apply Hs1; auto|exact Hd].
  - destruct (Huse c Hc) as [H|[H|[H1 H2]]]; auto.
Qed.
End Fit.
