(** Property C31: AZPReactiveTabu.fit on several islands and on a second call. *)
From Verif Require Import Base Spec M_Graph P_Graph M_Util P_Base P_Util P_Forest P_Init P_Initial
  M_Objective P_Sum P_Objective M_Azp P_Azp P_Strategy P_Fit P_AzpFit Examples Props_Objective Props_Azp
  M_Sa P_Sa M_Tabu P_Tabu P_TabuFit P_Reactive Props_Tabu P_Skater P_Descent P_Islands Props_Descent.

(** Every island of the initial labels is one of these: it is a single region; it has a move that lowers its
    objective, and there are at least two iterations; nothing was recorded by the object and every area before
    the island belongs to an island with a single region. *)
Definition each_ready (O : objfun) (attr : list (list Q)) (g : graph) (max_iterations : Z) (initial : list Z) (s : reactive) : Prop :=
  forall v isl, v < gn g -> island g v isl ->
    one_region_at initial isl \/
    ((2 <= max_iterations)%Z /\ improvable_at O attr g isl initial) \/
    (rt_visited s = [] /\ forall u isl', u < gn g -> island g u isl' -> (forall b, In b isl -> u < b) -> one_region_at initial isl').
(** What the user expects: as many regions, contiguous, with the same names; on every island the objective is not
    worse, it is lower if some legal move lowers it, and a single region stays. *)
Definition good_result (O : objfun) (attr : list (list Q)) (g : graph) (p : nat) (initial labels : list Z) : Prop :=
  feasible g labels p /\ (forall z, In z labels <-> In z initial) /\
  forall v isl, v < gn g -> island g v isl ->
    (exists x y, objective_at O attr isl initial = Ok x /\ objective_at O attr isl labels = Ok y /\ (y <= x)%Q) /\
    (improvable_at O attr g isl initial -> lower_at O attr isl initial labels) /\
    (one_region_at initial isl -> labels_at labels isl = labels_at initial isl).

Section Islands.
Variables (order : list edge -> list edge) (O : objfun) (g : graph) (attr : list (list Q)).
Hypothesis Hsym : symmetric g.
Hypothesis Hattr : length attr = gn g.
Hypothesis Hex : exact_on O attr.
Variables (max_iterations : Z) (k1 k2 : nat).
Hypothesis Hm : (1 <= max_iterations)%Z.
Hypothesis Hk1 : 1 <= k1.

Lemma one_region_single labels c : length labels = gn g -> c < n_components g ->
  (length (uniqueZ (comp_part g labels c)) = 1 <-> one_region_at labels (comp_nodes g c)).
Proof.
  intros Hlen Hc. split.
  - intros E a b Ha Hb.
    assert (Hin : forall x, In x (comp_nodes g c) -> In (lab labels x) (uniqueZ (comp_part g labels c))).
    { intros x Hx. apply comp_nodes_In in Hx. destruct Hx as [Hx Hcx]. apply uniqueZ_In, comp_part_In; auto.
      exists x. split; [auto|]. split; [auto|]. apply lab_nth_error. lia. }
    pose proof (Hin a Ha) as H1. pose proof (Hin b Hb) as H2.
    destruct (uniqueZ (comp_part g labels c)) as [|x [|y t]]; cbn in E; try lia.
    destruct H1 as [H1|[]], H2 as [H2|[]]. congruence.
  - intros H. destruct (comp_label_onto g c Hc) as [v [Hv Hcv]].
    assert (Hvn : In v (comp_nodes g c)) by (apply comp_nodes_In; auto).
    assert (Hall : forall z, In z (uniqueZ (comp_part g labels c)) <-> z = lab labels v).
    { intros z. rewrite uniqueZ_In, (comp_part_In g labels c z Hlen). split.
      - intros [a [Ha [Hca Ea]]]. rewrite <- (H a v); [symmetry; apply lab_of_nth_error; auto|apply comp_nodes_In; auto|auto].
      - intros ->. exists v. split; [auto|]. split; [auto|]. apply lab_nth_error. lia. }
    pose proof (uniqueZ_NoDup (comp_part g labels c)) as Hnd.
    destruct (uniqueZ (comp_part g labels c)) as [|x [|y t]]; [|reflexivity|].
    + destruct (proj2 (Hall (lab labels v)) eq_refl).
    + exfalso. inversion Hnd as [|? ? Hni _]; subst. apply Hni.
      rewrite (proj1 (Hall x)) by (cbn; auto). rewrite <- (proj1 (Hall y)) by (cbn; auto). left; auto.
Qed.

Lemma improvable_not_opt labels c : wf g labels -> improvable_at O attr g (comp_nodes g c) labels ->
  ~ local_optimum O (attr_c attr g c) (comp_graph g c) (comp_part g labels c).
Proof.
  intros Hwf [a [K [Ha [Hl [x [y [Ex [Ey Hlt]]]]]]]] Ho. pose proof Hwf as [Hlen _].
  apply In_nth_error in Ha. destruct Ha as [i Hi].
  assert (Hle : (x <= y)%Q); [|lra]. apply (Ho i K x y).
  - eapply legal_to_comp; eauto.
  - exact Ex.
  - rewrite <- (comp_part_upd g labels c i a K Hlen Hi). exact Ey.
Qed.

(** ** C31 (partial).  Missing for the full property: islands that are local optima from the start with several
    regions (other than the first such island of a new object), one iteration only, region names already used
    by an earlier fit of the object, and k1 = 0: see the refutations. *)
Theorem C31_reactive_islands_partial s p initial r :
  valid_request g p (Some initial) -> each_ready O attr g max_iterations initial s ->
  (forall w z, In w (rt_visited s) -> In z w -> ~ In z initial) ->
  match reactive_fit order O (Z.to_nat max_iterations) k1 k2 g attr p (Some initial) s r with
  | Ok ((labels, s'), _) =>
      good_result O attr g (Z.to_nat p) initial labels /\
      (forall w z, In w (rt_visited s') -> In z w -> In w (rt_visited s) \/ In z initial)
  | Raise e => e = AttributeError
  | NoFuel => False
  end.
Proof.
  intros Hv Hready Hnames. destruct Hv as [Hp0 [Hf Hm1]]. pose proof Hf as [Hlen [Hn Hall]].
  assert (Hwf : wf g initial) by (split; auto).
  assert (Hpart : forall c z, In z (comp_part g initial c) -> In z initial).
  { intros c z Hz. apply comp_part_In in Hz; auto. destruct Hz as [a [_ [_ E]]]. eapply nth_error_In; eauto. }
  assert (Hpt : post (fun e => e = AttributeError) False
     (reactive_fit order O (Z.to_nat max_iterations) k1 k2 g attr p (Some initial) s r)
     (fun '((labels, s'), _) => reactive_inv g initial s (n_components g) s' /\ length labels = gn g /\ forall c, c < n_components g ->
       wf (comp_graph g c) (comp_part g labels c) /\
       (length (uniqueZ (comp_part g initial c)) = 1 -> comp_part g labels c = comp_part g initial c) /\
       descended O (attr_c attr g c) (comp_graph g c) (Z.to_nat max_iterations) (comp_part g initial c) (comp_part g labels c))).
  { apply (reactive_fit_islands O attr g Hsym Hattr order Hex initial s (Z.to_nat max_iterations)); auto; try lia.
    - intros w c Hw Hc Hs. destruct (comp_label_onto g c Hc) as [v [Hv Hcv]].
      assert (Hz : In (lab initial v) (comp_part g initial c)).
      { apply comp_part_In; auto. exists v. split; [auto|]. split; [auto|]. apply lab_nth_error. lia. }
      apply (Hnames w (lab initial v) Hw); [apply Hs; auto|eapply Hpart; eauto].
    - intros c Hc. destruct (comp_label_onto g c Hc) as [v [Hv <-]].
      destruct (Hready v _ Hv (comp_nodes_island g v Hv)) as [H|[[H2 H]|[H1 H2]]].
      + left. apply one_region_single; auto.
      + right; left. split; [lia|]. apply improvable_not_opt; auto.
      + right; right. split; [auto|]. intros c' Hc'.
        assert (Hcn : c' < n_components g) by lia. apply one_region_single; auto.
        set (first := hd 0 (comp_nodes g (comp_label g v))).
        assert (Hfirst : In first (comp_nodes g (comp_label g v)) /\ forall b, In b (comp_nodes g (comp_label g v)) -> first <= b).
        { destruct (comp_nodes_island g v Hv) as [Hsort _]. assert (Hvn : In v (comp_nodes g (comp_label g v))) by (apply comp_nodes_In; auto).
          unfold first. destruct (comp_nodes g (comp_label g v)) as [|f t]; [destruct Hvn|]. cbn [hd]. split; [left; auto|].
          intros b [<-|Hb]; [auto|]. inversion Hsort as [|? ? _ Hfa]; subst. rewrite Forall_forall in Hfa. specialize (Hfa b Hb). lia. }
        destruct Hfirst as [Hfi Hmin]. apply comp_nodes_In in Hfi. destruct Hfi as [Hfl Hfc].
        destruct (comp_label_growth g first c' Hfl ltac:(lia)) as [u [Hu Hcu]].
        apply (H2 u); [lia| |intros b Hb; specialize (Hmin b Hb); lia].
        rewrite <- Hcu. apply comp_nodes_island. lia. }
  destruct (reactive_fit _ _ _ _ _ _ _ _ _ _ _) as [[[labels s'] r']|e|]; cbn [post] in Hpt; [|auto|auto].
  destruct Hpt as [[Hvis _] [Hlen' HR]].
  assert (HF : forall c, c < n_components g ->
    same_labels (comp_part g labels c) (comp_part g initial c) /\
    (value O (attr_c attr g c) (comp_part g labels c) <= value O (attr_c attr g c) (comp_part g initial c))%Q /\
    (~ local_optimum O (attr_c attr g c) (comp_graph g c) (comp_part g initial c) ->
       (value O (attr_c attr g c) (comp_part g labels c) < value O (attr_c attr g c) (comp_part g initial c))%Q)).
  { intros c Hc. destruct (HR c Hc) as [_ [_ Hd]]. apply (descended_facts O (attr_c attr g c) (comp_graph g c) (Z.to_nat max_iterations)); auto.
    - apply attr_c_exact; auto.
    - apply attr_c_length.
    - apply wf_part; auto. }
  assert (Hcall : forall l c, length l = gn g ->
    o_call O (comp_part g l c) (attr_c attr g c) = Ok (value O (attr_c attr g c) (comp_part g l c))).
  { intros l c Hl. apply (call_val O (attr_c attr g c) (comp_graph g c)); [apply attr_c_length|apply attr_c_exact; auto|apply comp_part_length]. }
  assert (Hsame : same_labels labels initial).
  { apply (assembled_same_labels g initial labels); auto. intros c Hc. split; [apply HR; auto|apply HF; auto]. }
  split; [split; [split; [auto|split]|split]|].
  - rewrite <- Hn. apply same_labels_n. exact Hsame.
  - apply (assembled_wf g initial labels); auto. intros c Hc. split; [apply HR; auto|apply HF; auto].
  - exact Hsame.
  - intros v isl Hv Hi. rewrite (island_comp_nodes g v isl Hv Hi). set (c := comp_label g v).
    assert (Hc : c < n_components g) by (apply comp_label_lt; auto).
    destruct (HF c Hc) as [_ [Hle Hlt]]. destruct (HR c Hc) as [_ [Hsg _]]. split; [|split].
    + eexists _, _. split; [apply (Hcall initial c); auto|]. split; [apply (Hcall labels c); auto|exact Hle].
    + intros Him. eexists _, _. split; [apply (Hcall initial c); auto|]. split; [apply (Hcall labels c); auto|].
      apply Hlt, improvable_not_opt; auto.
    + intros H1. apply Hsg, one_region_single; auto.
  - intros w z Hw Hz. destruct (Hvis w Hw) as [H|[c [_ Hs]]]; [auto|right]. eapply Hpart, Hs; eauto.
Qed.
End Islands.

(** A new object: islands with a single region or with an improving move; the first island with several regions
    may be anything. *)
Theorem C31_reactive_new_partial order O g attr max_iterations k1 k2 c0 s p initial r labels s' r' :
  symmetric g -> length attr = gn g -> exact_on O attr -> reactive_new max_iterations c0 = Ok s -> 1 <= k1 ->
  valid_request g p (Some initial) -> each_ready O attr g max_iterations initial s ->
  reactive_fit order O (Z.to_nat max_iterations) k1 k2 g attr p (Some initial) s r = Ok ((labels, s'), r') ->
  good_result O attr g (Z.to_nat p) initial labels.
Proof.
  intros Hsym Hattr Hex Hnew Hk1 Hv Hready H. unfold reactive_new in Hnew.
  destruct (Z.leb_spec max_iterations 0) as [|Hm]; [discriminate|]. injection Hnew as <-.
  pose proof (C31_reactive_islands_partial order O g attr Hsym Hattr Hex max_iterations k1 k2 ltac:(lia) Hk1 _ p initial r Hv Hready) as Hp.
  rewrite H in Hp. apply Hp. intros w z [].
Qed.

(** A second fit of the object, with other data and other names for the regions. *)
Theorem C31_reactive_refit_partial order O g attr O2 g2 attr2 max_iterations k1 k2 c0 s p initial r labels s' r'
    p2 initial2 r2 labels2 s2 r2' :
  symmetric g -> length attr = gn g -> exact_on O attr -> reactive_new max_iterations c0 = Ok s -> 1 <= k1 ->
  valid_request g p (Some initial) -> each_ready O attr g max_iterations initial s ->
  reactive_fit order O (Z.to_nat max_iterations) k1 k2 g attr p (Some initial) s r = Ok ((labels, s'), r') ->
  symmetric g2 -> length attr2 = gn g2 -> exact_on O2 attr2 -> valid_request g2 p2 (Some initial2) ->
  (forall z, In z initial -> ~ In z initial2) -> each_ready O2 attr2 g2 max_iterations initial2 s' ->
  reactive_fit order O2 (Z.to_nat max_iterations) k1 k2 g2 attr2 p2 (Some initial2) s' r2 = Ok ((labels2, s2), r2') ->
  good_result O attr g (Z.to_nat p) initial labels /\ good_result O2 attr2 g2 (Z.to_nat p2) initial2 labels2.
Proof.
  intros Hsym Hattr Hex Hnew Hk1 Hv Hready H Hsym2 Hattr2 Hex2 Hv2 Hdis Hready2 H2. unfold reactive_new in Hnew.
  destruct (Z.leb_spec max_iterations 0) as [|Hm]; [discriminate|]. injection Hnew as <-.
  pose proof (C31_reactive_islands_partial order O g attr Hsym Hattr Hex max_iterations k1 k2 ltac:(lia) Hk1 _ p initial r Hv Hready) as Hp.
  rewrite H in Hp. destruct Hp as [Hg Hvis]; [intros w z []|]. split; [auto|].
  pose proof (C31_reactive_islands_partial order O2 g2 attr2 Hsym2 Hattr2 Hex2 max_iterations k1 k2 ltac:(lia) Hk1 _ p2 initial2 r2 Hv2 Hready2) as Hp2.
  rewrite H2 in Hp2. apply Hp2. intros w z Hw Hz. destruct (Hvis w z Hw Hz) as [[]|Hi]; auto.
Qed.

(** ** Examples: two islands of four areas, values 0 0 9 9 on both, three iterations. *)
Local Notation att := (map (fun q : Q => [q])).
Definition two_rows : graph :=
  mkG 8 (fun i j => (Nat.eqb (S i) j || Nat.eqb (S j) i) && negb (Nat.eqb (i + j) 7 && (Nat.eqb i 3 || Nat.eqb i 4)) &&
                    Nat.ltb i 8 && Nat.ltb j 8).
Lemma two_rows_symmetric : symmetric two_rows.
Proof.
  intros u v Hu Hv. cbn in Hu, Hv.
  do 8 (destruct u as [|u]; [do 8 (destruct v as [|v]; [reflexivity|]); lia|]). lia.
Qed.
Lemma two_rows_island v isl : v < 8 -> island two_rows v isl -> isl = [0;1;2;3] \/ isl = [4;5;6;7].
Proof.
  intros Hv Hi. rewrite (island_comp_nodes two_rows v isl Hv Hi).
  do 8 (destruct v as [|v]; [vm_compute; auto|]). lia.
Qed.
Definition row8 : list Q := [0;0;9;9;0;0;9;9]%Q.
Definition start8 : list Z := [0;1;1;1;2;3;3;3]%Z.

Lemma start8_valid : valid_request two_rows 4 (Some start8).
Proof. valid_tac. Qed.
Lemma start8_ready s : each_ready (pairwise manhattan) (att row8) two_rows 3 start8 s.
Proof.
  assert (Hwf : wf two_rows start8) by wf_tac.
  intros v isl Hv Hi. right; left. split; [lia|]. destruct (two_rows_island v isl Hv Hi) as [-> | ->].
  - exists 1, 0%Z. split; [cbn; auto|].
    split; [apply listed_legal; [apply two_rows_symmetric|auto|vm_compute; auto]|].
    eexists _, _. split; [vm_compute; reflexivity|]. split; [vm_compute; reflexivity|]. vm_compute. reflexivity.
  - exists 5, 2%Z. split; [cbn; auto|].
    split; [apply listed_legal; [apply two_rows_symmetric|auto|vm_compute; intuition]|].
    eexists _, _. split; [vm_compute; reflexivity|]. split; [vm_compute; reflexivity|]. vm_compute. reflexivity.
Qed.
Example C31_islands_example :
  valid_request two_rows 4 (Some start8) /\ each_ready (pairwise manhattan) (att row8) two_rows 3 start8 rt_fresh /\
  reactive_new 3 dum = Ok rt_fresh /\
  tabu_labels (reactive_ex 3 1 1 two_rows row8 4%Z (Some start8) rt_fresh rng0) = Some [0;0;1;1;2;2;3;3]%Z.
Proof.
  split; [apply start8_valid|]. split; [apply start8_ready|]. split; [reflexivity|]. vm_compute. reflexivity.
Qed.

(** The object of the example above is used a second time, for a row of four areas and regions named 7 and 8. *)
Example C31_refit_example :
  let s := rt_after (reactive_ex 3 1 1 two_rows row8 4%Z (Some start8) rt_fresh rng0) in
  length (rt_visited s) = 4 /\
  valid_request (path_graph 4) 2 (Some [7;8;8;8]%Z) /\ (forall z, In z start8 -> ~ In z [7;8;8;8]%Z) /\
  each_ready (pairwise manhattan) (att [0;0;9;9]%Q) (path_graph 4) 3 [7;8;8;8]%Z s /\
  tabu_labels (reactive_ex 3 1 1 (path_graph 4) [0;0;9;9]%Q 2%Z (Some [7;8;8;8]%Z) s rng0) = Some [7;7;8;8]%Z.
Proof.
  intros s. split; [vm_compute; reflexivity|]. split; [valid_tac|]. split; [|split; [|vm_compute; reflexivity]].
  - intros z Hz Hz'. cbn in Hz, Hz'. lia.
  - assert (Hwf : wf (path_graph 4) [7;8;8;8]%Z) by wf_tac.
    intros v isl Hv Hi. right; left. split; [lia|].
    assert (isl = [0;1;2;3]) as ->.
    { rewrite (island_comp_nodes (path_graph 4) v isl Hv Hi). cbn in Hv. do 4 (destruct v as [|v]; [reflexivity|]). lia. }
    exists 1, 7%Z. split; [cbn; auto|].
    split; [apply listed_legal; [apply path_symmetric|auto|vm_compute; auto]|].
    eexists _, _. split; [vm_compute; reflexivity|]. split; [vm_compute; reflexivity|]. vm_compute. reflexivity.
Qed.

Print Assumptions C31_reactive_islands_partial.
Print Assumptions C31_reactive_new_partial.
Print Assumptions C31_reactive_refit_partial.
