(** The results that AZPBasicTabu.fit can return, as a search on labels: C150. *)
From Verif Require Import Base Spec SpecData SpecTabu M_Graph M_Util M_Objective M_Azp M_Sa M_Tabu P_Base P_Util P_Graph P_Init P_Strategy P_Starts P_Sum P_Objective P_Fit P_Azp P_AzpFit P_Zoning
  P_Local P_Names P_Ext P_Greedy P_Tabu P_TabuWalk P_AloneAll Props_Azp Props_Descent Props_Tabu Props_Alone Props_AloneAll Examples.

Lemma basic_only order O fuel maxlen reps h rows p l c0 labels : n_components h = 1 -> (forall i j, gadj h i j = true -> i < gn h /\ j < gn h) ->
  length rows = gn h -> valid_request h p (Some l) ->
  ((exists r c r', basic_fit order O fuel maxlen reps h rows p (Some l) c0 r = Ok ((labels, c), r')) <->
   exists c1 r c r', start_common l rows O = Ok c1 /\ basic_component O h fuel maxlen reps l rows c1 r = Ok (labels, c, r')).
Proof.
  intros Hone Hin Hrows Hv. unfold basic_fit. apply (fit_only common (fun _ labels rows _ => start_common labels rows O)
    (fun adj labels rows c r => basic_component O adj fuel maxlen reps labels rows c r) (fun _ => True)); auto.
  - intros h0 l0 rows0 s r l' s' r' _ E. split; [exact I|]. eapply basic_component_kept; eauto.
  - intros h0 h' l0 rows0 s r H. apply basic_component_links; auto.
Qed.

(** ** one island *)
Lemma island_search order O maxlen reps h rows p l c0 labels : symmetric h -> n_components h = 1 ->
  (forall i j, gadj h i j = true -> i < gn h /\ j < gn h) -> length rows = gn h -> exact_on O rows -> valid_request h p (Some l) ->
  ((exists fuel r c r', basic_fit order O fuel maxlen reps h rows p (Some l) c0 r = Ok ((labels, c), r')) <-> tabu_search O rows h maxlen reps l labels).
Proof.
  intros Hsym Hone Hin Hrows Hex Hv. assert (Hw : wf h l) by (destruct Hv as [_ [[Hl [_ Hall]] _]]; split; auto).
  assert (Hobj : exact_objective O rows) by (apply Hex; auto). destruct (proj1 Hobj l) as [v Ev]; [rewrite Hrows; apply Hw|].
  assert (Es : start_common l rows O = Ok (mkCommon rows O v)) by (unfold start_common; rewrite Ev; reflexivity). split.
  - intros [fuel [r [c [r' E]]]]. assert (H : exists r c r', basic_fit order O fuel maxlen reps h rows p (Some l) c0 r = Ok ((labels, c), r')) by (do 3 eexists; exact E).
    apply basic_only in H; auto. destruct H as [c1 [r1 [c2 [r2 [E1 E2]]]]]. rewrite Es in E1. injection E1 as <-.
    eapply component_walk_sound; [exact Hsym|exact Hrows|exact Hobj|exact Hw| |exact E2]. split; reflexivity.
  - intros H. destruct (component_walk_complete O rows h Hsym Hrows Hobj maxlen reps l labels (mkCommon rows O v) Hw ltac:(split; reflexivity) H) as [fuel [r [c' [r' E]]]].
    exists fuel. apply basic_only; auto. do 4 eexists. split; [exact Es|exact E].
Qed.
Lemma island_more order O maxlen reps h rows p l c0 labels fuel k : n_components h = 1 ->
  (forall i j, gadj h i j = true -> i < gn h /\ j < gn h) -> length rows = gn h -> valid_request h p (Some l) ->
  (exists r c r', basic_fit order O fuel maxlen reps h rows p (Some l) c0 r = Ok ((labels, c), r')) ->
  exists r c r', basic_fit order O (fuel + k) maxlen reps h rows p (Some l) c0 r = Ok ((labels, c), r').
Proof.
  intros Hone Hin Hrows Hv H. apply basic_only in H; auto. apply basic_only; auto. destruct H as [c1 [r1 [c2 [r2 [E1 E2]]]]].
  exists c1, r1, c2, r2. split; [exact E1|]. apply basic_component_more. exact E2.
Qed.

Lemma common_fuel (P : nat -> nat -> Prop) n : (forall v, v < n -> exists f, P v f) -> (forall v f k, P v f -> P v (f + k)) ->
  exists f, forall v, v < n -> P v f.
Proof.
  intros H Hm. induction n as [|n IH]; [exists 0; intros v Hv; lia|].
  destruct IH as [f1 H1]; [intros v Hv; apply H; lia|]. destruct (H n ltac:(lia)) as [f2 H2]. exists (f1 + f2). intros v Hv.
  destruct (Nat.eq_dec v n) as [->|Hne]; [rewrite Nat.add_comm; apply Hm; auto|apply Hm, H1; lia].
Qed.

(** * C150: the results that AZPBasicTabu.fit can return from given labels *)

(** [labels] can be returned exactly if on every island the tabu search leads from the given labels to [labels]:
    as long as the best legal move that takes back none of the last [tabu_length] attempts does not raise the objective,
    it is made; otherwise a tabu move that lowers the objective is tried, then the best move once more.  The search ends
    when some labels have been met more than [reps] times and no move was made.  For any exact objective. *)
Theorem C150_basic_tabu_outcomes order O tabu_length reps g attr p initial c0 labels :
  symmetric g -> length attr = gn g -> exact_on O attr -> valid_request g p (Some initial) ->
  ((exists fuel r c r', basic_fit order O fuel tabu_length reps g attr p (Some initial) c0 r = Ok ((labels, c), r')) <->
   length labels = gn g /\ forall v isl, v < gn g -> island g v isl ->
     tabu_search O (rows_at attr isl) (alone g isl) tabu_length reps (labels_at initial isl) (labels_at labels isl)).
Proof.
  intros Hsym Ha Hex Hv.
  assert (Hside : forall v isl, v < gn g -> island g v isl -> symmetric (alone g isl) /\ n_components (alone g isl) = 1 /\
    (forall i j, gadj (alone g isl) i j = true -> i < gn (alone g isl) /\ j < gn (alone g isl)) /\ length (rows_at attr isl) = gn (alone g isl) /\
    exact_on O (rows_at attr isl) /\ valid_request (alone g isl) (Z.of_nat (n_labels (labels_at initial isl))) (Some (labels_at initial isl))).
  { intros v isl Hlt Hi. split; [eapply alone_symmetric; eauto|]. split.
    { rewrite (island_comp_nodes g v isl Hlt Hi), <- comp_alone. apply one_comp, comp_connected. apply comp_label_lt; auto. }
    split; [apply alone_in|]. split; [unfold rows_at; rewrite map_length; reflexivity|]. split; [eapply rows_exact; eauto|eapply alone_request; eauto]. }
  split.
  - intros [fuel H]. apply C133_basic_tabu in H; [|exact Hv]. destruct H as [Hl H]. split; [exact Hl|]. intros v isl Hlt Hi.
    destruct (Hside v isl Hlt Hi) as [H1 [H2 [H3 [H4 [H5 H6]]]]].
    apply (island_search order O tabu_length reps (alone g isl) (rows_at attr isl) (Z.of_nat (n_labels (labels_at initial isl))) (labels_at initial isl) c0 (labels_at labels isl)); auto.
    exists fuel. apply (H v isl Hlt Hi).
  - intros [Hl H]. set (P := fun v f => exists r c r', basic_fit order O f tabu_length reps (alone g (comp_nodes g (comp_label g v))) (rows_at attr (comp_nodes g (comp_label g v)))
      (Z.of_nat (n_labels (labels_at initial (comp_nodes g (comp_label g v))))) (Some (labels_at initial (comp_nodes g (comp_label g v)))) c0 r =
      Ok ((labels_at labels (comp_nodes g (comp_label g v)), c), r')).
    destruct (common_fuel (fun v f => v < gn g -> P v f) (gn g)) as [fuel Hf].
    + intros v Hlt. assert (Hi : island g v (comp_nodes g (comp_label g v))) by (apply comp_nodes_island; auto).
      destruct (Hside v _ Hlt Hi) as [H1 [H2 [H3 [H4 [H5 H6]]]]].
      destruct (proj2 (island_search order O tabu_length reps _ _ _ _ c0 _ H1 H2 H3 H4 H5 H6) (H v _ Hlt Hi)) as [f Hf]. exists f. intros _. exact Hf.
    + intros v f k Hf Hlt. assert (Hi : island g v (comp_nodes g (comp_label g v))) by (apply comp_nodes_island; auto).
      destruct (Hside v _ Hlt Hi) as [H1 [H2 [H3 [H4 [H5 H6]]]]]. apply island_more; auto. apply Hf. exact Hlt.
    + exists fuel. apply C133_basic_tabu; [exact Hv|]. split; [exact Hl|]. intros v isl Hlt Hi. rewrite (island_comp_nodes g v isl Hlt Hi). apply Hf; auto.
Qed.

(** Three areas in a row with equal attributes: moving area 1 to and fro changes nothing.  With a tabu list of length 1 the search makes
    the move once and ends there; without one ([tabu_length] 0) it goes to and fro. *)
Local Notation att := (map (fun q : Q => [q])).
Example C150_example : let O := pairwise manhattan in let g := path_graph 3 in
  symmetric g /\ exact_on O (att [7; 7; 7]%Q) /\ valid_request g 2 (Some [0; 0; 1]%Z) /\
  tabu_labels (basic_fit same_order O 50 (Some 1) 2 g (att [7; 7; 7]%Q) 2%Z (Some [0; 0; 1]%Z) dum rng0) = Some [0; 1; 1]%Z /\
  tabu_labels (basic_fit same_order O 50 (Some 0) 2 g (att [7; 7; 7]%Q) 2%Z (Some [0; 0; 1]%Z) dum rng0) = None.
Proof.
  cbv zeta. split; [apply path_symmetric|]. split; [apply pairwise_exact_on; [apply manhattan_sym|apply manhattan_zero]|]. split; [valid_tac|].
  split; vm_compute; reflexivity.
Qed.

Print Assumptions C150_basic_tabu_outcomes.
