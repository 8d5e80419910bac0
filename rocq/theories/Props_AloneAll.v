(** Islands one by one, for any objective, any neighbour relation and for tabu search: C133. *)
From Verif Require Import Base Spec SpecData M_Graph M_Util M_Objective M_Azp M_Sa M_Tabu P_Base P_Util P_Graph P_Init P_Strategy P_Starts P_Sum P_Objective P_Fit P_Azp P_AzpFit P_Zoning
  P_Local P_Names P_Ext P_AloneAll Props_Azp Props_Descent Props_Tabu Props_Alone Examples.

(** ** the label array keeps its length, the plain strategy stays the plain strategy *)
Definition plain (s : strategy) : Prop := exists c, s = SAzp c.

Section Kept.
Variable expf : Q -> Q.
Variable g : graph.
Lemma call_plain s a K l r b s' r' : plain s -> strat_call expf s a K l r = Ok (b, s', r') -> plain s'.
Proof. intros [c ->] E. cbn [strat_call] in E. apply bind_Ok in E. destruct E as [[b' c'] [_ E]]. injection E as _ <- _. exists c'. auto. Qed.
Lemma try_kept k : forall cands K labels rn s r mv labels' rn' s' r', plain s ->
  try_candidates strategy (strat_call expf) g k cands K labels rn s r = Ok (mv, labels', rn', s', r') -> plain s' /\ length labels' = length labels.
Proof.
  induction k as [|k IH]; intros cands K labels rn s r mv labels' rn' s' r' Hs E; destruct cands as [|x cands]; cbn [try_candidates] in E; try discriminate;
    try (injection E as _ <- _ <- _; auto).
  apply bind_Ok in E. destruct E as [[[cand cands'] r1] [_ E]]. apply bind_Ok in E. destruct E as [[[ok s1] r2] [E1 E]].
  pose proof (call_plain _ _ _ _ _ _ _ _ Hs E1) as Hs1. destruct ok; [|eapply IH; eauto].
  cbn in E. injection E as _ <- _ <- _. split; [auto|]. unfold make_move. apply upd_length.
Qed.
Lemma grow_kept f : forall K labels rn s r labels' rn' s' r', plain s ->
  grow_recipient strategy (strat_call expf) g f K labels rn s r = Ok (labels', rn', s', r') -> plain s' /\ length labels' = length labels.
Proof.
  induction f as [|f IH]; intros K labels rn s r labels' rn' s' r' Hs E; cbn [grow_recipient] in E; [discriminate|].
  apply bind_Ok in E. destruct E as [ns [_ E]]. apply bind_Ok in E. destruct E as [[[[[mv l1] rn1] s1] r1] [E1 E]].
  destruct (try_kept _ _ _ _ _ _ _ _ _ _ _ _ Hs E1) as [H1 H2]. destruct mv.
  - destruct (IH _ _ _ _ _ _ _ _ _ H1 E). split; [auto|congruence].
  - injection E as <- <- <- <-. auto.
Qed.
Lemma pass_kept f k : forall regions labels rn s r labels' rn' s' r', plain s ->
  azp_pass strategy (strat_call expf) g f k regions labels rn s r = Ok (labels', rn', s', r') -> plain s' /\ length labels' = length labels.
Proof.
  induction k as [|k IH]; intros regions labels rn s r labels' rn' s' r' Hs E; destruct regions as [|x regions]; cbn [azp_pass] in E; try discriminate;
    try (injection E as <- _ <- _; auto).
  apply bind_Ok in E. destruct E as [[[K Ks] r1] [_ E]]. apply bind_Ok in E. destruct E as [[[[l1 rn1] s1] r2] [E1 E]].
  destruct (grow_kept _ _ _ _ _ _ _ _ _ _ Hs E1) as [H1 H2]. destruct (IH _ _ _ _ _ _ _ _ _ H1 E). split; [auto|congruence].
Qed.
Lemma loop_kept f : forall start regions labels rn s r labels' s' r', plain s ->
  azp_loop strategy (strat_call expf) strat_val g f start regions labels rn s r = Ok (labels', s', r') -> plain s' /\ length labels' = length labels.
Proof.
  induction f as [|f IH]; intros start regions labels rn s r labels' s' r' Hs E; cbn [azp_loop] in E; destruct (match start with Some _ => _ | None => _ end); try discriminate;
    try (injection E as <- <- _; auto).
  apply bind_Ok in E. destruct E as [[[[l1 rn1] s1] r2] [E1 E]]. destruct (pass_kept _ _ _ _ _ _ _ _ _ _ _ Hs E1) as [H1 H2].
  destruct (IH _ _ _ _ _ _ _ _ _ H1 E). split; [auto|congruence].
Qed.
Lemma component_kept f labels s r labels' s' r' : plain s ->
  azp_component strategy (strat_call expf) strat_val g f labels s r = Ok (labels', s', r') -> plain s' /\ length labels' = length labels.
Proof.
  intros Hs E. unfold azp_component in E. destruct (uniqueZ labels) as [|z [|z' us]]; [discriminate|injection E as <- <- _; auto|]. eapply loop_kept; eauto.
Qed.

Lemma make_kept maxlen a K labels tabu labels' tabu' ok : make_move_tabu g maxlen a K labels tabu = Ok (labels', tabu', ok) -> length labels' = length labels.
Proof.
  unfold make_move_tabu. cbv zeta. intros E. apply bind_Ok in E. destruct E as [b [_ E]]. unfold make_move in E. destruct b; injection E as <- _ _; rewrite !upd_length; auto.
Qed.
Lemma trym_kept maxlen m labels tabu c labels' tabu' c' : try_move g maxlen m labels tabu c = Ok (labels', tabu', c') -> length labels' = length labels.
Proof.
  unfold try_move. intros E. apply bind_Ok in E. destruct E as [[ok c1] [_ E]]. destruct ok; [|injection E as <- _ _; auto].
  apply bind_Ok in E. destruct E as [[[l1 t1] b] [E1 E]]. injection E as <- _ _. eapply make_kept; eauto.
Qed.
Lemma basic_loop_kept O f maxlen reps attr : forall stop visited labels tabu c r labels' c' r',
  basic_loop O g f maxlen reps attr stop visited labels tabu c r = Ok (labels', c', r') -> length labels' = length labels.
Proof.
  induction f as [|f IH]; intros stop visited labels tabu c r labels' c' r' E; cbn [basic_loop] in E; [discriminate|]. cbv zeta in E.
  apply bind_Ok in E. destruct E as [best [_ E]]. apply bind_Ok in E. destruct E as [[[[made l1] t1] c1] [E1 E]].
  assert (H1 : length l1 = length labels).
  { destruct best as [[[m i] q]|]; [|injection E1 as _ <- _ _; auto]. destruct (Qle_bool q 0); [|injection E1 as _ <- _ _; auto].
    apply bind_Ok in E1. destruct E1 as [[ok c2] [_ E1]]. destruct ok; [|injection E1 as _ <- _ _; auto].
    apply bind_Ok in E1. destruct E1 as [[[l2 t2] b] [E2 E1]]. injection E1 as _ <- _ _. eapply make_kept; eauto. }
  destruct made; [apply IH in E; congruence|]. apply bind_Ok in E. destruct E as [its [_ E]]. apply bind_Ok in E. destruct E as [[[[l2 t2] c2] r2] [E2 E]].
  assert (H2 : length l2 = length l1).
  { destruct its as [|x its]; [injection E2 as <- _ _ _; auto|]. apply bind_Ok in E2. destruct E2 as [[m r3] [_ E2]].
    apply bind_Ok in E2. destruct E2 as [[[l3 t3] c3] [E3 E2]]. injection E2 as <- _ _ _. eapply trym_kept; eauto. }
  destruct (stop || _)%bool; [injection E as <- _ _; congruence|]. apply bind_Ok in E. destruct E as [[[l3 t3] c3] [E3 E]].
  assert (H3 : length l3 = length l2) by (destruct best as [[[m i] q]|]; [eapply trym_kept; eauto|injection E3 as <- _ _; auto]).
  apply IH in E. congruence.
Qed.
Lemma basic_component_kept O f maxlen reps labels attr c r labels' c' r' :
  basic_component O g f maxlen reps labels attr c r = Ok (labels', c', r') -> length labels' = length labels.
Proof. unfold basic_component. destruct (Nat.eqb _ 1); [intros E; injection E as <- _ _; auto|apply basic_loop_kept]. Qed.
End Kept.

(** * C133: every island is treated as if it were alone *)

(** AZPBasicTabu.fit from given labels can return [labels] exactly if, for every island, it can return this part of [labels] when it is
    given nothing but the island.  For any objective, any neighbour relation, any settings. *)
Theorem C133_basic_tabu order O fuel maxlen reps g attr p initial c0 labels : valid_request g p (Some initial) ->
  ((exists r c r', basic_fit order O fuel maxlen reps g attr p (Some initial) c0 r = Ok ((labels, c), r')) <->
   length labels = gn g /\ forall v isl, v < gn g -> island g v isl ->
     exists r c r', basic_fit order O fuel maxlen reps (alone g isl) (rows_at attr isl) (Z.of_nat (n_labels (labels_at initial isl)))
       (Some (labels_at initial isl)) c0 r = Ok ((labels_at labels isl, c), r')).
Proof.
  intros Hv. unfold basic_fit. apply (fit_alone common _ _ (fun _ => True)); auto.
  - intros h l rows s r l' s' r' _ E. split; [exact I|]. eapply basic_component_kept; eauto.
  - intros h l rows s r x r' _ E. eapply basic_component_local; eauto.
  - intros h h' l rows s r H. apply basic_component_links; auto.
Qed.

(** AZP.fit: the same, for any objective and any neighbour relation. *)
Theorem C133_azp expf order O fuel g attr p initial c0 labels : valid_request g p (Some initial) ->
  ((exists r s' r', azp_fit expf order O fuel g attr p (Some initial) (SAzp c0) r = Ok ((labels, s'), r')) <->
   length labels = gn g /\ forall v isl, v < gn g -> island g v isl ->
     exists r s' r', azp_fit expf order O fuel (alone g isl) (rows_at attr isl) (Z.of_nat (n_labels (labels_at initial isl)))
       (Some (labels_at initial isl)) (SAzp c0) r = Ok ((labels_at labels isl, s'), r')).
Proof.
  intros Hv. unfold azp_fit. apply (fit_alone strategy _ _ plain); auto.
  - intros s s' l rows idx idx' [c ->] [c' ->]. reflexivity.
  - intros s l rows idx s' [c ->] E. cbn [strat_start] in E. apply bind_Ok in E. destruct E as [c1 [_ E]]. injection E as <-. exists c1. auto.
  - intros h l rows s r l' s' r' Hs E. eapply component_kept; eauto.
  - intros h l rows s r x r' _ E. eapply component_local; [|exact E]. apply strat_call_local.
  - intros h h' l rows s r H. apply component_links; auto.
  - exists c0. auto.
Qed.

(** Two maps that agree on an island: what one call has returned there, the other call can return there too, together with anything that
    it returns elsewhere. *)
Theorem C133_basic_tabu_elsewhere order O fuel maxlen reps g attr p initial g' attr' p' initial' c0 c0' v isl r labels c1 r1 q other c2 r2 :
  valid_request g p (Some initial) -> valid_request g' p' (Some initial') ->
  v < gn g -> v < gn g' -> island g v isl -> island g' v isl ->
  (forall a b, In a isl -> In b isl -> gadj g' a b = gadj g a b) -> (forall a, In a isl -> nth a attr' [] = nth a attr []) ->
  (forall a, In a isl -> lab initial' a = lab initial a) ->
  basic_fit order O fuel maxlen reps g attr p (Some initial) c0 r = Ok ((labels, c1), r1) ->
  basic_fit order O fuel maxlen reps g' attr' p' (Some initial') c0' q = Ok ((other, c2), r2) ->
  exists q' both c2' r2', basic_fit order O fuel maxlen reps g' attr' p' (Some initial') c0' q' = Ok ((both, c2'), r2') /\
    length both = gn g' /\ (forall a, In a isl -> lab both a = lab labels a) /\
    (forall a, a < gn g' -> ~ In a isl -> lab both a = lab other a).
Proof.
  intros Hv Hv' Hlt Hlt' Hi Hi' Eg Er El E E'. unfold basic_fit in *.
  edestruct (fit_elsewhere common (fun _ labels rows _ => start_common labels rows O) (fun adj labels rows c r => basic_component O adj fuel maxlen reps labels rows c r) (fun _ => True))
    with (g := g) (g' := g') (isl := isl) (labels := labels) (other := other) as [q' [c2' [r2' H]]]; try eassumption; auto.
  - intros h l rows s r0 l' s' r' _ E0. split; [exact I|]. eapply basic_component_kept; eauto.
  - intros h l rows s r0 x r' _ E0. eapply basic_component_local; eauto.
  - intros h h' l rows s r0 H. apply basic_component_links; auto.
  - eexists q', _, c2', r2'. split; [exact H|]. apply glued_labels. intros a Ha. eapply island_lt; [exact Hlt'|exact Hi'|auto].
Qed.
Theorem C133_azp_elsewhere expf order O fuel g attr p initial g' attr' p' initial' c0 c0' v isl r labels s1 r1 q other s2 r2 :
  valid_request g p (Some initial) -> valid_request g' p' (Some initial') ->
  v < gn g -> v < gn g' -> island g v isl -> island g' v isl ->
  (forall a b, In a isl -> In b isl -> gadj g' a b = gadj g a b) -> (forall a, In a isl -> nth a attr' [] = nth a attr []) ->
  (forall a, In a isl -> lab initial' a = lab initial a) ->
  azp_fit expf order O fuel g attr p (Some initial) (SAzp c0) r = Ok ((labels, s1), r1) ->
  azp_fit expf order O fuel g' attr' p' (Some initial') (SAzp c0') q = Ok ((other, s2), r2) ->
  exists q' both s2' r2', azp_fit expf order O fuel g' attr' p' (Some initial') (SAzp c0') q' = Ok ((both, s2'), r2') /\
    length both = gn g' /\ (forall a, In a isl -> lab both a = lab labels a) /\
    (forall a, a < gn g' -> ~ In a isl -> lab both a = lab other a).
Proof.
  intros Hv Hv' Hlt Hlt' Hi Hi' Eg Er El E E'. unfold azp_fit in *.
  edestruct (fit_elsewhere strategy (strat_start O) (fun adj labels _ s r => azp_component strategy (strat_call expf) strat_val adj fuel labels s r) plain)
    with (g := g) (g' := g') (isl := isl) (labels := labels) (other := other) as [q' [c2' [r2' H]]]; try eassumption; auto.
  - intros s s' l rows idx idx' [c ->] [c' ->]. reflexivity.
  - intros s l rows idx s' [c ->] E0. cbn [strat_start] in E0. apply bind_Ok in E0. destruct E0 as [c1 [_ E0]]. injection E0 as <-. exists c1. auto.
  - intros h l rows s r0 l' s' r' Hs E0. eapply component_kept; eauto.
  - intros h l rows s r0 x r' _ E0. eapply component_local; [|exact E0]. apply strat_call_local.
  - intros h h' l rows s r0 H. apply component_links; auto.
  - exists c0. auto.
  - exists c0'. auto.
  - eexists q', _, c2', r2'. split; [exact H|]. apply glued_labels. intros a Ha. eapply island_lt; [exact Hlt'|exact Hi'|auto].
Qed.

(** ** Examples *)
Local Notation att := (map (fun q : Q => [q])).
(** The four areas 0-3 of a neighbour relation that is not mutual (1 lists 2, 2 does not list 1), beside an island 4-5 *)
Definition lopsided_two : graph :=
  mkG 6 (fun i j => existsb (fun e => Nat.eqb (fst e) i && Nat.eqb (snd e) j) [(0,1);(1,0);(0,2);(2,0);(2,3);(3,2);(1,2);(4,5)]).
(** Basic tabu search and AZP, with the largest deviation from the mean as objective, on both islands at once and on each of them alone *)
Example C133_example : let O := centered manhattan mean_row maxQ in
  valid_request lopsided_two 3 (Some [0;1;1;1;2;2]%Z) /\ island lopsided_two 0 [0;1;2;3] /\ island lopsided_two 4 [4;5] /\ ~ symmetric lopsided_two /\
  tabu_labels (basic_fit same_order O 400 (Some 3) 2 lopsided_two (att [0;1;0;9;5;6]%Q) 3%Z (Some [0;1;1;1;2;2]%Z) dum rng0) = Some [0;0;0;1;2;2]%Z /\
  tabu_labels (basic_fit same_order O 400 (Some 3) 2 (alone lopsided_two [0;1;2;3]) (att [0;1;0;9]%Q) 2%Z (Some [0;1;1;1]%Z) dum rng0) = Some [0;0;0;1]%Z /\
  tabu_labels (basic_fit same_order O 400 (Some 3) 2 (alone lopsided_two [4;5]) (att [5;6]%Q) 1%Z (Some [2;2]%Z) dum rng0) = Some [2;2]%Z /\
  tabu_labels (azp_fit expd same_order O 400 lopsided_two (att [0;1;0;9;5;6]%Q) 3%Z (Some [0;1;1;1;2;2]%Z) (SAzp dum) rng0) = Some [0;0;0;1;2;2]%Z /\
  tabu_labels (azp_fit expd same_order O 400 (alone lopsided_two [0;1;2;3]) (att [0;1;0;9]%Q) 2%Z (Some [0;1;1;1]%Z) (SAzp dum) rng0) = Some [0;0;0;1]%Z.
Proof.
  cbv zeta. split; [valid_tac|].
  split; [apply (comp_nodes_island lopsided_two 0); cbn; lia|]. split; [apply (comp_nodes_island lopsided_two 4); cbn; lia|].
  split; [intros H; specialize (H 4 5 ltac:(cbn; lia) ltac:(cbn; lia)); vm_compute in H; discriminate|].
  repeat split; vm_compute; reflexivity.
Qed.
(** C133_elsewhere: the same four areas beside another island, with values 1 8 in two regions *)
Example C133_elsewhere_example : let O := centered manhattan mean_row maxQ in
  valid_request lopsided_two 4 (Some [0;1;1;1;5;3]%Z) /\
  tabu_labels (basic_fit same_order O 400 (Some 3) 2 lopsided_two (att [0;1;0;9;1;8]%Q) 4%Z (Some [0;1;1;1;5;3]%Z) dum rng0) = Some [0;0;0;1;5;3]%Z /\
  tabu_labels (azp_fit expd same_order O 400 lopsided_two (att [0;1;0;9;1;8]%Q) 4%Z (Some [0;1;1;1;5;3]%Z) (SAzp dum) rng0) = Some [0;0;0;1;5;3]%Z.
Proof. cbv zeta. split; [valid_tac|]. split; vm_compute; reflexivity. Qed.

Print Assumptions C133_basic_tabu.
Print Assumptions C133_azp.
Print Assumptions C133_basic_tabu_elsewhere.
Print Assumptions C133_azp_elsewhere.
