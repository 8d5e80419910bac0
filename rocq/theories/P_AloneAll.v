(** Island by island, for any search whose outcome on a component does not depend on what it remembers. *)
From Verif Require Import Base Spec SpecData M_Graph M_Util M_Objective M_Azp M_Sa M_Tabu P_Base P_Util P_Graph P_Init P_Fit P_Azp P_AzpFit P_Strategy P_Starts P_Sum P_Objective P_Zoning P_Descent P_Names P_Anneal P_TabuNames P_Ext Props_Alone.

Lemma alone_links g g' isl : (forall a b, In a isl -> In b isl -> gadj g' a b = gadj g a b) -> same_links (alone g isl) (alone g' isl).
Proof.
  intros H. split; [reflexivity|]. intros i j. cbn. destruct (nth_error isl i) as [a|] eqn:Ea; [|auto]. destruct (nth_error isl j) as [b|] eqn:Eb; [|auto].
  symmetry. apply H; eapply nth_error_In; eauto.
Qed.
Lemma whole_links h : n_components h = 1 -> (forall i j, gadj h i j = true -> i < gn h /\ j < gn h) -> same_links (comp_graph h 0) h.
Proof.
  intros Hone Hin. pose (attr := repeat (@nil Q) (gn h)). assert (Ha : length attr = gn h) by apply repeat_length.
  split; [apply (whole_n h attr Ha Hone)|]. intros i j. destruct (Nat.lt_ge_cases i (gn h)) as [Hi|Hi]; [destruct (Nat.lt_ge_cases j (gn h)) as [Hj|Hj]|].
  - apply (whole_adj h attr Ha Hone); auto.
  - assert (E : gadj h i j = false) by (destruct (gadj h i j) eqn:E; auto; apply Hin in E; lia). rewrite E.
    unfold comp_graph. cbn. rewrite sub_nodes_nil, (whole_nodes h attr Ha Hone). rewrite (proj2 (nth_error_None (seq 0 (gn h)) j)) by (rewrite seq_length; lia).
    destruct (nth_error _ i); auto.
  - assert (E : gadj h i j = false) by (destruct (gadj h i j) eqn:E; auto; apply Hin in E; lia). rewrite E.
    unfold comp_graph. cbn. rewrite sub_nodes_nil, (whole_nodes h attr Ha Hone). rewrite (proj2 (nth_error_None (seq 0 (gn h)) i)) by (rewrite seq_length; lia). auto.
Qed.

Section Generic.
Variable S : Type.
Variable start : S -> list Z -> list (list Q) -> list nat -> out S.
Variable component : graph -> list Z -> list (list Q) -> S -> rng -> out (list Z * S * rng).
Variable fine : S -> Prop.
Hypothesis Hstart : forall s s' l rows idx idx', fine s -> fine s' -> start s l rows idx = start s' l rows idx'.
Hypothesis Hfine1 : forall s l rows idx s', fine s -> start s l rows idx = Ok s' -> fine s'.
Hypothesis Hfine2 : forall h l rows s r l' s' r', fine s -> component h l rows s r = Ok (l', s', r') -> fine s' /\ length l' = length l.
Hypothesis Hlocal : forall h l rows s r x r', fine s -> component h l rows s r = Ok (x, r') -> forall q', exists q, component h l rows s q = Ok (x, q').
Hypothesis Hlinks : forall h h' l rows s r, same_links h h' -> component h l rows s r = component h' l rows s r.
Variable order : list edge -> list edge.

Definition runs (g : graph) (attr : list (list Q)) (c : nat) (l l' : list Z) : Prop :=
  exists s r s' r', fine s /\ run_component S start component g attr c l s r = Ok (l', s', r').

Lemma threads_runs g attr l0 target : forall cs, threads g unit (fun c l l' _ _ => runs g attr c l l') l0 target cs tt tt <->
  forall c, In c cs -> runs g attr c (comp_part g l0 c) (comp_part g target c).
Proof.
  induction cs as [|c cs IH]; cbn [threads In].
  - split; [intros _ c []|auto].
  - split.
    + intros [[] [H1 H2]] c' [ <- | Hc]; [auto|]. apply IH; auto.
    + intros H. exists tt. split; [auto|]. apply IH. auto.
Qed.

(** the outcomes from given labels, island by island *)
Lemma fit_parts g attr p initial s0 labels : fine s0 -> valid_request g p (Some initial) ->
  ((exists r s' r', fit S start component order g attr p (Some initial) s0 r = Ok ((labels, s'), r')) <->
   length labels = gn g /\ forall c, c < n_components g -> runs g attr c (comp_part g initial c) (comp_part g labels c)).
Proof.
  intros Hs0 [Hp [Hfeas Hm1]]. pose proof Hfeas as [Hl0 [Hn Hall]]. assert (Hwf : wf g initial) by (split; auto).
  assert (Hsound : forall (c : nat) (l : list Z) (s : S) (x : unit) (r : rng) (l' : list Z) (s' : S) (r' : rng),
    c < n_components g -> wf (comp_graph g c) l -> fine s -> run_component S start component g attr c l s r = Ok (l', s', r') ->
    length l' = length l /\ exists x' : unit, runs g attr c l l' /\ fine s').
  { intros c l s x r l' s' r' Hc Hw Hs E. pose proof E as E0. unfold run_component in E. apply bind_Ok in E. destruct E as [s1 [E1 E2]].
    pose proof (Hfine2 _ _ _ _ _ _ _ _ (Hfine1 _ _ _ _ _ Hs E1) E2) as [H1 H2]. split; [auto|]. exists tt. split; [|auto]. exists s, r, s', r'. auto. }
  assert (Hreach : forall (c : nat) (l : list Z) (s : S) (x : unit) (l' : list Z) (x' : unit), c < n_components g -> wf (comp_graph g c) l -> fine s -> runs g attr c l l' ->
    exists s' : S, fine s' /\ forall r', exists r, run_component S start component g attr c l s r = Ok (l', s', r')).
  { intros c l s x l' x' Hc Hw Hs [s1 [r [s' [r' [Hs1 E]]]]]. pose proof E as E0. unfold run_component in E. apply bind_Ok in E. destruct E as [s2 [E1 E2]].
    pose proof (Hfine1 _ _ _ _ _ Hs1 E1) as Hs2. exists s'. split; [eapply Hfine2; eauto|]. intros q'.
    destruct (Hlocal _ _ _ _ _ _ _ Hs2 E2 q') as [q Hq]. exists q. unfold run_component. rewrite (Hstart s s1 _ _ _ (comp_nodes g c) Hs Hs1), E1. exact Hq. }
  split.
  - intros [r [s' [r' E]]].
    destruct (threads_sound S start component g attr unit (fun _ => fine) (fun c l l' _ _ => runs g attr c l l') Hsound initial Hwf Hm1 order p Hfeas Hp s0 r tt labels s' r' Hs0 E)
      as [Hl [[] [H _]]]. split; [auto|]. intros c Hc. apply (threads_runs g attr initial labels (seq 0 (n_components g))); [auto|]. apply in_seq. lia.
  - intros [Hl H].
    destruct (threads_reach S start component g attr unit (fun _ => fine) (fun c l l' _ _ => runs g attr c l l') Hreach initial Hwf Hm1 order p Hfeas Hp s0 tt labels tt Hs0 Hl)
      as [s' [_ Hr]].
    + apply threads_runs. intros c Hc. apply H. apply in_seq in Hc. lia.
    + destruct (Hr (fun k => k)) as [r Hr']. exists r, s', (fun k => k). exact Hr'.
Qed.

(** the only island *)
Lemma fit_only h rows p l s0 labels : fine s0 -> n_components h = 1 -> (forall i j, gadj h i j = true -> i < gn h /\ j < gn h) -> length rows = gn h ->
  valid_request h p (Some l) ->
  ((exists r s' r', fit S start component order h rows p (Some l) s0 r = Ok ((labels, s'), r')) <->
   exists s1 r s' r', start s0 l rows (seq 0 (gn h)) = Ok s1 /\ component h l rows s1 r = Ok (labels, s', r')).
Proof.
  intros Hs0 Hone Hin Hrows Hv. pose proof Hv as [_ [[Hl _] _]].
  assert (Hw := fit_whole S start component order h rows Hrows Hone p l).
  split.
  - intros [r [s' [r' E]]]. rewrite Hw in E by auto. apply bind_Ok in E. destruct E as [s1 [E1 E2]]. apply bind_Ok in E2. destruct E2 as [[[l' s2] r2] [E2 E3]].
    destruct (Hfine2 _ _ _ _ _ _ _ _ (Hfine1 _ _ _ _ _ Hs0 E1) E2) as [_ Hl'].
    rewrite (assign_whole h rows Hrows Hone l') in E3 by congruence. cbn [bind] in E3. injection E3 as <- <- <-. exists s1, r, s2, r2.
    split; [auto|]. rewrite <- E2. apply Hlinks. apply same_links_sym, whole_links; auto.
  - intros [s1 [r [s' [r' [E1 E2]]]]]. exists r, s', r'. rewrite Hw by auto. rewrite E1. cbn [bind].
    destruct (Hfine2 _ _ _ _ _ _ _ _ (Hfine1 _ _ _ _ _ Hs0 E1) E2) as [_ Hl'].
    rewrite (Hlinks _ h) by (apply whole_links; auto). rewrite E2. cbn [bind]. rewrite (assign_whole h rows Hrows Hone) by congruence. reflexivity.
Qed.

Lemma alone_in g isl i j : gadj (alone g isl) i j = true -> i < gn (alone g isl) /\ j < gn (alone g isl).
Proof.
  cbn. destruct (nth_error isl i) eqn:Ei; [|discriminate]. destruct (nth_error isl j) eqn:Ej; [|discriminate].
  intros _. split; eapply nth_error_lt; eauto.
Qed.
Lemma one_comp h : connected_graph h -> n_components h = 1.
Proof. intros H. apply is_connected_spec in H. apply Nat.eqb_eq. exact H. Qed.

Lemma runs_alone g attr p initial s0 labels c : fine s0 -> valid_request g p (Some initial) -> c < n_components g ->
  (runs g attr c (comp_part g initial c) (comp_part g labels c) <->
   exists r s' r', fit S start component order (alone g (comp_nodes g c)) (rows_at attr (comp_nodes g c))
     (Z.of_nat (n_labels (labels_at initial (comp_nodes g c)))) (Some (labels_at initial (comp_nodes g c))) s0 r = Ok ((labels_at labels (comp_nodes g c), s'), r')).
Proof.
  intros Hs0 Hv Hc. destruct (comp_label_onto g c Hc) as [v [Hv' Ev]].
  assert (Hreq : valid_request (alone g (comp_nodes g c)) (Z.of_nat (n_labels (labels_at initial (comp_nodes g c)))) (Some (labels_at initial (comp_nodes g c)))).
  { eapply alone_request; [exact Hv|exact Hv'|]. rewrite <- Ev. apply comp_nodes_island; auto. }
  assert (Hone : n_components (alone g (comp_nodes g c)) = 1) by (rewrite <- comp_alone; apply one_comp, comp_connected; auto).
  rewrite fit_only; auto; [|apply alone_in|unfold rows_at; rewrite map_length; reflexivity].
  rewrite <- !comp_alone. split.
  - intros [s [r [s' [r' [Hs E]]]]]. unfold run_component in E. apply bind_Ok in E. destruct E as [s1 [E1 E2]].
    exists s1, r, s', r'. split; [|exact E2]. rewrite <- E1. apply Hstart; auto.
  - intros [s1 [r [s' [r' [E1 E2]]]]]. exists s0, r, s', r'. split; [auto|]. unfold run_component.
    rewrite (Hstart s0 s0 _ _ _ (seq 0 (gn (comp_graph g c))) Hs0 Hs0). change (map (row attr) (comp_nodes g c)) with (rows_at attr (comp_nodes g c)).
    change (comp_part g initial c) with (labels_at initial (comp_nodes g c)). rewrite E1. exact E2.
Qed.

Theorem fit_alone g attr p initial s0 labels : fine s0 -> valid_request g p (Some initial) ->
  ((exists r s' r', fit S start component order g attr p (Some initial) s0 r = Ok ((labels, s'), r')) <->
   length labels = gn g /\ forall v isl, v < gn g -> island g v isl ->
     exists r s' r', fit S start component order (alone g isl) (rows_at attr isl) (Z.of_nat (n_labels (labels_at initial isl)))
       (Some (labels_at initial isl)) s0 r = Ok ((labels_at labels isl, s'), r')).
Proof.
  intros Hs0 Hv. rewrite (fit_parts g attr p initial s0 labels Hs0 Hv). split; intros [Hl H]; (split; [auto|]).
  - intros v isl Hlt Hi. rewrite (island_comp_nodes g v isl Hlt Hi). assert (Hc : comp_label g v < n_components g) by (apply comp_label_lt; auto).
    eapply runs_alone; eauto.
  - intros c Hc. destruct (comp_label_onto g c Hc) as [v [Hv' Ev]]. eapply runs_alone; eauto. apply (H v); [auto|].
    rewrite <- Ev. apply comp_nodes_island; auto.
Qed.

(** the island may be moved to another map *)
Theorem fit_elsewhere g attr p initial g' attr' p' initial' s0 s0' v isl r labels s1 r1 q other s2 r2 :
  fine s0 -> fine s0' -> valid_request g p (Some initial) -> valid_request g' p' (Some initial') ->
  v < gn g -> v < gn g' -> island g v isl -> island g' v isl ->
  (forall a b, In a isl -> In b isl -> gadj g' a b = gadj g a b) -> (forall a, In a isl -> nth a attr' [] = nth a attr []) ->
  (forall a, In a isl -> lab initial' a = lab initial a) ->
  fit S start component order g attr p (Some initial) s0 r = Ok ((labels, s1), r1) ->
  fit S start component order g' attr' p' (Some initial') s0' q = Ok ((other, s2), r2) ->
  exists q' s2' r2', fit S start component order g' attr' p' (Some initial') s0' q' =
    Ok ((map (fun a => if existsb (Nat.eqb a) isl then lab labels a else lab other a) (seq 0 (gn g')), s2'), r2').
Proof.
  intros Hs0 Hs0' Hv Hv' Hlt Hlt' Hi Hi' Eg Er El E E'.
  assert (H1 : exists r s' r', fit S start component order g attr p (Some initial) s0 r = Ok ((labels, s'), r')) by (do 3 eexists; exact E).
  apply (fit_alone g attr p initial s0 labels Hs0 Hv) in H1. destruct H1 as [Hl H1]. specialize (H1 v isl Hlt Hi).
  assert (H2 : exists r s' r', fit S start component order g' attr' p' (Some initial') s0' r = Ok ((other, s'), r')) by (do 3 eexists; exact E').
  apply (fit_alone g' attr' p' initial' s0' other Hs0' Hv') in H2. destruct H2 as [Hl2 H2].
  set (labels' := map (fun a => if existsb (Nat.eqb a) isl then lab labels a else lab other a) (seq 0 (gn g'))).
  assert (Hlab : forall a, a < gn g' -> lab labels' a = if existsb (Nat.eqb a) isl then lab labels a else lab other a).
  { intros a Hlta. unfold labels', lab at 1. rewrite (nth_indep _ _ (if existsb (Nat.eqb 0) isl then lab labels 0 else lab other 0)) by (rewrite map_length, seq_length; auto).
    rewrite (map_nth (fun a => if existsb (Nat.eqb a) isl then lab labels a else lab other a)). rewrite seq_nth by auto. reflexivity. }
  assert (Hex1 : forall a, In a isl -> existsb (Nat.eqb a) isl = true) by (intros a Hin; apply existsb_exists; exists a; split; [auto|apply Nat.eqb_refl]).
  apply (fit_alone g' attr' p' initial' s0' labels' Hs0' Hv').
  split; [unfold labels'; rewrite map_length, seq_length; auto|]. intros w iw Hw Hiw.
  destruct (existsb (Nat.eqb w) isl) eqn:Ew.
  - apply existsb_exists in Ew. destruct Ew as [w' [Hw' Eqw]]. apply Nat.eqb_eq in Eqw. subst w'.
    pose proof (island_of g' v isl w Hlt' Hi' Hw') as Hi2. assert (iw = isl) by (rewrite (island_comp_nodes g' w iw Hw Hiw), (island_comp_nodes g' w isl Hw Hi2); auto).
    subst iw. replace (labels_at labels' isl) with (labels_at labels isl).
    2:{ apply map_ext_in. intros a Hin. rewrite Hlab by (eapply island_lt; [exact Hlt'|exact Hi'|auto]). rewrite Hex1; auto. }
    assert (Elab : labels_at initial' isl = labels_at initial isl) by (apply map_ext_in; auto).
    assert (Erow : rows_at attr' isl = rows_at attr isl) by (apply map_ext_in; auto).
    rewrite Elab, Erow.
    pose proof (alone_request g p initial v isl Hv Hlt Hi) as Hva.
    pose proof (alone_request g' p' initial' v isl Hv' Hlt' Hi') as Hva'. rewrite Elab in Hva'.
    assert (Hone : n_components (alone g isl) = 1).
    { rewrite (island_comp_nodes g v isl Hlt Hi), <- comp_alone. apply one_comp, comp_connected, comp_label_lt; auto. }
    assert (Hone' : n_components (alone g' isl) = 1).
    { rewrite (island_comp_nodes g' v isl Hlt' Hi'), <- comp_alone. apply one_comp, comp_connected, comp_label_lt; auto. }
    assert (Hrl : length (rows_at attr isl) = length isl) by (unfold rows_at; rewrite map_length; auto).
    rewrite fit_only in H1; auto; [|apply alone_in]. apply fit_only; auto; [apply alone_in|].
    destruct H1 as [t1 [u [t2 [u' [K1 K2]]]]]. exists t1, u, t2, u'. split; [rewrite <- K1; apply Hstart; auto|].
    rewrite <- K2. apply Hlinks, same_links_sym, alone_links. auto.
  - replace (labels_at labels' iw) with (labels_at other iw); [apply (H2 w iw Hw Hiw)|]. apply map_ext_in. intros a Hin.
    rewrite Hlab by (eapply island_lt; [exact Hw|exact Hiw|auto]). destruct (existsb (Nat.eqb a) isl) eqn:Ea; [|auto]. exfalso.
    apply existsb_exists in Ea. destruct Ea as [a' [Ha2 Eqa]]. apply Nat.eqb_eq in Eqa. subst a'.
    pose proof (island_of g' v isl a Hlt' Hi' Ha2) as K1. pose proof (island_of g' w iw a Hw Hiw Hin) as K2.
    pose proof (island_lt g' w iw a Hw Hiw Hin) as Hal.
    assert (iw = isl) by (rewrite (island_comp_nodes g' a iw Hal K2), (island_comp_nodes g' a isl Hal K1); auto). subst iw.
    assert (Hwin : In w isl) by (rewrite (island_comp_nodes g' w isl Hw Hiw); apply comp_nodes_In; auto).
    rewrite (Hex1 w Hwin) in Ew. discriminate.
Qed.
End Generic.

Lemma glued_labels n isl labels other : (forall a, In a isl -> a < n) ->
  let both := map (fun a => if existsb (Nat.eqb a) isl then lab labels a else lab other a) (seq 0 n) in
  length both = n /\ (forall a, In a isl -> lab both a = lab labels a) /\ (forall a, a < n -> ~ In a isl -> lab both a = lab other a).
Proof.
  intros Hlt both. assert (Hlab : forall a, a < n -> lab both a = if existsb (Nat.eqb a) isl then lab labels a else lab other a).
  { intros a Ha. unfold both, lab at 1. rewrite (nth_indep _ _ (if existsb (Nat.eqb 0) isl then lab labels 0 else lab other 0)) by (rewrite map_length, seq_length; auto).
    rewrite (map_nth (fun a => if existsb (Nat.eqb a) isl then lab labels a else lab other a)). rewrite seq_nth by auto. reflexivity. }
  split; [unfold both; rewrite map_length, seq_length; auto|]. split.
  - intros a Ha. rewrite Hlab by auto. replace (existsb (Nat.eqb a) isl) with true; [auto|]. symmetry. apply existsb_exists. exists a. split; [auto|apply Nat.eqb_refl].
  - intros a Ha Hn. rewrite Hlab by auto. destruct (existsb (Nat.eqb a) isl) eqn:E; [|auto]. exfalso. apply existsb_exists in E.
    destruct E as [b [Hb Eb]]. apply Nat.eqb_eq in Eb. subst b. auto.
Qed.
