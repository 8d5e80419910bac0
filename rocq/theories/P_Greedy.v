(** Max-p heuristic: which outcomes of the construction phase are possible. *)
From Verif Require Import Base Spec M_Graph P_Graph M_Util P_Base P_Util P_Forest P_Init P_Initial
  M_Objective P_Sum P_Objective M_Azp P_Azp P_Strategy P_Fit P_AzpFit M_Sa M_MaxP P_MaxP P_MaxP2.

(** ** a random history that starts with a given draw *)
Definition rcons (i : nat) (r : rng) : rng := fun k => match k with 0 => i | S k' => r k' end.

Lemma pop_choice {A} (l : list A) x : In x l ->
  exists i rest, Permutation l (x :: rest) /\ forall r, pop_randomly_from l (rcons i r) = Ok (x, rest, r).
Proof.
  intros H. apply In_nth_error in H. destruct H as [i Hi]. exists i, (remove_nth i l).
  split; [apply remove_nth_perm; auto|]. intros r. unfold pop_randomly_from, randrange.
  assert (Hl : i < length l) by (eapply nth_error_lt; eauto).
  destruct (Nat.eqb_spec (length l) 0); [lia|]. cbn [bind rcons]. rewrite Nat.mod_small by auto. rewrite Hi. reflexivity.
Qed.

Lemma element_choice {A} (l : list A) x : In x l -> exists i, forall r, random_element_from l (rcons i r) = Ok (x, r).
Proof.
  intros H. apply In_nth_error in H. destruct H as [i Hi]. exists i. intros r. unfold random_element_from, randrange.
  assert (Hl : i < length l) by (eapply nth_error_lt; eauto).
  destruct (Nat.eqb_spec (length l) 0); [lia|]. cbn [bind rcons]. rewrite Nat.mod_small by auto. rewrite Hi. reflexivity.
Qed.

Section Greedy.
Variable d : list Q -> list Q -> Q.
Variable g : graph.
Variables attr sp : list (list Q).
Variable threshold : list Q.
Hypothesis Hsym : symmetric g.
Hypothesis Hloop : no_self_loops g.
Hypothesis Hsp : shaped sp threshold (gn g).
Notation greedy := (greedy_growth d g attr sp threshold).
Notation ext := (extends g).

Lemma grow_region_reach : forall S fuel P E R N x U A,
  ext P E R U A -> frontier g R U N -> length x = length threshold -> (forall k, nth k x 0 == total_in sp R k)%Q ->
  length U < fuel -> R <> [] -> greedy (concat P) (R ++ S) -> meets_in sp threshold (R ++ S) ->
  exists U' A', (forall r, exists r0, grow_region d g attr sp threshold fuel R N x U A r0 = Ok (true, R ++ S, U', A', r)) /\
    ext P E (R ++ S) U' A' /\ length U' <= length U.
Proof.
  induction S as [|w S IH]; intros fuel P E R N x U A Hext Hfr Hlen Hx Hf Hne Hgr Hm.
  - rewrite app_nil_r in *. exists U, A. split; [|split; auto]. intros r. exists r.
    pose proof (reaches_total sp threshold x R Hlen Hx) as Hre. destruct fuel as [|fuel]; [lia|]. cbn [grow_region].
    destruct (reaches x threshold) eqn:E1; [reflexivity|]. apply Hre in Hm. discriminate.
  - destruct fuel as [|fuel]; [lia|].
    pose proof (reaches_total sp threshold x R Hlen Hx) as Hre.
    pose proof Hgr as [_ [_ Hgr3]].
    destruct (Hgr3 (length R) w) as [Hnm [Hw Hmin]].
    { destruct R; [congruence|cbn; lia]. }
    { rewrite nth_error_app2, Nat.sub_diag by auto. reflexivity. }
    rewrite firstn_app, Nat.sub_diag, firstn_all, app_nil_r in Hnm, Hw, Hmin.
    pose proof (frontier_free d g threshold Hsym P E R N U A Hext Hfr) as Hfree.
    assert (HwN : In w N) by (apply Hfree; auto).
    destruct (grow_step d g threshold Hsym Hloop P E R N U A w Hext Hfr HwN) as [U' [EU [HU [HwR [Hwg [Hext' Hfr']]]]]].
    assert (HwB : In w (best_keys (fun a => dissimilarity d attr a R) N)).
    { apply best_keys_In. split; [auto|]. intros k Hk. apply Hmin, Hfree. auto. }
    destruct (element_choice _ w HwB) as [i Hi].
    pose proof (Permutation_length HU) as HUl. cbn [length] in HUl.
    destruct (IH fuel P E (R ++ [w]) (set_diff (set_union (set_discard w N) (neighbors g w)) A) (add_rows x (row sp w)) U' (A ++ [w]))
      as [U'' [A'' [E1 [E2 E3]]]]; auto.
    + rewrite add_rows_length, (row_length g sp threshold Hsp) by auto. lia.
    + intros k. rewrite nth_add_rows, total_in_app, Hx. unfold total_in at 3. cbn [map]. rewrite sumQ_cons, sumQ_nil.
      unfold row. ring.
    + lia.
    + destruct R; discriminate.
    + rewrite <- app_assoc. exact Hgr.
    + rewrite <- app_assoc. exact Hm.
    + exists U'', A''. rewrite <- app_assoc in E2. split; [|split; [exact E2|lia]].
      intros r. destruct (E1 r) as [r0 E1r]. rewrite <- app_assoc in E1r. exists (rcons i r0).
      cbn [grow_region]. destruct (reaches x threshold) eqn:Er; [destruct Hnm; apply Hre; auto|].
      destruct N as [|n0 N0]; [destruct HwN|]. unfold find_best_area. rewrite Hi. cbn [bind].
      rewrite EU, (set_add_new w R HwR). exact E1r.
Qed.

Lemma grow_loop_reach : forall Pn fuel P U A,
  grown g sp threshold P [] U -> Permutation A (concat P) -> length U <= fuel ->
  (forall k R, nth_error Pn k = Some R -> meets_in sp threshold R /\ greedy (concat (P ++ firstn k Pn)) R) ->
  exists fuel' U' A',
    (forall r, exists r0, grow_loop d g attr sp threshold fuel P [] U A r0 = grow_loop d g attr sp threshold fuel' (P ++ Pn) [] U' A' r) /\
    grown g sp threshold (P ++ Pn) [] U' /\ Permutation A' (concat (P ++ Pn)) /\ length U' <= fuel'.
Proof.
  induction Pn as [|R Pn IH]; intros fuel P U A HG HA Hf Hall.
  { exists fuel, U, A. rewrite app_nil_r. split; [intros r; exists r; reflexivity|auto]. }
  destruct (Hall 0 R eq_refl) as [Hm Hgr]. cbn [firstn] in Hgr. rewrite app_nil_r in Hgr.
  assert (Hall' : forall k R', nth_error Pn k = Some R' -> meets_in sp threshold R' /\ greedy (concat ((P ++ [R]) ++ firstn k Pn)) R').
  { intros k R' Hk. rewrite <- app_assoc. exact (Hall (S k) R' Hk). }
  destruct R as [|a S]; [destruct Hgr; congruence|].
  assert (Ha : a < gn g /\ ~ In a (concat P)) by (apply Hgr; left; auto). destruct Ha as [Hag HaP].
  pose proof HG as [Hp [HP HF]]. cbn [concat app] in Hp.
  assert (HaU : In a U).
  { assert (Hin : In a (concat P ++ U)) by (eapply Permutation_in; [symmetry; exact Hp|apply in_seq; lia]).
    apply in_app_iff in Hin. tauto. }
  destruct (pop_choice U a HaU) as [i [U1 [HU Hpop]]].
  pose proof (Permutation_length HU) as HUl. cbn [length] in HUl.
  destruct fuel as [|fuel]; [lia|].
  assert (Hrow : forall k, (nth k (row sp a) 0 == total_in sp [a] k)%Q).
  { intros k. unfold total_in. cbn [map]. rewrite sumQ_cons, sumQ_nil. unfold row. ring. }
  assert (Hre : reaches (row sp a) threshold = true <-> meets_in sp threshold [a]).
  { apply (reaches_total sp); [apply (row_length g); auto|exact Hrow]. }
  assert (Hext : ext P [] [a] U1 (A ++ [a])).
  { split; [cbn [app]; perm|]. split; [perm|]. split; [intros x y []|apply single_contiguous]. }
  assert (Hcont : forall R' U2 A2, ext P [] R' U2 A2 -> meets_in sp threshold R' ->
    grown g sp threshold (P ++ [R']) [] U2 /\ Permutation A2 (concat (P ++ [R']))).
  { intros R' U2 A2 [E1 [E2 [_ E4]]] Hm'. split; [|perm]. split; [cbn [concat app] in *; perm|]. split; [|intros f []].
    intros R'' H. apply in_app_iff in H. destruct H as [H|[<-|[]]]; [auto|]. split; auto. }
  assert (Hstep : exists U2 A2, ext P [] (a :: S) U2 A2 /\ length U2 <= fuel /\
    forall r', exists r0, grow_loop d g attr sp threshold (Datatypes.S fuel) P [] U A r0 =
      grow_loop d g attr sp threshold fuel (P ++ [a :: S]) [] U2 A2 r').
  { destruct (reaches (row sp a) threshold) eqn:Er.
    - assert (HS : S = []).
      { destruct S as [|b S]; [auto|exfalso]. destruct Hgr as [_ [_ H]]. destruct (H 1 b ltac:(lia) eq_refl) as [Hn _].
        apply Hn. apply Hre. auto. }
      subst S. exists U1, (A ++ [a]). split; [auto|]. split; [lia|]. intros r'. exists (rcons i r').
      cbn [grow_loop]. destruct U as [|u0 U0]; [destruct HaU|]. rewrite Hpop. cbn [bind]. rewrite Er. reflexivity.
    - destruct (grow_region_reach S (Datatypes.S (length U1)) P [] [a] (set_diff (neighbors g a) (A ++ [a])) (row sp a) U1 (A ++ [a]))
        as [U2 [A2 [E1 [E2 E3]]]]; auto; [eapply (seed_frontier d g threshold); eauto|apply (row_length g); auto|discriminate|].
      exists U2, A2. split; [exact E2|]. split; [lia|]. intros r'. destruct (E1 r') as [r0 E1r]. exists (rcons i r0).
      cbn [grow_loop]. destruct U as [|u0 U0]; [destruct HaU|]. rewrite Hpop. cbn [bind]. rewrite Er, E1r. cbn [bind app]. reflexivity. }
  destruct Hstep as [U2 [A2 [E1 [E2 E3]]]]. destruct (Hcont _ _ _ E1 Hm) as [HG' HA'].
  destruct (IH fuel (P ++ [a :: S]) U2 A2 HG' HA' E2 Hall') as [fuel' [U' [A' [K1 [K2 [K3 K4]]]]]].
  rewrite <- app_assoc in *. cbn [app] in *. exists fuel', U', A'. split; [|auto].
  intros r. destruct (K1 r) as [r0 Er0]. destruct (E3 r0) as [r1 Er1]. exists r1. rewrite Er1, Er0. reflexivity.
Qed.

(** every state can be run to the end so that a given history remains *)
Lemma grow_region_end : forall fuel P E R N x U A,
  ext P E R U A -> frontier g R U N -> length U < fuel ->
  exists ok R' U' A', length U' <= length U /\
    forall r, exists r0, grow_region d g attr sp threshold fuel R N x U A r0 = Ok (ok, R', U', A', r).
Proof.
  induction fuel as [|fuel IH]; intros P E R N x U A Hext Hfr Hf; [lia|]. cbn [grow_region].
  destruct (reaches x threshold); [exists true, R, U, A; split; [auto|intros r; exists r; reflexivity]|].
  destruct N as [|n0 N0].
  - destruct (remove_all_spec R A (concat P)) as [A' [EA HA]]; [apply Hext|]. rewrite EA.
    exists false, R, U, A'. split; [auto|intros r; exists r; reflexivity].
  - set (N := n0 :: N0) in *.
    destruct (best_keys (fun a => dissimilarity d attr a R) N) as [|w ws] eqn:Eb.
    { exfalso. eapply (best_keys_nonempty _ N); [|exact Eb]. discriminate. }
    assert (HwB : In w (best_keys (fun a => dissimilarity d attr a R) N)) by (rewrite Eb; left; auto).
    pose proof HwB as HwN. apply best_keys_In in HwN. destruct HwN as [HwN _].
    destruct (element_choice _ w HwB) as [i Hi].
    destruct (grow_step d g threshold Hsym Hloop P E R N U A w Hext Hfr HwN) as [U' [EU [HU [HwR [Hwg [Hext' Hfr']]]]]].
    pose proof (Permutation_length HU) as HUl. cbn [length] in HUl.
    destruct (IH P E (R ++ [w]) _ (add_rows x (row sp w)) U' (A ++ [w]) Hext' Hfr') as [ok [R' [U'' [A' [Hl H]]]]]; [lia|].
    exists ok, R', U'', A'. split; [lia|]. intros r. destruct (H r) as [r0 E0]. exists (rcons i r0).
    unfold find_best_area. rewrite Hi. cbn [bind]. rewrite EU, (set_add_new w R HwR). exact E0.
Qed.

Lemma grow_loop_end : forall fuel P F U A,
  grown g sp threshold P F U -> Permutation A (concat P) -> length U <= fuel ->
  exists P' E', forall r, exists r0, grow_loop d g attr sp threshold fuel P (concat F) U A r0 = Ok (P', E', r).
Proof.
  induction fuel as [|fuel IH]; intros P F U A HG HA Hf; (destruct U as [|u0 U0]; cbn [grow_loop]; [exists P, (concat F); intros r; exists r; reflexivity|]); [cbn in Hf; lia|].
  set (U := u0 :: U0) in *. set (a := u0) in *.
  destruct (pop_choice U a (or_introl eq_refl)) as [i [U1 [HU Hpop]]].
  pose proof (Permutation_length HU) as HUl. cbn [length] in HUl.
  pose proof (grown_no_adj g sp threshold _ _ _ HG) as Hna. pose proof (grown_nodup g sp threshold _ _ _ HG) as Hnd.
  pose proof HG as [Hp [HP HF]].
  assert (Hag : a < gn g).
  { assert (In a (seq 0 (gn g))); [|rewrite in_seq in *; lia]. eapply Permutation_in; [exact Hp|].
    rewrite !in_app_iff. right; right. eapply Permutation_in; [symmetry; exact HU|left; auto]. }
  assert (HaP : ~ In a (concat P)).
  { intros H. eapply (NoDup_app_disj (concat P)); [exact Hnd|exact H|]. rewrite !in_app_iff. right.
    eapply Permutation_in; [symmetry; exact HU|left; auto]. }
  assert (Hrow : forall k, (nth k (row sp a) 0 == total_in sp [a] k)%Q).
  { intros k. unfold total_in. cbn [map]. rewrite sumQ_cons, sumQ_nil. unfold row. ring. }
  assert (Hre : reaches (row sp a) threshold = true <-> meets_in sp threshold [a]).
  { apply (reaches_total sp); [apply (row_length g); auto|exact Hrow]. }
  destruct (reaches (row sp a) threshold) eqn:Ere.
  - destruct (IH (P ++ [[a]]) F U1 (A ++ [a])) as [P' [E' H]]; [|perm|lia|].
    { split; [perm|]. split.
      - intros R HR. apply in_app_iff in HR. destruct HR as [HR|[<-|[]]]; [auto|]. split; [apply single_contiguous|apply Hre; auto].
      - intros f Hf'. apply failed_more; auto. }
    exists P', E'. intros r. destruct (H r) as [r0 Er]. exists (rcons i r0). rewrite Hpop. cbn [bind]. rewrite Ere. exact Er.
  - assert (Hext : ext P (concat F) [a] U1 (A ++ [a])).
    { split; [perm|]. split; [perm|]. split; [|apply single_contiguous].
      intros x y Hx Hy. apply Hna; [auto|]. eapply Permutation_in; [symmetry; exact HU|]. exact Hy. }
    assert (Hfr : frontier g [a] U1 (set_diff (neighbors g a) (A ++ [a]))) by (eapply (seed_frontier d g threshold); eauto).
    destruct (grow_region_end (S (length U1)) P (concat F) [a] _ (row sp a) U1 (A ++ [a]) Hext Hfr ltac:(lia)) as [ok [R [U2 [A2 [Hle H1]]]]].
    assert (Hpost : if ok then ext P (concat F) R U2 A2 /\ meets_in sp threshold R
       else ext P (concat F) R U2 (concat P ++ R) /\ Permutation A2 (concat P) /\ ~ meets_in sp threshold R /\ no_adj g R U2).
    { destruct (H1 (fun _ => 0)) as [r0 Er].
      pose proof (grow_region_post d g attr sp threshold Hsym Hloop Hsp (S (length U1)) P (concat F) [a] _ (row sp a) U1 (A ++ [a]) r0 Hext
        (greedy_start d g attr sp threshold (concat P) a Hag HaP) Hfr (row_length g sp threshold Hsp a Hag) Hrow ltac:(lia)) as Hp1.
      rewrite Er in Hp1. destruct Hp1 as [_ Hp1]. destruct ok; tauto. }
    destruct ok.
    + destruct Hpost as [[E1 [E2 [E3 E4]]] Hm]. destruct (IH (P ++ [R]) F U2 A2) as [P' [E' H]]; [|perm|lia|].
      { split; [perm|]. split.
        - intros R' HR'. apply in_app_iff in HR'. destruct HR' as [HR'|[<-|[]]]; [auto|]. split; auto.
        - intros f Hf'. apply failed_more; auto. }
      exists P', E'. intros r. destruct (H r) as [r0 Er]. destruct (H1 r0) as [r1 Er1]. exists (rcons i r1).
      rewrite Hpop. cbn [bind]. rewrite Ere, Er1. cbn [bind]. exact Er.
    + destruct Hpost as [Hx [HA2 [Hnm HnU]]]. pose proof (in_all g Hx) as Hall. destruct Hx as [E1 [E2 [E3 E4]]].
      destruct (IH P (F ++ [R]) U2 A2) as [P' [E' H]]; [|auto|lia|].
      { split; [perm|]. split; [auto|].
        intros f Hf'. apply in_app_iff in Hf'. destruct Hf' as [Hf'|[<-|[]]]; [auto|].
        split; [auto|]. split; [auto|]. intros x y Hx' Hy Hxy.
        destruct (proj1 (Hall y) Hy) as [H|[H|[H|H]]]; auto.
        - exfalso. assert (Hf0 : gadj g y x = false) by (apply E3; [auto|apply in_app_iff; auto]).
          rewrite (Hsym y x) in Hf0; [congruence|auto|]. apply Hall; auto.
        - exfalso. rewrite (HnU x y Hx' H) in Hxy. discriminate. }
      rewrite concat_app in H. cbn [concat] in H. rewrite app_nil_r in H.
      exists P', E'. intros r. destruct (H r) as [r0 Er]. destruct (H1 r0) as [r1 Er1]. exists (rcons i r1).
      rewrite Hpop. cbn [bind]. rewrite Ere, Er1. cbn [bind]. exact Er.
Qed.

(** the construction can produce every list of greedy regions that leaves no room for another one *)
Theorem grow_regions_reach regions enclaves :
  partial_partition g regions enclaves ->
  (forall k R, nth_error regions k = Some R -> meets_in sp threshold R /\ greedy (concat (firstn k regions)) R) ->
  (forall X, NoDup X -> (forall a, In a X -> In a enclaves) -> contiguous g (fun a => In a X) -> ~ meets_in sp threshold X) ->
  exists enclaves', Permutation enclaves enclaves' /\
    forall r', exists r, grow_regions d g attr sp threshold r = Ok (regions, enclaves', r').
Proof.
  intros [Hnd [Hin Hc]] Hgr Hno.
  destruct (grow_loop_reach regions (gn g) [] (seq 0 (gn g)) []) as [fuel' [U' [A' [K1 [K2 [K3 K4]]]]]]; auto.
  - split; [reflexivity|]. split; intros ? [].
  - rewrite seq_length. auto.
  - cbn [app] in *. unfold grow_regions.
    destruct (grow_loop_end fuel' regions [] U' A' K2 K3 K4) as [P' [E' Hend]]. cbn [concat] in Hend.
    destruct (Hend (fun _ => 0)) as [r' Er'].
    assert (HgA : all_greedy d g attr sp threshold regions) by (intros k R Hk; apply Hgr; auto).
    pose proof (grow_loop_post d g attr sp threshold Hsym Hloop Hsp fuel' regions [] U' A' r' K2 HgA K3 K4) as Hp.
    cbn [concat] in Hp. rewrite Er' in Hp. destruct Hp as [F [-> [HG [_ [Pn ->]]]]].
    pose proof HG as [Hp' [HP' _]]. rewrite concat_app in Hp'.
    assert (HndP : NoDup (concat regions ++ concat Pn ++ concat F)).
    { apply (Permutation_NoDup (l := seq 0 (gn g))); [|apply seq_NoDup]. clear - Hp'. perm. }
    assert (Hrest : forall a, In a (concat Pn ++ concat F) <-> In a enclaves).
    { intros a. assert (Ha : In a (concat regions ++ concat Pn ++ concat F) <-> a < gn g).
      { assert (Hperm : Permutation (concat regions ++ concat Pn ++ concat F) (seq 0 (gn g))) by (clear - Hp'; perm).
        split; intros H; [apply (Permutation_in _ Hperm) in H; apply in_seq in H; lia|].
        apply (Permutation_in _ (Permutation_sym Hperm)). apply in_seq. lia. }
      specialize (Hin a). split; intros H.
      - assert (Ha' : In a (concat regions ++ enclaves)) by (apply Hin, Ha, in_or_app; auto).
        apply in_app_iff in Ha'. destruct Ha' as [Ha'|]; [|auto]. exfalso. eapply NoDup_app_disj; [exact HndP|exact Ha'|exact H].
      - assert (Ha' : In a (concat regions ++ concat Pn ++ concat F)) by (apply Ha, Hin, in_or_app; auto).
        apply in_app_iff in Ha'. destruct Ha' as [Ha'|]; [|auto]. exfalso. eapply NoDup_app_disj; [exact Hnd|exact Ha'|exact H]. }
    assert (HPn : Pn = []).
    { destruct Pn as [|X Pn]; [auto|exfalso]. destruct (HP' X) as [Hcx Hmx]; [apply in_or_app; right; left; auto|].
      apply (Hno X); auto.
      - apply NoDup_app_r in HndP. cbn [concat] in HndP. rewrite <- app_assoc in HndP. apply NoDup_app_l in HndP. auto.
      - intros a Ha. apply Hrest. cbn [concat]. rewrite !in_app_iff. auto. }
    subst Pn. rewrite app_nil_r in Hend. exists (concat F). split.
    2: { intros r. destruct (Hend r) as [r1 Er1]. destruct (K1 r1) as [r2 Er2]. exists r2. rewrite Er2. exact Er1. }
    cbn [concat app] in *. apply NoDup_Permutation; [eapply NoDup_app_r; eauto|eapply NoDup_app_r; eauto|].
    intros a. symmetry. apply Hrest.
Qed.
End Greedy.

(** ** enclaves *)
Section Absorb.
Variable d : list Q -> list Q -> Q.
Variable g : graph.
Variable attr : list (list Q).
Hypothesis Hsym : symmetric g.

Lemma absorbed_perm P E P' : absorbed d g attr P E P' -> forall E2, Permutation E E2 -> absorbed d g attr P E2 P'.
Proof.
  intros H E2 HE. destruct H as [P|P E a k rest P' Hp Hk Hb Hm H].
  - apply Permutation_nil in HE. subst. constructor.
  - apply (absorbed_step d g attr P E2 a k rest P'); auto. rewrite <- HE. auto.
Qed.

Lemma absorb_partial P E a k E' : partial_partition g P E -> Permutation E (a :: E') -> k < length P -> beside g a (nth k P []) ->
  partial_partition g (upd P k (nth k P [] ++ [a])) E'.
Proof.
  intros [Hnd [Hall Hcon]] HE' HkP [b' [Hb' [HbR Ht]]]. set (P1 := upd P k (nth k P [] ++ [a])).
  assert (Hp1 : Permutation (concat P1 ++ E') (seq 0 (gn g))).
  { assert (H0 : Permutation (concat P ++ E) (seq 0 (gn g))) by (apply partial_perm; auto).
    pose proof (concat_upd P k (nth k P [] ++ [a]) HkP) as H1. fold P1 in H1. perm. }
  assert (HRin : In (nth k P []) P) by (apply nth_In; auto).
  apply partial_perm in Hp1. destruct Hp1 as [H1 H2]. split; [auto|]. split; [auto|].
  intros R HR. apply In_nth_error in HR. destruct HR as [j Hj]. unfold P1 in Hj.
  destruct (Nat.eq_dec j k) as [->|Hne].
  - rewrite nth_error_upd_eq in Hj by auto. injection Hj as <-.
    apply (contiguous_ext g (fun x => In x (nth k P []) \/ x = a)); [intros x; rewrite in_app_iff; cbn; intuition auto|].
    apply contiguous_add with (b := b'); [apply Hcon; auto|auto|]. destruct Ht; [right|left]; auto.
  - rewrite nth_error_upd_ne in Hj by auto. apply Hcon. eapply nth_error_In; eauto.
Qed.

Lemma assign_loop_reach : forall fuel P E P', partial_partition g P E -> length E <= fuel -> absorbed d g attr P E P' ->
  forall r', exists r, assign_loop d g attr fuel P E r = Ok (P', r').
Proof.
  induction fuel as [|fuel IH]; intros P E P' Hpp Hf Hab r'.
  - destruct E; [|cbn in Hf; lia]. inversion Hab as [|? ? ? ? ? ? Hp]; subst; [exists r'; reflexivity|]. apply Permutation_nil in Hp. discriminate.
  - inversion Hab as [? E1|P0 E0 a k rest P2 Hp Hk Hb Hm Hab']; subst; [exists r'; reflexivity|].
    pose proof Hpp as [Hnd [Hall Hcon]].
    assert (HaE : In a E) by (eapply Permutation_in; [symmetry; exact Hp|left; auto]).
    assert (Hag : a < gn g) by (apply Hall, in_or_app; auto).
    destruct (remove_first_perm a E HaE) as [E' [EE HE']].
    assert (Hrest : Permutation rest E') by (apply (Permutation_cons_inv (a := a)); rewrite <- Hp; auto).
    pose proof (absorbed_perm _ _ _ Hab' E' Hrest) as Hab''.
    pose proof (absorb_partial P E a k E' Hpp HE' Hk Hb) as Hpp'.
    pose proof (Permutation_length HE') as HEl. cbn [length] in HEl.
    destruct (IH _ E' P' Hpp' ltac:(lia) Hab'' r') as [r0 Er0].
    destruct E as [|e0 E0]; [destruct HaE|]. cbn [assign_loop]. set (E := e0 :: E0) in *.
    set (cands := filter _ E).
    assert (Hc : In a cands).
    { destruct Hb as [b [Hbg [HbR Ht]]]. unfold cands. apply filter_In. split; [auto|]. apply existsb_exists. exists b. split.
      - apply neighbors_In. split; [auto|]. apply touch_adj in Ht; auto.
      - apply negb_true_iff, memb_notIn. intros HbE. eapply (NoDup_app_disj (concat P)); [exact Hnd| |exact HbE].
        apply in_concat. exists (nth k P []). split; [apply nth_In; auto|auto]. }
    destruct (pop_choice cands a Hc) as [i [cands' [_ Hpop]]].
    assert (Hidx : forall j, In j (neigh_regions_idx g a P) <-> j < length P /\ beside g a (nth j P [])).
    { intros j. apply (neigh_regions_idx_iff g Hsym a P E j); auto. }
    destruct (element_choice (best_keys (fun k => dissimilarity d attr a (nth k P [])) (set_union [] (neigh_regions_idx g a P))) k) as [i2 Hel].
    { apply best_keys_In. split; [apply set_union_In; right; apply Hidx; auto|]. intros j Hj. apply set_union_In in Hj.
      destruct Hj as [[]|Hj]. apply Hidx in Hj. apply Hm; tauto. }
    exists (rcons i (rcons i2 r0)). rewrite Hpop. cbn [bind]. unfold find_best_region_idx.
    destruct (neigh_regions_idx g a P) as [|j0 js] eqn:Ej; [destruct (proj2 (Hidx k) (conj Hk Hb))|]. rewrite Hel. cbn [bind]. rewrite EE.
    unfold add_to_region. rewrite set_add_new; [exact Er0|].
    intros HaR. eapply (NoDup_app_disj (concat P)); [exact Hnd| |exact HaE]. apply in_concat. exists (nth k P []). split; [apply nth_In; auto|auto].
Qed.

Theorem assign_enclaves_reach P E P' : partial_partition g P E -> absorbed d g attr P E P' ->
  forall r', exists r, assign_enclaves d g attr P E r = Ok (P', r').
Proof. intros Hpp H. apply assign_loop_reach; auto. Qed.
End Absorb.
