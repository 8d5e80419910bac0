(** Max-p heuristic: the possible results under another numbering of the areas. *)
From Verif Require Import Base Spec M_Graph P_Graph M_Util P_Base P_Util P_Forest P_Init P_Initial
  M_Objective P_Sum P_Objective M_Azp P_Azp P_Strategy P_Fit P_AzpFit M_Sa M_MaxP P_MaxP P_MaxP2 P_MaxP3 P_MaxP4
  Props_Strategy Props_Azp Props_MaxP P_Greedy P_Zoning P_Names Props_Zoning P_MaxPZone Props_MaxPZone.

Lemma upd_map {A B} (h : A -> B) l k v : map h (upd l k v) = upd (map h l) k (h v).
Proof. revert k. induction l as [|x l IH]; intros [|k]; cbn; auto. f_equal. auto. Qed.

Definition same_name (z : Z) : Z := z.

Section MaxPTwins.
Variables (f h : nat -> nat) (U : list Z) (g g' : graph) (attr attr' sp sp' : list (list Q)).
Variable O : objfun.
Variable d : list Q -> list Q -> Q.
Variable thr : list Q.
Hypothesis Htw : twins f h same_name same_name U U g g' attr attr'.
Hypothesis Hspr : forall i, i < gn g -> nth i sp' [] = nth (f i) sp [].

Let Hn : gn g' = gn g := tw_n _ _ _ _ _ _ _ _ _ _ Htw.
Let Hf : forall i, i < gn g -> f i < gn g /\ h (f i) = i := tw_f _ _ _ _ _ _ _ _ _ _ Htw.
Let Hh : forall i, i < gn g -> h i < gn g /\ f (h i) = i := tw_h _ _ _ _ _ _ _ _ _ _ Htw.

(** ** lists of areas *)
Definition inr (R : list nat) : Prop := forall a, In a R -> a < gn g.

Lemma In_maph R a : inr R -> a < gn g -> (In (h a) (map h R) <-> In a R).
Proof.
  intros HR Ha. split; [|apply in_map]. intros H. apply in_map_iff in H. destruct H as [b [E Hb]].
  destruct (Hh a Ha) as [_ Ea], (Hh b (HR b Hb)) as [_ Eb]. rewrite <- Ea, <- E, Eb. auto.
Qed.

Lemma In_maph' R i : inr R -> i < gn g -> (In i (map h R) <-> In (f i) R).
Proof.
  intros HR Hi. destruct (Hf i Hi) as [H1 H2]. rewrite <- H2 at 1. apply In_maph; auto.
Qed.

Lemma maph_lt R i : inr R -> In i (map h R) -> i < gn g.
Proof. intros HR H. apply in_map_iff in H. destruct H as [a [<- Ha]]. apply Hh. auto. Qed.

Lemma touch_h a b : a < gn g -> b < gn g -> (touch g' (h a) (h b) <-> touch g a b).
Proof.
  intros Ha Hb. destruct (Hh a Ha) as [H1 H2], (Hh b Hb) as [H3 H4].
  rewrite (twin_touch _ _ _ _ _ _ _ _ _ _ Htw) by auto. rewrite H2, H4. tauto.
Qed.

Lemma NoDup_maph R : inr R -> NoDup R -> NoDup (map h R).
Proof.
  intros HR. induction 1 as [|a R Ha _ IH]; cbn [map]; constructor.
  - rewrite In_maph; auto; [|apply HR; left; auto]. intros b Hb. apply HR. right; auto.
  - apply IH. intros b Hb. apply HR. right; auto.
Qed.

Lemma total_maph R k : inr R -> total_in sp' (map h R) k = total_in sp R k.
Proof.
  intros HR. unfold total_in. rewrite map_map. f_equal. apply map_ext_in. intros a Ha. destruct (Hh a (HR a Ha)) as [H1 H2].
  rewrite Hspr, H2 by auto. reflexivity.
Qed.

Lemma meets_maph R : inr R -> (meets_in sp' thr (map h R) <-> meets_in sp thr R).
Proof. intros HR. unfold meets_in. split; intros H k t Hk; specialize (H k t Hk); rewrite total_maph in *; auto. Qed.

Lemma row_h a : a < gn g -> nth (h a) attr' [] = nth a attr [].
Proof. intros Ha. destruct (Hh a Ha) as [H1 H2]. rewrite (tw_row _ _ _ _ _ _ _ _ _ _ Htw), H2 by auto. reflexivity. Qed.

Lemma distance_maph a R : a < gn g -> inr R -> distance_to d attr' (h a) (map h R) = distance_to d attr a R.
Proof.
  intros Ha HR. unfold distance_to. rewrite map_map. f_equal. apply map_ext_in. intros b Hb. rewrite !row_h; auto.
Qed.

Lemma contiguous_maph R : inr R -> contiguous g (fun a => In a R) -> contiguous g' (fun a => In a (map h R)).
Proof.
  intros HR [[u Hu] Hc]. split; [exists (h u); apply in_map; auto|]. intros x y Hx Hy.
  apply in_map_iff in Hx, Hy. destruct Hx as [a [<- Ha]], Hy as [b [<- Hb]].
  apply (twin_linked _ _ _ _ _ _ _ _ _ _ (twins_sym _ _ _ _ _ _ _ _ _ _ Htw) _ (fun a => In a R)); [|auto].
  intros c Hc'. split; [rewrite Hn; auto|apply in_map; auto].
Qed.

Lemma free_maph taken R b : inr taken -> inr R -> b < gn g -> free_neighbor g taken R b -> free_neighbor g' (map h taken) (map h R) (h b).
Proof.
  intros Ht HR Hb [_ [H1 [H2 [a [Ha Hab]]]]]. split; [rewrite Hn; apply Hh; auto|].
  rewrite !In_maph by auto. split; [auto|]. split; [auto|]. exists (h a). split; [apply in_map; auto|]. apply touch_h; auto.
Qed.

Lemma free_back taken R i : inr taken -> inr R -> free_neighbor g' (map h taken) (map h R) i -> i < gn g /\ free_neighbor g taken R (f i).
Proof.
  intros Ht HR [Hi [H1 [H2 [a [Ha Hab]]]]]. rewrite Hn in Hi. split; [auto|]. destruct (Hf i Hi) as [H3 H4].
  rewrite !In_maph' in * by auto. split; [auto|]. split; [auto|]. split; [auto|].
  apply in_map_iff in Ha. destruct Ha as [b [<- Hb]]. exists b. split; [auto|]. rewrite <- H4 in Hab. apply touch_h in Hab; auto.
Qed.

Lemma inr_firstn R j : inr R -> inr (firstn j R).
Proof. intros HR a Ha. apply HR. rewrite <- (firstn_skipn j R). apply in_or_app. auto. Qed.

Lemma growth_maph taken R : inr taken -> greedy_growth d g attr sp thr taken R -> greedy_growth d g' attr' sp' thr (map h taken) (map h R).
Proof.
  intros Ht [Hne [HR Hg]]. assert (HRr : inr R) by (intros a Ha; apply HR; auto).
  split; [destruct R; [congruence|discriminate]|]. split.
  - intros i Hi. apply in_map_iff in Hi. destruct Hi as [a [<- Ha]]. destruct (HR a Ha) as [H1 H2].
    split; [rewrite Hn; apply Hh; auto|]. rewrite In_maph; auto.
  - intros j i Hj Hi. rewrite nth_error_map in Hi. destruct (nth_error R j) as [b|] eqn:E; [|discriminate]. injection Hi as <-.
    destruct (Hg j b Hj E) as [H1 [H2 H3]]. rewrite firstn_map. pose proof (inr_firstn R j HRr) as Hj'.
    assert (Hb : b < gn g) by (apply HRr; eapply nth_error_In; eauto).
    rewrite meets_maph by auto. split; [auto|]. split; [apply free_maph; auto|].
    intros c Hc. destruct (free_back _ _ _ Ht Hj' Hc) as [Hcg Hc']. destruct (Hf c Hcg) as [H4 H5].
    rewrite <- H5, !distance_maph by auto. apply H3. auto.
Qed.

Lemma concat_maph (regions : list (list nat)) : concat (map (map h) regions) = map h (concat regions).
Proof. symmetry. apply concat_map. Qed.

Lemma partial_maph regions rest : partial_partition g regions rest -> partial_partition g' (map (map h) regions) (map h rest).
Proof.
  intros [Hnd [Hall Hc]]. assert (Hr : inr (concat regions ++ rest)) by (intros a Ha; apply Hall; auto).
  split; [|split].
  - rewrite concat_maph, <- map_app. apply NoDup_maph; auto.
  - intros i. rewrite concat_maph, <- map_app, Hn. split; [apply maph_lt; auto|]. intros Hi. apply In_maph'; auto. apply Hall, Hf. auto.
  - intros R HR. apply in_map_iff in HR. destruct HR as [R0 [<- HR0]]. apply contiguous_maph; auto.
    intros a Ha. apply Hr, in_or_app. left. apply in_concat. eauto.
Qed.

Lemma greedy_maph regions rest : greedy_partition d g attr sp thr regions rest ->
  greedy_partition d g' attr' sp' thr (map (map h) regions) (map h rest).
Proof.
  intros [Hp [Hk Hrest]]. pose proof Hp as [_ [Hall _]]. assert (Hr : inr (concat regions ++ rest)) by (intros a Ha; apply Hall; auto).
  assert (Hr1 : inr (concat regions)) by (intros a Ha; apply Hr, in_or_app; auto).
  split; [apply partial_maph; auto|]. split.
  - intros k R Hkr. rewrite nth_error_map in Hkr. destruct (nth_error regions k) as [R0|] eqn:E; [|discriminate]. injection Hkr as <-.
    destruct (Hk k R0 E) as [H1 H2]. rewrite firstn_map, concat_maph.
    rewrite meets_maph; [|intros a Ha; apply Hr1, in_concat; exists R0; split; [eapply nth_error_In; eauto|auto]].
    split; [auto|]. apply growth_maph; [|auto]. intros a Ha. apply in_concat in Ha. destruct Ha as [R1 [HR1 Ha]].
    apply Hr1, in_concat. exists R1. split; [|auto]. rewrite <- (firstn_skipn k regions). apply in_or_app. auto.
  - intros X Hnd HX Hc Hm.
    assert (HXr : forall i, In i X -> i < gn g).
    { intros i Hi. apply (maph_lt rest); [intros a Ha; apply Hr, in_or_app; auto|auto]. }
    assert (HXi : map h (map f X) = X).
    { rewrite map_map, <- (map_id X) at 1. rewrite map_id. rewrite <- (map_id X) at 2. apply map_ext_in. intros i Hi. apply Hf; auto. }
    assert (Hfr : inr (map f X)) by (intros a Ha; apply in_map_iff in Ha; destruct Ha as [i [<- Hi]]; apply Hf; auto).
    apply (Hrest (map f X)).
    + apply (NoDup_map_inv h). rewrite HXi. auto.
    + intros a Ha. apply in_map_iff in Ha. destruct Ha as [i [<- Hi]]. apply In_maph'; auto. intros a Ha. apply Hr, in_or_app; auto.
    + destruct Hc as [[u Hu] Hc]. split; [exists (f u); apply in_map; auto|]. intros x y Hx Hy. apply in_map_iff in Hx, Hy.
      destruct Hx as [i [<- Hi]], Hy as [j [<- Hj]].
      apply (twin_linked _ _ _ _ _ _ _ _ _ _ Htw _ (fun k => In k X)); [|auto]. intros k Hk'. split; [auto|apply in_map; auto].
    + apply meets_maph; auto. rewrite HXi. auto.
Qed.

Lemma beside_maph a R : a < gn g -> inr R -> (beside g' (h a) (map h R) <-> beside g a R).
Proof.
  intros Ha HR. unfold beside. split.
  - intros [i [Hi [Hin Ht]]]. apply in_map_iff in Hin. destruct Hin as [b [<- Hb]]. exists b. split; [auto|]. split; [auto|].
    apply touch_h; auto.
  - intros [b [Hb [Hin Ht]]]. exists (h b). split; [rewrite Hn; apply Hh; auto|]. split; [apply in_map; auto|]. apply touch_h; auto.
Qed.

Lemma nth_maph (regions : list (list nat)) k : nth k (map (map h) regions) [] = map h (nth k regions []).
Proof. change (@nil nat) with (map h []) at 1. apply map_nth. Qed.

Lemma absorbed_maph regions enclaves regions' : absorbed d g attr regions enclaves regions' ->
  (forall R, In R regions -> inr R) -> inr enclaves -> absorbed d g' attr' (map (map h) regions) (map h enclaves) (map (map h) regions').
Proof.
  induction 1 as [regions|regions enclaves a k rest regions' HP Hk Hb Hmin _ IH]; intros Hr He.
  - constructor.
  - assert (Ha : a < gn g) by (apply He; rewrite HP; left; auto).
    assert (Hrk : forall j, j < length regions -> inr (nth j regions [])) by (intros j Hj; apply Hr, nth_In; auto).
    apply (absorbed_step _ _ _ _ _ (h a) k (map h rest)).
    + rewrite HP. reflexivity.
    + rewrite map_length. auto.
    + rewrite nth_maph. apply beside_maph; auto.
    + rewrite map_length. intros j Hj. rewrite !nth_maph. rewrite beside_maph, !distance_maph by auto. apply Hmin. auto.
    + rewrite nth_maph. change [h a] with (map h [a]). rewrite <- map_app, <- upd_map. apply IH.
      * intros R HR b Hbr. apply In_nth_error in HR. destruct HR as [j Hj]. apply nth_error_upd in Hj.
        destruct Hj as [[-> [_ ->]]|[_ Hj]].
        -- apply in_app_iff in Hbr. destruct Hbr as [Hbr|[<-|[]]]; [apply (Hrk k); auto|auto].
        -- apply (Hr R); [eapply nth_error_In; eauto|auto].
      * intros b Hbr. apply He. rewrite HP. right; auto.
Qed.

(** ** rounds that keep the threshold *)
Hypothesis Hno : nameless O.
Hypothesis Hattr : length attr = gn g.
Hypothesis Hattr' : length attr' = gn g.
Hypothesis Hex : exact_on O attr.
Hypothesis Hex' : exact_on O attr'.

Lemma areas_perm : Permutation (map f (seq 0 (gn g))) (seq 0 (gn g)).
Proof.
  apply NoDup_Permutation; [|apply seq_NoDup|].
  - assert (H : forall l, NoDup l -> inr l -> NoDup (map f l)).
    { induction l as [|i l IH]; intros Hnd Hi; cbn [map]; constructor; inversion Hnd; subst.
      - intros H. apply in_map_iff in H. destruct H as [j [E Hj]].
        destruct (Hf i (Hi i (or_introl eq_refl))) as [_ E1], (Hf j (Hi j (or_intror Hj))) as [_ E2]. rewrite E, E1 in E2. subst. auto.
      - apply IH; auto. intros j Hj. apply Hi. right; auto. }
    apply H; [apply seq_NoDup|]. intros i Hi. apply in_seq in Hi. lia.
  - intros a. rewrite in_map_iff, in_seq. split.
    + intros [i [<- Hi]]. apply in_seq in Hi. assert (Hig : i < gn g) by lia. pose proof (proj1 (Hf i Hig)). lia.
    + intros Ha. exists (h a). assert (Hag : a < gn g) by lia. destruct (Hh a Hag) as [H1 H2]. split; [auto|]. apply in_seq. lia.
Qed.

Lemma twin_total l l' z k : lrel f same_name U g l l' -> (total sp' l' z k == total sp l z k)%Q.
Proof.
  intros [Hl [Hl' [_ Hlab]]]. unfold total. rewrite Hl, Hl'. symmetry. rewrite <- (sumQ_map_perm _ _ _ areas_perm), map_map.
  symmetry. apply sumQ_ext. intros i Hi. apply in_seq in Hi. rewrite Hlab, Hspr by lia. unfold same_name. reflexivity.
Qed.

Lemma twin_meets l l' z : lrel f same_name U g l l' -> (meets sp' thr l' z <-> meets sp thr l z).
Proof.
  intros Hrel. unfold meets. split; intros H k t Hk; specialize (H k t Hk); pose proof (twin_total l l' z k Hrel); lra.
Qed.

Variables isl isl' : list nat.
Hypothesis Hisl : Permutation (map f isl') isl.
Hypothesis Hisl' : forall i, In i isl' -> i < gn g.

Lemma upd_rel l l' i K : lrel f same_name U g l l' -> i < gn g -> In K U -> lrel f same_name U g (upd l (f i) K) (upd l' i K).
Proof.
  intros Hrel Hi HK. destruct (Hf i Hi) as [H1 H2]. rewrite <- H2 at 2.
  apply (lrel_upd f h same_name same_name U U g g' attr attr' Htw l l' (f i) K Hrel H1 HK).
Qed.

Lemma twin_keeping' l l' i K : lrel f same_name U g l l' -> In K U ->
  may_go_keeping O attr' g' sp' thr isl' l' i K -> may_go_keeping O attr g sp thr isl l (f i) K.
Proof.
  intros Hrel HK [H1 H2]. assert (Hi : i < gn g) by (apply Hisl'; apply H1). split.
  - apply (twin_may_go' O Hno f h same_name same_name U U g g' attr attr' isl isl' Htw Hisl Hisl' Hattr Hattr' Hex Hex' l l' i K Hrel HK H1).
  - apply (twin_meets _ _ _ (upd_rel l l' i K Hrel Hi HK)) in H2. destruct Hrel as [_ [_ [_ Hlab]]]. rewrite Hlab in H2 by auto. exact H2.
Qed.

Lemma twin_keeping l l' a K : lrel f same_name U g l l' -> In K U ->
  may_go_keeping O attr g sp thr isl l a K -> may_go_keeping O attr' g' sp' thr isl' l' (h a) K.
Proof.
  intros Hrel HK [H1 H2].
  assert (Ha : a < gn g) by (eapply (isl_lt f h); eauto; apply H1). destruct (Hh a Ha) as [H3 H4]. split.
  - apply (twin_may_go O Hno f h same_name same_name U U g g' attr attr' isl isl' Htw Hisl Hisl' Hattr Hattr' Hex Hex' l l' a K Hrel HK H1).
  - pose proof (upd_rel l l' (h a) K Hrel H3 HK) as Hu. rewrite H4 in Hu. apply (twin_meets _ _ _ Hu).
    destruct Hrel as [_ [_ [_ Hlab]]]. rewrite Hlab, H4 by auto. exact H2.
Qed.

Lemma keeping_turn K l l2 l' : In K U -> zone_turn (may_go_keeping O attr g sp thr isl) K l l2 -> lrel f same_name U g l l' ->
  exists l2', zone_turn (may_go_keeping O attr' g' sp' thr isl') K l' l2' /\ lrel f same_name U g l2 l2'.
Proof.
  intros HK H. revert l'. induction H as [l Hstop|l a l2 Hok _ IH]; intros l' Hrel.
  - exists l'. split; [|auto]. apply turn_over. intros i Hi. apply (twin_keeping' l) in Hi; auto. eapply Hstop; eauto.
  - assert (Ha : a < gn g) by (eapply (isl_lt f h); eauto; apply Hok). destruct (Hh a Ha) as [H3 H4].
    pose proof (upd_rel l l' (h a) K Hrel H3 HK) as Hu. rewrite H4 in Hu.
    destruct (IH _ Hu) as [l2' [H1 H2]]. exists l2'. split; [|auto]. apply (turn_move _ _ _ (h a)); auto. apply (twin_keeping l); auto.
Qed.

Lemma keeping_round Ks l l2 : zone_round (may_go_keeping O attr g sp thr isl) Ks l l2 -> (forall K, In K Ks -> In K U) ->
  forall l', lrel f same_name U g l l' ->
  exists l2', zone_round (may_go_keeping O attr' g' sp' thr isl') Ks l' l2' /\ lrel f same_name U g l2 l2'.
Proof.
  induction 1 as [l|K Ks l l1 l2 Ht _ IH]; intros HK l' Hrel.
  - exists l'. split; [constructor|auto].
  - destruct (keeping_turn K l l1 l' (HK K (or_introl eq_refl)) Ht Hrel) as [l1' [H1 H2]].
    destruct (IH (fun y Hy => HK y (or_intror Hy)) l1' H2) as [l2' [H3 H4]]. exists l2'. split; [econstructor; eauto|auto].
Qed.

Lemma twin_one_round l l2 l' : lrel f same_name U g l l' -> one_round O attr g sp thr isl l l2 ->
  exists l2', one_round O attr' g' sp' thr isl' l' l2' /\ lrel f same_name U g l2 l2'.
Proof.
  intros Hrel [regions [Hnd [Hreg Hz]]]. pose proof Hrel as [Hl [Hl' [Hin Hlab]]].
  assert (HU : forall K, In K regions -> In K U).
  { intros K HK. apply Hreg in HK. destruct HK as [a [_ Ha]]. apply Hin. eapply nth_error_In; eauto. }
  destruct (keeping_round regions l l2 Hz HU l' Hrel) as [l2' [H1 H2]]. exists l2'. split; [|auto].
  exists regions. split; [auto|]. split; [|auto]. intros K. rewrite Hreg. split.
  - intros [a [Ha Hr]]. assert (Hag : a < gn g) by (eapply (isl_lt f h); eauto). destruct (Hh a Hag) as [H3 H4].
    exists (h a). split.
    + rewrite <- (isl_back f h same_name same_name U U g g' attr attr' isl isl' Htw Hisl Hisl'). apply in_map; auto.
    + apply (twin_region' f same_name U g l l' K (h a) Hrel H3). rewrite H4. auto.
  - intros [i [Hi Hr]]. exists (f i). split; [rewrite <- Hisl; apply in_map; auto|].
    apply (twin_region f h same_name same_name U U g g' attr attr' Htw l l' K i Hrel Hr).
Qed.
End MaxPTwins.
