(** Max-p heuristic: enclaves, label arrays. *)
From Verif Require Import Base Spec M_Graph P_Graph M_Util P_Base P_Util P_Forest P_Init P_Initial
  M_Objective P_Sum P_Objective M_Azp P_Azp P_Strategy P_Fit P_AzpFit M_Sa M_MaxP P_MaxP.

Lemma partial_perm g P E : Permutation (concat P ++ E) (seq 0 (gn g)) <->
  NoDup (concat P ++ E) /\ forall a, In a (concat P ++ E) <-> a < gn g.
Proof.
  split.
  - intros H. split; [eapply Permutation_NoDup; [symmetry; exact H|apply seq_NoDup]|].
    intros a. transitivity (In a (seq 0 (gn g))); [split; apply Permutation_in; [auto|symmetry; auto]|]. rewrite in_seq. lia.
  - intros [Hnd H]. apply NoDup_Permutation; [auto|apply seq_NoDup|]. intros a. rewrite H, in_seq. lia.
Qed.

Lemma grown_partial g sp thr P F : grown g sp thr P F [] -> partial_partition g P (concat F).
Proof.
  intros [Hp [HP _]]. rewrite app_nil_r in Hp. apply partial_perm in Hp. destruct Hp as [H1 H2].
  split; [auto|]. split; [auto|]. intros R HR. apply (HP R HR).
Qed.

(** ** sums over sub-lists *)
Lemma total_in_mono sp l l' k : non_negative sp -> NoDup l -> (forall a, In a l -> In a l') ->
  (total_in sp l k <= total_in sp l' k)%Q.
Proof.
  intros Hnn. revert l'. induction l as [|a l IH]; intros l' Hnd Hin.
  - unfold total_in. cbn [map]. rewrite sumQ_nil. apply sumQ_nonneg. intros x _.
    destruct (nth_in_or_default k (nth x sp []) 0%Q) as [H|H]; [|rewrite H; lra].
    destruct (nth_in_or_default x sp []) as [Hx|Hx]; [eapply Hnn; eauto|]. rewrite Hx in *. destruct H.
  - inversion Hnd as [|? ? Hni Hnd']; subst.
    destruct (remove_first_perm a l' (Hin a (or_introl eq_refl))) as [l2 [_ Hp]].
    rewrite (total_in_perm sp l' _ k Hp). change (a :: l) with ([a] ++ l). change (a :: l2) with ([a] ++ l2).
    rewrite !total_in_app. apply Qplus_le_r. apply IH; [auto|]. intros x Hx.
    assert (H : In x (a :: l2)) by (eapply Permutation_in; [exact Hp|apply Hin; right; auto]).
    destruct H as [->|H]; [contradiction|auto].
Qed.

Lemma meets_mono sp thr l l' : non_negative sp -> NoDup l -> (forall a, In a l -> In a l') ->
  meets_in sp thr l -> meets_in sp thr l'.
Proof.
  intros Hnn Hnd Hin H k t Hk. specialize (H k t Hk). pose proof (total_in_mono sp l l' k Hnn Hnd Hin). lra.
Qed.

(** a set of areas closed under adjacency within P stays inside *)
Lemma linked_closed g (P C : nat -> Prop) u v : linked g P u v ->
  (forall a b, P a -> P b -> C a -> touch g a b -> C b) -> C u -> C v.
Proof.
  intros H Hc. induction H as [u Hu|u v w Hu Ht Hl IH]; intros HC; [auto|]. apply IH. apply (Hc u v); auto.
  eapply linked_in_l; eauto.
Qed.

Section Fixed.
Variable g : graph.
Hypothesis Hsym : symmetric g.

Lemma failed_closed sp thr P F (S : nat -> Prop) f u v : grown g sp thr P F [] -> In f F ->
  (forall a, S a -> a < gn g /\ ~ In a (concat P)) -> linked g S u v -> In u f -> In v f.
Proof.
  intros [Hp [_ HF]] Hf HS Hl. apply (linked_closed g S (fun a => In a f)); [auto|].
  intros a b Ha Hb Haf Ht. destruct (HF f Hf) as [_ [_ H]].
  apply touch_adj in Ht; [|auto|apply HS; auto|apply HS; auto].
  destruct (H a b Haf (proj1 (HS b Hb)) Ht) as [H'|H']; [auto|]. exfalso. eapply HS; eauto.
Qed.

(** ** nothing more can be built from the enclaves *)
Lemma no_more_regions sp thr P F (S : list nat) : grown g sp thr P F [] -> non_negative sp ->
  NoDup S -> (forall a, In a S -> In a (concat F)) -> contiguous g (fun a => In a S) -> ~ meets_in sp thr S.
Proof.
  intros Hg Hnn Hnd Hin [[u Hu] Hc] Hm.
  pose proof (grown_nodup _ _ _ _ _ _ Hg) as Hndall. pose proof (grown_partial _ _ _ _ _ Hg) as [_ [Hall _]].
  pose proof (Hin u Hu) as HuF. apply in_concat in HuF. destruct HuF as [f [Hf Huf]].
  destruct Hg as [Hp [HP HF]]. destruct (HF f Hf) as [_ [Hnm _]]. apply Hnm.
  apply (meets_mono sp thr S f); auto. intros v Hv.
  apply (failed_closed sp thr P F (fun a => In a S) f u v); auto; [split; auto|].
  intros a Ha. split; [apply Hall; apply in_or_app; auto|]. intros HaP.
  eapply (NoDup_app_disj (concat P)); [exact Hndall|exact HaP|]. apply in_or_app. left; auto.
Qed.

(** ** which islands get a region *)
Lemma island_served sp thr P F : grown g sp thr P F [] ->
  (forall v isl, v < gn g -> island g v isl -> meets_in sp thr isl) -> every_island_served g P.
Proof.
  intros Hg Hisl v Hv. pose proof (grown_partial _ _ _ _ _ Hg) as [Hnd [Hall _]].
  destruct (existsb (fun u => Nat.eqb (comp_label g v) (comp_label g u)) (concat P)) eqn:E.
  - apply existsb_exists in E. destruct E as [u [Hu Eu]]. apply Nat.eqb_eq in Eu. exists u. split; [auto|].
    apply comp_label_eq; auto. apply Hall. apply in_or_app; auto.
  - exfalso.
    assert (Hno : forall u, In u (concat P) -> comp_label g v <> comp_label g u).
    { intros u Hu Eu. assert (Ht : existsb (fun u => Nat.eqb (comp_label g v) (comp_label g u)) (concat P) = true); [|congruence].
      apply existsb_exists. exists u. split; [auto|]. apply Nat.eqb_eq; auto. }
    assert (HvF : In v (concat F)).
    { apply Hall in Hv. apply in_app_iff in Hv. destruct Hv as [Hv|Hv]; [|auto]. exfalso. apply (Hno v); auto. }
    apply in_concat in HvF. destruct HvF as [f [Hf Hvf]].
    set (isl := comp_nodes g (comp_label g v)). pose proof (comp_nodes_island g v Hv) as Hi. fold isl in Hi.
    specialize (Hisl v isl Hv Hi). pose proof Hg as [_ [_ HF]]. destruct (HF f Hf) as [Hcf [Hnm _]]. apply Hnm.
    assert (Hsub : forall a, In a f -> In a (concat F)) by (intros a Ha; apply in_concat; eauto).
    assert (Hp : Permutation isl f).
    { apply NoDup_Permutation.
      - apply comp_nodes_NoDup.
      - apply NoDup_app_r in Hnd. clear - Hnd Hf. induction F as [|f0 F IH]; [destruct Hf|].
        cbn [concat] in Hnd. destruct Hf as [->|Hf]; [|apply IH; auto; eapply NoDup_app_r; eauto].
        clear IH. induction f as [|x f IH]; [constructor|]. cbn in Hnd. inversion Hnd; subst. constructor; [|auto].
        intros H. apply H1. apply in_or_app; auto.
      - intros a. destruct Hi as [_ Hi]. rewrite Hi. split.
        + intros Hl. apply (failed_closed sp thr P F (fun x => x < gn g /\ comp_label g x = comp_label g v) f v a); auto.
          * intros x [Hx Ex]. split; [auto|]. intros HxP. apply (Hno x); auto.
          * assert (Hgen : forall u w, linked g (areas g) u w -> comp_label g u = comp_label g v ->
               linked g (fun x => x < gn g /\ comp_label g x = comp_label g v) u w).
            { intros u w Huw. induction Huw as [u Hu|u x w Hu Ht Hl' IH]; intros Eu; [apply linked_refl; auto|].
              assert (Hx : x < gn g) by (apply linked_in_l in Hl'; auto).
              apply linked_step with x; auto. apply IH. rewrite <- Eu. symmetry. apply comp_label_eq; auto.
              apply linked_one; auto. }
            apply Hgen; auto.
        + intros Ha. apply (linked_mono g (fun x => In x f)).
          * intros x Hx. apply Hall. apply in_or_app; auto.
          * destruct Hcf as [_ Hcf]. apply Hcf; auto. }
    intros k t Hk. specialize (Hisl k t Hk). rewrite (total_in_perm sp isl f k Hp) in Hisl. exact Hisl.
Qed.

Lemma region_in_island P E R u v : partial_partition g P E -> In R P -> In u R -> In v R -> same_island g u v.
Proof.
  intros [_ [Hall Hc]] HR Hu Hv. apply (linked_mono g (fun a => In a R)).
  - intros x Hx. apply Hall. apply in_or_app. left. apply in_concat; eauto.
  - destruct (Hc R HR) as [_ Hl]. apply Hl; auto.
Qed.

Lemma NoDup_in_concat {A} (P : list (list A)) R : NoDup (concat P) -> In R P -> NoDup R.
Proof.
  induction P as [|R0 P IH]; intros Hnd HR; [destruct HR|]. cbn [concat] in Hnd.
  destruct HR as [->|HR]; [|apply IH; auto; eapply NoDup_app_r; eauto].
  clear IH. induction R as [|x R IH]; [constructor|]. cbn in Hnd. inversion Hnd; subst. constructor; [|auto].
  intros H. apply H1. apply in_or_app; auto.
Qed.
Lemma NoDup_app_l {A} (l l' : list A) : NoDup (l ++ l') -> NoDup l.
Proof. intros H. apply (NoDup_in_concat [l; l']); [cbn; rewrite app_nil_r; auto|left; auto]. Qed.

(** an island whose total is too small cannot be served *)
Lemma not_served sp thr P F v isl : grown g sp thr P F [] -> non_negative sp -> v < gn g -> island g v isl ->
  ~ meets_in sp thr isl -> ~ every_island_served g P.
Proof.
  intros Hg Hnn Hv [_ Hi] Hnm Hs. destruct (Hs v Hv) as [u [Hu Hvu]]. pose proof (grown_partial _ _ _ _ _ Hg) as Hpp.
  apply in_concat in Hu. destruct Hu as [R [HR Hu]]. destruct Hg as [_ [HP _]]. destruct (HP R HR) as [_ Hm].
  apply Hnm. apply (meets_mono sp thr R isl); auto.
  - destruct Hpp as [Hnd _]. apply NoDup_app_l in Hnd. eapply NoDup_in_concat; eauto.
  - intros a Ha. apply Hi. eapply linked_trans; [exact Hvu|]. eapply region_in_island; eauto.
Qed.
End Fixed.

(** ** assigning enclaves *)
Lemma crossing g (C : nat -> Prop) u v : (forall a, C a \/ ~ C a) -> linked g (areas g) u v -> C u -> ~ C v ->
  exists a b, a < gn g /\ b < gn g /\ C a /\ ~ C b /\ touch g a b.
Proof.
  intros Hdec H. induction H as [u Hu|u w v Hu Ht Hl IH]; intros HC Hn; [contradiction|].
  destruct (Hdec w) as [Hw|Hw]; [auto|]. exists u, w. split; [auto|]. split; [apply linked_in_l in Hl; auto|auto].
Qed.

Lemma concat_upd (P : list (list nat)) : forall k R, k < length P ->
  Permutation (concat (upd P k R) ++ nth k P []) (concat P ++ R).
Proof.
  induction P as [|R0 P IH]; intros [|k] R Hk; cbn [length] in Hk; try lia; cbn [upd concat nth].
  - perm.
  - pose proof (IH k R ltac:(lia)). perm.
Qed.

Lemma Forall2_nth {A} (R : A -> A -> Prop) (l l' : list A) d : length l = length l' ->
  (forall k, k < length l -> R (nth k l d) (nth k l' d)) -> Forall2 R l l'.
Proof.
  revert l'. induction l as [|x l IH]; intros [|y l'] Hl H; cbn in Hl; try lia; constructor.
  - apply (H 0). cbn; lia.
  - apply IH; [lia|]. intros k Hk. apply (H (S k)). cbn; lia.
Qed.
Lemma incl_refl_all (P : list (list nat)) : Forall2 (@incl nat) P P.
Proof. induction P; constructor; auto. intros x; auto. Qed.
Lemma incl_trans_all (P P' P'' : list (list nat)) : Forall2 (@incl nat) P P' -> Forall2 (@incl nat) P' P'' -> Forall2 (@incl nat) P P''.
Proof.
  intros H. revert P''. induction H as [|R R' P P' HR H IH]; intros P'' H2; inversion H2; subst; constructor.
  - eapply incl_tran; eauto.
  - auto.
Qed.

Lemma concat_unique (P : list (list nat)) b : NoDup (concat P) -> forall j k, j < length P -> k < length P ->
  In b (nth j P []) -> In b (nth k P []) -> j = k.
Proof.
  induction P as [|R P IH]; intros Hnd [|j] [|k] Hj Hk Hbj Hbk; cbn [length nth concat] in *; try lia.
  - exfalso. eapply (NoDup_app_disj R); [exact Hnd|exact Hbj|]. apply in_concat. exists (nth k P []). split; [apply nth_In; lia|auto].
  - exfalso. eapply (NoDup_app_disj R); [exact Hnd|exact Hbk|]. apply in_concat. exists (nth j P []). split; [apply nth_In; lia|auto].
  - f_equal. apply IH; auto; [eapply NoDup_app_r; eauto|lia|lia].
Qed.

Section Assign.
Variable d : list Q -> list Q -> Q.
Variable g : graph.
Variable attr : list (list Q).
Hypothesis Hsym : symmetric g.

Lemma neigh_regions_idx_In a P k : In k (neigh_regions_idx g a P) ->
  k < length P /\ exists b, b < gn g /\ gadj g a b = true /\ In b (nth k P []).
Proof.
  unfold neigh_regions_idx. intros H. apply in_flat_map in H. destruct H as [b [Hb H]].
  apply neighbors_In in Hb. unfold find_sublist_index in H. destruct (index_where (memb b) P) as [k'|] eqn:E; [|destruct H].
  destruct H as [<-|[]]. apply index_where_spec in E. destruct E as [[R [HR Hm]] _]. apply memb_In in Hm.
  split; [eapply nth_error_lt; eauto|]. exists b. split; [tauto|]. split; [tauto|].
  rewrite (nth_error_nth P k' [] HR). auto.
Qed.
Lemma neigh_regions_idx_nonempty a P b : b < gn g -> gadj g a b = true -> In b (concat P) -> neigh_regions_idx g a P <> [].
Proof.
  intros Hb Hab Hin. apply in_concat in Hin. destruct Hin as [R [HR HbR]].
  destruct (index_where (memb b) P) as [k|] eqn:E.
  - intros Hn. assert (H : In k (neigh_regions_idx g a P)); [|rewrite Hn in H; destruct H].
    unfold neigh_regions_idx. apply in_flat_map. exists b. split; [apply neighbors_In; auto|].
    unfold find_sublist_index. rewrite E. left; auto.
  - exfalso. rewrite index_where_None in E. specialize (E R HR). apply memb_notIn in E. contradiction.
Qed.

Lemma neigh_regions_idx_iff a P E k : a < gn g -> partial_partition g P E ->
  (In k (neigh_regions_idx g a P) <-> k < length P /\ beside g a (nth k P [])).
Proof.
  intros Ha [Hnd [Hall _]]. split.
  - intros H. apply neigh_regions_idx_In in H. destruct H as [Hk [b [Hb [Hab Hin]]]]. split; [auto|]. exists b.
    split; [auto|]. split; [auto|left; auto].
  - intros [Hk [b [Hb [Hin Ht]]]]. unfold neigh_regions_idx. apply in_flat_map. exists b. split.
    + apply neighbors_In. split; [auto|]. apply touch_adj in Ht; auto.
    + unfold find_sublist_index. destruct (index_where (memb b) P) as [j|] eqn:E1.
      * left. apply index_where_spec in E1. destruct E1 as [[R [HR Hm]] _]. apply memb_In in Hm.
        apply NoDup_app_l in Hnd. apply (concat_unique P b Hnd j k); auto.
        -- eapply nth_error_lt; eauto.
        -- rewrite (nth_error_nth P j [] HR). auto.
      * exfalso. rewrite index_where_None in E1. specialize (E1 _ (nth_In P [] Hk)). apply memb_notIn in E1. contradiction.
Qed.

Lemma assign_loop_post fuel : forall P E r, partial_partition g P E -> length E <= fuel ->
  post (fun e => ~ every_island_served g P /\ exists m, e = ValueError m) False (assign_loop d g attr fuel P E r)
    (fun '(P', _) => partial_partition g P' [] /\ Forall2 (@incl nat) P P' /\ absorbed d g attr P E P').
Proof.
  induction fuel as [|fuel IH]; intros P E r Hpp Hf; (destruct E as [|e0 E0]; [cbn; split; [auto|]; split; [apply incl_refl_all|constructor]|]); [cbn in Hf; lia|].
  cbn [assign_loop]. set (E := e0 :: E0) in *.
  set (cands := filter _ E). pose proof Hpp as [Hnd [Hall Hcon]].
  assert (HE : forall a, In a E -> a < gn g) by (intros a Ha; apply Hall, in_or_app; auto).
  assert (Hdec : cands = [] \/ cands <> []) by (destruct cands; [left|right]; congruence).
  destruct Hdec as [Ec|Ec].
  - rewrite Ec. cbn. split; [|eauto]. intros Hs. destruct (Hs e0) as [u [Hu Hl]]; [apply HE; left; auto|].
    destruct (crossing g (fun a => In a E) e0 u) as [a [b [Ha [Hb [HaE [HbE Ht]]]]]].
    + intros x. destruct (in_dec Nat.eq_dec x E); auto.
    + exact Hl.
    + left; auto.
    + intros H. eapply (NoDup_app_disj (concat P)); eauto.
    + assert (Hin : In a cands); [|rewrite Ec in Hin; destruct Hin]. unfold cands. apply filter_In. split; [auto|].
      apply existsb_exists. exists b. split.
      * apply neighbors_In. split; [auto|]. apply touch_adj in Ht; auto.
      * apply negb_true_iff. apply memb_notIn. auto.
  - destruct (pop_randomly_from_Ok cands r Ec) as [a [rest [Ep Hp]]]. rewrite Ep. cbn [bind].
    assert (Ha : In a cands) by (eapply Permutation_in; [symmetry; exact Hp|left; auto]).
    unfold cands in Ha. apply filter_In in Ha. destruct Ha as [HaE Hb]. apply existsb_exists in Hb. destruct Hb as [b [Hb HbE]].
    apply neighbors_In in Hb. destruct Hb as [Hb Hab]. apply negb_true_iff in HbE. apply memb_notIn in HbE.
    assert (HbP : In b (concat P)) by (apply Hall in Hb; apply in_app_iff in Hb; tauto).
    pose proof (neigh_regions_idx_nonempty a P b Hb Hab HbP) as Hidx.
    unfold find_best_region_idx. set (idx := neigh_regions_idx g a P) in *.
    destruct idx as [|i0 is] eqn:Ei; [congruence|]. rewrite <- Ei in *.
    destruct (random_element_from_Ok (best_keys (fun k => dissimilarity d attr a (nth k P [])) (set_union [] idx)) (rnext r)) as [k [Ek Hk]].
    { apply best_keys_nonempty. intros H. assert (Hx : In i0 (set_union [] idx)) by (apply set_union_In; right; rewrite Ei; left; auto).
      rewrite H in Hx. destruct Hx. }
    rewrite Ek. cbn [bind]. apply best_keys_In in Hk. destruct Hk as [Hk Hmin]. apply set_union_In in Hk. destruct Hk as [[]|Hk].
    unfold idx in Hk. apply neigh_regions_idx_In in Hk. destruct Hk as [HkP [b' [Hb' [Hab' HbR]]]].
    destruct (remove_first_perm a E HaE) as [E' [EE HE']]. rewrite EE.
    assert (HRin : In (nth k P []) P) by (apply nth_In; auto).
    assert (HaR : ~ In a (nth k P [])).
    { intros H. eapply (NoDup_app_disj (concat P)); [exact Hnd| |exact HaE]. apply in_concat; eauto. }
    unfold add_to_region. rewrite (set_add_new a _ HaR).
    set (P1 := upd P k (nth k P [] ++ [a])).
    assert (Hpp1 : partial_partition g P1 E').
    { assert (Hp1 : Permutation (concat P1 ++ E') (seq 0 (gn g))).
      { assert (H0 : Permutation (concat P ++ E) (seq 0 (gn g))) by (apply partial_perm; auto).
        pose proof (concat_upd P k (nth k P [] ++ [a]) HkP) as H1. fold P1 in H1. perm. }
      apply partial_perm in Hp1. destruct Hp1 as [H1 H2]. split; [auto|]. split; [auto|].
      intros R HR. apply In_nth_error in HR. destruct HR as [j Hj]. unfold P1 in Hj.
      destruct (Nat.eq_dec j k) as [->|Hne].
      - rewrite nth_error_upd_eq in Hj by auto. injection Hj as <-.
        apply (contiguous_ext g (fun x => In x (nth k P []) \/ x = a)); [intros x; rewrite in_app_iff; cbn; intuition auto|].
        apply contiguous_add with (b := b'); [apply Hcon; auto|auto|]. right; auto.
      - rewrite nth_error_upd_ne in Hj by auto. apply Hcon. eapply nth_error_In; eauto. }
    assert (Hinc : Forall2 (@incl nat) P P1).
    { apply (Forall2_nth _ _ _ []); [unfold P1; rewrite upd_length; auto|]. intros j Hj. unfold P1.
      destruct (Nat.eq_dec j k) as [->|Hne]; [rewrite nth_upd_eq by auto; intros x Hx; apply in_or_app; auto|].
      rewrite nth_upd_ne by auto. intros x; auto. }
    pose proof (Permutation_length HE') as HEl. cbn [length] in HEl.
    eapply post_weaken; [| | |apply (IH P1 E' (rnext (rnext r)) Hpp1 ltac:(lia))]; auto.
    + intros e [Hns Hm]. split; [|auto]. intros Hs. apply Hns. intros v Hv. destruct (Hs v Hv) as [u [Hu Hl]]. exists u. split; [|auto].
      apply in_concat in Hu. destruct Hu as [R [HR Hu]]. apply In_nth_error in HR. destruct HR as [j Hj].
      clear - Hj Hu Hinc. revert j Hj. induction Hinc as [|R0 R1 P0 P2 HR H IH]; intros [|j] Hj; cbn in *; try discriminate.
      * injection Hj as <-. apply in_or_app. left. apply HR; auto.
      * apply in_or_app. right. eapply IH; eauto.
    + intros [P' r'] _ [Hp' [Hi' Hab'']]. split; [auto|]. split; [eapply incl_trans_all; eauto|].
      apply (absorbed_step d g attr P E a k E' P' HE' HkP); auto.
      * exists b'. split; [auto|]. split; [auto|left; auto].
      * intros j Hj Hbj. apply Hmin. apply set_union_In. right. apply (neigh_regions_idx_iff a P E); auto.
Qed.

Theorem assign_enclaves_post P E r : partial_partition g P E ->
  post (fun e => ~ every_island_served g P /\ exists m, e = ValueError m) False (assign_enclaves d g attr P E r)
    (fun '(P', _) => every_island_served g P /\ partial_partition g P' [] /\ Forall2 (@incl nat) P P').
Proof.
  intros Hpp. unfold assign_enclaves.
  eapply post_weaken; [| | |apply (assign_loop_post (length E) P E r Hpp)]; auto.
  intros [P' r'] _ [Hpp' [Hinc _]]. split; [|auto]. intros v Hv. destruct Hpp' as [Hnd' [Hall' Hcon']].
  assert (Hv' : In v (concat P')) by (apply Hall' in Hv; rewrite app_nil_r in Hv; auto).
  apply in_concat in Hv'. destruct Hv' as [R' [HR' Hv']]. apply In_nth_error in HR'. destruct HR' as [j Hj].
  assert (HR : exists R, nth_error P j = Some R /\ incl R R').
  { clear - Hj Hinc. revert j Hj. induction Hinc as [|R0 R1 P0 P2 HR H IH]; intros [|j] Hj; cbn in *; try discriminate.
    - injection Hj as <-. eauto.
    - eapply IH; eauto. }
  destruct HR as [R [HR HRR]]. apply nth_error_In in HR. destruct Hpp as [_ [_ Hcon]]. destruct (Hcon R HR) as [[u Hu] _].
  exists u. split; [apply in_concat; eauto|]. apply (linked_mono g (fun a => In a R')).
  - intros x Hx. apply Hall'. rewrite app_nil_r. apply in_concat. exists R'. split; [eapply nth_error_In; eauto|auto].
  - destruct (Hcon' R' (nth_error_In _ _ Hj)) as [_ Hl]. apply Hl; auto.
Qed.

Theorem assign_enclaves_absorbed P E P' r r' : partial_partition g P E ->
  assign_enclaves d g attr P E r = Ok (P', r') -> absorbed d g attr P E P'.
Proof.
  intros Hpp H. unfold assign_enclaves in H. pose proof (assign_loop_post (length E) P E r Hpp ltac:(auto)) as Hp.
  rewrite H in Hp. apply Hp.
Qed.
End Assign.

(** ** label arrays *)
Lemma write_region_spec idx region : forall labels, (forall a, In a region -> a < length labels) ->
  exists labels', write_region labels idx region = Ok labels' /\ length labels' = length labels /\
    (forall a, In a region -> nth_error labels' a = Some idx) /\
    (forall a, ~ In a region -> nth_error labels' a = nth_error labels a).
Proof.
  induction region as [|a region IH]; intros labels H; cbn [write_region].
  - exists labels. split; [auto|]. split; [auto|]. split; [intros a []|auto].
  - destruct (Nat.ltb_spec a (length labels)) as [Ha|Ha]; [|specialize (H a (or_introl eq_refl)); lia].
    destruct (IH (upd labels a idx)) as [l' [E [Hl [Hin Hout]]]]; [intros x Hx; rewrite upd_length; apply H; right; auto|].
    exists l'. split; [auto|]. rewrite upd_length in Hl. split; [auto|]. split.
    + intros x [<-|Hx]; [|auto]. destruct (in_dec Nat.eq_dec a region) as [Hi|Hi]; [auto|].
      rewrite Hout by auto. apply nth_error_upd_eq; auto.
    + intros x Hx. cbn [In] in Hx. rewrite Hout by tauto. apply nth_error_upd_ne. intros ->. tauto.
Qed.

Lemma write_regions_spec regions : forall labels idx, NoDup (concat regions) -> (forall a, In a (concat regions) -> a < length labels) ->
  exists labels', write_regions labels idx regions = Ok labels' /\ length labels' = length labels /\
    (forall k R a, nth_error regions k = Some R -> In a R -> nth_error labels' a = Some (idx + Z.of_nat k)%Z) /\
    (forall a, ~ In a (concat regions) -> nth_error labels' a = nth_error labels a).
Proof.
  induction regions as [|R regions IH]; intros labels idx Hnd Hin; cbn [write_regions].
  - exists labels. split; [auto|]. split; [auto|]. split; [intros [|k]; discriminate|auto].
  - cbn [concat] in *. destruct (write_region_spec idx R labels) as [l1 [E1 [Hl1 [Hi1 Ho1]]]]; [intros a Ha; apply Hin, in_or_app; auto|].
    rewrite E1. cbn [bind].
    destruct (IH l1 (idx + 1)%Z) as [l2 [E2 [Hl2 [Hi2 Ho2]]]]; [eapply NoDup_app_r; eauto|intros a Ha; rewrite Hl1; apply Hin, in_or_app; auto|].
    exists l2. split; [auto|]. split; [lia|]. split.
    + intros [|k] R' a HR' Ha; cbn in HR'.
      * injection HR' as <-. rewrite Ho2; [rewrite Hi1 by auto; f_equal; lia|]. intros H. eapply (NoDup_app_disj R); eauto.
      * rewrite (Hi2 k R' a HR' Ha). f_equal. lia.
    + intros a Ha. rewrite in_app_iff in Ha. rewrite Ho2 by tauto. apply Ho1. tauto.
Qed.

Lemma array_from_region_list_spec n regions : NoDup (concat regions) -> (forall a, In a (concat regions) <-> a < n) ->
  exists labels, array_from_region_list regions = Ok labels /\ length labels = n /\
    (forall a z, nth_error labels a = Some z <-> exists k R, z = Z.of_nat k /\ nth_error regions k = Some R /\ In a R).
Proof.
  intros Hnd Hin. unfold array_from_region_list.
  assert (Hn : length (concat regions) = n).
  { rewrite <- (seq_length n 0). apply Permutation_length, NoDup_Permutation; auto using seq_NoDup. intros a. rewrite Hin, in_seq. lia. }
  rewrite Hn. destruct (write_regions_spec regions (repeat 0%Z n) 0%Z Hnd) as [l [E [Hl [Hi Ho]]]].
  { intros a Ha. rewrite repeat_length. apply Hin; auto. }
  rewrite repeat_length in Hl. exists l. split; [auto|]. split; [auto|]. intros a z. split.
  - intros Ha. assert (Hag : a < n) by (apply nth_error_lt in Ha; lia). apply Hin in Hag. apply in_concat in Hag.
    destruct Hag as [R [HR HaR]]. apply In_nth_error in HR. destruct HR as [k Hk]. specialize (Hi k R a Hk HaR).
    rewrite Ha in Hi. injection Hi as ->. exists k, R. split; [lia|auto].
  - intros [k [R [-> [Hk HaR]]]]. apply (Hi k R a Hk HaR).
Qed.

(** what the array of a complete partition is *)
Lemma array_of_partition g P : partial_partition g P [] ->
  exists labels, array_from_region_list P = Ok labels /\ feasible g labels (length P) /\ ~ In (-1)%Z labels /\
    (forall z, In z labels -> exists k, z = Z.of_nat k /\ k < length P /\ forall a, region labels z a <-> In a (nth k P [])).
Proof.
  intros [Hnd [Hall Hcon]]. rewrite app_nil_r in Hnd.
  assert (Hall' : forall a, In a (concat P) <-> a < gn g) by (intros a; rewrite <- Hall, app_nil_r; reflexivity).
  destruct (array_from_region_list_spec (gn g) P Hnd Hall') as [l [E [Hl Hnth]]]. exists l. split; [auto|].
  assert (Hreg : forall k, k < length P -> forall a, region l (Z.of_nat k) a <-> In a (nth k P [])).
  { intros k Hk a. unfold region. rewrite Hnth. split.
    - intros [k' [R [Ek [HR Ha]]]]. assert (k' = k) by lia. subst k'. rewrite (nth_error_nth P k [] HR). auto.
    - intros Ha. exists k, (nth k P []). split; [auto|]. split; [apply nth_error_nth'; auto|auto]. }
  assert (Hz : forall z, In z l <-> exists k, z = Z.of_nat k /\ k < length P).
  { intros z. split.
    - intros H. apply In_nth_error in H. destruct H as [a Ha]. apply Hnth in Ha. destruct Ha as [k [R [-> [HR _]]]].
      exists k. split; [auto|]. eapply nth_error_lt; eauto.
    - intros [k [-> Hk]]. destruct (Hcon (nth k P []) (nth_In _ _ Hk)) as [[a Ha] _]. apply (Hreg k Hk) in Ha.
      eapply nth_error_In; eauto. }
  split; [split; [auto|split]|split].
  - apply labels_exactly_n. intros z. rewrite Hz. split.
    + intros [k [-> Hk]]. lia.
    + intros H. exists (Z.to_nat z). split; lia.
  - intros z H. apply Hz in H. destruct H as [k [-> Hk]].
    apply (contiguous_ext g (fun a => In a (nth k P []))); [intros a; rewrite Hreg by auto; reflexivity|]. apply Hcon, nth_In; auto.
  - intros H. apply Hz in H. destruct H as [k [Ek _]]. lia.
  - intros z H. apply Hz in H. destruct H as [k [-> Hk]]. exists k. auto.
Qed.

Lemma total_region sp labels z R k : (forall a, region labels z a <-> In a R) -> NoDup R ->
  (total sp labels z k == total_in sp R k)%Q.
Proof.
  intros HR Hnd. unfold total. rewrite <- (sumQ_filter (fun a => Z.eqb (lab labels a) z) (fun a => nth k (nth a sp []) 0%Q)).
  unfold total_in. apply sumQ_map_perm. apply NoDup_Permutation; [apply NoDup_filter, seq_NoDup|auto|].
  intros a. rewrite filter_In, in_seq, <- HR. unfold region. split.
  - intros [Ha E]. apply Z.eqb_eq in E. subst z. apply lab_nth_error. lia.
  - intros Ha. split; [apply nth_error_lt in Ha; lia|]. apply Z.eqb_eq. apply lab_of_nth_error; auto.
Qed.
