(** Max-p heuristic with rounded arithmetic. *)
From Coq Require Import Qabs.
From Verif Require Import Base Spec M_Graph P_Graph M_Util P_Base P_Util P_Forest P_Init P_Initial
  M_Objective P_Sum P_Objective M_Azp P_Azp P_Strategy P_Fit P_AzpFit M_Sa M_MaxP P_MaxP P_MaxP2 P_MaxP3 P_MaxP4 M_Float M_FloatMaxP.

(** ** two thresholds: reached for certain, missed for certain *)
Section Two.
Variable g : graph.
Hypothesis Hsym : symmetric g.
Variable sp : list (list Q).
Variables lo hi : list Q.

Definition grown2 (P F : list (list nat)) (U : list nat) : Prop :=
  Permutation (concat P ++ concat F ++ U) (seq 0 (gn g)) /\
  (forall R, In R P -> good_region g sp lo R) /\ (forall f, In f F -> failed g sp hi P f).

Lemma grown2_partial P F : grown2 P F [] -> partial_partition g P (concat F).
Proof.
  intros [Hp [HP _]]. rewrite app_nil_r in Hp. apply partial_perm in Hp. destruct Hp as [H1 H2].
  split; [auto|]. split; [auto|]. intros R HR. apply (HP R HR).
Qed.
Lemma grown2_nodup P F U : grown2 P F U -> NoDup (concat P ++ concat F ++ U).
Proof. intros [Hp _]. eapply Permutation_NoDup; [symmetry; exact Hp|apply seq_NoDup]. Qed.

Lemma grown2_no_adj P F U : grown2 P F U -> no_adj g (concat F) U.
Proof.
  intros Hg. pose proof (grown2_nodup _ _ _ Hg) as Hnd. destruct Hg as [Hp [_ HF]]. intros a b Ha Hb.
  destruct (gadj g a b) eqn:E; [|auto]. exfalso. apply in_concat in Ha. destruct Ha as [f [Hf Ha]].
  assert (Hbg : b < gn g).
  { assert (In b (seq 0 (gn g))); [|rewrite in_seq in *; lia]. eapply Permutation_in; [exact Hp|]. rewrite !in_app_iff; auto. }
  destruct (HF f Hf) as [_ [_ H]]. destruct (H a b Ha Hbg E) as [H'|H'].
  - apply NoDup_app_r in Hnd. eapply (NoDup_app_disj (concat F)); [exact Hnd| |exact Hb]. apply in_concat; eauto.
  - eapply (NoDup_app_disj (concat P)); [exact Hnd|exact H'|]. rewrite in_app_iff; auto.
Qed.

(** every island that reaches the upper threshold gets a region *)
Lemma island_served2 P F : grown2 P F [] ->
  (forall v isl, v < gn g -> island g v isl -> meets_in sp hi isl) -> every_island_served g P.
Proof.
  intros Hg Hisl v Hv. pose proof (grown2_partial _ _ Hg) as [Hnd [Hall _]].
  destruct (existsb (fun u => Nat.eqb (comp_label g v) (comp_label g u)) (concat P)) eqn:E.
  - apply existsb_exists in E. destruct E as [u [Hu Eu]]. apply Nat.eqb_eq in Eu. exists u. split; [auto|].
    apply comp_label_eq; auto. apply Hall. apply in_or_app; auto.
  - exfalso.
    assert (Hno : forall u, In u (concat P) -> comp_label g v <> comp_label g u).
    { intros u Hu Eu. assert (Ht : existsb (fun u => Nat.eqb (comp_label g v) (comp_label g u)) (concat P) = true); [|congruence].
      apply existsb_exists. exists u. split; [auto|]. apply Nat.eqb_eq; auto. }
    assert (HvF : In v (concat F)).
    { apply Hall in Hv. apply in_app_iff in Hv. destruct Hv as [Hv|Hv]; [|auto]. exfalso. apply (Hno v); auto. }
    apply in_concat in HvF. destruct HvF as [f [Hf Hvf]].
    set (isl := comp_nodes g (comp_label g v)). pose proof (comp_nodes_island g v Hv) as Hi. fold isl in Hi.
    specialize (Hisl v isl Hv Hi). pose proof Hg as [_ [_ HF]]. destruct (HF f Hf) as [Hcf [Hnm Hcl]]. apply Hnm.
    assert (Hsub : forall a, In a f -> In a (concat F)) by (intros a Ha; apply in_concat; eauto).
    assert (Hp : Permutation isl f).
    { apply NoDup_Permutation.
      - apply comp_nodes_NoDup.
      - apply NoDup_app_r in Hnd. eapply NoDup_in_concat; eauto.
      - intros a. destruct Hi as [_ Hi]. rewrite Hi. split.
        + intros Hl. apply (linked_closed g (fun x => x < gn g /\ comp_label g x = comp_label g v) (fun x => In x f) v a); auto.
          * assert (Hgen : forall u w, linked g (areas g) u w -> comp_label g u = comp_label g v ->
               linked g (fun x => x < gn g /\ comp_label g x = comp_label g v) u w).
            { intros u w Huw. induction Huw as [u Hu|u x w Hu Ht Hl' IH]; intros Eu; [apply linked_refl; auto|].
              assert (Hx : x < gn g) by (apply linked_in_l in Hl'; auto).
              apply linked_step with x; auto. apply IH. rewrite <- Eu. symmetry. apply comp_label_eq; auto.
              apply linked_one; auto. }
            apply Hgen; auto.
          * intros x y [Hx _] [Hy Ey] Hxf Ht. apply touch_adj in Ht; auto.
            destruct (Hcl x y Hxf Hy Ht) as [H|H]; [auto|]. exfalso. apply (Hno y); auto.
        + intros Ha. apply (linked_mono g (fun x => In x f)).
          * intros x Hx. apply Hall. apply in_or_app; auto.
          * destruct Hcf as [_ Hcf]. apply Hcf; auto. }
    intros k t Hk. specialize (Hisl k t Hk). rewrite (total_in_perm sp isl f k Hp) in Hisl. exact Hisl.
Qed.

(** an island below the lower threshold gets none *)
Lemma not_served2 P F v isl : grown2 P F [] -> non_negative sp -> v < gn g -> island g v isl ->
  ~ meets_in sp lo isl -> ~ every_island_served g P.
Proof.
  intros Hg Hnn Hv [_ Hi] Hnm Hs. destruct (Hs v Hv) as [u [Hu Hvu]]. pose proof (grown2_partial _ _ Hg) as Hpp.
  apply in_concat in Hu. destruct Hu as [R [HR Hu]]. destruct Hg as [_ [HP _]]. destruct (HP R HR) as [_ Hm].
  apply Hnm. apply (meets_mono sp lo R isl); auto.
  - destruct Hpp as [Hnd _]. apply NoDup_app_l in Hnd. eapply NoDup_in_concat; eauto.
  - intros a Ha. apply Hi. eapply linked_trans; [exact Hvu|]. eapply region_in_island; eauto.
Qed.
End Two.

(** ** growing regions *)
(** the computed sum for a region, in the order in which its areas were added *)
Definition tracked (A : arith) (sp : list (list Q)) (R : list nat) : list Q :=
  match R with [] => [] | a :: R' => fold_left (fun x b => fadd_rows A x (row sp b)) R' (row sp a) end.
Lemma tracked_snoc A sp R w : R <> [] -> tracked A sp (R ++ [w]) = fadd_rows A (tracked A sp R) (row sp w).
Proof. destruct R as [|a R]; [congruence|]. intros _. cbn [tracked app]. rewrite fold_left_app. reflexivity. Qed.

Section Grow.
Variable A : arith.
Variable dis : nat -> list nat -> Q.
Variable g : graph.
Variable sp : list (list Q).
Variables thr lo hi : list Q.
Hypothesis Hsym : symmetric g.
Hypothesis Hloop : no_self_loops g.
(** what the comparison of a computed sum with the threshold tells *)
Hypothesis Hcheck : forall R, R <> [] -> NoDup R -> (forall a, In a R -> a < gn g) ->
  if reaches (tracked A sp R) thr then meets_in sp lo R else ~ meets_in sp hi R.

Lemma extends_R P E R U Z : extends g P E R U Z -> R <> [] /\ NoDup R /\ forall a, In a R -> a < gn g.
Proof.
  intros Hext. pose proof (in_all g Hext) as Hall. pose proof (all_nodup g Hext) as Hnd. destruct Hext as [_ [_ [_ [[u Hu] _]]]].
  split; [intros ->; destruct Hu|]. split; [|intros a Ha; apply Hall; auto].
  apply NoDup_app_r, NoDup_app_r in Hnd. apply NoDup_app_l in Hnd. auto.
Qed.

Lemma fgrow_region_post fuel : forall P E R N U Z r, extends g P E R U Z -> frontier g R U N -> length U < fuel ->
  post noexn False (fgrow_region A dis g sp thr fuel R N (tracked A sp R) U Z r)
    (fun '(ok, R', U', Z', _) => length U' <= length U /\
       if ok : bool then extends g P E R' U' Z' /\ meets_in sp lo R'
       else extends g P E R' U' (concat P ++ R') /\ Permutation Z' (concat P) /\ ~ meets_in sp hi R' /\ no_adj g R' U').
Proof.
  induction fuel as [|fuel IH]; intros P E R N U Z r Hext Hfr Hf; [lia|]. cbn [fgrow_region].
  destruct (extends_R P E R U Z Hext) as [R1 [R2 R3]]. pose proof (Hcheck R R1 R2 R3) as Hre.
  destruct (reaches (tracked A sp R) thr) eqn:Ere.
  - cbn. split; [auto|]. split; auto.
  - destruct N as [|n0 N0].
    + destruct (remove_all_spec R Z (concat P)) as [Z' [EZ HZ]]; [apply Hext|]. rewrite EZ. cbn.
      split; [auto|]. split; [destruct Hext as [H1 [H2 [H3 H4]]]; split; auto|]. split; [auto|].
      split; [exact Hre|].
      intros a b Ha Hb. destruct (gadj g a b) eqn:Eab; [|auto]. exfalso. apply (proj2 (Hfr b)). split; [auto|]. exists a; auto.
    + set (N := n0 :: N0) in *.
      destruct (random_element_from_Ok (best_keys (fun a => dis a R) N) r) as [w [Ew Hw]].
      { apply best_keys_nonempty. discriminate. }
      unfold ffind_best_area. rewrite Ew. cbn [bind]. apply best_keys_In in Hw. destruct Hw as [HwN _].
      destruct (grow_step manhattan g thr Hsym Hloop P E R N U Z w Hext Hfr HwN) as [U' [EU [HU [HwR [Hwg [Hext' Hfr']]]]]]. rewrite EU.
      rewrite (set_add_new w R HwR), <- (tracked_snoc A sp R w R1).
      eapply (post_weaken noexn noexn False False); [auto|auto| |apply (IH P E (R ++ [w]) _ U' (Z ++ [w]))].
      * intros [[[[ok R'] U''] Z'] r'] _ [Hle H]. split; [|exact H].
        apply Permutation_length in HU. cbn in HU. lia.
      * exact Hext'.
      * exact Hfr'.
      * apply Permutation_length in HU. cbn in HU. lia.
Qed.

Lemma failed_more2 P R f : failed g sp hi P f -> failed g sp hi (P ++ [R]) f.
Proof.
  intros [H1 [H2 H3]]. split; [auto|]. split; [auto|]. intros a b Ha Hb Hab.
  destruct (H3 a b Ha Hb Hab) as [H|H]; [auto|right]. rewrite concat_app, in_app_iff. auto.
Qed.

Lemma fgrow_loop_post fuel : forall P F U Z r, grown2 g sp lo hi P F U -> Permutation Z (concat P) -> length U <= fuel ->
  post noexn False (fgrow_loop A dis g sp thr fuel P (concat F) U Z r)
    (fun '(P', E', _) => exists F', E' = concat F' /\ grown2 g sp lo hi P' F' []).
Proof.
  induction fuel as [|fuel IH]; intros P F U Z r Hg HZ Hf; (destruct U as [|u0 U0]; cbn [fgrow_loop]; [cbn; exists F; split; auto|]); [cbn in Hf; lia|].
  set (U := u0 :: U0) in *.
  destruct (pop_randomly_from_Ok U r ltac:(discriminate)) as [a [U1 [Ep HU]]]. rewrite Ep. cbn [bind].
  pose proof (Permutation_length HU) as HUl. cbn [length] in HUl.
  assert (Hag : a < gn g).
  { destruct Hg as [Hp _]. assert (In a (seq 0 (gn g))); [|rewrite in_seq in *; lia]. eapply Permutation_in; [exact Hp|].
    rewrite !in_app_iff. right; right. eapply Permutation_in; [symmetry; exact HU|left; auto]. }
  assert (Hre : if reaches (row sp a) thr then meets_in sp lo [a] else ~ meets_in sp hi [a]).
  { apply (Hcheck [a]); [discriminate|constructor; [intros []|constructor]|intros x [<-|[]]; auto]. }
  pose proof (grown2_no_adj _ _ _ _ _ _ _ Hg) as Hna. pose proof (grown2_nodup _ _ _ _ _ _ _ Hg) as Hnd.
  destruct (reaches (row sp a) thr) eqn:Ere.
  - apply (IH (P ++ [[a]]) F U1); [|perm|lia].
    destruct Hg as [Hp [HP HF]]. split; [perm|]. split.
    + intros R HR. apply in_app_iff in HR. destruct HR as [HR|[<-|[]]]; [auto|]. split; [apply single_contiguous|auto].
    + intros f Hf'. apply failed_more2; auto.
  - assert (Hext : extends g P (concat F) [a] U1 (Z ++ [a])).
    { destruct Hg as [Hp _]. split; [perm|]. split; [perm|]. split; [|apply single_contiguous].
      intros x y Hx Hy. apply Hna; [auto|]. eapply Permutation_in; [symmetry; exact HU|]. exact Hy. }
    eapply (post_bind noexn False); [apply (fgrow_region_post (S (length U1)) P (concat F) [a] _ U1 (Z ++ [a]) _ Hext)|].
    + apply seed_frontier with (P := P) (E := concat F); auto.
    + lia.
    + intros [[[[ok R] U2] Z2] r2] _ [Hle H]. destruct Hg as [Hp [HP HF]]. destruct ok.
      * destruct H as [[E1 [E2 [E3 E4]]] Hm]. apply (IH (P ++ [R]) F U2); [|perm|lia].
        split; [perm|]. split.
        -- intros R' HR'. apply in_app_iff in HR'. destruct HR' as [HR'|[<-|[]]]; [auto|]. split; auto.
        -- intros f Hf'. apply failed_more2; auto.
      * destruct H as [Hx [HZ2 [Hnm HnU]]]. pose proof (in_all g Hx) as Hall. destruct Hx as [E1 [E2 [E3 E4]]].
        replace (concat F ++ R) with (concat (F ++ [R])) by (rewrite concat_app; cbn; rewrite app_nil_r; auto).
        apply (IH P (F ++ [R]) U2 Z2); [|auto|lia]. split; [perm|]. split; [auto|].
        intros f Hf'. apply in_app_iff in Hf'. destruct Hf' as [Hf'|[<-|[]]]; [auto|].
        split; [auto|]. split; [auto|]. intros x y Hx' Hy Hxy.
        destruct (proj1 (Hall y) Hy) as [H|[H|[H|H]]]; auto.
        -- exfalso. assert (Hf0 : gadj g y x = false) by (apply E3; [auto|apply in_app_iff; auto]).
           rewrite (Hsym y x) in Hf0; [congruence|auto|]. apply Hall; auto.
        -- exfalso. rewrite (HnU x y Hx' H) in Hxy. discriminate.
Qed.

Theorem fgrow_regions_post r :
  post noexn False (fgrow_regions A dis g sp thr r)
    (fun '(P, E, _) => exists F, E = concat F /\ grown2 g sp lo hi P F []).
Proof.
  unfold fgrow_regions. apply (fgrow_loop_post (gn g) [] [] (seq 0 (gn g)) [] r).
  - split; [reflexivity|]. split; intros ? [].
  - constructor.
  - rewrite seq_length. auto.
Qed.

Definition kept2 (mp : nat) (x : list (list nat) * list nat) : Prop :=
  length (fst x) = mp /\ exists F, snd x = concat F /\ grown2 g sp lo hi (fst x) F [].

Lemma fconstruct_post k : forall mp best r, (forall x, In x best -> kept2 mp x) -> (best <> [] \/ mp = 0) ->
  post noexn False (fconstruct A dis g sp thr k mp best r)
    (fun '(mp', best', _) => (forall x, In x best' -> kept2 mp' x) /\ (best' <> [] \/ (k = 0 /\ best = []))).
Proof.
  induction k as [|k IH]; intros mp best r Hb Hne; cbn [fconstruct].
  - cbn [post]. split; [auto|]. destruct best; [right; auto|left; discriminate].
  - eapply (post_bind noexn False); [apply fgrow_regions_post; auto|]. intros [[P E] r1] _ [F [-> HG]].
    assert (Hnew : kept2 (length P) (P, concat F)) by (split; [auto|exists F; auto]).
    destruct (Nat.ltb_spec mp (length P)) as [Hlt|Hle]; [|destruct (Nat.eqb_spec (length P) mp) as [Heq|Hn]].
    + eapply (post_weaken noexn noexn False False); [auto|auto| |apply IH].
      * intros [[mp' best'] r'] _ [H1 [H2|[H2 H3]]]; [auto|]. discriminate.
      * intros x [<-|[]]. auto.
      * left. discriminate.
    + subst mp. eapply (post_weaken noexn noexn False False); [auto|auto| |apply IH].
      * intros [[mp' best'] r'] _ [H1 [H2|[H2 H3]]]; [auto|]. destruct best; discriminate.
      * intros x Hx. apply in_app_or in Hx. destruct Hx as [Hx|[<-|[]]]; auto.
      * left. destruct best; discriminate.
    + eapply (post_weaken noexn noexn False False); [auto|auto| |apply IH; auto].
      intros [[mp' best'] r'] _ [H1 [H2|[H2 H3]]]; [auto|]. destruct Hne as [Hne|Hne]; [contradiction|lia].
Qed.

(** ** enclaves *)
Lemma fassign_loop_post fuel : forall P E r, partial_partition g P E -> length E <= fuel ->
  post (fun e => ~ every_island_served g P /\ exists m, e = ValueError m) False (fassign_loop dis g fuel P E r)
    (fun '(P', _) => partial_partition g P' [] /\ Forall2 (@incl nat) P P').
Proof.
  induction fuel as [|fuel IH]; intros P E r Hpp Hf; (destruct E as [|e0 E0]; [cbn; split; [auto|apply incl_refl_all]|]); [cbn in Hf; lia|].
  cbn [fassign_loop]. set (E := e0 :: E0) in *.
  set (cands := filter _ E). pose proof Hpp as [Hnd [Hall Hcon]].
  assert (HE : forall a, In a E -> a < gn g) by (intros a Ha; apply Hall, in_or_app; auto).
  assert (Hdec : cands = [] \/ cands <> []) by (destruct cands; [left|right]; congruence).
  destruct Hdec as [Ec|Ec].
  - rewrite Ec. cbn. split; [|eauto]. intros Hs. destruct (Hs e0) as [u [Hu Hl]]; [apply HE; left; auto|].
    destruct (crossing g (fun a => In a E) e0 u) as [a [b [Ha [Hb [HaE [HbE Ht]]]]]].
    + intros x. destruct (in_dec Nat.eq_dec x E); auto.
    + exact Hl.
    + left; auto.
    + intros H. eapply (NoDup_app_disj (concat P)); eauto.
    + assert (Hin : In a cands); [|rewrite Ec in Hin; destruct Hin]. unfold cands. apply filter_In. split; [auto|].
      apply existsb_exists. exists b. split.
      * apply neighbors_In. split; [auto|]. apply touch_adj in Ht; auto.
      * apply negb_true_iff. apply memb_notIn. auto.
  - destruct (pop_randomly_from_Ok cands r Ec) as [a [rest [Ep Hp]]]. rewrite Ep. cbn [bind].
    assert (Ha : In a cands) by (eapply Permutation_in; [symmetry; exact Hp|left; auto]).
    unfold cands in Ha. apply filter_In in Ha. destruct Ha as [HaE Hb]. apply existsb_exists in Hb. destruct Hb as [b [Hb HbE]].
    apply neighbors_In in Hb. destruct Hb as [Hb Hab]. apply negb_true_iff in HbE. apply memb_notIn in HbE.
    assert (HbP : In b (concat P)) by (apply Hall in Hb; apply in_app_iff in Hb; tauto).
    pose proof (neigh_regions_idx_nonempty g a P b Hb Hab HbP) as Hidx.
    unfold ffind_best_region_idx. set (idx := neigh_regions_idx g a P) in *.
    destruct idx as [|i0 is] eqn:Ei; [congruence|]. rewrite <- Ei in *.
    destruct (random_element_from_Ok (best_keys (fun k => dis a (nth k P [])) (set_union [] idx)) (rnext r)) as [k [Ek Hk]].
    { apply best_keys_nonempty. intros H. assert (Hx : In i0 (set_union [] idx)) by (apply set_union_In; right; rewrite Ei; left; auto).
      rewrite H in Hx. destruct Hx. }
    rewrite Ek. cbn [bind]. apply best_keys_In in Hk. destruct Hk as [Hk _]. apply set_union_In in Hk. destruct Hk as [[]|Hk].
    unfold idx in Hk. apply neigh_regions_idx_In in Hk. destruct Hk as [HkP [b' [Hb' [Hab' HbR]]]].
    destruct (remove_first_perm a E HaE) as [E' [EE HE']]. rewrite EE.
    assert (HRin : In (nth k P []) P) by (apply nth_In; auto).
    assert (HaR : ~ In a (nth k P [])).
    { intros H. eapply (NoDup_app_disj (concat P)); [exact Hnd| |exact HaE]. apply in_concat; eauto. }
    unfold add_to_region. rewrite (set_add_new a _ HaR).
    set (P1 := upd P k (nth k P [] ++ [a])).
    assert (Hpp1 : partial_partition g P1 E').
    { assert (Hp1 : Permutation (concat P1 ++ E') (seq 0 (gn g))).
      { assert (H0 : Permutation (concat P ++ E) (seq 0 (gn g))) by (apply partial_perm; auto).
        pose proof (concat_upd P k (nth k P [] ++ [a]) HkP) as H1. fold P1 in H1. perm. }
      apply partial_perm in Hp1. destruct Hp1 as [H1 H2]. split; [auto|]. split; [auto|].
      intros R HR. apply In_nth_error in HR. destruct HR as [j Hj]. unfold P1 in Hj.
      destruct (Nat.eq_dec j k) as [->|Hne].
      - rewrite nth_error_upd_eq in Hj by auto. injection Hj as <-.
        apply (contiguous_ext g (fun x => In x (nth k P []) \/ x = a)); [intros x; rewrite in_app_iff; cbn; intuition auto|].
        apply contiguous_add with (b := b'); [apply Hcon; auto|auto|]. right; auto.
      - rewrite nth_error_upd_ne in Hj by auto. apply Hcon. eapply nth_error_In; eauto. }
    assert (Hinc : Forall2 (@incl nat) P P1).
    { apply (Forall2_nth _ _ _ []); [unfold P1; rewrite upd_length; auto|]. intros j Hj. unfold P1.
      destruct (Nat.eq_dec j k) as [->|Hne]; [rewrite nth_upd_eq by auto; intros x Hx; apply in_or_app; auto|].
      rewrite nth_upd_ne by auto. intros x; auto. }
    pose proof (Permutation_length HE') as HEl. cbn [length] in HEl.
    eapply post_weaken; [| | |apply (IH P1 E' (rnext (rnext r)) Hpp1 ltac:(lia))]; auto.
    + intros e [Hns Hm]. split; [|auto]. intros Hs. apply Hns. intros v Hv. destruct (Hs v Hv) as [u [Hu Hl]]. exists u. split; [|auto].
      apply in_concat in Hu. destruct Hu as [R [HR Hu]]. apply In_nth_error in HR. destruct HR as [j Hj].
      clear - Hj Hu Hinc. revert j Hj. induction Hinc as [|R0 R1 P0 P2 HR H IH]; intros [|j] Hj; cbn in *; try discriminate.
      * injection Hj as <-. apply in_or_app. left. apply HR; auto.
      * apply in_or_app. right. eapply IH; eauto.
    + intros [P' r'] _ [Hp' Hi']. split; [auto|]. eapply incl_trans_all; eauto.
Qed.

Theorem fassign_enclaves_post P E r : partial_partition g P E ->
  post (fun e => ~ every_island_served g P /\ exists m, e = ValueError m) False (fassign_enclaves dis g P E r)
    (fun '(P', _) => every_island_served g P /\ partial_partition g P' [] /\ Forall2 (@incl nat) P P').
Proof.
  intros Hpp. unfold fassign_enclaves.
  eapply post_weaken; [| | |apply (fassign_loop_post (length E) P E r Hpp)]; auto.
  intros [P' r'] _ [Hpp' Hinc]. split; [|auto]. intros v Hv. destruct Hpp' as [Hnd' [Hall' Hcon']].
  assert (Hv' : In v (concat P')) by (apply Hall' in Hv; rewrite app_nil_r in Hv; auto).
  apply in_concat in Hv'. destruct Hv' as [R' [HR' Hv']]. apply In_nth_error in HR'. destruct HR' as [j Hj].
  assert (HR : exists R, nth_error P j = Some R /\ incl R R').
  { clear - Hj Hinc. revert j Hj. induction Hinc as [|R0 R1 P0 P2 HR H IH]; intros [|j] Hj; cbn in *; try discriminate.
    - injection Hj as <-. eauto.
    - eapply IH; eauto. }
  destruct HR as [R [HR HRR]]. apply nth_error_In in HR. destruct Hpp as [_ [_ Hcon]]. destruct (Hcon R HR) as [[u Hu] _].
  exists u. split; [apply in_concat; eauto|]. apply (linked_mono g (fun a => In a R')).
  - intros x Hx. apply Hall'. rewrite app_nil_r. apply in_concat. exists R'. split; [eapply nth_error_In; eauto|auto].
  - destruct (Hcon' R' (nth_error_In _ _ Hj)) as [_ Hl]. apply Hl; auto.
Qed.

Lemma fassign_each_post mp : forall before r, (forall x, In x before -> kept2 mp x) ->
  post (fun e => (exists x, In x before /\ ~ every_island_served g (fst x)) /\ exists m, e = ValueError m) False
    (fassign_each dis g before r)
    (fun '(parts, _) => (forall x, In x before -> every_island_served g (fst x)) /\
       Forall2 (fun x P' => partial_partition g P' [] /\ Forall2 (@incl nat) (fst x) P') before parts).
Proof.
  induction before as [|[P E] before IH]; intros r Hk; cbn [fassign_each].
  - cbn [post]. split; [intros x []|constructor].
  - destruct (Hk (P, E) (or_introl eq_refl)) as [Hl [F [HE HG]]]. cbn [fst snd] in *.
    eapply (post_bind _ False _ _ (fun '(P', _) => every_island_served g P /\ partial_partition g P' [] /\ Forall2 (@incl nat) P P')).
    + eapply post_weaken; [| | |apply (fassign_enclaves_post P E r)]; auto.
      * intros e [Hs Hm]. split; [exists (P, E); split; [left; auto|exact Hs]|exact Hm].
      * rewrite HE. eapply grown2_partial; eauto.
    + intros [P' r1] _ [Hs [Hpp Hincl]].
      eapply (post_bind _ False _ _ (fun '(parts, _) => (forall x, In x before -> every_island_served g (fst x)) /\
         Forall2 (fun x P' => partial_partition g P' [] /\ Forall2 (@incl nat) (fst x) P') before parts)).
      * eapply post_weaken; [| | |apply IH]; auto.
        -- intros e [[x [Hx Hn]] Hm]. split; [exists x; split; [right; auto|auto]|auto].
        -- intros x Hx. apply Hk. right; auto.
      * intros [ps r2] _ [H1 H2]. cbn [post]. split; [intros x [<-|Hx]; auto|]. constructor; auto.
Qed.

Hypothesis Hpos : non_negative sp.
Lemma kept2_startable mp x P' : kept2 mp x -> partial_partition g P' [] -> Forall2 (@incl nat) (fst x) P' -> startable g sp lo mp P'.
Proof.
  intros [Hl [F [HE HG]]] Hpp Hincl. pose proof (array_of_partition g P' Hpp) as [l [El [Hf [Hm1 Hz]]]].
  assert (Hlen : length P' = mp) by (rewrite <- Hl; symmetry; eapply Forall2_len; eauto).
  exists l. rewrite Hlen in Hf. split; [auto|]. split; [auto|]. split; [auto|].
  intros z Hzin. destruct (Hz z Hzin) as [k [-> [Hk Hreg]]].
  destruct (Forall2_nth_r _ _ _ Hincl k (nth k P' [])) as [R [HR Hsub]]; [apply nth_error_nth'; auto|].
  pose proof Hpp as [Hnd _]. rewrite app_nil_r in Hnd.
  assert (HndP : NoDup (nth k P' [])) by (eapply NoDup_in_concat; eauto; apply nth_In; auto).
  intros j t Hj. rewrite (total_region sp l _ (nth k P' []) j Hreg HndP).
  assert (HRin : In R (fst x)) by (eapply nth_error_In; eauto).
  assert (Hm : meets_in sp lo (nth k P' [])).
  { apply (meets_mono sp lo R); auto.
    - pose proof (grown2_partial _ _ _ _ _ _ HG) as [Hnd' _]. apply NoDup_app_l in Hnd'. eapply NoDup_in_concat; eauto.
    - destruct HG as [_ [HG _]]. apply (HG R HRin). }
  apply Hm; auto.
Qed.
End Grow.

(** ** local search under the wrapper: one component *)
Definition spared (sp : list (list Q)) (lo : list Q) (a : nat) (l : list Z) : Prop :=
  any_nonzero (row sp a) = false \/
  forall k t, nth_error lo k = Some t -> (t <= total sp l (lab l a) k - nth k (nth a sp []) 0)%Q.

Lemma spared_meets sp lo a r l : non_negative sp -> a < length l -> In r l -> lab l a <> r -> spared sp lo a l ->
  (forall z, In z l -> meets sp lo l z) -> forall z, In z (upd l a r) -> meets sp lo (upd l a r) z.
Proof.
  intros Hpos Ha Hr Hne Hd Hm z Hz k t Hk. rewrite total_upd by auto.
  assert (Hx : (0 <= nth k (nth a sp []) 0)%Q).
  { destruct (nth_in_or_default k (nth a sp []) 0%Q) as [Hi|Hi]; [|rewrite Hi; lra].
    destruct (nth_in_or_default a sp []) as [Hj|Hj]; [apply (Hpos (nth a sp [])); auto|]. rewrite Hj in Hi. destruct Hi. }
  destruct (Z.eqb_spec (lab l a) z) as [<-|Hza].
  - destruct (Z.eqb_spec r (lab l a)); [congruence|]. destruct Hd as [H|H].
    + pose proof (any_nonzero_false _ H k) as H0. unfold row in H0. rewrite H0.
      assert (Hin : In (lab l a) l) by (apply nth_In; auto). specialize (Hm _ Hin k t Hk). lra.
    + specialize (H k t Hk). lra.
  - assert (Hin : In z l) by (apply In_upd in Hz; destruct Hz as [->|]; auto).
    specialize (Hm z Hin k t Hk). destruct (Z.eqb r z); lra.
Qed.

Section WrapComponent.
Variables B A : arith.
Variables (sp_all sp : list (list Q)) (thr lo : list Q).
Variable g : graph.
Hypothesis Hsym : symmetric g.
Hypothesis Hpos : non_negative sp.
Hypothesis Hdonor : forall l a, length l = gn g -> a < gn g -> fdonor_ok B sp thr a l = true -> spared sp lo a l.
Variable E : exn -> Prop.
Variable N : Prop.
Variable c0 : common.
(** whether the component met the thresholds at the start *)
Variable M : Prop.
Variable Inner : fstrategy -> list Z -> Prop.
Hypothesis Hinner : forall s a r l rg, wf g l -> legal_move g l a r -> Inner s l ->
  post E N (fstrat_call B A s a r l rg) (fun '(b, s', _) => Inner s' (if b : bool then upd l a r else l)).

Definition fmp_I (s : fstrategy) (l : list Z) : Prop :=
  exists inner, s = FMaxP c0 sp_all sp thr inner /\ (M -> forall z, In z l -> meets sp lo l z) /\ Inner inner l.

Lemma fmp_call_post s a r l rg : wf g l -> legal_move g l a r -> fmp_I s l ->
  post E N (fstrat_call B A s a r l rg) (fun '(b, s', _) => fmp_I s' (if b : bool then upd l a r else l)).
Proof.
  intros Hwf Hl [inner [-> [Hm Hin]]].
  assert (Hlen : length l = gn g) by apply Hwf. pose proof Hl as [Ha [D [HD [Hne [_ [b [_ [Hb _]]]]]]]].
  cbn [fstrat_call]. destruct (fdonor_ok B sp thr a l) eqn:Ed; [|cbn; exists inner; auto].
  pose proof (Hinner inner a r l rg Hwf Hl Hin) as Hp.
  destruct (fstrat_call B A inner a r l rg) as [[[b1 s1] rg1]|e|]; cbn [bind post] in *; [|auto|auto].
  exists s1. split; [auto|]. split; [|auto]. destruct b1; [|auto]. intros HM. specialize (Hm HM).
  apply (spared_meets sp lo a r l); auto.
  - lia.
  - eapply nth_error_In; eauto.
  - apply lab_of_nth_error in HD. congruence.
Qed.

Theorem fmp_component_post fuel labels0 s rg : wf g labels0 -> labels0 <> [] -> fmp_I s labels0 -> (N \/ gn g + 1 < fuel) ->
  post E N (azp_component fstrategy (fstrat_call B A) fstrat_val g fuel labels0 s rg)
    (fun '(labels', s', _) => wf g labels' /\ same_labels labels' labels0 /\ fmp_I s' labels').
Proof.
  intros Hwf Hne HI Hf.
  eapply (post_weaken E E N N); [auto|auto| |
    apply (azp_component_post fstrategy (fstrat_call B A) fstrat_val g Hsym E N fmp_I (fun _ => fmp_I) (fun _ _ _ _ => True) (fun _ _ _ => True))
     with (m := fun _ => 0)]; auto.
  - intros [[l' s'] rg'] _ [Hwf' [Hs' [HI' _]]]. auto.
  - intros _ s1 a r l rg1 H1 H2 H3. eapply (post_weaken E E N N); [auto|auto| |apply fmp_call_post; eauto].
    intros [[b s'] rg'] _ H. destruct b; auto.
  - right. intros s1 l1 s2 l2 _ _ [i1 [-> _]] _ _ [i2 [-> _]] Hlt. cbn in Hlt. lra.
Qed.
End WrapComponent.

(** ** all components *)
Section WrapFit.
Variables B A : arith.
Variable order : list edge -> list edge.
Hypothesis Hord : forall l, Permutation (order l) l.
Variable O : objfun.
Variable g : graph.
Hypothesis Hsym : symmetric g.
Variables attr sp : list (list Q).
Variables thr lo : list Q.
Hypothesis Hlen_sp : length sp = gn g.
Hypothesis Hpos : non_negative sp.
Hypothesis Hdonor : forall c l a, c < n_components g -> length l = length (comp_nodes g c) -> a < length l ->
  fdonor_ok B (map (row sp) (comp_nodes g c)) thr a l = true -> spared (map (row sp) (comp_nodes g c)) lo a l.
Variable E : exn -> Prop.
Variable N : Prop.
Variable Inner : nat -> fstrategy -> list Z -> Prop.
Hypothesis Hstart : forall c l inner, c < n_components g -> wf (comp_graph g c) l ->
  post E N (let* _ := start_common l (attr_c attr g c) O in fstrat_start O inner l (attr_c attr g c) (comp_nodes g c))
    (fun i => Inner c i l).
Hypothesis Hcall : forall c s a r l rg, c < n_components g -> wf (comp_graph g c) l -> legal_move (comp_graph g c) l a r -> Inner c s l ->
  post E N (fstrat_call B A s a r l rg) (fun '(b, s', _) => Inner c s' (if b : bool then upd l a r else l)).

Lemma comp_non_negative2 c : non_negative (map (row sp) (comp_nodes g c)).
Proof.
  intros x q Hx Hq. apply in_map_iff in Hx. destruct Hx as [a [<- Ha]]. apply (Hpos (row sp a)); auto.
  apply nth_In. rewrite Hlen_sp. eapply comp_nodes_lt; eauto.
Qed.

Theorem fwrapped_fit_post fuel p l c1 sp1 inner r : (N \/ gn g + 1 < fuel) ->
  (0 <= p)%Z -> feasible g l (Z.to_nat p) -> ~ In (-1)%Z l -> all_meet sp lo l ->
  post E N (fstrat_fit B A order O fuel g attr p (Some l) (FMaxP c1 sp sp1 thr inner) r)
    (fun '((labels, s'), _) => feasible g labels (Z.to_nat p) /\ all_meet sp lo labels /\
       (exists c2 sp2 inner', s' = FMaxP c2 sp sp2 thr inner')).
Proof.
  intros Hfuel Hp0 Hfeas Hm1 Hmeet. unfold fstrat_fit.
  set (J := fun s => exists c2 sp2 inner', s = FMaxP c2 sp sp2 thr inner').
  set (R := fun c l l' => wf (comp_graph g c) l' /\ same_labels l' l /\
     ((forall z, In z l -> meets (map (row sp) (comp_nodes g c)) lo l z) ->
      (forall z, In z l' -> meets (map (row sp) (comp_nodes g c)) lo l' z))).
  assert (Hfp : post E N (fit fstrategy (fstrat_start O) (fun adj labels _ s r => azp_component fstrategy (fstrat_call B A) fstrat_val adj fuel labels s r)
       order g attr p (Some l) (FMaxP c1 sp sp1 thr inner) r)
    (fun '((labels, s'), _) => J s' /\ exists labels0, started_from g p (Some l) labels0 /\
       length labels = gn g /\
       forall c, c < n_components g -> R c (comp_part g labels0 c) (comp_part g labels c))).
  2: {
    eapply (post_weaken E E N N); [auto|auto| |exact Hfp].
    intros [[labels s'] r'] _ [HJ' [l0 [[_ [_ ->]] [Hlen HR]]]].
    destruct Hfeas as [Hl [Hn Hall]].
    assert (Hmc : forall c, c < n_components g -> forall z, In z (comp_part g l c) -> meets (map (row sp) (comp_nodes g c)) lo (comp_part g l c) z).
    { intros c Hc z Hz. apply comp_part_In in Hz; auto. destruct Hz as [a [Ha [Hca Ez]]]. subst c.
      apply meets_comp; [split; auto|auto|]. apply Hmeet. eapply nth_error_In; eauto. }
    assert (Hparts : forall c, c < n_components g -> wf (comp_graph g c) (comp_part g labels c) /\ same_labels (comp_part g labels c) (comp_part g l c)).
    { intros c Hc. destruct (HR c Hc) as [H1 [H2 _]]. auto. }
    assert (Hwf : wf g labels) by (split; [auto|apply (assembled_wf g l labels (conj Hl Hall) Hlen Hparts)]).
    split; [|split; [|exact HJ']].
    - split; [auto|]. split; [|apply Hwf]. rewrite <- Hn. apply same_labels_n. apply (assembled_same_labels g); auto. split; auto.
    - intros z Hz. apply In_nth_error in Hz. destruct Hz as [a Ha]. assert (Hag : a < gn g) by (apply nth_error_lt in Ha; lia).
      apply (meets_comp sp lo g labels a z Hwf Ha). destruct (HR (comp_label g a) (comp_label_lt g a Hag)) as [_ [_ H]].
      apply H; [apply Hmc, comp_label_lt; auto|]. apply comp_part_In; eauto. }
  apply (fit_post fstrategy _ _ order g attr E N J R); auto.
  - intros c lc s rg Hc Hwf [c2 [sp2 [i2 ->]]]. unfold run_component. cbn [fstrat_start]. fold (attr_c attr g c).
    pose proof (Hstart c lc i2 Hc Hwf) as Hs.
    destruct (start_common lc (attr_c attr g c) O) as [cc|e|]; cbn [bind] in *; [|exact Hs|exact Hs].
    destruct (fstrat_start O i2 lc (attr_c attr g c) (comp_nodes g c)) as [i3|e|]; cbn [bind post] in *; [|exact Hs|exact Hs].
    set (spc := map (row sp) (comp_nodes g c)).
    eapply (post_weaken E E N N); [auto|auto| |
      apply (fmp_component_post B A sp spc thr lo (comp_graph g c) (comp_symmetric g c Hsym) (comp_non_negative2 c)) with
        (M := forall z, In z lc -> meets spc lo lc z) (Inner := Inner c) (c0 := cc)]; auto.
    + intros [[l' s'] r'] _ [Hwf' [Hs' [i' [-> [Hm' Hi']]]]]. split; [exists cc, spc, i'; auto|].
      split; [destruct Hwf, Hwf'; lia|]. split; [auto|]. split; [auto|]. auto.
    + intros l1 a Hl1 Ha1. rewrite comp_graph_n in Hl1, Ha1. apply Hdonor; auto. lia.
    + eapply comp_part_nonempty; eauto.
    + exists i3. auto.
    + destruct Hfuel as [?|Hfuel]; [auto|right]. pose proof (comp_graph_le g c). lia.
  - split; auto.
  - exists c1, sp1, inner. auto.
Qed.
End WrapFit.

(** ** the whole fit *)
Section Whole.
Variables B A : arith.
Variable enum : list nat -> list nat.
Variable order : list edge -> list edge.
Hypothesis Hord : forall l, Permutation (order l) l.
Variable O : objfun.
Variable g : graph.
Variables attr sp : list (list Q).
Variables thr lo hi : list Q.
Hypothesis Hsym : symmetric g.
Hypothesis Hloop : no_self_loops g.
Hypothesis Hlen_sp : length sp = gn g.
Hypothesis Hpos : non_negative sp.
Hypothesis Hcheck : forall R, R <> [] -> NoDup R -> (forall a, In a R -> a < gn g) ->
  if reaches (tracked B sp R) thr then meets_in sp lo R else ~ meets_in sp hi R.
Hypothesis Hdonor : forall c l a, c < n_components g -> length l = length (comp_nodes g c) -> a < length l ->
  fdonor_ok B (map (row sp) (comp_nodes g c)) thr a l = true -> spared (map (row sp) (comp_nodes g c)) lo a l.

Lemma funmet_raises fuel max_it entropy labels0 ls r v isl : 0 < max_it -> v < gn g -> island g v isl -> ~ meets_in sp lo isl ->
  exists m, fmaxp_fit2 B A enum order O fuel g attr sp thr max_it entropy labels0 ls r = Raise (ValueError m).
Proof.
  intros Hit Hv Hi Hnm. unfold fmaxp_fit2. set (dis := fdissimilarity A enum attr).
  pose proof (fconstruct_post B dis g sp thr lo hi Hsym Hloop Hcheck max_it 0 [] r (fun x (H : In x []) => match H with end) (or_intror eq_refl)) as Hc.
  destruct (fconstruct B dis g sp thr max_it 0 [] r) as [[[mp before] r1]|e|]; cbn [bind post] in *; [|destruct Hc|destruct Hc].
  destruct Hc as [Hk [Hne|[H0 _]]]; [|lia].
  pose proof (fassign_each_post dis g sp lo hi Hsym mp before r1 Hk) as Ha.
  destruct (fassign_each dis g before r1) as [[parts r2]|e|]; cbn [bind post] in *.
  - exfalso. destruct Ha as [Hs _]. destruct before as [|x before]; [contradiction|].
    destruct (Hk x (or_introl eq_refl)) as [_ [F [HE HG]]].
    apply (not_served2 g sp lo hi (fst x) F v isl); auto. apply Hs. left; auto.
  - destruct Ha as [_ [m ->]]. eauto.
  - destruct Ha.
Qed.

Variable E : exn -> Prop.
Variable N : Prop.
Variable Inner : nat -> fstrategy -> list Z -> Prop.
Hypothesis Hstart : forall c l inner, c < n_components g -> wf (comp_graph g c) l ->
  post E N (let* _ := start_common l (attr_c attr g c) O in fstrat_start O inner l (attr_c attr g c) (comp_nodes g c))
    (fun i => Inner c i l).
Hypothesis Hcall : forall c s a r l rg, c < n_components g -> wf (comp_graph g c) l -> legal_move (comp_graph g c) l a r -> Inner c s l ->
  post E N (fstrat_call B A s a r l rg) (fun '(b, s', _) => Inner c s' (if b : bool then upd l a r else l)).
Hypothesis Hobj : forall l, length l = gn g -> post E N (o_call O l attr) (fun _ => True).
Hypothesis Henc : forall mp x m, kept2 g sp lo hi mp x -> ~ every_island_served g (fst x) -> E (ValueError m).

Theorem fmaxp_fit_post fuel max_it entropy labels0 ls r : 0 < max_it -> (N \/ gn g + 1 < fuel) ->
  post E N (fmaxp_fit2 B A enum order O fuel g attr sp thr max_it entropy labels0 ls r)
    (fun '(labels, _, _) => exists mp l, labels = Some l /\ feasible g l mp /\ all_meet sp lo l /\
       exists before r1, fconstruct B (fdissimilarity A enum attr) g sp thr max_it 0 [] r = Ok (mp, before, r1)).
Proof.
  intros Hit Hfuel. unfold fmaxp_fit2. set (dis := fdissimilarity A enum attr).
  pose proof (fconstruct_post B dis g sp thr lo hi Hsym Hloop Hcheck max_it 0 [] r (fun x (H : In x []) => match H with end) (or_intror eq_refl)) as Hc.
  destruct (fconstruct B dis g sp thr max_it 0 [] r) as [[[mp before] r1]|e|] eqn:Econ; cbn [bind post] in *; [|destruct Hc|destruct Hc].
  destruct Hc as [Hk [Hne|[H0 _]]]; [|lia].
  pose proof (fassign_each_post dis g sp lo hi Hsym mp before r1 Hk) as Ha.
  destruct (fassign_each dis g before r1) as [[parts r2]|e|] eqn:Ea; cbn [bind post] in *; [| |destruct Ha].
  2: { destruct Ha as [[x [Hx Hn]] [m ->]]. eapply Henc; eauto. }
  destruct Ha as [_ Hall].
  assert (Hst : forall P, In P parts -> startable g sp lo mp P).
  { intros P HP. apply In_nth_error in HP. destruct HP as [k HP]. destruct (Forall2_nth_r _ _ _ Hall k P HP) as [x [Hx [Hpp Hi]]].
    apply (kept2_startable g sp lo hi Hpos mp x P); auto. apply Hk. eapply nth_error_In; eauto. }
  assert (Hpne : parts <> []) by (intros ->; inversion Hall; subst; contradiction).
  destruct parts as [|P0 parts0]; [contradiction|]. set (parts := P0 :: parts0) in *.
  destruct (match ls with Some l => (l, r2) | None => (FAzp unstarted, entropy) end) as [ls0 r3] eqn:Els.
  set (Res := fun (l0 l : list Z) => feasible g l mp /\ all_meet sp lo l).
  eapply post_bind.
  - apply (search_rounds_post fstrategy (FMaxP unstarted sp [] thr) _ O attr E N mp (fun _ => True)
      (fun s => exists c1 sp1 inner, s = FMaxP c1 sp sp1 thr inner) (good_start g sp lo mp) Res); auto.
    + intros s _. eauto.
    + intros s l0 rg [c1 [sp1 [inner ->]]] [Hf [Hm1 Hmeet]].
      eapply (post_bind E N _ _ _ _).
      * apply (fwrapped_fit_post B A order Hord O g Hsym attr sp thr lo Hlen_sp Hpos Hdonor E N Inner); auto.
        -- lia.
        -- rewrite Nat2Z.id. auto.
      * intros [[labels s'] r'] _ [H1 [H2 H3]]. cbn [post]. rewrite Nat2Z.id in H1. split; [exact H3|].
        exists labels. split; [auto|split; auto].
    + intros l0 l _ [[Hl _] _]. apply Hobj. auto.
    + exact Logic.I.
  - intros [[ls' b] r4] _ [_ [Hfrom [_ Hcov]]]. specialize (Hcov ltac:(cbn; lia)). cbn [post].
    destruct b as [[v l]|].
    + destruct Hfrom as [_ [P [l0 [_ [_ [_ HR]]]]]]. exists mp, l. split; [auto|]. split; [apply HR|]. split; [apply HR|]. eauto.
    + exfalso. destruct (Hcov P0 (or_introl eq_refl)) as [? [? [? [_ [_ [_ [_ []]]]]]]].
Qed.
End Whole.
