(** Property C136: the numbering of the areas does not matter to Spanning_Forest if there are no ties. *)
From Verif Require Import Base Spec M_Graph P_Graph M_Util P_Base P_Forest P_Initial M_Objective P_Sum P_Objective M_Skater P_Skater P_Starts P_Kruskal
  P_Names Props_Skater Props_Zoning Props_Kruskal Examples.

(** Dissimilarity of a set of rows from their own centre. *)
Definition spread (S : skater) (rows : list (list Q)) : Q :=
  sk_reduction S (map (fun x => sk_metric S x (sk_center S rows)) rows).
(** A score that depends neither on the order of the areas in a region nor on that of the regions. *)
Definition orderless (S : skater) : Prop :=
  (forall rows rows', Permutation rows rows' -> spread S rows == spread S rows')%Q /\
  (forall l l1 l', Permutation l l1 -> Forall2 Qeq l1 l' -> sk_reduction S l == sk_reduction S l')%Q.
(** The same regions for areas numbered differently. *)
Definition same_regions_under (f : nat -> nat) (l l' : list Z) : Prop :=
  length l' = length l /\ forall i j, i < length l -> j < length l -> (lab l' i = lab l' j <-> lab l (f i) = lab l (f j)).
(** The same score: both infinite or equal. *)
Definition same_score (q q' : option Q) : Prop :=
  match q, q' with Some x, Some y => (x == y)%Q | None, None => True | _, _ => False end.

(** Two steps of a fit: the same regions and the same score. *)
Definition same_step (f : nat -> nat) (x y : list Z * option (nat * nat * Q)) : Prop :=
  same_regions_under f (fst x) (fst y) /\ same_score (option_map snd (snd x)) (option_map snd (snd y)).

(** ** the score of the same regions *)
Lemma score_Ok S data l quorum : sk_one_arg S = false -> length data = length l -> labels_exactly l (n_labels l) ->
  score S None data (Some l) quorum =
  Ok (if below_quorum quorum l then None
      else Some (sk_reduction S (map (fun k => spread S (map (fun a => nth a data []) (where_eq l (Z.of_nat k)))) (seq 0 (n_labels l))))).
Proof.
  intros H1 Hd He. unfold score. rewrite Hd, Nat.eqb_refl. cbn [negb]. destruct (below_quorum quorum l); [reflexivity|].
  rewrite uniqueZ_length.
  assert (H : mapM (part_score S data l) (map Z.of_nat (seq 0 (n_labels l))) =
    Ok (map (fun k => spread S (map (fun a => nth a data []) (where_eq l (Z.of_nat k)))) (seq 0 (n_labels l)))).
  { assert (Hin : forall k, In k (seq 0 (n_labels l)) -> In (Z.of_nat k) l) by (intros k Hk; apply in_seq in Hk; apply He; lia).
    induction (seq 0 (n_labels l)) as [|k ks IH]; [reflexivity|]. cbn [map mapM].
    rewrite IH by (intros; apply Hin; right; auto). unfold part_score at 1. rewrite H1.
    specialize (Hin k (or_introl eq_refl)). apply In_lab in Hin. destruct Hin as [a [Ha El]].
    destruct (map (fun a0 => nth a0 data []) (where_eq l (Z.of_nat k))) as [|x rows] eqn:Em.
    - exfalso. apply map_eq_nil in Em. assert (Hi : In a (where_eq l (Z.of_nat k))) by (apply where_eq_In; rewrite lab_nth_error by auto; congruence).
      rewrite Em in Hi. destruct Hi.
    - cbn [bind]. reflexivity. }
  rewrite H. reflexivity.
Qed.

Lemma where_eq_NoDup l r : NoDup (where_eq l r).
Proof. unfold where_eq. apply NoDup_filter, seq_NoDup. Qed.

Section Renumbered.
  Variables (S : skater) (n : nat) (f h : nat -> nat) (D D' : list (list Q)).
  Hypothesis H1 : sk_one_arg S = false.
  Hypothesis HS : orderless S.
  Hypothesis HD : length D = n.
  Hypothesis HD' : length D' = n.
  Hypothesis Hf : forall i, i < n -> f i < n.
  Hypothesis Hh : forall a, a < n -> h a < n /\ f (h a) = a.
  Hypothesis Hhf : forall i, i < n -> h (f i) = i.
  Hypothesis Hrow : forall i, i < n -> nth i D' [] = nth (f i) D [].

  Lemma same_where l l' i : length l = n -> same_regions_under f l l' -> i < n ->
    Permutation (map f (where_eq l' (lab l' i))) (where_eq l (lab l (f i))).
  Proof.
    intros Hl [Hl' Hs] Hi. rewrite Hl in *. apply NoDup_Permutation.
    - apply NoDup_map_inj; [|apply where_eq_NoDup]. intros a b Ha Hb E. apply where_eq_In in Ha, Hb.
      assert (a < n) by (rewrite <- Hl'; apply nth_error_Some; congruence). assert (b < n) by (rewrite <- Hl'; apply nth_error_Some; congruence).
      rewrite <- (Hhf a), <- (Hhf b), E by auto. reflexivity.
    - apply where_eq_NoDup.
    - intros a. rewrite in_map_iff, where_eq_In. split.
      + intros [j [<- Hj]]. apply where_eq_In in Hj.
        assert (Hjn : j < n) by (rewrite <- Hl'; apply nth_error_Some; congruence).
        rewrite lab_nth_error in Hj by lia. injection Hj as Hj. rewrite lab_nth_error by (rewrite Hl; auto). f_equal. apply Hs; auto.
      + intros Ha. assert (Han : a < n) by (rewrite <- Hl; apply nth_error_Some; congruence).
        rewrite lab_nth_error in Ha by lia. injection Ha as Ha. destruct (Hh a Han) as [Hha Eha]. exists (h a). split; [auto|].
        apply where_eq_In. rewrite lab_nth_error by lia. f_equal. apply Hs; auto. congruence.
  Qed.

  Lemma same_size l l' i : length l = n -> same_regions_under f l l' -> i < n -> region_size l' (lab l' i) = region_size l (lab l (f i)).
  Proof.
    intros Hl Hs Hi. rewrite <- !count_size, !count_where. rewrite <- (Permutation_length (same_where l l' i Hl Hs Hi)), map_length. reflexivity.
  Qed.

  Lemma same_quorum quorum l l' : length l = n -> same_regions_under f l l' -> meets_quorum quorum l <-> meets_quorum quorum l'.
  Proof.
    intros Hl Hs. pose proof Hs as [Hl' _]. split; intros H q r Hq Hr; apply In_lab in Hr; destruct Hr as [a [Ha <-]].
    - rewrite (same_size l l') by (auto; lia). apply H; [auto|]. apply In_lab. exists (f a). split; [rewrite Hl; apply Hf; lia|auto].
    - destruct (Hh a) as [Hha Eha]; [lia|]. rewrite <- Eha, <- (same_size l l') by auto. apply H; [auto|]. apply In_lab. exists (h a). split; [lia|auto].
  Qed.

  Lemma same_regions_score quorum l l' q q' : length l = n -> same_regions_under f l l' ->
    labels_exactly l (n_labels l) -> labels_exactly l' (n_labels l') ->
    score S None D (Some l) quorum = Ok q -> score S None D' (Some l') quorum = Ok q' -> same_score q q'.
  Proof.
    intros Hl Hs He He' Hq Hq'. pose proof Hs as [Hl' Hsr].
    rewrite (score_Ok S D l quorum H1) in Hq by (auto; lia). rewrite (score_Ok S D' l' quorum H1) in Hq' by (auto; lia).
    injection Hq as <-. injection Hq' as <-.
    destruct (below_quorum quorum l) eqn:E, (below_quorum quorum l') eqn:E'; cbn [same_score]; auto.
    - apply below_quorum_true in E. apply below_quorum_false in E'. apply E. apply (same_quorum quorum l l'); auto.
    - apply below_quorum_false in E. apply below_quorum_true in E'. apply E'. apply (same_quorum quorum l l'); auto.
    - clear E E'. destruct HS as [HS1 HS2].
      (* the label in [l] of the region named k in [l'] *)
      set (at_ := fun k : nat => match find (fun i => Z.eqb (lab l' i) (Z.of_nat k)) (seq 0 n) with Some i => i | None => 0 end).
      assert (Hat : forall k, k < n_labels l' -> at_ k < n /\ lab l' (at_ k) = Z.of_nat k).
      { intros k Hk. unfold at_. destruct (find _ _) as [i|] eqn:Ef.
        - apply find_some in Ef. destruct Ef as [Hi Ef]. apply in_seq in Hi. apply Z.eqb_eq in Ef. split; [lia|auto].
        - exfalso. assert (Hin : In (Z.of_nat k) l') by (apply He'; lia). apply In_lab in Hin. destruct Hin as [a [Ha Ea]].
          pose proof (find_none _ _ Ef a) as Hx. cbn beta in Hx. rewrite Ea, Z.eqb_refl in Hx. discriminate Hx. apply in_seq. lia. }
      set (sg := fun k => Z.to_nat (lab l (f (at_ k)))).
      assert (Hsg : forall k, k < n_labels l' -> sg k < n_labels l /\ Z.of_nat (sg k) = lab l (f (at_ k))).
      { intros k Hk. destruct (Hat k Hk) as [Hk1 Hk2]. assert (Hin : In (lab l (f (at_ k))) l) by (apply In_lab; exists (f (at_ k)); split; [rewrite Hl; auto|auto]).
        apply He in Hin. unfold sg. lia. }
      assert (HP : Permutation (map sg (seq 0 (n_labels l'))) (seq 0 (n_labels l))).
      { apply NoDup_Permutation.
        - apply NoDup_map_inj; [|apply seq_NoDup]. intros a b Ha Hb E. apply in_seq in Ha, Hb.
          destruct (Hat a) as [Ha1 Ha2]; [lia|]. destruct (Hat b) as [Hb1 Hb2]; [lia|].
          destruct (Hsg a) as [_ Ha3]; [lia|]. destruct (Hsg b) as [_ Hb3]; [lia|].
          assert (El : lab l' (at_ a) = lab l' (at_ b)) by (apply Hsr; [lia|lia|congruence]). lia.
        - apply seq_NoDup.
        - intros k. rewrite in_map_iff, in_seq. split.
          + intros [k' [<- Hk']]. apply in_seq in Hk'. destruct (Hsg k'); lia.
          + intros Hk. assert (Hin : In (Z.of_nat k) l) by (apply He; lia). apply In_lab in Hin. destruct Hin as [a [Ha Ea]].
            destruct (Hh a) as [Hha Eha]; [lia|].
            assert (Hin : In (lab l' (h a)) l') by (apply In_lab; exists (h a); split; [lia|auto]). apply He' in Hin.
            exists (Z.to_nat (lab l' (h a))). split; [|apply in_seq; lia].
            destruct (Hat (Z.to_nat (lab l' (h a)))) as [Hk1 Hk2]; [lia|]. destruct (Hsg (Z.to_nat (lab l' (h a)))) as [_ Hk3]; [lia|].
            assert (El : lab l (f (at_ (Z.to_nat (lab l' (h a))))) = lab l (f (h a))) by (apply Hsr; [lia|lia|lia]).
            rewrite Eha in El. lia. }
      apply HS2 with (l1 := map (fun k => spread S (map (fun a => nth a D []) (where_eq l (Z.of_nat k)))) (map sg (seq 0 (n_labels l')))).
      + apply Permutation_map. symmetry. exact HP.
      + rewrite map_map. assert (Hall : forall k, In k (seq 0 (n_labels l')) -> k < n_labels l') by (intros k Hk; apply in_seq in Hk; lia).
        revert Hall. clear HP. generalize (seq 0 (n_labels l')). intros ks. induction ks as [|k ks IH]; intros Hall; cbn [map]; constructor; [|apply IH; intros; apply Hall; right; auto].
        specialize (Hall k (or_introl eq_refl)). destruct (Hat k Hall) as [Hk1 Hk2]. destruct (Hsg k Hall) as [_ Hk3].
        apply HS1. rewrite Hk3, <- Hk2. rewrite <- (same_where l l' (at_ k)) by auto. rewrite map_map.
        erewrite map_ext_in; [apply Permutation_refl|]. intros i Hi. apply where_eq_In in Hi.
        symmetry. apply Hrow. rewrite <- Hl, <- Hl'. apply nth_error_Some. congruence.
  Qed.

  (** ** links renumbered *)
  Definition hh (e : edge) : edge := (h (fst e), h (snd e)).

  Lemma hh_link es i j : (forall e, In e es -> fst e < n /\ snd e < n) -> i < n -> j < n -> In (i, j) (map hh es) <-> In (f i, f j) es.
  Proof.
    intros Hr Hi Hj. rewrite in_map_iff. split.
    - intros [[a b] [E He]]. destruct (Hr _ He) as [Ha Hb]. unfold hh in E. cbn [fst snd] in *. injection E as <- <-.
      rewrite (proj2 (Hh a Ha)), (proj2 (Hh b Hb)). auto.
    - intros He. exists (f i, f j). split; [|auto]. unfold hh. cbn [fst snd]. rewrite !Hhf by auto. reflexivity.
  Qed.
  Lemma hh_range es : (forall e, In e es -> fst e < n /\ snd e < n) -> forall e, In e (map hh es) -> fst e < n /\ snd e < n.
  Proof. intros Hr e He. apply in_map_iff in He. destruct He as [x [<- Hx]]. destruct (Hr x Hx). unfold hh; cbn. split; apply Hh; auto. Qed.

  Lemma hh_island es i j : (forall e, In e es -> fst e < n /\ snd e < n) -> i < n -> j < n ->
    same_island (links n (map hh es)) i j <-> same_island (links n es) (f i) (f j).
  Proof.
    intros Hr Hi Hj. rewrite !links_edges. split.
    - intros H. unfold same_island in *. induction H as [u Hu|u v w Hu Ht Hl IH].
      + apply linked_refl. cbn in *. apply Hf; auto.
      + assert (Hv : v < n) by (apply linked_in_l in Hl; exact Hl).
        apply linked_step with (f v); [apply Hf; exact Hi| |apply IH; auto].
        apply edges_touch. apply edges_touch in Ht. rewrite !hh_link in Ht; auto.
    - assert (G : forall a b, same_island (edges_graph n es) a b -> same_island (edges_graph n (map hh es)) (h a) (h b)).
      { intros a b H. unfold same_island in *. induction H as [u Hu|u v w Hu Ht Hl IH].
        - apply linked_refl. cbn in *. apply Hh; auto.
        - assert (Hv : v < n) by (apply linked_in_l in Hl; exact Hl). assert (Hu' : u < n) by exact Hu.
          destruct (Hh u Hu') as [Hhu Ehu], (Hh v Hv) as [Hhv Ehv].
          apply linked_step with (h v); [exact Hhu| |exact IH].
          apply edges_touch. apply edges_touch in Ht. rewrite !hh_link by auto. rewrite Ehu, Ehv. auto. }
      intros H. apply G in H. rewrite !Hhf in H by auto. exact H.
  Qed.

  Lemma hh_inj a b : fst a < n -> snd a < n -> fst b < n -> snd b < n -> hh a = hh b -> a = b.
  Proof.
    destruct a as [a1 a2], b as [b1 b2]. unfold hh. cbn [fst snd]. intros A1 A2 B1 B2 E. injection E as E1 E2.
    rewrite <- (proj2 (Hh a1 A1)), <- (proj2 (Hh a2 A2)), <- (proj2 (Hh b1 B1)), <- (proj2 (Hh b2 B2)), E1, E2. reflexivity.
  Qed.
  Lemma hh_without es e : (forall e, In e es -> fst e < n /\ snd e < n) -> In e es -> without (hh e) (map hh es) = map hh (without e es).
  Proof.
    intros Hr He. unfold without.
    cut (forall l, (forall x, In x l -> In x es) ->
      filter (fun x => negb (Nat.eqb (fst (hh e)) (fst x) && Nat.eqb (snd (hh e)) (snd x))) (map hh l) =
      map hh (filter (fun x => negb (Nat.eqb (fst e) (fst x) && Nat.eqb (snd e) (snd x))) l)); [intros G; apply G; auto|].
    induction l as [|x l IH]; intros Hsub; [reflexivity|]. cbn [map filter].
    rewrite IH by (intros; apply Hsub; right; auto).
    assert (E : Nat.eqb (fst (hh e)) (fst (hh x)) && Nat.eqb (snd (hh e)) (snd (hh x)) = Nat.eqb (fst e) (fst x) && Nat.eqb (snd e) (snd x)).
    { apply eq_true_iff_eq. rewrite !andb_true_iff, !Nat.eqb_eq. split; [|intros [E1 E2]; unfold hh; cbn; rewrite E1, E2; auto].
      intros [E1 E2]. destruct (Hr e He), (Hr x (Hsub x (or_introl eq_refl))).
      assert (E : e = x) by (apply hh_inj; auto; destruct (hh e), (hh x); cbn in *; congruence). subst x. auto. }
    rewrite E. destruct (Nat.eqb (fst e) (fst x) && Nat.eqb (snd e) (snd x)); reflexivity.
  Qed.
  Lemma without_sub e es x : In x (without e es) -> In x es.
  Proof. unfold without. intros H. apply filter_In in H. tauto. Qed.
  Lemma hh_forest es : is_forest n es -> is_forest n (map hh es).
  Proof.
    intros [Hnd [Hr Hs]]. split; [|split].
    - apply NoDup_map_inj; [|auto]. intros a b Ha Hb. apply hh_inj; apply Hr; auto.
    - apply hh_range; auto.
    - intros e He. apply in_map_iff in He. destruct He as [x [<- Hx]]. rewrite hh_without by auto.
      destruct (Hr x Hx) as [Hx1 Hx2]. unfold hh at 2 3. cbn [fst snd]. rewrite hh_island.
      + rewrite (proj2 (Hh _ Hx1)), (proj2 (Hh _ Hx2)). auto.
      + intros y Hy. apply Hr. eapply without_sub; eauto.
      + apply Hh; auto.
      + apply Hh; auto.
  Qed.

  Lemma labelling_exactly es l : island_labelling (links n es) l -> labels_exactly l (n_labels l).
  Proof.
    intros Hl. rewrite (island_labelling_unique _ _ _ Hl (forest_labels_islands n es)). rewrite forest_labels_n. apply forest_labels_exactly.
  Qed.
  Lemma hh_labelling es l l' : (forall e, In e es -> fst e < n /\ snd e < n) ->
    island_labelling (links n es) l -> island_labelling (links n (map hh es)) l' -> same_regions_under f l l'.
  Proof.
    intros Hr [Hl [Hs _]] [Hl' [Hs' _]]. cbn in Hl, Hl'. split; [lia|]. rewrite Hl. intros i j Hi Hj.
    rewrite Hs' by (cbn; auto). rewrite hh_island by auto. symmetry. apply Hs; cbn; auto.
  Qed.
  Lemma hh_cost quorum es e q : (forall e, In e es -> fst e < n /\ snd e < n) -> In e es -> cost_of_cut S n es D quorum e q ->
    exists q', same_score q q' /\ cost_of_cut S n (map hh es) D' quorum (hh e) q'.
  Proof.
    intros Hr He [l [Hl Hq]]. assert (Hr' : forall x, In x (without e es) -> fst x < n /\ snd x < n) by (intros x Hx; apply Hr; eapply without_sub; eauto).
    set (l' := forest_labels n (map hh (without e es))).
    assert (Hl' : island_labelling (links n (map hh (without e es))) l') by apply forest_labels_islands.
    pose proof (hh_labelling _ _ _ Hr' Hl Hl') as Hs. pose proof (labelling_exactly _ _ Hl) as He1. pose proof (labelling_exactly _ _ Hl') as He2.
    assert (Hln : length l = n) by apply Hl. assert (Hln' : length l' = n) by apply Hl'.
    pose proof (score_Ok S D' l' quorum H1 ltac:(lia) He2) as Hq'. eexists. split; [|exists l'; split; [rewrite hh_without by auto; exact Hl'|exact Hq']].
    exact (same_regions_score quorum l l' _ _ Hln Hs He1 He2 Hq Hq').
  Qed.

  (** ** pruning renumbered *)
  Lemma hh_cheapest quorum es e q : (forall e, In e es -> fst e < n /\ snd e < n) ->
    cheapest (cost_of_cut S n es D quorum) es (Some (e, q)) ->
    exists q', (q == q')%Q /\ cheapest (cost_of_cut S n (map hh es) D' quorum) (map hh es) (Some (hh e, q')).
  Proof.
    intros Hr Hc. destruct (cheapest_In _ _ _ _ Hc) as [He _]. destruct Hc as [Hc [l1 [l2 [El [Hl1 Hl2]]]]].
    destruct (hh_cost quorum es e _ Hr He Hc) as [[q'|] [Eq Hc']]; [|destruct Eq]. cbn in Eq. exists q'. split; [auto|]. split; [auto|].
    exists (map hh l1), (map hh l2). split; [rewrite El, map_app; reflexivity|]. split.
    - intros x Hx. apply in_map_iff in Hx. destruct Hx as [y [<- Hy]]. assert (Hye : In y es) by (rewrite El; apply in_or_app; auto).
      destruct (Hl1 y Hy) as [Hcy|[qy [Hcy Hlt]]]; destruct (hh_cost quorum es y _ Hr Hye Hcy) as [[qy'|] [Eqy Hcy']]; cbn [same_score] in Eqy; try contradiction.
      + left; auto.
      + right. exists qy'. split; [auto|]. lra.
    - intros x Hx. apply in_map_iff in Hx. destruct Hx as [y [<- Hy]]. assert (Hye : In y es) by (rewrite El; apply in_or_app; right; right; auto).
      destruct (Hl2 y Hy) as [Hcy|[qy [Hcy Hlt]]]; destruct (hh_cost quorum es y _ Hr Hye Hcy) as [[qy'|] [Eqy Hcy']]; cbn [same_score] in Eqy; try contradiction.
      + left; auto.
      + right. exists qy'. split; [auto|]. lra.
  Qed.
  Lemma hh_cheapest_none quorum es : (forall e, In e es -> fst e < n /\ snd e < n) ->
    cheapest (cost_of_cut S n es D quorum) es None -> cheapest (cost_of_cut S n (map hh es) D' quorum) (map hh es) None.
  Proof.
    intros Hr Hc x Hx. apply in_map_iff in Hx. destruct Hx as [y [<- Hy]].
    destruct (hh_cost quorum es y _ Hr Hy (Hc y Hy)) as [[qy'|] [Eqy Hcy']]; [destruct Eqy|auto].
  Qed.

  Lemma hh_prunes quorum T rest final : prunes n (fun es => cost_of_cut S n es D quorum) T rest final ->
    (forall e, In e T -> fst e < n /\ snd e < n) ->
    exists rest', prunes n (fun es => cost_of_cut S n es D' quorum) (map hh T) rest' (map hh final) /\ Forall2 (same_step f) rest rest' /\
      (forall e, In e final -> In e T).
  Proof.
    induction 1 as [es|es e q labels rest final Hc Hl Hp IH]; intros Hr.
    - exists []. split; [constructor|]. split; [constructor|auto].
    - destruct (cheapest_In _ _ _ _ Hc) as [He _].
      assert (Hr' : forall x, In x (without e es) -> fst x < n /\ snd x < n) by (intros x Hx; apply Hr; eapply without_sub; eauto).
      destruct (IH Hr') as [rest' [Hp' [Hm Hsub]]]. destruct (hh_cheapest quorum es e q Hr Hc) as [q' [Eq Hc']].
      set (labels' := forest_labels n (map hh (without e es))).
      exists ((labels', Some (hh e, q')) :: rest'). split; [|split].
      + constructor; auto; rewrite hh_without by auto; [apply forest_labels_islands|exact Hp'].
      + constructor; [|auto]. split; [|exact Eq]. cbn [fst]. eapply hh_labelling; [exact Hr'|exact Hl|apply forest_labels_islands].
      + intros x Hx. eapply without_sub. apply Hsub. exact Hx.
  Qed.
End Renumbered.

Lemma iso_island n g g' (f h : nat -> nat) a b : gn g = n -> gn g' = n -> (forall i, i < n -> f i < n) ->
  (forall a, a < n -> h a < n /\ f (h a) = a) -> (forall i, i < n -> h (f i) = i) ->
  (forall i j, i < n -> j < n -> gadj g' i j = gadj g (f i) (f j)) -> a < n -> b < n ->
  same_island g' a b <-> same_island g (f a) (f b).
Proof.
  intros Hn Hn' Hf Hh Hhf Hadj Ha Hb. unfold same_island, areas. rewrite Hn, Hn'. split.
  - intros H. clear Hb. induction H as [u Hu|u v w Hu Ht Hl IH]; [apply linked_refl; auto|].
    assert (Hv : v < n) by (apply linked_in_l in Hl; exact Hl). apply linked_step with (f v); auto.
    unfold touch in *. rewrite !Hadj in Ht by auto. exact Ht.
  - assert (G : forall u v, linked g (fun a => a < n) u v -> linked g' (fun a => a < n) (h u) (h v)).
    { intros u v H. induction H as [u Hu|u v w Hu Ht Hl IH]; [apply linked_refl; apply Hh; auto|].
      assert (Hv : v < n) by (apply linked_in_l in Hl; exact Hl). destruct (Hh u Hu) as [Hhu Eu], (Hh v Hv) as [Hhv Ev].
      apply linked_step with (h v); auto. unfold touch in *. rewrite !Hadj by auto. rewrite Eu, Ev. exact Ht. }
    intros H. apply G in H. rewrite !Hhf in H by auto. exact H.
Qed.

Lemma skater_run_pruned S ord g data k quorum ign fuel r : lightest_first (link_weight S data) ord ->
  (forall d, data = Some d -> length d = gn g) -> skater_run S ord g data k quorum ign fuel = Ok r ->
  pruned S (gn g) (fit_data g data) quorum (wanted k (n_components (dissim_matrix S g data)) ign)
    (minimum_spanning_tree ord (dissim_matrix S g data)) (n_components (dissim_matrix S g data)) r.
Proof.
  intros Hord Hd Hr. assert (Hperm : forall l, Permutation (ord l) l) by (intros; apply Hord).
  destruct (dissim_spanning S ord g data Hperm) as [Hf _]. rewrite dissim_gn in Hf.
  unfold skater_run in Hr. rewrite (msf_components S ord g data Hperm), wanted_adjust in Hr.
  destruct (Nat.ltb 1 _ && below_quorum _ _); [discriminate|].
  eapply (prune_pruned S (gn g) (fit_data g data) quorum); [apply fit_data_length; auto| | | | | | | | |exact Hr]; auto.
  - symmetry. apply msf_components; auto.
  - symmetry. apply msf_components; auto.
  - apply forest_labels_islands.
  - constructor.
  - cbn. intros i Hi. lia.
Qed.

(** C136 *)
Theorem C136_numbering_partial : forall S order order' g g' D D' f k quorum ign fuel fuel',
  lightest_first (link_weight S (Some D)) order -> lightest_first (link_weight S (Some D')) order' ->
  length D = gn g -> symmetric g -> sk_one_arg S = false -> orderless S ->
  (forall i j, i < gn g -> j < gn g -> (dis S (Some D) i j == dis S (Some D) j i)%Q) ->
  all_differ g (dis S (Some D)) -> cuts_differ S g D quorum ->
  renumbered f g D g' D' -> gn g < fuel -> gn g < fuel' ->
  (exists r r', skater_run S order g (Some D) k quorum ign fuel = Ok r /\
     skater_run S order' g' (Some D') k quorum ign fuel' = Ok r' /\
     same_regions_under f (f_labels r) (f_labels r') /\ Forall2 (same_step f) (f_trace r) (f_trace r') /\
     f_no_moves r = f_no_moves r') \/
  (exists e, skater_run S order g (Some D) k quorum ign fuel = Raise e /\
             skater_run S order' g' (Some D') k quorum ign fuel' = Raise e).
Proof.
  intros S order order' g g' D D' f k quorum ign fuel fuel' Ho Ho' HD Hsym H1 HS Hds Hdiff Hcuts [Hn [HD' [Hf [Hinj [Hadj Hrow]]]]] Hfu Hfu'.
  rewrite HD in HD'. set (n := gn g) in *.
  destruct (inv_of_spec n f Hf Hinj) as [Hhf Hh]. set (h := inv_of n f) in *.
  assert (Hdis : forall i j, i < n -> j < n -> dis S (Some D') i j = dis S (Some D) (f i) (f j)).
  { intros i j Hi Hj. cbn. rewrite !Hrow by auto. reflexivity. }
  assert (Hsym' : symmetric g') by (intros u v Hu Hv; rewrite Hn in *; rewrite !Hadj by auto; apply Hsym; auto).
  assert (Hds' : forall i j, i < gn g' -> j < gn g' -> (dis S (Some D') i j == dis S (Some D') j i)%Q).
  { rewrite Hn. intros i j Hi Hj. rewrite !Hdis by auto. apply Hds; auto. }
  assert (Hdiff' : all_differ g' (dis S (Some D'))).
  { intros i j x y. rewrite Hn. intros Hi Hj Hx Hy A1 A2 E. rewrite !Hdis in E by auto. rewrite Hadj in A1, A2 by auto.
    destruct (Hdiff (f i) (f j) (f x) (f y)) as [[E1 E2]|[E1 E2]]; auto. }
  assert (Hrow2 : forall i, i < n -> nth i D [] = nth (h i) D' []).
  { intros i Hi. destruct (Hh i Hi) as [Hhi Ehi]. rewrite Hrow, Ehi by auto. reflexivity. }
  assert (Hcuts' : cuts_differ S g' D' quorum).
  { intros es e e2 q q'. rewrite Hn. intros Hfo Hg He He2 Hc Hc' Eq. pose proof Hfo as [_ [Hr _]].
    assert (Hh2 : forall a, a < n -> f a < n /\ h (f a) = a) by auto.
    assert (Hh3 : forall a, a < n -> f (h a) = a) by (intros; apply Hh; auto). assert (Hh4 : forall a, a < n -> h a < n) by (intros; apply Hh; auto).
    destruct (hh_cost S n h f D' D H1 HS HD' HD Hh4 Hh2 Hh3 Hrow2 quorum es e _ Hr He Hc) as [[u|] [Eu Hu]]; [|destruct Eu].
    destruct (hh_cost S n h f D' D H1 HS HD' HD Hh4 Hh2 Hh3 Hrow2 quorum es e2 _ Hr He2 Hc') as [[v|] [Ev Hv]]; [|destruct Ev].
    cbn [same_score] in Eu, Ev.
    apply (hh_inj n h f Hh2); try apply Hr; auto.
    apply (Hcuts (map (hh f) es) (hh f e) (hh f e2) u v); auto using in_map; [apply (hh_forest n h f Hh4 Hh2 Hh3); auto| |lra].
    intros x Hx. apply in_map_iff in Hx. destruct Hx as [y [<- Hy]]. destruct (Hr y Hy). unfold hh. cbn [fst snd]. rewrite <- Hadj by auto. apply Hg; auto. }
  assert (Hd1 : forall d, Some D = Some d -> length d = gn g) by (intros d E; injection E as <-; auto).
  assert (Hd2 : forall d, Some D' = Some d -> length d = gn g') by (intros d E; injection E as <-; lia).
  assert (Hperm : forall l, Permutation (order l) l) by (intros; apply Ho). assert (Hperm' : forall l, Permutation (order' l) l) by (intros; apply Ho').
  set (T := minimum_spanning_tree order (dissim_matrix S g (Some D))). set (T' := minimum_spanning_tree order' (dissim_matrix S g' (Some D'))).
  destruct (dissim_spanning S order g (Some D) Hperm) as [HfT [HaT _]]. rewrite dissim_gn in HfT. fold T n in HfT. fold T in HaT.
  destruct (dissim_spanning S order' g' (Some D') Hperm') as [HfT' [HaT' _]]. rewrite dissim_gn, Hn in HfT'. fold T' in HfT', HaT'. fold n in HfT'.
  pose proof (proj1 (forest_is_forest _ _) HfT) as HiT. pose proof (proj1 (forest_is_forest _ _) HfT') as HiT'.
  pose proof HiT as [_ [HrT _]]. pose proof HiT' as [_ [HrT' _]].
  set (T2 := map (hh h) T).
  assert (HiT2 : is_forest n T2) by (apply (hh_forest n f h Hf Hh Hhf); auto).
  assert (HfT2 : forest n T2) by (apply forest_is_forest; auto).
  assert (Hsl : same_links T2 T').
  { assert (Hlt : forall a b, In (a, b) T2 \/ In (b, a) T2 \/ In (a, b) T' \/ In (b, a) T' -> a < n /\ b < n).
    { pose proof HiT2 as [_ [HrT2 _]]. intros a b [H|[H|[H|H]]]; first [apply HrT2 in H|apply HrT' in H]; cbn in H; tauto. }
    cut (forall a b, a < n -> b < n -> (In (a, b) T2 \/ In (b, a) T2) <-> (In (a, b) T' \/ In (b, a) T')).
    { intros G a b. split; intros H; apply G; auto; destruct H as [H|H]; destruct (Hlt a b); auto. }
    intros a b Ha Hb. unfold T2. rewrite !(hh_link n f h Hh Hhf) by auto. unfold T, T'. rewrite !dissim_dissimilar.
    rewrite (forest_links_kept S order g (Some D) (f a) (f b)) by (auto; apply Hf; auto).
    rewrite (forest_links_kept S order' g' (Some D') a b) by (auto; rewrite Hn; auto).
    assert (Ea : forall i j, i < n -> j < n -> gadj (dissimilar g' (dis S (Some D'))) i j = gadj (dissimilar g (dis S (Some D))) (f i) (f j)).
    { intros i j Hi Hj. unfold dissimilar. cbn [gadj]. rewrite Hadj, Hdis by auto. reflexivity. }
    rewrite Ea by auto. rewrite (iso_island n (lighter (dissimilar g (dis S (Some D))) (link_weight S (Some D)) (dis S (Some D) (f a) (f b)))
      (lighter (dissimilar g' (dis S (Some D'))) (link_weight S (Some D')) (dis S (Some D') a b)) f h a b); auto; [reflexivity|].
    intros i j Hi Hj. unfold lighter. cbn [gadj]. rewrite Ea by auto. f_equal. unfold link_weight. cbn [fst snd]. rewrite !Hdis by auto. reflexivity. }
  assert (Hlab : forest_labels n T2 = forest_labels n T').
  { apply (island_labelling_unique (links n T')); [|apply forest_labels_islands]. apply (same_links_labelling n T2); [auto|apply forest_labels_islands]. }
  assert (Hsr0 : same_regions_under f (forest_labels n T) (forest_labels n T')).
  { rewrite <- Hlab. apply (hh_labelling n f h D D' HD HD' Hf Hh Hhf T); auto using forest_labels_islands. }
  assert (Hcomp : n_components (dissim_matrix S g' (Some D')) = n_components (dissim_matrix S g (Some D))).
  { rewrite <- (msf_components S order' g' (Some D') Hperm'), <- (msf_components S order g (Some D) Hperm). rewrite Hn. fold T T' n.
    rewrite <- !forest_labels_n, <- Hlab, !forest_labels_n. destruct HfT as [_ [_ E1]], HfT2 as [_ [_ E2]]. unfold T2 in *. rewrite map_length in E2. lia. }
  set (c := n_components (dissim_matrix S g (Some D))) in *.
  assert (Hadj0 : forall x, In x T2 -> gadj g' (fst x) (snd x) = true).
  { intros x Hx. unfold T2 in Hx. apply in_map_iff in Hx. destruct Hx as [y [<- Hy]]. destruct (HrT y Hy) as [Hy1 Hy2]. specialize (HaT y Hy).
    rewrite dissim_dissimilar in HaT. cbn in HaT. apply andb_true_iff in HaT. unfold hh. cbn [fst snd].
    destruct (Hh _ Hy1) as [Hh1 Eh1], (Hh _ Hy2) as [Hh2 Eh2]. rewrite Hadj, Eh1, Eh2 by auto. tauto. }
  destruct (C46_skater_terminates S order g (Some D) k quorum ign fuel Hperm Hd1 H1 Hfu) as [[r [Hr _]]|Hr].
  - destruct (C46_skater_terminates S order' g' (Some D') k quorum ign fuel' Hperm' Hd2 H1) as [[r' [Hr' _]]|Hr']; [lia| |].
    + left. exists r, r'. split; [auto|]. split; [auto|].
      pose proof (skater_run_pruned S order g (Some D) k quorum ign fuel r Ho Hd1 Hr) as P. fold T c n in P.
      pose proof (skater_run_pruned S order' g' (Some D') k quorum ign fuel' r' Ho' Hd2 Hr') as P'. fold T' in P'. rewrite Hcomp, Hn in P'. fold n in P'.
      cbn [fit_data] in P, P'.
      destruct P as [l0 [rest [Et [Hl0 [Hp [Hl [Hne Hs]]]]]]]. destruct P' as [l0' [rest' [Et' [Hl0' [Hp' [Hl' [Hne' Hs']]]]]]].
      destruct (hh_prunes S n f h D D' H1 HS HD HD' Hf Hh Hhf Hrow quorum T rest (f_forest r) Hp HrT) as [rest2 [Hp2 [Hm Hsub]]].
      assert (Hlen : length rest2 = length rest) by (clear - Hm; induction Hm; cbn; congruence).
      set (r2 := mkFit [] (map (hh h) (f_forest r)) [] (f_no_moves r)).
      pose proof (prunes_same S g' D' quorum Hcuts' (wanted k c ign) T2 rest2 r2) as Hsame. rewrite Hn in Hsame. fold n in Hsame.
      destruct (Hsame Hp2 c T' rest' r') as [E1 [E2 [E3 E4]]]; auto.
      * rewrite Hlen. auto.
      * rewrite Hlen. cbn [r2 f_no_moves f_forest]. destruct (f_no_moves r); [|auto]. destruct Hs as [Hs1 Hs2]. split; [auto|].
        apply (hh_cheapest_none S n f h D D' H1 HS HD HD' Hf Hh Hhf Hrow); auto.
      * cbn [r2 f_no_moves f_forest] in E3, E4. split; [|split; [|auto]].
        -- eapply (hh_labelling n f h D D' HD HD' Hf Hh Hhf (f_forest r)); [intros e He; apply HrT, Hsub, He|exact Hl|].
           apply (same_links_labelling n (f_forest r')); [apply same_links_sym; auto|exact Hl'].
        -- rewrite Et, Et'. constructor.
           ++ split; [|exact Logic.I]. cbn [fst]. rewrite (island_labelling_unique _ _ _ Hl0 (forest_labels_islands n T)), (island_labelling_unique _ _ _ Hl0' (forest_labels_islands n T')). auto.
           ++ clear - Hm E1 E2. revert rest' E1 E2. induction Hm as [|x y rest rest2 Hxy Hm IH]; intros [|z rest'] E1 E2; try discriminate; constructor.
              ** cbn [map] in E1, E2. injection E1 as E1 _. injection E2 as E2 _. destruct Hxy as [X1 X2]. split; [rewrite <- E1; auto|rewrite <- E2; auto].
              ** cbn [map] in E1, E2. injection E1 as _ E1. injection E2 as _ E2. apply IH; auto.
    + exfalso.
      pose proof (skater_run_post S order g (Some D) k quorum ign fuel Hperm Hd1) as Hp. rewrite Hr in Hp. cbn [post] in Hp.
      pose proof (skater_run_post S order' g' (Some D') k quorum ign fuel' Hperm' Hd2) as Hp'. rewrite Hr' in Hp'. cbn [post] in Hp'.
      destruct Hp' as [[H _]|[_ [Hlt Hnq]]]; [congruence|]. fold T' in Hlt, Hnq. destruct Hp as [_ [Hc|Hq]].
      * rewrite (msf_components S order g (Some D) Hperm) in Hc. unfold T' in Hlt. rewrite (msf_components S order' g' (Some D') Hperm') in Hlt. fold c in Hc. lia.
      * apply Hnq. rewrite Hn. fold T n in Hq. fold n. apply (same_quorum n f h D D' HD HD' Hf Hh Hhf quorum (forest_labels n T)); auto. apply forest_labels_length.
  - right. destruct (C46_skater_terminates S order' g' (Some D') k quorum ign fuel' Hperm' Hd2 H1) as [[r' [Hr' _]]|Hr']; [lia| |eauto].
    exfalso.
    pose proof (skater_run_post S order g (Some D) k quorum ign fuel Hperm Hd1) as Hp. rewrite Hr in Hp. cbn [post] in Hp.
    pose proof (skater_run_post S order' g' (Some D') k quorum ign fuel' Hperm' Hd2) as Hp'. rewrite Hr' in Hp'. cbn [post] in Hp'.
    destruct Hp as [[H _]|[_ [Hlt Hnq]]]; [congruence|]. fold T in Hlt, Hnq. destruct Hp' as [_ [Hc|Hq]].
    + rewrite (msf_components S order' g' (Some D') Hperm') in Hc. unfold T in Hlt. rewrite (msf_components S order g (Some D) Hperm) in Hlt. fold c in Hlt. lia.
    + apply Hnq. rewrite Hn in Hq. fold T' n in Hq. fold n. apply (same_quorum n f h D D' HD HD' Hf Hh Hhf quorum (forest_labels n T) (forest_labels n T')); auto. apply forest_labels_length.
Qed.

(** The default configuration meets the condition on scores. *)
Lemma default_orderless : orderless default_skater.
Proof.
  split.
  - intros rows rows' HP. unfold spread. cbn [default_skater sk_reduction sk_metric sk_center].
    rewrite (sumQ_ext _ (fun x => manhattan x (mean_row rows'))) by (intros x _; apply manhattan_compat, mean_row_perm; auto).
    apply sumQ_map_perm; auto.
  - cbn [default_skater sk_reduction]. intros l l1 l' HP H2.
    rewrite <- (map_id l), (sumQ_map_perm (fun x => x) _ _ HP), map_id. clear HP.
    induction H2 as [|x y l1 l' Hxy _ IH]; [reflexivity|]. rewrite !sumQ_cons, Hxy, IH. reflexivity.
Qed.

(** With ties the numbering matters: in a row of three areas with values 0, 1, 2 the first area is cut off,
    whichever end the numbering starts from. *)
Theorem C136_numbering_refuted : exists g D D' f r r',
  let w := link_weight default_skater (Some D) in let w' := link_weight default_skater (Some D') in
  lightest_first w (sort_by w) /\ lightest_first w' (sort_by w') /\ symmetric g /\ renumbered f g D g D' /\
  skater_run default_skater (sort_by w) g (Some D) (Some 2%Z) None false (gn g + 1) = Ok r /\
  skater_run default_skater (sort_by w') g (Some D') (Some 2%Z) None false (gn g + 1) = Ok r' /\
  ~ same_regions_under f (f_labels r) (f_labels r').
Proof.
  exists (path_graph 3), [[0]; [1]; [2]]%Q, [[2]; [1]; [0]]%Q, (fun i => 2 - i). eexists. eexists.
  split; [apply sort_by_lightest_first|]. split; [apply sort_by_lightest_first|].
  split; [intros [|[|[|u]]] [|[|[|v]]] Hu Hv; cbn [gn path_graph] in *; try lia; reflexivity|].
  split.
  { split; [reflexivity|]. split; [reflexivity|]. cbn [gn path_graph]. split; [intros; lia|]. split; [intros; lia|].
    split; [intros [|[|[|i]]] [|[|[|j]]] Hi Hj; try lia; reflexivity|]. intros [|[|[|i]]] Hi; try lia; reflexivity. }
  split; [vm_compute; reflexivity|]. split; [vm_compute; reflexivity|].
  intros [_ H]. specialize (H 0 1). vm_compute in H. destruct H as [_ H]; try lia; discriminate (H eq_refl).
Qed.

(** A row of four areas without ties, numbered from the other end. *)
Example C136_example : exists r r', let w := link_weight default_skater (Some row_data) in
  let w' := link_weight default_skater (Some (rev row_data)) in
  lightest_first w (sort_by w) /\ lightest_first w' (sort_by w') /\ symmetric (path_graph 4) /\
  (forall i j, i < 4 -> j < 4 -> (dis default_skater (Some row_data) i j == dis default_skater (Some row_data) j i)%Q) /\
  all_differ (path_graph 4) (dis default_skater (Some row_data)) /\ cuts_differ default_skater (path_graph 4) row_data None /\
  renumbered (fun i => 3 - i) (path_graph 4) row_data (path_graph 4) (rev row_data) /\
  skater_run default_skater (sort_by w) (path_graph 4) (Some row_data) (Some 3%Z) None false 5 = Ok r /\
  skater_run default_skater (sort_by w') (path_graph 4) (Some (rev row_data)) (Some 3%Z) None false 5 = Ok r' /\
  f_labels r = [0; 0; 1; 2]%Z /\ f_labels r' = [0; 1; 2; 2]%Z.
Proof.
  destruct no_ties_example as [_ [_ [_ [_ [H1 [H2 [H3 [H4 _]]]]]]]].
  eexists. eexists. split; [apply sort_by_lightest_first|]. split; [apply sort_by_lightest_first|].
  split; [auto|]. split; [auto|]. split; [auto|]. split; [auto|]. split.
  { split; [reflexivity|]. split; [reflexivity|]. cbn [gn path_graph]. split; [intros; lia|]. split; [intros; lia|].
    split; [intros [|[|[|[|i]]]] [|[|[|[|j]]]] Hi Hj; try lia; reflexivity|]. intros [|[|[|[|i]]]] Hi; try lia; reflexivity. }
  split; [vm_compute; reflexivity|]. split; [vm_compute; reflexivity|]. split; reflexivity.
Qed.

Print Assumptions C136_numbering_partial.
Print Assumptions C136_numbering_refuted.
