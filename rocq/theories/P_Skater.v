(** Proofs about the spanning-forest pruning of skater.py. *)
From Verif Require Export SpecData.
From Verif Require Import Base Spec M_Graph P_Graph M_Util P_Base P_Forest P_Initial M_Skater.

Lemma links_edges n es : links n es = edges_graph n es.
Proof. reflexivity. Qed.
Lemma without_remove e es : without e es = remove_edge e es.
Proof. reflexivity. Qed.

(** ** numbering of the components *)
Definition scan_inv (k : nat) (cs : list (list nat)) (R : list nat) : Prop :=
  length R = length cs /\
  (forall i c v, nth_error cs i = Some c -> nth_error R i = Some v ->
     v < k /\ In v c /\ (forall w, In w c -> v <= w)) /\
  (forall i j u v, i < j -> nth_error R i = Some u -> nth_error R j = Some v -> u < v).

Lemma scan_loop g k : k <= gn g -> exists R, scan_inv k (fold_left (comp_step g) (seq 0 k) []) R.
Proof.
  induction k as [|k IH]; intros Hk.
  - exists []. cbn. repeat split; auto.
    + destruct i; discriminate.
    + destruct i; discriminate.
    + destruct i; discriminate.
    + intros i j u v _ H. destruct i; discriminate.
  - destruct (IH ltac:(lia)) as [R [HL [HR HS]]].
    rewrite seq_S, fold_left_app. cbn [fold_left plus].
    destruct (components_loop g k ltac:(lia)) as [Hcov [Hcls Hdis]].
    set (cs := fold_left (comp_step g) (seq 0 k) []) in *. unfold comp_step.
    destruct (existsb (memb k) cs) eqn:E.
    + exists R. split; [auto|]. split; [|auto]. intros i c v Hc Hv. destruct (HR i c v Hc Hv) as [? ?]. split; [lia|auto].
    + assert (Hfresh : forall c, In c cs -> ~ In k c).
      { intros c Hc Hkc. apply Bool.not_true_iff_false in E. apply E. apply existsb_exists.
        exists c. split; auto. apply memb_In; auto. }
      exists (R ++ [k]). split; [rewrite !app_length; cbn; lia|]. split.
      * intros i c v Hc Hv. destruct (Nat.lt_ge_cases i (length cs)) as [Hi|Hi].
        -- rewrite nth_error_app1 in Hc by auto. rewrite nth_error_app1 in Hv by lia.
           destruct (HR i c v Hc Hv) as [? ?]. split; [lia|auto].
        -- rewrite nth_error_app2 in Hc by auto. rewrite nth_error_app2 in Hv by lia. rewrite HL in Hv.
           destruct (i - length cs) as [|m]; [|destruct m; discriminate].
           cbn in Hc, Hv. injection Hc as <-. injection Hv as <-. split; [lia|].
           split; [apply reach_spec; [lia|apply linked_refl; unfold areas; lia]|].
           intros w Hw. destruct (Nat.lt_ge_cases w k) as [Hwk|Hwk]; [|lia]. exfalso.
           apply reach_spec in Hw; [|lia].
           destruct (Hcov w Hwk ltac:(lia)) as [c [Hc Hwc]].
           destruct (Hcls c Hc) as [u [_ [_ Hu]]]. apply (Hfresh c Hc). apply Hu.
           eapply linked_trans; [apply Hu; eauto|]. apply linked_sym; auto.
      * intros i j u v Hij Hu Hv. destruct (Nat.lt_ge_cases j (length cs)) as [Hj|Hj].
        -- rewrite nth_error_app1 in Hu by lia. rewrite nth_error_app1 in Hv by lia. exact (HS i j u v Hij Hu Hv).
        -- rewrite (nth_error_app2 R) in Hv by lia. destruct (j - length R) as [|m] eqn:Em; [|destruct m; discriminate].
           cbn in Hv. injection Hv as <-.
           destruct (Nat.lt_ge_cases i (length R)) as [Hi|Hi]; [|lia].
           rewrite nth_error_app1 in Hu by lia.
           destruct (nth_error cs i) as [c|] eqn:Ec; [|apply nth_error_None in Ec; lia].
           apply (HR i c u Ec Hu).
Qed.

Lemma comp_label_growth g a k : a < gn g -> k < comp_label g a -> exists b, b < a /\ comp_label g b = k.
Proof.
  intros Ha Hk. destruct (scan_loop g (gn g) (le_n _)) as [R [HL [HR HS]]]. fold (components g) in *.
  destruct (proj1 (comp_label_spec g a _ Ha) eq_refl) as [c [Hc Hac]].
  assert (Hlt : comp_label g a < length R).
  { rewrite HL. apply nth_error_Some. congruence. }
  destruct (nth_error R (comp_label g a)) as [v|] eqn:Ev; [|apply nth_error_None in Ev; lia].
  destruct (nth_error R k) as [u|] eqn:Eu; [|apply nth_error_None in Eu; lia].
  destruct (nth_error (components g) k) as [ck|] eqn:Eck; [|apply nth_error_None in Eck; lia].
  destruct (HR _ _ _ Hc Ev) as [_ [_ Hmin]]. specialize (Hmin a Hac).
  destruct (HR _ _ _ Eck Eu) as [Hun [Huc _]]. specialize (HS _ _ _ _ Hk Eu Ev).
  exists u. split; [lia|]. apply comp_label_spec; [auto|]. exists ck. auto.
Qed.

Lemma forest_labels_length n es : length (forest_labels n es) = n.
Proof. unfold forest_labels. rewrite map_length, component_labels_length. reflexivity. Qed.

Lemma forest_labels_lab n es a : a < n -> lab (forest_labels n es) a = Z.of_nat (comp_label (edges_graph n es) a).
Proof.
  intros Ha. unfold lab. apply nth_error_nth. unfold forest_labels. rewrite nth_error_map.
  rewrite component_labels_nth by auto. reflexivity.
Qed.

Lemma forest_labels_islands n es : island_labelling (links n es) (forest_labels n es).
Proof.
  rewrite links_edges. split; [apply forest_labels_length|]. split.
  - intros u v Hu Hv. cbn in Hu, Hv. rewrite !forest_labels_lab by auto. rewrite Nat2Z.inj_iff.
    apply comp_label_eq; auto.
  - intros a Ha. cbn in Ha. rewrite forest_labels_lab by auto. split; [lia|]. intros k Hk.
    destruct (comp_label_growth (edges_graph n es) a (Z.to_nat k) Ha) as [b [Hb Eb]]; [lia|].
    exists b. split; auto. rewrite forest_labels_lab by lia. rewrite Eb. lia.
Qed.

(** the labelling is determined by the graph *)
Lemma island_labelling_unique g l l' : island_labelling g l -> island_labelling g l' -> l = l'.
Proof.
  intros [HL [HE HG]] [HL' [HE' HG']].
  assert (H : forall m a, a < m -> a < gn g -> lab l a = lab l' a).
  { induction m as [|m IH]; intros a Ham Ha; [lia|].
    destruct (HG a Ha) as [H0 Hs]. destruct (HG' a Ha) as [H0' Hs'].
    destruct (Z.lt_trichotomy (lab l a) (lab l' a)) as [H|[H|H]]; auto; exfalso.
    - destruct (Hs' (lab l a) ltac:(lia)) as [b [Hb Eb]].
      assert (Hi : same_island g b a) by (apply HE; try lia; rewrite <- Eb; apply IH; lia).
      apply HE' in Hi; lia.
    - destruct (Hs (lab l' a) ltac:(lia)) as [b [Hb Eb]].
      assert (Hi : same_island g b a) by (apply HE'; try lia; rewrite <- Eb; symmetry; apply IH; lia).
      apply HE in Hi; lia. }
  apply nth_ext with (d := (-1)%Z) (d' := (-1)%Z); [congruence|].
  intros a Ha. apply (H (S a)); lia.
Qed.

Lemma In_lab (labels : list Z) z : In z labels <-> exists a, a < length labels /\ lab labels a = z.
Proof.
  split.
  - intros H. apply In_nth with (d := (-1)%Z) in H. destruct H as [a [Ha E]]. exists a; auto.
  - intros [a [Ha <-]]. apply nth_In; auto.
Qed.

Lemma forest_labels_exactly n es : labels_exactly (forest_labels n es) (n_components (edges_graph n es)).
Proof.
  intros z. rewrite In_lab, forest_labels_length. split.
  - intros [a [Ha <-]]. rewrite forest_labels_lab by auto.
    pose proof (comp_label_lt (edges_graph n es) a Ha). lia.
  - intros Hz. destruct (comp_label_onto (edges_graph n es) (Z.to_nat z)) as [v [Hv E]]; [lia|].
    exists v. split; [exact Hv|]. rewrite forest_labels_lab by auto. lia.
Qed.

Lemma forest_labels_n n es : n_labels (forest_labels n es) = n_components (edges_graph n es).
Proof. apply labels_exactly_n, forest_labels_exactly. Qed.

(** ** quorum *)
Lemma count_size labels r : count labels r = region_size labels r.
Proof.
  rewrite count_filter. unfold region_size. induction labels as [|x l IH]; cbn; auto.
  destruct (Z.eq_dec x r) as [->|Hne]; [rewrite Z.eqb_refl; cbn; congruence|].
  destruct (Z.eqb r x) eqn:E; [apply Z.eqb_eq in E; congruence|auto].
Qed.

Lemma below_quorum_false quorum labels : below_quorum quorum labels = false <-> meets_quorum quorum labels.
Proof.
  unfold meets_quorum. destruct quorum as [q|]; cbn; [|split; [intros _ q r E; discriminate|auto]].
  rewrite <- not_true_iff_false, existsb_exists. split.
  - intros H q' r E Hr. injection E as <-. destruct (Z.lt_ge_cases (Z.of_nat (region_size labels r)) q) as [Hlt|Hge]; [|auto].
    exfalso. apply H. exists r. split; [apply uniqueZ_In; auto|]. apply Z.ltb_lt. rewrite count_size; auto.
  - intros H [r [Hr Hlt]]. pose proof (proj1 (uniqueZ_In _ _) Hr) as Hr2. apply Z.ltb_lt in Hlt. rewrite count_size in Hlt.
    specialize (H q r eq_refl Hr2). lia.
Qed.

Lemma below_quorum_true quorum labels : below_quorum quorum labels = true <-> ~ meets_quorum quorum labels.
Proof. rewrite <- below_quorum_false. destruct (below_quorum quorum labels); split; congruence. Qed.

(** ** score *)
Lemma mapM_post {A B} E N (f : A -> out B) l :
  (forall x, In x l -> post E N (f x) (fun _ => True)) -> post E N (mapM f l) (fun ys => length ys = length l).
Proof.
  induction l as [|x l IH]; intros H; cbn; [auto|].
  eapply post_bind; [apply H; left; auto|]. intros y _ _.
  eapply (post_bind _ _ _ _ (fun ys => length ys = length l)); [apply IH; intros; apply H; right; auto|].
  intros ys _ Hys. cbn. lia.
Qed.

Definition affinity_error (S : skater) : exn -> Prop :=
  fun e => sk_one_arg S = true /\ e = TypeError "unexpected keyword argument 'X'".

Lemma part_score_post S data labels l : In l labels ->
  post (affinity_error S) False (part_score S data labels l) (fun _ => sk_one_arg S = false).
Proof.
  intros Hl. unfold part_score. destruct (sk_one_arg S) eqn:E; [split; auto|].
  destruct (map _ (where_eq labels l)) eqn:Em; [|exact Logic.I || exact eq_refl].
  exfalso. apply map_eq_nil in Em. apply In_lab in Hl. destruct Hl as [a [Ha El]].
  assert (Hi : In a (where_eq labels l)).
  { apply where_eq_In. rewrite lab_nth_error by auto. congruence. }
  rewrite Em in Hi. destruct Hi.
Qed.

Lemma score_post S fitted data labels quorum : length data = length labels ->
  labels_exactly labels (n_labels labels) ->
  post (affinity_error S) False (score S fitted data (Some labels) quorum)
       (fun q => q = None <-> ~ meets_quorum quorum labels).
Proof.
  intros HL He. unfold score. rewrite HL, Nat.eqb_refl. cbn [negb].
  rewrite uniqueZ_length.
  destruct (below_quorum quorum labels) eqn:Eb; [cbn; rewrite <- below_quorum_true; tauto|].
  eapply post_bind.
  - apply mapM_post. intros z Hz. apply in_map_iff in Hz. destruct Hz as [m [<- Hm]]. apply in_seq in Hm.
    eapply post_weaken; [| | |apply part_score_post; apply He; lia]; auto.
  - intros ps _ _. cbn. split; [discriminate|]. intros H. apply below_quorum_false in Eb. tauto.
Qed.

Lemma forest_score_post S fitted n es data quorum : length data = n ->
  post (affinity_error S) False (score S fitted data (Some (forest_labels n es)) quorum)
       (fun q => q = None <-> ~ meets_quorum quorum (forest_labels n es)).
Proof.
  intros HL. apply score_post; [rewrite forest_labels_length; auto|].
  rewrite forest_labels_n. apply forest_labels_exactly.
Qed.

(** ** find_cut *)
Lemma cheapest_snoc {A} (cost : A -> option Q -> Prop) cands (best : option (A * Q)) e q b :
  cheapest cost cands best -> cost e q ->
  b = match q, best with
      | Some x, Some (_, y) => Qltb x y
      | Some _, None => true
      | None, _ => false
      end ->
  cheapest cost (cands ++ [e]) (if b then match q with Some x => Some (e, x) | None => best end else best).
Proof.
  intros Hc Hq ->. destruct q as [x|].
  - destruct best as [[f y]|].
    + destruct (Qltb x y) eqn:E.
      * unfold Qltb in E. apply negb_true_iff in E.
        assert (Hxy : (x < y)%Q).
        { apply Qnot_le_lt. intros H. apply Qle_bool_iff in H. congruence. }
        destruct Hc as [Hf [l1 [l2 [-> [H1 H2]]]]]. split; [auto|]. exists (l1 ++ f :: l2), []. split; [auto|].
        split; [|intros g []]. intros g Hg. apply in_app_or in Hg. destruct Hg as [Hg|[<-|Hg]].
        -- destruct (H1 g Hg) as [H|[z [Hz Hlt]]]; [auto|right; exists z; split; auto; lra].
        -- right. exists y; auto.
        -- destruct (H2 g Hg) as [H|[z [Hz Hlt]]]; [auto|right; exists z; split; auto; lra].
      * unfold Qltb in E. apply negb_false_iff in E. apply Qle_bool_iff in E.
        destruct Hc as [Hf [l1 [l2 [-> [H1 H2]]]]]. split; [auto|]. exists l1, (l2 ++ [e]).
        split; [rewrite <- app_assoc; auto|]. split; [auto|]. intros g Hg. apply in_app_or in Hg.
        destruct Hg as [Hg|[<-|[]]]; auto. right. exists x; auto.
    + split; [auto|]. exists cands, []. split; [auto|]. split; [|intros g []].
      intros g Hg. left. apply Hc; auto.
  - destruct best as [[f y]|].
    + destruct Hc as [Hf [l1 [l2 [-> [H1 H2]]]]]. split; [auto|]. exists l1, (l2 ++ [e]).
      split; [rewrite <- app_assoc; auto|]. split; [auto|]. intros g Hg. apply in_app_or in Hg.
      destruct Hg as [Hg|[<-|[]]]; auto.
    + intros g Hg. apply in_app_or in Hg. destruct Hg as [Hg|[<-|[]]]; auto.
Qed.

(** cost of cutting [e] out of [es]: the score of the resulting components *)
Definition cut_cost (S : skater) (n : nat) (es : list edge) (data : list (list Q)) (quorum : option Z)
    (e : edge) (q : option Q) : Prop :=
  score S None data (Some (forest_labels n (remove_edge e es))) quorum = Ok q.

Definition zoom (zero_in : option (list Z * Z)) (e : edge) : bool :=
  match zero_in with None => true | Some (l, t) => Z.eqb (lab l (fst e)) t end.

Lemma cut_loop_post S n es data quorum zi todo done best :
  forest n es -> length data = n -> (forall e, In e todo -> In e es) ->
  (forall l t, zi = Some (l, t) -> length l = n) ->
  cheapest (cut_cost S n es data quorum) (filter (zoom zi) done) best ->
  post (affinity_error S) False (cut_loop S n es data quorum zi todo best)
    (fun best' => cheapest (cut_cost S n es data quorum) (filter (zoom zi) (done ++ todo)) best').
Proof.
  intros Hf HL. revert done best. induction todo as [|e todo IH]; intros done best Hin Hz Hc.
  - cbn. rewrite app_nil_r. exact Hc.
  - cbn [cut_loop].
    assert (He : In e es) by (apply Hin; left; auto).
    assert (Hr : fst e < n) by (apply Hf; auto).
    eapply (post_bind _ _ _ _ (fun here => here = zoom zi e)).
    { destruct zi as [[l t]|]; cbn; [|auto]. rewrite lab_nth_error by (rewrite (Hz l t eq_refl); auto). reflexivity. }
    intros here _ ->.
    replace (done ++ e :: todo) with ((done ++ [e]) ++ todo) by (rewrite <- app_assoc; reflexivity).
    assert (IH' := fun b H => IH (done ++ [e]) b (fun f Hf' => Hin f (or_intror Hf')) Hz H). clear IH.
    assert (Ef : filter (zoom zi) (done ++ [e]) = filter (zoom zi) done ++ (if zoom zi e then [e] else [])).
    { rewrite filter_app. cbn. destruct (zoom zi e); auto. }
    destruct (zoom zi e) eqn:Ez; cbn [negb].
    + destruct (forest_remove n e es Hf He) as [_ [Hn _]]. rewrite Hn.
      destruct (Nat.leb (Datatypes.S (n_components (edges_graph n es))) (n_components (edges_graph n es))) eqn:El;
        [apply Nat.leb_le in El; exfalso; lia|].
      eapply post_bind; [apply forest_score_post; auto|]. intros q Eq _.
      apply IH'. rewrite Ef. apply cheapest_snoc with (q := q); auto.
    + apply IH'. rewrite Ef, app_nil_r. exact Hc.
Qed.

Lemma filter_true {A} (l : list A) : filter (fun _ => true) l = l.
Proof. induction l as [|x l IH]; cbn; congruence. Qed.

Lemma find_cut_post S n es data quorum :
  forest n es -> length data = n ->
  post (affinity_error S) False (find_cut S n es (Some data) quorum None None)
    (fun best => cheapest (cut_cost S n es data quorum) es best).
Proof.
  intros Hf HL. unfold find_cut.
  eapply (post_weaken (affinity_error S) _ False _); [auto|auto| |apply (cut_loop_post S n es data quorum None es [] None); auto].
  - cbn. intros b _ H. unfold zoom in H. rewrite filter_true in H. exact H.
  - intros l t E; discriminate.
  - intros e [].
Qed.

(** ** cutting one edge splits one region in two *)
Lemma cut_splits n es e : forest n es -> In e es ->
  splits_one (forest_labels n es) (forest_labels n (remove_edge e es)).
Proof.
  intros Hf He. destruct (forest_remove n e es Hf He) as [_ [_ Hs]].
  pose proof Hf as [Hnd [Hr _]]. destruct (Hr e He) as [Ha Hb].
  destruct e as [a b]. cbn [fst snd] in *.
  pose proof (remove_edge_perm (a, b) es Hnd He) as Hp.
  set (es' := remove_edge (a, b) es) in *.
  assert (Had : adds_edge (edges_graph n es') (edges_graph n ((a, b) :: es')) a b).
  { apply edges_graph_cons_adds; auto. }
  assert (Hsame : forall u v, same_island (edges_graph n es) u v <-> same_island (edges_graph n ((a, b) :: es')) u v).
  { apply edges_graph_ext. intros f. split; apply Permutation_in; auto. symmetry; auto. }
  pose proof (adds_edge_island _ _ _ _ Had) as Hisl.
  split; [rewrite !forest_labels_length; auto|]. exists a, b. rewrite forest_labels_length.
  destruct (forest_labels_islands n es) as [_ [HE _]]. destruct (forest_labels_islands n es') as [_ [HE' _]].
  rewrite links_edges in HE, HE'. cbn [edges_graph gn] in HE, HE'.
  assert (Hab : same_island (edges_graph n es) a b).
  { apply Hsame. apply linked_one; unfold areas; cbn; auto. apply edges_touch. left; left; auto. }
  split; [auto|]. split; [auto|]. split; [apply HE; auto|]. split; [rewrite HE'; auto|].
  intros u v Hu Hv. rewrite HE, Hsame, Hisl by auto. rewrite !HE' by auto.
  split.
  - intros H. destruct H as [H|[[H1 H2]|[H1 H2]]]; [left; exact H|right|right];
    split; auto; try (left; apply same_island_sym; auto; fail); try (right; apply same_island_sym; auto; fail); auto.
  - intros [H|[[H1|H1] [H2|H2]]]; [auto| | | |].
    + left. eapply same_island_trans; [exact H1|apply same_island_sym; exact H2].
    + right. left. split; auto. apply same_island_sym; auto.
    + right. right. split; auto. apply same_island_sym; auto.
    + left. eapply same_island_trans; [exact H1|apply same_island_sym; exact H2].
Qed.

(** ** the pruning loop *)
Lemma successive_snoc {A} (R : A -> A -> Prop) l x y :
  successive R (l ++ [x]) -> R x y -> successive R ((l ++ [x]) ++ [y]).
Proof.
  intros Hs Hr i u v Hu Hv.
  destruct (Nat.lt_ge_cases (S i) (length (l ++ [x]))) as [Hi|Hi].
  - rewrite nth_error_app1 in Hu by lia. rewrite nth_error_app1 in Hv by lia. exact (Hs i u v Hu Hv).
  - assert (Hlt : S i < length ((l ++ [x]) ++ [y])) by (apply nth_error_Some; congruence).
    rewrite app_length in Hlt, Hi. rewrite app_length in Hlt. cbn in Hlt, Hi.
    assert (Ei : i = length l) by lia. subst i.
    rewrite nth_error_app2 in Hv by (rewrite app_length; cbn; lia). rewrite app_length in Hv. cbn [length] in Hv.
    replace (S (length l) - (length l + 1)) with 0 in Hv by lia. cbn in Hv. injection Hv as <-.
    rewrite <- app_assoc in Hu. rewrite nth_error_app2 in Hu by lia. rewrite Nat.sub_diag in Hu. cbn in Hu.
    injection Hu as <-. exact Hr.
Qed.

Lemma cheapest_In {A} (cost : A -> option Q -> Prop) cands e q :
  cheapest cost cands (Some (e, q)) -> In e cands /\ cost e (Some q).
Proof.
  intros [Hc [l1 [l2 [-> _]]]]. split; auto. apply in_or_app. right; left; auto.
Qed.

Section Prune.
  Variables (S : skater) (n : nat) (data : list (list Q)) (quorum : option Z) (target : option Z).
  Variables (es0 : list edge).
  Hypothesis Hdata : length data = n.

  Definition trace_step (x y : list Z * deletion) : Prop :=
    splits_one (fst x) (fst y) /\
    exists es e q, snd y = Some (e, q) /\ forest n es /\ fst x = forest_labels n es /\
      fst y = forest_labels n (remove_edge e es) /\ cheapest (cut_cost S n es data quorum) es (Some (e, q)).

  Definition prune_inv (es : list edge) (c : nat) (labels : list Z) (trace : list (list Z * deletion)) : Prop :=
    forest n es /\ c = n_components (edges_graph n es) /\ labels = forest_labels n es /\
    (forall e, In e es -> In e es0) /\
    (exists pre d, trace = pre ++ [(labels, d)]) /\
    nth_error trace 0 = Some (forest_labels n es0, None) /\
    successive trace_step trace /\
    n_components (edges_graph n es0) + length trace = Datatypes.S c /\
    ((es = es0 /\ length trace = 1) \/
     (meets_quorum quorum labels /\ exists c', c = Datatypes.S c' /\ more_clusters c' target = true)).

  Definition prune_result (r : skater_fit) : Prop :=
    exists c, prune_inv (f_forest r) c (f_labels r) (f_trace r) /\
      if f_no_moves r
      then more_clusters c target = true /\
           forall e, In e (f_forest r) -> cut_cost S n (f_forest r) data quorum e None
      else more_clusters c target = false.

  Lemma prune_post fuel : forall es c labels trace, prune_inv es c labels trace ->
    post (affinity_error S) (fuel <= length es) (prune S n data quorum target fuel es c labels trace) prune_result.
  Proof.
    induction fuel as [|fuel IH]; intros es c labels trace Hi; cbn [prune].
    - destruct (more_clusters c target) eqn:Em; [cbn; lia|]. exists c. cbn. auto.
    - destruct (more_clusters c target) eqn:Em; [|exists c; cbn; auto].
      pose proof Hi as [Hf [Ec [El [Hin [[pre [d Etr]] [Eh [Hs [Hlen Hq]]]]]]]].
      eapply post_bind.
      { eapply (post_weaken (affinity_error S) _ False _); [auto| | |apply (find_cut_post S n es data quorum Hf Hdata)].
        - intros [].
        - intros a _ H; exact H. }
      intros best Eb Hb. destruct best as [[e q]|].
      + destruct (cheapest_In _ _ _ _ Hb) as [He Hce].
        cbn [make_cut bind].
        destruct (forest_remove n e es Hf He) as [Hf' [Hn' _]].
        assert (Hl : length es = Datatypes.S (length (remove_edge e es))).
        { destruct Hf as [Hnd _]. rewrite (Permutation_length (remove_edge_perm e es Hnd He)). reflexivity. }
        eapply (post_weaken (affinity_error S) _ (fuel <= length (remove_edge e es)) _); [auto|lia|intros a _ H; exact H|].
        apply IH. split; [exact Hf'|]. split; [reflexivity|]. split; [reflexivity|].
        split; [intros f Hf2; apply Hin; apply remove_edge_In in Hf2; tauto|].
        split; [exists trace, (Some (e, q)); reflexivity|].
        split; [subst trace; destruct pre; exact Eh|].
        split.
        * subst trace. apply successive_snoc; auto. split.
          -- cbn [fst]. rewrite El. apply cut_splits; auto.
          -- exists es, e, q. cbn [fst snd]. auto.
        * split; [rewrite app_length; cbn [length]; lia|]. right. split.
          -- unfold cut_cost in Hce. pose proof (forest_score_post S None n (remove_edge e es) data quorum Hdata) as Hp.
             rewrite Hce in Hp. cbn [post] in Hp. rewrite <- below_quorum_true in Hp. apply below_quorum_false.
             destruct (below_quorum quorum (forest_labels n (remove_edge e es))); auto.
             destruct Hp as [_ Hp]. specialize (Hp eq_refl). discriminate.
          -- exists c. split; [rewrite Hn'; congruence|auto].
      + exists c. cbn [f_forest f_labels f_trace f_no_moves]. rewrite <- El. split; [exact Hi|]. split; auto.
  Qed.
End Prune.

Lemma dissim_spanning S order g data : (forall l, Permutation (order l) l) ->
  spanning_forest (dissim_matrix S g data) (minimum_spanning_tree order (dissim_matrix S g data)).
Proof. apply minimum_spanning_tree_spec. Qed.

Lemma dissim_gn S g data : gn (dissim_matrix S g data) = gn g.
Proof. destruct data; reflexivity. Qed.


Lemma fit_data_length g data : (forall d, data = Some d -> length d = gn g) -> length (fit_data g data) = gn g.
Proof. intros H. destruct data as [d|]; cbn; [apply H; auto|]. unfold ones. apply repeat_length. Qed.

Definition island_error (S : skater) : exn -> Prop :=
  fun e => affinity_error S e \/ e = ValueError "Islands must be larger than the quorum.".

Lemma skater_run_post S order g data k quorum ign fuel :
  (forall l, Permutation (order l) l) -> (forall d, data = Some d -> length d = gn g) ->
  let msf := minimum_spanning_tree order (dissim_matrix S g data) in
  let c0 := n_components (edges_graph (gn g) msf) in
  post (fun e => affinity_error S e \/
         (e = ValueError "Islands must be larger than the quorum." /\ 1 < c0 /\
          ~ meets_quorum quorum (forest_labels (gn g) msf)))
       (fuel <= length msf) (skater_run S order g data k quorum ign fuel)
       (fun r => prune_result S (gn g) (fit_data g data) quorum (adjust_clusters k c0 ign) msf r /\
                 (c0 <= 1 \/ meets_quorum quorum (forest_labels (gn g) msf))).
Proof.
  intros Ho Hd msf c0. unfold skater_run. fold msf. fold c0.
  destruct (dissim_spanning S order g data Ho) as [Hf _]. fold msf in Hf. rewrite dissim_gn in Hf.
  destruct (Nat.ltb 1 c0 && below_quorum quorum (forest_labels (gn g) msf)) eqn:E.
  - apply andb_true_iff in E. destruct E as [E1 E2]. apply Nat.ltb_lt in E1. apply below_quorum_true in E2.
    cbn. right. auto.
  - assert (Hq : c0 <= 1 \/ meets_quorum quorum (forest_labels (gn g) msf)).
    { apply andb_false_iff in E. destruct E as [E|E]; [apply Nat.ltb_ge in E; auto|].
      right. apply below_quorum_false; auto. }
    eapply post_weaken; [| | |apply (prune_post S (gn g) (fit_data g data) quorum (adjust_clusters k c0 ign) msf
      (fit_data_length g data Hd) fuel msf c0 (forest_labels (gn g) msf) [(forest_labels (gn g) msf, None)])]; cbn beta; auto.
    split; [exact Hf|]. split; [reflexivity|]. split; [reflexivity|]. split; [auto|].
    split; [exists [], None; reflexivity|]. split; [reflexivity|]. split; [|split; [cbn; unfold c0; lia|left; auto]].
    intros i x y _ H. destruct i; discriminate.
Qed.

(** ** the two notions of forest *)
Lemma remove_edge_notin e es : ~ In e es -> remove_edge e es = es.
Proof.
  intros H. unfold remove_edge. induction es as [|f es IH]; cbn; auto.
  destruct (edge_eqb e f) eqn:E; [apply edge_eqb_eq in E; subst; exfalso; apply H; left; auto|].
  cbn. f_equal. apply IH. intros Hi; apply H; right; auto.
Qed.

Lemma edges_island_mono n es fs u v : (forall e, In e es -> In e fs) ->
  same_island (edges_graph n es) u v -> same_island (edges_graph n fs) u v.
Proof.
  intros H. apply same_island_touch_ext; [reflexivity|]. intros x y. rewrite !edges_touch. intros [Hx|Hx]; auto.
Qed.

Lemma forest_is_forest n es : forest n es <-> is_forest n es.
Proof.
  split.
  - intros Hf. pose proof Hf as [Hnd [Hr _]]. split; [auto|]. split; [auto|].
    intros e He. apply forest_remove; auto.
  - induction es as [|[a b] es IH]; intros [Hnd [Hr Hs]]; [apply forest_nil|].
    inversion Hnd as [|? ? Hni Hnd']; subst.
    apply forest_cons.
    + apply IH. split; [auto|]. split; [intros e He; apply Hr; right; auto|].
      intros e He Hi. apply (Hs e (or_intror He)).
      apply (edges_island_mono n (remove_edge e es) (remove_edge e ((a, b) :: es))); [|exact Hi]. intros f Hf. apply remove_edge_In in Hf. apply remove_edge_In.
      split; [right|]; tauto.
    + apply (Hr (a, b)); left; auto.
    + apply (Hr (a, b)); left; auto.
    + intros Hi. apply (Hs (a, b)); [left; auto|].
      apply (edges_island_mono n es (remove_edge (a, b) ((a, b) :: es))); [|exact Hi]. intros f Hf. apply remove_edge_In. split; [right; auto|].
      intros ->. auto.
Qed.

(** ** contiguity *)
Lemma island_region_linked g n es l r u v : gn g = n ->
  (forall e, In e es -> touch g (fst e) (snd e)) ->
  island_labelling (links n es) l ->
  same_island (edges_graph n es) u v -> region l r u -> linked g (region l r) u v.
Proof.
  intros En Ht [HL [HE _]] H. rewrite links_edges in HE, HL. cbn [edges_graph gn] in *.
  unfold same_island in H. induction H as [u Hu|u x w Hu Hux Hxw IH]; intros Hr.
  - apply linked_refl; auto.
  - assert (Hx : areas (edges_graph n es) x) by (eapply linked_in_l; eauto). unfold areas in *. cbn in Hu, Hx.
    assert (Hr' : region l r x).
    { assert (E : lab l u = lab l x) by (apply HE; auto; apply linked_one; auto).
      unfold region in *. rewrite lab_nth_error in Hr |- * by lia. congruence. }
    eapply linked_step; [exact Hr| |apply IH; exact Hr'].
    apply edges_touch in Hux. destruct Hux as [Hux|Hux]; apply Ht in Hux; cbn in Hux; auto. apply touch_sym; auto.
Qed.

Lemma island_labelling_contiguous g n es l : gn g = n -> (forall e, In e es -> touch g (fst e) (snd e)) ->
  island_labelling (links n es) l -> all_contiguous g l.
Proof.
  intros En Ht Hl r Hr. pose proof Hl as [HL [HE _]]. rewrite links_edges in *. cbn [edges_graph gn] in *.
  split.
  - apply In_nth_error in Hr. exact Hr.
  - intros u v Hu Hv. eapply island_region_linked; eauto.
    assert (u < length l) by (apply nth_error_Some; unfold region in Hu; congruence).
    assert (v < length l) by (apply nth_error_Some; unfold region in Hv; congruence).
    apply HE; try lia. unfold region in *. rewrite lab_nth_error in Hu, Hv by auto. congruence.
Qed.

(** the first labels are those of the islands of the dissimilarity graph *)
Lemma msf_components S order g data : (forall l, Permutation (order l) l) ->
  n_components (edges_graph (gn g) (minimum_spanning_tree order (dissim_matrix S g data))) =
  n_components (dissim_matrix S g data).
Proof.
  intros Ho. destruct (dissim_spanning S order g data Ho) as [_ [_ H]]. rewrite dissim_gn in H.
  apply n_components_ext; [rewrite dissim_gn; reflexivity|]. exact H.
Qed.

Lemma island_labelling_ext g h l : gn g = gn h -> (forall u v, same_island g u v <-> same_island h u v) ->
  island_labelling g l -> island_labelling h l.
Proof.
  intros En Hs [HL [HE HG]]. rewrite En in *. split; [auto|]. split; [|auto].
  intros u v Hu Hv. rewrite <- Hs. auto.
Qed.

Lemma msf_labels S order g data : (forall l, Permutation (order l) l) ->
  island_labelling (dissim_matrix S g data)
    (forest_labels (gn g) (minimum_spanning_tree order (dissim_matrix S g data))).
Proof.
  intros Ho. destruct (dissim_spanning S order g data Ho) as [_ [_ H]]. rewrite dissim_gn in H.
  eapply island_labelling_ext; [| |apply forest_labels_islands]; [rewrite dissim_gn; reflexivity|exact H].
Qed.

(** one island: all labels are 0 *)
Lemma one_component_labels n es : n_components (edges_graph n es) <= 1 -> forest_labels n es = repeat 0%Z n.
Proof.
  intros H. apply nth_ext with (d := (-1)%Z) (d' := (-1)%Z); [rewrite forest_labels_length, repeat_length; auto|].
  intros a Ha. rewrite forest_labels_length in Ha. fold (lab (forest_labels n es) a). rewrite forest_labels_lab by auto.
  pose proof (comp_label_lt (edges_graph n es) a Ha).
  replace (comp_label (edges_graph n es) a) with 0 by lia.
  symmetry. apply nth_error_nth. apply nth_error_repeat. auto.
Qed.

(** size of an island *)
Lemma island_size g l v isl : island_labelling g l -> island g v isl -> v < gn g ->
  region_size l (lab l v) = length isl.
Proof.
  intros [HL [HE _]] [Hs Hi] Hv. rewrite <- count_size, count_where. apply Permutation_length.
  apply NoDup_Permutation.
  - apply where_eq_NoDup.
  - clear -Hs. induction Hs as [|x isl Hs IH Hx]; constructor; auto.
    intros Hin. rewrite Forall_forall in Hx. specialize (Hx x Hin). lia.
  - intros a. rewrite where_eq_In, Hi. split.
    + intros Ha. assert (Hla : a < length l) by (apply nth_error_Some; congruence).
      rewrite lab_nth_error in Ha by auto. injection Ha as Ha. apply HE; auto. lia.
    + intros Ha. assert (a < gn g) by (apply same_island_lt in Ha; tauto).
      rewrite lab_nth_error by lia. f_equal. symmetry. apply HE; auto.
Qed.
