(** Spanning_Forest in different units. *)
From Verif Require Import Base Spec SpecData M_Graph P_Graph M_Util P_Base P_Util P_Forest M_Objective P_Sum P_Objective M_Skater P_Skater P_Scale P_ScaleObj.

Lemma matrix_edges_ext g h : gn g = gn h -> (forall i j, i < gn g -> j < gn g -> gadj g i j = gadj h i j) -> matrix_edges g = matrix_edges h.
Proof.
  intros Hn H. unfold matrix_edges. rewrite <- Hn. apply filter_ext_in. intros [i j] Hij. apply in_prod_iff in Hij. rewrite !in_seq in Hij. apply H; cbn; lia.
Qed.

Section ScaleSkater.
Variable c : Q.
Hypothesis Hc : (0 < c)%Q.
Variables S1 S2 : skater.
Variable n : nat.
Variables data data' : list (list Q).
Hypothesis Hone : sk_one_arg S2 = sk_one_arg S1.
Hypothesis Hred1 : sk_reduction S2 = sk_reduction S1.
Hypothesis Hred : homogeneous (sk_reduction S1).
Hypothesis Hcs : centers_scaled c n (sk_metric S1) (sk_metric S2) (sk_center S1) (sk_center S2) data data'.
Hypothesis Hlen : length data = n /\ length data' = n.

Definition qr (q q' : option Q) : Prop :=
  match q, q' with None, None => True | Some x, Some y => (y == c * x)%Q | _, _ => False end.
Definition dr (q q' : deletion) : Prop :=
  match q, q' with None, None => True | Some (e, x), Some (e', y) => e = e' /\ (y == c * x)%Q | _, _ => False end.

Lemma part_score_scale labels l : length labels = n -> multiple c (part_score S1 data labels l) (part_score S2 data' labels l).
Proof.
  intros Hl. unfold part_score. rewrite Hone. destruct (sk_one_arg S1); [reflexivity|]. rewrite Hred1.
  assert (Hn : forall i, In i (where_eq labels l) -> i < n).
  { intros i Hi. apply where_eq_In in Hi. rewrite <- Hl. apply nth_error_Some. congruence. }
  set (sel := where_eq labels l) in *.
  assert (H : Forall2 (fun x y => (y == c * x)%Q)
    (map (fun x => sk_metric S1 x (sk_center S1 (map (fun i => nth i data []) sel))) (map (fun i => nth i data []) sel))
    (map (fun x => sk_metric S2 x (sk_center S2 (map (fun i => nth i data' []) sel))) (map (fun i => nth i data' []) sel))).
  { rewrite !map_map. assert (K : forall l, (forall i, In i l -> In i sel) -> Forall2 (fun x y => (y == c * x)%Q)
      (map (fun i => sk_metric S1 (nth i data []) (sk_center S1 (map (fun i => nth i data []) sel))) l)
      (map (fun i => sk_metric S2 (nth i data' []) (sk_center S2 (map (fun i => nth i data' []) sel))) l)).
    { induction l0 as [|i l0 IH]; intros Hs; cbn; [constructor|]. constructor; [apply Hcs; auto; apply Hs; left; auto|]. apply IH. intros j Hj. apply Hs. right; auto. }
    apply K. auto. }
  destruct sel as [|i sel]; [reflexivity|]. cbn [map multiple] in *. apply Hred; auto.
Qed.
Lemma mapM_part_scale labels ls : length labels = n -> rel (Forall2 (fun x y => (y == c * x)%Q)) (mapM (part_score S1 data labels) ls) (mapM (part_score S2 data' labels) ls).
Proof.
  intros Hl. induction ls as [|r rs IH]; cbn [mapM]; [constructor|].
  eapply rel_bind; [apply (part_score_scale labels r Hl)|]. intros x y _ _ Hxy. eapply rel_bind; [apply IH|]. intros l l' _ _ H. constructor; auto.
Qed.
Lemma score_scale fitted labels quorum : match labels with Some l => length l = n | None => match fitted with Some l => length l = n | None => True end end ->
  rel qr (score S1 fitted data labels quorum) (score S2 fitted data' labels quorum).
Proof.
  intros Hl. unfold score. destruct Hlen as [-> ->].
  assert (Hl' : match (match labels with Some l => Some l | None => fitted end) with Some l => length l = n | None => True end) by (destruct labels; auto).
  clear Hl. destruct (match labels with Some l => Some l | None => fitted end) as [l|]; [|reflexivity]. destruct (negb _); [reflexivity|].
  cbv zeta. destruct (below_quorum quorum l); [exact Logic.I|].
  eapply rel_bind; [apply mapM_part_scale; auto|]. intros x y _ _ H. cbn. rewrite Hred1. apply Hred; auto.
Qed.
Lemma cut_loop_scale es quorum zi : forall todo best best', dr best best' ->
  rel dr (cut_loop S1 n es data quorum zi todo best) (cut_loop S2 n es data' quorum zi todo best').
Proof.
  induction todo as [|e todo IH]; intros best best' Hb; cbn [cut_loop]; [exact Hb|].
  eapply (rel_bind eq); [match goal with [|- rel eq ?m ?m] => destruct m; cbn; auto end|]. intros here ? _ _ <-.
  destruct (negb here); [apply IH; auto|]. cbv zeta. destruct (Nat.leb _ _); [reflexivity|].
  eapply rel_bind; [apply score_scale; rewrite forest_labels_length; auto|]. intros q q' _ _ Hq. apply IH.
  destruct q as [x|], q' as [y|]; cbn in Hq; try contradiction; [|exact Hb].
  destruct best as [[e1 x1]|], best' as [[e2 y2]|]; cbn in Hb; try contradiction; [|cbn; auto].
  destruct Hb as [<- Hb]. cbn [better]. rewrite <- (scale_ltb c Hc x y x1 y2 Hq Hb). destruct (Qltb x x1); cbn; auto.
Qed.
Lemma find_cut_scale es quorum labels target : rel dr (find_cut S1 n es (Some data) quorum labels target) (find_cut S2 n es (Some data') quorum labels target).
Proof. unfold find_cut. destruct labels, target; try reflexivity; apply cut_loop_scale; exact Logic.I. Qed.

Definition fr (f f' : skater_fit) : Prop :=
  f_labels f = f_labels f' /\ f_forest f = f_forest f' /\ f_no_moves f = f_no_moves f' /\
  Forall2 (fun x y => fst x = fst y /\ dr (snd x) (snd y)) (f_trace f) (f_trace f').
Lemma prune_scale quorum k : forall fuel es m labels tr tr', Forall2 (fun x y => fst x = fst y /\ dr (snd x) (snd y)) tr tr' ->
  rel fr (prune S1 n data quorum k fuel es m labels tr) (prune S2 n data' quorum k fuel es m labels tr').
Proof.
  induction fuel as [|fuel IH]; intros es m labels tr tr' Ht; cbn [prune]; (destruct (more_clusters m k); [|cbn; unfold fr; cbn; auto]); [exact Logic.I|].
  eapply rel_bind; [apply find_cut_scale|]. intros b b' _ _ Hb. destruct b as [[e x]|], b' as [[e' y]|]; cbn in Hb; try contradiction; [|cbn; unfold fr; cbn; auto].
  destruct Hb as [<- Hxy]. cbn [make_cut bind]. apply IH. apply Forall2_app; [auto|]. constructor; [|constructor]. cbn. auto.
Qed.
Hypothesis Hds : distances_scaled c n (sk_metric S1) (sk_metric S2) data data'.
Theorem skater_scale order g k quorum ignoring fuel : gn g = n ->
  rel fr (skater_run S1 order g (Some data) k quorum ignoring fuel) (skater_run S2 order g (Some data') k quorum ignoring fuel).
Proof.
  intros Hg. unfold skater_run. cbv zeta.
  assert (E : minimum_spanning_tree order (dissim_matrix S2 g (Some data')) = minimum_spanning_tree order (dissim_matrix S1 g (Some data))).
  { unfold minimum_spanning_tree. cbv zeta. cbn [dissim_matrix gn]. rewrite (matrix_edges_ext _ (mkG (gn g) (fun i j => gadj g i j && negb (Qeq_bool (sk_metric S1 (nth i data []) (nth j data [])) 0)))); auto.
    cbn. intros i j Hi Hj. f_equal. f_equal. symmetry. apply (scale_eq0 c Hc). apply Hds; lia. }
  rewrite E. destruct (_ && _); [reflexivity|]. rewrite Hg. apply prune_scale. constructor; [|constructor]. cbn. auto.
Qed.
End ScaleSkater.
