(** Objectives in different units: the instances of [scaled]. *)
From Verif Require Import Base Spec SpecData M_Graph P_Graph M_Util P_Base P_Util M_Objective P_Sum P_Objective M_Skater M_Exact P_Mip2 P_Scale.

Lemma rows_of_sel labels r attr idx : length labels = length idx ->
  rows_of labels r (map (fun i => nth i attr []) idx) = map (fun i => nth i attr []) (map (fun a => nth a idx 0) (where_eq labels r)).
Proof.
  intros Hl. unfold rows_of. rewrite map_map. apply map_ext_in. intros a Ha. apply where_eq_In in Ha.
  assert (Ha' : a < length idx) by (rewrite <- Hl; apply nth_error_Some; congruence).
  unfold row. rewrite (nth_indep _ [] (nth 0 attr [])) by (rewrite map_length; auto). apply (map_nth (fun i => nth i attr [])).
Qed.
Lemma row_sel attr (idx : list nat) a : a < length idx -> row (map (fun i => nth i attr []) idx) a = nth (nth a idx 0) attr [].
Proof.
  intros Ha. unfold row. rewrite (nth_indep _ [] (nth 0 attr [])) by (rewrite map_length; auto). apply (map_nth (fun i => nth i attr [])).
Qed.
Lemma sel_in labels r (idx : list nat) n : length labels = length idx -> (forall i, In i idx -> i < n) -> forall i, In i (map (fun a => nth a idx 0) (where_eq labels r)) -> i < n.
Proof.
  intros Hl Hi i H. apply in_map_iff in H. destruct H as [a [<- Ha]]. apply where_eq_In in Ha. apply Hi, nth_In. rewrite <- Hl. apply nth_error_Some. congruence.
Qed.

Section Inst.
Variable c : Q.
Hypothesis Hc : (0 < c)%Q.

Lemma sum_scaled {A} (f f' : A -> Q) l : (forall x, In x l -> (f' x == c * f x)%Q) -> (sumQ (map f' l) == c * sumQ (map f l))%Q.
Proof.
  induction l as [|x l IH]; intros H; cbn [map]; [rewrite !sumQ_nil; ring|].
  rewrite !sumQ_cons, IH by (intros; apply H; right; auto). rewrite (H x (or_introl eq_refl)). ring.
Qed.
Lemma sum_scaled2 l l' : Forall2 (fun x y => (y == c * x)%Q) l l' -> (sumQ l' == c * sumQ l)%Q.
Proof. induction 1 as [|x y l l' H _ IH]; [rewrite !sumQ_nil; ring|]. rewrite !sumQ_cons, IH, H. ring. Qed.
Lemma pairs_in {A} (l : list A) x y : In (x, y) (pairs l) -> In x l /\ In y l.
Proof.
  induction l as [|z l IH]; cbn; [tauto|]. intros H. apply in_app_or in H. destruct H as [H|H]; [|apply IH in H; tauto].
  apply in_map_iff in H. destruct H as [w [[= <- <-] H]]. auto.
Qed.

Lemma pairwise_scaled n d d' attr attr' : distances_scaled c n d d' attr attr' -> scaled c n (pairwise d) (pairwise d') attr attr'.
Proof.
  intros Hd idx labels _ Hi Hl.
  assert (Hdd : forall a b, a < length idx -> b < length idx ->
    (d' (row (map (fun i => nth i attr' []) idx) a) (row (map (fun i => nth i attr' []) idx) b) ==
     c * d (row (map (fun i => nth i attr []) idx) a) (row (map (fun i => nth i attr []) idx) b))%Q).
  { intros a b Ha Hb. rewrite !row_sel by auto. apply Hd; apply Hi, nth_In; auto. }
  assert (Hw : forall r a, In a (where_eq labels r) -> a < length idx).
  { intros r a Ha. apply where_eq_In in Ha. rewrite <- Hl. apply nth_error_Some. congruence. }
  split.
  - cbn. apply sum_scaled. intros r _. apply sum_scaled. intros [a b] Hab. apply pairs_in in Hab. cbn. apply Hdd; apply (Hw r); tauto.
  - intros a r Ha. cbn. unfold pairwise_update, metric_to_point, rows_of.
    assert (Hs : forall z, (sumQ (map (fun x => d' x (row (map (fun i => nth i attr' []) idx) a)) (map (row (map (fun i => nth i attr' []) idx)) (where_eq labels z))) ==
      c * sumQ (map (fun x => d x (row (map (fun i => nth i attr []) idx) a)) (map (row (map (fun i => nth i attr []) idx)) (where_eq labels z))))%Q).
    { intros z. rewrite !map_map. apply sum_scaled. intros b Hb. apply Hdd; [apply (Hw z); auto|]. lia. }
    pose proof (Hs (lab labels a)) as S1. pose proof (Hs r) as S2.
    destruct (where_eq labels (lab labels a)) as [|x1 l1]; [reflexivity|]. destruct (where_eq labels r) as [|x2 l2]; [reflexivity|].
    cbn [map bind] in *. cbn [multiple]. rewrite S1, S2. ring.
Qed.

Section Centered.
Variables (n : nat) (d d' : list Q -> list Q -> Q) (center center' : list (list Q) -> list Q) (red : list Q -> Q) (attr attr' : list (list Q)).
Hypothesis Hcs : centers_scaled c n d d' center center' attr attr'.
Hypothesis Hred : homogeneous red.
Variable idx : list nat.
Hypothesis Hi : forall i, In i idx -> i < n.

Lemma heterogeneity_scaled labels r : length labels = length idx ->
  multiple c (heterogeneity_of d center red labels r (map (fun i => nth i attr []) idx)) (heterogeneity_of d' center' red labels r (map (fun i => nth i attr' []) idx)).
Proof.
  intros Hl. unfold heterogeneity_of. rewrite !rows_of_sel by auto. pose proof (sel_in labels r idx n Hl Hi) as Hn.
  set (sel := map (fun a => nth a idx 0) (where_eq labels r)) in *.
  assert (H : Forall2 (fun x y => (y == c * x)%Q)
    (map (fun x => d x (center (map (fun i => nth i attr []) sel))) (map (fun i => nth i attr []) sel))
    (map (fun x => d' x (center' (map (fun i => nth i attr' []) sel))) (map (fun i => nth i attr' []) sel))).
  { rewrite !map_map. assert (K : forall l, (forall i, In i l -> In i sel) -> Forall2 (fun x y => (y == c * x)%Q)
      (map (fun i => d (nth i attr []) (center (map (fun i => nth i attr []) sel))) l)
      (map (fun i => d' (nth i attr' []) (center' (map (fun i => nth i attr' []) sel))) l)).
    { induction l as [|i l IH]; intros Hs; cbn; [constructor|]. constructor; [apply Hcs; auto; apply Hs; left; auto|]. apply IH. intros j Hj. apply Hs. right; auto. }
    apply K. auto. }
  destruct sel as [|i sel]; [reflexivity|]. cbn [map metric_to_point bind multiple] in *. apply Hred; auto.
Qed.
Lemma mapM_scaled labels rs : length labels = length idx ->
  rel (Forall2 (fun x y => (y == c * x)%Q)) (mapM (fun r => heterogeneity_of d center red labels r (map (fun i => nth i attr []) idx)) rs)
    (mapM (fun r => heterogeneity_of d' center' red labels r (map (fun i => nth i attr' []) idx)) rs).
Proof.
  intros Hl. induction rs as [|r rs IH]; cbn [mapM]; [constructor|].
  eapply rel_bind; [apply (heterogeneity_scaled labels r Hl)|]. intros x y _ _ Hxy. eapply rel_bind; [apply IH|]. intros l l' _ _ H. constructor; auto.
Qed.
Lemma centered_scaled_at labels : length labels = length idx ->
  multiple c (o_call (centered d center red) labels (map (fun i => nth i attr []) idx)) (o_call (centered d' center' red) labels (map (fun i => nth i attr' []) idx)) /\
  forall a r, a < length labels ->
    multiple c (o_update (centered d center red) a r labels (map (fun i => nth i attr []) idx)) (o_update (centered d' center' red) a r labels (map (fun i => nth i attr' []) idx)).
Proof.
  intros Hl. split.
  - cbn [o_call centered]. unfold center_call. apply (rel_bind (Forall2 (fun x y => (y == c * x)%Q)) (fun x y => (y == c * x)%Q)); [apply mapM_scaled; auto|].
    intros l l' _ _ H. cbn. apply Hred; auto.
  - intros a r Ha. cbn [o_update centered]. unfold center_update.
    apply (rel_bind (fun x y => (fst y == c * fst x)%Q) (fun x y => (y == c * x)%Q)); [|intros [q l] [q' l'] _ _ H; exact H].
    unfold center_update_st. cbv zeta.
    eapply rel_bind; [apply (heterogeneity_scaled labels _ Hl)|]. intros x1 y1 _ _ H1.
    eapply rel_bind; [apply (heterogeneity_scaled labels _ Hl)|]. intros x2 y2 _ _ H2.
    assert (Hl' : length (upd labels a r) = length idx) by (rewrite upd_length; auto).
    eapply rel_bind; [apply (heterogeneity_scaled _ _ Hl')|]. intros x3 y3 _ _ H3.
    eapply rel_bind; [apply (heterogeneity_scaled _ _ Hl')|]. intros x4 y4 _ _ H4. cbn [rel fst].
    rewrite (Hred c [x3; x4] [y3; y4] Hc), (Hred c [x1; x2] [y1; y2] Hc) by (repeat (constructor; auto)). ring.
Qed.
End Centered.
Lemma centered_scaled n d d' center center' red attr attr' : centers_scaled c n d d' center center' attr attr' -> homogeneous red ->
  scaled c n (centered d center red) (centered d' center' red) attr attr'.
Proof. intros H1 H2 idx labels _ Hi Hl. apply (centered_scaled_at n d d' center center' red attr attr' H1 H2 idx Hi labels Hl). Qed.

(** ** another unit and origin for every attribute *)
Lemma other_scale_manhattan x : forall b x' y y', other_scale c b x x' -> other_scale c b y y' -> (manhattan x' y' == c * manhattan x y)%Q.
Proof.
  induction x as [|a x IH]; intros b [|a' x'] [|a1 y] [|a1' y'] Hx Hy; cbn [other_scale manhattan] in Hx, Hy |- *; try contradiction; try ring.
  destruct Hx as [E1 H1], Hy as [E2 H2]. rewrite (IH _ x' y y' H1 H2).
  assert (E : (Qabs.Qabs (a' - a1') == c * Qabs.Qabs (a - a1))%Q).
  { assert (E0 : (a' - a1' == c * (a - a1))%Q) by (rewrite E1, E2; ring). rewrite E0, Qabs.Qabs_Qmult, (Qabs.Qabs_pos c) by lra. reflexivity. }
  rewrite E. ring.
Qed.
Lemma other_scale_add x : forall b b1 x' y y', length x = length y -> other_scale c b x x' -> other_scale c b1 y y' ->
  other_scale c (fun k => (b k + b1 k)%Q) (add_rows x y) (add_rows x' y').
Proof.
  induction x as [|a x IH]; intros b b1 [|a' x'] [|a1 y] [|a1' y'] Hl Hx Hy; cbn in Hx, Hy, Hl |- *; try contradiction; try discriminate; auto.
  destruct Hx as [E1 H1], Hy as [E2 H2]. split; [rewrite E1, E2; ring|]. apply (IH (fun k => b (S k)) (fun k => b1 (S k))); auto.
Qed.
Lemma other_scale_ext b b1 : (forall k, (b k == b1 k)%Q) -> forall x x', other_scale c b x x' -> other_scale c b1 x x'.
Proof.
  intros H x. revert b b1 H. induction x as [|a x IH]; intros b b1 H [|a' x'] Hx; cbn in Hx |- *; auto. destruct Hx as [E1 H1].
  split; [rewrite <- H; auto|]. eapply IH; [|exact H1]. intros k. apply H.
Qed.
Lemma other_scale_sum b (f f' : nat -> list Q) w : forall l, l <> [] -> (forall i, In i l -> length (f i) = w /\ other_scale c b (f i) (f' i)) ->
  length (fold_right add_rows [] (map f l)) = w /\
  other_scale c (fun k => (inject_Z (Z.of_nat (length l)) * b k)%Q) (fold_right add_rows [] (map f l)) (fold_right add_rows [] (map f' l)).
Proof.
  assert (Hnil : forall x, add_rows x [] = x) by (destruct x; auto).
  induction l as [|i l IH]; intros Hne H; [congruence|]. destruct (H i (or_introl eq_refl)) as [Hw Ho]. destruct l as [|j l].
  - cbn [map fold_right length]. rewrite !Hnil. split; [auto|]. eapply other_scale_ext; [|exact Ho]. intros k. cbn. ring.
  - destruct IH as [Hw' Ho']; [discriminate|intros; apply H; right; auto|]. remember (j :: l) as t. cbn [map fold_right]. split.
    + rewrite P_Strategy.add_rows_length. lia.
    + eapply other_scale_ext; [|apply (other_scale_add _ b _ _ _ _ (eq_trans Hw (eq_sym Hw')) Ho Ho')]. intros k. cbn [length].
      rewrite Nat2Z.inj_succ. unfold Z.succ. rewrite inject_Z_plus. ring.
Qed.
Lemma other_scale_div b m : ~ (m == 0)%Q -> forall x x', other_scale c (fun k => (m * b k)%Q) x x' -> other_scale c b (map (fun s => (s / m)%Q) x) (map (fun s => (s / m)%Q) x').
Proof.
  intros Hm x. revert b. induction x as [|a x IH]; intros b [|a' x'] Hx; cbn in Hx |- *; auto. destruct Hx as [E1 H1].
  split; [rewrite E1; field; auto|]. apply (IH (fun k => b (S k))); auto.
Qed.
Lemma other_scale_mean b (f f' : nat -> list Q) w l : l <> [] -> (forall i, In i l -> length (f i) = w /\ other_scale c b (f i) (f' i)) ->
  other_scale c b (mean_row (map f l)) (mean_row (map f' l)).
Proof.
  intros Hne H. unfold mean_row. rewrite !map_length. apply other_scale_div; [|apply (other_scale_sum b f f' w l); auto].
  destruct l; [congruence|]. intros E. unfold Qeq in E. cbn in E. lia.
Qed.
End Inst.

Lemma homogeneous_sum : homogeneous sumQ.
Proof. intros c l l' _ H. apply sum_scaled2; auto. Qed.
Lemma homogeneous_max : homogeneous maxQ.
Proof.
  intros c l l' Hc H. destruct H as [|x y l l' Hx H]; [cbn; ring|]. cbn [maxQ]. revert x y Hx. induction H as [|x1 y1 l l' H1 H IH]; intros x y Hx; [exact Hx|].
  cbn [fold_left]. rewrite <- (scale_ltb c Hc x y x1 y1 Hx H1). destruct (Qltb x x1); apply IH; auto.
Qed.
Lemma other_scale_distances c b n attr attr' : (0 < c)%Q -> (forall i, i < n -> other_scale c b (nth i attr []) (nth i attr' [])) ->
  distances_scaled c n manhattan manhattan attr attr'.
Proof. intros Hc H i j Hi Hj. apply (other_scale_manhattan c Hc _ b); auto. Qed.
Lemma other_scale_centers c b n w attr attr' : (0 < c)%Q -> (forall i, i < n -> length (nth i attr []) = w /\ other_scale c b (nth i attr []) (nth i attr' [])) ->
  centers_scaled c n manhattan manhattan mean_row mean_row attr attr'.
Proof.
  intros Hc H idx i Hi Hin. apply (other_scale_manhattan c Hc _ b); [apply H; auto|]. apply (other_scale_mean c b _ _ w); [|auto].
  intros ->. destruct Hin.
Qed.
