(** Proofs about the allow-move strategies. *)
From Verif Require Import Base Spec M_Graph P_Graph M_Util P_Base P_Util M_Objective P_Sum P_Objective M_Azp P_Azp.
Local Open Scope Q_scope.

(** the object's objective value is the objective of [labels] *)
Definition tracks (O : objfun) (attr : list (list Q)) (c : common) (labels : list Z) : Prop :=
  c_obj c = O /\ c_attr c = attr /\ exists v, o_call O labels attr = Ok v /\ c_val c == v.

Lemma start_common_tracks O attr labels c : start_common labels attr O = Ok c -> tracks O attr c labels.
Proof. unfold start_common. intros H. apply bind_Ok in H. destruct H as [v [E H]]. injection H as <-. repeat split; cbn. exists v. split; [auto|reflexivity]. Qed.

(** adding the reported difference keeps track of the objective *)
Lemma tracks_move O attr c labels a r q : exact_objective O attr -> length labels = length attr ->
  (a < length labels)%nat -> tracks O attr c labels -> o_update O a r labels attr = Ok q ->
  tracks O attr (mkCommon attr O (c_val c + q)) (upd labels a r) /\
  exists v v', o_call O labels attr = Ok v /\ o_call O (upd labels a r) attr = Ok v' /\ c_val c == v /\ q == v' - v.
Proof.
  intros [_ [_ Hex]] Hlen Ha [Ho [Hat [v [Ev Hv]]]] Hq.
  destruct (Hex a r labels q Hlen Ha Hq) as [v0 [v' [Ev0 [Ev' Hd]]]]. rewrite Ev in Ev0. injection Ev0 as <-.
  split; [|exists v, v'; auto].
  split; [reflexivity|]. split; [reflexivity|]. exists v'. split; [auto|]. cbn. rewrite Hv, Hd. ring.
Qed.

Lemma azp_call_post O attr c labels a r : exact_objective O attr -> length labels = length attr ->
  (a < length labels)%nat -> tracks O attr c labels ->
  forall b c', azp_call c a r labels = Ok (b, c') ->
  exists v v', o_call O labels attr = Ok v /\ o_call O (upd labels a r) attr = Ok v' /\
    (b = true <-> v' <= v) /\
    (if b then tracks O attr c' (upd labels a r) else c' = c).
Proof.
  intros Hex Hlen Ha Ht b c' H. unfold azp_call in H. apply bind_Ok in H. destruct H as [q [Eq H]].
  destruct Ht as [Ho [Hat Ht]]. rewrite Ho, Hat in *.
  destruct (tracks_move O attr c labels a r q Hex Hlen Ha (conj Ho (conj Hat Ht)) Eq) as [Htm [v [v' [Ev [Ev' [Hcv Hd]]]]]].
  exists v, v'. split; [auto|]. split; [auto|].
  destruct (Qle_bool q 0) eqn:Ele; injection H as <- <-.
  - apply Qle_bool_iff in Ele. split; [|exact Htm]. split; [intros _; lra|auto].
  - split; [|reflexivity]. split; [discriminate|]. intros Hle. exfalso.
    apply Qle_bool_false in Ele. lra.
Qed.

Lemma sa_call_post expf O attr c t sa term reached moved labels a r rg : exact_objective O attr ->
  length labels = length attr -> (a < length labels)%nat -> tracks O attr c labels ->
  forall b s' rg', sa_call expf c t sa term reached moved a r labels rg = Ok (b, s', rg') ->
  exists v v', o_call O labels attr = Ok v /\ o_call O (upd labels a r) attr = Ok v' /\
    (v' <= v -> b = true /\ rg' = rg /\ exists c', s' = SSa c' t sa term reached true /\ tracks O attr c' (upd labels a r)) /\
    (v < v' -> exists q, q == v' - v /\ rg' = rnext rg /\
       (b = true <-> fst (random_random rg) < sa_prob expf q t) /\
       if b then exists c', s' = SSa c' t (S sa) term (reached || Nat.leb term (S sa)) true /\ tracks O attr c' (upd labels a r)
       else s' = SSa c t sa term reached moved).
Proof.
  intros Hex Hlen Ha Ht b s' rg' H. unfold sa_call in H. apply bind_Ok in H. destruct H as [q [Eq H]].
  destruct Ht as [Ho [Hat Ht]]. rewrite Ho, Hat in *.
  destruct (tracks_move O attr c labels a r q Hex Hlen Ha (conj Ho (conj Hat Ht)) Eq) as [Htm [v [v' [Ev [Ev' [Hcv Hd]]]]]].
  exists v, v'. split; [auto|]. split; [auto|].
  destruct (Qle_bool q 0) eqn:Ele.
  - apply Qle_bool_iff in Ele. injection H as <- <- <-. split; [|intros; lra].
    intros _. split; [auto|]. split; [auto|]. eexists. split; [reflexivity|exact Htm].
  - apply Qle_bool_false in Ele. split; [intros; lra|]. intros _. exists q. split; [auto|].
    unfold random_random in *. cbn [fst] in *.
    destruct (Qltb _ _) eqn:Elt in H; injection H as <- <- <-; (split; [reflexivity|]).
    + split; [|eexists; split; [reflexivity|exact Htm]]. apply Qltb_lt in Elt. tauto.
    + split; [|reflexivity]. apply Qltb_ge in Elt. split; [discriminate|intros; lra].
Qed.

(** ** rows *)
Lemma nth_add_rows x : forall y k, nth k (add_rows x y) 0 == nth k x 0 + nth k y 0.
Proof.
  induction x as [|a x IH]; intros y k.
  - cbn [add_rows]. destruct k; cbn [nth]; ring.
  - destruct y as [|b y]; cbn [add_rows].
    + destruct k; cbn [nth]; ring.
    + destruct k; cbn [nth]; [reflexivity|apply IH].
Qed.

Lemma nth_sum_rows rows k : nth k (sum_rows rows) 0 == sumQ (map (fun x => nth k x 0) rows).
Proof.
  unfold sum_rows. induction rows as [|x rows IH]; cbn [fold_right map].
  - destruct k; reflexivity.
  - rewrite nth_add_rows, IH, sumQ_cons. reflexivity.
Qed.

Lemma add_rows_length x : forall y, length (add_rows x y) = Nat.max (length x) (length y).
Proof. induction x as [|a x IH]; intros [|b y]; cbn; auto. Qed.

Lemma sum_rows_length rows m : rows <> [] -> (forall x, In x rows -> length x = m) -> length (sum_rows rows) = m.
Proof.
  intros Hne H. unfold sum_rows. induction rows as [|x rows IH]; [congruence|]. cbn [fold_right].
  rewrite add_rows_length. rewrite (H x) by (left; auto). destruct rows as [|y rows].
  - cbn. lia.
  - rewrite IH; [lia|discriminate|]. intros z Hz. apply H. right; auto.
Qed.

Lemma sub_rows_length x y : length (sub_rows x y) = Nat.min (length x) (length y).
Proof. unfold sub_rows. rewrite map_length, combine_length. auto. Qed.

Lemma nth_sub_rows x : forall y k, length x = length y -> nth k (sub_rows x y) 0 == nth k x 0 - nth k y 0.
Proof.
  unfold sub_rows. induction x as [|a x IH]; intros [|b y] k H; cbn in H; try lia.
  - destruct k; cbn; reflexivity.
  - destruct k; cbn; [reflexivity|apply IH; lia].
Qed.

Lemma compared_same_length x thr : length x = length thr -> compared x thr = combine x thr.
Proof. destruct x as [|v [|v2 x]], thr as [|t [|t2 thr]]; cbn; intros H; auto; lia. Qed.
Lemma reaches_spec x : forall thr, length x = length thr ->
  (reaches x thr = true <-> forall k t, nth_error thr k = Some t -> t <= nth k x 0).
Proof.
  unfold reaches. intros thr0 H0. rewrite compared_same_length by auto. revert thr0 H0.
  induction x as [|a x IH]; intros [|t thr] H; cbn in H; try lia.
  - cbn. split; [|auto]. intros _ k t Hk. destruct k; discriminate.
  - cbn [combine forallb fst snd]. rewrite andb_true_iff, Qle_bool_iff, IH by lia. split.
    + intros [H1 H2] [|k] t' Hk; cbn in *; [injection Hk as <-; auto|apply H2; auto].
    + intros Hall. split; [apply (Hall 0%nat); reflexivity|]. intros k t' Hk. apply (Hall (S k)). auto.
Qed.

Lemma total_rows sp labels r k : total sp labels r k == sumQ (map (fun x => nth k x 0) (rows_of labels r sp)).
Proof.
  unfold total, rows_of. rewrite map_map. unfold where_eq. rewrite sumQ_filter. reflexivity.
Qed.

Lemma total_upd sp labels a r s k : (a < length labels)%nat ->
  total sp (upd labels a r) s k ==
  total sp labels s k - (if Z.eqb (lab labels a) s then nth k (nth a sp []) 0 else 0)
                      + (if Z.eqb r s then nth k (nth a sp []) 0 else 0).
Proof.
  intros Ha. unfold total. rewrite upd_length.
  rewrite (sumQ_map_perm _ _ _ (seq_perm_take _ a Ha)).
  rewrite (sumQ_map_perm (fun a0 => if Z.eqb (lab labels a0) s then nth k (nth a0 sp []) 0 else 0) _ _ (seq_perm_take _ a Ha)).
  cbn [map]. rewrite !sumQ_cons. rewrite lab_upd_eq by auto.
  rewrite (sumQ_ext (fun a0 => if Z.eqb (lab (upd labels a r) a0) s then nth k (nth a0 sp []) 0 else 0)
                    (fun a0 => if Z.eqb (lab labels a0) s then nth k (nth a0 sp []) 0 else 0)).
  - ring.
  - intros b Hb. apply others_In in Hb. rewrite lab_upd_ne by tauto. reflexivity.
Qed.

Lemma any_nonzero_false x : any_nonzero x = false -> forall k, nth k x 0 == 0.
Proof.
  unfold any_nonzero. induction x as [|a x IH]; intros H k; [destruct k; reflexivity|].
  cbn [existsb] in H. apply orb_false_iff in H. destruct H as [H1 H2].
  destruct k; cbn [nth]; [|apply IH; auto]. apply negb_false_iff in H1. apply Qeq_bool_iff; auto.
Qed.

(** the guard of the wrapper protects the donor region, whatever the signs *)
Lemma donor_ok_spec sp thr labels a : shaped sp thr (length labels) -> (a < length labels)%nat ->
  donor_ok sp thr a labels = true ->
  any_nonzero (row sp a) = false \/
  forall k t, nth_error thr k = Some t -> t <= total sp labels (lab labels a) k - nth k (nth a sp []) 0.
Proof.
  intros [Hl Hsh] Ha H. unfold donor_ok in H. destruct (any_nonzero (row sp a)) eqn:E; [|auto]. right.
  assert (Hrow : length (row sp a) = length thr) by (apply Hsh; apply nth_In; lia).
  assert (Hsum : length (sum_rows (rows_of labels (lab labels a) sp)) = length thr).
  { apply sum_rows_length.
    - apply rows_of_nonempty, nth_In. auto.
    - intros x Hx. unfold rows_of in Hx. apply in_map_iff in Hx. destruct Hx as [b [<- Hb]].
      apply where_eq_In in Hb. apply nth_error_lt in Hb. apply Hsh. apply nth_In. lia. }
  rewrite reaches_spec in H by (rewrite sub_rows_length; lia).
  intros k t Hk. specialize (H k t Hk). rewrite nth_sub_rows in H by lia.
  rewrite nth_sum_rows, <- total_rows in H. exact H.
Qed.

Lemma donor_ok_region sp thr labels a r : shaped sp thr (length labels) -> (a < length labels)%nat ->
  donor_ok sp thr a labels = true -> lab labels a <> r -> meets sp thr labels (lab labels a) ->
  meets sp thr (upd labels a r) (lab labels a).
Proof.
  intros Hsh Ha Hd Hne Hm k t Hk. rewrite total_upd by auto. rewrite Z.eqb_refl.
  destruct (Z.eqb_spec r (lab labels a)); [congruence|].
  destruct (donor_ok_spec sp thr labels a Hsh Ha Hd) as [H|H].
  - pose proof (any_nonzero_false _ H k) as H0. unfold row in H0. rewrite H0. specialize (Hm k t Hk). lra.
  - specialize (H k t Hk). lra.
Qed.

(** the guard refuses nothing that would leave the donor region at the threshold *)
Lemma donor_ok_complete sp thr labels a r : shaped sp thr (length labels) -> (a < length labels)%nat ->
  lab labels a <> r -> meets sp thr (upd labels a r) (lab labels a) -> donor_ok sp thr a labels = true.
Proof.
  intros [Hl Hsh] Ha Hne Hm. unfold donor_ok. destruct (any_nonzero (row sp a)); [|auto].
  assert (Hrow : length (row sp a) = length thr) by (apply Hsh; apply nth_In; lia).
  assert (Hsum : length (sum_rows (rows_of labels (lab labels a) sp)) = length thr).
  { apply sum_rows_length.
    - apply rows_of_nonempty, nth_In. auto.
    - intros x Hx. unfold rows_of in Hx. apply in_map_iff in Hx. destruct Hx as [b [<- Hb]].
      apply where_eq_In in Hb. apply nth_error_lt in Hb. apply Hsh. apply nth_In. lia. }
  apply reaches_spec; [rewrite sub_rows_length; lia|].
  intros k t Hk. specialize (Hm k t Hk). rewrite nth_sub_rows by lia. rewrite nth_sum_rows, <- total_rows.
  rewrite total_upd in Hm by auto. rewrite Z.eqb_refl in Hm.
  destruct (Z.eqb_spec r (lab labels a)); [congruence|]. unfold row. lra.
Qed.
