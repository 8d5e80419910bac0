(** The order model: assignments of (region, order) to areas. *)
From Verif Require Import Base Spec M_Graph M_Util M_Objective M_MaxP M_Exact P_Base P_Graph P_Sum P_Objective P_Mip P_Mip2.
Local Open Scope Z_scope.

Definition b01 (b : bool) : Z := if b then 1 else 0.
Definition hot (c o : nat -> nat) (i k q : nat) : Z := b01 (Nat.eqb (c i) k && Nat.eqb (o i) q).

Lemma hot_01 c o i k q : 0 <= hot c o i k q <= 1.
Proof. unfold hot, b01. destruct (_ && _); lia. Qed.

Lemma sum_ko_hot c o i np no : (c i < np)%nat -> (o i < no)%nat -> sum_ko (seq 0 np) (seq 0 no) (hot c o i) = 1.
Proof.
  intros Hc Ho. unfold sum_ko. rewrite sumZ_flat, (sumZ_point _ _ (c i)).
  - rewrite (sumZ_point _ _ (o i)).
    + unfold hot. rewrite !Nat.eqb_refl. reflexivity.
    + apply seq_NoDup.
    + apply in_seq. lia.
    + intros q _ Hq. unfold hot. destruct (Nat.eqb_spec (o i) q); [congruence|]. rewrite andb_false_r. reflexivity.
  - apply seq_NoDup.
  - apply in_seq. lia.
  - intros k _ Hk. apply sumZ_zero. intros q _. unfold hot. destruct (Nat.eqb_spec (c i) k); [congruence|]. reflexivity.
Qed.

Lemma sum_hot_o c o i k no : (o i < no)%nat -> sumZ (map (fun q => hot c o i k q) (seq 0 no)) = b01 (Nat.eqb (c i) k).
Proof.
  intros Ho. rewrite (sumZ_point _ _ (o i)).
  - unfold hot. rewrite Nat.eqb_refl, andb_true_r. reflexivity.
  - apply seq_NoDup.
  - apply in_seq. lia.
  - intros q _ Hq. unfold hot. destruct (Nat.eqb_spec (o i) q); [congruence|]. rewrite andb_false_r. reflexivity.
Qed.

Section Sound.
Variable g : graph.
Variables np no : nat.
Variable x : nat -> nat -> nat -> Z.
Hypothesis H01 : forall i k o, (i < gn g)%nat -> (k < np)%nat -> (o < no)%nat -> 0 <= x i k o <= 1.
Hypothesis Hone : forall i, (i < gn g)%nat -> sum_ko (seq 0 np) (seq 0 no) (x i) = 1.

Lemma order_hot : exists c o, forall i, (i < gn g)%nat -> (c i < np)%nat /\ (o i < no)%nat /\
  forall k q, (k < np)%nat -> (q < no)%nat -> x i k q = hot c o i k q.
Proof.
  destruct (finite_choice (0%nat, 0%nat) (fun i co => (fst co < np)%nat /\ (snd co < no)%nat /\
     forall k q, (k < np)%nat -> (q < no)%nat -> x i k q = b01 (Nat.eqb (fst co) k && Nat.eqb (snd co) q)) (gn g)) as [f Hf].
  - intros i Hi. specialize (Hone i Hi). unfold sum_ko in Hone. rewrite sumZ_flat in Hone.
    assert (Hn : forall k, (k < np)%nat -> 0 <= sumZ (map (fun q => x i k q) (seq 0 no))).
    { intros k Hk. apply sumZ_nonneg. intros q Hq. apply in_seq in Hq. apply H01; auto. lia. }
    assert (Hb : forall k, In k (seq 0 np) -> 0 <= sumZ (map (fun q => x i k q) (seq 0 no)) <= 1).
    { intros k Hk. split; [apply Hn; apply in_seq in Hk; lia|]. rewrite <- Hone.
      apply (sumZ_member (fun k => sumZ (map (fun q => x i k q) (seq 0 no)))); [|exact Hk].
      intros k' Hk'. apply Hn. apply in_seq in Hk'. lia. }
    destruct (one_hot _ _ (seq_NoDup _ _) Hb Hone) as [k0 [Hk0 [E0 Ho0]]]. apply in_seq in Hk0.
    assert (Hb2 : forall q, In q (seq 0 no) -> 0 <= x i k0 q <= 1) by (intros q Hq; apply in_seq in Hq; apply H01; auto; lia).
    destruct (one_hot _ _ (seq_NoDup _ _) Hb2 E0) as [q0 [Hq0 [E1 Ho1]]]. apply in_seq in Hq0.
    exists (k0, q0). cbn [fst snd]. split; [lia|]. split; [lia|]. intros k q Hk Hq.
    destruct (Nat.eqb_spec k0 k) as [<-|Hnk]; cbn [andb b01].
    + destruct (Nat.eqb_spec q0 q) as [<-|Hnq]; cbn [b01]; [exact E1|]. apply Ho1; [apply in_seq; lia|congruence].
    + assert (Hz : sumZ (map (fun q => x i k q) (seq 0 no)) = 0) by (apply Ho0; [apply in_seq; lia|congruence]).
      assert (x i k q <= 0); [|pose proof (H01 i k q Hi Hk Hq); lia]. rewrite <- Hz.
      apply (sumZ_member (fun q => x i k q)); [|apply in_seq; lia]. intros q' Hq'. apply in_seq in Hq'. apply H01; auto; lia.
  - exists (fun i => fst (f i)), (fun i => snd (f i)). intros i Hi. destruct (Hf i Hi) as [A [B C]]. split; [auto|]. split; [auto|].
    intros k q Hk Hq. rewrite C by auto. reflexivity.
Qed.

Variables c o : nat -> nat.
Hypothesis Hco : forall i, (i < gn g)%nat -> (c i < np)%nat /\ (o i < no)%nat /\
  forall k q, (k < np)%nat -> (q < no)%nat -> x i k q = hot c o i k q.

Lemma order_roots k : (k < np)%nat -> (0 < no)%nat ->
  sumZ (map (fun i => x i k 0%nat) (seq 0 (gn g))) = Z.of_nat (length (filter (fun i => cls c k i && Nat.eqb (o i) 0) (seq 0 (gn g)))).
Proof.
  intros Hk Hno. rewrite <- sumZ_ones. apply sumZ_ext. intros i Hi. apply in_seq in Hi.
  rewrite (proj2 (proj2 (Hco i (proj2 Hi)))) by auto. reflexivity.
Qed.

Hypothesis Hroot : forall k, (k < np)%nat -> sumZ (map (fun i => x i k 0%nat) (seq 0 (gn g))) <= 1.
Hypothesis Hord : forall i k q, (i < gn g)%nat -> (k < np)%nat -> (1 <= q < no)%nat ->
     x i k q <= sumZ (map (fun j => x j k (q - 1)%nat) (neighbors g i)).

Lemma order_down i q : (i < gn g)%nat -> o i = Datatypes.S q -> exists j, (j < gn g)%nat /\ gadj g i j = true /\ c j = c i /\ o j = q.
Proof.
  intros Hi Ho. destruct (Hco i Hi) as [Hc [Hno Hx]]. assert (Hq : (1 <= Datatypes.S q < no)%nat) by lia.
  pose proof (Hord i (c i) (Datatypes.S q) Hi Hc Hq) as H. rewrite Hx in H by lia. unfold hot in H.
  rewrite Nat.eqb_refl, Ho, Nat.eqb_refl in H. cbn [andb b01] in H. replace (Datatypes.S q - 1)%nat with q in H by lia.
  destruct (sumZ_pos (fun j => x j (c i) q) (neighbors g i)) as [j [Hj Hp]]; [lia|].
  apply neighbors_In in Hj. destruct Hj as [Hj Ha]. rewrite (proj2 (proj2 (Hco j Hj))) in Hp by lia. unfold hot, b01 in Hp.
  destruct (Nat.eqb_spec (c j) (c i)) as [E1|]; cbn [andb] in Hp; [|lia]. destruct (Nat.eqb_spec (o j) q) as [E2|]; [|lia].
  exists j. auto.
Qed.

Lemma order_to_root i : (i < gn g)%nat -> exists s, linked g (inside g (cls c (c i))) i s /\ o s = 0%nat.
Proof.
  remember (o i) as q eqn:E. revert i E. induction q as [|q IH]; intros i E Hi.
  - exists i. split; [|auto]. apply linked_refl. split; [auto|]. apply Nat.eqb_refl.
  - destruct (order_down i q Hi (eq_sym E)) as [j [Hj [Ha [Ec Eo]]]].
    destruct (IH j (eq_sym Eo) Hj) as [s [Hs Hs0]]. rewrite Ec in Hs. exists s. split; [|auto].
    apply linked_step with j; [split; [auto|apply Nat.eqb_refl]|left; auto|auto].
Qed.

Lemma order_root_unique k s s' : (k < np)%nat -> (0 < no)%nat -> inside g (cls c k) s -> inside g (cls c k) s' ->
  o s = 0%nat -> o s' = 0%nat -> s = s'.
Proof.
  intros Hk Hno [Hs1 Hs2] [Ht1 Ht2] Os Ot. destruct (Nat.eq_dec s s') as [E|Hne]; [exact E|]. exfalso.
  specialize (Hroot k Hk). rewrite order_roots in Hroot by auto.
  assert (Hi : incl [s; s'] (filter (fun i => cls c k i && Nat.eqb (o i) 0) (seq 0 (gn g)))).
  { intros z [<-|[<-|[]]]; apply filter_In; (split; [apply in_seq; lia|]); apply andb_true_iff; (split; [auto|apply Nat.eqb_eq; auto]). }
  apply NoDup_incl_length in Hi; [cbn [length] in Hi; lia|].
  constructor; [intros [H|[]]; congruence|]. constructor; [intros []|constructor].
Qed.

Lemma order_contig k : (exists a, inside g (cls c k) a) -> contiguous g (inside g (cls c k)).
Proof.
  intros [a Ha]. pose proof Ha as [Ha1 Ha2]. apply Nat.eqb_eq in Ha2. subst k.
  destruct (order_to_root a Ha1) as [s [Hs Os]]. apply (contiguous_root g _ s); [exact (linked_in_r _ _ _ _ Hs)|].
  intros v Hv. pose proof Hv as [Hv1 Hv2]. apply Nat.eqb_eq in Hv2. destruct (order_to_root v Hv1) as [s' [Hs' Os']]. rewrite Hv2 in Hs'.
  destruct (Hco a Ha1) as [Hk [Hno _]].
  assert (E : s = s').
  { apply (order_root_unique (c a)); auto; [lia|exact (linked_in_r _ _ _ _ Hs)|exact (linked_in_r _ _ _ _ Hs')]. }
  subst s'. apply linked_sym. exact Hs'.
Qed.

Lemma order_has_root k : (k < np)%nat -> (exists a, inside g (cls c k) a) ->
  sumZ (map (fun i => x i k 0%nat) (seq 0 (gn g))) = 1.
Proof.
  intros Hk [a Ha]. pose proof Ha as [Ha1 Ha2]. apply Nat.eqb_eq in Ha2. subst k.
  destruct (order_to_root a Ha1) as [s [Hs Os]]. destruct (Hco a Ha1) as [_ [Hno _]].
  specialize (Hroot _ Hk). rewrite order_roots in * by (auto; lia). apply linked_in_r in Hs. destruct Hs as [Hs1 Hs2].
  assert (Hin : In s (filter (fun i => cls c (c a) i && Nat.eqb (o i) 0) (seq 0 (gn g)))).
  { apply filter_In. split; [apply in_seq; lia|]. apply andb_true_iff. split; [auto|apply Nat.eqb_eq; auto]. }
  destruct (filter _ _); [destruct Hin|]. cbn [length] in *. lia.
Qed.

Lemma order_no_root k : (k < np)%nat -> (0 < no)%nat -> ~ (exists a, inside g (cls c k) a) ->
  sumZ (map (fun i => x i k 0%nat) (seq 0 (gn g))) = 0.
Proof.
  intros Hk Hno Hn. apply sumZ_zero. intros i Hi. apply in_seq in Hi. rewrite (proj2 (proj2 (Hco i (proj2 Hi)))) by auto.
  unfold hot. destruct (Nat.eqb_spec (c i) k); [|reflexivity]. destruct Hn. exists i. split; [lia|]. apply Nat.eqb_eq; auto.
Qed.

Lemma order_decoded ans : (forall i k q, (i < gn g)%nat -> (k < np)%nat -> (q < no)%nat -> reports (ans i k q) (x i k q)) ->
  order_decode (gn g) (seq 0 np) (seq 0 no) ans = lab_of (gn g) c.
Proof.
  intros Hans. unfold order_decode, lab_of. apply map_ext_in. intros i Hi. apply in_seq in Hi. destruct Hi as [_ Hi]. cbn [Nat.add] in Hi.
  destruct (Hco i Hi) as [Hc [Ho Hx]].
  assert (Hi1 : forall k r, (k < np)%nat -> fold_left (fun r q => if is_one (ans i k q) then Z.of_nat k else r) (seq 0 no) r =
                                          if Nat.eqb (c i) k then Z.of_nat k else r).
  { intros k r Hk. destruct (Nat.eqb_spec (c i) k) as [<-|Hne].
    - apply (fold_last (fun q => is_one (ans i (c i) q)) (fun _ => Z.of_nat (c i)) _ _ (o i)); [apply in_seq; lia| |auto].
      rewrite (is_one_reports_b _ _ (Hans i (c i) (o i) Hi Hc Ho)), Hx by auto. unfold hot. rewrite !Nat.eqb_refl. reflexivity.
    - apply (fold_none (fun q => is_one (ans i k q)) (fun _ => Z.of_nat k)). intros q Hq. apply in_seq in Hq. destruct Hq as [_ Hq]. cbn [Nat.add] in Hq.
      rewrite (is_one_reports_b _ _ (Hans i k q Hi Hk Hq)), Hx by auto. unfold hot. destruct (Nat.eqb_spec (c i) k); [congruence|]. reflexivity. }
  transitivity (fold_left (fun r k => if Nat.eqb (c i) k then Z.of_nat k else r) (seq 0 np) 0).
  - assert (Hl : forall l r, (forall k, In k l -> (k < np)%nat) ->
       fold_left (fun r k => fold_left (fun r q => if is_one (ans i k q) then Z.of_nat k else r) (seq 0 no) r) l r =
       fold_left (fun r k => if Nat.eqb (c i) k then Z.of_nat k else r) l r).
    { induction l as [|k l IH]; intros r Hl; [reflexivity|]. cbn [fold_left]. rewrite (Hi1 k r (Hl k (or_introl eq_refl))). apply IH.
      intros k' Hk'. apply Hl. right; auto. }
    apply Hl. intros k Hk. apply in_seq in Hk. lia.
  - apply (fold_last (fun k => Nat.eqb (c i) k) (fun k => Z.of_nat k) _ _ (c i)).
    + apply in_seq. lia.
    + apply Nat.eqb_refl.
    + intros k _ Hk. apply Nat.eqb_eq in Hk. congruence.
Qed.

Lemma order_pair i j k : (i < gn g)%nat -> (j < gn g)%nat -> (k < np)%nat ->
  sumZ (map (fun q => x i k q + x j k q) (seq 0 no)) = b01 (Nat.eqb (c i) k) + b01 (Nat.eqb (c j) k).
Proof.
  intros Hi Hj Hk. rewrite sumZ_plus. destruct (Hco i Hi) as [_ [Ho1 Hx1]]. destruct (Hco j Hj) as [_ [Ho2 Hx2]].
  rewrite (sumZ_ext (fun q => x i k q) (fun q => hot c o i k q)), (sumZ_ext (fun q => x j k q) (fun q => hot c o j k q)).
  - rewrite !sum_hot_o by auto. reflexivity.
  - intros q Hq. apply in_seq in Hq. apply Hx2; auto. lia.
  - intros q Hq. apply in_seq in Hq. apply Hx1; auto. lia.
Qed.

Lemma order_t t : (forall i j, (i < j < gn g)%nat -> 0 <= t i j <= 1) ->
  (forall i j k, (i < j < gn g)%nat -> (k < np)%nat -> t i j >= sumZ (map (fun q => x i k q + x j k q) (seq 0 no)) - 1) ->
  forall i j, (i < j < gn g)%nat -> same01 c i j <= t i j.
Proof.
  intros Ht Hge i j Hij. unfold same01. destruct (Nat.eqb_spec (c i) (c j)) as [E|E]; [|apply Ht; auto].
  destruct (Hco i) as [Hc _]; [lia|]. specialize (Hge i j (c i) Hij Hc). rewrite order_pair in Hge by lia.
  rewrite <- E, Nat.eqb_refl in Hge. cbn [b01] in Hge. lia.
Qed.
End Sound.

(** ** completeness *)
Section Complete.
Variable g : graph.
Variables no p : nat.
Variables c dep par : nat -> nat.
Variable root : nat -> nat.
Hypothesis Hsym : symmetric g.
Hypothesis Hc : forall a, (a < gn g)%nat -> (c a < p)%nat.
Hypothesis HR : forall k, (k < p)%nat -> rooted g (cls c k) (root k) par dep.
Hypothesis Hdep : forall a, (a < gn g)%nat -> (dep a < no)%nat.

Lemma hot_root k : (k < p)%nat -> sumZ (map (fun i => hot c dep i k 0%nat) (seq 0 (gn g))) = 1.
Proof.
  intros Hk. pose proof (HR k Hk) as R. rewrite (sumZ_point _ _ (root k)).
  - pose proof (rt_in _ _ _ _ _ R) as [_ H]. unfold hot. unfold cls in H. rewrite H, (rt_s _ _ _ _ _ R). reflexivity.
  - apply seq_NoDup.
  - apply in_seq. pose proof (rt_in _ _ _ _ _ R) as [H _]. lia.
  - intros i Hi Hne. apply in_seq in Hi. unfold hot, b01. destruct (Nat.eqb_spec (c i) k) as [E|]; cbn [andb]; [|auto].
    destruct (Nat.eqb_spec (dep i) 0) as [E0|]; [|auto]. destruct Hne. apply (rt_0 _ _ _ _ _ R); [|auto]. split; [lia|apply Nat.eqb_eq; auto].
Qed.

Lemma hot_root_none k : (p <= k)%nat -> sumZ (map (fun i => hot c dep i k 0%nat) (seq 0 (gn g))) = 0.
Proof.
  intros Hk. apply sumZ_zero. intros i Hi. apply in_seq in Hi. unfold hot. destruct (Nat.eqb_spec (c i) k); [|reflexivity].
  specialize (Hc i). lia.
Qed.

Lemma touch_neighbor u v : (u < gn g)%nat -> (v < gn g)%nat -> touch g u v -> In v (neighbors g u).
Proof. intros Hu Hv Ht. apply neighbors_In. split; [auto|]. destruct Ht as [H|H]; [auto|]. rewrite Hsym; auto. Qed.

Lemma hot_order i k q : (i < gn g)%nat -> (1 <= q)%nat ->
  hot c dep i k q <= sumZ (map (fun j => hot c dep j k (q - 1)%nat) (neighbors g i)).
Proof.
  intros Hi Hq. assert (Hn : 0 <= sumZ (map (fun j => hot c dep j k (q - 1)%nat) (neighbors g i))).
  { apply sumZ_nonneg. intros j _. apply hot_01. }
  unfold hot at 1, b01. destruct (Nat.eqb_spec (c i) k) as [E|]; cbn [andb]; [|auto]. destruct (Nat.eqb_spec (dep i) q) as [E2|]; [|auto].
  subst k q. pose proof (HR (c i) (Hc i Hi)) as R.
  assert (Hin : inside g (cls c (c i)) i) by (split; [auto|apply Nat.eqb_refl]).
  assert (Hne : i <> root (c i)). { intros Ee. pose proof (rt_s _ _ _ _ _ R) as H0. rewrite <- Ee in H0. lia. }
  destruct (rt_par _ _ _ _ _ R i Hin Hne) as [[Hp1 Hp2] [Ht Hd]].
  assert (Hh : hot c dep (par i) (c i) (dep i - 1)%nat = 1).
  { unfold hot. unfold cls in Hp2. rewrite Hp2, Hd. replace (Datatypes.S (dep (par i)) - 1)%nat with (dep (par i)) by lia.
    rewrite Nat.eqb_refl. reflexivity. }
  rewrite <- Hh. apply (sumZ_member (fun j => hot c dep j (c i) (dep i - 1)%nat)); [intros j _; apply hot_01|].
  apply touch_neighbor; auto.
Qed.

Lemma hot_pair i j k : (i < gn g)%nat -> (j < gn g)%nat -> 
  same01 c i j >= sumZ (map (fun q => hot c dep i k q + hot c dep j k q) (seq 0 no)) - 1.
Proof.
  intros Hi Hj. rewrite sumZ_plus, !sum_hot_o by auto. unfold same01, b01.
  destruct (Nat.eqb_spec (c i) (c j)), (Nat.eqb_spec (c i) k), (Nat.eqb_spec (c j) k); try lia.
Qed.
End Complete.

(** ** the order model of the p-regions problem *)
Lemma order_p_pos g p a : order_ok g p a -> (0 < gn g)%nat -> (0 < p)%nat.
Proof.
  intros [_ [_ [_ [H _]]]] Hn. destruct p; [|lia]. specialize (H 0%nat Hn). cbn in H. lia.
Qed.

Theorem order_sound g p a : order_ok g p a -> exists c, partition g p c /\
  (forall ans, (forall i k o, (i < gn g)%nat -> (k < p)%nat -> (o < gn g - p)%nat -> reports (ans i k o) (or_x a i k o)) ->
     order_fit g p ans = Ok (lab_of (gn g) c)) /\
  (forall i j, (i < j < gn g)%nat -> same01 c i j <= or_t a i j) /\
  order_ok g p (mkOrder (same01 c) (or_x a)).
Proof.
  intros Ha. pose proof Ha as [Ht [H01 [Hroot [Hone [Hord Hpair]]]]].
  destruct (order_hot g p (gn g - p) (or_x a) H01 Hone) as [c [o Hco]]. exists c.
  assert (Hroot' : forall k, (k < p)%nat -> sumZ (map (fun i => or_x a i k 0%nat) (seq 0 (gn g))) <= 1).
  { intros k Hk. rewrite Hroot by auto. lia. }
  assert (Hne : forall k, (k < p)%nat -> exists i, inside g (cls c k) i).
  { intros k Hk. destruct (sumZ_pos (fun i => or_x a i k 0%nat) (seq 0 (gn g))) as [i [Hi Hx]]; [rewrite Hroot by auto; lia|].
    apply in_seq in Hi. destruct Hi as [_ Hi]. cbn [Nat.add] in Hi. exists i. split; [auto|]. destruct (Hco i Hi) as [Hc [Ho E]].
    rewrite E in Hx by (auto; lia). unfold hot, cls, b01 in *. destruct (Nat.eqb (c i) k); [auto|]. cbn [andb] in Hx. lia. }
  split.
  { split; [intros i Hi; apply Hco; auto|]. intros k Hk. apply (order_contig g p (gn g - p) (or_x a) c o Hco Hroot' Hord). auto. }
  split.
  { intros ans Hans. unfold order_fit, order_build. 
    assert (E : (Nat.eqb (gn g - p) 0 && negb (Nat.eqb p 0) && negb (Nat.eqb (gn g) 0)) = false).
    { destruct (Nat.eqb_spec (gn g) 0) as [E0|E0]; [rewrite andb_false_r; reflexivity|]. destruct (Hco 0%nat) as [_ [H _]]; [lia|].
      destruct (Nat.eqb_spec (gn g - p) 0); [lia|reflexivity]. }
    rewrite E. cbn [bind]. f_equal. apply (order_decoded g p (gn g - p) (or_x a) c o Hco ans Hans). }
  assert (Hle := order_t g p (gn g - p) (or_x a) c o Hco (or_t a) Ht Hpair).
  split; [exact Hle|]. split; [intros i j _; unfold same01; cbn; destruct (Nat.eqb _ _); lia|].
  split; [exact H01|]. split; [exact Hroot|]. split; [exact Hone|]. split; [exact Hord|].
  intros i j k Hij Hk. cbn [or_t or_x]. rewrite (order_pair g p (gn g - p) (or_x a) c o Hco i j k) by lia.
  unfold same01, b01. destruct (Nat.eqb_spec (c i) (c j)), (Nat.eqb_spec (c i) k), (Nat.eqb_spec (c j) k); lia.
Qed.

Theorem order_complete g p c : symmetric g -> partition g p c -> (2 <= gn g - p)%nat ->
  exists x, order_ok g p (mkOrder (same01 c) x) /\ forall i k o, x i k o = 1 -> c i = k.
Proof.
  intros Hsym Hp Hm. destruct (shallow_partition g p c Hp Hm) as [root [par [dep [HR Hd]]]].
  exists (hot c dep). split.
  - split; [intros i j _; cbn [or_t]; unfold same01; destruct (Nat.eqb _ _); lia|].
    split; [intros i k o _ _ _; apply hot_01|].
    split; [intros k Hk; apply (hot_root g p c dep par root HR k Hk)|].
    split; [intros i Hi; apply sum_ko_hot; [apply (proj1 Hp); auto|auto]|].
    split; [intros i k o Hi Hk Ho; apply (hot_order g p c dep par root Hsym (proj1 Hp) HR); [auto|lia]|].
    intros i j k Hij Hk. apply (hot_pair g (gn g - p) c dep Hd); lia.
  - intros i k o. unfold hot, b01. destruct (Nat.eqb_spec (c i) k); [auto|]. cbn [andb]. lia.
Qed.
