(** The exact max-p model. *)
From Verif Require Import Base Spec M_Graph M_Util M_Objective M_MaxP M_Exact P_Base P_Graph P_Sum P_Objective P_Mip P_Mip2 P_Order.
Local Open Scope Z_scope.

(** one bound per attribute *)
Definition bounds_of (sp : list (list Q)) (thr : threshold_arg) : list Q :=
  match thr with
  | TReal q => repeat q (length (nth 0 sp []))
  | TArray l => firstn (length (nth 0 sp [])) l
  | TList _ => []
  end.

Lemma bounds_of_bound sp thr el q : nth_error (bounds_of sp thr) el = Some q <->
  (el < length (nth 0 sp []))%nat /\ bound thr el = Some q.
Proof.
  unfold bounds_of, bound. destruct thr as [r|l|l].
  - split.
    + intros H. pose proof (nth_error_lt _ _ _ H) as Hl. rewrite repeat_length in Hl. split; [auto|].
      apply nth_error_In in H. apply repeat_spec in H. congruence.
    + intros [Hl H]. injection H as <-. rewrite (nth_error_nth' _ r) by (rewrite repeat_length; auto). rewrite nth_repeat. reflexivity.
  - revert el l. induction (length (nth 0 sp [])) as [|m IH]; intros el l; cbn [firstn].
    + split; [destruct el; discriminate|lia].
    + destruct l as [|x l]; [destruct el; cbn; split; try discriminate; intros [_ H]; discriminate|].
      destruct el as [|el]; cbn [nth_error]; [split; [intros H; split; [lia|auto]|tauto]|]. rewrite IH. split; intros [H1 H2]; (split; [lia|auto]).
  - destruct el; cbn; split; try discriminate; intros [_ H]; discriminate.
Qed.

(** attribute totals *)
Lemma total_lab_of g sp c k el :
  (total sp (lab_of (gn g) c) (Z.of_nat k) el ==
   sumQ (map (fun i => inject_Z (b01 (Nat.eqb (c i) k)) * nth el (nth i sp []) 0) (seq 0 (gn g))))%Q.
Proof.
  unfold total. rewrite lab_of_length. apply sumQ_ext. intros i Hi. apply in_seq in Hi. rewrite lab_of_lab by lia.
  destruct (Z.eqb_spec (Z.of_nat (c i)) (Z.of_nat k)), (Nat.eqb_spec (c i) k); cbn [b01 inject_Z]; try lia; ring.
Qed.

Lemma sum_x_total g sp (x : nat -> nat -> nat -> Z) c o k el np no : (forall i, (i < gn g)%nat -> (o i < no)%nat /\
    forall q, (q < no)%nat -> x i k q = hot c o i k q) -> np = gn g ->
  (sumQ (flat_map (fun i => map (fun q => inject_Z (x i k q) * nth el (nth i sp []) 0) (seq 0 no)) (seq 0 np)) ==
   total sp (lab_of (gn g) c) (Z.of_nat k) el)%Q.
Proof.
  intros Hx ->. rewrite total_lab_of, <- (map_id (flat_map _ _)), sumQ_flat_map. apply sumQ_ext. intros i Hi. apply in_seq in Hi. destruct Hi as [_ Hi]. cbn [Nat.add] in Hi.
  destruct (Hx i Hi) as [Ho Hxi]. rewrite map_id.
  rewrite (sumQ_ext _ (fun q => nth el (nth i sp []) 0 * inject_Z (hot c o i k q))%Q).
  - rewrite sumQ_scale.
    assert (E : (sumQ (map (fun q => inject_Z (hot c o i k q)) (seq 0 no)) == inject_Z (sumZ (map (fun q => hot c o i k q) (seq 0 no))))%Q).
    { induction (seq 0 no) as [|y l IH]; [reflexivity|]. cbn [map]. rewrite sumQ_cons, sumZ_cons, inject_Z_plus, IH. reflexivity. }
    rewrite E, sum_hot_o by auto. ring.
  - intros q Hq. apply in_seq in Hq. rewrite Hxi by lia. ring.
Qed.

(** number of regions in use *)
Lemma n_labels_classes n c m : (forall a, (a < n)%nat -> (c a < m)%nat) ->
  n_labels (lab_of n c) = length (filter (fun k => existsb (fun a => Nat.eqb (c a) k) (seq 0 n)) (seq 0 m)).
Proof.
  intros Hc. rewrite <- (map_length Z.of_nat). unfold n_labels. apply NoDup_same_length.
  - apply NoDup_nodup.
  - apply FinFun.Injective_map_NoDup; [intros u v; lia|]. apply NoDup_filter, seq_NoDup.
  - intros z. rewrite nodup_In. unfold lab_of. rewrite !in_map_iff. split.
    + intros [a [<- Ha]]. apply in_seq in Ha. exists (c a). split; [auto|]. apply filter_In. split; [apply in_seq; specialize (Hc a); lia|].
      apply existsb_exists. exists a. split; [apply in_seq; lia|apply Nat.eqb_refl].
    + intros [k [<- Hk]]. apply filter_In in Hk. destruct Hk as [_ Hk]. apply existsb_exists in Hk. destruct Hk as [a [Ha E]]. apply Nat.eqb_eq in E.
      exists a. split; [congruence|auto].
Qed.

Definition used (g : graph) (c : nat -> nat) (k : nat) : bool := existsb (fun a => Nat.eqb (c a) k) (seq 0 (gn g)).
Lemma used_inside g c k : used g c k = true <-> exists a, inside g (cls c k) a.
Proof.
  unfold used. rewrite existsb_exists. split; intros [a [H1 H2]]; exists a.
  - apply in_seq in H1. split; [lia|auto].
  - split; [apply in_seq; lia|auto].
Qed.

Theorem maxp_sound g sp thr a : maxp_ok g sp thr a -> exists c, (forall i, (i < gn g)%nat -> (c i < gn g)%nat) /\
  all_contiguous g (lab_of (gn g) c) /\
  (forall z, In z (lab_of (gn g) c) -> meets sp (bounds_of sp thr) (lab_of (gn g) c) z) /\
  sum_ko (seq 0 (gn g)) (seq 0 (gn g)) (fun k i => or_x a i k 0%nat) = Z.of_nat (n_labels (lab_of (gn g) c)) /\
  (forall ans, (forall i k o, (i < gn g)%nat -> (k < gn g)%nat -> (o < gn g)%nat -> reports (ans i k o) (or_x a i k o)) ->
     order_decode (gn g) (seq 0 (gn g)) (seq 0 (gn g)) ans = lab_of (gn g) c) /\
  (forall i j, (i < j < gn g)%nat -> same01 c i j <= or_t a i j).
Proof.
  intros [Ht [H01 [Hroot [Hone [Hord [Hthr [Hpair Hfix]]]]]]].
  destruct (order_hot g (gn g) (gn g) (or_x a) H01 Hone) as [c [o Hco]]. exists c.
  assert (Hreg : forall i, (i < gn g)%nat -> contiguous g (inside g (cls c (c i)))).
  { intros i Hi. apply (order_contig g (gn g) (gn g) (or_x a) c o Hco Hroot Hord). exists i. split; [auto|apply Nat.eqb_refl]. }
  split; [intros i Hi; apply Hco; auto|]. split.
  { intros z Hz. apply lab_of_In in Hz. destruct Hz as [i [Hi ->]]. apply (contiguous_ext g (inside g (cls c (c i)))); [|auto].
    intros b. symmetry. apply lab_of_region. }
  split.
  { intros z Hz el q Hq. apply lab_of_In in Hz. destruct Hz as [i [Hi ->]]. apply bounds_of_bound in Hq. destruct Hq as [Hel Hb].
    destruct (Hco i Hi) as [Hci _]. specialize (Hthr el (c i) q Hel Hci Hb).
    rewrite (order_has_root g (gn g) (gn g) (or_x a) c o Hco Hroot Hord (c i) Hci) in Hthr.
    - rewrite (sum_x_total g sp (or_x a) c o (c i) el (gn g) (gn g)) in Hthr; [|intros b Hbn; destruct (Hco b Hbn) as [_ [H1 H2]]; split; auto|auto].
      change (inject_Z 1) with 1%Q in Hthr. lra.
    - exists i. split; [auto|apply Nat.eqb_refl]. }
  split.
  { unfold sum_ko. rewrite sumZ_flat, (n_labels_classes (gn g) c (gn g)) by (intros b Hb; apply Hco; auto).
    rewrite <- sumZ_ones. apply sumZ_ext. intros k Hk. apply in_seq in Hk. destruct Hk as [_ Hk]. cbn [Nat.add] in Hk.
    fold (used g c k). destruct (used g c k) eqn:E.
    - apply used_inside in E. apply (order_has_root g (gn g) (gn g) (or_x a) c o Hco Hroot Hord k Hk E).
    - apply (order_no_root g (gn g) (gn g) (or_x a) c o Hco k Hk); [lia|]. rewrite <- used_inside. congruence. }
  split; [exact (order_decoded g (gn g) (gn g) (or_x a) c o Hco)|].
  exact (order_t g (gn g) (gn g) (or_x a) c o Hco (or_t a) Ht Hpair).
Qed.

(** ** completeness *)
Lemma rooted_at g p c (s : nat -> nat) : partition g p c -> (forall k, (k < p)%nat -> inside g (cls c k) (s k)) ->
  exists par dep, forall k, (k < p)%nat -> rooted g (cls c k) (s k) par dep.
Proof.
  intros [Hb Hc] Hs.
  destruct (finite_choice ((fun a : nat => a), (fun _ : nat => 0%nat)) (fun k x => rooted g (cls c k) (s k) (fst x) (snd x)) p) as [f Hf].
  { intros k Hk. destruct (rooted_exists g (cls c k) (s k) (Hs k Hk) (Hc k Hk)) as [par [dep R]]. exists (par, dep). exact R. }
  exists (fun a => fst (f (c a)) a), (fun a => snd (f (c a)) a). intros k Hk. specialize (Hf k Hk).
  assert (E : forall a, inside g (cls c k) a -> c a = k) by (intros a [_ Ha]; apply Nat.eqb_eq; exact Ha).
  constructor.
  - apply (rt_in _ _ _ _ _ Hf).
  - rewrite (E _ (rt_in _ _ _ _ _ Hf)). apply (rt_s _ _ _ _ _ Hf).
  - intros u Hu H0. rewrite (E u Hu) in H0. apply (rt_0 _ _ _ _ _ Hf); auto.
  - intros u Hu Hne. rewrite (E u Hu). destruct (rt_par _ _ _ _ _ Hf u Hu Hne) as [H1 [H2 H3]]. split; [auto|]. split; [auto|].
    rewrite (E _ H1). auto.
  - intros u v Hu Hv Ht. rewrite (E u Hu), (E v Hv). apply (rt_near _ _ _ _ _ Hf); auto.
Qed.

(** exchange the names 0 and k0 *)
Definition swap0 (k0 k : nat) : nat := if Nat.eqb k k0 then 0%nat else if Nat.eqb k 0 then k0 else k.
Lemma swap0_inv k0 k : swap0 k0 (swap0 k0 k) = k.
Proof.
  unfold swap0. destruct (Nat.eqb_spec k k0) as [->|H1].
  - destruct (Nat.eqb_spec 0 k0) as [<-|H2]; [auto|]. reflexivity.
  - destruct (Nat.eqb_spec k 0) as [->|H2]; [rewrite Nat.eqb_refl; auto|].
    destruct (Nat.eqb_spec k k0); [contradiction|]. destruct (Nat.eqb_spec k 0); [contradiction|]. reflexivity.
Qed.
Lemma swap0_lt k0 k p : (k0 < p)%nat -> (k < p)%nat -> (swap0 k0 k < p)%nat.
Proof. intros H1 H2. unfold swap0. destruct (Nat.eqb_spec k k0); [lia|]. destruct (Nat.eqb_spec k 0); lia. Qed.

Lemma partition_swap g p c k0 : (k0 < p)%nat -> partition g p c -> partition g p (fun a => swap0 k0 (c a)).
Proof.
  intros Hk0 [Hb Hc]. split; [intros a Ha; apply swap0_lt; auto|]. intros k Hk.
  apply (contiguous_ext g (inside g (cls c (swap0 k0 k)))); [|apply Hc, swap0_lt; auto].
  intros a. unfold inside, cls. rewrite !Nat.eqb_eq. split; intros [H1 H2]; (split; [auto|]).
  - rewrite H2. apply swap0_inv.
  - rewrite <- H2. symmetry. apply swap0_inv.
Qed.

Lemma total_matches sp l c n k el a : matches n l c -> (a < n)%nat -> c a = k ->
  (total sp l (lab l a) el == total sp (lab_of n c) (Z.of_nat k) el)%Q.
Proof.
  intros [Hl Hm] Ha <-. unfold total. rewrite Hl, lab_of_length. apply sumQ_ext. intros i Hi. apply in_seq in Hi. rewrite lab_of_lab by lia.
  destruct (Z.eqb_spec (lab l i) (lab l a)) as [E|E], (Z.eqb_spec (Z.of_nat (c i)) (Z.of_nat (c a))) as [F|F]; try reflexivity.
  - apply Hm in E; lia.
  - destruct E. apply Hm; lia.
Qed.

Theorem maxp_complete g sp thr l p : symmetric g -> (0 < gn g)%nat -> feasible g l p ->
  (forall z, In z l -> meets sp (bounds_of sp thr) l z) ->
  exists c x, matches (gn g) l c /\ partition g p c /\ maxp_ok g sp thr (mkOrder (same01 c) x) /\
    sum_ko (seq 0 (gn g)) (seq 0 (gn g)) (fun k i => x i k 0%nat) = Z.of_nat p.
Proof.
  intros Hsym Hn Hf Hmeet. destruct (feasible_partition g p l Hf) as [c0 [Hp0 [Hl Hm0]]].
  pose proof (proj1 Hp0 0%nat Hn) as Hc00. set (c := fun a => swap0 (c0 0%nat) (c0 a)).
  assert (Hp : partition g p c) by (apply partition_swap; auto).
  assert (Hc0 : c 0%nat = 0%nat) by (unfold c, swap0; rewrite Nat.eqb_refl; reflexivity).
  assert (Hm : matches (gn g) l c).
  { split; [exact Hl|]. intros u v Hu Hv. rewrite Hm0 by auto. unfold c. split; [intros ->; reflexivity|]. intros E.
    rewrite <- (swap0_inv (c0 0%nat) (c0 u)), E. apply swap0_inv. }
  destruct (finite_choice 0%nat (fun k s => inside g (cls c k) s) p) as [s0 Hs0].
  { intros k Hk. destruct (proj2 Hp k Hk) as [[s Hs] _]. exists s. exact Hs. }
  set (s := fun k => if Nat.eqb k 0 then 0%nat else s0 k).
  assert (Hs : forall k, (k < p)%nat -> inside g (cls c k) (s k)).
  { intros k Hk. unfold s. destruct (Nat.eqb_spec k 0) as [->|]; [|auto]. split; [auto|]. unfold cls. rewrite Hc0. reflexivity. }
  destruct (rooted_at g p c s Hp Hs) as [par [dep HR]].
  pose proof (partition_le g p c Hp) as Hpn.
  assert (Hd : forall a, (a < gn g)%nat -> (dep a < gn g)%nat).
  { intros a Ha. assert (Hin : inside g (cls c (c a)) a) by (split; [auto|apply Nat.eqb_refl]).
    pose proof (rooted_depth _ _ _ _ _ a (HR (c a) (proj1 Hp a Ha)) Hin) as H.
    pose proof (partition_size g p c (c a) Hp (proj1 Hp a Ha)). pose proof (proj1 Hp a Ha). lia. }
  exists c, (hot c dep). split; [exact Hm|]. split; [exact Hp|].
  assert (Hsumroot : forall k, sumZ (map (fun i => hot c dep i k 0%nat) (seq 0 (gn g))) = if Nat.ltb k p then 1 else 0).
  { intros k. destruct (Nat.ltb_spec k p) as [Hk|Hk]; [apply (hot_root g p c dep par s HR k Hk)|apply (hot_root_none g p c dep (proj1 Hp) k Hk)]. }
  split.
  - unfold maxp_ok. cbn [or_t or_x].
    split; [intros i j _; unfold same01; destruct (Nat.eqb _ _); lia|].
    split; [intros i k o _ _ _; apply hot_01|].
    split; [intros k _; rewrite Hsumroot; destruct (Nat.ltb k p); lia|].
    split; [intros i Hi; apply sum_ko_hot; [pose proof (proj1 Hp i Hi); lia|auto]|].
    split; [intros i k o Hi Hk Ho; apply (hot_order g p c dep par s Hsym (proj1 Hp) HR); [auto|lia]|].
    split.
    { intros el k q Hel Hk Hb. rewrite Hsumroot. rewrite (sum_x_total g sp (hot c dep) c dep k el (gn g) (gn g)); [|intros b Hbn; split; auto|auto].
      destruct (Nat.ltb_spec k p) as [Hkp|Hkp].
      - destruct (Hs k Hkp) as [Hsn Hsk]. apply Nat.eqb_eq in Hsk.
        assert (Hz : In (lab l (s k)) l) by (apply nth_In; lia).
        specialize (Hmeet _ Hz el q (proj2 (bounds_of_bound sp thr el q) (conj Hel Hb))).
        rewrite (total_matches sp l c (gn g) k el (s k) Hm Hsn Hsk) in Hmeet. change (inject_Z 1) with 1%Q. lra.
      - change (inject_Z 0) with 0%Q. setoid_replace (q * 0)%Q with 0%Q by ring.
        rewrite total_lab_of. rewrite sumQ_zero; [lra|]. intros i Hi. apply in_seq in Hi. destruct (Nat.eqb_spec (c i) k) as [E|]; cbn [b01 inject_Z]; [|ring].
        destruct Hi as [_ Hi]. cbn [Nat.add] in Hi. pose proof (proj1 Hp i Hi). lia. }
    split; [intros i j k Hij Hk; apply (hot_pair g (gn g) c dep Hd); lia|].
    intros o Ho. unfold hot. rewrite Hc0. cbn [Nat.eqb andb].
    assert (Hpos : (0 < p)%nat) by (pose proof (proj1 Hp 0%nat Hn); lia).
    pose proof (rt_s _ _ _ _ _ (HR 0%nat Hpos)) as H0. unfold s in H0. cbn [Nat.eqb] in H0. rewrite H0. unfold b01. rewrite Nat.eqb_sym. reflexivity.
  - unfold sum_ko. rewrite sumZ_flat. rewrite (sumZ_ext _ (fun k => if Nat.ltb k p then 1 else 0)) by (intros k _; apply Hsumroot).
    rewrite sumZ_ones. f_equal. transitivity (length (seq 0 p)); [|apply seq_length]. apply NoDup_same_length; [apply NoDup_filter, seq_NoDup|apply seq_NoDup|].
    intros k. rewrite filter_In, !in_seq, Nat.ltb_lt. lia.
Qed.

(** the heterogeneity of any labelling is at most the total weight *)
Lemma het_le_total n d l : length l = n -> (forall i j, (i < j < n)%nat -> (0 <= d i j)%Q) -> (heterogeneity d l <= total_weight n d)%Q.
Proof.
  intros Hl Hd. unfold total_weight. rewrite (upper_sum n d). unfold heterogeneity. rewrite Hl.
  apply sumQ_le. intros j Hj. apply in_seq in Hj. apply sumQ_le. intros i Hi. apply in_seq in Hi. specialize (Hd i j).
  destruct (Z.eqb _ _); [lra|]. apply Hd. lia.
Qed.
