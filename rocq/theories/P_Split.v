(** Splitting a region of a feasible clustering, and what it does to the heterogeneity. *)
From Verif Require Import Base Spec M_Graph P_Graph M_Util P_Base P_Util P_Sum P_Objective P_Azp.

Lemma crossing_in g (P C : nat -> Prop) u v : (forall a, C a \/ ~ C a) -> linked g P u v -> C u -> ~ C v ->
  exists a b, P a /\ P b /\ C a /\ ~ C b /\ touch g a b.
Proof.
  intros Hdec H. induction H as [u Hu|u w v Hu Ht Hl IH]; intros HC Hn; [contradiction|].
  destruct (Hdec w) as [Hw|Hw]; [auto|]. exists u, w. split; [auto|]. split; [apply linked_in_l in Hl; auto|auto].
Qed.

(** a connected set has connected subsets of every size *)
Lemma connected_subsets g (P : nat -> Prop) L : contiguous g P -> (forall a, P a <-> In a L) -> NoDup L ->
  forall k, 1 <= k <= length L -> exists S, NoDup S /\ (forall a, In a S -> P a) /\ length S = k /\ contiguous g (fun a => In a S).
Proof.
  intros HP HL Hnd. induction k as [|[|k] IH]; intros Hk; [lia| |].
  - destruct HP as [[u Hu] _]. exists [u]. split; [constructor; [intros []|constructor]|]. split; [intros a [<-|[]]; auto|].
    split; [reflexivity|]. apply contiguous_root with (u := u); [left; auto|]. intros v [<-|[]]. apply linked_refl. left; auto.
  - destruct IH as [S [HndS [Hin [Hlen Hc]]]]; [lia|].
    destruct (existsb (fun a => negb (if in_dec Nat.eq_dec a S then true else false)) L) eqn:E.
    + apply existsb_exists in E. destruct E as [v [HvL Hv]]. destruct (in_dec Nat.eq_dec v S) as [|HvS]; [discriminate|].
      pose proof Hc as [[u Hu] _].
      destruct (crossing_in g P (fun a => In a S) u v) as [a [b [Ha [Hb [HaS [HbS Ht]]]]]]; auto.
      { intros a. destruct (in_dec Nat.eq_dec a S); auto. }
      { apply HP; [auto|apply HL; auto]. }
      exists (b :: S). split; [constructor; auto|]. split; [intros x [<-|Hx]; auto|]. split; [cbn; lia|].
      apply (contiguous_ext g (fun x => In x S \/ x = b)); [intros x; cbn; intuition|]. apply contiguous_add with (b := a); auto.
    + exfalso. assert (Hincl : incl L S).
      { intros v Hv. destruct (in_dec Nat.eq_dec v S) as [|HvS]; [auto|exfalso].
        assert (existsb (fun a => negb (if in_dec Nat.eq_dec a S then true else false)) L = true); [|congruence].
        apply existsb_exists. exists v. split; [auto|]. destruct (in_dec Nat.eq_dec v S); [contradiction|reflexivity]. }
      apply NoDup_incl_length in Hincl; [lia|auto].
Qed.

(** an area whose removal keeps the set connected *)
Lemma removable g (P : nat -> Prop) L : contiguous g P -> (forall a, P a <-> In a L) -> NoDup L -> 2 <= length L ->
  exists a, P a /\ contiguous g (fun x => P x /\ x <> a).
Proof.
  intros HP HL Hnd H2. destruct (connected_subsets g P L HP HL Hnd (length L - 1)) as [S [HndS [Hin [Hlen Hc]]]]; [lia|].
  assert (Hout : exists a, In a L /\ ~ In a S).
  { destruct (existsb (fun a => negb (if in_dec Nat.eq_dec a S then true else false)) L) eqn:E.
    - apply existsb_exists in E. destruct E as [v [HvL Hv]]. destruct (in_dec Nat.eq_dec v S) as [|HvS]; [discriminate|eauto].
    - exfalso. assert (Hincl : incl L S).
      { intros v Hv. destruct (in_dec Nat.eq_dec v S) as [|HvS]; [auto|exfalso].
        assert (existsb (fun a => negb (if in_dec Nat.eq_dec a S then true else false)) L = true); [|congruence].
        apply existsb_exists. exists v. split; [auto|]. destruct (in_dec Nat.eq_dec v S); [contradiction|reflexivity]. }
      apply NoDup_incl_length in Hincl; [lia|auto]. }
  destruct Hout as [a [HaL HaS]]. exists a. split; [apply HL; auto|].
  apply (contiguous_ext g (fun x => In x S)); [|auto]. intros x. split.
  - intros Hx. split; [auto|]. intros ->; auto.
  - intros [Hx Hne]. destruct (in_dec Nat.eq_dec x S) as [|HxS]; [auto|exfalso].
    assert (Hincl : incl (x :: a :: S) L) by (intros y [<-|[<-|Hy]]; [apply HL; auto|auto|apply HL; auto]).
    apply NoDup_incl_length in Hincl; [cbn in Hincl; lia|].
    constructor; [intros [H|H]; auto|constructor; auto].
Qed.

Definition members_of (l : list Z) (z : Z) : list nat := filter (fun a => Z.eqb (lab l a) z) (seq 0 (length l)).
Lemma members_of_In l z a : In a (members_of l z) <-> region l z a.
Proof.
  unfold members_of, region. rewrite filter_In, in_seq, Z.eqb_eq. split.
  - intros [H <-]. apply lab_nth_error. lia.
  - intros H. pose proof (nth_error_lt _ _ _ H). split; [lia|]. apply lab_of_nth_error; auto.
Qed.
Lemma filter_of_map {A B} (f : B -> bool) (h : A -> B) l : filter f (map h l) = map h (filter (fun x => f (h x)) l).
Proof. induction l as [|x l IH]; [reflexivity|]. cbn [map filter]. rewrite IH. destruct (f (h x)); reflexivity. Qed.
Lemma members_of_size l z : length (members_of l z) = region_size l z.
Proof.
  unfold members_of, region_size. induction l as [|x l IH]; [reflexivity|].
  cbn [length seq]. rewrite <- seq_shift. cbn [filter count_occ]. rewrite filter_of_map. unfold lab at 1. cbn [nth].
  destruct (Z.eqb_spec x z) as [E|E], (Z.eq_dec x z) as [F|F]; try contradiction; cbn [length]; rewrite map_length;
    rewrite (filter_ext _ (fun a => Z.eqb (lab l a) z)) by reflexivity; rewrite IH; reflexivity.
Qed.

(** a name that is not in use *)
Lemma fresh_name (l : list Z) : exists z, ~ In z l.
Proof.
  exists (fold_right Z.max 0 l + 1)%Z. intros H.
  assert (Hle : forall x, In x l -> (x <= fold_right Z.max 0 l)%Z).
  { clear H. induction l as [|y l IH]; intros x Hx; [destruct Hx|]. cbn [fold_right]. destruct Hx as [<-|Hx]; [lia|]. specialize (IH x Hx). lia. }
  specialize (Hle _ H). lia.
Qed.

(** splitting off one area of a region with several areas *)
Lemma split_region g l p z : feasible g l p -> 2 <= region_size l z ->
  exists a y, region l z a /\ ~ In y l /\ feasible g (upd l a y) (S p).
Proof.
  intros [Hlen [Hn Hall]] H2.
  assert (Hz : In z l) by (apply (count_occ_In Z.eq_dec); unfold region_size in H2; lia).
  destruct (removable g (region l z) (members_of l z)) as [a [Ha Hc]].
  - apply Hall; auto.
  - intros a. rewrite members_of_In. tauto.
  - apply NoDup_filter, seq_NoDup.
  - rewrite members_of_size. auto.
  - destruct (fresh_name l) as [y Hy]. exists a, y. split; [auto|]. split; [auto|].
    assert (HaL : a < length l) by (apply nth_error_lt in Ha; auto).
    assert (Hyz : y <> z) by (intros ->; auto).
    assert (Hnames : forall x, In x (upd l a y) <-> x = y \/ In x l).
    { intros x. split.
      - intros Hx. apply In_nth_error in Hx. destruct Hx as [b Hb]. destruct (Nat.eq_dec b a) as [->|Hne].
        + rewrite nth_error_upd_eq in Hb by auto. injection Hb as <-. auto.
        + rewrite nth_error_upd_ne in Hb by auto. right. eapply nth_error_In; eauto.
      - intros [->|Hx]; [eapply nth_error_In; apply nth_error_upd_eq; auto|].
        destruct (Z.eq_dec x z) as [->|Hxz].
        + destruct Hc as [[b [Hb Hba]] _]. apply nth_error_In with (n := b). rewrite nth_error_upd_ne by auto. exact Hb.
        + apply In_nth_error in Hx. destruct Hx as [b Hb]. apply nth_error_In with (n := b). rewrite nth_error_upd_ne; auto.
          intros ->. unfold region in Ha. congruence. }
    split; [rewrite upd_length; auto|]. split.
    + unfold n_labels in *. rewrite <- Hn. transitivity (length (y :: nodup Z.eq_dec l)); [|reflexivity].
      apply NoDup_same_length; [apply NoDup_nodup|constructor; [rewrite nodup_In; auto|apply NoDup_nodup]|].
      intros x. rewrite nodup_In, Hnames. cbn [In]. rewrite nodup_In. intuition.
    + intros x Hx. destruct (Z.eq_dec x y) as [->|Hxy].
      * apply contiguous_root with (u := a); [apply nth_error_upd_eq; auto|]. intros b Hb. unfold region in Hb.
        destruct (Nat.eq_dec b a) as [->|Hne]; [apply linked_refl; apply nth_error_upd_eq; auto|].
        rewrite nth_error_upd_ne in Hb by auto. destruct Hy. eapply nth_error_In; eauto.
      * apply Hnames in Hx. destruct Hx as [Hx|Hx]; [contradiction|]. destruct (Z.eq_dec x z) as [->|Hxz].
        -- eapply contiguous_ext; [|exact Hc]. intros b. cbn beta. rewrite region_upd by auto. intuition.
        -- eapply contiguous_ext; [|apply (Hall x Hx)]. intros b. rewrite region_upd by auto. split.
           ++ intros Hb. right. split; [|auto]. intros ->. unfold region in *. congruence.
           ++ intros [[_ E]|[_ Hb]]; [congruence|auto].
Qed.

(** a finer clustering *)
Definition finer (l' l : list Z) : Prop :=
  length l' = length l /\ forall i j, i < length l -> j < length l -> lab l' i = lab l' j -> lab l i = lab l j.
Lemma finer_refl l : finer l l.
Proof. split; auto. Qed.
Lemma finer_trans a b c : finer a b -> finer b c -> finer a c.
Proof. intros [H1 H2] [H3 H4]. split; [congruence|]. intros i j Hi Hj E. apply H4; auto. apply H2; auto; lia. Qed.
Lemma split_finer l a y : a < length l -> ~ In y l -> finer (upd l a y) l.
Proof.
  intros Ha Hy. split; [apply upd_length|]. intros i j Hi Hj.
  assert (Hin : forall k, k < length l -> lab l k <> y) by (intros k Hk E; apply Hy; rewrite <- E; eapply nth_error_In; apply lab_nth_error; auto).
  destruct (Nat.eq_dec i a) as [->|Hia], (Nat.eq_dec j a) as [->|Hja]; auto; intros E.
  - rewrite lab_upd_eq, lab_upd_ne in E by auto. destruct (Hin j Hj); auto.
  - rewrite lab_upd_eq, lab_upd_ne in E by auto. destruct (Hin i Hi); auto.
  - rewrite !lab_upd_ne in E by auto. auto.
Qed.
Lemma finer_heterogeneity d l' l : finer l' l -> (forall i j, i < j < length l -> (0 <= d i j)%Q) ->
  (heterogeneity d l' <= heterogeneity d l)%Q.
Proof.
  intros [Hl Hf] Hd. unfold heterogeneity. rewrite Hl. apply sumQ_le. intros j Hj. apply in_seq in Hj.
  apply sumQ_le. intros i Hi. apply in_seq in Hi.
  destruct (Z.eqb_spec (lab l' i) (lab l' j)) as [E|E], (Z.eqb_spec (lab l i) (lab l j)) as [F|F]; try lra.
  - destruct F. apply Hf; auto; lia.
  - apply Hd. lia.
Qed.

(** a region with several areas, if there are fewer regions than areas *)
Lemma several l : n_labels l < length l -> exists z, In z l /\ 2 <= region_size l z.
Proof.
  intros H. destruct (existsb (fun z => Nat.leb 2 (region_size l z)) l) eqn:E.
  - apply existsb_exists in E. destruct E as [z [Hz Hs]]. apply Nat.leb_le in Hs. eauto.
  - exfalso. assert (Hnd : NoDup l).
    { apply (NoDup_count_occ Z.eq_dec). intros z. destruct (in_dec Z.eq_dec z l) as [Hz|Hz].
      - assert (Hf : Nat.leb 2 (region_size l z) = false).
        { destruct (Nat.leb 2 (region_size l z)) eqn:El; [|auto].
          assert (existsb (fun z => Nat.leb 2 (region_size l z)) l = true) by (apply existsb_exists; eauto). congruence. }
        apply Nat.leb_gt in Hf. unfold region_size in Hf. lia.
      - apply (count_occ_not_In Z.eq_dec) in Hz. lia. }
    unfold n_labels in H. rewrite nodup_fixed_point in H by auto. lia.
Qed.

(** more regions: a finer clustering exists *)
Lemma refine g l p : feasible g l p -> forall k, p + k <= gn g -> exists l', feasible g l' (p + k) /\ finer l' l.
Proof.
  intros Hf. induction k as [|k IH]; intros Hk.
  - exists l. rewrite Nat.add_0_r. split; [auto|apply finer_refl].
  - destruct IH as [l1 [Hf1 Hfin]]; [lia|]. pose proof Hf1 as [Hl1 [Hn1 _]].
    destruct (several l1) as [z [_ H2]]; [lia|]. destruct (split_region g l1 _ z Hf1 H2) as [a [y [Ha [Hy Hf2]]]].
    apply nth_error_lt in Ha.
    exists (upd l1 a y). split; [rewrite Nat.add_succ_r; auto|]. eapply finer_trans; [apply split_finer; auto|auto].
Qed.

(** sizes of two regions *)
Lemma two_sizes l y z : y <> z -> In y l -> In z l -> region_size l y + region_size l z + n_labels l <= length l + 2.
Proof.
  intros Hne Hy Hz. set (rest := filter (fun x => negb (Z.eqb x y) && negb (Z.eqb x z)) l).
  assert (Hlen : length rest + region_size l y + region_size l z = length l).
  { unfold rest, region_size. clear Hy Hz. induction l as [|x l IH]; [reflexivity|]. cbn [filter count_occ length].
    destruct (Z.eqb_spec x y), (Z.eqb_spec x z), (Z.eq_dec x y), (Z.eq_dec x z); cbn [negb andb length] in *; try congruence; try lia. }
  assert (Hn : n_labels l <= length (y :: z :: rest)).
  { unfold n_labels. apply NoDup_incl_length; [apply NoDup_nodup|]. intros x Hx. apply nodup_In in Hx. cbn [In].
    destruct (Z.eq_dec y x) as [|H1]; [auto|]. destruct (Z.eq_dec z x) as [|H2]; [auto|]. right; right. apply filter_In. split; [auto|].
    apply andb_true_iff. rewrite !negb_true_iff, !Z.eqb_neq. auto. }
  cbn [length] in Hn. lia.
Qed.
Lemma count_upd l a y z : a < length l -> y <> z -> region_size (upd l a y) z = region_size l z - (if Z.eqb (lab l a) z then 1 else 0).
Proof.
  unfold region_size. revert a. induction l as [|x l IH]; intros a Ha Hne; [cbn in Ha; lia|]. destruct a as [|a]; cbn [upd count_occ].
  - unfold lab. cbn [nth]. destruct (Z.eq_dec y z), (Z.eq_dec x z), (Z.eqb_spec x z); try congruence; lia.
  - cbn [length] in Ha. change (lab (x :: l) (S a)) with (lab l a). rewrite IH by (auto; lia).
    destruct (Z.eq_dec x z) as [->|]; [|reflexivity]. destruct (Z.eqb_spec (lab l a) z) as [E|E]; [|lia].
    assert (0 < count_occ Z.eq_dec l z); [|lia]. apply count_occ_In. rewrite <- E. eapply nth_error_In. apply lab_nth_error. lia.
Qed.
Lemma count_fresh l a y : a < length l -> ~ In y l -> region_size (upd l a y) y = 1.
Proof.
  unfold region_size. revert a. induction l as [|x l IH]; intros a Ha Hy; [cbn in Ha; lia|]. cbn [In] in Hy. destruct a as [|a]; cbn [upd count_occ].
  - destruct (Z.eq_dec y y); [|congruence]. rewrite (proj1 (count_occ_not_In Z.eq_dec l y)) by auto. reflexivity.
  - cbn [length] in Ha. destruct (Z.eq_dec x y); [intuition|]. apply IH; [lia|auto].
Qed.

Lemma largest (f : Z -> nat) (l : list Z) : l <> [] -> exists z, In z l /\ forall y, In y l -> f y <= f z.
Proof.
  induction l as [|x l IH]; intros H; [congruence|]. destruct l as [|x' l].
  - exists x. split; [left; auto|]. intros y [<-|[]]. auto.
  - destruct IH as [z [Hz Hm]]; [discriminate|]. destruct (le_lt_dec (f x) (f z)) as [Hle|Hlt].
    + exists z. split; [right; auto|]. intros y [<-|Hy]; auto.
    + exists x. split; [left; auto|]. intros y [<-|Hy]; [auto|]. specialize (Hm y Hy). lia.
Qed.

(** the same with regions of at most n - p areas, n - p - 1 after the split *)
Lemma refine_small_one g l p : feasible g l p -> p + 3 <= gn g -> (forall z, In z l -> region_size l z + p <= gn g) ->
  exists l', feasible g l' (S p) /\ finer l' l /\ forall z, In z l' -> region_size l' z + S p <= gn g.
Proof.
  intros Hf H3 Hs. pose proof Hf as [Hl [Hn _]].
  destruct (largest (region_size l) l) as [z [Hz Hmax]]; [intros ->; cbn in Hl; lia|].
  destruct (several l) as [y0 [Hy0 H0]]; [lia|].
  assert (H2 : 2 <= region_size l z) by (specialize (Hmax y0 Hy0); lia).
  destruct (split_region g l p z Hf H2) as [a [y [Ha [Hy Hf2]]]]. exists (upd l a y). split; [auto|].
  split; [apply split_finer; [apply nth_error_lt in Ha|]; auto|].
  assert (HaL : a < length l) by (apply nth_error_lt in Ha; auto). apply lab_of_nth_error in Ha.
  intros x Hx. destruct (Z.eq_dec y x) as [<-|Hyx]; [rewrite count_fresh by auto; lia|].
  assert (Hxl : In x l).
  { apply In_nth_error in Hx. destruct Hx as [b Hb]. destruct (Nat.eq_dec b a) as [->|Hne].
    - rewrite nth_error_upd_eq in Hb by auto. congruence.
    - rewrite nth_error_upd_ne in Hb by auto. eapply nth_error_In; eauto. }
  rewrite count_upd by auto. rewrite Ha. pose proof (Hs x Hxl). destruct (Z.eqb_spec z x) as [->|Hzx]; [lia|].
  pose proof (two_sizes l z x Hzx Hz Hxl). specialize (Hmax x Hxl). pose proof (Hs z Hz). lia.
Qed.
Lemma refine_small g l p : feasible g l p -> (forall z, In z l -> region_size l z + p <= gn g) -> forall k, p + k + 2 <= gn g ->
  exists l', feasible g l' (p + k) /\ finer l' l /\ forall z, In z l' -> region_size l' z + (p + k) <= gn g.
Proof.
  intros Hf Hs. induction k as [|k IH]; intros Hk.
  - exists l. rewrite Nat.add_0_r. split; [auto|]. split; [apply finer_refl|auto].
  - destruct IH as [l1 [Hf1 [Hfin Hs1]]]; [lia|].
    destruct (refine_small_one g l1 (p + k) Hf1) as [l2 [Hf2 [Hfin2 Hs2]]]; [lia|auto|].
    rewrite Nat.add_succ_r. exists l2. split; [auto|]. split; [eapply finer_trans; eauto|auto].
Qed.
