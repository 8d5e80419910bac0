(** The flow model: soundness by flow conservation, completeness by routing one unit per area. *)
From Verif Require Import Base Spec M_Graph M_Util M_Objective M_MaxP M_Exact P_Base P_Graph P_Sum P_Objective P_Mip P_Mip2 P_Order.
Local Open Scope Z_scope.

Lemma sum_neighbors g u (F : nat -> Z) :
  sumZ (map F (neighbors g u)) = sumZ (map (fun j => if gadj g u j then F j else 0) (seq 0 (gn g))).
Proof. unfold neighbors. apply sumZ_filter. Qed.

Lemma flow_cancel g (F : nat -> nat -> Z) P : symmetric g ->
  (forall u j, inside g P u -> In j (neighbors g u) -> P j = false -> F u j = 0) ->
  (forall u j, F u j = - F j u) ->
  sumZ (map (fun u => sumZ (map (F u) (neighbors g u))) (members g P)) = 0.
Proof.
  intros Hsym Hout Hanti. set (T := fun u j => if gadj g u j then F u j else 0).
  assert (E : sumZ (map (fun u => sumZ (map (F u) (neighbors g u))) (members g P)) =
              sumZ (map (fun u => sumZ (map (T u) (members g P))) (members g P))).
  { apply sumZ_ext. intros u Hu. apply members_In in Hu. rewrite sum_neighbors. unfold members. rewrite sumZ_filter.
    apply sumZ_ext. intros j Hj. apply in_seq in Hj. unfold T. destruct (P j) eqn:Ej; [reflexivity|].
    destruct (gadj g u j) eqn:Ea; [|reflexivity]. apply Hout; auto. apply neighbors_In. split; [lia|auto]. }
  rewrite E. assert (E2 := sumZ_swap T (members g P) (members g P)).
  assert (E3 : sumZ (map (fun y => sumZ (map (fun x => T x y) (members g P))) (members g P)) =
               sumZ (map (fun y => -1 * sumZ (map (T y) (members g P))) (members g P))).
  { apply sumZ_ext. intros y Hy. apply members_In in Hy. rewrite <- sumZ_scale. apply sumZ_ext. intros x Hx. apply members_In in Hx.
    unfold T. rewrite (Hsym x y) by (apply Hx || apply Hy). destruct (gadj g y x); [|lia]. rewrite (Hanti x y). lia. }
  rewrite E3, sumZ_scale in E2. lia.
Qed.

Section FlowSound.
Variable g : graph.
Variable p : nat.
Variable a : flow_vars.
Hypothesis Hsym : symmetric g.
Hypothesis Ha : flow_ok g p a.

Lemma flow_classes : exists c, forall i, (i < gn g)%nat -> (c i < p)%nat /\ forall k, (k < p)%nat -> fl_y a i k = b01 (Nat.eqb (c i) k).
Proof.
  destruct Ha as [_ [_ [Hy [_ [H21 _]]]]].
  apply (finite_choice 0%nat (fun i c => (c < p)%nat /\ forall k, (k < p)%nat -> fl_y a i k = b01 (Nat.eqb c k))).
  intros i Hi. assert (Hb : forall k, In k (seq 0 p) -> 0 <= fl_y a i k <= 1) by (intros k Hk; apply in_seq in Hk; apply Hy; auto; lia).
  destruct (one_hot _ _ (seq_NoDup _ _) Hb (H21 i Hi)) as [k0 [Hk0 [E0 Ho]]]. apply in_seq in Hk0. exists k0. split; [lia|].
  intros k Hk. destruct (Nat.eqb_spec k0 k) as [<-|Hne]; [exact E0|]. apply Ho; [apply in_seq; lia|congruence].
Qed.

Variable c : nat -> nat.
Hypothesis Hc : forall i, (i < gn g)%nat -> (c i < p)%nat /\ forall k, (k < p)%nat -> fl_y a i k = b01 (Nat.eqb (c i) k).

Lemma flow_sink k : (k < p)%nat -> exists s, inside g (cls c k) s /\ fl_w a s k = 1 /\ forall i, (i < gn g)%nat -> i <> s -> fl_w a i k = 0.
Proof.
  intros Hk. destruct Ha as [_ [_ [_ [Hw [_ [H22 [H23 _]]]]]]].
  assert (Hb : forall i, In i (seq 0 (gn g)) -> 0 <= fl_w a i k <= 1) by (intros i Hi; apply in_seq in Hi; apply Hw; auto; lia).
  destruct (one_hot _ _ (seq_NoDup _ _) Hb (H23 k Hk)) as [s [Hs [E0 Ho]]]. apply in_seq in Hs. exists s.
  split; [|split; [exact E0|intros i Hi Hne; apply Ho; [apply in_seq; lia|auto]]].
  split; [lia|]. assert (Hsn : (s < gn g)%nat) by lia. specialize (H22 s k Hsn Hk). rewrite E0, (proj2 (Hc s Hsn)) in H22 by auto.
  unfold cls, b01 in *. destruct (Nat.eqb (c s) k); [reflexivity|lia].
Qed.

Lemma flow_out k u j : (k < p)%nat -> (u < gn g)%nat -> In j (neighbors g u) -> cls c k j = false ->
  fl_f a u j k - fl_f a j u k = 0.
Proof.
  intros Hk Hu Hj Hcj. destruct Ha as [_ [Hf [_ [_ [_ [_ [_ [H24 [H25 _]]]]]]]]].
  pose proof (proj1 (neighbors_In _ _ _) Hj) as [Hjn Haj].
  assert (Hu' : In u (neighbors g j)) by (apply neighbors_In; split; [auto|rewrite Hsym; auto]).
  pose proof (Hf u j k Hu Hj Hk). pose proof (Hf j u k Hjn Hu' Hk). pose proof (H25 u j k Hu Hj Hk) as H1. pose proof (H24 j u k Hjn Hu' Hk) as H2.
  rewrite (proj2 (Hc j Hjn)) in H1, H2 by auto. unfold cls in Hcj. rewrite Hcj in H1, H2. cbn [b01] in H1, H2. lia.
Qed.

(** (26) summed over a part of the region closed under contiguity inside the region *)
Lemma flow_sum k (Q : nat -> bool) : (k < p)%nat -> (forall u, inside g Q u -> cls c k u = true) ->
  (forall u j, inside g Q u -> inside g (cls c k) j -> touch g u j -> Q j = true) ->
  Z.of_nat (length (members g Q)) <= (Z.of_nat (gn g) - Z.of_nat p) * sumZ (map (fun u => fl_w a u k) (members g Q)).
Proof.
  intros Hk Hin Hcl. assert (H0 := flow_cancel g (fun u j => fl_f a u j k - fl_f a j u k) Q Hsym).
  assert (H0' : sumZ (map (fun u => sumZ (map (fun j => fl_f a u j k - fl_f a j u k) (neighbors g u))) (members g Q)) = 0).
  { apply H0.
    - intros u j Hu Hj HQ. apply flow_out; auto; [apply Hu|]. destruct (cls c k j) eqn:E; [|reflexivity].
      pose proof (proj1 (neighbors_In _ _ _) Hj) as [Hjn Haj].
      assert (Q j = true); [|congruence]. apply (Hcl u j Hu); [split; auto|left; auto].
    - intros u j. lia. }
  assert (H1 : sumZ (map (fun u => 1 - (Z.of_nat (gn g) - Z.of_nat p) * fl_w a u k) (members g Q)) <=
               sumZ (map (fun u => sumZ (map (fun j => fl_f a u j k - fl_f a j u k) (neighbors g u))) (members g Q))).
  { apply sumZ_le. intros u Hu. apply members_In in Hu. destruct Ha as [_ [_ [_ [_ [_ [_ [_ [_ [_ [H26 _]]]]]]]]]].
    pose proof (H26 u k (proj1 Hu) Hk) as H. rewrite (proj2 (Hc u (proj1 Hu))) in H by auto.
    pose proof (Hin u Hu) as Hcu. unfold cls in Hcu. rewrite Hcu in H. cbn [b01] in H. lia. }
  rewrite H0', sumZ_minus, sumZ_const, sumZ_scale in H1. lia.
Qed.

Lemma flow_contig k : (k < p)%nat -> contiguous g (inside g (cls c k)).
Proof.
  intros Hk. destruct (flow_sink k Hk) as [s [Hs [Hw1 Hw0]]]. apply (contiguous_root g _ s Hs). intros v Hv.
  set (C := reach (rg g (cls c k)) v). assert (HC : forall u, In u C <-> linked g (inside g (cls c k)) v u) by (intros u; apply rg_reach; exact Hv).
  destruct (memb s C) eqn:E; [apply memb_In in E; apply linked_sym, HC; exact E|]. exfalso. apply memb_notIn in E.
  assert (H := flow_sum k (fun u => memb u C) Hk).
  assert (HinC : forall u, inside g (fun u => memb u C) u -> linked g (inside g (cls c k)) v u).
  { intros u [_ Hu]. apply HC. apply memb_In. exact Hu. }
  assert (H' : Z.of_nat (length (members g (fun u => memb u C))) <=
     (Z.of_nat (gn g) - Z.of_nat p) * sumZ (map (fun u => fl_w a u k) (members g (fun u => memb u C)))).
  { apply H.
    - intros u Hu. apply HinC in Hu. apply linked_in_r in Hu. apply Hu.
    - intros u j Hu Hj Ht. apply memb_In, HC. apply HinC in Hu. eapply linked_trans; [exact Hu|].
      apply linked_one; auto. exact (linked_in_r _ _ _ _ Hu). }
  rewrite (sumZ_zero (fun u => fl_w a u k)) in H'.
  - assert (Hvin : In v (members g (fun u => memb u C))).
    { apply members_In. split; [apply Hv|]. apply memb_In, HC, linked_refl. exact Hv. }
    destruct (members g (fun u => memb u C)); [destruct Hvin|]. cbn [length] in H'. lia.
  - intros u Hu. apply members_In in Hu. apply Hw0; [apply Hu|]. intros ->. apply E. destruct Hu as [_ Hu]. apply memb_In. exact Hu.
Qed.

Lemma flow_partition : partition g p c.
Proof. split; [intros i Hi; apply Hc; auto|exact flow_contig]. Qed.

Lemma flow_size k : (k < p)%nat -> Z.of_nat (length (members g (cls c k))) <= Z.of_nat (gn g) - Z.of_nat p.
Proof.
  intros Hk. destruct (flow_sink k Hk) as [s [Hs [Hw1 Hw0]]].
  assert (H := flow_sum k (cls c k) Hk (fun u Hu => proj2 Hu) (fun u j _ Hj _ => proj2 Hj)).
  rewrite (sumZ_point _ _ s) in H.
  - rewrite Hw1 in H. lia.
  - apply members_NoDup.
  - apply members_In. exact Hs.
  - intros u Hu Hne. apply members_In in Hu. apply Hw0; [apply Hu|auto].
Qed.

Lemma flow_t i j : (i < j < gn g)%nat -> same01 c i j <= fl_t a i j.
Proof.
  intros Hij. destruct Ha as [Ht [_ [_ [_ [_ [_ [_ [_ [_ [_ H27]]]]]]]]]]. unfold same01.
  destruct (Nat.eqb_spec (c i) (c j)) as [E|E]; [|apply Ht; auto].
  destruct (Hc i) as [Hk Hyi]; [lia|]. destruct (Hc j) as [_ Hyj]; [lia|]. specialize (H27 i j (c i) Hij Hk).
  rewrite Hyi, Hyj, <- E, Nat.eqb_refl in H27 by auto. cbn [b01] in H27. lia.
Qed.

Lemma flow_same_t : flow_ok g p (mkFlow (same01 c) (fl_f a) (fl_y a) (fl_w a)).
Proof.
  destruct Ha as [Ht [Hf [Hy [Hw [H21 [H22 [H23 [H24 [H25 [H26 H27]]]]]]]]]].
  split; [intros i j _; cbn [fl_t]; unfold same01; destruct (Nat.eqb _ _); lia|].
  do 9 (split; [assumption|]). intros i j k Hij Hk. cbn [fl_t fl_y].
  rewrite (proj2 (Hc i (Nat.lt_trans _ _ _ (proj1 Hij) (proj2 Hij)))), (proj2 (Hc j (proj2 Hij))) by auto. unfold same01, b01.
  destruct (Nat.eqb_spec (c i) (c j)), (Nat.eqb_spec (c i) k), (Nat.eqb_spec (c j) k); lia.
Qed.

Lemma flow_decoded ans : (forall i k, (i < gn g)%nat -> (k < p)%nat -> reports (ans i k) (fl_y a i k)) ->
  flow_fit g p ans = Ok (lab_of (gn g) c).
Proof.
  intros Hans. unfold flow_fit, flow_build.
  assert (E : forallb (fun i => forallb (fun j => memb i (neighbors g j)) (neighbors g i)) (seq 0 (gn g)) = true).
  { apply forallb_forall. intros i Hi. apply in_seq in Hi. apply forallb_forall. intros j Hj. apply neighbors_In in Hj. apply memb_In, neighbors_In.
    split; [lia|]. rewrite Hsym; [apply Hj|apply Hj|lia]. }
  rewrite E. cbn [bind]. f_equal. unfold flow_decode, lab_of. apply map_ext_in. intros i Hi. apply in_seq in Hi. destruct Hi as [_ Hi]. cbn [Nat.add] in Hi.
  destruct (Hc i Hi) as [Hk Hy]. apply (fold_last (fun k => is_one (ans i k)) (fun k => Z.of_nat k) _ _ (c i)).
  - apply in_seq. lia.
  - rewrite (is_one_reports_b _ _ (Hans i (c i) Hi Hk)), Hy, Nat.eqb_refl by auto. reflexivity.
  - intros k Hkin H1. apply in_seq in Hkin. destruct Hkin as [_ Hkin]. cbn [Nat.add] in Hkin.
    rewrite (is_one_reports_b _ _ (Hans i k Hi Hkin)), Hy in H1 by auto. destruct (Nat.eqb_spec (c i) k); [congruence|discriminate].
Qed.
End FlowSound.

(** ** completeness: one unit of flow per area, along the tree path to the sink *)
Section FlowComplete.
Variable g : graph.
Variable P : nat -> bool.
Variable s : nat.
Variables par dep : nat -> nat.
Hypothesis Hsym : symmetric g.
Hypothesis R : rooted g P s par dep.

Definition up (t a : nat) : nat := Nat.iter t par a.
Definition anc (a i : nat) : bool := Nat.leb (dep i) (dep a) && Nat.eqb (up (dep a - dep i) a) i.

Lemma up_S t a : up (Datatypes.S t) a = par (up t a).
Proof. reflexivity. Qed.

Lemma up_inside t a : inside g P a -> (t <= dep a)%nat -> inside g P (up t a) /\ dep (up t a) = (dep a - t)%nat.
Proof.
  intros Ha. induction t as [|t IH]; intros Ht; [split; [exact Ha|cbn; lia]|].
  destruct IH as [Hin Hd]; [lia|]. rewrite up_S.
  assert (Hne : up t a <> s) by (intros E; rewrite E, (rt_s _ _ _ _ _ R) in Hd; lia).
  destruct (rt_par _ _ _ _ _ R _ Hin Hne) as [H1 [_ H2]]. split; [auto|lia].
Qed.

Lemma anc_refl a : anc a a = true.
Proof. unfold anc. rewrite Nat.leb_refl, Nat.sub_diag. cbn. apply Nat.eqb_refl. Qed.
Lemma anc_root a : inside g P a -> anc a s = true.
Proof.
  intros Ha. unfold anc. rewrite (rt_s _ _ _ _ _ R), Nat.sub_0_r. cbn [Nat.leb andb]. apply Nat.eqb_eq.
  destruct (up_inside (dep a) a Ha (le_n _)) as [H1 H2]. apply (rt_0 _ _ _ _ _ R); [auto|lia].
Qed.

(** the edge (i, j) is on the path of [a] *)
Definition unit_flow (a i j : nat) : bool := P i && negb (Nat.eqb i s) && anc a i && Nat.eqb j (par i).

Lemma unit_flow_in a i j : (i < gn g)%nat -> unit_flow a i j = true -> inside g P i /\ i <> s /\ anc a i = true /\ j = par i.
Proof.
  intros Hi H. unfold unit_flow in H. rewrite !andb_true_iff, negb_true_iff, Nat.eqb_neq, Nat.eqb_eq in H. unfold inside. tauto.
Qed.

Lemma parent_neighbor i : inside g P i -> i <> s -> In (par i) (neighbors g i) /\ inside g P (par i).
Proof.
  intros Hi Hne. destruct (rt_par _ _ _ _ _ R i Hi Hne) as [Hp [Ht _]]. split; [|exact Hp].
  apply touch_neighbor; auto; [apply Hi|apply Hp].
Qed.

Lemma unit_out a i : inside g P i -> sumZ (map (fun j => b01 (unit_flow a i j)) (neighbors g i)) = b01 (anc a i && negb (Nat.eqb i s)).
Proof.
  intros Hi. destruct (Nat.eqb_spec i s) as [E|Hne]; cbn [negb].
  - rewrite andb_false_r. apply sumZ_zero. intros j _. unfold unit_flow. subst. rewrite Nat.eqb_refl, andb_false_r. reflexivity.
  - rewrite andb_true_r. rewrite (sumZ_point _ _ (par i)).
    + unfold unit_flow. rewrite (proj2 Hi), Nat.eqb_refl, andb_true_r. destruct (Nat.eqb_spec i s); [contradiction|]. reflexivity.
    + apply filter_seq_NoDup.
    + apply parent_neighbor; auto.
    + intros j _ Hj. unfold unit_flow. destruct (Nat.eqb_spec j (par i)); [contradiction|]. rewrite andb_false_r. reflexivity.
Qed.

Lemma unit_child a j : inside g P a -> inside g P j -> j <> s -> anc a j = true ->
  anc a (par j) = true /\ par j <> a /\ j = up (dep a - dep (par j) - 1) a.
Proof.
  intros Ha Hj Hne Hanc. unfold anc in *. rewrite andb_true_iff, Nat.leb_le, Nat.eqb_eq in Hanc. destruct Hanc as [Hle Hup].
  destruct (rt_par _ _ _ _ _ R j Hj Hne) as [Hp [_ Hd]]. split; [|split].
  - apply andb_true_iff. split; [apply Nat.leb_le; lia|]. apply Nat.eqb_eq.
    replace (dep a - dep (par j))%nat with (Datatypes.S (dep a - dep j)) by lia. rewrite up_S, Hup. reflexivity.
  - intros E. rewrite E in Hd. lia.
  - replace (dep a - dep (par j) - 1)%nat with (dep a - dep j)%nat by lia. auto.
Qed.

Lemma unit_in a i : inside g P a -> inside g P i ->
  sumZ (map (fun j => b01 (unit_flow a j i)) (neighbors g i)) = b01 (anc a i && negb (Nat.eqb i a)).
Proof.
  intros Ha Hi. destruct (anc a i && negb (Nat.eqb i a)) eqn:E; cbn [b01].
  - apply andb_true_iff in E. destruct E as [E1 E2]. apply negb_true_iff, Nat.eqb_neq in E2.
    pose proof E1 as E1'. unfold anc in E1. rewrite andb_true_iff, Nat.leb_le, Nat.eqb_eq in E1. destruct E1 as [Hle Hup].
    assert (Hlt : (dep i < dep a)%nat).
    { destruct (Nat.eq_dec (dep i) (dep a)) as [Ed|]; [|lia]. rewrite Ed, Nat.sub_diag in Hup. cbn in Hup. congruence. }
    set (j := up (dep a - dep i - 1) a). assert (Ht : (dep a - dep i - 1 <= dep a)%nat) by lia.
    destruct (up_inside (dep a - dep i - 1) a Ha Ht) as [Hj Hdj]. fold j in Hj, Hdj.
    assert (Hpj : par j = i). { unfold j. rewrite <- up_S. replace (Datatypes.S (dep a - dep i - 1)) with (dep a - dep i)%nat by lia. exact Hup. }
    assert (Hjs : j <> s) by (intros Es; rewrite Es, (rt_s _ _ _ _ _ R) in Hdj; lia).
    rewrite (sumZ_point _ _ j).
    + unfold unit_flow. rewrite (proj2 Hj), Hpj, Nat.eqb_refl. destruct (Nat.eqb_spec j s); [contradiction|]. cbn [negb andb].
      assert (Hanc : anc a j = true).
      { unfold anc. apply andb_true_iff. split; [apply Nat.leb_le; lia|]. apply Nat.eqb_eq. unfold j. f_equal. fold j. lia. }
      rewrite Hanc. reflexivity.
    + apply filter_seq_NoDup.
    + rewrite <- Hpj. destruct (parent_neighbor j Hj Hjs) as [Hn _]. apply neighbors_In in Hn. apply neighbors_In. split; [apply Hj|].
      rewrite Hsym; [apply Hn|apply Hn|apply Hj].
    + intros x Hx Hne. apply neighbors_In in Hx. destruct (unit_flow a x i) eqn:Ex; [|reflexivity].
      apply unit_flow_in in Ex; [|apply Hx]. destruct Ex as [Hxi [Hxs [Hax Hxp]]]. destruct (unit_child a x Ha Hxi Hxs Hax) as [_ [_ Hxu]].
      rewrite <- Hxp in Hxu. destruct Hne. exact Hxu.
  - apply sumZ_zero. intros x Hx. apply neighbors_In in Hx. destruct (unit_flow a x i) eqn:Ex; [|reflexivity].
    apply unit_flow_in in Ex; [|apply Hx]. destruct Ex as [Hxi [Hxs [Hax Hxp]]]. destruct (unit_child a x Ha Hxi Hxs Hax) as [H1 [H2 _]].
    rewrite <- Hxp in H1, H2. rewrite H1 in E. destruct (Nat.eqb_spec i a); [contradiction|discriminate].
Qed.

Definition tree_flow (i j : nat) : Z := sumZ (map (fun a => b01 (unit_flow a i j)) (members g P)).

Lemma b01_range b : 0 <= b01 b <= 1.
Proof. destruct b; cbn; lia. Qed.

Lemma tree_flow_bounds i j : 0 <= tree_flow i j <= Z.of_nat (length (members g P)).
Proof.
  unfold tree_flow. split; [apply sumZ_nonneg; intros; apply b01_range|].
  transitivity (sumZ (map (fun _ => 1) (members g P))); [apply sumZ_le; intros; apply b01_range|]. rewrite sumZ_const. lia.
Qed.
Lemma tree_flow_zero i j : (i < gn g)%nat -> (inside g P i -> i <> s -> j <> par i) -> tree_flow i j = 0.
Proof.
  intros Hi H. unfold tree_flow. apply sumZ_zero. intros a _. destruct (unit_flow a i j) eqn:E; [|reflexivity].
  apply unit_flow_in in E; auto. destruct E as [E1 [E2 [_ E3]]]. destruct (H E1 E2 E3).
Qed.

Lemma tree_flow_net i : inside g P i ->
  sumZ (map (fun j => tree_flow i j - tree_flow j i) (neighbors g i)) =
  if Nat.eqb i s then 1 - Z.of_nat (length (members g P)) else 1.
Proof.
  intros Hi. rewrite sumZ_minus. unfold tree_flow.
  rewrite (sumZ_swap (fun j a => b01 (unit_flow a i j))), (sumZ_swap (fun j a => b01 (unit_flow a j i))).
  rewrite <- sumZ_minus.
  rewrite (sumZ_ext _ (fun a => b01 (anc a i && negb (Nat.eqb i s)) - b01 (anc a i && negb (Nat.eqb i a)))).
  2:{ intros a Ha. apply members_In in Ha. rewrite unit_out, unit_in by auto. reflexivity. }
  assert (Hpt : sumZ (map (fun a => b01 (Nat.eqb i a)) (members g P)) = 1).
  { rewrite (sumZ_point _ _ i); [rewrite Nat.eqb_refl; reflexivity|apply members_NoDup|apply members_In; auto|].
    intros x _ Hx. destruct (Nat.eqb_spec i x); [congruence|reflexivity]. }
  destruct (Nat.eqb_spec i s) as [E|Hne]; cbn [negb].
  - rewrite (sumZ_ext _ (fun a => b01 (Nat.eqb i a) - 1)).
    + rewrite sumZ_minus, Hpt, sumZ_const. lia.
    + intros a Ha. apply members_In in Ha. subst i. rewrite (anc_root a Ha). destruct (Nat.eqb s a); reflexivity.
  - rewrite (sumZ_ext _ (fun a => b01 (Nat.eqb i a))); [exact Hpt|].
    intros a Ha. destruct (Nat.eqb_spec i a) as [<-|Hn]; cbn [negb].
    + rewrite anc_refl. reflexivity.
    + rewrite andb_true_r. change (b01 false) with 0. lia.
Qed.
End FlowComplete.

Theorem flow_sound g p a : symmetric g -> flow_ok g p a -> exists c, partition g p c /\
  (forall k, (k < p)%nat -> Z.of_nat (length (members g (cls c k))) <= Z.of_nat (gn g) - Z.of_nat p) /\
  (forall ans, (forall i k, (i < gn g)%nat -> (k < p)%nat -> reports (ans i k) (fl_y a i k)) -> flow_fit g p ans = Ok (lab_of (gn g) c)) /\
  (forall i j, (i < j < gn g)%nat -> same01 c i j <= fl_t a i j) /\
  flow_ok g p (mkFlow (same01 c) (fl_f a) (fl_y a) (fl_w a)).
Proof.
  intros Hsym Ha. destruct (flow_classes g p a Ha) as [c Hc]. exists c.
  split; [exact (flow_partition g p a Hsym Ha c Hc)|]. split; [exact (flow_size g p a Hsym Ha c Hc)|].
  split; [exact (flow_decoded g p a Hsym c Hc)|]. split; [exact (flow_t g p a Ha c Hc)|]. exact (flow_same_t g p a Ha c Hc).
Qed.

Theorem flow_complete g p c : symmetric g -> partition g p c ->
  (forall k, (k < p)%nat -> (length (members g (cls c k)) <= gn g - p)%nat) ->
  exists f w, flow_ok g p (mkFlow (same01 c) f (fun i k => b01 (Nat.eqb (c i) k)) w).
Proof.
  intros Hsym Hp Hsize. destruct (rooted_partition g p c Hp) as [root [par [dep HR]]].
  pose proof (partition_le g p c Hp) as Hpn.
  exists (fun i j k => tree_flow g (cls c k) (root k) par dep i j), (fun i k => b01 (Nat.eqb i (root k))).
  assert (Hin : forall i k, (i < gn g)%nat -> (k < p)%nat -> Nat.eqb (c i) k = false -> i <> root k).
  { intros i k Hi Hk E ->. pose proof (rt_in _ _ _ _ _ (HR k Hk)) as [_ H]. unfold cls in H. congruence. }
  unfold flow_ok. cbn [fl_t fl_f fl_y fl_w].
  split; [intros i j _; unfold same01; destruct (Nat.eqb _ _); lia|].
  split; [intros; apply tree_flow_bounds|].
  split; [intros; apply b01_range|].
  split; [intros; apply b01_range|].
  split.
  { intros i Hi. rewrite (sumZ_point _ _ (c i)); [rewrite Nat.eqb_refl; reflexivity|apply seq_NoDup| |].
    - apply in_seq. pose proof (proj1 Hp i Hi). lia.
    - intros k _ Hk. destruct (Nat.eqb_spec (c i) k); [congruence|reflexivity]. }
  split.
  { intros i k Hi Hk. destruct (Nat.eqb (c i) k) eqn:E; [apply b01_range|]. apply Hin in E; auto. destruct (Nat.eqb_spec i (root k)); [contradiction|cbn; lia]. }
  split.
  { intros k Hk. rewrite (sumZ_point _ _ (root k)); [rewrite Nat.eqb_refl; reflexivity|apply seq_NoDup| |].
    - apply in_seq. pose proof (rt_in _ _ _ _ _ (HR k Hk)) as [H _]. lia.
    - intros i _ Hi. destruct (Nat.eqb_spec i (root k)); [contradiction|reflexivity]. }
  assert (Hub : forall i j k, (k < p)%nat -> tree_flow g (cls c k) (root k) par dep i j <= Z.of_nat (gn g) - Z.of_nat p).
  { intros i j k Hk. pose proof (tree_flow_bounds g (cls c k) (root k) par dep i j) as [_ H]. specialize (Hsize k Hk). lia. }
  split.
  { intros i j k Hi Hj Hk. destruct (Nat.eqb (c i) k) eqn:E; cbn [b01]; [rewrite Z.mul_1_l; apply Hub; auto|].
    rewrite tree_flow_zero; [lia|auto|]. intros [_ H]. unfold cls in H. congruence. }
  split.
  { intros i j k Hi Hj Hk. destruct (Nat.eqb (c j) k) eqn:E; cbn [b01]; [rewrite Z.mul_1_l; apply Hub; auto|].
    rewrite tree_flow_zero; [lia|auto|]. intros H1 H2 ->. destruct (rt_par _ _ _ _ _ (HR k Hk) i H1 H2) as [[_ H3] _]. unfold cls in H3. congruence. }
  split.
  { intros i k Hi Hk. destruct (Nat.eqb (c i) k) eqn:E.
    - rewrite (tree_flow_net g (cls c k) (root k) par dep Hsym (HR k Hk)) by (split; auto). specialize (Hsize k Hk).
      destruct (Nat.eqb i (root k)); cbn [b01]; lia.
    - rewrite sumZ_zero; [pose proof (b01_range (Nat.eqb i (root k))) as Hb; cbn [b01]; nia|].
      intros j Hj. apply neighbors_In in Hj. rewrite (tree_flow_zero g (cls c k) (root k) par dep i j Hi), (tree_flow_zero g (cls c k) (root k) par dep j i (proj1 Hj)); [lia| |].
      + intros H1 H2 ->. destruct (rt_par _ _ _ _ _ (HR k Hk) j H1 H2) as [[_ H3] _]. unfold cls in H3. congruence.
      + intros [_ H]. unfold cls in H. congruence. }
  intros i j k Hij Hk. unfold same01, b01. destruct (Nat.eqb_spec (c i) (c j)), (Nat.eqb_spec (c i) k), (Nat.eqb_spec (c j) k); lia.
Qed.
