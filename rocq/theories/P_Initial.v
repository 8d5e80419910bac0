(** generate_initial_sol as a list of arrays. *)
From Verif Require Import Base Spec M_Graph P_Graph M_Util P_Base P_Util P_Forest P_Init.

Lemma labels_exactly_n labels p : labels_exactly labels p -> n_labels labels = p.
Proof.
  intros H. rewrite <- (seq_length p 0), <- (map_length Z.of_nat).
  apply NoDup_same_length; [apply NoDup_nodup| |].
  - apply NoDup_map_inj; [|apply seq_NoDup]. intros; lia.
  - intros z. rewrite nodup_In. rewrite (H z), in_map_iff. split.
    + intros Hz. exists (Z.to_nat z). rewrite in_seq. lia.
    + intros [k [<- Hk]]. apply in_seq in Hk. lia.
Qed.

(** invariant of collecting the yielded arrays *)
Definition init_inv (g : graph) (built : nat) (done : list nat) (acc : list yielded) : Prop :=
  exists arrs, acc = map YArr arrs /\
  (forall arr, In arr arrs -> length arr = gn g) /\
  (forall a i arr, a < gn g -> nth_error arrs i = Some arr -> ~ In (comp_label g a) done ->
     nth_error arr a = Some (-1)%Z) /\
  (forall a, a < gn g -> In (comp_label g a) done -> exists i arr z,
     nth_error arrs i = Some arr /\ nth_error arr a = Some z /\ (0 <= z < Z.of_nat built)%Z /\
     forall j arr', j <> i -> nth_error arrs j = Some arr' -> nth_error arr' a = Some (-1)%Z) /\
  (forall z, (0 <= z < Z.of_nat built)%Z -> exists i arr,
     nth_error arrs i = Some arr /\ contiguous g (region arr z) /\
     forall j arr' a, j <> i -> nth_error arrs j = Some arr' -> nth_error arr' a <> Some z).

Lemma nth_error_snoc {A} (l : list A) x i y :
  nth_error (l ++ [x]) i = Some y -> (i < length l /\ nth_error l i = Some y) \/ (i = length l /\ y = x).
Proof.
  intros H. destruct (Nat.lt_ge_cases i (length l)) as [Hi|Hi].
  - rewrite nth_error_app1 in H by auto. auto.
  - right. rewrite nth_error_app2 in H by auto. destruct (i - length l) as [|m] eqn:E; [|destruct m; discriminate].
    cbn in H. injection H as ->. split; [lia|auto].
Qed.

Lemma nth_error_snoc_last {A} (l : list A) x : nth_error (l ++ [x]) (length l) = Some x.
Proof. rewrite nth_error_app2, Nat.sub_diag by auto. reflexivity. Qed.

Lemma init_inv_step g built done acc comp k arr :
  ~ In comp done -> good_comp g comp k built arr -> init_inv g built done acc ->
  init_inv g (built + k) (comp :: done) (acc ++ [YArr arr]).
Proof.
  intros Hnd [Glen [Gout [Gin Gcon]]] [arrs [-> [Hlen [Hout [Hin Hcon]]]]].
  exists (arrs ++ [arr]). split; [rewrite map_app; reflexivity|]. split; [|split; [|split]].
  - intros x Hx. apply in_app_or in Hx. destruct Hx as [Hx|[<-|[]]]; auto.
  - intros a i x Ha Hi Hd. apply nth_error_snoc in Hi. cbn in Hd. destruct Hi as [[_ Hi]|[_ ->]].
    + apply (Hout a i); auto.
    + apply Gout; auto.
  - intros a Ha [Hd|Hd].
    + destruct (Gin a Ha (eq_sym Hd)) as [z [Hz Hzb]]. exists (length arrs), arr, z.
      split; [apply nth_error_snoc_last|]. split; [auto|]. split; [lia|].
      intros j arr' Hj Hn. apply nth_error_snoc in Hn. destruct Hn as [[_ Hn]|[Hn _]]; [|lia].
      apply (Hout a j); auto. rewrite <- Hd. auto.
    + destruct (Hin a Ha Hd) as [i [x [z [Hi [Hz [Hzb Huniq]]]]]]. exists i, x, z.
      split; [rewrite nth_error_app1; auto; eapply nth_error_lt; eauto|]. split; [auto|]. split; [lia|].
      intros j arr' Hj Hn. apply nth_error_snoc in Hn. destruct Hn as [[_ Hn]|[_ ->]].
      * apply (Huniq j); auto.
      * apply Gout; auto. intros E. apply Hnd. rewrite <- E. auto.
  - assert (Glab : forall a z, nth_error arr a = Some z -> z = (-1)%Z \/ (Z.of_nat built <= z < Z.of_nat (built + k))%Z).
    { intros a z Hz. assert (Ha : a < gn g) by (apply nth_error_lt in Hz; lia).
      destruct (Nat.eq_dec (comp_label g a) comp) as [E|E].
      - destruct (Gin a Ha E) as [z' [Hz' Hb]]. rewrite Hz in Hz'. injection Hz' as <-. auto.
      - rewrite (Gout a Ha E) in Hz. injection Hz as <-. auto. }
    intros z Hz. destruct (Z.lt_ge_cases z (Z.of_nat built)) as [Hlt|Hge].
    + destruct (Hcon z ltac:(lia)) as [i [x [Hi [Hc Hu]]]]. exists i, x.
      split; [rewrite nth_error_app1; auto; eapply nth_error_lt; eauto|]. split; [auto|].
      intros j arr' a Hj Hn. apply nth_error_snoc in Hn. destruct Hn as [[_ Hn]|[_ ->]].
      * apply (Hu j); auto.
      * intros E. apply Glab in E. lia.
    + exists (length arrs), arr. split; [apply nth_error_snoc_last|]. split; [apply Gcon; lia|].
      intros j arr' a Hj Hn. apply nth_error_snoc in Hn. destruct Hn as [[_ Hn]|[Hn _]]; [|lia].
      intros E. assert (Ha : a < gn g).
      { apply nth_error_lt in E. rewrite (Hlen arr') in E; auto. eapply nth_error_In; eauto. }
      destruct (in_dec Nat.eq_dec (comp_label g a) done) as [Hd|Hd].
      * destruct (Hin a Ha Hd) as [i [x [z' [Hi [Hz' [Hzb Hun]]]]]].
        destruct (Nat.eq_dec j i) as [->|Hne].
        -- rewrite Hi in Hn. injection Hn as <-. rewrite Hz' in E. injection E as <-. lia.
        -- rewrite (Hun j arr') in E; auto. injection E as <-. lia.
      * rewrite (Hout a j arr') in E; auto. injection E as <-. lia.
Qed.

Definition overlay_at (arrs : list (list Z)) (a : nat) : Z :=
  match find (fun arr => negb (Z.eqb (lab arr a) (-1))) arrs with
  | Some arr => lab arr a
  | None => (-1)%Z
  end.

Lemma find_unique {A} (f : A -> bool) l i x :
  nth_error l i = Some x -> f x = true ->
  (forall j y, j <> i -> nth_error l j = Some y -> f y = false) -> find f l = Some x.
Proof.
  revert i. induction l as [|y l IH]; intros i Hi Hx Hu; [destruct i; discriminate|]. cbn.
  destruct i as [|i].
  - cbn in Hi. injection Hi as ->. rewrite Hx. auto.
  - rewrite (Hu 0 y ltac:(lia) eq_refl). apply (IH i); auto.
    intros j z Hj Hz. apply (Hu (S j) z); [lia|auto].
Qed.

Lemma init_inv_overlay g built done acc :
  (forall c, In c done <-> c < n_components g) -> init_inv g built done acc ->
  exists arrs labels, acc = map YArr arrs /\ overlays (gn g) arrs labels /\
    feasible g labels built /\ labels_exactly labels built.
Proof.
  intros Hdone [arrs [-> [Hlen [_ [Hin Hcon]]]]].
  exists arrs, (map (overlay_at arrs) (seq 0 (gn g))). split; [auto|].
  set (labels := map (overlay_at arrs) (seq 0 (gn g))).
  assert (Hll : length labels = gn g) by (unfold labels; rewrite map_length, seq_length; auto).
  assert (Hla : forall a, a < gn g -> nth_error labels a = Some (overlay_at arrs a)).
  { intros a Ha. unfold labels. rewrite nth_error_map, (nth_error_nth' _ 0) by (rewrite seq_length; auto).
    rewrite seq_nth by auto. reflexivity. }
  assert (Hval : forall a, a < gn g -> exists i arr z, nth_error arrs i = Some arr /\ nth_error arr a = Some z /\
     (0 <= z < Z.of_nat built)%Z /\ nth_error labels a = Some z /\
     forall j arr', j <> i -> nth_error arrs j = Some arr' -> nth_error arr' a = Some (-1)%Z).
  { intros a Ha. assert (Hd : In (comp_label g a) done) by (apply Hdone, comp_label_lt; auto).
    destruct (Hin a Ha Hd) as [i [arr [z [Hi [Hz [Hzb Hun]]]]]]. exists i, arr, z. repeat split; auto; try lia.
    rewrite Hla by auto. f_equal. unfold overlay_at.
    rewrite (find_unique _ arrs i arr Hi).
    - apply lab_of_nth_error; auto.
    - rewrite (lab_of_nth_error _ _ _ Hz). destruct (Z.eqb_spec z (-1)); [lia|auto].
    - intros j y Hj Hy. rewrite (lab_of_nth_error _ _ _ (Hun j y Hj Hy)). reflexivity. }
  assert (Hreg : forall z, (0 <= z < Z.of_nat built)%Z -> contiguous g (region labels z)).
  { intros z Hz. destruct (Hcon z Hz) as [i [arr [Hi [Hc Hu]]]]. eapply contiguous_ext; [|exact Hc].
    intros a. unfold region. split; intros E.
    - assert (Ha : a < gn g) by (apply nth_error_lt in E; rewrite (Hlen arr) in E; auto; eapply nth_error_In; eauto).
      destruct (Hval a Ha) as [i' [arr' [z' [Hi' [Hz' [Hzb [Hl Hun]]]]]]].
      destruct (Nat.eq_dec i i') as [<-|Hne].
      + rewrite Hi in Hi'. injection Hi' as <-. congruence.
      + rewrite (Hun i arr Hne Hi) in E. injection E as <-. lia.
    - assert (Ha : a < gn g) by (apply nth_error_lt in E; lia).
      destruct (Hval a Ha) as [i' [arr' [z' [Hi' [Hz' [Hzb [Hl Hun]]]]]]].
      rewrite Hl in E. injection E as ->.
      destruct (Nat.eq_dec i' i) as [->|Hne].
      + rewrite Hi in Hi'. injection Hi' as <-. auto.
      + exfalso. apply (Hu i' arr' a Hne Hi'). auto. }
  assert (Hex : labels_exactly labels built).
  { intros z. split.
    - intros H. apply In_nth_error in H. destruct H as [a E].
      assert (Ha : a < gn g) by (apply nth_error_lt in E; lia).
      destruct (Hval a Ha) as [i' [arr' [z' [_ [_ [Hzb [Hl _]]]]]]]. rewrite Hl in E. injection E as <-. auto.
    - intros Hz. destruct (Hreg z Hz) as [[a Ha] _]. eapply nth_error_In; eauto. }
  split; [|split; [|exact Hex]].
  - split; [auto|]. intros a Ha. destruct (Hval a Ha) as [i [arr [z [Hi [Hz [Hzb [Hl Hun]]]]]]].
    exists i, arr. split; [auto|]. split; [congruence|]. split; [intros E; rewrite Hz in E; injection E as E; lia|auto].
  - split; [auto|]. split; [apply labels_exactly_n; auto|]. intros r Hr. apply Hreg. apply Hex; auto.
Qed.

Theorem initial_solutions_spec order g n_regions r :
  (forall l, Permutation (order l) l) -> n_regions <> 1%Z -> 0 < gn g ->
  (Z.of_nat (n_components g) <= n_regions <= Z.of_nat (gn g))%Z ->
  exists arrs labels r', initial_solutions order g n_regions r = Ok (map YArr arrs, r') /\
    overlays (gn g) arrs labels /\ feasible g labels (Z.to_nat n_regions) /\
    labels_exactly labels (Z.to_nat n_regions).
Proof.
  intros Hord Hn1 Hg Hb.
  assert (H : post noexn False (initial_solutions order g n_regions r)
    (fun sr => exists done, (forall c, In c done <-> c < n_components g) /\
                            init_inv g (Z.to_nat n_regions) done (fst sr))).
  { apply generate_initial_sol_post; auto.
    - intros comp k built done arr s r0 Hc Hnd Hk _ Hgood HI. cbn. apply init_inv_step; auto.
    - exists []. repeat split; cbn; auto; try tauto.
      + intros a i arr _ H. destruct i; discriminate.
      + intros; lia. }
  apply post_total in H. destruct H as [[acc r'] [E [done [Hd HI]]]]. cbn in HI.
  destruct (init_inv_overlay g _ done acc Hd HI) as [arrs [labels [-> H]]].
  exists arrs, labels, r'. split; [exact E|exact H].
Qed.

Theorem initial_solutions_error order g n_regions r :
  n_regions <> 1%Z ->
  (gn g = 0 \/ (n_regions < Z.of_nat (n_components g))%Z \/ (Z.of_nat (gn g) < n_regions)%Z) ->
  exists m, initial_solutions order g n_regions r = Raise (ValueError m).
Proof.
  intros Hn1 H. unfold initial_solutions, generate_initial_sol.
  destruct (Nat.eqb_spec (gn g) 0); [eauto|].
  destruct (Z.ltb_spec (Z.of_nat (gn g)) n_regions); [eauto|].
  destruct (Z.eqb_spec n_regions 1); [congruence|].
  destruct (Z.ltb_spec n_regions (Z.of_nat (n_components g))); [eauto|].
  exfalso. lia.
Qed.
