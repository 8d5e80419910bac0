(** Proofs about the graph utilities. *)
From Verif Require Import Base Spec M_Graph.

(** ** generic list lemmas *)
Lemma memb_In a l : memb a l = true <-> In a l.
Proof.
  unfold memb. rewrite existsb_exists. split.
  - intros [x [H1 H2]]. apply Nat.eqb_eq in H2. subst. exact H1.
  - intros H. exists a. split; [exact H|apply Nat.eqb_refl].
Qed.

Lemma memb_notIn a l : memb a l = false <-> ~ In a l.
Proof. rewrite <- memb_In. destruct (memb a l); split; intro H; try congruence; exfalso; auto. Qed.

Lemma membZ_In a l : membZ a l = true <-> In a l.
Proof.
  unfold membZ. rewrite existsb_exists. split.
  - intros [x [H1 H2]]. apply Z.eqb_eq in H2. subst. exact H1.
  - intros H. exists a. split; [exact H|apply Z.eqb_refl].
Qed.

Lemma index_where_spec {A} (p : A -> bool) l k :
  index_where p l = Some k <->
  (exists x, nth_error l k = Some x /\ p x = true) /\
  (forall j x, j < k -> nth_error l j = Some x -> p x = false).
Proof.
  revert k. induction l as [|y l IH]; intros k; cbn [index_where].
  - split; [discriminate|]. intros [[x [H _]] _]. destruct k; discriminate.
  - destruct (p y) eqn:Hy.
    + split.
      * intros H; injection H as <-. split; [exists y; auto|]. intros j x Hj; lia.
      * intros [_ H2]. destruct k as [|k]; [reflexivity|].
        specialize (H2 0 y ltac:(lia) eq_refl). congruence.
    + destruct (index_where p l) as [k'|] eqn:E.
      * specialize (IH k'). destruct IH as [IH _]. specialize (IH eq_refl).
        destruct IH as [[x [Hx Hpx]] Hmin]. split.
        -- intros H; injection H as <-. split; [exists x; auto|].
           intros [|j] z Hj Hz; [cbn in Hz; congruence|]. cbn in Hz. apply (Hmin j); [lia|exact Hz].
        -- intros [[z [Hz Hpz]] Hmin2]. f_equal.
           destruct k as [|k]; [cbn in Hz; congruence|]. cbn in Hz. f_equal.
           destruct (Nat.lt_trichotomy k' k) as [Hlt|[Heq|Hlt]]; [|exact Heq|].
           ++ specialize (Hmin2 (S k') x ltac:(lia) Hx). congruence.
           ++ specialize (Hmin k z Hlt Hz). congruence.
      * split; [discriminate|]. intros [[z [Hz Hpz]] Hmin2].
        destruct k as [|k]; [cbn in Hz; congruence|]. cbn in Hz.
        assert (IHk := proj2 (IH k)). exfalso.
        assert (None = Some k); [|discriminate]. apply IHk. split; [exists z; auto|].
        intros j x Hj Hx. apply (Hmin2 (S j)); [lia|exact Hx].
Qed.

Lemma index_where_None {A} (p : A -> bool) l :
  index_where p l = None <-> forall x, In x l -> p x = false.
Proof.
  induction l as [|y l IH]; cbn [index_where].
  - split; [intros _ x []|reflexivity].
  - destruct (p y) eqn:Hy.
    + split; [discriminate|]. intros H. specialize (H y (or_introl eq_refl)). congruence.
    + destruct (index_where p l) eqn:E.
      * split; [discriminate|]. intros H. exfalso.
        assert (Some n = None); [|discriminate].
        apply IH. intros x Hx. apply H. right; exact Hx.
      * split; [|reflexivity]. intros _ x [<-|Hx]; [exact Hy|]. apply IH; auto.
Qed.

Lemma filter_seq_NoDup f n : NoDup (filter f (seq 0 n)).
Proof. apply NoDup_filter, seq_NoDup. Qed.

Lemma filter_length_le {A} f (l : list A) : length (filter f l) <= length l.
Proof. induction l as [|x l IH]; cbn; [lia|]. destruct (f x); cbn; lia. Qed.

Lemma filter_length_lt {A} (f g : A -> bool) l x :
  (forall y, In y l -> f y = true -> g y = true) -> In x l -> g x = true -> f x = false ->
  length (filter f l) < length (filter g l).
Proof.
  intros Himp Hin Hg Hf. induction l as [|y l IH]; [destruct Hin|].
  assert (Hle : length (filter f l) <= length (filter g l)).
  { clear -Himp. assert (Hi : forall z, In z l -> f z = true -> g z = true) by (intros; apply Himp; [right|]; auto).
    clear Himp. induction l as [|z l IH]; cbn; [lia|].
    assert (length (filter f l) <= length (filter g l)) by (apply IH; intros; apply Hi; [right|]; auto).
    destruct (f z) eqn:E1; destruct (g z) eqn:E2; cbn; try lia.
    specialize (Hi z (or_introl eq_refl) E1). congruence. }
  cbn. destruct Hin as [<-|Hin].
  - rewrite Hf, Hg. cbn. lia.
  - assert (length (filter f l) < length (filter g l)).
    { apply IH; auto. intros; apply Himp; [right|]; auto. }
    destruct (f y) eqn:E1; destruct (g y) eqn:E2; cbn; try lia.
    specialize (Himp y (or_introl eq_refl) E1). congruence.
Qed.

(** ** touch / linked *)
Lemma wadj_touch g u v : wadj g u v = true <-> touch g u v.
Proof. unfold wadj, touch. rewrite orb_true_iff. tauto. Qed.

Lemma touch_sym g u v : touch g u v -> touch g v u.
Proof. unfold touch; tauto. Qed.

Lemma linked_in_l g (P : nat -> Prop) u v : linked g P u v -> P u.
Proof. destruct 1; auto. Qed.

Lemma linked_in_r g (P : nat -> Prop) u v : linked g P u v -> P v.
Proof. induction 1; auto. Qed.

Lemma linked_trans g P u v w : linked g P u v -> linked g P v w -> linked g P u w.
Proof. induction 1; intros; [assumption|]. eapply linked_step; eauto. Qed.

Lemma linked_one g (P : nat -> Prop) u v : P u -> P v -> touch g u v -> linked g P u v.
Proof. intros. eapply linked_step; eauto. apply linked_refl; auto. Qed.

Lemma linked_sym g P u v : linked g P u v -> linked g P v u.
Proof.
  induction 1 as [u Hu|u v w Hu Huv Hvw IH]; [apply linked_refl; auto|].
  eapply linked_trans; [exact IH|]. apply linked_one; auto.
  - eapply linked_in_l; eauto.
  - apply touch_sym; auto.
Qed.

Lemma linked_mono g (P Q : nat -> Prop) u v :
  (forall x, P x -> Q x) -> linked g P u v -> linked g Q u v.
Proof. intros H. induction 1; [apply linked_refl; auto|]. eapply linked_step; eauto. Qed.

Lemma contiguous_ext g (P Q : nat -> Prop) :
  (forall x, P x <-> Q x) -> contiguous g P -> contiguous g Q.
Proof.
  intros H [[u Hu] Hl]. split; [exists u; apply H; auto|].
  intros x y Hx Hy. apply (linked_mono g P); [intros; apply H; auto|]. apply Hl; apply H; auto.
Qed.

(** linked to a fixed root is enough *)
Lemma contiguous_root g (P : nat -> Prop) u : P u -> (forall v, P v -> linked g P u v) -> contiguous g P.
Proof.
  intros Hu H. split; [exists u; auto|]. intros x y Hx Hy.
  eapply linked_trans; [apply linked_sym; apply H; auto|apply H; auto].
Qed.

(** adding an area that touches a contiguous set *)
Lemma contiguous_add g (P : nat -> Prop) a b :
  contiguous g P -> P b -> touch g b a -> contiguous g (fun x => P x \/ x = a).
Proof.
  intros [_ Hl] Hb Hba. apply contiguous_root with (u := b); [auto|].
  intros v [Hv| ->].
  - apply (linked_mono g P); [auto|]. apply Hl; auto.
  - apply linked_one; auto.
Qed.

(** ** reachability *)
Lemma expand_In g s v : In v (expand g s) <-> v < gn g /\ (In v s \/ exists u, In u s /\ touch g u v).
Proof.
  unfold expand. rewrite filter_In, in_seq, orb_true_iff, memb_In, existsb_exists.
  split.
  - intros [H1 [H2|[u [H2 H3]]]]; (split; [lia|]); [auto|]. right. exists u. rewrite <- wadj_touch. auto.
  - intros [H1 [H2|[u [H2 H3]]]]; (split; [lia|]); [auto|]. right. exists u. rewrite wadj_touch. auto.
Qed.

Definition rounds g k v := Nat.iter k (expand g) [v].

Lemma rounds_S g k v : rounds g (S k) v = expand g (rounds g k v).
Proof. reflexivity. Qed.

Lemma rounds_bound g k v w : v < gn g -> In w (rounds g k v) -> w < gn g.
Proof.
  intros Hv. destruct k as [|k].
  - cbn. intros [<-|[]]; auto.
  - rewrite rounds_S, expand_In. tauto.
Qed.

Lemma rounds_mono g k v w : v < gn g -> In w (rounds g k v) -> In w (rounds g (S k) v).
Proof. intros Hv H. rewrite rounds_S, expand_In. split; [eapply rounds_bound; eauto|auto]. Qed.

Lemma rounds_sound g k v w : v < gn g -> In w (rounds g k v) -> linked g (areas g) v w.
Proof.
  intros Hv. revert w. induction k as [|k IH]; intros w.
  - cbn. intros [<-|[]]. apply linked_refl; exact Hv.
  - rewrite rounds_S, expand_In. intros [Hw [H|[u [Hu Ht]]]]; [auto|].
    eapply linked_trans; [apply IH; eauto|].
    apply linked_one; [exact (rounds_bound _ _ _ _ Hv Hu)|exact Hw|exact Ht].
Qed.

Definition closed_under g (s : list nat) := forall u w, In u s -> w < gn g -> touch g u w -> In w s.

Lemma closed_linked g s u w : closed_under g s -> In u s -> linked g (areas g) u w -> In w s.
Proof.
  intros Hc Hu H. induction H as [u _|u x w _ Hux Hxw IH]; [auto|].
  apply IH. eapply Hc; eauto. apply (linked_in_l _ _ _ _ Hxw).
Qed.

Lemma expand_sorted_filter g s : exists f, expand g s = filter f (seq 0 (gn g)).
Proof. eexists; reflexivity. Qed.

Lemma rounds_NoDup g k v : NoDup (rounds g k v).
Proof.
  destruct k as [|k].
  - cbn. constructor; [intros []|constructor].
  - rewrite rounds_S. apply filter_seq_NoDup.
Qed.

Lemma rounds_closed_or_grow g v k : v < gn g ->
  (exists j, j <= k /\ closed_under g (rounds g j v)) \/ k < length (rounds g k v).
Proof.
  intros Hv. induction k as [|k IH].
  - right. cbn. lia.
  - destruct IH as [[j [Hj Hc]]|Hlen]; [left; exists j; split; [lia|auto]|].
    destruct (forallb (fun u => forallb (fun w => negb (wadj g u w) || memb w (rounds g k v)) (seq 0 (gn g))) (rounds g k v)) eqn:E.
    + left. exists k. split; [lia|]. intros u w Hu Hw Ht.
      rewrite forallb_forall in E. specialize (E u Hu). rewrite forallb_forall in E.
      specialize (E w). rewrite in_seq in E. specialize (E ltac:(lia)).
      apply wadj_touch in Ht. rewrite Ht in E. cbn in E. apply memb_In; exact E.
    + right.
      assert (Hex : exists u w, In u (rounds g k v) /\ w < gn g /\ touch g u w /\ ~ In w (rounds g k v)).
      { apply Bool.not_true_iff_false in E.
        destruct (existsb (fun u => existsb (fun w => wadj g u w && negb (memb w (rounds g k v))) (seq 0 (gn g))) (rounds g k v)) eqn:E2.
        - rewrite existsb_exists in E2. destruct E2 as [u [Hu H]]. rewrite existsb_exists in H.
          destruct H as [w [Hw H]]. apply andb_true_iff in H. destruct H as [H1 H2].
          exists u, w. rewrite in_seq in Hw. rewrite <- wadj_touch.
          repeat split; auto; try lia. intros Hin. apply memb_In in Hin. rewrite Hin in H2. discriminate.
        - exfalso. apply E. apply forallb_forall. intros u Hu. apply forallb_forall. intros w Hw.
          apply Bool.not_true_iff_false in E2. destruct (negb (wadj g u w) || memb w (rounds g k v)) eqn:E3; auto.
          exfalso. apply E2. apply existsb_exists. exists u. split; auto. apply existsb_exists. exists w. split; auto.
          apply orb_false_iff in E3. destruct E3 as [E3 E4]. rewrite E4. apply negb_false_iff in E3. rewrite E3. reflexivity. }
      destruct Hex as [u [w [Hu [Hw [Ht Hnw]]]]].
      assert (incl (w :: rounds g k v) (rounds g (S k) v)).
      { intros x [<-|Hx].
        - rewrite rounds_S, expand_In. split; [auto|]. right. exists u; auto.
        - apply rounds_mono; auto. }
      assert (NoDup (w :: rounds g k v)) by (constructor; [auto|apply rounds_NoDup]).
      pose proof (NoDup_incl_length H0 H) as H1. cbn [length] in H1. lia.
Qed.

Lemma closed_stable g v j k : v < gn g -> closed_under g (rounds g j v) -> j <= k ->
  forall w, In w (rounds g k v) <-> In w (rounds g j v).
Proof.
  intros Hv Hc Hjk. induction Hjk as [|k Hjk IH]; [tauto|].
  intros w. rewrite rounds_S, expand_In. split.
  - intros [Hw [H|[u [Hu Ht]]]]; [apply IH; auto|]. eapply Hc; eauto. apply IH; auto.
  - intros H. split; [eapply rounds_bound; eauto|]. left. apply IH; auto.
Qed.

Lemma reach_spec g v w : v < gn g -> (In w (reach g v) <-> linked g (areas g) v w).
Proof.
  intros Hv. split; [apply rounds_sound; auto|].
  intros H. change (In w (rounds g (gn g) v)).
  destruct (rounds_closed_or_grow g v (gn g) Hv) as [[j [Hj Hc]]|Hlen].
  - apply (closed_stable g v j (gn g) Hv Hc Hj). eapply closed_linked; eauto.
    clear -Hv. induction j as [|j IH]; [cbn; auto|]. apply rounds_mono; auto.
  - exfalso. assert (length (rounds g (gn g) v) <= length (seq 0 (gn g))).
    { apply NoDup_incl_length; [apply rounds_NoDup|]. intros x Hx. apply in_seq.
      apply rounds_bound in Hx; auto; lia. }
    rewrite seq_length in H0. lia.
Qed.

(** ** connected components *)
(** Invariant of the scan after processing nodes 0..k-1. *)
Definition comps_inv g (k : nat) (cs : list (list nat)) : Prop :=
  (forall v, v < k -> v < gn g -> exists c, In c cs /\ In v c) /\
  (forall c, In c cs -> exists v, v < k /\ v < gn g /\ (forall w, In w c <-> linked g (areas g) v w)) /\
  (forall i j ci cj v, nth_error cs i = Some ci -> nth_error cs j = Some cj ->
     In v ci -> In v cj -> i = j).

Lemma components_loop g k : k <= gn g -> comps_inv g k (fold_left (comp_step g) (seq 0 k) []).
Proof.
  induction k as [|k IH]; intros Hk.
  - cbn. repeat split.
    + intros; lia.
    + intros c [].
    + intros i j ci cj v H. destruct i; discriminate.
  - rewrite seq_S, fold_left_app. cbn [fold_left].
    specialize (IH ltac:(lia)). destruct IH as [Hcov [Hcls Hdis]].
    set (cs := fold_left (comp_step g) (seq 0 k) []) in *.
    unfold comp_step. cbn [plus].
    destruct (existsb (memb k) cs) eqn:E.
    + apply existsb_exists in E. destruct E as [c [Hc Hkc]]. apply memb_In in Hkc.
      repeat split; auto.
      * intros v Hv Hvn. destruct (Nat.eq_dec v k) as [->|Hne]; [exists c; auto|]. apply Hcov; lia.
      * intros c' Hc'. destruct (Hcls c' Hc') as [v [H1 H2]]. exists v. split; [lia|auto].
    + assert (Hfresh : forall c, In c cs -> ~ In k c).
      { intros c Hc Hkc. apply Bool.not_true_iff_false in E. apply E. apply existsb_exists.
        exists c. split; auto. apply memb_In; auto. }
      assert (Hkn : k < gn g) by lia.
      assert (Hdisj : forall c v, In c cs -> In v c -> ~ In v (reach g k)).
      { intros c v Hc Hv Hr. apply reach_spec in Hr; auto.
        destruct (Hcls c Hc) as [u [_ [Hun Hu]]]. apply (Hfresh c Hc). apply Hu.
        eapply linked_trans; [apply Hu; eauto|]. apply linked_sym; auto. }
      repeat split.
      * intros v Hv Hvn. destruct (Nat.eq_dec v k) as [->|Hne].
        -- exists (reach g k). split; [apply in_or_app; right; left; auto|].
           apply reach_spec; auto. apply linked_refl; auto.
        -- destruct (Hcov v ltac:(lia) Hvn) as [c [Hc Hv']]. exists c. split; [apply in_or_app; auto|auto].
      * intros c Hc. apply in_app_or in Hc. destruct Hc as [Hc|[<-|[]]].
        -- destruct (Hcls c Hc) as [v [H1 H2]]. exists v. split; [lia|auto].
        -- exists k. split; [lia|]. split; [auto|]. intros w. apply reach_spec; auto.
      * intros i j ci cj v Hi Hj Hvi Hvj.
        destruct (Nat.lt_ge_cases i (length cs)) as [Hi2|Hi2];
        destruct (Nat.lt_ge_cases j (length cs)) as [Hj2|Hj2].
        -- rewrite nth_error_app1 in Hi, Hj by auto. eapply Hdis; eauto.
        -- rewrite nth_error_app1 in Hi by auto. rewrite nth_error_app2 in Hj by auto.
           destruct (j - length cs) as [|m] eqn:Em; [|destruct m; discriminate].
           cbn in Hj. injection Hj as <-. exfalso.
           apply (Hdisj ci v); auto. apply nth_error_In in Hi; auto.
        -- rewrite nth_error_app2 in Hi by auto. rewrite nth_error_app1 in Hj by auto.
           destruct (i - length cs) as [|m] eqn:Em; [|destruct m; discriminate].
           cbn in Hi. injection Hi as <-. exfalso.
           apply (Hdisj cj v); auto. apply nth_error_In in Hj; auto.
        -- rewrite nth_error_app2 in Hi, Hj by auto.
           destruct (i - length cs) as [|m] eqn:Em; [|destruct m; discriminate].
           destruct (j - length cs) as [|m] eqn:Em2; [|destruct m; discriminate]. lia.
Qed.

Lemma components_inv g : comps_inv g (gn g) (components g).
Proof. apply components_loop; lia. Qed.

Lemma components_cover g v : v < gn g -> exists c, In c (components g) /\ In v c.
Proof. intros H. apply (components_inv g); auto. Qed.

(** membership in a component is reachability from any of its members *)
Lemma components_class g c v w :
  In c (components g) -> In v c -> (In w c <-> linked g (areas g) v w).
Proof.
  intros Hc Hv. destruct (components_inv g) as [_ [Hcls _]].
  destruct (Hcls c Hc) as [u [_ [_ Hu]]]. rewrite Hu. apply Hu in Hv. split; intros H.
  - eapply linked_trans; [apply linked_sym; exact Hv|exact H].
  - eapply linked_trans; [exact Hv|exact H].
Qed.

Lemma components_nonempty g c : In c (components g) -> exists v, v < gn g /\ In v c.
Proof.
  intros Hc. destruct (components_inv g) as [_ [Hcls _]].
  destruct (Hcls c Hc) as [u [_ [Hn Hu]]]. exists u. split; auto. apply Hu. apply linked_refl; auto.
Qed.

Lemma components_bound g c v : In c (components g) -> In v c -> v < gn g.
Proof.
  intros Hc Hv. destruct (components_inv g) as [_ [Hcls _]].
  destruct (Hcls c Hc) as [u [_ [Hn Hu]]]. apply Hu in Hv. apply linked_in_r in Hv. exact Hv.
Qed.

Lemma components_disjoint g i j ci cj v :
  nth_error (components g) i = Some ci -> nth_error (components g) j = Some cj ->
  In v ci -> In v cj -> i = j.
Proof. apply (components_inv g). Qed.

Lemma comp_label_spec g v k : v < gn g ->
  (comp_label g v = k <-> exists c, nth_error (components g) k = Some c /\ In v c).
Proof.
  intros Hv. unfold comp_label. destruct (index_where (memb v) (components g)) as [j|] eqn:E.
  - apply index_where_spec in E. destruct E as [[c [Hc Hm]] _]. apply memb_In in Hm. split.
    + intros <-. exists c; auto.
    + intros [c' [Hc' Hv']]. eapply components_disjoint; eauto.
  - exfalso. destruct (components_cover g v Hv) as [c [Hc Hvc]].
    rewrite index_where_None in E. specialize (E c Hc). apply memb_In in Hvc. congruence.
Qed.

Lemma comp_label_lt g v : v < gn g -> comp_label g v < n_components g.
Proof.
  intros Hv. destruct (proj1 (comp_label_spec g v _ Hv) eq_refl) as [c [Hc _]].
  apply nth_error_Some. congruence.
Qed.

Lemma comp_label_eq g u v : u < gn g -> v < gn g ->
  (comp_label g u = comp_label g v <-> same_island g u v).
Proof.
  intros Hu Hv. destruct (proj1 (comp_label_spec g v _ Hv) eq_refl) as [c [Hc Hvc]].
  rewrite (comp_label_spec g u _ Hu). split.
  - intros [c' [Hc' Huc]]. rewrite Hc in Hc'. injection Hc' as <-.
    apply (components_class g c u v); auto. eapply nth_error_In; eauto.
  - intros H. exists c. split; auto.
    apply (components_class g c v u); auto; [eapply nth_error_In; eauto|]. apply linked_sym; exact H.
Qed.

Lemma comp_label_onto g k : k < n_components g -> exists v, v < gn g /\ comp_label g v = k.
Proof.
  intros Hk. destruct (nth_error (components g) k) as [c|] eqn:E.
  - destruct (components_nonempty g c) as [v [Hv Hvc]]; [eapply nth_error_In; eauto|].
    exists v. split; auto. apply comp_label_spec; auto. exists c; auto.
  - apply nth_error_None in E. unfold n_components in Hk. lia.
Qed.

Theorem is_connected_spec g : is_connected g = true <-> connected_graph g.
Proof.
  unfold is_connected. rewrite Nat.eqb_eq. split.
  - intros H. destruct (comp_label_onto g 0 ltac:(lia)) as [r [Hr _]].
    split; [exists r; exact Hr|]. intros u v Hu Hv. apply comp_label_eq; auto.
    pose proof (comp_label_lt g u Hu). pose proof (comp_label_lt g v Hv). lia.
  - intros [[r Hr] Hl]. unfold areas in *.
    assert (Hall : forall v, v < gn g -> comp_label g v = comp_label g r).
    { intros v Hv. apply comp_label_eq; auto. apply Hl; auto. }
    destruct (Nat.lt_trichotomy (n_components g) 1) as [H|[H|H]]; [|exact H|].
    + pose proof (comp_label_lt g r Hr). lia.
    + destruct (comp_label_onto g 0 ltac:(lia)) as [x [Hx Ex]].
      destruct (comp_label_onto g 1 ltac:(lia)) as [y [Hy Ey]].
      rewrite (Hall x Hx) in Ex. rewrite (Hall y Hy) in Ey. lia.
Qed.

Lemma component_labels_length g : length (component_labels g) = gn g.
Proof. unfold component_labels. rewrite map_length, seq_length. reflexivity. Qed.

Lemma component_labels_nth g v : v < gn g -> nth_error (component_labels g) v = Some (comp_label g v).
Proof.
  intros Hv. unfold component_labels. rewrite nth_error_map.
  rewrite (nth_error_nth' _ 0) by (rewrite seq_length; auto). rewrite seq_nth by auto. reflexivity.
Qed.

(** ** neighbours and induced subgraphs *)
Lemma neighbors_In g a j : In j (neighbors g a) <-> j < gn g /\ gadj g a j = true.
Proof. unfold neighbors. rewrite filter_In, in_seq. intuition lia. Qed.

Lemma sub_nodes_In nodes wo a : In a (sub_nodes nodes wo) <-> In a nodes /\ ~ In a wo.
Proof. unfold sub_nodes. rewrite filter_In, negb_true_iff, memb_notIn. tauto. Qed.

Lemma sub_nodes_NoDup nodes wo : NoDup nodes -> NoDup (sub_nodes nodes wo).
Proof. apply NoDup_filter. Qed.

Lemma sub_linked_fwd g nodes wo i j a b :
  linked (sub_adj_matrix g nodes wo) (areas (sub_adj_matrix g nodes wo)) i j ->
  nth_error (sub_nodes nodes wo) i = Some a -> nth_error (sub_nodes nodes wo) j = Some b ->
  linked g (fun x => In x (sub_nodes nodes wo)) a b.
Proof.
  intros H. revert a. induction H as [u Hu|u v w Hu Huv Hvw IH]; intros a Ha Hb.
  - rewrite Ha in Hb. injection Hb as <-. apply linked_refl. eapply nth_error_In; eauto.
  - assert (Hv := linked_in_l _ _ _ _ Hvw). unfold areas in Hv. cbn [sub_adj_matrix gn] in Hv.
    destruct (nth_error (sub_nodes nodes wo) v) as [c|] eqn:Hc; [|apply nth_error_None in Hc; lia].
    apply linked_step with (v := c); [eapply nth_error_In; eauto| |apply IH; auto].
    unfold touch in Huv. cbn [sub_adj_matrix gadj] in Huv. rewrite Ha, Hc in Huv. exact Huv.
Qed.

Lemma sub_linked_bwd g nodes wo a b i j :
  NoDup nodes ->
  linked g (fun x => In x (sub_nodes nodes wo)) a b ->
  nth_error (sub_nodes nodes wo) i = Some a -> nth_error (sub_nodes nodes wo) j = Some b ->
  linked (sub_adj_matrix g nodes wo) (areas (sub_adj_matrix g nodes wo)) i j.
Proof.
  intros Hnd H. revert i. induction H as [u Hu|u v w Hu Huv Hvw IH]; intros i Ha Hb.
  - assert (i = j).
    { eapply NoDup_nth_error; [apply (sub_nodes_NoDup nodes wo); auto| |congruence].
      apply nth_error_Some; congruence. }
    subst j. apply linked_refl. unfold areas; cbn [sub_adj_matrix gn]. apply nth_error_Some; congruence.
  - assert (Hv := linked_in_l _ _ _ _ Hvw). cbn beta in Hv. apply In_nth_error in Hv. destruct Hv as [k Hk].
    apply linked_step with (v := k); [|unfold touch; cbn [sub_adj_matrix gadj]; rewrite Ha, Hk; exact Huv|apply IH; auto].
    unfold areas; cbn [sub_adj_matrix gn]. apply nth_error_Some; congruence.
Qed.

Theorem sub_connected_spec g nodes wo : NoDup nodes ->
  (is_connected (sub_adj_matrix g nodes wo) = true <->
   contiguous g (fun a => In a nodes /\ ~ In a wo)).
Proof.
  intros Hnd. rewrite is_connected_spec. unfold connected_graph. split.
  - intros [[i Hi] Hl].
    apply (contiguous_ext g (fun a => In a (sub_nodes nodes wo))); [intros; apply sub_nodes_In|].
    unfold areas in Hi; cbn [sub_adj_matrix gn] in Hi.
    destruct (nth_error (sub_nodes nodes wo) i) as [a|] eqn:Ha; [|apply nth_error_None in Ha; lia].
    split; [exists a; eapply nth_error_In; eauto|]. intros u v Hu Hv.
    apply In_nth_error in Hu; destruct Hu as [k Hk]. apply In_nth_error in Hv; destruct Hv as [m Hm].
    apply (sub_linked_fwd g nodes wo k m u v); auto. apply Hl; unfold areas; cbn [sub_adj_matrix gn]; apply nth_error_Some; congruence.
  - intros H. apply (contiguous_ext g _ (fun a => In a (sub_nodes nodes wo))) in H;
      [|intros; symmetry; apply sub_nodes_In].
    destruct H as [[a Ha] Hl]. apply In_nth_error in Ha. destruct Ha as [i Hi]. split.
    + exists i. unfold areas; cbn [sub_adj_matrix gn]. apply nth_error_Some; congruence.
    + intros u v Hu Hv. unfold areas in Hu, Hv; cbn [sub_adj_matrix gn] in Hu, Hv.
      destruct (nth_error (sub_nodes nodes wo) u) as [x|] eqn:Hx; [|apply nth_error_None in Hx; lia].
      destruct (nth_error (sub_nodes nodes wo) v) as [y|] eqn:Hy; [|apply nth_error_None in Hy; lia].
      apply (sub_linked_bwd g nodes wo x y u v); auto. apply Hl; eapply nth_error_In; eauto.
Qed.
