(** Proofs about AZP on one connected component. *)
From Verif Require Import Base Spec M_Graph P_Graph M_Util P_Base P_Util M_Objective P_Sum P_Objective M_Azp.

Definition same_labels (l l' : list Z) : Prop := forall x, In x l <-> In x l'.

Lemma same_labels_refl l : same_labels l l.
Proof. intros x; tauto. Qed.
Lemma same_labels_trans a b c : same_labels a b -> same_labels b c -> same_labels a c.
Proof. intros H1 H2 x. rewrite (H1 x). apply H2. Qed.
Lemma same_labels_sym a b : same_labels a b -> same_labels b a.
Proof. intros H x. rewrite (H x). tauto. Qed.

Lemma same_labels_n a b : same_labels a b -> n_labels a = n_labels b.
Proof. intros H. rewrite <- !uniqueZ_length. f_equal. apply uniqueZ_ext. exact H. Qed.

(** every area labelled, every region contiguous *)
Definition wf (g : graph) (labels : list Z) : Prop := length labels = gn g /\ all_contiguous g labels.

Lemma touch_adj g u v : symmetric g -> u < gn g -> v < gn g -> (touch g u v <-> gadj g u v = true).
Proof.
  intros Hs Hu Hv. unfold touch. rewrite (Hs v u) by auto. tauto.
Qed.

(** a contiguous set with two elements: each element touches another one *)
Lemma contiguous_touch g (P : nat -> Prop) a b : contiguous g P -> P a -> P b -> a <> b ->
  exists c, P c /\ c <> a /\ touch g c a.
Proof.
  intros [_ H] Ha Hb Hne. specialize (H b a Hb Ha).
  remember a as a0 eqn:Ea in H.
  assert (Hgen : forall u w, linked g P u w -> w = a -> u <> a -> exists c, P c /\ c <> a /\ touch g c a).
  { clear. intros u w H. induction H as [u Hu|u v w Hu Huv Hvw IH]; intros -> Hne; [congruence|].
    destruct (Nat.eq_dec v a) as [->|Hv]; [exists u; auto|apply IH; auto]. }
  eapply Hgen; eauto.
Qed.

Lemma region_upd labels a r s x : a < length labels ->
  (region (upd labels a r) s x <-> (x = a /\ s = r) \/ (x <> a /\ region labels s x)).
Proof.
  intros Ha. unfold region. rewrite nth_error_upd. split.
  - intros [[-> [_ ->]]|H]; auto.
  - intros [[-> ->]|H]; auto.
Qed.

(** making a legal move keeps every region contiguous and the set of regions the same *)
Lemma legal_upd g labels a r : wf g labels -> legal_move g labels a r ->
  wf g (upd labels a r) /\ same_labels (upd labels a r) labels.
Proof.
  intros [Hlen Hall] [Ha [D [HD [Hne [Hc [b [Hbn [Hb Ht]]]]]]]].
  assert (HaL : a < length labels) by lia.
  assert (Hr : In r labels) by (eapply nth_error_In; exact Hb).
  assert (Hba : b <> a) by (intros ->; unfold region in Hb; congruence).
  assert (Hset : same_labels (upd labels a r) labels).
  { intros z. apply upd_same_set; auto. destruct Hc as [[u [Hu Hua]] _]. apply nth_error_In with (n := u).
    rewrite nth_error_upd_ne by auto. unfold region in Hu. rewrite Hu. f_equal. symmetry. apply lab_of_nth_error; auto. }
  split; [|exact Hset]. split; [rewrite upd_length; auto|].
  intros s Hs. apply Hset in Hs.
  destruct (Z.eq_dec s r) as [->|Hsr].
  - apply (contiguous_ext g (fun x => region labels r x \/ x = a)).
    + intros x. rewrite region_upd by auto. split.
      * intros [Hx| ->]; [right; split; auto|auto]. intros ->. unfold region in Hx; congruence.
      * intros [[-> _]|[_ Hx]]; auto.
    + apply contiguous_add with (b := b); auto.
  - destruct (Z.eq_dec s D) as [->|HsD].
    + eapply contiguous_ext; [|exact Hc]. intros x. cbn beta. rewrite region_upd by auto. tauto.
    + eapply contiguous_ext; [|apply (Hall s Hs)]. intros x. rewrite region_upd by auto. split.
      * intros Hx. right. split; [|auto]. intros ->. unfold region in Hx. congruence.
      * intros [[_ ->]|[_ Hx]]; [congruence|auto].
Qed.

(** the reverse of a legal move is legal *)
Lemma legal_reverse g labels a r D : wf g labels -> legal_move g labels a r -> nth_error labels a = Some D ->
  legal_move g (upd labels a r) a D.
Proof.
  intros Hwf Hl HD. pose proof Hl as [Ha [D' [HD' [Hne [Hc [b [Hbn [Hb Ht]]]]]]]].
  rewrite HD in HD'. injection HD' as <-.
  destruct Hwf as [Hlen Hall]. assert (HaL : a < length labels) by lia.
  split; [auto|]. exists r. split; [apply nth_error_upd_eq; auto|]. split; [auto|]. split.
  - apply (contiguous_ext g (region labels r)).
    + intros x. rewrite region_upd by auto. split.
      * intros Hx. assert (x <> a) by (intros ->; unfold region in Hx; congruence). tauto.
      * intros [[[Hx _]|[_ Hx]] Hxa]; [congruence|auto].
    + apply Hall. eapply nth_error_In; eauto.
  - destruct Hc as [[u [Hu Hua]] _].
    destruct (contiguous_touch g (region labels D) a u) as [c [Hcc [Hca Hct]]]; auto.
    { apply Hall. eapply nth_error_In; eauto. }
    exists c. split; [unfold region in Hcc; apply nth_error_lt in Hcc; lia|]. split; [|auto].
    rewrite region_upd by auto. right; auto.
Qed.

(** sets *)
Lemma set_add_In a s x : In x (set_add a s) <-> x = a \/ In x s.
Proof.
  unfold set_add. destruct (memb a s) eqn:E.
  - apply memb_In in E. split; [auto|]. intros [->|H]; auto.
  - rewrite in_app_iff. cbn. intuition.
Qed.
Lemma set_union_In t : forall s x, In x (set_union s t) <-> In x s \/ In x t.
Proof.
  unfold set_union. induction t as [|a t IH]; intros s x; cbn; [tauto|].
  rewrite IH, set_add_In. intuition.
Qed.
Lemma set_discard_In a s x : In x (set_discard a s) <-> In x s /\ x <> a.
Proof. unfold set_discard. rewrite filter_In, negb_true_iff, Nat.eqb_neq. intuition. Qed.
Lemma set_diff_In s t x : In x (set_diff s t) <-> In x s /\ ~ In x t.
Proof. unfold set_diff. rewrite filter_In, negb_true_iff, memb_notIn. tauto. Qed.

Lemma fold_union_In (f : nat -> list nat) l : forall acc x,
  In x (fold_left (fun acc a => set_union acc (f a)) l acc) <-> In x acc \/ exists a, In a l /\ In x (f a).
Proof.
  induction l as [|a l IH]; intros acc x; cbn.
  - split; [auto|]. intros [H|[a [[] _]]]; auto.
  - rewrite IH, set_union_In. split.
    + intros [[H|H]|[b [Hb H]]]; eauto.
    + intros [H|[b [[<-|Hb] H]]]; eauto.
Qed.

(** dictionaries *)
Lemma dget_modify d k f k' : dget (dmodify d k f) k' =
  if Z.eqb k' k then let* s := dget d k' in Ok (f s) else dget d k'.
Proof.
  unfold dget, dmodify. induction d as [|[x s] d IH]; cbn [map find fst snd].
  - destruct (Z.eqb k' k); reflexivity.
  - destruct (Z.eqb_spec x k) as [->|Hx]; cbn [fst snd].
    + destruct (Z.eqb_spec k k') as [->|Hk].
      * rewrite Z.eqb_refl. reflexivity.
      * rewrite IH. reflexivity.
    + destruct (Z.eqb_spec x k') as [->|Hk].
      * destruct (Z.eqb_spec k' k); [congruence|]. reflexivity.
      * rewrite IH. reflexivity.
Qed.

Lemma dget_map (f : Z -> list nat) l k : In k l -> dget (map (fun r => (r, f r)) l) k = Ok (f k).
Proof.
  unfold dget. induction l as [|x l IH]; intros H; [destruct H|]. cbn [map find fst snd].
  destruct (Z.eqb_spec x k) as [->|Hne]; [reflexivity|]. apply IH. destruct H; [congruence|auto].
Qed.

(** region_neighbors is right: for each region exactly the outside areas adjacent to it *)
Definition rn_ok (g : graph) (labels : list Z) (rn : list (Z * list nat)) : Prop :=
  forall r, In r labels -> exists s, dget rn r = Ok s /\
    forall a, In a s <-> a < gn g /\ ~ region labels r a /\ exists b, region labels r b /\ gadj g b a = true.

Lemma init_rn_ok g labels : length labels = gn g -> rn_ok g labels (init_region_neighbors g labels).
Proof.
  intros Hlen r Hr. unfold init_region_neighbors. exists (region_neighbors_of g labels r). split.
  - apply dget_map. apply uniqueZ_In; auto.
  - intros a. unfold region_neighbors_of. rewrite set_diff_In, where_eq_In, fold_union_In. cbn [In]. split.
    + intros [[[]|[b [Hb Hn]]] Hni]. apply where_eq_In in Hb. apply neighbors_In in Hn. destruct Hn.
      split; [auto|]. split; [exact Hni|]. exists b; auto.
    + intros [Ha [Hni [b [Hb Hadj]]]]. split; [|exact Hni]. right. exists b. rewrite where_eq_In, neighbors_In. auto.
Qed.

Lemma is_candidate_spec g labels a D : nth_error labels a = Some D ->
  (is_candidate g labels a = true <-> contiguous g (fun x => region labels D x /\ x <> a)).
Proof.
  intros HD. unfold is_candidate. rewrite (lab_of_nth_error _ _ _ HD), andb_true_iff.
  rewrite sub_connected_spec by apply where_eq_NoDup.
  assert (Hext : forall x, (In x (where_eq labels D) /\ ~ In x [a]) <-> (region labels D x /\ x <> a)).
  { intros x. rewrite where_eq_In. unfold region. cbn. intuition. }
  split.
  - intros [H _]. eapply contiguous_ext; [exact Hext|exact H].
  - intros H. split; [eapply contiguous_ext; [intros x; symmetry; apply Hext|exact H]|].
    apply Nat.ltb_lt. rewrite count_where. destruct H as [[u [Hu Hua]] _].
    assert (Hinc : incl [a; u] (where_eq labels D)).
    { intros x [<-|[<-|[]]]; apply where_eq_In; auto. }
    assert (Hnd : NoDup [a; u]).
    { constructor; [intros [E|[]]; congruence|]. constructor; [intros []|constructor]. }
    pose proof (NoDup_incl_length Hnd Hinc) as Hl. cbn in Hl. lia.
Qed.

(** the candidates are exactly the areas that may legally move to the recipient *)
Lemma candidates_legal g labels rn r s : symmetric g -> wf g labels -> In r labels -> rn_ok g labels rn ->
  dget rn r = Ok s -> forall a, In a (filter (is_candidate g labels) s) <-> legal_move g labels a r.
Proof.
  intros Hsym [Hlen Hall] Hr Hrn Hs a. destruct (Hrn r Hr) as [s' [Hs' Hin]]. rewrite Hs in Hs'. injection Hs' as <-.
  rewrite filter_In, Hin. split.
  - intros [[Ha [Hni [b [Hb Hadj]]]] Hcand]. split; [auto|].
    destruct (nth_error labels a) as [D|] eqn:HD; [|apply nth_error_None in HD; lia].
    exists D. split; [auto|]. split; [intros ->; apply Hni; exact HD|].
    split; [apply (is_candidate_spec g labels a D); auto|].
    exists b. split; [unfold region in Hb; apply nth_error_lt in Hb; lia|]. split; [auto|left; auto].
  - intros [Ha [D [HD [Hne [Hc [b [Hbn [Hb Ht]]]]]]]]. split.
    + split; [auto|]. split; [unfold region; congruence|]. exists b. split; [auto|]. apply touch_adj; auto.
    + apply (is_candidate_spec g labels a D); auto.
Qed.

(** bookkeeping after a move keeps region_neighbors right *)
Lemma after_move_ok g labels rn a r : symmetric g -> wf g labels -> rn_ok g labels rn -> legal_move g labels a r ->
  let '(labels', rn') := after_move g a r labels rn in
  labels' = upd labels a r /\ rn_ok g labels' rn'.
Proof.
  intros Hsym Hwf Hrn Hl. destruct (legal_upd g labels a r Hwf Hl) as [[Hlen' Hall'] Hset].
  destruct Hwf as [Hlen Hall].
  destruct Hl as [Ha [D [HD [Hne [Hc [b [Hbn [Hb Ht]]]]]]]].
  assert (HaL : a < length labels) by lia.
  assert (Hr : In r labels) by (eapply nth_error_In; exact Hb).
  assert (HDin : In D labels) by (eapply nth_error_In; exact HD).
  unfold after_move. rewrite (lab_of_nth_error _ _ _ HD). unfold make_move. split; [reflexivity|].
  set (labels' := upd labels a r) in *.
  assert (Hreg : forall s x, region labels' s x <-> (x = a /\ s = r) \/ (x <> a /\ region labels s x))
    by (intros; apply region_upd; auto).
  assert (Hrange : forall l s x, length l = gn g -> region l s x -> x < gn g).
  { intros l s x El Hx. unfold region in Hx. apply nth_error_lt in Hx. lia. }
  intros s Hs. apply Hset in Hs. destruct (Hrn s Hs) as [ns [Hns Hin]].
  rewrite !dget_modify.
  destruct (Z.eqb_spec s D) as [->|HsD].
  - destruct (Z.eqb_spec D r) as [E|_]; [congruence|]. rewrite Hns. cbn [bind].
    eexists. split; [reflexivity|]. intros x. rewrite set_diff_In, set_add_In, filter_In, neighbors_In, Hin.
    assert (Hgone : negb (existsb (fun y => memb y (where_eq labels' D)) (neighbors g x)) = true <->
                    ~ exists y, y < gn g /\ gadj g x y = true /\ region labels' D y).
    { rewrite negb_true_iff. rewrite <- not_true_iff_false, existsb_exists. split; intros H H'; apply H.
      - destruct H' as [y [Hy [Hadj HyD]]]. exists y. rewrite neighbors_In, memb_In, where_eq_In. auto.
      - destruct H' as [y [Hy1 Hy2]]. apply neighbors_In in Hy1. apply memb_In, where_eq_In in Hy2. exists y. tauto. }
    rewrite Hgone. split.
    + intros [Hx Hng]. destruct (Nat.eq_dec x a) as [->|Hxa].
      * split; [auto|]. split; [rewrite Hreg; intros [[_ E]|[E _]]; congruence|].
        destruct Hc as [[u [Hu Hua]] _].
        destruct (contiguous_touch g (region labels D) a u) as [c [Hcc [Hca Hct]]]; auto.
        exists c. split; [apply Hreg; auto|]. apply touch_adj; eauto.
      * destruct Hx as [Hx|[Hx [Hni [y [Hy Hadj]]]]]; [congruence|].
        split; [auto|]. split; [rewrite Hreg; tauto|].
        destruct (Nat.eq_dec y a) as [->|Hya]; [|exists y; split; [apply Hreg; auto|auto]].
        assert (Hex : ~ ~ exists z, z < gn g /\ gadj g x z = true /\ region labels' D z).
        { intros Hno. apply Hng. split; [split; [auto|exact Hadj]|exact Hno]. }
        assert (Hdec : exists z, In z (seq 0 (gn g)) /\ (gadj g x z && Z.eqb (lab labels' z) D = true)%bool).
        { destruct (existsb (fun z => gadj g x z && Z.eqb (lab labels' z) D)%bool (seq 0 (gn g))) eqn:Ex.
          - apply existsb_exists in Ex. destruct Ex as [z [Hz1 Hz2]]. exists z; split; auto.
          - exfalso. apply Hex. intros [z [Hz1 [Hz2 Hz3]]]. apply not_true_iff_false in Ex. apply Ex.
            apply existsb_exists. exists z. split; [apply in_seq; lia|]. rewrite Hz2. cbn.
            apply Z.eqb_eq. apply lab_of_nth_error. exact Hz3. }
        destruct Hdec as [z [Hz1 Hz2]]. apply in_seq in Hz1. apply andb_true_iff in Hz2. destruct Hz2 as [Hz2 Hz3].
        apply Z.eqb_eq in Hz3. exists z. split.
        -- unfold region. rewrite <- Hz3. apply lab_nth_error. rewrite Hlen'. lia.
        -- rewrite <- Hsym by lia. exact Hz2.
    + intros [Hx [Hni [y [Hy Hadj]]]].
      assert (Hyn : y < gn g) by eauto. split.
      * destruct (Nat.eq_dec x a) as [->|Hxa]; [auto|]. right. rewrite Hreg in Hni. split; [auto|]. split; [tauto|].
        apply Hreg in Hy. destruct Hy as [[_ E]|[_ Hy]]; [congruence|]. exists y; auto.
      * intros [_ Hno]. apply Hno. exists y. split; [auto|]. split; [rewrite Hsym by auto; exact Hadj|auto].
  - destruct (Z.eqb_spec s r) as [->|Hsr].
    + rewrite Hns. cbn [bind]. eexists. split; [reflexivity|]. intros x.
      rewrite set_diff_In, set_union_In, set_discard_In, neighbors_In, where_eq_In, Hin. split.
      * intros [[[[Hx [Hni [y [Hy Hadj]]]] Hxa]|[Hx Hadj]] Hnr].
        -- split; [auto|]. split; [exact Hnr|]. exists y. split; [|auto]. apply Hreg. right. split; [|auto].
           intros ->. unfold region in Hy. congruence.
        -- split; [auto|]. split; [exact Hnr|]. exists a. split; [apply Hreg; auto|auto].
      * intros [Hx [Hni [y [Hy Hadj]]]]. split; [|exact Hni].
        apply Hreg in Hy. destruct Hy as [[-> _]|[Hya Hy]]; [right; auto|].
        left. assert (Hxa : x <> a) by (intros ->; apply Hni; apply Hreg; auto).
        split; [|auto]. split; [auto|]. split; [intros H; apply Hni; apply Hreg; auto|]. exists y; auto.
    + exists ns. split; [auto|]. intros x. rewrite Hin.
      assert (Hrx : forall y, region labels' s y <-> region labels s y).
      { intros y. rewrite Hreg. split; [intros [[_ E]|[_ Hy]]; [congruence|auto]|].
        intros Hy. right. split; [|auto]. intros ->. unfold region in Hy. congruence. }
      rewrite Hrx. split; intros [Hx [Hni [y [Hy Hadj]]]]; (split; [auto|split; [auto|]]); exists y;
        (split; [apply Hrx; auto|auto]).
Qed.

(** ** The loops, for any strategy *)
Section Loops.
Variable St : Type.
Variable call : St -> nat -> Z -> list Z -> rng -> out (bool * St * rng).
Variable objv : St -> Q.
Variable g : graph.
Hypothesis Hsym : symmetric g.
Variable E : exn -> Prop.
Variable N : Prop.
(** [Iv v]: invariant during a pass that started with objective value [v]; [I]: between passes *)
Variable I : St -> list Z -> Prop.
Variable Iv : Q -> St -> list Z -> Prop.
Variable acc : Q -> list Z -> nat -> Z -> Prop.
Variable rej : list Z -> nat -> Z -> Prop.
Hypothesis HI_Iv : forall s l, I s l -> Iv (objv s) s l.
Hypothesis HIv_I : forall v s l, Iv v s l -> I s l.
Hypothesis Hcall : forall v s a r labels rg, wf g labels -> legal_move g labels a r -> Iv v s labels ->
  post E N (call s a r labels rg)
    (fun '(b, s', _) => if b : bool then Iv v s' (upd labels a r) /\ acc v labels a r
                        else Iv v s' labels /\ rej labels a r).

Lemma try_candidates_post v r : forall k cands labels rn s rg, length cands <= k ->
  wf g labels -> rn_ok g labels rn -> (forall a, In a cands -> legal_move g labels a r) -> Iv v s labels ->
  post E N (try_candidates St call g k cands r labels rn s rg)
    (fun '(moved, labels', rn', s', _) =>
       wf g labels' /\ rn_ok g labels' rn' /\ same_labels labels' labels /\ Iv v s' labels' /\
       if moved : bool then exists a, legal_move g labels a r /\ acc v labels a r /\ labels' = upd labels a r
       else labels' = labels /\ forall a, In a cands -> rej labels a r).
Proof.
  induction k as [|k IH]; intros cands labels rn s rg Hk Hwf Hrn Hc HI; destruct cands as [|c0 cs]; cbn [try_candidates length] in *.
  - cbn. split; [auto|]. split; [auto|]. split; [apply same_labels_refl|]. split; [auto|]. split; [auto|]. intros a [].
  - lia.
  - cbn. split; [auto|]. split; [auto|]. split; [apply same_labels_refl|]. split; [auto|]. split; [auto|]. intros a [].
  - destruct (pop_randomly_from_Ok (c0 :: cs) rg ltac:(discriminate)) as [x [rest [Ep Hp]]]. rewrite Ep. cbn [bind].
    assert (Hx : In x (c0 :: cs)) by (rewrite Hp; left; auto).
    pose proof (Hc x Hx) as Hlx.
    eapply post_bind; [apply (Hcall v); eauto|]. intros [[b s'] r2] _ Hb. destruct b.
    + destruct Hb as [Hb Ha]. pose proof (after_move_ok g labels rn x r Hsym Hwf Hrn Hlx) as Ham.
      destruct (after_move g x r labels rn) as [labels' rn']. destruct Ham as [-> Hrn'].
      destruct (legal_upd g labels x r Hwf Hlx) as [Hwf' Hset].
      cbn. split; [auto|]. split; [auto|]. split; [auto|]. split; [auto|]. exists x; auto.
    + destruct Hb as [Hb Hr]. pose proof (Permutation_length Hp) as Hl. cbn in Hl.
      eapply post_weaken; [| | |apply (IH rest labels rn s' r2)]; auto; try lia.
      * intros [[[[m l'] rn'] s''] r3] _ [H1 [H2 [H3 [H4 H5]]]]. split; [auto|]. split; [auto|]. split; [auto|]. split; [auto|].
        destruct m; [auto|]. destruct H5 as [-> H5]. split; [auto|]. intros a Ha.
        rewrite Hp in Ha. destruct Ha as [<-|Ha]; auto.
      * intros a Ha. apply Hc. rewrite Hp. right; auto.
Qed.

Definition outside (labels : list Z) (r : Z) : nat :=
  length (filter (fun a => negb (Z.eqb (lab labels a) r)) (seq 0 (gn g))).

Lemma outside_upd labels a r : length labels = gn g -> legal_move g labels a r ->
  outside (upd labels a r) r < outside labels r.
Proof.
  intros Hlen [Ha [D [HD [Hne _]]]]. unfold outside. apply filter_length_lt with (x := a).
  - intros y _ Hy. destruct (Nat.eq_dec y a) as [->|Hya].
    + rewrite lab_upd_eq, Z.eqb_refl in Hy by lia. discriminate.
    + rewrite lab_upd_ne in Hy by auto. auto.
  - apply in_seq. lia.
  - rewrite (lab_of_nth_error _ _ _ HD). apply negb_true_iff. apply Z.eqb_neq. auto.
  - rewrite lab_upd_eq by lia. rewrite Z.eqb_refl. reflexivity.
Qed.

Lemma outside_le labels r : outside labels r <= gn g.
Proof. unfold outside. etransitivity; [apply filter_length_le|]. rewrite seq_length. auto. Qed.

Definition moved_into (v : Q) (l : list Z) : Prop :=
  exists l0 a r, wf g l0 /\ legal_move g l0 a r /\ acc v l0 a r /\ l = upd l0 a r.
Definition stuck_for (l : list Z) (r : Z) : Prop := forall a, legal_move g l a r -> rej l a r.

Lemma grow_recipient_post v r : forall fuel labels rn s rg, (N \/ outside labels r < fuel) ->
  wf g labels -> rn_ok g labels rn -> In r labels -> Iv v s labels ->
  post E N (grow_recipient St call g fuel r labels rn s rg)
    (fun '(labels', rn', s', _) =>
       wf g labels' /\ rn_ok g labels' rn' /\ same_labels labels' labels /\ Iv v s' labels' /\
       stuck_for labels' r /\ (labels' = labels \/ moved_into v labels')).
Proof.
  induction fuel as [|fuel IH]; intros labels rn s rg Hf Hwf Hrn Hr HI; cbn [grow_recipient].
  - cbn. destruct Hf as [H|H]; [auto|lia].
  - destruct (Hrn r Hr) as [ns [Hns _]]. rewrite Hns. cbn [bind].
    pose proof (candidates_legal g labels rn r ns Hsym Hwf Hr Hrn Hns) as Hcl.
    eapply post_bind; [apply (try_candidates_post v r (length (filter (is_candidate g labels) ns))); auto|].
    { intros a Ha. apply Hcl; auto. }
    intros [[[[m l'] rn'] s'] r'] _ [H1 [H2 [H3 [H4 H5]]]]. destruct m.
    + destruct H5 as [a [Hla [Haa ->]]]. pose proof (outside_upd labels a r (proj1 Hwf) Hla) as Hout.
      eapply post_weaken; [| | |apply (IH (upd labels a r) rn' s' r')]; auto.
      * intros [[[l2 rn2] s2] r2] _ [K1 [K2 [K3 [K4 [K5 K6]]]]].
        split; [auto|]. split; [auto|]. split; [eapply same_labels_trans; eauto|]. split; [auto|]. split; [auto|].
        right. destruct K6 as [-> |K6]; [|auto]. exists labels, a, r. auto.
      * destruct Hf as [Hf|Hf]; [auto|right; lia].
      * apply H3; auto.
    + destruct H5 as [-> H5]. cbn. split; [auto|]. split; [auto|]. split; [auto|]. split; [auto|]. split; [|auto].
      intros a Ha. apply H5. apply Hcl; auto.
Qed.

Lemma azp_pass_post v fuel : (N \/ gn g < fuel) -> forall k regions labels rn s rg, length regions <= k ->
  wf g labels -> rn_ok g labels rn -> (forall r, In r regions -> In r labels) -> Iv v s labels ->
  post E N (azp_pass St call g fuel k regions labels rn s rg)
    (fun '(labels', rn', s', _) =>
       wf g labels' /\ rn_ok g labels' rn' /\ same_labels labels' labels /\ Iv v s' labels' /\
       (moved_into v labels' \/ (labels' = labels /\ forall r, In r regions -> stuck_for labels' r))).
Proof.
  intros Hf. induction k as [|k IH]; intros regions labels rn s rg Hk Hwf Hrn Hreg HI;
    destruct regions as [|r0 rs]; cbn [azp_pass length] in *; try lia.
  - cbn. split; [auto|]. split; [auto|]. split; [apply same_labels_refl|]. split; [auto|]. right. split; [auto|]. intros r [].
  - cbn. split; [auto|]. split; [auto|]. split; [apply same_labels_refl|]. split; [auto|]. right. split; [auto|]. intros r [].
  - destruct (pop_randomly_from_Ok (r0 :: rs) rg ltac:(discriminate)) as [x [rest [Ep Hp]]]. rewrite Ep. cbn [bind].
    assert (Hx : In x (r0 :: rs)) by (rewrite Hp; left; auto).
    pose proof (Permutation_length Hp) as Hl. cbn in Hl.
    eapply post_bind; [apply (grow_recipient_post v x); auto|].
    { destruct Hf as [Hf|Hf]; [auto|right]. pose proof (outside_le labels x). lia. }
    intros [[[l1 rn1] s1] r1] _ [H1 [H2 [H3 [H4 [H5 H6]]]]].
    eapply post_weaken; [| | |apply (IH rest l1 rn1 s1 r1)]; auto; try lia.
    + intros [[[l2 rn2] s2] r2] _ [K1 [K2 [K3 [K4 K5]]]].
      split; [auto|]. split; [auto|]. split; [eapply same_labels_trans; eauto|]. split; [auto|].
      destruct K5 as [K5|[-> K5]]; [auto|]. destruct H6 as [-> |H6]; [|auto].
      right. split; [auto|]. intros r Hr. rewrite Hp in Hr. destruct Hr as [<-|Hr]; auto.
    + intros r Hr. apply H3. apply Hreg. rewrite Hp. right; auto.
Qed.

(** the number of passes is bounded by any decreasing measure of the objective value *)
Variable m : Q -> nat.
Variable labels0 : list Z.
Hypothesis Hdec : N \/ forall s l s' l', wf g l -> same_labels l labels0 -> I s l ->
  wf g l' -> same_labels l' labels0 -> I s' l' -> (objv s' < objv s)%Q -> m (objv s') < m (objv s).

Definition stopped (s : St) (l : list Z) : Prop :=
  exists v, Iv v s l /\ (v <= objv s)%Q /\ (moved_into v l \/ forall r, In r l -> stuck_for l r).

Lemma azp_loop_post : forall fuel start labels rn s rg,
  wf g labels -> rn_ok g labels rn -> same_labels labels labels0 -> I s labels ->
  (N \/ ((forall v, start = Some v -> (objv s < v)%Q) -> m (objv s) + gn g + 1 < fuel)) ->
  (forall v, start = Some v -> Iv v s labels /\ (moved_into v labels \/ forall r, In r labels -> stuck_for labels r)) ->
  post E N (azp_loop St call objv g fuel start (uniqueZ labels0) labels rn s rg)
    (fun '(labels', s', _) => wf g labels' /\ same_labels labels' labels0 /\ I s' labels' /\ stopped s' labels').
Proof.
  induction fuel as [|fuel IH]; intros start labels rn s rg Hwf Hrn Hset HI Hf Hst; cbn [azp_loop].
  - destruct (match start with None => true | Some v => Qltb (objv s) v end) eqn:Ec.
    + cbn. destruct Hf as [Hf|Hf]; [auto|]. exfalso. assert (m (objv s) + gn g + 1 < 0); [|lia]. apply Hf.
      intros v ->. apply Qltb_lt; auto.
    + destruct start as [v|]; [|discriminate]. cbn. split; [auto|]. split; [auto|]. split; [auto|].
      apply Qltb_ge in Ec. destruct (Hst v eq_refl). exists v; auto.
  - destruct (match start with None => true | Some v => Qltb (objv s) v end) eqn:Ec.
    + assert (Hf' : N \/ m (objv s) + gn g < fuel).
      { destruct Hf as [Hf|Hf]; [auto|right]. assert (m (objv s) + gn g + 1 < S fuel); [|lia]. apply Hf.
        intros v ->. apply Qltb_lt; auto. }
      eapply post_bind; [apply (azp_pass_post (objv s) fuel) with (k := length (uniqueZ labels0)); auto|].
      * destruct Hf' as [?|?]; [auto|right; lia].
      * intros r Hr. apply Hset. apply uniqueZ_In; auto.
      * intros [[[l1 rn1] s1] r1] _ [H1 [H2 [H3 [H4 H5]]]].
        assert (Hset1 : same_labels l1 labels0) by (eapply same_labels_trans; eauto).
        apply IH; auto.
        -- eapply HIv_I; eauto.
        -- destruct Hf' as [?|Hf']; [auto|]. destruct Hdec as [?|Hd]; [auto|right].
           intros Hlt. specialize (Hlt _ eq_refl).
           pose proof (Hd s labels s1 l1 Hwf Hset HI H1 Hset1 (HIv_I _ _ _ H4) Hlt). lia.
        -- intros v Ev. injection Ev as <-. split; [auto|]. destruct H5 as [H5|[-> H5]]; [auto|right].
           intros r Hr. apply H5. apply uniqueZ_In. apply Hset; auto.
    + destruct start as [v|]; [|discriminate]. cbn. split; [auto|]. split; [auto|]. split; [auto|].
      apply Qltb_ge in Ec. destruct (Hst v eq_refl). exists v; auto.
Qed.

Theorem azp_component_post fuel s rg : wf g labels0 -> labels0 <> [] -> I s labels0 ->
  (N \/ m (objv s) + gn g + 1 < fuel) ->
  post E N (azp_component St call objv g fuel labels0 s rg)
    (fun '(labels', s', _) => wf g labels' /\ same_labels labels' labels0 /\ I s' labels' /\
       ((labels' = labels0 /\ n_labels labels0 = 1) \/ stopped s' labels')).
Proof.
  intros Hwf Hne HI Hf. unfold azp_component. destruct (uniqueZ labels0) as [|r0 [|r1 rs]] eqn:Eu.
  - exfalso. destruct labels0 as [|x l]; [congruence|]. assert (H : In x (uniqueZ (x :: l))) by (apply uniqueZ_In; left; auto).
    rewrite Eu in H. destruct H.
  - cbn. split; [auto|]. split; [apply same_labels_refl|]. split; [auto|]. left. split; [auto|].
    rewrite <- uniqueZ_length, Eu. reflexivity.
  - rewrite <- Eu. eapply post_weaken; [| | |apply azp_loop_post]; auto.
    + intros [[l' s'] r'] _ [H1 [H2 [H3 H4]]]. auto.
    + apply init_rn_ok. apply Hwf.
    + apply same_labels_refl.
    + destruct Hf as [Hf|Hf]; auto.
    + discriminate.
Qed.
End Loops.
