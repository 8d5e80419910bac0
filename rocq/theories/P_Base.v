(** Generic facts about the list helpers of Base.v. *)
From Verif Require Import Base Spec M_Graph P_Graph M_Util.

(** ** outcomes *)
Lemma bind_Ok {A B} (m : out A) (k : A -> out B) b :
  bind m k = Ok b -> exists a, m = Ok a /\ k a = Ok b.
Proof. destruct m; cbn; intros H; try discriminate. eauto. Qed.

Lemma bind_Raise {A B} (m : out A) (k : A -> out B) e :
  bind m k = Raise e -> m = Raise e \/ exists a, m = Ok a /\ k a = Raise e.
Proof. destruct m; cbn; intros H; try discriminate; eauto. injection H as ->; auto. Qed.

(** invert a bind equation *)
Ltac binv H :=
  match type of H with
  | bind _ _ = Ok _ =>
      let a := fresh "v" in let H1 := fresh "E" in
      apply bind_Ok in H; destruct H as [a [H1 H]]; try (destruct a as [? ?])
  end.

(** Specification of an outcome: a value satisfies [P], an exception satisfies [E], and running
    out of fuel is tolerated iff [N].  Partial correctness: [E], [N] true; no exceptions:
    [E] false; total correctness: both false. *)
Definition post {A} (E : exn -> Prop) (N : Prop) (m : out A) (P : A -> Prop) : Prop :=
  match m with Ok a => P a | Raise e => E e | NoFuel => N end.
Definition noexn : exn -> Prop := fun _ => False.
Definition anyexn : exn -> Prop := fun _ => True.

Lemma post_bind {A B} E N (m : out A) (k : A -> out B) P Q :
  post E N m P -> (forall a, m = Ok a -> P a -> post E N (k a) Q) -> post E N (bind m k) Q.
Proof. destruct m; cbn; auto. Qed.

Lemma post_Ok {A} E N (m : out A) (P : A -> Prop) a : m = Ok a -> P a -> post E N m P.
Proof. intros ->; auto. Qed.

Lemma post_weaken {A} (E E' : exn -> Prop) (N N' : Prop) (m : out A) (P P' : A -> Prop) :
  (forall e, E e -> E' e) -> (N -> N') -> (forall a, m = Ok a -> P a -> P' a) ->
  post E N m P -> post E' N' m P'.
Proof. destruct m; cbn; auto. Qed.

Lemma post_total {A} (m : out A) (P : A -> Prop) : post noexn False m P <-> exists a, m = Ok a /\ P a.
Proof.
  destruct m; cbn; split.
  - eauto.
  - intros [b [H1 H2]]. injection H1 as ->; auto.
  - intros [].
  - intros [b [H _]]; discriminate.
  - intros [].
  - intros [b [H _]]; discriminate.
Qed.

Lemma post_partial {A} (m : out A) (P : A -> Prop) : post anyexn True m P <-> forall a, m = Ok a -> P a.
Proof.
  destruct m; cbn; split; auto; unfold anyexn; auto.
  - intros H b E; injection E as <-; auto.
  - intros _ b E; discriminate.
  - intros _ b E; discriminate.
Qed.

(** ** upd *)
Lemma upd_length {A} (l : list A) k v : length (upd l k v) = length l.
Proof. revert k. induction l as [|x l IH]; intros [|k]; cbn; auto. Qed.

Lemma nth_error_upd_eq {A} (l : list A) k v : k < length l -> nth_error (upd l k v) k = Some v.
Proof. revert k. induction l as [|x l IH]; intros [|k] H; cbn in *; try lia; auto; apply IH; lia. Qed.

Lemma nth_error_upd_ne {A} (l : list A) k j v : j <> k -> nth_error (upd l k v) j = nth_error l j.
Proof.
  revert k j. induction l as [|x l IH]; intros [|k] [|j] H; cbn; auto; try lia; apply IH; lia.
Qed.

Lemma nth_error_upd {A} (l : list A) k j v x :
  nth_error (upd l k v) j = Some x <->
  (j = k /\ k < length l /\ x = v) \/ (j <> k /\ nth_error l j = Some x).
Proof.
  destruct (Nat.eq_dec j k) as [->|Hne].
  - destruct (Nat.lt_ge_cases k (length l)) as [Hlt|Hge].
    + rewrite nth_error_upd_eq by auto. split.
      * intros H; injection H as <-. auto.
      * intros [[_ [_ ->]]|[H _]]; [auto|congruence].
    + assert (nth_error (upd l k v) k = None) as -> by (apply nth_error_None; rewrite upd_length; auto).
      split; [discriminate|]. intros [[_ [H _]]|[H _]]; [lia|congruence].
  - rewrite nth_error_upd_ne by auto. split; [auto|]. intros [[H _]|[_ H]]; [congruence|auto].
Qed.

Lemma nth_upd_eq {A} (l : list A) k v d : k < length l -> nth k (upd l k v) d = v.
Proof. intros H. apply nth_error_nth. apply nth_error_upd_eq; auto. Qed.

Lemma nth_upd_ne {A} (l : list A) k j v d : j <> k -> nth j (upd l k v) d = nth j l d.
Proof.
  revert k j. induction l as [|x l IH]; intros [|k] [|j] H; cbn; auto; try lia; apply IH; lia.
Qed.

Lemma upd_same {A} (l : list A) k d : k < length l -> upd l k (nth k l d) = l.
Proof. revert k. induction l as [|x l IH]; intros [|k] H; cbn in *; try lia; auto; f_equal; apply IH; lia. Qed.

Lemma upd_upd {A} (l : list A) k v w : upd (upd l k v) k w = upd l k w.
Proof. revert k. induction l as [|x l IH]; intros [|k]; cbn; auto; f_equal; apply IH. Qed.

(** ** labels *)
Lemma lab_nth_error labels a : a < length labels -> nth_error labels a = Some (lab labels a).
Proof. intros H. apply nth_error_nth'. exact H. Qed.

Lemma lab_of_nth_error labels a r : nth_error labels a = Some r -> lab labels a = r.
Proof. intros H. apply nth_error_nth. exact H. Qed.

Lemma nth_error_lt {A} (l : list A) a r : nth_error l a = Some r -> a < length l.
Proof. intros H. apply nth_error_Some. congruence. Qed.

Lemma where_eq_In labels r a : In a (where_eq labels r) <-> nth_error labels a = Some r.
Proof.
  unfold where_eq. rewrite filter_In, in_seq, Z.eqb_eq. split.
  - intros [H1 H2]. rewrite <- H2. apply lab_nth_error. lia.
  - intros H. split; [|apply lab_of_nth_error; auto]. apply nth_error_lt in H. lia.
Qed.

Lemma where_eq_NoDup labels r : NoDup (where_eq labels r).
Proof. apply filter_seq_NoDup. Qed.

(** ** uniqueZ *)
Lemma insZ_In x l y : In y (insZ x l) <-> y = x \/ In y l.
Proof.
  induction l as [|z l IH]; cbn.
  - intuition.
  - destruct (Z.ltb x z); cbn; [intuition|]. destruct (Z.eqb x z) eqn:E; cbn.
    + apply Z.eqb_eq in E. subst. intuition.
    + rewrite IH. intuition.
Qed.

Lemma uniqueZ_In l x : In x (uniqueZ l) <-> In x l.
Proof. induction l as [|y l IH]; cbn; [tauto|]. rewrite insZ_In, IH. intuition. Qed.

Lemma insZ_sorted x l : StronglySorted Z.lt l -> StronglySorted Z.lt (insZ x l).
Proof.
  induction l as [|z l IH]; intros H; cbn.
  - constructor; constructor.
  - apply StronglySorted_inv in H. destruct H as [H1 H2].
    destruct (Z.ltb_spec x z).
    + constructor; [constructor; auto|]. constructor; [auto|].
      rewrite Forall_forall in *. intros y Hy. specialize (H2 y Hy). lia.
    + destruct (Z.eqb_spec x z); [constructor; auto|].
      constructor; [apply IH; auto|]. rewrite Forall_forall in *. intros y Hy.
      apply insZ_In in Hy. destruct Hy as [->|Hy]; [lia|apply H2; auto].
Qed.

Lemma uniqueZ_sorted l : StronglySorted Z.lt (uniqueZ l).
Proof. induction l as [|x l IH]; cbn; [constructor|apply insZ_sorted; auto]. Qed.

Lemma StronglySorted_lt_NoDup l : StronglySorted Z.lt l -> NoDup l.
Proof.
  induction 1 as [|x l H IH HF]; constructor; auto.
  intros Hin. rewrite Forall_forall in HF. specialize (HF x Hin). lia.
Qed.

Lemma uniqueZ_NoDup l : NoDup (uniqueZ l).
Proof. apply StronglySorted_lt_NoDup, uniqueZ_sorted. Qed.

Lemma NoDup_same_length {A} (l1 l2 : list A) :
  NoDup l1 -> NoDup l2 -> (forall x, In x l1 <-> In x l2) -> length l1 = length l2.
Proof.
  intros H1 H2 H. apply Nat.le_antisymm; apply NoDup_incl_length; auto; intros x Hx; apply H; auto.
Qed.

Lemma uniqueZ_length l : length (uniqueZ l) = n_labels l.
Proof.
  apply NoDup_same_length; [apply uniqueZ_NoDup|apply NoDup_nodup|].
  intros x. rewrite uniqueZ_In, nodup_In. tauto.
Qed.

Lemma n_labels_set l1 l2 : (forall x, In x l1 <-> In x l2) -> n_labels l1 = n_labels l2.
Proof.
  intros H. apply NoDup_same_length; try apply NoDup_nodup. intros x. rewrite !nodup_In. apply H.
Qed.

(** strictly sorted lists with the same elements are equal *)
Lemma sorted_ext l1 : forall l2, StronglySorted Z.lt l1 -> StronglySorted Z.lt l2 ->
  (forall x, In x l1 <-> In x l2) -> l1 = l2.
Proof.
  induction l1 as [|x l1 IH]; intros [|y l2] H1 H2 H.
  - reflexivity.
  - exfalso. apply (H y). left; auto.
  - exfalso. apply (H x). left; auto.
  - apply StronglySorted_inv in H1. destruct H1 as [S1 F1].
    apply StronglySorted_inv in H2. destruct H2 as [S2 F2].
    rewrite Forall_forall in *.
    assert (x = y).
    { destruct (proj1 (H x) (or_introl eq_refl)) as [E|Hin]; [auto|].
      destruct (proj2 (H y) (or_introl eq_refl)) as [E|Hin2]; [auto|].
      specialize (F2 x Hin). specialize (F1 y Hin2). lia. }
    subst y. f_equal. apply IH; auto. intros z. split; intros Hz.
    + destruct (proj1 (H z) (or_intror Hz)) as [<-|Hz2]; auto. specialize (F1 x Hz). lia.
    + destruct (proj2 (H z) (or_intror Hz)) as [<-|Hz2]; auto. specialize (F2 x Hz). lia.
Qed.

Lemma uniqueZ_ext l1 l2 : (forall x, In x l1 <-> In x l2) -> uniqueZ l1 = uniqueZ l2.
Proof.
  intros H. apply sorted_ext; try apply uniqueZ_sorted. intros x. rewrite !uniqueZ_In. apply H.
Qed.

(** ** count *)
Lemma count_filter labels r : count labels r = length (filter (Z.eqb r) labels).
Proof.
  unfold count, unique_counts. set (f := fun u => length (filter (Z.eqb u) labels)).
  assert (H : forall us, (In r us \/ f r = 0) ->
    match index_where (fun u => Z.eqb u r) us with Some i => nth i (map f us) 0 | None => 0 end = f r).
  { induction us as [|u us IH]; cbn [index_where]; intros Hr.
    - destruct Hr as [[]|Hr]; auto.
    - destruct (Z.eqb_spec u r) as [->|Hne]; [reflexivity|].
      assert (Hr' : In r us \/ f r = 0) by (destruct Hr as [[H|H]|H]; [contradiction|auto|auto]).
      specialize (IH Hr'). destruct (index_where (fun u0 => Z.eqb u0 r) us); exact IH. }
  apply H. destruct (in_dec Z.eq_dec r labels) as [Hin|Hni]; [left; apply uniqueZ_In; exact Hin|right].
  unfold f. destruct (filter (Z.eqb r) labels) as [|x l] eqn:E; [reflexivity|].
  assert (Hx : In x (filter (Z.eqb r) labels)) by (rewrite E; left; reflexivity).
  apply filter_In in Hx. destruct Hx as [Hx1 Hx2]. apply Z.eqb_eq in Hx2. subst; contradiction.
Qed.

Lemma count_where labels r : count labels r = length (where_eq labels r).
Proof.
  rewrite count_filter. unfold where_eq.
  assert (H : forall l k, length (filter (Z.eqb r) l) =
    length (filter (fun a => Z.eqb (nth (a - k) l (-1)%Z) r) (seq k (length l)))).
  { induction l as [|x l IH]; intros k; cbn [filter seq length]; [reflexivity|].
    rewrite Nat.sub_diag. change (nth 0 (x :: l) (-1)%Z) with x. rewrite (Z.eqb_sym x r).
    assert (E : filter (fun a => Z.eqb (nth (a - k) (x :: l) (-1)%Z) r) (seq (S k) (length l)) =
                filter (fun a => Z.eqb (nth (a - S k) l (-1)%Z) r) (seq (S k) (length l))).
    { apply filter_ext_in. intros a Ha. apply in_seq in Ha.
      replace (a - k) with (S (a - S k)) by lia. reflexivity. }
    destruct (Z.eqb r x); cbn [length]; rewrite E, (IH (S k)); reflexivity. }
  rewrite (H labels 0). f_equal. apply filter_ext. intros a. rewrite Nat.sub_0_r. reflexivity.
Qed.

(** ** scatter / gather *)
Lemma scatter_length {A} idx : forall (base vals : list A), length (scatter base idx vals) = length base.
Proof.
  induction idx as [|i idx IH]; intros base vals; cbn; [destruct vals; auto|].
  destruct vals as [|v vals]; auto. rewrite IH, upd_length. auto.
Qed.

Lemma scatter_notin {A} idx : forall (base vals : list A) a,
  ~ In a idx -> nth_error (scatter base idx vals) a = nth_error base a.
Proof.
  induction idx as [|i idx IH]; intros base vals a H; cbn; [destruct vals; auto|].
  destruct vals as [|v vals]; auto. rewrite IH by (intro; apply H; right; auto).
  apply nth_error_upd_ne. intros ->. apply H. left; auto.
Qed.

Lemma scatter_in {A} idx : forall (base vals : list A) k a v,
  NoDup idx -> nth_error idx k = Some a -> nth_error vals k = Some v -> a < length base ->
  nth_error (scatter base idx vals) a = Some v.
Proof.
  induction idx as [|i idx IH]; intros base vals k a v Hnd Hk Hv Ha; [destruct k; discriminate|].
  inversion Hnd as [|? ? Hni Hnd']; subst.
  destruct vals as [|w vals]; [destruct k; discriminate|]. cbn.
  destruct k as [|k]; cbn in Hk, Hv.
  - injection Hk as ->. injection Hv as ->. rewrite scatter_notin by auto. apply nth_error_upd_eq; auto.
  - eapply IH; eauto. rewrite upd_length; auto.
Qed.

Lemma nth_error_gather {A} (d : A) l idx k a :
  nth_error idx k = Some a -> nth_error (gather d l idx) k = Some (nth a l d).
Proof. intros H. unfold gather. rewrite nth_error_map, H. reflexivity. Qed.

Lemma gather_length {A} (d : A) l idx : length (gather d l idx) = length idx.
Proof. apply map_length. Qed.

(** ** random choice *)
Lemma randrange_Ok n r : 0 < n -> randrange n r = Ok (r 0 mod n, rnext r).
Proof. unfold randrange. destruct (Nat.eqb_spec n 0); [lia|auto]. Qed.

Lemma random_element_from_Ok {A} (l : list A) r : l <> [] ->
  exists x, random_element_from l r = Ok (x, rnext r) /\ In x l.
Proof.
  intros H. unfold random_element_from. rewrite randrange_Ok by (destruct l; [congruence|cbn; lia]). cbn [bind].
  destruct (nth_error l (r 0 mod length l)) as [x|] eqn:E.
  - exists x. split; auto. eapply nth_error_In; eauto.
  - apply nth_error_None in E. destruct l as [|y l]; [congruence|].
    pose proof (Nat.mod_upper_bound (r 0) (length (y :: l)) ltac:(cbn; lia)). lia.
Qed.

Lemma random_element_from_inv {A} (l : list A) r x r' :
  random_element_from l r = Ok (x, r') -> In x l /\ r' = rnext r.
Proof.
  intros H. destruct l as [|y l].
  - cbn in H. discriminate.
  - destruct (random_element_from_Ok (y :: l) r ltac:(discriminate)) as [z [E Hz]].
    rewrite E in H. injection H as <- <-. auto.
Qed.

Lemma remove_nth_perm {A} (l : list A) : forall p x, nth_error l p = Some x ->
  Permutation l (x :: remove_nth p l).
Proof.
  induction l as [|y l IH]; intros [|p] x H; cbn in *; try discriminate.
  - injection H as ->. reflexivity.
  - rewrite perm_swap. constructor. apply IH; auto.
Qed.

Lemma pop_randomly_from_Ok {A} (l : list A) r : l <> [] ->
  exists x rest, pop_randomly_from l r = Ok (x, rest, rnext r) /\ Permutation l (x :: rest).
Proof.
  intros H. unfold pop_randomly_from. rewrite randrange_Ok by (destruct l; [congruence|cbn; lia]). cbn [bind].
  destruct (nth_error l (r 0 mod length l)) as [x|] eqn:E.
  - eexists _, _. split; [reflexivity|]. apply remove_nth_perm; auto.
  - apply nth_error_None in E. destruct l as [|y l]; [congruence|].
    pose proof (Nat.mod_upper_bound (r 0) (length (y :: l)) ltac:(cbn; lia)). lia.
Qed.

Lemma pop_randomly_from_inv {A} (l : list A) r x rest r' :
  pop_randomly_from l r = Ok (x, rest, r') -> Permutation l (x :: rest) /\ r' = rnext r.
Proof.
  intros H. destruct l as [|y l].
  - cbn in H. discriminate.
  - destruct (pop_randomly_from_Ok (y :: l) r ltac:(discriminate)) as [z [rest' [E Hz]]].
    rewrite E in H. injection H as <- <- <-. auto.
Qed.

(** ** filter and equivalence of lists *)
Lemma filter_seq_ext f g n :
  (forall a, a < n -> f a = g a) -> filter f (seq 0 n) = filter g (seq 0 n).
Proof. intros H. apply filter_ext_in. intros a Ha. apply H. apply in_seq in Ha. lia. Qed.

Lemma NoDup_map_inj {A B} (f : A -> B) l :
  (forall x y, In x l -> In y l -> f x = f y -> x = y) -> NoDup l -> NoDup (map f l).
Proof.
  intros Hinj. induction 1 as [|x l Hx Hnd IH]; cbn; constructor.
  - intros Hin. apply in_map_iff in Hin. destruct Hin as [y [E Hy]].
    assert (x = y) by (apply Hinj; [left; auto|right; auto|auto]). subst y. auto.
  - apply IH. intros a b Ha Hb. apply Hinj; right; auto.
Qed.

(** ** related answers *)
Definition rel {A B} (R : A -> B -> Prop) (x : out A) (y : out B) : Prop :=
  match x, y with
  | Ok a, Ok b => R a b
  | Raise e, Raise e' => e = e'
  | NoFuel, NoFuel => True
  | _, _ => False
  end.
Lemma rel_bind {A B A' B'} (R : A -> B -> Prop) (R' : A' -> B' -> Prop) x y k k' :
  rel R x y -> (forall a b, x = Ok a -> y = Ok b -> R a b -> rel R' (k a) (k' b)) -> rel R' (bind x k) (bind y k').
Proof. destruct x, y; cbn; auto; try contradiction. Qed.
