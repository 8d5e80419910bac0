(** Lemmas shared by the exact models: integer sums, rooted spanning trees of contiguous regions,
    canonical labels, the pairwise objective. *)
From Verif Require Import Base Spec M_Graph M_Util M_Objective M_MaxP M_Exact P_Base P_Graph P_Sum.
Local Open Scope Z_scope.

(** ** sums of integers *)
Lemma sumZ_cons x l : sumZ (x :: l) = x + sumZ l.
Proof. reflexivity. Qed.
Lemma sumZ_nil : sumZ [] = 0.
Proof. reflexivity. Qed.
Lemma sumZ_app l m : sumZ (l ++ m) = sumZ l + sumZ m.
Proof. induction l as [|x l IH]; cbn [app]; rewrite ?sumZ_cons, ?sumZ_nil; lia. Qed.
Lemma sumZ_ext {A} (f g : A -> Z) l : (forall x, In x l -> f x = g x) -> sumZ (map f l) = sumZ (map g l).
Proof. intros H. f_equal. apply map_ext_in. exact H. Qed.
Lemma sumZ_plus {A} (f g : A -> Z) l : sumZ (map (fun x => f x + g x) l) = sumZ (map f l) + sumZ (map g l).
Proof. induction l as [|x l IH]; cbn [map]; rewrite ?sumZ_cons, ?sumZ_nil; lia. Qed.
Lemma sumZ_minus {A} (f g : A -> Z) l : sumZ (map (fun x => f x - g x) l) = sumZ (map f l) - sumZ (map g l).
Proof. induction l as [|x l IH]; cbn [map]; rewrite ?sumZ_cons, ?sumZ_nil; lia. Qed.
Lemma sumZ_zero {A} (f : A -> Z) l : (forall x, In x l -> f x = 0) -> sumZ (map f l) = 0.
Proof.
  induction l as [|x l IH]; intros H; cbn [map]; [reflexivity|]. rewrite sumZ_cons, (H x (or_introl eq_refl)), IH; [lia|].
  intros y Hy. apply H. right; exact Hy.
Qed.
Lemma sumZ_nonneg {A} (f : A -> Z) l : (forall x, In x l -> 0 <= f x) -> 0 <= sumZ (map f l).
Proof.
  induction l as [|x l IH]; intros H; cbn [map]; [cbn; lia|]. rewrite sumZ_cons.
  pose proof (H x (or_introl eq_refl)). assert (0 <= sumZ (map f l)); [|lia]. apply IH. intros y Hy. apply H. right; exact Hy.
Qed.
Lemma sumZ_le {A} (f g : A -> Z) l : (forall x, In x l -> f x <= g x) -> sumZ (map f l) <= sumZ (map g l).
Proof.
  induction l as [|x l IH]; intros H; cbn [map]; [cbn; lia|]. rewrite !sumZ_cons.
  pose proof (H x (or_introl eq_refl)). assert (sumZ (map f l) <= sumZ (map g l)); [|lia]. apply IH. intros y Hy. apply H. right; exact Hy.
Qed.
Lemma sumZ_swap {A B} (f : A -> B -> Z) l m :
  sumZ (map (fun x => sumZ (map (f x) m)) l) = sumZ (map (fun y => sumZ (map (fun x => f x y) l)) m).
Proof.
  induction l as [|x l IH]; cbn [map].
  - rewrite sumZ_nil. symmetry. apply sumZ_zero. reflexivity.
  - rewrite sumZ_cons, IH, <- sumZ_plus. apply sumZ_ext. intros y _. reflexivity.
Qed.
Lemma sumZ_flat_map {A B} (f : A -> list B) (h : B -> Z) l :
  sumZ (map h (flat_map f l)) = sumZ (map (fun x => sumZ (map h (f x))) l).
Proof. induction l as [|x l IH]; cbn [flat_map map]; [reflexivity|]. rewrite map_app, sumZ_app, sumZ_cons, IH. reflexivity. Qed.
Lemma sumZ_flat {A} (f : A -> list Z) l : sumZ (flat_map f l) = sumZ (map (fun x => sumZ (f x)) l).
Proof. rewrite <- (map_id (flat_map f l)), sumZ_flat_map. apply sumZ_ext. intros x _. rewrite map_id. reflexivity. Qed.
Lemma sumZ_scale {A} c (f : A -> Z) l : sumZ (map (fun x => c * f x) l) = c * sumZ (map f l).
Proof. induction l as [|x l IH]; cbn [map]; rewrite ?sumZ_cons, ?sumZ_nil; lia. Qed.
Lemma sumZ_filter {A} (P : A -> bool) (f : A -> Z) l :
  sumZ (map f (filter P l)) = sumZ (map (fun x => if P x then f x else 0) l).
Proof. induction l as [|x l IH]; cbn [filter map]; [reflexivity|]. destruct (P x); cbn [map]; rewrite ?sumZ_cons; lia. Qed.
Lemma sumZ_const {A} c (l : list A) : sumZ (map (fun _ => c) l) = c * Z.of_nat (length l).
Proof. induction l as [|x l IH]; cbn [map length]; rewrite ?sumZ_cons, ?sumZ_nil; lia. Qed.
Lemma sumZ_ones {A} (P : A -> bool) (l : list A) : sumZ (map (fun x => if P x then 1 else 0) l) = Z.of_nat (length (filter P l)).
Proof. rewrite <- (sumZ_filter P (fun _ => 1)), sumZ_const. lia. Qed.
Lemma sumZ_pos {A} (f : A -> Z) l : 0 < sumZ (map f l) -> exists x, In x l /\ 0 < f x.
Proof.
  induction l as [|x l IH]; cbn [map]; [cbn; lia|]. rewrite sumZ_cons. intros H.
  destruct (Z_lt_dec 0 (f x)) as [Hx|Hx]; [exists x; split; [left; auto|auto]|].
  destruct IH as [y [Hy Hf]]; [lia|]. exists y. split; [right; auto|auto].
Qed.
Lemma sumZ_member {A} (f : A -> Z) l x : (forall y, In y l -> 0 <= f y) -> In x l -> f x <= sumZ (map f l).
Proof.
  induction l as [|z l IH]; intros H Hx; [destruct Hx|]. cbn [map]. rewrite sumZ_cons.
  assert (0 <= sumZ (map f l)) by (apply sumZ_nonneg; intros y Hy; apply H; right; auto).
  pose proof (H z (or_introl eq_refl)).
  destruct Hx as [<-|Hx]; [lia|]. assert (f x <= sumZ (map f l)); [|lia]. apply IH; [|auto]. intros y Hy. apply H. right; auto.
Qed.
Lemma sumZ_two {A} (f : A -> Z) l x y : (forall z, In z l -> 0 <= f z) -> In x l -> In y l -> x <> y -> f x + f y <= sumZ (map f l).
Proof.
  induction l as [|z l IH]; intros H Hx Hy Hne; [destruct Hx|]. cbn [map]. rewrite sumZ_cons.
  assert (Hl : forall z, In z l -> 0 <= f z) by (intros w Hw; apply H; right; auto).
  pose proof (H z (or_introl eq_refl)).
  destruct Hx as [<-|Hx], Hy as [Hy|Hy].
  - congruence.
  - pose proof (sumZ_member f l y Hl Hy). lia.
  - subst z. pose proof (sumZ_member f l x Hl Hx). lia.
  - specialize (IH Hl Hx Hy Hne). lia.
Qed.
Lemma sumZ_point (f : nat -> Z) l k : NoDup l -> In k l -> (forall x, In x l -> x <> k -> f x = 0) -> sumZ (map f l) = f k.
Proof.
  induction l as [|z l IH]; intros Hnd Hk H0; [destruct Hk|]. inversion Hnd as [|? ? Hz Hnd']; subst. cbn [map]. rewrite sumZ_cons.
  destruct Hk as [->|Hk].
  - rewrite sumZ_zero; [lia|]. intros x Hx. apply H0; [right; auto|]. intros ->. contradiction.
  - rewrite IH; auto.
    + rewrite (H0 z); [lia|left; auto|]. intros ->. contradiction.
    + intros x Hx. apply H0. right; auto.
Qed.

(** 0/1 variables summing to 1 *)
Lemma one_hot (f : nat -> Z) l : NoDup l -> (forall x, In x l -> 0 <= f x <= 1) -> sumZ (map f l) = 1 ->
  exists k, In k l /\ f k = 1 /\ forall x, In x l -> x <> k -> f x = 0.
Proof.
  intros Hnd H01 Hs. destruct (sumZ_pos f l) as [k [Hk Hf]]; [lia|]. exists k. split; [auto|].
  pose proof (H01 k Hk). split; [lia|]. intros x Hx Hne.
  assert (Hn : forall z, In z l -> 0 <= f z) by (intros z Hz; apply H01 in Hz; lia).
  pose proof (sumZ_two f l x k Hn Hx Hk Hne). specialize (H01 x Hx). lia.
Qed.

(** ** contiguity inside a set of areas given by a test *)
Definition rg (g : graph) (P : nat -> bool) : graph := mkG (gn g) (fun u v => gadj g u v && (P u && P v)).

Lemma rg_touch g P u v : touch (rg g P) u v <-> touch g u v /\ P u = true /\ P v = true.
Proof. unfold touch, rg. cbn [gadj]. rewrite !andb_true_iff. tauto. Qed.

Definition inside (g : graph) (P : nat -> bool) : nat -> Prop := fun a => (a < gn g)%nat /\ P a = true.

Lemma rg_linked g P v u : inside g P v -> (linked (rg g P) (areas (rg g P)) v u <-> linked g (inside g P) v u).
Proof.
  intros Hv. split; intros H.
  - induction H as [u Hu|u x w Hu Ht Hx IH]; [apply linked_refl; exact Hv|].
    apply rg_touch in Ht. destruct Ht as [Ht [_ Hpx]].
    apply linked_step with x; [exact Hv|exact Ht|]. apply IH. split; [|exact Hpx]. exact (linked_in_l _ _ _ _ Hx).
  - induction H as [u Hu|u x w Hu Ht Hx IH]; [apply linked_refl; exact (proj1 Hu)|].
    pose proof (linked_in_l _ _ _ _ Hx) as Hxi.
    apply linked_step with x; [exact (proj1 Hu)| |exact (IH Hxi)]. apply rg_touch. destruct Hu, Hxi. auto.
Qed.

Lemma rg_reach g P v u : inside g P v -> (In u (reach (rg g P) v) <-> linked g (inside g P) v u).
Proof. intros Hv. rewrite reach_spec; [|exact (proj1 Hv)]. apply rg_linked; exact Hv. Qed.

(** ** rooted trees *)
Record rooted (g : graph) (P : nat -> bool) (s : nat) (par dep : nat -> nat) : Prop := {
  rt_in : inside g P s;
  rt_s : dep s = 0%nat;
  rt_0 : forall u, inside g P u -> dep u = 0%nat -> u = s;
  rt_par : forall u, inside g P u -> u <> s -> inside g P (par u) /\ touch g u (par u) /\ dep u = Datatypes.S (dep (par u));
  rt_near : forall u v, inside g P u -> inside g P v -> touch g u v -> (dep v <= Datatypes.S (dep u))%nat
}.

Lemma nth_error_seq0 n k : (k < n)%nat -> nth_error (seq 0 n) k = Some k.
Proof. intros H. rewrite (nth_error_nth' _ 0%nat) by (rewrite seq_length; exact H). rewrite seq_nth by exact H. reflexivity. Qed.

Lemma rooted_exists g P s : inside g P s -> contiguous g (inside g P) -> exists par dep, rooted g P s par dep.
Proof.
  intros Hs [_ Hc]. set (h := rg g P). set (n := gn g).
  set (dep := fun u => match index_where (fun k => memb u (rounds h k s)) (seq 0 (Datatypes.S n)) with Some k => k | None => 0%nat end).
  set (par := fun u => match find (fun t => P t && wadj g u t && Nat.eqb (dep u) (Datatypes.S (dep t))) (seq 0 n) with Some t => t | None => u end).
  assert (Hsn : (s < gn h)%nat) by exact (proj1 Hs).
  assert (Hdep : forall u, inside g P u -> In u (rounds h (dep u) s) /\ forall j, (j < dep u)%nat -> ~ In u (rounds h j s)).
  { intros u Hu. unfold dep.
    destruct (index_where _ _) as [k|] eqn:E.
    - apply index_where_spec in E. destruct E as [[x [Hx Hp]] Hmin].
      assert (Hk : (k < Datatypes.S n)%nat) by (apply nth_error_lt in Hx; rewrite seq_length in Hx; exact Hx).
      rewrite nth_error_seq0 in Hx by lia. injection Hx as <-. apply memb_In in Hp. split; [exact Hp|].
      intros j Hj Hin. assert (Hf : memb u (rounds h j s) = false).
      { apply (Hmin j); [auto|]. apply nth_error_seq0; lia. }
      apply memb_notIn in Hf. apply Hf. exact Hin.
    - exfalso. rewrite index_where_None in E. assert (Hf : memb u (rounds h n s) = false).
      { apply E. apply in_seq. lia. }
      apply memb_notIn in Hf. apply Hf. change (In u (reach h s)). apply rg_reach; [exact Hs|]. apply Hc; auto. }
  assert (Hle : forall u k, inside g P u -> In u (rounds h k s) -> (dep u <= k)%nat).
  { intros u k Hu Hin. destruct (le_lt_dec (dep u) k) as [H|H]; [exact H|]. destruct (proj2 (Hdep u Hu) k H Hin). }
  exists par, dep. constructor.
  - exact Hs.
  - assert (H := Hle s 0%nat Hs (or_introl eq_refl)). lia.
  - intros u Hu H0. destruct (Hdep u Hu) as [H _]. rewrite H0 in H. destruct H as [H|[]]. auto.
  - intros u Hu Hne. destruct (Hdep u Hu) as [Hin Hmin].
    assert (Hex : exists t, inside g P t /\ touch g u t /\ dep u = Datatypes.S (dep t)).
    { destruct (dep u) as [|k] eqn:Ek; [destruct Hin as [H|[]]; congruence|].
      rewrite rounds_S, expand_In in Hin. destruct Hin as [_ [Hin|[t [Ht Htu]]]]; [destruct (Hmin k (Nat.lt_succ_diag_r k) Hin)|].
      pose proof Htu as Htu2. apply rg_touch in Htu. destruct Htu as [Htu [Hpt _]].
      assert (Hti : inside g P t) by (split; [exact (rounds_bound h k s t Hsn Ht)|exact Hpt]).
      exists t. split; [exact Hti|]. split; [apply touch_sym; exact Htu|].
      assert (Hd := Hle t k Hti Ht). destruct (Nat.eq_dec (dep t) k) as [->|Hn]; [reflexivity|].
      exfalso. apply (Hmin (Datatypes.S (dep t))); [lia|]. rewrite rounds_S, expand_In. split; [exact (proj1 Hu)|].
      right. exists t. split; [apply (Hdep t Hti)|exact Htu2]. }
    unfold par. destruct (find _ _) as [t|] eqn:E.
    + apply find_some in E. destruct E as [E1 E2]. apply in_seq in E1. rewrite !andb_true_iff in E2. destruct E2 as [[E2 E3] E4].
      apply Nat.eqb_eq in E4. apply wadj_touch in E3. split; [split; [unfold n in E1; lia|exact E2]|auto].
    + exfalso. destruct Hex as [t [[Ht1 Ht2] [Ht3 Ht4]]].
      assert (Hf := find_none _ _ E t). cbv beta in Hf. rewrite Ht2 in Hf. apply wadj_touch in Ht3. rewrite Ht3 in Hf.
      apply Nat.eqb_eq in Ht4. rewrite Ht4 in Hf. cbn in Hf. assert (true = false); [|discriminate]. apply Hf. apply in_seq. unfold n. lia.
  - intros u v Hu Hv Ht. apply Hle; [exact Hv|]. rewrite rounds_S, expand_In. split; [exact (proj1 Hv)|]. right. exists u.
    split; [apply (Hdep u Hu)|]. apply rg_touch. split; [exact Ht|]. split; [exact (proj2 Hu)|exact (proj2 Hv)].
Qed.

Definition members (g : graph) (P : nat -> bool) : list nat := filter P (seq 0 (gn g)).
Lemma members_In g P a : In a (members g P) <-> inside g P a.
Proof. unfold members, inside. rewrite filter_In, in_seq. split; intros [H1 H2]; (split; [lia|auto]). Qed.
Lemma members_NoDup g P : NoDup (members g P).
Proof. apply filter_seq_NoDup. Qed.

Lemma rooted_levels g P s par dep : rooted g P s par dep ->
  forall j u, inside g P u -> (j <= dep u)%nat -> exists v, inside g P v /\ dep v = j.
Proof.
  intros R j u Hu Hj. remember (dep u - j)%nat as k eqn:Ek. revert u Hu Hj Ek. induction k as [|k IH]; intros u Hu Hj Ek.
  - exists u. split; [auto|lia].
  - destruct (Nat.eq_dec u s) as [->|Hne]; [rewrite (rt_s _ _ _ _ _ R) in *; lia|].
    destruct (rt_par _ _ _ _ _ R u Hu Hne) as [Hp [_ Hd]]. apply (IH (par u)); auto; lia.
Qed.

(** depth is bounded by the number of areas; two areas at the same depth give one less *)
Lemma rooted_depth g P s par dep u : rooted g P s par dep -> inside g P u -> (dep u < length (members g P))%nat.
Proof.
  intros R Hu. assert (incl (seq 0 (Datatypes.S (dep u))) (map dep (members g P))).
  { intros j Hj. apply in_seq in Hj. destruct (rooted_levels _ _ _ _ _ R j u Hu) as [v [Hv <-]]; [lia|].
    apply in_map. apply members_In. exact Hv. }
  apply NoDup_incl_length in H; [|apply seq_NoDup]. rewrite seq_length, map_length in H. lia.
Qed.

Lemma rooted_depth2 g P s par dep u a b : rooted g P s par dep -> inside g P u ->
  inside g P a -> inside g P b -> a <> b -> dep a = dep b -> (Datatypes.S (dep u) < length (members g P))%nat.
Proof.
  intros R Hu Ha Hb Hab Hd.
  assert (Hi : incl (seq 0 (Datatypes.S (dep u))) (map dep (filter (fun x => negb (Nat.eqb x b)) (members g P)))).
  { intros j Hj. apply in_seq in Hj. destruct (rooted_levels _ _ _ _ _ R j u Hu) as [v [Hv Hj']]; [lia|].
    destruct (Nat.eq_dec v b) as [->|Hne].
    - rewrite <- Hj', <- Hd. apply in_map. apply filter_In. split; [apply members_In; exact Ha|].
      apply negb_true_iff. apply Nat.eqb_neq. exact Hab.
    - rewrite <- Hj'. apply in_map. apply filter_In. split; [apply members_In; exact Hv|].
      apply negb_true_iff. apply Nat.eqb_neq. exact Hne. }
  apply NoDup_incl_length in Hi; [|apply seq_NoDup]. rewrite seq_length, map_length in Hi.
  assert (length (filter (fun x => negb (Nat.eqb x b)) (members g P)) < length (filter (fun _ => true) (members g P)))%nat.
  { apply (filter_length_lt _ _ _ b); auto.
    - apply members_In; exact Hb.
    - rewrite Nat.eqb_refl. reflexivity. }
  assert (E : filter (fun _ => true) (members g P) = members g P).
  { clear. induction (members g P) as [|x l IH]; cbn; [reflexivity|]. rewrite IH. reflexivity. }
  rewrite E in H. lia.
Qed.

Lemma length_gt1 {A} (l : list A) x : NoDup l -> (1 < length l)%nat -> In x l -> (forall a b : A, {a = b} + {a <> b}) -> exists y, In y l /\ y <> x.
Proof.
  intros Hnd Hl Hx dec. destruct l as [|a [|b l]]; cbn in Hl; try lia.
  destruct (dec a x) as [->|Hn]; [|exists a; split; [left; auto|auto]].
  exists b. split; [right; left; auto|]. intros ->. inversion Hnd as [|? ? Hn _]; subst. apply Hn. left; auto.
Qed.

(** a region of at least three areas has an area with two neighbours in it *)
Lemma interior_root g P : contiguous g (inside g P) -> (2 < length (members g P))%nat ->
  exists s a b, inside g P s /\ inside g P a /\ inside g P b /\ a <> b /\ a <> s /\ b <> s /\ touch g s a /\ touch g s b.
Proof.
  intros Hc Hl. pose proof Hc as [[s0 Hs0] _]. destruct (rooted_exists g P s0 Hs0 Hc) as [par [dep R]].
  destruct (existsb (fun u => Nat.leb 2 (dep u)) (members g P)) eqn:E.
  - apply existsb_exists in E. destruct E as [u [Hu E]]. apply members_In in Hu. apply Nat.leb_le in E.
    destruct (rooted_levels _ _ _ _ _ R 2%nat u Hu E) as [v [Hv Hd]].
    assert (Hvs : v <> s0) by (intros ->; rewrite (rt_s _ _ _ _ _ R) in Hd; discriminate).
    destruct (rt_par _ _ _ _ _ R v Hv Hvs) as [Hp [Ht1 Hd1]].
    assert (Hps : par v <> s0) by (intros E2; rewrite E2, (rt_s _ _ _ _ _ R) in Hd1; lia).
    destruct (rt_par _ _ _ _ _ R (par v) Hp Hps) as [Hp2 [Ht2 Hd2]].
    exists (par v), v, (par (par v)). repeat split; try apply Hp; try apply Hv; try apply Hp2.
    + intros E2. rewrite <- E2 in Hd2. lia.
    + intros E2. rewrite <- E2 in Hd1. lia.
    + intros E2. rewrite E2 in Hd2. lia.
    + apply touch_sym. exact Ht1.
    + exact Ht2.
  - assert (Hd : forall u, inside g P u -> u <> s0 -> touch g s0 u).
    { intros u Hu Hne. destruct (rt_par _ _ _ _ _ R u Hu Hne) as [Hp [Ht Hd]].
      assert (dep u < 2)%nat.
      { destruct (le_lt_dec 2 (dep u)) as [H|H]; [|exact H]. exfalso. assert (true = false); [|discriminate]. rewrite <- E.
        symmetry. apply existsb_exists. exists u. split; [apply members_In; exact Hu|apply Nat.leb_le; exact H]. }
      assert (E0 : dep (par u) = 0%nat) by lia. apply (rt_0 _ _ _ _ _ R _ Hp) in E0. rewrite E0 in Ht. apply touch_sym. exact Ht. }
    set (l := filter (fun x => negb (Nat.eqb x s0)) (members g P)).
    assert (Hnd : NoDup l) by (apply NoDup_filter; apply members_NoDup).
    assert (Hll : (1 < length l)%nat).
    { assert (incl (members g P) (s0 :: l)).
      { intros x Hx. destruct (Nat.eq_dec x s0) as [->|Hne]; [left; auto|]. right. apply filter_In. split; [auto|].
        apply negb_true_iff, Nat.eqb_neq; auto. }
      apply NoDup_incl_length in H; [|apply members_NoDup]. cbn [length] in H. lia. }
    assert (Hex : exists a, In a l) by (destruct l as [|a l0]; [cbn in Hll; lia|exists a; left; auto]). destruct Hex as [a Ha].
    destruct (length_gt1 l a Hnd Hll Ha Nat.eq_dec) as [b [Hb Hba]].
    assert (Hl' : forall x, In x l -> inside g P x /\ x <> s0).
    { intros x Hx. apply filter_In in Hx. destruct Hx as [H1 H2]. apply members_In in H1. apply negb_true_iff, Nat.eqb_neq in H2. auto. }
    destruct (Hl' a Ha) as [Ha1 Ha2]. destruct (Hl' b Hb) as [Hb1 Hb2].
    exists s0, a, b. split; [exact Hs0|]. split; [exact Ha1|]. split; [exact Hb1|]. repeat split; auto.
Qed.

(** a root of depth at most |R| - 2 *)
Lemma shallow_root g P : contiguous g (inside g P) -> (2 < length (members g P))%nat ->
  exists s par dep, rooted g P s par dep /\ forall u, inside g P u -> (Datatypes.S (dep u) < length (members g P))%nat.
Proof.
  intros Hc Hl. destruct (interior_root g P Hc Hl) as [s [a [b [Hs [Ha [Hb [Hab [Has [Hbs [Hta Htb]]]]]]]]]].
  destruct (rooted_exists g P s Hs Hc) as [par [dep R]]. exists s, par, dep. split; [exact R|].
  assert (Hone : forall x, inside g P x -> x <> s -> touch g s x -> dep x = 1%nat).
  { intros x Hx Hne Ht. pose proof (rt_near _ _ _ _ _ R s x Hs Hx Ht) as Hle. rewrite (rt_s _ _ _ _ _ R) in Hle.
    destruct (dep x) eqn:E; [|lia]. destruct (Hne (rt_0 _ _ _ _ _ R x Hx E)). }
  intros u Hu. apply (rooted_depth2 g P s par dep u a b R Hu Ha Hb Hab).
  rewrite (Hone a Ha Has Hta), (Hone b Hb Hbs Htb). reflexivity.
Qed.
