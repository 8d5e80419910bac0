(** Finite sums of rationals. *)
From Verif Require Import Base.
Local Open Scope Q_scope.

Lemma sumQ_cons x l : sumQ (x :: l) = x + sumQ l.
Proof. reflexivity. Qed.
Lemma sumQ_nil : sumQ [] = 0.
Proof. reflexivity. Qed.

Lemma sumQ_app l m : sumQ (l ++ m) == sumQ l + sumQ m.
Proof. induction l as [|x l IH]; cbn [app map]; [rewrite ?sumQ_nil; ring|]. rewrite ?sumQ_cons, IH. ring. Qed.

Lemma sumQ_perm l m : Permutation l m -> sumQ l == sumQ m.
Proof.
  induction 1; rewrite ?sumQ_cons.
  - reflexivity.
  - rewrite IHPermutation. reflexivity.
  - ring.
  - rewrite IHPermutation1. exact IHPermutation2.
Qed.

Lemma sumQ_ext {A} (f g : A -> Q) l : (forall x, In x l -> f x == g x) -> sumQ (map f l) == sumQ (map g l).
Proof.
  induction l as [|x l IH]; intros H; cbn [map]; [reflexivity|]. rewrite ?sumQ_cons.
  rewrite (H x) by (left; auto). rewrite IH by (intros y Hy; apply H; right; auto). reflexivity.
Qed.

Lemma sumQ_plus {A} (f g : A -> Q) l :
  sumQ (map (fun x => f x + g x) l) == sumQ (map f l) + sumQ (map g l).
Proof. induction l as [|x l IH]; cbn [app map]; [rewrite ?sumQ_nil; ring|]. rewrite ?sumQ_cons, IH. ring. Qed.

Lemma sumQ_minus {A} (f g : A -> Q) l :
  sumQ (map (fun x => f x - g x) l) == sumQ (map f l) - sumQ (map g l).
Proof. induction l as [|x l IH]; cbn [app map]; [rewrite ?sumQ_nil; ring|]. rewrite ?sumQ_cons, IH. ring. Qed.

Lemma sumQ_scale {A} c (f : A -> Q) l : sumQ (map (fun x => c * f x) l) == c * sumQ (map f l).
Proof. induction l as [|x l IH]; cbn [app map]; [rewrite ?sumQ_nil; ring|]. rewrite ?sumQ_cons, IH. ring. Qed.

Lemma sumQ_zero {A} (f : A -> Q) l : (forall x, In x l -> f x == 0) -> sumQ (map f l) == 0.
Proof.
  induction l as [|x l IH]; intros H; cbn [map]; [reflexivity|]. rewrite ?sumQ_cons.
  rewrite (H x) by (left; auto). rewrite IH by (intros y Hy; apply H; right; auto). ring.
Qed.

Lemma sumQ_nonneg {A} (f : A -> Q) l : (forall x, In x l -> 0 <= f x) -> 0 <= sumQ (map f l).
Proof.
  induction l as [|x l IH]; intros H; cbn [map]; rewrite ?sumQ_nil, ?sumQ_cons; [lra|].
  assert (0 <= f x) by (apply H; left; auto).
  assert (0 <= sumQ (map f l)) by (apply IH; intros y Hy; apply H; right; auto). lra.
Qed.

Lemma sumQ_le {A} (f g : A -> Q) l : (forall x, In x l -> f x <= g x) -> sumQ (map f l) <= sumQ (map g l).
Proof.
  induction l as [|x l IH]; intros H; cbn [map]; rewrite ?sumQ_nil, ?sumQ_cons; [lra|].
  assert (f x <= g x) by (apply H; left; auto).
  assert (sumQ (map f l) <= sumQ (map g l)) by (apply IH; intros y Hy; apply H; right; auto). lra.
Qed.

Lemma sumQ_map_perm {A} (f : A -> Q) l m : Permutation l m -> sumQ (map f l) == sumQ (map f m).
Proof. intros H. apply sumQ_perm. apply Permutation_map. exact H. Qed.

(** sum over a filtered list *)
Lemma sumQ_filter {A} (p : A -> bool) (f : A -> Q) l :
  sumQ (map f (filter p l)) == sumQ (map (fun x => if p x then f x else 0) l).
Proof.
  induction l as [|x l IH]; cbn [filter map]; [reflexivity|]. rewrite ?sumQ_cons, <- IH. destruct (p x); cbn [map]; rewrite ?sumQ_cons; ring.
Qed.

(** exactly one key of a duplicate-free list matches *)
Lemma sumQ_one {A} (dec : forall x y : A, {x = y} + {x <> y}) (k : A) (f : A -> Q) l :
  NoDup l -> In k l -> sumQ (map (fun x => if dec x k then f x else 0) l) == f k.
Proof.
  induction l as [|x l IH]; intros Hnd Hin; [destruct Hin|].
  inversion Hnd as [|? ? Hni Hnd']; subst. cbn [map]. rewrite sumQ_cons. destruct (dec x k) as [->|Hne].
  - rewrite sumQ_zero; [ring|]. intros y Hy. destruct (dec y k) as [->|]; [contradiction|reflexivity].
  - destruct Hin as [->|Hin]; [congruence|]. rewrite IH by auto. ring.
Qed.

Lemma sumQ_swap {A B} (f : A -> B -> Q) l m :
  sumQ (map (fun x => sumQ (map (f x) m)) l) == sumQ (map (fun y => sumQ (map (fun x => f x y) l)) m).
Proof.
  induction l as [|x l IH]; cbn [map]; rewrite ?sumQ_cons.
  - symmetry. apply sumQ_zero. reflexivity.
  - rewrite IH. rewrite <- sumQ_plus. reflexivity.
Qed.

Lemma sumQ_flat_map {A B} (f : B -> Q) (h : A -> list B) l :
  sumQ (map f (flat_map h l)) == sumQ (map (fun x => sumQ (map f (h x))) l).
Proof. induction l as [|x l IH]; cbn [flat_map map]; [reflexivity|]. rewrite sumQ_cons, map_app, sumQ_app, IH. reflexivity. Qed.

Lemma Qle_bool_false x y : Qle_bool x y = false <-> y < x.
Proof.
  split.
  - intros H. destruct (Qlt_le_dec y x) as [|Hle]; auto. apply Qle_bool_iff in Hle. congruence.
  - intros H. apply not_true_iff_false. rewrite Qle_bool_iff. lra.
Qed.

Lemma Qltb_lt x y : Qltb x y = true <-> x < y.
Proof. unfold Qltb. rewrite negb_true_iff. apply Qle_bool_false. Qed.

Lemma Qltb_ge x y : Qltb x y = false <-> y <= x.
Proof. unfold Qltb. rewrite negb_false_iff. apply Qle_bool_iff. Qed.
