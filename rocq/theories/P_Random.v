(** Reproducibility of histories on the global generator. *)
From Verif Require Export SpecData.
From Verif Require Import Base Spec M_Graph M_Util M_Objective M_Azp M_Sa M_Tabu M_MaxP M_TabuWith M_Random P_Base.

(** ** The max-p search depends on its local search only through [ls_fit] *)
Definition same_out {A B} (R : A -> B -> Prop) (x : out A) (y : out B) : Prop :=
  match x, y with
  | Ok a, Ok b => R a b
  | Raise e, Raise e' => e = e'
  | NoFuel, NoFuel => True
  | _, _ => False
  end.

Lemma same_out_bind A B A' B' (R : A -> B -> Prop) (R' : A' -> B' -> Prop) m m' f f' :
  same_out R m m' -> (forall a b, R a b -> same_out R' (f a) (f' b)) -> same_out R' (bind m f) (bind m' f').
Proof. destruct m, m'; cbn; intros H K; try contradiction; auto. Qed.
Lemma same_out_refl A (m : out A) : same_out eq m m.
Proof. destruct m; cbn; auto. Qed.
Lemma same_out_eq A (m m' : out A) : same_out eq m m' -> m = m'.
Proof. destruct m, m'; cbn; intros H; try contradiction; congruence. Qed.

Section Parametric.
Variables L1 L2 : Type.
Variable R : L1 -> L2 -> Prop.
Variable w1 : L1 -> L1.
Variable w2 : L2 -> L2.
Variable f1 : L1 -> Z -> list Z -> rng -> out (option (list Z) * L1 * rng).
Variable f2 : L2 -> Z -> list Z -> rng -> out (option (list Z) * L2 * rng).
Variable obj : objfun.
Variable attr : list (list Q).
Definition R3 {A} (x : A * L1 * rng) (y : A * L2 * rng) : Prop :=
  fst (fst x) = fst (fst y) /\ R (snd (fst x)) (snd (fst y)) /\ snd x = snd y.
Definition R3' {A} (x : L1 * A * rng) (y : L2 * A * rng) : Prop :=
  R (fst (fst x)) (fst (fst y)) /\ snd (fst x) = snd (fst y) /\ snd x = snd y.
Definition R3o {A} (x : A * option L1 * rng) (y : A * option L2 * rng) : Prop :=
  fst (fst x) = fst (fst y) /\ snd x = snd y /\
  match snd (fst x), snd (fst y) with Some a, Some b => R a b | None, None => True | _, _ => False end.
Hypothesis Hw : forall a b, R a b -> R (w1 a) (w2 b).
Hypothesis Hf : forall a b p l r, R a b -> same_out R3 (f1 a p l r) (f2 b p l r).

Lemma search_all_same mp parts : forall a b bst r, R a b ->
  same_out R3' (search_all L1 f1 obj attr mp parts a bst r) (search_all L2 f2 obj attr mp parts b bst r).
Proof.
  induction parts as [|P parts IH]; intros a b bst r H; cbn [search_all].
  - cbn. repeat split; auto.
  - apply same_out_bind with (R := eq); [apply same_out_refl|]. intros init ? <-.
    eapply same_out_bind; [apply Hf; exact H|]. intros [[l1 a'] r1] [[l2 b'] r2] (E1 & E2 & E3). cbn in E1, E2, E3. subst.
    destruct l2 as [l|]; [|reflexivity].
    apply same_out_bind with (R := eq); [apply same_out_refl|]. intros v ? <-. apply IH. exact E2.
Qed.

Lemma search_rounds_same k mp parts : forall a b bst r, R a b ->
  same_out R3' (search_rounds L1 w1 f1 obj attr k mp parts a bst r) (search_rounds L2 w2 f2 obj attr k mp parts b bst r).
Proof.
  induction k as [|k IH]; intros a b bst r H; cbn [search_rounds].
  - cbn. repeat split; auto.
  - eapply same_out_bind; [apply search_all_same, Hw, H|]. intros [[a' b1] r1] [[b' b2] r2] (E1 & E2 & E3). cbn in E1, E2, E3. subst.
    apply IH. exact E1.
Qed.

Lemma maxp_fit_same n1 n2 d g sp thr it labels0 a b r : R a b ->
  same_out R3o (maxp_fit L1 w1 f1 obj attr n1 d g sp thr it labels0 (Some a) r)
               (maxp_fit L2 w2 f2 obj attr n2 d g sp thr it labels0 (Some b) r).
Proof.
  intros H. unfold maxp_fit.
  apply same_out_bind with (R := eq); [apply same_out_refl|]. intros [[mp before] r1] ? <-.
  apply same_out_bind with (R := eq); [apply same_out_refl|]. intros [parts r2] ? <-.
  destruct parts as [|P parts]; [cbn; repeat split; auto|].
  eapply same_out_bind; [apply search_rounds_same, H|]. intros [[a' b1] ra] [[b' b2] rb] (E1 & E2 & E3). cbn in E1, E2, E3. subst.
  cbn. repeat split; auto.
Qed.
End Parametric.

(** ** Scripts that never ask the operating system for randomness *)
Definition obj_seeded (o : object) : bool :=
  match o with
  | ObjAzp (Some _) _ _ | ObjSa (Some _) _ _ _ | ObjBasic (Some _) _ _ _ _ | ObjReactive (Some _) _ _ _ _ _ | ObjMaxP (Some _) (Some _) _ => true
  | _ => false
  end.
Definition is_sa (o : object) : bool := match o with ObjSa _ _ _ _ => true | _ => false end.

(** Two processes that will show the same from now on *)
Definition alike (p q : process) : Prop :=
  objs p = objs q /\ forallb obj_seeded (objs p) = true /\ (gen p = gen q \/ forallb is_sa (objs p) = true).

Lemma forallb_upd A (f : A -> bool) l i x : forallb f l = true -> f x = true -> forallb f (upd l i x) = true.
Proof.
  revert i. induction l as [|y l IH]; intros [|i] H Hx; cbn in *; auto; apply andb_prop in H; destruct H as [H1 H2].
  - now rewrite Hx.
  - rewrite H1. apply IH; auto.
Qed.
Lemma forallb_nth A (f : A -> bool) l i x : forallb f l = true -> nth_error l i = Some x -> f x = true.
Proof. intros H E. rewrite forallb_forall in H. apply H. eapply nth_error_In, E. Qed.

Section Machine.
Variable seeded : Z -> rng.
Variable expf : Q -> Q.
Variable order : list edge -> list edge.
Variable obj : objfun.
Variable metric : list Q -> list Q -> Q.
Variable azp_fuel sa_fuel : nat.
Let step := step seeded expf order obj metric azp_fuel sa_fuel.
Let run := run seeded expf order obj metric azp_fuel sa_fuel.

Lemma sa_fit_seeded_same z a g attr n c init m e1 e2 :
  same_out (fun x y => fst x = fst y) (sa_fit_seeded seeded expf order obj azp_fuel sa_fuel (Some z) a g attr n c init m e1)
                    (sa_fit_seeded seeded expf order obj azp_fuel sa_fuel (Some z) a g attr n c init m e2).
Proof.
  unfold sa_fit_seeded. cbn [seed_with]. destruct (sa_fit _ _ _ _ _ _ _ _ _ _ _ _ _) as [[[l m'] r']|e|]; cbn; auto.
Qed.

Lemma step_alike p q o : op_seeded o = true -> alike p q -> same_out alike (step p o) (step q o).
Proof.
  intros Ho (E & Hs & Hg). destruct p as [gp ep op], q as [gq eq0 oq]. cbn in E, Hs, Hg. subst oq.
  destruct o as [[z|]|[z|] a|tl reps [z|]|mi k1 k2 [z|]|[j|] [z|]|i g attr n init|i g attr n c init|i g attr sp thr it]; try discriminate Ho; cbn -[azp_fit sa_fit maxp_fit basic_fit_with reactive_fit_with reactive_with_new].
  - (* AZP *) split; [reflexivity|]. split; [|auto]. cbn. rewrite forallb_app, Hs. reflexivity.
  - (* SA *) split; [reflexivity|]. split; [cbn; rewrite forallb_app, Hs; reflexivity|]. cbn.
    destruct Hg as [Hg|Hg]; [auto|right]. rewrite forallb_app, Hg. reflexivity.
  - split; [reflexivity|]. split; [|auto]. cbn. rewrite forallb_app, Hs. reflexivity.
  - destruct (reactive_with_new mi) as [s|e|]; cbn [bind]; try reflexivity.
    split; [reflexivity|]. split; [|auto]. cbn. rewrite forallb_app, Hs. reflexivity.
  - split; [reflexivity|]. split; [|auto]. cbn. rewrite forallb_app, Hs. reflexivity.
  - destruct (nth_error op i) as [x|] eqn:Ex; [|reflexivity]. pose proof (forallb_nth _ _ _ _ _ Hs Ex) as Hx.
    destruct x as [[z|] s l|z a m l|[z|] tl reps s l|[z|] mi k1 k2 s l|z ls l]; try reflexivity; try discriminate Hx;
      (assert (Eg : gp = gq) by (destruct Hg as [->|Hg]; [reflexivity|]; pose proof (forallb_nth _ _ _ _ _ Hg Ex); discriminate);
       subst gq; apply same_out_bind with (R := eq); [apply same_out_refl|]; intros [[labels s'] r'] ? <-; cbn;
       split; [reflexivity|]; split; [|auto]; cbn; apply forallb_upd; auto).
  - destruct (nth_error op i) as [x|] eqn:Ex; [|reflexivity]. pose proof (forallb_nth _ _ _ _ _ Hs Ex) as Hx.
    destruct x as [z s l|[z|] a m l|z tl reps s l|z mi k1 k2 s l|z ls l]; try reflexivity; try discriminate Hx.
    eapply same_out_bind; [apply sa_fit_seeded_same|].
    intros [[[l1 m1] r1] e1] [[[l2 m2] r2] e2] H. cbn in H. injection H as <- <- <-. cbn.
    split; [reflexivity|]. split; [|auto]. cbn. apply forallb_upd; auto.
  - destruct (nth_error op i) as [x|] eqn:Ex; [|reflexivity]. pose proof (forallb_nth _ _ _ _ _ Hs Ex) as Hx.
    destruct x as [z s l|z a m l|z tl reps s l|z mi k1 k2 s l|[z|] [j|] l]; try reflexivity; try discriminate Hx.
    assert (Eg : gp = gq). { destruct Hg as [->|Hg]; [reflexivity|]. pose proof (forallb_nth _ _ _ _ _ Hg Ex). discriminate. }
    subst gq. destruct (nth_error op j) as [y|] eqn:Ey; [|reflexivity]. pose proof (forallb_nth _ _ _ _ _ Hs Ey) as Hy.
    destruct y as [[z'|] s l'|[z'|] a m l'|[z'|] tl reps s l'|[z'|] mi k1 k2 s l'|z' ls l']; try reflexivity; try discriminate Hy.
    + eapply same_out_bind; [apply maxp_fit_same with (R := eq)|].
      * intros ? ? ->; reflexivity.
      * intros a b p l1 r ->. destruct (azp_fit _ _ _ _ _ _ _ _ _ _) as [[[l2 s'] r']|e|]; cbn; auto. repeat split; auto.
      * reflexivity.
      * intros [[l1 x1] r1] [[l2 x2] r2] (E1 & E2 & E3). cbn in E1, E2, E3. subst.
        destruct x1, x2; try contradiction; subst; cbn; (split; [reflexivity|]; split; [|auto]; cbn; apply forallb_upd; [apply forallb_upd|]; auto).
    + eapply same_out_bind; [apply maxp_fit_same with (R := fun x y => fst x = fst y)|].
      * intros ? ? H; exact H.
      * intros [[m1 l1] e1] [[m2 l2] e2] p l0 r H. cbn in H. injection H as <- <-. cbn [fst snd].
        eapply same_out_bind; [apply sa_fit_seeded_same|].
        intros [[[l3 m3] r3] e3] [[[l4 m4] r4] e4] H. cbn in H. injection H as <- <- <-. cbn. repeat split; auto.
      * reflexivity.
      * intros [[l1 x1] r1] [[l2 x2] r2] (E1 & E2 & E3). cbn in E1, E2, E3. subst.
        destruct x1 as [[[m1 l3] e3]|], x2 as [[[m2 l4] e4]|]; try contradiction; cbn in E3; try (injection E3 as <- <-); cbn;
          (split; [reflexivity|]; split; [|auto]; cbn; apply forallb_upd; [apply forallb_upd|]; auto).
    + eapply same_out_bind; [apply maxp_fit_same with (R := eq)|].
      * intros ? ? ->; reflexivity.
      * intros a b p l1 r ->. destruct (basic_fit_with _ _ _ _ _ _ _ _ _ _ _ _) as [[[l2 s'] r']|e|]; cbn; auto. repeat split; auto.
      * reflexivity.
      * intros [[l1 x1] r1] [[l2 x2] r2] (E1 & E2 & E3). cbn in E1, E2, E3. subst.
        destruct x1, x2; try contradiction; subst; cbn; (split; [reflexivity|]; split; [|auto]; cbn; apply forallb_upd; [apply forallb_upd|]; auto).
    + eapply same_out_bind; [apply maxp_fit_same with (R := eq)|].
      * intros ? ? ->; reflexivity.
      * intros a b p l1 r ->. destruct (reactive_fit_with _ _ _ _ _ _ _ _ _ _ _ _) as [[[l2 s'] r']|e|]; cbn; auto. repeat split; auto.
      * reflexivity.
      * intros [[l1 x1] r1] [[l2 x2] r2] (E1 & E2 & E3). cbn in E1, E2, E3. subst.
        destruct x1, x2; try contradiction; subst; cbn; (split; [reflexivity|]; split; [|auto]; cbn; apply forallb_upd; [apply forallb_upd|]; auto).
Qed.

Lemma run_alike ops : forall p q, forallb op_seeded ops = true -> alike p q -> same_out alike (run ops p) (run ops q).
Proof.
  induction ops as [|o ops IH]; intros p q H A; cbn; [exact A|]. cbn in H. apply andb_prop in H. destruct H as [H1 H2].
  eapply same_out_bind; [apply step_alike; assumption|]. intros p' q' A'. apply IH; assumption.
Qed.

Lemma alike_seen i m m' : same_out alike m m' -> seen i m = seen i m'.
Proof.
  intros H. apply same_out_eq. eapply same_out_bind; [exact H|]. intros p q (E & _ & _). rewrite E. apply same_out_refl.
Qed.
End Machine.

(** ** An object nobody else uses stays as it is *)
Definition unshared (i : nat) (x : object) (p : process) : Prop :=
  nth_error (objs p) i = Some x /\ forallb (fun o => negb (refers i o)) (objs p) = true.

Lemma nth_error_upd_other A (l : list A) i j x : i <> j -> nth_error (upd l j x) i = nth_error l i.
Proof.
  revert i j. induction l as [|y l IH]; intros i j H; [reflexivity|]. destruct j as [|j], i as [|i]; cbn; auto; try congruence.
Qed.
Lemma unshared_app i x p r e y : unshared i x p -> refers i y = false -> unshared i x (mkProc r e (objs p ++ [y])).
Proof.
  intros [H1 H2] Hy. split; cbn.
  - rewrite nth_error_app1; [exact H1|]. apply nth_error_Some. congruence.
  - rewrite forallb_app, H2. cbn. now rewrite Hy.
Qed.
Lemma unshared_upd i x p r e j y : unshared i x p -> i <> j -> refers i y = false -> unshared i x (mkProc r e (upd (objs p) j y)).
Proof.
  intros [H1 H2] Hj Hy. split; cbn.
  - rewrite nth_error_upd_other; auto.
  - apply forallb_upd; [exact H2|]. now rewrite Hy.
Qed.

Section Unshared.
Variable seeded : Z -> rng.
Variable expf : Q -> Q.
Variable order : list edge -> list edge.
Variable obj : objfun.
Variable metric : list Q -> list Q -> Q.
Variable azp_fuel sa_fuel : nat.
Let step := step seeded expf order obj metric azp_fuel sa_fuel.
Let run := run seeded expf order obj metric azp_fuel sa_fuel.

Lemma step_unshared i x p o q : uses i o = false -> unshared i x p -> step p o = Ok q -> unshared i x q.
Proof.
  intros Ho U. destruct o as [z|z a|tl reps z|mi k1 k2 z|ls z|k g attr n init|k g attr n c init|k g attr sp thr it]; unfold step, M_Random.step.
  - destruct (seed_with _ _ _) as [r e]. intros [= <-]. apply unshared_app; auto.
  - intros [= <-]. apply unshared_app; auto.
  - destruct (seed_with _ _ _) as [r e]. intros [= <-]. apply unshared_app; auto.
  - destruct (seed_with _ _ _) as [r e]. destruct (reactive_with_new mi) as [s|e'|]; cbn [bind]; try discriminate. intros [= <-]. apply unshared_app; auto.
  - destruct (seed_with _ _ _) as [r e]. intros [= <-]. apply unshared_app; auto.
  - cbn [uses] in Ho. apply Nat.eqb_neq in Ho. destruct (nth_error (objs p) k) as [[]|]; try discriminate.
    + destruct (azp_fit _ _ _ _ _ _ _ _ _ _) as [[[l' s'] r']|e|]; cbn [bind]; try discriminate. intros [= <-]. apply unshared_upd; auto.
    + destruct (basic_fit_with _ _ _ _ _ _ _ _ _ _ _ _) as [[[l' s'] r']|e|]; cbn [bind]; try discriminate. intros [= <-]. apply unshared_upd; auto.
    + destruct (reactive_fit_with _ _ _ _ _ _ _ _ _ _ _ _) as [[[l' s'] r']|e|]; cbn [bind]; try discriminate. intros [= <-]. apply unshared_upd; auto.
  - cbn [uses] in Ho. apply Nat.eqb_neq in Ho. destruct (nth_error (objs p) k) as [[]|]; try discriminate.
    destruct (sa_fit_seeded _ _ _ _ _ _ _ _ _ _ _ _ _ _) as [[[[l' m'] r'] e']|e|]; cbn [bind]; try discriminate.
    intros [= <-]. apply unshared_upd; auto.
  - cbn [uses] in Ho. apply Nat.eqb_neq in Ho. destruct (nth_error (objs p) k) as [[| | | |seed [j|] l0]|] eqn:Ek; try discriminate.
    + assert (Hj : i <> j). { destruct U as [_ U2]. pose proof (forallb_nth _ _ _ _ _ U2 Ek) as H. cbn in H. apply Nat.eqb_neq. now destruct (Nat.eqb i j). }
      assert (Hr : forall l, refers i (ObjMaxP seed (Some j) l) = false) by (intros l; cbn; apply Nat.eqb_neq; auto).
      destruct (nth_error (objs p) j) as [[seed' s l'|seed' a m l'|seed' tl reps s l'|seed' mi k1 k2 s l'|]|] eqn:Ej; try discriminate.
      * destruct (maxp_on_azp _ _ _ _ _ _ _ _ _ _ _ _ _ _) as [[[l2 x2] r2]|e|]; cbn [bind]; try discriminate. intros [= <-].
        assert (U1 : unshared i x (mkProc r2 (ent p) (upd (objs p) k (ObjMaxP seed (Some j) l2)))) by (apply unshared_upd; auto).
        apply (unshared_upd i x _ r2 (ent p) j (ObjAzp seed' (fst (match x2 with Some x0 => x0 | None => (s, l') end)) (snd (match x2 with Some x0 => x0 | None => (s, l') end))) U1); auto.
      * destruct (maxp_on_sa _ _ _ _ _ _ _ _ _ _ _ _ _ _ _ _ _ _) as [[[l2 x2] r2]|e|]; cbn [bind]; try discriminate.
        destruct (match x2 with Some x0 => x0 | None => (m, l', ent p) end) as [[m3 l3] e3]. intros [= <-].
        assert (U1 : unshared i x (mkProc r2 e3 (upd (objs p) k (ObjMaxP seed (Some j) l2)))) by (apply unshared_upd; auto).
        apply (unshared_upd i x _ r2 e3 j (ObjSa seed' a m3 l3) U1); auto.
      * destruct (maxp_on_basic _ _ _ _ _ _ _ _ _ _ _ _ _ _ _) as [[[l2 x2] r2]|e|]; cbn [bind]; try discriminate. intros [= <-].
        assert (U1 : unshared i x (mkProc r2 (ent p) (upd (objs p) k (ObjMaxP seed (Some j) l2)))) by (apply unshared_upd; auto).
        apply (unshared_upd i x _ r2 (ent p) j (ObjBasic seed' tl reps (fst (match x2 with Some x0 => x0 | None => (s, l') end)) (snd (match x2 with Some x0 => x0 | None => (s, l') end))) U1); auto.
      * destruct (maxp_on_reactive _ _ _ _ _ _ _ _ _ _ _ _ _ _ _) as [[[l2 x2] r2]|e|]; cbn [bind]; try discriminate. intros [= <-].
        assert (U1 : unshared i x (mkProc r2 (ent p) (upd (objs p) k (ObjMaxP seed (Some j) l2)))) by (apply unshared_upd; auto).
        apply (unshared_upd i x _ r2 (ent p) j (ObjReactive seed' mi k1 k2 (fst (match x2 with Some x0 => x0 | None => (s, l') end)) (snd (match x2 with Some x0 => x0 | None => (s, l') end))) U1); auto.
    + destruct (maxp_on_azp _ _ _ _ _ _ _ _ _ _ _ _ _ _) as [[[l2 [x2|]] r2]|e|]; cbn [bind]; try discriminate; intros [= <-].
      * assert (Hl : i < length (objs p)) by (apply nth_error_Some; destruct U; congruence).
        assert (U1 : unshared i x (mkProc r2 (ent p) (upd (objs p) k (ObjMaxP seed (Some (length (objs p))) l2)))).
        { apply unshared_upd; auto. cbn. apply Nat.eqb_neq. lia. }
        apply (unshared_app i x _ r2 (fun k => ent p (S k)) (ObjAzp None (fst x2) (snd x2)) U1). reflexivity.
      * apply unshared_upd; auto.
Qed.
Lemma run_unshared i x ops : forall p q, forallb (fun o => negb (uses i o)) ops = true -> unshared i x p -> run ops p = Ok q -> unshared i x q.
Proof.
  induction ops as [|o ops IH]; intros p q H U E; cbn in E; [injection E as <-; exact U|].
  cbn in H. apply andb_prop in H. destruct H as [H1 H2]. apply negb_true_iff in H1.
  fold step in E. destruct (step p o) as [p'|e|] eqn:Es; cbn [bind] in E; try discriminate.
  apply (IH p' q H2); [|exact E]. exact (step_unshared i x p o p' H1 U Es).
Qed.
Lemma run_app ops ops' p : run (ops ++ ops') p = bind (run ops p) (run ops').
Proof.
  revert p. induction ops as [|o ops IH]; intros p; [reflexivity|]. cbn. fold step. destruct (step p o) as [p'|e|]; cbn [bind]; auto.
Qed.
End Unshared.
