(** Two runs of which the first may give up early: the same outcome unless it raises one of the exceptions [E]. *)
From Verif Require Import Base Spec M_Graph M_Util P_Base M_Objective M_Azp M_Sa M_Tabu M_MaxP M_TabuWith.

Section Upto.
Variable E : exn -> Prop.

Definition upto {A B} (R : A -> B -> Prop) (x : out A) (y : out B) : Prop :=
  (exists e, x = Raise e /\ E e) \/ rel R x y.

Lemma upto_bind {A B A' B'} (R : A -> B -> Prop) (R' : A' -> B' -> Prop) x y k k' :
  upto R x y -> (forall a b, R a b -> upto R' (k a) (k' b)) -> upto R' (bind x k) (bind y k').
Proof.
  intros [[e [-> He]]|H] Hk; [left; exists e; auto|]. destruct x, y; cbn in H; try contradiction; cbn [bind]; auto; right; cbn; auto.
Qed.
Lemma upto_same {A A' B'} (R' : A' -> B' -> Prop) (x : out A) k k' : (forall a, upto R' (k a) (k' a)) -> upto R' (bind x k) (bind x k').
Proof. intros H. destruct x; cbn [bind]; auto; right; cbn; auto. Qed.
Lemma upto_refl {A} (R : A -> A -> Prop) (x : out A) : (forall a, R a a) -> upto R x x.
Proof. intros H. right. destruct x; cbn; auto. Qed.
Lemma upto_Ok {A B} (R : A -> B -> Prop) a b : R a b -> upto R (Ok a) (Ok b).
Proof. intros H. right. exact H. Qed.
Lemma upto_Raise {A B} (R : A -> B -> Prop) e : upto R (@Raise A e) (@Raise B e).
Proof. right. reflexivity. Qed.
Lemma upto_NoFuel {A B} (R : A -> B -> Prop) : upto R (@NoFuel A) (@NoFuel B).
Proof. right. exact I. Qed.
Lemma upto_weaken {A B} (R R' : A -> B -> Prop) x y : (forall a b, R a b -> R' a b) -> upto R x y -> upto R' x y.
Proof. intros H [Hx|Hx]; [left; auto|right]. destruct x, y; cbn in *; auto. Qed.

(** ** one component *)
Section Loops.
Variables (St St' : Type).
Variable call : St -> nat -> Z -> list Z -> rng -> out (bool * St * rng).
Variable call' : St' -> nat -> Z -> list Z -> rng -> out (bool * St' * rng).
Variables (objv : St -> Q) (objv' : St' -> Q).
Variable g : graph.
Variable I : St -> St' -> Prop.
Hypothesis Hobj : forall s s', I s s' -> objv s = objv' s'.
Hypothesis Hcall : forall s s' a r l rg, I s s' ->
  upto (fun '(b, s1, r1) '(b', s1', r1') => b = b' /\ r1 = r1' /\ I s1 s1') (call s a r l rg) (call' s' a r l rg).

Lemma try_candidates_upto r : forall k cands labels rn s s' rg, I s s' ->
  upto (fun '(m, l, rn1, s1, r1) '(m', l', rn1', s1', r1') => m = m' /\ l = l' /\ rn1 = rn1' /\ r1 = r1' /\ I s1 s1')
    (try_candidates St call g k cands r labels rn s rg) (try_candidates St' call' g k cands r labels rn s' rg).
Proof.
  induction k as [|k IH]; intros cands labels rn s s' rg HI; destruct cands as [|c0 cs]; cbn [try_candidates].
  - apply upto_Ok. auto.
  - apply upto_NoFuel.
  - apply upto_Ok. auto.
  - apply upto_same. intros [[x rest] r1]. eapply upto_bind; [apply Hcall; eauto|].
    intros [[b s1] r2] [[b' s1'] r2'] [<- [<- Hb]]. destruct b; [|apply IH; auto].
    destruct (after_move g x r labels rn). apply upto_Ok. auto.
Qed.

Lemma grow_recipient_upto r : forall fuel labels rn s s' rg, I s s' ->
  upto (fun '(l, rn1, s1, r1) '(l', rn1', s1', r1') => l = l' /\ rn1 = rn1' /\ r1 = r1' /\ I s1 s1')
    (grow_recipient St call g fuel r labels rn s rg) (grow_recipient St' call' g fuel r labels rn s' rg).
Proof.
  induction fuel as [|fuel IH]; intros labels rn s s' rg HI; cbn [grow_recipient]; [apply upto_NoFuel|].
  apply upto_same. intros ns. eapply upto_bind; [apply try_candidates_upto; eauto|].
  intros [[[[m l] rn1] s1] r1] [[[[m' l'] rn1'] s1'] r1'] [<- [<- [<- [<- H]]]]. destruct m; [apply IH; auto|apply upto_Ok; auto].
Qed.

Lemma azp_pass_upto fuel : forall k regions labels rn s s' rg, I s s' ->
  upto (fun '(l, rn1, s1, r1) '(l', rn1', s1', r1') => l = l' /\ rn1 = rn1' /\ r1 = r1' /\ I s1 s1')
    (azp_pass St call g fuel k regions labels rn s rg) (azp_pass St' call' g fuel k regions labels rn s' rg).
Proof.
  induction k as [|k IH]; intros regions labels rn s s' rg HI; destruct regions as [|r0 rs]; cbn [azp_pass].
  - apply upto_Ok. auto.
  - apply upto_NoFuel.
  - apply upto_Ok. auto.
  - apply upto_same. intros [[x rest] r1]. eapply upto_bind; [apply grow_recipient_upto; eauto|].
    intros [[[l rn1] s1] r2] [[[l' rn1'] s1'] r2'] [<- [<- [<- H]]]. apply IH; auto.
Qed.

Lemma azp_loop_upto regions : forall fuel start labels rn s s' rg, I s s' ->
  upto (fun '(l, s1, r1) '(l', s1', r1') => l = l' /\ r1 = r1' /\ I s1 s1')
    (azp_loop St call objv g fuel start regions labels rn s rg) (azp_loop St' call' objv' g fuel start regions labels rn s' rg).
Proof.
  induction fuel as [|fuel IH]; intros start labels rn s s' rg HI; cbn [azp_loop]; rewrite <- (Hobj s s' HI);
    (destruct (match start with None => true | Some v => Qltb (objv s) v end); [|apply upto_Ok; auto]).
  - apply upto_NoFuel.
  - eapply upto_bind; [apply azp_pass_upto; eauto|]. intros [[[l rn1] s1] r2] [[[l' rn1'] s1'] r2'] [<- [<- [<- H]]]. apply IH; auto.
Qed.

Lemma azp_component_upto fuel labels s s' rg : I s s' ->
  upto (fun '(l, s1, r1) '(l', s1', r1') => l = l' /\ r1 = r1' /\ I s1 s1')
    (azp_component St call objv g fuel labels s rg) (azp_component St' call' objv' g fuel labels s' rg).
Proof.
  intros HI. unfold azp_component. destruct (uniqueZ labels) as [|r0 [|r1 rs]]; [apply upto_Raise|apply upto_Ok; auto|]. apply azp_loop_upto; auto.
Qed.

(** ** the tabu procedures *)
Variables O O' : objfun.
Variables rows rows' : list (list Q).
Hypothesis HOcall : forall l, upto eq (o_call O l rows) (o_call O' l rows').
Hypothesis HOupd : forall a r l, upto eq (o_update O a r l rows) (o_update O' a r l rows').

Lemma best_of_upto l : forall moves i best, upto eq (best_of O rows l i moves best) (best_of O' rows' l i moves best).
Proof.
  induction moves as [|m moves IH]; intros i best; cbn [best_of]; [apply upto_Ok; auto|].
  eapply upto_bind; [apply HOupd|]. intros q q' <-. apply IH.
Qed.
Lemma improving_tabus_upto l : forall tabu, upto eq (improving_tabus O rows l tabu) (improving_tabus O' rows' l tabu).
Proof.
  induction tabu as [|m tabu IH]; cbn [improving_tabus]; [apply upto_Ok; auto|]. destruct (Z.eqb _ _); [|auto].
  eapply upto_bind; [apply HOupd|]. intros q q' <-. eapply upto_bind; [apply IH|]. intros t t' <-. apply upto_Ok; auto.
Qed.

Definition four {S1 S2} (J : S1 -> S2 -> Prop) (x : list Z * list tmove * S1 * rng) (y : list Z * list tmove * S2 * rng) : Prop :=
  let '(l, t, s, r) := x in let '(l', t', s', r') := y in l = l' /\ t = t' /\ r = r' /\ J s s'.

Lemma try_move_with_upto maxlen m l tabu s s' r : I s s' ->
  upto (four I) (try_move_with St call g maxlen m l tabu s r) (try_move_with St' call' g maxlen m l tabu s' r).
Proof.
  intros HI. unfold try_move_with. eapply upto_bind; [apply Hcall; eauto|]. intros [[b s1] r2] [[b' s1'] r2'] [<- [<- Hb]]. destruct b.
  - apply upto_same. intros [[l1 t1] b1]. apply upto_Ok. cbn. auto.
  - apply upto_Ok. cbn. auto.
Qed.

Lemma basic_loop_with_upto maxlen reps : forall fuel stop visited l tabu s s' r, I s s' ->
  upto (fun '(l, s1, r1) '(l', s1', r1') => l = l' /\ r1 = r1' /\ I s1 s1')
    (basic_loop_with St call O g fuel maxlen reps rows stop visited l tabu s r)
    (basic_loop_with St' call' O' g fuel maxlen reps rows' stop visited l tabu s' r).
Proof.
  induction fuel as [|fuel IH]; intros stop visited l tabu s s' r HI; cbn [basic_loop_with]; [apply upto_NoFuel|].
  eapply upto_bind; [apply best_of_upto|]. intros best best' <-.
  eapply (upto_bind (fun '(b, l, t, s, r) '(b', l', t', s', r') => b = b' /\ l = l' /\ t = t' /\ r = r' /\ I s s')).
  - destruct best as [[[m i] q]|]; [|apply upto_Ok; auto]. destruct (Qle_bool q 0); [|apply upto_Ok; auto].
    eapply upto_bind; [apply Hcall; eauto|]. intros [[b s1] r2] [[b' s1'] r2'] [<- [<- Hb]]. destruct b; [|apply upto_Ok; auto].
    apply upto_same. intros [[l1 t1] b1]. apply upto_Ok; auto.
  - intros [[[[b l1] t1] s1] r1] [[[[b' l1'] t1'] s1'] r1'] [<- [<- [<- [<- H1]]]]. destruct b; [apply IH; auto|].
    eapply upto_bind; [apply improving_tabus_upto|]. intros its its' <-.
    eapply (upto_bind (four I)).
    + destruct its as [|m0 its]; [apply upto_Ok; cbn; auto|]. apply upto_same. intros [m r']. apply try_move_with_upto; auto.
    + intros [[[l2 t2] s2] r2] [[[l2' t2'] s2'] r2'] [<- [<- [<- H2]]]. destruct (_ || _)%bool; [apply upto_Ok; auto|].
      eapply (upto_bind (four I)).
      * destruct best as [[[m i] q]|]; [apply try_move_with_upto; auto|apply upto_Ok; cbn; auto].
      * intros [[[l3 t3] s3] r3] [[[l3' t3'] s3'] r3'] [<- [<- [<- H3]]]. apply IH; auto.
Qed.

Lemma basic_component_with_upto fuel maxlen reps l s s' r : I s s' ->
  upto (fun '(l, s1, r1) '(l', s1', r1') => l = l' /\ r1 = r1' /\ I s1 s1')
    (basic_component_with St call O g fuel maxlen reps l rows s r) (basic_component_with St' call' O' g fuel maxlen reps l rows' s' r).
Proof. intros HI. unfold basic_component_with. destruct (Nat.eqb _ _); [apply upto_Ok; auto|]. apply basic_loop_with_upto; auto. Qed.

Lemma random_moves_with_upto p : forall moves l tabu s s' r, I s s' ->
  upto (four I) (random_moves_with St call g p moves l tabu s r) (random_moves_with St' call' g p moves l tabu s' r).
Proof.
  induction p as [|p IH]; intros moves l tabu s s' r HI; cbn [random_moves_with]; [apply upto_Ok; cbn; auto|].
  apply upto_same. intros [[m moves'] r1]. eapply upto_bind; [apply try_move_with_upto; eauto|].
  intros [[[l2 t2] s2] r2] [[[l2' t2'] s2'] r2'] [<- [<- [<- H2]]]. apply IH; auto.
Qed.

Definition rw_two {S1 S2} (J : S1 -> S2 -> Prop) (s : reactive_with S1) (s' : reactive_with S2) : Prop :=
  J (rw_strat s) (rw_strat s') /\ rw_avg s = rw_avg s' /\ rw_reps s = rw_reps s' /\ rw_visited s = rw_visited s'.

Lemma reactive_loop_with_upto k1 k2 : forall maxit start ls l tabu s s' r, rw_two I s s' ->
  upto (fun '(l, s1, ls1, r1) '(l', s1', ls1', r1') => l = l' /\ ls1 = ls1' /\ r1 = r1' /\ rw_two I s1 s1')
    (reactive_loop_with St call O g maxit k1 k2 rows start ls l tabu s r)
    (reactive_loop_with St' call' O' g maxit k1 k2 rows' start ls l tabu s' r).
Proof.
  induction maxit as [|maxit IH]; intros start ls l tabu s s' r HI; cbn [reactive_loop_with]; [apply upto_Ok; auto|].
  pose proof HI as [HI1 [HI2 [HI3 HI4]]].
  eapply upto_bind; [apply HOcall|]. intros v v' <-. destruct (negb _); [apply upto_Ok; auto|].
  eapply upto_bind; [apply best_of_upto|]. intros best best' <-. destruct best as [[[m i] q]|]; [|apply upto_Raise].
  eapply upto_bind; [apply try_move_with_upto; eauto|]. intros [[[l2 t2] s2] r2] [[[l2' t2'] s2'] r2'] [<- [<- [<- H2]]].
  rewrite <- HI2, <- HI3, <- HI4. destruct (_ && _)%bool.
  - destruct (Nat.leb _ _); [|apply upto_Raise]. eapply upto_bind; [apply random_moves_with_upto; eauto|].
    intros [[[l3 t3] s3] r3] [[[l3' t3'] s3'] r3'] [<- [<- [<- H3]]]. apply IH. split; cbn; auto.
  - apply IH. split; cbn; auto.
Qed.

Lemma reactive_component_with_upto maxit k1 k2 l s s' r : rw_two I s s' ->
  upto (fun '(l, s1, r1) '(l', s1', r1') => l = l' /\ r1 = r1' /\ rw_two I s1 s1')
    (reactive_component_with St call O g maxit k1 k2 l rows s r) (reactive_component_with St' call' O' g maxit k1 k2 l rows' s' r).
Proof.
  intros HI. unfold reactive_component_with. destruct (Nat.eqb _ _); [apply upto_Ok; auto|].
  eapply upto_bind; [apply reactive_loop_with_upto; eauto|]. intros [[[l1 s1] ls] r1] [[[l1' s1'] ls'] r1'] [<- [<- [<- H]]].
  pose proof H as [_ [_ [_ <-]]]. apply upto_same. intros l2. apply upto_Ok; auto.
Qed.
End Loops.

(** ** all components *)
Section Fit.
Variables (S S' : Type).
Variable start : S -> list Z -> list (list Q) -> list nat -> out S.
Variable start' : S' -> list Z -> list (list Q) -> list nat -> out S'.
Variable component : graph -> list Z -> list (list Q) -> S -> rng -> out (list Z * S * rng).
Variable component' : graph -> list Z -> list (list Q) -> S' -> rng -> out (list Z * S' * rng).
Variable order : list edge -> list edge.
Variable g : graph.
Variables attr attr' : list (list Q).
Variable J : S -> S' -> Prop.
Hypothesis Hrun : forall adj l idx s s' r, J s s' ->
  upto (fun '(l, s1, r1) '(l', s1', r1') => l = l' /\ r1 = r1' /\ J s1 s1')
    (let* s1 := start s l (map (row attr) idx) idx in component adj l (map (row attr) idx) s1 r)
    (let* s1 := start' s' l (map (row attr') idx) idx in component' adj l (map (row attr') idx) s1 r).

Definition same_acc (x : (list Z * S) * rng) (y : (list Z * S') * rng) : Prop :=
  fst (fst x) = fst (fst y) /\ snd x = snd y /\ J (snd (fst x)) (snd (fst y)).

Lemma bind_assoc {A B C} (m : out A) (k : A -> out B) (h : B -> out C) : bind m (fun a => bind (k a) h) = bind (bind m k) h.
Proof. destruct m; reflexivity. Qed.

Lemma fit_one_upto y labels s s' r : J s s' ->
  upto same_acc (fit_one S start component g attr y (labels, s) r) (fit_one S' start' component' g attr' y (labels, s') r).
Proof.
  intros HJ. destruct y as [n|arr]; cbn [fit_one fst snd]; [|apply upto_Raise]. all: try apply upto_Raise.
  rewrite !bind_assoc.
  eapply upto_bind; [apply Hrun; auto|]. intros [[l1 s1] r1] [[l1' s1'] r1'] [<- [<- H]].
  apply upto_same. intros l2. apply upto_Ok. split; [auto|]. split; auto.
Qed.

Lemma fit_arrays_upto : forall arrs labels s s' r, J s s' ->
  upto same_acc (fit_arrays S start component g attr arrs (labels, s) r) (fit_arrays S' start' component' g attr' arrs (labels, s') r).
Proof.
  induction arrs as [|arr arrs IH]; intros labels s s' r HJ; cbn [fit_arrays].
  - apply upto_Ok. split; [auto|]. split; auto.
  - eapply upto_bind; [apply fit_one_upto; eauto|]. intros [[l1 s1] r1] [[l1' s1'] r1'] [H1 [H2 H3]]. cbn [fst snd] in *. subst l1' r1'. apply IH; auto.
Qed.

Lemma gen_comps_upto : forall items built labels s s' r, J s s' ->
  upto same_acc (gen_comps order g (fit_one S start component g attr) items built (labels, s) r)
                (gen_comps order g (fit_one S' start' component' g attr') items built (labels, s') r).
Proof.
  induction items as [|[c k] items IH]; intros built labels s s' r HJ; cbn [gen_comps].
  - apply upto_Ok. split; [auto|]. split; auto.
  - apply upto_same. intros [arr r1]. eapply upto_bind; [apply fit_one_upto; eauto|].
    intros [[l1 s1] r2] [[l1' s1'] r2'] [H1 [H2 H3]]. cbn [fst snd] in *. subst l1' r2'. apply IH; auto.
Qed.

Theorem fit_upto p initial s s' r : J s s' ->
  upto same_acc (fit S start component order g attr p initial s r) (fit S' start' component' order g attr' p initial s' r).
Proof.
  intros HJ. unfold fit. destruct initial as [l|].
  - apply upto_same. intros _. destruct (Nat.eqb _ _); [apply fit_arrays_upto; auto|apply upto_Raise].
  - unfold generate_initial_sol. destruct (Nat.eqb _ _); [apply upto_Raise|]. destruct (Z.ltb _ _); [apply upto_Raise|].
    destruct (Z.eqb _ _); [apply fit_one_upto; auto|]. destruct (Z.ltb _ _); [apply upto_Raise|].
    apply upto_same. intros [dd r1]. apply gen_comps_upto; auto.
Qed.
End Fit.

(** ** the strategies *)
Fixpoint alike (C : common -> common -> Prop) (s s' : strategy) : Prop :=
  match s, s' with
  | SAzp c, SAzp c' => C c c'
  | SSa c t sa term re mo, SSa c' t' sa' term' re' mo' => C c c' /\ t = t' /\ sa = sa' /\ term = term' /\ re = re' /\ mo = mo'
  | SMaxP c sa sp th i, SMaxP c' sa' sp' th' i' => C c c' /\ sa = sa' /\ sp = sp' /\ th = th' /\ alike C i i'
  | _, _ => False
  end.
Definition shape := alike (fun _ _ => True).
Definition both := alike (fun c c' => c_val c = c_val c' /\
  forall a r l, upto eq (o_update (c_obj c) a r l (c_attr c)) (o_update (c_obj c') a r l (c_attr c'))).
Lemma shape_refl s : shape s s.
Proof. induction s; cbn; auto 10. Qed.
Lemma both_shape s : forall s', both s s' -> shape s s'.
Proof. induction s as [c|c t sa term re mo|c sa sp th i IH]; intros [c'|c' t' sa' term' re' mo'|c' sa' sp' th' i']; cbn; try tauto. intros [_ [H1 [H2 [H3 H4]]]]. do 4 (split; auto). Qed.
Lemma both_val s s' : both s s' -> strat_val s = strat_val s'.
Proof. destruct s, s'; cbn; tauto. Qed.

Section Strat.
Variable expf : Q -> Q.

Lemma strat_call_upto a r l : forall s s' rg, both s s' ->
  upto (fun '(b, s1, r1) '(b', s1', r1') => b = b' /\ r1 = r1' /\ both s1 s1') (strat_call expf s a r l rg) (strat_call expf s' a r l rg).
Proof.
  induction s as [c|c t sa term re mo|c sa sp th i IH]; intros [c'|c' t' sa' term' re' mo'|c' sa' sp' th' i'] rg H; cbn in H; try contradiction; cbn [strat_call].
  - destruct H as [Hv Hu]. unfold azp_call. rewrite <- !bind_assoc. eapply upto_bind; [apply Hu|]. intros q q' <-.
    destruct (Qle_bool q 0); cbn [bind]; apply upto_Ok; cbn; [rewrite Hv|]; auto 10.
  - destruct H as [[Hv Hu] [<- [<- [<- [<- <-]]]]]. unfold sa_call. eapply upto_bind; [apply Hu|]. intros q q' <-.
    destruct (Qle_bool q 0); [apply upto_Ok; cbn; rewrite Hv; auto 12|]. destruct (random_random rg) as [u rg'].
    destruct (Qltb u (sa_prob expf q t)); apply upto_Ok; cbn; [rewrite Hv|]; auto 12.
  - destruct H as [[Hv Hu] [<- [<- [<- Hi]]]]. destruct (donor_ok sp th a l); [|apply upto_Ok; cbn; auto 10].
    eapply upto_bind; [apply IH; eauto|]. intros [[b s1] r1] [[b' s1'] r1'] [<- [<- H1]]. apply upto_Ok. cbn. auto 10.
Qed.

Variables (O O' : objfun) (attr attr' : list (list Q)).
Hypothesis HOcall : forall idx l, upto eq (o_call O l (map (row attr) idx)) (o_call O' l (map (row attr') idx)).
Hypothesis HOupd : forall idx a r l, upto eq (o_update O a r l (map (row attr) idx)) (o_update O' a r l (map (row attr') idx)).

Lemma start_common_upto idx l :
  upto (fun c c' => c_val c = c_val c' /\ forall a r l, upto eq (o_update (c_obj c) a r l (c_attr c)) (o_update (c_obj c') a r l (c_attr c')))
    (start_common l (map (row attr) idx) O) (start_common l (map (row attr') idx) O').
Proof. unfold start_common. eapply upto_bind; [apply HOcall|]. intros v v' <-. apply upto_Ok. cbn. auto. Qed.

Lemma strat_start_upto idx l : forall s s', shape s s' ->
  upto both (strat_start O s l (map (row attr) idx) idx) (strat_start O' s' l (map (row attr') idx) idx).
Proof.
  induction s as [c|c t sa term re mo|c sa sp th i IH]; intros [c'|c' t' sa' term' re' mo'|c' sa' sp' th' i'] H; cbn in H; try contradiction; cbn [strat_start].
  - eapply upto_bind; [apply start_common_upto|]. intros x x' Hx. apply upto_Ok. exact Hx.
  - destruct H as [_ [<- [<- [<- [<- <-]]]]]. eapply upto_bind; [apply start_common_upto|]. intros x x' Hx. apply upto_Ok. cbn. auto 10.
  - destruct H as [_ [<- [<- [<- Hi]]]]. eapply upto_bind; [apply start_common_upto|]. intros x x' Hx.
    eapply upto_bind; [apply IH; eauto|]. intros j j' Hj. apply upto_Ok. cbn. auto 10.
Qed.

Variable order : list edge -> list edge.
Variable g : graph.

Theorem azp_fit_upto fuel p initial s s' r : shape s s' ->
  upto (same_acc strategy strategy shape) (azp_fit expf order O fuel g attr p initial s r) (azp_fit expf order O' fuel g attr' p initial s' r).
Proof.
  intros Hs. unfold azp_fit. apply fit_upto; auto. intros adj l idx s1 s1' r1 H1.
  eapply upto_bind; [apply strat_start_upto; eauto|]. intros s2 s2' H2.
  eapply upto_weaken; [|apply azp_component_upto with (I := both); auto using both_val].
  - intros [[l3 s3] r3] [[l3' s3'] r3'] [<- [<- H]]. auto using both_shape.
  - intros. apply strat_call_upto; auto.
Qed.

Theorem basic_fit_with_upto fuel maxlen reps p initial s s' r : shape s s' ->
  upto (same_acc strategy strategy shape) (basic_fit_with expf order O fuel maxlen reps g attr p initial s r)
    (basic_fit_with expf order O' fuel maxlen reps g attr' p initial s' r).
Proof.
  intros Hs. unfold basic_fit_with. apply fit_upto; auto. intros adj l idx s1 s1' r1 H1.
  eapply upto_bind; [apply strat_start_upto; eauto|]. intros s2 s2' H2.
  eapply upto_weaken; [|apply basic_component_with_upto with (I := both); auto].
  - intros [[l3 s3] r3] [[l3' s3'] r3'] [<- [<- H]]. auto using both_shape.
  - intros. apply strat_call_upto; auto.
Qed.

Theorem reactive_fit_with_upto maxit k1 k2 p initial s s' r : rw_two shape s s' ->
  upto (same_acc _ _ (rw_two shape)) (reactive_fit_with expf order O maxit k1 k2 g attr p initial s r)
    (reactive_fit_with expf order O' maxit k1 k2 g attr' p initial s' r).
Proof.
  intros Hs. unfold reactive_fit_with. apply fit_upto; auto. intros adj l idx s1 s1' r1 [H1 [H2 [H3 H4]]].
  rewrite <- !bind_assoc. eapply upto_bind; [apply strat_start_upto; eauto|]. intros s2 s2' H5. cbn [bind].
  eapply upto_weaken; [|apply reactive_component_with_upto with (I := both); auto].
  - intros [[l3 s3] r3] [[l3' s3'] r3'] [<- [<- [K1 K]]]. do 2 (split; auto). split; auto using both_shape.
  - intros. apply strat_call_upto; auto.
  - split; cbn; auto.
Qed.

(** ** AZPSimulatedAnnealing *)
Lemma shape_flags s s' : shape s s' -> sa_is_reached s = sa_is_reached s' /\ sa_is_moved s = sa_is_moved s' /\ shape (sa_reset s) (sa_reset s') /\
  shape (sa_clear_moved s) (sa_clear_moved s') /\ forall q, shape (sa_set_temperature q s) (sa_set_temperature q s').
Proof. destruct s, s'; cbn; try tauto; intros H; repeat split; tauto. Qed.

Lemma sa_step_b_upto azp_fuel p : forall fuel left initial s s' r, shape s s' ->
  upto (fun '(l, s1, r1) '(l', s1', r1') => l = l' /\ r1 = r1' /\ shape s1 s1')
    (sa_step_b expf order O azp_fuel g attr p fuel left initial s r) (sa_step_b expf order O' azp_fuel g attr' p fuel left initial s' r).
Proof.
  induction fuel as [|fuel IH]; intros left initial s s' r Hs; cbn [sa_step_b];
    destruct (shape_flags s s' Hs) as [E1 _]; rewrite <- E1; (destruct (_ || _)%bool; [apply upto_Ok; auto|]); [apply upto_NoFuel|].
  eapply upto_bind; [apply azp_fit_upto; eauto|]. intros [[l1 s1] r1] [[l1' s1'] r1'] [H1 [H2 H3]]. cbn [fst snd] in *. subst l1' r1'.
  destruct (match initial with Some old => same_solution old l1 | None => false end); [apply upto_Ok; auto|apply IH; auto].
Qed.

Lemma sa_outer_upto azp_fuel p a cooling : forall fuel nonmoving t initial s s' visited r, shape s s' ->
  upto eq (sa_outer expf order O azp_fuel g attr p fuel a cooling nonmoving t initial s visited r)
    (sa_outer expf order O' azp_fuel g attr' p fuel a cooling nonmoving t initial s' visited r).
Proof.
  induction fuel as [|fuel IH]; intros nonmoving t initial s s' visited r Hs; cbn [sa_outer];
    destruct (shape_flags s s' Hs) as [_ [E2 [E3 _]]]; (destruct (Nat.ltb _ _); [|rewrite E2; apply upto_Ok; auto]); [apply upto_NoFuel|].
  eapply upto_bind; [apply sa_step_b_upto; eauto|]. intros [[sol s1] r1] [[sol' s1'] r1'] [<- [<- H1]].
  destruct sol as [l|]; [|apply upto_Raise].
  destruct (shape_flags s1 s1' H1) as [_ [F2 [_ [_ F5]]]]. destruct (Nat.leb _ _); [rewrite F2; apply upto_Ok; auto|].
  destruct (shape_flags _ _ (F5 (t * cooling)%Q)) as [_ [G2 [_ [G4 _]]]]. rewrite <- G2. destruct (sa_is_moved (sa_set_temperature (t * cooling) s1)); apply IH; auto.
Qed.

Theorem sa_fit_upto azp_fuel p fuel cooling initial a m r :
  upto eq (sa_fit expf order O azp_fuel g attr p fuel cooling initial a m r) (sa_fit expf order O' azp_fuel g attr' p fuel cooling initial a m r).
Proof.
  unfold sa_fit. destruct (negb _); [apply upto_Raise|]. apply upto_same. intros s. apply sa_outer_upto, shape_refl.
Qed.
End Strat.
End Upto.
