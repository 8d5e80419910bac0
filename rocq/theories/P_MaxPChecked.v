(** Missing attribute values in MaxPRegionsHeu: proofs. *)
From Verif Require Import Base Spec SpecMissing M_Graph M_Util P_Base P_Util M_Objective P_Objective M_Azp P_Azp P_Fit M_Sa M_Tabu M_MaxP M_TabuWith
  M_Missing P_Upto P_Missing M_Grow M_MaxPChecked.

Section Construction.
Variable E : exn -> Prop.
Variable d : list Q -> list Q -> Q.
Variable g : graph.
Variable attr' : list (list Q).
Variables sp sp' : list (list Q).
Variable thr : list Q.
Variables enough short : list Q -> bool.
Variable find_area : list nat -> list nat -> rng -> out (nat * rng).
Variable find_region : nat -> list (list nat) -> list nat -> rng -> out (nat * rng).
(** rows of both kinds that stand for the same amounts *)
Variable T : list Q -> list Q -> Prop.
Hypothesis Hrows : forall a, T (row sp a) (row sp' a).
Hypothesis Hadd : forall x x' a, T x x' -> T (add_rows x (row sp a)) (add_rows x' (row sp' a)).
Hypothesis Henough : forall a, enough (row sp a) = true -> reaches (row sp' a) thr = true.
Hypothesis Hshort : forall x x', T x x' -> short x = negb (reaches x' thr).
Hypothesis Hfa : forall R C r, upto E eq (find_area R C r) (find_best_area d attr' R C r).
Hypothesis Hfr : forall a P C r, upto E eq (find_region a P C r) (find_best_region_idx d attr' a P C r).

Lemma open_grow_region_upto : forall fuel R N x x' U A r, T x x' ->
  upto E eq (open_grow_region g sp short find_area fuel R N x U A r) (grow_region d g attr' sp' thr fuel R N x' U A r).
Proof.
  induction fuel as [|fuel IH]; intros R N x x' U A r HT; cbn [open_grow_region grow_region]; rewrite (Hshort x x' HT), negb_involutive.
  - destruct (reaches x' thr); [apply upto_Ok; auto|apply upto_NoFuel].
  - destruct (reaches x' thr); [apply upto_Ok; auto|]. destruct N as [|n0 N].
    + apply upto_same. intros A'. apply upto_Ok. auto.
    + eapply upto_bind; [apply Hfa|]. intros [a r1] ? <-. cbv zeta. destruct (remove_first a U) as [U'|]; [|apply upto_Raise]. apply IH. auto.
Qed.
Lemma open_grow_loop_upto : forall fuel P F U A r,
  upto E eq (open_grow_loop g sp enough short find_area fuel P F U A r) (grow_loop d g attr' sp' thr fuel P F U A r).
Proof.
  induction fuel as [|fuel IH]; intros P F U A r; destruct U as [|u U]; cbn [open_grow_loop grow_loop]; try (apply upto_Ok; auto; fail); [apply upto_NoFuel|].
  apply upto_same. intros [[a U1] r1]. cbv zeta. destruct (enough (row sp a)) eqn:En.
  - rewrite (Henough a En). apply IH.
  - destruct (reaches (row sp' a) thr) eqn:Er.
    + cbn [open_grow_region]. rewrite (Hshort _ _ (Hrows a)), Er. cbn [negb bind]. apply IH.
    + eapply upto_bind; [apply open_grow_region_upto, Hrows|]. intros [[[[b R] U2] A2] r2] ? <-. destruct b; apply IH.
Qed.
Lemma open_construct_upto : forall k mp best r,
  upto E eq (open_construct g sp enough short find_area k mp best r) (construct d g attr' sp' thr k mp best r).
Proof.
  induction k as [|k IH]; intros mp best r; cbn [open_construct construct]; [apply upto_Ok; auto|].
  eapply upto_bind; [apply open_grow_loop_upto|]. intros [[P F] r1] ? <-. cbv zeta. destruct (Nat.ltb _ _); [apply IH|]. destruct (Nat.eqb _ _); apply IH.
Qed.
Lemma open_assign_loop_upto : forall fuel P F r, upto E eq (open_assign_loop g find_region fuel P F r) (assign_loop d g attr' fuel P F r).
Proof.
  induction fuel as [|fuel IH]; intros P F r; destruct F as [|f F]; cbn [open_assign_loop assign_loop]; try (apply upto_Ok; auto; fail); [apply upto_NoFuel|].
  cbv zeta. apply upto_same. intros [[a rest] r1]. eapply upto_bind; [apply Hfr|]. intros [k r2] ? <-.
  destruct (remove_first a (f :: F)); [apply IH|apply upto_Raise].
Qed.
Lemma open_assign_each_upto : forall before r, upto E eq (open_assign_each g find_region before r) (assign_each d g attr' before r).
Proof.
  induction before as [|[P F] before IH]; intros r; cbn [open_assign_each assign_each]; [apply upto_Ok; auto|].
  eapply upto_bind; [apply open_assign_loop_upto|]. intros [P1 r1] ? <-. eapply upto_bind; [apply IH|]. intros [Ps r2] ? <-. apply upto_Ok. auto.
Qed.

(** ** the local search phase *)
Variables LS LS' : Type.
Variables (wrap : LS -> LS) (wrap' : LS' -> LS').
Variable ls_fit : LS -> Z -> list Z -> rng -> out (option (list Z) * LS * rng).
Variable ls_fit' : LS' -> Z -> list Z -> rng -> out (option (list Z) * LS' * rng).
Variables obj obj' : objfun.
Variable attr : list (list Q).
Variable J : LS -> LS' -> Prop.
Hypothesis Hwrap : forall s s', J s s' -> J (wrap s) (wrap' s').
Hypothesis Hfit : forall s s' mp l r, J s s' ->
  upto E (fun '(x, t, r1) '(x', t', r1') => x = x' /\ r1 = r1' /\ J t t') (ls_fit s mp l r) (ls_fit' s' mp l r).
Hypothesis Hobj : forall l, upto E eq (o_call obj l attr) (o_call obj' l attr').

Lemma search_all_upto mp : forall parts s s' b r, J s s' ->
  upto E (fun '(t, x, r1) '(t', x', r1') => J t t' /\ x = x' /\ r1 = r1')
    (search_all LS ls_fit obj attr mp parts s b r) (search_all LS' ls_fit' obj' attr' mp parts s' b r).
Proof.
  induction parts as [|P parts IH]; intros s s' b r Hj; cbn [search_all]; [apply upto_Ok; auto|].
  apply upto_same. intros l0. eapply upto_bind; [apply Hfit; eauto|]. intros [[x t] r1] [[x' t'] r1'] [<- [<- Ht]].
  destruct x as [l|]; [|apply upto_Raise]. eapply upto_bind; [apply Hobj|]. intros v ? <-. cbv zeta. apply IH. auto.
Qed.
Lemma search_rounds_upto mp parts : forall k s s' b r, J s s' ->
  upto E (fun '(t, x, r1) '(t', x', r1') => J t t' /\ x = x' /\ r1 = r1')
    (search_rounds LS wrap ls_fit obj attr k mp parts s b r) (search_rounds LS' wrap' ls_fit' obj' attr' k mp parts s' b r).
Proof.
  induction k as [|k IH]; intros s s' b r Hj; cbn [search_rounds]; [apply upto_Ok; auto|].
  eapply upto_bind; [apply search_all_upto; eauto|]. intros [[t x] r1] [[t' x'] r1'] [Ht [<- <-]]. apply IH; auto.
Qed.

Definition mp_alike (x : option (list Z) * option LS * rng) (y : option (list Z) * option LS' * rng) : Prop :=
  let '(l, t, r) := x in let '(l', t', r') := y in
  l = l' /\ r = r' /\ match t, t' with Some s, Some s' => J s s' | None, None => True | _, _ => False end.

Theorem open_maxp_fit_upto new new' max_it labels0 ls ls' r :
  match ls, ls' with Some s, Some s' => J s s' | None, None => True | _, _ => False end ->
  (ls = None -> forall r, J (fst (new r)) (fst (new' r)) /\ snd (new r) = snd (new' r)) ->
  upto E mp_alike (open_maxp_fit g sp enough short find_area find_region LS wrap ls_fit obj attr new max_it labels0 ls r)
    (maxp_fit LS' wrap' ls_fit' obj' attr' new' d g sp' thr max_it labels0 ls' r).
Proof.
  intros Hls Hnew. unfold open_maxp_fit, maxp_fit. eapply upto_bind; [apply open_construct_upto|]. intros [[mp before] r1] ? <-.
  eapply upto_bind; [apply open_assign_each_upto|]. intros [parts r2] ? <-. destruct parts as [|P parts]; [apply upto_Ok; cbn; auto|].
  set (all := P :: parts). cbv zeta.
  assert (Hj : exists s s' r3, J s s' /\ match ls with Some l => (l, r2) | None => new r2 end = (s, r3) /\ match ls' with Some l => (l, r2) | None => new' r2 end = (s', r3)).
  { destruct ls as [s|], ls' as [s'|]; try contradiction; [exists s, s', r2; auto|].
    destruct (Hnew eq_refl r2) as [H1 H2]. exists (fst (new r2)), (fst (new' r2)), (snd (new r2)). split; [auto|].
    split; [destruct (new r2); auto|rewrite H2; destruct (new' r2); auto]. }
  destruct Hj as [s [s' [r3 [Hj [-> ->]]]]].
  eapply upto_bind; [apply search_rounds_upto; eauto|]. intros [[t x] r4] [[t' x'] r4'] [Ht [<- <-]]. apply upto_Ok. cbn. auto.
Qed.
End Construction.

(** ** the comparisons of the construction phase *)
Section Choices.
Variable missing : list Q -> bool.
Variable d : list Q -> list Q -> Q.
Variable E : exn -> Prop.
Variables attr attr' : list (list Q).
Hypothesis Hfill : forall i, missing (row attr i) = false -> row attr' i = row attr i.
Hypothesis HE : forall m i, missing (row attr i) = true -> E (ValueError m).

Lemma dissimilarity_upto a R : upto E eq (checked_dissimilarity missing d attr a R) (Ok (dissimilarity d attr' a R)).
Proof.
  unfold checked_dissimilarity, dissimilarity. eapply upto_bind_pure; [|apply upto_Ok; reflexivity].
  apply mapM_pure_upto. intros b _. eapply checked_distance_upto; eauto.
Qed.
Lemma checked_Ok_dissimilarity a R q : checked_dissimilarity missing d attr a R = Ok q -> dissimilarity d attr' a R = dissimilarity d attr a R.
Proof.
  unfold checked_dissimilarity. intros H. apply bind_Ok in H. destruct H as [ds [H _]]. unfold dissimilarity. f_equal. apply map_ext_in. intros b Hb.
  destruct (mapM_Ok_all _ _ _ H b Hb) as [y Ey]. unfold checked_distance in Ey.
  destruct (missing (row attr a)) eqn:E1; [discriminate|]. destruct (missing (row attr b)) eqn:E2; [discriminate|]. rewrite !Hfill by auto. auto.
Qed.
Lemma best_keys_same f h keys : (forall k, In k keys -> f k = h k) -> best_keys f keys = best_keys h keys.
Proof.
  intros H. unfold best_keys. assert (Hm : map f keys = map h keys) by (apply map_ext_in; auto). rewrite Hm.
  apply filter_ext_in. intros k Hk. rewrite (H k Hk). auto.
Qed.
Lemma all_computed f R (h : nat -> Q) C : (forall x, In x C -> upto E eq (f x) (Ok (h x))) ->
  (exists e, @bind (list Q) R (mapM f C) (fun _ => Raise (ValueError "")) = Raise e /\ mapM f C = Raise e /\ E e) \/ exists ys, mapM f C = Ok ys.
Proof.
  intros H. destruct (mapM_pure_upto E f h C H) as [[e [Ee He]]|Hr]; [left; exists e; rewrite Ee; auto|right].
  destruct (mapM f C); cbn in Hr; try contradiction; eauto.
Qed.
Lemma find_area_upto R C r : upto E eq (checked_find_area missing d attr R C r) (find_best_area d attr' R C r).
Proof.
  unfold checked_find_area.
  destruct (all_computed (fun a => checked_dissimilarity missing d attr a R) nat _ C (fun a _ => dissimilarity_upto a R)) as [[e [_ [Ee He]]]|[ys Ey]].
  - rewrite Ee. left. exists e. auto.
  - rewrite Ey. cbn [bind]. unfold find_best_area. rewrite (best_keys_same _ (fun a => dissimilarity d attr' a R) C); [apply upto_refl; auto|].
    intros a Ha. destruct (mapM_Ok_all _ _ _ Ey a Ha) as [q Eq]. symmetry. eapply checked_Ok_dissimilarity; eauto.
Qed.
Lemma find_region_upto a P C r : upto E eq (checked_find_region missing d attr a P C r) (find_best_region_idx d attr' a P C r).
Proof.
  unfold checked_find_region.
  destruct (all_computed (fun k => checked_dissimilarity missing d attr a (nth k P [])) nat _ C (fun k _ => dissimilarity_upto a (nth k P []))) as [[e [_ [Ee He]]]|[ys Ey]].
  - rewrite Ee. left. exists e. auto.
  - rewrite Ey. cbn [bind]. unfold find_best_region_idx. destruct C as [|c C]; [apply upto_Raise|].
    rewrite (best_keys_same _ (fun k => dissimilarity d attr' a (nth k P [])) (set_union [] (c :: C))); [apply upto_refl; auto|].
    intros k Hk. apply set_union_In in Hk. destruct Hk as [[]|Hk]. destruct (mapM_Ok_all _ _ _ Ey k Hk) as [q Eq]. symmetry. eapply checked_Ok_dissimilarity; eauto.
Qed.
End Choices.

(** ** the whole fit *)
Section Fit.
Variable missing : list Q -> bool.
Variable d : list Q -> list Q -> Q.
Variable E : exn -> Prop.
Variables attr attr' : list (list Q).
Hypothesis Hfill : forall i, missing (row attr i) = false -> row attr' i = row attr i.
Hypothesis HE : forall m i, missing (row attr i) = true -> E (ValueError m).
Variable g : graph.
Variable sp : list (list Q).
Variable thr : list Q.
Variables O O' : objfun.
Hypothesis HOcall : forall idx l, upto E eq (o_call O l (map (row attr) idx)) (o_call O' l (map (row attr') idx)).
Hypothesis HOupd : forall idx a r l, upto E eq (o_update O a r l (map (row attr) idx)) (o_update O' a r l (map (row attr') idx)).
Hypothesis Hwhole : forall l, upto E eq (o_call O l attr) (o_call O' l attr').
Variable expf : Q -> Q.
Variable order : list edge -> list edge.

Lemma checked_maxp_fit_upto (LS LS' : Type) wrap wrap' ls_fit ls_fit' (J : LS -> LS' -> Prop) new new' max_it labels0 ls ls' r :
  (forall s s', J s s' -> J (wrap s) (wrap' s')) ->
  (forall s s' mp l r, J s s' -> upto E (fun '(x, t, r1) '(x', t', r1') => x = x' /\ r1 = r1' /\ J t t') (ls_fit s mp l r) (ls_fit' s' mp l r)) ->
  match ls, ls' with Some s, Some s' => J s s' | None, None => True | _, _ => False end ->
  (ls = None -> forall r, J (fst (new r)) (fst (new' r)) /\ snd (new r) = snd (new' r)) ->
  upto E (mp_alike LS LS' J) (checked_maxp_fit missing d attr LS wrap ls_fit O new g sp thr max_it labels0 ls r)
    (maxp_fit LS' wrap' ls_fit' O' attr' new' d g sp thr max_it labels0 ls' r).
Proof.
  intros H1 H2 H3 H4. unfold checked_maxp_fit. apply open_maxp_fit_upto with (T := eq); auto.
  - intros x x' a <-. auto.
  - intros x x' <-. auto.
  - intros. eapply find_area_upto; eauto.
  - intros. eapply find_region_upto; eauto.
Qed.

Theorem checked_azp_upto fuel max_it entropy labels0 ls r :
  upto E (mp_alike strategy strategy shape) (checked_maxp_azp_fit missing d attr expf order O fuel g sp thr max_it entropy labels0 ls r)
    (maxp_azp_fit expf order O' d fuel g attr' sp thr max_it entropy labels0 ls r).
Proof.
  unfold checked_maxp_azp_fit, maxp_azp_fit. apply checked_maxp_fit_upto.
  - intros s s' H. cbn. auto.
  - intros s s' mp l r0 H. eapply upto_bind; [apply azp_fit_upto; eauto|]. intros [[x t] r1] [[x' t'] r1'] [H1 [H2 H3]]. cbn in H1, H2, H3. subst. apply upto_Ok. auto.
  - destruct ls; auto using shape_refl.
  - intros _ r0. cbn. auto.
Qed.
Theorem checked_basic_upto fuel maxlen reps max_it labels0 s r :
  upto E (mp_alike strategy strategy shape) (checked_maxp_basic_fit missing d attr expf order O fuel maxlen reps g sp thr max_it labels0 s r)
    (maxp_basic_fit expf order O' d fuel maxlen reps g attr' sp thr max_it labels0 s r).
Proof.
  unfold checked_maxp_basic_fit, maxp_basic_fit. apply checked_maxp_fit_upto.
  - intros t t' H. cbn. auto.
  - intros t t' mp l r0 H. eapply upto_bind; [apply basic_fit_with_upto; eauto|]. intros [[x u] r1] [[x' u'] r1'] [H1 [H2 H3]]. cbn in H1, H2, H3. subst. apply upto_Ok. auto.
  - apply shape_refl.
  - discriminate.
Qed.
Theorem checked_reactive_upto maxit k1 k2 max_it labels0 s r :
  upto E (mp_alike _ _ (rw_two shape)) (checked_maxp_reactive_fit missing d attr expf order O maxit k1 k2 g sp thr max_it labels0 s r)
    (maxp_reactive_fit expf order O' d maxit k1 k2 g attr' sp thr max_it labels0 s r).
Proof.
  unfold checked_maxp_reactive_fit, maxp_reactive_fit. apply checked_maxp_fit_upto.
  - intros t t' [H1 H2]. split; cbn; auto.
  - intros t t' mp l r0 H. eapply upto_bind; [apply reactive_fit_with_upto; eauto|]. intros [[x u] r1] [[x' u'] r1'] [H1 [H2 H3]]. cbn in H1, H2. subst. apply upto_Ok. auto.
  - split; auto using shape_refl.
  - discriminate.
Qed.
Theorem checked_sa_upto azp_fuel fuel cooling args max_it labels0 mem r :
  upto E (mp_alike _ _ eq) (checked_maxp_sa_fit missing d attr expf order O azp_fuel fuel cooling args g sp thr max_it labels0 mem r)
    (maxp_sa_fit expf order O' d azp_fuel fuel cooling args g attr' sp thr max_it labels0 mem r).
Proof.
  unfold checked_maxp_sa_fit, maxp_sa_fit. apply checked_maxp_fit_upto.
  - intros t t' <-. auto.
  - intros t t' mp l r0 <-. eapply upto_weaken; [|apply sa_fit_upto; eauto]. intros [[x u] r1] ? <-. auto.
  - reflexivity.
  - discriminate.
Qed.
End Fit.

(** ** what is returned has been evaluated *)
Section Evaluated.
Variables (LS : Type) (wrap : LS -> LS) (ls_fit : LS -> Z -> list Z -> rng -> out (option (list Z) * LS * rng)).
Variable obj : objfun.
Variable attr : list (list Q).
Definition evaluated (b : best) : Prop := match b with Some (v, l) => o_call obj l attr = Ok v | None => True end.
Lemma search_all_evaluated mp : forall parts s b r t x r1, evaluated b -> search_all LS ls_fit obj attr mp parts s b r = Ok (t, x, r1) -> evaluated x.
Proof.
  induction parts as [|P parts IH]; intros s b r t x r1 Hb H; cbn [search_all] in H; [congruence|].
  apply bind_Ok in H. destruct H as [l0 [_ H]]. apply bind_Ok in H. destruct H as [[[y u] r2] [_ H]]. destruct y as [l|]; [|discriminate].
  apply bind_Ok in H. destruct H as [v [Hv H]]. cbv zeta in H. eapply IH; [|exact H].
  destruct b as [[w lw]|]; [destruct (Qltb v w)|]; cbn; auto.
Qed.
Lemma search_rounds_evaluated mp parts : forall k s b r t x r1, evaluated b -> search_rounds LS wrap ls_fit obj attr k mp parts s b r = Ok (t, x, r1) -> evaluated x.
Proof.
  induction k as [|k IH]; intros s b r t x r1 Hb H; cbn [search_rounds] in H; [congruence|].
  apply bind_Ok in H. destruct H as [[[u y] r2] [H1 H]]. eapply IH; [|exact H]. eapply search_all_evaluated; eauto.
Qed.
Lemma search_all_keeps mp : forall parts s b r t x r1, b <> None -> search_all LS ls_fit obj attr mp parts s b r = Ok (t, x, r1) -> x <> None.
Proof.
  induction parts as [|P parts IH]; intros s b r t x r1 Hb H; cbn [search_all] in H; [congruence|].
  apply bind_Ok in H. destruct H as [l0 [_ H]]. apply bind_Ok in H. destruct H as [[[y u] r2] [_ H]]. destruct y as [l|]; [|discriminate].
  apply bind_Ok in H. destruct H as [v [Hv H]]. cbv zeta in H. eapply IH; [|exact H].
  destruct b as [[w lw]|]; [destruct (Qltb v w)|]; congruence.
Qed.
Lemma search_rounds_keeps mp parts : forall k s b r t x r1, b <> None -> search_rounds LS wrap ls_fit obj attr k mp parts s b r = Ok (t, x, r1) -> x <> None.
Proof.
  induction k as [|k IH]; intros s b r t x r1 Hb H; cbn [search_rounds] in H; [congruence|].
  apply bind_Ok in H. destruct H as [[[u y] r2] [H1 H]]. eapply IH; [|exact H]. eapply search_all_keeps; eauto.
Qed.

Variables (g : graph) (sp : list (list Q)) (enough short : list Q -> bool).
Variables (find_area : list nat -> list nat -> rng -> out (nat * rng)) (find_region : nat -> list (list nat) -> list nat -> rng -> out (nat * rng)).
Lemma construct_some : forall k mp best r mp' before r1, best <> [] \/ mp = 0 /\ 0 < k ->
  open_construct g sp enough short find_area k mp best r = Ok (mp', before, r1) -> before <> [].
Proof.
  induction k as [|k IH]; intros mp bst r mp' before r1 Hb H; cbn [open_construct] in H; [destruct Hb as [Hb|[_ Hb]]; [congruence|lia]|].
  apply bind_Ok in H. destruct H as [[[P F] r2] [_ H]]. cbv zeta in H. destruct (Nat.ltb mp (length P)) eqn:E1.
  - eapply IH; [|exact H]. left. discriminate.
  - destruct (Nat.eqb (length P) mp) eqn:E2; (eapply IH; [|exact H]; left).
    + destruct bst; discriminate.
    + apply Nat.ltb_ge in E1. apply Nat.eqb_neq in E2. destruct Hb as [Hb|[-> _]]; [auto|lia].
Qed.
Lemma assign_each_some : forall before r parts r1, before <> [] -> open_assign_each g find_region before r = Ok (parts, r1) -> parts <> [].
Proof.
  intros [|[P F] before] r parts r1 Hb H; [congruence|]. cbn [open_assign_each] in H.
  apply bind_Ok in H. destruct H as [[P1 r2] [_ H]]. apply bind_Ok in H. destruct H as [[Ps r3] [_ H]]. congruence.
Qed.
Theorem returned_evaluated new max_it labels0 ls r labels ls' r' : 0 < max_it ->
  open_maxp_fit g sp enough short find_area find_region LS wrap ls_fit obj attr new max_it labels0 ls r = Ok (labels, ls', r') ->
  exists l v, labels = Some l /\ o_call obj l attr = Ok v.
Proof.
  intros Hit H. unfold open_maxp_fit in H. apply bind_Ok in H. destruct H as [[[mp before] r1] [H1 H]].
  apply bind_Ok in H. destruct H as [[parts r2] [H2 H]].
  pose proof (assign_each_some _ _ _ _ (construct_some _ _ _ _ _ _ _ (or_intror (conj eq_refl Hit)) H1) H2) as Hne.
  destruct parts as [|P parts]; [congruence|]. destruct (match ls with Some l => (l, r2) | None => new r2 end) as [ls0 r3].
  apply bind_Ok in H. destruct H as [[[t x] r4] [H3 H]]. pose proof (search_rounds_evaluated mp (P :: parts) _ _ None _ _ _ _ Logic.I H3) as Hx.
  assert (Hs : x <> None).
  { cbn [length search_rounds] in H3. apply bind_Ok in H3. destruct H3 as [[[u y] r5] [H4 H3]]. eapply search_rounds_keeps; [|exact H3].
    cbn [search_all] in H4. apply bind_Ok in H4. destruct H4 as [l0 [_ H4]]. apply bind_Ok in H4. destruct H4 as [[[z w] r6] [_ H4]].
    destruct z as [l|]; [|discriminate]. apply bind_Ok in H4. destruct H4 as [v [_ H4]]. cbv zeta in H4. eapply search_all_keeps; [|exact H4]. discriminate. }
  destruct x as [[v l]|]; [|congruence]. injection H as <- <- <-. exists l, v. auto.
Qed.
End Evaluated.
