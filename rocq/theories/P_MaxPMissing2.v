(** Max-p heuristic with the NaN arithmetic when no amount is missing: as the model with plain amounts. *)
From Verif Require Import Base Spec M_Graph M_Util P_Base M_Objective M_Azp P_Azp P_Strategy M_Sa M_MaxP M_MaxPMissing SpecAmounts P_MaxPMissing P_Upto P_Random.

Lemma nrow_full sp a : nrow (full sp) a = map Some (row sp a).
Proof. unfold nrow, full, row. change (@nil (option Q)) with (map (@Some Q) []) at 1. apply map_nth. Qed.
Lemma nadd_full x : forall y, nadd_rows (map Some x) (map Some y) = map Some (add_rows x y).
Proof. induction x as [|p x IH]; intros [|q y]; cbn; auto. rewrite IH. reflexivity. Qed.
Lemma nsum_full rows : nsum_rows (map (map Some) rows) = map Some (sum_rows rows).
Proof. unfold nsum_rows, sum_rows. induction rows as [|x rows IH]; cbn [map fold_right]; [reflexivity|]. rewrite IH, nadd_full. reflexivity. Qed.
Lemma nsub_full x : forall y, nsub_rows (map Some x) (map Some y) = map Some (sub_rows x y).
Proof. unfold nsub_rows, sub_rows. induction x as [|p x IH]; intros [|q y]; cbn; auto. rewrite IH. reflexivity. Qed.
Lemma ncompared_full x thr : ncompared (map Some x) thr = map (fun p => (Some (fst p), snd p)) (compared x thr).
Proof.
  assert (Hc : forall x thr, combine (map Some x) thr = map (fun p : Q * Q => (Some (fst p), snd p)) (combine x thr)).
  { clear. induction x as [|p x IH]; intros [|t thr]; cbn; auto. rewrite IH. reflexivity. }
  unfold ncompared, compared. destruct x as [|p [|q x]], thr as [|t [|t2 thr]]; cbn [map]; auto.
  - cbn. f_equal. f_equal. rewrite map_map. reflexivity.
  - cbn. f_equal. f_equal. rewrite !map_map. reflexivity.
  - cbn. f_equal. f_equal. apply Hc.
Qed.
Lemma nreaches_full x thr : nreaches (map Some x) thr = reaches x thr.
Proof.
  unfold nreaches, reaches. rewrite ncompared_full. induction (compared x thr) as [|p l IH]; cbn [map forallb fst snd]; [reflexivity|].
  rewrite IH. reflexivity.
Qed.
Lemma ntrue_full x : existsb ntrue (map Some x) = any_nonzero x.
Proof. unfold any_nonzero. induction x as [|p x IH]; cbn [map existsb]; [reflexivity|]. rewrite IH. reflexivity. Qed.
Lemma ndonor_full sp thr a labels : ndonor_ok (full sp) thr a labels = donor_ok sp thr a labels.
Proof.
  unfold ndonor_ok, donor_ok. rewrite nrow_full, ntrue_full. destruct (any_nonzero (row sp a)); [|reflexivity].
  assert (E : nrows_of labels (lab labels a) (full sp) = map (map Some) (rows_of labels (lab labels a) sp)).
  { unfold nrows_of, rows_of. rewrite map_map. apply map_ext. intros b. apply nrow_full. }
  rewrite E, nsum_full, nsub_full, nreaches_full. reflexivity.
Qed.

(** the construction phase *)
Lemma nbelow_full x thr : nbelow (map Some x) thr = negb (reaches x thr).
Proof.
  unfold nbelow, reaches. rewrite ncompared_full. induction (compared x thr) as [|p l IH]; cbn [map existsb forallb fst snd]; [reflexivity|].
  rewrite IH, negb_andb. reflexivity.
Qed.
Section Construct.
Variable d : list Q -> list Q -> Q.
Variable g : graph.
Variables attr sp : list (list Q).
Variable thr : list Q.
Lemma ngrow_region_full fuel : forall region neighs x unassigned assigned r,
  ngrow_region d g attr (full sp) thr fuel region neighs (map Some x) unassigned assigned r =
  grow_region d g attr sp thr fuel region neighs x unassigned assigned r.
Proof.
  induction fuel as [|fuel IH]; intros region neighs x unassigned assigned r; cbn [ngrow_region grow_region];
    rewrite nbelow_full, negb_involutive; [reflexivity|].
  destruct (reaches x thr); [reflexivity|]. destruct neighs as [|n0 ns]; [reflexivity|].
  destruct (find_best_area d attr region (n0 :: ns) r) as [[w r1]|e|]; cbn [bind]; auto.
  destruct (remove_first w unassigned); [|reflexivity]. rewrite nrow_full, nadd_full. apply IH.
Qed.
Lemma ngrow_loop_full fuel : forall partition enclaves unassigned assigned r,
  ngrow_loop d g attr (full sp) thr fuel partition enclaves unassigned assigned r =
  grow_loop d g attr sp thr fuel partition enclaves unassigned assigned r.
Proof.
  induction fuel as [|fuel IH]; intros partition enclaves unassigned assigned r; destruct unassigned as [|u us]; cbn [ngrow_loop grow_loop]; auto.
  destruct (pop_randomly_from (u :: us) r) as [[[area unassigned1] r1]|e|]; cbn [bind]; auto.
  rewrite nrow_full, nreaches_full. destruct (reaches (row sp area) thr); [apply IH|]. rewrite ngrow_region_full.
  destruct (grow_region _ _ _ _ _ _ _ _ _ _ _ _) as [[[[[feasible region] u2] a2] r2]|e|]; cbn [bind]; auto. destruct feasible; apply IH.
Qed.
Lemma nconstruct_full k : forall mp best r, nconstruct d g attr (full sp) thr k mp best r = construct d g attr sp thr k mp best r.
Proof.
  induction k as [|k IH]; intros mp best r; cbn [nconstruct construct]; [reflexivity|]. unfold ngrow_regions, grow_regions. rewrite ngrow_loop_full.
  destruct (grow_loop _ _ _ _ _ _ _ _ _ _ _) as [[[partition enclaves] r1]|e|]; cbn [bind]; auto.
  destruct (Nat.ltb _ _); [apply IH|]. destruct (Nat.eqb _ _); apply IH.
Qed.
Lemma nmaxp_fit_full LS wrap ls_fit obj new max_it labels0 ls r :
  nmaxp_fit LS wrap ls_fit obj attr new d g (full sp) thr max_it labels0 ls r =
  maxp_fit LS wrap ls_fit obj attr new d g sp thr max_it labels0 ls r.
Proof. unfold nmaxp_fit, maxp_fit. rewrite nconstruct_full. reflexivity. Qed.
End Construct.

(** the strategies *)
Definition nobody (e : exn) : Prop := False.
Lemma upto_nobody {A B} (R : A -> B -> Prop) x y : upto nobody R x y -> rel R x y.
Proof. intros [[e [_ []]]|H]; auto. Qed.

Lemma plain_call expf : forall n s a r l rg, as_plain n s ->
  upto nobody (fun '(b, s1, r1) '(b', s1', r1') => b = b' /\ r1 = r1' /\ as_plain s1 s1') (nstrat_call expf n a r l rg) (strat_call expf s a r l rg).
Proof.
  induction n as [s'|c sa sp thr i IH]; intros s a r l rg H; cbn [as_plain] in H.
  - subst s'. cbn [nstrat_call]. destruct (strat_call expf s a r l rg) as [[[b s1] r1]|e|]; cbn [bind]; [apply upto_Ok; cbn; auto|apply upto_Raise|apply upto_NoFuel].
  - destruct s as [| |c' sa' sp' thr' i']; try contradiction. destruct H as [<- [-> [-> [<- H]]]]. cbn [nstrat_call strat_call].
    rewrite ndonor_full. destruct (donor_ok sp' thr a l); [|apply upto_Ok; cbn; auto 10].
    eapply upto_bind; [apply IH; eauto|]. intros [[b s1] r1] [[b' s1'] r1'] [<- [<- H1]]. apply upto_Ok. cbn; auto 10.
Qed.
Lemma plain_start O : forall n s l attr idx, as_plain n s ->
  upto nobody as_plain (nstrat_start O n l attr idx) (strat_start O s l attr idx).
Proof.
  induction n as [s'|c sa sp thr i IH]; intros s l attr idx H; cbn [as_plain] in H.
  - subst s'. cbn [nstrat_start]. destruct (strat_start O s l attr idx) as [s1|e|]; cbn [bind]; [apply upto_Ok; cbn; auto|apply upto_Raise|apply upto_NoFuel].
  - destruct s as [| |c' sa' sp' thr' i']; try contradiction. destruct H as [<- [-> [-> [<- H]]]]. cbn [nstrat_start strat_start].
    apply upto_same. intros c1. eapply upto_bind; [apply IH; eauto|]. intros s1 s1' H1. apply upto_Ok. cbn. do 2 (split; auto).
    split; [|auto]. unfold full at 2. rewrite map_map. apply map_ext. intros a. apply nrow_full.
Qed.
Lemma plain_val n s : as_plain n s -> nstrat_val n = strat_val s.
Proof. destruct n as [s'|c a b t i]; cbn [as_plain]; [intros ->; auto|]. destruct s; try contradiction. intros [-> _]. auto. Qed.

Theorem plain_fit expf order O fuel g attr p initial n s r : as_plain n s ->
  upto nobody (same_acc nstrategy strategy as_plain) (nstrat_fit expf order O fuel g attr p initial n r) (azp_fit expf order O fuel g attr p initial s r).
Proof.
  intros Hs. unfold nstrat_fit, azp_fit. apply fit_upto; auto. intros adj l idx s1 s1' r1 H1.
  eapply upto_bind; [apply plain_start; eauto|]. intros s2 s2' H2.
  apply azp_component_upto with (I := as_plain); auto using plain_val, plain_call.
Qed.

Theorem plain_maxp expf order O d fuel g attr sp thr max_it entropy labels0 n s r : plain_object n s ->
  same_out (R3o nstrategy strategy as_plain) (nmaxp_azp_fit expf order O d fuel g attr (full sp) thr max_it entropy labels0 n r)
    (maxp_azp_fit expf order O d fuel g attr sp thr max_it entropy labels0 s r).
Proof.
  intros Hs. unfold nmaxp_azp_fit, maxp_azp_fit. rewrite nmaxp_fit_full. unfold maxp_fit.
  apply same_out_bind with (R := eq); [apply same_out_refl|]. intros [[mp before] r1] ? <-.
  apply same_out_bind with (R := eq); [apply same_out_refl|]. intros [parts r2] ? <-.
  destruct parts as [|P parts]; [cbn; destruct n, s; cbn in *; repeat split; auto; contradiction|].
  assert (E : exists n0 s0 r0, as_plain n0 s0 /\ match n with Some l => (l, r2) | None => (NBase (SAzp unstarted), entropy) end = (n0, r0) /\
      match s with Some l => (l, r2) | None => (SAzp unstarted, entropy) end = (s0, r0)).
  { destruct n as [n|], s as [s|]; cbn in Hs; try contradiction; [exists n, s, r2|exists (NBase (SAzp unstarted)), (SAzp unstarted), entropy]; cbn; auto. }
  destruct E as [n0 [s0 [r0 [H0 [-> ->]]]]].
  eapply same_out_bind; [apply (search_rounds_same nstrategy strategy as_plain); auto|].
  - intros a b H. unfold maxp_wrap. cbn. auto 10.
  - intros a b p l r3 H. pose proof (upto_nobody _ _ _ (plain_fit expf order O fuel g attr p (Some l) a b r3 H)) as Hf.
    destruct (nstrat_fit _ _ _ _ _ _ _ _ _ _) as [[[l1 s1] r1']|e|], (azp_fit _ _ _ _ _ _ _ _ _ _) as [[[l2 s2] r2']|e'|]; cbn in *; try contradiction; auto.
    destruct Hf as [H1 [H2 H3]]. cbn in *. subst. repeat split; auto.
  - intros [[a' b1] ra] [[b' b2] rb] (E1 & E2 & E3). cbn in E1, E2, E3. subst. cbn. repeat split; auto.
Qed.
