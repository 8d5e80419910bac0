(** Annealing round by round: proofs. *)
From Verif Require Import Base Spec M_Graph M_Util M_Objective M_Azp M_Sa P_Base.

(** ** what a strategy object keeps through an AZP run, whatever happens in it *)
Section Keeps.
Variable St : Type.
Variable J : St -> Prop.
Variable call : St -> nat -> Z -> list Z -> rng -> out (bool * St * rng).
Variable objv : St -> Q.
Hypothesis Hcall : forall s a z l r, J s -> post anyexn True (call s a z l r) (fun '(_, s', _) => J s').

Lemma try_candidates_keeps g recipient : forall k cands labels rn s r, J s ->
  post anyexn True (try_candidates St call g k cands recipient labels rn s r) (fun '(_, _, _, s', _) => J s').
Proof.
  induction k as [|k IH]; intros cands labels rn s r Hs; destruct cands as [|c0 cands]; cbn [try_candidates post]; auto.
  apply (post_bind anyexn True) with (P := fun _ => True).
  { destruct (pop_randomly_from (c0 :: cands) r) as [[[? ?] ?]|?|]; cbn; auto. exact Logic.I. }
  intros [[cand cands'] r1] _ _. eapply post_bind; [apply Hcall; auto|].
  intros [[ok s'] r2] _ Hs'. destruct ok; [destruct (after_move g cand recipient labels rn); cbn; auto|]. apply IH; auto.
Qed.
Lemma grow_recipient_keeps g recipient : forall fuel labels rn s r, J s ->
  post anyexn True (grow_recipient St call g fuel recipient labels rn s r) (fun '(_, _, s', _) => J s').
Proof.
  induction fuel as [|fuel IH]; intros labels rn s r Hs; [cbn; auto|]. cbn [grow_recipient].
  destruct (dget rn recipient) as [ns|e|]; cbn [bind post]; auto. 2: exact Logic.I.
  eapply post_bind; [apply try_candidates_keeps; auto|]. intros [[[[moved labels'] rn'] s'] r'] _ Hs'.
  destruct moved; [apply IH; auto|cbn; auto].
Qed.
Lemma azp_pass_keeps g fuel : forall k regions labels rn s r, J s ->
  post anyexn True (azp_pass St call g fuel k regions labels rn s r) (fun '(_, _, s', _) => J s').
Proof.
  induction k as [|k IH]; intros regions labels rn s r Hs; destruct regions as [|z regions]; cbn [azp_pass post]; auto.
  destruct (pop_randomly_from (z :: regions) r) as [[[z1 regions'] r1]|e|]; cbn [bind post]; auto. 2: exact Logic.I.
  eapply post_bind; [apply grow_recipient_keeps; auto|]. intros [[[labels' rn'] s'] r2] _ Hs'. apply IH; auto.
Qed.
Lemma azp_loop_keeps g : forall fuel start regions labels rn s r, J s ->
  post anyexn True (azp_loop St call objv g fuel start regions labels rn s r) (fun '(_, s', _) => J s').
Proof.
  induction fuel as [|fuel IH]; intros start regions labels rn s r Hs; cbn [azp_loop];
    destruct (match start with None => true | Some v => Qltb (objv s) v end); cbn [post]; auto.
  eapply post_bind; [apply azp_pass_keeps; auto|]. intros [[[labels' rn'] s'] r'] _ Hs'. apply IH; auto.
Qed.
Lemma azp_component_keeps g fuel labels s r : J s ->
  post anyexn True (azp_component St call objv g fuel labels s r) (fun '(_, s', _) => J s').
Proof.
  intros Hs. unfold azp_component. destruct (uniqueZ labels) as [|z [|z' t]]; cbn [post]; auto; [exact Logic.I|].
  apply azp_loop_keeps; auto.
Qed.
End Keeps.

Section KeepsFit.
Variable S : Type.
Variable J : S -> Prop.
Variable start : S -> list Z -> list (list Q) -> list nat -> out S.
Variable component : graph -> list Z -> list (list Q) -> S -> rng -> out (list Z * S * rng).
Variable g : graph.
Variable attr : list (list Q).
Hypothesis Hstart : forall s l rows idx, J s -> post anyexn True (start s l rows idx) J.
Hypothesis Hcomp : forall g l rows s r, J s -> post anyexn True (component g l rows s r) (fun '(_, s', _) => J s').

Lemma fit_one_keeps y acc r : J (snd acc) ->
  post anyexn True (fit_one S start component g attr y acc r) (fun '(acc', _) => J (snd acc')).
Proof.
  intros Hs. destruct y as [arr|n]; cbn [fit_one post]; [|exact Logic.I].
  eapply post_bind; [apply Hstart; auto|]. intros s1 _ H1. eapply post_bind; [apply Hcomp; auto|].
  intros [[l' s2] r'] _ H2. destruct (assign_idx _ _ _); cbn; auto. exact Logic.I.
Qed.
Lemma fit_arrays_keeps : forall arrs acc r, J (snd acc) ->
  post anyexn True (fit_arrays S start component g attr arrs acc r) (fun '(acc', _) => J (snd acc')).
Proof.
  induction arrs as [|arr arrs IH]; intros acc r Hs; cbn [fit_arrays]; [cbn; auto|].
  eapply post_bind; [apply fit_one_keeps; auto|]. intros [acc' r'] _ H. apply IH; auto.
Qed.
Lemma gen_comps_keeps order : forall items built acc r, J (snd acc) ->
  post anyexn True (gen_comps order g (fit_one S start component g attr) items built acc r) (fun '(acc', _) => J (snd acc')).
Proof.
  induction items as [|[c k] items IH]; intros built acc r Hs; cbn [gen_comps]; [cbn; auto|].
  destruct (initial_for_comp order g c k built r) as [[arr r1]|e|]; cbn [bind post]; auto; [|exact Logic.I].
  eapply post_bind; [apply fit_one_keeps; auto|]. intros [acc' r2] _ H. apply IH; auto.
Qed.
Lemma fit_keeps order n initial s r : J s ->
  post anyexn True (fit S start component order g attr n initial s r) (fun '((_, s'), _) => J s').
Proof.
  intros Hs. unfold fit. eapply post_weaken with (E := anyexn) (N := True) (P := fun '(acc, _) => J (snd acc)); auto.
  { intros [[l s'] r'] _ H. exact H. }
  destruct initial as [l|].
  - destruct (assert_feasible l g (Some n)) as [u|e|]; cbn [bind post]; auto; [|exact Logic.I]. destruct (Nat.eqb _ _); [apply fit_arrays_keeps; auto|exact Logic.I].
  - unfold generate_initial_sol. destruct (Nat.eqb (gn g) 0); [exact Logic.I|]. destruct (Z.ltb _ _); [exact Logic.I|].
    destruct (Z.eqb n 1); [apply fit_one_keeps; auto|]. destruct (Z.ltb _ _); [exact Logic.I|].
    destruct (distribute_regions_among_components _ _ _) as [[d r1]|e|]; cbn [bind post]; auto; [|exact Logic.I].
    apply gen_comps_keeps; auto.
Qed.

(** ** states that [start] does not tell apart *)
Variable E : S -> S -> Prop.
Hypothesis HE : forall s s' l rows idx, E s s' -> start s l rows idx = start s' l rows idx.
Definition same_fit (x y : out ((list Z * S) * rng)) : Prop :=
  x = y \/ exists l s s' r, x = Ok ((l, s), r) /\ y = Ok ((l, s'), r) /\ E s s'.
Lemma fit_one_same y l s s' r : E s s' -> fit_one S start component g attr y (l, s) r = fit_one S start component g attr y (l, s') r.
Proof. intros H. destruct y; cbn [fit_one]; auto. cbn [fst snd]. rewrite (HE s s'); auto. Qed.
Lemma fit_same order n initial s s' r : E s s' ->
  same_fit (fit S start component order g attr n initial s r) (fit S start component order g attr n initial s' r).
Proof.
  intros H. unfold fit. destruct initial as [l|].
  - destruct (assert_feasible l g (Some n)) as [u|e|]; cbn [bind]; [|left; auto|left; auto]. destruct (Nat.eqb _ _); [|left; auto].
    destruct (separate_components g l) as [|arr arrs]; cbn [fit_arrays]; [right; repeat eexists; auto|].
    left. rewrite (fit_one_same _ _ s s'); auto.
  - unfold generate_initial_sol. destruct (Nat.eqb (gn g) 0); [left; auto|]. destruct (Z.ltb _ _); [left; auto|].
    destruct (Z.eqb n 1); [left; apply fit_one_same; auto|]. destruct (Z.ltb _ _); [left; auto|].
    destruct (distribute_regions_among_components _ _ _) as [[d r1]|e|]; cbn [bind]; [|left; auto|left; auto].
    destruct d as [|[c k] d]; cbn [gen_comps]; [right; repeat eexists; auto|]. left.
    destruct (initial_for_comp order g c k 0 r1) as [[arr r2]|e|]; cbn [bind]; auto. rewrite (fit_one_same _ _ s s'); auto.
Qed.
End KeepsFit.

(** ** annealing *)
Definition sa_keeps (t : Q) (term : nat) (s : strategy) : Prop := exists c sa reached moved, s = SSa c t sa term reached moved.
(** the same but for what start_new_component overwrites *)
Definition sa_equal (s s' : strategy) : Prop :=
  exists c c' t sa term reached moved, s = SSa c t sa term reached moved /\ s' = SSa c' t sa term reached moved.
(** the same but for that and for what [reset] overwrites *)
Definition sa_alike (s s' : strategy) : Prop :=
  exists c c' t sa sa' term re re' moved, s = SSa c t sa term re moved /\ s' = SSa c' t sa' term re' moved.

Lemma sa_start_keeps obj t term s l rows idx : sa_keeps t term s -> post anyexn True (strat_start obj s l rows idx) (sa_keeps t term).
Proof.
  intros [c [sa [re [mo ->]]]]. cbn [strat_start]. unfold start_common. destruct (o_call obj l rows); cbn; auto; [|exact Logic.I].
  repeat eexists.
Qed.
Lemma sa_call_keeps expf t term s a z l r : sa_keeps t term s ->
  post anyexn True (strat_call expf s a z l r) (fun '(_, s', _) => sa_keeps t term s').
Proof.
  intros [c [sa [re [mo ->]]]]. cbn [strat_call]. unfold sa_call. destruct (o_update _ _ _ _ _); cbn; auto; [|exact Logic.I].
  destruct (Qle_bool _ 0); [cbn; repeat eexists|]. destruct (Qltb _ _); cbn; repeat eexists.
Qed.
Lemma sa_azp_keeps expf order obj fuel g attr n initial t term s r : sa_keeps t term s ->
  post anyexn True (azp_fit expf order obj fuel g attr n initial s r) (fun '((_, s'), _) => sa_keeps t term s').
Proof.
  intros Hs. unfold azp_fit. apply (fit_keeps _ (sa_keeps t term)); auto.
  - intros. apply sa_start_keeps; auto.
  - intros. apply azp_component_keeps; auto. intros. apply sa_call_keeps; auto.
Qed.
Lemma sa_azp_same expf order obj fuel g attr n initial s s' r : sa_equal s s' ->
  same_fit _ sa_equal (azp_fit expf order obj fuel g attr n initial s r) (azp_fit expf order obj fuel g attr n initial s' r).
Proof.
  intros H. apply fit_same; auto. intros s1 s1' l rows idx [c [c' [t [sa [term [re [mo [-> ->]]]]]]]]. reflexivity.
Qed.

Section Outer.
Variables (expf : Q -> Q) (order : list edge -> list edge) (obj : objfun) (azp_fuel : nat) (g : graph) (attr : list (list Q)) (n : Z).

Lemma sa_step_b_keeps t term : forall fuel left initial s r, sa_keeps t term s ->
  post anyexn True (sa_step_b expf order obj azp_fuel g attr n fuel left initial s r) (fun '(_, s', _) => sa_keeps t term s').
Proof.
  induction fuel as [|fuel IH]; intros left initial s r Hs; cbn [sa_step_b];
    destruct (_ || _); cbn [post]; auto.
  eapply post_bind; [apply sa_azp_keeps; eauto|]. intros [[l s'] r'] _ Hs'.
  destruct (match initial with Some old => _ | None => _ end); [exact Hs'|apply IH; auto].
Qed.

Definition same_round (x y : out (option (list Z) * strategy * rng)) : Prop :=
  x = y \/ exists l s s' r, x = Ok (l, s, r) /\ y = Ok (l, s', r) /\ sa_equal s s'.
Lemma sa_step_b_same : forall fuel left initial s s' r, sa_equal s s' ->
  same_round (sa_step_b expf order obj azp_fuel g attr n fuel left initial s r)
             (sa_step_b expf order obj azp_fuel g attr n fuel left initial s' r).
Proof.
  assert (Hre : forall s s', sa_equal s s' -> sa_is_reached s = sa_is_reached s').
  { intros s s' [c [c' [t [sa [term [re [mo [-> ->]]]]]]]]. reflexivity. }
  induction fuel as [|fuel IH]; intros left initial s s' r Hs; cbn [sa_step_b]; rewrite (Hre s s' Hs);
    destruct (_ || sa_is_reached s').
  1, 3: right; exists initial, s, s', r; auto.
  { left. reflexivity. }
  destruct (sa_azp_same expf order obj azp_fuel g attr n initial s s' r Hs) as [E|[l [s1 [s1' [r1 [E1 [E2 H1]]]]]]].
  { left. rewrite E. reflexivity. }
  rewrite E1, E2. cbn [bind]. destruct (match initial with Some old => _ | None => _ end).
  - right. exists (Some l), s1, s1', r1. auto.
  - apply IH; auto.
Qed.

Lemma sa_outer_same a cooling : forall fuel k t initial s s' visited r, sa_alike s s' ->
  sa_outer expf order obj azp_fuel g attr n fuel a cooling k t initial s visited r =
  sa_outer expf order obj azp_fuel g attr n fuel a cooling k t initial s' visited r.
Proof.
  assert (Hmo : forall s s', sa_alike s s' -> sa_is_moved s = sa_is_moved s').
  { intros s s' [c [c' [t [sa [sa' [term [re [re' [mo [-> ->]]]]]]]]]]. reflexivity. }
  assert (Hq : forall s s', sa_equal s s' -> sa_alike s s').
  { intros s s' [c [c' [t [sa [term [re [mo [-> ->]]]]]]]]. repeat eexists. }
  induction fuel as [|fuel IH]; intros k t initial s s' visited r Hs; cbn [sa_outer]; destruct (Nat.ltb k _); auto.
  - rewrite (Hmo s s') by auto. reflexivity.
  - assert (Hr : sa_equal (sa_reset s) (sa_reset s')).
    { destruct Hs as [c [c' [t0 [sa [sa' [term [re [re' [mo [-> ->]]]]]]]]]]. repeat eexists. }
    destruct (sa_step_b_same fuel (sa_maxit a) initial _ _ r Hr) as [E|[sol [s1 [s1' [r1 [E1 [E2 H1]]]]]]]; [rewrite E; reflexivity|].
    rewrite E1, E2. cbn [bind]. destruct sol as [l|]; auto. rewrite (Hmo s1 s1') by auto. destruct (Nat.leb _ _); auto.
    assert (H2 : sa_alike (sa_set_temperature (t * cooling) s1) (sa_set_temperature (t * cooling) s1')).
    { destruct H1 as [c [c' [t0 [sa [term [re [mo [-> ->]]]]]]]]. repeat eexists. }
    rewrite (Hmo _ _ H2). destruct (sa_is_moved _); apply IH; auto.
    destruct H2 as [c [c' [t0 [sa [sa' [term [re [re' [mo [-> ->]]]]]]]]]]. repeat eexists.
  - rewrite (Hmo s s') by auto. reflexivity.
Qed.

Lemma sa_outer_args a a' cooling d : sa_maxit a = sa_maxit a' -> sa_reps a = sa_reps a' ->
  sa_nonmoving_steps a = d + sa_nonmoving_steps a' -> forall fuel k t initial s visited r,
  sa_outer expf order obj azp_fuel g attr n fuel a cooling (d + k) t initial s visited r =
  sa_outer expf order obj azp_fuel g attr n fuel a' cooling k t initial s visited r.
Proof.
  intros Hm Hr Hn. induction fuel as [|fuel IH]; intros k t initial s visited r; cbn [sa_outer].
  - destruct (Nat.ltb_spec (d + k) (sa_nonmoving_steps a)), (Nat.ltb_spec k (sa_nonmoving_steps a')); auto; lia.
  - destruct (Nat.ltb_spec (d + k) (sa_nonmoving_steps a)), (Nat.ltb_spec k (sa_nonmoving_steps a')); auto; try lia.
    rewrite Hm, Hr. destruct (sa_step_b _ _ _ _ _ _ _ _ _ _ _ _) as [[[sol s1] r1]|e|]; cbn [bind]; auto.
    destruct sol as [l|]; auto. destruct (Nat.leb _ _); auto. destruct (sa_is_moved _); [apply IH|].
    rewrite plus_n_Sm. apply IH.
Qed.
End Outer.
