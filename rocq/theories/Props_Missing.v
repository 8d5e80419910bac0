(** Properties C145-C147: missing attribute values. *)
From Verif Require Import Base Spec SpecMissing M_Graph P_Graph M_Util P_Base P_Util P_Forest P_Init P_Initial M_Objective P_Sum P_Objective
  M_Azp P_Azp P_Strategy P_Fit P_AzpFit P_OneSided Examples Props_Objective Props_Azp M_Sa P_Sa Props_Sa P_TwoRuns M_Tabu P_Tabu P_TabuFit P_Reactive Props_Tabu
  M_MaxP M_TabuWith P_TabuWith Props_MaxPTabu Props_Descent M_Missing P_Upto P_Missing.

Local Notation att := (map (fun q : Q => [q])).
(** some ValueError *)
Definition rejects {A} (o : out A) : Prop := exists m, o = Raise (ValueError m).

Section Common.
Variables (missing : list Q -> bool) (d : list Q -> list Q -> Q) (attr : list (list Q)).
Notation checked := (checked_pairwise missing d).

Lemma checked_hyps attr' : filled missing attr attr' ->
  (forall idx l, upto value_error eq (o_call checked l (map (row attr) idx)) (o_call (pairwise d) l (map (row attr') idx))) /\
  (forall idx a r l, upto value_error eq (o_update checked a r l (map (row attr) idx)) (o_update (pairwise d) a r l (map (row attr') idx))).
Proof.
  intros Hf. split; intros idx.
  - intros l. apply checked_call_upto; [apply filled_rows; auto|intros m _ _; exists m; auto].
  - intros a r l. apply checked_update_upto; [apply filled_rows; auto|intros m _ _; exists m; auto].
Qed.
Lemma complete_hyps : missing [] = false -> complete missing attr ->
  (forall idx l, upto (fun _ => False) eq (o_call checked l (map (row attr) idx)) (o_call (pairwise d) l (map (row attr) idx))) /\
  (forall idx a r l, upto (fun _ => False) eq (o_update checked a r l (map (row attr) idx)) (o_update (pairwise d) a r l (map (row attr) idx))).
Proof.
  intros H0 Hc. pose proof (complete_rows missing attr) as Hr. split; intros idx.
  - intros l. apply checked_call_upto; [auto|intros m i Hi; rewrite (Hr idx H0 Hc i) in Hi; discriminate].
  - intros a r l. apply checked_update_upto; [auto|intros m i Hi; rewrite (Hr idx H0 Hc i) in Hi; discriminate].
Qed.
Lemma filled_self : filled missing attr attr.
Proof. split; auto. Qed.

Lemma shown_upto {S S'} E (J : S -> S' -> Prop) x y : upto E (same_acc S S' J) x y -> (exists e, x = Raise e /\ E e) \/ shown x = shown y.
Proof.
  intros [H|H]; [auto|right]. destruct x as [[[l s] r]|e|], y as [[[l' s'] r']|e'|]; cbn in H; try contradiction; cbn; [|congruence|auto].
  destruct H as [H1 [H2 _]]. cbn in H1, H2. congruence.
Qed.
Lemma shown_two {S S'} (J : S -> S' -> Prop) x y : rel (two_acc S S' J) x y -> shown x = shown y.
Proof.
  intros H. destruct x as [[[l s] r]|e|], y as [[[l' s'] r']|e'|]; cbn in H; try contradiction; cbn; [|congruence|auto].
  destruct H as [H1 [H2 _]]. cbn in H1, H2. congruence.
Qed.
Lemma shown_raise {S} (x : out ((list Z * S) * rng)) e : shown x = Raise e -> x = Raise e.
Proof. destruct x as [[[l s] r]|e'|]; cbn; congruence. Qed.
Lemma shown_Ok {S} (x : out ((list Z * S) * rng)) l r : shown x = Ok (l, r) -> exists s, x = Ok ((l, s), r).
Proof. destruct x as [[[l' s] r']|e'|]; cbn; try congruence. intros H. injection H as <- <-. eauto. Qed.
Lemma rejected {A} (x : out A) : (exists e, x = Raise e /\ value_error e) -> rejects x.
Proof. intros [e [-> [m ->]]]. exists m. reflexivity. Qed.
End Common.

(** ** C145: AZP *)
(** Any strategy object (any history): fit raises ValueError, or it does exactly what it would have done with any
    values in place of the missing ones. *)
Theorem C145_fill_in missing d expf order fuel g attr p initial s r :
  rejects (azp_fit expf order (checked_pairwise missing d) fuel g attr p initial s r) \/
  forall attr', filled missing attr attr' ->
    shown (azp_fit expf order (checked_pairwise missing d) fuel g attr p initial s r) =
    shown (azp_fit expf order (pairwise d) fuel g attr' p initial s r).
Proof.
  set (x := azp_fit expf order (checked_pairwise missing d) fuel g attr p initial s r).
  assert (H : forall attr', filled missing attr attr' -> rejects x \/ shown x = shown (azp_fit expf order (pairwise d) fuel g attr' p initial s r)).
  { intros attr' Hf. destruct (checked_hyps missing d attr attr' Hf) as [H1 H2].
    destruct (shown_upto _ _ _ _ (azp_fit_upto value_error expf _ _ _ _ H1 H2 order g fuel p initial s s r (shape_refl s))) as [H|H]; [left; apply rejected; exact H|right; exact H]. }
  destruct x as [v|e|] eqn:Ex; [right|destruct e; try (right; intros attr' Hf; destruct (H attr' Hf) as [[m Hm]|]; [discriminate Hm|auto])|right];
    try (intros attr' Hf; destruct (H attr' Hf) as [[m Hm]|]; [discriminate Hm|auto]).
  left. eexists. reflexivity.
Qed.
(** and then no region holds an area with a missing value together with another area, neither in the result nor in the
    initial labels *)
Theorem C145_kept_apart missing d expf order fuel g attr p initial s r labels s' r' :
  (forall l, Permutation (order l) l) -> shape_ok g initial ->
  azp_fit expf order (checked_pairwise missing d) fuel g attr p initial s r = Ok ((labels, s'), r') ->
  kept_apart missing attr labels /\ given_apart missing attr initial.
Proof.
  intros Hord Hsh H. assert (Hv : valid_request g p initial) by (unfold azp_fit in H; eapply fit_returns_valid; eauto).
  pose proof (azp_fit_apart missing d expf order Hord g attr fuel p initial s r (valid_good _ _ _ Hv)) as Hp. rewrite H in Hp. exact Hp.
Qed.
(** The default strategy: there is no third possibility. *)
Theorem C145_azp_missing missing d expf order fuel g attr p initial c0 r :
  (forall l, Permutation (order l) l) -> symmetric g -> length attr = gn g ->
  (forall x y, d x y == d y x)%Q -> (forall x, d x x == 0)%Q -> valid_request g p initial -> gn g ^ gn g + gn g + 1 < fuel ->
  rejects (azp_fit expf order (checked_pairwise missing d) fuel g attr p initial (SAzp c0) r) \/
  exists labels s' r', azp_fit expf order (checked_pairwise missing d) fuel g attr p initial (SAzp c0) r = Ok ((labels, s'), r') /\
    kept_apart missing attr labels /\ given_apart missing attr initial /\
    forall attr', filled missing attr attr' ->
      exists s'', azp_fit expf order (pairwise d) fuel g attr' p initial (SAzp c0) r = Ok ((labels, s''), r').
Proof.
  intros Hord Hsym Hattr Hs Hz Hv Hf.
  destruct (C145_fill_in missing d expf order fuel g attr p initial (SAzp c0) r) as [H|H]; [left; exact H|right].
  pose proof (azp_fit_post (pairwise d) attr (pairwise_exact_on d attr Hs Hz) g Hsym Hattr False expf order fuel p initial c0 r Hord (valid_good _ _ _ Hv) (or_intror Hf)) as Hp.
  pose proof (H attr (filled_self missing attr)) as H1.
  destruct (azp_fit expf order (pairwise d) fuel g attr p initial (SAzp c0) r) as [[[labels s1] r1]|e|]; cbn in Hp; try contradiction.
  cbn [shown] in H1. destruct (shown_Ok _ _ _ H1) as [s' Es]. exists labels, s', r1. split; [exact Es|].
  pose proof (azp_fit_apart missing d expf order Hord g attr fuel p initial (SAzp c0) r (valid_good _ _ _ Hv)) as Ha. rewrite Es in Ha. cbn in Ha.
  destruct Ha as [Ha1 Ha2]. split; [exact Ha1|]. split; [exact Ha2|].
  intros attr' Hfl. apply shown_Ok. rewrite <- (H attr' Hfl), Es. reflexivity.
Qed.
(** Nothing is missing: the checks change nothing. *)
Theorem C145_complete missing d expf order fuel g attr p initial s r : missing [] = false -> complete missing attr ->
  shown (azp_fit expf order (checked_pairwise missing d) fuel g attr p initial s r) = shown (azp_fit expf order (pairwise d) fuel g attr p initial s r).
Proof.
  intros H0 Hc. destruct (complete_hyps missing d attr H0 Hc) as [H1 H2].
  destruct (shown_upto _ _ _ _ (azp_fit_upto (fun _ => False) expf _ _ _ _ H1 H2 order g fuel p initial s s r (shape_refl s))) as [[e [_ []]]|H]; exact H.
Qed.

(** ** C146: AZPSimulatedAnnealing and the tabu classes *)
Lemma fill_in {A S'} (x : out A) (sx : out S') (P : list (list Q) -> Prop) (y : list (list Q) -> out S') :
  (forall e, sx = Raise e -> x = Raise e) -> (forall attr', P attr' -> rejects x \/ sx = y attr') -> (forall e, x = Raise e -> sx = Raise e) ->
  rejects x \/ forall attr', P attr' -> sx = y attr'.
Proof.
  intros H0 H H1. destruct x as [v|e|] eqn:Ex; [right|destruct e; try (right; intros attr' Hf; destruct (H attr' Hf) as [[m Hm]|]; [discriminate Hm|auto])|right];
    try (intros attr' Hf; destruct (H attr' Hf) as [[m Hm]|]; [discriminate Hm|auto]).
  left. eexists. reflexivity.
Qed.

Theorem C146_sa_fill_in missing d expf order azp_fuel g attr p fuel cooling initial a m r :
  rejects (sa_fit expf order (checked_pairwise missing d) azp_fuel g attr p fuel cooling initial a m r) \/
  forall attr', filled missing attr attr' ->
    sa_fit expf order (checked_pairwise missing d) azp_fuel g attr p fuel cooling initial a m r =
    sa_fit expf order (pairwise d) azp_fuel g attr' p fuel cooling initial a m r.
Proof.
  apply fill_in; auto. intros attr' Hf. destruct (checked_hyps missing d attr attr' Hf) as [H1 H2].
  destruct (sa_fit_upto value_error expf _ _ _ _ H1 H2 order g azp_fuel p fuel cooling initial a m r) as [H|H]; [left; apply rejected; exact H|right].
  destruct (sa_fit _ _ (checked_pairwise missing d) _ _ _ _ _ _ _ _ _ _), (sa_fit _ _ (pairwise d) _ _ _ _ _ _ _ _ _ _); cbn in H; try contradiction; congruence.
Qed.
Theorem C146_sa_kept_apart missing d expf order azp_fuel g attr p fuel cooling initial a m r sol m' r' :
  (forall l, Permutation (order l) l) -> symmetric g -> shape_ok g initial -> sa_maxit a <> Some 0 -> 0 < sa_nonmoving_steps a ->
  sa_fit expf order (checked_pairwise missing d) azp_fuel g attr p fuel cooling initial a m r = Ok (sol, m', r') ->
  exists labels, sol = Some labels /\ kept_apart missing attr labels /\ given_apart missing attr initial.
Proof.
  intros Hord Hsym Hsh Hm Hn H. pose proof (sa_fit_returns_valid _ _ _ _ _ _ _ _ _ _ _ _ _ _ Hsh Hm Hn H) as Hv.
  unfold sa_fit in H. destruct (negb _); [discriminate|]. apply bind_Ok in H. destruct H as [s [_ H]].
  assert (Hazp : forall i s r labels s' r', valid_request g p i ->
    azp_fit expf order (checked_pairwise missing d) azp_fuel g attr p i s r = Ok ((labels, s'), r') ->
    valid_request g p (Some labels) /\ kept_apart missing attr labels /\ match i with Some l => kept_apart missing attr l | None => True end).
  { intros i s0 r0 labels s1 r1 Hi E. split.
    - pose proof (any_strategy_post strategy (strat_start (checked_pairwise missing d)) (strat_call expf) strat_val order azp_fuel g attr p i s0 r0 anyexn Hsym Hord Hi) as Hp.
      unfold azp_fit in E. rewrite E in Hp.
      assert (Hd : azp_delivers g p i labels).
      { apply Hp; intros.
        - destruct (strat_start _ _ _ _ _); cbn; unfold anyexn; auto.
        - destruct (strat_call _ _ _ _ _ _); cbn; unfold anyexn; auto. }
      destruct (azp_delivers_ok _ _ _ _ Hd) as [H1 [H2 _]]. cbn. split; [eapply valid_request_pos; eauto|auto].
    - pose proof (azp_fit_apart missing d expf order Hord g attr azp_fuel p i s0 r0 (valid_good _ _ _ Hi)) as Hp. rewrite E in Hp. exact Hp. }
  destruct (sa_outer_apart missing d expf order g attr azp_fuel p Hazp a cooling Hm _ _ _ _ _ _ _ _ _ _ Hv H) as [[_ H0]|[l [-> [H1 H2]]]]; [lia|].
  exists l. auto.
Qed.
(** With a finite max_iterations there is no third possibility. *)
Theorem C146_sa_missing missing d expf order g attr maxit reps :
  (forall l, Permutation (order l) l) -> symmetric g -> length attr = gn g -> (forall x y, d x y == d y x)%Q -> (forall x, d x x == 0)%Q ->
  exists bound, forall fuel azp_fuel p initial a n cooling m r,
    bound <= fuel -> bound <= azp_fuel -> valid_request g p initial ->
    sa_maxit a = Some (S maxit) -> sa_reps a = reps -> sa_moves_term a = Some n -> (1 <= n)%Z -> (0 < cooling < 1)%Q ->
    rejects (sa_fit expf order (checked_pairwise missing d) azp_fuel g attr p fuel cooling initial a m r) \/
    exists res, sa_fit expf order (checked_pairwise missing d) azp_fuel g attr p fuel cooling initial a m r = Ok res /\
      forall attr', filled missing attr attr' -> sa_fit expf order (pairwise d) azp_fuel g attr' p fuel cooling initial a m r = Ok res.
Proof.
  intros Hord Hsym Hattr Hs Hz. destruct (C25_sa_terminates expf order (pairwise d) g attr maxit reps Hsym Hord Hattr (pairwise_exact_on d attr Hs Hz)) as [b Hb].
  exists b. intros fuel azp_fuel p initial a n cooling m r H1 H2 H3 H4 H5 H6 H7 H8.
  destruct (C146_sa_fill_in missing d expf order azp_fuel g attr p fuel cooling initial a m r) as [H|H]; [auto|right].
  destruct (Hb fuel azp_fuel p initial a n cooling m r H1 H2 H3 H4 H5 H6 H7 H8) as [sol [m' [r' E]]].
  exists (sol, m', r'). split; [rewrite (H attr (filled_self missing attr)); exact E|]. intros attr' Hf. rewrite <- (H attr' Hf), (H attr (filled_self missing attr)). exact E.
Qed.

(** AZPBasicTabu, with any strategy object inside *)
Theorem C146_basic_fill_in missing d expf order fuel tabu_length reps g attr p initial s r :
  rejects (basic_fit_with expf order (checked_pairwise missing d) fuel tabu_length reps g attr p initial s r) \/
  forall attr', filled missing attr attr' ->
    shown (basic_fit_with expf order (checked_pairwise missing d) fuel tabu_length reps g attr p initial s r) =
    shown (basic_fit_with expf order (pairwise d) fuel tabu_length reps g attr' p initial s r).
Proof.
  apply fill_in; [intros e; apply shown_raise| |intros e ->; reflexivity]. intros attr' Hf. destruct (checked_hyps missing d attr attr' Hf) as [H1 H2].
  destruct (shown_upto _ _ _ _ (basic_fit_with_upto value_error expf _ _ _ _ H1 H2 order g fuel tabu_length reps p initial s s r (shape_refl s))) as [H|H]; [left; apply rejected; exact H|right; exact H].
Qed.
Theorem C146_basic_kept_apart missing d expf order fuel tabu_length reps g attr p initial s r labels s' r' :
  (forall l, Permutation (order l) l) -> shape_ok g initial ->
  basic_fit_with expf order (checked_pairwise missing d) fuel tabu_length reps g attr p initial s r = Ok ((labels, s'), r') ->
  kept_apart missing attr labels /\ given_apart missing attr initial.
Proof.
  intros Hord Hsh H. assert (Hv : valid_request g p initial) by (unfold basic_fit_with in H; eapply fit_returns_valid; eauto).
  pose proof (basic_fit_apart missing d expf order Hord g attr fuel tabu_length reps p initial s r (valid_good _ _ _ Hv)) as Hp. rewrite H in Hp. exact Hp.
Qed.

(** AZPReactiveTabu, with any strategy object inside and any history; kept apart for a new object and a connected graph *)
Theorem C146_reactive_fill_in missing d expf order maxit k1 k2 g attr p initial s r :
  rejects (reactive_fit_with expf order (checked_pairwise missing d) maxit k1 k2 g attr p initial s r) \/
  forall attr', filled missing attr attr' ->
    shown (reactive_fit_with expf order (checked_pairwise missing d) maxit k1 k2 g attr p initial s r) =
    shown (reactive_fit_with expf order (pairwise d) maxit k1 k2 g attr' p initial s r).
Proof.
  apply fill_in; [intros e; apply shown_raise| |intros e ->; reflexivity]. intros attr' Hf. destruct (checked_hyps missing d attr attr' Hf) as [H1 H2].
  assert (Hs : rw_two shape s s) by (split; [apply shape_refl|auto]).
  destruct (shown_upto _ _ _ _ (reactive_fit_with_upto value_error expf _ _ _ _ H1 H2 order g maxit k1 k2 p initial s s r Hs)) as [H|H]; [left; apply rejected; exact H|right; exact H].
Qed.
Theorem C146_reactive_kept_apart missing d expf order maxit k1 k2 g attr p initial s r labels s' r' :
  (forall l, Permutation (order l) l) -> n_islands g 1 -> shape_ok g initial -> rw_visited s = [] ->
  reactive_fit_with expf order (checked_pairwise missing d) maxit k1 k2 g attr p initial s r = Ok ((labels, s'), r') ->
  kept_apart missing attr labels /\ given_apart missing attr initial.
Proof.
  intros Hord H1 Hsh Hvis H. assert (Hv : valid_request g p initial) by (unfold reactive_fit_with in H; eapply fit_returns_valid; eauto).
  apply n_islands_iff in H1.
  pose proof (reactive_fit_apart missing d expf order Hord g attr maxit k1 k2 p initial s r (valid_good _ _ _ Hv) ltac:(lia) Hvis) as Hp. rewrite H in Hp. exact Hp.
Qed.
(** the classes as users construct them *)
Theorem C146_basic_tabu missing d order fuel tabu_length reps g attr p initial c0 r :
  (forall l, Permutation (order l) l) -> shape_ok g initial ->
  rejects (basic_fit order (checked_pairwise missing d) fuel tabu_length reps g attr p initial c0 r) \/
  (forall attr', filled missing attr attr' ->
    shown (basic_fit order (checked_pairwise missing d) fuel tabu_length reps g attr p initial c0 r) =
    shown (basic_fit order (pairwise d) fuel tabu_length reps g attr' p initial c0 r)) /\
  forall labels c' r', basic_fit order (checked_pairwise missing d) fuel tabu_length reps g attr p initial c0 r = Ok ((labels, c'), r') ->
    kept_apart missing attr labels /\ given_apart missing attr initial.
Proof.
  intros Hord Hsh. set (expf := fun q : Q => q).
  assert (Hi : match initial with Some l => length l = gn g /\ ~ In (-1)%Z l | None => True end) by exact Hsh.
  assert (Hsame : forall O attr, shown (basic_fit_with expf order O fuel tabu_length reps g attr p initial (SAzp c0) r) = shown (basic_fit order O fuel tabu_length reps g attr p initial c0 r)).
  { intros O at'. exact (shown_two _ _ _ (basic_fit_plain expf order O fuel tabu_length reps g at' p initial c0 r Hord Hi)). }
  destruct (C146_basic_fill_in missing d expf order fuel tabu_length reps g attr p initial (SAzp c0) r) as [[m H]|H].
  - left. exists m. apply shown_raise. rewrite <- Hsame, H. reflexivity.
  - right. split; [intros attr' Hf; rewrite <- !Hsame; auto|]. intros labels c' r' E.
    assert (E' : shown (basic_fit_with expf order (checked_pairwise missing d) fuel tabu_length reps g attr p initial (SAzp c0) r) = Ok (labels, r')) by (rewrite Hsame, E; reflexivity).
    apply shown_Ok in E'. destruct E' as [s' E']. exact (C146_basic_kept_apart missing d expf order fuel tabu_length reps g attr p initial (SAzp c0) r labels s' r' Hord Hsh E').
Qed.
Theorem C146_reactive_tabu missing d order maxit k1 k2 g attr p initial s r :
  (forall l, Permutation (order l) l) -> shape_ok g initial ->
  rejects (reactive_fit order (checked_pairwise missing d) maxit k1 k2 g attr p initial s r) \/
  (forall attr', filled missing attr attr' ->
    shown (reactive_fit order (checked_pairwise missing d) maxit k1 k2 g attr p initial s r) =
    shown (reactive_fit order (pairwise d) maxit k1 k2 g attr' p initial s r)) /\
  (n_islands g 1 -> rt_visited s = [] -> forall labels s' r',
    reactive_fit order (checked_pairwise missing d) maxit k1 k2 g attr p initial s r = Ok ((labels, s'), r') ->
    kept_apart missing attr labels /\ given_apart missing attr initial).
Proof.
  intros Hord Hsh. set (expf := fun q : Q => q).
  assert (Hi : match initial with Some l => length l = gn g /\ ~ In (-1)%Z l | None => True end) by exact Hsh.
  assert (Hsame : forall O attr, shown (reactive_fit_with expf order O maxit k1 k2 g attr p initial (plain_of s) r) = shown (reactive_fit order O maxit k1 k2 g attr p initial s r)).
  { intros O at'. exact (shown_two _ _ _ (reactive_fit_plain expf order O maxit k1 k2 g at' p initial s r Hord Hi)). }
  destruct (C146_reactive_fill_in missing d expf order maxit k1 k2 g attr p initial (plain_of s) r) as [[m H]|H].
  - left. exists m. apply shown_raise. rewrite <- Hsame, H. reflexivity.
  - right. split; [intros attr' Hf; rewrite <- !Hsame; auto|]. intros H1 Hvis labels c' r' E.
    assert (E' : shown (reactive_fit_with expf order (checked_pairwise missing d) maxit k1 k2 g attr p initial (plain_of s) r) = Ok (labels, r')) by (rewrite Hsame, E; reflexivity).
    apply shown_Ok in E'. destruct E' as [s' E']. exact (C146_reactive_kept_apart missing d expf order maxit k1 k2 g attr p initial (plain_of s) r labels s' r' Hord H1 Hsh Hvis E').
Qed.


(** ** C147: ObjectiveFunctionCenter *)
Section Center.
Variables (missing : list Q -> bool) (d : list Q -> list Q -> Q) (center : list (list Q) -> list Q).

Lemma center_hyps attr reduction :
  (forall idx l, upto value_error eq (o_call (checked_centered missing d center reduction) l (map (row attr) idx)) (o_call (centered d center reduction) l (map (row attr) idx))) /\
  (forall idx a r l, upto value_error eq (o_update (checked_centered missing d center reduction) a r l (map (row attr) idx)) (o_update (centered d center reduction) a r l (map (row attr) idx))).
Proof.
  split; intros idx.
  - intros l. apply checked_center_call_upto; auto; [intros m _ _; exists m; auto|intros _ _ _ _ m; exists m; auto].
  - intros a r l. apply checked_center_update_upto; auto; [intros m _ _; exists m; auto|intros _ _ _ _ m; exists m; auto].
Qed.
Lemma centered_exact_on attr : exact_on (centered d center sumQ) attr.
Proof. intros rows _. apply centered_exact. Qed.

(** A missing value anywhere: fit never returns labels, whatever strategy object, reduction and request. *)
Theorem C147_center_no_labels reduction expf order fuel g attr p initial s r labels s' r' :
  (forall l, Permutation (order l) l) -> shape_ok g initial ->
  azp_fit expf order (checked_centered missing d center reduction) fuel g attr p initial s r = Ok ((labels, s'), r') ->
  forall a, a < gn g -> missing (nth a attr []) = false.
Proof.
  intros Hord Hsh H. assert (Hv : valid_request g p initial) by (unfold azp_fit in H; eapply fit_returns_valid; eauto).
  pose proof (azp_fit_center missing d center reduction g attr expf order Hord fuel p initial s r (valid_good _ _ _ Hv)) as Hp. rewrite H in Hp. exact Hp.
Qed.
Theorem C147_basic_no_labels reduction expf order fuel tabu_length reps g attr p initial s r labels s' r' :
  (forall l, Permutation (order l) l) -> shape_ok g initial ->
  basic_fit_with expf order (checked_centered missing d center reduction) fuel tabu_length reps g attr p initial s r = Ok ((labels, s'), r') ->
  forall a, a < gn g -> missing (nth a attr []) = false.
Proof.
  intros Hord Hsh H. assert (Hv : valid_request g p initial) by (unfold basic_fit_with in H; eapply fit_returns_valid; eauto).
  pose proof (basic_fit_center missing d center reduction g attr expf order Hord fuel tabu_length reps p initial s r (valid_good _ _ _ Hv)) as Hp. rewrite H in Hp. exact Hp.
Qed.
Theorem C147_reactive_no_labels reduction expf order maxit k1 k2 g attr p initial s r labels s' r' :
  (forall l, Permutation (order l) l) -> n_islands g 1 -> shape_ok g initial -> rw_visited s = [] ->
  reactive_fit_with expf order (checked_centered missing d center reduction) maxit k1 k2 g attr p initial s r = Ok ((labels, s'), r') ->
  forall a, a < gn g -> missing (nth a attr []) = false.
Proof.
  intros Hord H1 Hsh Hvis H. assert (Hv : valid_request g p initial) by (unfold reactive_fit_with in H; eapply fit_returns_valid; eauto).
  apply n_islands_iff in H1.
  pose proof (reactive_fit_center missing d center reduction g attr expf order Hord maxit k1 k2 p initial s r (valid_good _ _ _ Hv) ltac:(lia) Hvis) as Hp. rewrite H in Hp. exact Hp.
Qed.
(** The default strategy and reduction: every valid request is answered with ValueError. *)
Theorem C147_center_rejects expf order fuel g attr p initial c0 r :
  (forall l, Permutation (order l) l) -> symmetric g -> length attr = gn g -> valid_request g p initial -> gn g ^ gn g + gn g + 1 < fuel ->
  (exists a, a < gn g /\ missing (nth a attr []) = true) ->
  rejects (azp_fit expf order (checked_centered missing d center sumQ) fuel g attr p initial (SAzp c0) r).
Proof.
  intros Hord Hsym Hattr Hv Hf [a [Ha Hm]]. destruct (center_hyps attr sumQ) as [H1 H2].
  destruct (shown_upto _ _ _ _ (azp_fit_upto value_error expf _ _ _ _ H1 H2 order g fuel p initial (SAzp c0) (SAzp c0) r (shape_refl _))) as [H|H]; [apply rejected; exact H|].
  pose proof (azp_fit_post (centered d center sumQ) attr (centered_exact_on attr) g Hsym Hattr False expf order fuel p initial c0 r Hord (valid_good _ _ _ Hv) (or_intror Hf)) as Hp.
  destruct (azp_fit expf order (centered d center sumQ) fuel g attr p initial (SAzp c0) r) as [[[labels s1] r1]|e|]; cbn in Hp; try contradiction.
  cbn [shown] in H. destruct (shown_Ok _ _ _ H) as [s' E].
  pose proof (azp_fit_center missing d center sumQ g attr expf order Hord fuel p initial (SAzp c0) r (valid_good _ _ _ Hv)) as Hc. rewrite E in Hc. cbn in Hc.
  rewrite Hc in Hm by auto. discriminate.
Qed.
Theorem C147_sa_rejects expf order g attr maxit reps :
  (forall l, Permutation (order l) l) -> symmetric g -> length attr = gn g -> (exists a, a < gn g /\ missing (nth a attr []) = true) ->
  exists bound, forall fuel azp_fuel p initial a n cooling m r,
    bound <= fuel -> bound <= azp_fuel -> valid_request g p initial ->
    sa_maxit a = Some (S maxit) -> sa_reps a = reps -> sa_moves_term a = Some n -> (1 <= n)%Z -> (0 < cooling < 1)%Q -> 0 < sa_nonmoving_steps a ->
    rejects (sa_fit expf order (checked_centered missing d center sumQ) azp_fuel g attr p fuel cooling initial a m r).
Proof.
  intros Hord Hsym Hattr [x [Hx Hm]].
  destruct (C25_sa_terminates expf order (centered d center sumQ) g attr maxit reps Hsym Hord Hattr (centered_exact_on attr)) as [b Hb].
  exists b. intros fuel azp_fuel p initial a n cooling m r G1 G2 Hv G4 G5 G6 G7 G8 G9. destruct (center_hyps attr sumQ) as [H1 H2].
  destruct (sa_fit_upto value_error expf _ _ _ _ H1 H2 order g azp_fuel p fuel cooling initial a m r) as [H|H]; [apply rejected; exact H|].
  destruct (Hb fuel azp_fuel p initial a n cooling m r G1 G2 Hv G4 G5 G6 G7 G8) as [sol [m' [r' E]]]. rewrite E in H.
  destruct (sa_fit expf order (checked_centered missing d center sumQ) azp_fuel g attr p fuel cooling initial a m r) as [[[sol1 m1] r1]|e|] eqn:Es; cbn in H; try contradiction.
  exfalso. unfold sa_fit in Es. destruct (negb _); [discriminate|]. apply bind_Ok in Es. destruct Es as [s [_ Es]].
  destruct fuel as [|fuel]; cbn [sa_outer] in Es; (destruct (Nat.ltb_spec 0 (sa_nonmoving_steps a)); [|lia]); [discriminate|].
  apply bind_Ok in Es. destruct Es as [v [Es _]].
  destruct fuel as [|fuel]; cbn [sa_step_b] in Es; rewrite sa_reset_not_reached, orb_false_r, G4 in Es; try discriminate.
  apply bind_Ok in Es. destruct Es as [[[labels s2] r2] [Ea _]].
  pose proof (azp_fit_center missing d center sumQ g attr expf order Hord azp_fuel p initial (sa_reset s) r (valid_good _ _ _ Hv)) as Hc. rewrite Ea in Hc. cbn in Hc.
  rewrite Hc in Hm by auto. discriminate.
Qed.
End Center.

(** ** Examples *)
(** -99 stands for a missing value *)
Definition absent (x : list Q) : bool := existsb (fun q => Qeq_bool q (-99)) x.
(** six areas: 0 hangs on 1; 1 lies between 2 and 3; then 3, 4, 5 in a row.  Nothing is known of area 0. *)
Definition spur : graph := mkG 6 (fun i j => match i, j with
  0,1 | 1,0 | 1,2 | 2,1 | 1,3 | 3,1 | 3,4 | 4,3 | 4,5 | 5,4 => true | _, _ => false end).
Lemma spur_symmetric : symmetric spur.
Proof. intros i j. do 7 (destruct i as [|i]; [do 7 (destruct j as [|j]; [reflexivity|]); reflexivity|]). do 7 (destruct j as [|j]; [reflexivity|]). reflexivity. Qed.
Definition spur_attr : list (list Q) := att [-99;0;0;0;1;9]%Q.
Definition spur_fit O attr p initial fuel := azp_fit expd same_order O fuel spur attr p initial (SAzp dum) rng0.

(** Area 4 moves over although the value of area 0 is missing; the same happens with 5 in its place. *)
Example C145_example :
  valid_request spur 3 (Some [7;3;3;3;5;5]%Z) /\ length spur_attr = gn spur /\ gn spur ^ gn spur + gn spur + 1 < 46664 /\
  kept_apart absent spur_attr [7;3;3;3;5;5]%Z /\ ~ kept_apart absent spur_attr [7;7;3;5;5;5]%Z /\
  filled absent spur_attr (att [5;0;0;0;1;9]%Q) /\ ~ complete absent spur_attr /\
  (exists r', shown (spur_fit (checked_pairwise absent manhattan) spur_attr 3 (Some [7;3;3;3;5;5]%Z) 46664) = Ok ([7;3;3;3;3;5]%Z, r')) /\
  (exists r', shown (spur_fit (pairwise manhattan) (att [5;0;0;0;1;9]%Q) 3 (Some [7;3;3;3;5;5]%Z) 46664) = Ok ([7;3;3;3;3;5]%Z, r')).
Proof.
  split; [valid_tac|]. split; [reflexivity|]. split; [apply Nat.ltb_lt; vm_compute; reflexivity|].
  split.
  { intros a b z Ha Hb Hm. do 6 (destruct a as [|a]; [vm_compute in Hm; try discriminate; do 6 (destruct b as [|b]; [vm_compute in Ha, Hb; congruence|]); destruct b; discriminate|]).
    destruct a; discriminate. }
  split; [intros H; specialize (H 0 1 7%Z eq_refl eq_refl eq_refl); discriminate|].
  split. { split; [reflexivity|]. intros a Ha Hm. do 6 (destruct a as [|a]; [vm_compute in Hm; try discriminate; reflexivity|]). cbn in Ha. lia. }
  split; [intros H; specialize (H 0 ltac:(cbn; lia)); discriminate|].
  split; eexists; vm_compute; reflexivity.
Qed.
(** Here area 3 could also join area 4's region and then 1 could join 0: the comparison fails.  So does the start from a
    region holding area 0 and another one. *)
Example C145_example_rejects :
  spur_fit (checked_pairwise absent manhattan) (att [-99;0;0;9;9;9]%Q) 3 (Some [7;3;3;3;5;5]%Z) 100 =
    Raise (ValueError "Input contains NaN, infinity or a value too large") /\
  spur_fit (checked_pairwise absent manhattan) spur_attr 3 (Some [7;7;3;5;5;5]%Z) 100 = Raise (ValueError "Input contains NaN, infinity or a value too large").
Proof. split; vm_compute; reflexivity. Qed.
Example C145_example_complete :
  absent [] = false /\ complete absent (att [5;0;0;0;1;9]%Q) /\
  exists r', shown (spur_fit (checked_pairwise absent manhattan) (att [5;0;0;0;1;9]%Q) 3 (Some [7;3;3;3;5;5]%Z) 100) = Ok ([7;3;3;3;3;5]%Z, r').
Proof.
  split; [reflexivity|]. split; [|eexists; vm_compute; reflexivity].
  intros a Ha. do 6 (destruct a as [|a]; [reflexivity|]). cbn in Ha. lia.
Qed.

Example C146_example :
  n_islands spur 1 /\ rt_visited rt_fresh = [] /\
  sa_labels (sa_fit expd same_order (checked_pairwise absent manhattan) 40 spur spur_attr 3 40 (1 # 2) (Some [7;3;3;3;5;5]%Z) (mkSaArgs (1 # 100) (Some 1) (Some 1%Z) 3 1) (mkSaMemory false []) rng0)
    = Some [7;3;3;3;3;5]%Z /\
  tabu_labels (basic_fit same_order (checked_pairwise absent manhattan) 40 (Some 85) 1 spur spur_attr 3 (Some [7;3;3;3;5;5]%Z) dum rng0) = Some [7;3;3;3;3;5]%Z /\
  tabu_labels (reactive_fit same_order (checked_pairwise absent manhattan) 1 2 3 spur spur_attr 3 (Some [7;3;3;3;5;5]%Z) rt_fresh rng0) = Some [7;3;3;3;3;5]%Z.
Proof.
  split; [apply n_islands_iff; vm_compute; reflexivity|]. split; [reflexivity|]. split; [vm_compute; reflexivity|]. split; vm_compute; reflexivity.
Qed.

(** the mean of the rows, as far as it matters here *)
Example C147_example :
  valid_request spur 3 (Some [7;3;3;3;5;5]%Z) /\ (exists a, a < gn spur /\ absent (nth a spur_attr []) = true) /\
  spur_fit (checked_centered absent manhattan (fun rows => nth 0 rows []) sumQ) spur_attr 3 (Some [7;3;3;3;5;5]%Z) 46664 =
    Raise (ValueError "Input contains NaN, infinity or a value too large") /\
  exists r', shown (spur_fit (checked_centered absent manhattan (fun rows => nth 0 rows []) sumQ) (att [5;0;0;0;1;9]%Q) 3 (Some [7;3;3;3;5;5]%Z) 100) = Ok ([7;3;3;3;3;5]%Z, r').
Proof.
  split; [valid_tac|]. split; [exists 0; split; [cbn; lia|reflexivity]|]. split; [vm_compute; reflexivity|]. eexists. vm_compute. reflexivity.
Qed.

Print Assumptions C145_fill_in.
Print Assumptions C145_kept_apart.
Print Assumptions C145_azp_missing.
Print Assumptions C145_complete.
Print Assumptions C146_sa_fill_in.
Print Assumptions C146_sa_kept_apart.
Print Assumptions C146_sa_missing.
Print Assumptions C146_basic_fill_in.
Print Assumptions C146_basic_kept_apart.
Print Assumptions C146_basic_tabu.
Print Assumptions C146_reactive_fill_in.
Print Assumptions C146_reactive_kept_apart.
Print Assumptions C146_reactive_tabu.
Print Assumptions C147_center_no_labels.
Print Assumptions C147_basic_no_labels.
Print Assumptions C147_reactive_no_labels.
Print Assumptions C147_center_rejects.
Print Assumptions C147_sa_rejects.
