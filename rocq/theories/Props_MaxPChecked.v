(** Property C153: missing attribute values in the max-p heuristic. *)
From Verif Require Import Base Spec SpecMissing M_Graph P_Graph M_Util P_Base P_Util P_Forest P_Init P_Initial M_Objective P_Sum P_Objective
  M_Azp P_Azp P_Strategy P_Fit P_AzpFit Examples Props_Objective Props_Azp M_Sa P_Sa Props_Sa M_Tabu Props_Tabu
  M_MaxP P_MaxP P_MaxP2 P_MaxP3 P_MaxP4 Props_MaxP M_TabuWith P_TabuWith Props_MaxPTabu Props_Descent M_Missing P_Upto P_Missing Props_Missing M_Grow M_MaxPChecked P_MaxPChecked.

Local Notation att := (map (fun q : Q => [q])).

(** what a user sees of the fit of a max-p object: its labels or the exception, and the draws made *)
Definition mp_shown {S} (o : out (option (list Z) * S * rng)) : out (option (list Z) * rng) :=
  match o with Ok (labels, _, r) => Ok (labels, r) | Raise e => Raise e | NoFuel => NoFuel end.

Section Common.
Variables (missing : list Q -> bool) (d : list Q -> list Q -> Q) (attr : list (list Q)).

Lemma filled_row attr' : filled missing attr attr' -> forall i, missing (row attr i) = false -> row attr' i = row attr i.
Proof.
  intros [Hl Hf] i H. unfold row in *. destruct (Nat.lt_ge_cases i (length attr)) as [Hi|Hi]; [auto|]. rewrite !nth_overflow by lia. reflexivity.
Qed.
Lemma complete_row : missing [] = false -> complete missing attr -> forall i, missing (row attr i) = false.
Proof. intros H0 Hc i. unfold row. destruct (Nat.lt_ge_cases i (length attr)); [auto|]. rewrite nth_overflow; auto. Qed.
Lemma mp_shown_upto {S S'} E (J : S -> S' -> Prop) x y : upto E (mp_alike S S' J) x y -> (exists e, x = Raise e /\ E e) \/ mp_shown x = mp_shown y.
Proof.
  intros [H|H]; [auto|right]. destruct x as [[[l s] r]|e|], y as [[[l' s'] r']|e'|]; cbn in H; try contradiction; cbn; [|congruence|auto].
  destruct H as [H1 [H2 _]]. congruence.
Qed.
Lemma mp_shown_Ok {S} (x : out (option (list Z) * S * rng)) l r : mp_shown x = Ok (l, r) -> exists s, x = Ok (l, s, r).
Proof. destruct x as [[[l' s] r']|e'|]; cbn; try congruence. intros H. injection H as <- <-. eauto. Qed.
Lemma mp_shown_Raise {S} (x : out (option (list Z) * S * rng)) e : mp_shown x = Raise e -> x = Raise e.
Proof. destruct x as [[[l s] r]|e'|]; cbn; congruence. Qed.
Lemma mp_shown_exn {S} (x : out (option (list Z) * S * rng)) e : x = Raise e -> mp_shown x = Raise e.
Proof. intros ->. reflexivity. Qed.

Lemma alone_total l a z sp k : nth_error l a = Some z -> (forall b, nth_error l b = Some z -> b = a) -> (total sp l z k == nth k (nth a sp []) 0)%Q.
Proof.
  intros Ha Hu. unfold total. set (f := fun b => if Z.eqb (lab l b) z then nth k (nth b sp []) 0%Q else 0%Q).
  assert (Hal : a < length l) by (apply nth_error_Some; congruence).
  assert (Hlab : forall b, b < length l -> nth_error l b = Some (lab l b)).
  { intros b Hb. unfold lab. apply nth_error_nth'. auto. }
  assert (H : forall L, NoDup L -> (forall b, In b L -> b < length l) -> (sumQ (map f L) == if in_dec Nat.eq_dec a L then f a else 0)%Q).
  { induction L as [|b L IH]; intros Hn HL; [reflexivity|]. inversion Hn as [|? ? Hb HnL]; subst. cbn [map sumQ fold_right]. change (fold_right Qplus 0%Q (map f L)) with (sumQ (map f L)).
    rewrite (IH HnL (fun x Hx => HL x (or_intror Hx))). destruct (Nat.eq_dec b a) as [->|Hne].
    - destruct (in_dec Nat.eq_dec a L); [contradiction|]. destruct (in_dec Nat.eq_dec a (a :: L)) as [|C]; [lra|exfalso; apply C; left; auto].
    - assert (Hf : f b = 0%Q).
      { unfold f. destruct (Z.eqb_spec (lab l b) z) as [Ez|]; [|auto]. exfalso. apply Hne, Hu. rewrite (Hlab b (HL b (or_introl eq_refl))). congruence. }
      rewrite Hf. destruct (in_dec Nat.eq_dec a L) as [H1|H1], (in_dec Nat.eq_dec a (b :: L)) as [H2|H2]; try lra.
      + exfalso. apply H2. right. auto.
      + destruct H2 as [H2|H2]; [congruence|contradiction]. }
  rewrite H; [|apply seq_NoDup|intros b Hb; apply in_seq in Hb; lia].
  destruct (in_dec Nat.eq_dec a (seq 0 (length l))) as [|C]; [|exfalso; apply C, in_seq; lia].
  unfold f. rewrite (Hlab a Hal) in Ha. injection Ha as ->. rewrite Z.eqb_refl. reflexivity.
Qed.
End Common.

(** ** fit raises ValueError, or does exactly what it would have done with any values in place of the missing ones *)
Section FillIn.
Variables (missing : list Q -> bool) (d : list Q -> list Q -> Q) (attr : list (list Q)).
Notation checked := (checked_pairwise missing d).
Lemma whole_hyp (E : exn -> Prop) attr' : (forall i, missing (row attr i) = false -> row attr' i = row attr i) -> (forall m i, missing (row attr i) = true -> E (ValueError m)) ->
  forall l, upto E eq (o_call checked l attr) (o_call (pairwise d) l attr').
Proof. intros H1 H2 l. apply checked_call_upto; auto. Qed.

(** whatever strategy object (any history) an AZP local search carries *)
Theorem C153_fill_in expf order fuel g sp thr max_it entropy labels0 ls r :
  rejects (checked_maxp_azp_fit missing d attr expf order checked fuel g sp thr max_it entropy labels0 ls r) \/
  forall attr', filled missing attr attr' ->
    mp_shown (checked_maxp_azp_fit missing d attr expf order checked fuel g sp thr max_it entropy labels0 ls r) =
    mp_shown (maxp_azp_fit expf order (pairwise d) d fuel g attr' sp thr max_it entropy labels0 ls r).
Proof.
  apply fill_in; [apply mp_shown_Raise| |apply mp_shown_exn]. intros attr' Hf. destruct (checked_hyps missing d attr attr' Hf) as [H1 H2].
  destruct (mp_shown_upto _ _ _ _ (checked_azp_upto missing d value_error attr attr' (filled_row missing attr attr' Hf) (fun m _ _ => ex_intro _ m eq_refl) g sp thr _ _ H1 H2
    (whole_hyp _ _ (filled_row missing attr attr' Hf) (fun m _ _ => ex_intro _ m eq_refl)) expf order fuel max_it entropy labels0 ls r)) as [H|H]; [left; apply rejected; exact H|right; exact H].
Qed.
Theorem C153_basic_fill_in expf order fuel maxlen reps g sp thr max_it labels0 s r :
  rejects (checked_maxp_basic_fit missing d attr expf order checked fuel maxlen reps g sp thr max_it labels0 s r) \/
  forall attr', filled missing attr attr' ->
    mp_shown (checked_maxp_basic_fit missing d attr expf order checked fuel maxlen reps g sp thr max_it labels0 s r) =
    mp_shown (maxp_basic_fit expf order (pairwise d) d fuel maxlen reps g attr' sp thr max_it labels0 s r).
Proof.
  apply fill_in; [apply mp_shown_Raise| |apply mp_shown_exn]. intros attr' Hf. destruct (checked_hyps missing d attr attr' Hf) as [H1 H2].
  destruct (mp_shown_upto _ _ _ _ (checked_basic_upto missing d value_error attr attr' (filled_row missing attr attr' Hf) (fun m _ _ => ex_intro _ m eq_refl) g sp thr _ _ H1 H2
    (whole_hyp _ _ (filled_row missing attr attr' Hf) (fun m _ _ => ex_intro _ m eq_refl)) expf order fuel maxlen reps max_it labels0 s r)) as [H|H]; [left; apply rejected; exact H|right; exact H].
Qed.
Theorem C153_reactive_fill_in expf order maxit k1 k2 g sp thr max_it labels0 s r :
  rejects (checked_maxp_reactive_fit missing d attr expf order checked maxit k1 k2 g sp thr max_it labels0 s r) \/
  forall attr', filled missing attr attr' ->
    mp_shown (checked_maxp_reactive_fit missing d attr expf order checked maxit k1 k2 g sp thr max_it labels0 s r) =
    mp_shown (maxp_reactive_fit expf order (pairwise d) d maxit k1 k2 g attr' sp thr max_it labels0 s r).
Proof.
  apply fill_in; [apply mp_shown_Raise| |apply mp_shown_exn]. intros attr' Hf. destruct (checked_hyps missing d attr attr' Hf) as [H1 H2].
  destruct (mp_shown_upto _ _ _ _ (checked_reactive_upto missing d value_error attr attr' (filled_row missing attr attr' Hf) (fun m _ _ => ex_intro _ m eq_refl) g sp thr _ _ H1 H2
    (whole_hyp _ _ (filled_row missing attr attr' Hf) (fun m _ _ => ex_intro _ m eq_refl)) expf order maxit k1 k2 max_it labels0 s r)) as [H|H]; [left; apply rejected; exact H|right; exact H].
Qed.
Theorem C153_sa_fill_in expf order azp_fuel fuel cooling args g sp thr max_it labels0 mem r :
  rejects (checked_maxp_sa_fit missing d attr expf order checked azp_fuel fuel cooling args g sp thr max_it labels0 mem r) \/
  forall attr', filled missing attr attr' ->
    mp_shown (checked_maxp_sa_fit missing d attr expf order checked azp_fuel fuel cooling args g sp thr max_it labels0 mem r) =
    mp_shown (maxp_sa_fit expf order (pairwise d) d azp_fuel fuel cooling args g attr' sp thr max_it labels0 mem r).
Proof.
  apply fill_in; [apply mp_shown_Raise| |apply mp_shown_exn]. intros attr' Hf. destruct (checked_hyps missing d attr attr' Hf) as [H1 H2].
  destruct (mp_shown_upto _ _ _ _ (checked_sa_upto missing d value_error attr attr' (filled_row missing attr attr' Hf) (fun m _ _ => ex_intro _ m eq_refl) g sp thr _ _ H1 H2
    (whole_hyp _ _ (filled_row missing attr attr' Hf) (fun m _ _ => ex_intro _ m eq_refl)) expf order azp_fuel fuel cooling args max_it labels0 mem r)) as [H|H]; [left; apply rejected; exact H|right; exact H].
Qed.

(** ** what is returned keeps the areas with missing values apart *)
(** with AZP as local search: such an area is a region of its own, so its own amounts reach the threshold *)
Theorem C153_kept_apart expf order fuel g sp thr max_it entropy labels0 ls r labels ls' r' :
  (forall l, Permutation (order l) l) -> symmetric g -> no_self_loops g -> shaped sp thr (gn g) -> non_negative sp -> 0 < max_it ->
  checked_maxp_azp_fit missing d attr expf order checked fuel g sp thr max_it entropy labels0 ls r = Ok (labels, ls', r') ->
  exists l p, labels = Some l /\ feasible g l p /\ (forall z, In z l -> meets sp thr l z) /\ kept_apart missing attr l /\
    forall a, a < gn g -> missing (nth a attr []) = true -> meets_in sp thr [a].
Proof.
  intros Hord Hsym Hloop Hsp Hpos Hit H.
  destruct (C153_fill_in expf order fuel g sp thr max_it entropy labels0 ls r) as [[m Hm]|Hfill]; [congruence|].
  specialize (Hfill attr (filled_self missing attr)). rewrite H in Hfill. cbn [mp_shown] in Hfill. symmetry in Hfill.
  destruct (mp_shown_Ok _ _ _ Hfill) as [t Et].
  destruct (C35_maxp_valid _ _ _ _ _ _ _ _ _ _ _ _ _ _ _ _ _ Hord Hsym Hloop Hsp Hpos Hit Et) as [runs [p [l [-> [_ [_ [_ [Hf Hm]]]]]]]].
  destruct (returned_evaluated _ _ _ _ _ _ _ _ _ _ _ _ _ _ _ _ _ _ _ Hit H) as [l1 [v [E1 Ev]]]. injection E1 as <-.
  pose proof (checked_call_apart missing d attr l v Ev) as Hap. exists l, p. split; [auto|]. split; [exact Hf|]. split; [exact Hm|]. split; [exact Hap|].
  intros a Ha Hmiss k t0 Ht. destruct (nth_error l a) as [z|] eqn:Ez; [|apply nth_error_None in Ez; destruct Hf as [Hlen _]; lia].
  specialize (Hm z (nth_error_In _ _ Ez) k t0 Ht). rewrite (alone_total l a z sp k Ez (fun b Hb => Hap a b z Ez Hb Hmiss)) in Hm.
  unfold total_in. cbn. lra.
Qed.
(** with the other classes *)
Theorem C153_basic_kept_apart expf order fuel maxlen reps g sp thr max_it labels0 s r labels s' r' : 0 < max_it ->
  checked_maxp_basic_fit missing d attr expf order checked fuel maxlen reps g sp thr max_it labels0 s r = Ok (labels, s', r') ->
  exists l, labels = Some l /\ kept_apart missing attr l.
Proof.
  intros Hit H. unfold checked_maxp_basic_fit, checked_maxp_fit in H. destruct (returned_evaluated _ _ _ _ _ _ _ _ _ _ _ _ _ _ _ _ _ _ _ Hit H) as [l [v [-> Ev]]].
  exists l. split; [auto|]. exact (checked_call_apart missing d attr l v Ev).
Qed.
Theorem C153_reactive_kept_apart expf order maxit k1 k2 g sp thr max_it labels0 s r labels s' r' : 0 < max_it ->
  checked_maxp_reactive_fit missing d attr expf order checked maxit k1 k2 g sp thr max_it labels0 s r = Ok (labels, s', r') ->
  exists l, labels = Some l /\ kept_apart missing attr l.
Proof.
  intros Hit H. unfold checked_maxp_reactive_fit, checked_maxp_fit in H. destruct (returned_evaluated _ _ _ _ _ _ _ _ _ _ _ _ _ _ _ _ _ _ _ Hit H) as [l [v [-> Ev]]].
  exists l. split; [auto|]. exact (checked_call_apart missing d attr l v Ev).
Qed.
Theorem C153_sa_kept_apart expf order azp_fuel fuel cooling args g sp thr max_it labels0 mem r labels s' r' : 0 < max_it ->
  checked_maxp_sa_fit missing d attr expf order checked azp_fuel fuel cooling args g sp thr max_it labels0 mem r = Ok (labels, s', r') ->
  exists l, labels = Some l /\ kept_apart missing attr l.
Proof.
  intros Hit H. unfold checked_maxp_sa_fit, checked_maxp_fit in H. destruct (returned_evaluated _ _ _ _ _ _ _ _ _ _ _ _ _ _ _ _ _ _ _ Hit H) as [l [v [-> Ev]]].
  exists l. split; [auto|]. exact (checked_call_apart missing d attr l v Ev).
Qed.

(** ** the default local search: there is no third possibility *)
Theorem C153_returns_or_rejects expf order g sp thr :
  (forall l, Permutation (order l) l) -> symmetric g -> no_self_loops g -> shaped sp thr (gn g) -> non_negative sp ->
  length attr = gn g -> (forall x y, d x y == d y x)%Q -> (forall x, d x x == 0)%Q ->
  exists bound, forall fuel max_it entropy labels0 ls r, bound <= fuel -> 0 < max_it ->
    match ls with Some s => azp_inside s | None => True end ->
    rejects (checked_maxp_azp_fit missing d attr expf order checked fuel g sp thr max_it entropy labels0 ls r) \/
    exists l ls' r', checked_maxp_azp_fit missing d attr expf order checked fuel g sp thr max_it entropy labels0 ls r = Ok (Some l, ls', r') /\
      forall attr', filled missing attr attr' -> exists ls'', maxp_azp_fit expf order (pairwise d) d fuel g attr' sp thr max_it entropy labels0 ls r = Ok (Some l, ls'', r').
Proof.
  intros Hord Hsym Hloop Hsp Hpos Hattr Hs Hz. exists (gn g + 2). intros fuel max_it entropy labels0 ls r Hf Hit Hls.
  destruct (C153_fill_in expf order fuel g sp thr max_it entropy labels0 ls r) as [H|Hfill]; [left; exact H|].
  pose proof (maxp_azp_default expf order Hord (pairwise d) d g attr sp thr Hsym Hloop Hsp Hpos Hattr (pairwise_exact_on d attr Hs Hz) False fuel max_it entropy labels0 ls r Hit ltac:(lia) Hls) as Hp.
  pose proof (Hfill attr (filled_self missing attr)) as H0.
  destruct (maxp_azp_fit expf order (pairwise d) d fuel g attr sp thr max_it entropy labels0 ls r) as [[[labels t] r1]|e|]; cbn [post] in Hp; [right| |destruct Hp].
  - destruct Hp as [mp [before [r2 [parts [r3 [l [s' [_ [_ [-> _]]]]]]]]]]. cbn [mp_shown] in H0. destruct (mp_shown_Ok _ _ _ H0) as [ls' E].
    exists l, ls', r1. split; [exact E|]. intros attr' Hfl. apply mp_shown_Ok. rewrite <- (Hfill attr' Hfl), E. reflexivity.
  - left. destruct Hp as [_ [m ->]]. cbn [mp_shown] in H0. exists m. apply mp_shown_Raise. exact H0.
Qed.
(** ValueError when an area with a missing value does not reach the threshold by itself, or some island does not *)
Theorem C153_must_stand_alone expf order g sp thr :
  (forall l, Permutation (order l) l) -> symmetric g -> no_self_loops g -> shaped sp thr (gn g) -> non_negative sp ->
  length attr = gn g -> (forall x y, d x y == d y x)%Q -> (forall x, d x x == 0)%Q ->
  ((exists a, a < gn g /\ missing (nth a attr []) = true /\ ~ meets_in sp thr [a]) \/ (exists v isl, v < gn g /\ island g v isl /\ ~ meets_in sp thr isl)) ->
  exists bound, forall fuel max_it entropy labels0 ls r, bound <= fuel -> 0 < max_it ->
    match ls with Some s => azp_inside s | None => True end ->
    rejects (checked_maxp_azp_fit missing d attr expf order checked fuel g sp thr max_it entropy labels0 ls r).
Proof.
  intros Hord Hsym Hloop Hsp Hpos Hattr Hs Hz Hbad.
  destruct (C153_returns_or_rejects expf order g sp thr Hord Hsym Hloop Hsp Hpos Hattr Hs Hz) as [b Hb]. exists b.
  intros fuel max_it entropy labels0 ls r Hf Hit Hls.
  destruct (Hb fuel max_it entropy labels0 ls r Hf Hit Hls) as [H|[l [ls' [r' [E Hfill]]]]]; [exact H|exfalso].
  destruct Hbad as [[a [Ha [Hm Hnot]]]|[v [isl [Hv [Hi Hnot]]]]].
  - destruct (C153_kept_apart _ _ _ _ _ _ _ _ _ _ _ _ _ _ Hord Hsym Hloop Hsp Hpos Hit E) as [l1 [p [_ [_ [_ [_ Hal]]]]]]. apply Hnot. auto.
  - destruct (Hfill attr (filled_self missing attr)) as [t Et].
    destruct (proj2 (C36_maxp_fails_iff expf order (pairwise d) d g attr sp thr Hord Hsym Hloop Hsp Hpos Hattr (pairwise_exact_on d attr Hs Hz)) v isl Hv Hi Hnot fuel max_it entropy labels0 ls r Hit) as [m Em].
    congruence.
Qed.
(** Nothing is missing: the checks change nothing. *)
Theorem C153_complete expf order fuel g sp thr max_it entropy labels0 ls r : missing [] = false -> complete missing attr ->
  mp_shown (checked_maxp_azp_fit missing d attr expf order checked fuel g sp thr max_it entropy labels0 ls r) =
  mp_shown (maxp_azp_fit expf order (pairwise d) d fuel g attr sp thr max_it entropy labels0 ls r).
Proof.
  intros H0 Hc. destruct (complete_hyps missing d attr H0 Hc) as [H1 H2]. pose proof (complete_row missing attr H0 Hc) as Hr.
  assert (HE : forall (m : string) i, missing (row attr i) = true -> False) by (intros m i Hi; rewrite Hr in Hi; discriminate).
  destruct (mp_shown_upto _ _ _ _ (checked_azp_upto missing d (fun _ => False) attr attr (fun _ _ => eq_refl) HE g sp thr _ _ H1 H2
    (whole_hyp (fun _ => False) attr (fun _ _ => eq_refl) HE) expf order fuel max_it entropy labels0 ls r)) as [[e [_ []]]|H]; exact H.
Qed.
End FillIn.

(** ** ObjectiveFunctionCenter: no labels with a missing value anywhere *)
Section Center.
Variables (missing : list Q -> bool) (d : list Q -> list Q -> Q) (attr : list (list Q)) (center : list (list Q) -> list Q).
Theorem C153_center_no_labels reduction expf order fuel g sp thr max_it entropy labels0 ls r labels ls' r' : 0 < max_it ->
  checked_maxp_azp_fit missing d attr expf order (checked_centered missing d center reduction) fuel g sp thr max_it entropy labels0 ls r = Ok (labels, ls', r') ->
  exists l, labels = Some l /\ forall a, a < length l -> missing (nth a attr []) = false.
Proof.
  intros Hit H. destruct (returned_evaluated _ _ _ _ _ _ _ _ _ _ _ _ _ _ _ _ _ _ _ Hit H) as [l [v [-> Ev]]].
  exists l. split; [auto|]. intros a Ha. exact (checked_center_none missing d center reduction attr l v a Ev Ha).
Qed.
Theorem C153_center_rejects expf order g sp thr :
  (forall l, Permutation (order l) l) -> symmetric g -> no_self_loops g -> shaped sp thr (gn g) -> non_negative sp -> length attr = gn g ->
  (exists a, a < gn g /\ missing (nth a attr []) = true) ->
  exists bound, forall fuel max_it entropy labels0 ls r, bound <= fuel -> 0 < max_it ->
    match ls with Some s => azp_inside s | None => True end ->
    rejects (checked_maxp_azp_fit missing d attr expf order (checked_centered missing d center sumQ) fuel g sp thr max_it entropy labels0 ls r).
Proof.
  intros Hord Hsym Hloop Hsp Hpos Hattr [a [Ha Hm]]. exists (gn g + 2). intros fuel max_it entropy labels0 ls r Hf Hit Hls.
  destruct (center_hyps missing d center attr sumQ) as [H1 H2].
  assert (Hw : forall l, upto value_error eq (o_call (checked_centered missing d center sumQ) l attr) (o_call (centered d center sumQ) l attr)).
  { intros l. apply checked_center_call_upto; auto; [intros m _ _; exists m; auto|intros _ _ _ _ m; exists m; auto]. }
  destruct (mp_shown_upto _ _ _ _ (checked_azp_upto missing d value_error attr attr (fun _ _ => eq_refl) (fun m _ _ => ex_intro _ m eq_refl) g sp thr _ _ H1 H2 Hw
    expf order fuel max_it entropy labels0 ls r)) as [H|H]; [apply rejected; exact H|].
  pose proof (maxp_azp_default expf order Hord (centered d center sumQ) d g attr sp thr Hsym Hloop Hsp Hpos Hattr (centered_exact_on d center attr) False fuel max_it entropy labels0 ls r Hit ltac:(lia) Hls) as Hp.
  destruct (maxp_azp_fit expf order (centered d center sumQ) d fuel g attr sp thr max_it entropy labels0 ls r) as [[[labels t] r1]|e|]; cbn [post] in Hp; [| |destruct Hp].
  - exfalso. destruct Hp as [mp [before [r2 [parts [r3 [l [s' [_ [_ [-> [_ [_ [[Hfe _] _]]]]]]]]]]]]]. cbn [mp_shown] in H. destruct (mp_shown_Ok _ _ _ H) as [ls' E].
    destruct (C153_center_no_labels sumQ expf order fuel g sp thr max_it entropy labels0 ls r (Some l) ls' r1 Hit E) as [l1 [E1 Hn]]. injection E1 as <-.
    destruct Hfe as [Hlen _]. rewrite Hn in Hm by lia. discriminate.
  - destruct Hp as [_ [m ->]]. cbn [mp_shown] in H. exists m. apply mp_shown_Raise. exact H.
Qed.
End Center.

(** ** Examples *)
(** the map of C145 (nothing is known of area 0), one spatially extensive attribute *)
Definition spur_maxp (attr : list (list Q)) (amounts : list Q) (thr : Q) (it : nat) (r : rng) :=
  checked_maxp_azp_fit absent manhattan attr expd same_order (checked_pairwise absent manhattan) 40 spur (att amounts) [thr] it r None None r.
Lemma spur_no_self_loops : no_self_loops spur.
Proof. intros i. do 7 (destruct i as [|i]; [reflexivity|]). reflexivity. Qed.
(** the first area to be drawn is 0: it is a region of its own, and nothing is ever compared with it *)
Example C153_example :
  symmetric spur /\ no_self_loops spur /\ shaped (att [5;1;1;1;1;1]%Q) [2%Q] (gn spur) /\ non_negative (att [5;1;1;1;1;1]%Q) /\ length spur_attr = gn spur /\
  filled absent spur_attr (att [5;0;0;0;1;9]%Q) /\ ~ complete absent spur_attr /\ gn spur + 2 <= 40 /\
  (exists r', mp_shown (spur_maxp spur_attr [5;1;1;1;1;1]%Q 2%Q 3 rng0) = Ok (Some [0;1;1;1;2;2]%Z, r')) /\
  mp_labels (maxp_azp_fit expd same_order (pairwise manhattan) manhattan 40 spur (att [5;0;0;0;1;9]%Q) (att [5;1;1;1;1;1]%Q) [2%Q] 3 rng0 None None rng0) = Some [0;1;1;1;2;2]%Z /\
  kept_apart absent spur_attr [0;1;1;1;2;2]%Z.
Proof.
  split; [apply spur_symmetric|]. split; [apply spur_no_self_loops|].
  split; [split; [reflexivity|intros x Hx; repeat (destruct Hx as [<-|Hx]; [reflexivity|]); destruct Hx]|].
  split; [intros x q Hx Hq; repeat (destruct Hx as [<-|Hx]; [destruct Hq as [<-|[]]; lra|]); destruct Hx|].
  split; [reflexivity|].
  split. { split; [reflexivity|]. intros a Ha Hm. do 6 (destruct a as [|a]; [vm_compute in Hm; try discriminate; reflexivity|]). cbn in Ha. lia. }
  split; [intros H; specialize (H 0 ltac:(cbn; lia)); discriminate|]. split; [cbn; lia|].
  split; [eexists; vm_compute; reflexivity|]. split; [vm_compute; reflexivity|].
  intros a b z Ha Hb Hm. do 6 (destruct a as [|a]; [vm_compute in Hm; try discriminate; do 6 (destruct b as [|b]; [vm_compute in Ha, Hb; congruence|]); destruct b; discriminate|]).
  destruct a; discriminate.
Qed.
(** area 0 does not reach the threshold by itself: ValueError, although the map has enough for three regions *)
Example C153_example_rejects :
  (exists a, a < gn spur /\ absent (nth a spur_attr []) = true /\ ~ meets_in (att [1;1;1;1;1;5]%Q) [2%Q] [a]) /\
  mp_raises (spur_maxp spur_attr [1;1;1;1;1;5]%Q 2%Q 3 rng0) = true /\
  mp_labels (spur_maxp (att [5;0;0;0;1;9]%Q) [1;1;1;1;1;5]%Q 2%Q 3 rng0) <> None.
Proof.
  split.
  { exists 0. split; [cbn; lia|]. split; [reflexivity|]. intros H. specialize (H 0 2%Q eq_refl). vm_compute in H. apply H. reflexivity. }
  split; [vm_compute; reflexivity|]. vm_compute. discriminate.
Qed.
Example C153_example_others :
  mp_labels (checked_maxp_basic_fit absent manhattan spur_attr expd same_order (checked_pairwise absent manhattan) 40 (Some 85) 1 spur (att [5;1;1;1;2;2]%Q) [3%Q] 1 None (SAzp unstarted) rng0)
    = Some [0;1;1;1;2;2]%Z /\
  mp_labels (checked_maxp_reactive_fit absent manhattan spur_attr expd same_order (checked_pairwise absent manhattan) 1 2 3 spur (att [5;1;1;1;2;2]%Q) [3%Q] 1 None (mkReactiveWith (SAzp unstarted) 1 1 []) rng0)
    = Some [0;1;1;1;2;2]%Z /\
  (exists l, mp_labels (checked_maxp_sa_fit absent manhattan spur_attr expd same_order (checked_pairwise absent manhattan) 40 40 (1 # 2) sa_args1 spur (att [5;1;1;1;2;2]%Q) [3%Q] 1 None (mkSaMemory false []) rng0) = Some l) /\
  mp_raises (checked_maxp_sa_fit absent manhattan spur_attr expd same_order (checked_pairwise absent manhattan) 40 40 (1 # 2) sa_args1 spur (att [5;1;1;1;1;1]%Q) [2%Q] 1 None (mkSaMemory false []) (draws [1])) = true /\
  mp_raises (checked_maxp_azp_fit absent manhattan spur_attr expd same_order (checked_centered absent manhattan (fun rows => nth 0 rows []) sumQ) 40 spur (att [5;1;1;1;1;1]%Q) [2%Q] 1 rng0 None None rng0) = true.
Proof. split; [vm_compute; reflexivity|]. split; [vm_compute; reflexivity|]. split; [eexists; vm_compute; reflexivity|]. split; vm_compute; reflexivity. Qed.

Lemma spur_rejects : rejects (spur_maxp spur_attr [5;1;1;1;1;1]%Q 2%Q 1 (draws [1])).
Proof.
  destruct (spur_maxp spur_attr [5;1;1;1;1;1]%Q 2%Q 1 (draws [1])) as [v|e|] eqn:E.
  - apply (f_equal mp_raises) in E. vm_compute in E. discriminate.
  - destruct e; try (apply (f_equal mp_raises) in E; vm_compute in E; discriminate). eexists. reflexivity.
  - apply (f_equal mp_raises) in E. vm_compute in E. discriminate.
Qed.
Lemma spur_returns : exists ls' r', spur_maxp spur_attr [5;1;1;1;1;1]%Q 2%Q 1 rng0 = Ok (Some [0;1;1;1;2;2]%Z, ls', r').
Proof.
  assert (E2 : mp_labels (spur_maxp spur_attr [5;1;1;1;1;1]%Q 2%Q 1 rng0) = Some [0;1;1;1;2;2]%Z) by (vm_compute; reflexivity).
  destruct (spur_maxp spur_attr [5;1;1;1;1;1]%Q 2%Q 1 rng0) as [[[l ls'] r']|e|]; cbn in E2; try discriminate. subst l. eauto.
Qed.
(** The data do not decide which of the two happens: with the same map, values and threshold fit returns for some draws and raises for others. *)
Theorem C153_draws_decide :
  exists missing d attr expf order fuel g sp thr max_it r r' l ls' r'',
    (forall l, Permutation (order l) l) /\ symmetric g /\ no_self_loops g /\ shaped sp thr (gn g) /\ non_negative sp /\
    (forall a, a < gn g -> missing (nth a attr []) = true -> meets_in sp thr [a]) /\
    checked_maxp_azp_fit missing d attr expf order (checked_pairwise missing d) fuel g sp thr max_it r None None r = Ok (Some l, ls', r'') /\
    rejects (checked_maxp_azp_fit missing d attr expf order (checked_pairwise missing d) fuel g sp thr max_it r' None None r').
Proof.
  destruct spur_returns as [ls' [r'' E]]. pose proof spur_rejects as H. unfold spur_maxp in E, H.
  exists absent, manhattan, spur_attr, expd, same_order, 40, spur, (att [5;1;1;1;1;1]%Q), [2%Q], 1, rng0, (draws [1]), [0;1;1;1;2;2]%Z, ls', r''.
  split; [intros l0; apply Permutation_refl|]. split; [apply spur_symmetric|]. split; [apply spur_no_self_loops|].
  split; [split; [reflexivity|intros x Hx; repeat (destruct Hx as [<-|Hx]; [reflexivity|]); destruct Hx]|].
  split; [intros x q Hx Hq; repeat (destruct Hx as [<-|Hx]; [destruct Hq as [<-|[]]; lra|]); destruct Hx|].
  split; [|split; [exact E|exact H]]. clear E H.
  intros a Ha Hm [|[|k]] t Ht; cbn in Ht; try discriminate. injection Ht as <-. cbn in Ha.
  do 6 (destruct a as [|a]; [vm_compute in Hm; try discriminate; vm_compute; discriminate|]). lia.
Qed.

Print Assumptions C153_fill_in.
Print Assumptions C153_basic_fill_in.
Print Assumptions C153_reactive_fill_in.
Print Assumptions C153_sa_fill_in.
Print Assumptions C153_kept_apart.
Print Assumptions C153_basic_kept_apart.
Print Assumptions C153_reactive_kept_apart.
Print Assumptions C153_sa_kept_apart.
Print Assumptions C153_returns_or_rejects.
Print Assumptions C153_must_stand_alone.
Print Assumptions C153_complete.
Print Assumptions C153_center_no_labels.
Print Assumptions C153_center_rejects.
Print Assumptions C153_draws_decide.
