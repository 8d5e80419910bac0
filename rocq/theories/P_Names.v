(** Zoning does not depend on the numbers of the areas or the names of the regions. *)
From Verif Require Import Base Spec M_Graph P_Graph M_Util P_Base P_Util P_Forest P_Init P_Initial
  M_Objective P_Sum P_Objective M_Azp P_Azp P_Strategy P_Fit P_AzpFit P_Zoning.

(** ** an injective map of 0 .. n-1 into itself has an inverse *)
Definition inv_of (n : nat) (f : nat -> nat) (a : nat) : nat :=
  match find (fun i => Nat.eqb (f i) a) (seq 0 n) with Some i => i | None => 0 end.

Lemma inv_of_spec n f : (forall i, i < n -> f i < n) -> (forall i j, i < n -> j < n -> f i = f j -> i = j) ->
  (forall i, i < n -> inv_of n f (f i) = i) /\ (forall a, a < n -> inv_of n f a < n /\ f (inv_of n f a) = a).
Proof.
  intros Hlt Hinj.
  assert (Hsome : forall a, In a (map f (seq 0 n)) -> inv_of n f a < n /\ f (inv_of n f a) = a).
  { intros a Ha. apply in_map_iff in Ha. destruct Ha as [i [Ei Hi]]. unfold inv_of.
    destruct (find _ _) as [j|] eqn:E.
    - apply find_some in E. destruct E as [Hj E]. apply in_seq in Hj. apply Nat.eqb_eq in E. split; [lia|auto].
    - pose proof (find_none _ _ E i Hi) as H. cbn in H. rewrite Ei, Nat.eqb_refl in H. discriminate. }
  assert (Hperm : Permutation (map f (seq 0 n)) (seq 0 n)).
  { apply NoDup_Permutation_bis.
    - assert (H : forall l, NoDup l -> (forall i, In i l -> i < n) -> NoDup (map f l)).
      { induction l as [|i l IH]; intros Hnd Hin; cbn [map]; constructor.
        - intros H. apply in_map_iff in H. destruct H as [j [E Hj]]. inversion Hnd; subst.
          apply Hinj in E; [subst; auto|apply Hin; right; auto|apply Hin; left; auto].
        - inversion Hnd; subst. apply IH; auto. intros j Hj. apply Hin. right; auto. }
      apply H; [apply seq_NoDup|]. intros i Hi. apply in_seq in Hi. lia.
    - rewrite map_length. auto.
    - intros a Ha. apply in_map_iff in Ha. destruct Ha as [i [<- Hi]]. apply in_seq in Hi. apply in_seq. specialize (Hlt i). lia. }
  split.
  - intros i Hi. destruct (Hsome (f i)) as [H1 H2]; [apply in_map, in_seq; lia|]. apply Hinj; auto.
  - intros a Ha. apply Hsome. rewrite Hperm. apply in_seq. lia.
Qed.

(** a left inverse on a list of names *)
Definition name_inv (U : list Z) (s : Z -> Z) (z : Z) : Z :=
  match find (fun y => Z.eqb (s y) z) U with Some y => y | None => 0%Z end.

Lemma name_inv_spec U s y : (forall a b, In a U -> In b U -> s a = s b -> a = b) -> In y U -> name_inv U s (s y) = y.
Proof.
  intros Hinj Hy. unfold name_inv. destruct (find _ _) as [z|] eqn:E.
  - apply find_some in E. destruct E as [Hz E]. apply Z.eqb_eq in E. apply Hinj; auto.
  - pose proof (find_none _ _ E y Hy) as H. cbn in H. rewrite Z.eqb_refl in H. discriminate.
Qed.

(** ** two descriptions of the same input *)
Record twins (f h : nat -> nat) (s t : Z -> Z) (U U' : list Z) (g g' : graph) (attr attr' : list (list Q)) : Prop := {
  tw_n : gn g' = gn g;
  tw_f : forall i, i < gn g -> f i < gn g /\ h (f i) = i;
  tw_h : forall i, i < gn g -> h i < gn g /\ f (h i) = i;
  tw_adj : forall i j, i < gn g -> j < gn g -> gadj g' i j = gadj g (f i) (f j);
  tw_row : forall i, i < gn g -> nth i attr' [] = nth (f i) attr [];
  tw_s : forall z, In z U -> In (s z) U' /\ t (s z) = z;
  tw_t : forall z, In z U' -> In (t z) U /\ s (t z) = z
}.

Lemma twins_sym f h s t U U' g g' attr attr' : twins f h s t U U' g g' attr attr' -> twins h f t s U' U g' g attr' attr.
Proof.
  intros [Hn Hf Hh Ha Hr Hs Ht]. constructor; auto; try rewrite Hn; auto.
  - intros i j Hi Hj. destruct (Hh i Hi) as [Hi1 Hi2], (Hh j Hj) as [Hj1 Hj2]. rewrite Ha, Hi2, Hj2 by auto. reflexivity.
  - intros i Hi. destruct (Hh i Hi) as [Hi1 Hi2]. rewrite Hr, Hi2 by auto. reflexivity.
Qed.

Definition lrel (f : nat -> nat) (s : Z -> Z) (U : list Z) (g : graph) (l l' : list Z) : Prop :=
  length l = gn g /\ length l' = gn g /\ (forall z, In z l -> In z U) /\ forall i, i < gn g -> lab l' i = s (lab l (f i)).

Section Twins.
Variables (f h : nat -> nat) (s t : Z -> Z) (U U' : list Z) (g g' : graph) (attr attr' : list (list Q)).
Hypothesis Htw : twins f h s t U U' g g' attr attr'.

Lemma lab_in (l : list Z) a : a < length l -> In (lab l a) l.
Proof. intros H. eapply nth_error_In. apply lab_nth_error; auto. Qed.

Lemma lrel_sym l l' : lrel f s U g l l' -> lrel h t U' g' l' l.
Proof.
  destruct Htw as [Hn Hf Hh Ha Hr Hs Ht]. intros [Hl [Hl' [Hin Hlab]]]. unfold lrel. rewrite Hn. split; [auto|]. split; [auto|]. split.
  - intros z Hz. apply In_nth_error in Hz. destruct Hz as [i Hi]. pose proof (nth_error_lt _ _ _ Hi) as Hlt.
    apply lab_of_nth_error in Hi. subst z. rewrite Hlab by lia. apply Hs, Hin, lab_in. rewrite Hl. apply Hf. lia.
  - intros i Hi. destruct (Hh i Hi) as [Hi1 Hi2]. rewrite Hlab by auto. rewrite Hi2. symmetry. apply Hs, Hin, lab_in. lia.
Qed.

Lemma lrel_upd l l' a K : lrel f s U g l l' -> a < gn g -> In K U -> lrel f s U g (upd l a K) (upd l' (h a) (s K)).
Proof.
  destruct Htw as [Hn Hf Hh Ha Hr Hs Ht]. intros [Hl [Hl' [Hin Hlab]]] Hlt HK. destruct (Hh a Hlt) as [Hh1 Hh2].
  split; [rewrite upd_length; auto|]. split; [rewrite upd_length; auto|]. split.
  - intros z Hz. apply In_upd in Hz. destruct Hz as [->|Hz]; auto.
  - intros i Hi. destruct (Nat.eq_dec i (h a)) as [->|Hne].
    + rewrite Hh2, !lab_upd_eq by lia. reflexivity.
    + rewrite !lab_upd_ne; auto. intros E. apply Hne. rewrite <- E. symmetry. apply Hf; auto.
Qed.

Lemma twin_touch i j : i < gn g -> j < gn g -> (touch g' i j <-> touch g (f i) (f j)).
Proof. intros Hi Hj. unfold touch. rewrite !(tw_adj _ _ _ _ _ _ _ _ _ _ Htw) by auto. tauto. Qed.

Lemma twin_linked (P P' : nat -> Prop) i j : (forall x, P' x -> x < gn g /\ P (f x)) -> linked g' P' i j -> linked g P (f i) (f j).
Proof.
  intros HP. induction 1 as [i Hi|i k j Hi Ht Hl IH]; [apply linked_refl, HP; auto|].
  apply (linked_step g P (f i) (f k)); [apply HP; auto| |auto].
  apply twin_touch; auto; apply HP; [auto|]. inversion Hl; auto.
Qed.

Lemma twin_region l l' K' i : lrel f s U g l l' -> region l' K' i -> region l (t K') (f i) /\ i < gn g.
Proof.
  intros [Hl [Hl' [Hin Hlab]]] Hi. pose proof (nth_error_lt _ _ _ Hi) as Hlt. assert (Hg : i < gn g) by lia. split; [|auto].
  apply lab_of_nth_error in Hi. subst K'. unfold region. destruct (tw_f _ _ _ _ _ _ _ _ _ _ Htw i Hg) as [Hf _].
  rewrite lab_nth_error by lia. f_equal. rewrite Hlab by auto. symmetry. apply (tw_s _ _ _ _ _ _ _ _ _ _ Htw), Hin, lab_in. lia.
Qed.

Lemma twin_region' l l' K i : lrel f s U g l l' -> i < gn g -> region l K (f i) -> region l' (s K) i.
Proof.
  intros [Hl [Hl' [Hin Hlab]]] Hg Hi. apply lab_of_nth_error in Hi. unfold region. rewrite lab_nth_error by lia. f_equal.
  rewrite Hlab, Hi by auto. reflexivity.
Qed.

Lemma twin_legal l l' i K' : lrel f s U g l l' -> In K' U' -> legal_move g' l' i K' -> legal_move g l (f i) (t K').
Proof.
  intros Hrel HK' [Hi [D' [HD [Hne [Hc [j [Hj [Hrj Ht]]]]]]]].
  pose proof Hrel as [Hl [Hl' [Hin Hlab]]]. pose proof (tw_n _ _ _ _ _ _ _ _ _ _ Htw) as Hn. rewrite Hn in Hi, Hj.
  assert (HD' : In D' U').
  { pose proof (lrel_sym l l' Hrel) as [_ [_ [Hin' _]]]. apply Hin'. eapply nth_error_In; eauto. }
  destruct (tw_f _ _ _ _ _ _ _ _ _ _ Htw i Hi) as [Hfi Hhi].
  split; [auto|]. exists (t D'). split; [apply (twin_region l l' D' i); auto|]. split.
  - intros E. apply Hne. apply (f_equal s) in E. destruct (tw_t _ _ _ _ _ _ _ _ _ _ Htw D' HD') as [_ E1].
    destruct (tw_t _ _ _ _ _ _ _ _ _ _ Htw K' HK') as [_ E2]. congruence.
  - split.
    + destruct Hc as [[u [Hu Hui]] Hc]. split.
      * exists (f u). destruct (twin_region l l' D' u Hrel Hu) as [Hu1 Hu2]. split; [auto|]. intros E. apply Hui.
        destruct (tw_f _ _ _ _ _ _ _ _ _ _ Htw u Hu2) as [_ E1]. congruence.
      * assert (Hback : forall x, region l (t D') x /\ x <> f i -> exists y, x = f y /\ y < gn g /\ region l' D' y /\ y <> i).
        { intros x [Hx Hxi]. assert (Hxg : x < gn g) by (apply nth_error_lt in Hx; lia).
          destruct (tw_h _ _ _ _ _ _ _ _ _ _ Htw x Hxg) as [Hhx E]. exists (h x). split; [auto|]. split; [auto|]. split.
          - destruct (tw_t _ _ _ _ _ _ _ _ _ _ Htw D' HD') as [_ E1]. rewrite <- E1. apply (twin_region' l); auto. rewrite E. auto.
          - intros <-. congruence. }
        intros x y Hx Hy. destruct (Hback x Hx) as [x' [-> [Hx1 Hx2]]]. destruct (Hback y Hy) as [y' [-> [Hy1 Hy2]]].
        apply (twin_linked _ (fun k => region l' D' k /\ k <> i)); [|apply Hc; auto].
        intros k [Hk Hki]. destruct (twin_region l l' D' k Hrel Hk) as [Hk1 Hk2]. split; [auto|]. split; [auto|]. intros E. apply Hki.
        destruct (tw_f _ _ _ _ _ _ _ _ _ _ Htw k Hk2) as [_ E1]. congruence.
    + exists (f j). destruct (tw_f _ _ _ _ _ _ _ _ _ _ Htw j Hj) as [Hfj _]. split; [auto|]. split; [apply (twin_region l l' K' j); auto|].
      apply twin_touch; auto.
Qed.

(** *** islands *)
Lemma twin_island v isl' isl : v < gn g -> island g' v isl' -> island g (f v) isl -> Permutation (map f isl') isl.
Proof.
  intros Hv [Hs' Hin'] [Hs Hin]. pose proof (tw_n _ _ _ _ _ _ _ _ _ _ Htw) as Hn.
  assert (Hnd : forall l, StronglySorted lt l -> NoDup l).
  { induction 1 as [|x l _ IH Hx]; constructor; auto. intros H. rewrite Forall_forall in Hx. specialize (Hx x H). lia. }
  assert (Hg' : forall i, In i isl' -> i < gn g).
  { intros i Hi. apply Hin' in Hi. apply linked_in_r in Hi. unfold areas in Hi. lia. }
  apply NoDup_Permutation; auto.
  - assert (H : forall l, NoDup l -> (forall i, In i l -> i < gn g) -> NoDup (map f l)).
    { induction l as [|i l IH]; intros Hn' Hi; cbn [map]; constructor; inversion Hn'; subst.
      - intros H. apply in_map_iff in H. destruct H as [j [E Hj]].
        destruct (tw_f _ _ _ _ _ _ _ _ _ _ Htw i (Hi i (or_introl eq_refl))) as [_ E1].
        destruct (tw_f _ _ _ _ _ _ _ _ _ _ Htw j (Hi j (or_intror Hj))) as [_ E2]. rewrite E, E1 in E2. subst. auto.
      - apply IH; auto. intros j Hj. apply Hi. right; auto. }
    apply H; auto.
  - intros a. rewrite in_map_iff, Hin. split.
    + intros [i [<- Hi]]. apply Hin' in Hi. apply (twin_linked _ (areas g')); [|auto]. unfold areas. rewrite Hn. intros x Hx. split; [auto|].
      apply (tw_f _ _ _ _ _ _ _ _ _ _ Htw x Hx).
    + intros Ha. assert (Hag : a < gn g) by (apply linked_in_r in Ha; exact Ha).
      destruct (tw_h _ _ _ _ _ _ _ _ _ _ Htw a Hag) as [Hha E]. exists (h a). split; [auto|]. apply Hin'.
      assert (Hl : forall x y, linked g (areas g) x y -> x < gn g -> linked g' (areas g') (h x) (h y)).
      { clear - Htw Hn. intros x y Hl. induction Hl as [x Hx|x k y Hx Ht Hl IH]; intros Hxg.
        - apply linked_refl. unfold areas. rewrite Hn. apply (tw_h _ _ _ _ _ _ _ _ _ _ Htw x Hxg).
        - assert (Hk : k < gn g) by (inversion Hl; auto).
          destruct (tw_h _ _ _ _ _ _ _ _ _ _ Htw x Hxg) as [H1 E1]. destruct (tw_h _ _ _ _ _ _ _ _ _ _ Htw k Hk) as [H2 E2].
          apply (linked_step _ _ _ (h k)); [unfold areas; lia| |auto]. apply twin_touch; auto. rewrite E1, E2. auto. }
      destruct (tw_f _ _ _ _ _ _ _ _ _ _ Htw v Hv) as [Hfv E1]. rewrite <- E1. apply Hl; auto.
Qed.
End Twins.

(** *** zoning *)
Section ZoneTwins.
Variable O : objfun.
Hypothesis Hname : nameless O.

Lemma objective_Ok attr idx l : exact_on O attr -> (forall i, In i idx -> i < length attr) ->
  exists x, objective_at O attr idx l = Ok x.
Proof.
  intros Hex Hidx. destruct (Hex (rows_at attr idx)) as [Hcall _].
  - intros x Hx. unfold rows_at in Hx. apply in_map_iff in Hx. destruct Hx as [a [<- Ha]]. apply nth_In. auto.
  - unfold objective_at. apply Hcall. unfold labels_at, rows_at. rewrite !map_length. reflexivity.
Qed.

Section One.
Variables (f h : nat -> nat) (s t : Z -> Z) (U U' : list Z) (g g' : graph) (attr attr' : list (list Q)) (isl isl' : list nat).
Hypothesis Htw : twins f h s t U U' g g' attr attr'.
Hypothesis Hisl : Permutation (map f isl') isl.
Hypothesis Hisl' : forall i, In i isl' -> i < gn g.

Lemma twin_objective l l' x y : lrel f s U g l l' -> objective_at O attr isl l = Ok x -> objective_at O attr' isl' l' = Ok y -> (x == y)%Q.
Proof.
  intros [Hl [Hl' [Hin Hlab]]]. apply (Hname f s); auto.
  - intros i Hi. split; [apply Hlab; auto|]. apply (tw_row _ _ _ _ _ _ _ _ _ _ Htw); auto.
  - assert (Hg : forall i, In i isl -> i < gn g).
    { intros i Hi. rewrite <- Hisl in Hi. apply in_map_iff in Hi. destruct Hi as [j [<- Hj]].
      apply (tw_f _ _ _ _ _ _ _ _ _ _ Htw); auto. }
    intros i j Hi Hj E. apply (f_equal t) in E.
    assert (HU : forall k, In k isl -> In (lab l k) U) by (intros k Hk; apply Hin, lab_in; rewrite Hl; auto).
    destruct (tw_s _ _ _ _ _ _ _ _ _ _ Htw _ (HU i Hi)) as [_ E1]. destruct (tw_s _ _ _ _ _ _ _ _ _ _ Htw _ (HU j Hj)) as [_ E2]. congruence.
Qed.
End One.

Section Both.
Variables (f h : nat -> nat) (s t : Z -> Z) (U U' : list Z) (g g' : graph) (attr attr' : list (list Q)) (isl isl' : list nat).
Hypothesis Htw : twins f h s t U U' g g' attr attr'.
Hypothesis Hisl : Permutation (map f isl') isl.
Hypothesis Hisl' : forall i, In i isl' -> i < gn g.
Hypothesis Hattr : length attr = gn g.
Hypothesis Hattr' : length attr' = gn g.
Hypothesis Hex : exact_on O attr.
Hypothesis Hex' : exact_on O attr'.

Lemma isl_lt i : In i isl -> i < gn g.
Proof.
  intros Hi. rewrite <- Hisl in Hi. apply in_map_iff in Hi. destruct Hi as [j [<- Hj]].
  apply (tw_f _ _ _ _ _ _ _ _ _ _ Htw); auto.
Qed.

Lemma twin_values l l' : lrel f s U g l l' ->
  exists x y, objective_at O attr isl l = Ok x /\ objective_at O attr' isl' l' = Ok y /\ (x == y)%Q.
Proof.
  intros Hrel. destruct (objective_Ok attr isl l Hex) as [x Ex]; [intros i Hi; rewrite Hattr; apply isl_lt; auto|].
  destruct (objective_Ok attr' isl' l' Hex') as [y Ey]; [intros i Hi; rewrite Hattr'; auto|].
  exists x, y. split; [auto|]. split; [auto|]. eapply (twin_objective f h s t U U' g g' attr attr' isl isl'); eauto.
Qed.

Lemma twin_may_go' l l' i K' : lrel f s U g l l' -> In K' U' -> may_go O attr' g' isl' l' i K' -> may_go O attr g isl l (f i) (t K').
Proof.
  intros Hrel HK [Hi [Hl [x' [y' [Ex' [Ey' Hle]]]]]]. split; [rewrite <- Hisl; apply in_map; auto|].
  split; [eapply twin_legal; eauto|]. assert (Hig : i < gn g) by auto.
  assert (Hrel2 : lrel f s U g (upd l (f i) (t K')) (upd l' i K')).
  { destruct (tw_f _ _ _ _ _ _ _ _ _ _ Htw i Hig) as [H1 H2]. destruct (tw_t _ _ _ _ _ _ _ _ _ _ Htw K' HK) as [H3 H4].
    rewrite <- H2 at 2. rewrite <- H4 at 2. eapply lrel_upd; eauto. }
  destruct (twin_values l l' Hrel) as [x [x1 [Ex [E1 Hx]]]]. destruct (twin_values _ _ Hrel2) as [y [y1 [Ey [E2 Hy]]]].
  rewrite Ex' in E1. rewrite Ey' in E2. injection E1 as <-. injection E2 as <-. exists x, y. split; [auto|]. split; [auto|]. lra.
Qed.

Lemma twin_lower l l' l2 l2' : lrel f s U g l l' -> lrel f s U g l2 l2' ->
  (lower_at O attr isl l l2 <-> lower_at O attr' isl' l' l2').
Proof.
  intros H1 H2. destruct (twin_values l l' H1) as [x [x' [Ex [Ex' Hx]]]]. destruct (twin_values l2 l2' H2) as [y [y' [Ey [Ey' Hy]]]].
  unfold lower_at. split; intros [p [q [Ep [Eq Hlt]]]].
  - rewrite Ex in Ep. rewrite Ey in Eq. injection Ep as <-. injection Eq as <-. exists x', y'. split; [auto|]. split; [auto|]. lra.
  - rewrite Ex' in Ep. rewrite Ey' in Eq. injection Ep as <-. injection Eq as <-. exists x, y. split; [auto|]. split; [auto|]. lra.
Qed.
End Both.

Section Zone.
Variables (f h : nat -> nat) (s t : Z -> Z) (U U' : list Z) (g g' : graph) (attr attr' : list (list Q)) (isl isl' : list nat).
Hypothesis Htw : twins f h s t U U' g g' attr attr'.
Hypothesis Hisl : Permutation (map f isl') isl.
Hypothesis Hisl' : forall i, In i isl' -> i < gn g.
Hypothesis Hattr : length attr = gn g.
Hypothesis Hattr' : length attr' = gn g.
Hypothesis Hex : exact_on O attr.
Hypothesis Hex' : exact_on O attr'.

Lemma isl_back : Permutation (map h isl) isl'.
Proof.
  rewrite <- Hisl, map_map. assert (E : map (fun x => h (f x)) isl' = isl'); [|rewrite E; auto].
  rewrite <- (map_id isl') at 2. apply map_ext_in. intros i Hi. apply (tw_f _ _ _ _ _ _ _ _ _ _ Htw); auto.
Qed.

Lemma twin_may_go l l' a K : lrel f s U g l l' -> In K U -> may_go O attr g isl l a K -> may_go O attr' g' isl' l' (h a) (s K).
Proof.
  intros Hrel HK. pose proof (tw_n _ _ _ _ _ _ _ _ _ _ Htw) as Hn.
  apply (twin_may_go' h f t s U' U g' g attr' attr isl' isl); auto; try congruence.
  - apply twins_sym; auto.
  - apply isl_back.
  - intros i Hi. rewrite Hn. eapply isl_lt; eauto.
  - eapply lrel_sym; eauto.
Qed.

Lemma twin_turn K l l2 l' : In K U -> zone_turn (may_go O attr g isl) K l l2 -> lrel f s U g l l' ->
  exists l2', zone_turn (may_go O attr' g' isl') (s K) l' l2' /\ lrel f s U g l2 l2'.
Proof.
  intros HK H. revert l'. induction H as [l Hno|l a l2 Hok _ IH]; intros l' Hrel.
  - exists l'. split; [|auto]. apply turn_over. intros i Hi.
    apply (twin_may_go' f h s t U U' g g' attr attr' isl isl' Htw Hisl Hisl' Hattr Hattr' Hex Hex' l) in Hi; auto;
      [|apply (tw_s _ _ _ _ _ _ _ _ _ _ Htw); auto].
    destruct (tw_s _ _ _ _ _ _ _ _ _ _ Htw K HK) as [_ E]. rewrite E in Hi. eapply Hno; eauto.
  - assert (Ha : a < gn g) by (eapply isl_lt; eauto; apply Hok).
    destruct (IH (upd l' (h a) (s K))) as [l2' [H1 H2]]; [eapply lrel_upd; eauto|].
    exists l2'. split; [|auto]. apply (turn_move _ _ _ (h a)); auto. apply (twin_may_go l); auto.
Qed.

Lemma twin_round Ks l l2 : zone_round (may_go O attr g isl) Ks l l2 -> (forall K, In K Ks -> In K U) -> forall l', lrel f s U g l l' ->
  exists l2', zone_round (may_go O attr' g' isl') (map s Ks) l' l2' /\ lrel f s U g l2 l2'.
Proof.
  induction 1 as [l|K Ks l l1 l2 Ht _ IH]; intros HK l' Hrel; cbn [map].
  - exists l'. split; [constructor|auto].
  - destruct (twin_turn K l l1 l' (HK K (or_introl eq_refl)) Ht Hrel) as [l1' [H1 H2]].
    destruct (IH (fun y Hy => HK y (or_intror Hy)) l1' H2) as [l2' [H3 H4]]. exists l2'. split; [econstructor; eauto|auto].
Qed.

Lemma twin_rounds regions l l2 : zone_rounds (may_go O attr g isl) (lower_at O attr isl) regions l l2 ->
  (forall K, In K regions -> In K U) -> forall l', lrel f s U g l l' ->
  exists l2', zone_rounds (may_go O attr' g' isl') (lower_at O attr' isl') (map s regions) l' l2' /\ lrel f s U g l2 l2'.
Proof.
  induction 1 as [Ks l l1 HP Hr Hlow|Ks l l1 l2 HP Hr Hlow _ IH]; intros HK l' Hrel;
    (destruct (twin_round Ks l l1 Hr ltac:(intros K HK'; apply HK; rewrite <- HP; auto) l' Hrel) as [l1' [H1 H2]]);
    pose proof (twin_lower f h s t U U' g g' attr attr' isl isl' Htw Hisl Hisl' Hattr Hattr' Hex Hex' l l' l1 l1' Hrel H2) as Hlow'.
  - exists l1'. split; [|auto]. apply (rounds_last _ _ _ (map s Ks)); [apply Permutation_map; auto|auto|tauto].
  - destruct (IH HK l1' H2) as [l2' [H3 H4]]. exists l2'. split; [|auto].
    apply (rounds_more _ _ _ (map s Ks) l' l1'); [apply Permutation_map; auto|auto|tauto|auto].
Qed.

Lemma twin_zoning l l2 l' : lrel f s U g l l' -> zoning O attr g isl l l2 ->
  exists l2', zoning O attr' g' isl' l' l2' /\ lrel f s U g l2 l2'.
Proof.
  intros Hrel [regions [Hnd [Hreg Hz]]]. pose proof Hrel as [Hl [Hl' [Hin Hlab]]].
  assert (HU : forall K, In K regions -> In K U).
  { intros K HK. apply Hreg in HK. destruct HK as [a [_ Ha]]. apply Hin. eapply nth_error_In; eauto. }
  destruct (twin_rounds regions l l2 Hz HU l' Hrel) as [l2' [H1 H2]]. exists l2'. split; [|auto]. exists (map s regions). split; [|split; [|auto]].
  - clear - Hnd HU Htw. induction Hnd as [|K regions HK _ IH]; cbn [map]; constructor.
    + intros H. apply in_map_iff in H. destruct H as [K2 [E H2]]. apply (f_equal t) in E.
      destruct (tw_s _ _ _ _ _ _ _ _ _ _ Htw K (HU K (or_introl eq_refl))) as [_ E1].
      destruct (tw_s _ _ _ _ _ _ _ _ _ _ Htw K2 (HU K2 (or_intror H2))) as [_ E2]. rewrite E, E1 in E2. subst. auto.
    + apply IH. intros y Hy. apply HU. right; auto.
  - intros K'. rewrite in_map_iff. split.
    + intros [K [<- HK]]. apply Hreg in HK. destruct HK as [a [Ha Hr]].
      assert (Hag : a < gn g) by (eapply isl_lt; eauto). destruct (tw_h _ _ _ _ _ _ _ _ _ _ Htw a Hag) as [H3 H4].
      exists (h a). split; [rewrite <- isl_back; apply in_map; auto|]. eapply twin_region'; eauto. rewrite H4. auto.
    + intros [i [Hi Hr]]. destruct (twin_region _ _ _ _ _ _ _ _ _ _ Htw l l' K' i Hrel Hr) as [H3 H4].
      exists (t K'). split.
      * pose proof (lrel_sym _ _ _ _ _ _ _ _ _ _ Htw l l' Hrel) as [_ [_ [Hin' _]]].
        apply (tw_t _ _ _ _ _ _ _ _ _ _ Htw). apply Hin'. eapply nth_error_In; eauto.
      * apply Hreg. exists (f i). split; [|auto]. rewrite <- Hisl. apply in_map; auto.
Qed.
End Zone.
End ZoneTwins.
