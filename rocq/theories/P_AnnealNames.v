(** Annealing does not depend on the numbers of the areas or the names of the regions. *)
From Verif Require Import Base Spec M_Graph P_Graph M_Util P_Base P_Util P_Forest P_Init P_Initial P_Skater
  M_Objective P_Sum P_Objective M_Azp P_Azp P_Strategy P_Fit P_AzpFit P_Zoning P_Names P_Anneal P_Annealing Props_Zoning.

(** moves decided by the objective before and after *)
Definition go_by (O : objfun) (attr : list (list Q)) (g : graph) (isl : list nat) (D : Q -> Q -> Prop) (l : list Z) (a : nat) (K : Z) : Prop :=
  In a isl /\ legal_move g l a K /\
  exists x y, objective_at O attr isl l = Ok x /\ objective_at O attr isl (upd l a K) = Ok y /\ D x y.

Section AnnealTwins.
Variable O : objfun.
Hypothesis Hname : nameless O.
Variable prob : Q -> Q.
Hypothesis Hprob : forall d d', (d == d')%Q -> (prob d == prob d')%Q.

Definition keeps (D : Q -> Q -> Prop) : Prop := forall x y x' y', (x == x')%Q -> (y == y')%Q -> D x y -> D x' y'.

Section Both.
Variables (f h : nat -> nat) (s t : Z -> Z) (U U' : list Z) (g g' : graph) (attr attr' : list (list Q)) (isl isl' : list nat).
Hypothesis Htw : twins f h s t U U' g g' attr attr'.
Hypothesis Hisl : Permutation (map f isl') isl.
Hypothesis Hisl' : forall i, In i isl' -> i < gn g.
Hypothesis Hattr : length attr = gn g.
Hypothesis Hattr' : length attr' = gn g.
Hypothesis Hex : exact_on O attr.
Hypothesis Hex' : exact_on O attr'.

Lemma twin_go_by' D l l' i K' : keeps D -> lrel f s U g l l' -> In K' U' -> go_by O attr' g' isl' D l' i K' -> go_by O attr g isl D l (f i) (t K').
Proof.
  intros HD Hrel HK [Hi [Hl [x' [y' [Ex' [Ey' Hle]]]]]]. split; [rewrite <- Hisl; apply in_map; auto|].
  split; [eapply twin_legal; eauto|]. assert (Hig : i < gn g) by auto.
  assert (Hrel2 : lrel f s U g (upd l (f i) (t K')) (upd l' i K')).
  { destruct (tw_f _ _ _ _ _ _ _ _ _ _ Htw i Hig) as [H1 H2]. destruct (tw_t _ _ _ _ _ _ _ _ _ _ Htw K' HK) as [H3 H4].
    rewrite <- H2 at 2. rewrite <- H4 at 2. eapply lrel_upd; eauto. }
  destruct (twin_values O Hname f h s t U U' g g' attr attr' isl isl' Htw Hisl Hisl' Hattr Hattr' Hex Hex' l l' Hrel) as [x [x1 [Ex [E1 Hx]]]].
  destruct (twin_values O Hname f h s t U U' g g' attr attr' isl isl' Htw Hisl Hisl' Hattr Hattr' Hex Hex' _ _ Hrel2) as [y [y1 [Ey [E2 Hy]]]].
  rewrite Ex' in E1. rewrite Ey' in E2. injection E1 as <-. injection E2 as <-. exists x, y. split; [auto|]. split; [auto|].
  apply (HD x' y'); auto; symmetry; auto.
Qed.
End Both.

Section Zone.
Variables (f h : nat -> nat) (s t : Z -> Z) (U U' : list Z) (g g' : graph) (attr attr' : list (list Q)) (isl isl' : list nat).
Hypothesis Htw : twins f h s t U U' g g' attr attr'.
Hypothesis Hisl : Permutation (map f isl') isl.
Hypothesis Hisl' : forall i, In i isl' -> i < gn g.
Hypothesis Hattr : length attr = gn g.
Hypothesis Hattr' : length attr' = gn g.
Hypothesis Hex : exact_on O attr.
Hypothesis Hex' : exact_on O attr'.

Lemma twin_go_by D l l' a K : keeps D -> lrel f s U g l l' -> In K U -> go_by O attr g isl D l a K -> go_by O attr' g' isl' D l' (h a) (s K).
Proof.
  intros HD Hrel HK. pose proof (tw_n _ _ _ _ _ _ _ _ _ _ Htw) as Hn.
  apply (twin_go_by' h f t s U' U g' g attr' attr isl' isl); auto; try congruence.
  - apply twins_sym; auto.
  - eapply isl_back; eauto.
  - intros i Hi. rewrite Hn. eapply isl_lt; eauto.
  - eapply lrel_sym; eauto.
Qed.

Lemma keeps_can (up : bool) : keeps (fun x y => if up then (x < y /\ 0 < prob (y - x))%Q else (y <= x)%Q).
Proof.
  intros x y x' y' Hx Hy. destruct up.
  - intros [H1 H2]. split; [lra|]. rewrite <- (Hprob (y - x) (y' - x')) by (rewrite Hx, Hy; reflexivity). exact H2.
  - intros H. lra.
Qed.
Lemma keeps_must : keeps (fun x y => y <= x \/ (x < y /\ largest_draw < prob (y - x)))%Q.
Proof.
  intros x y x' y' Hx Hy [H|[H1 H2]]; [left; lra|right]. split; [lra|].
  rewrite <- (Hprob (y - x) (y' - x')) by (rewrite Hx, Hy; reflexivity). exact H2.
Qed.

Notation can := (can_go O attr g prob isl).
Notation must := (must_go O attr g prob isl).
Notation can' := (can_go O attr' g' prob isl').
Notation must' := (must_go O attr' g' prob isl').

Lemma twin_trial_turn K l u m l2 : In K U -> trial_turn can must K l u m l2 -> forall l', lrel f s U g l l' ->
  exists l2', trial_turn can' must' (s K) l' u m l2' /\ lrel f s U g l2 l2'.
Proof.
  intros HK H. induction H as [l Hno|up l a u m l2 Hok _ IH]; intros l' Hrel.
  - exists l'. split; [|auto]. apply trial_over. intros i Hi.
    apply (twin_go_by' f h s t U U' g g' attr attr' isl isl' Htw Hisl Hisl' Hattr Hattr' Hex Hex' _ l l' i (s K) keeps_must) in Hi; auto;
      [|apply (tw_s _ _ _ _ _ _ _ _ _ _ Htw); auto].
    destruct (tw_s _ _ _ _ _ _ _ _ _ _ Htw K HK) as [_ E]. rewrite E in Hi. apply (Hno (f i)). exact Hi.
  - assert (Ha : a < gn g) by (eapply isl_lt; eauto; apply Hok).
    destruct (IH (upd l' (h a) (s K))) as [l2' [H1 H2]]; [eapply lrel_upd; eauto|].
    exists l2'. split; [|auto]. apply (trial_move _ _ _ up l' (h a)); auto.
    exact (twin_go_by _ l l' a K (keeps_can up) Hrel HK Hok).
Qed.

Lemma twin_trial_round Ks l u m l2 : trial_round can must Ks l u m l2 -> (forall K, In K Ks -> In K U) -> forall l', lrel f s U g l l' ->
  exists l2', trial_round can' must' (map s Ks) l' u m l2' /\ lrel f s U g l2 l2'.
Proof.
  induction 1 as [l|K Ks l u1 m1 l1 u2 m2 l2 Ht _ IH]; intros HK l' Hrel; cbn [map].
  - exists l'. split; [constructor|auto].
  - destruct (twin_trial_turn K l u1 m1 l1 (HK K (or_introl eq_refl)) Ht l' Hrel) as [l1' [H1 H2]].
    destruct (IH (fun y Hy => HK y (or_intror Hy)) l1' H2) as [l2' [H3 H4]]. exists l2'. split; [econstructor; eauto|auto].
Qed.

Lemma twin_trial_rounds regions l u m l2 : trial_rounds can must (lower_at O attr isl) regions l u m l2 ->
  (forall K, In K regions -> In K U) -> forall l', lrel f s U g l l' ->
  exists l2', trial_rounds can' must' (lower_at O attr' isl') (map s regions) l' u m l2' /\ lrel f s U g l2 l2'.
Proof.
  induction 1 as [Ks l u1 m1 l1 HP Hr Hlow|Ks l u1 m1 l1 u2 m2 l2 HP Hr Hlow _ IH]; intros HK l' Hrel;
    (destruct (twin_trial_round Ks l u1 m1 l1 Hr ltac:(intros K HK'; apply HK; rewrite <- HP; auto) l' Hrel) as [l1' [H1 H2]]);
    pose proof (twin_lower O Hname f h s t U U' g g' attr attr' isl isl' Htw Hisl Hisl' Hattr Hattr' Hex Hex' l l' l1 l1' Hrel H2) as Hlow'.
  - exists l1'. split; [|auto]. apply (trials_last _ _ _ _ (map s Ks)); [apply Permutation_map; auto|auto|tauto].
  - destruct (IH HK l1' H2) as [l2' [H3 H4]]. exists l2'. split; [|auto].
    apply (trials_more _ _ _ _ (map s Ks) l' u1 m1 l1'); [apply Permutation_map; auto|auto|tauto|auto].
Qed.

Lemma twin_annealed l u m l2 l' : lrel f s U g l l' -> annealed O attr g prob isl l u m l2 ->
  exists l2', annealed O attr' g' prob isl' l' u m l2' /\ lrel f s U g l2 l2'.
Proof.
  intros Hrel [regions [Hnd [Hreg Hz]]]. pose proof Hrel as [Hl [Hl' [Hin Hlab]]].
  assert (HU : forall K, In K regions -> In K U).
  { intros K HK. apply Hreg in HK. destruct HK as [a [_ Ha]]. apply Hin. eapply nth_error_In; eauto. }
  destruct (twin_trial_rounds regions l u m l2 Hz HU l' Hrel) as [l2' [H1 H2]]. exists l2'. split; [|auto]. exists (map s regions). split; [|split; [|auto]].
  - clear - Hnd HU Htw. induction Hnd as [|K regions HK _ IH]; cbn [map]; constructor.
    + intros H. apply in_map_iff in H. destruct H as [K2 [E H2]]. apply (f_equal t) in E.
      destruct (tw_s _ _ _ _ _ _ _ _ _ _ Htw K (HU K (or_introl eq_refl))) as [_ E1].
      destruct (tw_s _ _ _ _ _ _ _ _ _ _ Htw K2 (HU K2 (or_intror H2))) as [_ E2]. rewrite E, E1 in E2. subst. auto.
    + apply IH. intros y Hy. apply HU. right; auto.
  - intros K'. rewrite in_map_iff. split.
    + intros [K [<- HK]]. apply Hreg in HK. destruct HK as [a [Ha Hr]].
      assert (Hag : a < gn g) by (eapply isl_lt; eauto). destruct (tw_h _ _ _ _ _ _ _ _ _ _ Htw a Hag) as [H3 H4].
      exists (h a). split; [|eapply twin_region'; eauto; rewrite H4; auto].
      assert (HP : Permutation (map h isl) isl') by (eapply isl_back; eauto). rewrite <- HP. apply in_map; auto.
    + intros [i [Hi Hr]]. destruct (twin_region _ _ _ _ _ _ _ _ _ _ Htw l l' K' i Hrel Hr) as [H3 H4].
      exists (t K'). split.
      * pose proof (lrel_sym _ _ _ _ _ _ _ _ _ _ Htw l l' Hrel) as [_ [_ [Hin' _]]].
        apply (tw_t _ _ _ _ _ _ _ _ _ _ Htw). apply Hin'. eapply nth_error_In; eauto.
      * apply Hreg. exists (f i). split; [|auto]. rewrite <- Hisl. apply in_map; auto.
Qed.
End Zone.

(** *** runs over all islands *)
Section Run.
Variables (f h : nat -> nat) (s t : Z -> Z) (U U' : list Z) (g g' : graph) (attr attr' : list (list Q)).
Hypothesis Htw : twins f h s t U U' g g' attr attr'.
Hypothesis Hattr : length attr = gn g.
Hypothesis Hattr' : length attr' = gn g.
Hypothesis Hex : exact_on O attr.
Hypothesis Hex' : exact_on O attr'.

(** the island of g' that corresponds to an island of g *)
Definition there (isl : list nat) : list nat := comp_nodes g' (comp_label g' (h (hd 0 isl))).

Lemma island_hd v isl : v < gn g -> island g v isl -> In (hd 0 isl) isl /\ hd 0 isl < gn g /\ island g (hd 0 isl) isl.
Proof.
  intros Hv [Hs Hin]. assert (Hvin : In v isl) by (apply Hin; constructor; exact Hv). destruct isl as [|a isl]; [destruct Hvin|].
  cbn [hd]. assert (Ha : same_island g v a) by (apply Hin; left; auto).
  split; [left; auto|]. split; [apply linked_in_r in Ha; exact Ha|]. split; [auto|]. intros b. rewrite Hin.
  unfold same_island in *. split; intros H.
  - apply linked_trans with v; auto. apply linked_sym; auto.
  - apply linked_trans with a; auto.
Qed.

Lemma island_of a isl v : v < gn g -> island g v isl -> In a isl -> a < gn g /\ island g a isl.
Proof.
  intros Hv [Hs Hin] Ha. apply Hin in Ha. split; [apply (same_island_lt _ _ _ Ha)|]. split; [auto|]. intros b. rewrite Hin.
  split; intros H; [eapply same_island_trans; [apply same_island_sym|]; eauto|eapply same_island_trans; eauto].
Qed.
End Run.

Section Runs.
Variables (f h : nat -> nat) (s t : Z -> Z) (U U' : list Z) (g g' : graph) (attr attr' : list (list Q)).
Hypothesis Htw : twins f h s t U U' g g' attr attr'.
Hypothesis Hattr : length attr = gn g.
Hypothesis Hattr' : length attr' = gn g.
Hypothesis Hex : exact_on O attr.
Hypothesis Hex' : exact_on O attr'.
Notation thither := (there h g').
Notation thence := (there f g).

Lemma there_island v isl : v < gn g -> island g v isl ->
  exists w, w < gn g /\ island g' w (thither isl) /\ Permutation (map f (thither isl)) isl /\ thence (thither isl) = isl.
Proof.
  intros Hv Hi. pose proof (tw_n _ _ _ _ _ _ _ _ _ _ Htw) as Hn. destruct (island_hd g v isl Hv Hi) as [H1 [H2 H3]].
  set (w := hd 0 isl) in *. destruct (tw_h _ _ _ _ _ _ _ _ _ _ Htw w H2) as [H4 H5].
  assert (Hi' : island g' (h w) (thither isl)) by (apply comp_nodes_island; lia).
  assert (HP : Permutation (map f (thither isl)) isl).
  { apply (twin_island _ _ _ _ _ _ _ _ _ _ Htw (h w)); auto. rewrite H5. auto. }
  exists (h w). split; [auto|]. split; [auto|]. split; [auto|].
  destruct (island_hd g' (h w) (thither isl) ltac:(lia) Hi') as [H6 [H7 H8]]. set (w' := hd 0 (thither isl)) in *.
  assert (Hf : In (f w') isl) by (rewrite <- HP; apply in_map; auto). destruct (island_of g (f w') isl v Hv Hi Hf) as [H9 H10].
  unfold there at 1. fold w'. symmetry. apply island_comp_nodes; auto.
Qed.

Lemma there_every isls : every_island g isls -> every_island g' (map thither isls).
Proof.
  intros [Hnd Hin]. pose proof (tw_n _ _ _ _ _ _ _ _ _ _ Htw) as Hn. split.
  - assert (H : forall is, NoDup is -> (forall isl, In isl is -> In isl isls) -> NoDup (map thither is)).
    { induction is as [|x is IH]; intros Hnd' Hsub; cbn [map]; constructor; inversion Hnd'; subst.
      - intros H. apply in_map_iff in H. destruct H as [y [E Hy]].
        destruct (proj1 (Hin x) (Hsub x (or_introl eq_refl))) as [v [Hv Hi]]. destruct (there_island v x Hv Hi) as [_ [_ [_ [_ Ex]]]].
        destruct (proj1 (Hin y) (Hsub y (or_intror Hy))) as [v' [Hv' Hi']]. destruct (there_island v' y Hv' Hi') as [_ [_ [_ [_ Ey]]]].
        rewrite E, Ex in Ey. subst. auto.
      - apply IH; auto. intros y Hy. apply Hsub. right; auto. }
    apply H; auto.
  - intros isl'. rewrite in_map_iff. split.
    + intros [isl [<- H]]. apply Hin in H. destruct H as [v [Hv Hi]]. destruct (there_island v isl Hv Hi) as [w [Hw [Hi' _]]]. exists w. split; [lia|auto].
    + intros [v [Hv Hi']]. rewrite Hn in Hv. destruct (tw_f _ _ _ _ _ _ _ _ _ _ Htw v Hv) as [Hfv Ev].
      pose proof (comp_nodes_island g (f v) Hfv) as Hi. set (isl := comp_nodes g (comp_label g (f v))) in *.
      exists isl. split; [|apply Hin; eauto]. pose proof (twin_island _ _ _ _ _ _ _ _ _ _ Htw v isl' isl Hv Hi' Hi) as HP.
      destruct (island_hd g (f v) isl Hfv Hi) as [H1 [H2 H3]]. unfold there.
      apply (Permutation_in _ (Permutation_sym HP)) in H1. apply in_map_iff in H1.
      destruct H1 as [i [E Hin']]. rewrite <- E. destruct (island_of g' i isl' v ltac:(lia) Hi' Hin') as [H4 H5].
      destruct (tw_f _ _ _ _ _ _ _ _ _ _ Htw i ltac:(lia)) as [_ Ef]. rewrite Ef. symmetry. apply island_comp_nodes; auto.
Qed.

Lemma twin_run l u m labels l' : lrel f s U g l l' -> anneal_run O attr g prob l u m labels ->
  exists labels', anneal_run O attr' g' prob l' u m labels' /\ lrel f s U g labels labels'.
Proof.
  intros Hrel [Hl [isls [ups [moves [He [Hall [Hu Hm]]]]]]]. pose proof (tw_n _ _ _ _ _ _ _ _ _ _ Htw) as Hn.
  set (labels' := map (fun i => s (lab labels (f i))) (seq 0 (gn g))).
  assert (Hl' : length labels' = gn g) by (unfold labels'; rewrite map_length, seq_length; auto).
  assert (Hlab : forall i, i < gn g -> lab labels' i = s (lab labels (f i))).
  { intros i Hi. apply lab_of_nth_error. unfold labels'. rewrite nth_error_map, (nth_error_nth' _ 0) by (rewrite seq_length; auto).
    rewrite seq_nth by auto. reflexivity. }
  assert (Hz : forall isl, In isl isls -> Permutation (map f (thither isl)) isl /\ thence (thither isl) = isl /\
    exists l2 l2', (forall a, In a isl -> lab labels a = lab l2 a) /\ lrel f s U g l2 l2' /\
      annealed O attr' g' prob (thither isl) l' (ups isl) (moves isl) l2' /\ forall i, In i (thither isl) -> i < gn g).
  { intros isl Hi. destruct (Hall isl Hi) as [l2 [H1 H2]]. apply He in Hi. destruct Hi as [v [Hv Hi]].
    destruct (there_island v isl Hv Hi) as [w [Hw [Hi' [HP Eb]]]]. split; [auto|]. split; [auto|].
    assert (Hlt : forall i, In i (thither isl) -> i < gn g).
    { intros i Hin. apply Hi' in Hin. apply same_island_lt in Hin. lia. }
    destruct (twin_annealed f h s t U U' g g' attr attr' isl (thither isl) Htw HP Hlt Hattr Hattr' Hex Hex' l (ups isl) (moves isl) l2 l' Hrel H1)
      as [l2' [H3 H4]].
    exists l2, l2'. auto 6. }
  exists labels'. split.
  - split; [lia|]. exists (map thither isls), (fun isl' => ups (thence isl')), (fun isl' => moves (thence isl')).
    split; [apply there_every; auto|]. split; [|split].
    + intros isl' Hi'. apply in_map_iff in Hi'. destruct Hi' as [isl [<- Hi]]. destruct (Hz isl Hi) as [HP [Eb [l2 [l2' [H1 [H2 [H3 H4]]]]]]].
      exists l2'. rewrite Eb. split; [auto|]. intros i Hin. rewrite Hlab by auto. destruct H2 as [_ [_ [_ H2]]]. rewrite H2 by auto.
      f_equal. apply H1. rewrite <- HP. apply in_map; auto.
    + rewrite Hu, map_map. f_equal. apply map_ext_in. intros isl Hi. destruct (Hz isl Hi) as [_ [Eb _]]. rewrite Eb. reflexivity.
    + rewrite Hm, map_map. f_equal. apply map_ext_in. intros isl Hi. destruct (Hz isl Hi) as [_ [Eb _]]. rewrite Eb. reflexivity.
  - split; [auto|]. split; [auto|]. split; [|auto]. intros z Hz'. apply In_nth_error in Hz'. destruct Hz' as [a Ha].
    assert (Hag : a < gn g) by (apply nth_error_lt in Ha; lia). apply lab_of_nth_error in Ha. subst z.
    pose proof (comp_nodes_island g a Hag) as Hi. set (isl := comp_nodes g (comp_label g a)) in *.
    destruct (Hz isl) as [_ [_ [l2 [_ [H1 [[L1 [_ [L3 _]]] _]]]]]]; [apply He; eauto|].
    rewrite H1 by (apply Hi, same_island_refl; auto). apply L3, lab_in. lia.
Qed.

Lemma lrel_fun l l1' l2' : lrel f s U g l l1' -> lrel f s U g l l2' -> l1' = l2'.
Proof.
  intros [_ [L1 [_ H1]]] [_ [L2 [_ H2]]]. apply list_of_labs; [lia|]. intros a Ha. rewrite H1, H2 by lia. reflexivity.
Qed.
Lemma lrel_inj l1 l2 l1' l2' : lrel f s U g l1 l1' -> lrel f s U g l2 l2' -> (l1 = l2 <-> l1' = l2').
Proof.
  intros H1 H2. split; [intros <-; eapply lrel_fun; eauto|]. intros <-.
  pose proof (lrel_sym _ _ _ _ _ _ _ _ _ _ Htw _ _ H1) as [L1 [L2 [_ H3]]]. pose proof (lrel_sym _ _ _ _ _ _ _ _ _ _ Htw _ _ H2) as [_ [L3 [_ H4]]].
  apply list_of_labs; [lia|]. intros a Ha. rewrite H3, H4 by lia. reflexivity.
Qed.

Lemma twin_runs term fresh left u l m l2 : anneal_runs O attr g prob term fresh left u l m l2 -> forall l', lrel f s U g l l' ->
  exists l2', anneal_runs O attr' g' prob term fresh left u l' m l2' /\ lrel f s U g l2 l2'.
Proof.
  induction 1 as [left u l Hend|left u l u1 m Hleft Hu Hr|fresh left u l u1 m1 l1 m2 l2 Hleft Hu Hr Hne _ IH]; intros l' Hrel.
  - exists l'. split; [constructor; auto|auto].
  - destruct (twin_run _ _ _ _ _ Hrel Hr) as [l2' [H1 H2]]. rewrite <- (lrel_fun _ _ _ Hrel H2) in H1. exists l'. split; [|auto].
    eapply runs_same; eauto.
  - destruct (twin_run _ _ _ _ _ Hrel Hr) as [l1' [H1 H2]]. destruct (IH l1' H2) as [l2' [H3 H4]]. exists l2'. split; [|auto].
    eapply runs_more; eauto. destruct Hne as [Hne|Hne]; [auto|right]. intros E. apply Hne. apply (lrel_inj _ _ _ _ H2 Hrel). auto.
Qed.

Lemma twin_count seen seen' l l' : Forall2 (lrel f s U g) seen seen' -> lrel f s U g l l' ->
  count_occ (list_eq_dec Z.eq_dec) seen l = count_occ (list_eq_dec Z.eq_dec) seen' l'.
Proof.
  intros H Hrel. induction H as [|v v' seen seen' Hv _ IH]; [reflexivity|]. cbn [count_occ].
  pose proof (lrel_inj _ _ _ _ Hv Hrel) as E.
  destruct (list_eq_dec Z.eq_dec v l), (list_eq_dec Z.eq_dec v' l'); try tauto. rewrite IH. reflexivity.
Qed.
End Runs.
End AnnealTwins.

Section AnnealingTwins.
Variable O : objfun.
Hypothesis Hname : nameless O.
Variable expf : Q -> Q.
Hypothesis Hexpf : forall x y, (x == y -> expf x == expf y)%Q.
Variables (f h : nat -> nat) (s t : Z -> Z) (U U' : list Z) (g g' : graph) (attr attr' : list (list Q)).
Hypothesis Htw : twins f h s t U U' g g' attr attr'.
Hypothesis Hattr : length attr = gn g.
Hypothesis Hattr' : length attr' = gn g.
Hypothesis Hex : exact_on O attr.
Hypothesis Hex' : exact_on O attr'.

Lemma twin_annealing cooling maxit term steps reps fresh idle T moved l seen l2 moved2 seen2 :
  annealing O attr g expf cooling maxit term steps reps fresh idle T moved l seen l2 moved2 seen2 ->
  forall l' seen', lrel f s U g l l' -> Forall2 (lrel f s U g) seen seen' ->
  exists l2' seen2', annealing O attr' g' expf cooling maxit term steps reps fresh idle T moved l' seen' l2' moved2 seen2' /\
    lrel f s U g l2 l2' /\ Forall2 (lrel f s U g) seen2 seen2'.
Proof.
  induction 1 as [idle T moved l seen Hge|fresh idle T moved l seen m l2 Hlt Hruns Hseen
    |fresh idle T moved l seen m l1 l2 moved2 seen2 Hlt Hruns Hseen _ IH]; intros l' seen' Hrel Hs.
  - exists l', seen'. split; [constructor; auto|auto].
  - destruct (twin_runs O Hname (acceptance expf T) (acceptance_eq expf Hexpf T) f h s t U U' g g' attr attr' Htw Hattr Hattr' Hex Hex' _ _ _ _ _ _ _ Hruns l' Hrel) as [l2' [H1 H2]].
    exists l2', seen'. split; [|auto]. eapply annealing_seen; eauto. rewrite <- (twin_count f h s t U U' g g' attr attr' Htw Hattr Hattr' seen seen' l2 l2' Hs H2). auto.
  - destruct (twin_runs O Hname (acceptance expf T) (acceptance_eq expf Hexpf T) f h s t U U' g g' attr attr' Htw Hattr Hattr' Hex Hex' _ _ _ _ _ _ _ Hruns l' Hrel) as [l1' [H1 H2]].
    destruct (IH l1' (seen' ++ [l1']) H2) as [l2' [seen2' [H3 H4]]]; [apply Forall2_app; auto|].
    exists l2', seen2'. split; [|auto]. eapply annealing_next; eauto.
    rewrite <- (twin_count f h s t U U' g g' attr attr' Htw Hattr Hattr' seen seen' l1 l1' Hs H2). auto.
Qed.
End AnnealingTwins.
