(** On whole numbers double precision makes no difference to the max-p heuristic. *)
From Coq Require Import Qabs.
From Verif Require Import Base Spec SpecData M_Graph P_Graph M_Util P_Base P_Util P_Forest P_Init P_Initial
  M_Objective P_Sum P_Objective M_Azp P_Azp P_Strategy P_Fit P_AzpFit P_TwoRuns M_Sa P_Sa M_MaxP P_MaxP P_MaxP2 P_MaxP3 P_MaxP4 P_Scale P_ScaleMaxP
  M_Float P_Float M_FloatMaxP P_FloatMaxP P_FloatMaxP2 P_FloatWhole.

Lemma remove_first_was a : forall l l', remove_first a l = Some l' -> In a l.
Proof.
  induction l as [|b l IH]; intros l' H; cbn in H; [discriminate|]. destruct (Nat.eqb_spec a b); [left; auto|].
  destruct (remove_first a l) as [t|]; [|discriminate]. right. eauto.
Qed.

Section Whole.
Variable A : arith.
Variable M : Q.
Hypothesis Hadd : exact_upto M (ar_add A) Qplus.
Hypothesis Hsub : exact_upto M (ar_sub A) Qminus.
Variable enum : list Z -> list Z.
Hypothesis Henum : forall l, Permutation (enum l) l.
Variable enum2 : list nat -> list nat.
Hypothesis Henum2 : forall l, Permutation (enum2 l) l.
Variable g : graph.
Hypothesis Hsym : symmetric g.
Hypothesis Hloop : no_self_loops g.
Variables attr sp : list (list Q).
Variable thr : list Q.
Hypothesis Hattr : length attr = gn g.
Hypothesis Hwhole : forall x q, In x attr -> In q x -> whole q.
Hypothesis HM : (psum (dist manhattan attr) (seq 0 (length attr)) <= M)%Q.
Hypothesis Hsh : shaped sp thr (gn g).
Hypothesis Hpos : non_negative sp.
Hypothesis Hw : forall x q, In x sp -> In q x -> whole q.
Hypothesis HMs : forall k, k < length thr -> (total_in sp (seq 0 (gn g)) k <= M)%Q.

(** ** construction *)
Local Notation inr := (inr g).
Local Notation dis := (fdissimilarity A enum2 attr).

Lemma fdissimilarity_exact a R : a < gn g -> NoDup R -> inr R -> (dis a R == dissimilarity manhattan attr a R)%Q.
Proof.
  intros Ha Hnd HR. unfold fdissimilarity, dissimilarity. rewrite <- Hattr in Ha.
  assert (Hlt : forall i, In i R -> i < length attr) by (intros i Hi; rewrite Hattr; auto).
  assert (E : forall i, In i R -> (fmanhattan A (row attr a) (row attr i) == dist manhattan attr a i)%Q) by (intros i Hi; apply (fD A M); auto).
  assert (Es : (sumQ (map (fun i => fmanhattan A (row attr a) (row attr i)) (enum2 R)) == sumQ (map (fun i => manhattan (row attr a) (row attr i)) R))%Q).
  { rewrite (sumQ_map_perm _ _ _ (Henum2 R)). apply sumQ_ext. intros i Hi. apply E; auto. }
  rewrite (fsum_exact A M Hadd); [exact Es| |].
  - intros x Hx. apply in_map_iff in Hx. destruct Hx as [i [<- Hi]]. assert (Hi' : In i R) by (eapply Permutation_in; [apply Henum2|auto]).
    split; [apply (whole_eq (dist manhattan attr a i)); [symmetry; apply E; auto|apply D_whole; auto]|rewrite (E i Hi'); apply D_nonneg].
  - rewrite Es. eapply Qle_trans; [|apply (star_le M attr HM a Ha)].
    change (fun i => manhattan (row attr a) (row attr i)) with (dist manhattan attr a).
    rewrite (sumQ_map_perm _ _ _ (idx_filter R (length attr) Hnd Hlt)), sumQ_filter.
    rewrite (sumQ_map_perm _ _ _ (seq_perm_take _ a Ha)). cbn [map]. rewrite sumQ_cons. cbv beta.
    assert (H0 : (dist manhattan attr a a == 0)%Q) by apply manhattan_zero.
    assert (Hs : (sumQ (map (fun i => if existsb (Nat.eqb i) R then dist manhattan attr a i else 0%Q) (others (length attr) a)) <=
                 sumQ (map (dist manhattan attr a) (others (length attr) a)))%Q).
    { apply sumQ_le. intros i _. destruct (existsb _ _); [apply Qle_refl|apply D_nonneg]. }
    unfold others in *. destruct (existsb (Nat.eqb a) R); lra.
Qed.

Lemma reaches_tracked R x : R <> [] -> NoDup R -> inr R -> length x = length thr -> (forall k, nth k x 0%Q == total_in sp R k)%Q ->
  reaches (tracked A sp R) thr = reaches x thr.
Proof.
  intros Hne Hnd HR Hl Hx. rewrite tracked_rows. pose proof (fsum_rows_length A sp thr (gn g) Hsh R Hne HR) as Hlen.
  apply eq_true_iff_eq. rewrite !reaches_spec by auto.
  assert (E : forall k t, nth_error thr k = Some t -> (nth k (fsum_rows A (map (row sp) R)) 0 == nth k x 0)%Q).
  { intros k t Ek. assert (Hk : k < length thr) by (apply nth_error_Some; congruence).
    rewrite (fsum_rows_nth A sp thr (gn g) Hsh R k Hne HR Hk), Hx. apply (whole_colsum A M Hadd sp thr (gn g) Hsh Hpos Hw HMs); auto. }
  split; intros H k t Ek; specialize (H k t Ek); specialize (E k t Ek); lra.
Qed.

Lemma fgrow_region_exact fuel : forall R N x U Z r, R <> [] -> NoDup (R ++ U) -> inr R -> inr N -> inr U ->
  length x = length thr -> (forall k, nth k x 0%Q == total_in sp R k)%Q ->
  fgrow_region A dis g sp thr fuel R N (tracked A sp R) U Z r = grow_region manhattan g attr sp thr fuel R N x U Z r.
Proof.
  induction fuel as [|fuel IH]; intros R N x U Z r Hne Hnd HR HN HU Hl Hx; cbn [fgrow_region grow_region];
    rewrite (reaches_tracked R x) by (auto; apply NoDup_app_l in Hnd; auto); destruct (reaches x thr); auto.
  destruct N as [|b N]; [auto|].
  assert (E : ffind_best_area dis R (b :: N) r = find_best_area manhattan attr R (b :: N) r).
  { unfold ffind_best_area, find_best_area. rewrite (best_keys_scale 1 ltac:(reflexivity) (fun a => dissimilarity manhattan attr a R)); [auto|].
    intros k Hk. rewrite fdissimilarity_exact; [ring|auto|apply NoDup_app_l in Hnd; auto|auto]. }
  rewrite E. destruct (find_best_area manhattan attr R (b :: N) r) as [[w r1]|e|] eqn:Eb; cbn [bind]; auto.
  unfold find_best_area in Eb. apply random_element_from_inv in Eb. destruct Eb as [Hwk _]. apply best_keys_In in Hwk. destruct Hwk as [Hwk _].
  destruct (remove_first w U) as [U'|] eqn:Er; [|auto].
  assert (Hin : In w U) by (eapply remove_first_was; eauto).
  assert (HwR : ~ In w R) by (intros H; eapply NoDup_app_disj; eauto).
  destruct (remove_first_perm w U Hin) as [U2 [E2 HU2]]. rewrite Er in E2. injection E2 as <-.
  rewrite (set_add_new w R HwR), <- (tracked_snoc A sp R w Hne). apply IH.
  - destruct R; discriminate.
  - eapply Permutation_NoDup; [|exact Hnd]. rewrite <- app_assoc. apply Permutation_app_head. exact HU2.
  - intros i Hi. apply in_app_or in Hi. destruct Hi as [Hi|[<-|[]]]; auto.
  - intros i Hi. rewrite set_diff_In, set_union_In, set_discard_In, neighbors_In in Hi. destruct Hi as [[[Hi _]|[Hi _]] _]; auto.
  - intros i Hi. apply HU. eapply remove_first_In; eauto.
  - rewrite add_rows_length, (P_MaxP.row_length g sp thr Hsh) by auto. lia.
  - intros k. rewrite nth_add_rows, total_in_app, Hx. unfold total_in at 3. cbn [map]. rewrite sumQ_cons, sumQ_nil. unfold row. ring.
Qed.
Lemma grow_region_nodup k : forall R0 N0 x0 U1 A0 r0 b1 R U2 A2 r2,
  grow_region manhattan g attr sp thr k R0 N0 x0 U1 A0 r0 = Ok (b1, R, U2, A2, r2) -> NoDup U1 -> NoDup U2.
Proof.
  induction k as [|k IH]; intros R0 N0 x0 U1 A0 r0 b1 R U2 A2 r2 H HU1; cbn [grow_region] in H; destruct (reaches x0 thr).
  - injection H as <- <- <- <- <-. auto.
  - discriminate.
  - injection H as <- <- <- <- <-. auto.
  - destruct N0 as [|b N0].
    + binv H. injection H as <- <- <- <- <-. auto.
    + binv H. destruct (remove_first _ _) as [U'|] eqn:Er; [|discriminate]. apply IH in H; auto.
      clear - Er HU1. revert U' Er. induction U1 as [|c U IH]; intros U' Er; cbn in Er; [discriminate|]. inversion HU1; subst.
      destruct (Nat.eqb _ _); [injection Er as <-; auto|]. destruct (remove_first _ U) as [t|] eqn:Et; [|discriminate].
      injection Er as <-. constructor; [|auto]. intros Hc. eapply remove_first_In in Hc; eauto.
Qed.
Lemma fgrow_loop_exact fuel : forall P E U Z r, NoDup U -> inr U ->
  fgrow_loop A dis g sp thr fuel P E U Z r = grow_loop manhattan g attr sp thr fuel P E U Z r.
Proof.
  induction fuel as [|fuel IH]; intros P E U Z r Hnd HU; destruct U as [|b U]; cbn [fgrow_loop grow_loop]; auto.
  destruct (pop_randomly_from (b :: U) r) as [[[a U1] r1]|e|] eqn:Ep; cbn [bind]; auto.
  apply pop_randomly_from_inv in Ep. destruct Ep as [Hp _].
  assert (Hnd' : NoDup (a :: U1)) by (eapply Permutation_NoDup; eauto).
  assert (Ha : a < gn g) by (apply HU; eapply Permutation_in; [symmetry; exact Hp|left; auto]).
  assert (HU1 : inr U1) by (intros i Hi; apply HU; eapply Permutation_in; [symmetry; exact Hp|right; auto]).
  assert (HndU : NoDup U1) by (inversion Hnd'; auto).
  destruct (reaches (row sp a) thr); [apply IH; auto|].
  assert (Eg : fgrow_region A dis g sp thr (S (length U1)) [a] (set_diff (neighbors g a) (Z ++ [a])) (row sp a) U1 (Z ++ [a]) r1 =
               grow_region manhattan g attr sp thr (S (length U1)) [a] (set_diff (neighbors g a) (Z ++ [a])) (row sp a) U1 (Z ++ [a]) r1).
  { change (row sp a) with (tracked A sp [a]) at 1. apply fgrow_region_exact; auto.
    - discriminate.
    - intros i [<-|[]]; auto.
    - intros i Hi. apply set_diff_In in Hi. destruct Hi as [Hi _]. apply neighbors_In in Hi. tauto.
    - apply (P_MaxP.row_length g sp thr Hsh); auto.
    - intros k. unfold total_in. cbn [map]. rewrite sumQ_cons, sumQ_nil. unfold row. ring. }
  rewrite Eg. destruct (grow_region manhattan g attr sp thr _ _ _ _ _ _ _) as [[[[[b1 R] U2] A2] r2]|e|] eqn:Egr; cbn [bind]; auto.
  assert (HU2 : inr U2) by (eapply (grow_region_left manhattan g attr sp thr); eauto).
  assert (Hnd2 : NoDup U2) by (eapply grow_region_nodup; eauto).
  destruct b1; apply IH; auto.
Qed.
Lemma fconstruct_exact k : forall mp best r,
  fconstruct A dis g sp thr k mp best r = construct manhattan g attr sp thr k mp best r.
Proof.
  induction k as [|k IH]; intros mp best r; cbn [fconstruct construct]; [auto|].
  assert (E : fgrow_regions A dis g sp thr r = grow_regions manhattan g attr sp thr r).
  { apply fgrow_loop_exact; [apply seq_NoDup|]. intros i Hi. apply in_seq in Hi. lia. }
  rewrite E. destruct (grow_regions manhattan g attr sp thr r) as [[[P E1] r1]|e|]; cbn [bind]; auto.
  destruct (Nat.ltb _ _); [apply IH|]. destruct (Nat.eqb _ _); apply IH.
Qed.

Lemma concat_upd (P : list (list nat)) k a : k < length P -> ~ In a (nth k P []) ->
  Permutation (concat (upd P k (set_add a (nth k P [])))) (a :: concat P).
Proof.
  revert k. induction P as [|R P IH]; intros k Hk Ha; cbn in Hk; [lia|]. destruct k as [|k]; cbn [nth upd concat] in *.
  - rewrite (set_add_new a R Ha). rewrite <- app_assoc. cbn. symmetry. apply Permutation_middle.
  - rewrite IH by (auto; lia). symmetry. apply Permutation_middle.
Qed.
Lemma fassign_loop_exact fuel : forall P E r, NoDup (concat P ++ E) -> inr (concat P) -> inr E ->
  fassign_loop dis g fuel P E r = assign_loop manhattan g attr fuel P E r.
Proof.
  induction fuel as [|fuel IH]; intros P E r Hnd HP HE; destruct E as [|b E]; cbn [fassign_loop assign_loop]; auto.
  destruct (pop_randomly_from (filter _ (b :: E)) r) as [[[a rest] r1]|e|] eqn:Ep; cbn [bind]; auto.
  apply pop_randomly_from_inv in Ep. destruct Ep as [Hp _].
  assert (Ha : In a (b :: E)).
  { assert (H : In a (filter (fun area => existsb (fun neigh => negb (memb neigh (b :: E))) (neighbors g area)) (b :: E))) by
      (eapply Permutation_in; [symmetry; exact Hp|left; auto]). apply filter_In in H. tauto. }
  assert (Hc : forall k i, In i (nth k P []) -> In i (concat P)).
  { intros k i Hi. apply in_concat. destruct (Nat.lt_ge_cases k (length P)) as [Hk|Hk]; [exists (nth k P []); split; [apply nth_In; auto|auto]|].
    rewrite nth_overflow in Hi by auto. destruct Hi. }
  assert (Hn : forall k, inr (nth k P [])) by (intros k i Hi; apply HP; eauto).
  assert (Hnk : forall k, NoDup (nth k P [])).
  { intros k. destruct (Nat.lt_ge_cases k (length P)) as [Hk|Hk]; [|rewrite nth_overflow by auto; constructor].
    apply NoDup_app_l in Hnd. eapply NoDup_in_concat; eauto. apply nth_In; auto. }
  assert (Ef : ffind_best_region_idx dis a P (neigh_regions_idx g a P) r1 = find_best_region_idx manhattan attr a P (neigh_regions_idx g a P) r1).
  { unfold ffind_best_region_idx, find_best_region_idx. destruct (neigh_regions_idx g a P) as [|k ks]; [auto|].
    rewrite (best_keys_scale 1 ltac:(reflexivity) (fun k => dissimilarity manhattan attr a (nth k P []))); [auto|]. intros j Hj.
    rewrite fdissimilarity_exact; auto. ring. }
  rewrite Ef. destruct (find_best_region_idx manhattan attr a P _ r1) as [[k r2]|e|] eqn:Ek; cbn [bind]; auto.
  assert (Hk : k < length P).
  { unfold find_best_region_idx in Ek. destruct (neigh_regions_idx g a P) as [|k0 ks] eqn:En; [discriminate|].
    apply random_element_from_inv in Ek. destruct Ek as [Ek _]. apply best_keys_In in Ek. destruct Ek as [Ek _].
    apply set_union_In in Ek. destruct Ek as [[]|Ek]. rewrite <- En in Ek. apply neigh_regions_idx_In in Ek. tauto. }
  assert (Hna : ~ In a (concat P)) by (intros H; eapply NoDup_app_disj; eauto).
  destruct (remove_first_perm a (b :: E) Ha) as [E' [E2 HE']]. rewrite E2.
  pose proof (concat_upd P k a Hk (fun H => Hna (Hc k a H))) as Hcp. fold (add_to_region P k a) in Hcp. apply IH.
  - eapply Permutation_NoDup; [|exact Hnd]. rewrite Hcp, HE'. cbn. symmetry. apply Permutation_middle.
  - intros i Hi. apply (Permutation_in _ Hcp) in Hi. destruct Hi as [<-|Hi]; auto.
  - intros i Hi. apply HE. eapply Permutation_in; [symmetry; exact HE'|right; auto].
Qed.
Lemma fassign_each_exact : forall before r, (forall x, In x before -> partial_partition g (fst x) (snd x)) ->
  fassign_each dis g before r = assign_each manhattan g attr before r.
Proof.
  induction before as [|[P E] before IH]; intros r H; cbn [fassign_each assign_each]; [auto|].
  destruct (H (P, E) (or_introl eq_refl)) as [H1 [H2 _]]. cbn [fst snd] in *. unfold fassign_enclaves, assign_enclaves.
  rewrite fassign_loop_exact; [|auto|intros i Hi; apply H2, in_app_iff; auto|intros i Hi; apply H2, in_app_iff; auto].
  destruct (assign_loop manhattan g attr (length E) P E r) as [[P' r1]|e|]; cbn [bind]; auto.
  rewrite IH by (intros x Hx; apply H; right; auto). auto.
Qed.

(** ** the guard of the wrapper *)
Lemma fdonor_exact idx l a : NoDup idx -> (forall b, In b idx -> b < gn g) -> length l = length idx -> a < length l ->
  fdonor_ok A (map (row sp) idx) thr a l = donor_ok (map (row sp) idx) thr a l.
Proof.
  intros Hnd Hlt Hl Ha. unfold fdonor_ok, donor_ok. set (spc := map (row sp) idx).
  destruct (any_nonzero (row spc a)) eqn:En; [|auto].
  assert (Hrow : forall i, (i < length idx)%nat -> row spc i = row sp (nth i idx 0%nat)).
  { intros i Hi. unfold row at 1. apply nth_error_nth. unfold spc. rewrite nth_error_map, (nth_error_nth' idx 0%nat) by auto. reflexivity. }
  set (R := map (fun i => nth i idx 0%nat) (where_eq l (lab l a))).
  assert (Hwi : forall i, In i (where_eq l (lab l a)) -> (i < length idx)%nat).
  { intros i Hi. apply where_eq_In in Hi. apply nth_error_lt in Hi. lia. }
  assert (Hrows : rows_of l (lab l a) spc = map (row sp) R).
  { unfold rows_of, R. rewrite map_map. apply map_ext_in. intros i Hi. apply Hrow. auto. }
  assert (HaR : In (nth a idx 0%nat) R).
  { unfold R. apply in_map_iff. exists a. split; [auto|]. apply where_eq_In. unfold lab. apply nth_error_nth'. auto. }
  assert (HndR : NoDup R).
  { unfold R. apply NoDup_map_inj; [|apply where_eq_NoDup]. intros i j Hi Hj E.
    apply (proj1 (NoDup_nth idx 0%nat) Hnd); auto. }
  assert (HltR : forall b, In b R -> (b < gn g)%nat).
  { intros b Hb. unfold R in Hb. apply in_map_iff in Hb. destruct Hb as [i [<- Hi]]. apply Hlt, nth_In. auto. }
  assert (HneR : R <> []) by (intros E; rewrite E in HaR; destruct HaR).
  rewrite Hrows, Hrow by lia.
  assert (Hlen1 : length (fsum_rows A (map (row sp) R)) = length thr) by (apply (fsum_rows_length A sp thr (gn g)); auto).
  assert (Hlen2 : length (row sp (nth a idx 0%nat)) = length thr) by (apply (P_MaxP.row_length g sp thr Hsh); auto).
  assert (Hlen3 : length (sum_rows (map (row sp) R)) = length thr).
  { apply sum_rows_length; [destruct R; [congruence|discriminate]|]. intros x Hx. apply in_map_iff in Hx. destruct Hx as [b [<- Hb]].
    apply (P_MaxP.row_length g sp thr Hsh); auto. }
  apply eq_true_iff_eq.
  rewrite !reaches_spec by (unfold fsub_rows, sub_rows; rewrite map_length, combine_length; lia).
  assert (E : forall k t, nth_error thr k = Some t ->
    (nth k (fsub_rows A (fsum_rows A (map (row sp) R)) (row sp (nth a idx 0%nat))) 0 ==
     nth k (sub_rows (sum_rows (map (row sp) R)) (row sp (nth a idx 0%nat))) 0)%Q).
  { intros k t Ek. assert (Hk : k < length thr) by (apply nth_error_Some; congruence).
    rewrite fsub_rows_nth, (fsum_rows_nth A sp thr (gn g)) by (auto; lia). rewrite nth_sub_rows, nth_sum_rows, map_map by lia.
    unfold row at 1. rewrite (whole_dif A M Hadd Hsub sp thr (gn g) Hsh Hpos Hw HMs k R _ Hk HndR HltR HaR). reflexivity. }
  split; intros H k t Ek; specialize (H k t Ek); specialize (E k t Ek); lra.
Qed.

(** ** the local search *)
Inductive falike : strategy -> fstrategy -> Prop :=
| fa_azp : forall c c', falike (SAzp c) (FAzp c')
| fa_maxp : forall c c' sp0 sp0' s s', falike s s' -> falike (SMaxP c sp sp0 thr s) (FMaxP c' sp sp0' thr s').

Section Component.
Variable idx : list nat.
Hypothesis Hidx : NoDup idx.
Hypothesis Hlt : forall i, In i idx -> i < gn g.
Local Notation rows := (map (row attr) idx).

Inductive fboth (l : list Z) : strategy -> fstrategy -> Prop :=
| fb_azp : forall s c, both A enum rows s c l -> fboth l s (FAzp c)
| fb_maxp : forall c c' s s', (c_val c == c_val c')%Q -> fboth l s s' ->
    fboth l (SMaxP c sp (map (row sp) idx) thr s) (FMaxP c' sp (map (row sp) idx) thr s').
Lemma fboth_val l s s' : fboth l s s' -> (strat_val s == fstrat_val s')%Q.
Proof. destruct 1 as [s c [_ [v [v' [-> [-> [E _]]]]]]|]; cbn; auto. Qed.
Lemma fboth_alike l s s' : fboth l s s' -> falike s s'.
Proof. induction 1 as [s c [_ [v [v' [-> _]]]]|]; constructor; auto. Qed.

Lemma rows_bound : (psum (dist manhattan rows) (seq 0 (length rows)) <= M)%Q.
Proof. apply (selection_bound M attr (length attr) HM idx Hidx). rewrite Hattr. exact Hlt. Qed.

Lemma fstart_exact l : length l = length idx -> forall s s', falike s s' ->
  rel (fboth l) (strat_start (pairwise manhattan) s l rows idx) (fstrat_start (fpairwise A enum) s' l rows idx).
Proof.
  intros Hl. assert (Hll : length l = length rows) by (rewrite map_length; auto).
  destruct (pairwise_call_spec manhattan l rows) as [v [Ev Hv]].
  destruct (fpairwise_call_exact A M Hadd Hsub enum Henum rows (selection_whole attr Hwhole idx) rows_bound l Hll) as [v' [Ev' Hv']].
  induction 1 as [c c'|c c' sp0 sp0' s s' H IH]; cbn [strat_start fstrat_start]; unfold start_common; cbn [o_call pairwise fpairwise];
    rewrite Ev, Ev'; cbn [bind].
  - cbn [rel]. constructor. split; [auto|]. exists v, v'. split; [auto|]. split; [auto|]. split; [rewrite Hv, Hv'; reflexivity|exact Hv].
  - eapply rel_bind; [apply IH|]. intros s1 s1' _ _ H1. cbn [rel]. constructor; [cbn; rewrite Hv, Hv'; reflexivity|auto].
Qed.
Lemma fcall_exact expf l a r : length l = length idx -> a < length idx -> forall s s' rg, fboth l s s' ->
  rel (fun '(b, s1, r1) '(b', s1', r1') => b = b' /\ r1 = r1' /\ fboth (if b : bool then upd l a r else l) s1 s1')
    (strat_call expf s a r l rg) (fstrat_call A A s' a r l rg).
Proof.
  intros Hl Ha s s' rg H. revert rg. assert (Ha' : a < length rows) by (rewrite map_length; auto).
  assert (Hconst : forall c c' s s', (c_val c == c_val c')%Q -> fboth l s s' -> fboth l (SMaxP c sp (map (row sp) idx) thr s) (FMaxP c' sp (map (row sp) idx) thr s'))
    by (intros; constructor; auto).
  induction H as [s c H|c c' s s' Hc H IH]; intros rg.
  - cbn [fstrat_call].
    pose proof (both_call A M Hadd Hsub enum rows (selection_whole attr Hwhole idx) rows_bound expf s c l a r rg Ha' H) as Hr.
    destruct (strat_call expf s a r l rg) as [[[b s1] r1]|e|], (fcall (ar_add A) c a r l rg) as [[[b' c1] r1']|e'|]; cbn in Hr |- *; auto.
    destruct Hr as [-> [-> H1]]. split; [auto|]. split; [auto|]. constructor. auto.
  - cbn [strat_call fstrat_call]. rewrite (fdonor_exact idx l a) by (auto; lia).
    destruct (donor_ok (map (row sp) idx) thr a l); [|cbn; split; [auto|]; split; [auto|]; apply Hconst; auto].
    eapply rel_bind; [apply IH|]. intros [[b s1] r1] [[b' s1'] r1'] _ _ [-> [-> H1]]. cbn. split; [auto|]. split; [auto|]. constructor; auto.
Qed.
End Component.

Variable order : list edge -> list edge.
Hypothesis Hord : forall l, Permutation (order l) l.
Variable expf : Q -> Q.

Theorem fstrat_fit_exact fuel p initial s s' r :
  match initial with Some l => length l = gn g /\ ~ In (-1)%Z l | None => True end -> falike s s' ->
  rel (two_acc strategy fstrategy falike) (azp_fit expf order (pairwise manhattan) fuel g attr p initial s r)
    (fstrat_fit A A order (fpairwise A enum) fuel g attr p initial s' r).
Proof.
  intros Hi Ha. unfold azp_fit, fstrat_fit. apply fit_two; auto.
  intros k l s1 s1' rg Hk Hwf H1. unfold run_component.
  assert (Hlt : forall i, In i (comp_nodes g k) -> i < gn g) by (intros i Hin; apply comp_nodes_In in Hin; tauto).
  pose proof (comp_nodes_NoDup g k) as Hnd.
  assert (Hll : length l = length (comp_nodes g k)) by (rewrite <- comp_graph_n; apply Hwf).
  eapply rel_bind; [apply (fstart_exact (comp_nodes g k) Hnd Hlt l Hll s1 s1' H1)|]. intros s2 s2' _ _ H2.
  pose proof (azp_component_two strategy fstrategy (strat_call expf) (fstrat_call A A) strat_val fstrat_val (comp_graph g k) (comp_symmetric g k Hsym)
    (fun x y l => fboth (comp_nodes g k) l x y) Qeq) as Hc'.
  match goal with [|- rel _ ?m ?m'] => assert (Hres : rel (fun '(l1, t1, r1) '(l1', t1', r1') => l1 = l1' /\ r1 = r1' /\ fboth (comp_nodes g k) l1 t1 t1') m m') end.
  { apply Hc'; auto.
    - intros x x' y y' Ex Ey. apply eq_true_iff_eq. rewrite !Qltb_lt, Ex, Ey. tauto.
    - intros x y l1 Hxy. eapply fboth_val; eauto.
    - intros x y a z l1 rg1 Hwf1 Hm HI. apply (fcall_exact (comp_nodes g k) Hnd Hlt expf l1 a z); auto.
      + rewrite <- comp_graph_n. apply Hwf1.
      + rewrite <- comp_graph_n. apply Hm. }
  match goal with [|- rel _ ?m ?m'] => destruct m as [[[l1 s3] r1]|e|], m' as [[[l1' s3'] r1']|e'|] end; cbn in Hres |- *; auto.
  destruct Hres as [-> [-> H3]]. split; [auto|]. split; [auto|]. eapply fboth_alike; eauto.
Qed.

(** ** the whole fit *)
Definition both_alike (t : option strategy) (t' : option fstrategy) : Prop :=
  match t, t' with Some s, Some s' => falike s s' | None, None => True | _, _ => False end.
Theorem fmaxp_fit_exact fuel max_it entropy labels0 ls ls' r : both_alike ls ls' ->
  rel (fun '(x, t, r1) '(x', t', r1') => x = x' /\ both_alike t t' /\ r1 = r1')
    (maxp_azp_fit expf order (pairwise manhattan) manhattan fuel g attr sp thr max_it entropy labels0 ls r)
    (fmaxp_fit A enum2 order (fpairwise A enum) fuel g attr sp thr max_it entropy labels0 ls' r).
Proof.
  intros Hls. unfold maxp_azp_fit, maxp_fit, fmaxp_fit, fmaxp_fit2. cbv zeta. rewrite fconstruct_exact.
  pose proof (construct_post manhattan g attr sp thr Hsym Hloop Hsh max_it 0 [] r (fun x (H : In x []) => match H with end) (or_intror eq_refl)) as Hk.
  destruct (construct manhattan g attr sp thr max_it 0 [] r) as [[[mp before] r1]|e|]; cbn [bind post] in *; [|destruct Hk|destruct Hk].
  destruct Hk as [Hk _]. rewrite fassign_each_exact.
  2: { intros x Hx. destruct (Hk x Hx) as [_ [F [-> HG]]]. eapply grown_partial; eauto. }
  pose proof (assign_each_post manhattan g attr sp thr Hsym mp before r1 Hk) as Ha.
  destruct (assign_each manhattan g attr before r1) as [[parts r2]|e|] eqn:Ea; cbn [bind post] in *; [|reflexivity|exact Logic.I].
  destruct Ha as [_ Hall].
  assert (HP : forall P, In P parts -> exists l, array_from_region_list P = Ok l /\ length l = gn g /\ ~ In (-1)%Z l).
  { intros P HP. apply In_nth_error in HP. destruct HP as [k HP]. destruct (Forall2_nth_r _ _ _ Hall k P HP) as [x [_ [Hpp _]]].
    destruct (array_of_partition g P Hpp) as [l [El [[Hf _] [Hm _]]]]. exists l. auto. }
  destruct parts as [|P0 parts0]; [cbn; split; [auto|]; split; [|auto]; destruct ls, ls'; auto|].
  set (parts := P0 :: parts0) in *.
  assert (Hj : falike (fst match ls with Some l => (l, r2) | None => (SAzp unstarted, entropy) end)
                      (fst match ls' with Some l => (l, r2) | None => (FAzp unstarted, entropy) end) /\
     snd match ls with Some l => (l, r2) | None => (SAzp unstarted, entropy) end = snd match ls' with Some l => (l, r2) | None => (FAzp unstarted, entropy) end).
  { destruct ls, ls'; try contradiction; cbn; split; auto. constructor. }
  destruct (match ls with Some l => (l, r2) | None => (SAzp unstarted, entropy) end) as [s0 r3],
    (match ls' with Some l => (l, r2) | None => (FAzp unstarted, entropy) end) as [s0' r3'].
  cbn in Hj. destruct Hj as [Hj <-].
  eapply rel_bind.
  { eapply (search_rounds_scale 1 ltac:(reflexivity) strategy fstrategy _ _ _ _ (pairwise manhattan) (fpairwise A enum) attr attr (gn g) falike);
      [| | |exact HP|exact Hj|exact Logic.I].
  - intros s s' Hs. constructor; auto.
  - intros s s' mp' l rg Hs Hl Hm. eapply rel_bind; [apply (fstrat_fit_exact fuel mp' (Some l) s s' rg (conj Hl Hm) Hs)|].
    intros [[x t] r5] [[x' t'] r5'] E _ [H1 [H2 H3]]. cbn in H1, H2, H3 |- *. subst. split; [auto|]. split; [auto|]. split; [auto|].
    intros l1 [= <-]. apply (azp_fit_shape _ _ _ _ _ _ _ (Some l) _ _ _ _ _ Hsym Hord (conj Hl Hm) E).
  - intros l Hl. destruct (whole_scaled A M Hadd Hsub enum Henum attr Hwhole (gn g) ltac:(rewrite <- Hattr; exact HM) (seq 0 (gn g)) l) as [H _];
      [apply seq_NoDup|intros i Hi; apply in_seq in Hi; lia|rewrite seq_length; auto|].
    assert (Em : map (fun i => nth i attr []) (seq 0 (gn g)) = attr) by (rewrite <- Hattr; apply map_nth_seq). rewrite Em in H. exact H. }
  intros [[t x] r4] [[t' x'] r4'] _ _ [H1 [H2 <-]]. cbn. split; [|auto].
    destruct x as [[v l]|], x' as [[v' l']|]; cbn in H2 |- *; try contradiction; auto. destruct H2 as [<- _]. auto.
Qed.
End Whole.
