(** The max-p heuristic in different units. *)
From Verif Require Import Base Spec SpecData M_Graph P_Graph M_Util P_Base P_Util P_Forest P_Init P_Initial M_Objective P_Sum P_Objective
  M_Azp P_Azp P_Strategy P_Fit P_AzpFit M_Sa M_MaxP P_MaxP P_MaxP2 P_MaxP3 P_MaxP4 P_Scale.

Lemma remove_first_In a x : forall l l', remove_first a l = Some l' -> In x l' -> In x l.
Proof.
  induction l as [|b l IH]; intros l' H Hx; cbn in H; [discriminate|]. destruct (Nat.eqb a b); [injection H as <-; right; auto|].
  destruct (remove_first a l) as [t|]; [|discriminate]. injection H as <-. destruct Hx as [<-|Hx]; [left; auto|right; eauto].
Qed.

Section ScaleMaxP.
Variable c : Q.
Hypothesis Hc : (0 < c)%Q.

(** ** construction *)
Section Construct.
Variables d d' : list Q -> list Q -> Q.
Variable g : graph.
Variables attr attr' sp sp' : list (list Q).
Variables thr thr' : list Q.
Hypothesis Hd : forall i j, i < gn g -> j < gn g -> (d' (row attr' i) (row attr' j) == c * d (row attr i) (row attr j))%Q.
Hypothesis Hsa : same_amounts sp sp' thr thr'.

Definition inr (l : list nat) : Prop := forall i, In i l -> i < gn g.

Lemma best_keys_scale f f' keys : (forall k, In k keys -> (f' k == c * f k)%Q) -> best_keys f' keys = best_keys f keys.
Proof.
  intros H. unfold best_keys. apply filter_ext_in. intros k Hk.
  assert (Hb : forall h, Qeq_bool (h k) (minQ (map h keys)) = true <-> (forall k', In k' keys -> (h k <= h k')%Q)).
  { intros h. pose proof (best_keys_In h keys k) as B. unfold best_keys in B. rewrite filter_In in B. tauto. }
  apply eq_true_iff_eq. rewrite !Hb. split; intros K k' Hk'; specialize (K k' Hk').
  - rewrite (H k Hk), (H k' Hk') in K. apply Qmult_le_l in K; auto.
  - rewrite (H k Hk), (H k' Hk'). apply Qmult_le_l; auto.
Qed.
Lemma dissimilarity_scale a R : a < gn g -> inr R -> (dissimilarity d' attr' a R == c * dissimilarity d attr a R)%Q.
Proof.
  intros Ha. unfold dissimilarity. induction R as [|b R IH]; intros HR; cbn [map].
  - rewrite !sumQ_nil. ring.
  - rewrite !sumQ_cons, IH by (intros i Hi; apply HR; right; auto). rewrite Hd by (auto; apply HR; left; auto). ring.
Qed.
Lemma grow_region_scale (T : list Q -> list Q -> Prop) fuel : tests_alike T thr thr' -> (forall i, T (nth i sp []) (nth i sp' [])) -> forall R N x x' U A r, inr R -> inr N -> T x x' ->
  grow_region d' g attr' sp' thr' fuel R N x' U A r = grow_region d g attr sp thr fuel R N x U A r.
Proof.
  intros [T0 [T1 [T2 T3]]] Hs.
  induction fuel as [|fuel IH]; intros R N x x' U A r HR HN Hx; cbn [grow_region];
    rewrite <- (proj1 (T3 _ _ Hx)); destruct (reaches x thr); auto.
  destruct N as [|b N]; [auto|].
  assert (E : find_best_area d' attr' R (b :: N) r = find_best_area d attr R (b :: N) r).
  { unfold find_best_area. rewrite (best_keys_scale (fun a => dissimilarity d attr a R)); [auto|]. intros k Hk. apply dissimilarity_scale; auto. }
  rewrite E. destruct (find_best_area d attr R (b :: N) r) as [[w r1]|e|] eqn:Eb; cbn [bind]; auto.
  unfold find_best_area in Eb. apply random_element_from_inv in Eb. destruct Eb as [Hw _]. apply best_keys_In in Hw. destruct Hw as [Hw _].
  destruct (remove_first w U) as [U'|]; [|auto]. apply IH.
  - intros i Hi. apply set_add_In in Hi. destruct Hi as [->|Hi]; auto.
  - intros i Hi. rewrite set_diff_In, set_union_In, set_discard_In, neighbors_In in Hi. destruct Hi as [[[Hi _]|[Hi _]] _]; auto.
  - apply T1; [auto|]. apply Hs.
Qed.
Lemma grow_region_left k : forall R0 N0 x0 U1 A0 r0 b1 R U2 A2 r2, grow_region d g attr sp thr k R0 N0 x0 U1 A0 r0 = Ok (b1, R, U2, A2, r2) -> inr U1 -> inr U2.
Proof.
  induction k as [|k IH]; intros R0 N0 x0 U1 A0 r0 b1 R U2 A2 r2 H HU1; cbn [grow_region] in H; destruct (reaches x0 thr).
  - injection H as <- <- <- <- <-. auto.
  - discriminate.
  - injection H as <- <- <- <- <-. auto.
  - destruct N0 as [|b N0].
    + binv H. injection H as <- <- <- <- <-. auto.
    + binv H. destruct (remove_first _ _) eqn:Er; [|discriminate]. apply IH in H; auto.
      intros i Hi. apply HU1. eapply remove_first_In; eauto.
Qed.
Lemma grow_loop_scale fuel : forall P E U A r, inr U ->
  grow_loop d' g attr' sp' thr' fuel P E U A r = grow_loop d g attr sp thr fuel P E U A r.
Proof.
  destruct (same_amounts_tests _ _ _ _ Hsa) as [T [HT Hs]].
  induction fuel as [|fuel IH]; intros P E U A r HU; destruct U as [|b U]; cbn [grow_loop]; auto.
  destruct (pop_randomly_from (b :: U) r) as [[[a U1] r1]|e|] eqn:Ep; cbn [bind]; auto.
  apply pop_randomly_from_inv in Ep. destruct Ep as [Hp _].
  assert (Ha : a < gn g) by (apply HU; eapply Permutation_in; [symmetry; exact Hp|left; auto]).
  assert (HU1 : inr U1) by (intros i Hi; apply HU; eapply Permutation_in; [symmetry; exact Hp|right; auto]).
  assert (Er : reaches (row sp' a) thr' = reaches (row sp a) thr).
  { symmetry. apply HT, Hs. }
  rewrite Er. destruct (reaches (row sp a) thr); [apply IH; auto|].
  assert (Eg : grow_region d' g attr' sp' thr' (S (length U1)) [a] (set_diff (neighbors g a) (A ++ [a])) (row sp' a) U1 (A ++ [a]) r1 =
               grow_region d g attr sp thr (S (length U1)) [a] (set_diff (neighbors g a) (A ++ [a])) (row sp a) U1 (A ++ [a]) r1).
  { apply (grow_region_scale T); auto.
    - intros i [<-|[]]; auto.
    - intros i Hi. apply set_diff_In in Hi. destruct Hi as [Hi _]. apply neighbors_In in Hi. tauto.
    - apply Hs. }
  rewrite Eg. destruct (grow_region d g attr sp thr _ _ _ _ _ _ _) as [[[[[b1 R] U2] A2] r2]|e|] eqn:Egr; cbn [bind]; auto.
  assert (HU2 : inr U2).
  { eapply grow_region_left; eauto. }
  destruct b1; apply IH; auto.
Qed.
Lemma construct_scale k : forall mp best r, construct d' g attr' sp' thr' k mp best r = construct d g attr sp thr k mp best r.
Proof.
  induction k as [|k IH]; intros mp best r; cbn [construct]; [auto|].
  assert (E : grow_regions d' g attr' sp' thr' r = grow_regions d g attr sp thr r).
  { apply grow_loop_scale; auto. intros i Hi. apply in_seq in Hi. lia. }
  rewrite E. destruct (grow_regions d g attr sp thr r) as [[[P E1] r1]|e|]; cbn [bind]; auto.
  destruct (Nat.ltb _ _); [apply IH|]. destruct (Nat.eqb _ _); apply IH.
Qed.
Lemma assign_loop_scale fuel : forall P E r, inr (concat P) -> inr E -> assign_loop d' g attr' fuel P E r = assign_loop d g attr fuel P E r.
Proof.
  induction fuel as [|fuel IH]; intros P E r HP HE; destruct E as [|b E]; cbn [assign_loop]; auto.
  destruct (pop_randomly_from (filter _ (b :: E)) r) as [[[a rest] r1]|e|] eqn:Ep; cbn [bind]; auto.
  apply pop_randomly_from_inv in Ep. destruct Ep as [Hp _].
  assert (Ha : In a (b :: E)).
  { assert (H : In a (filter (fun area => existsb (fun neigh => negb (memb neigh (b :: E))) (neighbors g area)) (b :: E))) by
      (eapply Permutation_in; [symmetry; exact Hp|left; auto]). apply filter_In in H. tauto. }
  assert (Hn : forall k, inr (nth k P [])).
  { intros k i Hi. apply HP. apply in_concat. destruct (Nat.lt_ge_cases k (length P)) as [Hk|Hk]; [exists (nth k P []); split; [apply nth_In; auto|auto]|].
    rewrite nth_overflow in Hi by auto. destruct Hi. }
  assert (Ef : find_best_region_idx d' attr' a P (neigh_regions_idx g a P) r1 = find_best_region_idx d attr a P (neigh_regions_idx g a P) r1).
  { unfold find_best_region_idx. destruct (neigh_regions_idx g a P) as [|k ks]; [auto|].
    rewrite (best_keys_scale (fun k => dissimilarity d attr a (nth k P []))); [auto|]. intros j Hj. apply dissimilarity_scale; auto. }
  rewrite Ef. destruct (find_best_region_idx d attr a P _ r1) as [[k r2]|e|]; cbn [bind]; auto.
  destruct (remove_first a (b :: E)) as [E'|] eqn:Er; [|auto]. apply IH.
  - intros i Hi. unfold add_to_region in Hi. apply in_concat in Hi. destruct Hi as [R [HR Hi]]. apply In_nth_error in HR. destruct HR as [j Hj].
    apply nth_error_upd in Hj. destruct Hj as [[-> [_ ->]]|[_ Hj]].
    + apply set_add_In in Hi. destruct Hi as [->|Hi]; [auto|]. apply (Hn k); auto.
    + apply HP. apply in_concat. exists R. split; [eapply nth_error_In; eauto|auto].
  - intros i Hi. apply HE. eapply remove_first_In; eauto.
Qed.
Lemma assign_each_scale : forall before r, (forall x, In x before -> inr (concat (fst x)) /\ inr (snd x)) -> assign_each d' g attr' before r = assign_each d g attr before r.
Proof.
  induction before as [|[P E] before IH]; intros r H; cbn [assign_each]; [auto|].
  destruct (H (P, E) (or_introl eq_refl)) as [H1 H2]. unfold assign_enclaves. rewrite assign_loop_scale by auto.
  destruct (assign_loop d g attr (length E) P E r) as [[P' r1]|e|]; cbn [bind]; auto.
  rewrite IH by (intros x Hx; apply H; right; auto). auto.
Qed.
End Construct.

(** ** search *)
Section Search.
Variables LS LS' : Type.
Variables (wrap : LS -> LS) (wrap' : LS' -> LS').
Variable ls_fit : LS -> Z -> list Z -> rng -> out (option (list Z) * LS * rng).
Variable ls_fit' : LS' -> Z -> list Z -> rng -> out (option (list Z) * LS' * rng).
Variables obj obj' : objfun.
Variables attr attr' : list (list Q).
Variable n : nat.
Variable J : LS -> LS' -> Prop.
Hypothesis Hwrap : forall s s', J s s' -> J (wrap s) (wrap' s').
Hypothesis Hfit : forall s s' mp l r, J s s' -> length l = n -> ~ In (-1)%Z l ->
  rel (fun '(x, t, r1) '(x', t', r1') => x = x' /\ r1 = r1' /\ J t t' /\ forall l, x = Some l -> length l = n) (ls_fit s mp l r) (ls_fit' s' mp l r).
Hypothesis Hobj : forall l, length l = n -> multiple c (o_call obj l attr) (o_call obj' l attr').

Definition bestr (b b' : best) : Prop :=
  match b, b' with None, None => True | Some (v, l), Some (v', l') => l = l' /\ (v' == c * v)%Q | _, _ => False end.
Lemma search_all_scale mp : forall parts s s' b b' r, (forall P, In P parts -> exists l, array_from_region_list P = Ok l /\ length l = n /\ ~ In (-1)%Z l) ->
  J s s' -> bestr b b' ->
  rel (fun '(t, x, r1) '(t', x', r1') => J t t' /\ bestr x x' /\ r1 = r1')
    (search_all LS ls_fit obj attr mp parts s b r) (search_all LS' ls_fit' obj' attr' mp parts s' b' r).
Proof.
  induction parts as [|P parts IH]; intros s s' b b' r HP Hj Hb; cbn [search_all]; [cbn; auto|].
  destruct (HP P (or_introl eq_refl)) as [l0 [-> [Hl0 Hm0]]]. cbn [bind].
  eapply rel_bind; [apply Hfit; auto|]. intros [[x t] r1] [[x' t'] r1'] _ _ [<- [<- [Hj' Hlen]]]. destruct x as [l|]; [|reflexivity].
  eapply rel_bind; [apply (Hobj l), Hlen; auto|]. intros v v' _ _ Hv. cbv zeta. apply IH; [intros; apply HP; right; auto|auto|].
  destruct b as [[w lw]|], b' as [[w' lw']|]; cbn in Hb; try contradiction; [|cbn; auto].
  destruct Hb as [<- Hw]. rewrite <- (scale_ltb c Hc v v' w w' Hv Hw). destruct (Qltb v w); cbn; auto.
Qed.
Lemma search_rounds_scale mp parts : (forall P, In P parts -> exists l, array_from_region_list P = Ok l /\ length l = n /\ ~ In (-1)%Z l) ->
  forall k s s' b b' r, J s s' -> bestr b b' ->
  rel (fun '(t, x, r1) '(t', x', r1') => J t t' /\ bestr x x' /\ r1 = r1')
    (search_rounds LS wrap ls_fit obj attr k mp parts s b r) (search_rounds LS' wrap' ls_fit' obj' attr' k mp parts s' b' r).
Proof.
  intros HP. induction k as [|k IH]; intros s s' b b' r Hj Hb; cbn [search_rounds]; [cbn; auto|].
  eapply rel_bind; [apply search_all_scale; auto|]. intros [[t x] r1] [[t' x'] r1'] _ _ [H1 [H2 <-]]. apply IH; auto.
Qed.

Variables d d' : list Q -> list Q -> Q.
Variable g : graph.
Variables sp sp' : list (list Q).
Variables thr thr' : list Q.
Hypothesis Hn : n = gn g.
Hypothesis Hsym : symmetric g.
Hypothesis Hloop : no_self_loops g.
Hypothesis Hsp : shaped sp thr (gn g).
Hypothesis Hd : forall i j, i < gn g -> j < gn g -> (d' (row attr' i) (row attr' j) == c * d (row attr i) (row attr j))%Q.
Hypothesis Hsa : same_amounts sp sp' thr thr'.

Theorem maxp_fit_scale new new' max_it labels0 ls ls' r :
  match ls, ls' with Some s, Some s' => J s s' | None, None => forall r, J (fst (new r)) (fst (new' r)) /\ snd (new r) = snd (new' r) | _, _ => False end ->
  rel (fun '(x, t, r1) '(x', t', r1') => x = x' /\ match t, t' with Some s, Some s' => J s s' | None, None => True | _, _ => False end /\ r1 = r1')
    (maxp_fit LS wrap ls_fit obj attr new d g sp thr max_it labels0 ls r) (maxp_fit LS' wrap' ls_fit' obj' attr' new' d' g sp' thr' max_it labels0 ls' r).
Proof.
  intros Hls. unfold maxp_fit. rewrite (construct_scale d d' g attr attr' sp sp' thr thr' Hd Hsa).
  pose proof (construct_post d g attr sp thr Hsym Hloop Hsp max_it 0 [] r (fun x (H : In x []) => match H with end) (or_intror eq_refl)) as Hk.
  destruct (construct d g attr sp thr max_it 0 [] r) as [[[mp before] r1]|e|]; cbn [bind post] in *; [|destruct Hk|destruct Hk].
  destruct Hk as [Hk _]. rewrite (assign_each_scale d d' g attr attr' Hd).
  2: { intros x Hx. destruct (Hk x Hx) as [_ [F [-> HG]]]. apply grown_partial in HG.
       destruct HG as [_ [HG _]]. split; intros i Hi; apply HG, in_app_iff; auto. }
  pose proof (assign_each_post d g attr sp thr Hsym mp before r1 Hk) as Ha.
  destruct (assign_each d g attr before r1) as [[parts r2]|e|] eqn:Ea; cbn [bind post] in *; [|reflexivity|exact Logic.I].
  destruct Ha as [_ Hall].
  assert (HP : forall P, In P parts -> exists l, array_from_region_list P = Ok l /\ length l = n /\ ~ In (-1)%Z l).
  { intros P HP. apply In_nth_error in HP. destruct HP as [k HP]. destruct (Forall2_nth_r _ _ _ Hall k P HP) as [x [_ [Hpp _]]].
    destruct (array_of_partition g P Hpp) as [l [El [[Hf _] [Hm _]]]]. exists l. rewrite Hn. auto. }
  destruct parts as [|P0 parts0]; [cbn; split; [auto|]; split; [|auto]; destruct ls, ls'; auto|].
  set (parts := P0 :: parts0) in *.
  assert (Hj : forall r, J (fst match ls with Some l => (l, r) | None => new r end) (fst match ls' with Some l => (l, r) | None => new' r end) /\
     snd match ls with Some l => (l, r) | None => new r end = snd match ls' with Some l => (l, r) | None => new' r end).
  { intros r0. destruct ls, ls'; try contradiction; auto. }
  specialize (Hj r2). destruct (match ls with Some l => (l, r2) | None => new r2 end) as [s0 r3], (match ls' with Some l => (l, r2) | None => new' r2 end) as [s0' r3'].
  cbn in Hj. destruct Hj as [Hj <-]. eapply rel_bind; [apply (search_rounds_scale mp parts HP (length parts) s0 s0' None None r3 Hj Logic.I)|].
  intros [[t x] r4] [[t' x'] r4'] _ _ [H1 [H2 <-]]. cbn. split; [|auto].
  destruct x as [[v l]|], x' as [[v' l']|]; cbn in H2 |- *; try contradiction; auto. destruct H2 as [<- _]. auto.
Qed.
End Search.

(** ** with AZP or simulated annealing as local search *)
Variable expf : Q -> Q.
Hypothesis Hexp : forall x y, (x == y)%Q -> (expf x == expf y)%Q.
Variable order : list edge -> list edge.
Hypothesis Hord : forall l, Permutation (order l) l.
Variables O O' : objfun.
Variables d d' : list Q -> list Q -> Q.
Variable g : graph.
Variables attr attr' sp sp' : list (list Q).
Variables thr thr' : list Q.
Hypothesis Hsym : symmetric g.
Hypothesis Hloop : no_self_loops g.
Hypothesis Hsp : shaped sp thr (gn g).
Hypothesis Hlen : length attr = gn g /\ length attr' = gn g.
Hypothesis Hd : forall i j, i < gn g -> j < gn g -> (d' (row attr' i) (row attr' j) == c * d (row attr i) (row attr j))%Q.
Hypothesis Hsa : same_amounts sp sp' thr thr'.
Hypothesis Hscale : scaled c (gn g) O O' attr attr'.

Lemma scaled_whole l : length l = gn g -> multiple c (o_call O l attr) (o_call O' l attr').
Proof.
  intros Hl. destruct Hlen as [H1 H2]. destruct (Hscale (seq 0 (gn g)) l) as [H _]; [apply seq_NoDup|intros i Hi; apply in_seq in Hi; lia|rewrite seq_length; auto|].
  assert (Hm : forall a : list (list Q), length a = gn g -> map (fun i => nth i a []) (seq 0 (gn g)) = a) by (intros a <-; apply map_nth_seq).
  rewrite !Hm in H by auto. exact H.
Qed.
Definition both_alike (t t' : option strategy) : Prop :=
  match t, t' with Some s, Some s' => alike c s s' | None, None => True | _, _ => False end.
Theorem maxp_azp_scale fuel max_it entropy labels0 ls ls' r : both_alike ls ls' ->
  rel (fun '(x, t, r1) '(x', t', r1') => x = x' /\ both_alike t t' /\ r1 = r1')
    (maxp_azp_fit expf order O d fuel g attr sp thr max_it entropy labels0 ls r)
    (maxp_azp_fit expf order O' d' fuel g attr' sp' thr' max_it entropy labels0 ls' r).
Proof.
  intros Hls. unfold maxp_azp_fit. apply (maxp_fit_scale strategy strategy _ _ _ _ O O' attr attr' (gn g) (alike c)); auto.
  - intros s s' Hs. constructor; auto.
  - intros s s' mp l r0 Hs Hl Hm. eapply rel_bind; [apply (azp_fit_scale c Hc O O' g attr attr' Hsym Hscale order Hord expf Hexp fuel mp (Some l) s s' r0 (conj Hl Hm) Hs)|].
    intros [[x t] r1] [[x' t'] r1'] E _ [H1 [H2 H3]]. cbn in H1, H2, H3 |- *. subst. split; [auto|]. split; [auto|]. split; [auto|].
    intros l1 [= <-]. apply (azp_fit_shape _ _ _ _ _ _ _ (Some l) _ _ _ _ _ Hsym Hord (conj Hl Hm) E).
  - apply scaled_whole.
  - destruct ls, ls'; auto. intros r0. cbn. split; [constructor|auto].
Qed.
Theorem maxp_sa_scale azp_fuel fuel cooling args t' max_it labels0 mem r : (t' == c * sa_init_temperature args)%Q ->
  rel eq
    (maxp_sa_fit expf order O d azp_fuel fuel cooling args g attr sp thr max_it labels0 mem r)
    (maxp_sa_fit expf order O' d' azp_fuel fuel cooling (mkSaArgs t' (sa_maxit args) (sa_moves_term args) (sa_nonmoving_steps args) (sa_reps args)) g attr' sp' thr'
       max_it labels0 mem r).
Proof.
  intros Ht. unfold maxp_sa_fit.
  match goal with [|- rel _ ?m ?m'] => assert (H : rel (fun '(x, t, r1) '(x', t', r1') => x = x' /\ match t, t' with Some s, Some s' => s = s' | None, None => True | _, _ => False end /\ r1 = r1') m m') end.
  { apply (maxp_fit_scale sa_memory sa_memory _ _ _ _ O O' attr attr' (gn g) eq); auto.
    - intros s s' mp l r0 <- Hl Hm.
      pose proof (sa_fit_scale c Hc O O' g attr attr' Hsym Hscale order Hord expf Hexp azp_fuel mp fuel cooling (Some l) args s r0 t' (conj Hl Hm) Ht) as H.
      match type of H with rel _ ?m ?m' => destruct m as [[[x s1] r1]|e|] eqn:E, m' as [[[x' s1'] r1']|e'|] end; cbn in H |- *; auto.
      destruct H as [H K]. injection H as <- <- <-. split; [auto|]. split; [auto|]. split; [auto|]. intros l1 ->. exact K.
    - apply scaled_whole. }
  match type of H with rel _ ?m ?m' => destruct m as [[[x s1] r1]|e|], m' as [[[x' s1'] r1']|e'|] end; cbn in H |- *; auto.
  destruct H as [<- [H2 <-]]. destruct s1, s1'; try contradiction; subst; auto.
Qed.
End ScaleMaxP.
