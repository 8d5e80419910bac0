(** AZP on graphs in which a link may be one-sided: what holds without [symmetric]. *)
From Verif Require Import Base Spec M_Graph P_Graph M_Util P_Base P_Util P_Forest P_Init P_Initial
  M_Objective P_Sum P_Objective M_Azp P_Azp P_Strategy P_Fit P_AzpFit.

(** the areas recorded as neighbours of a region are outside of it *)
Definition rn_out (g : graph) (l : list Z) (rn : list (Z * list nat)) : Prop :=
  forall r, In r l -> exists s, dget rn r = Ok s /\ forall a, In a s -> a < gn g /\ lab l a <> r.
(** a move into an existing region out of a region with another area *)
Definition loose (g : graph) (l : list Z) (a : nat) (r : Z) : Prop :=
  a < gn g /\ lab l a <> r /\ In r l /\ exists b, b <> a /\ nth_error l b = nth_error l a.

Lemma init_rn_out g l : length l = gn g -> rn_out g l (init_region_neighbors g l).
Proof.
  intros Hlen r Hr. destruct (init_rn_ok g l Hlen r Hr) as [s [Hs Hin]]. exists s. split; [auto|]. intros a Ha. apply Hin in Ha.
  destruct Ha as [Ha [Hni _]]. split; [auto|]. intros E. apply Hni. unfold region. rewrite <- E. apply lab_nth_error. lia.
Qed.
Lemma candidates_loose g l rn r s : length l = gn g -> In r l -> rn_out g l rn -> dget rn r = Ok s ->
  forall a, In a (filter (is_candidate g l) s) -> loose g l a r.
Proof.
  intros Hlen Hr Hrn Hs a Ha. apply filter_In in Ha. destruct Ha as [Ha Hc]. destruct (Hrn r Hr) as [s' [Hs' Hin]]. rewrite Hs in Hs'. injection Hs' as <-.
  destruct (Hin a Ha) as [Hg Hne]. split; [auto|]. split; [auto|]. split; [auto|].
  pose proof (lab_nth_error l a ltac:(lia)) as HD. apply (is_candidate_spec g l a _ HD) in Hc. destruct Hc as [[b [Hb Hba]] _].
  exists b. split; [auto|]. rewrite HD. exact Hb.
Qed.
Lemma loose_same g l a r : length l = gn g -> loose g l a r -> same_labels (upd l a r) l.
Proof.
  intros Hlen [Ha [Hne [Hr [b [Hba Eb]]]]] z. split; intros Hz.
  - apply In_upd in Hz. destruct Hz as [-> | Hz]; auto.
  - apply In_nth_error in Hz. destruct Hz as [i Hi]. destruct (Nat.eq_dec i a) as [->|Hia].
    + apply (nth_error_In (upd l a r) b). rewrite nth_error_upd_ne by auto. congruence.
    + apply (nth_error_In (upd l a r) i). rewrite nth_error_upd_ne by auto. auto.
Qed.
Lemma after_move_out g l rn a r : length l = gn g -> rn_out g l rn -> loose g l a r ->
  let '(l', rn') := after_move g a r l rn in l' = upd l a r /\ rn_out g l' rn'.
Proof.
  intros Hlen Hrn Hl. pose proof (loose_same g l a r Hlen Hl) as Hset. destruct Hl as [Ha [Hne [Hr [b [Hba Eb]]]]].
  unfold after_move, make_move. split; [reflexivity|]. set (l' := upd l a r) in *. set (D := lab l a) in *.
  intros s Hs. apply Hset in Hs. destruct (Hrn s Hs) as [ns [Hns Hin]]. rewrite !dget_modify.
  assert (Hla : lab l' a = r) by (apply lab_upd_eq; lia).
  assert (Hlx : forall x, x <> a -> lab l' x = lab l x) by (intros; apply lab_upd_ne; auto).
  destruct (Z.eqb_spec s D) as [->|HsD].
  - destruct (Z.eqb_spec D r) as [E|_]; [congruence|]. rewrite Hns. cbn [bind]. eexists. split; [reflexivity|]. intros x Hx.
    apply set_diff_In in Hx. destruct Hx as [Hx _]. apply set_add_In in Hx. destruct (Nat.eq_dec x a) as [->|Hxa].
    + rewrite Hla. auto.
    + rewrite Hlx by auto. apply Hin. destruct Hx as [Hx|Hx]; [congruence|auto].
  - destruct (Z.eqb_spec s r) as [->|Hsr].
    + rewrite Hns. cbn [bind]. eexists. split; [reflexivity|]. intros x Hx. apply set_diff_In in Hx. destruct Hx as [Hx Hw].
      assert (Hxg : x < gn g) by (apply set_union_In in Hx; destruct Hx as [Hx|Hx]; [apply set_discard_In in Hx; apply Hin; tauto|apply neighbors_In in Hx; tauto]).
      split; [auto|]. intros E. apply Hw, where_eq_In. rewrite <- E. apply lab_nth_error. unfold l'. rewrite upd_length. lia.
    + exists ns. split; [auto|]. intros x Hx. destruct (Hin x Hx) as [Hxg Hxs]. split; [auto|].
      destruct (Nat.eq_dec x a) as [->|Hxa]; [rewrite Hla; auto|rewrite Hlx; auto].
Qed.

(** ** the loops, for any strategy that can answer loose moves *)
Section Loops.
Variable St : Type.
Variable call : St -> nat -> Z -> list Z -> rng -> out (bool * St * rng).
Variable objv : St -> Q.
Variable g : graph.
Variable E : exn -> Prop.
Variable N : Prop.
Variable I : St -> list Z -> Prop.
Hypothesis Hcall : forall s a r l rg, length l = gn g -> loose g l a r -> I s l ->
  post E N (call s a r l rg) (fun '(b, s', _) => I s' (if b : bool then upd l a r else l)).

Lemma try_loose r : forall k cands l rn s rg, length cands <= k -> length l = gn g -> rn_out g l rn ->
  (forall a, In a cands -> loose g l a r) -> I s l ->
  post E N (try_candidates St call g k cands r l rn s rg)
    (fun '(moved, l', rn', s', _) => length l' = gn g /\ rn_out g l' rn' /\ same_labels l' l /\ I s' l' /\
       if moved : bool then exists a, loose g l a r /\ l' = upd l a r else l' = l).
Proof.
  induction k as [|k IH]; intros cands l rn s rg Hk Hl Hrn Hc HI; destruct cands as [|c0 cs]; cbn [try_candidates length] in *.
  - cbn. split; [auto|]. split; [auto|]. split; [apply same_labels_refl|]. auto.
  - lia.
  - cbn. split; [auto|]. split; [auto|]. split; [apply same_labels_refl|]. auto.
  - destruct (pop_randomly_from_Ok (c0 :: cs) rg ltac:(discriminate)) as [x [rest [Ep Hp]]]. rewrite Ep. cbn [bind].
    assert (Hx : In x (c0 :: cs)) by (rewrite Hp; left; auto). pose proof (Hc x Hx) as Hlx.
    eapply post_bind; [apply Hcall; eauto|]. intros [[b s'] r2] _ Hb. destruct b.
    + pose proof (after_move_out g l rn x r Hl Hrn Hlx) as Ham. destruct (after_move g x r l rn) as [l' rn']. destruct Ham as [-> Hrn'].
      cbn. split; [rewrite upd_length; auto|]. split; [auto|]. split; [apply (loose_same g); auto|]. split; [auto|]. eauto.
    + pose proof (Permutation_length Hp) as Hlp. cbn in Hlp. apply IH; auto; [lia|]. intros a Ha. apply Hc. rewrite Hp. right; auto.
Qed.

Lemma loose_outside l a r : length l = gn g -> loose g l a r -> outside g (upd l a r) r < outside g l r.
Proof.
  intros Hlen [Ha [Hne _]]. unfold outside. apply filter_length_lt with (x := a).
  - intros y _ Hy. destruct (Nat.eq_dec y a) as [->|Hya].
    + rewrite lab_upd_eq, Z.eqb_refl in Hy by lia. discriminate.
    + rewrite lab_upd_ne in Hy by auto. auto.
  - apply in_seq. lia.
  - apply negb_true_iff. apply Z.eqb_neq. auto.
  - rewrite lab_upd_eq by lia. rewrite Z.eqb_refl. reflexivity.
Qed.

Lemma grow_loose r : forall fuel l rn s rg, (N \/ outside g l r < fuel) -> length l = gn g -> rn_out g l rn -> In r l -> I s l ->
  post E N (grow_recipient St call g fuel r l rn s rg)
    (fun '(l', rn', s', _) => length l' = gn g /\ rn_out g l' rn' /\ same_labels l' l /\ I s' l').
Proof.
  induction fuel as [|fuel IH]; intros l rn s rg Hf Hl Hrn Hr HI; cbn [grow_recipient].
  - cbn. destruct Hf as [H|H]; [auto|lia].
  - destruct (Hrn r Hr) as [ns [Hns _]]. rewrite Hns. cbn [bind].
    eapply post_bind; [apply (try_loose r (length (filter (is_candidate g l) ns))); auto; apply (candidates_loose g l rn r ns Hl Hr Hrn Hns)|].
    intros [[[[m l'] rn'] s'] r'] _ [H1 [H2 [H3 [H4 H5]]]]. destruct m.
    + destruct H5 as [a [Hla ->]]. pose proof (loose_outside l a r Hl Hla) as Hout.
      eapply post_weaken; [| | |apply (IH (upd l a r) rn' s' r')]; auto.
      * intros [[[l2 rn2] s2] r2] _ [K1 [K2 [K3 K4]]]. split; [auto|]. split; [auto|]. split; [eapply same_labels_trans; eauto|auto].
      * destruct Hf as [Hf|Hf]; [auto|right; lia].
      * apply H3; auto.
    + cbn. auto.
Qed.

Lemma pass_loose fuel : (N \/ gn g < fuel) -> forall k regions l rn s rg, length regions <= k -> length l = gn g -> rn_out g l rn ->
  (forall r, In r regions -> In r l) -> I s l ->
  post E N (azp_pass St call g fuel k regions l rn s rg)
    (fun '(l', rn', s', _) => length l' = gn g /\ rn_out g l' rn' /\ same_labels l' l /\ I s' l').
Proof.
  intros Hf. induction k as [|k IH]; intros regions l rn s rg Hk Hl Hrn Hreg HI; destruct regions as [|r0 rs]; cbn [azp_pass length] in *; try lia.
  - cbn. split; [auto|]. split; [auto|]. split; [apply same_labels_refl|auto].
  - cbn. split; [auto|]. split; [auto|]. split; [apply same_labels_refl|auto].
  - destruct (pop_randomly_from_Ok (r0 :: rs) rg ltac:(discriminate)) as [x [rest [Ep Hp]]]. rewrite Ep. cbn [bind].
    assert (Hx : In x (r0 :: rs)) by (rewrite Hp; left; auto). pose proof (Permutation_length Hp) as Hlp. cbn in Hlp.
    eapply post_bind; [apply (grow_loose x); auto|].
    { destruct Hf as [Hf|Hf]; [auto|right]. pose proof (outside_le g l x). lia. }
    intros [[[l1 rn1] s1] r1] _ [H1 [H2 [H3 H4]]].
    eapply post_weaken; [| | |apply (IH rest l1 rn1 s1 r1)]; auto; try lia.
    + intros [[[l2 rn2] s2] r2] _ [K1 [K2 [K3 K4]]]. split; [auto|]. split; [auto|]. split; [eapply same_labels_trans; eauto|auto].
    + intros r Hr. apply H3. apply Hreg. rewrite Hp. right; auto.
Qed.

Variable m : Q -> nat.
Variable labels0 : list Z.
Hypothesis Hdec : N \/ forall s l s' l', length l = gn g -> same_labels l labels0 -> I s l ->
  length l' = gn g -> same_labels l' labels0 -> I s' l' -> (objv s' < objv s)%Q -> m (objv s') < m (objv s).

Lemma loop_loose : forall fuel start l rn s rg, length l = gn g -> rn_out g l rn -> same_labels l labels0 -> I s l ->
  (N \/ ((forall v, start = Some v -> (objv s < v)%Q) -> m (objv s) + gn g + 1 < fuel)) ->
  post E N (azp_loop St call objv g fuel start (uniqueZ labels0) l rn s rg)
    (fun '(l', s', _) => length l' = gn g /\ same_labels l' labels0 /\ I s' l').
Proof.
  induction fuel as [|fuel IH]; intros start l rn s rg Hl Hrn Hset HI Hf; cbn [azp_loop].
  - destruct (match start with None => true | Some v => Qltb (objv s) v end) eqn:Ec; [|cbn; auto].
    cbn. destruct Hf as [Hf|Hf]; [auto|]. exfalso. assert (m (objv s) + gn g + 1 < 0); [|lia]. apply Hf. intros v ->. apply Qltb_lt; auto.
  - destruct (match start with None => true | Some v => Qltb (objv s) v end) eqn:Ec; [|cbn; auto].
    assert (Hf' : N \/ m (objv s) + gn g < fuel).
    { destruct Hf as [Hf|Hf]; [auto|right]. assert (m (objv s) + gn g + 1 < S fuel); [|lia]. apply Hf. intros v ->. apply Qltb_lt; auto. }
    eapply post_bind; [apply (pass_loose fuel) with (k := length (uniqueZ labels0)); auto|].
    + destruct Hf' as [?|?]; [auto|right; lia].
    + intros r Hr. apply Hset. apply uniqueZ_In; auto.
    + intros [[[l1 rn1] s1] r1] _ [H1 [H2 [H3 H4]]]. assert (Hset1 : same_labels l1 labels0) by (eapply same_labels_trans; eauto).
      apply IH; auto. destruct Hf' as [?|Hf']; [auto|]. destruct Hdec as [?|Hd]; [auto|right].
      intros Hlt. specialize (Hlt _ eq_refl). pose proof (Hd s l s1 l1 Hl Hset HI H1 Hset1 H4 Hlt). lia.
Qed.

Theorem component_loose fuel s rg : length labels0 = gn g -> labels0 <> [] -> I s labels0 -> (N \/ m (objv s) + gn g + 1 < fuel) ->
  post E N (azp_component St call objv g fuel labels0 s rg)
    (fun '(l', s', _) => length l' = gn g /\ same_labels l' labels0 /\ I s' l').
Proof.
  intros Hl Hne HI Hf. unfold azp_component. destruct (uniqueZ labels0) as [|r0 [|r1 rs]] eqn:Eu.
  - exfalso. destruct labels0 as [|x l]; [congruence|]. assert (H : In x (uniqueZ (x :: l))) by (apply uniqueZ_In; left; auto).
    rewrite Eu in H. destruct H.
  - cbn. split; [auto|]. split; [apply same_labels_refl|auto].
  - rewrite <- Eu. apply loop_loose; auto; [apply init_rn_out; auto|apply same_labels_refl|]. destruct Hf as [Hf|Hf]; auto.
Qed.
End Loops.

(** ** AZP.fit with the default strategy *)
Section Fit.
Variables (expf : Q -> Q) (O : objfun) (attr : list (list Q)) (g : graph).
Hypothesis Hattr : length attr = gn g.
Hypothesis Hex : exact_on O attr.
Variable N : Prop.

Lemma loose_call attr1 g1 v0 s a r l rg : exact_objective O attr1 -> length attr1 = gn g1 -> length l = gn g1 -> loose g1 l a r ->
  az_I O attr1 v0 s l ->
  post noexn N (strat_call expf s a r l rg) (fun '(b, s', _) => az_I O attr1 v0 s' (if b : bool then upd l a r else l)).
Proof.
  intros Hx Hla Hlen Hl [c [-> [Ht Hv0]]]. cbn [strat_call]. destruct Hl as [Ha [Hne [Hr Hmate]]].
  pose proof Ht as [Ho [Hat [x [Ex Hxv]]]]. pose proof Hx as [_ [Hup _]]. destruct (Hup a r l ltac:(lia) ltac:(lia) Hr Hmate) as [q Eq].
  assert (Ecall : exists b c', azp_call c a r l = Ok (b, c')).
  { unfold azp_call. rewrite Ho, Hat, Eq. cbn [bind]. destruct (Qle_bool q 0); eauto. }
  destruct Ecall as [b [c' Ec]]. rewrite Ec. cbn [bind post].
  destruct (azp_call_post O attr1 c l a r Hx ltac:(lia) ltac:(lia) Ht b c' Ec) as [x' [y [Ex' [Ey [Hb Hc']]]]].
  rewrite Ex in Ex'. injection Ex' as <-. destruct b.
  - assert (Hyx : (y <= x)%Q) by (apply Hb; auto). pose proof Hc' as [Ho' [Hat' [y' [Ey' Hy']]]].
    rewrite Ey in Ey'. injection Ey' as <-. exists c'. split; [reflexivity|]. split; [exact Hc'|]. lra.
  - subst c'. exists c. auto.
Qed.

Definition loose_R (c : nat) (l l' : list Z) : Prop :=
  length l' = length l /\ same_labels l' l /\ exists x y, o_call O l (attr_c attr g c) = Ok x /\ o_call O l' (attr_c attr g c) = Ok y /\ (y <= x)%Q.

Theorem azp_fit_loose order fuel p initial c0 r : (forall l, Permutation (order l) l) -> good_input g p initial ->
  (N \/ gn g ^ gn g + gn g + 1 < fuel) ->
  post noexn N (azp_fit expf order O fuel g attr p initial (SAzp c0) r)
    (fun '((labels, s'), _) => exists labels0, started_from g p initial labels0 /\ length labels = gn g /\
       forall c, c < n_components g -> loose_R c (comp_part g labels0 c) (comp_part g labels c)).
Proof.
  intros Hord Hgood Hfuel. unfold azp_fit.
  eapply (post_weaken noexn noexn N N); [auto|auto| |
    apply (fit_post strategy _ _ order g attr noexn N (fun s => exists c, s = SAzp c) loose_R)]; auto.
  - intros [[labels s'] r'] _ [_ H]. exact H.
  - intros c l s rg Hc Hwf [cc ->]. unfold run_component. cbn [strat_start]. fold (attr_c attr g c). unfold start_common.
    pose proof (attr_c_exact O attr Hex g Hattr c) as Hexc. pose proof Hexc as [Hcall _]. pose proof (attr_c_length attr g c) as Hac.
    assert (Hll : length l = length (attr_c attr g c)) by (rewrite Hac; apply Hwf).
    destruct (Hcall l Hll) as [x Ex]. rewrite Ex. cbn [bind]. set (s1 := SAzp (mkCommon (attr_c attr g c) O x)).
    assert (HI : az_I O (attr_c attr g c) x s1 l).
    { eexists. split; [reflexivity|]. split; [|cbn; lra]. split; [auto|]. split; [auto|]. exists x. split; [auto|reflexivity]. }
    assert (Hf : N \/ az_m O (attr_c attr g c) (comp_graph g c) l (strat_val s1) + gn (comp_graph g c) + 1 < fuel).
    { destruct Hfuel as [HN|Hfuel]; [auto|right]. pose proof (az_m_bound O (attr_c attr g c) (comp_graph g c) l (strat_val s1) (proj1 Hwf)) as Hb.
      pose proof (comp_graph_le g c) as Hle. destruct (Nat.eq_dec (gn (comp_graph g c)) 0) as [E0|E0].
      - rewrite E0 in *. change (0 ^ 0) with 1 in Hb. destruct (Nat.eq_dec (gn g) 0) as [E1|E1]; [rewrite E1 in Hfuel; cbn in Hfuel; lia|].
        assert (1 <= gn g ^ gn g) by (change 1 with (gn g ^ 0); apply Nat.pow_le_mono_r; lia). lia.
      - assert (gn (comp_graph g c) ^ gn (comp_graph g c) <= gn g ^ gn g).
        { etransitivity; [apply Nat.pow_le_mono_l; eauto|]. apply Nat.pow_le_mono_r; lia. }
        lia. }
    eapply (post_weaken noexn noexn N N); [auto|auto| |
      apply (component_loose strategy (strat_call expf) strat_val (comp_graph g c) noexn N (az_I O (attr_c attr g c) x)) with (m := az_m O (attr_c attr g c) (comp_graph g c) l)]; auto.
    + intros [[l' s'] r'] _ [Hl' [Hs' [c' [-> [[_ [_ [y [Ey Hy]]]] Hle]]]]].
      split; [eauto|]. split; [destruct Hwf; lia|]. split; [destruct Hwf; lia|]. split; [auto|]. exists x, y. repeat split; auto. lra.
    + intros s2 a r0 l2 rg2 H1 H2 H3. apply (loose_call (attr_c attr g c) (comp_graph g c)); auto.
    + right. intros s2 l2 s3 l3 _ _ _ Hl3 Hs3 [c3 [-> [[_ [_ [v' [Ev' Hv']]]] _]]] Hlt. cbn [strat_val] in *.
      unfold az_m. apply filter_length_lt with (x := l3).
      * intros y _ Hy. destruct (o_call O y (attr_c attr g c)) as [q|e|]; auto. apply Qltb_lt in Hy. apply Qltb_lt. lra.
      * apply words_In; auto. intros z Hz. apply uniqueZ_In, Hs3; auto.
      * rewrite Ev'. apply Qltb_lt. lra.
      * rewrite Ev'. apply Qltb_ge. lra.
    + apply Hwf.
    + eapply comp_part_nonempty; eauto.
  - eauto.
Qed.
End Fit.
