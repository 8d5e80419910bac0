(** Two fits side by side: the same labels and draws when the two objects decide alike. *)
From Verif Require Import Base Spec M_Graph P_Graph M_Util P_Base P_Util P_Forest P_Init M_Objective P_Sum P_Objective
  M_Azp P_Azp P_Strategy P_Fit.

(** ** one component *)
Section Loops.
Variables (St St' : Type).
Variable call : St -> nat -> Z -> list Z -> rng -> out (bool * St * rng).
Variable call' : St' -> nat -> Z -> list Z -> rng -> out (bool * St' * rng).
Variables (objv : St -> Q) (objv' : St' -> Q).
Variable g : graph.
Hypothesis Hsym : symmetric g.
(** the two states while the labels are the given ones *)
Variable I : St -> St' -> list Z -> Prop.
(** objective values that compare alike *)
Variable V : Q -> Q -> Prop.
Hypothesis HV : forall x x' y y', V x x' -> V y y' -> Qltb x y = Qltb x' y'.
Hypothesis Hobj : forall s s' l, I s s' l -> V (objv s) (objv' s').
Hypothesis Hcall : forall s s' a r l rg, wf g l -> legal_move g l a r -> I s s' l ->
  rel (fun '(b, s1, r1) '(b', s1', r1') => b = b' /\ r1 = r1' /\ I s1 s1' (if b : bool then upd l a r else l))
      (call s a r l rg) (call' s' a r l rg).

Lemma try_candidates_two r : forall k cands labels rn s s' rg, length cands <= k ->
  wf g labels -> rn_ok g labels rn -> (forall a, In a cands -> legal_move g labels a r) -> I s s' labels ->
  rel (fun '(m, l, rn1, s1, r1) '(m', l', rn1', s1', r1') =>
         m = m' /\ l = l' /\ rn1 = rn1' /\ r1 = r1' /\ I s1 s1' l /\ wf g l /\ rn_ok g l rn1 /\ same_labels l labels)
    (try_candidates St call g k cands r labels rn s rg) (try_candidates St' call' g k cands r labels rn s' rg).
Proof.
  induction k as [|k IH]; intros cands labels rn s s' rg Hk Hwf Hrn Hc HI; destruct cands as [|c0 cs]; cbn [try_candidates length] in *.
  - cbn. do 7 (split; auto). apply same_labels_refl.
  - lia.
  - cbn. do 7 (split; auto). apply same_labels_refl.
  - destruct (pop_randomly_from_Ok (c0 :: cs) rg ltac:(discriminate)) as [x [rest [Ep Hp]]]. rewrite Ep. cbn [bind].
    assert (Hx : In x (c0 :: cs)) by (rewrite Hp; left; auto).
    pose proof (Hc x Hx) as Hlx.
    eapply rel_bind; [apply Hcall; eauto|]. intros [[b s1] r2] [[b' s1'] r2'] _ _ [<- [<- Hb]]. destruct b.
    + pose proof (after_move_ok g labels rn x r Hsym Hwf Hrn Hlx) as Ham.
      destruct (after_move g x r labels rn) as [labels' rn']. destruct Ham as [-> Hrn'].
      destruct (legal_upd g labels x r Hwf Hlx) as [Hwf' Hset]. cbn. do 7 (split; auto).
    + pose proof (Permutation_length Hp) as Hl. cbn in Hl. apply IH; auto; [lia|].
      intros a Ha. apply Hc. rewrite Hp. right; auto.
Qed.

Lemma grow_recipient_two r : forall fuel labels rn s s' rg,
  wf g labels -> rn_ok g labels rn -> In r labels -> I s s' labels ->
  rel (fun '(l, rn1, s1, r1) '(l', rn1', s1', r1') =>
         l = l' /\ rn1 = rn1' /\ r1 = r1' /\ I s1 s1' l /\ wf g l /\ rn_ok g l rn1 /\ same_labels l labels)
    (grow_recipient St call g fuel r labels rn s rg) (grow_recipient St' call' g fuel r labels rn s' rg).
Proof.
  induction fuel as [|fuel IH]; intros labels rn s s' rg Hwf Hrn Hr HI; cbn [grow_recipient]; [exact Logic.I|].
  destruct (Hrn r Hr) as [ns [Hns _]]. rewrite Hns. cbn [bind].
  pose proof (candidates_legal g labels rn r ns Hsym Hwf Hr Hrn Hns) as Hcl.
  eapply rel_bind; [apply try_candidates_two; auto; intros a Ha; apply Hcl; auto|].
  intros [[[[m l] rn1] s1] r1] [[[[m' l'] rn1'] s1'] r1'] _ _ [<- [<- [<- [<- [H1 [H2 [H3 H4]]]]]]]. destruct m.
  - assert (H : rel (fun '(l1, rn2, s2, r2) '(l1', rn2', s2', r2') =>
         l1 = l1' /\ rn2 = rn2' /\ r2 = r2' /\ I s2 s2' l1 /\ wf g l1 /\ rn_ok g l1 rn2 /\ same_labels l1 l)
      (grow_recipient St call g fuel r l rn1 s1 r1) (grow_recipient St' call' g fuel r l rn1 s1' r1)).
    { apply IH; auto. apply H4; auto. }
    destruct (grow_recipient St call g fuel r l rn1 s1 r1) as [[[[l1 rn2] s2] r2]|e|],
      (grow_recipient St' call' g fuel r l rn1 s1' r1) as [[[[l1' rn2'] s2'] r2']|e'|]; cbn in H |- *; auto.
    destruct H as [K1 [K2 [K3 [K4 [K5 [K6 K7]]]]]]. do 6 (split; auto). eapply same_labels_trans; eauto.
  - cbn. do 6 (split; auto).
Qed.

Lemma azp_pass_two fuel : forall k regions labels rn s s' rg, length regions <= k ->
  wf g labels -> rn_ok g labels rn -> (forall r, In r regions -> In r labels) -> I s s' labels ->
  rel (fun '(l, rn1, s1, r1) '(l', rn1', s1', r1') =>
         l = l' /\ rn1 = rn1' /\ r1 = r1' /\ I s1 s1' l /\ wf g l /\ rn_ok g l rn1 /\ same_labels l labels)
    (azp_pass St call g fuel k regions labels rn s rg) (azp_pass St' call' g fuel k regions labels rn s' rg).
Proof.
  induction k as [|k IH]; intros regions labels rn s s' rg Hk Hwf Hrn Hreg HI;
    destruct regions as [|r0 rs]; cbn [azp_pass length] in *; try lia.
  - cbn. do 6 (split; auto). apply same_labels_refl.
  - cbn. do 6 (split; auto). apply same_labels_refl.
  - destruct (pop_randomly_from_Ok (r0 :: rs) rg ltac:(discriminate)) as [x [rest [Ep Hp]]]. rewrite Ep. cbn [bind].
    assert (Hx : In x (r0 :: rs)) by (rewrite Hp; left; auto).
    pose proof (Permutation_length Hp) as Hl. cbn in Hl.
    eapply rel_bind; [apply grow_recipient_two; auto|].
    intros [[[l rn1] s1] r1] [[[l' rn1'] s1'] r1'] _ _ [<- [<- [<- [H1 [H2 [H3 H4]]]]]].
    assert (H : rel (fun '(l1, rn2, s2, r2) '(l1', rn2', s2', r2') =>
         l1 = l1' /\ rn2 = rn2' /\ r2 = r2' /\ I s2 s2' l1 /\ wf g l1 /\ rn_ok g l1 rn2 /\ same_labels l1 l)
      (azp_pass St call g fuel k rest l rn1 s1 r1) (azp_pass St' call' g fuel k rest l rn1 s1' r1)).
    { apply IH; auto; [lia|]. intros r Hr. apply H4. apply Hreg. rewrite Hp. right; auto. }
    destruct (azp_pass St call g fuel k rest l rn1 s1 r1) as [[[[l1 rn2] s2] r2]|e|],
      (azp_pass St' call' g fuel k rest l rn1 s1' r1) as [[[[l1' rn2'] s2'] r2']|e'|]; cbn in H |- *; auto.
    destruct H as [K1 [K2 [K3 [K4 [K5 [K6 K7]]]]]]. do 6 (split; auto). eapply same_labels_trans; eauto.
Qed.

Lemma azp_loop_two labels0 : forall fuel start start' labels rn s s' rg,
  wf g labels -> rn_ok g labels rn -> same_labels labels labels0 -> I s s' labels ->
  match start, start' with None, None => True | Some v, Some v' => V v v' | _, _ => False end ->
  rel (fun '(l, s1, r1) '(l', s1', r1') => l = l' /\ r1 = r1' /\ I s1 s1' l)
    (azp_loop St call objv g fuel start (uniqueZ labels0) labels rn s rg)
    (azp_loop St' call' objv' g fuel start' (uniqueZ labels0) labels rn s' rg).
Proof.
  induction fuel as [|fuel IH]; intros start start' labels rn s s' rg Hwf Hrn Hset HI Hst; cbn [azp_loop];
    pose proof (Hobj s s' labels HI) as Ev;
    assert (Ec : match start with None => true | Some v => Qltb (objv s) v end =
                 match start' with None => true | Some v => Qltb (objv' s') v end)
      by (destruct start as [v|], start' as [v'|]; try contradiction; auto);
    rewrite <- Ec; destruct (match start with None => true | Some v => Qltb (objv s) v end); cbn [rel]; auto.
  eapply rel_bind; [apply azp_pass_two with (k := length (uniqueZ labels0)); auto|].
  - intros r Hr. apply Hset. apply uniqueZ_In; auto.
  - intros [[[l rn1] s1] r1] [[[l' rn1'] s1'] r1'] _ _ [<- [<- [<- [H1 [H2 [H3 H4]]]]]].
    apply IH; auto. eapply same_labels_trans; eauto.
Qed.

Theorem azp_component_two fuel labels s s' rg : wf g labels -> I s s' labels ->
  rel (fun '(l, s1, r1) '(l', s1', r1') => l = l' /\ r1 = r1' /\ I s1 s1' l)
    (azp_component St call objv g fuel labels s rg) (azp_component St' call' objv' g fuel labels s' rg).
Proof.
  intros Hwf HI. unfold azp_component. destruct (uniqueZ labels) as [|r0 [|r1 rs]] eqn:Eu; cbn [rel]; auto.
  rewrite <- Eu. apply azp_loop_two; auto; [apply init_rn_ok; apply Hwf|apply same_labels_refl].
Qed.
End Loops.

(** ** all components *)
Section Fit.
Variables (S S' : Type).
Variable start : S -> list Z -> list (list Q) -> list nat -> out S.
Variable start' : S' -> list Z -> list (list Q) -> list nat -> out S'.
Variable component : graph -> list Z -> list (list Q) -> S -> rng -> out (list Z * S * rng).
Variable component' : graph -> list Z -> list (list Q) -> S' -> rng -> out (list Z * S' * rng).
Variable order : list edge -> list edge.
Variable g : graph.
Variables attr attr' : list (list Q).
(** the two states between components *)
Variable J : S -> S' -> Prop.
Hypothesis Hcomp : forall c labels_c s s' r, c < n_components g -> wf (comp_graph g c) labels_c -> J s s' ->
  rel (fun '(l, s1, r1) '(l', s1', r1') => l = l' /\ r1 = r1' /\ J s1 s1')
    (run_component S start component g attr c labels_c s r) (run_component S' start' component' g attr' c labels_c s' r).

Definition two_acc (x : (list Z * S) * rng) (y : (list Z * S') * rng) : Prop :=
  fst (fst x) = fst (fst y) /\ snd x = snd y /\ J (snd (fst x)) (snd (fst y)).

Lemma fit_one_two c arr labels s s' r : c < n_components g -> length arr = gn g ->
  (forall a, a < gn g -> (nth_error arr a = Some (-1)%Z <-> comp_label g a <> c)) ->
  wf (comp_graph g c) (comp_part g arr c) -> J s s' ->
  rel two_acc (fit_one S start component g attr (YArr arr) (labels, s) r)
              (fit_one S' start' component' g attr' (YArr arr) (labels, s') r).
Proof.
  intros Hc Harr Hout Hwf HJ.
  assert (Hidx : filter (fun a => negb (Z.eqb (lab arr a) (-1))) (seq 0 (length arr)) = comp_nodes g c).
  { unfold comp_nodes. rewrite Harr. apply filter_ext_in. intros a Ha. apply in_seq in Ha.
    apply eq_true_iff_eq. rewrite negb_true_iff, Z.eqb_neq, Nat.eqb_eq.
    specialize (Hout a ltac:(lia)). split.
    - intros Hne. destruct (Nat.eq_dec (comp_label g a) c) as [->|Hn]; [auto|].
      exfalso. apply Hne, lab_of_nth_error, Hout. exact Hn.
    - intros Hce Hl. apply Hout in Hce; auto. rewrite <- Hl. apply lab_nth_error. lia. }
  cbn [fit_one fst snd]. rewrite Hidx. fold (comp_graph g c). fold (comp_part g arr c).
  pose proof (Hcomp c (comp_part g arr c) s s' r Hc Hwf HJ) as Hp. unfold run_component in Hp.
  set (m := bind (start s (comp_part g arr c) (map (row attr) (comp_nodes g c)) (comp_nodes g c)) _) in Hp.
  set (m' := bind (start' s' (comp_part g arr c) (map (row attr') (comp_nodes g c)) (comp_nodes g c)) _) in Hp.
  assert (E : forall (k : list Z * S * rng -> out ((list Z * S) * rng)),
     bind (start s (comp_part g arr c) (map (row attr) (comp_nodes g c)) (comp_nodes g c))
       (fun s1 => bind (component (comp_graph g c) (comp_part g arr c) (map (row attr) (comp_nodes g c)) s1 r) k) = bind m k).
  { intros k. unfold m. destruct (start s _ _ _); reflexivity. }
  assert (E' : forall (k : list Z * S' * rng -> out ((list Z * S') * rng)),
     bind (start' s' (comp_part g arr c) (map (row attr') (comp_nodes g c)) (comp_nodes g c))
       (fun s1 => bind (component' (comp_graph g c) (comp_part g arr c) (map (row attr') (comp_nodes g c)) s1 r) k) = bind m' k).
  { intros k. unfold m'. destruct (start' s' _ _ _); reflexivity. }
  rewrite E, E'. eapply rel_bind; [exact Hp|].
  intros [[l s1] r1] [[l' s1'] r1'] _ _ [<- [<- HJ1]].
  destruct (assign_idx labels (comp_nodes g c) l); cbn; auto. split; [auto|]. split; auto.
Qed.

Lemma fit_arrays_two labels0 : wf g labels0 -> ~ In (-1)%Z labels0 -> forall k labels s s' r, k <= n_components g -> J s s' ->
  rel two_acc
    (fit_arrays S start component g attr (map (separate_one g labels0) (seq (n_components g - k) k)) (labels, s) r)
    (fit_arrays S' start' component' g attr' (map (separate_one g labels0) (seq (n_components g - k) k)) (labels, s') r).
Proof.
  intros Hwf Hm1. induction k as [|k IH]; intros labels s s' r Hk HJ; cbn [seq map fit_arrays].
  - cbn. split; [auto|]. split; auto.
  - set (c := n_components g - Datatypes.S k). assert (Hc : c < n_components g) by lia.
    destruct Hwf as [Hlen Hall].
    assert (Hcp : comp_part g (separate_one g labels0 c) c = comp_part g labels0 c).
    { unfold comp_part, gather. apply map_ext_in. intros a Ha. apply comp_nodes_In in Ha. destruct Ha as [Ha Hca].
      pose proof (separate_one_in g labels0 c a Hlen Ha Hca) as Hs.
      rewrite (nth_error_nth labels0 a (-1)%Z (x := lab labels0 a)) by (apply lab_nth_error; lia).
      apply nth_error_nth. rewrite Hs. apply lab_nth_error. lia. }
    eapply rel_bind.
    + apply (fit_one_two c); auto; [apply separate_one_length| |].
      * intros a Ha. split.
        -- intros Hs Hca. rewrite separate_one_in in Hs by auto. apply Hm1. eapply nth_error_In; eauto.
        -- apply separate_one_out; auto.
      * rewrite Hcp. apply wf_part. split; auto.
    + intros [[l s1] r1] [[l' s1'] r1'] _ _ [H1 [H2 H3]]. cbn [fst snd] in H1, H2, H3. subst l' r1'.
      replace (Datatypes.S c) with (n_components g - k) by lia. apply IH; auto. lia.
Qed.

Lemma gen_comps_two : (forall l, Permutation (order l) l) -> forall items built labels s s' r,
  (forall comp k, In (comp, k) items -> comp < n_components g /\ 1 <= k <= length (comp_nodes g comp)) -> J s s' ->
  rel two_acc (gen_comps order g (fit_one S start component g attr) items built (labels, s) r)
              (gen_comps order g (fit_one S' start' component' g attr') items built (labels, s') r).
Proof.
  intros Hord. induction items as [|[comp k] items IH]; intros built labels s s' r Hit HJ; cbn [gen_comps].
  - cbn. split; [auto|]. split; auto.
  - destruct (Hit comp k (or_introl eq_refl)) as [Hc Hk].
    destruct (initial_for_comp_spec order g comp k built r Hord Hc Hk) as [arr [r1 [E1 [Glen [Gout [Gin Gcon]]]]]].
    rewrite E1. cbn [bind]. eapply rel_bind.
    + apply (fit_one_two comp); auto.
      * intros a Ha. split; [|apply Gout; auto]. intros E0 Hca. destruct (Gin a Ha Hca) as [z [E2 Hz]].
        rewrite E0 in E2. injection E2 as <-. lia.
      * split; [apply comp_part_length|]. intros z Hz. apply comp_part_In in Hz; auto.
        destruct Hz as [a [Ha [Hca Ez]]]. destruct (Gin a Ha Hca) as [z' [Ez' Hz']].
        rewrite Ez in Ez'. injection Ez' as <-. pose proof (Gcon z Hz') as Hcz.
        apply (contiguous_ext _ (fun k => exists x, nth_error (comp_nodes g comp) k = Some x /\ region arr z x)).
        -- intros i. symmetry. apply comp_part_region; auto.
        -- apply sub_contiguous_inv; auto; [apply comp_nodes_NoDup|]. intros x Hx.
           assert (Hxg : x < gn g) by (apply nth_error_lt in Hx; lia).
           apply comp_nodes_In. split; [auto|]. destruct (Nat.eq_dec (comp_label g x) comp) as [Heq|Hne]; [auto|].
           apply Gout in Hne; auto. unfold region in Hx. rewrite Hne in Hx. injection Hx as <-. lia.
    + intros [[l s1] r2] [[l' s1'] r2'] _ _ [H1 [H2 H3]]. cbn [fst snd] in H1, H2, H3. subst l' r2'.
      apply IH; auto. intros c k' H. apply Hit. right; auto.
Qed.

Theorem fit_two n_regions initial s s' r : (forall l, Permutation (order l) l) ->
  match initial with Some l => length l = gn g /\ ~ In (-1)%Z l | None => True end -> J s s' ->
  rel two_acc (fit S start component order g attr n_regions initial s r)
              (fit S' start' component' order g attr' n_regions initial s' r).
Proof.
  intros Hord Hsh HJ. unfold fit. destruct initial as [l|].
  - destruct Hsh as [Hlen Hm1]. destruct (assert_feasible l g (Some n_regions)) as [[]|e|] eqn:Ef; cbn [bind rel]; auto.
    apply assert_feasible_Ok in Ef; [|lia]. rewrite (proj2 (Nat.eqb_eq _ _) Hlen). destruct Ef as [_ Hall].
    unfold separate_components. pose proof (fit_arrays_two l (conj Hlen Hall) Hm1 (n_components g) (minus_ones (gn g)) s s' r) as Hp.
    rewrite Nat.sub_diag in Hp. apply Hp; auto.
  - unfold generate_initial_sol. destruct (Nat.eqb_spec (gn g) 0); cbn [rel]; auto.
    destruct (Z.ltb_spec (Z.of_nat (gn g)) n_regions); cbn [rel]; auto.
    destruct (Z.eqb_spec n_regions 1); [cbn; auto|]. destruct (Z.ltb_spec n_regions (Z.of_nat (n_components g))); cbn [rel]; auto.
    destruct (distribute_spec (component_labels g) (n_components g) (Z.to_nat n_regions) r) as [d [r1 [Ed [Hk [Hs Hcap]]]]].
    + apply component_labels_numbered.
    + apply n_components_pos; lia.
    + lia.
    + rewrite component_labels_length. lia.
    + rewrite Ed. cbn [bind]. apply gen_comps_two; auto.
      intros comp k Hin. destruct (Hcap comp k Hin) as [H1 H2].
      assert (Hc : In comp (map fst d)) by (apply in_map_iff; exists (comp, k); auto).
      rewrite Hk in Hc. apply in_seq in Hc. rewrite count_occ_comp_labels in H2. lia.
Qed.
End Fit.
