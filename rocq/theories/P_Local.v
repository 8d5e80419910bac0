(** A run reads finitely many draws: what comes after them is free.  Hence the possible answers of a fit
    without initial labels are those of fits with initial labels. *)
From Verif Require Import Base Spec M_Graph P_Graph M_Util P_Base P_Util P_Forest P_Init P_Initial P_Skater
  M_Objective P_Sum P_Objective M_Azp P_Azp P_Strategy P_Fit P_AzpFit M_Sa M_Tabu P_Greedy P_Zoning P_Starts.

Definition local {A} (m : rng -> out (A * rng)) : Prop :=
  forall r x r', m r = Ok (x, r') -> forall q', exists q, m q = Ok (x, q').

Lemma local_ret {A} (o : out A) : local (fun r => match o with Ok x => Ok (x, r) | Raise e => Raise e | NoFuel => NoFuel end).
Proof. intros r x r' H q'. destruct o; try discriminate. injection H as <- <-. eauto. Qed.

Lemma pop_local {A} (l : list A) r x rest r' : pop_randomly_from l r = Ok (x, rest, r') ->
  forall q', exists q, pop_randomly_from l q = Ok (x, rest, q').
Proof.
  unfold pop_randomly_from, randrange. destruct (Nat.eqb_spec (length l) 0); cbn [bind]; [discriminate|].
  destruct (nth_error l (r 0 mod length l)) eqn:E; [|discriminate]. intros H q'. injection H as <- <- <-.
  exists (rcons (r 0) q'). change (rcons (r 0) q' 0) with (r 0). rewrite E. reflexivity.
Qed.

Lemma element_local {A} (l : list A) r x r' : random_element_from l r = Ok (x, r') ->
  forall q', exists q, random_element_from l q = Ok (x, q').
Proof.
  unfold random_element_from, randrange. destruct (Nat.eqb_spec (length l) 0); cbn [bind]; [discriminate|].
  destruct (nth_error l (r 0 mod length l)) eqn:E; [|discriminate]. intros H q'. injection H as <- <-.
  exists (rcons (r 0) q'). change (rcons (r 0) q' 0) with (r 0). rewrite E. reflexivity.
Qed.

Lemma strat_call_local expf s : forall a k labels r b s' r', strat_call expf s a k labels r = Ok (b, s', r') ->
  forall q', exists q, strat_call expf s a k labels q = Ok (b, s', q').
Proof.
  induction s as [c|c t sa term reached moved|c sp_all sp thr inner IH]; intros a k labels r b s' r' H q'; cbn [strat_call] in *.
  - destruct (azp_call c a k labels) as [[b0 c']|e|]; cbn [bind] in *; try discriminate. injection H as <- <- <-. eauto.
  - unfold sa_call in *. destruct (o_update _ _ _ _ _) as [diff|e|]; cbn [bind] in *; try discriminate.
    destruct (Qle_bool diff 0); [injection H as <- <- <-; eauto|].
    exists (rcons (r 0) q'). unfold random_random in *. change (rcons (r 0) q' 0) with (r 0).
    destruct (Qltb _ _); injection H as <- <- <-; reflexivity.
  - destruct (donor_ok _ _ _ _); [|injection H as <- <- <-; eauto].
    destruct (strat_call expf inner a k labels r) as [[[b1 i1] r1]|e|] eqn:E; cbn [bind] in *; try discriminate.
    injection H as <- <- <-. destruct (IH _ _ _ _ _ _ _ E q') as [q Eq]. exists q. rewrite Eq. reflexivity.
Qed.

Section AzpLocal.
Variable St : Type.
Variable call : St -> nat -> Z -> list Z -> rng -> out (bool * St * rng).
Variable objv : St -> Q.
Variable g : graph.
Hypothesis Hcall : forall s a k labels r b s' r', call s a k labels r = Ok (b, s', r') ->
  forall q', exists q, call s a k labels q = Ok (b, s', q').

Lemma try_local k : forall cands K labels rn s r x r', try_candidates St call g k cands K labels rn s r = Ok (x, r') ->
  forall q', exists q, try_candidates St call g k cands K labels rn s q = Ok (x, q').
Proof.
  induction k as [|k IH]; intros [|c cands] K labels rn s r x r' H q'; cbn [try_candidates] in *; try discriminate;
    try (injection H as <- <-; eauto; fail).
  destruct (pop_randomly_from (c :: cands) r) as [[[cand cands'] r1]|e|] eqn:E1; cbn [bind] in H; try discriminate.
  destruct (call s cand K labels r1) as [[[ok s'] r2]|e|] eqn:E2; cbn [bind] in H; try discriminate.
  assert (Hrest : exists q2, (if ok then let '(l', rn') := after_move g cand K labels rn in Ok (true, l', rn', s', q2)
      else try_candidates St call g k cands' K labels rn s' q2) = Ok (x, q')).
  { destruct ok; [|eapply IH; eauto]. destruct (after_move g cand K labels rn). injection H as <- _. eauto. }
  destruct Hrest as [q2 Hq2]. destruct (Hcall _ _ _ _ _ _ _ _ E2 q2) as [q1 Hq1]. destruct (pop_local _ _ _ _ _ E1 q1) as [q Hq].
  exists q. rewrite Hq. cbn [bind]. rewrite Hq1. cbn [bind]. exact Hq2.
Qed.

Lemma grow_local f : forall K labels rn s r x r', grow_recipient St call g f K labels rn s r = Ok (x, r') ->
  forall q', exists q, grow_recipient St call g f K labels rn s q = Ok (x, q').
Proof.
  induction f as [|f IH]; intros K labels rn s r x r' H q'; cbn [grow_recipient] in *; [discriminate|].
  destruct (dget rn K) as [ns|e|]; cbn [bind] in *; try discriminate.
  destruct (try_candidates St call g _ _ K labels rn s r) as [[[[[mv l1] rn1] s1] r1]|e|] eqn:E; cbn [bind] in H; try discriminate.
  assert (Hrest : exists q1, (if mv then grow_recipient St call g f K l1 rn1 s1 q1 else Ok (l1, rn1, s1, q1)) = Ok (x, q')).
  { destruct mv; [eapply IH; eauto|injection H as <- _; eauto]. }
  destruct Hrest as [q1 H1]. destruct (try_local _ _ _ _ _ _ _ _ _ E q1) as [q Hq]. exists q. rewrite Hq. cbn [bind]. exact H1.
Qed.

Lemma pass_local f k : forall regions labels rn s r x r', azp_pass St call g f k regions labels rn s r = Ok (x, r') ->
  forall q', exists q, azp_pass St call g f k regions labels rn s q = Ok (x, q').
Proof.
  induction k as [|k IH]; intros [|c regions] labels rn s r x r' H q'; cbn [azp_pass] in *; try discriminate;
    try (injection H as <- <-; eauto; fail).
  destruct (pop_randomly_from (c :: regions) r) as [[[K regions'] r1]|e|] eqn:E1; cbn [bind] in H; try discriminate.
  destruct (grow_recipient St call g f K labels rn s r1) as [[[[l1 rn1] s1] r2]|e|] eqn:E2; cbn [bind] in H; try discriminate.
  destruct (IH _ _ _ _ _ _ _ H q') as [q2 H2]. destruct (grow_local _ _ _ _ _ _ _ _ E2 q2) as [q1 H1].
  destruct (pop_local _ _ _ _ _ E1 q1) as [q Hq]. exists q. rewrite Hq. cbn [bind]. rewrite H1. cbn [bind]. exact H2.
Qed.

Lemma loop_local f : forall start regions labels rn s r x r', azp_loop St call objv g f start regions labels rn s r = Ok (x, r') ->
  forall q', exists q, azp_loop St call objv g f start regions labels rn s q = Ok (x, q').
Proof.
  induction f as [|f IH]; intros start regions labels rn s r x r' H q'; cbn [azp_loop] in *.
  - destruct (match start with Some _ => _ | None => _ end); [discriminate|]. injection H as <- <-. eauto.
  - destruct (match start with Some _ => _ | None => _ end); [|injection H as <- <-; eauto].
    destruct (azp_pass St call g f _ regions labels rn s r) as [[[[l1 rn1] s1] r2]|e|] eqn:E2; cbn [bind] in H; try discriminate.
    destruct (IH _ _ _ _ _ _ _ _ H q') as [q2 H2]. destruct (pass_local _ _ _ _ _ _ _ _ _ E2 q2) as [q1 H1].
    exists q1. rewrite H1. cbn [bind]. exact H2.
Qed.

Lemma component_local f labels s r x r' : azp_component St call objv g f labels s r = Ok (x, r') ->
  forall q', exists q, azp_component St call objv g f labels s q = Ok (x, q').
Proof.
  intros H q'. unfold azp_component in *. destruct (uniqueZ labels) as [|z [|z' us]]; [discriminate|injection H as <- <-; eauto|].
  eapply loop_local; eauto.
Qed.
End AzpLocal.

Section TabuLocal.
Variable obj : objfun.
Variable g : graph.

Lemma basic_loop_local f maxlen reps attr : forall stop visited labels tabu c r x r',
  basic_loop obj g f maxlen reps attr stop visited labels tabu c r = Ok (x, r') ->
  forall q', exists q, basic_loop obj g f maxlen reps attr stop visited labels tabu c q = Ok (x, q').
Proof.
  induction f as [|f IH]; intros stop visited labels tabu c r x r' H q'; cbn [basic_loop] in *; [discriminate|].
  destruct (best_of _ _ _ _ _ _) as [best|e|]; cbn [bind] in *; try discriminate.
  match type of H with context [bind ?m _] => destruct m as [[[[made l1] t1] c1]|e|]; cbn [bind] in *; try discriminate end.
  destruct made; [eapply IH; eauto|].
  destruct (improving_tabus _ _ _ _) as [its|e|]; cbn [bind] in *; try discriminate.
  assert (Hfin : forall l2 t2 c2 r2,
    (if stop || Nat.leb reps (visits visited labels) then Ok (l2, c2, r2)
     else let* '(l3, t3, c3) := match best with Some (m, _, _) => try_move g maxlen m l2 t2 c2 | None => Ok (l2, t2, c2) end in
       basic_loop obj g f maxlen reps attr (stop || Nat.leb reps (visits visited labels)) (visited ++ [labels]) l3 t3 c3 r2) = Ok (x, r') ->
    exists q2, (if stop || Nat.leb reps (visits visited labels) then Ok (l2, c2, q2)
     else let* '(l3, t3, c3) := match best with Some (m, _, _) => try_move g maxlen m l2 t2 c2 | None => Ok (l2, t2, c2) end in
       basic_loop obj g f maxlen reps attr (stop || Nat.leb reps (visits visited labels)) (visited ++ [labels]) l3 t3 c3 q2) = Ok (x, q')).
  { intros l2 t2 c2 r2 H2. destruct (stop || _); [injection H2 as <- _; eauto|].
    destruct (match best with Some _ => _ | None => _ end) as [[[l3 t3] c3]|e|]; cbn [bind] in *; try discriminate. eapply IH; eauto. }
  destruct its as [|m0 its]; cbn [bind] in *; [exact (Hfin _ _ _ _ H)|].
  destruct (random_element_from (m0 :: its) r) as [[m r1]|e|] eqn:E1; cbn [bind] in H; try discriminate.
  destruct (try_move g maxlen m l1 t1 c1) as [[[l2 t2] c2]|e|] eqn:E2; cbn [bind] in H; try discriminate.
  destruct (Hfin _ _ _ _ H) as [q1 H1]. destruct (element_local _ _ _ _ E1 q1) as [q Hq].
  exists q. rewrite Hq. cbn [bind]. rewrite E2. cbn [bind]. exact H1.
Qed.

Lemma basic_component_local f maxlen reps labels attr c r x r' : basic_component obj g f maxlen reps labels attr c r = Ok (x, r') ->
  forall q', exists q, basic_component obj g f maxlen reps labels attr c q = Ok (x, q').
Proof.
  unfold basic_component. destruct (Nat.eqb _ 1); [intros H; injection H as <- <-; eauto|]. apply basic_loop_local.
Qed.

Lemma random_moves_local p : forall moves labels tabu c r x r', random_moves g p moves labels tabu c r = Ok (x, r') ->
  forall q', exists q, random_moves g p moves labels tabu c q = Ok (x, q').
Proof.
  induction p as [|p IH]; intros moves labels tabu c r x r' H q'; cbn [random_moves] in *; [injection H as <- <-; eauto|].
  destruct (pop_randomly_from moves r) as [[[m ms] r1]|e|] eqn:E1; cbn [bind] in H; try discriminate.
  destruct (try_move g (Some 1) m labels tabu c) as [[[l2 t2] c2]|e|] eqn:E2; cbn [bind] in H; try discriminate.
  destruct (IH _ _ _ _ _ _ _ H q') as [q1 H1]. destruct (pop_local _ _ _ _ _ E1 q1) as [q Hq].
  exists q. rewrite Hq. cbn [bind]. rewrite E2. cbn [bind]. exact H1.
Qed.

Lemma reactive_loop_local maxit k1 k2 attr : forall start ls labels tabu s r x r',
  reactive_loop obj g maxit k1 k2 attr start ls labels tabu s r = Ok (x, r') ->
  forall q', exists q, reactive_loop obj g maxit k1 k2 attr start ls labels tabu s q = Ok (x, q').
Proof.
  induction maxit as [|maxit IH]; intros start ls labels tabu s r x r' H q'; cbn [reactive_loop] in *; [injection H as <- <-; eauto|].
  destruct (o_call obj labels attr) as [v|e|]; cbn [bind] in *; try discriminate.
  destruct (negb _); [injection H as <- <-; eauto|].
  destruct (best_of _ _ _ _ _ _) as [[[[m i] d]|]|e|]; cbn [bind] in *; try discriminate.
  destruct (try_move g (Some 1) m labels tabu (rt_common s)) as [[[l1 t1] c1]|e|] eqn:E2; cbn [bind] in *; try discriminate.
  destruct (_ && _); [|eapply IH; eauto]. destruct (Nat.leb _ _); [|discriminate].
  destruct (random_moves g _ _ _ _ _ r) as [[[[l2 t2] c2] r2]|e|] eqn:E3; cbn [bind] in H; try discriminate.
  destruct (IH _ _ _ _ _ _ _ _ H q') as [q1 H1]. destruct (random_moves_local _ _ _ _ _ _ _ _ E3 q1) as [q Hq].
  exists q. rewrite Hq. cbn [bind]. exact H1.
Qed.

Lemma reactive_component_local maxit k1 k2 labels attr s r x r' : reactive_component obj g maxit k1 k2 labels attr s r = Ok (x, r') ->
  forall q', exists q, reactive_component obj g maxit k1 k2 labels attr s q = Ok (x, q').
Proof.
  unfold reactive_component. destruct (Nat.eqb _ 1); [intros H; injection H as <- <-; eauto|]. intros H q'.
  destruct (reactive_loop _ _ _ _ _ _ _ _ _ _ _ r) as [[[[l1 s1] ls] r1]|e|] eqn:E; cbn [bind] in H; try discriminate.
  destruct (reactive_result _ _) as [l|e|] eqn:E2; cbn [bind] in H; try discriminate. injection H as <- _.
  destruct (reactive_loop_local _ _ _ _ _ _ _ _ _ _ _ _ E q') as [q Hq]. exists q. rewrite Hq. cbn [bind]. rewrite E2. reflexivity.
Qed.
End TabuLocal.

(** ** A fit without initial labels *)
Section FitLocal.
Variable order : list edge -> list edge.
Variable g : graph.
Hypothesis Hord : forall l, Permutation (order l) l.
Variable S : Type.
Variable start : S -> list Z -> list (list Q) -> list nat -> out S.
Variable component : graph -> list Z -> list (list Q) -> S -> rng -> out (list Z * S * rng).
Variable attr : list (list Q).
Hypothesis Hcomp : forall adj labels rows s r x r', component adj labels rows s r = Ok (x, r') ->
  forall q', exists q, component adj labels rows s q = Ok (x, q').

Let one := fit_one S start component g attr.
Let all := fit_arrays S start component g attr.

Lemma fit_one_local y acc r x r' : one y acc r = Ok (x, r') -> forall q', exists q, one y acc q = Ok (x, q').
Proof.
  unfold one. destruct y as [arr|n]; cbn [fit_one]; [|discriminate]. intros H q'.
  destruct (start _ _ _ _) as [s1|e|]; cbn [bind] in *; try discriminate.
  destruct (component _ _ _ s1 r) as [[[l s2] r1]|e|] eqn:E; cbn [bind] in H; try discriminate.
  destruct (assign_idx _ _ _) as [l'|e|] eqn:E2; cbn [bind] in H; try discriminate. injection H as <- _.
  destruct (Hcomp _ _ _ _ _ _ _ E q') as [q Hq]. exists q. rewrite Hq. cbn [bind]. rewrite E2. reflexivity.
Qed.

Lemma initial_for_comp_runs h c r : c < n_components g -> 1 <= h c <= length (comp_nodes g c) ->
  exists arr r', initial_for_comp order g c (h c) (base h c) r = Ok (arr, r').
Proof. intros Hc Hh. destruct (initial_for_comp_spec order g c (h c) (base h c) r Hord Hc Hh) as [arr [r' [E _]]]. eauto. Qed.

Lemma gen_comps_answers h : (forall c, c < n_components g -> 1 <= h c <= length (comp_nodes g c)) ->
  forall m c acc o, c + m <= n_components g ->
  ((exists r, answer (gen_comps order g one (map (fun k => (k, h k)) (seq c m)) (base h c) acc r) = o) <->
   exists ff, (forall k, c <= k < c + m -> length (kept order g ff k) + h k = length (comp_nodes g k)) /\
     exists r, answer (all (map (arr_of order g h ff) (seq c m)) acc r) = o).
Proof.
  intros Hb. induction m as [|m IH]; intros c acc o Hcm.
  - cbn [seq map gen_comps]. split.
    + intros [r H]. exists (fun _ _ => true). split; [intros; lia|]. exists r. exact H.
    + intros [ff [_ [r H]]]. exists r. exact H.
  - cbn [seq map gen_comps]. rewrite <- (base_S g). split.
    + intros [r H].
      destruct (initial_for_comp_runs h c r ltac:(lia) (Hb c ltac:(lia))) as [arr [r1 E1]]. rewrite E1 in H. cbn [bind] in H.
      destruct (initial_for_comp_sound order g Hord c (h c) (base h c) r arr r1 ltac:(lia) (Hb c ltac:(lia)) E1) as [f [Hf Earr]].
      assert (Hex : forall ff, (forall k, Datatypes.S c <= k < Datatypes.S c + m -> length (kept order g ff k) + h k = length (comp_nodes g k)) ->
        exists ff', (forall k, c <= k < c + Datatypes.S m -> length (kept order g ff' k) + h k = length (comp_nodes g k)) /\
          arr_of order g h ff' c = arr /\ forall k, c < k -> arr_of order g h ff' k = arr_of order g h ff k).
      { intros ff Hff. exists (fun k => if Nat.eqb k c then f else ff k).
        assert (Hkc : kept order g (fun k => if Nat.eqb k c then f else ff k) c = keep f (tree order g c)) by (unfold kept; rewrite Nat.eqb_refl; auto).
        assert (Hk : forall k, c < k -> kept order g (fun k => if Nat.eqb k c then f else ff k) k = kept order g ff k).
        { intros k Hk. unfold kept. destruct (Nat.eqb_spec k c); [lia|auto]. }
        split; [|split].
        - intros k Hkk. destruct (Nat.eq_dec k c) as [->|Hne]; [rewrite Hkc; exact Hf|]. rewrite Hk by lia. apply Hff. lia.
        - unfold arr_of, cells. rewrite Hkc. auto.
        - intros k Hkk. unfold arr_of, cells. rewrite Hk by lia. auto. }
      assert (Hmap : forall ff ff', (forall k, c < k -> arr_of order g h ff' k = arr_of order g h ff k) ->
        map (arr_of order g h ff') (seq (Datatypes.S c) m) = map (arr_of order g h ff) (seq (Datatypes.S c) m)).
      { intros ff ff' Hk. apply map_ext_in. intros k Hk'. apply in_seq in Hk'. apply Hk. lia. }
      assert (Hsome : exists ff, forall k, Datatypes.S c <= k < Datatypes.S c + m -> length (kept order g ff k) + h k = length (comp_nodes g k)).
      { assert (Hm : forall k, k < n_components g -> exists f0, length (keep f0 (tree order g k)) + h k = length (comp_nodes g k)).
        { intros k Hk. destruct (initial_for_comp_runs h k r Hk (Hb k Hk)) as [a2 [r3 E3]].
          destruct (initial_for_comp_sound order g Hord k (h k) (base h k) r a2 r3 Hk (Hb k Hk) E3) as [f0 [Hf0 _]]. eauto. }
        assert (Hch : forall N, N <= n_components g -> exists ff, forall k, k < N -> length (kept order g ff k) + h k = length (comp_nodes g k)).
        { induction N as [|N IHN]; intros HN; [exists (fun _ _ => true); intros; lia|].
          destruct (IHN ltac:(lia)) as [ff Hff]. destruct (Hm N ltac:(lia)) as [f0 Hf0].
          exists (fun k => if Nat.eqb k N then f0 else ff k). intros k Hk. unfold kept in *. destruct (Nat.eqb_spec k N) as [->|]; [auto|].
          apply Hff. lia. }
        destruct (Hch (n_components g) (le_n _)) as [ff Hff]. exists ff. intros k Hk. apply Hff. lia. }
      destruct (one (YArr arr) acc r1) as [[acc1 r2]|e|] eqn:E2; cbn [bind] in H.
      * destruct (proj1 (IH (Datatypes.S c) acc1 o ltac:(lia)) (ex_intro _ r2 H)) as [ff [Hff [q1 Hq1]]].
        destruct (Hex ff Hff) as [ff' [Hff' [Ea Ek]]]. exists ff'. split; [exact Hff'|].
        destruct (fit_one_local _ _ _ _ _ E2 q1) as [q Hq]. exists q. cbn [all fit_arrays]. unfold all. cbn [fit_arrays].
        rewrite Ea. fold one. rewrite Hq. cbn [bind]. rewrite (Hmap ff ff' Ek). exact Hq1.
      * destruct Hsome as [ff Hff]. destruct (Hex ff Hff) as [ff' [Hff' [Ea Ek]]]. exists ff'. split; [exact Hff'|].
        exists r1. unfold all. cbn [fit_arrays]. rewrite Ea. fold one. rewrite E2. exact H.
      * destruct Hsome as [ff Hff]. destruct (Hex ff Hff) as [ff' [Hff' [Ea Ek]]]. exists ff'. split; [exact Hff'|].
        exists r1. unfold all. cbn [fit_arrays]. rewrite Ea. fold one. rewrite E2. exact H.
    + intros [ff [Hff [r H]]]. unfold all in H. cbn [fit_arrays] in H. fold one in H.
      assert (Hin : forall q, exists q0, initial_for_comp order g c (h c) (base h c) q0 = Ok (arr_of order g h ff c, q)).
      { intros q. pose proof (Hff c ltac:(lia)) as Hfc. pose proof (tree_length order g Hord c ltac:(lia)) as Ht. pose proof (Hb c ltac:(lia)) as Hbc.
        unfold initial_for_comp. fold (comp_graph g c). unfold randomly_divide_connected_graph.
        rewrite comp_graph_n. destruct (Nat.eqb_spec (h c) 0); [lia|]. destruct (Nat.ltb_spec (length (comp_nodes g c)) (h c)); [lia|].
        destruct (cut_links_reach (length (comp_nodes g c)) (ff c) (h c - 1) (tree order g c) q) as [q0 E0].
        - apply tree_forest; auto.
        - unfold kept in Hfc. lia.
        - exists q0. fold (tree order g c). rewrite E0. cbn [bind]. reflexivity. }
      destruct (one (YArr (arr_of order g h ff c)) acc r) as [[acc1 r2]|e|] eqn:E2; cbn [bind] in H.
      * destruct (proj2 (IH (Datatypes.S c) acc1 o ltac:(lia))) as [q2 Hq2].
        { exists ff. split; [intros k Hk; apply Hff; lia|]. eauto. }
        destruct (fit_one_local _ _ _ _ _ E2 q2) as [q1 Hq1]. destruct (Hin q1) as [q Hq].
        exists q. rewrite Hq. cbn [bind]. rewrite Hq1. cbn [bind]. exact Hq2.
      * destruct (Hin r) as [q Hq]. exists q. rewrite Hq. cbn [bind]. rewrite E2. exact H.
      * destruct (Hin r) as [q Hq]. exists q. rewrite Hq. cbn [bind]. rewrite E2. exact H.

Qed.

Variable p : Z.
Hypothesis Hp1 : p <> 1%Z.
Hypothesis Hg : 0 < gn g.
Hypothesis Hp : (Z.of_nat (n_components g) <= p <= Z.of_nat (gn g))%Z.

Theorem fit_none_answers s o :
  (exists r, answer (fit S start component order g attr p None s r) = o) <->
  exists labels0, tree_start g (forest_of order g) (Z.to_nat p) labels0 /\
    exists r, answer (fit S start component order g attr p (Some labels0) s r) = o.
Proof.
  assert (Hsome : forall h ff, fits order g h ff -> base h (n_components g) = Z.to_nat p -> forall r,
    fit S start component order g attr p (Some (start_of order g h ff)) s r =
    all (map (arr_of order g h ff) (seq 0 (n_components g))) (minus_ones (gn g), s) r).
  { intros h ff Hf Hbase r. unfold fit.
    assert (Hfe : assert_feasible (start_of order g h ff) g (Some p) = Ok tt).
    { assert (Hts : tree_start g (forest_of order g) (Z.to_nat p) (start_of order g h ff)) by (rewrite <- Hbase; apply start_of_tree; auto).
      destruct (tree_start_feasible g (forest_of order g) (Z.to_nat p) (start_of order g h ff) (forest_spans order g Hord) Hts) as [Hfeas _].
      destruct Hfeas as [Hl [Hn Hc]]. apply assert_feasible_Ok; [lia|]. split; [lia|exact Hc]. }
    rewrite Hfe. cbn [bind]. rewrite (proj2 (Nat.eqb_eq _ _) (start_of_length order g h ff)). unfold separate_components, all.
    rewrite (map_ext _ _ (fun c => arr_separate order g h ff c)). reflexivity. }
  split.
  - intros [r H]. cbn [fit] in H. fold one in H. unfold generate_initial_sol in H.
    destruct (Nat.eqb_spec (gn g) 0); [lia|]. destruct (Z.ltb_spec (Z.of_nat (gn g)) p); [lia|].
    destruct (Z.eqb_spec p 1); [lia|]. destruct (Z.ltb_spec p (Z.of_nat (n_components g))); [lia|].
    destruct (distribute_spec (component_labels g) (n_components g) (Z.to_nat p) r) as [d [r1 [Ed [Hk [Hs Hcap]]]]].
    { apply component_labels_numbered. } { apply n_components_pos; auto. } { lia. } { rewrite component_labels_length. lia. }
    rewrite Ed in H. cbn [bind] in H. destruct (list_as_fun d _ Hk) as [h ->].
    assert (Hb : forall c, c < n_components g -> 1 <= h c <= length (comp_nodes g c)).
    { intros c Hc. rewrite <- count_occ_comp_labels. apply Hcap. apply in_map_iff. exists c. rewrite in_seq. split; [auto|lia]. }
    destruct (proj1 (gen_comps_answers h Hb (n_components g) 0 (minus_ones (gn g), s) o (le_n _)) (ex_intro _ r1 H)) as [ff [Hff [q Hq]]].
    assert (Hfits : fits order g h ff) by (intros c Hc; apply Hff; lia).
    assert (Hbase : base h (n_components g) = Z.to_nat p) by (rewrite map_map in Hs; exact Hs).
    exists (start_of order g h ff). split; [rewrite <- Hbase; apply start_of_tree; auto|].
    exists q. rewrite Hsome by auto. exact Hq.
  - intros [l0 [Hts [r H]]]. apply tree_start_iff in Hts; [|auto]. destruct Hts as [h [ff [Hf [Hbase ->]]]].
    rewrite Hsome in H by auto. cbn [fit]. fold one. unfold generate_initial_sol.
    destruct (Nat.eqb_spec (gn g) 0); [lia|]. destruct (Z.ltb_spec (Z.of_nat (gn g)) p); [lia|].
    destruct (Z.eqb_spec p 1); [lia|]. destruct (Z.ltb_spec p (Z.of_nat (n_components g))); [lia|].
    assert (Hb : forall c, c < n_components g -> 1 <= h c <= length (comp_nodes g c)) by (intros c Hc; eapply fits_bounds; eauto).
    destruct (proj2 (gen_comps_answers h Hb (n_components g) 0 (minus_ones (gn g), s) o (le_n _))) as [q Hq].
    { exists ff. split; [intros k Hk; apply Hf; lia|]. eauto. }
    destruct (distribute_reach (component_labels g) (n_components g) (Z.to_nat p) h q) as [q0 E].
    { apply component_labels_numbered. } { apply n_components_pos; auto. }
    { intros k Hk. rewrite count_occ_comp_labels. eapply fits_bounds; eauto. } { exact Hbase. }
    exists q0. rewrite E. cbn [bind]. exact Hq.
Qed.
End FitLocal.
