(** AZPSimulatedAnnealing with rounded arithmetic: termination when there are finitely many numbers. *)
From Coq Require Import Qabs.
From Verif Require Import Base Spec M_Graph P_Graph M_Util P_Base P_Util P_Forest P_Init P_Initial
  M_Objective P_Sum P_Objective M_Azp P_Azp P_Strategy P_Fit P_AzpFit P_TwoRuns M_Sa P_Sa M_Float P_Float M_FloatSa Props_Azp.

(** the loops of the annealing, whatever an AZP run does *)
Section Loops.
Variables (add prob cool : Q -> Q -> Q).
Variable order : list edge -> list edge.
Variable obj : objfun.
Variable azp_fuel : nat.
Variable g : graph.
Variable attr : list (list Q).
Variable p : Z.
Variable U : list Z.
Variable E : exn -> Prop.
Variable N : Prop.
Variable J : strategy -> Prop.
Hypothesis HJ_reset : forall s, J s -> J (sa_reset s).
Hypothesis HJ_temp : forall q s, J s -> J (sa_set_temperature q s).
Hypothesis HJ_clear : forall s, J s -> J (sa_clear_moved s).
Hypothesis Hazp : forall initial s r, valid_request g p initial -> J s ->
  post E N (fsa_azp add prob order obj azp_fuel g attr p initial s r)
    (fun '((labels, s'), _) => J s' /\ azp_delivers g p initial labels).
Hypothesis Hp0 : (0 <= p)%Z.

Lemma fsa_step_b_post : forall fuel left i s r, ok_initial g p U i -> J s ->
  (N \/ exists k, left = Some k /\ k <= fuel) ->
  post E N (fsa_step_b add prob order obj azp_fuel g attr p fuel left i s r)
    (fun '(sol, s', _) => J s' /\ ok_initial g p U sol /\
       ((i <> None \/ (left <> Some 0 /\ sa_is_reached s = false)) -> exists l, sol = Some l) /\
       (left <> Some 0 -> sa_is_reached s = false -> exists l, sol = Some l /\ ok_labels g p U l)).
Proof.
  induction fuel as [|fuel IH]; intros left i s r Hi HJ Hk.
  - cbn [fsa_step_b]. destruct (_ || _) eqn:Een; cbn [post].
    + split; [auto|]. split; [auto|]. split.
      * intros [H|[H1 H2]]; [destruct i; [eauto|congruence]|].
        exfalso. rewrite H2, orb_false_r in Een. destruct left as [[|]|]; congruence.
      * intros H1 H2. exfalso. rewrite H2, orb_false_r in Een. destruct left as [[|]|]; congruence.
    + destruct Hk as [HN|[k [-> Hk]]]; [auto|]. assert (k = 0) by lia. subst. discriminate.
  - cbn [fsa_step_b]. destruct (_ || _) eqn:Een; cbn [post].
    + split; [auto|]. split; [auto|]. split.
      * intros [H|[H1 H2]]; [destruct i; [eauto|congruence]|].
        exfalso. rewrite H2, orb_false_r in Een. destruct left as [[|]|]; congruence.
      * intros H1 H2. exfalso. rewrite H2, orb_false_r in Een. destruct left as [[|]|]; congruence.
    + eapply post_bind; [apply Hazp; [apply (ok_initial_valid g p U Hp0); auto|auto]|].
      intros [[labels s'] r'] _ [HJ' Hd]. pose proof (delivers_ok g p U i labels Hi Hd) as Hok.
      destruct (match i with Some old => same_solution old labels | None => false end) eqn:Eu.
      * cbn [post]. split; [auto|]. split; [auto|]. split; eauto.
      * eapply (post_weaken E E N N); [auto|auto| |apply (IH (option_map pred left) (Some labels) s' r')]; auto.
        -- intros [[sol s2] r2] _ [H1 [H2 [H3 H4]]]. split; [auto|]. split; [auto|].
           destruct H3 as [l2 ->]; [left; discriminate|]. split; [eauto|].
           intros _ _. exists l2. split; [auto|exact H2].
        -- destruct Hk as [HN|[k [-> Hk]]]; [auto|right]. exists (pred k). split; [reflexivity|].
           lia.
Qed.

Lemma fsa_outer_post a cooling : sa_maxit a <> Some 0 -> forall fuel nonmoving t i s visited r,
  ok_initial g p U i -> J s ->
  (N \/ exists k, sa_maxit a = Some k /\ k + room g U (sa_reps a) visited < fuel) ->
  post E N (fsa_outer add prob cool order obj azp_fuel g attr p fuel a cooling nonmoving t i s visited r)
    (fun '(sol, _, _) => ok_initial g p U sol /\
       (i <> None \/ nonmoving < sa_nonmoving_steps a -> exists l, sol = Some l)).
Proof.
  intros Hm. induction fuel as [|fuel IH]; intros nonmoving t i s visited r Hi HJ Hk; cbn [fsa_outer];
    destruct (Nat.ltb_spec nonmoving (sa_nonmoving_steps a)) as [Hlt|Hge]; cbn [post];
    try (split; [auto|]; intros [H|H]; [destruct i; [eauto|congruence]|lia]).
  - destruct Hk as [HN|[k [_ Hk]]]; [auto|lia].
  - eapply post_bind; [apply fsa_step_b_post; auto|].
    { destruct Hk as [HN|[k [E1 Hk]]]; [auto|right]. exists k. split; [auto|lia]. }
    intros [[sol s1] r1] _ [HJ1 [Hsol [_ H]]].
    destruct (H Hm (sa_reset_not_reached s)) as [l [-> Hl]]. cbn beta iota.
    destruct (Nat.leb_spec (sa_reps a) (visits visited l)) as [Hle|Hgt]; [cbn [post]; split; [auto|eauto]|].
    assert (Hk' : N \/ exists k, sa_maxit a = Some k /\ k + room g U (sa_reps a) (visited ++ [l]) < fuel).
    { destruct Hk as [HN|[k [E1 Hk]]]; [auto|right]. exists k. split; [auto|].
      assert (Hin : In l (words U (gn g))) by (apply words_In; [apply Hl|apply Hl]).
      pose proof (room_snoc g U (sa_reps a) visited l Hin Hgt). lia. }
    destruct (sa_is_moved _).
    + eapply (post_weaken E E N N); [auto|auto| |apply IH; auto].
      intros [[sol2 m2] r2] _ [H1 H2]. split; [auto|]. intros _. apply H2. left. discriminate.
    + eapply (post_weaken E E N N); [auto|auto| |apply IH; auto].
      intros [[sol2 m2] r2] _ [H1 H2]. split; [auto|]. intros _. apply H2. left. discriminate.
Qed.
End Loops.

(** an AZP run when there are finitely many numbers *)
Section Finite.
Variables (add prob : Q -> Q -> Q).
Variable V : Q -> Prop.
Variable F : list Q.
Hypothesis HF : forall q, V q -> exists y, In y F /\ (q == y)%Q.
Hypothesis Hadd : forall v q, V v -> V (add v q).
Variable O : objfun.
Variable attr : list (list Q).
Hypothesis Hval : forall rows labels, (forall x, In x rows -> In x attr) -> length labels = length rows ->
  exists v, o_call O labels rows = Ok v /\ V v.
Hypothesis Hupd : forall rows labels a r, (forall x, In x rows -> In x attr) -> length labels = length rows ->
  a < length labels -> In r labels -> exists q, o_update O a r labels rows = Ok q.

Definition fsa_I (rows : list (list Q)) (s : strategy) (l : list Z) : Prop :=
  exists c t sa term reached moved, s = SSa c t sa term reached moved /\ c_obj c = O /\ c_attr c = rows /\ V (c_val c).

Theorem fsa_azp_post order g fuel p initial s r : symmetric g -> (forall l, Permutation (order l) l) -> length attr = gn g ->
  valid_request g p initial -> length F + gn g + 1 < fuel -> is_sa s ->
  post noexn False (fsa_azp add prob order O fuel g attr p initial s r)
    (fun '((labels, s'), _) => is_sa s' /\ azp_delivers g p initial labels).
Proof.
  intros Hsym Hord Hattr Hv Hf HJ. unfold fsa_azp.
  eapply (post_weaken noexn noexn False False); [auto|auto| |
    apply (fit_post strategy _ _ order g attr noexn False is_sa
             (fun c l l' => wf (comp_graph g c) l' /\ same_labels l' l))]; auto.
  2: { apply valid_good; auto. }
  intros k l s0 rg Hk Hwf [cc [t [sa [term [re [mo ->]]]]]]. unfold run_component. cbn [strat_start]. unfold start_common.
  set (rows := map (row attr) (comp_nodes g k)).
  assert (Hlr : length rows = gn (comp_graph g k)) by (rewrite comp_graph_n; apply map_length).
  assert (Hin : forall x, In x rows -> In x attr).
  { intros x Hx. apply in_map_iff in Hx. destruct Hx as [i [<- Hi]]. apply comp_nodes_lt in Hi. apply nth_In. lia. }
  destruct (Hval rows l Hin) as [v [Ev HVv]]; [rewrite Hlr; apply Hwf|]. rewrite Ev. cbn [bind].
  eapply (post_weaken noexn noexn False False); [auto|auto| |
    apply (azp_component_post strategy (fsa_strat_call add prob) strat_val (comp_graph g k) (comp_symmetric g k Hsym) noexn False
             (fsa_I rows) (fun _ => fsa_I rows) (fun _ _ _ _ => True) (fun _ _ _ => True)) with (m := below F)]; auto.
  - intros [[l' s'] r'] _ [Hwf' [Hs' [[c1 [t1 [sa1 [te1 [re1 [mo1 [-> _]]]]]]] _]]]. split; [repeat eexists|].
    split; [destruct Hwf, Hwf'; lia|auto].
  - intros v0 s1 a z l1 rg1 Hwf1 Hm [c1 [t1 [sa1 [te1 [re1 [mo1 [-> [Ho [Ha Hv2]]]]]]]]]. cbn [fsa_strat_call]. unfold fsa_call.
    rewrite Ho, Ha. destruct (Hupd rows l1 a z Hin) as [q Eq]; [rewrite Hlr; apply Hwf1| | |].
    { destruct Hwf1 as [Hl1 _]. destruct Hm as [Hal _]. lia. }
    { destruct Hm as [_ [D [_ [_ [_ [b [_ [Hb _]]]]]]]]. eapply nth_error_In; eauto. }
    rewrite Eq. cbn [bind]. unfold random_random.
    destruct (Qle_bool q 0); [|destruct (Qltb _ _)]; cbn [post]; (split; [|exact Logic.I]);
      eexists _, _, _, _, _, _; (split; [reflexivity|]); cbn [c_obj c_attr c_val]; auto.
  - right. intros s1 l1 s2 l2 _ _ _ _ _ [c2 [t2 [sa2 [te2 [re2 [mo2 [-> [_ [_ Hv']]]]]]]]] Hlt. apply (below_dec V F HF); auto.
  - eapply comp_part_nonempty; eauto.
  - eexists _, _, _, _, _, _. split; [reflexivity|]. auto.
  - right. cbn [strat_val]. pose proof (below_le F (c_val (mkCommon rows O v))). pose proof (comp_graph_le g k). lia.
Qed.

Theorem fsa_fit_terminates cool order g maxit fuel azp_fuel p initial a n cooling m r :
  symmetric g -> (forall l, Permutation (order l) l) -> length attr = gn g ->
  length F + gn g + 1 < azp_fuel -> S maxit + gn g ^ gn g * sa_reps a < fuel -> valid_request g p initial ->
  sa_maxit a = Some (S maxit) -> sa_moves_term a = Some n -> (1 <= n)%Z -> (0 < cooling < 1)%Q ->
  exists sol m' r', fsa_fit add prob cool order O azp_fuel g attr p fuel cooling initial a m r = Ok (sol, m', r') /\
    ok_initial g p (alphabet p initial) sol /\ (0 < sa_nonmoving_steps a -> exists l, sol = Some l).
Proof.
  intros Hsym Hord Hattr Haf Hf Hv Hm Ht Hn Hc.
  unfold fsa_fit. replace (negb (Qltb 0 cooling && Qltb cooling 1)) with false.
  2: { symmetry. apply negb_false_iff, andb_true_iff. split; apply Qltb_lt; apply Hc. }
  unfold sa_strategy. rewrite Ht. destruct (Z.ltb_spec n 1); [lia|]. cbn [bind].
  match goal with |- context [fsa_outer _ _ _ _ _ _ _ _ _ _ _ _ _ _ _ ?s _ _] => set (s0 := s) end.
  assert (Hmax : sa_maxit a <> Some 0) by (rewrite Hm; discriminate).
  assert (Hsa : is_sa s0) by (unfold is_sa; subst s0; repeat eexists).
  assert (Hroom : False \/ exists k, sa_maxit a = Some k /\ k + room g (alphabet p initial) (sa_reps a) (sa_visited m) < fuel).
  { right. exists (S maxit). split; [auto|]. pose proof (room_bound g (alphabet p initial) (sa_reps a) (sa_visited m)) as Hb.
    pose proof (alphabet_length g p initial Hv) as Hal.
    assert (length (alphabet p initial) ^ gn g * sa_reps a <= gn g ^ gn g * sa_reps a)
      by (apply Nat.mul_le_mono_r, Nat.pow_le_mono_l; auto). lia. }
  pose proof (fsa_outer_post add prob cool order O azp_fuel g attr p (alphabet p initial) noexn False is_sa
    is_sa_reset is_sa_temp is_sa_clear
    (fun i s r Hi Hs => fsa_azp_post order g azp_fuel p i s r Hsym Hord Hattr Hi Haf Hs)
    (valid_request_pos _ _ _ Hv) a cooling Hmax fuel 0 (sa_init_temperature a) initial s0 (sa_visited m) r
    (ok_initial_alphabet _ _ _ Hv) Hsa Hroom) as Hp.
  apply post_total in Hp. destruct Hp as [[[sol m'] r'] [E [H1 H2]]]. exists sol, m', r'. split; [exact E|]. split; [exact H1|]. auto.
Qed.
End Finite.
