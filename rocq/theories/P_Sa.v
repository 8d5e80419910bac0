(** AZPSimulatedAnnealing: proofs. *)
From Verif Require Import Base Spec M_Graph P_Graph M_Util P_Base P_Util P_Forest P_Init P_Initial
  M_Objective P_Sum P_Objective M_Azp P_Azp P_Strategy P_Fit P_AzpFit Examples Props_Objective Props_Azp M_Sa.

Lemma az_m_dec_tracks O attr g labels0 c c' l' : length l' = gn g -> same_labels l' labels0 ->
  tracks O attr c' l' -> (c_val c' < c_val c)%Q -> az_m O attr g labels0 (c_val c') < az_m O attr g labels0 (c_val c).
Proof.
  intros Hlen' Hs' [_ [_ [v' [Ev' Hv']]]] Hlt. unfold az_m. apply filter_length_lt with (x := l').
  - intros y _ Hy. destruct (o_call O y attr) as [q|e|]; auto. apply Qltb_lt in Hy. apply Qltb_lt. lra.
  - apply words_In; auto. intros z Hz. apply uniqueZ_In, Hs'; auto.
  - rewrite Ev'. apply Qltb_lt. lra.
  - rewrite Ev'. apply Qltb_ge. lra.
Qed.

(** ** one AZP run with the simulated-annealing strategy *)
Section SaRun.
Variable O : objfun.
Variable attr : list (list Q).
Hypothesis Hex : exact_objective O attr.
Variable g : graph.
Hypothesis Hsym : symmetric g.
Hypothesis Hattr : length attr = gn g.
Variable expf : Q -> Q.
Variable N : Prop.

Definition sa_I (s : strategy) (l : list Z) : Prop :=
  exists c t sa term reached moved, s = SSa c t sa term reached moved /\ tracks O attr c l.

Lemma sa_I_intro c t sa term reached moved l : tracks O attr c l -> sa_I (SSa c t sa term reached moved) l.
Proof. intros H. exists c, t, sa, term, reached, moved. auto. Qed.

Lemma sa_call_total s a r l rg : wf g l -> legal_move g l a r -> sa_I s l ->
  post noexn N (strat_call expf s a r l rg)
    (fun '(b, s', _) => if b : bool then sa_I s' (upd l a r) else sa_I s' l).
Proof.
  intros Hwf Hl [c [t [sa [term [reached [moved [-> Ht]]]]]]]. cbn [strat_call].
  pose proof Hwf as [Hlen _]. assert (Ha : a < length l) by (destruct Hl as [Ha _]; lia).
  destruct (legal_mate g l a r Hwf Hl) as [Hr Hmate]. pose proof Ht as [Ho [Hat [x [Ex Hx]]]].
  destruct Hex as [_ [Hup _]]. destruct (Hup a r l ltac:(lia) Ha Hr Hmate) as [q Eq].
  assert (Ecall : exists b s' rg', sa_call expf c t sa term reached moved a r l rg = Ok (b, s', rg')).
  { unfold sa_call. rewrite Ho, Hat, Eq. cbn [bind]. destruct (Qle_bool q 0); [eauto|].
    unfold random_random. destruct (Qltb _ _); eauto. }
  destruct Ecall as [b [s' [rg' Ec]]]. rewrite Ec. cbn [post].
  destruct (sa_call_post expf O attr c t sa term reached moved l a r rg Hex ltac:(lia) Ha Ht b s' rg' Ec)
    as [v [v' [Ev [Ev' [Hle Hlt]]]]].
  destruct (Qlt_le_dec v v') as [H|H].
  - destruct (Hlt H) as [q' [_ [_ [_ Hb]]]]. destruct b.
    + destruct Hb as [c' [-> Ht']]. apply sa_I_intro; exact Ht'.
    + subst s'. apply sa_I_intro; exact Ht.
  - destruct (Hle H) as [-> [_ [c' [-> Ht']]]]. apply sa_I_intro; exact Ht'.
Qed.

Theorem sa_component_post fuel labels0 s rg : wf g labels0 -> labels0 <> [] -> sa_I s labels0 ->
  (N \/ gn g ^ gn g + gn g + 1 < fuel) ->
  post noexn N (azp_component strategy (strat_call expf) strat_val g fuel labels0 s rg)
    (fun '(labels', s', _) => wf g labels' /\ same_labels labels' labels0 /\ sa_I s' labels').
Proof.
  intros Hwf Hne HI Hf.
  assert (Hm : N \/ az_m O attr g labels0 (strat_val s) + gn g + 1 < fuel).
  { destruct Hf as [Hf|Hf]; [auto|right]. pose proof (az_m_bound O attr g labels0 (strat_val s)). destruct Hwf as [Hl _]. specialize (H Hl). lia. }
  eapply (post_weaken noexn noexn N N); [auto|auto| |
    apply (azp_component_post strategy (strat_call expf) strat_val g Hsym noexn N sa_I (fun _ => sa_I)
             (fun _ _ _ _ => True) (fun _ _ _ => True)) with (m := az_m O attr g labels0)]; auto.
  - intros [[l' s'] rg'] _ [Hwf' [Hs' [HI' _]]]. auto.
  - intros v s1 a r l rg1 H1 H2 H3. eapply (post_weaken noexn noexn N N); [auto|auto| |apply sa_call_total; eauto].
    intros [[b s2] rg2] _ H. destruct b; auto.
  - right. intros s1 l s2 l' _ _ [c [t [sa [term [re [mo [-> Ht]]]]]]] [Hl' _] Hs' [c' [t' [sa' [term' [re' [mo' [-> Ht']]]]]]] Hlt.
    cbn [strat_val] in *. eapply az_m_dec_tracks; eauto.
Qed.
End SaRun.

Definition is_sa (s : strategy) : Prop :=
  exists c t sa term reached moved, s = SSa c t sa term reached moved.

(** what an AZP run delivers *)
Definition azp_delivers (g : graph) (p : Z) (initial : option (list Z)) (labels : list Z) : Prop :=
  exists l0, started_from g p initial l0 /\ length labels = gn g /\
    forall c, c < n_components g ->
      wf (comp_graph g c) (comp_part g labels c) /\ same_labels (comp_part g labels c) (comp_part g l0 c).

Theorem sa_azp_post O attr g expf order N fuel p initial s r : exact_on O attr -> symmetric g -> length attr = gn g ->
  (forall l, Permutation (order l) l) -> valid_request g p initial -> (N \/ gn g ^ gn g + gn g + 1 < fuel) ->
  is_sa s ->
  post noexn N (azp_fit expf order O fuel g attr p initial s r)
    (fun '((labels, s'), _) => is_sa s' /\ azp_delivers g p initial labels).
Proof.
  intros Hex Hsym Hattr Hord Hv Hfuel HJ. unfold azp_fit.
  eapply (post_weaken noexn noexn N N); [auto|auto| |
    apply (fit_post strategy _ _ order g attr noexn N is_sa
             (fun c l l' => wf (comp_graph g c) l' /\ same_labels l' l))]; auto.
  - intros c l s0 rg Hc Hwf [cc [t [sa [term [re [mo ->]]]]]]. unfold run_component. cbn [strat_start].
    fold (attr_c attr g c). unfold start_common.
    pose proof (attr_c_exact O attr Hex g Hattr c) as Hexc. pose proof Hexc as [Hcall _].
    assert (Hll : length l = length (attr_c attr g c)) by (rewrite attr_c_length; apply Hwf).
    destruct (Hcall l Hll) as [x Ex]. rewrite Ex. cbn [bind].
    set (s1 := SSa (mkCommon (attr_c attr g c) O x) t sa term re mo).
    assert (HI : sa_I O (attr_c attr g c) s1 l).
    { apply sa_I_intro. split; [reflexivity|]. split; [reflexivity|]. exists x. split; [auto|reflexivity]. }
    assert (Hf : N \/ gn (comp_graph g c) ^ gn (comp_graph g c) + gn (comp_graph g c) + 1 < fuel).
    { destruct Hfuel as [HN|Hfuel]; [auto|right]. pose proof (comp_graph_le g c). destruct (Nat.eq_dec (gn (comp_graph g c)) 0) as [E0|E0].
      - rewrite E0 in *. cbn. destruct (Nat.eq_dec (gn g) 0) as [E1|E1]; [rewrite E1 in Hfuel; cbn in Hfuel; lia|].
        assert (1 <= gn g ^ gn g) by (change 1 with (gn g ^ 0); apply Nat.pow_le_mono_r; lia). lia.
      - assert (gn (comp_graph g c) ^ gn (comp_graph g c) <= gn g ^ gn g).
        { etransitivity; [apply Nat.pow_le_mono_l; eauto|]. apply Nat.pow_le_mono_r; lia. }
        lia. }
    eapply (post_weaken noexn noexn N N); [auto|auto| |
      apply (sa_component_post O (attr_c attr g c) Hexc (comp_graph g c) (comp_symmetric g c Hsym) (attr_c_length attr g c) expf N)];
      auto.
    + intros [[l' s'] r'] _ [Hwf' [Hs' [c' [t' [sa' [term' [re' [mo' [-> _]]]]]]]]].
      split; [repeat eexists|]. split; [destruct Hwf, Hwf'; lia|]. auto.
    + eapply comp_part_nonempty; eauto.
  - apply valid_good; auto.
Qed.

Lemma azp_delivers_ok g p initial labels : azp_delivers g p initial labels ->
  feasible g labels (Z.to_nat p) /\ ~ In (-1)%Z labels /\
  match initial with Some l => forall z, In z labels <-> In z l | None => labels_exactly labels (Z.to_nat p) end.
Proof.
  intros [l0 [[[Hl0 [Hn0 Hall0]] [Hm0 Hi]] [Hlen Hparts]]].
  assert (Hsame : same_labels labels l0) by (apply (assembled_same_labels g); auto; split; auto).
  split; [|split].
  - split; [auto|]. split; [rewrite <- Hn0; apply same_labels_n; auto|].
    apply (assembled_wf g l0 labels); auto. split; auto.
  - intros H. apply Hm0, Hsame, H.
  - destruct initial as [l|].
    + subst l0. exact Hsame.
    + intros z. rewrite <- (Hi z). apply Hsame.
Qed.

(** ** the two loops *)
Definition alphabet (p : Z) (initial : option (list Z)) : list Z :=
  match initial with Some l => uniqueZ l | None => map Z.of_nat (seq 0 (Z.to_nat p)) end.

Lemma alphabet_length g p initial : valid_request g p initial -> length (alphabet p initial) <= gn g.
Proof.
  destruct initial as [l|]; cbn.
  - intros [_ [[Hl _] _]]. rewrite <- Hl, uniqueZ_length. unfold n_labels.
    apply NoDup_incl_length; [apply NoDup_nodup|]. intros z Hz. apply nodup_In in Hz. auto.
  - intros [_ [_ [c [_ Hb]]]]. rewrite map_length, seq_length. lia.
Qed.

Section Loops.
Variable expf : Q -> Q.
Variable order : list edge -> list edge.
Variable obj : objfun.
Variable azp_fuel : nat.
Variable g : graph.
Variable attr : list (list Q).
Variable p : Z.
Variable U : list Z.
Variable E : exn -> Prop.
Variable N : Prop.
Variable J : strategy -> Prop.
Hypothesis HJ_reset : forall s, J s -> J (sa_reset s).
Hypothesis HJ_temp : forall q s, J s -> J (sa_set_temperature q s).
Hypothesis HJ_clear : forall s, J s -> J (sa_clear_moved s).
Hypothesis Hazp : forall initial s r, valid_request g p initial -> J s ->
  post E N (azp_fit expf order obj azp_fuel g attr p initial s r)
    (fun '((labels, s'), _) => J s' /\ azp_delivers g p initial labels).
Hypothesis Hp0 : (0 <= p)%Z.

Definition ok_labels (l : list Z) : Prop :=
  feasible g l (Z.to_nat p) /\ ~ In (-1)%Z l /\ (forall z, In z l -> In z U).
Definition ok_initial (i : option (list Z)) : Prop :=
  match i with
  | Some l => ok_labels l
  | None => valid_request g p None /\ forall z, (0 <= z < p)%Z -> In z U
  end.

Lemma ok_initial_valid i : ok_initial i -> valid_request g p i.
Proof. destruct i as [l|]; cbn; [|tauto]. intros [H1 [H2 _]]. auto. Qed.

Lemma delivers_ok i l : ok_initial i -> azp_delivers g p i l -> ok_labels l.
Proof.
  intros Hi Hd. destruct (azp_delivers_ok _ _ _ _ Hd) as [H1 [H2 H3]]. split; [auto|]. split; [auto|].
  intros z Hz. destruct i as [l0|]; cbn in Hi.
  - apply Hi, H3, Hz.
  - apply Hi. apply H3 in Hz. lia.
Qed.

Lemma sa_step_b_post : forall fuel left i s r, ok_initial i -> J s ->
  (N \/ exists k, left = Some k /\ k <= fuel) ->
  post E N (sa_step_b expf order obj azp_fuel g attr p fuel left i s r)
    (fun '(sol, s', _) => J s' /\ ok_initial sol /\
       ((i <> None \/ (left <> Some 0 /\ sa_is_reached s = false)) -> exists l, sol = Some l) /\
       (left <> Some 0 -> sa_is_reached s = false -> exists l, sol = Some l /\ ok_labels l)).
Proof.
  induction fuel as [|fuel IH]; intros left i s r Hi HJ Hk.
  - cbn [sa_step_b]. destruct (_ || _) eqn:Een; cbn [post].
    + split; [auto|]. split; [auto|]. split.
      * intros [H|[H1 H2]]; [destruct i; [eauto|congruence]|].
        exfalso. rewrite H2, orb_false_r in Een. destruct left as [[|]|]; congruence.
      * intros H1 H2. exfalso. rewrite H2, orb_false_r in Een. destruct left as [[|]|]; congruence.
    + destruct Hk as [HN|[k [-> Hk]]]; [auto|]. assert (k = 0) by lia. subst. discriminate.
  - cbn [sa_step_b]. destruct (_ || _) eqn:Een; cbn [post].
    + split; [auto|]. split; [auto|]. split.
      * intros [H|[H1 H2]]; [destruct i; [eauto|congruence]|].
        exfalso. rewrite H2, orb_false_r in Een. destruct left as [[|]|]; congruence.
      * intros H1 H2. exfalso. rewrite H2, orb_false_r in Een. destruct left as [[|]|]; congruence.
    + eapply post_bind; [apply Hazp; [apply ok_initial_valid; auto|auto]|].
      intros [[labels s'] r'] _ [HJ' Hd]. pose proof (delivers_ok i labels Hi Hd) as Hok.
      destruct (match i with Some old => same_solution old labels | None => false end) eqn:Eu.
      * cbn [post]. split; [auto|]. split; [auto|]. split; eauto.
      * eapply (post_weaken E E N N); [auto|auto| |apply (IH (option_map pred left) (Some labels) s' r')]; auto.
        -- intros [[sol s2] r2] _ [H1 [H2 [H3 H4]]]. split; [auto|]. split; [auto|].
           destruct H3 as [l2 ->]; [left; discriminate|]. split; [eauto|].
           intros _ _. exists l2. split; [auto|exact H2].
        -- destruct Hk as [HN|[k [-> Hk]]]; [auto|right]. exists (pred k). split; [reflexivity|].
           lia.
Qed.

(** how many more solutions can be recorded *)
Definition room (reps : nat) (visited : list (list Z)) : nat :=
  list_sum (map (fun w => reps - visits visited w) (words U (gn g))).

Lemma visits_snoc visited l w : visits (visited ++ [l]) w = visits visited w + (if list_eq_dec Z.eq_dec l w then 1 else 0).
Proof. unfold visits. rewrite filter_app, app_length. cbn. destruct (list_eq_dec Z.eq_dec l w); reflexivity. Qed.

Lemma list_sum_lt {A} (f h : A -> nat) (l : list A) x : In x l -> (forall y, f y <= h y) -> f x < h x ->
  list_sum (map f l) < list_sum (map h l).
Proof.
  intros Hin Hle Hlt.
  assert (Hl : forall l', list_sum (map f l') <= list_sum (map h l')).
  { induction l' as [|z l' IH]; cbn [map]; [auto|]. change (f z + list_sum (map f l') <= h z + list_sum (map h l')).
    specialize (Hle z). lia. }
  induction l as [|y l IH]; [destruct Hin|]. cbn [map].
  change (f y + list_sum (map f l) < h y + list_sum (map h l)).
  specialize (Hl l). destruct Hin as [->|Hin]; [lia|]. specialize (IH Hin). specialize (Hle y). lia.
Qed.

Lemma room_snoc reps visited l : In l (words U (gn g)) -> visits visited l < reps ->
  room reps (visited ++ [l]) < room reps visited.
Proof.
  intros Hin Hlt. unfold room. apply list_sum_lt with (x := l); auto.
  - intros y. rewrite visits_snoc. lia.
  - rewrite visits_snoc. destruct (list_eq_dec Z.eq_dec l l); [lia|congruence].
Qed.

Lemma room_bound reps visited : room reps visited <= length U ^ gn g * reps.
Proof.
  unfold room. rewrite <- words_length. generalize (words U (gn g)) as ws.
  induction ws as [|w ws IH]; [auto|]. cbn [map length].
  change (reps - visits visited w + list_sum (map (fun w => reps - visits visited w) ws) <= reps + length ws * reps). lia.
Qed.

Lemma sa_reset_not_reached s : sa_is_reached (sa_reset s) = false.
Proof. destruct s; reflexivity. Qed.

Lemma sa_outer_post a cooling : sa_maxit a <> Some 0 -> forall fuel nonmoving t i s visited r,
  ok_initial i -> J s ->
  (N \/ exists k, sa_maxit a = Some k /\ k + room (sa_reps a) visited < fuel) ->
  post E N (sa_outer expf order obj azp_fuel g attr p fuel a cooling nonmoving t i s visited r)
    (fun '(sol, _, _) => ok_initial sol /\
       (i <> None \/ nonmoving < sa_nonmoving_steps a -> exists l, sol = Some l)).
Proof.
  intros Hm. induction fuel as [|fuel IH]; intros nonmoving t i s visited r Hi HJ Hk; cbn [sa_outer];
    destruct (Nat.ltb_spec nonmoving (sa_nonmoving_steps a)) as [Hlt|Hge]; cbn [post];
    try (split; [auto|]; intros [H|H]; [destruct i; [eauto|congruence]|lia]).
  - destruct Hk as [HN|[k [_ Hk]]]; [auto|lia].
  - eapply post_bind; [apply sa_step_b_post; auto|].
    { destruct Hk as [HN|[k [E1 Hk]]]; [auto|right]. exists k. split; [auto|lia]. }
    intros [[sol s1] r1] _ [HJ1 [Hsol [_ H]]].
    destruct (H Hm (sa_reset_not_reached s)) as [l [-> Hl]]. cbn beta iota.
    destruct (Nat.leb_spec (sa_reps a) (visits visited l)) as [Hle|Hgt]; [cbn [post]; split; [auto|eauto]|].
    assert (Hk' : N \/ exists k, sa_maxit a = Some k /\ k + room (sa_reps a) (visited ++ [l]) < fuel).
    { destruct Hk as [HN|[k [E1 Hk]]]; [auto|right]. exists k. split; [auto|].
      assert (Hin : In l (words U (gn g))) by (apply words_In; [apply Hl|apply Hl]).
      pose proof (room_snoc (sa_reps a) visited l Hin Hgt). lia. }
    destruct (sa_is_moved _).
    + eapply (post_weaken E E N N); [auto|auto| |apply IH; auto].
      intros [[sol2 m2] r2] _ [H1 H2]. split; [auto|]. intros _. apply H2. left. discriminate.
    + eapply (post_weaken E E N N); [auto|auto| |apply IH; auto].
      intros [[sol2 m2] r2] _ [H1 H2]. split; [auto|]. intros _. apply H2. left. discriminate.
Qed.
End Loops.

Lemma is_sa_reset s : is_sa s -> is_sa (sa_reset s).
Proof. intros [c [t [sa [term [re [mo ->]]]]]]. repeat eexists. Qed.
Lemma is_sa_temp q s : is_sa s -> is_sa (sa_set_temperature q s).
Proof. intros [c [t [sa [term [re [mo ->]]]]]]. repeat eexists. Qed.
Lemma is_sa_clear s : is_sa s -> is_sa (sa_clear_moved s).
Proof. intros [c [t [sa [term [re [mo ->]]]]]]. repeat eexists. Qed.

Lemma ok_initial_alphabet g p initial : valid_request g p initial -> ok_initial g p (alphabet p initial) initial.
Proof.
  intros Hv. destruct initial as [l|].
  - destruct Hv as [H1 [H2 H3]]. split; [auto|]. split; [auto|]. intros z Hz. apply uniqueZ_In; auto.
  - split; [auto|]. intros z Hz. cbn. apply in_map_iff. exists (Z.to_nat z). split; [lia|]. apply in_seq. lia.
Qed.
Lemma valid_request_pos g p initial : valid_request g p initial -> (0 <= p)%Z.
Proof. destruct initial; cbn; [tauto|]. intros [_ [_ [c [_ H]]]]. lia. Qed.

(** ** nothing to move *)
(** AZP with any strategy returns the initial labels if no area can be moved; the strategy is
    started on every component and never asked *)
Lemma azp_still St start call objv order fuel g attr p l s r (J : St -> Prop) : symmetric g ->
  (forall o, Permutation (order o) o) -> valid_request g p (Some l) -> (forall a z, ~ legal_move g l a z) ->
  (forall c lc s0, c < n_components g -> wf (comp_graph g c) lc -> J s0 ->
     exists s1, start s0 lc (map (row attr) (comp_nodes g c)) (comp_nodes g c) = Ok s1 /\ J s1) ->
  gn g + 1 < fuel -> J s ->
  exists s' r', fit St start (fun adj labels _ s r => azp_component St call objv adj fuel labels s r)
    order g attr p (Some l) s r = Ok ((l, s'), r') /\ J s'.
Proof.
  intros Hsym Hord Hv Hno Hstart Hfuel HJ.
  assert (Hwf : wf g l) by (destruct Hv as [_ [[H1 [_ H2]] _]]; split; auto).
  assert (Hp : post noexn False (fit St start (fun adj labels _ s r => azp_component St call objv adj fuel labels s r)
    order g attr p (Some l) s r)
    (fun '((labels, s'), _) => J s' /\ exists labels0, started_from g p (Some l) labels0 /\
       length labels = gn g /\
       forall c, c < n_components g -> comp_part g labels c = comp_part g labels0 c)).
  { apply (fit_post_from St start _ order g attr noexn False (fun _ => J) (fun c l0 l' => l' = l0)
             (fun c lc => forall a z, ~ legal_move (comp_graph g c) lc a z)); auto.
    - intros c lc s0 rg j Hc _ Hwfc Hnoc HJ0. unfold run_component.
      destruct (Hstart c lc s0 Hc Hwfc HJ0) as [s1 [E1 HJ1]]. rewrite E1. cbn [bind].
      pose proof (comp_graph_le g c) as Hle.
      eapply (post_weaken noexn noexn False False); [auto|auto| |
        apply (azp_component_post St call objv (comp_graph g c) (comp_symmetric g c Hsym) noexn False
                 (fun s' l' => s' = s1 /\ l' = lc) (fun _ s' l' => s' = s1 /\ l' = lc)
                 (fun _ _ _ _ => True) (fun _ _ _ => True)) with (m := fun _ => 0)]; auto.
      + intros [[l' s'] r'] _ [_ [_ [[-> ->] _]]]. auto.
      + intros v s2 a z l2 rg2 _ Hl [_ ->]. exfalso. eapply Hnoc; eauto.
      + right. intros s2 l2 s3 l3 _ _ [-> _] _ _ [-> _] H. exfalso. eapply Qlt_irrefl; eauto.
      + eapply comp_part_nonempty; eauto.
      + right. lia.
    - apply valid_good; auto.
    - intros c Hc a z Hl. assert (Ha : a < length (comp_nodes g c)) by (destruct Hl as [Ha _]; rewrite comp_graph_n in Ha; exact Ha).
      destruct (nth_error (comp_nodes g c) a) as [x|] eqn:Ex; [|apply nth_error_None in Ex; lia].
      apply (Hno x z). eapply legal_of_comp; eauto. }
  apply post_total in Hp. destruct Hp as [[[labels s'] r'] [E [HJ' [l0 [Hst [Hlen Hparts]]]]]].
  destruct Hst as [_ [_ ->]]. exists s', r'. split; [|auto]. rewrite E. repeat f_equal.
  destruct Hwf as [Hl _]. apply nth_error_ext'; [lia|]. intros a Ha. rewrite Hlen in Ha.
  destruct (In_nth_error (comp_nodes g (comp_label g a)) a) as [i Hi]; [apply comp_nodes_In; auto|].
  pose proof (Hparts _ (comp_label_lt g a Ha)) as Hc. unfold comp_part in Hc.
  rewrite <- (gather_nth (-1)%Z labels _ i a Hi) by lia. rewrite <- (gather_nth (-1)%Z l _ i a Hi) by lia.
  rewrite Hc. reflexivity.
Qed.

Lemma same_solution_refl l : same_solution l l = true.
Proof. unfold same_solution. induction l as [|z l IH]; [reflexivity|]. cbn. rewrite Z.eqb_refl. exact IH. Qed.

Lemma visits_count visited l : visits visited l = count_occ (list_eq_dec Z.eq_dec) visited l.
Proof.
  induction visited as [|v vs IH]; [reflexivity|]. unfold visits in *. cbn [filter count_occ].
  destruct (list_eq_dec Z.eq_dec v l); cbn [length]; auto.
Qed.
