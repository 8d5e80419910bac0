(** Property theorems C24-C26: AZPSimulatedAnnealing.fit. *)
From Verif Require Import Base Spec M_Graph P_Graph M_Util P_Base P_Util P_Forest P_Init P_Initial
  M_Objective P_Sum P_Objective M_Azp P_Azp P_Strategy P_Fit P_AzpFit Examples Props_Objective Props_Azp M_Sa P_Sa.

Lemma sa_fit_returns_valid expf order O azp_fuel g attr p fuel cooling initial a m r res :
  shape_ok g initial -> sa_maxit a <> Some 0 -> 0 < sa_nonmoving_steps a ->
  sa_fit expf order O azp_fuel g attr p fuel cooling initial a m r = Ok res -> valid_request g p initial.
Proof.
  intros Hsh Hm Hn H. unfold sa_fit in H. destruct (negb _); [discriminate|].
  apply bind_Ok in H. destruct H as [s [_ H]]. destruct fuel as [|fuel]; cbn [sa_outer] in H;
    (destruct (Nat.ltb_spec 0 (sa_nonmoving_steps a)); [|lia]); [discriminate|].
  apply bind_Ok in H. destruct H as [v [H _]].
  destruct fuel as [|fuel]; cbn [sa_step_b] in H; rewrite sa_reset_not_reached, orb_false_r in H;
    (destruct (sa_maxit a) as [[|k]|]; [congruence| |]); try discriminate;
    apply bind_Ok in H; destruct H as [v' [H _]]; unfold azp_fit in H; eapply fit_returns_valid; eauto.
Qed.

(** ** C24: the result is feasible *)
(** For every state of the object (earlier fits), objective, graph, start and random history. *)
Theorem C24_sa_feasible expf order O azp_fuel g attr p fuel cooling initial a m r sol m' r' :
  symmetric g -> (forall l, Permutation (order l) l) -> shape_ok g initial ->
  sa_maxit a <> Some 0 -> 0 < sa_nonmoving_steps a ->
  sa_fit expf order O azp_fuel g attr p fuel cooling initial a m r = Ok (sol, m', r') ->
  exists labels, sol = Some labels /\ feasible g labels (Z.to_nat p) /\
    match initial with
    | Some l => forall z, In z labels -> In z l
    | None => forall z, In z labels -> (0 <= z < p)%Z
    end.
Proof.
  intros Hsym Hord Hsh Hm Hn H.
  pose proof (sa_fit_returns_valid _ _ _ _ _ _ _ _ _ _ _ _ _ _ Hsh Hm Hn H) as Hv.
  unfold sa_fit in H. destruct (negb _); [discriminate|]. apply bind_Ok in H. destruct H as [s [_ H]].
  assert (Hazp : forall i s r, valid_request g p i -> True ->
    post anyexn True (azp_fit expf order O azp_fuel g attr p i s r)
      (fun '((labels, s'), _) => True /\ azp_delivers g p i labels)).
  { intros i s0 r0 Hi _. unfold azp_fit. eapply (post_weaken anyexn anyexn True True); [auto|auto| |
      apply (any_strategy_post strategy (strat_start O) (strat_call expf) strat_val order azp_fuel g attr p i s0 r0 anyexn)]; auto.
    - intros [[l1 s1] r1] _ H1. split; auto.
    - intros. destruct (strat_start _ _ _ _ _); cbn; unfold anyexn; auto.
    - intros. destruct (strat_call _ _ _ _ _ _); cbn; unfold anyexn; auto. }
  pose proof (sa_outer_post expf order O azp_fuel g attr p (alphabet p initial) anyexn True (fun _ => True)
    (fun _ _ => Logic.I) (fun _ _ _ => Logic.I) (fun _ _ => Logic.I) Hazp (valid_request_pos _ _ _ Hv) a cooling Hm
    fuel 0 (sa_init_temperature a) initial s (sa_visited m) r (ok_initial_alphabet _ _ _ Hv) Logic.I (or_introl Logic.I)) as Hp.
  rewrite H in Hp. destruct Hp as [Hok Hex]. destruct Hex as [l ->]; [auto|]. exists l. split; [auto|].
  destruct Hok as [Hf [_ HU]]. split; [auto|]. destruct initial as [l0|]; cbn [alphabet] in HU.
  - intros z Hz. apply uniqueZ_In. auto.
  - intros z Hz. apply HU in Hz. apply in_map_iff in Hz. destruct Hz as [k [<- Hk]]. apply in_seq in Hk. lia.
Qed.

(** Invalid parameters are rejected. *)
Theorem C24_sa_bad_cooling expf order O azp_fuel g attr p fuel cooling initial a m r :
  ~ (0 < cooling < 1)%Q ->
  exists msg, sa_fit expf order O azp_fuel g attr p fuel cooling initial a m r = Raise (ValueError msg).
Proof.
  intros H. unfold sa_fit. destruct (negb (Qltb 0 cooling && Qltb cooling 1)) eqn:E; [eauto|].
  exfalso. apply H. apply negb_false_iff, andb_true_iff in E. destruct E as [E1 E2].
  apply Qltb_lt in E1. apply Qltb_lt in E2. auto.
Qed.

(** ** C25: termination *)
(** With a finite max_iterations, fit returns on every valid request, whatever the random draws,
    the temperature and the earlier fits; the bound does not depend on them. *)
Theorem C25_sa_terminates expf order O g attr maxit reps :
  symmetric g -> (forall l, Permutation (order l) l) -> length attr = gn g -> exact_on O attr ->
  exists bound, forall fuel azp_fuel p initial a n cooling m r,
    bound <= fuel -> bound <= azp_fuel -> valid_request g p initial ->
    sa_maxit a = Some (S maxit) -> sa_reps a = reps -> sa_moves_term a = Some n -> (1 <= n)%Z -> (0 < cooling < 1)%Q ->
    exists sol m' r', sa_fit expf order O azp_fuel g attr p fuel cooling initial a m r = Ok (sol, m', r').
Proof.
  intros Hsym Hord Hattr Hex.
  exists (gn g ^ gn g + gn g + 2 + (S maxit + gn g ^ gn g * reps + 1)).
  intros fuel azp_fuel p initial a n cooling m r Hf Haf Hv Hm Hr Ht Hn Hc.
  unfold sa_fit. replace (negb (Qltb 0 cooling && Qltb cooling 1)) with false.
  2: { symmetry. apply negb_false_iff, andb_true_iff. split; apply Qltb_lt; apply Hc. }
  unfold sa_strategy. rewrite Ht. destruct (Z.ltb_spec n 1); [lia|]. cbn [bind].
  match goal with |- context [sa_outer _ _ _ _ _ _ _ _ _ _ _ _ _ ?s _ _] => set (s0 := s) end.
  assert (Hmax : sa_maxit a <> Some 0) by (rewrite Hm; discriminate).
  assert (Hfu : False \/ gn g ^ gn g + gn g + 1 < azp_fuel) by (right; lia).
  assert (Hsa : is_sa s0) by (unfold is_sa; subst s0; repeat eexists).
  assert (Hroom : False \/ exists k, sa_maxit a = Some k /\ k + room g (alphabet p initial) (sa_reps a) (sa_visited m) < fuel).
  { right. exists (S maxit). split; [auto|]. pose proof (room_bound g (alphabet p initial) (sa_reps a) (sa_visited m)) as Hb.
    pose proof (alphabet_length g p initial Hv) as Hal. rewrite Hr in *.
    assert (length (alphabet p initial) ^ gn g * reps <= gn g ^ gn g * reps)
      by (apply Nat.mul_le_mono_r, Nat.pow_le_mono_l; auto). lia. }
  pose proof (sa_outer_post expf order O azp_fuel g attr p (alphabet p initial) noexn False is_sa
    is_sa_reset is_sa_temp is_sa_clear
    (fun i s r Hi Hs => sa_azp_post O attr g expf order False azp_fuel p i s r Hex Hsym Hattr Hord Hi Hfu Hs)
    (valid_request_pos _ _ _ Hv) a cooling Hmax fuel 0 (sa_init_temperature a) initial s0 (sa_visited m) r
    (ok_initial_alphabet _ _ _ Hv) Hsa Hroom) as Hp.
  apply post_total in Hp. destruct Hp as [[[sol m'] r'] [E _]]. eauto.
Qed.

(** ** C26: refitting *)
(** The result of a fit depends on earlier fits only through the recorded solutions and the
    move flag; solutions for another number of areas do not matter. *)
Section Refit.
Variables (expf : Q -> Q) (order : list edge -> list edge) (O : objfun) (azp_fuel : nat) (g : graph)
  (attr : list (list Q)) (p : Z).
Hypothesis Hsym : symmetric g.
Hypothesis Hord : forall l, Permutation (order l) l.

Definition remembering (old : list (list Z)) (o : out (option (list Z) * sa_memory * rng)) :=
  match o with
  | Ok (sol, m, r) => Ok (sol, mkSaMemory (sa_move_made m) (old ++ sa_visited m), r)
  | Raise e => Raise e
  | NoFuel => NoFuel
  end.

Lemma visits_app_other old new l : (forall v, In v old -> length v <> length l) -> visits (old ++ new) l = visits new l.
Proof.
  intros H. unfold visits. rewrite filter_app, app_length.
  replace (filter _ old) with (@nil (list Z)); [reflexivity|]. symmetry.
  induction old as [|v old IH]; [reflexivity|]. cbn. destruct (list_eq_dec Z.eq_dec v l) as [->|].
  - exfalso. apply (H l); [left; auto|auto].
  - apply IH. intros v' Hv'. apply H. right; auto.
Qed.

Lemma sa_outer_remembering a cooling old U : sa_maxit a <> Some 0 -> (0 <= p)%Z ->
  (forall v, In v old -> length v <> gn g) -> forall fuel nonmoving t i s new r, ok_initial g p U i ->
  sa_outer expf order O azp_fuel g attr p fuel a cooling nonmoving t i s (old ++ new) r =
  remembering old (sa_outer expf order O azp_fuel g attr p fuel a cooling nonmoving t i s new r).
Proof.
  intros Hm Hp0 Hold. assert (Hazp : forall i s r, valid_request g p i -> True ->
    post anyexn True (azp_fit expf order O azp_fuel g attr p i s r)
      (fun '((labels, s'), _) => True /\ azp_delivers g p i labels)).
  { intros i s0 r0 Hi _. unfold azp_fit. eapply (post_weaken anyexn anyexn True True); [auto|auto| |
      apply (any_strategy_post strategy (strat_start O) (strat_call expf) strat_val order azp_fuel g attr p i s0 r0 anyexn)]; auto.
    - intros [[l1 s1] r1] _ H1. split; auto.
    - intros. destruct (strat_start _ _ _ _ _); cbn; unfold anyexn; auto.
    - intros. destruct (strat_call _ _ _ _ _ _); cbn; unfold anyexn; auto. }
  induction fuel as [|fuel IH]; intros nonmoving t i s new r Hi; cbn [sa_outer];
    (destruct (Nat.ltb nonmoving (sa_nonmoving_steps a)); [|reflexivity]); [reflexivity|].
  pose proof (sa_step_b_post expf order O azp_fuel g attr p U anyexn True (fun _ => True) Hazp Hp0
    fuel (sa_maxit a) i (sa_reset s) r Hi Logic.I (or_introl Logic.I)) as Hb.
  destruct (sa_step_b expf order O azp_fuel g attr p fuel (sa_maxit a) i (sa_reset s) r) as [[[sol s1] r1]|e|]; [|reflexivity|reflexivity].
  destruct Hb as [_ [Hsol [_ H]]]. destruct (H Hm (sa_reset_not_reached s)) as [l [-> Hl]]. cbn [bind].
  rewrite visits_app_other.
  2: { intros v Hv. destruct Hl as [[-> _] _]. auto. }
  destruct (Nat.leb (sa_reps a) (visits new l)); [reflexivity|]. rewrite <- app_assoc.
  destruct (sa_is_moved _); apply IH; exact Hsol.
Qed.

Theorem C26_sa_refit_partial fuel cooling initial a old r :
  valid_request g p initial -> sa_maxit a <> Some 0 -> (forall v, In v old -> length v <> gn g) ->
  sa_fit expf order O azp_fuel g attr p fuel cooling initial a (mkSaMemory false old) r =
  remembering old (sa_fit expf order O azp_fuel g attr p fuel cooling initial a (mkSaMemory false []) r).
Proof.
  intros Hv Hm Hold. unfold sa_fit. destruct (negb _); [reflexivity|]. unfold sa_strategy. cbn [sa_move_made sa_visited].
  destruct (sa_moves_term a) as [n|]; [|reflexivity]. destruct (Z.ltb n 1); [reflexivity|]. cbn [bind].
  rewrite <- (app_nil_r old) at 1. apply (sa_outer_remembering a cooling old (alphabet p initial) Hm (valid_request_pos _ _ _ Hv) Hold).
  apply ok_initial_alphabet; auto.
Qed.
End Refit.

(** ** C85: annealing gives up after [nonmoving_steps_before_stop] rounds without a move *)
(** Each round records the solution it ends with; nothing can be moved, so the fit records the
    initial solution once per round and stops after exactly so many rounds, or earlier once the
    solution has been recorded [repetitions_before_termination] times (in this or earlier fits).
    A move flag [moved] left over from an earlier fit of the object gives one round more, which
    clears the flag. *)
Theorem C85_sa_gives_up expf order O g attr p l a n cooling moved visited azp_fuel fuel r :
  symmetric g -> (forall o, Permutation (order o) o) -> length attr = gn g -> exact_on O attr ->
  valid_request g p (Some l) -> (forall area region, ~ legal_move g l area region) ->
  sa_maxit a <> Some 0 -> sa_moves_term a = Some n -> (1 <= n)%Z -> (0 < cooling < 1)%Q ->
  gn g + 1 < azp_fuel -> sa_nonmoving_steps a + 2 < fuel ->
  let seen := count_occ (list_eq_dec Z.eq_dec) visited l in
  let allowed := if Nat.eqb (sa_nonmoving_steps a) 0 then 0 else sa_nonmoving_steps a + (if moved : bool then 1 else 0) in
  let rounds := Nat.min allowed (sa_reps a - seen) in
  exists r', sa_fit expf order O azp_fuel g attr p fuel cooling (Some l) a (mkSaMemory moved visited) r =
    Ok (Some l, mkSaMemory (moved && Nat.eqb rounds 0) (visited ++ repeat l rounds), r').
Proof.
  intros Hsym Hord Hattr Hex Hv Hno Hmax Hterm Hn Hcool Haf Hf seen allowed rounds. subst rounds allowed seen.
  unfold sa_fit. replace (negb (Qltb 0 cooling && Qltb cooling 1)) with false.
  2: { symmetry. apply negb_false_iff, andb_true_iff. split; apply Qltb_lt; apply Hcool. }
  unfold sa_strategy. rewrite Hterm. destruct (Z.ltb_spec n 1); [lia|]. cbn [bind sa_move_made sa_visited].
  set (J := fun b s => exists c t sa re, s = SSa c t sa (Z.to_nat n) re b).
  match goal with |- context [sa_outer _ _ _ _ _ _ _ _ _ _ _ _ _ ?s _ _] => assert (HJ : J moved s) by (subst J; cbv beta; eauto); generalize HJ; generalize s as s0 end.
  clear HJ.
  assert (Hazp : forall b s r, J b s -> exists s' r', azp_fit expf order O azp_fuel g attr p (Some l) s r = Ok ((l, s'), r') /\ J b s').
  { intros b s0 r0 Hs0. unfold azp_fit. apply azp_still; auto.
    intros c lc s1 Hc Hwfc [cc [t [sa [re ->]]]]. cbn [strat_start]. unfold start_common.
    pose proof (attr_c_exact O attr Hex g Hattr c) as [Hcall _].
    assert (Hll : length lc = length (attr_c attr g c)) by (rewrite attr_c_length; apply Hwfc).
    destruct (Hcall lc Hll) as [x Ex]. unfold attr_c in Ex. rewrite Ex. cbn [bind]. eexists. split; [reflexivity|].
    subst J; cbv beta; eauto. }
  assert (Hround : forall b fuel s r, J b s -> exists s1 r1, J b s1 /\
    sa_step_b expf order O azp_fuel g attr p (S fuel) (sa_maxit a) (Some l) (sa_reset s) r = Ok (Some l, s1, r1)).
  { intros b fuel' s r' Hs.
    assert (Hs' : J b (sa_reset s)) by (destruct Hs as [cc [t0 [sa [re ->]]]]; subst J; cbv beta; cbn; eauto).
    destruct (Hazp b (sa_reset s) r' Hs') as [s1 [r1 [E1 Hs1]]]. exists s1, r1. split; [auto|].
    cbn [sa_step_b]. rewrite sa_reset_not_reached, orb_false_r.
    destruct (sa_maxit a) as [[|k]|]; [congruence| |]; rewrite E1; cbn [bind]; rewrite same_solution_refl; reflexivity. }
  assert (Hgen : forall fuel nonmoving t s vis r, J false s -> sa_nonmoving_steps a - nonmoving + 1 < fuel ->
    exists r', sa_outer expf order O azp_fuel g attr p fuel a cooling nonmoving t (Some l) s vis r =
      Ok (Some l, mkSaMemory false (vis ++ repeat l (Nat.min (sa_nonmoving_steps a - nonmoving)
        (sa_reps a - count_occ (list_eq_dec Z.eq_dec) vis l))), r')).
  { clear Hf fuel r. induction fuel as [|fuel IH]; intros nonmoving t s vis r Hs Hf; [lia|]. cbn [sa_outer].
    destruct (Nat.ltb_spec nonmoving (sa_nonmoving_steps a)) as [Hlt|Hge].
    - destruct fuel as [|fuel]; [lia|].
      destruct (Hround false fuel s r Hs) as [s1 [r1 [Hs1 Eb]]].
      rewrite Eb. cbn [bind]. rewrite visits_count.
      destruct Hs1 as [cc [t0 [sa [re ->]]]]. cbn [sa_is_moved sa_set_temperature].
      destruct (Nat.leb_spec (sa_reps a) (count_occ (list_eq_dec Z.eq_dec) vis l)) as [Hle|Hgt].
      + exists r1. replace (sa_reps a - _) with 0 by lia. rewrite Nat.min_0_r. cbn [repeat]. rewrite app_nil_r. reflexivity.
      + destruct (IH (S nonmoving) (t * cooling)%Q (SSa cc (t * cooling)%Q sa (Z.to_nat n) re false) (vis ++ [l]) r1) as [r' E'];
          [subst J; cbv beta; eauto|lia|].
        exists r'. rewrite E'. do 3 f_equal. rewrite count_occ_app. cbn [count_occ].
        destruct (list_eq_dec Z.eq_dec l l); [|congruence]. rewrite <- app_assoc. f_equal. f_equal.
        replace (Nat.min (sa_nonmoving_steps a - nonmoving) (sa_reps a - count_occ (list_eq_dec Z.eq_dec) vis l))
          with (S (Nat.min (sa_nonmoving_steps a - S nonmoving) (sa_reps a - (count_occ (list_eq_dec Z.eq_dec) vis l + 1)))) by lia.
        reflexivity.
    - destruct Hs as [cc [t0 [sa [re ->]]]]. exists r. replace (sa_nonmoving_steps a - nonmoving) with 0 by lia.
      cbn. rewrite app_nil_r. reflexivity. }
  intros s0 Hs0. destruct moved.
  - destruct (Nat.eqb_spec (sa_nonmoving_steps a) 0) as [E0|E0].
    { exists r. destruct Hs0 as [cc [t0 [sa [re ->]]]]. destruct fuel as [|fuel]; [lia|].
      cbn [sa_outer]. rewrite E0. cbn. rewrite app_nil_r. reflexivity. }
    destruct fuel as [|[|fuel]]; [lia|lia|]. remember (S fuel) as fuel1. cbn [sa_outer]. subst fuel1.
    destruct (Nat.ltb_spec 0 (sa_nonmoving_steps a)); [|lia].
    destruct (Hround true fuel s0 r Hs0) as [s1 [r1 [Hs1 Eb]]]. rewrite Eb. cbn [bind]. rewrite visits_count.
    destruct Hs1 as [cc [t0 [sa [re ->]]]]. cbn [sa_is_moved sa_set_temperature sa_clear_moved].
    destruct (Nat.leb_spec (sa_reps a) (count_occ (list_eq_dec Z.eq_dec) visited l)) as [Hle|Hgt].
    + exists r1. replace (sa_reps a - _) with 0 by lia. rewrite Nat.min_0_r. cbn [repeat]. rewrite app_nil_r. reflexivity.
    + destruct (Hgen (S fuel) 0 (sa_init_temperature a * cooling)%Q (SSa cc (sa_init_temperature a * cooling)%Q sa (Z.to_nat n) re false) (visited ++ [l]) r1) as [r' E'];
        [subst J; cbv beta; eauto|lia|].
      exists r'. rewrite E'. rewrite count_occ_app. cbn [count_occ].
      destruct (list_eq_dec Z.eq_dec l l); [|congruence]. rewrite <- app_assoc.
      replace (Nat.min (sa_nonmoving_steps a + 1) (sa_reps a - count_occ (list_eq_dec Z.eq_dec) visited l))
        with (S (Nat.min (sa_nonmoving_steps a - 0) (sa_reps a - (count_occ (list_eq_dec Z.eq_dec) visited l + 1)))) by lia.
      reflexivity.
  - destruct (Hgen fuel 0 (sa_init_temperature a) s0 visited r Hs0) as [r' E']; [lia|].
    exists r'. rewrite E', Nat.sub_0_r, Nat.add_0_r. destruct (Nat.eqb_spec (sa_nonmoving_steps a) 0) as [->|_]; reflexivity.
Qed.

(** ** Examples and refutations *)
Local Notation att := (map (fun q => [q])).
Definition sa_ex g attr p initial a m r :=
  sa_fit expd same_order (pairwise manhattan) 40 g (att attr) p 40 (1 # 2) initial a m r.
Definition sa_labels (o : out (option (list Z) * sa_memory * rng)) : option (list Z) :=
  match o with Ok (sol, _, _) => sol | _ => None end.
Definition sa_mem (o : out (option (list Z) * sa_memory * rng)) : sa_memory :=
  match o with Ok (_, m, _) => m | _ => mkSaMemory false [] end.
Definition sa_args1 : sa_args := mkSaArgs 1 (Some 1) (Some 1%Z) 3 1.

(** C24, C25 are about runs such as this one *)
Example C24_example :
  sa_labels (sa_ex two_islands [1;1;5;2;2]%Q 3%Z (Some [7;4;4;9;9]%Z) sa_args1 (mkSaMemory false []) rng0) = Some [7;7;4;9;9]%Z.
Proof. vm_compute. reflexivity. Qed.

Example C24_example_random :
  sa_labels (sa_ex two_islands [1;1;5;2;2]%Q 3%Z None sa_args1 (mkSaMemory false []) rng0) = Some [0;0;1;2;2]%Z.
Proof. vm_compute. reflexivity. Qed.

(** C25: with the default max_iterations = inf, step b need not end: on a ring of four areas with
    equal attributes and three regions, this random history makes the pair wander around for ever
    (each AZP run returns, with labels different from the ones before). *)
Definition ring4 : graph := mkG 4 (fun u v =>
  match u, v with 0,2|0,3|1,2|1,3|2,0|3,0|2,1|3,1 => true | _, _ => false end).
Definition args_inf : sa_args := mkSaArgs 1 None (Some 1%Z) 3 5.
Definition rng_zero : rng := fun _ => 0.
Definition ring_step (l : list Z) (c : common) (moved : bool) :=
  azp_fit expd same_order (pairwise manhattan) 40 ring4 (att [1;1;1;1]%Q) 3%Z (Some l) (SSa c 1 0 1 false moved) rng_zero.


Lemma ring_moves : forall c m,
  (exists c', ring_step [0;2;1;2]%Z c m = Ok (([1;2;2;0]%Z, SSa c' 1 0 1 false true), rng_zero)) /\
  (exists c', ring_step [1;2;2;0]%Z c m = Ok (([2;0;2;1]%Z, SSa c' 1 0 1 false true), rng_zero)) /\
  (exists c', ring_step [2;0;2;1]%Z c m = Ok (([2;1;0;2]%Z, SSa c' 1 0 1 false true), rng_zero)) /\
  (exists c', ring_step [2;1;0;2]%Z c m = Ok (([0;2;1;2]%Z, SSa c' 1 0 1 false true), rng_zero)).
Proof. intros c m. repeat split; eexists; vm_compute; reflexivity. Qed.

Lemma ring_forever : forall fuel c m l,
  l = [0;2;1;2]%Z \/ l = [1;2;2;0]%Z \/ l = [2;0;2;1]%Z \/ l = [2;1;0;2]%Z ->
  sa_step_b expd same_order (pairwise manhattan) 40 ring4 (att [1;1;1;1]%Q) 3%Z fuel None (Some l)
    (SSa c 1 0 1 false m) rng_zero = NoFuel.
Proof.
  induction fuel as [|fuel IH]; intros c m l Hl; [reflexivity|]. cbn [sa_step_b sa_is_reached orb].
  fold (ring_step l c m). destruct (ring_moves c m) as [[c1 H1] [[c2 H2] [[c3 H3] [c4 H4]]]].
  destruct Hl as [->|[->|[->| ->]]]; [rewrite H1|rewrite H2|rewrite H3|rewrite H4]; cbn [bind same_solution combine forallb fst snd Z.eqb Pos.eqb andb option_map];
    apply IH; auto.
Qed.

Theorem C25_sa_infinite_maxit_diverges :
  symmetric ring4 /\ valid_request ring4 3%Z (Some [0;2;1;2]%Z) /\
  forall fuel m,
  sa_fit expd same_order (pairwise manhattan) 40 ring4 (att [1;1;1;1]%Q) 3%Z fuel (1 # 2) (Some [0;2;1;2]%Z)
    args_inf m rng_zero = NoFuel.
Proof.
  split; [|split].
  - intros u v Hu Hv. cbn in Hu, Hv. do 4 (destruct u as [|u]; [do 4 (destruct v as [|v]; [reflexivity|]); lia|]). lia.
  - cbn [valid_request]. split; [lia|]. split.
    + split; [reflexivity|]. split; [reflexivity|]. apply (assert_feasible_Ok [0;2;1;2]%Z ring4 3%Z); [cbn; lia|]. vm_compute. reflexivity.
    + cbn. lia.
  - intros fuel m. unfold sa_fit. cbn [sa_strategy]. destruct fuel as [|fuel]; [reflexivity|].
    cbn [sa_strategy sa_moves_term args_inf Z.ltb Z.compare Qltb Qle_bool negb andb bind sa_outer Nat.ltb Nat.leb sa_nonmoving_steps sa_maxit sa_reset sa_init_temperature].
    change (Z.to_nat 1) with 1. cbn. rewrite ring_forever by auto. reflexivity.
Qed.

(** C26: a refitted object may answer differently from a fresh one. Here the first fit records
    [0;0;1]; in the second fit this stops the search at once, while a fresh object goes on. *)
Definition draws26 : rng := fun k => match k with 0 => 1 | _ => 0 end.
Definition fit26 (m : sa_memory) := sa_ex (path_graph 3) [1;1;1]%Q 2%Z (Some [0;1;1]%Z) sa_args1 m draws26.

Theorem C26_sa_refit_refuted :
  let fresh := mkSaMemory false [] in
  sa_new (Some 1%Q) (Some 1) (Some 1%Z) 3 1 = Ok (sa_args1, fresh) /\
  sa_labels (fit26 fresh) = Some [0;1;1]%Z /\ sa_labels (fit26 (sa_mem (fit26 fresh))) = Some [0;0;1]%Z.
Proof. vm_compute. auto. Qed.

(** C26 (partial) applies to this second fit: the first one was on another number of areas. *)
Example C26_example :
  let m := sa_mem (sa_ex (path_graph 4) [1;1;9;9]%Q 2%Z (Some [0;0;1;1]%Z) sa_args1 (mkSaMemory false []) rng0) in
  sa_move_made m = false /\ sa_visited m = [[0;0;1;1]]%Z /\
  sa_labels (fit26 m) = Some [0;1;1]%Z.
Proof. vm_compute. auto. Qed.

(** C85: three areas in a row, three regions: nothing can move, two rounds are allowed, and the
    solution has been recorded once before *)
Definition args85 (reps : nat) : sa_args := mkSaArgs 1 None (Some 1%Z) 2 reps.
Example C85_example :
  (forall area region, ~ legal_move (path_graph 3) [5;4;9]%Z area region) /\
  sa_mem (sa_ex (path_graph 3) [1;7;2]%Q 3%Z (Some [5;4;9]%Z) (args85 5) (mkSaMemory false [[5;4;9]]%Z) rng0)
    = mkSaMemory false [[5;4;9];[5;4;9];[5;4;9]]%Z /\
  sa_mem (sa_ex (path_graph 3) [1;7;2]%Q 3%Z (Some [5;4;9]%Z) (args85 2) (mkSaMemory false [[5;4;9]]%Z) rng0)
    = mkSaMemory false [[5;4;9];[5;4;9]]%Z /\
  sa_mem (sa_ex (path_graph 3) [1;7;2]%Q 3%Z (Some [5;4;9]%Z) (args85 5) (mkSaMemory true [[5;4;9]]%Z) rng0)
    = mkSaMemory false [[5;4;9];[5;4;9];[5;4;9];[5;4;9]]%Z.
Proof.
  split; [|vm_compute; auto]. intros area region [Ha [D [HD [_ [[[x [Hx Hne]] _] _]]]]].
  cbn in Ha. unfold Spec.region in *. assert (Hx3 : x < 3) by (apply nth_error_lt in Hx; exact Hx).
  do 3 (destruct area as [|area]; [do 3 (destruct x as [|x]; [cbn in *; congruence|]); lia|]). lia.
Qed.

Print Assumptions C24_sa_feasible.
Print Assumptions C24_sa_bad_cooling.
Print Assumptions C25_sa_terminates.
Print Assumptions C25_sa_infinite_maxit_diverges.
Print Assumptions C26_sa_refit_partial.
Print Assumptions C26_sa_refit_refuted.
Print Assumptions C85_sa_gives_up.
