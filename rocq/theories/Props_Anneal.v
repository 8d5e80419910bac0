(** Property C109: the possible results of AZPSimulatedAnnealing.fit. *)
From Verif Require Import Base Spec M_Graph P_Graph M_Util P_Base P_Util P_Forest P_Init P_Initial P_Skater
  M_Objective P_Sum P_Objective M_Azp P_Azp P_Strategy P_Fit P_AzpFit Examples Props_Objective Props_Azp M_Sa P_Sa M_Tabu
  M_MaxP P_MaxP P_MaxP2 P_Greedy P_Zoning P_Starts P_Local Props_Tabu Props_Descent Props_Zoning P_Anneal P_Annealing.

(** ** C109 *)
(** Where the procedure starts: at the initial labels, or at the pieces of the spanning forest T after some cuts. *)
Definition starting (g : graph) (T : list (nat * nat)) (p : Z) (initial : option (list Z)) (fresh : bool) (l : list Z) : Prop :=
  match initial with
  | Some labels => fresh = false /\ l = labels
  | None => fresh = true /\ tree_start g T (Z.to_nat p) l
  end.

Section Anneal.
Variables (expf : Q -> Q) (order : list edge -> list edge) (g : graph).
Hypothesis Hexpf : forall x y, (x == y -> expf x == expf y)%Q.
Hypothesis Hord : forall l, Permutation (order l) l.
Hypothesis Hsym : symmetric g.

Lemma fit_unfold O attr azp_fuel p fuel initial t0 maxit n steps reps cooling mem r : (0 < cooling)%Q -> (cooling < 1)%Q -> (1 <= n)%Z ->
  exists s, an_K (Z.to_nat n) t0 (sa_move_made mem) s /\
    sa_fit expf order O azp_fuel g attr p fuel cooling initial (mkSaArgs t0 maxit (Some n) steps reps) mem r =
    sa_outer expf order O azp_fuel g attr p fuel (mkSaArgs t0 maxit (Some n) steps reps) cooling 0 t0 initial s (sa_visited mem) r.
Proof.
  intros Hc1 Hc2 Hn. unfold sa_fit, sa_strategy. cbn [sa_moves_term sa_init_temperature].
  rewrite (proj2 (Qltb_lt _ _) Hc1), (proj2 (Qltb_lt _ _) Hc2). cbn [andb negb]. destruct (Z.ltb_spec n 1); [lia|]. cbn [bind].
  eexists. split; [|reflexivity]. do 3 eexists. reflexivity.
Qed.

(** Every result is the end of some annealing. *)
Theorem C109_annealing_sound : exists T, spans g T /\
  forall O attr azp_fuel p initial t0 maxit n steps reps cooling mem fuel r labels mem' r',
  exact_on O attr -> length attr = gn g -> valid_request g p initial -> (1 <= n)%Z -> (0 < cooling)%Q -> (cooling < 1)%Q ->
  sa_fit expf order O azp_fuel g attr p fuel cooling initial (mkSaArgs t0 maxit (Some n) steps reps) mem r = Ok (Some labels, mem', r') ->
  exists fresh l, starting g T p initial fresh l /\
    annealing O attr g expf cooling maxit (Z.to_nat n) steps reps fresh 0 t0 (sa_move_made mem) l (sa_visited mem)
      labels (sa_move_made mem') (sa_visited mem').
Proof.
  exists (forest_of order g). split; [apply forest_spans; auto|].
  intros O attr azp_fuel p initial t0 maxit n steps reps cooling mem fuel r labels mem' r' Hex Hattr Hv Hn Hc1 Hc2 H.
  destruct (fit_unfold O attr azp_fuel p fuel initial t0 maxit n steps reps cooling mem r Hc1 Hc2 Hn) as [s [HK E]]. rewrite E in H. clear E.
  destruct initial as [l|]; cbn [starting].
  - destruct (outer_sound O attr Hex g Hsym Hattr expf Hexpf azp_fuel (Z.to_nat n) ltac:(lia) order Hord p _ cooling _ _ _ _ _ _ _ _ _ _ _ Hv HK H)
      as [l' [El Hres]]. injection El as <-. exists false, l. auto.
  - destruct (outer_fresh_sound O attr Hex g Hsym Hattr expf Hexpf azp_fuel (Z.to_nat n) ltac:(lia) order Hord p _ cooling _ _ _ _ _ _ _ _ _ _ Hv HK H)
      as [l0 [Hts Hres]]. exists true, l0. auto.
Qed.

(** Exactly the ends of such annealings are possible, each for suitable random draws. *)
Theorem C109_annealing_outcomes : exists T, spans g T /\
  forall O attr azp_fuel p initial t0 maxit n steps reps cooling mem labels mem',
  exact_on O attr -> length attr = gn g -> valid_request g p initial -> (1 <= n)%Z -> (0 < cooling)%Q -> (cooling < 1)%Q ->
  gn g ^ gn g + gn g + 1 < azp_fuel ->
  ((exists fuel r r', sa_fit expf order O azp_fuel g attr p fuel cooling initial (mkSaArgs t0 maxit (Some n) steps reps) mem r =
      Ok (Some labels, mem', r')) <->
   exists fresh l, starting g T p initial fresh l /\
    annealing O attr g expf cooling maxit (Z.to_nat n) steps reps fresh 0 t0 (sa_move_made mem) l (sa_visited mem)
      labels (sa_move_made mem') (sa_visited mem')).
Proof.
  exists (forest_of order g). split; [apply forest_spans; auto|].
  intros O attr azp_fuel p initial t0 maxit n steps reps cooling mem labels mem' Hex Hattr Hv Hn Hc1 Hc2 Hfuel. split.
  - intros [fuel [r [r' H]]].
    destruct (fit_unfold O attr azp_fuel p fuel initial t0 maxit n steps reps cooling mem r Hc1 Hc2 Hn) as [s [HK E]]. rewrite E in H. clear E.
    destruct initial as [l|]; cbn [starting].
    + destruct (outer_sound O attr Hex g Hsym Hattr expf Hexpf azp_fuel (Z.to_nat n) ltac:(lia) order Hord p _ cooling _ _ _ _ _ _ _ _ _ _ _ Hv HK H)
        as [l' [El Hres]]. injection El as <-. exists false, l. auto.
    + destruct (outer_fresh_sound O attr Hex g Hsym Hattr expf Hexpf azp_fuel (Z.to_nat n) ltac:(lia) order Hord p _ cooling _ _ _ _ _ _ _ _ _ _ Hv HK H)
        as [l0 [Hts Hres]]. exists true, l0. auto.
  - intros [fresh [l [Hst H]]].
    assert (Hb : begins g order p fresh l initial).
    { destruct initial as [l0|]; cbn [starting] in Hst; destruct Hst as [-> Hst]; cbn [begins]; [subst; auto|auto]. }
    assert (HK : an_K (Z.to_nat n) t0 (sa_move_made mem)
      (SSa (mkCommon [] (mkObj (fun _ _ => NoFuel) (fun _ _ _ _ => NoFuel)) 0%Q) t0 0 (Z.to_nat n) false (sa_move_made mem))).
    { do 3 eexists. reflexivity. }
    destruct (outer_reach O attr Hex g Hsym Hattr expf Hexpf azp_fuel (Z.to_nat n) ltac:(lia) order Hord p
      (mkSaArgs t0 maxit (Some n) steps reps) cooling Hfuel _ _ _ _ _ _ _ _ _ H initial _ Hb HK) as [N Hrun].
    destruct (Hrun N (le_n N) (fun _ => 0)) as [r Er]. exists N, r, (fun _ => 0).
    unfold sa_fit, sa_strategy. cbn [sa_moves_term sa_init_temperature].
    rewrite (proj2 (Qltb_lt _ _) Hc1), (proj2 (Qltb_lt _ _) Hc2). cbn [andb negb]. destruct (Z.ltb_spec n 1); [lia|]. cbn [bind].
    destruct mem' as [mv' seen']. exact Er.
Qed.
End Anneal.

(** ** Example: four areas in a row with the values 0, 1, 9, 10, already in the best two regions *)
Section TrialInvariant.
Variable goes : bool -> list Z -> nat -> Z -> Prop.
Variable must : list Z -> nat -> Z -> Prop.
Variable lower : list Z -> list Z -> Prop.
Variable I : list Z -> Prop.
Hypothesis Hgo : forall up l a K, I l -> goes up l a K -> I (upd l a K).
Lemma turn_inv K l u m l' : trial_turn goes must K l u m l' -> I l -> I l'.
Proof. induction 1; eauto. Qed.
Lemma round_inv Ks l u m l' : trial_round goes must Ks l u m l' -> I l -> I l'.
Proof. induction 1; eauto using turn_inv. Qed.
Lemma rounds_inv regions l u m l' : trial_rounds goes must lower regions l u m l' -> I l -> I l'.
Proof. induction 1; eauto using round_inv. Qed.
End TrialInvariant.

Local Notation att := (map (fun q : Q => [q])).
Definition values4 : list (list Q) := att [0;1;9;10]%Q.
Definition half : Q -> Q := fun _ => (1#2)%Q.
Local Notation goes4 t := (can_go (pairwise manhattan) values4 (path_graph 4) (acceptance half t) [0;1;2;3]).
Local Notation must4 t := (must_go (pairwise manhattan) values4 (path_graph 4) (acceptance half t) [0;1;2;3]).
Local Notation lower4 := (lower_at (pairwise manhattan) values4 [0;1;2;3]).

Lemma path4_every isls : every_island (path_graph 4) isls <-> isls = [[0;1;2;3]].
Proof.
  split.
  - intros [Hnd H]. destruct isls as [|x [|y isls]].
    + destruct (proj2 (H [0;1;2;3])). exists 0. split; [cbn; lia|]. apply (comp_nodes_island (path_graph 4) 0). cbn; lia.
    + destruct (proj1 (H x) (or_introl eq_refl)) as [v [Hv Hi]]. rewrite (path4_island v x Hv Hi). reflexivity.
    + exfalso. destruct (proj1 (H x) (or_introl eq_refl)) as [v [Hv Hi]]. destruct (proj1 (H y) (or_intror (or_introl eq_refl))) as [w [Hw Hj]].
      rewrite (path4_island v x Hv Hi), (path4_island w y Hw Hj) in Hnd. inversion Hnd; subst. apply H2. left. reflexivity.
  - intros ->. split; [repeat constructor; cbn; tauto|]. intros isl. split.
    + intros [<-|[]]. exists 0. split; [cbn; lia|]. apply (comp_nodes_island (path_graph 4) 0). cbn; lia.
    + intros [v [Hv Hi]]. left. symmetry. apply (path4_island v isl Hv Hi).
Qed.
Lemma path4_run e t l u m l' : length l = 4 -> anneal_run (pairwise manhattan) values4 (path_graph 4) (acceptance e t) l u m l' <->
  length l' = 4 /\ exists l1, annealed (pairwise manhattan) values4 (path_graph 4) (acceptance e t) [0;1;2;3] l u m l1 /\
    forall a, a < 4 -> lab l' a = lab l1 a.
Proof.
  intros Hl. split.
  - intros [Hl' [isls [ups [moves [He [Hall [-> ->]]]]]]]. split; [exact Hl'|]. apply path4_every in He. subst isls.
    destruct (Hall _ (or_introl eq_refl)) as [l1 [Ha Hag]]. exists l1. cbn. rewrite !Nat.add_0_r. split; [auto|]. intros a Hlt. apply Hag. cbn. lia.
  - intros [Hl' [l1 [Ha Hag]]]. split; [exact Hl'|]. exists [[0;1;2;3]], (fun _ => u), (fun _ => m).
    split; [apply path4_every; reflexivity|]. split; [|cbn; lia].
    intros isl [<-|[]]. exists l1. split; [auto|]. intros a Hin. apply Hag. cbn in Hin. lia.
Qed.

Lemma runs_one e t l m l' : anneal_runs (pairwise manhattan) values4 (path_graph 4) (acceptance e t) 1 false (Some 1) 0 l m l' <->
  exists u, anneal_run (pairwise manhattan) values4 (path_graph 4) (acceptance e t) l u m l'.
Proof.
  split.
  - intros H. inversion H as [? ? ? Hend|? ? ? u1 ? _ _ Hr|? ? ? ? u1 m1 l1 m2 ? _ _ Hr _ Hrest]; subst.
    + destruct Hend as [Hend|Hend]; [discriminate|lia].
    + eauto.
    + cbn [option_map pred] in Hrest. inversion Hrest; subst; try congruence. rewrite Nat.add_0_r. eauto.
  - intros [u Hr]. destruct (list_eq_dec Z.eq_dec l' l) as [->|Hne].
    + apply (runs_same _ _ _ _ _ _ _ _ u); [discriminate|lia|auto].
    + rewrite <- (Nat.add_0_r m). eapply runs_more; eauto; [discriminate|]. apply runs_over. left. reflexivity.
Qed.
Lemma annealing_one e t l labels mv seen :
  annealing (pairwise manhattan) values4 (path_graph 4) e (1#2) (Some 1) 1 1 0 false 0 t false l [] labels mv seen <->
  exists u m, anneal_run (pairwise manhattan) values4 (path_graph 4) (acceptance e t) l u m labels /\ mv = Nat.ltb 0 m /\ seen = [].
Proof.
  split.
  - intros H. inversion H as [? ? ? ? ? Hge|? ? ? ? ? ? m ? Hlt Hr Hs|? ? ? ? ? ? m l1 ? ? ? Hlt Hr Hs Hrest]; subst; [lia| |lia].
    apply runs_one in Hr. destruct Hr as [u Hr]. exists u, m. auto.
  - intros [u [m [Hr [-> ->]]]]. apply (annealing_seen _ _ _ _ _ _ _ _ _ false 0 t false l [] m labels); [lia| |lia]. apply runs_one. eauto.
Qed.
Lemma regions4 regions : NoDup regions -> (forall K, In K regions <-> exists a, In a [0;1;2;3] /\ region [0;0;1;1]%Z K a) -> Permutation regions [0;1]%Z.
Proof.
  intros Hnd Hreg. apply NoDup_Permutation; [auto|repeat constructor; cbn; intuition; discriminate|]. intros K. rewrite Hreg. split.
  - intros [a [Ha Hr]]. unfold region in Hr. cbn in Ha. intuition; subst; cbn in Hr; injection Hr as <-; cbn; auto.
  - intros [<-|[<-|[]]]; [exists 0|exists 2]; split; cbn; auto; reflexivity.
Qed.

Lemma at_zero l u m l' : annealed (pairwise manhattan) values4 (path_graph 4) (acceptance half 0) [0;1;2;3] l u m l' -> l = [0;0;1;1]%Z -> l' = l.
Proof.
  intros [regions [_ [_ H]]] Hl. rewrite Hl. refine (rounds_inv _ _ _ (fun l => l = [0;0;1;1]%Z) _ _ _ _ _ _ H Hl). clear.
  intros up l a K -> [_ [Hleg [x [y [Ex [Ey H]]]]]]. exfalso. listed Hleg.
  - vm_compute in Ex, Ey. injection Ex as <-. injection Ey as <-. destruct up; [destruct H as [_ H]|]; vm_compute in H; congruence.
  - vm_compute in Ex, Ey. injection Ex as <-. injection Ey as <-. destruct up; [destruct H as [_ H]|]; vm_compute in H; congruence.
Qed.
Lemma at_any t l u m l' : annealed (pairwise manhattan) values4 (path_graph 4) (acceptance half t) [0;1;2;3] l u m l' -> l = [0;0;1;1]%Z ->
  In l' [[0;0;1;1]; [0;1;1;1]; [0;0;0;1]]%Z.
Proof.
  intros [regions [_ [_ H]]] Hl. refine (rounds_inv _ _ _ (fun l => In l [[0;0;1;1]; [0;1;1;1]; [0;0;0;1]]%Z) _ _ _ _ _ _ H _); [|subst; cbn; auto]. clear.
  intros up l a K Hin [_ [Hleg _]]. cbn [In] in Hin. destruct Hin as [<-|[<-|[<-|[]]]]; listed Hleg; cbn; auto.
Qed.

Ltac no_must := let a := fresh "a" in intros a [_ [Hleg [x [y [Ex [Ey H]]]]]]; apply legal_to_listed in Hleg; [|wf_tac]; vm_compute in Hleg;
  intuition; subst; vm_compute in Ex, Ey; injection Ex as <-; injection Ey as <-; vm_compute in *; intuition; congruence.
Lemma stay_0 : trial_turn (goes4 1) (must4 1) 0 [0;0;1;1]%Z 0 0 [0;0;1;1]%Z.
Proof. apply trial_over. no_must. Qed.
Lemma stay_1 : trial_turn (goes4 1) (must4 1) 1 [0;0;1;1]%Z 0 0 [0;0;1;1]%Z.
Proof. apply trial_over. no_must. Qed.
Ltac go_up := split; [cbn; auto|]; split; [apply listed_legal; [apply path_symmetric|wf_tac|vm_compute; auto 10]|];
  eexists _, _; split; [vm_compute; reflexivity|]; split; [vm_compute; reflexivity|]; split; vm_compute; reflexivity.
Lemma up_0 : trial_turn (goes4 1) (must4 1) 0 [0;0;1;1]%Z 1 1 [0;0;0;1]%Z.
Proof. apply (trial_move _ _ _ true _ 2 0 0); [go_up|]. apply trial_over. no_must. Qed.
Lemma up_1 : trial_turn (goes4 1) (must4 1) 1 [0;0;1;1]%Z 1 1 [0;1;1;1]%Z.
Proof. apply (trial_move _ _ _ true _ 1 0 0); [go_up|]. apply trial_over. no_must. Qed.
Lemma at_one l' : In l' [[0;0;1;1]; [0;1;1;1]; [0;0;0;1]]%Z ->
  exists u m, annealed (pairwise manhattan) values4 (path_graph 4) (acceptance half 1) [0;1;2;3] [0;0;1;1]%Z u m l'.
Proof.
  intros Hin. assert (Hr : exists Ks u m, Permutation Ks [0;1]%Z /\ trial_round (goes4 1) (must4 1) Ks [0;0;1;1]%Z u m l').
  { destruct Hin as [<-|[<-|[<-|[]]]].
    - exists [0;1]%Z, (0 + (0 + 0)), (0 + (0 + 0)). split; [auto|]. econstructor; [apply stay_0|]. econstructor; [apply stay_1|constructor].
    - exists [0;1]%Z, (0 + (1 + 0)), (0 + (1 + 0)). split; [auto|]. econstructor; [apply stay_0|]. econstructor; [apply up_1|constructor].
    - exists [1;0]%Z, (0 + (1 + 0)), (0 + (1 + 0)). split; [apply perm_swap|]. econstructor; [apply stay_1|]. econstructor; [apply up_0|constructor]. }
  destruct Hr as [Ks [u [m [HP Hr]]]]. exists u, m, [0;1]%Z. split; [repeat constructor; cbn; intuition; discriminate|]. split.
  { intros K. split.
    - intros [<-|[<-|[]]]; [exists 0|exists 2]; split; cbn; auto; reflexivity.
    - intros [a [Ha Hg]]. unfold region in Hg. cbn in Ha. intuition; subst; cbn in Hg; injection Hg as <-; cbn; auto. }
  apply (trials_last _ _ _ _ Ks); auto. intros [x [y [Ex [Ey Hlt]]]]. cbn [In] in Hin.
  destruct Hin as [<-|[<-|[<-|[]]]]; vm_compute in Ex, Ey; injection Ex as <-; injection Ey as <-; vm_compute in Hlt; discriminate.
Qed.

(** One temperature with one run: at temperature 0 the labels stay; at temperature 1, where every worsening is
    accepted with probability one half, exactly two worse results are possible, too. *)
Example C109_example azp_fuel labels : 261 < azp_fuel ->
  let possible t := exists fuel r mem' r', sa_fit half same_order (pairwise manhattan) azp_fuel (path_graph 4) values4 2%Z fuel (1#2)
    (Some [0;0;1;1]%Z) (mkSaArgs t (Some 1) (Some 1%Z) 1 0) (mkSaMemory false []) r = Ok (Some labels, mem', r') in
  valid_request (path_graph 4) 2 (Some [0;0;1;1]%Z) /\ exact_on (pairwise manhattan) values4 /\
  (possible 0%Q <-> labels = [0;0;1;1]%Z) /\
  (possible 1%Q <-> labels = [0;0;1;1]%Z \/ labels = [0;1;1;1]%Z \/ labels = [0;0;0;1]%Z).
Proof.
  intros Hf possible. assert (Hv : valid_request (path_graph 4) 2 (Some [0;0;1;1]%Z)) by valid_tac.
  assert (Hex : exact_on (pairwise manhattan) values4) by (apply pairwise_exact_on; [apply manhattan_sym|apply manhattan_zero]).
  split; [auto|]. split; [auto|].
  assert (Hall : forall t, possible t <-> length labels = 4 /\ exists u m l1,
    annealed (pairwise manhattan) values4 (path_graph 4) (acceptance half t) [0;1;2;3] [0;0;1;1]%Z u m l1 /\ forall a, a < 4 -> lab labels a = lab l1 a).
  { intros t. destruct (C109_annealing_outcomes half same_order (path_graph 4) (fun _ _ _ => Qeq_refl _) (fun l => Permutation_refl l)
      (path_symmetric 4)) as [T [_ Hout]].
    specialize (fun mem' => Hout (pairwise manhattan) values4 azp_fuel 2%Z (Some [0;0;1;1]%Z) t (Some 1) 1%Z 1 0 (1#2)%Q (mkSaMemory false [])
      labels mem' Hex eq_refl Hv ltac:(lia) ltac:(lra) ltac:(lra) Hf).
    split.
    - intros [fuel [r [mem' [r' H]]]]. destruct (proj1 (Hout mem')) as [fresh [l [[-> ->] Ha]]]; [eauto|].
      apply annealing_one in Ha. destruct Ha as [u [m [Ha _]]]. apply path4_run in Ha; [|reflexivity].
      destruct Ha as [Hl [l1 Ha]]. split; [auto|]. exists u, m, l1. auto.
    - intros [Hl [u [m [l1 Ha]]]].
      destruct (proj2 (Hout (mkSaMemory (Nat.ltb 0 m) []))) as [fuel [r [r' H]]]; [|exists fuel, r, (mkSaMemory (Nat.ltb 0 m) []), r'; exact H].
      exists false, [0;0;1;1]%Z. split; [split; reflexivity|]. apply annealing_one. exists u, m. split; [|auto].
      apply path4_run; [reflexivity|]. eauto. }
  rewrite !Hall. clear Hall possible. split; split.
  - intros [Hl [u [m [l1 [Ha Hag]]]]]. apply at_zero in Ha; [|reflexivity]. subst l1. apply list_of_labs; [exact Hl|]. rewrite Hl. exact Hag.
  - intros ->. split; [reflexivity|]. exists 0, 0, [0;0;1;1]%Z. split; [|auto].
    exists [0;1]%Z. split; [repeat constructor; cbn; intuition; discriminate|]. split.
    { intros K. split.
      - intros [<-|[<-|[]]]; [exists 0|exists 2]; split; cbn; auto; reflexivity.
      - intros [a [Ha Hg]]. unfold region in Hg. cbn in Ha. intuition; subst; cbn in Hg; injection Hg as <-; cbn; auto. }
    apply (trials_last _ _ _ _ [0;1]%Z); [auto| |].
    + apply (trials_turn _ _ 0%Z [1]%Z _ 0 0 [0;0;1;1]%Z 0 0); [apply trial_over; no_must|].
      apply (trials_turn _ _ 1%Z []%Z _ 0 0 [0;0;1;1]%Z 0 0); [apply trial_over; no_must|constructor].
    + intros [x [y [Ex [Ey Hlt]]]]. vm_compute in Ex, Ey; injection Ex as <-; injection Ey as <-; vm_compute in Hlt; discriminate.
  - intros [Hl [u [m [l1 [Ha Hag]]]]]. apply at_any in Ha; [|reflexivity].
    assert (E : labels = l1); [|subst l1; cbn in Ha; intuition].
    apply list_of_labs; [|rewrite Hl; exact Hag]. rewrite Hl. cbn in Ha. intuition; subst; reflexivity.
  - intros Hin. split; [intuition; subst; reflexivity|]. destruct (at_one labels) as [u [m Ha]]; [cbn; intuition|].
    exists u, m, labels. split; [exact Ha|auto].
Qed.

Print Assumptions C109_annealing_sound.
Print Assumptions C109_annealing_outcomes.
