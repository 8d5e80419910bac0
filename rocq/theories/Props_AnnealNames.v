(** Property C110: the numbering of the areas and the names of the regions do not matter to AZPSimulatedAnnealing. *)
From Verif Require Import Base Spec M_Graph P_Graph M_Util P_Base P_Util P_Forest P_Init P_Initial P_Skater
  M_Objective P_Sum P_Objective M_Azp P_Azp P_Strategy P_Fit P_AzpFit Examples Props_Objective Props_Azp M_Sa P_Sa M_Tabu
  P_Zoning P_Names Props_Tabu Props_Descent Props_Zoning P_Anneal P_Annealing Props_Anneal P_AnnealNames.

(** Labels recorded by earlier fits of the two objects correspond to each other. *)
Definition same_record (g : graph) (f : nat -> nat) (s : Z -> Z) (initial v v' : list Z) : Prop :=
  length v = gn g /\ incl v initial /\ relabelled f s v v'.

Lemma Forall2_weaken {A B} (R R' : A -> B -> Prop) : (forall a b, R a b -> R' a b) -> forall x y, Forall2 R x y -> Forall2 R' x y.
Proof. intros H x y. induction 1; constructor; auto. Qed.
Lemma Forall2_turn {A B} (R : A -> B -> Prop) x y : Forall2 R x y -> Forall2 (fun b a => R a b) y x.
Proof. induction 1; constructor; auto. Qed.

Theorem C110_annealing_numbers_and_names expf order order' O g g' attr attr' f s azp_fuel azp_fuel' p initial initial'
    t0 maxit n steps reps cooling mem mem' labels' out' :
  (forall x y, (x == y -> expf x == expf y)%Q) ->
  (forall l, Permutation (order l) l) -> (forall l, Permutation (order' l) l) -> symmetric g -> length attr = gn g ->
  exact_on O attr -> nameless O -> valid_request g p (Some initial) ->
  renumbered f g attr g' attr' -> relabelled f s initial initial' ->
  (forall a b, In a initial -> In b initial -> s a = s b -> a = b) -> ~ In (-1)%Z initial' ->
  (1 <= n)%Z -> (0 < cooling)%Q -> (cooling < 1)%Q ->
  gn g ^ gn g + gn g + 1 < azp_fuel -> gn g ^ gn g + gn g + 1 < azp_fuel' ->
  sa_move_made mem' = sa_move_made mem -> Forall2 (same_record g f s initial) (sa_visited mem) (sa_visited mem') ->
  let a := mkSaArgs t0 maxit (Some n) steps reps in
  ((exists fuel r r', sa_fit expf order' O azp_fuel' g' attr' p fuel cooling (Some initial') a mem' r = Ok (Some labels', out', r')) <->
   (exists labels out, relabelled f s labels labels' /\ sa_move_made out' = sa_move_made out /\
      Forall2 (same_record g f s initial) (sa_visited out) (sa_visited out') /\
      exists fuel r r', sa_fit expf order O azp_fuel g attr p fuel cooling (Some initial) a mem r = Ok (Some labels, out, r'))).
Proof.
  intros Hexpf Hord Hord' Hsym Hattr Hex Hno Hv [Hn [Hla [Hf [Hinj [Hadj Hrow]]]]] [Hli Hlab] Hs Hm1 Hn1 Hc1 Hc2 Hfu Hfu' Hmm Hseen a.
  pose proof Hv as [Hp [Hfeas Hm0]]. pose proof Hfeas as [Hl0 _].
  destruct (inv_of_spec (gn g) f Hf Hinj) as [Hi1 Hi2]. set (h := inv_of (gn g) f) in *.
  set (t := name_inv initial s).
  assert (Htw : twins f h s t initial (map s initial) g g' attr attr').
  { constructor; auto.
    - intros z Hz. split; [apply in_map; auto|apply name_inv_spec; auto].
    - intros z Hz. apply in_map_iff in Hz. destruct Hz as [y [<- Hy]]. unfold t. rewrite name_inv_spec; auto. }
  assert (Hrec : forall v v', same_record g f s initial v v' <-> lrel f s initial g v v').
  { intros v v'. unfold same_record, relabelled, lrel, incl. split.
    - intros [H1 [H2 [H3 H4]]]. rewrite H1 in *. auto.
    - intros [H1 [H2 [H3 H4]]]. rewrite H1, H2. auto. }
  assert (Hrecs : forall x y, Forall2 (same_record g f s initial) x y <-> Forall2 (lrel f s initial g) x y).
  { intros x y. split; apply Forall2_weaken; intros v v'; apply Hrec. }
  rewrite Hrecs in Hseen.
  assert (Hrel : lrel f s initial g initial initial').
  { split; [auto|]. split; [lia|]. split; [auto|]. intros i Hi. apply Hlab. lia. }
  assert (Hsym' : symmetric g').
  { intros u v Hu Hv'. rewrite Hn in Hu, Hv'. rewrite !Hadj by auto. apply Hsym; auto. }
  assert (Hattr' : length attr' = gn g) by lia.
  assert (Hex' : exact_on O attr').
  { intros rows Hrows. apply Hex. intros x Hx. apply Hrows in Hx. apply (In_nth _ _ []) in Hx. destruct Hx as [i [Hi <-]].
    rewrite Hrow by lia. apply nth_In. rewrite Hattr. apply Hf. lia. }
  assert (Hfeas' : feasible g' initial' (Z.to_nat p)) by (eapply twin_valid; eauto).
  assert (Hv' : valid_request g' p (Some initial')) by (split; auto).
  destruct (C109_annealing_outcomes expf order g Hexpf Hord Hsym) as [T [_ Hout]].
  destruct (C109_annealing_outcomes expf order' g' Hexpf Hord' Hsym') as [T' [_ Hout']].
  unfold a. rewrite Hout' by (auto; try rewrite Hn; auto; lia). cbn [starting]. split.
  - intros [fresh [l [[-> ->] Ha]]]. rewrite Hmm in Ha.
    destruct (twin_annealing O Hno expf Hexpf h f t s (map s initial) initial g' g attr' attr (twins_sym _ _ _ _ _ _ _ _ _ _ Htw)
      ltac:(lia) ltac:(lia) Hex' Hex _ _ _ _ _ _ _ _ _ _ _ _ _ _ Ha initial (sa_visited mem)) as [labels [seen [H1 [H2 H3]]]].
    + eapply lrel_sym; eauto.
    + apply Forall2_turn in Hseen. revert Hseen. apply Forall2_weaken. intros v v' H. eapply lrel_sym; eauto.
    + assert (Hback : forall v v', lrel h t (map s initial) g' v v' -> lrel f s initial g v' v).
      { intros v v' H. apply (lrel_sym _ _ _ _ _ _ _ _ _ _ (twins_sym _ _ _ _ _ _ _ _ _ _ Htw)). exact H. }
      exists labels, (mkSaMemory (sa_move_made out') seen). split; [|split; [reflexivity|split]].
      * apply Hback in H2. destruct H2 as [L1 [L2 [_ L4]]]. split; [lia|]. intros i Hi. apply L4. lia.
      * apply Hrecs. cbn [sa_visited]. apply Forall2_turn in H3. revert H3. apply Forall2_weaken. intros v v' H. auto.
      * apply Hout; auto. exists false, initial. split; [split; reflexivity|]. exact H1.
  - intros [labels [out [[Hll Hlab'] [Hmo [Hso Hr]]]]]. rewrite Hrecs in Hso.
    apply Hout in Hr; auto. destruct Hr as [fresh [l [[-> ->] Ha]]].
    destruct (twin_annealing O Hno expf Hexpf f h s t initial (map s initial) g g' attr attr' Htw
      Hattr Hattr' Hex Hex' _ _ _ _ _ _ _ _ _ _ _ _ _ _ Ha initial' (sa_visited mem') Hrel Hseen) as [l2 [seen2 [H1 [H2 H3]]]].
    exists false, initial'. split; [split; reflexivity|]. rewrite Hmm, Hmo.
    assert (E : labels' = l2).
    { destruct H2 as [L1 [L2 [_ L4]]]. apply list_of_labs; [lia|]. intros i Hi. rewrite L4, Hlab' by lia. reflexivity. }
    assert (E2 : sa_visited out' = seen2).
    { revert H3. clear - Hso Htw Hattr Hattr'. revert seen2. induction Hso as [|v v' x y Hv _ IH]; intros seen2 H; inversion H; subst; [reflexivity|].
      f_equal; [|auto]. eapply lrel_fun; eauto. }
    rewrite E, E2. exact H1.
Qed.

(** The row 0, 1, 9, 10 of C109 listed from the other end, regions called 7 and 5 instead of 0 and 1. *)
Definition result_of {A} (o : out (option (list Z) * sa_memory * A)) : option (option (list Z) * sa_memory) :=
  match o with Ok (x, _) => Some x | _ => None end.
Example C110_example :
  let f := fun i => 3 - i in let s := fun z => if Z.eqb z 0 then 7%Z else 5%Z in
  let back := map (fun q : Q => [q]) [10;9;1;0]%Q in let a := mkSaArgs 1 (Some 2) (Some 1%Z) 1 2 in
  renumbered f (path_graph 4) values4 (path_graph 4) back /\ relabelled f s [0;1;1;1]%Z [5;5;5;7]%Z /\
  nameless (pairwise manhattan) /\ valid_request (path_graph 4) 2 (Some [0;1;1;1]%Z) /\
  result_of (sa_fit half same_order (pairwise manhattan) 300 (path_graph 4) values4 2%Z 50 (1#2) (Some [0;1;1;1]%Z) a (mkSaMemory false []) S) =
    Some (Some [0;0;0;1]%Z, mkSaMemory true [[0;0;0;1]; [0;1;1;1]; [0;0;0;1]; [0;1;1;1]]%Z) /\
  result_of (sa_fit half same_order (pairwise manhattan) 300 (path_graph 4) back 2%Z 50 (1#2) (Some [5;5;5;7]%Z) a (mkSaMemory false []) rng0) =
    Some (Some [5;7;7;7]%Z, mkSaMemory true [[5;7;7;7]; [5;5;5;7]; [5;7;7;7]; [5;5;5;7]]%Z) /\
  relabelled f s [0;0;0;1]%Z [5;7;7;7]%Z.
Proof.
  cbn zeta. split; [|split; [|split; [apply pairwise_nameless, manhattan_sym|split; [valid_tac|split; [|split]]]]].
  - split; [reflexivity|]. split; [reflexivity|]. split; [intros i Hi; cbn [gn path_graph] in *; lia|]. split; [intros i j Hi Hj; cbn [gn path_graph] in *; lia|]. split.
    + intros i j Hi Hj. cbn in Hi, Hj. do 4 (destruct i as [|i]; [do 4 (destruct j as [|j]; [reflexivity|]); lia|]). lia.
    + intros i Hi. cbn in Hi. do 4 (destruct i as [|i]; [reflexivity|]). lia.
  - split; [reflexivity|]. intros i Hi. cbn in Hi. do 4 (destruct i as [|i]; [reflexivity|]). lia.
  - vm_compute. reflexivity.
  - vm_compute. reflexivity.
  - split; [reflexivity|]. intros i Hi. cbn in Hi. do 4 (destruct i as [|i]; [reflexivity|]). lia.
Qed.

Print Assumptions C110_annealing_numbers_and_names.
