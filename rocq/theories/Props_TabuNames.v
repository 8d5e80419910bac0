(** Properties C115 and C116: what the results of the tabu searches depend on. *)
From Verif Require Import Base Spec M_Graph P_Graph M_Util P_Base P_Util P_Forest P_Init P_Initial P_Skater
  M_Objective P_Sum P_Objective M_Azp P_Azp P_Strategy P_Fit P_AzpFit Examples Props_Objective Props_Azp M_Sa P_Sa M_Tabu P_Tabu
  P_TabuFit P_Reactive P_Descent P_Zoning P_Names Props_Tabu Props_Descent Props_Zoning P_TabuNames.

(** ** C115: AZPReactiveTabu with initial labels and k1 >= 1 *)
(** The labels, or the exception, do not depend on k1 and k2, on the random draws or on what the object held before. *)
Theorem C115_reactive_parameters order order' O g attr max_iterations c0 c0' s s' k1 k2 k1' k2' p initial r r' :
  symmetric g -> length attr = gn g -> n_islands g 1 -> exact_on O attr ->
  reactive_new max_iterations c0 = Ok s -> reactive_new max_iterations c0' = Ok s' -> 1 <= k1 -> 1 <= k1' ->
  valid_request g p (Some initial) ->
  let m := Z.to_nat max_iterations in
  (forall labels, (exists s1 r1, reactive_fit order O m k1 k2 g attr p (Some initial) s r = Ok ((labels, s1), r1)) <->
                  (exists s1 r1, reactive_fit order' O m k1' k2' g attr p (Some initial) s' r' = Ok ((labels, s1), r1))) /\
  (forall e, reactive_fit order O m k1 k2 g attr p (Some initial) s r = Raise e <->
             reactive_fit order' O m k1' k2' g attr p (Some initial) s' r' = Raise e).
Proof.
  intros Hsym Hattr Hone Hex Hnew Hnew' Hk Hk' Hv m.
  assert (H1 : n_components g = 1) by (symmetry; apply n_islands_iff; auto).
  destruct (fresh_new g attr Hattr _ _ _ _ Hnew Hk) as [[F1 F2] Hm]. destruct (fresh_new g attr Hattr _ _ _ _ Hnew' Hk') as [[F1' F2'] _].
  pose proof (reactive_fit_quiet g attr Hattr H1 O Hex Hsym order m k1 k2 p initial s r Hm Hk Hv F1 F2) as Q.
  pose proof (reactive_fit_quiet g attr Hattr H1 O Hex Hsym order' m k1' k2' p initial s' r' Hm Hk' Hv F1' F2') as Q'.
  destruct (quiet_fit g attr O m initial) as [l|e|],
    (reactive_fit order O m k1 k2 g attr p (Some initial) s r) as [[[l1 s1] r1]|e1|],
    (reactive_fit order' O m k1' k2' g attr p (Some initial) s' r') as [[[l2 s2] r2]|e2|]; cbn in Q, Q'; try contradiction; subst.
  - split; [|intros e; split; discriminate]. intros labels. split; intros [x [y E]]; injection E as <- _ _; eauto.
  - split; [|intros e'; split; intros E; injection E as <-; reflexivity]. intros labels; split; intros [x [y E]]; discriminate.
  - split; [|intros e; split; discriminate]. intros labels; split; intros [x [y E]]; discriminate.
Qed.

(** ** C116: the numbers of the areas and the names of the regions *)
Section Numbering.
Variables (O : objfun) (g g' : graph) (attr attr' : list (list Q)) (f : nat -> nat) (s : Z -> Z) (p : Z) (initial initial' : list Z).
Hypothesis Hsym : symmetric g.
Hypothesis Hattr : length attr = gn g.
Hypothesis Hone : n_islands g 1.
Hypothesis Hex : exact_on O attr.
Hypothesis Hname : nameless O.
Hypothesis Hfail : nameless_failures O.
Hypothesis Hv : valid_request g p (Some initial).
Hypothesis Hren : renumbered f g attr g' attr'.
Hypothesis Hrel : relabelled f s initial initial'.
Hypothesis Hinj : forall a b, In a initial -> In b initial -> s a = s b -> a = b.
Hypothesis Hm1 : ~ In (-1)%Z initial'.
Hypothesis Hriv : no_rivals O attr g initial.

Lemma numbered : exists h t, twins f h s t initial (map s initial) g g' attr attr' /\ length attr' = gn g' /\
  n_components g = 1 /\ n_components g' = 1 /\ symmetric g' /\ exact_on O attr' /\ lrel f s initial g initial initial' /\
  valid_request g' p (Some initial') /\ forall l l', lrel f s initial g l l' -> relabelled f s l l'.
Proof.
  destruct Hren as [Hn [Hla [Hf [Hfi [Hadj Hrow]]]]]. destruct Hrel as [Hli Hlab].
  pose proof Hv as [Hp [Hfeas Hm0]]. pose proof Hfeas as [Hl0 _].
  destruct (inv_of_spec (gn g) f Hf Hfi) as [Hi1 Hi2]. set (h := inv_of (gn g) f) in *.
  set (t := name_inv initial s).
  assert (Htw : twins f h s t initial (map s initial) g g' attr attr').
  { constructor; auto.
    - intros z Hz. split; [apply in_map; auto|apply name_inv_spec; auto].
    - intros z Hz. apply in_map_iff in Hz. destruct Hz as [y [<- Hy]]. unfold t. rewrite name_inv_spec; auto. }
  assert (Hr : lrel f s initial g initial initial').
  { split; [auto|]. split; [lia|]. split; [auto|]. intros i Hi. apply Hlab. lia. }
  exists h, t. split; [auto|]. split; [lia|]. split; [symmetry; apply n_islands_iff; auto|].
  split; [symmetry; apply n_islands_iff; eapply twins_island; eauto|]. split; [|split; [|split; [auto|split]]].
  - intros u v Hu Hv'. rewrite Hn in Hu, Hv'. rewrite !Hadj by auto. apply Hsym; auto.
  - intros rows Hrows. apply Hex. intros x Hx. apply Hrows in Hx. apply (In_nth _ _ []) in Hx. destruct Hx as [i [Hi <-]].
    rewrite Hrow by lia. apply nth_In. rewrite Hattr. apply Hf. lia.
  - split; [auto|]. split; [|auto]. eapply twin_valid; eauto.
  - intros l l' [L [L' [_ H]]]. split; [lia|]. rewrite L. auto.
Qed.

(** AZPBasicTabu: with the same random draws the answers correspond (see the refutation for what is missing: ties). *)
Theorem C116_basic_tabu_partial order order' fuel tabu_length reps c0 c0' r :
  (forall labels' r', (exists c', basic_fit order' O fuel tabu_length reps g' attr' p (Some initial') c0' r = Ok ((labels', c'), r')) <->
     (exists labels c, relabelled f s labels labels' /\ basic_fit order O fuel tabu_length reps g attr p (Some initial) c0 r = Ok ((labels, c), r'))) /\
  (forall e, basic_fit order' O fuel tabu_length reps g' attr' p (Some initial') c0' r = Raise e <->
             basic_fit order O fuel tabu_length reps g attr p (Some initial) c0 r = Raise e).
Proof.
  destruct numbered as [h [t [Htw [Ha' [H1 [H1' [Hsym' [Hex' [Hr [Hv' Hl]]]]]]]]]].
  pose proof (basic_fit_rel f h s t initial (map s initial) g g' attr attr' Htw Hattr Ha' H1 H1' O Hname Hex Hex' Hfail Hsym Hriv
    order order' fuel tabu_length reps p initial initial' c0 c0' r Hv Hv' Hsym' Hr) as Q.
  destruct (basic_fit order O _ _ _ _ _ _ _ _ _) as [[[l c] r1]|e|], (basic_fit order' O _ _ _ _ _ _ _ _ _) as [[[l' c'] r1']|e'|];
    cbn in Q; try contradiction.
  - destruct Q as [Q <-]. split; [|intros e; split; discriminate]. intros labels' r'. split.
    + intros [x E]. injection E as <- _ <-. exists l, c. split; [auto|reflexivity].
    + intros [labels [x [Hrl E]]]. injection E as <- _ <-. exists c'. do 3 f_equal. apply Hl in Q.
      destruct Q as [Q1 Q2], Hrl as [R1 R2]. apply list_of_labs; [lia|]. intros i Hi. rewrite Q2, R2 by lia. reflexivity.
  - subst e'. split; [|intros e'; split; auto]. intros labels' r'. split; [intros [x E]; discriminate|intros [x [y [_ E]]]; discriminate].
  - split; [|intros e'; split; discriminate]. intros labels' r'. split; [intros [x E]; discriminate|intros [x [y [_ E]]]; discriminate].
Qed.

(** AZPReactiveTabu, k1 >= 1: the answers correspond, whatever the draws (see the refutation for what is missing: ties). *)
Theorem C116_reactive_tabu_partial order order' max_iterations c0 c0' k1 k2 k1' k2' st st' r r2 :
  reactive_new max_iterations c0 = Ok st -> reactive_new max_iterations c0' = Ok st' -> 1 <= k1 -> 1 <= k1' ->
  let m := Z.to_nat max_iterations in
  (forall labels', (exists s1 r1, reactive_fit order' O m k1' k2' g' attr' p (Some initial') st' r2 = Ok ((labels', s1), r1)) <->
     (exists labels s1 r1, relabelled f s labels labels' /\ reactive_fit order O m k1 k2 g attr p (Some initial) st r = Ok ((labels, s1), r1))) /\
  (forall e, reactive_fit order' O m k1' k2' g' attr' p (Some initial') st' r2 = Raise e <->
             reactive_fit order O m k1 k2 g attr p (Some initial) st r = Raise e).
Proof.
  intros Hnew Hnew' Hk Hk' m.
  destruct numbered as [h [t [Htw [Ha' [H1 [H1' [Hsym' [Hex' [Hr [Hv' Hl]]]]]]]]]].
  destruct (fresh_new g attr Hattr _ _ _ _ Hnew Hk) as [[F1 F2] Hm]. destruct (fresh_new g attr Hattr _ _ _ _ Hnew' Hk') as [[F1' F2'] _].
  pose proof (reactive_fit_quiet g attr Hattr H1 O Hex Hsym order m k1 k2 p initial st r Hm Hk Hv F1 F2) as Q.
  pose proof (reactive_fit_quiet g' attr' Ha' H1' O Hex' Hsym' order' m k1' k2' p initial' st' r2 Hm Hk' Hv' F1' F2') as Q'.
  assert (Hwf : wf g initial) by (destruct Hv as [_ [[L [_ A]] _]]; split; auto).
  pose proof (quiet_fit_rel f h s t initial (map s initial) g g' attr attr' Htw Hattr Ha' H1 H1' O Hname Hex Hex' Hfail Hsym Hsym' Hriv
    m initial initial' Hwf Hr) as R.
  destruct (quiet_fit g attr O m initial) as [l|e|], (quiet_fit g' attr' O m initial') as [l'|e'|]; cbn in R; try contradiction;
  destruct (reactive_fit order O m k1 k2 g attr p (Some initial) st r) as [[[l1 s1] r1]|e1|];
    cbn in Q; try contradiction; subst;
  destruct (reactive_fit order' O m k1' k2' g' attr' p (Some initial') st' r2) as [[[l3 s3] r3]|e2|]; cbn in Q'; try contradiction; subst.
  - apply Hl in R. split; [|intros e; split; discriminate]. intros labels'. split.
    + intros [x [y E]]. injection E as <- _ _. exists l, s1, r1. auto.
    + intros [labels [x [y [Hrl E]]]]. injection E as <- _ _. exists s3, r3. do 3 f_equal.
      destruct R as [Q1 Q2], Hrl as [R1 R2]. apply list_of_labs; [lia|]. intros i Hi. rewrite Q2, R2 by lia. reflexivity.
  - split; [|intros e; split; auto]. intros labels'. split; [intros [x [y E]]; discriminate|intros [x [y [z [_ E]]]]; discriminate].
  - split; [|intros e; split; discriminate]. intros labels'. split; [intros [x [y E]]; discriminate|intros [x [y [z [_ E]]]]; discriminate].
Qed.
End Numbering.

(** *** objectives that qualify *)
Section Qualify.
Variables (f : nat -> nat) (s : Z -> Z) (l l' : list Z).
Hypothesis Hf : forall i, i < length l -> f i < length l.
Hypothesis Hfi : forall i j, i < length l -> j < length l -> f i = f j -> i = j.
Hypothesis Hrel : relabelled f s l l'.

Lemma in_relabelled z : (forall y, In y l -> s y = s z -> y = z) -> (In (s z) l' <-> In z l).
Proof.
  intros Hs. destruct Hrel as [Hlen Hlab]. destruct (inv_of_spec (length l) f Hf Hfi) as [_ H2]. split; intros Hz.
  - apply In_nth_error in Hz. destruct Hz as [i Hi]. pose proof (nth_error_lt _ _ _ Hi) as Hlt. rewrite Hlen in Hlt.
    apply lab_of_nth_error in Hi. rewrite Hlab in Hi by auto. apply Hs in Hi; [|apply lab_in; auto]. rewrite <- Hi. apply lab_in; auto.
  - apply In_nth_error in Hz. destruct Hz as [a Ha]. pose proof (nth_error_lt _ _ _ Ha) as Hlt. apply lab_of_nth_error in Ha. subst z.
    destruct (H2 a Hlt) as [H3 H4]. rewrite <- H4. rewrite <- Hlab by auto. apply lab_in. lia.
Qed.

Lemma relabelled_upd a r : a < length l -> relabelled f s (upd l (f a) r) (upd l' a (s r)).
Proof.
  destruct Hrel as [Hlen Hlab]. intros Ha. split; rewrite !upd_length; [auto|]. intros i Hi. destruct (Nat.eq_dec i a) as [->|Hne].
  - rewrite !lab_upd_eq by (auto; lia). reflexivity.
  - rewrite !lab_upd_ne; auto.
Qed.
End Qualify.

Lemma metric_fails d rows p : rows = [] -> metric_to_point d rows p = Raise (ValueError "Found array with 0 sample(s)").
Proof. intros ->. reflexivity. Qed.

Lemma pairwise_failures d : nameless_failures (pairwise d).
Proof.
  intros f s attr attr' l l' a r Ha Ha' Hf Hfi Hrow Hrel Hs Hlt. pose proof Hrel as [Hlen Hlab].
  assert (Hr : In (s r) l' <-> In r l).
  { apply (in_relabelled f s l l' Hf Hfi Hrel). intros y Hy. apply Hs; cbn; auto. }
  cbn [pairwise o_update]. unfold pairwise_update.
  rewrite (metric_to_point_Ok d (rows_of l (lab l (f a)) attr)) by (apply rows_of_nonempty, nth_In; auto).
  rewrite (metric_to_point_Ok d (rows_of l' (lab l' a) attr')) by (apply rows_of_nonempty, nth_In; lia). cbn [bind].
  destruct (in_dec Z.eq_dec r l) as [H|H].
  - rewrite (metric_to_point_Ok d (rows_of l r attr)) by (apply rows_of_nonempty; auto).
    rewrite (metric_to_point_Ok d (rows_of l' (s r) attr')) by (apply rows_of_nonempty; tauto). exact Logic.I.
  - rewrite (metric_fails d (rows_of l r attr)).
    2:{ destruct (rows_of l r attr) eqn:E; [auto|]. destruct H. apply (rows_of_nonempty l r attr). congruence. }
    rewrite (metric_fails d (rows_of l' (s r) attr')).
    2:{ destruct (rows_of l' (s r) attr') eqn:E; [auto|]. destruct H. apply Hr. apply (rows_of_nonempty l' (s r) attr'). congruence. }
    reflexivity.
Qed.

Lemma het_fails d center red l r attr : ~ In r l ->
  heterogeneity_of d center red l r attr = Raise (ValueError "Found array with 0 sample(s)").
Proof.
  intros H. unfold heterogeneity_of. rewrite metric_fails; [reflexivity|].
  destruct (rows_of l r attr) eqn:E; [auto|]. destruct H. apply (rows_of_nonempty l r attr). congruence.
Qed.

Lemma centered_failures d center red : nameless_failures (centered d center red).
Proof.
  intros f s attr attr' l l' a r Ha Ha' Hf Hfi Hrow Hrel Hs Hlt. pose proof Hrel as [Hlen Hlab].
  assert (Hin : forall z, In z (r :: l) -> (In (s z) l' <-> In z l)).
  { intros z Hz. apply (in_relabelled f s l l' Hf Hfi Hrel). intros y Hy. apply Hs; cbn; auto. }
  assert (Hin1 : forall z, In z (r :: l) -> (In (s z) (upd l' a (s r)) <-> In z (upd l (f a) r))).
  { intros z Hz. apply (in_relabelled f s (upd l (f a) r) (upd l' a (s r))); rewrite ?upd_length; auto.
    - apply relabelled_upd; auto.
    - intros y Hy. apply Hs; [|auto]. apply In_upd in Hy. destruct Hy as [->|Hy]; cbn; auto. }
  pose proof (Hlab a Hlt) as El. assert (Hd : In (lab l (f a)) l) by (apply lab_in; auto).
  cbn [centered o_update]. unfold center_update, center_update_st. rewrite El.
  assert (D : forall z w (A B : Q -> out (Q * list Z)) x x', In z (r :: l) -> (In (s z) x' <-> In z x) ->
    (forall q q', fail_alike (let* '(u, _) := A q in Ok u) (let* '(u, _) := B q' in Ok u)) -> w = s z ->
    fail_alike (let* '(u, _) := (let* q := heterogeneity_of d center red x z attr in A q) in Ok u)
               (let* '(u, _) := (let* q := heterogeneity_of d center red x' w attr' in B q) in Ok u)).
  { intros z w A B x x' Hz Hx HAB ->. destruct (in_dec Z.eq_dec z x) as [H|H].
    - rewrite !heterogeneity_of_Ok by tauto. cbn [bind]. apply HAB.
    - rewrite !het_fails by tauto. reflexivity. }
  apply D; [cbn; auto|apply Hin; cbn; auto| |reflexivity]. intros q1 q1'.
  apply D; [cbn; auto|apply Hin; cbn; auto| |reflexivity]. intros q2 q2'.
  apply D; [cbn; auto|apply Hin1; cbn; auto| |reflexivity]. intros q3 q3'.
  apply D; [cbn; auto|apply Hin1; cbn; auto| |reflexivity]. intros q4 q4'. exact Logic.I.
Qed.

Local Notation att := (map (fun q : Q => [q])).
(** *** objectives and data without rivals, by trying all labellings *)
Lemma no_rivals_by_cases O attr g names : symmetric g ->
  (forall l, In l (words names (gn g)) -> wf g l ->
    forall m m' u v, In m (map (fun m => (mv_area m, mv_new m)) (possible_moves g l [])) ->
      In m' (map (fun m => (mv_area m, mv_new m)) (possible_moves g l [])) -> m <> m' ->
      o_call O (upd l (fst m) (snd m)) attr = Ok u -> o_call O (upd l (fst m') (snd m')) attr = Ok v -> ~ (u == v)%Q) ->
  no_rivals O attr g names.
Proof.
  intros Hsym H l a z b y u v Hl Hin Hc Hm Hm' Hne Hu Hv.
  apply (H l (words_In _ _ _ Hl Hin) (wf_of _ _ Hl Hc) (a, z) (b, y)); auto; apply legal_listed; auto; apply wf_of; auto.
Qed.

(** C115: five areas in a row, regions {0} {1,2,3,4}; two quite different pairs of parameters and of draws. *)
Example C115_example :
  valid_request (path_graph 5) 2 (Some [0;1;1;1;1]%Z) /\ n_islands (path_graph 5) 1 /\
  exact_on (pairwise manhattan) row5 /\ reactive_new 33 dum = Ok rt_fresh /\
  tabu_labels (reactive_ex 33 1 0 (path_graph 5) [0;0;0;9;9]%Q 2%Z (Some [0;1;1;1;1]%Z) rt_fresh rng0) = Some [0;0;0;1;1]%Z /\
  tabu_labels (reactive_ex 33 9 4 (path_graph 5) [0;0;0;9;9]%Q 2%Z (Some [0;1;1;1;1]%Z) rt_fresh (fun n => n * n + 3)) = Some [0;0;0;1;1]%Z.
Proof.
  split; [valid_tac|]. split; [apply n_islands_iff; vm_compute; reflexivity|]. split; [apply pairwise_exact_on; [apply manhattan_sym|apply manhattan_zero]|].
  split; [reflexivity|]. split; vm_compute; reflexivity.
Qed.

(** C116: the same areas in reverse order, regions called 7 and 5 instead of 0 and 1. *)
Definition row4r : list Q := [0;1;9;7]%Q.
Lemma row4r_rivals : no_rivals (pairwise manhattan) (att row4r) (path_graph 4) [0;1;1;1]%Z.
Proof.
  assert (H : no_rivals (pairwise manhattan) (att row4r) (path_graph 4) [0;1]%Z).
  2:{ intros l a z b y u v Hl Hin. apply H; auto. intros x Hx. apply Hin in Hx. cbn in *. tauto. }
  apply no_rivals_by_cases; [apply path_symmetric|]. intros l Hl Hwf. vm_compute in Hl.
  repeat (destruct Hl as [<-|Hl];
    [first [exfalso; destruct Hwf as [_ Hwf]; apply (proj2 (check_regions_all _ _)) in Hwf; vm_compute in Hwf; discriminate
           |intros m m' u v Hm Hm' Hne Hu Hv; vm_compute in Hm, Hm';
            repeat (destruct Hm as [<-|Hm]; [repeat (destruct Hm' as [<-|Hm'];
              [first [congruence|vm_compute in Hu, Hv; injection Hu as <-; injection Hv as <-; vm_compute; discriminate]|]);
              destruct Hm'|]); destruct Hm]|]); destruct Hl.
Qed.

Example C116_example :
  let f := fun i => 3 - i in let s := fun z => if Z.eqb z 0 then 7%Z else 5%Z in
  n_islands (path_graph 4) 1 /\ valid_request (path_graph 4) 2 (Some [0;1;1;1]%Z) /\
  renumbered f (path_graph 4) (att row4r) (path_graph 4) (att [7;9;1;0]%Q) /\ relabelled f s [0;1;1;1]%Z [5;5;5;7]%Z /\
  nameless (pairwise manhattan) /\ nameless_failures (pairwise manhattan) /\ nameless_failures (centered manhattan mean_row sumQ) /\
  no_rivals (pairwise manhattan) (att row4r) (path_graph 4) [0;1;1;1]%Z /\
  tabu_labels (basic_ex (pairwise manhattan) (path_graph 4) row4r None 3 2%Z (Some [0;1;1;1]%Z) rng0) = Some [0;0;1;1]%Z /\
  tabu_labels (basic_ex (pairwise manhattan) (path_graph 4) [7;9;1;0]%Q None 3 2%Z (Some [5;5;5;7]%Z) rng0) = Some [5;5;7;7]%Z /\
  tabu_labels (reactive_ex 17 1 0 (path_graph 4) row4r 2%Z (Some [0;1;1;1]%Z) rt_fresh rng0) = Some [0;0;1;1]%Z /\
  tabu_labels (reactive_ex 17 3 1 (path_graph 4) [7;9;1;0]%Q 2%Z (Some [5;5;5;7]%Z) rt_fresh rng0) = Some [5;5;7;7]%Z /\
  relabelled f s [0;0;1;1]%Z [5;5;7;7]%Z.
Proof.
  cbn zeta. split; [apply n_islands_iff; vm_compute; reflexivity|]. split; [valid_tac|].
  split; [|split; [|split; [apply pairwise_nameless, manhattan_sym|split; [apply pairwise_failures|split; [apply centered_failures|
    split; [apply row4r_rivals|]]]]]].
  - split; [reflexivity|]. split; [reflexivity|]. split; [intros i Hi; cbn [gn path_graph] in *; lia|]. split; [intros i j Hi Hj; cbn [gn path_graph] in *; lia|]. split.
    + intros i j Hi Hj. cbn in Hi, Hj. do 4 (destruct i as [|i]; [do 4 (destruct j as [|j]; [reflexivity|]); lia|]). lia.
    + intros i Hi. cbn in Hi. do 4 (destruct i as [|i]; [reflexivity|]). lia.
  - split; [reflexivity|]. intros i Hi. cbn in Hi. do 4 (destruct i as [|i]; [reflexivity|]). lia.
  - do 4 (split; [vm_compute; reflexivity|]).
    split; [reflexivity|]. intros i Hi. cbn in Hi. do 4 (destruct i as [|i]; [reflexivity|]). lia.
Qed.

(** C116 refuted without the exclusion of ties.  Six areas in a row with the values 0 0 1 9 10 10 and the regions
    {0,1} {2,3} {4,5}: moving the 1 and moving the 9 are equally good, and each excludes the other.  Both searches make
    the move of the area with the smaller number, so that numbering the areas from the other end changes the result. *)
Lemma row6_renumbered : renumbered (fun i => 5 - i) (path_graph 6) (att [0;0;1;9;10;10]%Q) (path_graph 6) (att [10;10;9;1;0;0]%Q).
Proof.
  split; [reflexivity|]. split; [reflexivity|]. split; [intros i Hi; cbn [gn path_graph] in *; lia|]. split; [intros i j Hi Hj; cbn [gn path_graph] in *; lia|]. split.
  - intros i j Hi Hj. cbn in Hi, Hj. do 6 (destruct i as [|i]; [do 6 (destruct j as [|j]; [reflexivity|]); lia|]). lia.
  - intros i Hi. cbn in Hi. do 6 (destruct i as [|i]; [reflexivity|]). lia.
Qed.

Theorem C116_basic_tabu_refuted :
  exists (g : graph) (attr attr' : list Q) (f : nat -> nat) (initial initial' labels labels' : list Z),
    symmetric g /\ n_islands g 1 /\ length attr = gn g /\ valid_request g 3 (Some initial) /\
    renumbered f g (att attr) g (att attr') /\ relabelled f (fun z => z) initial initial' /\
    (forall r, tabu_labels (basic_ex (pairwise manhattan) g attr None 5 3%Z (Some initial) r) = Some labels) /\
    (forall r, tabu_labels (basic_ex (pairwise manhattan) g attr' None 5 3%Z (Some initial') r) = Some labels') /\
    ~ relabelled f (fun z => z) labels labels'.
Proof.
  exists (path_graph 6), [0;0;1;9;10;10]%Q, [10;10;9;1;0;0]%Q, (fun i => 5 - i), [0;0;1;1;2;2]%Z, [2;2;1;1;0;0]%Z, [0;0;0;1;2;2]%Z, [2;2;2;1;0;0]%Z.
  split; [apply path_symmetric|]. split; [apply n_islands_iff; vm_compute; reflexivity|]. split; [reflexivity|].
  split; [valid_tac|]. split; [apply row6_renumbered|]. split.
  - split; [reflexivity|]. intros i Hi. cbn in Hi. do 6 (destruct i as [|i]; [reflexivity|]). lia.
  - split; [intros r; vm_compute; reflexivity|]. split; [intros r; vm_compute; reflexivity|].
    intros [_ H]. specialize (H 2). cbn in H. discriminate H. lia.
Qed.

Theorem C116_reactive_tabu_refuted :
  exists (g : graph) (attr attr' : list Q) (f : nat -> nat) (initial initial' labels labels' : list Z),
    symmetric g /\ n_islands g 1 /\ length attr = gn g /\ valid_request g 3 (Some initial) /\
    renumbered f g (att attr) g (att attr') /\ relabelled f (fun z => z) initial initial' /\
    (forall maxit k1 k2 r, 1 <= k1 ->
      tabu_labels (reactive_ex (3 + maxit) k1 k2 g attr 3%Z (Some initial) rt_fresh r) = Some labels) /\
    (forall maxit k1 k2 r, 1 <= k1 ->
      tabu_labels (reactive_ex (3 + maxit) k1 k2 g attr' 3%Z (Some initial') rt_fresh r) = Some labels') /\
    ~ relabelled f (fun z => z) labels labels'.
Proof.
  exists (path_graph 6), [0;0;1;9;10;10]%Q, [10;10;9;1;0;0]%Q, (fun i => 5 - i), [0;0;1;1;2;2]%Z, [2;2;1;1;0;0]%Z, [0;0;0;1;2;2]%Z, [2;2;2;1;0;0]%Z.
  split; [apply path_symmetric|]. split; [apply n_islands_iff; vm_compute; reflexivity|]. split; [reflexivity|].
  split; [valid_tac|]. split; [apply row6_renumbered|]. split.
  - split; [reflexivity|]. intros i Hi. cbn in Hi. do 6 (destruct i as [|i]; [reflexivity|]). lia.
  - split; [intros maxit k1 k2 r Hk; destruct k1 as [|k1]; [lia|]; vm_compute; reflexivity|].
    split; [intros maxit k1 k2 r Hk; destruct k1 as [|k1]; [lia|]; vm_compute; reflexivity|].
    intros [_ H]. specialize (H 2). cbn in H. discriminate H. lia.
Qed.

Print Assumptions C115_reactive_parameters.
Print Assumptions C116_basic_tabu_partial.
Print Assumptions C116_reactive_tabu_partial.
Print Assumptions C116_basic_tabu_refuted.
Print Assumptions C116_reactive_tabu_refuted.
