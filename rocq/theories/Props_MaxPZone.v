(** Property C107: the possible results of the max-p heuristic. *)
From Verif Require Import Base Spec M_Graph P_Graph M_Util P_Base P_Util P_Forest P_Init P_Initial
  M_Objective P_Sum P_Objective M_Azp P_Azp P_Strategy P_Fit P_AzpFit M_Sa Examples Props_Objective Props_Strategy Props_Azp Props_Sa
  M_MaxP P_MaxP P_MaxP2 P_MaxP3 P_MaxP4 P_Greedy Props_MaxP Props_Greedy P_Zoning P_MaxPZone.

(** ** runs in which every draw of the construction gives the same partition *)
Lemma construct_same d g attr sp thr P E : forall k best r r', grows d g attr sp thr r (repeat (P, E) k) r' ->
  construct d g attr sp thr k (length P) best r = Ok (length P, best ++ repeat (P, E) k, r').
Proof.
  induction k as [|k IH]; intros best r r' H; cbn [repeat construct] in *.
  - inversion H; subst. rewrite app_nil_r. reflexivity.
  - inversion H as [|? P1 E1 r1 runs ? Hg Hr]; subst. rewrite Hg. cbn [bind]. rewrite Nat.ltb_irrefl, Nat.eqb_refl.
    rewrite (IH _ _ _ Hr), <- app_assoc. reflexivity.
Qed.

Lemma construct_repeat d g attr sp thr P E k r r' : 0 < k -> grows d g attr sp thr r (repeat (P, E) k) r' ->
  construct d g attr sp thr k 0 [] r = Ok (length P, repeat (P, E) k, r').
Proof.
  intros Hk H. destruct k as [|k]; [lia|]. cbn [repeat construct] in *. inversion H as [|? P1 E1 r1 runs ? Hg Hr]; subst.
  rewrite Hg. cbn [bind]. destruct (Nat.ltb_spec 0 (length P)) as [Hl|Hl].
  - rewrite (construct_same _ _ _ _ _ P E k _ _ _ Hr). reflexivity.
  - assert (E0 : length P = 0) by lia. pose proof (construct_same _ _ _ _ _ P E k [(P, E)] _ _ Hr) as Hs. rewrite E0 in *.
    cbn [Nat.eqb]. exact Hs.
Qed.

Lemma assign_each_repeat d g attr P E P' : (forall r', exists r, assign_enclaves d g attr P E r = Ok (P', r')) ->
  forall k r', exists r, assign_each d g attr (repeat (P, E) k) r = Ok (repeat P' k, r').
Proof.
  intros H. induction k as [|k IH]; intros r'; cbn [repeat assign_each]; [exists r'; reflexivity|].
  destruct (IH r') as [r1 E1]. destruct (H r1) as [r E0]. exists r. rewrite E0. cbn [bind]. rewrite E1. reflexivity.
Qed.

Lemma assign_each_In d g attr : forall before r parts r' P', assign_each d g attr before r = Ok (parts, r') -> In P' parts ->
  exists x r1 r2, In x before /\ assign_enclaves d g attr (fst x) (snd x) r1 = Ok (P', r2).
Proof.
  induction before as [|[P E] before IH]; intros r parts r' P' H HP; cbn [assign_each] in H.
  - injection H as <- <-. destruct HP.
  - apply bind_Ok in H. destruct H as [[p r1] [E1 H]]. apply bind_Ok in H. destruct H as [[ps r2] [E2 H]]. injection H as <- <-.
    destruct HP as [<-|HP].
    + exists (P, E), r, r1. split; [left; auto|auto].
    + destruct (IH _ _ _ _ E2 HP) as [x [ra [rb [Hx Ex]]]]. exists x, ra, rb. split; [right; auto|auto].
Qed.

(** ** search phase: every fit from the start [l0] gives [l] *)
Section SearchReach.
Variable LS : Type.
Variable wrap : LS -> LS.
Variable ls_fit : LS -> Z -> list Z -> rng -> out (option (list Z) * LS * rng).
Variable obj : objfun.
Variable attr : list (list Q).
Variables JL JW : LS -> Prop.
Hypothesis Hwrap : forall s, JL s -> JW (wrap s).
Hypothesis HWL : forall s, JW s -> JL s.
Variable mp : nat.
Variable P : list (list nat).
Variables l0 l : list Z.
Variable v : Q.
Hypothesis Harr : array_from_region_list P = Ok l0.
Hypothesis Hv : o_call obj l attr = Ok v.
Hypothesis Hfit : forall s, JW s -> exists s', JW s' /\ forall r', exists r, ls_fit s (Z.of_nat mp) l0 r = Ok (Some l, s', r').

Definition all_same (b : best) : Prop := b = None \/ b = Some (v, l).

Lemma search_all_same : forall k s b, JW s -> all_same b -> exists s' b', JW s' /\ all_same b' /\ (0 < k -> b' = Some (v, l)) /\
  (b = Some (v, l) -> b' = Some (v, l)) /\
  forall r', exists r, search_all LS ls_fit obj attr mp (repeat P k) s b r = Ok (s', b', r').
Proof.
  induction k as [|k IH]; intros s b Hs Hb; cbn [repeat search_all].
  - exists s, b. split; [auto|]. split; [auto|]. split; [lia|]. split; [auto|]. intros r'. exists r'. reflexivity.
  - destruct (Hfit s Hs) as [s1 [Hs1 Hr1]].
    set (b1 := if match b with None => true | Some (w, _) => Qltb v w end then Some (v, l) else b).
    assert (Hb1 : b1 = Some (v, l)).
    { unfold b1. destruct Hb as [->| ->]; [reflexivity|]. assert (Hq : Qltb v v = false) by (apply Qltb_ge; lra). rewrite Hq. reflexivity. }
    destruct (IH s1 b1 Hs1 (or_intror Hb1)) as [s2 [b2 [H1 [H2 [_ [H4 Hr2]]]]]]. exists s2, b2.
    split; [auto|]. split; [auto|]. split; [auto|]. split; [auto|]. intros r'. destruct (Hr2 r') as [r2 E2]. destruct (Hr1 r2) as [r1 E1].
    exists r1. rewrite Harr. cbn [bind]. rewrite E1. cbn [bind]. rewrite Hv. cbn [bind]. exact E2.
Qed.

Lemma search_rounds_same n : 0 < n -> forall k s b, JL s -> all_same b -> exists s' b', JL s' /\ all_same b' /\ (0 < k -> b' = Some (v, l)) /\
  (b = Some (v, l) -> b' = Some (v, l)) /\
  forall r', exists r, search_rounds LS wrap ls_fit obj attr k mp (repeat P n) s b r = Ok (s', b', r').
Proof.
  intros Hn. induction k as [|k IH]; intros s b Hs Hb; cbn [search_rounds].
  - exists s, b. split; [auto|]. split; [auto|]. split; [lia|]. split; [auto|]. intros r'. exists r'. reflexivity.
  - destruct (search_all_same n (wrap s) b (Hwrap s Hs) Hb) as [s1 [b1 [H1 [H2 [H3 [_ Hr1]]]]]].
    destruct (IH s1 b1 (HWL _ H1) H2) as [s2 [b2 [K1 [K2 [_ [K4 Hr2]]]]]]. exists s2, b2.
    split; [auto|]. split; [auto|]. split; [auto|]. split; [auto|]. intros r'. destruct (Hr2 r') as [r2 E2]. destruct (Hr1 r2) as [r1 E1].
    exists r1. rewrite E1. cbn [bind]. exact E2.
Qed.
End SearchReach.

(** ** C107 *)
Lemma array_in_order g P l : partial_partition g P [] -> (array_from_region_list P = Ok l <-> in_order (gn g) P l).
Proof.
  intros [Hnd [Hall _]]. rewrite app_nil_r in Hnd.
  assert (Hall' : forall a, In a (concat P) <-> a < gn g) by (intros a; rewrite <- Hall, app_nil_r; reflexivity).
  destruct (array_from_region_list_spec (gn g) P Hnd Hall') as [l1 [E [Hl Hnth]]]. rewrite E. split.
  - intros H. injection H as <-. split; [auto|]. intros k R a Hk Ha. apply lab_of_nth_error, Hnth. eauto.
  - intros [Hl2 H2]. f_equal. apply nth_error_ext'; [lia|]. intros a Ha.
    assert (Hac : In a (concat P)) by (apply Hall'; lia). apply in_concat in Hac. destruct Hac as [R [HR HaR]].
    apply In_nth_error in HR. destruct HR as [k Hk]. rewrite (lab_nth_error l a) by lia. rewrite (H2 k R a Hk HaR).
    apply Hnth. eauto.
Qed.

Section Outcomes.
Variables (expf : Q -> Q) (order : list edge -> list edge) (O : objfun) (d : list Q -> list Q -> Q) (g : graph).
Variables (attr sp : list (list Q)) (thr : list Q).
Hypothesis Hord : forall l, Permutation (order l) l.
Hypothesis Hsym : symmetric g.
Hypothesis Hloop : no_self_loops g.
Hypothesis Hsp : shaped sp thr (gn g).
Hypothesis Hpos : non_negative sp.
Hypothesis Hattr : length attr = gn g.
Hypothesis Hex : exact_on O attr.

(** [l] comes from some greedily grown regions that have absorbed the remaining areas, by one round of moves
    on every island. *)
Definition maxp_outcome (l : list Z) : Prop :=
  exists regions rest regions' l0,
    greedy_partition d g attr sp thr regions rest /\ absorbed d g attr regions rest regions' /\
    in_order (gn g) regions' l0 /\ length l = gn g /\
    forall v isl, v < gn g -> island g v isl ->
      exists l', one_round O attr g sp thr isl l0 l' /\ forall a, In a isl -> lab l a = lab l' a.

(** The local search object: none given, or AZP whose strategy has no wrappers but those for the same
    attributes and threshold. *)
Definition fresh_search (ls : option strategy) : Prop := match ls with None => True | Some s => wrapped_for sp thr s end.

Theorem C107_maxp_sound fuel max_it entropy labels0 ls r l ls' r' : 0 < max_it -> fresh_search ls ->
  maxp_azp_fit expf order O d fuel g attr sp thr max_it entropy labels0 ls r = Ok (Some l, ls', r') -> maxp_outcome l.
Proof.
  intros Hit Hls H.
  assert (Hp : post anyexn True (maxp_azp_fit expf order O d fuel g attr sp thr max_it entropy labels0 ls r)
    (fun '(labels, _, _) => exists mp before r1 parts r2 l,
       construct d g attr sp thr max_it 0 [] r = Ok (mp, before, r1) /\ assign_each d g attr before r1 = Ok (parts, r2) /\
       labels = Some l /\ exists P l0, In P parts /\ array_from_region_list P = Ok l0 /\ good_start g sp thr mp l0 /\
         length l = gn g /\ forall c, c < n_components g -> keep_R O attr sp thr g c (comp_part g l0 c) (comp_part g l c))).
  { unfold maxp_azp_fit.
    eapply (post_weaken anyexn anyexn True True); [auto|auto| |
      apply (maxp_fit_post strategy _ _ O d g attr sp thr Hsym Hloop Hsp Hpos anyexn True (wrapped_for sp thr) (wrapped sp thr)
        (fun mp l0 l => length l = gn g /\ forall c, c < n_components g -> keep_R O attr sp thr g c (comp_part g l0 c) (comp_part g l c)))]; auto.
    - intros [[labels ls1] r1] _ [mp [before [r2 [parts [r3 [l1 [v [s' [H1 [H2 [H3 [_ [_ [_ [_ [[_ [P [l0 [HP [EP [HG HR]]]]]] _]]]]]]]]]]]]]]]].
      exists mp, before, r2, parts, r3, l1. split; [auto|]. split; [auto|]. split; [auto|]. exists P, l0. tauto.
    - intros s Hs. unfold wrapped, maxp_wrap. eauto.
    - intros s [c1 [sp1 [inner [-> Hi]]]]. cbn. auto.
    - intros mp s l0 rg Hs [Hf [Hm1 Hm]].
      eapply (post_bind anyexn True _ _ _ _).
      + apply (keep_fit_sound O attr sp thr Hex g Hsym Hattr Hsp Hpos expf order fuel (Z.of_nat mp) l0 s rg Hord); auto; [|lia].
        rewrite Nat2Z.id. auto.
      + intros [[labels s'] rg'] _ [K1 [K2 K3]]. cbn [post]. split; [auto|]. exists labels. auto.
    - intros mp l0 l1 _ _. destruct (o_call O l1 attr); exact Logic.I.
    - intros mp x m _ _. exact Logic.I.
    - destruct ls; [exact Hls|]. intros rg. exact Logic.I. }
  rewrite H in Hp. destruct Hp as [mp [before [r1 [parts [r2 [l1 [Hc [Ha [E1 [P [l0 [HP [EP [[[Hl0 [_ Hall]] _] [Hl HR]]]]]]]]]]]]]]].
  injection E1 as <-.
  destruct (assign_each_In d g attr before r1 parts r2 P Ha HP) as [x [ra [rb [Hx Ex]]]].
  destruct (construct_spec d g attr sp thr max_it 0 [] r mp before r1 Hc) as [runs [Hg [_ [_ [_ [Hb _]]]]]]; [intros y []|].
  assert (Hxr : In x runs) by (rewrite Hb in Hx; apply filter_In in Hx; apply Hx).
  destruct (grows_In d g attr sp thr r runs r1 x Hg Hxr) as [rc [rd Eg]].
  pose proof (grow_greedy d g attr sp thr rc (fst x) (snd x) rd Hsym Hloop Hsp Hpos Eg) as Hgr.
  exists (fst x), (snd x), P, l0. split; [auto|]. pose proof Hgr as [Hpp _].
  split; [apply (C92_enclave_outcomes d g attr (fst x) (snd x) P Hsym Hpp); eauto|].
  pose proof (assign_enclaves_post d g attr Hsym (fst x) (snd x) ra Hpp) as Hpe. rewrite Ex in Hpe. destruct Hpe as [_ [HppP _]].
  split; [apply (array_in_order g P l0 HppP); auto|]. split; [auto|].
  apply (parts_round O attr sp thr g l0 l (conj Hl0 Hall) Hl). exact HR.
Qed.

Theorem C107_maxp_complete fuel max_it labels0 ls l : 0 < max_it -> gn g + 1 < fuel -> fresh_search ls -> maxp_outcome l ->
  exists r entropy ls' r', maxp_azp_fit expf order O d fuel g attr sp thr max_it entropy labels0 ls r = Ok (Some l, ls', r').
Proof.
  intros Hit Hfu Hls [regions [rest [P [l0 [Hgr [Hab [Hio [Hl Hz]]]]]]]].
  destruct (grows_reach d g attr sp thr regions rest Hsym Hloop Hsp Hgr) as [rest' Hgrow].
  assert (Hab' : partial_partition g regions rest' /\ absorbed d g attr regions rest' P /\ kept g sp thr (length regions) (regions, rest')).
  { destruct (Hgrow 1 (fun _ => 0)) as [r Hr]. cbn [repeat] in Hr. inversion Hr as [|? ? ? r1 ? ? Hg1 _]; subst.
    pose proof (grow_regions_post d g attr sp thr Hsym Hloop Hsp r) as Hp. rewrite Hg1 in Hp. destruct Hp as [F [-> HG]].
    pose proof (grown_partial _ _ _ _ _ HG) as Hpp. split; [auto|]. split; [|split; [auto|exists F; auto]].
    apply (absorbed_perm d g attr regions rest P Hab). destruct Hgr as [[N1 [A1 _]] _], Hpp as [N2 [A2 _]].
    apply NoDup_Permutation; [eapply NoDup_app_r; eauto|eapply NoDup_app_r; eauto|].
    intros a. split; intros Ha.
    - assert (Hin : In a (concat regions ++ concat F)) by (apply A2, A1, in_or_app; auto). apply in_app_iff in Hin. destruct Hin as [Hin|]; [|auto].
      exfalso. eapply (NoDup_app_disj (concat regions)); [exact N1|exact Hin|exact Ha].
    - assert (Hin : In a (concat regions ++ rest)) by (apply A1, A2, in_or_app; auto). apply in_app_iff in Hin. destruct Hin as [Hin|]; [|auto].
      exfalso. eapply (NoDup_app_disj (concat regions)); [exact N2|exact Hin|exact Ha]. }
  destruct Hab' as [Hpp [Hab' Hkept]].
  pose proof (assign_enclaves_reach d g attr Hsym regions rest' P Hpp Hab') as Hass.
  assert (HP : partial_partition g P [] /\ Forall2 (@incl nat) regions P).
  { destruct (Hass (fun _ => 0)) as [r Er]. pose proof (assign_enclaves_post d g attr Hsym regions rest' r Hpp) as Hpe.
    rewrite Er in Hpe. destruct Hpe as [_ Hpe]. exact Hpe. }
  destruct HP as [HppP Hinc]. apply (array_in_order g P l0 HppP) in Hio.
  destruct (kept_startable g sp thr Hpos (length regions) (regions, rest') P Hkept HppP Hinc) as [l1 [E1 [Hf [Hm1 Hm]]]].
  rewrite Hio in E1. injection E1 as <-. pose proof Hf as [Hl0 [_ Hall]].
  pose proof (proj2 (parts_round O attr sp thr g l0 l (conj Hl0 Hall) Hl) Hz) as HR.
  destruct (Hex attr (fun x H => H)) as [Hcall _]. destruct (Hcall l ltac:(lia)) as [v Ev].
  set (ls_fit := fun s p l r => let* '((labels, s'), r') := azp_fit expf order O fuel g attr p (Some l) s r in Ok (Some labels, s', r')).
  assert (Hfit : forall s, wrapped sp thr s -> exists s', wrapped sp thr s' /\
    forall r', exists r, ls_fit s (Z.of_nat (length regions)) l0 r = Ok (Some l, s', r')).
  { intros s Hs. destruct (keep_fit_reach O attr sp thr Hex g Hsym Hattr Hsp Hpos expf order fuel (Z.of_nat (length regions)) l0 l s)
      as [s' [Hs' Hr]]; auto; [rewrite Nat2Z.id; auto|lia|].
    exists s'. split; [auto|]. intros r'. destruct (Hr r') as [r Er]. exists r. unfold ls_fit. rewrite Er. reflexivity. }
  assert (Hsearch : forall s, wrapped_for sp thr s -> exists s', forall r', exists r,
    search_rounds strategy (maxp_wrap sp thr) ls_fit O attr (length (repeat P max_it)) (length regions) (repeat P max_it) s None r =
      Ok (s', Some (v, l), r')).
  { intros s Hs. destruct (search_rounds_same strategy (maxp_wrap sp thr) ls_fit O attr (wrapped_for sp thr) (wrapped sp thr)) with
      (mp := length regions) (P := P) (l0 := l0) (l := l) (v := v) (n := max_it) (k := length (repeat P max_it)) (s := s) (b := @None (Q * list Z))
      as [s' [b' [_ [_ [Hb [_ Hr]]]]]]; auto.
    - intros s1 Hs1. unfold wrapped, maxp_wrap. eauto.
    - intros s1 [c1 [sp1 [inner [-> Hi]]]]. cbn. auto.
    - left; auto.
    - rewrite repeat_length in Hb. rewrite (Hb Hit) in Hr. eauto. }
  assert (Hbefore : forall r2, exists r, exists r1, construct d g attr sp thr max_it 0 [] r = Ok (length regions, repeat (regions, rest') max_it, r1) /\
    assign_each d g attr (repeat (regions, rest') max_it) r1 = Ok (repeat P max_it, r2)).
  { intros r2. destruct (assign_each_repeat d g attr regions rest' P Hass max_it r2) as [r1 Er1]. destruct (Hgrow max_it r1) as [r Hr].
    exists r, r1. split; [apply construct_repeat; auto|auto]. }
  assert (Hne : exists P0 Ps, repeat P max_it = P0 :: Ps) by (destruct max_it; [lia|]; cbn; eauto).
  destruct Hne as [P0 [Ps Eps]]. unfold maxp_azp_fit, maxp_fit. fold ls_fit. destruct ls as [s|].
  - destruct (Hsearch s Hls) as [s' Hr]. destruct (Hr (fun _ => 0)) as [r2 E2]. destruct (Hbefore r2) as [r [r1 [Ec Ea]]].
    exists r, r, (Some s'), (fun _ => 0). rewrite Ec. cbn [bind]. rewrite Ea. cbn [bind]. rewrite Eps in *. rewrite E2. reflexivity.
  - destruct (Hsearch (SAzp unstarted) Logic.I) as [s' Hr]. destruct (Hr (fun _ => 0)) as [r2 E2]. destruct (Hbefore r2) as [r [r1 [Ec Ea]]].
    exists r, r2, (Some s'), (fun _ => 0). rewrite Ec. cbn [bind]. rewrite Ea. cbn [bind]. rewrite Eps in *. rewrite E2. reflexivity.
Qed.

(** The possible results are exactly these - for any number of iterations. *)
Theorem C107_maxp_outcomes fuel max_it labels0 ls l : 0 < max_it -> gn g + 1 < fuel -> fresh_search ls ->
  ((exists r entropy ls' r', maxp_azp_fit expf order O d fuel g attr sp thr max_it entropy labels0 ls r = Ok (Some l, ls', r')) <-> maxp_outcome l).
Proof.
  intros Hit Hfu Hls. split; [|apply C107_maxp_complete; auto].
  intros [r [entropy [ls' [r' H]]]]. eapply C107_maxp_sound; eauto.
Qed.
End Outcomes.

(** ** Example *)
Local Notation att := (map (fun q => [q])).
(** A path of five areas with threshold two.  From area 1 the regions {1,2} and {3,4} grow, 0 joins the first of
    them and 2 goes over to the second.  What one iteration can find, any number of iterations can find; a
    region with a single area cannot be found. *)
Example C107_example max_it : 0 < max_it ->
  symmetric (path_graph 5) /\ no_self_loops (path_graph 5) /\ shaped (repeat [1%Q] 5) [2%Q] 5 /\ non_negative (repeat [1%Q] 5) /\
  exact_on (pairwise manhattan) (att [0;3;5;6;6]%Q) /\
  (match construct manhattan (path_graph 5) (att [0;3;5;6;6]%Q) (repeat [1%Q] 5) [2%Q] 1 0 [] (draws [1]) with
   | Ok (_, b, _) => b = [([[1;2];[3;4]], [0])] | _ => False end) /\
  (forall l, l = [0;0;1;1;1]%Z \/ l = [1;1;0;0;0]%Z -> exists r entropy ls' r',
     maxp_azp_fit expd same_order (pairwise manhattan) manhattan 20 (path_graph 5) (att [0;3;5;6;6]%Q) (repeat [1%Q] 5) [2%Q]
       max_it entropy None None r = Ok (Some l, ls', r')) /\
  ~ maxp_outcome (pairwise manhattan) manhattan (path_graph 5) (att [0;3;5;6;6]%Q) (repeat [1%Q] 5) [2%Q] [0;1;1;1;1]%Z.
Proof.
  intros Hit.
  assert (Hex : exact_on (pairwise manhattan) (att [0;3;5;6;6]%Q)) by (apply pairwise_exact_on; [apply manhattan_sym|apply manhattan_zero]).
  destruct (all_ones 5) as [Hsh Hpos].
  assert (Hiff := fun k l (Hk : 0 < k) => C107_maxp_outcomes expd same_order (pairwise manhattan) manhattan (path_graph 5) (att [0;3;5;6;6]%Q)
    (repeat [1%Q] 5) [2%Q] same_order_perm (path_symmetric 5) (path_no_self_loops 5) Hsh Hpos eq_refl Hex 20 k None None l Hk
    ltac:(cbn; lia) Logic.I).
  split; [apply path_symmetric|]. split; [apply path_no_self_loops|]. split; [auto|]. split; [auto|]. split; [auto|].
  split; [vm_compute; reflexivity|]. split.
  - intros l Hl. apply (Hiff max_it l Hit). apply (Hiff 1 l ltac:(lia)).
    destruct Hl as [-> | ->]; [exists (draws [1])|exists (draws [2])]; exists (draws []); eexists; eexists; vm_compute; reflexivity.
  - intros H. apply (Hiff 1 _ ltac:(lia)) in H. destruct H as [r [entropy [ls' [r' H]]]].
    destruct (C35_maxp_valid expd same_order (pairwise manhattan) manhattan 20 (path_graph 5) (att [0;3;5;6;6]%Q) (repeat [1%Q] 5) [2%Q] 1 entropy None
      None r (Some [0;1;1;1;1]%Z) ls' r') as [runs [p [l [E [_ [_ [_ [_ Hm]]]]]]]]; auto using same_order_perm, path_symmetric, path_no_self_loops.
    injection E as <-. specialize (Hm 0%Z (or_introl eq_refl) 0 2%Q eq_refl). vm_compute in Hm. apply Hm. reflexivity.
Qed.

Print Assumptions C107_maxp_sound.
Print Assumptions C107_maxp_complete.
Print Assumptions C107_maxp_outcomes.
