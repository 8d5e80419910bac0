(** The tabu searches at a local optimum: proofs. *)
From Verif Require Import Base Spec M_Graph P_Graph M_Util P_Base P_Util P_Forest P_Init P_Initial
  M_Objective P_Sum P_Objective M_Azp P_Azp P_Strategy P_Fit P_AzpFit Examples Props_Objective Props_Azp M_Sa P_Sa M_Tabu P_Tabu P_TabuFit P_Reactive.

Section Comp.
Variable obj : objfun.
Variable attr : list (list Q).
Variable g : graph.
Hypothesis Hsym : symmetric g.
Hypothesis Hattr : length attr = gn g.
Notation update a r l := (o_update obj a r l attr).

(** every legal move is refused *)
Definition stuck (l : list Z) : Prop := forall a r q, legal_move g l a r -> update a r l = Ok q -> (0 < q)%Q.

Lemma try_stuck l maxlen m tabu c q : c_ok obj attr c -> update (mv_area m) (mv_new m) l = Ok q -> (0 < q)%Q ->
  try_move g maxlen m l tabu c = Ok (l, tabu, c).
Proof.
  intros Hc Eq Hq. unfold try_move. rewrite (azp_call_eq obj attr) by auto. rewrite Eq. cbn [bind].
  destruct (Qle_bool q 0) eqn:El; [|reflexivity]. apply Qle_bool_iff in El. exfalso. lra.
Qed.

Section Exact.
Hypothesis Hex : exact_objective obj attr.
Variable l : list Z.
Hypothesis Hwf : wf g l.
Hypothesis Hst : stuck l.

Lemma stuck_best : exists best, best_of obj attr l 0 (possible_moves g l []) None = Ok best /\
  match best with
  | None => possible_moves g l [] = []
  | Some (m, _, q) => legal_move g l (mv_area m) (mv_new m) /\ update (mv_area m) (mv_new m) l = Ok q /\ (0 < q)%Q
  end.
Proof.
  assert (Hp : post noexn False (best_of obj attr l 0 (possible_moves g l []) None) (is_best obj attr l (possible_moves g l []))).
  { apply best_of_post'. intros m Hm. apply (possible_moves_spec g l [] m Hsym Hwf) in Hm. destruct Hm as [Hl _].
    destruct (legal_update_Ok obj attr g Hattr Hex l _ _ Hwf Hl) as [q Eq]. rewrite Eq. exact Logic.I. }
  apply post_total in Hp. destruct Hp as [best [E Hb]]. exists best. split; [auto|].
  destruct best as [[[m i] q]|]; [|exact Hb]. destruct Hb as [Hn [Eq _]]. apply nth_error_In in Hn.
  apply (possible_moves_spec g l [] m Hsym Hwf) in Hn. destruct Hn as [Hl _]. split; [auto|]. split; [auto|]. eapply Hst; eauto.
Qed.

Lemma basic_loop_stuck maxlen reps : forall fuel stop visited c r, c_ok obj attr c -> 1 <= fuel ->
  reps + 1 <= fuel + visits visited l ->
  basic_loop obj g fuel maxlen reps attr stop visited l [] c r = Ok (l, c, r).
Proof.
  induction fuel as [|fuel IH]; intros stop visited c r Hc Hf Hr; [lia|]. cbn [basic_loop].
  destruct stuck_best as [best [E Hb]]. rewrite E. cbn [bind]. cbn [improving_tabus].
  assert (Hrec : stop || Nat.leb reps (visits visited l) = false ->
    basic_loop obj g fuel maxlen reps attr false (visited ++ [l]) l [] c r = Ok (l, c, r)).
  { intros Es. apply orb_false_iff in Es. destruct Es as [_ Es]. apply Nat.leb_gt in Es. apply IH; auto; [lia|].
    rewrite visits_snoc. destruct (list_eq_dec Z.eq_dec l l) as [_|n]; [lia|exfalso; apply n; reflexivity]. }
  destruct best as [[[m i] q]|].
  - destruct Hb as [Hl [Eq Hq]]. destruct (Qle_bool q 0) eqn:El; [apply Qle_bool_iff in El; exfalso; lra|]. cbn [bind improving_tabus].
    destruct (stop || _) eqn:Es; [reflexivity|]. rewrite (try_stuck l maxlen m [] c q) by auto. cbn [bind]. auto.
  - cbn [bind improving_tabus]. destruct (stop || _) eqn:Es; [reflexivity|]. auto.
Qed.

Lemma basic_component_stuck fuel maxlen reps c r : c_ok obj attr c -> reps < fuel ->
  basic_component obj g fuel maxlen reps l attr c r = Ok (l, c, r).
Proof.
  intros Hc Hf. unfold basic_component. destruct (Nat.eqb _ 1); [reflexivity|]. apply basic_loop_stuck; auto; lia.
Qed.

(** one improving-free iteration of the reactive search, then the end *)
Lemma reactive_component_stuck maxit k1 k2 s r : c_ok obj attr (rt_common s) -> rt_visited s = [] -> 1 <= maxit ->
  (exists a z, legal_move g l a z) ->
  exists s', reactive_component obj g maxit k1 k2 l attr s r = Ok (l, s', r).
Proof.
  intros Hc Hv Hm [a [z Hl]]. unfold reactive_component. destruct (Nat.eqb _ 1); [eauto|].
  destruct maxit as [|maxit]; [lia|]. cbn [reactive_loop].
  destruct (proj1 Hex l) as [v Ev]; [destruct Hwf; lia|]. rewrite Ev. cbn [bind negb].
  destruct stuck_best as [best [E Hb]]. rewrite E. cbn [bind].
  destruct best as [[[m i] q]|].
  2:{ exfalso. assert (Hin : In (mkMove a (lab l a) z) (possible_moves g l [])).
      { apply (possible_moves_spec g l [] _ Hsym Hwf). split; [exact Hl|]. split; reflexivity. }
      rewrite Hb in Hin. destruct Hin. }
  destruct Hb as [Hlm [Eq Hq]]. rewrite (try_stuck l _ m [] _ q) by auto. cbn [bind]. rewrite Hv. change (visits [] _) with 0. cbn [Nat.ltb Nat.leb andb app].
  destruct maxit as [|maxit]; cbn [reactive_loop].
  - cbn [bind rt_visited reactive_result rev app]. eauto.
  - rewrite Ev. cbn [bind]. destruct (Qltb v v) eqn:Eq2; [apply Qltb_lt in Eq2; exfalso; lra|]. cbn [negb bind rt_visited reactive_result rev app]. eauto.
Qed.
End Exact.

(** nothing can be moved: the reactive search needs a best move unless there is a single region *)
Lemma unmovable_reactive maxit k1 k2 l s r v : wf g l -> (forall a z, ~ legal_move g l a z) -> 1 <= maxit ->
  o_call obj l attr = Ok v ->
  reactive_component obj g maxit k1 k2 l attr s r =
    if Nat.eqb (length (uniqueZ l)) 1 then Ok (l, s, r) else Raise AttributeError.
Proof.
  intros Hwf Hno Hm Ev. unfold reactive_component. destruct (Nat.eqb _ 1); [reflexivity|].
  destruct maxit as [|maxit]; [lia|]. cbn [reactive_loop]. rewrite Ev. cbn [bind negb].
  destruct (possible_moves g l []) as [|m t] eqn:E; [reflexivity|exfalso].
  assert (Hin : In m (possible_moves g l [])) by (rewrite E; left; auto).
  apply (possible_moves_spec g l [] m Hsym Hwf) in Hin. destruct Hin as [Hl _]. apply (Hno _ _ Hl).
Qed.

(** no tabu list: the search ends at a strict local optimum *)
Lemma basic_loop_zero reps : forall fuel stop visited l c r, wf g l -> c_ok obj attr c ->
  post anyexn True (basic_loop obj g fuel (Some 0) reps attr stop visited l [] c r) (fun '(l', _, _) => wf g l' /\ stuck l').
Proof.
  induction fuel as [|fuel IH]; intros stop visited l c r Hwf Hc; cbn [basic_loop]; [exact Logic.I|].
  eapply post_bind; [apply best_of_any|]. intros best _ Hb. cbn [improving_tabus].
  destruct best as [[[m i] q]|]; cbn [is_best] in Hb.
  - destruct Hb as [Hn [Eq Hmin]]. apply nth_error_In in Hn. pose proof Hn as Hn'.
    apply (possible_moves_spec g l [] m Hsym Hwf) in Hn. destruct Hn as [Hl _].
    assert (Ha : mv_area m < gn g) by apply Hl.
    destruct (Qle_bool q 0) eqn:El.
    + rewrite (azp_call_eq obj attr) by auto. rewrite Eq. cbn [bind]. rewrite El. cbn [bind].
      destruct (make_move_tabu_spec g (Some 0) (mv_area m) (mv_new m) l [] (proj1 Hwf) Ha) as [b [Em Hbb]].
      rewrite Em. cbn [bind deque_append app length Nat.sub skipn]. apply IH; [|split; reflexivity].
      destruct b; [|auto]. split; [rewrite upd_length; apply Hwf|]. apply Hbb. reflexivity.
    + cbn [bind improving_tabus]. assert (Hq : (0 < q)%Q).
      { destruct (Qlt_le_dec 0 q) as [H|H]; [auto|exfalso]. apply Qle_bool_iff in H. congruence. }
      assert (Hs : stuck l).
      { intros a z q' Hl' Eq'. assert (Hin : In (mkMove a (lab l a) z) (possible_moves g l [])).
        { apply (possible_moves_spec g l [] _ Hsym Hwf). split; [exact Hl'|]. split; reflexivity. }
        specialize (Hmin _ _ Hin Eq'). lra. }
      destruct (stop || _); [cbn [post]; auto|].
      rewrite (try_stuck l (Some 0) m [] c q) by auto. cbn [bind]. apply IH; auto.
  - cbn [bind improving_tabus]. assert (Hs : stuck l).
    { intros a z q' Hl' Eq'. exfalso. assert (Hin : In (mkMove a (lab l a) z) (possible_moves g l [])).
      { apply (possible_moves_spec g l [] _ Hsym Hwf). split; [exact Hl'|]. split; reflexivity. }
      rewrite Hb in Hin. destruct Hin. }
    destruct (stop || _); [cbn [post]; auto|]. apply IH; auto.
Qed.

Lemma one_region_stuck l : length (uniqueZ l) = 1 -> stuck l.
Proof.
  intros H a z q [_ [D [HD [Hne [_ [b [_ [Hb _]]]]]]]] _. exfalso.
  apply nth_error_In in HD. apply nth_error_In in Hb. rewrite <- uniqueZ_In in HD, Hb.
  destruct (uniqueZ l) as [|x [|y t]]; cbn in H; try lia. destruct HD as [HD|[]], Hb as [Hb|[]]. congruence.
Qed.

Lemma basic_component_zero fuel reps l c r : wf g l -> c_ok obj attr c ->
  post anyexn True (basic_component obj g fuel (Some 0) reps l attr c r) (fun '(l', _, _) => wf g l' /\ stuck l').
Proof.
  intros Hwf Hc. unfold basic_component. destruct (Nat.eqb_spec (length (uniqueZ l)) 1) as [E|E].
  - cbn [post]. split; [auto|apply one_region_stuck; auto].
  - apply basic_loop_zero; auto.
Qed.

(** ** the first iteration of AZPReactiveTabu *)
Definition one_iteration (l : list Z) : list Z :=
  match best_of obj attr l 0 (possible_moves g l []) None with
  | Ok (Some (m, _, q)) =>
      if Qle_bool q 0 then
        match make_move_tabu g (Some 1) (mv_area m) (mv_new m) l [] with Ok (l', _, _) => l' | _ => l end
      else l
  | _ => l
  end.

Lemma one_region_iteration l : wf g l -> length (uniqueZ l) = 1 -> one_iteration l = l.
Proof.
  intros Hwf H. unfold one_iteration. destruct (possible_moves g l []) as [|m t] eqn:E; [reflexivity|exfalso].
  assert (Hin : In m (possible_moves g l [])) by (rewrite E; left; auto).
  apply (possible_moves_spec g l [] m Hsym Hwf) in Hin.
  destruct Hin as [[_ [D [HD [Hne [_ [b [_ [Hb _]]]]]]]] _].
  apply nth_error_In in HD. apply nth_error_In in Hb. rewrite <- uniqueZ_In in HD, Hb.
  destruct (uniqueZ l) as [|x [|y u]]; cbn in H; try lia. destruct HD as [HD|[]], Hb as [Hb|[]]. congruence.
Qed.

Lemma one_iteration_length l : wf g l -> length (one_iteration l) = length l.
Proof.
  intros Hwf. unfold one_iteration.
  pose proof (best_of_any obj attr l (possible_moves g l [])) as Hp.
  destruct (best_of _ _ _ _ _ _) as [[[[m i] q]|]|e|]; try reflexivity.
  destruct (Qle_bool q 0); [|reflexivity]. cbn [post is_best] in Hp. destruct Hp as [Hn _]. apply nth_error_In in Hn.
  apply (possible_moves_spec g l [] m Hsym Hwf) in Hn. destruct Hn as [Hl _].
  destruct (make_move_tabu_spec g (Some 1) (mv_area m) (mv_new m) l [] (proj1 Hwf) (proj1 Hl)) as [b [Em _]]. rewrite Em.
  destruct b; [apply upd_length|reflexivity].
Qed.

Lemma reactive_component_early maxit k1 k2 l s r : wf g l -> c_ok obj attr (rt_common s) -> rt_visited s = [] ->
  1 <= k1 -> maxit = 1 \/ maxit = 2 ->
  post anyexn True (reactive_component obj g maxit k1 k2 l attr s r) (fun '(l', _, _) => l' = one_iteration l).
Proof.
  intros Hwf Hc Hv Hk Hm. unfold reactive_component. destruct (Nat.eqb_spec (length (uniqueZ l)) 1) as [E|E].
  { cbn [post]. symmetry. apply one_region_iteration; auto. }
  assert (Hloop : post anyexn True (reactive_loop obj g maxit k1 k2 attr None Step10 l [] s r)
    (fun '(_, s', ls, _) => ls = Step10 /\ (rt_visited s' = [one_iteration l] \/ exists w, rt_visited s' = [one_iteration l; w]))).
  { destruct maxit as [|maxit]; [lia|]. cbn [reactive_loop].
    destruct (o_call obj l attr) as [v|e|]; [|exact Logic.I|exact Logic.I]. cbn [bind negb].
    pose proof (best_of_any obj attr l (possible_moves g l [])) as Hb.
    destruct (best_of obj attr l 0 (possible_moves g l []) None) as [[[[m i] q]|]|e|] eqn:Eb; try exact Logic.I.
    cbn [post is_best] in Hb. destruct Hb as [Hn [Eq Hmin]]. apply nth_error_In in Hn.
    apply (possible_moves_spec g l [] m Hsym Hwf) in Hn. destruct Hn as [Hl _].
    assert (E1 : exists t1 c1, c_ok obj attr c1 /\ try_move g (Some 1) m l [] (rt_common s) = Ok (one_iteration l, t1, c1)).
    { unfold try_move. rewrite (azp_call_eq obj attr) by auto. rewrite Eq. cbn [bind]. unfold one_iteration. rewrite Eb.
      destruct (Qle_bool q 0); cbn [bind]; [|eauto].
      destruct (make_move_tabu_spec g (Some 1) (mv_area m) (mv_new m) l [] (proj1 Hwf) (proj1 Hl)) as [b [Em _]]. rewrite Em.
      cbn [bind]. eexists _, _. split; [|reflexivity]. split; reflexivity. }
    destruct E1 as [t1 [c1 [Hc1 E1]]]. cbn [bind]. rewrite E1. cbn [bind]. rewrite Hv. change (visits [] _) with 0. cbn [Nat.ltb Nat.leb andb app].
    destruct Hm as [Hm|Hm]; injection Hm as ->; cbn [reactive_loop].
    - cbn [post rt_visited]. auto.
    - destruct (o_call obj (one_iteration l) attr) as [v2|e|]; [|exact Logic.I|exact Logic.I]. cbn [bind].
      destruct (negb _); [cbn [post rt_visited]; auto|].
      destruct (best_of obj attr (one_iteration l) _ _ _) as [[[[m2 i2] q2]|]|e|]; try exact Logic.I. cbn [bind rt_common rt_visited].
      destruct (try_move g (Some 1) m2 (one_iteration l) t1 c1) as [[[l2 t2] c2]|e|]; try exact Logic.I. cbn [bind].
      assert (Hfew : visits [one_iteration l] l2 <= 1).
      { unfold visits. cbn [filter]. destruct (list_eq_dec _ _ _); cbn [length]; lia. }
      replace (Nat.ltb k1 (visits [one_iteration l] l2)) with false by (symmetry; apply Nat.ltb_ge; lia).
      rewrite andb_false_r. cbn [post rt_visited app]. eauto. }
  eapply post_bind; [exact Hloop|]. intros [[[l1 s1] ls] r1] _ [-> [Hw|[w Hw]]]; rewrite Hw; cbn [reactive_result rev app bind post]; reflexivity.
Qed.
End Comp.

(** ** fit *)
Lemma parts_determine g l labels : length l = gn g -> length labels = gn g ->
  (forall c, c < n_components g -> comp_part g labels c = comp_part g l c) -> labels = l.
Proof.
  intros Hl Hlen Hparts. apply nth_error_ext'; [lia|]. intros a Ha. rewrite Hlen in Ha.
  destruct (In_nth_error (comp_nodes g (comp_label g a)) a) as [i Hi]; [apply comp_nodes_In; auto|].
  pose proof (Hparts _ (comp_label_lt g a Ha)) as Hc. unfold comp_part in Hc.
  rewrite <- (gather_nth (-1)%Z labels _ i a Hi) by lia. rewrite <- (gather_nth (-1)%Z l _ i a Hi) by lia.
  rewrite Hc. reflexivity.
Qed.

Section Fit.
Variable O : objfun.
Variable attr : list (list Q).
Variable g : graph.
Hypothesis Hsym : symmetric g.
Hypothesis Hattr : length attr = gn g.
Variable order : list edge -> list edge.
Hypothesis Hord : forall l, Permutation (order l) l.

Lemma optimum_stuck l : exact_on O attr -> wf g l -> strict_optimum O attr g l ->
  forall c, c < n_components g -> stuck O (attr_c attr g c) (comp_graph g c) (comp_part g l c).
Proof.
  intros Hex Hwf Hopt c Hc i z q Hl Eq.
  assert (Hi : i < length (comp_nodes g c)) by (destruct Hl as [Hl _]; rewrite comp_graph_n in Hl; auto).
  destruct (nth_error (comp_nodes g c) i) as [a|] eqn:Ea; [|apply nth_error_None in Ea; lia].
  assert (Hla : legal_move g l a z) by (eapply legal_of_comp; eauto).
  destruct (comp_label_onto g c Hc) as [v [Hv <-]].
  destruct (Hopt v (comp_nodes g (comp_label g v)) a z Hv (comp_nodes_island g v Hv) (nth_error_In _ _ Ea) Hla) as [x [y [Ex [Ey Hxy]]]].
  destruct (attr_c_exact O attr Hex g Hattr (comp_label g v)) as [_ [_ Hup]].
  assert (Hlen : length (comp_part g l (comp_label g v)) = length (attr_c attr g (comp_label g v))).
  { rewrite attr_c_length, comp_graph_n. unfold comp_part, gather. rewrite map_length. reflexivity. }
  destruct (Hup i z _ q Hlen) as [x' [y' [Ex' [Ey' Hd]]]]; [rewrite Hlen, attr_c_length, comp_graph_n; auto|auto|].
  unfold objective_at, labels_at in Ex, Ey.
  change (map (lab (upd l a z)) (comp_nodes g (comp_label g v))) with (comp_part g (upd l a z) (comp_label g v)) in Ey.
  rewrite (comp_part_upd g l _ i a z (proj1 Hwf) Ea) in Ey.
  change (o_call O (comp_part g l (comp_label g v)) (attr_c attr g (comp_label g v)) = Ok x) in Ex.
  change (o_call O (upd (comp_part g l (comp_label g v)) i z) (attr_c attr g (comp_label g v)) = Ok y) in Ey.
  rewrite Ex in Ex'. rewrite Ey in Ey'. injection Ex' as <-. injection Ey' as <-. lra.
Qed.

Theorem basic_fit_stuck fuel maxlen reps p l c0 r : exact_on O attr -> valid_request g p (Some l) ->
  strict_optimum O attr g l -> reps < fuel ->
  exists c' r', basic_fit order O fuel maxlen reps g attr p (Some l) c0 r = Ok ((l, c'), r').
Proof.
  intros Hex Hv Hopt Hf. assert (Hwf : wf g l) by (destruct Hv as [_ [[H1 [_ H2]] _]]; split; auto).
  assert (Hp : post noexn False (basic_fit order O fuel maxlen reps g attr p (Some l) c0 r)
    (fun '((labels, s'), _) => True /\ exists labels0, started_from g p (Some l) labels0 /\
       length labels = gn g /\
       forall c, c < n_components g -> comp_part g labels c = comp_part g labels0 c)).
  { apply (fit_post_from common _ _ order g attr noexn False (fun _ _ => True) (fun c l0 l' => l' = l0)
             (fun c lc => stuck O (attr_c attr g c) (comp_graph g c) lc)); auto.
    - intros c lc s0 rg j Hc _ Hwfc Hs _. unfold run_component. fold (attr_c attr g c). unfold start_common.
      pose proof (attr_c_exact O attr Hex g Hattr c) as Hexc. pose proof (attr_c_length attr g c) as Hla.
      destruct (proj1 Hexc lc) as [x Ex]; [rewrite Hla; apply Hwfc|]. rewrite Ex. cbn [bind].
      rewrite (basic_component_stuck O (attr_c attr g c) (comp_graph g c) (comp_symmetric g c Hsym) Hla Hexc lc Hwfc Hs)
        by (auto; split; reflexivity). cbn [post]. auto.
    - apply valid_good; auto.
    - intros c Hc. apply optimum_stuck; auto. }
  apply post_total in Hp. destruct Hp as [[[labels s'] r'] [E [_ [l0 [Hst [Hlen Hparts]]]]]].
  destruct Hst as [_ [_ ->]]. exists s', r'. rewrite E. rewrite (parts_determine g l labels); auto. apply Hwf.
Qed.

Theorem basic_fit_zero fuel reps n_regions initial c0 r : good_input g n_regions initial ->
  post anyexn True (basic_fit order O fuel (Some 0) reps g attr n_regions initial c0 r)
    (fun '((labels, _), _) => exists labels0, started_from g n_regions initial labels0 /\
       length labels = gn g /\
       forall c, c < n_components g -> wf (comp_graph g c) (comp_part g labels c) /\
         stuck O (attr_c attr g c) (comp_graph g c) (comp_part g labels c)).
Proof.
  intros Hgood. unfold basic_fit.
  eapply (post_weaken anyexn anyexn True True); [auto|auto| |
    apply (fit_post common _ _ order g attr anyexn True (fun _ => True)
      (fun c l l' => wf (comp_graph g c) l' /\ stuck O (attr_c attr g c) (comp_graph g c) l'))]; auto.
  - intros [[labels s'] r'] _ [_ H]. exact H.
  - intros c l s rg Hc Hwf _. unfold run_component. fold (attr_c attr g c). unfold start_common.
    destruct (o_call O l (attr_c attr g c)) as [x|e|] eqn:Ex; cbn [bind post]; unfold anyexn; auto.
    eapply (post_weaken anyexn anyexn True True); [auto|auto| |
      apply (basic_component_zero O (attr_c attr g c) (comp_graph g c) (comp_symmetric g c Hsym) (attr_c_length attr g c)); auto].
    + intros [[l' c'] r'] _ [H1 H2]. split; [auto|]. split; [destruct Hwf, H1; lia|auto].
    + split; reflexivity.
Qed.

Lemma stuck_optimum labels : exact_on O attr -> wf g labels ->
  (forall c, c < n_components g -> stuck O (attr_c attr g c) (comp_graph g c) (comp_part g labels c)) ->
  strict_optimum O attr g labels.
Proof.
  intros Hex Hwf Hs v isl a z Hv Hi Ha Hl.
  rewrite (island_comp_nodes g v isl Hv Hi) in Ha |- *. apply In_nth_error in Ha. destruct Ha as [i Ea].
  set (c := comp_label g v) in *. assert (Hc : c < n_components g) by (apply comp_label_lt; auto).
  assert (Hlc : legal_move (comp_graph g c) (comp_part g labels c) i z) by (eapply legal_to_comp; eauto).
  assert (Hwfc : wf (comp_graph g c) (comp_part g labels c)) by (apply wf_part; auto).
  pose proof (attr_c_length attr g c) as Hla. pose proof (attr_c_exact O attr Hex g Hattr c) as Hexc.
  destruct (legal_update_Ok O (attr_c attr g c) (comp_graph g c) Hla Hexc _ _ _ Hwfc Hlc) as [q Eq].
  pose proof (Hs c Hc i z q Hlc Eq) as Hq.
  destruct Hexc as [_ [_ Hup]]. destruct (Hup i z (comp_part g labels c) q) as [x [y [Ex [Ey Hd]]]];
    [rewrite Hla; apply Hwfc|destruct Hwfc as [-> _]; apply Hlc|auto|].
  exists x, y. split; [exact Ex|]. split; [|lra]. unfold objective_at, labels_at.
  change (map (lab (upd labels a z)) (comp_nodes g c)) with (comp_part g (upd labels a z) c).
  rewrite (comp_part_upd g labels c i a z (proj1 Hwf) Ea). exact Ey.
Qed.

Hypothesis Hone : n_components g = 1.

Theorem reactive_fit_stuck maxit k1 k2 p l s r : exact_on O attr -> valid_request g p (Some l) ->
  strict_optimum O attr g l -> (exists a z, legal_move g l a z) -> fresh_reactive s -> 1 <= maxit ->
  exists s' r', reactive_fit order O maxit k1 k2 g attr p (Some l) s r = Ok ((l, s'), r').
Proof.
  intros Hex Hv Hopt Hmv Hfresh Hm. assert (Hwf : wf g l) by (destruct Hv as [_ [[H1 [_ H2]] _]]; split; auto).
  assert (Hp : post noexn False (reactive_fit order O maxit k1 k2 g attr p (Some l) s r)
    (fun '((labels, s'), _) => (n_components g = 0 -> fresh_reactive s') /\ exists labels0, started_from g p (Some l) labels0 /\
       length labels = gn g /\
       forall c, c < n_components g -> comp_part g labels c = comp_part g labels0 c)).
  { apply (fit_post_from reactive _ _ order g attr noexn False (fun j s => j = 0 -> fresh_reactive s) (fun c l0 l' => l' = l0)
             (fun c lc => stuck O (attr_c attr g c) (comp_graph g c) lc /\ exists a z, legal_move (comp_graph g c) lc a z)); auto.
    - intros c lc s0 rg j Hc Hj Hwfc [Hs Hmc] HJ. unfold run_component. fold (attr_c attr g c). unfold start_common.
      assert (Hf : fresh_reactive s0) by (apply HJ; lia). destruct Hf as [Hvis Havg].
      pose proof (attr_c_exact O attr Hex g Hattr c) as Hexc. pose proof (attr_c_length attr g c) as Hla.
      destruct (proj1 Hexc lc) as [x Ex]; [rewrite Hla; apply Hwfc|]. rewrite Ex. cbn [bind].
      set (s1 := mkReactive _ _ _ _).
      destruct (reactive_component_stuck O (attr_c attr g c) (comp_graph g c) (comp_symmetric g c Hsym) Hla Hexc lc Hwfc Hs
        maxit k1 k2 s1 rg) as [s' E]; auto; [split; reflexivity|]. rewrite E. cbn [post]. split; [discriminate|]. auto.
    - apply valid_good; auto.
    - intros c Hc. split; [apply optimum_stuck; auto|]. destruct Hmv as [a [z Hl]].
      assert (Ha : a < gn g) by apply Hl. pose proof (comp_label_lt g a Ha) as Hca.
      destruct (In_nth_error (comp_nodes g c) a) as [i Hi]; [apply comp_nodes_In; split; [auto|lia]|].
      exists i, z. eapply legal_to_comp; eauto. }
  apply post_total in Hp. destruct Hp as [[[labels s'] r'] [E [_ [l0 [Hst [Hlen Hparts]]]]]].
  destruct Hst as [_ [_ ->]]. exists s', r'. rewrite E. rewrite (parts_determine g l labels); auto. apply Hwf.
Qed.

Theorem reactive_fit_early maxit k1 k2 p l s r : valid_request g p (Some l) -> fresh_reactive s -> 1 <= k1 ->
  maxit = 1 \/ maxit = 2 ->
  post anyexn True (reactive_fit order O maxit k1 k2 g attr p (Some l) s r)
    (fun '((labels, _), _) => length labels = gn g /\
       forall c, c < n_components g ->
         comp_part g labels c = one_iteration O (attr_c attr g c) (comp_graph g c) (comp_part g l c)).
Proof.
  intros Hv Hfresh Hk Hm. unfold reactive_fit.
  eapply (post_weaken anyexn anyexn True True); [auto|auto| |
    apply (fit_post_n reactive _ _ order g attr anyexn True (fun j s => j = 0 -> fresh_reactive s)
      (fun c l0 l' => l' = one_iteration O (attr_c attr g c) (comp_graph g c) l0))]; auto.
  - intros [[labels s'] r'] _ [_ [l0 [[_ [_ ->]] [Hlen HR]]]]. auto.
  - intros c lc s0 rg j Hc Hj Hwf HJ. unfold run_component. fold (attr_c attr g c). unfold start_common.
    assert (Hf : fresh_reactive s0) by (apply HJ; lia). destruct Hf as [Hvis Havg].
    destruct (o_call O lc (attr_c attr g c)) as [x|e|] eqn:Ex; cbn [bind post]; unfold anyexn; auto.
    eapply (post_weaken anyexn anyexn True True); [auto|auto| |
      apply (reactive_component_early O (attr_c attr g c) (comp_graph g c) (comp_symmetric g c Hsym) (attr_c_length attr g c))]; auto.
    + intros [[l' c'] r'] _ ->. split; [discriminate|]. split; [|reflexivity].
      apply one_iteration_length; auto. apply comp_symmetric; auto.
    + split; reflexivity.
  - apply valid_good; auto.
Qed.
End Fit.

Section Unmovable.
Variables (O : objfun) (attr : list (list Q)) (g : graph).
Hypothesis Hsym : symmetric g.
Hypothesis Hattr : length attr = gn g.
Variable order : list edge -> list edge.
Hypothesis Hord : forall l, Permutation (order l) l.

Lemma unmovable_part l c : wf g l -> c < n_components g -> (forall a z, ~ legal_move g l a z) ->
  forall a z, ~ legal_move (comp_graph g c) (comp_part g l c) a z.
Proof.
  intros Hwf Hc Hno i z Hl.
  assert (Hi : i < length (comp_nodes g c)) by (destruct Hl as [Hl _]; rewrite comp_graph_n in Hl; auto).
  destruct (nth_error (comp_nodes g c) i) as [a|] eqn:Ea; [|apply nth_error_None in Ea; lia].
  apply (Hno a z). eapply legal_of_comp; eauto.
Qed.

Theorem reactive_fit_unmovable maxit k1 k2 p l s r : exact_on O attr -> valid_request g p (Some l) ->
  (forall a z, ~ legal_move g l a z) -> 1 <= maxit ->
  post (fun e => e = AttributeError /\ exists u v, same_island g u v /\ lab l u <> lab l v) False
    (reactive_fit order O maxit k1 k2 g attr p (Some l) s r)
    (fun '((labels, _), _) => labels = l /\ forall u v, same_island g u v -> lab l u = lab l v).
Proof.
  intros Hex Hv Hno Hm. assert (Hwf : wf g l) by (destruct Hv as [_ [[H1 [_ H2]] _]]; split; auto).
  unfold reactive_fit.
  set (E := fun e => e = AttributeError /\ exists u v, same_island g u v /\ lab l u <> lab l v).
  eapply (post_weaken E E False False); [auto|auto| |
    apply (fit_post_from reactive _ _ order g attr E False (fun _ _ => True)
      (fun c l0 l' => l' = l0 /\ length (uniqueZ l0) = 1) (fun c lc => lc = comp_part g l c))]; auto.
  - intros [[labels s'] r'] _ [_ [l0 [[_ [_ ->]] [Hlen HR]]]]. split.
    + apply (parts_determine g); auto; [apply Hwf|]. intros c Hc. apply HR; auto.
    + intros u v Huv. pose proof (same_island_lt g u v Huv) as [Hu Hv'].
      destruct (HR (comp_label g u) (comp_label_lt g u Hu)) as [_ H1].
      assert (Hin : forall a, a < gn g -> comp_label g a = comp_label g u -> In (lab l a) (uniqueZ (comp_part g l (comp_label g u)))).
      { intros a Ha Hc. apply uniqueZ_In, comp_part_In; [apply Hwf|]. exists a. repeat split; auto.
        unfold lab. apply nth_error_nth'. destruct Hwf; lia. }
      pose proof (Hin u Hu eq_refl) as H2. pose proof (Hin v Hv') as H3.
      destruct (uniqueZ _) as [|x [|y t]]; cbn in H1; try lia. destruct H2 as [<-|[]].
      destruct H3 as [<-|[]]; [|reflexivity]. symmetry. apply comp_label_eq; auto.
  - intros c lc s0 rg j Hc _ Hwfc -> _. unfold run_component. fold (attr_c attr g c). unfold start_common.
    pose proof (attr_c_exact O attr Hex g Hattr c) as Hexc. pose proof (attr_c_length attr g c) as Hla.
    destruct (proj1 Hexc (comp_part g l c)) as [x Ex]; [rewrite Hla; apply Hwfc|]. rewrite Ex. cbn [bind].
    rewrite (unmovable_reactive O (attr_c attr g c) (comp_graph g c) (comp_symmetric g c Hsym) Hla maxit k1 k2 _ _ rg x); auto;
      [|apply unmovable_part; auto].
    destruct (Nat.eqb_spec (length (uniqueZ (comp_part g l c))) 1) as [E1|E1]; cbn [post]; [auto|].
    split; [reflexivity|].
    assert (Hlab : forall z, In z (uniqueZ (comp_part g l c)) -> exists a, a < gn g /\ comp_label g a = c /\ lab l a = z).
    { intros z Hz. apply -> uniqueZ_In in Hz. apply comp_part_In in Hz; [|apply Hwf]. destruct Hz as [a [Ha [Hca Hn]]].
      exists a. repeat split; auto. unfold lab. apply nth_error_nth. exact Hn. }
    pose proof (uniqueZ_NoDup (comp_part g l c)) as Hnd.
    destruct (uniqueZ (comp_part g l c)) as [|x1 [|x2 t]] eqn:Eu.
    + exfalso. destruct (comp_label_onto g c Hc) as [v [Hv' Hcv]].
      assert (In (lab l v) (uniqueZ (comp_part g l c))) as Hin.
      { apply uniqueZ_In, comp_part_In; [apply Hwf|]. exists v. repeat split; auto. unfold lab. apply nth_error_nth'. destruct Hwf; lia. }
      rewrite Eu in Hin. destruct Hin.
    + cbn in E1. lia.
    + destruct (Hlab x1) as [u [Hu [Hcu E2]]]; [left; auto|]. destruct (Hlab x2) as [v [Hv' [Hcv E3]]]; [right; left; auto|].
      exists u, v. split; [apply comp_label_eq; auto; congruence|]. rewrite E2, E3. intros ->. inversion Hnd; subst. cbn in *. tauto.
  - apply valid_good; auto.
  - intros c Hc. reflexivity.
Qed.
End Unmovable.
