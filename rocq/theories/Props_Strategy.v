(** Property theorems C14-C17: allow-move strategies. *)
From Verif Require Import Base Spec M_Graph P_Graph M_Util P_Base P_Util M_Objective P_Sum P_Objective M_Azp P_Azp
  P_Strategy Examples Props_Objective.
Local Open Scope Q_scope.

(** ** C14: AllowMoveAZP *)
(** One call: accepted iff the objective does not rise; a rejected call changes nothing. *)
Theorem C14_allow_move_azp_call expf O attr labels a r rg s b s' rg' v :
  exact_objective O attr -> length labels = length attr -> (a < length labels)%nat ->
  (exists c, s = SAzp c /\ c_obj c = O /\ c_attr c = attr) ->
  o_call O labels attr = Ok v -> strat_val s == v ->
  strat_call expf s a r labels rg = Ok (b, s', rg') ->
  exists v', o_call O (upd labels a r) attr = Ok v' /\
    (b = true <-> v' <= v) /\ rg' = rg /\
    (b = true -> strat_val s' == v') /\ (b = false -> s' = s).
Proof.
  intros Hex Hlen Ha [c [-> [Ho Hat]]] Ev Hv H. cbn in H. apply bind_Ok in H. destruct H as [[b0 c'] [E H]].
  injection H as <- <- <-.
  destruct (azp_call_post O attr c labels a r Hex Hlen Ha) with (b := b0) (c' := c') as [v0 [v' [E0 [E' [Hb Hc]]]]]; auto.
  { split; [auto|]. split; [auto|]. exists v; auto. }
  rewrite Ev in E0. injection E0 as <-. exists v'. split; [auto|]. split; [auto|]. split; [auto|].
  destruct b0; split; try discriminate.
  - intros _. destruct Hc as [_ [_ [w [Ew Hw]]]]. rewrite E' in Ew. injection Ew as <-. exact Hw.
  - intros _. subst c'. reflexivity.
Qed.

(** Any history of calls after [start_new_component]. *)
Theorem C14_allow_move_azp_history expf O attr labels0 idx c0 s calls rg bs s' labels' rg' :
  exact_objective O attr -> length labels0 = length attr ->
  (forall a r, In (a, r) calls -> (a < length labels0)%nat) ->
  strat_start O (SAzp c0) labels0 attr idx = Ok s ->
  run_calls expf calls s labels0 rg = Ok (bs, s', labels', rg') ->
  exists v0 v', o_call O labels0 attr = Ok v0 /\ o_call O labels' attr = Ok v' /\
    strat_val s == v0 /\ strat_val s' == v' /\ v' <= v0.
Proof.
  intros Hex Hlen Hc Hs Hrun. cbn in Hs. apply bind_Ok in Hs. destruct Hs as [c [Ec Hs]]. injection Hs as <-.
  apply start_common_tracks in Ec. pose proof Ec as [_ [_ [v0 [Ev0 Hv0]]]].
  assert (Hgen : forall calls labels c rg bs s' labels' rg', length labels = length attr ->
    (forall a r, In (a, r) calls -> (a < length labels)%nat) -> tracks O attr c labels -> c_val c <= v0 ->
    run_calls expf calls (SAzp c) labels rg = Ok (bs, s', labels', rg') ->
    exists c', s' = SAzp c' /\ tracks O attr c' labels' /\ c_val c' <= v0).
  { clear - Hex. induction calls as [|[a r] calls IH]; intros labels c rg bs s' labels' rg' Hlen Hc Ht Hle Hrun; cbn [run_calls] in Hrun.
    - injection Hrun as <- <- <- <-. eauto.
    - apply bind_Ok in Hrun. destruct Hrun as [[[b s1] rg1] [E Hrun]].
      apply bind_Ok in Hrun. destruct Hrun as [[[[bs2 s2] l2] rg2] [E2 Hrun]]. injection Hrun as <- <- <- <-.
      cbn in E. apply bind_Ok in E. destruct E as [[b0 c1] [E H]]. injection H as <- <- <-.
      assert (Ha : (a < length labels)%nat) by (eapply Hc; left; reflexivity).
      destruct (azp_call_post O attr c labels a r Hex Hlen Ha Ht b0 c1 E) as [v [v' [Ev [Ev' [Hb Hcc]]]]].
      unfold make_move in E2. destruct b0.
      + eapply IH; [| |exact Hcc| |exact E2].
        * rewrite upd_length; auto.
        * intros a' r' H. rewrite upd_length. eapply Hc. right; eauto.
        * destruct Ht as [_ [_ [w [Ew Hw]]]]. destruct Hcc as [_ [_ [w' [Ew' Hw']]]].
          assert (w = v) by congruence. assert (w' = v') by congruence. subst.
          assert (v' <= v) by (apply Hb; auto). lra.
      + subst c1. eapply IH; [exact Hlen| |exact Ht|exact Hle|exact E2]. intros a' r' H. eapply Hc; right; eauto. }
  destruct (Hgen calls labels0 c rg bs s' labels' rg' Hlen Hc Ec ltac:(lra) Hrun) as [c' [-> [[_ [_ [v' [Ev' Hv']]]] Hle]]].
  exists v0, v'. split; [auto|]. split; [auto|]. split; [exact Hv0|]. split; [exact Hv'|]. lra.
Qed.

Definition dummy : common := mkCommon [] (pairwise manhattan) 0.
Example C14_example :
  exact_objective (pairwise manhattan) attr5 /\
  match strat_start (pairwise manhattan) (SAzp dummy) [0;0;0;1;1]%Z attr5 [0;1;2;3;4]%nat with
  | Ok s => match run_calls (fun _ => 0) [(1, 1%Z); (2, 1%Z); (2, 0%Z)]%nat s [0;0;0;1;1]%Z rng0 with
            | Ok (bs, s', l', _) => bs = [false; true; false] /\ l' = [0;0;1;1;1]%Z /\ strat_val s == 9 /\ strat_val s' == 7
            | _ => False
            end
  | _ => False
  end.
Proof.
  split; [apply pairwise_exact; [intros; apply manhattan_sym|exact manhattan_zero]|].
  vm_compute. repeat split; reflexivity.
Qed.

(** ** C15: simulated annealing *)
(** One call.  [expf] is math.exp, [random_random rg] the next value of random.random(). *)
Theorem C15_sa_call expf O attr c t sa term reached moved labels a r rg b s' rg' v :
  exact_objective O attr -> length labels = length attr -> (a < length labels)%nat ->
  c_obj c = O -> c_attr c = attr -> o_call O labels attr = Ok v -> c_val c == v ->
  strat_call expf (SSa c t sa term reached moved) a r labels rg = Ok (b, s', rg') ->
  exists v' q, o_call O (upd labels a r) attr = Ok v' /\ q == v' - v /\
    (b = true <-> (v' <= v \/ fst (random_random rg) < (if Qeq_bool t 0 then 0 else expf (- q / t)))) /\
    (exists c', s' = SSa c' t (if b && Qltb v v' then S sa else sa)%bool term
                  (reached || (b && Qltb v v' && Nat.leb term (S sa)))%bool (moved || b)%bool /\
       c_obj c' = O /\ c_attr c' = attr /\ c_val c' == (if b then v' else v)) /\
    rg' = (if Qltb v v' then rnext rg else rg).
Proof.
  intros Hex Hlen Ha Ho Hat Ev Hv H. cbn in H.
  destruct (o_update O a r labels attr) as [q| |] eqn:Eq; try (unfold sa_call in H; rewrite Ho, Hat, Eq in H; discriminate).
  assert (Ht : tracks O attr c labels) by (split; [auto|]; split; [auto|]; exists v; auto).
  destruct (tracks_move O attr c labels a r q Hex Hlen Ha Ht Eq) as [Htm [v1 [v' [Ev1 [Ev' [Hcv Hd]]]]]].
  assert (v1 = v) by congruence. subst v1.
  exists v', q. split; [auto|]. split; [auto|].
  unfold sa_call in H. rewrite Ho, Hat, Eq in H. cbn [bind] in H.
  destruct Htm as [_ [_ [w [Ew Hw]]]]. assert (w = v') by congruence. subst w. cbn in Hw.
  destruct (Qle_bool q 0) eqn:Ele.
  - apply Qle_bool_iff in Ele. injection H as <- <- <-.
    assert (Hlt : Qltb v v' = false) by (apply Qltb_ge; lra). rewrite Hlt, !andb_false_r, orb_false_r, orb_true_r. cbn [andb].
    split; [split; [intros _; left; lra|auto]|]. split; [|reflexivity].
    eexists. split; [reflexivity|]. auto.
  - apply Qle_bool_false in Ele. assert (Hlt : Qltb v v' = true) by (apply Qltb_lt; lra). rewrite Hlt, andb_true_r.
    unfold random_random in *. cbn [fst] in *. fold (sa_prob expf q t).
    destruct (Qltb _ (sa_prob expf q t)) eqn:Er in H; injection H as <- <- <-.
    + apply Qltb_lt in Er. split; [split; [auto|auto]|]. split; [|reflexivity]. rewrite orb_true_r. cbn [andb].
      eexists. split; [reflexivity|]. auto.
    + apply Qltb_ge in Er. split; [split; [discriminate|intros [?|?]; exfalso; lra]|]. split; [|reflexivity].
      rewrite !orb_false_r. exists c. auto.
Qed.

(** For a history of calls with answers [bs]: which calls proposed a worsening move. *)
Fixpoint worse_trace (O : objfun) (attr : list (list Q)) (labels : list Z) (calls : list (nat * Z)) (bs : list bool) : list bool :=
  match calls, bs with
  | (a, r) :: calls', b :: bs' =>
      match o_call O labels attr, o_call O (upd labels a r) attr with
      | Ok v, Ok v' => Qltb v v'
      | _, _ => false
      end :: worse_trace O attr (if b then upd labels a r else labels) calls' bs'
  | _, _ => []
  end.

(** Any history of calls: counter and signals are determined by the accepted worsening moves
    ([hits]) and the accepted moves. *)
Theorem C15_sa_history expf O attr : exact_objective O attr -> forall calls c t sa term reached moved labels rg bs s' labels' rg' v,
  length labels = length attr -> (forall a r, In (a, r) calls -> (a < length labels)%nat) ->
  c_obj c = O -> c_attr c = attr -> o_call O labels attr = Ok v -> c_val c == v ->
  run_calls expf calls (SSa c t sa term reached moved) labels rg = Ok (bs, s', labels', rg') ->
  let worse := worse_trace O attr labels calls bs in
  let hits := length (filter (fun p => fst p && snd p)%bool (combine worse bs)) in
  exists c' v', length worse = length bs /\
    s' = SSa c' t (sa + hits) term
             (reached || (Nat.ltb 0 hits && Nat.leb term (sa + hits)))%bool (moved || existsb (fun b => b) bs)%bool /\
    o_call O labels' attr = Ok v' /\ c_val c' == v' /\ c_obj c' = O /\ c_attr c' = attr.
Proof.
  intros Hex. induction calls as [|[a r] calls IH]; intros c t sa term reached moved labels rg bs s' labels' rg' v Hlen Hc Ho Hat Ev Hv Hrun;
    cbn [run_calls] in Hrun.
  - injection Hrun as <- <- <- <-. exists c, v. cbn. rewrite Nat.add_0_r, !orb_false_r. auto 10.
  - apply bind_Ok in Hrun. destruct Hrun as [[[b s1] rg1] [E Hrun]].
    apply bind_Ok in Hrun. destruct Hrun as [[[[bs2 s2] l2] rg2] [E2 Hrun]]. injection Hrun as <- <- <- <-.
    assert (Ha : (a < length labels)%nat) by (eapply Hc; left; reflexivity).
    destruct (C15_sa_call expf O attr c t sa term reached moved labels a r rg b s1 rg1 v Hex Hlen Ha Ho Hat Ev Hv E)
      as [v' [q [Ev' [_ [_ [[c' [-> [Ho' [Hat' Hv']]]] _]]]]]].
    unfold make_move in E2.
    destruct (IH c' t (if (b && Qltb v v')%bool then S sa else sa) term (reached || (b && Qltb v v' && Nat.leb term (S sa)))%bool (moved || b)%bool
                (if b then upd labels a r else labels) rg1 bs2 s2 l2 rg2 (if b then v' else v)) as [c2 [v2 [Hw [Es [E1 [E3 [E4 E5]]]]]]]; auto.
    + destruct b; [rewrite upd_length|]; auto.
    + intros a' r' H. destruct b; [rewrite upd_length|]; eapply Hc; right; eauto.
    + destruct b; auto.
    + exists c2, v2. cbn [worse_trace]. rewrite Ev, Ev'. set (worse := worse_trace _ _ _ _ _) in *.
      cbn [length combine filter fst snd]. split; [lia|].
      split; [|auto]. rewrite Es. clear Es. cbn [existsb]. rewrite orb_assoc.
      destruct b, (Qltb v v'); cbn [andb length]; rewrite ?orb_false_r; try reflexivity.
      f_equal; [lia|].
      set (h := length (filter (fun p => (fst p && snd p)%bool) (combine worse bs2))).
      replace (sa + S h)%nat with (S sa + h)%nat by lia.
      destruct reached; [reflexivity|]. cbn [orb].
      destruct h as [|h].
      * rewrite Nat.add_0_r. cbn. rewrite orb_false_r. reflexivity.
      * change (0 <? S h)%nat with true. change (0 <? S (S h))%nat with true. cbn [andb].
        destruct (Nat.leb_spec term (S sa)); [|reflexivity].
        destruct (Nat.leb_spec term (S sa + S h)); [reflexivity|lia].
Qed.

(** a worsening move (+14) is accepted when the draw is below exp(-14/t), here 1/2, and rejected otherwise *)
Example C15_example :
  let s := SSa (mkCommon attr5 (pairwise manhattan) 9) 10 0 1 false false in
  match strat_call (fun _ => 1 # 2) s 1 1%Z [0;0;0;1;1]%Z (fun _ => 5%nat),
        strat_call (fun _ => 0) s 1 1%Z [0;0;0;1;1]%Z (fun _ => 5%nat) with
  | Ok (true, SSa _ _ 1 1 true true, _), Ok (false, SSa _ _ 0 1 false false, _) => True
  | _, _ => False
  end.
Proof. vm_compute. exact Logic.I. Qed.

(** ** C16: the max-p wrapper, non-negative attributes *)
Theorem C16_maxp_wrapper expf c sp_all sp thr inner labels a r rg s' rg' :
  shaped sp thr (length labels) -> (forall x q, In x sp -> In q x -> 0 <= q) ->
  (a < length labels)%nat ->
  (forall z, In z labels -> meets sp thr labels z) ->
  In r labels -> nth_error labels a <> Some r ->
  strat_call expf (SMaxP c sp_all sp thr inner) a r labels rg = Ok (true, s', rg') ->
  forall z, In z (upd labels a r) -> meets sp thr (upd labels a r) z.
Proof.
  intros Hsh Hpos Ha Hm Hr Hne H z Hz. cbn in H. destruct (donor_ok sp thr a labels) eqn:Ed; [|discriminate].
  assert (Hner : lab labels a <> r) by (intros E; apply Hne; rewrite <- E; apply lab_nth_error; auto).
  destruct (Z.eq_dec z (lab labels a)) as [->|Hza].
  - apply donor_ok_region; auto. apply Hm. apply nth_In; auto.
  - intros k t Hk. rewrite total_upd by auto. destruct (Z.eqb_spec (lab labels a) z); [congruence|].
    assert (Hin : In z labels) by (apply In_upd in Hz; destruct Hz as [->|]; auto).
    specialize (Hm z Hin k t Hk).
    assert (0 <= nth k (nth a sp []) 0).
    { destruct (nth_in_or_default k (nth a sp []) 0) as [Hi|Hi]; [|rewrite Hi; lra].
      apply (Hpos (nth a sp [])); auto. apply nth_In. destruct Hsh. lia. }
    destruct (Z.eqb r z); lra.
Qed.

(** with the wrapper, any history of calls keeps every region at the threshold *)
Theorem C16_maxp_wrapper_history expf sp thr n : (forall x q, In x sp -> In q x -> 0 <= q) -> shaped sp thr n ->
  forall calls c sp_all inner labels rg bs s' labels' rg', length labels = n ->
  (forall a r, In (a, r) calls -> (a < n)%nat /\ In r labels) ->
  (forall z, In z labels -> meets sp thr labels z) ->
  run_calls expf calls (SMaxP c sp_all sp thr inner) labels rg = Ok (bs, s', labels', rg') ->
  forall z, In z labels' -> meets sp thr labels' z.
Proof.
  intros Hpos Hsh calls c sp_all inner labels rg bs s' labels' rg' Hlen Hc Hm Hrun.
  assert (Hgen : forall (calls : list (nat * Z)) U inner labels rg bs s' labels' rg', length labels = n ->
    (forall a r, In (a, r) calls -> (a < n)%nat /\ In r U) ->
    (forall z, In z U -> meets sp thr labels z) -> (forall z, In z labels -> In z U) ->
    run_calls expf calls (SMaxP c sp_all sp thr inner) labels rg = Ok (bs, s', labels', rg') ->
    (forall z, In z U -> meets sp thr labels' z) /\ (forall z, In z labels' -> In z U)).
  { clear - Hpos Hsh. induction calls as [|[a r] calls IH]; intros U inner labels rg bs s' labels' rg' Hlen Hc Hm HU Hrun; cbn [run_calls] in Hrun.
    - injection Hrun as <- <- <- <-. auto.
    - apply bind_Ok in Hrun. destruct Hrun as [[[b s1] rg1] [E Hrun]].
      apply bind_Ok in Hrun. destruct Hrun as [[[[bs2 s2] l2] rg2] [E2 Hrun]]. injection Hrun as <- <- <- <-.
      destruct (Hc a r (or_introl eq_refl)) as [Ha Hr].
      cbn in E. destruct (donor_ok sp thr a labels) eqn:Ed.
      + apply bind_Ok in E. destruct E as [[[b0 i'] rg0] [Ei E]]. injection E as <- <- <-.
        eapply IH in E2; eauto.
        * destruct b0; [unfold make_move; rewrite upd_length|]; auto.
        * intros a' r' H. apply Hc. right; auto.
        * destruct b0; [|auto]. unfold make_move. intros z Hz.
          destruct (Z.eq_dec (lab labels a) r) as [Er|Er].
          { unfold lab in Er. rewrite <- Er. rewrite upd_same by lia. auto. }
          destruct (Z.eq_dec z (lab labels a)) as [->|Hza].
          -- apply donor_ok_region; auto; [rewrite Hlen; auto|lia].
          -- intros k t Hk. rewrite total_upd by lia. destruct (Z.eqb_spec (lab labels a) z); [congruence|].
             specialize (Hm z Hz k t Hk).
             assert (0 <= nth k (nth a sp []) 0).
             { destruct (nth_in_or_default k (nth a sp []) 0) as [Hi|Hi]; [|rewrite Hi; lra].
               apply (Hpos (nth a sp [])); auto. apply nth_In. destruct Hsh. lia. }
             destruct (Z.eqb r z); lra.
        * destruct b0; [|auto]. unfold make_move. intros z Hz. apply In_upd in Hz. destruct Hz as [->|Hz]; auto.
      + injection E as <- <- <-. eapply IH in E2; eauto. intros a' r' H. apply Hc. right; auto. }
  destruct (Hgen calls labels inner labels rg bs s' labels' rg' Hlen Hc Hm (fun z H => H) Hrun) as [H1 H2]. auto.
Qed.

(** areas with extensive attribute 3 each; region {0,1,2} can give one area away, {3,4} cannot *)
Definition sp5 : list (list Q) := [[3]; [3]; [3]; [3]; [3]].
Example C16_example :
  shaped sp5 [6] 5 /\ (forall z, In z [0;0;0;1;1]%Z -> meets sp5 [6] [0;0;0;1;1]%Z z) /\
  let s := SMaxP dummy sp5 sp5 [6] (SAzp (mkCommon attr5 (pairwise manhattan) 9)) in
  match run_calls (fun _ => 0) [(2, 1%Z); (1, 1%Z); (2, 0%Z)]%nat s [0;0;0;1;1]%Z rng0 with
  | Ok (bs, _, l, _) => bs = [true; false; false] /\ l = [0;0;1;1;1]%Z
  | _ => False
  end.
Proof.
  split; [|split].
  - split; [reflexivity|]. intros x Hx. cbn in Hx. intuition (subst; reflexivity).
  - intros z Hz [|[|k]] t Ht; cbn in Ht; try discriminate. injection Ht as <-.
    cbn in Hz. intuition (subst; vm_compute; discriminate).
  - vm_compute. split; reflexivity.
Qed.

(** ** C17: negative attributes: the recipient is not protected *)
Theorem C17_maxp_negative_refuted :
  exists sp thr labels a r inner s' rg',
    shaped sp thr (length labels) /\ (a < length labels)%nat /\ In r labels /\
    (forall z, In z labels -> meets sp thr labels z) /\
    strat_call (fun _ => 0) (SMaxP dummy sp sp thr inner) a r labels rng0 = Ok (true, s', rg') /\
    ~ meets sp thr (upd labels a r) r.
Proof.
  exists [[5]; [5]; [-3]; [6]], [6], [0;0;0;1]%Z, 2%nat, 1%Z,
         (SAzp (mkCommon [[1];[1];[9];[9]] (pairwise manhattan) 16)).
  eexists _, _. split; [split; [reflexivity|]; intros x Hx; cbn in Hx; intuition (subst; reflexivity)|].
  split; [cbn; lia|]. split; [cbn; tauto|]. split.
  - intros z Hz [|[|k]] t Ht; cbn in Ht; try discriminate. injection Ht as <-.
    cbn in Hz. intuition (subst; vm_compute; discriminate).
  - split; [vm_compute; reflexivity|]. intros H. specialize (H 0%nat 6 eq_refl). vm_compute in H. apply H. reflexivity.
Qed.

(** what holds for attributes of any sign: the donor region and all regions other than the recipient are protected *)
Theorem C17_maxp_any_sign_partial expf c sp_all sp thr inner labels a r rg s' rg' :
  shaped sp thr (length labels) -> (a < length labels)%nat ->
  (forall z, In z labels -> meets sp thr labels z) ->
  strat_call expf (SMaxP c sp_all sp thr inner) a r labels rg = Ok (true, s', rg') ->
  forall z, In z labels -> z <> r -> meets sp thr (upd labels a r) z.
Proof.
  intros Hsh Ha Hm H z Hz Hzr. cbn in H. destruct (donor_ok sp thr a labels) eqn:Ed; [|discriminate].
  destruct (Z.eq_dec z (lab labels a)) as [->|Hza].
  - apply donor_ok_region; auto.
  - intros k t Hk. rewrite total_upd by auto. destruct (Z.eqb_spec (lab labels a) z); [congruence|].
    destruct (Z.eqb_spec r z); [congruence|]. specialize (Hm z Hz k t Hk). lra.
Qed.

(** ** C84: the wrapper refuses exactly the moves that would take the donor region below the
    threshold, and otherwise answers as the wrapped strategy *)
Theorem C84_maxp_wrapper_transparent expf c sp_all sp thr inner labels a r rg :
  shaped sp thr (length labels) -> (a < length labels)%nat -> nth_error labels a <> Some r ->
  (forall d, nth_error labels a = Some d -> meets sp thr labels d) ->
  (forall d, nth_error labels a = Some d -> meets sp thr (upd labels a r) d ->
     match strat_call expf inner a r labels rg, strat_call expf (SMaxP c sp_all sp thr inner) a r labels rg with
     | Ok (b, inner', rg'), Ok (b', s', rg'') =>
         b' = b /\ s' = SMaxP c sp_all sp thr inner' /\ rg'' = rg'
     | Raise e, Raise e' => e' = e
     | NoFuel, NoFuel => True
     | _, _ => False
     end) /\
  (forall d, nth_error labels a = Some d -> ~ meets sp thr (upd labels a r) d ->
     strat_call expf (SMaxP c sp_all sp thr inner) a r labels rg = Ok (false, SMaxP c sp_all sp thr inner, rg)).
Proof.
  intros Hsh Ha Hne Hm.
  assert (Hlab : nth_error labels a = Some (lab labels a)) by (apply lab_nth_error; auto).
  assert (Hner : lab labels a <> r) by congruence.
  split; intros d Hd Hd'; rewrite Hlab in Hd; injection Hd as <-; cbn [strat_call].
  - rewrite (donor_ok_complete sp thr labels a r Hsh Ha Hner Hd').
    destruct (strat_call expf inner a r labels rg) as [[[b i] rg']|e|]; cbn [bind]; auto.
  - destruct (donor_ok sp thr a labels) eqn:Ed; [|reflexivity]. exfalso. apply Hd'.
    apply donor_ok_region; auto.
Qed.

(** one area without any spatially extensive attribute in a region that is exactly at the threshold
    may go; one with the attribute may not *)
Definition sp4 : list (list Q) := [[3]; [3]; [0]; [6]].
Example C84_example :
  let l := [0;0;0;1]%Z in
  let s := SMaxP dummy sp4 sp4 [6] (SAzp (mkCommon [[1];[1];[9];[9]] (pairwise manhattan) 16)) in
  shaped sp4 [6] 4 /\ (forall z, In z l -> meets sp4 [6] l z) /\
  (exists s', strat_call (fun _ => 0) s 2 1%Z l rng0 = Ok (true, s', rng0)) /\
  strat_call (fun _ => 0) s 1 1%Z l rng0 = Ok (false, s, rng0).
Proof.
  cbv zeta. split; [|split; [|split]].
  - split; [reflexivity|]. intros x Hx. cbn in Hx. intuition (subst; reflexivity).
  - intros z Hz [|[|k]] t Ht; cbn in Ht; try discriminate. injection Ht as <-.
    cbn in Hz. intuition (subst; vm_compute; discriminate).
  - eexists. vm_compute. reflexivity.
  - vm_compute. reflexivity.
Qed.

Print Assumptions C14_allow_move_azp_call.
Print Assumptions C14_allow_move_azp_history.
Print Assumptions C15_sa_call.
Print Assumptions C15_sa_history.
Print Assumptions C16_maxp_wrapper.
Print Assumptions C16_maxp_wrapper_history.
Print Assumptions C17_maxp_negative_refuted.
Print Assumptions C17_maxp_any_sign_partial.
Print Assumptions C84_maxp_wrapper_transparent.
