(** Max-p heuristic: local search under the threshold wrapper. *)
From Verif Require Export SpecData.
From Verif Require Import Base Spec M_Graph P_Graph M_Util P_Base P_Util P_Forest P_Init P_Initial
  M_Objective P_Sum P_Objective M_Azp P_Azp P_Strategy P_Fit P_AzpFit M_Sa M_MaxP P_MaxP P_MaxP2 Props_Strategy.

(** ** one component *)
Section WrapComponent.
Variable expf : Q -> Q.
Variables (sp_all sp : list (list Q)) (thr : list Q).
Variable g : graph.
Hypothesis Hsym : symmetric g.
Hypothesis Hsh : shaped sp thr (gn g).
Hypothesis Hpos : non_negative sp.
Variable E : exn -> Prop.
Variable N : Prop.
Variable c0 : common.
(** whether the component met the thresholds at the start *)
Variable M : Prop.
Variable Inner : strategy -> list Z -> Prop.
Hypothesis Hinner : forall s a r l rg, wf g l -> legal_move g l a r -> Inner s l ->
  post E N (strat_call expf s a r l rg) (fun '(b, s', _) => Inner s' (if b : bool then upd l a r else l)).

Definition mp_I (s : strategy) (l : list Z) : Prop :=
  exists inner, s = SMaxP c0 sp_all sp thr inner /\ (M -> forall z, In z l -> meets sp thr l z) /\ Inner inner l.

Lemma mp_call_post s a r l rg : wf g l -> legal_move g l a r -> mp_I s l ->
  post E N (strat_call expf s a r l rg) (fun '(b, s', _) => mp_I s' (if b : bool then upd l a r else l)).
Proof.
  intros Hwf Hl [inner [-> [Hm Hin]]].
  assert (Hlen : length l = gn g) by apply Hwf. pose proof Hl as [Ha [D [HD [Hne [_ [b [_ [Hb _]]]]]]]].
  pose proof (C16_maxp_wrapper expf c0 sp_all sp thr inner l a r rg) as HC. cbn [strat_call] in *.
  destruct (donor_ok sp thr a l) eqn:Ed; [|cbn; exists inner; auto].
  pose proof (Hinner inner a r l rg Hwf Hl Hin) as Hp.
  destruct (strat_call expf inner a r l rg) as [[[b1 s1] rg1]|e|]; cbn [bind post] in *; [|auto|auto].
  exists s1. split; [auto|]. split; [|auto]. destruct b1; [|auto]. intros HM. specialize (Hm HM).
  apply (HC (SMaxP c0 sp_all sp thr s1) rg1); auto.
  - rewrite Hlen; auto.
  - lia.
  - eapply nth_error_In; eauto.
  - rewrite HD. congruence.
Qed.

Theorem mp_component_post fuel labels0 s rg : wf g labels0 -> labels0 <> [] -> mp_I s labels0 -> (N \/ gn g + 1 < fuel) ->
  post E N (azp_component strategy (strat_call expf) strat_val g fuel labels0 s rg)
    (fun '(labels', s', _) => wf g labels' /\ same_labels labels' labels0 /\ mp_I s' labels').
Proof.
  intros Hwf Hne HI Hf.
  eapply (post_weaken E E N N); [auto|auto| |
    apply (azp_component_post strategy (strat_call expf) strat_val g Hsym E N mp_I (fun _ => mp_I) (fun _ _ _ _ => True) (fun _ _ _ => True))
     with (m := fun _ => 0)]; auto.
  - intros [[l' s'] rg'] _ [Hwf' [Hs' [HI' _]]]. auto.
  - intros _ s1 a r l rg1 H1 H2 H3. eapply (post_weaken E E N N); [auto|auto| |apply mp_call_post; eauto].
    intros [[b s'] rg'] _ H. destruct b; auto.
  - right. intros s1 l1 s2 l2 _ _ [i1 [-> _]] _ _ [i2 [-> _]] Hlt. cbn in Hlt. lra.
Qed.
End WrapComponent.

(** ** the default strategy inside *)
Fixpoint tr (O : objfun) (attr : list (list Q)) (v0 : Q) (s : strategy) (l : list Z) : Prop :=
  match s with
  | SAzp c => tracks O attr c l /\ (c_val c <= v0)%Q
  | SSa _ _ _ _ _ _ => False
  | SMaxP _ _ _ _ inner => tr O attr v0 inner l
  end.

Lemma tr_inside O attr v0 s l : tr O attr v0 s l -> azp_inside s.
Proof. induction s; cbn; auto. Qed.

Lemma tr_call_post expf O attr g v0 N s a r l rg : exact_objective O attr -> length attr = gn g -> wf g l -> legal_move g l a r -> tr O attr v0 s l ->
  post noexn N (strat_call expf s a r l rg) (fun '(b, s', _) => tr O attr v0 s' (if b : bool then upd l a r else l)).
Proof.
  intros Hex Hattr Hwf Hl. revert rg. induction s as [c|c t sa term reached moved|c sp_all sp thr inner IH]; intros rg H; cbn [tr strat_call] in *.
  - destruct H as [Ht Hv].
    pose proof (az_call_post O attr Hex g Hattr v0 N expf (c_val c) (SAzp c) a r l rg Hwf Hl) as Hp. cbn [strat_call] in Hp.
    eapply (post_weaken noexn noexn N N); [auto|auto| |apply Hp].
    + intros [[b s'] rg'] _ Hb. destruct b.
      * destruct Hb as [[[c' [-> [Ht' Hv']]] _] _]. cbn. auto.
      * destruct Hb as [[[c' [-> [Ht' Hv']]] _] _]. cbn. auto.
    + split; [|cbn; lra]. exists c. auto.
  - destruct H.
  - destruct (donor_ok sp thr a l); [|cbn; auto].
    eapply (post_bind noexn N); [apply IH; auto|]. intros [[b s'] rg'] _ Hb. cbn. auto.
Qed.

Lemma tr_start O attr s l idx v : azp_inside s -> o_call O l attr = Ok v ->
  exists s', strat_start O s l attr idx = Ok s' /\ tr O attr v s' l.
Proof.
  intros Hi Ev. induction s as [c| |c sp_all sp thr inner IH]; cbn [azp_inside strat_start] in *.
  - unfold start_common. rewrite Ev. cbn. eexists. split; [reflexivity|]. cbn. split; [|lra]. split; [auto|]. split; [auto|].
    exists v. split; [auto|reflexivity].
  - destruct Hi.
  - destruct (IH Hi) as [s' [Es Hs']]. unfold start_common at 1. rewrite Ev. cbn. rewrite Es. cbn.
    eexists. split; [reflexivity|]. exact Hs'.
Qed.

(** ** totals of a component *)
Lemma total_comp sp g labels a z k : wf g labels -> nth_error labels a = Some z ->
  (total (map (row sp) (comp_nodes g (comp_label g a))) (comp_part g labels (comp_label g a)) z k == total sp labels z k)%Q.
Proof.
  intros [Hlen Hall] Ha. set (c := comp_label g a). set (idx := comp_nodes g c).
  unfold total. rewrite comp_part_length, comp_graph_n. fold idx.
  rewrite <- (sumQ_filter (fun b => Z.eqb (lab labels b) z) (fun b => nth k (nth b sp []) 0%Q) (seq 0 (length labels))).
  transitivity (sumQ (map (fun b => if Z.eqb (lab labels b) z then nth k (nth b sp []) 0%Q else 0%Q) idx)).
  - transitivity (sumQ (map (fun b => if Z.eqb (lab labels b) z then nth k (nth b sp []) 0%Q else 0%Q)
                        (map (fun i => nth i idx 0) (seq 0 (length idx))))); [|rewrite map_nth_seq; reflexivity].
    rewrite map_map. apply sumQ_ext. intros i Hi. apply in_seq in Hi.
    assert (Ei : nth_error idx i = Some (nth i idx 0)) by (apply nth_error_nth'; lia).
    assert (El : lab (comp_part g labels c) i = lab labels (nth i idx 0)).
    { unfold lab at 1. unfold comp_part, gather. fold idx. erewrite nth_error_nth; [|rewrite nth_error_map, Ei; reflexivity]. reflexivity. }
    rewrite El. erewrite (nth_error_nth (map (row sp) idx) i); [|rewrite nth_error_map, Ei; reflexivity]. reflexivity.
  - rewrite <- (sumQ_filter (fun b => Z.eqb (lab labels b) z) (fun b => nth k (nth b sp []) 0%Q) idx).
    apply sumQ_map_perm. apply NoDup_Permutation; [apply NoDup_filter, comp_nodes_NoDup|apply NoDup_filter, seq_NoDup|].
    intros b. rewrite !filter_In, in_seq, Z.eqb_eq. unfold idx. rewrite comp_nodes_In. split.
    + intros [[Hb _] E]. split; [lia|auto].
    + intros [Hb E]. assert (Hbg : b < gn g) by lia. split; [|auto]. split; [auto|].
      apply (wf_region_comp g labels z); auto.
      * apply Hall. eapply nth_error_In; eauto.
      * unfold region. rewrite <- E. apply lab_nth_error. lia.
Qed.

Lemma meets_comp sp thr g labels a z : wf g labels -> nth_error labels a = Some z ->
  (meets (map (row sp) (comp_nodes g (comp_label g a))) thr (comp_part g labels (comp_label g a)) z <-> meets sp thr labels z).
Proof.
  intros Hwf Ha. unfold meets. split; intros H k t Hk; specialize (H k t Hk).
  - rewrite (total_comp sp g labels a z k Hwf Ha) in H. auto.
  - rewrite (total_comp sp g labels a z k Hwf Ha). auto.
Qed.

Section WrapFit.
Variable expf : Q -> Q.
Variable order : list edge -> list edge.
Hypothesis Hord : forall l, Permutation (order l) l.
Variable O : objfun.
Variable g : graph.
Hypothesis Hsym : symmetric g.
Variables attr sp : list (list Q).
Variable thr : list Q.
Hypothesis Hsh : shaped sp thr (gn g).
Hypothesis Hpos : non_negative sp.
Variable E : exn -> Prop.
Variable N : Prop.
Variable JI : strategy -> Prop.
Variable Inner : nat -> list Z -> strategy -> list Z -> Prop.
Hypothesis Hstart : forall c l inner, c < n_components g -> wf (comp_graph g c) l -> JI inner ->
  post E N (let* _ := start_common l (attr_c attr g c) O in strat_start O inner l (attr_c attr g c) (comp_nodes g c))
    (fun i => Inner c l i l).
Hypothesis Hcall : forall c l0 s a r l rg, c < n_components g -> wf (comp_graph g c) l -> legal_move (comp_graph g c) l a r -> Inner c l0 s l ->
  post E N (strat_call expf s a r l rg) (fun '(b, s', _) => Inner c l0 s' (if b : bool then upd l a r else l)).
Hypothesis HJ : forall c l0 s l, Inner c l0 s l -> JI s.

Definition all_meet (labels : list Z) : Prop := forall z, In z labels -> meets sp thr labels z.

Lemma comp_shaped c : shaped (map (row sp) (comp_nodes g c)) thr (gn (comp_graph g c)).
Proof.
  destruct Hsh as [Hl Hx]. split; [rewrite map_length, comp_graph_n; auto|]. intros x H. apply in_map_iff in H.
  destruct H as [a [<- Ha]]. apply Hx. apply nth_In. rewrite Hl. eapply comp_nodes_lt; eauto.
Qed.
Lemma comp_non_negative c : non_negative (map (row sp) (comp_nodes g c)).
Proof.
  intros x q Hx Hq. apply in_map_iff in Hx. destruct Hx as [a [<- Ha]]. apply (Hpos (row sp a)); auto.
  apply nth_In. destruct Hsh as [Hl _]. rewrite Hl. eapply comp_nodes_lt; eauto.
Qed.

Theorem wrapped_fit_post fuel p l c1 sp1 inner r : (N \/ gn g + 1 < fuel) ->
  (0 <= p)%Z -> feasible g l (Z.to_nat p) -> ~ In (-1)%Z l -> all_meet l -> JI inner ->
  post E N (azp_fit expf order O fuel g attr p (Some l) (SMaxP c1 sp sp1 thr inner) r)
    (fun '((labels, s'), _) => feasible g labels (Z.to_nat p) /\ all_meet labels /\
       (exists c2 sp2 inner', s' = SMaxP c2 sp sp2 thr inner' /\ JI inner') /\
       forall c, c < n_components g -> exists s, Inner c (comp_part g l c) s (comp_part g labels c)).
Proof.
  intros Hfuel Hp0 Hfeas Hm1 Hmeet HJI. unfold azp_fit.
  set (J := fun s => exists c2 sp2 inner', s = SMaxP c2 sp sp2 thr inner' /\ JI inner').
  set (R := fun c l l' => wf (comp_graph g c) l' /\ same_labels l' l /\
     ((forall z, In z l -> meets (map (row sp) (comp_nodes g c)) thr l z) ->
      (forall z, In z l' -> meets (map (row sp) (comp_nodes g c)) thr l' z)) /\ exists s, Inner c l s l').
  assert (Hfp : post E N (fit strategy (strat_start O) (fun adj labels _ s r => azp_component strategy (strat_call expf) strat_val adj fuel labels s r)
       order g attr p (Some l) (SMaxP c1 sp sp1 thr inner) r)
    (fun '((labels, s'), _) => J s' /\ exists labels0, started_from g p (Some l) labels0 /\
       length labels = gn g /\
       forall c, c < n_components g -> R c (comp_part g labels0 c) (comp_part g labels c))).
  2: {
    eapply (post_weaken E E N N); [auto|auto| |exact Hfp].
    intros [[labels s'] r'] _ [HJ' [l0 [[_ [_ ->]] [Hlen HR]]]].
    destruct Hfeas as [Hl [Hn Hall]].
    assert (Hmc : forall c, c < n_components g -> forall z, In z (comp_part g l c) -> meets (map (row sp) (comp_nodes g c)) thr (comp_part g l c) z).
    { intros c Hc z Hz. apply comp_part_In in Hz; auto. destruct Hz as [a [Ha [Hca Ez]]]. subst c.
      apply meets_comp; [split; auto|auto|]. apply Hmeet. eapply nth_error_In; eauto. }
    assert (Hparts : forall c, c < n_components g -> wf (comp_graph g c) (comp_part g labels c) /\ same_labels (comp_part g labels c) (comp_part g l c)).
    { intros c Hc. destruct (HR c Hc) as [H1 [H2 _]]. auto. }
    assert (Hwf : wf g labels) by (split; [auto|apply (assembled_wf g l labels (conj Hl Hall) Hlen Hparts)]).
    split; [|split; [|split; [exact HJ'|]]].
    - split; [auto|]. split; [|apply Hwf]. rewrite <- Hn. apply same_labels_n. apply (assembled_same_labels g); auto. split; auto.
    - intros z Hz. apply In_nth_error in Hz. destruct Hz as [a Ha]. assert (Hag : a < gn g) by (apply nth_error_lt in Ha; lia).
      apply (meets_comp sp thr g labels a z Hwf Ha). destruct (HR (comp_label g a) (comp_label_lt g a Hag)) as [_ [_ [H _]]].
      apply H; [apply Hmc, comp_label_lt; auto|]. apply comp_part_In; eauto.
    - intros c Hc. destruct (HR c Hc) as [_ [_ [_ H]]]. exact H. }
  apply (fit_post strategy _ _ order g attr E N J R); auto.
  - intros c lc s rg Hc Hwf [c2 [sp2 [i2 [-> HJi]]]]. unfold run_component. cbn [strat_start]. fold (attr_c attr g c).
    pose proof (Hstart c lc i2 Hc Hwf HJi) as Hs.
    destruct (start_common lc (attr_c attr g c) O) as [cc|e|]; cbn [bind] in *; [|exact Hs|exact Hs].
    destruct (strat_start O i2 lc (attr_c attr g c) (comp_nodes g c)) as [i3|e|]; cbn [bind post] in *; [|exact Hs|exact Hs].
    set (spc := map (row sp) (comp_nodes g c)).
    eapply (post_weaken E E N N); [auto|auto| |
      apply (mp_component_post expf sp spc thr (comp_graph g c) (comp_symmetric g c Hsym) (comp_shaped c) (comp_non_negative c) E N cc (forall z, In z lc -> meets spc thr lc z) (Inner c lc))]; auto.
    + intros [[l' s'] r'] _ [Hwf' [Hs' [i' [-> [Hm' Hi']]]]]. split; [exists cc, spc, i'; split; [auto|eapply HJ; eauto]|].
      split; [destruct Hwf, Hwf'; lia|]. split; [auto|]. split; [auto|]. split; [auto|eauto].
    + eapply comp_part_nonempty; eauto.
    + exists i3. auto.
    + destruct Hfuel as [?|Hfuel]; [auto|right]. pose proof (comp_graph_le g c). lia.
  - split; auto.
  - exists c1, sp1, inner. auto.
Qed.
End WrapFit.
