(** Max-p heuristic: which outcomes of the search phase (AZP under the threshold wrapper) are possible. *)
From Verif Require Import Base Spec M_Graph P_Graph M_Util P_Base P_Util P_Forest P_Init P_Initial
  M_Objective P_Sum P_Objective M_Azp P_Azp P_Strategy P_Fit P_AzpFit M_Sa M_MaxP P_MaxP P_MaxP2 P_MaxP3 P_MaxP4
  Props_Strategy Props_Azp Props_MaxP P_Greedy P_Zoning.

(** AllowMoveAZP in wrappers for the same attributes and threshold *)
Fixpoint wrapped_for (sp : list (list Q)) (thr : list Q) (s : strategy) : Prop :=
  match s with
  | SAzp _ => True
  | SSa _ _ _ _ _ _ => False
  | SMaxP _ sp' _ thr' inner => sp' = sp /\ thr' = thr /\ wrapped_for sp thr inner
  end.

(** ** one component *)
Section KeepComponent.
Variable O : objfun.
Variable attr : list (list Q).
Hypothesis Hex : exact_objective O attr.
Variable g : graph.
Hypothesis Hsym : symmetric g.
Hypothesis Hattr : length attr = gn g.
Variable expf : Q -> Q.
Variables spa sp : list (list Q).
Variable thr : list Q.
Hypothesis Hsh : shaped sp thr (gn g).
Hypothesis Hpos : non_negative sp.

Definition keep_ok (l : list Z) (a : nat) (K : Z) : Prop := az_ok O attr g l a K /\ meets sp thr (upd l a K) (lab l a).
Fixpoint nest (s : strategy) (l : list Z) : Prop :=
  match s with
  | SAzp c => tracks O attr c l
  | SSa _ _ _ _ _ _ => False
  | SMaxP _ spa' sp' thr' inner => spa' = spa /\ sp' = sp /\ thr' = thr /\ nest inner l
  end.
Definition keep_T (s : strategy) (l : list Z) : Prop :=
  (exists c inner, s = SMaxP c spa sp thr inner /\ nest inner l) /\ forall z, In z l -> meets sp thr l z.

Lemma nest_wrapped s l : nest s l -> wrapped_for spa thr s.
Proof. induction s as [c| |c a b t inner IH]; cbn; auto. intros [-> [_ [-> H]]]. auto. Qed.

Lemma nest_call s a K l : wf g l -> legal_move g l a K -> nest s l -> donor_ok sp thr a l = true ->
  exists b s', (forall rg, strat_call expf s a K l rg = Ok (b, s', rg)) /\ (b = true <-> az_ok O attr g l a K) /\
    nest s' (if b then upd l a K else l).
Proof.
  intros Hwf Hl H Hd. induction s as [c| |c spa' sp' thr' inner IH]; cbn [nest] in H.
  - destruct (az_call_exact O attr Hex g Hattr expf (SAzp c) a K l Hwf Hl) as [b [s' [E [Hb [c' [-> Ht]]]]]]; [exists c; auto|].
    exists b, (SAzp c'). auto.
  - destruct H.
  - destruct H as [-> [-> [-> H]]]. destruct (IH H) as [b [s' [E [Hb Hn]]]]. exists b, (SMaxP c spa sp thr s').
    split; [intros rg; cbn [strat_call]; rewrite Hd, E; reflexivity|]. split; [auto|]. cbn [nest]. auto.
Qed.

Lemma keep_ok_legal l a K : keep_ok l a K -> legal_move g l a K.
Proof. intros [[H _] _]. exact H. Qed.

Lemma keep_meets l a K : wf g l -> legal_move g l a K -> (forall z, In z l -> meets sp thr l z) ->
  meets sp thr (upd l a K) (lab l a) -> forall z, In z (upd l a K) -> meets sp thr (upd l a K) z.
Proof.
  intros Hwf Hl Hm Hd z Hz. destruct (Z.eq_dec z (lab l a)) as [->|Hne]; [auto|].
  intros k t Hk. pose proof Hwf as [Hlen _]. assert (Ha : a < length l) by (destruct Hl; lia).
  assert (Hin : In z l).
  { apply In_upd in Hz. destruct Hz as [->|]; [|auto]. eapply legal_mate; eauto. }
  rewrite total_upd by auto. destruct (Z.eqb_spec (lab l a) z); [congruence|].
  specialize (Hm z Hin k t Hk).
  assert (0 <= nth k (nth a sp []) 0)%Q.
  { destruct (nth_in_or_default k (nth a sp []) 0%Q) as [Hi|Hi]; [|rewrite Hi; lra].
    apply (Hpos (nth a sp [])); auto. apply nth_In. destruct Hsh. lia. }
  destruct (Z.eqb K z); lra.
Qed.

Lemma keep_call s a K l : wf g l -> legal_move g l a K -> keep_T s l ->
  exists b s', (forall rg, strat_call expf s a K l rg = Ok (b, s', rg)) /\ (b = true <-> keep_ok l a K) /\
    keep_T s' (if b then upd l a K else l).
Proof.
  intros Hwf Hl [[c [inner [-> Hn]]] Hm]. pose proof Hwf as [Hlen _].
  assert (Ha : a < length l) by (destruct Hl; lia).
  assert (Hsh' : shaped sp thr (length l)) by (rewrite Hlen; auto).
  assert (Hne : lab l a <> K).
  { destruct Hl as [_ [D [HD [Hd _]]]]. apply lab_of_nth_error in HD. congruence. }
  destruct (donor_ok sp thr a l) eqn:Ed.
  - assert (Hdon : meets sp thr (upd l a K) (lab l a)).
    { apply donor_ok_region; auto. apply Hm. apply nth_In; auto. }
    destruct (nest_call inner a K l Hwf Hl Hn Ed) as [b [s' [E [Hb Hn']]]]. exists b, (SMaxP c spa sp thr s').
    split; [intros rg; cbn [strat_call]; rewrite Ed, E; reflexivity|]. split; [rewrite Hb; unfold keep_ok; tauto|].
    split; [eauto|]. destruct b; [|auto]. apply keep_meets; auto.
  - exists false, (SMaxP c spa sp thr inner). split; [intros rg; cbn [strat_call]; rewrite Ed; reflexivity|]. split.
    + split; [discriminate|]. intros [_ H]. rewrite (donor_ok_complete sp thr l a K Hsh' Ha Hne H) in Ed. discriminate.
    + split; eauto.
Qed.

Local Notation pass_sound_k := (pass_sound g Hsym expf keep_ok keep_T keep_ok_legal keep_call).
Local Notation pass_reach_k := (pass_reach g Hsym expf keep_ok keep_T keep_ok_legal keep_call).

Lemma single_rests labels a K : n_labels labels = 1 -> ~ keep_ok labels a K.
Proof. intros Hn [H _]. exact (single_stays O attr g Hattr labels a K Hn H). Qed.

Lemma many_labels labels K0 K1 Ks : uniqueZ labels = K0 :: K1 :: Ks -> 2 <= n_labels labels.
Proof. intros E. rewrite <- uniqueZ_length, E. cbn. lia. Qed.

Theorem keep_sound fuel labels s r labels' s' r' : wf g labels -> keep_T s labels ->
  azp_component strategy (strat_call expf) strat_val g fuel labels s r = Ok (labels', s', r') ->
  wf g labels' /\ keep_T s' labels' /\ same_labels labels' labels /\
  exists Ks, Permutation Ks (uniqueZ labels) /\ zone_round keep_ok Ks labels labels'.
Proof.
  intros Hwf HT H. destruct (uniqueZ labels) as [|K0 [|K1 Ks]] eqn:Eu.
  - unfold azp_component in H. rewrite Eu in H. discriminate.
  - unfold azp_component in H. rewrite Eu in H. injection H as <- <- <-. split; [auto|]. split; [auto|]. split; [apply same_labels_refl|].
    assert (Hn : n_labels labels = 1) by (rewrite <- uniqueZ_length, Eu; reflexivity).
    exists [K0]. split; [auto|]. econstructor; [|constructor]. apply turn_over. intros a. apply single_rests; auto.
  - pose proof HT as [[c [inner [-> _]]] _]. rewrite <- Eu. destruct fuel as [|fuel].
    { unfold azp_component in H. rewrite Eu in H. discriminate. }
    rewrite C38_one_pass_partial in H by (eapply many_labels; eauto).
    destruct (azp_pass _ _ _ _ _ _ _ _ _ _) as [[[[l1 rn1] s1] r1]|e|] eqn:Ep; cbn [bind] in H; try discriminate.
    injection H as <- <- <-.
    destruct (pass_sound_k fuel _ _ _ _ _ _ _ _ _ _ Hwf (init_rn_ok g labels (proj1 Hwf)) (fun K HK => proj1 (uniqueZ_In labels K) HK) HT Ep)
      as [H1 [_ [H3 [H4 H5]]]]. auto.
Qed.

Theorem keep_reach fuel labels s Ks labels' : wf g labels -> labels <> [] -> keep_T s labels -> gn g + 1 < fuel ->
  Permutation Ks (uniqueZ labels) -> zone_round keep_ok Ks labels labels' ->
  exists s', keep_T s' labels' /\ wf g labels' /\ same_labels labels' labels /\
    forall r', exists r, azp_component strategy (strat_call expf) strat_val g fuel labels s r = Ok (labels', s', r').
Proof.
  intros Hwf Hne HT Hf HP Hz. destruct (uniqueZ labels) as [|K0 [|K1 Ks']] eqn:Eu.
  - exfalso. destruct labels as [|x l]; [congruence|]. assert (H : In x (uniqueZ (x :: l))) by (apply uniqueZ_In; left; auto).
    rewrite Eu in H. destruct H.
  - assert (Hn : n_labels labels = 1) by (rewrite <- uniqueZ_length, Eu; reflexivity).
    assert (El : labels' = labels).
    { clear - Hz Hn Hattr Hex Hsym Hsh Hpos. remember labels as l0 eqn:E in Hz. revert E. induction Hz as [l|K Ks l l1 l2 Ht _ IH]; intros E; [auto|].
      subst l. inversion Ht as [|? a ? Hok _]; subst; [apply IH; auto|]. destruct (single_rests labels a K Hn Hok). }
    subst labels'. exists s. split; [auto|]. split; [auto|]. split; [apply same_labels_refl|]. intros r'. exists r'.
    unfold azp_component. rewrite Eu. reflexivity.
  - rewrite <- Eu in HP. pose proof HT as [[c [inner [-> Hn]]] Hm]. destruct fuel as [|fuel]; [lia|].
    destruct (pass_reach_k fuel Ks labels labels' ltac:(lia) Hz (length (uniqueZ labels)) (uniqueZ labels) (init_region_neighbors g labels)
      (SMaxP c spa sp thr inner) HP (le_n _) Hwf (init_rn_ok g labels (proj1 Hwf)) (fun K HK => proj1 (uniqueZ_In labels K) HK) HT)
      as [rn' [s' [H1 [_ [H3 [H4 Hr]]]]]].
    exists s'. split; [auto|]. split; [auto|]. split; [auto|]. intros r'. destruct (Hr r') as [r Er]. exists r.
    rewrite C38_one_pass_partial by (eapply many_labels; eauto). rewrite Er. reflexivity.
Qed.
End KeepComponent.

(** ** one island *)
Section KeepTransfer.
Variable O : objfun.
Variables attr sp : list (list Q).
Variable thr : list Q.
Variable g : graph.
Variable c : nat.
Notation isl := (comp_nodes g c).
Notation G l := (comp_part g l c).
Notation okw := (may_go_keeping O attr g sp thr isl).
Notation okc := (keep_ok O (attr_c attr g c) (comp_graph g c) (map (row sp) isl) thr).

Lemma comp_part_lab l i a : length l = gn g -> nth_error isl i = Some a -> lab (G l) i = lab l a.
Proof.
  intros Hl Hi. apply lab_of_nth_error. unfold comp_part. rewrite (gather_nth _ _ _ i a Hi).
  - apply lab_nth_error. rewrite Hl. eapply comp_nodes_lt, nth_error_In; eauto.
  - rewrite Hl. eapply comp_nodes_lt, nth_error_In; eauto.
Qed.

Lemma keep_comp l i a K : wf g l -> nth_error isl i = Some a -> (okw l a K <-> okc (G l) i K).
Proof.
  intros Hwf Hi. unfold may_go_keeping, keep_ok. rewrite (may_go_comp O attr g c l i a K Hwf Hi).
  rewrite (comp_part_lab l i a (proj1 Hwf) Hi), <- (comp_part_upd g l c i a K (proj1 Hwf) Hi).
  assert (Hiff : legal_move g l a K ->
    (meets sp thr (upd l a K) (lab l a) <-> meets (map (row sp) isl) thr (G (upd l a K)) (lab l a))).
  { intros Hl. destruct (legal_upd g l a K Hwf Hl) as [Hwf' _].
    destruct Hl as [Ha [D [HD [HDK [[[b [Hb Hba]] _] _]]]]].
    assert (ED : lab l a = D) by (apply lab_of_nth_error; auto). rewrite ED.
    assert (Hbu : nth_error (upd l a K) b = Some D) by (rewrite nth_error_upd_ne; auto).
    assert (Hcb : comp_label g b = c).
    { apply nth_error_In, comp_nodes_In in Hi. destruct Hi as [_ <-].
      apply (wf_region_comp g l D); auto; [apply Hwf|]. apply Hwf. eapply nth_error_In; eauto. }
    rewrite <- Hcb. symmetry. apply meets_comp; auto. }
  split; intros [H1 H2]; (split; [auto|]); apply Hiff; auto; destruct H1 as [H1 _]; eapply legal_of_comp; eauto.
Qed.

Lemma keep_in l a K : okw l a K -> In a isl /\ legal_move g l a K.
Proof. intros [[H1 [H2 _]] _]. auto. Qed.
Lemma keepc_legal m i K : okc m i K -> legal_move (comp_graph g c) m i K.
Proof. intros [[H _] _]. exact H. Qed.

Lemma one_round_comp l m' : wf g l ->
  ((exists Ks, Permutation Ks (uniqueZ (G l)) /\ zone_round okc Ks (G l) m') <-> exists l', one_round O attr g sp thr isl l l' /\ G l' = m').
Proof.
  intros Hwf. split.
  - intros [Ks [HP H]]. destruct (round_of_comp g c okw okc keep_in keepc_legal keep_comp Ks l m' Hwf H) as [l' [H1 H2]].
    exists l'. split; [|auto]. exists Ks. split; [apply (Permutation_NoDup (Permutation_sym HP)), uniqueZ_NoDup|]. split; [|auto].
    intros K. transitivity (In K (uniqueZ (G l))); [split; apply Permutation_in; [auto|symmetry; auto]|].
    rewrite uniqueZ_In, comp_part_In by apply Hwf. destruct Hwf as [Hl _]. split; intros [a Ha]; exists a.
    + destruct Ha as [_ [Hc Hr]]. split; [|auto]. apply comp_nodes_In. split; [apply nth_error_lt in Hr; lia|auto].
    + destruct Ha as [Ha Hr]. apply comp_nodes_In in Ha. tauto.
  - intros [l' [[Ks [Hnd [Hreg H]]] <-]]. exists Ks. split; [apply regions_perm; auto; apply Hwf|].
    apply (round_to_comp g c okw okc keep_in keepc_legal keep_comp Ks l l' H Hwf).
Qed.
End KeepTransfer.

(** ** the fit under the wrapper *)
Section KeepFit.
Variable O : objfun.
Variables attr sp : list (list Q).
Variable thr : list Q.
Hypothesis Hex : exact_on O attr.
Variable g : graph.
Hypothesis Hsym : symmetric g.
Hypothesis Hattr : length attr = gn g.
Hypothesis Hsh : shaped sp thr (gn g).
Hypothesis Hpos : non_negative sp.
Variable expf : Q -> Q.

Definition wrapped (s : strategy) : Prop := exists c sp1 inner, s = SMaxP c sp sp1 thr inner /\ wrapped_for sp thr inner.
Definition meets_c (c : nat) (l : list Z) : Prop := forall z, In z l -> meets (map (row sp) (comp_nodes g c)) thr l z.
Definition keep_R (c : nat) (l l' : list Z) : Prop :=
  exists Ks, Permutation Ks (uniqueZ l) /\
    zone_round (keep_ok O (attr_c attr g c) (comp_graph g c) (map (row sp) (comp_nodes g c)) thr) Ks l l'.
Local Notation T c := (keep_T O (attr_c attr g c) sp (map (row sp) (comp_nodes g c)) thr).

Lemma start_nest c l s v : o_call O l (attr_c attr g c) = Ok v -> wrapped_for sp thr s ->
  exists s1, strat_start O s l (attr_c attr g c) (comp_nodes g c) = Ok s1 /\
    nest O (attr_c attr g c) sp (map (row sp) (comp_nodes g c)) thr s1 l.
Proof.
  intros Ev H. induction s as [cc| |cc spa sp1 t inner IH]; cbn [wrapped_for strat_start] in *.
  - unfold start_common. rewrite Ev. cbn [bind]. eexists. split; [reflexivity|]. cbn. split; [auto|]. split; [auto|].
    exists v. split; [auto|reflexivity].
  - destruct H.
  - destruct H as [-> [-> H]]. destruct (IH H) as [s1 [E1 H1]]. unfold start_common at 1. rewrite Ev. cbn [bind]. rewrite E1. cbn [bind].
    eexists. split; [reflexivity|]. cbn. auto.
Qed.

Lemma keep_start c l s : wf (comp_graph g c) l -> meets_c c l -> wrapped s ->
  exists s1, strat_start O s l (attr_c attr g c) (comp_nodes g c) = Ok s1 /\ T c s1 l.
Proof.
  intros Hwf Hm [cc [sp1 [inner [-> Hw]]]]. pose proof (attr_c_exact O attr Hex g Hattr c) as [Hcall _].
  assert (Hll : length l = length (attr_c attr g c)) by (rewrite attr_c_length; apply Hwf).
  destruct (Hcall l Hll) as [v Ev]. destruct (start_nest c l inner v Ev Hw) as [s1 [E1 H1]].
  cbn [strat_start]. unfold start_common. rewrite Ev. cbn [bind]. rewrite E1. cbn [bind].
  eexists. split; [reflexivity|]. split; [eauto|exact Hm].
Qed.

Lemma T_wrapped c s l : T c s l -> wrapped s.
Proof. intros [[cc [inner [-> H]]] _]. exists cc, (map (row sp) (comp_nodes g c)), inner. split; [auto|]. eapply nest_wrapped; eauto. Qed.

Lemma all_meet_c l : wf g l -> all_meet sp thr l -> forall c, meets_c c (comp_part g l c).
Proof.
  intros Hwf Hm c z Hz. pose proof Hwf as [Hl _]. apply comp_part_In in Hz; auto. destruct Hz as [a [Ha [Hca Ez]]]. subst c.
  apply meets_comp; auto. apply Hm. eapply nth_error_In; eauto.
Qed.

Theorem keep_fit_sound order fuel p l0 s r : (forall l, Permutation (order l) l) ->
  feasible g l0 (Z.to_nat p) -> (0 <= p)%Z -> ~ In (-1)%Z l0 -> all_meet sp thr l0 -> wrapped s ->
  post anyexn True (azp_fit expf order O fuel g attr p (Some l0) s r)
    (fun '((labels, s'), _) => wrapped s' /\ length labels = gn g /\
       forall c, c < n_components g -> keep_R c (comp_part g l0 c) (comp_part g labels c)).
Proof.
  intros Hord Hf Hp Hm1 Hm Hs. unfold azp_fit.
  eapply (post_weaken anyexn anyexn True True); [auto|auto| |
    apply (fit_post_from strategy _ _ order g attr anyexn True (fun _ => wrapped) keep_R meets_c)]; auto.
  - intros [[labels s'] r'] _ [H1 [l [[_ [_ ->]] [H2 H3]]]]. auto.
  - intros c l s1 rg j Hc _ Hwf Hmc Hw. unfold run_component. fold (attr_c attr g c).
    destruct (keep_start c l s1 Hwf Hmc Hw) as [s2 [-> HT]]. cbn [bind].
    destruct (azp_component _ _ _ _ _ _ _ _) as [[[l' s3] r2]|e|] eqn:E; cbn [post]; [|exact I|exact I].
    apply (keep_sound O (attr_c attr g c) (attr_c_exact O attr Hex g Hattr c) (comp_graph g c) (comp_symmetric g c Hsym)
      (attr_c_length attr g c) expf sp _ thr (comp_shaped g sp thr Hsh c) (comp_non_negative g sp thr Hsh Hpos c)) in E; auto.
    destruct E as [H1 [H2 [H3 H4]]]. split; [eapply T_wrapped; eauto|]. split; [destruct H1, Hwf; lia|exact H4].
  - split; auto.
  - intros c _. apply all_meet_c; auto. destruct Hf as [H1 [_ H2]]. split; auto.
Qed.

Theorem keep_fit_reach order fuel p l0 target s : gn g + 1 < fuel ->
  feasible g l0 (Z.to_nat p) -> (0 <= p)%Z -> ~ In (-1)%Z l0 -> all_meet sp thr l0 -> length target = gn g ->
  (forall c, c < n_components g -> keep_R c (comp_part g l0 c) (comp_part g target c)) -> wrapped s ->
  exists s', wrapped s' /\ forall r', exists r, azp_fit expf order O fuel g attr p (Some l0) s r = Ok ((target, s'), r').
Proof.
  intros Hf Hfeas Hp Hm1 Hm Ht HR Hs. unfold azp_fit.
  destruct (fit_reach strategy (strat_start O)
     (fun adj labels _ s r => azp_component strategy (strat_call expf) strat_val adj fuel labels s r) g attr wrapped
     (fun c l l' => meets_c c l /\ keep_R c l l'))
    with (order := order) (n_regions := p) (labels0 := l0) (target := target) (s := s) as [s' [Hw H]]; eauto.
  - intros c l s1 l' Hc Hwf Hw [Hmc [Ks [HP HRc]]]. destruct (keep_start c l s1 Hwf Hmc Hw) as [s2 [Es HT]].
    destruct (keep_reach O (attr_c attr g c) (attr_c_exact O attr Hex g Hattr c) (comp_graph g c) (comp_symmetric g c Hsym)
      (attr_c_length attr g c) expf sp _ thr (comp_shaped g sp thr Hsh c) (comp_non_negative g sp thr Hsh Hpos c)
      fuel l s2 Ks l' Hwf (comp_part_nonempty g c l Hc Hwf) HT) as [s3 [HT3 [_ [_ Hr]]]]; auto.
    { pose proof (comp_graph_le g c). lia. }
    exists s3. split; [eapply T_wrapped; eauto|]. intros r'. destruct (Hr r') as [r Er]. exists r. unfold run_component. fold (attr_c attr g c).
    rewrite Es. cbn [bind]. exact Er.
  - intros c Hc. split; [|auto]. apply all_meet_c; auto. destruct Hfeas as [H1 [_ H2]]. split; auto.
Qed.

(** the parts of a result as rounds on the islands *)
Lemma parts_round l0 labels : wf g l0 -> length labels = gn g ->
  ((forall c, c < n_components g -> keep_R c (comp_part g l0 c) (comp_part g labels c)) <->
   forall v isl, v < gn g -> island g v isl ->
     exists l', one_round O attr g sp thr isl l0 l' /\ forall a, In a isl -> lab labels a = lab l' a).
Proof.
  intros Hwf Hl. split.
  - intros H v isl Hv Hisl. rewrite (island_comp_nodes g v isl Hv Hisl).
    pose proof (H (comp_label g v) (comp_label_lt g v Hv)) as Hz. unfold keep_R in Hz. apply one_round_comp in Hz; auto.
    destruct Hz as [l' [Hz E]]. exists l'. split; [auto|]. intros a Ha. destruct (In_nth_error _ _ Ha) as [i Hi].
    assert (E' : nth_error (labels_at l' (comp_nodes g (comp_label g v))) i = nth_error (labels_at labels (comp_nodes g (comp_label g v))) i)
      by (f_equal; exact E).
    unfold labels_at in E'. rewrite !nth_error_map, Hi in E'. cbn in E'. congruence.
  - intros H c Hc. destruct (comp_label_onto g c Hc) as [v [Hv Ev]].
    destruct (H v (comp_nodes g c) Hv) as [l' [Hz Hag]]; [rewrite <- Ev; apply comp_nodes_island; auto|].
    unfold keep_R. apply one_round_comp; auto. exists l'. split; [auto|].
    change (labels_at l' (comp_nodes g c) = labels_at labels (comp_nodes g c)). unfold labels_at.
    apply map_ext_in. intros a Ha. symmetry. auto.
Qed.
End KeepFit.
