(** Properties C102 and C103: the possible random starts, and the possible results of AZP.fit from a random start. *)
From Verif Require Import Base Spec M_Graph P_Graph M_Util P_Base P_Util P_Forest P_Init P_Initial P_Skater
  M_Objective P_Sum P_Objective M_Azp P_Azp P_Strategy P_Fit P_AzpFit Examples Props_Objective Props_Azp
  M_Sa P_Sa M_Tabu P_Tabu P_TabuFit P_Reactive Props_Tabu P_Descent Props_Descent P_Zoning P_Names Props_Mean Props_Zoning P_Starts.

(** ** C102 *)
(** Every distribution of the regions among the components is possible. *)
Theorem C102_distributions : forall labels c n d,
  (forall k, In k labels <-> k < c) -> 0 < c -> c <= n -> n <= length labels ->
  ((exists r r', distribute_regions_among_components labels n r = Ok (d, r')) <->
   map fst d = seq 0 c /\ list_sum (map snd d) = n /\
   (forall comp k, In (comp, k) d -> 1 <= k <= count_occ Nat.eq_dec labels comp)).
Proof.
  intros labels c n d Hn Hc Hcn Hnl. split.
  - intros [r [r' H]]. destruct (distribute_spec labels c n r Hn Hc Hcn Hnl) as [d' [r1 [E Hd]]].
    rewrite E in H. injection H as <- _. exact Hd.
  - intros [Hk [Hs Hb]]. destruct (list_as_fun d c Hk) as [h ->]. rewrite map_map in Hs. cbn [snd] in Hs.
    destruct (distribute_reach labels c n h (fun _ => 0) Hn Hc) as [r E]; [|exact Hs|eauto].
    intros k Hkc. apply Hb. apply in_map_iff. exists k. rewrite in_seq. split; [auto|lia].
Qed.

(** One spanning forest decides: the possible starts are what remains when links of it are cut. *)
Theorem C102_random_starts : forall order g, (forall l, Permutation (order l) l) ->
  exists T, spans g T /\ forall p labels, valid_request g p None ->
    ((exists arrs r r', initial_solutions order g p r = Ok (map YArr arrs, r') /\ overlays (gn g) arrs labels) <->
     tree_start g T (Z.to_nat p) labels).
Proof.
  intros order g Hord. exists (forest_of order g). split; [apply forest_spans; auto|].
  intros p labels [Hp1 [Hg [c [Hc Hp]]]]. apply n_islands_iff in Hc. subst c. apply initial_solutions_starts; auto.
Qed.

(** Cutting any links of any spanning forest gives a feasible clustering. *)
Theorem C102_starts_feasible : forall g T p labels, spans g T -> tree_start g T p labels ->
  feasible g labels p /\ labels_exactly labels p.
Proof. intros g T p labels HT H. eapply tree_start_feasible; eauto. Qed.

(** Not every feasible clustering can be the start: whatever forest is used, one of two clusterings of a
    circle of four areas never comes up. *)
Theorem C102_not_every_start : forall T, spans circle4 T ->
  exists labels, feasible circle4 labels 2 /\ labels_exactly labels 2 /\ ~ tree_start circle4 T 2 labels.
Proof.
  intros T [HF [Hadj _]]. apply forest_is_forest in HF. pose proof HF as HF'. apply forest_is_forest in HF'.
  assert (Hedec : forall e, In e T \/ ~ In e T).
  { intros e. destruct (existsb (edge_eqb e) T) eqn:E; [left; apply existsb_edge; auto|right; rewrite <- existsb_edge; congruence]. }
  set (has := fun a b => In (a, b) T \/ In (b, a) T).
  assert (Hdec : forall a b, has a b \/ ~ has a b).
  { intros a b. unfold has. destruct (Hedec (a, b)), (Hedec (b, a)); tauto. }
  assert (Hmiss : ~ (has 0 1 /\ has 1 2 /\ has 2 3 /\ has 3 0)).
  { intros [H0 [H1 [H2 H3]]].
    assert (Hno : forall e, In e T -> (e = (3, 0) \/ e = (0, 3)) -> False).
    { intros e He Ee. destruct HF' as [_ [_ Hcut]]. apply (Hcut e He).
      assert (Hst : forall a b, has a b -> (a, b) <> e -> (b, a) <> e -> touch (links 4 (without e T)) a b).
      { intros a b Hab N1 N2. rewrite links_edges, without_remove. apply edges_touch. rewrite !remove_edge_In. destruct Hab; auto. }
      assert (Hpath : same_island (links 4 (without e T)) 0 3).
      { eapply linked_step with (v := 1); [unfold areas; cbn; lia|apply Hst; auto; destruct Ee; subst; discriminate|].
        eapply linked_step with (v := 2); [unfold areas; cbn; lia|apply Hst; auto; destruct Ee; subst; discriminate|].
        eapply linked_step with (v := 3); [unfold areas; cbn; lia|apply Hst; auto; destruct Ee; subst; discriminate|].
        apply linked_refl. unfold areas; cbn; lia. }
      destruct Ee; subst; cbn [fst snd]; [apply same_island_sym|]; exact Hpath. }
    destruct H3 as [H3|H3]; eapply Hno; eauto. }
  assert (Hfree : forall labels a b, length labels = 4 -> a < 4 -> b < 4 -> a <> b -> lab labels a = lab labels b -> ~ has a b ->
    (forall x, x < 4 -> lab labels x = lab labels a -> x = a \/ x = b) -> ~ tree_start circle4 T 2 labels).
  { intros labels a b Hl Ha Hb Hab Hlab Hno Honly [K [_ [Hi [_ [_ [_ [HS _]]]]]]]. cbn [gn circle4] in HS.
    assert (Hs : same_island (links 4 K) a b) by (apply HS; auto). inversion Hs as [|? x ? _ Hax Hxb]; subst; [auto|].
    assert (Hx : x < 4) by (apply linked_in_l in Hxb; exact Hxb).
    assert (Hxa : lab labels x = lab labels a).
    { symmetry. apply HS; auto. eapply linked_step; [exact Ha|exact Hax|apply linked_refl; exact Hx]. }
    rewrite links_edges in Hax. apply edges_touch in Hax. destruct (Honly x Hx Hxa) as [-> | ->].
    - assert (Hself : gadj circle4 a a = true) by (destruct Hax as [H|H]; apply Hi, Hadj in H; exact H).
      clear - Ha Hself. do 4 (destruct a as [|a]; [vm_compute in Hself; discriminate|]). lia.
    - apply Hno. unfold has. destruct Hax as [H|H]; apply Hi in H; auto. }
  assert (F : forall labels, In labels [[0;0;1;1]; [0;1;1;0]]%Z -> feasible circle4 labels 2 /\ labels_exactly labels 2).
  { intros labels [<-|[<-|[]]]; (split; [split; [reflexivity|]; split; [reflexivity|]; apply check_regions_all; vm_compute; reflexivity|]);
      intros z; cbn [In]; lia. }
  destruct (Hdec 0 1) as [H0|H0]; [destruct (Hdec 1 2) as [H1|H1]; [destruct (Hdec 2 3) as [H2|H2]; [destruct (Hdec 3 0) as [H3|H3]|]|]|].
  - tauto.
  - exists [0;1;1;0]%Z. destruct (F [0;1;1;0]%Z ltac:(cbn; auto)) as [F1 F2]. split; [auto|]. split; [auto|]. apply (Hfree _ 3 0); auto.
    intros x Hx. do 4 (destruct x as [|x]; [cbn; auto; try discriminate|]). lia.
  - exists [0;0;1;1]%Z. destruct (F [0;0;1;1]%Z ltac:(cbn; auto)) as [F1 F2]. split; [auto|]. split; [auto|]. apply (Hfree _ 2 3); auto.
    intros x Hx. do 4 (destruct x as [|x]; [cbn; auto; try discriminate|]). lia.
  - exists [0;1;1;0]%Z. destruct (F [0;1;1;0]%Z ltac:(cbn; auto)) as [F1 F2]. split; [auto|]. split; [auto|]. apply (Hfree _ 1 2); auto.
    intros x Hx. do 4 (destruct x as [|x]; [cbn; auto; try discriminate|]). lia.
  - exists [0;0;1;1]%Z. destruct (F [0;0;1;1]%Z ltac:(cbn; auto)) as [F1 F2]. split; [auto|]. split; [auto|]. apply (Hfree _ 0 1); auto.
    intros x Hx. do 4 (destruct x as [|x]; [cbn; auto; try discriminate|]). lia.
Qed.

(** If the neighbour relation itself has no cycles, every feasible clustering is possible, with the regions
    numbered by their first areas. *)
Definition numbered_by_first (g : graph) (labels : list Z) : Prop :=
  forall u v iu iv pu pv, first_in g u iu -> first_in g v iv ->
    region labels (lab labels u) pu -> (forall b, region labels (lab labels u) b -> pu <= b) ->
    region labels (lab labels v) pv -> (forall b, region labels (lab labels v) b -> pv <= b) ->
    ((lab labels u < lab labels v)%Z <-> iu < iv \/ (iu = iv /\ pu < pv)).
Definition acyclic (g : graph) : Prop :=
  exists es, is_forest (gn g) es /\ forall u v, u < gn g -> v < gn g -> (touch g u v <-> In (u, v) es \/ In (v, u) es).

Theorem C102_tree_every_start : forall g T p labels, acyclic g -> spans g T ->
  feasible g labels p -> labels_exactly labels p -> numbered_by_first g labels -> tree_start g T p labels.
Proof.
  intros g T p labels [es [Hes Htouch]] [HF [Hadj Hisl]] [Hlen [Hn Hall]] Hex Hord.
  assert (Hr : forall e, In e T -> fst e < gn g /\ snd e < gn g) by (apply HF).
  assert (HinT : forall u v, u < gn g -> v < gn g -> touch g u v -> In (u, v) T \/ In (v, u) T).
  { intros u v Hu Hv Huv.
    destruct (existsb (edge_eqb (u, v)) T) eqn:E1; [left; apply existsb_edge; auto|].
    destruct (existsb (edge_eqb (v, u)) T) eqn:E2; [right; apply existsb_edge; auto|].
    exfalso. assert (N1 : ~ In (u, v) T) by (rewrite <- existsb_edge; congruence).
    assert (N2 : ~ In (v, u) T) by (rewrite <- existsb_edge; congruence).
    assert (Hpath : same_island (links (gn g) T) u v).
    { apply Hisl. eapply linked_step; [exact Hu|exact Huv|]. apply linked_refl. exact Hv. }
    assert (Hcut : forall e, e = (u, v) \/ e = (v, u) -> same_island (links (gn g) (without e es)) u v).
    { intros e Ee. revert Hpath. apply same_island_touch_ext; [auto|]. intros x y. rewrite !links_edges, without_remove, !edges_touch, !remove_edge_In.
      intros Hxy. assert (Hxyg : x < gn g /\ y < gn g) by (destruct Hxy as [H|H]; apply Hr in H; cbn in H; tauto).
      assert (Ht : touch g x y) by (destruct Hxy as [H|H]; apply Hadj in H; [left|right]; exact H).
      apply Htouch in Ht; [|tauto|tauto].
      assert (N3 : (x, y) <> (u, v)) by (intros Exy; injection Exy as -> ->; destruct Hxy; auto).
      assert (N4 : (x, y) <> (v, u)) by (intros Exy; injection Exy as -> ->; destruct Hxy; auto).
      assert (N5 : (y, x) <> (u, v)) by (intros Exy; injection Exy as -> ->; destruct Hxy; auto).
      assert (N6 : (y, x) <> (v, u)) by (intros Exy; injection Exy as -> ->; destruct Hxy; auto).
      destruct Ee; subst e; destruct Ht as [Ht|Ht]; [left|right|left|right]; split; auto. }
    apply Htouch in Huv; auto. destruct Hes as [_ [_ Hno]]. destruct Huv as [He|He].
    - apply (Hno _ He). cbn [fst snd]. apply Hcut. auto.
    - apply (Hno _ He). cbn [fst snd]. apply same_island_sym. apply Hcut. auto. }
  set (K := filter (fun e => Z.eqb (lab labels (fst e)) (lab labels (snd e))) T).
  assert (HKi : incl K T) by (intros e He; apply filter_In in He; tauto).
  assert (Hsame : forall u v, u < gn g -> v < gn g -> (lab labels u = lab labels v <-> same_island (links (gn g) K) u v)).
  { intros u v Hu Hv. split.
    - intros E. destruct (Hall (lab labels u)) as [_ Hcon]; [apply lab_in; lia|].
      assert (Hlk : linked g (region labels (lab labels u)) u v).
      { apply Hcon; unfold region; rewrite lab_nth_error by lia; congruence. }
      clear E Hcon. revert Hlk. generalize (lab labels u) as z. intros z Hlk. induction Hlk as [u Hzu|u x w Hzu Hux Hxw IH]; [apply linked_refl; exact Hu|].
      assert (Hzx : region labels z x) by (apply linked_in_l in Hxw; exact Hxw).
      assert (Hx : x < gn g) by (apply nth_error_lt in Hzx; lia).
      eapply linked_step with (v := x); [exact Hu| |apply IH; auto].
      rewrite links_edges. apply edges_touch. unfold K. rewrite !filter_In. cbn [fst snd].
      rewrite (lab_of_nth_error _ _ _ Hzu), (lab_of_nth_error _ _ _ Hzx), Z.eqb_refl.
      destruct (HinT u x Hu Hx Hux); auto.
    - intros H. unfold same_island in H. induction H as [u _|u x w Hu' Hux Hxw IH]; [auto|].
      assert (Hx : x < gn g) by (apply linked_in_l in Hxw; exact Hxw). rewrite <- IH by auto.
      rewrite links_edges in Hux. apply edges_touch in Hux. unfold K in Hux. rewrite !filter_In in Hux. cbn [fst snd] in Hux.
      destruct Hux as [[_ H]|[_ H]]; apply Z.eqb_eq in H; auto. }
  apply forest_is_forest in HF. pose proof (forest_filter (gn g) (fun e => Z.eqb (lab labels (fst e)) (lab labels (snd e))) T HF) as HKf.
  fold K in HKf. exists K. split; [apply HKf|]. split; [auto|]. split.
  - destruct HKf as [_ [_ Hc]]. assert (Hpc : n_components (edges_graph (gn g) K) = p); [|lia].
    (* one representative per label *)
    assert (Hreps : exists R, map (fun a => lab labels a) R = map Z.of_nat (seq 0 p) /\ forall a, In a R -> a < gn g).
    { assert (Hm : forall m, m <= p -> exists R, map (fun a => lab labels a) R = map Z.of_nat (seq 0 m) /\ forall a, In a R -> a < gn g).
      { induction m as [|m IH]; intros Hm; [exists []; split; [reflexivity|intros a []]|].
        destruct (IH ltac:(lia)) as [R [E HR]]. assert (Hin : In (Z.of_nat m) labels) by (apply Hex; lia).
        apply In_nth_error in Hin. destruct Hin as [a Ha]. exists (R ++ [a]). split.
        - rewrite seq_S, !map_app, E. cbn. rewrite (lab_of_nth_error _ _ _ Ha). reflexivity.
        - intros b Hb. apply in_app_iff in Hb. destruct Hb as [Hb|[<-|[]]]; [auto|]. apply nth_error_lt in Ha. lia. }
      apply (Hm p); auto. }
    destruct Hreps as [R [E HR]]. assert (ER : length R = p).
    { apply (f_equal (@length Z)) in E. rewrite !map_length, seq_length in E. exact E. }
    rewrite <- ER. symmetry. apply reps_count.
    assert (HndR : NoDup (map (fun a => lab labels a) R)) by (rewrite E; apply NoDup_map_inj; [intros; lia|apply seq_NoDup]).
    split; [eapply NoDup_map_inv; eauto|]. split; [auto|]. split.
    + intros u v Hu Hv H. apply Hsame in H; auto. clear - Hu Hv H HndR. induction R as [|x R IH]; [destruct Hu|].
      cbn in HndR. inversion HndR as [|? ? Hni Hnd']; subst.
      destruct Hu as [->|Hu], Hv as [->|Hv]; auto.
      * exfalso. apply Hni. rewrite H. apply in_map_iff. eauto.
      * exfalso. apply Hni. rewrite <- H. apply in_map_iff. eauto.
    + intros v Hv. cbn in Hv. assert (Hin : In (lab labels v) (map (fun a => lab labels a) R)).
      { rewrite E. apply in_map_iff. assert (Hb : (0 <= lab labels v < Z.of_nat p)%Z) by (apply Hex, lab_in; lia).
        exists (Z.to_nat (lab labels v)). rewrite in_seq. lia. }
      apply in_map_iff in Hin. destruct Hin as [u [Eu Hu]]. exists u. split; [auto|]. apply Hsame; auto.
  - split; [auto|]. split; [auto|]. split; [auto|].
    intros u v iu iv pu pv Hiu Hiv Hpu Hpv.
    assert (Hu : u < gn g) by (destruct Hiu as [H _]; apply same_island_lt in H; tauto).
    assert (Hv : v < gn g) by (destruct Hiv as [H _]; apply same_island_lt in H; tauto).
    assert (Hf : forall w pw, w < gn g -> first_in (links (gn g) K) w pw ->
      region labels (lab labels w) pw /\ forall b, region labels (lab labels w) b -> pw <= b).
    { intros w pw Hw [H1 H2]. assert (Hpw : pw < gn g) by (apply same_island_lt in H1; tauto). split.
      - unfold region. rewrite lab_nth_error by lia. f_equal. symmetry. apply Hsame; auto.
      - intros b Hb. apply H2. apply Hsame; auto; [apply nth_error_lt in Hb; lia|]. rewrite (lab_of_nth_error _ _ _ Hb). auto. }
    destruct (Hf u pu Hu Hpu) as [A1 A2]. destruct (Hf v pv Hv Hpv) as [B1 B2]. apply Hord; auto.
Qed.

(** ** C103 *)
Theorem C103_azp_from_random_start : forall expf order O g attr,
  (forall l, Permutation (order l) l) -> symmetric g -> length attr = gn g -> exact_on O attr ->
  exists T, spans g T /\ forall fuel p c0 labels, valid_request g p None -> gn g ^ gn g + gn g + 1 < fuel ->
    ((exists r s' r', azp_fit expf order O fuel g attr p None (SAzp c0) r = Ok ((labels, s'), r')) <->
     exists labels0, tree_start g T (Z.to_nat p) labels0 /\ length labels = gn g /\
       forall v isl, v < gn g -> island g v isl ->
         exists l', zoning O attr g isl labels0 l' /\ forall a, In a isl -> lab labels a = lab l' a).
Proof.
  intros expf order O g attr Hord Hsym Hattr Hex. exists (forest_of order g). pose proof (forest_spans order g Hord) as HT.
  split; [auto|]. intros fuel p c0 labels [Hp1 [Hg [k [Hk Hp]]]] Hf. apply n_islands_iff in Hk. subst k.
  assert (Hwf : forall l0, tree_start g (forest_of order g) (Z.to_nat p) l0 -> wf g l0).
  { intros l0 H. destruct (C102_starts_feasible g _ _ _ HT H) as [[H1 [_ H3]] _]. split; auto. }
  split.
  - intros [r [s' [r' H]]]. unfold azp_fit in H.
    apply (fit_start_sound order g Hord strategy _ _ attr (fun s => exists c, s = SAzp c) (zone_R O attr g) p Hp1 Hg Hp) in H; eauto.
    + destruct H as [l0 [Hs [Hl HR]]]. exists l0. split; [auto|]. split; [auto|].
      apply (parts_zoning O attr g l0 labels (Hwf l0 Hs) Hl). exact HR.
    + intros c l s rg l' s2 r2 Hc Hwfl [cc ->] E. unfold run_component in E. fold (attr_c attr g c) in E.
      destruct (start_T O attr Hex g Hattr c l cc Hwfl) as [s1 [Es HT1]]. rewrite Es in E. cbn [bind] in E.
      apply (component_sound O (attr_c attr g c) (attr_c_exact O attr Hex g Hattr c) (comp_graph g c) (comp_symmetric g c Hsym)
        (attr_c_length attr g c)) in E; auto.
      destruct E as [H1 [[c' [-> _]] [H3 H4]]]. split; [eauto|]. split; [|exact H4].
      destruct H1 as [H1 _]. rewrite comp_graph_n in H1. exact H1.
  - intros [l0 [Hs [Hl Hz]]]. pose proof (proj2 (parts_zoning O attr g l0 labels (Hwf l0 Hs) Hl) Hz) as HR. unfold azp_fit.
    destruct (fit_start_reach order g Hord strategy (strat_start O)
      (fun adj labels _ s r => azp_component strategy (strat_call expf) strat_val adj fuel labels s r)
      attr (fun s => exists c, s = SAzp c) (zone_R O attr g) p Hp1 Hg Hp (SAzp c0) l0 labels) as [s' [_ H]]; eauto.
    + intros c l s l' Hc Hwfl [cc ->] HRc. destruct (start_T O attr Hex g Hattr c l cc Hwfl) as [s1 [Es HT1]].
      destruct (component_reach O (attr_c attr g c) (attr_c_exact O attr Hex g Hattr c) (comp_graph g c) (comp_symmetric g c Hsym)
          (attr_c_length attr g c) expf fuel l s1 l' Hwfl (comp_part_nonempty g c l Hc Hwfl) HT1 (fuel_comp attr g Hattr c fuel Hf) HRc)
        as [s2 [[c2 [-> _]] [_ [_ Hr]]]].
      exists (SAzp c2). split; [eauto|]. intros r'. destruct (Hr r') as [r Er]. exists r. unfold run_component. fold (attr_c attr g c).
      rewrite Es. cbn [bind]. exact Er.
    + destruct (H (fun _ => 0)) as [r Er]. eauto.
Qed.

(** ** Examples *)
Lemma path3_acyclic : acyclic (path_graph 3).
Proof.
  exists [(0, 1); (1, 2)]. split.
  - apply forest_is_forest. split; [repeat constructor; cbn; intuition congruence|]. split; [|vm_compute; reflexivity].
    intros e [<-|[<-|[]]]; cbn; lia.
  - intros u v Hu Hv. cbn in Hu, Hv. unfold touch. do 3 (destruct u as [|u]; [do 3 (destruct v as [|v]; [vm_compute; intuition congruence|]); lia|]). lia.
Qed.

(** A path of three areas in two regions: exactly the two cuts come up. *)
Example C102_example : valid_request (path_graph 3) 2 None /\ forall labels,
  ((exists arrs r r', initial_solutions same_order (path_graph 3) 2 r = Ok (map YArr arrs, r') /\ overlays 3 arrs labels) <->
   labels = [0;0;1]%Z \/ labels = [0;1;1]%Z).
Proof.
  assert (Hv : valid_request (path_graph 3) 2 None).
  { split; [lia|]. split; [cbn; lia|]. exists 1. split; [apply n_islands_iff; vm_compute; reflexivity|cbn; lia]. }
  split; [auto|]. intros labels.
  destruct (C102_random_starts same_order (path_graph 3) same_order_perm) as [T [HT H]].
  rewrite (H 2%Z labels Hv). split.
  - intros Hs. destruct (C102_starts_feasible _ _ _ _ HT Hs) as [[Hl [_ Hall]] Hex].
    change (length labels = 3) in Hl.
    assert (Hz : forall z, In z labels -> z = 0%Z \/ z = 1%Z) by (intros z Hin; apply Hex in Hin; cbn in Hin; lia).
    destruct Hs as [K [_ [_ [_ [_ [_ [HS HO]]]]]]].
    destruct labels as [|x [|y [|w [|]]]]; try discriminate.
    assert (H0 : forall K', first_in (links 3 K') 0 0).
    { intros K'. split; [apply linked_refl; unfold areas; cbn; lia|]. intros; lia. }
    assert (Hi0 : forall u, u < 3 -> first_in (path_graph 3) u 0).
    { intros u Hu. split; [|intros; lia]. apply comp_label_eq; [exact Hu|cbn; lia|].
      do 3 (destruct u as [|u]; [vm_compute; reflexivity|]). lia. }
    assert (Hx : x = 0%Z).
    { destruct (Hz x ltac:(cbn; auto)) as [Ex|Ex]; [auto|]. exfalso.
      assert (Hin : In 0%Z [x; y; w]) by (apply Hex; lia). assert (Hu : exists u, u < 3 /\ lab [x; y; w] u = 0%Z).
      { destruct Hin as [E|[E|[E|[]]]]; [exists 0|exists 1|exists 2]; cbn; split; auto. }
      destruct Hu as [u [Hu E]]. destruct (first_exists (links 3 K) u Hu) as [pu Hpu].
      pose proof (HO u 0 0 0 pu 0 (Hi0 u Hu) (Hi0 0 ltac:(lia)) Hpu (H0 K)) as Ho.
      rewrite E in Ho. change (lab [x; y; w] 0) with x in Ho. rewrite Ex in Ho. destruct Ho as [Ho _]. specialize (Ho ltac:(lia)). lia. }
    subst x. destruct (Hz y ltac:(cbn; auto)) as [-> | ->], (Hz w ltac:(cbn; auto)) as [-> | ->]; auto; exfalso.
    + assert (Hin : In 1%Z [0; 0; 0]%Z) by (apply Hex; lia). cbn in Hin. lia.
    + assert (Hc : all_contiguous (path_graph 3) [0; 1; 0]%Z) by exact Hall.
      destruct (Hc 0%Z ltac:(cbn; auto)) as [_ Hc0]. specialize (Hc0 0 2 eq_refl eq_refl).
      inversion Hc0 as [|? v ? _ Hstep Hrest]; subst. apply linked_in_l in Hrest.
      destruct v as [|[|[|v]]]; [|discriminate| |].
      * destruct Hstep as [Hs|Hs]; vm_compute in Hs; discriminate.
      * destruct Hstep as [Hs|Hs]; vm_compute in Hs; discriminate.
      * destruct v; discriminate.
  - intros Hl. assert (Hf : feasible (path_graph 3) labels 2 /\ labels_exactly labels 2).
    { destruct Hl as [-> | ->]; (split; [split; [reflexivity|]; split; [reflexivity|]; apply check_regions_all; vm_compute; reflexivity|]);
        intros z; cbn [In]; lia. }
    apply C102_tree_every_start; auto; [apply path3_acyclic|apply Hf|apply Hf|].
    intros u v iu iv pu pv Hiu Hiv Hpu Mu Hpv Mv.
    assert (Hi0 : forall u i, first_in (path_graph 3) u i -> u < 3 /\ i = 0).
    { intros x i [H1 H2]. assert (Hx : x < 3) by (apply same_island_lt in H1; cbn in H1; tauto). split; [auto|].
      assert (i <= 0); [|lia]. apply H2. apply comp_label_eq; [exact Hx|cbn; lia|]. do 3 (destruct x as [|x]; [vm_compute; reflexivity|]). lia. }
    destruct (Hi0 u iu Hiu) as [Hu ->]. destruct (Hi0 v iv Hiv) as [Hv' ->].
    assert (Hmin : forall x px, x < 3 -> region labels (lab labels x) px -> (forall b, region labels (lab labels x) b -> px <= b) ->
      Z.of_nat px = (lab labels x * (if Z.eqb (nth 1 labels 0%Z) 0 then 2 else 1))%Z).
    { intros x px Hx Hr Hm. assert (Hpx : px < 3) by (apply nth_error_lt in Hr; destruct Hl; subst labels; exact Hr). unfold region in *. 
      destruct Hl as [-> | ->]; do 3 (destruct x as [|x]; [do 3 (destruct px as [|px]; [cbn in *; first [discriminate Hr|reflexivity|
         (specialize (Hm 0 eq_refl); lia)|(specialize (Hm 1 eq_refl); lia)]|]); lia|]); lia. }
    pose proof (Hmin u pu Hu Hpu Mu) as Eu. pose proof (Hmin v pv Hv' Hpv Mv) as Ev.
    destruct (Z.eqb (nth 1 labels 0%Z) 0); lia.
Qed.

(** On two islands the regions of the first island get the first numbers. *)
Example C102_islands : valid_request two_islands 3 None /\
  forall T, spans two_islands T -> ~ tree_start two_islands T 3 [1;1;1;0;2]%Z /\
  (exists r r', initial_solutions same_order two_islands 3 r = Ok ([YArr [0;0;0;-1;-1]; YArr [-1;-1;-1;1;2]]%Z, r')) /\
  (exists r r', initial_solutions same_order two_islands 3 r = Ok ([YArr [0;1;1;-1;-1]; YArr [-1;-1;-1;2;2]]%Z, r')) /\
  (exists r r', initial_solutions same_order two_islands 3 r = Ok ([YArr [0;0;1;-1;-1]; YArr [-1;-1;-1;2;2]]%Z, r')).
Proof.
  split.
  { split; [lia|]. split; [cbn; lia|]. exists 2. split; [apply n_islands_iff; vm_compute; reflexivity|cbn; lia]. }
  intros T HT. split; [|split; [|split]].
  - intros [K [_ [Hi [_ [_ [_ [_ HO]]]]]]]. cbn [gn two_islands] in HO.
    assert (HT' : incl K T) by auto. destruct HT as [_ [_ Hisl]].
    assert (F0 : first_in two_islands 0 0) by (split; [apply linked_refl; unfold areas; cbn; lia|intros; lia]).
    assert (F3 : first_in two_islands 3 3).
    { split; [apply linked_refl; unfold areas; cbn; lia|]. intros b Hb. pose proof (same_island_lt _ _ _ Hb) as [_ Hb5].
      apply comp_label_eq in Hb; [|cbn; lia|auto]. cbn in Hb5. do 5 (destruct b as [|b]; [vm_compute in Hb; try discriminate; lia|]). lia. }
    destruct (first_exists (links 5 K) 0 ltac:(cbn; lia)) as [p0 P0]. destruct (first_exists (links 5 K) 3 ltac:(cbn; lia)) as [p3 P3].
    pose proof (HO 0 3 0 3 p0 p3 F0 F3 P0 P3) as Ho. cbn in Ho. destruct Ho as [_ Ho]. specialize (Ho ltac:(left; lia)). lia.
  - exists (fun k => match k with 0 => 2 | _ => 0 end). eexists. vm_compute. reflexivity.
  - exists (fun k => match k with 0 => 0 | _ => 0 end). eexists. vm_compute. reflexivity.
  - exists (fun k => match k with 0 => 0 | _ => 1 end). eexists. vm_compute. reflexivity.
Qed.

Lemma path4_acyclic : acyclic (path_graph 4).
Proof.
  exists [(0, 1); (1, 2); (2, 3)]. split.
  - apply forest_is_forest. split; [repeat constructor; cbn; intuition congruence|]. split; [|vm_compute; reflexivity].
    intros e [<-|[<-|[<-|[]]]]; cbn; lia.
  - intros u v Hu Hv. cbn in Hu, Hv. unfold touch. do 4 (destruct u as [|u]; [do 4 (destruct v as [|v]; [vm_compute; intuition congruence|]); lia|]). lia.
Qed.

(** Four areas in a row, values 0 5 5 10, two regions, no start given: both 0|5 5 10 and 0 5 5|10 may be returned. *)
Example C103_example fuel labels : 261 < fuel -> labels = [0;1;1;1]%Z \/ labels = [0;0;0;1]%Z ->
  valid_request (path_graph 4) 2 None /\ exact_on (pairwise manhattan) row4 /\
  exists r s' r', azp_fit (fun x => x) same_order (pairwise manhattan) fuel (path_graph 4) row4 2%Z None (SAzp dum) r = Ok ((labels, s'), r').
Proof.
  intros Hf Hl. assert (Hv : valid_request (path_graph 4) 2 None).
  { split; [lia|]. split; [cbn; lia|]. exists 1. split; [apply n_islands_iff; vm_compute; reflexivity|cbn; lia]. }
  assert (Hex : exact_on (pairwise manhattan) row4) by (apply pairwise_exact_on; [apply manhattan_sym|apply manhattan_zero]).
  split; [auto|]. split; [auto|].
  destruct (C103_azp_from_random_start (fun x => x) same_order (pairwise manhattan) (path_graph 4) row4 same_order_perm
    (path_symmetric 4) eq_refl Hex) as [T [HT H]].
  apply H; [auto|change (gn (path_graph 4) ^ gn (path_graph 4) + gn (path_graph 4) + 1) with 261; auto|].
  exists [0;0;1;1]%Z. split; [|split].
  - apply C102_tree_every_start; auto; [apply path4_acyclic|split; [reflexivity|]; split; [reflexivity|]; apply check_regions_all; vm_compute; reflexivity| |].
    + intros z; cbn [In]; lia.
    + intros u v iu iv pu pv Hiu Hiv Hpu Mu Hpv Mv.
      assert (Hi0 : forall u i, first_in (path_graph 4) u i -> u < 4 /\ i = 0).
      { intros x i [H1 H2]. assert (Hx : x < 4) by (apply same_island_lt in H1; cbn in H1; tauto). split; [auto|].
        assert (i <= 0); [|lia]. apply H2. apply comp_label_eq; [exact Hx|cbn; lia|]. do 4 (destruct x as [|x]; [vm_compute; reflexivity|]). lia. }
      destruct (Hi0 u iu Hiu) as [Hu ->]. destruct (Hi0 v iv Hiv) as [Hv' ->].
      assert (Hmin : forall x px, x < 4 -> region [0;0;1;1]%Z (lab [0;0;1;1]%Z x) px ->
        (forall b, region [0;0;1;1]%Z (lab [0;0;1;1]%Z x) b -> px <= b) -> Z.of_nat px = (2 * lab [0;0;1;1]%Z x)%Z).
      { intros x px Hx Hr Hm. assert (Hpx : px < 4) by (apply nth_error_lt in Hr; exact Hr). unfold region in *.
        do 4 (destruct x as [|x]; [do 4 (destruct px as [|px]; [cbn in *; first [discriminate Hr|reflexivity|
          (specialize (Hm 0 eq_refl); lia)|(specialize (Hm 2 eq_refl); lia)]|]); lia|]). lia. }
      pose proof (Hmin u pu Hu Hpu Mu) as Eu. pose proof (Hmin v pv Hv' Hpv Mv) as Ev. lia.
  - destruct Hl as [-> | ->]; reflexivity.
  - intros v isl Hv1 Hi. rewrite (path4_island v isl Hv1 Hi). exists labels. split; [apply zoning_row4; auto|auto].
Qed.

Print Assumptions C102_distributions.
Print Assumptions C102_random_starts.
Print Assumptions C102_starts_feasible.
Print Assumptions C102_not_every_start.
Print Assumptions C102_tree_every_start.
Print Assumptions C103_azp_from_random_start.
