(** The exact methods, asked through the different interfaces: C137. *)
From Verif Require Import Base Spec SpecData M_Graph M_Util M_Objective M_Azp M_Convert M_Frames M_Exact P_Base P_Util P_Graph P_Sum P_Objective P_Convert P_Frames P_Exact P_MaxPExact P_Names
  P_MaxPNames P_ExactIslands Props_Convert P_AzpFit Props_Convert P_AzpFit Props_Objective Props_Zoning Props_Exact Props_Compare Props_Frames Examples.
From Coq Require Import Permutation Sorting.Sorted.
Local Open Scope nat_scope.
Local Open Scope string_scope.

(** ** Regions of named areas *)
(** The areas [names] with the neighbours [nbr] are divided into [p] contiguous regions by [L]. *)
Definition named_regions (names : list Z) (nbr : Z -> Z -> bool) (p : nat) (L : Z -> Z) : Prop :=
  feasible (survey_graph names nbr) (map L names) p.
(** the sum of the distances between areas of the same region *)
Definition named_cost (names : list Z) (dist : Z -> Z -> Q) (L : Z -> Z) : Q :=
  heterogeneity (fun i j => dist (nth i names 0%Z) (nth j names 0%Z)) (map L names).
(** no such division satisfying [among] is cheaper *)
Definition named_best (names : list Z) (nbr : Z -> Z -> bool) (dist : Z -> Z -> Q) (p : nat) (among : (Z -> Z) -> Prop) (L : Z -> Z) : Prop :=
  named_regions names nbr p L /\
  forall L', named_regions names nbr p L' -> among L' -> (named_cost names dist L <= named_cost names dist L')%Q.
(** no region has more than n - p areas *)
Definition named_small (names : list Z) (p : nat) (L : Z -> Z) : Prop :=
  forall k, In k names -> length (filter (fun j => Z.eqb (L j) (L k)) names) + p <= length names.
(** every region has at least the threshold of every extensive attribute *)
Definition named_enough (names : list Z) (ext : Z -> list Q) (thr : list Q) (L : Z -> Z) : Prop :=
  forall k c t, In k names -> nth_error thr c = Some t ->
    (t <= sumQ (map (fun j => if Z.eqb (L j) (L k) then nth c (ext j) 0%Q else 0%Q) names))%Q.
(** The distance of two areas for PRegionsExact: the sum over all pairs of their attribute values. *)
Definition all_pairs (mf : list Q -> list Q -> Q) (val : Z -> list Q) (a b : Z) : Q :=
  sumQ (map (fun x => sumQ (map (fun y => mf [x] [y]) (val b))) (val a)).

(** ** The interfaces *)
(** [call R f] hands an adjacency matrix and an array of attributes to [f]; the areas are in the order [ids]. *)
Definition interface := forall R : Type, (graph -> list (list Q) -> out R) -> out R.
Inductive pexact_entry (names : list Z) (nbr : Z -> Z -> bool) (val : Z -> list Q) : interface -> list Z -> Prop :=
| entry_dict nb attr up : dict_lists names nbr nb -> dict_gives names val attr -> Permutation up names -> StronglySorted Z.lt up ->
    pexact_entry names nbr val (fun R f => pexact_fit_from_dict R f (IsDict nb) (IsDict attr)) up
| entry_w w : w_lists names nbr w ->
    pexact_entry names nbr val (fun R f => pexact_fit_from_w R f w (map val (w_ids w))) (w_ids w)
| entry_gdf G rook queen (gdf : geoframe G) a c : gdf_lists rook queen names nbr gdf c -> frame_gives (gf_frame gdf) a val ->
    pexact_entry names nbr val (fun R f => pexact_fit_from_gdf G rook queen R f gdf a (Some c)) (f_index (gf_frame gdf))
| entry_nx N a : nx_lists names nbr N -> nx_gives names val N a ->
    pexact_entry names nbr val (fun R f => pexact_fit_from_networkx R f N a) (nx_nodes N).
(** the same with extensive attributes [ext], for the max-p classes *)
Definition maxp_interface := forall R : Type, (graph -> list (list Q) -> list (list Q) -> out R) -> out R.
Inductive maxp_entry (names : list Z) (nbr : Z -> Z -> bool) (val ext : Z -> list Q) : maxp_interface -> list Z -> Prop :=
| mentry_dict nb attr sp up : dict_lists names nbr nb -> dict_gives names val attr -> dict_gives names ext sp -> Permutation up names -> StronglySorted Z.lt up ->
    maxp_entry names nbr val ext (fun R f => maxp_fit_from_dict R f (IsDict nb) (IsDict attr) (IsDict sp)) up
| mentry_w w : w_lists names nbr w ->
    maxp_entry names nbr val ext (fun R f => maxp_fit_from_w R f w (map val (w_ids w)) (map ext (w_ids w))) (w_ids w)
| mentry_gdf G rook queen (gdf : geoframe G) a b c : gdf_lists rook queen names nbr gdf c -> frame_gives (gf_frame gdf) a val -> frame_gives (gf_frame gdf) b ext ->
    maxp_entry names nbr val ext (fun R f => maxp_fit_from_gdf G rook queen R f gdf a b (Some c)) (f_index (gf_frame gdf))
| mentry_nx N a b : nx_lists names nbr N -> nx_gives names val N a -> nx_gives names ext N b ->
    maxp_entry names nbr val ext (fun R f => maxp_fit_from_networkx R f N a b) (nx_nodes N).
(** The answers [ans] of the solver are optimal for the program of method [m] (matrix [g], attributes [rows]). *)
Definition solves (mf : list Q -> list Q -> Q) (m : string) (p : nat) (g : graph) (rows : list (list Q)) (ans : answers) : Prop :=
  m = "flow" /\ (exists a, optimal (flow_ok g p) (flow_cost g (p_weight mf rows)) a /\ flow_reports g p ans a) \/
  m = "order" /\ (exists a, optimal (order_ok g p) (order_cost g (p_weight mf rows)) a /\ order_reports g p ans a) \/
  m = "tree" /\ (exists a, optimal (tree_ok g p) (tree_cost g (p_weight mf rows)) a /\ tree_reports g ans a).
Definition solves_maxp (mf : list Q -> list Q -> Q) (thr : threshold_arg) (g : graph) (rows sp : list (list Q)) (x : nat -> nat -> nat -> option Q) : Prop :=
  exists a h, is_exponent (total_weight (gn g) (mp_weight mf rows)) h /\
    optimal (maxp_ok g sp thr) (maxp_cost g (mp_weight mf rows) h) a /\ maxp_reports g x a.
(** what an interface hands over *)
Definition hands (call : interface) (g : graph) (rows : list (list Q)) : Prop :=
  call _ (fun g rows => Ok (g, rows)) = Ok (g, rows).
Definition hands_maxp (call : maxp_interface) (g : graph) (rows sp : list (list Q)) : Prop :=
  call _ (fun g rows sp => Ok (g, rows, sp)) = Ok (g, rows, sp).

Section Named.
Variables (names : list Z) (nbr : Z -> Z -> bool) (val ext : Z -> list Q).
Hypothesis Hn : NoDup names.
Hypothesis Hne : names <> [].
Hypothesis Hsym : forall i j, In i names -> In j names -> nbr i j = nbr j i.
Hypothesis Hdim : exists m, forall k, In k names -> length (val k) = m.
Hypothesis Hdim2 : exists m, forall k, In k names -> length (ext k) = m.

Lemma entry_hands call ids : pexact_entry names nbr val call ids ->
  Permutation ids names /\ exists g, shown nbr val ids g (map val ids) /\ forall R f, call R f = f g (map val ids).
Proof.
  assert (Huniq : forall up, Permutation up names -> StronglySorted Z.lt up -> uniqueZ names = up).
  { intros up Hup Hs. rewrite <- (sorted_uniqueZ _ Hs). apply uniqueZ_ext. intros x. split; apply Permutation_in; auto using Permutation_sym. }
  intros [nb attr up Hnb Hat Hup Hs|w Hw|G rook queen gdf a c Hg Hf|N a HN Ha].
  - split; [auto|]. destruct (dict_matrix_shown names nbr Hn nb val Hnb) as [g [Eg Hsh]]. rewrite (Huniq up Hup Hs) in Hsh. exists g. split; [auto|]. intros R f.
    unfold pexact_fit_from_dict. rewrite (proj2 (same_keys_spec attr nb)), Eg. cbn [bind].
    + destruct (dict_given names Hn Hne attr val None Hat Hdim) as [-> _]; [auto|]. rewrite (Huniq up Hup Hs). reflexivity.
    + intros k. destruct Hnb as [Hnb _], Hat as [Hat _].
      split; intros H; [apply (Permutation_in _ (Permutation_sym Hnb)), (Permutation_in _ Hat); auto|
        apply (Permutation_in _ (Permutation_sym Hat)), (Permutation_in _ Hnb); auto].
  - split; [apply Hw|]. destruct (w_shown names nbr w val Hw) as [g [Eg Hsh]]. exists g. split; [auto|]. intros R f. unfold pexact_fit_from_w. rewrite Eg. reflexivity.
  - destruct (gdf_w rook queen names nbr gdf c Hg) as [w [Ew [Ei Hw]]]. rewrite <- Ei. split; [apply Hw|].
    destruct (w_shown names nbr w val Hw) as [g [Eg Hsh]]. exists g. split; [auto|]. intros R f. unfold pexact_fit_from_gdf, pexact_fit_from_w. rewrite Ew. cbn [bind].
    rewrite (frame_given (gf_frame gdf) a val), <- Ei, Eg; [reflexivity| |auto]. rewrite <- Ei. intros E. destruct Hw as [Hw _]. rewrite E in Hw. apply Permutation_nil in Hw. auto.
  - split; [apply HN|]. destruct (nx_shown names nbr Hne N val HN) as [g [Eg Hsh]]. exists g. split; [auto|]. intros R f.
    unfold pexact_fit_from_networkx. rewrite Eg, (nx_given names nbr Hn Hne N val a HN Ha). reflexivity.
Qed.

Lemma mentry_hands call ids : maxp_entry names nbr val ext call ids ->
  Permutation ids names /\ exists g, shown nbr val ids g (map val ids) /\ forall R f, call R f = f g (map val ids) (map ext ids).
Proof.
  assert (Huniq : forall up, Permutation up names -> StronglySorted Z.lt up -> uniqueZ names = up).
  { intros up Hup Hs. rewrite <- (sorted_uniqueZ _ Hs). apply uniqueZ_ext. intros x. split; apply Permutation_in; auto using Permutation_sym. }
  intros [nb attr sp up Hnb Hat Hsp Hup Hs|w Hw|G rook queen gdf a b c Hg Hf Hf2|N a b HN Ha Hb].
  - split; [auto|]. destruct (dict_matrix_shown names nbr Hn nb val Hnb) as [g [Eg Hsh]]. rewrite (Huniq up Hup Hs) in Hsh. exists g. split; [auto|]. intros R f.
    assert (Hk : forall V (e : dict V), Permutation (keys e) names -> same_keys e nb = true).
    { intros V e He. apply same_keys_spec. intros k. destruct Hnb as [Hnb _].
      split; intros H; [apply (Permutation_in _ (Permutation_sym Hnb)), (Permutation_in _ He); auto|
        apply (Permutation_in _ (Permutation_sym He)), (Permutation_in _ Hnb); auto]. }
    unfold maxp_fit_from_dict. rewrite (Hk _ attr (proj1 Hat)), (Hk _ sp (proj1 Hsp)), Eg. cbn [bind].
    destruct (dict_given names Hn Hne attr val None Hat Hdim) as [-> _]; [auto|]. destruct (dict_given names Hn Hne sp ext None Hsp Hdim2) as [-> _]; [auto|].
    rewrite (Huniq up Hup Hs). reflexivity.
  - split; [apply Hw|]. destruct (w_shown names nbr w val Hw) as [g [Eg Hsh]]. exists g. split; [auto|]. intros R f. unfold maxp_fit_from_w. rewrite Eg. reflexivity.
  - destruct (gdf_w rook queen names nbr gdf c Hg) as [w [Ew [Ei Hw]]]. rewrite <- Ei. split; [apply Hw|].
    assert (Hni : f_index (gf_frame gdf) <> []) by (rewrite <- Ei; intros E; destruct Hw as [Hw _]; rewrite E in Hw; apply Permutation_nil in Hw; auto).
    destruct (w_shown names nbr w val Hw) as [g [Eg Hsh]]. exists g. split; [auto|]. intros R f. unfold maxp_fit_from_gdf, maxp_fit_from_w. rewrite Ew. cbn [bind].
    rewrite (frame_given (gf_frame gdf) a val), (frame_given (gf_frame gdf) b ext), <- Ei, Eg by auto. reflexivity.
  - split; [apply HN|]. destruct (nx_shown names nbr Hne N val HN) as [g [Eg Hsh]]. exists g. split; [auto|]. intros R f.
    unfold maxp_fit_from_networkx. rewrite Eg, (nx_given names nbr Hn Hne N val a HN Ha), (nx_given names nbr Hn Hne N ext b HN Hb). reflexivity.
Qed.

Lemma feasible_shown ids ids' g g' p L : NoDup ids -> Permutation ids ids' -> shown nbr val ids g (map val ids) -> shown nbr val ids' g' (map val ids') ->
  feasible g (map L ids) p -> feasible g' (map L ids') p.
Proof.
  intros Hni Hp Hs Hs' Hf. destruct (shown_renumbered ids ids' Hni Hp nbr val g g' _ _ Hs Hs') as [R1 [R2 [R3 [R4 [R5 R6]]]]].
  set (f := fun i => find_in ids (nth i ids' 0%Z)) in *.
  destruct (inv_of_spec (gn g) f R3 R4) as [Hi1 Hi2].
  destruct (relabelled_map ids ids' Hp L) as [Hl Hlab]. fold f in Hlab.
  assert (Hlen : length (map L ids) = gn g) by (rewrite map_length; symmetry; apply Hs).
  eapply (twin_valid f (inv_of (gn g) f) (fun z => z) (fun z => z) (map L ids) (map L ids) g g' (map val ids) (map val ids')); eauto.
  - constructor; auto; intros i Hi; split; [apply R3|apply Hi1]; auto.
  - split; [auto|]. split; [lia|]. split; [auto|]. intros i Hi. apply Hlab. lia.
Qed.

Lemma cost_perm d dist ids L : (forall a b, dist a b == dist b a)%Q -> Permutation ids names ->
  (forall i j, i < length ids -> j < length ids -> (d i j == dist (nth i ids 0%Z) (nth j ids 0%Z))%Q) ->
  (heterogeneity d (map L ids) == named_cost names dist L)%Q.
Proof.
  intros Hd Hp Hdd.
  assert (H : forall d l, (forall i j, i < length l -> j < length l -> (d i j == dist (nth i l 0%Z) (nth j l 0%Z))%Q) ->
    (heterogeneity d (map L l) == psum (fun a b => if Z.eqb (L a) (L b) then dist a b else 0) l)%Q).
  { intros d' l Hd'. rewrite heterogeneity_psum, map_length.
    transitivity (psum (fun a b => if Z.eqb (L a) (L b) then dist a b else 0%Q) (map (fun i => nth i l 0%Z) (seq 0 (length l)))); [|rewrite map_nth_seq; reflexivity].
    rewrite psum_map. apply psum_ext. intros i j Hi Hj. apply in_seq in Hi, Hj. rewrite !P_Frames.lab_map by lia.
    destruct (Z.eqb _ _); [apply Hd'; lia|reflexivity]. }
  unfold named_cost. rewrite (H d ids Hdd), (H _ names) by reflexivity. apply psum_perm; [|auto].
  intros a b. rewrite (Z.eqb_sym (L b)). destruct (Z.eqb (L a) (L b)); [apply Hd|reflexivity].
Qed.

(** every array of labels is a labelling of names *)
Lemma labels_named ids (labels : list Z) : NoDup ids -> length labels = length ids -> map (fun k => lab labels (find_in ids k)) ids = labels.
Proof.
  intros Hni Hl. apply (nth_ext _ _ (-1)%Z (-1)%Z); [rewrite map_length; auto|]. rewrite map_length. intros i Hi.
  rewrite (nth_map_in _ ids i 0%Z) by auto. rewrite find_in_nth by auto. reflexivity.
Qed.

Lemma weight_pairs mf ids i j : i < length ids -> j < length ids ->
  (p_weight mf (map val ids) i j == all_pairs mf val (nth i ids 0%Z) (nth j ids 0%Z))%Q.
Proof.
  intros Hi Hj. unfold p_weight, all_pairs. rewrite !(nth_map_in val ids _ 0%Z) by auto. generalize (val (nth i ids 0%Z)). intros x.
  induction x as [|a x IH]; [reflexivity|]. cbn [flat_map map]. rewrite sumQ_app, sumQ_cons, IH. reflexivity.
Qed.

Lemma all_pairs_sym mf a b : (forall x y, mf [x] [y] == mf [y] [x])%Q -> (all_pairs mf val a b == all_pairs mf val b a)%Q.
Proof.
  intros H. unfold all_pairs. generalize (val a) (val b). intros l m. induction l as [|x l IH]; cbn [map].
  - induction m as [|y m IH]; [reflexivity|]. cbn [map]. rewrite sumQ_cons, <- IH. reflexivity.
  - rewrite sumQ_cons, IH. clear IH. induction m as [|y m IH]; cbn [map]; [reflexivity|].
    rewrite !sumQ_cons, <- IH, (H x y). ring.
Qed.

Lemma small_named g ids p L : gn g = length ids -> (small g p (map L ids) <-> named_small ids p L).
Proof.
  intros Hg. unfold small, named_small. rewrite Hg.
  assert (H : forall z, region_size (map L ids) z = length (filter (fun j => Z.eqb (L j) z) ids)).
  { intros z. unfold region_size. clear. induction ids as [|x l IH]; cbn [map filter count_occ]; [auto|]. rewrite IH. destruct (Z.eq_dec (L x) z) as [E|E]; [rewrite (proj2 (Z.eqb_eq _ _) E)|rewrite (proj2 (Z.eqb_neq _ _) E)]; reflexivity. }
  split.
  - intros Hs k Hk. rewrite <- H. apply Hs, in_map; auto.
  - intros Hs z Hz. apply in_map_iff in Hz. destruct Hz as [k [<- Hk]]. rewrite H. auto.
Qed.
Lemma small_perm ids p L : Permutation ids names -> (named_small ids p L <-> named_small names p L).
Proof.
  intros Hp. assert (H : forall a b, Permutation a b -> named_small a p L -> named_small b p L).
  { intros a b Hab Hs k Hk. rewrite <- (Permutation_length Hab). specialize (Hs k (Permutation_in _ (Permutation_sym Hab) Hk)).
    assert (E : forall q : Z -> bool, length (filter q a) = length (filter q b)).
    { intros q. clear -Hab. induction Hab as [|x l l' _ IH|x y l|l l' l'' _ IH _ IH']; cbn [filter]; [auto| | |lia].
      - destruct (q x); cbn; lia.
      - destruct (q x), (q y); cbn; lia. }
    rewrite <- E. exact Hs. }
  split; apply H; auto using Permutation_sym.
Qed.

Lemma best_shown d dist ids g p (among : list Z -> Prop) (amongN : (Z -> Z) -> Prop) L : (forall a b, dist a b == dist b a)%Q -> Permutation ids names ->
  shown nbr val ids g (map val ids) ->
  (forall i j, i < length ids -> j < length ids -> (d i j == dist (nth i ids 0%Z) (nth j ids 0%Z))%Q) ->
  (forall L', amongN L' -> among (map L' ids)) ->
  best_partition g d p among (map L ids) -> named_best names nbr dist p amongN L.
Proof.
  intros Hsd Hp Hs Hd Ham [Hf Hmin].
  assert (Hni : NoDup ids) by (eapply Permutation_NoDup; [apply Permutation_sym; eauto|auto]). pose proof (survey_shown names nbr val) as Hss.
  split; [eapply feasible_shown; [exact Hni|exact Hp|exact Hs|exact Hss|exact Hf]|].
  intros L' Hf' Ha. rewrite <- !(cost_perm d dist ids) by auto. apply Hmin; [|auto].
  eapply feasible_shown; [exact Hn|apply Permutation_sym; exact Hp|exact Hss|exact Hs|exact Hf'].
Qed.

(** * C137: PRegionsExact through the interfaces *)
Theorem C137_pexact_interfaces call ids m meth p mf table solver metric ans r :
  pexact_entry names nbr val call ids -> accepted table solver metric -> lower meth = m -> p + 2 <= length names ->
  (forall x y, mf [x] [y] == mf [y] [x])%Q ->
  (forall a b, In a names -> In b names -> a <> b -> (0 <= all_pairs mf val a b)%Q) ->
  (m = "tree" -> (forall a, In a names -> nbr a a = false) /\ forall a b, In a names -> In b names -> a <> b -> (0 < all_pairs mf val a b)%Q) ->
  (forall g rows, hands call g rows -> solves mf m p g rows (ans g rows)) ->
  exists L, call _ (fun g rows => pexact_run table g (AInt (Z.of_nat p)) (AStr meth) solver metric (ans g rows) r) = Ok (map L ids) /\
    named_best names nbr (all_pairs mf val) p (if String.eqb m "flow" then named_small names p else fun _ => True) L /\
    (m = "flow" -> named_small names p L).
Proof.
  intros He Hacc Hmeth Hpn Hmf Hd Htree Hsol. destruct (entry_hands call ids He) as [Hp [g [Hs Hcall]]].
  assert (Hh : hands call g (map val ids)) by (unfold hands; rewrite Hcall; reflexivity).
  specialize (Hsol g (map val ids) Hh). rewrite Hcall.
  assert (Hni : NoDup ids) by (eapply Permutation_NoDup; [apply Permutation_sym; eauto|auto]).
  assert (Hlen : length ids = length names) by (apply Permutation_length; auto). pose proof (proj1 Hs) as Hg.
  assert (Hsymg : symmetric g).
  { eapply shown_symmetric; eauto. intros i j Hi Hj. apply Hsym; apply (Permutation_in _ Hp); auto. }
  assert (Hdiff : forall i j, i < j < gn g -> In (nth i ids 0%Z) names /\ In (nth j ids 0%Z) names /\ nth i ids 0%Z <> nth j ids 0%Z).
  { intros i j Hij. split; [apply (Permutation_in _ Hp), nth_In; lia|]. split; [apply (Permutation_in _ Hp), nth_In; lia|].
    intros E. assert (i = j); [|lia]. apply (proj1 (NoDup_nth ids 0%Z) Hni); auto; lia. }
  assert (Hd0 : nonneg_below (gn g) (p_weight mf (map val ids))).
  { intros i j Hij. rewrite weight_pairs by lia. apply Hd; apply (Hdiff i j); auto. }
  set (w := p_weight mf (map val ids)) in *.
  assert (Hrun : exists labels, pexact_run table g (AInt (Z.of_nat p)) (AStr meth) solver metric (ans g (map val ids)) r = Ok labels /\
    best_partition g w p (if String.eqb m "flow" then small g p else fun _ => True) labels /\ (m = "flow" -> small g p labels)).
  { destruct Hsol as [[Hm [a [Ho Hr]]]|[[Hm [a [Ho Hr]]]|[Hm [a [Ho Hr]]]]]; rewrite Hm in *; cbn [String.eqb Ascii.eqb Bool.eqb].
    - assert (Hg0 : 0 < gn g) by lia.
      destruct (C47_flow_sound table g p meth solver metric (ans g (map val ids)) r a Hsymg Hg0 Hacc Hmeth (proj1 Ho) Hr) as [l [El [_ [Hsz _]]]].
      exists l. split; [auto|]. split; [|auto]. eapply C48_flow_best_partial; eauto.
    - assert (Hg0 : 0 < gn g) by lia.
      destruct (C49_order_sound table g p meth solver metric (ans g (map val ids)) r a Hg0 Hacc Hmeth (proj1 Ho) Hr) as [l [El _]].
      exists l. split; [auto|]. split; [|discriminate]. eapply C50_order_best; eauto. lia.
    - assert (Hg0 : 0 < gn g) by lia. destruct (Htree eq_refl) as [Hloop Hpos].
      assert (Hns : no_self_loops g).
      { intros i Hi. rewrite (proj1 (proj2 Hs)) by lia. apply Hloop. apply (Permutation_in _ Hp), nth_In. lia. }
      assert (Hw : forall i j, i < j < gn g -> (0 < w i j)%Q) by (intros i j Hij; unfold w; rewrite weight_pairs by lia; apply Hpos; apply (Hdiff i j); auto).
      destruct (C51_tree_sound table g p meth solver metric (ans g (map val ids)) r a Hsymg Hns Hg0 Hacc Hmeth (proj1 Ho) Hr) as [H _].
      destruct (H w Hw Ho) as [l [El _]]. exists l. split; [auto|]. split; [|discriminate]. eapply C52_tree_best; eauto. lia. }
  destruct Hrun as [labels [El [Hb Hsm]]].
  assert (Hll : length labels = length ids) by (destruct Hb as [[Hl _] _]; lia).
  set (L := fun k => lab labels (find_in ids k)). assert (EL : map L ids = labels) by (apply labels_named; auto).
  exists L. split; [rewrite EL; exact El|]. rewrite <- EL in Hb, Hsm. split.
  - eapply best_shown; [intros; apply all_pairs_sym; exact Hmf|exact Hp|exact Hs|intros i j Hi Hj; apply weight_pairs; auto| |exact Hb].
    intros L' H. destruct (String.eqb m "flow"); [|auto]. apply small_named; [auto|]. apply small_perm; auto.
  - intros E. apply small_perm with ids; [auto|]. apply (small_named g); auto.
Qed.

(** Hence two calls, by whatever interfaces, methods ("order" or "tree") and solvers, give partitions of equal cost,
    and the same regions if only one partition is best. *)
Definition pexact_call (call : interface) (meth : string) (p : nat) (table : list string) (solver : str_arg) (metric : metric_arg)
    (ans : graph -> list (list Q) -> answers) (r : rng) : out (list Z) :=
  call _ (fun g rows => pexact_run table g (AInt (Z.of_nat p)) (AStr meth) solver metric (ans g rows) r).
Theorem C137_pexact_agree call call' ids ids' m m' meth meth' p mf table table' solver solver' metric metric' ans ans' r r' :
  pexact_entry names nbr val call ids -> pexact_entry names nbr val call' ids' -> accepted table solver metric -> accepted table' solver' metric' ->
  lower meth = m -> lower meth' = m' -> In m ["order"; "tree"] -> In m' ["order"; "tree"] -> p + 2 <= length names ->
  (forall a, In a names -> nbr a a = false) -> (forall x y, mf [x] [y] == mf [y] [x])%Q ->
  (forall a b, In a names -> In b names -> a <> b -> (0 < all_pairs mf val a b)%Q) ->
  (forall g rows, hands call g rows -> solves mf m p g rows (ans g rows)) ->
  (forall g rows, hands call' g rows -> solves mf m' p g rows (ans' g rows)) ->
  exists L L', pexact_call call meth p table solver metric ans r = Ok (map L ids) /\
    pexact_call call' meth' p table' solver' metric' ans' r' = Ok (map L' ids') /\
    (named_cost names (all_pairs mf val) L == named_cost names (all_pairs mf val) L')%Q /\
    ((forall K K', named_best names nbr (all_pairs mf val) p (fun _ => True) K -> named_best names nbr (all_pairs mf val) p (fun _ => True) K' ->
       forall a b, In a names -> In b names -> (K a = K b <-> K' a = K' b)) ->
     forall a b, In a names -> In b names -> (L a = L b <-> L' a = L' b)).
Proof.
  intros He He' Hacc Hacc' Hl Hl' Hm Hm' Hp Hloop Hmf Hpos Hs Hs'.
  assert (Hd : forall a b, In a names -> In b names -> a <> b -> (0 <= all_pairs mf val a b)%Q) by (intros; apply Qlt_le_weak; auto).
  destruct (C137_pexact_interfaces call ids m meth p mf table solver metric ans r He Hacc Hl Hp Hmf Hd (fun _ => conj Hloop Hpos) Hs) as [L [E [Hb _]]].
  destruct (C137_pexact_interfaces call' ids' m' meth' p mf table' solver' metric' ans' r' He' Hacc' Hl' Hp Hmf Hd (fun _ => conj Hloop Hpos) Hs') as [L' [E' [Hb' _]]].
  replace (String.eqb m "flow") with false in Hb by (destruct Hm as [<-|[<-|[]]]; reflexivity).
  replace (String.eqb m' "flow") with false in Hb' by (destruct Hm' as [<-|[<-|[]]]; reflexivity).
  exists L, L'. split; [exact E|]. split; [exact E'|]. split; [|auto].
  apply Qle_antisym; [apply Hb; [apply Hb'|exact I]|apply Hb'; [apply Hb|exact I]].
Qed.

Lemma enough_shown ids thr L : Permutation ids names ->
  ((forall z, In z (map L ids) -> meets (map ext ids) thr (map L ids) z) <-> named_enough names ext thr L).
Proof.
  intros Hp.
  assert (H : forall z c, (total (map ext ids) (map L ids) z c == sumQ (map (fun j => if Z.eqb (L j) z then nth c (ext j) 0%Q else 0%Q) names))%Q).
  { intros z c. rewrite <- (sumQ_map_perm _ _ _ Hp). unfold total. rewrite map_length.
    transitivity (sumQ (map (fun j => if Z.eqb (L j) z then nth c (ext j) 0%Q else 0%Q) (map (fun i => nth i ids 0%Z) (seq 0 (length ids))))); [|rewrite map_nth_seq; reflexivity].
    rewrite map_map. apply sumQ_ext. intros i Hi. apply in_seq in Hi. rewrite P_Frames.lab_map by lia. rewrite (nth_map_in ext ids i 0%Z) by lia. reflexivity. }
  split.
  - intros Hm k c t Hk Ht. rewrite <- H. apply Hm; [|auto]. apply in_map, (Permutation_in _ (Permutation_sym Hp)); auto.
  - intros Hm z Hz c t Ht. apply in_map_iff in Hz. destruct Hz as [k [<- Hk]]. rewrite H. apply (Hm k c t); [apply (Permutation_in _ Hp)|]; auto.
Qed.

(** The thresholds: one number for all extensive attributes, or one for each of the [c] attributes. *)
Definition thresholds (c : nat) (thr : threshold_arg) : list Q :=
  match thr with TReal q => repeat q c | TArray l | TList l => l end.

(** MaxPRegionsExact through the interfaces: as many regions as possible, and as homogeneous as possible. *)
Theorem C137_maxp_interfaces call ids thr c mf table solver metric x :
  maxp_entry names nbr val ext call ids -> accepted table solver metric ->
  (forall k, In k names -> length (ext k) = c) -> (exists q, thr = TReal q) \/ (exists l, thr = TArray l /\ length l = c) ->
  (forall u v, mf u v == mf v u)%Q ->
  (forall a b, In a names -> In b names -> a <> b -> (0 <= mf (val a) (val b))%Q) ->
  (forall g rows sp, hands_maxp call g rows sp -> solves_maxp mf thr g rows sp (x g rows sp)) ->
  exists L p, call _ (fun g rows sp => maxp_exact_fit table mf g rows sp thr solver metric (x g rows sp)) = Ok (map L ids) /\
    named_regions names nbr p L /\ named_enough names ext (thresholds c thr) L /\
    forall L' p', named_regions names nbr p' L' -> named_enough names ext (thresholds c thr) L' ->
      p' <= p /\ (p' = p -> (named_cost names (fun a b => mf (val a) (val b)) L <= named_cost names (fun a b => mf (val a) (val b)) L')%Q).
Proof.
  intros He Hacc Hc Hthr Hmf Hd Hsol. destruct (mentry_hands call ids He) as [Hp [g [Hs Hcall]]].
  assert (Hh : hands_maxp call g (map val ids) (map ext ids)) by (unfold hands_maxp; rewrite Hcall; reflexivity).
  specialize (Hsol g _ _ Hh). rewrite Hcall. clear Hh.
  assert (Hni : NoDup ids) by (eapply Permutation_NoDup; [apply Permutation_sym; eauto|auto]).
  assert (Hlen : length ids = length names) by (apply Permutation_length; auto). pose proof (proj1 Hs) as Hg.
  assert (Hg0 : 0 < gn g) by (rewrite Hg, Hlen; destruct names; [congruence|cbn; lia]).
  assert (Hsymg : symmetric g).
  { eapply shown_symmetric; eauto. intros i j Hi Hj. apply Hsym; apply (Permutation_in _ Hp); auto. }
  set (dist := fun a b => mf (val a) (val b)).
  assert (Hdd : forall i j, i < length ids -> j < length ids -> (mp_weight mf (map val ids) i j == dist (nth i ids 0%Z) (nth j ids 0%Z))%Q).
  { intros i j Hi Hj. unfold mp_weight, dist. rewrite !(nth_map_in val ids _ 0%Z) by auto. reflexivity. }
  assert (Hd0 : nonneg_below (gn g) (mp_weight mf (map val ids))).
  { intros i j Hij. rewrite Hdd by lia. apply Hd; [apply (Permutation_in _ Hp), nth_In; lia|apply (Permutation_in _ Hp), nth_In; lia|].
    intros E. assert (i = j); [|lia]. apply (proj1 (NoDup_nth ids 0%Z) Hni); auto; lia. }
  assert (Hfirst : length (nth 0 (map ext ids) []) = c).
  { rewrite (nth_map_in ext ids 0 0%Z) by lia. apply Hc, (Permutation_in _ Hp), nth_In. lia. }
  assert (Hdoc : as_documented (map ext ids) thr) by (unfold as_documented; destruct Hthr as [[q ->]|[l [-> Hl]]]; [exact I|congruence]).
  assert (Hask : asked (map ext ids) thr = thresholds c thr) by (unfold asked, thresholds; destruct thr; auto; rewrite Hfirst; reflexivity).
  destruct Hsol as [a [h [Hexp [Ho Hr]]]].
  assert (Hw : (0 < total_weight (gn g) (mp_weight mf (map val ids)))%Q) by (destruct Hexp as [Hlo _]; eapply Qlt_le_trans; [apply (power10_pos (h - 1))|exact Hlo]).
  destruct (C53_maxp_sound table mf g (map val ids) (map ext ids) thr solver metric _ a Hacc Hdoc Hw (proj1 Ho) Hr) as [labels [El [Hf [_ Hm]]]].
  pose proof (C54_maxp_lexicographic table mf g (map val ids) (map ext ids) thr solver metric _ a h labels Hsymg Hg0 Hacc Hdoc Hd0 Hexp Ho Hr El) as Hbest.
  assert (Hll : length labels = length ids) by (destruct Hf as [Hl _]; lia).
  set (L := fun k => lab labels (find_in ids k)). assert (EL : map L ids = labels) by (apply labels_named; auto).
  exists L, (n_labels labels). split; [rewrite EL; exact El|]. rewrite <- EL in Hf, Hm, Hbest |- *. rewrite Hask in Hm, Hbest.
  pose proof (survey_shown names nbr val) as Hss.
  split; [eapply feasible_shown; [exact Hni|exact Hp|exact Hs|exact Hss|exact Hf]|]. split; [apply enough_shown with ids; auto|].
  intros L' p' Hf' He'.
  destruct (Hbest (map L' ids) p') as [H1 H2].
  - eapply feasible_shown; [exact Hn|apply Permutation_sym; exact Hp|exact Hss|exact Hs|exact Hf'].
  - apply enough_shown; auto.
  - split; [exact H1|]. intros E. specialize (H2 E).
    assert (Hsd : forall u v, (dist u v == dist v u)%Q) by (intros; apply Hmf).
    rewrite <- !(cost_perm (mp_weight mf (map val ids)) dist ids) by auto. exact H2.
Qed.
End Named.

(** the four areas of C111: every interface, the answers exist, and {30, 10}, {20, 40} is the best pair of regions *)
Example C137_entries :
  pexact_entry row_names row_nbr row_val (fun R f => pexact_fit_from_dict R f (IsDict row_dict) (IsDict row_attr)) [10; 20; 30; 40]%Z /\
  pexact_entry row_names row_nbr row_val (fun R f => pexact_fit_from_w R f row_w (map row_val (w_ids row_w))) [40; 30; 20; 10]%Z /\
  pexact_entry row_names row_nbr row_val (fun R f => pexact_fit_from_gdf _ touching touching R f row_gdf (OneCol "value") (Some "rook")) [20; 40; 10; 30]%Z /\
  pexact_entry row_names row_nbr row_val (fun R f => pexact_fit_from_networkx R f row_nx (ByName "value")) [10; 20; 30; 40]%Z.
Proof.
  destruct row_given as [H1 [H2 [_ [H3 [H4 [H5 [_ [H6 [H7 _]]]]]]]]].
  split; [|split; [|split]].
  - apply entry_dict; auto; [|repeat constructor]. apply (proj1 H6).
  - apply entry_w. exact H3.
  - apply (entry_gdf row_names row_nbr row_val _ touching touching row_gdf (OneCol "value") "rook"); auto.
  - apply entry_nx; auto.
Qed.
Lemma row_dist_pos a b : In a row_names -> In b row_names -> a <> b -> (0 < all_pairs manhattan row_val a b)%Q.
Proof.
  intros Ha Hb Hab. repeat (destruct Ha as [<-|Ha]; [repeat (destruct Hb as [<-|Hb]; [first [congruence|vm_compute; reflexivity]|]); destruct Hb|]). destruct Ha.
Qed.
Example C137_example call ids : pexact_entry row_names row_nbr row_val call ids ->
  exists ans, (forall g rows, hands call g rows -> solves manhattan "order" 2 g rows (ans g rows)) /\
  exists L, pexact_call call "Order" 2 table0 (AStr "CBC") MNone ans rng0 = Ok (map L ids) /\
    named_best row_names row_nbr (all_pairs manhattan row_val) 2 (fun _ => True) L /\ (named_cost row_names (all_pairs manhattan row_val) L <= 2)%Q.
Proof.
  intros He. destruct row_facts as [Hn [Hne [Hsym [Hloop _]]]].
  assert (Hdim : exists m, forall k, In k row_names -> length (row_val k) = m) by (exists 1; reflexivity).
  destruct (entry_hands row_names row_nbr row_val Hn Hne Hdim call ids He) as [Hp [g [Hs Hcall]]].
  assert (Hlen : length ids = 4) by (rewrite (Permutation_length Hp); reflexivity). pose proof (proj1 Hs) as Hg.
  assert (Hni : NoDup ids) by (eapply Permutation_NoDup; [apply Permutation_sym; eauto|auto]).
  assert (Hsymg : symmetric g) by (eapply shown_symmetric; eauto; intros i j Hi Hj; apply Hsym; apply (Permutation_in _ Hp); auto).
  assert (Hf : named_regions row_names row_nbr 2 row_found) by (apply feasb_spec; [reflexivity|vm_compute; reflexivity]).
  assert (Hd : nonneg_below (gn g) (p_weight manhattan (map row_val ids))).
  { intros i j Hij. rewrite weight_pairs by lia. apply Qlt_le_weak, row_dist_pos; [apply (Permutation_in _ Hp), nth_In; lia|apply (Permutation_in _ Hp), nth_In; lia|].
    intros E. assert (i = j); [|lia]. apply (proj1 (NoDup_nth ids 0%Z) Hni); auto; lia. }
  destruct (order_optimal_exists g (p_weight manhattan (map row_val ids)) 2 Hsymg Hd ltac:(lia)) as [a Ha].
  { exists (map row_found ids). eapply (feasible_shown row_nbr row_val); [exact Hn|apply Permutation_sym; exact Hp|apply survey_shown|exact Hs|exact Hf]. }
  set (ans := fun (_ : graph) (_ : list (list Q)) => mkAns (fun _ _ => None) (fun i k o => Some (inject_Z (or_x a i k o))) (fun _ _ => None)).
  assert (Hsol : forall g' rows, hands call g' rows -> solves manhattan "order" 2 g' rows (ans g' rows)).
  { intros g' rows Hh. unfold hands in Hh. rewrite Hcall in Hh. injection Hh as <- <-. right. left. split; [reflexivity|]. exists a. split; [exact Ha|].
    intros i k o _ _ _. eexists. split; reflexivity. }
  exists ans. split; [exact Hsol|].
  destruct (C137_pexact_interfaces row_names row_nbr row_val Hn Hne Hsym Hdim call ids "order" "Order" 2 manhattan table0 (AStr "CBC") MNone ans rng0 He accepted0 eq_refl) as [L [E [Hb _]]].
  - cbn. lia.
  - intros x y. apply manhattan_sym.
  - intros u v Hu Hv Huv. apply Qlt_le_weak, row_dist_pos; auto.
  - discriminate.
  - exact Hsol.
  - exists L. split; [exact E|]. split; [exact Hb|]. apply Qle_trans with (named_cost row_names (all_pairs manhattan row_val) row_found); [apply Hb; [exact Hf|exact Logic.I]|].
    vm_compute. discriminate.
Qed.

(** at least two areas in every region *)
Definition row_size (_ : Z) : list Q := [1%Q].
Example C137_maxp_example call ids : maxp_entry row_names row_nbr row_val row_size call ids ->
  exists x, (forall g rows sp, hands_maxp call g rows sp -> solves_maxp manhattan (TReal 2) g rows sp (x g rows sp)) /\
  exists L p, call _ (fun g rows sp => maxp_exact_fit table0 manhattan g rows sp (TReal 2) (AStr "CBC") MNone (x g rows sp)) = Ok (map L ids) /\
    named_regions row_names row_nbr p L /\ 2 <= p.
Proof.
  intros He. destruct row_facts as [Hn [Hne [Hsym [Hloop _]]]].
  assert (Hdim : exists m, forall k, In k row_names -> length (row_val k) = m) by (exists 1; reflexivity).
  assert (Hdim2 : exists m, forall k, In k row_names -> length (row_size k) = m) by (exists 1; reflexivity).
  destruct (mentry_hands row_names row_nbr row_val row_size Hn Hne Hdim Hdim2 call ids He) as [Hp [g [Hs Hcall]]].
  assert (Hlen : length ids = 4) by (rewrite (Permutation_length Hp); reflexivity). pose proof (proj1 Hs) as Hg.
  assert (Hni : NoDup ids) by (eapply Permutation_NoDup; [apply Permutation_sym; eauto|auto]).
  assert (Hsymg : symmetric g) by (eapply shown_symmetric; eauto; intros i j Hi Hj; apply Hsym; apply (Permutation_in _ Hp); auto).
  assert (Hf : named_regions row_names row_nbr 2 row_found) by (apply feasb_spec; [reflexivity|vm_compute; reflexivity]).
  assert (Hen : named_enough row_names row_size [2%Q] row_found).
  { intros k c t Hk Ht. destruct c as [|[|c]]; [|discriminate|discriminate]. injection Ht as <-.
    repeat (destruct Hk as [<-|Hk]; [vm_compute; discriminate|]). destruct Hk. }
  assert (Hpos : forall i j, i < j < 4 -> (0 < mp_weight manhattan (map row_val ids) i j)%Q).
  { intros i j Hij. unfold mp_weight. rewrite !(nth_map_in row_val ids _ 0%Z) by lia.
    assert (Hx : forall a b, In a row_names -> In b row_names -> a <> b -> (0 < manhattan (row_val a) (row_val b))%Q).
    { intros a b Ha Hb Hab. repeat (destruct Ha as [<-|Ha]; [repeat (destruct Hb as [<-|Hb]; [first [congruence|vm_compute; reflexivity]|]); destruct Hb|]). destruct Ha. }
    apply Hx; [apply (Permutation_in _ Hp), nth_In; lia|apply (Permutation_in _ Hp), nth_In; lia|].
    intros E. assert (i = j); [|lia]. apply (proj1 (NoDup_nth ids 0%Z) Hni); auto; lia. }
  assert (Hd : nonneg_below (gn g) (mp_weight manhattan (map row_val ids))) by (intros i j Hij; apply Qlt_le_weak, Hpos; lia).
  assert (Hw : (0 < total_weight (gn g) (mp_weight manhattan (map row_val ids)))%Q).
  { rewrite Hg, Hlen. pose proof (Hpos 0 1 ltac:(lia)). pose proof (Hpos 0 2 ltac:(lia)). pose proof (Hpos 0 3 ltac:(lia)).
    pose proof (Hpos 1 2 ltac:(lia)). pose proof (Hpos 1 3 ltac:(lia)). pose proof (Hpos 2 3 ltac:(lia)).
    unfold total_weight. cbn [upper seq flat_map map app fst snd Nat.sub]. cbn -[mp_weight Qlt Qplus]. rewrite ?sumQ_cons, ?sumQ_nil. lra. }
  destruct (C54_exponent_exists _ Hw) as [h Hh].
  destruct (maxp_optimal_exists g (map row_size ids) (TReal 2) (mp_weight manhattan (map row_val ids)) h Hsymg ltac:(lia) Hd) as [a Ha].
  { assert (E : P_MaxPExact.bounds_of (map row_size ids) (TReal 2) = [2%Q]) by (destruct ids; [discriminate|reflexivity]).
    rewrite E. exists (map row_found ids), 2. split; [|apply (enough_shown row_names row_size ids [2%Q] row_found Hp); exact Hen].
    eapply (feasible_shown row_nbr row_val); [exact Hn|apply Permutation_sym; exact Hp|apply survey_shown|exact Hs|exact Hf]. }
  set (x := fun (_ : graph) (_ _ : list (list Q)) (i k o : nat) => Some (inject_Z (or_x a i k o))).
  assert (Hsol : forall g' rows sp, hands_maxp call g' rows sp -> solves_maxp manhattan (TReal 2) g' rows sp (x g' rows sp)).
  { intros g' rows sp Hh'. unfold hands_maxp in Hh'. rewrite Hcall in Hh'. injection Hh' as <- <- <-. exists a, h. split; [exact Hh|]. split; [exact Ha|].
    intros i k o _ _ _. eexists. split; reflexivity. }
  exists x. split; [exact Hsol|].
  destruct (C137_maxp_interfaces row_names row_nbr row_val row_size Hn Hne Hsym Hdim Hdim2 call ids (TReal 2) 1 manhattan table0 (AStr "CBC") MNone x He accepted0) as [L [p [E [Hr [_ Hbest]]]]]; auto.
  - left. eauto.
  - intros u v. apply manhattan_sym.
  - intros u v _ _ _. apply manhattan_nonneg.
  - exists L, p. split; [exact E|]. split; [exact Hr|]. apply (Hbest row_found 2); [exact Hf|exact Hen].
Qed.

Print Assumptions C137_pexact_interfaces.
Print Assumptions C137_pexact_agree.
Print Assumptions C137_maxp_interfaces.
