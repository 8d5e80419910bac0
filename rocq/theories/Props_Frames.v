(** Properties C111-C114: data given as dict, W, GeoDataFrame or networkx graph. *)
From Verif Require Import Base Spec M_Graph P_Graph M_Util P_Base P_Util P_Forest P_Init P_Initial P_Skater
  M_Objective P_Sum P_Objective M_Azp P_Azp P_Strategy P_Fit P_AzpFit Examples Props_Objective Props_Azp M_Sa P_Sa M_Tabu
  P_Zoning P_Names Props_Tabu Props_Descent Props_Zoning P_Anneal P_Annealing Props_Anneal P_AnnealNames Props_AnnealNames
  M_MaxP P_MaxP Props_MaxP P_MaxPZone Props_MaxPZone P_MaxPNames Props_MaxPNames M_Convert P_Convert Props_Convert M_Frames P_Frames.
From Coq Require Import Permutation Sorting.Sorted Ascii.

(** The columns [a] of the frame hold the attributes [val] of the areas in its index. *)
Definition frame_gives (df : frame) (a : col_arg) (val : Z -> list Q) : Prop :=
  wf_frame df /\ NoDup (map fst (f_cols df)) /\
  exists cols, names_columns a cols /\
    forall i k, nth_error (f_index df) i = Some k ->
      Forall2 (fun s q => exists col, In (s, col) (f_cols df) /\ nth_error col i = Some q) cols (val k).

Lemma nodup_fst {A B} (l : list (A * B)) a b b' : NoDup (map fst l) -> In (a, b) l -> In (a, b') l -> b = b'.
Proof.
  induction l as [|[x y] l IH]; cbn; [intros _ []|]. intros Hn [E|H] [E'|H']; inversion Hn as [|? ? Hx Hl]; subst.
  - congruence.
  - injection E as -> ->. exfalso. apply Hx. change a with (fst (a, b')). apply in_map; auto.
  - injection E' as -> ->. exfalso. apply Hx. change a with (fst (a, b)). apply in_map; auto.
  - auto.
Qed.

Lemma Forall2_at {A B} (P : A -> B -> Prop) xs ys : Forall2 P xs ys ->
  forall c x, nth_error xs c = Some x -> exists y, nth_error ys c = Some y /\ P x y.
Proof. induction 1 as [|x y xs ys H _ IH]; intros [|c] z Hc; try discriminate; cbn in *; [injection Hc as ->; exists y; auto|eauto]. Qed.

Lemma list_ext {A} (l l' : list A) : length l = length l' -> (forall c x, nth_error l c = Some x -> nth_error l' c = Some x) -> l = l'.
Proof.
  revert l'. induction l as [|x l IH]; intros [|y l'] Hl H; try discriminate; [auto|]. f_equal.
  - specialize (H 0 x eq_refl). cbn in H. congruence.
  - apply IH; [cbn in Hl; lia|]. intros c z Hc. apply (H (S c) z Hc).
Qed.

Lemma frame_given df a val : f_index df <> [] -> frame_gives df a val -> array_from_df_col df a = Ok (map val (f_index df)).
Proof.
  intros Hne [Hwf [Hnd [cols [Ha Hv]]]]. destruct (C82_columns df a Hwf) as [_ [_ H]].
  destruct (H cols Ha) as [[[s [Hs Hno]] _]|[_ [rows [E [Hl Hr]]]]].
  - exfalso. destruct (f_index df) as [|k ks]; [congruence|]. specialize (Hv 0 k eq_refl).
    apply In_nth_error in Hs. destruct Hs as [c Hc]. destruct (Forall2_at _ _ _ Hv c s Hc) as [q [_ [col [Hin _]]]].
    apply Hno. change s with (fst (s, col)). apply in_map; auto.
  - rewrite E. f_equal. apply list_ext; [rewrite map_length; auto|]. intros i row Hi.
    assert (Hlt : i < length (f_index df)) by (rewrite <- Hl; apply nth_error_Some; congruence).
    rewrite nth_error_map, (nth_error_nth' _ 0%Z Hlt). cbn [option_map]. f_equal.
    set (k := nth i (f_index df) 0%Z). assert (Hk : nth_error (f_index df) i = Some k) by (apply nth_error_nth'; auto).
    destruct (Hr i row Hi) as [Hlr Hc]. specialize (Hv i k Hk). symmetry. apply list_ext.
    + rewrite Hlr. symmetry. clear -Hv. induction Hv; cbn; auto.
    + intros c q Hq. assert (Hlc : c < length cols) by (rewrite <- Hlr; apply nth_error_Some; congruence).
      destruct (nth_error cols c) as [s|] eqn:Es; [|apply nth_error_None in Es; lia].
      destruct (Hc c s Es) as [col [q' [Hin [Hq1 Hq2]]]]. destruct (Forall2_at _ _ _ Hv c s Es) as [q2 [H2 [col' [Hin' Hq']]]].
      rewrite (nodup_fst _ _ _ _ Hnd Hin' Hin) in Hq'. congruence.
Qed.

(** The GeoDataFrame lists the areas of its index: the chosen function of libpysal gives a W with these areas in
    this order. *)
Definition gdf_lists {G} (rook queen : list Z -> list G -> out wobj) (names : list Z) (nbr : Z -> Z -> bool)
    (gdf : geoframe G) (contiguity : string) : Prop :=
  exists w, (contiguity = "rook"%string /\ rook (f_index (gf_frame gdf)) (gf_shapes gdf) = Ok w \/
             contiguity = "queen"%string /\ queen (f_index (gf_frame gdf)) (gf_shapes gdf) = Ok w) /\
    w_ids w = f_index (gf_frame gdf) /\ w_lists names nbr w.

(** The graph of the areas [names] with neighbours [nbr]. *)
Definition survey_graph (names : list Z) (nbr : Z -> Z -> bool) : graph :=
  mkG (length names) (fun i j => nbr (nth i names 0%Z) (nth j names 0%Z)).

Lemma survey_shown names nbr val : shown nbr val names (survey_graph names nbr) (map val names).
Proof. split; [reflexivity|]. split; [reflexivity|reflexivity]. Qed.

Lemma gdf_w {G} rook queen names nbr (gdf : geoframe G) c : gdf_lists rook queen names nbr gdf c ->
  exists w, w_from_gdf G rook queen gdf (Some c) = Ok w /\ w_ids w = f_index (gf_frame gdf) /\ w_lists names nbr w.
Proof. intros [w [[[-> E]|[-> E]] H]]; exists w; cbn; auto. Qed.

Lemma In_map_perm {A} (L : A -> Z) l l' z : Permutation l l' -> In z (map L l) -> In z (map L l').
Proof. intros Hp. apply Permutation_in, Permutation_map; auto. Qed.

(** ** C111: AZP *)
Section Azp.
Variables (names : list Z) (nbr : Z -> Z -> bool) (val : Z -> list Q) (L0 : Z -> Z) (O : objfun) (p : Z).
Hypothesis Hn : NoDup names.
Hypothesis Hne : names <> [].
Hypothesis Hsym : forall i j, In i names -> In j names -> nbr i j = nbr j i.
Hypothesis Hdim : exists m, forall k, In k names -> length (val k) = m.
Hypothesis Hex : exact_on O (map val names).
Hypothesis Hno : nameless O.
Hypothesis Hv : valid_request (survey_graph names nbr) p (Some (map L0 names)).

Definition azp_object (expf : Q -> Q) (order : list edge -> list edge) (fuel : nat) (c : common) (r : rng)
    (adj : graph) (rows : list (list Q)) (initial : option (list Z)) :=
  azp_fit expf order O fuel adj rows p initial (SAzp c) r.

Lemma azp_order expf order c c0 fuel fuel0 ids g L :
  (forall l, Permutation (order l) l) -> length names ^ length names + length names + 1 < fuel ->
  length names ^ length names + length names + 1 < fuel0 ->
  Permutation ids names -> shown nbr val ids g (map val ids) ->
  ((exists r s r', azp_object expf order fuel c r g (map val ids) (Some (map L0 ids)) = Ok ((map L ids, s), r')) <->
   (exists r s r', azp_object (fun x => x) (fun l => l) fuel0 c0 r (survey_graph names nbr) (map val names) (Some (map L0 names)) = Ok ((map L names, s), r'))).
Proof.
  intros Hord Hfu Hfu0 Hp Hs. apply Permutation_sym in Hp. unfold azp_object.
  assert (Hm1 : ~ In (-1)%Z (map L0 ids)).
  { intros H. apply (In_map_perm L0 ids names) in H; [|apply Permutation_sym; auto]. destruct Hv as [_ [_ Hm]]. auto. }
  assert (Hrn := shown_renumbered names ids Hn Hp nbr val _ _ _ _ (survey_shown names nbr val) Hs).
  rewrite (C101_numbers_and_names (fun x => x) expf (fun l => l) order O (survey_graph names nbr) g (map val names) (map val ids)
    (fun i => find_in names (nth i ids 0%Z)) (fun z => z) fuel0 fuel p (map L0 names) (map L0 ids) c0 c (map L ids)); auto.
  - split.
    + intros [l [Hl H]]. apply (relabelled_map_inv names ids Hn Hp) in Hl. subst l. auto.
    + intros H. exists (map L names). split; [apply relabelled_map; auto|auto].
  - eapply shown_symmetric; [apply survey_shown with (val := val)|auto].
  - rewrite map_length. auto.
  - apply relabelled_map; auto.
Qed.

Theorem C111_azp_interfaces G rook queen expf1 expf2 expf3 order1 order2 order3 c1 c2 c3 fuel1 fuel2 fuel3 nb attr d0 w (gdf : geoframe G) a contiguity L up :
  (forall l, Permutation (order1 l) l) -> (forall l, Permutation (order2 l) l) -> (forall l, Permutation (order3 l) l) ->
  (forall fuel, In fuel [fuel1; fuel2; fuel3] -> length names ^ length names + length names + 1 < fuel) ->
  Permutation up names -> StronglySorted Z.lt up ->
  dict_lists names nbr nb -> dict_gives names val attr -> dict_gives names (fun k => [L0 k]) d0 ->
  w_lists names nbr w ->
  gdf_lists rook queen names nbr gdf contiguity -> frame_gives (gf_frame gdf) a val ->
  let ids := w_ids w in let index := f_index (gf_frame gdf) in
  ((exists r s r', azp_fit_from_dict _ (azp_object expf1 order1 fuel1 c1 r) nb attr (Some d0) = Ok ((map L up, s), r')) <->
   (exists r s r', azp_fit_from_w _ (azp_object expf2 order2 fuel2 c2 r) w (map val ids) (Some (map L0 ids)) = Ok ((map L ids, s), r'))) /\
  ((exists r s r', azp_fit_from_gdf G rook queen _ (azp_object expf3 order3 fuel3 c3 r) gdf a (Some contiguity) (Some (map L0 index)) = Ok ((map L index, s), r')) <->
   (exists r s r', azp_fit_from_w _ (azp_object expf2 order2 fuel2 c2 r) w (map val ids) (Some (map L0 ids)) = Ok ((map L ids, s), r'))).
Proof.
  intros Ho1 Ho2 Ho3 Hfu Hup Hups Hnb Hat Hd0 Hw Hg Hf ids index.
  assert (Hu : uniqueZ names = up).
  { rewrite <- (sorted_uniqueZ _ Hups). apply uniqueZ_ext. intros x. split; apply Permutation_in; auto using Permutation_sym. }
  assert (Hdict : (exists r s r', azp_fit_from_dict _ (azp_object expf1 order1 fuel1 c1 r) nb attr (Some d0) = Ok ((map L up, s), r')) <->
    (exists r s r', azp_object (fun x => x) (fun l => l) fuel1 c1 r (survey_graph names nbr) (map val names) (Some (map L0 names)) = Ok ((map L names, s), r'))).
  { destruct (dict_matrix_shown names nbr Hn nb val Hnb) as [g [Eg Hs]]. rewrite Hu in Hs.
    rewrite <- (azp_order expf1 order1 c1 c1 fuel1 fuel1 up g L) by (auto; apply Hfu; cbn; auto).
    unfold azp_fit_from_dict. rewrite (sorted_keys_perm names nb (proj1 Hnb)), Eg, (labels_given names Hn Hne d0 L0 Hd0). cbn [bind].
    destruct (dict_given names Hn Hne attr val (Some (uniqueZ names)) Hat Hdim) as [-> _]; [auto|]. cbn [bind]. rewrite Hu. reflexivity. }
  assert (Hwi : (exists r s r', azp_fit_from_w _ (azp_object expf2 order2 fuel2 c2 r) w (map val ids) (Some (map L0 ids)) = Ok ((map L ids, s), r')) <->
    (exists r s r', azp_object (fun x => x) (fun l => l) fuel1 c1 r (survey_graph names nbr) (map val names) (Some (map L0 names)) = Ok ((map L names, s), r'))).
  { destruct (w_shown names nbr w val Hw) as [g [Eg Hs]].
    rewrite <- (azp_order expf2 order2 c2 c1 fuel2 fuel1 ids g L) by (solve [auto | apply Hw | apply Hfu; cbn; auto]).
    unfold azp_fit_from_w. rewrite Eg. cbn [bind]. reflexivity. }
  split; [rewrite Hdict, Hwi; reflexivity|]. rewrite Hwi.
  destruct (gdf_w rook queen names nbr gdf contiguity Hg) as [w' [Ew [Ei Hw']]].
  destruct (w_shown names nbr w' val Hw') as [g [Eg Hs]]. rewrite Ei in Hs. fold index in Hs.
  assert (Hpi : Permutation index names) by (unfold index; rewrite <- Ei; apply Hw').
  rewrite <- (azp_order expf3 order3 c3 c1 fuel3 fuel1 index g L) by (auto; apply Hfu; cbn; auto).
  unfold azp_fit_from_gdf. rewrite Ew. cbn [bind].
  rewrite (frame_given (gf_frame gdf) a val) by (auto; fold index; intros E; rewrite E in Hpi; apply Permutation_nil in Hpi; auto).
  cbn [bind]. unfold azp_fit_from_w. rewrite Eg. cbn [bind]. reflexivity.
Qed.
End Azp.

(** ** C112: AZPSimulatedAnnealing *)
Lemma valid_shown nbr val L0 p ids ids' g g' : NoDup ids -> Permutation ids ids' ->
  shown nbr val ids g (map val ids) -> shown nbr val ids' g' (map val ids') ->
  valid_request g p (Some (map L0 ids)) -> valid_request g' p (Some (map L0 ids')).
Proof.
  intros Hn Hp Hs Hs' [Hp0 [Hf Hm]]. split; [auto|]. split.
  - destruct (shown_renumbered ids ids' Hn Hp nbr val g g' _ _ Hs Hs') as [R1 [R2 [R3 [R4 [R5 R6]]]]].
    set (f := fun i => find_in ids (nth i ids' 0%Z)) in *.
    destruct (inv_of_spec (gn g) f R3 R4) as [Hi1 Hi2].
    destruct (relabelled_map ids ids' Hp L0) as [Hl Hlab]. fold f in Hlab.
    assert (Hlen : length (map L0 ids) = gn g) by (rewrite map_length; symmetry; apply Hs).
    eapply (twin_valid f (inv_of (gn g) f) (fun z => z) (fun z => z) (map L0 ids) (map L0 ids) g g' (map val ids) (map val ids')); eauto.
    + constructor; auto; intros i Hi; split; [apply R3|apply Hi1]; auto.
    + split; [auto|]. split; [lia|]. split; [auto|]. intros i Hi. apply Hlab. lia.
  - intros H. apply Hm. revert H. apply In_map_perm, Permutation_sym; auto.
Qed.

Lemma exact_shown {A} O (val : A -> list Q) ids ids' : Permutation ids ids' -> exact_on O (map val ids) -> exact_on O (map val ids').
Proof. intros Hp H rows Hr. apply H. intros x Hx. apply Hr in Hx. revert Hx. apply Permutation_in, Permutation_map, Permutation_sym; auto. Qed.

Section Sa.
Variables (names : list Z) (nbr : Z -> Z -> bool) (val : Z -> list Q) (L0 : Z -> Z) (O : objfun) (p : Z).
Variables (expf : Q -> Q) (t0 : Q) (maxit : option nat) (n : Z) (steps reps : nat) (cooling : Q).
Hypothesis Hn : NoDup names.
Hypothesis Hne : names <> [].
Hypothesis Hsym : forall i j, In i names -> In j names -> nbr i j = nbr j i.
Hypothesis Hdim : exists m, forall k, In k names -> length (val k) = m.
Hypothesis Hex : exact_on O (map val names).
Hypothesis Hno : nameless O.
Hypothesis Hv : valid_request (survey_graph names nbr) p (Some (map L0 names)).
Hypothesis Hexpf : forall x y, (x == y -> expf x == expf y)%Q.
Hypothesis Hterm : (1 <= n)%Z.
Hypothesis Hcool1 : (0 < cooling)%Q.
Hypothesis Hcool2 : (cooling < 1)%Q.

(** a new AZPSimulatedAnnealing object *)
Definition sa_object (order : list edge -> list edge) (azp_fuel fuel : nat) (r : rng)
    (adj : graph) (rows : list (list Q)) (initial : option (list Z)) :=
  sa_fit expf order O azp_fuel adj rows p fuel cooling initial (mkSaArgs t0 maxit (Some n) steps reps) (mkSaMemory false []) r.

Lemma sa_order order order' azp_fuel azp_fuel' ids ids' g g' L :
  (forall l, Permutation (order l) l) -> (forall l, Permutation (order' l) l) ->
  length names ^ length names + length names + 1 < azp_fuel -> length names ^ length names + length names + 1 < azp_fuel' ->
  Permutation ids names -> Permutation ids' names -> shown nbr val ids g (map val ids) -> shown nbr val ids' g' (map val ids') ->
  (exists fuel r m r', sa_object order' azp_fuel' fuel r g' (map val ids') (Some (map L0 ids')) = Ok (Some (map L ids'), m, r')) ->
  (exists fuel r m r', sa_object order azp_fuel fuel r g (map val ids) (Some (map L0 ids)) = Ok (Some (map L ids), m, r')).
Proof.
  intros Hord Hord' Hfu Hfu' Hp Hp' Hs Hs' [fuel [r [m [r' H]]]]. unfold sa_object in *.
  assert (Hnd : NoDup ids) by (eapply Permutation_NoDup; [apply Permutation_sym; eauto|auto]).
  assert (Hpp : Permutation ids ids') by (eapply Permutation_trans; [eauto|apply Permutation_sym; auto]).
  assert (Hvi : valid_request g p (Some (map L0 ids))).
  { apply (valid_shown nbr val L0 p names ids (survey_graph names nbr) g); auto; [apply Permutation_sym; auto|apply survey_shown]. }
  assert (Hgl : gn g = length names) by (rewrite (proj1 Hs); apply Permutation_length; auto).
  destruct (C110_annealing_numbers_and_names expf order order' O g g' (map val ids) (map val ids')
    (fun i => find_in ids (nth i ids' 0%Z)) (fun z => z) azp_fuel azp_fuel' p (map L0 ids) (map L0 ids') t0 maxit n steps reps cooling
    (mkSaMemory false []) (mkSaMemory false []) (map L ids') m) as [H1 _]; auto.
  - eapply shown_symmetric; [exact Hs|]. intros i j Hi Hj. apply Hsym; apply (Permutation_in _ Hp); auto.
  - rewrite map_length. symmetry. apply Hs.
  - apply (exact_shown O val names ids); [apply Permutation_sym; auto|auto].
  - apply (shown_renumbered ids ids' Hnd Hpp nbr val); auto.
  - apply relabelled_map; auto.
  - intros Hi. destruct Hvi as [_ [_ Hm]]. apply Hm. revert Hi. apply In_map_perm, Permutation_sym; auto.
  - rewrite Hgl. auto.
  - rewrite Hgl. auto.
  - constructor.
  - destruct H1 as [labels [out [Hrl [_ [_ [fuel2 [r2 [r2' H2]]]]]]]]; [eauto|].
    apply (relabelled_map_inv ids ids' Hnd Hpp) in Hrl. subst labels. exists fuel2, r2, out, r2'. auto.
Qed.

Theorem C112_sa_interfaces G rook queen order1 order2 order3 azp_fuel1 azp_fuel2 azp_fuel3 nb attr d0 w (gdf : geoframe G) a contiguity L up :
  (forall l, Permutation (order1 l) l) -> (forall l, Permutation (order2 l) l) -> (forall l, Permutation (order3 l) l) ->
  (forall fuel, In fuel [azp_fuel1; azp_fuel2; azp_fuel3] -> length names ^ length names + length names + 1 < fuel) ->
  Permutation up names -> StronglySorted Z.lt up ->
  dict_lists names nbr nb -> dict_gives names val attr -> dict_gives names (fun k => [L0 k]) d0 ->
  w_lists names nbr w ->
  gdf_lists rook queen names nbr gdf contiguity -> frame_gives (gf_frame gdf) a val ->
  let ids := w_ids w in let index := f_index (gf_frame gdf) in
  ((exists fuel r m r', azp_fit_from_dict _ (sa_object order1 azp_fuel1 fuel r) nb attr (Some d0) = Ok (Some (map L up), m, r')) <->
   (exists fuel r m r', azp_fit_from_w _ (sa_object order2 azp_fuel2 fuel r) w (map val ids) (Some (map L0 ids)) = Ok (Some (map L ids), m, r'))) /\
  ((exists fuel r m r', azp_fit_from_gdf G rook queen _ (sa_object order3 azp_fuel3 fuel r) gdf a (Some contiguity) (Some (map L0 index)) = Ok (Some (map L index), m, r')) <->
   (exists fuel r m r', azp_fit_from_w _ (sa_object order2 azp_fuel2 fuel r) w (map val ids) (Some (map L0 ids)) = Ok (Some (map L ids), m, r'))).
Proof.
  intros Ho1 Ho2 Ho3 Hfu Hup Hups Hnb Hat Hd0 Hw Hg Hf ids index.
  assert (Hu : uniqueZ names = up).
  { rewrite <- (sorted_uniqueZ _ Hups). apply uniqueZ_ext. intros x. split; apply Permutation_in; auto using Permutation_sym. }
  destruct (w_shown names nbr w val Hw) as [gw [Egw Hsw]]. fold ids in Hsw.
  destruct (dict_matrix_shown names nbr Hn nb val Hnb) as [gd [Egd Hsd]]. rewrite Hu in Hsd.
  destruct (gdf_w rook queen names nbr gdf contiguity Hg) as [w' [Ew [Ei Hw']]].
  destruct (w_shown names nbr w' val Hw') as [gf [Egf Hsf]]. rewrite Ei in Hsf. fold index in Hsf.
  assert (Hpi : Permutation index names) by (unfold index; rewrite <- Ei; apply Hw').
  assert (Hpw : Permutation ids names) by apply Hw.
  assert (Hfu1 : length names ^ length names + length names + 1 < azp_fuel1) by (apply Hfu; cbn; auto).
  assert (Hfu2 : length names ^ length names + length names + 1 < azp_fuel2) by (apply Hfu; cbn; auto).
  assert (Hfu3 : length names ^ length names + length names + 1 < azp_fuel3) by (apply Hfu; cbn; auto).
  unfold azp_fit_from_gdf. rewrite Ew. cbn [bind].
  rewrite (frame_given (gf_frame gdf) a val) by (auto; fold index; intros E; rewrite E in Hpi; apply Permutation_nil in Hpi; auto).
  cbn [bind]. unfold azp_fit_from_w. rewrite Egf, Egw. fold index. cbn [bind].
  unfold azp_fit_from_dict. rewrite (sorted_keys_perm names nb (proj1 Hnb)), Egd, (labels_given names Hn Hne d0 L0 Hd0). cbn [bind].
  destruct (dict_given names Hn Hne attr val (Some (uniqueZ names)) Hat Hdim) as [-> _]; [auto|]. cbn [bind]. rewrite Hu.
  split; split; eapply sa_order; eauto.
Qed.
End Sa.

(** ** C113: MaxPRegionsHeu *)
Section MaxP.
Variables (names : list Z) (nbr : Z -> Z -> bool) (val ext : Z -> list Q) (O : objfun) (d : list Q -> list Q -> Q) (thr : list Q).
Hypothesis Hn : NoDup names.
Hypothesis Hne : names <> [].
Hypothesis Hsym : forall i j, In i names -> In j names -> nbr i j = nbr j i.
Hypothesis Hloop : forall i, In i names -> nbr i i = false.
Hypothesis Hdim : exists m, forall k, In k names -> length (val k) = m.
Hypothesis Hext : forall k, In k names -> length (ext k) = length thr /\ forall q, In q (ext k) -> (0 <= q)%Q.
Hypothesis Hex : exact_on O (map val names).
Hypothesis Hno : nameless O.

(** a new MaxPRegionsHeu object with a local search of class AZP *)
Definition maxp_object (expf : Q -> Q) (order : list edge -> list edge) (fuel max_it : nat) (entropy r : rng)
    (adj : graph) (rows sp : list (list Q)) :=
  maxp_azp_fit expf order O d fuel adj rows sp thr max_it entropy None None r.

Lemma maxp_order expf order fuel max_it max_it0 fuel0 ids g L :
  (forall l, Permutation (order l) l) -> 0 < max_it -> 0 < max_it0 -> length names + 1 < fuel -> length names + 1 < fuel0 ->
  Permutation ids names -> shown nbr val ids g (map val ids) ->
  ((exists r entropy s r', maxp_object expf order fuel max_it entropy r g (map val ids) (map ext ids) = Ok (Some (map L ids), s, r')) <->
   (exists r entropy s r', maxp_object (fun x => x) (fun l => l) fuel0 max_it0 entropy r (survey_graph names nbr) (map val names) (map ext names)
      = Ok (Some (map L names), s, r'))).
Proof.
  intros Hord Hit Hit0 Hfu Hfu0 Hp Hs. apply Permutation_sym in Hp. unfold maxp_object.
  assert (Hs2 : shown nbr ext ids g (map ext ids)) by (destruct Hs as [H1 [H2 _]]; split; [auto|split; auto]).
  assert (Hrn := shown_renumbered names ids Hn Hp nbr val _ _ _ _ (survey_shown names nbr val) Hs).
  assert (Hrn2 := shown_renumbered names ids Hn Hp nbr ext _ _ _ _ (survey_shown names nbr ext) Hs2).
  rewrite (C108_maxp_numbers (fun x => x) expf (fun l => l) order O d (survey_graph names nbr) g (map val names) (map val ids)
    (map ext names) (map ext ids) thr (fun i => find_in names (nth i ids 0%Z)) fuel0 fuel max_it0 max_it None None None None (map L ids)); auto.
  - split.
    + intros [l [Hl H]]. apply (relabelled_map_inv names ids Hn Hp) in Hl. subst l. auto.
    + intros H. exists (map L names). split; [apply relabelled_map; auto|auto].
  - eapply shown_symmetric; [apply survey_shown with (val := val)|auto].
  - intros u Hu. cbn. apply Hloop, nth_In. auto.
  - split; [rewrite map_length; auto|]. intros x Hx. apply in_map_iff in Hx. destruct Hx as [k [<- Hk]]. apply Hext; auto.
  - intros x q Hx. apply in_map_iff in Hx. destruct Hx as [k [<- Hk]]. apply Hext; auto.
  - rewrite map_length. auto.
  - exact I.
  - exact I.
Qed.

Theorem C113_maxp_interfaces G rook queen expf1 expf2 expf3 expf4 order1 order2 order3 order4 fuel1 fuel2 fuel3 fuel4 it1 it2 it3 it4
    nb attr sp w (gdf : geoframe G) a a_sp contiguity N n n_sp L up :
  (forall order, In order [order1; order2; order3; order4] -> forall l, Permutation (order l) l) ->
  (forall it, In it [it1; it2; it3; it4] -> 0 < it) ->
  (forall fuel, In fuel [fuel1; fuel2; fuel3; fuel4] -> length names + 1 < fuel) ->
  Permutation up names -> StronglySorted Z.lt up ->
  dict_lists names nbr nb -> dict_gives names val attr -> dict_gives names ext sp ->
  w_lists names nbr w ->
  gdf_lists rook queen names nbr gdf contiguity -> frame_gives (gf_frame gdf) a val -> frame_gives (gf_frame gdf) a_sp ext ->
  nx_lists names nbr N -> nx_gives names val N n -> nx_gives names ext N n_sp ->
  let ids := w_ids w in let index := f_index (gf_frame gdf) in
  let by_w := exists r entropy s r', maxp_fit_from_w _ (maxp_object expf2 order2 fuel2 it2 entropy r) w (map val ids) (map ext ids) = Ok (Some (map L ids), s, r') in
  ((exists r entropy s r', maxp_fit_from_dict _ (maxp_object expf1 order1 fuel1 it1 entropy r) (IsDict nb) (IsDict attr) (IsDict sp) = Ok (Some (map L up), s, r'))
    <-> by_w) /\
  ((exists r entropy s r', maxp_fit_from_gdf G rook queen _ (maxp_object expf3 order3 fuel3 it3 entropy r) gdf a a_sp (Some contiguity) = Ok (Some (map L index), s, r'))
    <-> by_w) /\
  ((exists r entropy s r', maxp_fit_from_networkx _ (maxp_object expf4 order4 fuel4 it4 entropy r) N n n_sp = Ok (Some (map L up), s, r'))
    <-> by_w).
Proof.
  intros Hord Hit Hfu Hup Hups Hnb Hat Hsp Hw Hg Hf Hf2 HN Hna Hns ids index by_w.
  assert (Hu : uniqueZ names = up).
  { rewrite <- (sorted_uniqueZ _ Hups). apply uniqueZ_ext. intros x. split; apply Permutation_in; auto using Permutation_sym. }
  assert (Hun : nx_nodes N = up).
  { rewrite <- Hu. rewrite <- (sorted_uniqueZ _ (proj1 (proj2 HN))). apply uniqueZ_ext.
    intros x. split; apply Permutation_in; [apply HN|apply Permutation_sym, HN]. }
  assert (Hdim2 : exists m, forall k, In k names -> length (ext k) = m) by (exists (length thr); intros k Hk; apply Hext; auto).
  assert (Hpw : Permutation ids names) by apply Hw.
  assert (Hwi : by_w <-> (exists r entropy s r', maxp_object (fun x => x) (fun l => l) fuel1 it1 entropy r (survey_graph names nbr) (map val names) (map ext names)
      = Ok (Some (map L names), s, r'))).
  { destruct (w_shown names nbr w val Hw) as [g [Eg Hs]]. unfold by_w.
    rewrite <- (maxp_order expf2 order2 fuel2 it2 it1 fuel1 ids g L) by (solve [auto | apply Hord; cbn; auto | apply Hit; cbn; auto | apply Hfu; cbn; auto]).
    unfold maxp_fit_from_w. rewrite Eg. cbn [bind]. reflexivity. }
  rewrite Hwi. split; [|split].
  - destruct (dict_matrix_shown names nbr Hn nb val Hnb) as [g [Eg Hs]]. rewrite Hu in Hs.
    rewrite <- (maxp_order expf1 order1 fuel1 it1 it1 fuel1 up g L) by (solve [auto | apply Hord; cbn; auto | apply Hit; cbn; auto | apply Hfu; cbn; auto]).
    unfold maxp_fit_from_dict.
    assert (Hk : forall V (e : dict V), Permutation (keys e) names -> same_keys e nb = true).
    { intros V e He. apply same_keys_spec. intros k. destruct Hnb as [Hnb _].
      split; intros H; [apply (Permutation_in _ (Permutation_sym Hnb)), (Permutation_in _ He); auto|
        apply (Permutation_in _ (Permutation_sym He)), (Permutation_in _ Hnb); auto]. }
    rewrite (Hk _ attr (proj1 Hat)), (Hk _ sp (proj1 Hsp)), Eg. cbn [bind].
    destruct (dict_given names Hn Hne attr val None Hat Hdim) as [-> _]; [auto|].
    destruct (dict_given names Hn Hne sp ext None Hsp Hdim2) as [-> _]; [auto|]. cbn [bind]. rewrite Hu. reflexivity.
  - destruct (gdf_w rook queen names nbr gdf contiguity Hg) as [w' [Ew [Ei Hw']]].
    destruct (w_shown names nbr w' val Hw') as [g [Eg Hs]]. rewrite Ei in Hs. fold index in Hs.
    assert (Hpi : Permutation index names) by (unfold index; rewrite <- Ei; apply Hw').
    rewrite <- (maxp_order expf3 order3 fuel3 it3 it1 fuel1 index g L) by (solve [auto | apply Hord; cbn; auto | apply Hit; cbn; auto | apply Hfu; cbn; auto]).
    unfold maxp_fit_from_gdf. rewrite Ew. cbn [bind].
    assert (Hni : f_index (gf_frame gdf) <> []) by (fold index; intros E; rewrite E in Hpi; apply Permutation_nil in Hpi; auto).
    rewrite (frame_given (gf_frame gdf) a val), (frame_given (gf_frame gdf) a_sp ext) by auto. cbn [bind].
    unfold maxp_fit_from_w. rewrite Eg. cbn [bind]. reflexivity.
  - destruct (nx_shown names nbr Hne N val HN) as [g [Eg Hs]].
    assert (Hgiv := nx_given names nbr Hn Hne N val n HN Hna). assert (Hgiv2 := nx_given names nbr Hn Hne N ext n_sp HN Hns).
    rewrite Hun in Hs, Hgiv, Hgiv2.
    rewrite <- (maxp_order expf4 order4 fuel4 it4 it1 fuel1 up g L) by (solve [auto | apply Hord; cbn; auto | apply Hit; cbn; auto 6 | apply Hfu; cbn; auto 6]).
    unfold maxp_fit_from_networkx. rewrite Eg, Hgiv, Hgiv2. cbn [bind]. reflexivity.
Qed.
End MaxP.

(** ** C114: what [fit_from_geodataframe] and [fit_from_w] hand to the algorithm *)
(** [s] is [t] with some of its small letters written as capitals *)
Inductive any_case : string -> string -> Prop :=
| ac_nil : any_case EmptyString EmptyString
| ac_same c s t : any_case s t -> any_case (String c s) (String c t)
| ac_capital c c' s t : 65 <= nat_of_ascii c <= 90 -> nat_of_ascii c' = nat_of_ascii c + 32 -> any_case s t ->
    any_case (String c s) (String c' t).

Lemma lower_char_spec c : (65 <= nat_of_ascii c <= 90 /\ nat_of_ascii (lower_char c) = nat_of_ascii c + 32) \/
  (~ (65 <= nat_of_ascii c <= 90) /\ lower_char c = c).
Proof.
  unfold lower_char. destruct (Nat.leb_spec 65 (nat_of_ascii c)); [|right; split; [lia|auto]].
  destruct (Nat.leb_spec (nat_of_ascii c) 90); [|right; split; [lia|auto]]. left. split; [lia|]. cbn [andb].
  apply nat_ascii_embedding. lia.
Qed.

Lemma nat_of_ascii_inj c c' : nat_of_ascii c = nat_of_ascii c' -> c = c'.
Proof. intros H. rewrite <- (ascii_nat_embedding c), <- (ascii_nat_embedding c'), H. reflexivity. Qed.

(** [t] has no capitals *)
Fixpoint no_capitals (t : string) : Prop :=
  match t with EmptyString => True | String c t' => ~ (65 <= nat_of_ascii c <= 90) /\ no_capitals t' end.

Lemma lower_any_case s t : no_capitals t -> (lower s = t <-> any_case s t).
Proof.
  revert t. induction s as [|c s IH]; intros t Ht; cbn [lower]; split.
  - intros <-. constructor.
  - inversion 1. reflexivity.
  - intros <-. cbn in Ht. destruct Ht as [Hc Ht]. apply IH in Ht. destruct Ht as [Ht _]. specialize (Ht eq_refl).
    destruct (lower_char_spec c) as [[H1 H2]|[H1 H2]]; [apply ac_capital; auto|rewrite H2; apply ac_same; auto].
  - intros H. inversion H as [|c1 s1 t1 H1|c1 c' s1 t1 Hr Hc H1]; subst; cbn in Ht; destruct Ht as [Hnc Ht]; apply IH in H1; auto; rewrite H1; f_equal.
    + destruct (lower_char_spec c) as [[H2 _]|[_ H2]]; [lia|auto].
    + destruct (lower_char_spec c) as [[_ H2]|[H2 _]]; [|lia]. apply nat_of_ascii_inj. lia.
Qed.

Lemma rook_queen_small : no_capitals "rook" /\ no_capitals "queen".
Proof. split; cbn; intuition lia. Qed.

Theorem C114_contiguity G rook queen R fit fit' fit'' (gdf : geoframe G) a a_sp contiguity initial :
  (forall s, contiguity = Some s -> ~ any_case s "rook" /\ ~ any_case s "queen") ->
  (exists msg, azp_fit_from_gdf G rook queen R fit gdf a contiguity initial = Raise (ValueError msg)) /\
  (exists msg, pexact_fit_from_gdf G rook queen R fit' gdf a contiguity = Raise (ValueError msg)) /\
  (exists msg, maxp_fit_from_gdf G rook queen R fit'' gdf a a_sp contiguity = Raise (ValueError msg)).
Proof.
  intros H. destruct rook_queen_small as [Hr Hq].
  assert (E : exists msg, w_from_gdf G rook queen gdf contiguity = Raise (ValueError msg)).
  { destruct contiguity as [s|]; cbn [w_from_gdf]; [|eauto]. destruct (H s eq_refl) as [H1 H2].
    destruct (String.eqb_spec (lower s) "rook") as [E|_]; [apply lower_any_case in E; auto; contradiction|].
    destruct (String.eqb_spec (lower s) "queen") as [E|_]; [apply lower_any_case in E; auto; contradiction|]. eauto. }
  destruct E as [msg E]. unfold azp_fit_from_gdf, pexact_fit_from_gdf, maxp_fit_from_gdf. rewrite E. cbn [bind]. split; [|split]; eexists; reflexivity.
Qed.

Theorem C114_aligned G rook queen R fit fit' fit'' (gdf : geoframe G) a a_sp s t initial w val ext :
  t = "rook"%string /\ rook (f_index (gf_frame gdf)) (gf_shapes gdf) = Ok w \/
  t = "queen"%string /\ queen (f_index (gf_frame gdf)) (gf_shapes gdf) = Ok w ->
  any_case s t -> f_index (gf_frame gdf) <> [] -> frame_gives (gf_frame gdf) a val -> frame_gives (gf_frame gdf) a_sp ext ->
  (forall i j, In i (w_ids w) -> In j (w_neighbors w i) -> In j (w_ids w)) ->
  exists g, gn g = length (w_ids w) /\
    (forall i j x y, nth_error (w_ids w) i = Some x -> nth_error (w_ids w) j = Some y -> (gadj g i j = true <-> In y (w_neighbors w x))) /\
    let index := f_index (gf_frame gdf) in
    azp_fit_from_gdf G rook queen R fit gdf a (Some s) initial = fit g (map val index) initial /\
    pexact_fit_from_gdf G rook queen R fit' gdf a (Some s) = fit' g (map val index) /\
    maxp_fit_from_gdf G rook queen R fit'' gdf a a_sp (Some s) = fit'' g (map val index) (map ext index) /\
    (forall rows, azp_fit_from_w R fit w rows initial = fit g rows initial /\ pexact_fit_from_w R fit' w rows = fit' g rows) /\
    (forall rows sp, maxp_fit_from_w R fit'' w rows sp = fit'' g rows sp).
Proof.
  intros Ht Hs Hne Hf Hf2 Hc. destruct rook_queen_small as [Hr Hq].
  assert (Ew : w_from_gdf G rook queen gdf (Some s) = Ok w).
  { cbn [w_from_gdf]. destruct Ht as [[-> E]|[-> E]]; apply lower_any_case in Hs; auto; rewrite Hs; exact E. }
  assert (Eg : scipy_sparse_matrix_from_w w = Ok (mkG (length (w_ids w)) (fun i j => Nat.ltb i (length (w_ids w)) && Nat.ltb j (length (w_ids w)) &&
    membZ (nth j (w_ids w) 0%Z) (w_neighbors w (nth i (w_ids w) 0%Z))))).
  { unfold scipy_sparse_matrix_from_w. rewrite (proj2 (forallb_forall _ _)); [reflexivity|]. intros i Hi. apply forallb_forall.
    intros j Hj. apply membZ_In. eauto. }
  match type of Eg with _ = Ok ?g0 => exists g0 end. split; [|split].
  3: { cbv zeta. unfold azp_fit_from_gdf, pexact_fit_from_gdf, maxp_fit_from_gdf, azp_fit_from_w, pexact_fit_from_w, maxp_fit_from_w.
    rewrite Ew. cbn [bind]. rewrite (frame_given _ a val), (frame_given _ a_sp ext) by auto. cbn [bind]. rewrite Eg. cbn [bind].
    split; [reflexivity|]. split; [reflexivity|]. split; [reflexivity|]. split; [split; reflexivity|reflexivity]. }
  - reflexivity.
  - intros i j x y Hi Hj. cbn [gadj]. assert (Hi' : i < length (w_ids w)) by (apply nth_error_Some; congruence).
    assert (Hj' : j < length (w_ids w)) by (apply nth_error_Some; congruence).
    rewrite (proj2 (Nat.ltb_lt _ _) Hi'), (proj2 (Nat.ltb_lt _ _) Hj'), (nth_error_nth _ _ 0%Z Hi), (nth_error_nth _ _ 0%Z Hj). cbn [andb].
    apply membZ_In.
Qed.

(** PRegionsExact.fit_from_networkx reads nodes and attributes like the other classes. *)
Theorem C114_pexact_networkx R fit names nbr val N a : NoDup names -> names <> [] -> nx_lists names nbr N -> nx_gives names val N a ->
  exists g, gn g = length names /\ pexact_fit_from_networkx R fit N a = fit g (map val (nx_nodes N)) /\
    forall i j x y, nth_error (nx_nodes N) i = Some x -> nth_error (nx_nodes N) j = Some y -> gadj g i j = nbr x y.
Proof.
  intros Hn Hne HN Ha. destruct (nx_shown names nbr Hne N val HN) as [g [Eg [H1 [H2 _]]]]. exists g.
  split; [rewrite H1; apply Permutation_length, HN|]. split.
  - unfold pexact_fit_from_networkx. rewrite Eg, (nx_given names nbr Hn Hne N val a HN Ha). reflexivity.
  - intros i j x y Hi Hj. rewrite H2 by (apply nth_error_Some; congruence). rewrite (nth_error_nth _ _ 0%Z Hi), (nth_error_nth _ _ 0%Z Hj). reflexivity.
Qed.

(** *** Four areas 30 - 10 - 20 - 40 in a row with attributes 0, 1, 9, 10. *)
Definition row_names : list Z := [30; 10; 20; 40]%Z.
Definition row_nbr (i j : Z) : bool :=
  existsb (fun '(a, b) => (Z.eqb a i && Z.eqb b j) || (Z.eqb a j && Z.eqb b i)) [(30, 10); (10, 20); (20, 40)]%Z.
Definition row_val (k : Z) : list Q := [if Z.eqb k 30 then 0 else if Z.eqb k 10 then 1 else if Z.eqb k 20 then 9 else 10]%Q.
Definition row_start (k : Z) : Z := if Z.eqb k 30 then 0%Z else 1%Z.
Definition row_found (k : Z) : Z := if Z.eqb k 30 || Z.eqb k 10 then 0%Z else 1%Z.
Definition row_dict : dict (list Z) := [(10, [30; 20]); (40, [20]); (30, [10]); (20, [10; 40])]%Z.
Definition row_attr : dict (value Q) := [(30%Z, Scalar 0%Q); (40%Z, Scalar 10%Q); (20%Z, Scalar 9%Q); (10%Z, Scalar 1%Q)].
Definition row_init : dict (value Z) := [(10, Scalar 1); (20, Scalar 1); (30, Scalar 0); (40, Scalar 1)]%Z.
Definition row_w : wobj := mkW [40; 30; 20; 10]%Z (fun k => match dlookup row_dict k with Some l => l | None => [] end).
(** intervals as geometries: areas touch if they share an end point *)
Definition touching (index : list Z) (shapes : list (Q * Q)) : out wobj :=
  let meet (x y : Q * Q) := Qeq_bool (snd x) (fst y) || Qeq_bool (snd y) (fst x) in
  Ok (mkW index (fun k => flat_map (fun '(i, x) => if Z.eqb i k then map fst (filter (fun p => meet x (snd p)) (combine index shapes)) else [])
                                   (combine index shapes))).
Definition row_gdf : geoframe (Q * Q) :=
  mkGeo (mkFrame [20; 40; 10; 30]%Z [("size"%string, repeat 1%Q 4); ("value"%string, [9; 10; 1; 0]%Q)]) [(2, 3); (3, 4); (1, 2); (0, 1)]%Q.
Definition row_nx : nxgraph := mkNx [10; 20; 30; 40]%Z row_nbr (fun s k => if String.eqb s "size" then Some 1%Q else Some (hd 0%Q (row_val k))).

Lemma row_facts : NoDup row_names /\ row_names <> [] /\ (forall i j, In i row_names -> In j row_names -> row_nbr i j = row_nbr j i) /\
  (forall i, In i row_names -> row_nbr i i = false) /\ valid_request (survey_graph row_names row_nbr) 2 (Some (map row_start row_names)) /\
  exact_on (pairwise manhattan) (map row_val row_names) /\ nameless (pairwise manhattan).
Proof.
  split; [repeat constructor; cbn; intuition congruence|]. split; [discriminate|].
  split; [intros i j Hi Hj; repeat (destruct Hi as [<-|Hi]; [repeat (destruct Hj as [<-|Hj]; [reflexivity|]); destruct Hj|]); destruct Hi|].
  split; [intros i Hi; repeat (destruct Hi as [<-|Hi]; [reflexivity|]); destruct Hi|]. split; [valid_tac|].
  split; [apply pairwise_exact_on; [apply manhattan_sym|apply manhattan_zero]|apply pairwise_nameless, manhattan_sym].
Qed.

Ltac same_neighbours := split;
  [let H := fresh in intros H; repeat (destruct H as [<-|H]; [split; [cbn; tauto|reflexivity]|]); destruct H|
   let H := fresh in let E := fresh in intros [H E]; repeat (destruct H as [<-|H]; [first [discriminate E|cbn; tauto]|]); destruct H].

Lemma row_given : dict_lists row_names row_nbr row_dict /\ dict_gives row_names row_val row_attr /\
  dict_gives row_names (fun k => [row_start k]) row_init /\ w_lists row_names row_nbr row_w /\
  gdf_lists touching touching row_names row_nbr row_gdf "rook" /\ frame_gives (gf_frame row_gdf) (OneCol "value") row_val /\
  frame_gives (gf_frame row_gdf) (ColSeq [AStr "size"]) (fun _ => [1%Q]) /\
  nx_lists row_names row_nbr row_nx /\ nx_gives row_names row_val row_nx (ByName "value") /\ nx_gives row_names (fun _ => [1%Q]) row_nx (ByNames ["size"%string]).
Proof.
  assert (Hperm : forall l, NoDup l -> (forall x, In x l <-> In x row_names) -> Permutation l row_names) by (intros l Hl Hx; apply NoDup_Permutation; auto; apply row_facts).
  assert (Hd4 : forall l, In l [[10; 40; 30; 20]; [30; 40; 20; 10]; [10; 20; 30; 40]; [40; 30; 20; 10]; [20; 40; 10; 30]]%Z -> Permutation l row_names).
  { intros l H. repeat (destruct H as [<-|H]; [apply Hperm; [repeat constructor; cbn; intuition congruence|cbn; tauto]|]). destruct H. }
  assert (Hfr : wf_frame (gf_frame row_gdf) /\ NoDup (map fst (f_cols (gf_frame row_gdf)))).
  { split; [intros s c [E|[E|[]]]; injection E as <- <-; reflexivity|]. repeat constructor; cbn; intuition congruence. }
  split; [split; [apply Hd4; cbn; auto|intros i js H; repeat (destruct H as [E|H]; [injection E as <- <-; intros j; same_neighbours|]); destruct H]|].
  split; [split; [apply Hd4; cbn; auto|split; [exists false|]; intros k v H; repeat (destruct H as [E|H]; [injection E as <- <-; reflexivity|]); destruct H]|].
  split; [split; [apply Hd4; cbn; auto|split; [exists false|]; intros k v H; repeat (destruct H as [E|H]; [injection E as <- <-; reflexivity|]); destruct H]|].
  split; [split; [apply Hd4; cbn; auto 6|intros i H; repeat (destruct H as [<-|H]; [intros j; same_neighbours|]); destruct H]|].
  split.
  { eexists. split; [left; split; [reflexivity|reflexivity]|]. split; [reflexivity|]. split; [apply Hd4; cbn; auto 7|].
    intros i H. repeat (destruct H as [<-|H]; [intros j; vm_compute (w_neighbors _ _); same_neighbours|]). destruct H. }
  split.
  { split; [apply Hfr|]. split; [apply Hfr|]. exists ["value"%string]. split; [left; eexists; split; reflexivity|].
    intros i k Hi. do 4 (destruct i as [|i]; [injection Hi as <-; repeat constructor; eexists; split; [right; left; reflexivity|reflexivity]|]). destruct i; discriminate. }
  split.
  { split; [apply Hfr|]. split; [apply Hfr|]. exists ["size"%string]. split; [right; reflexivity|].
    intros i k Hi. do 4 (destruct i as [|i]; [injection Hi as <-; repeat constructor; eexists; split; [left; reflexivity|reflexivity]|]). destruct i; discriminate. }
  split; [split; [apply Hd4; cbn; auto|split; [repeat constructor|reflexivity]]|].
  split; right.
  - exists ["value"%string]. split; [right; eexists; split; reflexivity|reflexivity].
  - exists ["size"%string]. split; [left; reflexivity|]. reflexivity.
Qed.

(** C111: area by area the same result, each interface in its own order. *)
Example C111_example :
  tabu_labels (azp_fit_from_dict _ (azp_object (pairwise manhattan) 2 (fun x => x) same_order 300 dum rng0) row_dict row_attr (Some row_init))
    = Some (map row_found [10; 20; 30; 40]%Z) /\
  tabu_labels (azp_fit_from_w _ (azp_object (pairwise manhattan) 2 (fun x => x) same_order 300 dum rng0) row_w (map row_val (w_ids row_w)) (Some (map row_start (w_ids row_w))))
    = Some (map row_found (w_ids row_w)) /\
  tabu_labels (azp_fit_from_gdf _ touching touching _ (azp_object (pairwise manhattan) 2 (fun x => x) same_order 300 dum rng0) row_gdf (OneCol "value") (Some "rook"%string)
      (Some (map row_start [20; 40; 10; 30]%Z)))
    = Some (map row_found [20; 40; 10; 30]%Z) /\
  map row_found [10; 20; 30; 40]%Z = [0; 1; 0; 1]%Z /\ map row_found (w_ids row_w) = [1; 0; 1; 0]%Z.
Proof. repeat (split; [vm_compute; reflexivity|]). vm_compute; reflexivity. Qed.

(** C112: the same areas annealed. *)
Definition last_alone (k : Z) : Z := if Z.eqb k 40 then 1%Z else 0%Z.
Example C112_example :
  let obj := sa_object (pairwise manhattan) 2 half 1 (Some 2) 1 1 2 (1 # 2) same_order 300 50 in
  option_map fst (result_of (azp_fit_from_dict _ (obj S) row_dict row_attr (Some row_init))) = Some (Some (map last_alone [10; 20; 30; 40]%Z)) /\
  option_map fst (result_of (azp_fit_from_w _ (obj S) row_w (map row_val (w_ids row_w)) (Some (map row_start (w_ids row_w))))) = Some (Some (map last_alone (w_ids row_w))).
Proof. split; vm_compute; reflexivity. Qed.

(** C113: at least two areas per region. *)
Example C113_example :
  let obj := maxp_object (pairwise manhattan) manhattan [2%Q] expd same_order 40 3 rng0 in
  let size := fun _ : Z => [1%Q] in
  mp_labels (maxp_fit_from_dict _ (obj rng0) (IsDict row_dict) (IsDict row_attr) (IsDict (map (fun k => (k, Iter [1%Q])) [40; 10; 20; 30]%Z))) = Some (map row_found [10; 20; 30; 40]%Z) /\
  mp_labels (maxp_fit_from_w _ (obj S) row_w (map row_val (w_ids row_w)) (map size (w_ids row_w))) = Some (map row_found (w_ids row_w)) /\
  mp_labels (maxp_fit_from_gdf _ touching touching _ (obj (fun _ => 2)) row_gdf (OneCol "value") (ColSeq [AStr "size"]) (Some "rook"%string)) = Some (map row_found [20; 40; 10; 30]%Z) /\
  mp_labels (maxp_fit_from_networkx _ (obj rng0) row_nx (ByName "value") (ByNames ["size"%string])) = Some (map row_found [10; 20; 30; 40]%Z).
Proof. cbv zeta. repeat (split; [vm_compute; reflexivity|]). vm_compute; reflexivity. Qed.

(** C114: "ROOK" and "rOOk" are rook, "bishop" is an error. *)
Example C114_example :
  any_case "rOOk" "rook" /\ any_case "Queen" "queen" /\ ~ any_case "bishop" "rook" /\ ~ any_case "bishop" "queen" /\ ~ any_case "rook " "rook" /\
  pexact_fit_from_gdf _ touching touching (list (list Q)) (fun g rows => Ok rows) row_gdf (OneCol "value") (Some "rOOk"%string) = Ok (map row_val [20; 40; 10; 30]%Z).
Proof.
  destruct rook_queen_small as [Hr Hq].
  repeat split; try (apply lower_any_case; [auto|reflexivity]); intros H; apply lower_any_case in H; auto; discriminate H.
Qed.

Print Assumptions C111_azp_interfaces.
Print Assumptions C112_sa_interfaces.
Print Assumptions C113_maxp_interfaces.
Print Assumptions C114_contiguity.
Print Assumptions C114_aligned.
Print Assumptions C114_pexact_networkx.
