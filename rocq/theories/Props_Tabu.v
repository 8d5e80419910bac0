(** Property theorems C27-C32, C65: AZPBasicTabu.fit and AZPReactiveTabu.fit. *)
From Verif Require Import Base Spec M_Graph P_Graph M_Util P_Base P_Util P_Forest P_Init P_Initial
  M_Objective P_Sum P_Objective M_Azp P_Azp P_Strategy P_Fit P_AzpFit Examples Props_Objective Props_Azp
  M_Sa P_Sa M_Tabu P_Tabu P_TabuFit P_Reactive.

Section Tabu.
Variables (order : list edge -> list edge) (O : objfun) (g : graph) (attr : list (list Q)).
Hypothesis Hord : forall l, Permutation (order l) l.
Hypothesis Hattr : length attr = gn g.

Lemma any_assembled l0 labels : wf g l0 -> length labels = gn g ->
  (forall c, c < n_components g -> wf (comp_graph g c) (comp_part g labels c) /\
     any_I O (attr_c attr g c) (comp_part g l0 c) (comp_part g labels c)) ->
  all_contiguous g labels /\ (forall z, In z labels -> In z l0).
Proof.
  intros Hwf Hlen HR.
  assert (Hp : forall c, c < n_components g -> wf (comp_graph g c) (comp_part g labels c) /\
     (forall z, In z (comp_part g labels c) -> In z (comp_part g l0 c))).
  { intros c Hc. destruct (HR c Hc) as [H1 [H2 _]]. auto. }
  split; [apply (assembled_wf_sub g l0 labels Hwf Hlen Hp)|].
  intros z Hz. apply In_nth_error in Hz. destruct Hz as [a Ha].
  destruct (assembled_comp_sub g l0 labels Hwf Hlen Hp a z Ha) as [b [Hb _]]. eapply nth_error_In; eauto.
Qed.

Lemma keep_assembled Ob l0 labels p : feasible g l0 p -> length labels = gn g ->
  (forall c, c < n_components g -> wf (comp_graph g c) (comp_part g labels c) /\
     keep_I Ob (attr_c attr g c) (comp_part g l0 c) (comp_part g labels c)) ->
  feasible g labels p.
Proof.
  intros [Hl0 [Hn0 Hall0]] Hlen HR.
  assert (Hp : forall c, c < n_components g -> wf (comp_graph g c) (comp_part g labels c) /\
     same_labels (comp_part g labels c) (comp_part g l0 c)).
  { intros c Hc. destruct (HR c Hc) as [H1 [H2 _]]. auto. }
  split; [auto|]. split; [|apply (assembled_wf g l0 labels); auto; split; auto].
  rewrite <- Hn0. apply same_labels_n. apply (assembled_same_labels g); auto. split; auto.
Qed.

(** ** C27: contiguity *)
(** For every objective object: when AZPBasicTabu.fit returns, every area is labelled with the
    name of a region of the start, and the regions are contiguous. *)
Theorem C27_basic_tabu_contiguous fuel tabu_length reps p initial c0 r labels c' r' :
  shape_ok g initial ->
  basic_fit order O fuel tabu_length reps g attr p initial c0 r = Ok ((labels, c'), r') ->
  length labels = gn g /\ all_contiguous g labels /\
  exists labels0, start_labels g p initial labels0 /\ forall z, In z labels -> In z labels0.
Proof.
  intros Hsh H. assert (Hv : valid_request g p initial) by (eapply fit_returns_valid; eauto).
  pose proof (basic_fit_any O attr g Hattr order Hord fuel tabu_length reps p initial c0 r (valid_good _ _ _ Hv)) as Hp.
  rewrite H in Hp. destruct Hp as [l0 [Hst [Hlen HR]]].
  pose proof Hst as [[Hl0 [_ Hall0]] _].
  destruct (any_assembled l0 labels (conj Hl0 Hall0) Hlen HR) as [Hc Hsub].
  split; [auto|]. split; [auto|]. exists l0. split; [apply started_start; auto|auto].
Qed.

(** ** C28: the objective never gets worse *)
Theorem C28_basic_tabu_no_worse fuel tabu_length reps p initial c0 r labels c' r' :
  exact_on O attr -> shape_ok g initial ->
  basic_fit order O fuel tabu_length reps g attr p initial c0 r = Ok ((labels, c'), r') ->
  exists labels0, start_labels g p initial labels0 /\
    forall v isl, v < gn g -> island g v isl ->
      exists x y, objective_at O attr isl labels0 = Ok x /\ objective_at O attr isl labels = Ok y /\ (y <= x)%Q.
Proof.
  intros Hex Hsh H. assert (Hv : valid_request g p initial) by (eapply fit_returns_valid; eauto).
  pose proof (basic_fit_any O attr g Hattr order Hord fuel tabu_length reps p initial c0 r (valid_good _ _ _ Hv)) as Hp.
  rewrite H in Hp. destruct Hp as [l0 [Hst [Hlen HR]]]. exists l0. split; [apply started_start; auto|].
  intros v isl Hv1 Hi. rewrite (island_comp_nodes g v isl Hv1 Hi).
  destruct (HR (comp_label g v) (comp_label_lt g v Hv1)) as [_ [_ Hw]].
  destruct (Hw (attr_c_exact O attr Hex g Hattr (comp_label g v))) as [x [y Hxy]]. exists x, y. exact Hxy.
Qed.

(** ** C27, C29, C65 for the pairwise objective with a non-negative metric *)
Lemma quiet_islands obj : (forall v isl, v < gn g -> island g v isl -> no_ties obj (rows_at attr isl)) ->
  forall c, c < n_components g -> no_ties obj (attr_c attr g c).
Proof.
  intros Hnt c Hc. destruct (comp_label_onto g c Hc) as [v [Hv1 <-]]. apply (Hnt v); auto. apply comp_nodes_island; auto.
Qed.

Section Pair.
Variable d : list Q -> list Q -> Q.
Hypothesis Hs : forall x y, (d x y == d y x)%Q.
Hypothesis Hz : forall x, (d x x == 0)%Q.
Hypothesis Hpos : forall x y, (0 <= d x y)%Q.

Theorem C27_basic_tabu_feasible_pairwise fuel tabu_length reps p initial c0 r labels c' r' :
  shape_ok g initial ->
  basic_fit order (pairwise d) fuel tabu_length reps g attr p initial c0 r = Ok ((labels, c'), r') ->
  feasible g labels (Z.to_nat p).
Proof.
  intros Hsh H. assert (Hv : valid_request g p initial) by (eapply fit_returns_valid; eauto).
  pose proof (basic_fit_pairwise attr g Hattr order Hord d Hs Hz Hpos True
    fuel tabu_length reps p initial c0 r (or_introl Logic.I) (valid_good _ _ _ Hv) (or_introl Logic.I)) as Hp.
  rewrite H in Hp. destruct Hp as [l0 [[Hf _] [Hlen HR]]]. eapply keep_assembled; eauto.
Qed.

(** C65 (partial): missing are the center objectives, see the refutation. *)
Theorem C65_basic_tabu_no_exception_partial fuel tabu_length reps p initial c0 r e :
  valid_request g p initial ->
  basic_fit order (pairwise d) fuel tabu_length reps g attr p initial c0 r <> Raise e.
Proof.
  intros Hv H.
  pose proof (basic_fit_pairwise attr g Hattr order Hord d Hs Hz Hpos True
    fuel tabu_length reps p initial c0 r (or_introl Logic.I) (valid_good _ _ _ Hv) (or_introl Logic.I)) as Hp.
  rewrite H in Hp. exact Hp.
Qed.

(** C29 (partial): when no move leaves the objective of an island unchanged, fit returns, whatever
    the random draws.  Missing: with ties it may run forever, see the refutation. *)
Theorem C29_basic_tabu_terminates_partial reps :
  (forall v isl, v < gn g -> island g v isl -> no_ties (pairwise d) (rows_at attr isl)) ->
  exists bound, forall fuel tabu_length p initial c0 r, bound <= fuel -> valid_request g p initial ->
    exists labels c' r', basic_fit order (pairwise d) fuel tabu_length reps g attr p initial c0 r = Ok ((labels, c'), r').
Proof.
  intros Hnt. exists (S (tabu_fuel (gn g) reps)). intros fuel tabu_length p initial c0 r Hf Hv.
  assert (Hq : False \/ quiet attr g (pairwise d) tabu_length p).
  { right. left. apply quiet_islands. exact Hnt. }
  assert (Hf' : False \/ tabu_fuel (gn g) reps < fuel) by (right; lia).
  pose proof (basic_fit_pairwise attr g Hattr order Hord d Hs Hz Hpos False
    fuel tabu_length reps p initial c0 r Hq (valid_good _ _ _ Hv) Hf') as Hp.
  apply post_total in Hp. destruct Hp as [[[labels c'] r'] [E _]]. eauto.
Qed.

(** C29 (partial): with the default, unlimited tabu list and at most two regions, fit returns even
    when moves leave the objective unchanged.  Missing: three or more regions, see the refutation,
    whose witness has three. *)
Theorem C29_two_regions_partial reps :
  exists bound, forall fuel p initial c0 r, bound <= fuel -> valid_request g p initial -> (p <= 2)%Z ->
    exists labels c' r', basic_fit order (pairwise d) fuel None reps g attr p initial c0 r = Ok ((labels, c'), r').
Proof.
  exists (S (tabu_fuel (gn g) reps)). intros fuel p initial c0 r Hf Hv H2.
  assert (Hq : False \/ quiet attr g (pairwise d) None p) by (right; right; auto).
  assert (Hf' : False \/ tabu_fuel (gn g) reps < fuel) by (right; lia).
  pose proof (basic_fit_pairwise attr g Hattr order Hord d Hs Hz Hpos False
    fuel None reps p initial c0 r Hq (valid_good _ _ _ Hv) Hf') as Hp.
  apply post_total in Hp. destruct Hp as [[[labels c'] r'] [E _]]. eauto.
Qed.
End Pair.

(** C27 for the center objectives (sum reduction) *)
Theorem C27_basic_tabu_feasible_center d center fuel tabu_length reps p initial c0 r labels c' r' :
  shape_ok g initial ->
  basic_fit order (centered d center sumQ) fuel tabu_length reps g attr p initial c0 r = Ok ((labels, c'), r') ->
  feasible g labels (Z.to_nat p).
Proof.
  intros Hsh H. assert (Hv : valid_request g p initial) by (eapply fit_returns_valid; eauto).
  pose proof (basic_fit_centered attr g Hattr order Hord d center True
    fuel tabu_length reps p initial c0 r (or_introl Logic.I) (valid_good _ _ _ Hv) (or_introl Logic.I)) as Hp.
  rewrite H in Hp. destruct Hp as [l0 [[Hf _] [Hlen HR]]]. eapply keep_assembled; eauto.
Qed.

(** C29 (partial) for the center objectives (sum reduction): under the same conditions fit comes to an
    end, with labels or with an exception (C65). *)
Theorem C29_center_ends_partial d center reps :
  exists bound, forall fuel tabu_length p initial c0 r, bound <= fuel -> valid_request g p initial ->
    ((forall v isl, v < gn g -> island g v isl -> no_ties (centered d center sumQ) (rows_at attr isl)) \/
     (tabu_length = None /\ (p <= 2)%Z)) ->
    (exists labels c' r', basic_fit order (centered d center sumQ) fuel tabu_length reps g attr p initial c0 r = Ok ((labels, c'), r')) \/
    (exists e, basic_fit order (centered d center sumQ) fuel tabu_length reps g attr p initial c0 r = Raise e).
Proof.
  exists (S (tabu_fuel (gn g) reps)). intros fuel tabu_length p initial c0 r Hf Hv Hc.
  assert (Hq : False \/ quiet attr g (centered d center sumQ) tabu_length p).
  { right. destruct Hc as [Hc|Hc]; [left; apply quiet_islands; exact Hc|right; auto]. }
  assert (Hf' : False \/ tabu_fuel (gn g) reps < fuel) by (right; lia).
  pose proof (basic_fit_centered attr g Hattr order Hord d center False
    fuel tabu_length reps p initial c0 r Hq (valid_good _ _ _ Hv) Hf') as Hp.
  destruct (basic_fit _ _ _ _ _ _ _ _ _ _ _) as [[[labels c'] r']|e|]; [left|right|destruct Hp]; eauto.
Qed.

(** ** C30: AZPReactiveTabu, freshly constructed, connected graph *)
Section Reactive.
Hypothesis Hone : n_islands g 1.

Theorem C30_reactive_contiguous max_iterations k1 k2 c0 s p initial r labels s' r' :
  reactive_new max_iterations c0 = Ok s -> shape_ok g initial ->
  reactive_fit order O (Z.to_nat max_iterations) k1 k2 g attr p initial s r = Ok ((labels, s'), r') ->
  length labels = gn g /\ all_contiguous g labels.
Proof.
  intros Hnew Hsh H. assert (Hv : valid_request g p initial) by (eapply fit_returns_valid; eauto).
  assert (Hfresh : fresh_reactive s).
  { unfold reactive_new in Hnew. destruct (Z.leb _ _); [discriminate|]. injection Hnew as <-. split; reflexivity. }
  assert (Hc1 : n_components g = 1) by (apply n_islands_iff in Hone; auto).
  pose proof (reactive_fit_any O attr g Hattr order Hord Hc1 (Z.to_nat max_iterations) k1 k2 p initial s r (valid_good _ _ _ Hv) Hfresh) as Hp.
  rewrite H in Hp. destruct Hp as [l0 [Hst [Hlen HR]]].
  pose proof Hst as [[Hl0 [_ Hall0]] _].
  destruct (any_assembled l0 labels (conj Hl0 Hall0) Hlen HR) as [Hc _]. auto.
Qed.

Theorem C30_reactive_feasible_no_worse max_iterations k1 k2 c0 s p initial r labels s' r' :
  exact_on O attr -> reactive_new max_iterations c0 = Ok s -> shape_ok g initial ->
  reactive_fit order O (Z.to_nat max_iterations) k1 k2 g attr p initial s r = Ok ((labels, s'), r') ->
  feasible g labels (Z.to_nat p) /\
  exists labels0 x y, start_labels g p initial labels0 /\
    o_call O labels0 attr = Ok x /\ o_call O labels attr = Ok y /\ (y <= x)%Q.
Proof.
  intros Hex Hnew Hsh H. assert (Hv : valid_request g p initial) by (eapply fit_returns_valid; eauto).
  assert (Hfresh : fresh_reactive s).
  { unfold reactive_new in Hnew. destruct (Z.leb _ _); [discriminate|]. injection Hnew as <-. split; reflexivity. }
  assert (Hc1 : n_components g = 1) by (apply n_islands_iff in Hone; auto).
  pose proof (reactive_fit_exact O attr g Hattr order Hord Hc1 (Z.to_nat max_iterations) k1 k2 p initial s r Hex (valid_good _ _ _ Hv) Hfresh) as Hp.
  rewrite H in Hp. destruct Hp as [l0 [Hst [Hlen HR]]].
  split; [destruct Hst as [Hf _]; eapply keep_assembled; eauto|].
  destruct (HR 0 ltac:(lia)) as [_ [_ Hw]]. destruct (Hw (attr_c_exact O attr Hex g Hattr 0)) as [x [y Hxy]].
  exists l0, x, y. split; [apply started_start; auto|].
  assert (Hnodes : comp_nodes g 0 = seq 0 (gn g)).
  { unfold comp_nodes. apply filter_all. intros a Ha. apply in_seq in Ha. apply Nat.eqb_eq.
    pose proof (comp_label_lt g a ltac:(lia)). lia. }
  assert (Hpart : forall l, length l = gn g -> comp_part g l 0 = l).
  { intros l Hl. unfold comp_part, gather. rewrite Hnodes, <- Hl. apply map_nth_seq. }
  assert (Hatt : attr_c attr g 0 = attr).
  { unfold attr_c, row. rewrite Hnodes, <- Hattr. apply map_nth_seq. }
  destruct Hst as [[Hl0 _] _]. rewrite !Hpart, Hatt in Hxy by auto. exact Hxy.
Qed.

(** C32 (partial): a fresh object with k1 >= 1 returns, or raises AttributeError because every
    remaining move is tabu.  Missing: that second case happens, see the refutation. *)
Theorem C32_reactive_exceptions_partial max_iterations k1 k2 c0 s p initial r :
  exact_on O attr -> reactive_new max_iterations c0 = Ok s -> 1 <= k1 -> valid_request g p initial ->
  (exists labels s' r', reactive_fit order O (Z.to_nat max_iterations) k1 k2 g attr p initial s r = Ok ((labels, s'), r')) \/
  reactive_fit order O (Z.to_nat max_iterations) k1 k2 g attr p initial s r = Raise AttributeError.
Proof.
  intros Hex Hnew Hk Hv.
  assert (Hc1 : n_components g = 1) by (apply n_islands_iff in Hone; auto).
  unfold reactive_new in Hnew. destruct (Z.leb_spec max_iterations 0) as [|Hm]; [discriminate|]. injection Hnew as <-.
  pose proof (reactive_fit_k1 O attr g Hattr order Hord Hc1 (Z.to_nat max_iterations) k1 k2 p initial
    (mkReactive c0 1 1 []) r Hex (valid_good _ _ _ Hv) (conj eq_refl (Qeq_refl 1)) Hk ltac:(lia)) as Hp.
  destruct (reactive_fit _ _ _ _ _ _ _ _ _ _ _) as [[[labels s'] r']|e|]; [left; eauto|right|destruct Hp].
  cbn in Hp. unfold no_best in Hp. subst e. reflexivity.
Qed.
End Reactive.
End Tabu.

(** ** Examples and refutations *)
Local Notation att := (map (fun q => [q])).
Definition tabu_labels {S} (o : out ((list Z * S) * rng)) : option (list Z) :=
  match o with Ok ((l, _), _) => Some l | _ => None end.
Definition tabu_exn {S} (o : out ((list Z * S) * rng)) : option exn :=
  match o with Raise e => Some e | _ => None end.
Definition basic_ex O g attr tabu_length reps p initial r :=
  basic_fit same_order O 60 tabu_length reps g (att attr) p initial dum r.

Example C27_example :
  tabu_labels (basic_ex (pairwise manhattan) two_islands [1;1;5;2;2]%Q None 2 3%Z (Some [7;4;4;9;9]%Z) rng0) = Some [7;7;4;9;9]%Z /\
  tabu_labels (basic_ex (pairwise manhattan) (path_graph 4) [1;1;5;5]%Q None 2 2%Z None rng0) = Some [0;0;1;1]%Z /\
  tabu_labels (basic_ex (centered manhattan mean_row sumQ) two_islands [1;1;5;2;2]%Q None 2 3%Z (Some [7;4;4;9;9]%Z) rng0) = Some [7;7;4;9;9]%Z.
Proof. vm_compute. auto. Qed.

(** C65: the search may ask for the gain of emptying a region, which the center objectives answer
    with ValueError (sklearn's distances of an empty array). *)
Theorem C65_basic_tabu_no_exception_refuted :
  exists g attr initial r m, symmetric g /\ length attr = gn g /\ valid_request g 3 (Some initial) /\
    basic_ex (centered manhattan mean_row sumQ) g attr (Some 2) 5 3%Z (Some initial) r = Raise (ValueError m).
Proof.
  exists (path_graph 4), [3;1;3;2]%Q, [1;1;0;2]%Z, rng0. eexists. split; [apply path_symmetric|]. split; [reflexivity|]. split.
  - split; [lia|]. split; [|cbn; lia]. split; [reflexivity|]. split; [reflexivity|].
    apply check_regions_all. vm_compute. reflexivity.
  - vm_compute. reflexivity.
Qed.

(** C29 (partial) applies to a path with attributes 0, 1, 5: no move is a tie. *)
Example C29_example :
  (forall v isl, v < 3 -> island (path_graph 3) v isl -> no_ties (pairwise manhattan) (rows_at (att [0;1;5]%Q) isl)) /\
  tabu_labels (basic_ex (pairwise manhattan) (path_graph 3) [0;1;5]%Q None 5 2%Z (Some [0;1;1]%Z) rng0) = Some [0;0;1]%Z.
Proof.
  split; [|vm_compute; reflexivity]. intros v isl Hv Hi.
  rewrite (island_comp_nodes (path_graph 3) v isl Hv Hi).
  assert (E : comp_nodes (path_graph 3) (comp_label (path_graph 3) v) = [0;1;2]).
  { cbn in Hv. do 3 (destruct v as [|v]; [vm_compute; reflexivity|]). lia. }
  rewrite E. cbn [rows_at map nth].
  intros l a z x y Hl Ha Hin Hne Ex Ey Hxy. cbn [o_call pairwise] in Ex, Ey.
  destruct (pairwise_call_spec manhattan l [[0];[1];[5]]%Q) as [x' [Ex' Hx]].
  destruct (pairwise_call_spec manhattan (upd l a z) [[0];[1];[5]]%Q) as [y' [Ey' Hy]].
  rewrite Ex in Ex'. rewrite Ey in Ey'. injection Ex' as <-. injection Ey' as <-. clear Ex Ey.
  destruct l as [|p [|q [|s [|t l]]]]; cbn in Hl; try lia.
  rewrite Hxy in Hx. rewrite Hx in Hy. clear Hx Hxy x y.
  destruct a as [|[|[|a]]]; [| | |cbn in Ha; lia];
    cbn [upd lab nth] in *;
    unfold heterogeneity in Hy; cbn [length seq map lab nth] in Hy;
    destruct Hin as [<-|[<-|[<-|[]]]]; try congruence;
    repeat match type of Hy with context [Z.eqb ?u ?v] => destruct (Z.eqb_spec u v); try congruence end;
    vm_compute in Hy; discriminate.
Qed.

(** C29 for two regions: with equal attributes every move is a tie, and the search still ends. *)
Example C29_two_regions_example :
  ~ no_ties (pairwise manhattan) (att [1;1;1;1]%Q) /\
  valid_request (path_graph 4) 2%Z (Some [0;0;1;1]%Z) /\
  tabu_labels (basic_ex (pairwise manhattan) (path_graph 4) [1;1;1;1]%Q None 2 2%Z (Some [0;0;1;1]%Z) rng0) = Some [0;1;1;1]%Z.
Proof.
  split; [|split; [|vm_compute; reflexivity]].
  - intros H. apply (H [0;0;1;1]%Z 1 1%Z 0%Q 0%Q); try reflexivity; cbn; auto; try lia; discriminate.
  - split; [lia|]. split; [|cbn; lia]. split; [reflexivity|]. split; [reflexivity|].
    apply check_regions_all. vm_compute. reflexivity.
Qed.

(** ** C29: the documented termination rule does not stop the search.
    A star with centre 0 and equal attributes: the centre goes round the three regions for ever,
    although every solution is visited again and again. *)
Definition star3 : graph := mkG 4 (fun u v =>
  match u, v with 0,1|0,2|0,3|1,0|2,0|3,0 => true | _, _ => false end).
Definition star_c : graph := sub_adj_matrix star3 [0;1;2;3] [].
Definition eq4 : list (list Q) := att [1;1;1;1]%Q.

Lemma possible_moves_filter g l tabu :
  possible_moves g l tabu = filter (fun m => negb (in_tabu m tabu)) (possible_moves g l []).
Proof.
  unfold possible_moves. induction (seq 0 (length l)) as [|a t IH]; [reflexivity|].
  cbn [flat_map]. rewrite filter_app, <- IH. f_equal. cbn zeta. destruct (_ && _); [|reflexivity].
  cbn [in_tabu existsb]. cbn [negb]. rewrite (filter_all (fun _ => true)) by auto. reflexivity.
Qed.

Definition star_labels (k : nat) : list Z := match k with 0 => [0;0;1;2]%Z | 1 => [1;0;1;2]%Z | _ => [2;0;1;2]%Z end.
Definition star_next (k : nat) : tmove :=
  match k with 0 => mkMove 0 0%Z 1%Z | 1 => mkMove 0 1%Z 2%Z | _ => mkMove 0 2%Z 0%Z end.
Definition star_alt (k : nat) : tmove :=
  match k with 0 => mkMove 0 0%Z 2%Z | 1 => mkMove 0 1%Z 0%Z | _ => mkMove 0 2%Z 1%Z end.
Definition star_inv (k : nat) (tabu : list tmove) : Prop :=
  (forall j, in_tabu (star_next j) tabu = false) /\ (k = 1 -> in_tabu (star_alt 1) tabu = true).

Lemma in_tabu_app m t m' : in_tabu m (t ++ [m']) = in_tabu m t || tmove_eqb m m'.
Proof. unfold in_tabu. rewrite existsb_app. cbn. rewrite orb_false_r. reflexivity. Qed.

Lemma star_step reps fuel stop visited tabu c r k : k < 3 -> star_inv k tabu -> c_ok (pairwise manhattan) eq4 c ->
  exists stop' visited' c', c_ok (pairwise manhattan) eq4 c' /\
  basic_loop (pairwise manhattan) star_c (S fuel) None reps eq4 stop visited (star_labels k) tabu c r =
  basic_loop (pairwise manhattan) star_c fuel None reps eq4 stop' visited' (star_labels (match k with 0 => 1 | 1 => 2 | _ => 0 end))
    (tabu ++ [mkMove 0 (mv_new (star_next k)) (mv_old (star_next k))]) c' r.
Proof.
  intros Hk [Hnt Halt] [Ho Ha]. cbn [basic_loop]. set (stop' := stop || _).
  exists stop', (visited ++ [star_labels k]), (mkCommon eq4 (pairwise manhattan) (c_val c + 0)%Q).
  split; [split; reflexivity|]. rewrite possible_moves_filter.
  assert (Hbest : best_of (pairwise manhattan) eq4 (star_labels k) 0
    (filter (fun m => negb (in_tabu m tabu)) (possible_moves star_c (star_labels k) [])) None =
    Ok (Some (star_next k, 0, 0%Q))).
  { pose proof (Hnt 0) as H0. pose proof (Hnt 1) as H1. pose proof (Hnt 2) as H2.
    destruct k as [|[|[|k]]]; [| | |lia].
    - change (possible_moves star_c (star_labels 0) []) with [star_next 0; star_alt 0]. cbn [filter]. rewrite H0. cbn [negb].
      destruct (in_tabu (star_alt 0) tabu); vm_compute; reflexivity.
    - change (possible_moves star_c (star_labels 1) []) with [star_alt 1; star_next 1]. cbn [filter]. rewrite H1, Halt by auto.
      vm_compute; reflexivity.
    - change (possible_moves star_c (star_labels 2) []) with [star_next 2; star_alt 2]. cbn [filter]. rewrite H2. cbn [negb].
      destruct (in_tabu (star_alt 2) tabu); vm_compute; reflexivity. }
  rewrite Hbest. cbn [bind]. unfold azp_call. rewrite Ho, Ha.
  assert (Hu : o_update (pairwise manhattan) (mv_area (star_next k)) (mv_new (star_next k)) (star_labels k) eq4 = Ok 0%Q).
  { destruct k as [|[|[|k]]]; [| | |lia]; vm_compute; reflexivity. }
  rewrite Hu. cbn [bind Qle_bool]. unfold make_move_tabu.
  assert (Hb : boolean_assert_feasible (make_move (mv_area (star_next k)) (mv_new (star_next k)) (star_labels k)) star_c None = Ok true).
  { destruct k as [|[|[|k]]]; [| | |lia]; vm_compute; reflexivity. }
  change (Qle_bool 0 0) with true. cbn [bind]. rewrite Hb. cbn [bind deque_append].
  destruct k as [|[|[|k]]]; [| | |lia]; reflexivity.
Qed.

Lemma star_inv_step k tabu : k < 3 -> star_inv k tabu ->
  star_inv (match k with 0 => 1 | 1 => 2 | _ => 0 end) (tabu ++ [mkMove 0 (mv_new (star_next k)) (mv_old (star_next k))]).
Proof.
  intros Hk [Hnt Halt]. split.
  - intros j. rewrite in_tabu_app, (Hnt j). destruct k as [|[|[|k]]]; [| | |lia]; destruct j as [|[|j]]; reflexivity.
  - intros E. rewrite in_tabu_app. destruct k as [|[|[|k]]]; [| | |lia]; try discriminate. apply orb_true_r.
Qed.

Lemma star_forever reps : forall fuel stop visited tabu c r k, k < 3 -> star_inv k tabu -> c_ok (pairwise manhattan) eq4 c ->
  basic_loop (pairwise manhattan) star_c fuel None reps eq4 stop visited (star_labels k) tabu c r = NoFuel.
Proof.
  induction fuel as [|fuel IH]; intros stop visited tabu c r k Hk Hi Hc; [reflexivity|].
  destruct (star_step reps fuel stop visited tabu c r k Hk Hi Hc) as [stop' [visited' [c' [Hc' E]]]]. rewrite E.
  apply IH; auto; [destruct k as [|[|k]]; lia|]. apply star_inv_step; auto.
Qed.

Theorem C29_basic_tabu_terminates_refuted :
  symmetric star3 /\ valid_request star3 3 (Some [0;0;1;2]%Z) /\
  forall fuel reps c0 r,
    basic_fit same_order (pairwise manhattan) fuel None reps star3 eq4 3 (Some [0;0;1;2]%Z) c0 r = NoFuel.
Proof.
  split; [|split].
  - intros u v Hu Hv. cbn in Hu, Hv. do 4 (destruct u as [|u]; [do 4 (destruct v as [|v]; [reflexivity|]); lia|]). lia.
  - split; [lia|]. split; [|cbn; lia]. split; [reflexivity|]. split; [reflexivity|].
    apply check_regions_all. vm_compute. reflexivity.
  - intros fuel reps c0 r. unfold basic_fit, fit.
    change (assert_feasible [0;0;1;2]%Z star3 (Some 3%Z)) with (Ok tt). cbn [bind].
    change (separate_components star3 [0;0;1;2]%Z) with [[0;0;1;2]%Z]. cbn [fit_arrays fit_one fst snd].
    change (filter (fun a => negb (Z.eqb (lab [0;0;1;2]%Z a) (-1))) (seq 0 (length [0;0;1;2]%Z))) with [0;1;2;3].
    fold star_c. change (gather (-1)%Z [0;0;1;2]%Z [0;1;2;3]) with (star_labels 0).
    change (map (row eq4) [0;1;2;3]) with eq4. unfold start_common.
    change (o_call (pairwise manhattan) (star_labels 0) eq4) with (Ok 0%Q : out Q). cbn [bind].
    unfold basic_component. change (Nat.eqb (length (uniqueZ (star_labels 0))) 1) with false. cbn [bind].
    rewrite star_forever; [reflexivity|lia| |split; reflexivity].
    split; [reflexivity|discriminate].
Qed.

(** ** C31, C32 *)
Definition two_paths : graph :=
  mkG 6 (fun i j => (Nat.eqb (S i) j || Nat.eqb (S j) i) && negb (Nat.eqb (i + j) 5 && (Nat.eqb i 2 || Nat.eqb i 3)) &&
                    Nat.ltb i 6 && Nat.ltb j 6).
Definition reactive_ex maxit k1 k2 g attr p initial s r :=
  reactive_fit same_order (pairwise manhattan) maxit k1 k2 g (att attr) p initial s r.
Definition rt_fresh : reactive := mkReactive dum 1 1 [].

Example C30_example :
  tabu_labels (reactive_ex 3 1 1 (path_graph 4) [0;1;9;7]%Q 2%Z (Some [0;1;1;1]%Z) rt_fresh rng0) = Some [0;0;1;1]%Z.
Proof. vm_compute. reflexivity. Qed.

Definition rt_after {A} (o : out ((A * reactive) * rng)) : reactive := match o with Ok ((_, s), _) => s | _ => rt_fresh end.

(** Two islands: the second one is given the solution recorded for the first one. *)
Theorem C31_reactive_islands_refuted :
  reactive_new 1 dum = Ok rt_fresh /\ symmetric two_paths /\ valid_request two_paths 4 (Some [0;0;1;2;2;3]%Z) /\
  exists labels, tabu_labels (reactive_ex 1 1 1 two_paths [0;5;5;0;0;5]%Q 4%Z (Some [0;0;1;2;2;3]%Z) rt_fresh rng0) = Some labels /\
    ~ all_contiguous two_paths labels /\ n_labels labels = 2.
Proof.
  split; [reflexivity|]. split; [|split].
  - intros u v Hu Hv. cbn in Hu, Hv.
    do 6 (destruct u as [|u]; [do 6 (destruct v as [|v]; [reflexivity|]); lia|]). lia.
  - split; [lia|]. split; [|cbn; lia]. split; [reflexivity|]. split; [reflexivity|].
    apply check_regions_all. vm_compute. reflexivity.
  - eexists. split; [vm_compute; reflexivity|]. split; [|reflexivity].
    intros H. apply check_regions_all in H. vm_compute in H. discriminate.
Qed.

(** A second fit of the same object: the solution recorded by the first one is used. *)
Theorem C31_reactive_refit_refuted :
  let s := rt_after (reactive_ex 1 1 1 (path_graph 4) [0;0;5;5]%Q 2%Z (Some [0;1;1;1]%Z) rt_fresh rng0) in
  tabu_labels (reactive_ex 1 1 1 (path_graph 4) [0;0;5;5]%Q 2%Z (Some [0;1;1;1]%Z) rt_fresh rng0) = Some [0;0;1;1]%Z /\
  valid_request (path_graph 3) 2 (Some [0;1;1]%Z) /\
  tabu_exn (reactive_ex 1 1 1 (path_graph 3) [0;0;5]%Q 2%Z (Some [0;1;1]%Z) s rng0) = Some (ValueError "shape mismatch") /\
  tabu_labels (reactive_ex 1 1 1 (path_graph 3) [0;0;5]%Q 2%Z (Some [0;1;1]%Z) rt_fresh rng0) = Some [0;0;1]%Z.
Proof.
  split; [vm_compute; reflexivity|]. split; [|split; vm_compute; reflexivity].
  split; [lia|]. split; [|cbn; lia]. split; [reflexivity|]. split; [reflexivity|].
  apply check_regions_all. vm_compute. reflexivity.
Qed.

(** C32: when every remaining move is tabu, [best_move] is None and its attributes are asked for. *)
Theorem C32_reactive_no_exception_refuted :
  exists g attr initial, symmetric g /\ length attr = gn g /\ valid_request g 2 (Some initial) /\
    forall maxit k1 k2 r, tabu_exn (reactive_ex (2 + maxit) k1 k2 g attr 2%Z (Some initial) rt_fresh r) = Some AttributeError.
Proof.
  exists (path_graph 3), [0;5;5]%Q, [0;0;1]%Z. split; [apply path_symmetric|]. split; [reflexivity|]. split.
  - split; [lia|]. split; [|cbn; lia]. split; [reflexivity|]. split; [reflexivity|].
    apply check_regions_all. vm_compute. reflexivity.
  - intros. vm_compute. reflexivity.
Qed.

Print Assumptions C27_basic_tabu_contiguous.
Print Assumptions C27_basic_tabu_feasible_pairwise.
Print Assumptions C27_basic_tabu_feasible_center.
Print Assumptions C28_basic_tabu_no_worse.
Print Assumptions C29_basic_tabu_terminates_partial.
Print Assumptions C29_two_regions_partial.
Print Assumptions C29_center_ends_partial.
Print Assumptions C29_basic_tabu_terminates_refuted.
Print Assumptions C30_reactive_contiguous.
Print Assumptions C30_reactive_feasible_no_worse.
Print Assumptions C31_reactive_islands_refuted.
Print Assumptions C31_reactive_refit_refuted.
Print Assumptions C32_reactive_exceptions_partial.
Print Assumptions C32_reactive_no_exception_refuted.
Print Assumptions C65_basic_tabu_no_exception_partial.
Print Assumptions C65_basic_tabu_no_exception_refuted.
