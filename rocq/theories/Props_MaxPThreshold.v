(** Property C154: thresholds that are NaN or infinite in the max-p heuristic. *)
From Verif Require Import Base Spec SpecData SpecBound M_Graph P_Graph M_Util P_Base P_Util P_Forest P_Init P_Initial
  M_Objective P_Sum P_Objective M_Azp P_Azp P_Strategy P_Fit P_AzpFit Examples Props_Objective Props_Strategy Props_Azp M_Sa P_Sa Props_Sa
  M_MaxP P_MaxP P_MaxP2 P_MaxP3 P_MaxP4 Props_MaxP P_TwoRuns P_Scale P_ScaleMaxP P_Upto M_Grow P_MaxPChecked Props_MaxPChecked
  M_MaxPThreshold P_MaxPThreshold P_MaxPThreshold2 P_MaxPThreshold3 P_GuardedAzp.

Local Notation att := (map (fun q : Q => [q])).

(** an AZP object whose strategy is not wrapped by an earlier max-p fit *)
Definition plain (ls : option bstrategy) : Prop := match ls with Some (BMaxP _ _ _ _ _) => False | _ => True end.
(** the same object when all thresholds are numbers *)
Definition same_object (ls : option bstrategy) : option strategy := match ls with Some s => Some (SAzp (match s with BAzp c => c | BMaxP c _ _ _ _ => c end)) | None => None end.
(** the numbers, and zero in the place of anything else *)
Definition numbers (thr : list bound) : list Q := map (fun b => match b with Number q => q | _ => 0%Q end) thr.
(** the max-p heuristic with a local search that returns the labels it is given *)
Definition construction_only (O : objfun) (d : list Q -> list Q -> Q) g attr sp thr max_it labels0 r :=
  maxp_fit unit (fun u => u) (fun _ _ l r => Ok (Some l, tt, r)) O attr (fun r => (tt, r)) d g sp thr max_it labels0 None r.

Lemma numbers_finite thr : made_finite thr (numbers thr).
Proof. unfold made_finite, numbers. induction thr as [|b thr IH]; cbn; [constructor|]. constructor; [destruct b; auto; lra|auto]. Qed.
Lemma plain_img g sp thr thr' ls : plain ls -> ls_img g sp thr thr' (same_object ls) ls.
Proof. destruct ls as [[c|c ? ? ? ?]|]; cbn; intros H; [constructor|contradiction|auto]. Qed.
Lemma same_object_inside ls : match same_object ls with Some s => azp_inside s | None => True end.
Proof. destruct ls; cbn; auto. Qed.
Lemma total_nonneg sp l z k : non_negative sp -> (0 <= total sp l z k)%Q.
Proof.
  intros H. unfold total. apply sumQ_nonneg. intros a _. destruct (Z.eqb _ _); [|lra].
  destruct (Nat.lt_ge_cases a (length sp)) as [Ha|Ha]; [|rewrite (nth_overflow sp) by lia; destruct k; cbn; lra].
  destruct (Nat.lt_ge_cases k (length (nth a sp []))) as [Hk|Hk]; [|rewrite nth_overflow by lia; lra].
  apply (H (nth a sp [])); apply nth_In; auto.
Qed.
Lemma total_in_nonneg sp l k : non_negative sp -> (0 <= total_in sp l k)%Q.
Proof.
  intros H. unfold total_in. apply sumQ_nonneg. intros a _.
  destruct (Nat.lt_ge_cases a (length sp)) as [Ha|Ha]; [|rewrite (nth_overflow sp) by lia; destruct k; cbn; lra].
  destruct (Nat.lt_ge_cases k (length (nth a sp []))) as [Hk|Hk]; [|rewrite nth_overflow by lia; lra].
  apply (H (nth a sp [])); apply nth_In; auto.
Qed.
Lemma meets_in_numbers sp thr isl : non_negative sp -> meets_in sp (numbers thr) isl <-> meets_numbers_in sp thr isl.
Proof.
  intros Hpos. split; intros H k q Hk.
  - apply H. unfold numbers. rewrite nth_error_map, Hk. reflexivity.
  - unfold numbers in Hk. rewrite nth_error_map in Hk. destruct (nth_error thr k) as [b|] eqn:Eb; [|discriminate]. injection Hk as <-.
    destruct b; try apply total_in_nonneg; auto.
Qed.

Section C154.
Variables (order : list edge -> list edge) (O : objfun) (d : list Q -> list Q -> Q) (g : graph) (attr sp : list (list Q)) (thr : list bound).
Hypothesis Hord : forall l, Permutation (order l) l.
Hypothesis Hsym : symmetric g.
Hypothesis Hloop : no_self_loops g.
Hypothesis Hsh : shaped_for sp thr (gn g).
Hypothesis Hpos : non_negative sp.

(** *** plus infinity *)
Theorem C154_infinite fuel max_it entropy labels0 ls r : In PosInf thr -> 0 < gn g -> 0 < max_it ->
  exists m, bmaxp_azp_fit order O d fuel g attr sp thr max_it entropy labels0 ls r = Raise (ValueError m).
Proof. intros Hin Hn Hit. unfold bmaxp_azp_fit. apply (infinite_raises g sp thr Hsh Hpos); auto. Qed.
Theorem C154_infinite_annealing expf azp_fuel fuel cooling args max_it labels0 mem r : In PosInf thr -> 0 < gn g -> 0 < max_it ->
  exists m, bmaxp_sa_fit expf order O d azp_fuel fuel cooling args g attr sp thr max_it labels0 mem r = Raise (ValueError m).
Proof. intros Hin Hn Hit. unfold bmaxp_sa_fit. apply (infinite_raises g sp thr Hsh Hpos); auto. Qed.

(** *** minus infinity: as zero or any negative number *)
Theorem C154_minus_infinite expf thr' fuel max_it entropy labels0 ls r : thr <> [] -> ~ In PosInf thr -> ~ In NotANumber thr -> made_finite thr thr' -> plain ls ->
  mp_shown (bmaxp_azp_fit order O d fuel g attr sp thr max_it entropy labels0 ls r) =
  mp_shown (maxp_azp_fit expf order O d fuel g attr sp thr' max_it entropy labels0 (same_object ls) r).
Proof.
  intros Hsome Hno Hnan Hfin Hls.
  pose proof (bmaxp_stack expf order Hord O d g attr sp thr thr' Hsym Hloop Hsh Hpos Hfin Hno Hsome fuel max_it entropy labels0 (same_object ls) ls r (plain_img _ _ _ _ _ Hls)) as H.
  assert (E : in_place g sp thr thr' = [thr']).
  { unfold in_place. destruct (existsb _ thr) eqn:E; [|auto]. apply existsb_exists in E. destruct E as [b [Hb E]]. destruct b; try discriminate. contradiction. }
  unfold stack_fit in H. rewrite E in H.
  change (stack sp unstarted [] [thr']) with (maxp_wrap sp thr') in H.
  change (maxp_fit strategy (maxp_wrap sp thr') _ O attr _ d g sp thr' max_it labels0 (same_object ls) r) with
    (maxp_azp_fit expf order O d fuel g attr sp thr' max_it entropy labels0 (same_object ls) r) in H.
  destruct (maxp_azp_fit _ _ _ _ _ _ _ _ _ _ _ _ _ _) as [[[l t] r1]|e|], (bmaxp_azp_fit _ _ _ _ _ _ _ _ _ _ _ _ _) as [[[l' t'] r1']|e'|]; cbn in H; try contradiction; cbn; [|congruence|auto].
  destruct H as [-> [_ ->]]. reflexivity.
Qed.

(** *** simulated annealing does not look at the threshold: only the construction of the partitions does, and there NaN is minus infinity *)
Theorem C154_annealing expf thr' azp_fuel fuel cooling args max_it labels0 mem r : ~ In PosInf thr -> made_finite thr thr' ->
  bmaxp_sa_fit expf order O d azp_fuel fuel cooling args g attr sp thr max_it labels0 mem r =
  maxp_sa_fit expf order O d azp_fuel fuel cooling args g attr sp thr' max_it labels0 mem r.
Proof. intros Hno Hfin. unfold bmaxp_sa_fit, maxp_sa_fit. apply same_construction; auto. apply Hsh. Qed.

(** *** NaN or minus infinity beside numbers: the regions are valid and reach the numbers, and there are as many of them as without the rest *)
Lemma bmaxp_Ok thr' fuel max_it entropy labels0 ls r labels ls' r' : ~ In PosInf thr -> made_finite thr thr' -> 0 < max_it ->
  bmaxp_azp_fit order O d fuel g attr sp thr max_it entropy labels0 ls r = Ok (labels, ls', r') ->
  exists mp before r1 l, construct d g attr sp thr' max_it 0 [] r = Ok (mp, before, r1) /\ labels = Some l /\ valid_result g sp thr' mp l.
Proof.
  intros Hno Hfin Hit H.
  pose proof (bmaxp_any order Hord O d g attr sp thr thr' Hsym Hloop Hsh Hpos Hfin Hno fuel max_it entropy labels0 ls r Hit) as Hp.
  rewrite H in Hp. exact Hp.
Qed.
Theorem C154_valid fuel max_it entropy labels0 ls r labels ls' r' : ~ In PosInf thr -> 0 < max_it ->
  bmaxp_azp_fit order O d fuel g attr sp thr max_it entropy labels0 ls r = Ok (labels, ls', r') ->
  exists l p, labels = Some l /\ feasible g l p /\ forall z, In z l -> meets_numbers sp thr l z.
Proof.
  intros Hno Hit H. destruct (bmaxp_Ok (numbers thr) _ _ _ _ _ _ _ _ _ Hno (numbers_finite thr) Hit H) as [mp [before [r1 [l [_ [-> [Hf Hm]]]]]]].
  exists l, mp. split; [auto|]. split; [exact Hf|]. intros z Hz k q Hk. apply (Hm z Hz). unfold numbers. rewrite nth_error_map, Hk. reflexivity.
Qed.
Theorem C154_as_many expf thr' fuel fuel' max_it entropy entropy' labels0 labels0' ls ls1 r l ls' r' l1 ls1' r1' : ~ In PosInf thr -> made_finite thr thr' -> 0 < max_it ->
  bmaxp_azp_fit order O d fuel g attr sp thr max_it entropy labels0 ls r = Ok (Some l, ls', r') ->
  maxp_azp_fit expf order O d fuel' g attr sp thr' max_it entropy' labels0' ls1 r = Ok (Some l1, ls1', r1') ->
  n_labels l = n_labels l1.
Proof.
  intros Hno Hfin Hit H H1. destruct (bmaxp_Ok thr' _ _ _ _ _ _ _ _ _ Hno Hfin Hit H) as [mp [before [r1 [l2 [Hc [E [[_ [Hf _]] _]]]]]]]. injection E as <-.
  pose proof (maxp_azp_any expf order Hord O d g attr sp thr' Hsym Hloop (finite_shaped g sp thr thr' Hsh Hfin) Hpos fuel' max_it entropy' labels0' ls1 r Hit) as Hp.
  rewrite H1 in Hp. destruct Hp as [mp1 [before1 [r2 [l3 [Hc1 [E1 [[_ [Hf1 _]] _]]]]]]]. injection E1 as <-. congruence.
Qed.
(** *** when fit fails: only the numbers count *)
Theorem C154_fails_iff : ~ In PosInf thr -> length attr = gn g -> exact_on O attr ->
  ((forall v isl, v < gn g -> island g v isl -> meets_numbers_in sp thr isl) ->
   exists bound, forall fuel max_it entropy labels0 ls r, bound <= fuel -> 0 < max_it ->
     exists l ls' r', bmaxp_azp_fit order O d fuel g attr sp thr max_it entropy labels0 ls r = Ok (Some l, ls', r')) /\
  (forall v isl, v < gn g -> island g v isl -> ~ meets_numbers_in sp thr isl -> forall fuel max_it entropy labels0 ls r, 0 < max_it ->
     exists m, bmaxp_azp_fit order O d fuel g attr sp thr max_it entropy labels0 ls r = Raise (ValueError m)).
Proof.
  intros Hno Hattr Hex. pose proof (numbers_finite thr) as Hfin. split.
  - intros Hisl. exists (gn g + 2). intros fuel max_it entropy labels0 ls r Hf Hit. assert (Hfuel : False \/ gn g + 1 < fuel) by lia.
    pose proof (bmaxp_default order Hord O d g attr sp thr _ Hsym Hloop Hsh Hpos Hfin Hno Hattr Hex False fuel max_it entropy labels0 ls r Hit Hfuel) as Hp.
    destruct (bmaxp_azp_fit _ _ _ _ _ _ _ _ _ _ _ _ _) as [[[l t] r1]|e|]; cbn [post] in Hp.
    + destruct Hp as [_ [_ [_ [_ [_ [l1 [_ [_ [-> _]]]]]]]]]. eauto.
    + destruct Hp as [[v [isl [Hv [Hi Hn]]]] _]. exfalso. apply Hn. apply meets_in_numbers; auto. eapply Hisl; eauto.
    + destruct Hp.
  - intros v isl Hv Hi Hnm fuel max_it entropy labels0 ls r Hit. unfold bmaxp_azp_fit. rewrite (same_construction g sp thr _ (proj2 Hsh) Hpos Hfin Hno).
    apply (unmet_raises bstrategy _ _ O d g attr sp (numbers thr) Hsym Hloop (finite_shaped g sp thr _ Hsh Hfin) Hpos _ max_it labels0 ls r v isl); auto.
    rewrite meets_in_numbers; auto.
Qed.

(** *** the pairwise objective: at most the heterogeneity of every completed partition *)
Theorem C154_not_worse thr' fuel max_it entropy labels0 ls r labels ls' r' : ~ In PosInf thr -> made_finite thr thr' -> 0 < max_it ->
  length attr = gn g -> (forall x y, d x y == d y x)%Q -> (forall x, d x x == 0)%Q ->
  bmaxp_azp_fit order (pairwise d) d fuel g attr sp thr max_it entropy labels0 ls r = Ok (labels, ls', r') ->
  exists p before r1 parts r2 l, construct d g attr sp thr' max_it 0 [] r = Ok (p, before, r1) /\
    assign_each d g attr before r1 = Ok (parts, r2) /\ parts <> [] /\ labels = Some l /\
    forall P, In P parts -> exists l0, array_from_region_list P = Ok l0 /\ feasible g l0 p /\
      (heterogeneity (fun i j => d (nth i attr []) (nth j attr [])) l <=
       heterogeneity (fun i j => d (nth i attr []) (nth j attr [])) l0)%Q.
Proof.
  intros Hno Hfin Hit Hattr Hds Hdz H. pose proof (pairwise_exact_on d attr Hds Hdz) as Hex.
  pose proof (bmaxp_default order Hord (pairwise d) d g attr sp thr thr' Hsym Hloop Hsh Hpos Hfin Hno Hattr Hex True fuel max_it entropy labels0 ls r Hit (or_introl Logic.I)) as Hp.
  rewrite H in Hp. destruct Hp as [p [before [r1 [parts [r2 [l [H1 [H2 [-> [Hv [Hne Hall]]]]]]]]]]].
  exists p, before, r1, parts, r2, l. do 4 (split; [auto|]). intros P HP.
  destruct (Hall P HP) as [l0 [l1 [v [v1 [E0 [Hf0 [[Hf1 _] [Hnw [Ev [Ev1 Hle]]]]]]]]]]. exists l0. split; [auto|]. split; [auto|].
  exact (ob_het d g attr p l0 l1 l v v1 Hf0 Hf1 Hnw Ev Ev1 Hle).
Qed.

(** *** NaN switches the local search off: if every area has some amount, the labels are those of the construction alone *)
Theorem C154_no_search thr' fuel max_it entropy labels0 ls r labels ls' r' : In NotANumber thr -> ~ In PosInf thr -> made_finite thr thr' -> 0 < max_it ->
  (forall a, a < gn g -> exists k, ~ (nth k (nth a sp []) 0 == 0)%Q) ->
  bmaxp_azp_fit order O d fuel g attr sp thr max_it entropy labels0 ls r = Ok (labels, ls', r') ->
  mp_labels (construction_only O d g attr sp thr' max_it labels0 r) = labels.
Proof.
  intros Hnan Hno Hfin Hit Hamt H.
  assert (Hnz : forall a, a < gn g -> any_nonzero (row sp a) = true).
  { intros a Ha. destruct (Hamt a Ha) as [k Hk]. unfold any_nonzero. apply existsb_exists. exists (nth k (row sp a) 0%Q). split.
    - apply nth_In. destruct (Nat.lt_ge_cases k (length (row sp a))); [auto|]. exfalso. apply Hk. fold (row sp a). rewrite nth_overflow by lia. reflexivity.
    - apply negb_true_iff. destruct (Qeq_bool _ _) eqn:E; [|auto]. exfalso. apply Hk. apply Qeq_bool_iff in E. exact E. }
  unfold bmaxp_azp_fit in H. rewrite (same_construction g sp thr _ (proj2 Hsh) Hpos Hfin Hno) in H.
  apply (maxp_fit_still bstrategy _ _ O d g attr sp thr' Hsym Hloop (finite_shaped g sp thr _ Hsh Hfin) Hpos (wrapped sp thr)) in H; auto.
  - destruct H as [r2 H]. unfold construction_only. change (fun (_ : unit) (_ : Z) (l : list Z) (r0 : rng) => Ok (Some l, tt, r0)) with still. rewrite H. reflexivity.
  - intros s. unfold wrapped, bwrap. eauto.
  - intros mp s l0 r0 x s' r1 Hw Hf Hm E. apply bind_Ok in E. destruct E as [[[l1 s1] r2] [E1 E]]. injection E as <- <- _.
    pose proof (frozen_fit order Hord O g attr sp thr Hsym Hsh Hnan Hnz fuel (Z.of_nat mp) l0 s r0) as Hp. rewrite Nat2Z.id in Hp.
    specialize (Hp Hf ltac:(lia) Hm Hw). rewrite E1 in Hp. destruct Hp as [-> Hw1]. auto.
Qed.

(** *** no threshold that is a number: every area is a region *)
Theorem C154_alone fuel max_it entropy labels0 ls r labels ls' r' : (forall b, In b thr -> b = NegInf \/ b = NotANumber) -> 0 < max_it ->
  bmaxp_azp_fit order O d fuel g attr sp thr max_it entropy labels0 ls r = Ok (labels, ls', r') ->
  exists l, labels = Some l /\ length l = gn g /\ NoDup l.
Proof.
  intros Hb Hit H. assert (Hno : ~ In PosInf thr) by (intros C; apply Hb in C; destruct C; discriminate).
  destruct (bmaxp_Ok (numbers thr) _ _ _ _ _ _ _ _ _ Hno (numbers_finite thr) Hit H) as [mp [before [r1 [l [Hc [-> [[Hl [Hn _]] _]]]]]]].
  exists l. split; [auto|]. split; [exact Hl|]. apply all_distinct. rewrite Hn, Hl.
  eapply construct_alone; [| | |exact Hc]; [|lia|left; lia]. intros a Ha. destruct Hsh as [Hlen Hx].
  assert (Hi : In (row sp a) sp) by (unfold row; apply nth_In; lia).
  rewrite reaches_spec by (unfold numbers; rewrite map_length; apply Hx; auto). intros k t Hk. unfold numbers in Hk. rewrite nth_error_map in Hk.
  destruct (nth_error thr k) as [b|] eqn:Eb; [|discriminate]. injection Hk as <-.
  replace (match b with Number q => q | _ => 0%Q end) with 0%Q by (destruct (Hb b (nth_error_In _ _ Eb)) as [-> | ->]; reflexivity).
  destruct (Nat.lt_ge_cases k (length (row sp a))) as [Hkl|Hkl]; [apply (Hpos (row sp a)); auto; apply nth_In; auto|rewrite nth_overflow by lia; lra].
Qed.
End C154.

(** ** Examples: five areas in a row with two amounts each *)
Definition amounts5 : list (list Q) := [[1;1];[1;2];[1;1];[1;2];[1;1]]%Q.
Definition bx thr r := bmaxp_azp_fit same_order (pairwise manhattan) manhattan 40 (path_graph 5) (att [2;2;1;3;3]%Q) amounts5 thr 1 r None None r.
Lemma amounts5_shaped b b' : shaped_for amounts5 [b; b'] 5.
Proof. split; [reflexivity|]. intros x Hx. cbn in Hx. repeat destruct Hx as [<-|Hx]; try reflexivity. destruct Hx. Qed.
Lemma amounts5_positive : non_negative amounts5.
Proof. intros x q Hx. cbn in Hx. repeat destruct Hx as [<-|Hx]; try contradiction; cbn; intros Hq; repeat destruct Hq as [<-|Hq]; try contradiction; lra. Qed.

Example ex154_hypotheses b b' : symmetric (path_graph 5) /\ no_self_loops (path_graph 5) /\ shaped_for amounts5 [b; b'] (gn (path_graph 5)) /\ non_negative amounts5 /\
  plain None /\ exact_on (pairwise manhattan) (att [2;2;1;3;3]%Q) /\ made_finite [Number 2; NotANumber] [2;0]%Q /\
  (forall a, a < 5 -> exists k, ~ (nth k (nth a amounts5 []) 0 == 0)%Q).
Proof.
  split; [apply path_symmetric|]. split; [apply path_no_self_loops|]. split; [apply amounts5_shaped|]. split; [apply amounts5_positive|]. split; [exact Logic.I|].
  split; [apply pairwise_exact_on; [apply manhattan_sym|apply manhattan_zero]|]. split; [repeat constructor; lra|].
  intros a Ha. exists 0. destruct a as [|[|[|[|[|a]]]]]; [..|lia]; cbn; lra.
Qed.
(** the search moves the third area; with NaN it does not; with infinity, or a number that is too large, fit raises *)
Example ex154_values :
  mp_labels (bx [Number 2; NegInf] draws62) = Some [0;0;0;1;1]%Z /\ mp_labels (bx [Number 2; NotANumber] draws62) = Some [0;0;1;1;1]%Z /\
  mp_labels (construction_only (pairwise manhattan) manhattan (path_graph 5) (att [2;2;1;3;3]%Q) amounts5 [2;0]%Q 1 None draws62) = Some [0;0;1;1;1]%Z /\
  mp_raises (bx [Number 2; PosInf] draws62) = true /\ mp_raises (bx [Number 6; NotANumber] draws62) = true /\
  mp_labels (bx [NotANumber; NegInf] draws62) = Some [0;1;2;3;4]%Z.
Proof. vm_compute. auto 8. Qed.

(** an object wrapped by an earlier fit keeps its thresholds as well *)
Definition bx_again thr0 thr r := bmaxp_azp_fit same_order (pairwise manhattan) manhattan 40 (path_graph 5) (att [2;2;1;3;3]%Q) amounts5 thr 1 r None
  (Some (bwrap amounts5 thr0 (BAzp unstarted))) r.
Example ex154_again :
  mp_labels (bx_again [Number 2; NegInf] [Number 2; NegInf] draws62) = Some [0;0;0;1;1]%Z /\
  mp_labels (bx_again [Number 2; NotANumber] [Number 2; NegInf] draws62) = Some [0;0;1;1;1]%Z /\
  mp_labels (bx_again [Number 3; Number 3] [Number 2; NegInf] draws62) = Some [0;0;1;1;1]%Z.
Proof. vm_compute. auto. Qed.

(** a threshold that is NaN is not the same as none: what is returned can be worse *)
Theorem C154_nan_ignored_refuted : exists (thr : list bound) (r : rng) l l',
  made_finite thr [2;0]%Q /\ ~ In PosInf thr /\ mp_labels (bx thr r) = Some l /\
  mp_labels (maxp_azp_fit expd same_order (pairwise manhattan) manhattan 40 (path_graph 5) (att [2;2;1;3;3]%Q) amounts5 [2;0]%Q 1 r None None r) = Some l' /\
  (heterogeneity (fun i j => manhattan (nth i (att [2;2;1;3;3]%Q) []) (nth j (att [2;2;1;3;3]%Q) [])) l' <
   heterogeneity (fun i j => manhattan (nth i (att [2;2;1;3;3]%Q) []) (nth j (att [2;2;1;3;3]%Q) [])) l)%Q.
Proof.
  exists [Number 2; NotANumber], draws62, [0;0;1;1;1]%Z, [0;0;0;1;1]%Z.
  split; [repeat constructor; lra|]. split; [intros [C|[C|[]]]; discriminate|]. split; [vm_compute; reflexivity|]. split; vm_compute; reflexivity.
Qed.

Print Assumptions C154_infinite.
Print Assumptions C154_infinite_annealing.
Print Assumptions C154_minus_infinite.
Print Assumptions C154_annealing.
Print Assumptions C154_valid.
Print Assumptions C154_as_many.
Print Assumptions C154_fails_iff.
Print Assumptions C154_not_worse.
Print Assumptions C154_no_search.
Print Assumptions C154_alone.
Print Assumptions C154_nan_ignored_refuted.
