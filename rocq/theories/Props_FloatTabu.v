(** Properties C121, C122 and C152 with the tabu classes as local search of the max-p heuristic. *)
From Coq Require Import Qabs Qround.
From Verif Require Import Base Spec SpecData SpecInt M_Graph P_Graph M_Util P_Base P_Util P_Forest P_Init P_Initial
  M_Objective P_Sum P_Objective M_Azp P_Azp P_Strategy P_Fit P_AzpFit M_Sa M_MaxP P_MaxP P_MaxP2 P_MaxP3 P_MaxP4 M_Tabu M_TabuWith P_TabuWith
  M_Float M_FloatMaxP P_Float P_FloatErr P_FloatMaxP P_FloatMaxP2 M_MaxPInt P_MaxPInt M_FloatTabu P_FloatTabu P_FloatTabu2
  Examples Props_Util Props_Azp Props_MaxP Props_FloatMaxP.
Local Notation att := (map (fun q : Q => [q])).
Local Notation whole_map sp g k := (total_in sp (seq 0 (gn g)) k).

Section Common.
Variables (enum : list nat -> list nat) (order : list edge -> list edge) (O : objfun) (g : graph) (attr sp : list (list Q)) (thr : list Q).
Hypothesis Hord : forall l, Permutation (order l) l.
Hypothesis Hsym : symmetric g.
Hypothesis Hloop : no_self_loops g.
Hypothesis Hsh : shaped sp thr (gn g).
Hypothesis Hpos : non_negative sp.

(** ** C121: rounding *)
Section C121Tabu.
Variables (A : arith) (V : Q -> Prop) (u M : Q).
Hypothesis Hu : (0 <= u)%Q.
Hypothesis Hu1 : (u < 1)%Q.
Hypothesis Hadd : rounds_within V u M (ar_add A) Qplus.
Hypothesis Hsub : rounds_within V u M (ar_sub A) Qminus.
Hypothesis HV : forall x q, In x sp -> In q x -> V q.
Hypothesis HM : forall k, k < length thr -> (qpow (1 + u) (gn g) * whole_map sp g k <= M)%Q.

Lemma over_lower k t : nth_error thr k = Some t -> ((qpow (1 + u) (gn g) - 1) * whole_map sp g k < t)%Q ->
  exists q, In q (shifted (fun k => - slack u sp (gn g) k)%Q thr) /\ (0 < q)%Q.
Proof.
  intros Et Hlt. exists (t + - slack u sp (gn g) k)%Q. split; [|unfold slack; lra].
  eapply (nth_error_In _ k). apply shifted_nth. eauto.
Qed.
(** As C121_rounded_thresholds, if some threshold exceeds the error bound. *)
Theorem C121_basic_thresholds k0 t0 fuel maxlen reps max_it labels0 s r labels s' r' :
  nth_error thr k0 = Some t0 -> ((qpow (1 + u) (gn g) - 1) * whole_map sp g k0 < t0)%Q -> 0 < max_it ->
  fmaxp_basic_fit A A enum order O fuel maxlen reps g attr sp thr max_it labels0 s r = Ok (labels, s', r') ->
  exists p l, labels = Some l /\ feasible g l p /\ forall z, In z l -> forall k t, nth_error thr k = Some t ->
    (t <= total sp l z k + (qpow (1 + u) (gn g) - 1) * whole_map sp g k)%Q.
Proof.
  intros Et0 Hlt Hit H.
  pose proof (rounded_sum A V u M Hu Hu1 Hadd sp thr (gn g) Hsh Hpos HV HM) as Hsum.
  pose proof (rounded_dif A V u M Hu Hu1 Hadd Hsub sp thr (gn g) Hsh Hpos HV HM) as Hdif.
  pose proof (fmaxp_basic_post A A enum order Hord O g attr sp thr _ _ Hsym Hloop (shifted_shaped _ _ _ _ Hsh) Hpos
    (approx_check A sp thr (gn g) Hsh _ Hsum) (approx_donors A g sp thr Hsh _ Hdif) (over_lower k0 t0 Et0 Hlt) fuel maxlen reps max_it labels0 s r Hit) as Hp.
  rewrite H in Hp. destruct Hp as [p [l [before [r1 [-> [[Hf Hm] _]]]]]]. exists p, l. split; [auto|]. split; [auto|].
  intros z Hz. apply (lower_meets sp thr (slack u sp (gn g))). apply Hm. auto.
Qed.
Theorem C121_reactive_thresholds k0 t0 maxit k1 k2 max_it labels0 s r labels s' r' :
  nth_error thr k0 = Some t0 -> ((qpow (1 + u) (gn g) - 1) * whole_map sp g k0 < t0)%Q -> 0 < max_it -> n_islands g 1 -> rw_visited s = [] ->
  fmaxp_reactive_fit A A enum order O maxit k1 k2 g attr sp thr max_it labels0 s r = Ok (labels, s', r') ->
  exists p l, labels = Some l /\ feasible g l p /\ forall z, In z l -> forall k t, nth_error thr k = Some t ->
    (t <= total sp l z k + (qpow (1 + u) (gn g) - 1) * whole_map sp g k)%Q.
Proof.
  intros Et0 Hlt Hit Hn Hv H. assert (Hone : n_components g = 1) by (apply n_islands_iff in Hn; auto).
  pose proof (rounded_sum A V u M Hu Hu1 Hadd sp thr (gn g) Hsh Hpos HV HM) as Hsum.
  pose proof (rounded_dif A V u M Hu Hu1 Hadd Hsub sp thr (gn g) Hsh Hpos HV HM) as Hdif.
  pose proof (fmaxp_reactive_post A A enum order Hord O g attr sp thr _ _ Hsym Hloop (shifted_shaped _ _ _ _ Hsh) Hpos
    (approx_check A sp thr (gn g) Hsh _ Hsum) (approx_donors A g sp thr Hsh _ Hdif) (over_lower k0 t0 Et0 Hlt) Hone maxit k1 k2 max_it labels0 s r Hit Hv) as Hp.
  rewrite H in Hp. destruct Hp as [p [l [before [r1 [-> [[Hf Hm] _]]]]]]. exists p, l. split; [auto|]. split; [auto|].
  intros z Hz. apply (lower_meets sp thr (slack u sp (gn g))). apply Hm. auto.
Qed.
(** an island that misses a threshold by more than the bound *)
Theorem C121_tabu_unmet v isl k t : v < gn g -> island g v isl -> nth_error thr k = Some t ->
  (total_in sp isl k + (qpow (1 + u) (gn g) - 1) * whole_map sp g k < t)%Q ->
  (forall fuel maxlen reps max_it labels0 s r, 0 < max_it ->
     exists m, fmaxp_basic_fit A A enum order O fuel maxlen reps g attr sp thr max_it labels0 s r = Raise (ValueError m)) /\
  (forall maxit k1 k2 max_it labels0 s r, 0 < max_it ->
     exists m, fmaxp_reactive_fit A A enum order O maxit k1 k2 g attr sp thr max_it labels0 s r = Raise (ValueError m)).
Proof.
  intros Hv Hi Et Hlt. pose proof (rounded_sum A V u M Hu Hu1 Hadd sp thr (gn g) Hsh Hpos HV HM) as Hsum.
  assert (Hn : ~ meets_in sp (shifted (fun k => - slack u sp (gn g) k)%Q thr) isl).
  { intros Hm. specialize (Hm k (t + - slack u sp (gn g) k)%Q). rewrite shifted_nth in Hm. specialize (Hm ltac:(eauto)). unfold slack in Hm. lra. }
  split; intros; [unfold fmaxp_basic_fit|unfold fmaxp_reactive_fit];
    eapply (fls_raises A A enum O g attr sp thr _ _ Hsym Hloop Hpos (approx_check A sp thr (gn g) Hsh _ Hsum)); eauto.
Qed.
End C121Tabu.

Lemma zero_shift t0 : In t0 thr -> (0 < t0)%Q -> exists q, In q (shifted (fun k => - (fun _ => 0) k)%Q thr) /\ (0 < q)%Q.
Proof.
  intros Hin H. apply In_nth_error in Hin. destruct Hin as [k Ek]. exists (t0 + - 0)%Q. split; [|lra].
  eapply (nth_error_In _ k). apply shifted_nth. eauto.
Qed.
Lemma zero_meets l z : meets sp (shifted (fun k => - (fun _ => 0) k)%Q thr) l z -> meets sp thr l z.
Proof. intros H k t Et. pose proof (lower_meets sp thr (fun _ => 0%Q) l z H k t Et) as Ht. cbn beta in Ht. lra. Qed.
Lemma zero_meets_in isl : meets_in sp (shifted (fun k => - (fun _ => 0) k)%Q thr) isl -> meets_in sp thr isl.
Proof. intros H k t Et. specialize (H k (t + - 0)%Q). rewrite shifted_nth in H. specialize (H ltac:(eauto)). lra. Qed.

(** ** C122: whole-number amounts with totals up to [M] *)
Section C122Tabu.
Variables (A : arith) (M : Q).
Hypothesis Hadd : exact_upto M (ar_add A) Qplus.
Hypothesis Hsub : exact_upto M (ar_sub A) Qminus.
Hypothesis Hw : forall x q, In x sp -> In q x -> whole q.
Hypothesis HM : forall k, k < length thr -> (whole_map sp g k <= M)%Q.
Let Hsum : forall k R, k < length thr -> R <> [] -> NoDup R -> (forall a, In a R -> a < gn g) ->
  (Qabs (colsum A (column sp k R) - total_in sp R k) <= (fun _ => 0) k)%Q.
Proof.
  intros k R Hk H1 H2 H3. pose proof (whole_colsum A M Hadd sp thr (gn g) Hsh Hpos Hw HM k R Hk H1 H2 H3) as E. apply Qabs_Qle_condition. cbn beta. lra.
Qed.
Let Hdif : forall k R a, k < length thr -> NoDup R -> (forall a, In a R -> a < gn g) -> In a R ->
  (ar_sub A (colsum A (column sp k R)) (nth k (nth a sp []) 0) <= total_in sp R k - nth k (nth a sp []) 0 + (fun _ => 0) k)%Q.
Proof. intros k R a Hk H1 H2 H3. pose proof (whole_dif A M Hadd Hsub sp thr (gn g) Hsh Hpos Hw HM k R a Hk H1 H2 H3) as E. cbn beta. lra. Qed.

Theorem C122_basic_partial t0 fuel maxlen reps max_it labels0 s r labels s' r' : In t0 thr -> (0 < t0)%Q -> 0 < max_it ->
  fmaxp_basic_fit A A enum order O fuel maxlen reps g attr sp thr max_it labels0 s r = Ok (labels, s', r') ->
  exists p l, labels = Some l /\ feasible g l p /\ forall z, In z l -> meets sp thr l z.
Proof.
  intros Ht0 Hp0 Hit H.
  pose proof (fmaxp_basic_post A A enum order Hord O g attr sp thr _ _ Hsym Hloop (shifted_shaped _ _ _ _ Hsh) Hpos
    (approx_check A sp thr (gn g) Hsh _ Hsum) (approx_donors A g sp thr Hsh _ Hdif) (zero_shift t0 Ht0 Hp0) fuel maxlen reps max_it labels0 s r Hit) as Hp.
  rewrite H in Hp. destruct Hp as [p [l [before [r1 [-> [[Hf Hm] _]]]]]]. exists p, l. split; [auto|]. split; [auto|].
  intros z Hz. apply zero_meets, Hm. auto.
Qed.
Theorem C122_reactive_partial t0 maxit k1 k2 max_it labels0 s r labels s' r' : In t0 thr -> (0 < t0)%Q -> 0 < max_it ->
  n_islands g 1 -> rw_visited s = [] ->
  fmaxp_reactive_fit A A enum order O maxit k1 k2 g attr sp thr max_it labels0 s r = Ok (labels, s', r') ->
  exists p l, labels = Some l /\ feasible g l p /\ forall z, In z l -> meets sp thr l z.
Proof.
  intros Ht0 Hp0 Hit Hn Hv H. assert (Hone : n_components g = 1) by (apply n_islands_iff in Hn; auto).
  pose proof (fmaxp_reactive_post A A enum order Hord O g attr sp thr _ _ Hsym Hloop (shifted_shaped _ _ _ _ Hsh) Hpos
    (approx_check A sp thr (gn g) Hsh _ Hsum) (approx_donors A g sp thr Hsh _ Hdif) (zero_shift t0 Ht0 Hp0) Hone maxit k1 k2 max_it labels0 s r Hit Hv) as Hp.
  rewrite H in Hp. destruct Hp as [p [l [before [r1 [-> [[Hf Hm] _]]]]]]. exists p, l. split; [auto|]. split; [auto|].
  intros z Hz. apply zero_meets, Hm. auto.
Qed.
End C122Tabu.

(** ** C152: amounts in an integer type of fixed width *)
Section C152Tabu.
Variables (w : Z -> Z) (lo size : Z) (A : arith).
Hypothesis Hw : int_type w lo size.
Hypothesis Hlo : (lo <= 0)%Z.
Hypothesis Hwh : forall x q, In x sp -> In q x -> whole q.

Theorem C152_basic_thresholds t0 fuel maxlen reps max_it labels0 s r labels s' r' : In t0 thr -> (0 < t0)%Q -> 0 < max_it ->
  int_maxp_basic_fit w A enum order O fuel maxlen reps g attr sp thr max_it labels0 s r = Ok (labels, s', r') ->
  exists p l, labels = Some l /\ feasible g l p /\ forall z, In z l -> meets sp thr l z.
Proof.
  intros Ht0 Hp0 Hit H. unfold int_maxp_basic_fit in H.
  pose proof (fmaxp_basic_post (int_arith w) A enum order Hord O g attr sp thr _ _ Hsym Hloop (shifted_shaped _ _ _ _ Hsh) Hpos
    (int_check w lo size Hw Hlo g sp thr Hsh Hpos Hwh) (int_donors w lo size Hw Hlo g sp thr Hsh Hpos Hwh) (zero_shift t0 Ht0 Hp0) fuel maxlen reps max_it labels0 s r Hit) as Hp.
  rewrite H in Hp. destruct Hp as [p [l [before [r1 [-> [[Hf Hm] _]]]]]]. exists p, l. split; [auto|]. split; [auto|].
  intros z Hz. apply zero_meets, Hm. auto.
Qed.
Theorem C152_reactive_thresholds t0 maxit k1 k2 max_it labels0 s r labels s' r' : In t0 thr -> (0 < t0)%Q -> 0 < max_it ->
  n_islands g 1 -> rw_visited s = [] ->
  int_maxp_reactive_fit w A enum order O maxit k1 k2 g attr sp thr max_it labels0 s r = Ok (labels, s', r') ->
  exists p l, labels = Some l /\ feasible g l p /\ forall z, In z l -> meets sp thr l z.
Proof.
  intros Ht0 Hp0 Hit Hn Hv H. assert (Hone : n_components g = 1) by (apply n_islands_iff in Hn; auto). unfold int_maxp_reactive_fit in H.
  pose proof (fmaxp_reactive_post (int_arith w) A enum order Hord O g attr sp thr _ _ Hsym Hloop (shifted_shaped _ _ _ _ Hsh) Hpos
    (int_check w lo size Hw Hlo g sp thr Hsh Hpos Hwh) (int_donors w lo size Hw Hlo g sp thr Hsh Hpos Hwh) (zero_shift t0 Ht0 Hp0) Hone maxit k1 k2 max_it labels0 s r Hit Hv) as Hp.
  rewrite H in Hp. destruct Hp as [p [l [before [r1 [-> [[Hf Hm] _]]]]]]. exists p, l. split; [auto|]. split; [auto|].
  intros z Hz. apply zero_meets, Hm. auto.
Qed.
(** an island that does not reach the thresholds: no wrap-around hides it *)
Theorem C152_tabu_unmet v isl : v < gn g -> island g v isl -> ~ meets_in sp thr isl ->
  (forall fuel maxlen reps max_it labels0 s r, 0 < max_it ->
     exists m, int_maxp_basic_fit w A enum order O fuel maxlen reps g attr sp thr max_it labels0 s r = Raise (ValueError m)) /\
  (forall maxit k1 k2 max_it labels0 s r, 0 < max_it ->
     exists m, int_maxp_reactive_fit w A enum order O maxit k1 k2 g attr sp thr max_it labels0 s r = Raise (ValueError m)).
Proof.
  intros Hv Hi Hnm. assert (Hn : ~ meets_in sp (shifted (fun k => - (fun _ => 0) k)%Q thr) isl) by (intros H; apply Hnm, zero_meets_in, H).
  split; intros; [unfold int_maxp_basic_fit, fmaxp_basic_fit|unfold int_maxp_reactive_fit, fmaxp_reactive_fit];
    eapply (fls_raises (int_arith w) A enum O g attr sp thr _ _ Hsym Hloop Hpos (int_check w lo size Hw Hlo g sp thr Hsh Hpos Hwh)); eauto.
Qed.
(** Totals that fit the type, on any number of islands: the same result or exception, draws and local search afterwards. *)
Theorem C152_basic_totals_fit fuel maxlen reps max_it labels0 c r :
  (forall k, k < length thr -> (whole_map sp g k <= inject_Z (lo + size - 1))%Q) ->
  int_maxp_basic_fit w A enum order O fuel maxlen reps g attr sp thr max_it labels0 (FAzp c) r =
  fmaxp_basic_fit exact_arith A enum order O fuel maxlen reps g attr sp thr max_it labels0 (FAzp c) r.
Proof.
  intros Htop. unfold int_maxp_basic_fit. apply (basic_fits w lo size Hw Hlo A enum order Hord O g attr sp thr Hsym Hloop Hsh Hpos Hwh Htop). exact Logic.I.
Qed.
Theorem C152_reactive_totals_fit maxit k1 k2 max_it labels0 c avg reps visited r :
  (forall k, k < length thr -> (whole_map sp g k <= inject_Z (lo + size - 1))%Q) ->
  int_maxp_reactive_fit w A enum order O maxit k1 k2 g attr sp thr max_it labels0 (mkReactiveWith (FAzp c) avg reps visited) r =
  fmaxp_reactive_fit exact_arith A enum order O maxit k1 k2 g attr sp thr max_it labels0 (mkReactiveWith (FAzp c) avg reps visited) r.
Proof.
  intros Htop. unfold int_maxp_reactive_fit. apply (reactive_fits w lo size Hw Hlo A enum order Hord O g attr sp thr Hsym Hloop Hsh Hpos Hwh Htop). exact Logic.I.
Qed.

(** As C152_number_of_regions. *)
Let Hexact : forall k R, k < length thr -> R <> [] -> NoDup R -> (forall a, In a R -> a < gn g) ->
  (Qabs (colsum exact_arith (column sp k R) - total_in sp R k) <= (fun _ => 0) k)%Q.
Proof. intros k R _ _ _ _. apply (exact_sum sp). Qed.
Let Hexactd : forall k R a, k < length thr -> NoDup R -> (forall a, In a R -> a < gn g) -> In a R ->
  (ar_sub exact_arith (colsum exact_arith (column sp k R)) (nth k (nth a sp []) 0) <= total_in sp R k - nth k (nth a sp []) 0 + (fun _ => 0) k)%Q.
Proof. intros k R a _ _ _ _. apply (exact_dif sp). Qed.
Theorem C152_basic_number_of_regions t m fuel maxlen reps max_it labels0 s r l s1 r1 fuel' maxlen' reps' labels0' s' l' s1' r1' :
  thr = [t] -> (0 < t)%Q -> (forall x q, In x sp -> In q x -> (q <= m)%Q) -> (m <= inject_Z (lo + size - 1))%Q -> (t + m <= inject_Z (lo + size))%Q -> 0 < max_it ->
  int_maxp_basic_fit w A enum order O fuel maxlen reps g attr sp thr max_it labels0 s r = Ok (Some l, s1, r1) ->
  fmaxp_basic_fit exact_arith A enum order O fuel' maxlen' reps' g attr sp thr max_it labels0' s' r = Ok (Some l', s1', r1') ->
  n_labels l = n_labels l'.
Proof.
  intros Et Ht Hm Hm0 Hroom Hit H1 H2. unfold int_maxp_basic_fit in H1. assert (Hin : In t thr) by (rewrite Et; cbn; auto).
  pose proof (fmaxp_basic_post (int_arith w) A enum order Hord O g attr sp thr _ _ Hsym Hloop (shifted_shaped _ _ _ _ Hsh) Hpos
    (int_check w lo size Hw Hlo g sp thr Hsh Hpos Hwh) (int_donors w lo size Hw Hlo g sp thr Hsh Hpos Hwh) (zero_shift t Hin Ht) fuel maxlen reps max_it labels0 s r Hit) as P1.
  rewrite H1 in P1. clear H1.
  pose proof (fmaxp_basic_post exact_arith A enum order Hord O g attr sp thr _ _ Hsym Hloop (shifted_shaped _ _ _ _ Hsh) Hpos
    (approx_check exact_arith sp thr (gn g) Hsh _ Hexact) (approx_donors exact_arith g sp thr Hsh _ Hexactd) (zero_shift t Hin Ht) fuel' maxlen' reps' max_it labels0' s' r Hit) as P2.
  rewrite H2 in P2. clear H2.
  destruct P1 as [mp [l1 [before [q [[= <-] [[[_ [F1 _]] _] C1]]]]]]. destruct P2 as [mp' [l2 [before' [q' [[= <-] [[[_ [F2 _]] _] C2]]]]]].
  rewrite (one_construct w lo size Hw Hlo A enum g attr sp thr Hsh Hpos Hwh t m Et Hm Hm0 Hroom), C2 in C1. injection C1 as -> _ _. congruence.
Qed.
Theorem C152_reactive_number_of_regions t m maxit k1 k2 max_it labels0 s r l s1 r1 maxit' k1' k2' labels0' s' l' s1' r1' :
  thr = [t] -> (0 < t)%Q -> (forall x q, In x sp -> In q x -> (q <= m)%Q) -> (m <= inject_Z (lo + size - 1))%Q -> (t + m <= inject_Z (lo + size))%Q -> 0 < max_it ->
  n_islands g 1 -> rw_visited s = [] -> rw_visited s' = [] ->
  int_maxp_reactive_fit w A enum order O maxit k1 k2 g attr sp thr max_it labels0 s r = Ok (Some l, s1, r1) ->
  fmaxp_reactive_fit exact_arith A enum order O maxit' k1' k2' g attr sp thr max_it labels0' s' r = Ok (Some l', s1', r1') ->
  n_labels l = n_labels l'.
Proof.
  intros Et Ht Hm Hm0 Hroom Hit Hn Hv Hv' H1 H2. unfold int_maxp_reactive_fit in H1. assert (Hin : In t thr) by (rewrite Et; cbn; auto).
  assert (Hone : n_components g = 1) by (apply n_islands_iff in Hn; auto).
  pose proof (fmaxp_reactive_post (int_arith w) A enum order Hord O g attr sp thr _ _ Hsym Hloop (shifted_shaped _ _ _ _ Hsh) Hpos
    (int_check w lo size Hw Hlo g sp thr Hsh Hpos Hwh) (int_donors w lo size Hw Hlo g sp thr Hsh Hpos Hwh) (zero_shift t Hin Ht) Hone maxit k1 k2 max_it labels0 s r Hit Hv) as P1.
  rewrite H1 in P1. clear H1.
  pose proof (fmaxp_reactive_post exact_arith A enum order Hord O g attr sp thr _ _ Hsym Hloop (shifted_shaped _ _ _ _ Hsh) Hpos
    (approx_check exact_arith sp thr (gn g) Hsh _ Hexact) (approx_donors exact_arith g sp thr Hsh _ Hexactd) (zero_shift t Hin Ht) Hone maxit' k1' k2' max_it labels0' s' r Hit Hv') as P2.
  rewrite H2 in P2. clear H2.
  destruct P1 as [mp [l1 [before [q [[= <-] [[[_ [F1 _]] _] C1]]]]]]. destruct P2 as [mp' [l2 [before' [q' [[= <-] [[[_ [F2 _]] _] C2]]]]]].
  rewrite (one_construct w lo size Hw Hlo A enum g attr sp thr Hsh Hpos Hwh t m Et Hm Hm0 Hroom), C2 in C1. injection C1 as -> _ _. congruence.
Qed.
End C152Tabu.
End Common.

(** ** Examples *)
Definition frw_fresh : reactive_with fstrategy := mkReactiveWith (FAzp unstarted) 1 1 [].
Definition ft_basic (B A : arith) (attr sp : list Q) (t : Q) (r : rng) :=
  fmaxp_basic_fit B A (fun l => l) same_order (fpairwise A (fun l => l)) 40 None 2 (path_graph (length sp)) (att attr) (att sp) [t] 1 None (FAzp unstarted) r.
Definition ft_reactive (B A : arith) (attr sp : list Q) (t : Q) (r : rng) :=
  fmaxp_reactive_fit B A (fun l => l) same_order (fpairwise A (fun l => l)) 3 1 1 (path_graph (length sp)) (att attr) (att sp) [t] 1 None frw_fresh r.
(** C122 is false of the code with AZPBasicTabu too, in the same way as with AZP. *)
Theorem C122_basic_refuted :
  exists g attr sp thr r labels, symmetric g /\ no_self_loops g /\ shaped sp thr (gn g) /\ non_negative sp /\
    (forall x q, In x sp -> In q x -> is_float q) /\
    (forall k, k < length thr -> (qpow (1 + (1 # 2 ^ 53)) (gn g) * whole_map sp g k <= max_float)%Q) /\
    mp_labels (fmaxp_basic_fit float64 float64 (fun l => l) same_order (fpairwise float64 (fun l => l)) 40 None 2 g attr sp thr 1 None (FAzp unstarted) r) = Some labels /\
    exists z, In z labels /\ ~ meets sp thr labels z.
Proof.
  exists (path_graph 3), attr122, sp122, [2%Q], (draws [2;0;0;0;0;1]), [1;1;0]%Z.
  split; [apply path_symmetric|]. split; [apply path_no_self_loops|].
  split; [split; [reflexivity|]; intros x [<-|[<-|[<-|[]]]]; reflexivity|].
  split; [intros x q [<-|[<-|[<-|[]]]] [<-|[]]; vm_compute; discriminate|]. split; [apply sp122_floats|].
  split; [intros [|k] Hk; [vm_compute; discriminate|cbn in Hk; lia]|]. split; [vm_compute; reflexivity|].
  exists 0%Z. split; [cbn; auto|]. intros H. specialize (H 0 2%Q eq_refl). vm_compute in H. apply H. reflexivity.
Qed.
(** seven areas in a row with tenths, threshold 2, in double precision: the bound is far below the threshold *)
Definition tenths : list Q := map (fun q => fl64 (q * (1 # 10)))%Q [10;11;12;13;14;15;16]%Q.
Example C121_tabu_example :
  symmetric (path_graph 7) /\ n_islands (path_graph 7) 1 /\ shaped (att tenths) [2%Q] 7 /\ rw_visited frw_fresh = [] /\
  ((qpow (1 + (1 # 2 ^ 53)) 7 - 1) * total_in (att tenths) (seq 0 7) 0 < 2)%Q /\
  mp_labels (ft_basic float64 float64 [0;9;1;8;2;3;9]%Q tenths 2%Q (draws [2])) = Some [1;1;0;0;0;2;2]%Z /\
  mp_labels (ft_reactive float64 float64 [0;9;1;8;2;3;9]%Q tenths 2%Q (draws [4])) = Some [1;1;2;2;2;0;0]%Z /\
  mp_raises (ft_basic float64 float64 [0;9;1;8;2;3;9]%Q tenths 10%Q (draws [2])) = true /\
  (total_in (att tenths) (seq 0 7) 0 + (qpow (1 + (1 # 2 ^ 53)) 7 - 1) * total_in (att tenths) (seq 0 7) 0 < 10)%Q.
Proof.
  split; [apply path_symmetric|]. split; [apply n_islands_iff; vm_compute; reflexivity|].
  split; [split; [vm_compute; reflexivity|]; intros x Hx; apply in_map_iff in Hx; destruct Hx as [q [<- _]]; reflexivity|].
  split; [reflexivity|]. repeat split; vm_compute; reflexivity.
Qed.
(** 8 bits with sign and 60 in every area: the total 420 does not fit.  With 100, 100, 27, 100 the regions of other draws raise ValueError. *)
Example C152_tabu_example :
  (forall x q, In x (att (repeat 60%Q 7)) -> In q x -> whole q) /\ wrap_signed 8 420 <> 420%Z /\
  mp_labels (ft_basic (int_arith (wrap_signed 8)) exact_arith [0;9;1;8;2;3;9]%Q (repeat 60%Q 7) 70%Q (draws [2])) = Some [1;1;0;0;0;2;2]%Z /\
  mp_labels (ft_reactive (int_arith (wrap_signed 8)) exact_arith [0;9;1;8;2;3;9]%Q (repeat 60%Q 7) 70%Q (draws [4])) = Some [1;1;2;2;2;0;0]%Z /\
  mp_labels (ft_basic (int_arith (wrap_signed 8)) exact_arith [0;0;0;0]%Q [100;100;27;100]%Q 120%Q (draws [3])) = Some [0;0;0;0]%Z /\
  mp_raises (ft_basic (int_arith (wrap_signed 8)) exact_arith [0;0;0;0]%Q [100;100;27;100]%Q 120%Q (draws [0])) = true /\
  mp_raises (ft_basic (int_arith (wrap_signed 8)) exact_arith [0;0;0;0]%Q [10;10;7;10]%Q 40%Q (draws [0])) = true.
Proof.
  split; [|split; [vm_compute; discriminate|repeat split; vm_compute; reflexivity]].
  intros x q Hx Hq. apply in_map_iff in Hx. destruct Hx as [y [<- Hy]]. apply repeat_spec in Hy. subst y. destruct Hq as [<-|[]]. exists 60%Z. reflexivity.
Qed.
(** counts in double precision *)
Example C122_tabu_example :
  mp_labels (ft_basic float64 float64 [0;9;1;8;2;3;9]%Q (repeat 60%Q 7) 70%Q (draws [2])) = Some [1;1;0;0;0;2;2]%Z /\
  mp_labels (ft_reactive float64 float64 [0;9;1;8;2;3;9]%Q (repeat 60%Q 7) 70%Q (draws [4])) = Some [1;1;2;2;2;0;0]%Z.
Proof. vm_compute. split; reflexivity. Qed.
(** 8 bits with sign: the total 127 of 30, 20, 27, 50 just fits; with 60 in every area and the threshold 61 only the number of regions is the same *)
Example C152_tabu_fits_example :
  (total_in (att [30;20;27;50]) (seq 0 4) 0 <= inject_Z (- 128 + 256 - 1))%Q /\ (61 + 60 <= inject_Z (- 128 + 256))%Q /\
  ~ (total_in (att (repeat 60 7)) (seq 0 7) 0 <= inject_Z (- 128 + 256 - 1))%Q /\
  mp_labels (ft_basic (int_arith (wrap_signed 8)) exact_arith [0;9;1;8]%Q [30;20;27;50]%Q 45%Q (draws [1])) =
    mp_labels (ft_basic exact_arith exact_arith [0;9;1;8]%Q [30;20;27;50]%Q 45%Q (draws [1])) /\
  mp_labels (ft_reactive (int_arith (wrap_signed 8)) exact_arith [0;9;1;8]%Q [30;20;27;50]%Q 45%Q (draws [2])) <> None /\
  option_map (fun l => length (nodup Z.eq_dec l)) (mp_labels (ft_basic (int_arith (wrap_signed 8)) exact_arith [0;9;1;8;2;3;9]%Q (repeat 60%Q 7) 61%Q (draws [2]))) = Some 3 /\
  option_map (fun l => length (nodup Z.eq_dec l)) (mp_labels (ft_basic (int_arith (wrap_signed 8)) exact_arith [0;9;1;8]%Q [30;20;27;50]%Q 45%Q (draws [1]))) = Some 2.
Proof. repeat split; vm_compute; try reflexivity; try discriminate. intros H. apply H. reflexivity. Qed.

Print Assumptions C121_basic_thresholds.
Print Assumptions C121_reactive_thresholds.
Print Assumptions C121_tabu_unmet.
Print Assumptions C122_basic_partial.
Print Assumptions C122_reactive_partial.
Print Assumptions C122_basic_refuted.
Print Assumptions C152_basic_thresholds.
Print Assumptions C152_reactive_thresholds.
Print Assumptions C152_tabu_unmet.
Print Assumptions C152_basic_totals_fit.
Print Assumptions C152_reactive_totals_fit.
Print Assumptions C152_basic_number_of_regions.
Print Assumptions C152_reactive_number_of_regions.
