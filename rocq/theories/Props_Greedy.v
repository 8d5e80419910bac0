(** Properties C92-C95: the possible outcomes of the max-p heuristic. *)
From Verif Require Import Base Spec M_Graph P_Graph M_Util P_Base P_Util P_Forest P_Init P_Initial
  M_Objective P_Sum P_Objective M_Azp P_Azp P_Strategy P_Fit P_AzpFit M_Sa Examples Props_Objective Props_Strategy Props_Azp Props_Sa
  M_MaxP P_MaxP P_MaxP2 P_MaxP3 P_MaxP4 P_Greedy Props_MaxP.

(** ** C92: the two steps of the construction phase *)
(** With non-negative attributes the lists of regions that grow_regions can return (for some random
    draws) are exactly the greedy ones that leave no room for a further region. *)
Lemma grow_greedy d g attr sp thr r regions enclaves r' :
  symmetric g -> no_self_loops g -> shaped sp thr (gn g) -> non_negative sp ->
  grow_regions d g attr sp thr r = Ok (regions, enclaves, r') -> greedy_partition d g attr sp thr regions enclaves.
Proof.
  intros Hsym Hloop Hsp Hpos H. pose proof (grow_regions_greedy d g attr sp thr Hsym Hloop Hsp r) as Hp.
  rewrite H in Hp. destruct Hp as [F [-> [HG Hgr]]]. split; [eapply grown_partial; eauto|]. split.
  - intros k R Hk. split; [|apply Hgr; auto]. destruct HG as [_ [HG _]]. apply (HG R). eapply nth_error_In; eauto.
  - intros X Hnd Hin Hc. apply (no_more_regions g Hsym sp thr regions F); auto.
Qed.

Lemma greedy_partition_perm d g attr sp thr regions E E' : Permutation E E' ->
  greedy_partition d g attr sp thr regions E -> greedy_partition d g attr sp thr regions E'.
Proof.
  intros HE [[H1 [H2 H3]] [H4 H5]].
  assert (Hin : forall a, In a E <-> In a E') by (intros a; split; apply Permutation_in; [auto|symmetry; auto]).
  split; [split; [|split; auto]|split; auto].
  - eapply Permutation_NoDup; [|exact H1]. apply Permutation_app_head. auto.
  - intros a. rewrite <- H2, !in_app_iff, Hin. tauto.
  - intros X Hn HX. apply H5; auto. intros a Ha. apply Hin; auto.
Qed.

Theorem C92_growth_outcomes d g attr sp thr regions enclaves :
  symmetric g -> no_self_loops g -> shaped sp thr (gn g) -> non_negative sp ->
  ((exists r enclaves' r', Permutation enclaves enclaves' /\ grow_regions d g attr sp thr r = Ok (regions, enclaves', r')) <->
   greedy_partition d g attr sp thr regions enclaves).
Proof.
  intros Hsym Hloop Hsp Hpos. split.
  - intros [r [enclaves' [r' [HE H]]]]. apply (greedy_partition_perm d g attr sp thr regions enclaves'); [symmetry; auto|].
    eapply grow_greedy; eauto.
  - intros [H1 [H2 H3]]. destruct (grow_regions_reach d g attr sp thr Hsym Hloop Hsp regions enclaves H1 H2 H3) as [E' [HE H]].
    destruct (H (fun _ => 0)) as [r Er]. eauto 6.
Qed.

(** The regions that assign_enclaves can return are exactly those that arise by handing out the enclaves
    one after the other, each to a closest neighbouring region. *)
Theorem C92_enclave_outcomes d g attr regions enclaves regions' :
  symmetric g -> partial_partition g regions enclaves ->
  ((exists r r', assign_enclaves d g attr regions enclaves r = Ok (regions', r')) <-> absorbed d g attr regions enclaves regions').
Proof.
  intros Hsym Hpp. split.
  - intros [r [r' H]]. eapply assign_enclaves_absorbed; eauto.
  - intros H. destruct (assign_enclaves_reach d g attr Hsym regions enclaves regions' Hpp H (fun _ => 0)) as [r Er]. eauto.
Qed.

(** ** runs of the construction phase *)
Lemma grows_In d g attr sp thr r runs r' x : grows d g attr sp thr r runs r' -> In x runs ->
  exists r1 r2, grow_regions d g attr sp thr r1 = Ok (fst x, snd x, r2).
Proof. induction 1 as [r|r P E r1 runs r2 Hg H IH]; intros Hx; [destruct Hx|destruct Hx as [<-|Hx]]; cbn [fst snd]; eauto. Qed.

Lemma grows_fun d g attr sp thr r runs r' : grows d g attr sp thr r runs r' -> forall runs2 r2, grows d g attr sp thr r runs2 r2 ->
  length runs2 = length runs -> runs2 = runs.
Proof.
  induction 1 as [r|r P E r1 runs r' Hg H IH]; intros runs2 r2 H2 Hl.
  - destruct runs2; [auto|discriminate].
  - inversion H2 as [|? P2 E2 r3 runs3 ? Hg2 H3]; subst; [discriminate|]. rewrite Hg in Hg2. injection Hg2 as <- <- <-.
    f_equal. eapply IH; eauto.
Qed.

Lemma grows_reach d g attr sp thr regions enclaves : symmetric g -> no_self_loops g -> shaped sp thr (gn g) ->
  greedy_partition d g attr sp thr regions enclaves ->
  exists enclaves', forall n r', exists r, grows d g attr sp thr r (repeat (regions, enclaves') n) r'.
Proof.
  intros Hsym Hloop Hsp [H1 [H2 H3]]. destruct (grow_regions_reach d g attr sp thr Hsym Hloop Hsp regions enclaves H1 H2 H3) as [E' [_ H]].
  exists E'. induction n as [|n IH]; intros r'; cbn [repeat]; [exists r'; constructor|].
  destruct (IH r') as [r1 Hr1]. destruct (H r1) as [r Hr]. exists r. econstructor; eauto.
Qed.

(** ** C93: areas that meet the threshold alone *)
Lemma n_labels_NoDup l : n_labels l = length l <-> NoDup l.
Proof.
  unfold n_labels. split.
  - intros H. apply (NoDup_incl_NoDup (l := nodup Z.eq_dec l)); [apply NoDup_nodup|lia|]. intros x. apply nodup_In.
  - intros H. rewrite nodup_fixed_point; auto.
Qed.

Lemma single_regions d g attr sp thr regions enclaves : greedy_partition d g attr sp thr regions enclaves ->
  (forall a, a < gn g -> meets_in sp thr [a]) -> length regions = gn g.
Proof.
  intros [[Hnd [Hin Hc]] [Hgr Hno]] Hall.
  assert (HE : enclaves = []).
  { destruct enclaves as [|e E]; [auto|exfalso]. apply (Hno [e]); [repeat constructor; intros []| | |].
    - intros a [<-|[]]. left; auto.
    - apply single_contiguous.
    - apply Hall, Hin, in_or_app. right; left; auto. }
  subst enclaves. assert (Hp : Permutation (concat regions ++ []) (seq 0 (gn g))) by (apply partial_perm; auto).
  apply Permutation_length in Hp. rewrite app_nil_r, seq_length in Hp. rewrite <- Hp.
  assert (H1 : forall R, In R regions -> length R = 1).
  { intros R HR. apply In_nth_error in HR. destruct HR as [k Hk]. destruct (Hgr k R Hk) as [_ [Hne [Hb Hj]]].
    destruct R as [|a [|b R]]; [congruence|auto|exfalso]. destruct (Hj 1 b ltac:(lia) eq_refl) as [Hn _].
    apply Hn. cbn [firstn]. apply Hall. apply Hb. left; auto. }
  clear - H1. induction regions as [|R regions IH]; [auto|]. cbn [concat length]. rewrite app_length, (H1 R) by (left; auto).
  rewrite <- IH; [auto|]. intros R' HR'. apply H1. right; auto.
Qed.

Theorem C93_single_areas expf order O d fuel g attr sp thr max_it entropy labels0 ls r labels ls' r' :
  (forall l, Permutation (order l) l) -> symmetric g -> no_self_loops g -> shaped sp thr (gn g) -> non_negative sp ->
  0 < max_it -> maxp_azp_fit expf order O d fuel g attr sp thr max_it entropy labels0 ls r = Ok (labels, ls', r') ->
  exists l, labels = Some l /\ length l = gn g /\ (NoDup l <-> forall a, a < gn g -> meets_in sp thr [a]).
Proof.
  intros Hord Hsym Hloop Hsp Hpos Hit H.
  destruct (C35_maxp_valid expf order O d fuel g attr sp thr max_it entropy labels0 ls r labels ls' r') as
    [runs [p [l [-> [[Hl [r1 Hg]] [Hle [[x [Hx Ex]] [Hf Hm]]]]]]]]; auto.
  exists l. split; [auto|]. destruct Hf as [Hlen [Hn Hc]]. split; [auto|]. split.
  - intros Hnd a Ha k t Hk. assert (Hal : a < length l) by lia.
    assert (Hz : In (lab l a) l) by (apply nth_In; auto). specialize (Hm _ Hz k t Hk).
    rewrite (total_region sp l (lab l a) [a] k) in Hm; [auto| |repeat constructor; intros []].
    intros b. unfold region. split.
    + intros Hb. left. pose proof (nth_error_lt _ _ _ Hb) as Hbl. apply lab_of_nth_error in Hb.
      apply (proj1 (NoDup_nth l (-1)%Z) Hnd); auto.
    + intros [<-|[]]. apply lab_nth_error; auto.
  - intros Hall. apply n_labels_NoDup. rewrite Hn, <- Ex, Hlen.
    destruct (grows_In d g attr sp thr r runs r1 x Hg Hx) as [r2 [r3 E]].
    apply (single_regions d g attr sp thr (fst x) (snd x)); auto. eapply grow_greedy; eauto.
Qed.

(** ** C94: the possible numbers of regions *)
Theorem C94_region_counts expf order O d g attr sp thr :
  (forall l, Permutation (order l) l) -> symmetric g -> no_self_loops g -> shaped sp thr (gn g) -> non_negative sp ->
  length attr = gn g -> exact_on O attr ->
  (forall v isl, v < gn g -> island g v isl -> meets_in sp thr isl) ->
  exists bound, forall fuel max_it entropy labels0 ls p, bound <= fuel -> 0 < max_it ->
    match ls with Some s => azp_inside s | None => True end ->
    ((exists r l ls' r', maxp_azp_fit expf order O d fuel g attr sp thr max_it entropy labels0 ls r = Ok (Some l, ls', r') /\ n_labels l = p) <->
     exists regions rest, greedy_partition d g attr sp thr regions rest /\ length regions = p).
Proof.
  intros Hord Hsym Hloop Hsp Hpos Hattr Hex Hisl.
  destruct (proj1 (C36_maxp_fails_iff expf order O d g attr sp thr Hord Hsym Hloop Hsp Hpos Hattr Hex) Hisl) as [bound Hb].
  exists bound. intros fuel max_it entropy labels0 ls p Hf Hit Hls. split.
  - intros [r [l [ls' [r' [H Hn]]]]].
    destruct (C35_maxp_valid expf order O d fuel g attr sp thr max_it entropy labels0 ls r (Some l) ls' r') as
      [runs [q [l1 [E1 [[Hl [r1 Hg]] [Hle [[x [Hx Ex]] [[_ [Hn1 _]] _]]]]]]]]; auto.
    injection E1 as <-. destruct (grows_In d g attr sp thr r runs r1 x Hg Hx) as [r2 [r3 E]].
    exists (fst x), (snd x). split; [eapply grow_greedy; eauto|congruence].
  - intros [regions [rest [HG Hp]]]. destruct (grows_reach d g attr sp thr regions rest Hsym Hloop Hsp HG) as [E' H].
    destruct (H max_it (fun _ => 0)) as [r Hr]. destruct (Hb fuel max_it entropy labels0 ls r Hf Hit Hls) as [l [ls' [r' Efit]]].
    exists r, l, ls', r'. split; [auto|].
    destruct (C35_maxp_valid expf order O d fuel g attr sp thr max_it entropy labels0 ls r (Some l) ls' r') as
      [runs [q [l1 [E1 [[Hl [r1 Hg]] [Hle [[x [Hx Ex]] [[_ [Hn1 _]] _]]]]]]]]; auto.
    injection E1 as <-. assert (Er : runs = repeat (regions, E') max_it) by (eapply grows_fun; eauto; rewrite repeat_length; auto).
    subst runs. apply repeat_spec in Hx. subst x. cbn [fst] in Ex. congruence.
Qed.

(** ** C95: the maximum number of regions *)
(** [q] is the largest number of regions of a partition into contiguous regions that meet the threshold. *)
Definition maximum_regions (g : graph) (sp : list (list Q)) (thr : list Q) (q : nat) : Prop :=
  (exists l, feasible g l q /\ forall z, In z l -> meets sp thr l z) /\
  forall l q', feasible g l q' -> (forall z, In z l -> meets sp thr l z) -> q' <= q.

(** C95 (partial): there are at least as many regions as islands, and never more than in the best
    partition; the maximum is reached for some draws iff some greedy partition has that many regions (C94).
    Missing for the full property: some draws reach this maximum; see the refutation. *)
Theorem C95_maximum_partial expf order O d fuel g attr sp thr max_it entropy labels0 ls r labels ls' r' c q :
  (forall l, Permutation (order l) l) -> symmetric g -> no_self_loops g -> shaped sp thr (gn g) -> non_negative sp ->
  0 < max_it -> maxp_azp_fit expf order O d fuel g attr sp thr max_it entropy labels0 ls r = Ok (labels, ls', r') ->
  n_islands g c -> maximum_regions g sp thr q ->
  exists l, labels = Some l /\ c <= n_labels l <= q.
Proof.
  intros Hord Hsym Hloop Hsp Hpos Hit H Hc [_ Hq].
  destruct (C35_maxp_valid expf order O d fuel g attr sp thr max_it entropy labels0 ls r labels ls' r') as
    [runs [p [l [-> [_ [_ [_ [Hf Hm]]]]]]]]; auto.
  exists l. split; [auto|]. pose proof Hf as [Hlen [Hn Hcon]]. rewrite Hn. split; [|eapply Hq; eauto].
  destruct Hc as [R [[H1 [H2 [H3 _]]] <-]]. rewrite <- Hn. unfold n_labels.
  assert (Hin : forall a, In a R -> In (lab l a) l) by (intros a Ha; apply nth_In; rewrite Hlen; auto).
  assert (Hinj : forall a b, In a R -> In b R -> lab l a = lab l b -> a = b).
  { intros a b Ha Hb E. apply H3; auto. destruct (Hcon _ (Hin a Ha)) as [_ Hl]. apply (linked_mono g (region l (lab l a))).
    - intros x Hx. unfold areas. rewrite <- Hlen. eapply nth_error_lt; eauto.
    - apply Hl; [apply lab_nth_error; rewrite Hlen; auto|]. rewrite E. apply lab_nth_error; rewrite Hlen; auto. }
  rewrite <- (map_length (lab l) R). apply NoDup_incl_length.
  - clear - H1 Hinj. induction H1 as [|a R Hn H1 IH]; cbn [map]; constructor.
    + intros H. apply in_map_iff in H. destruct H as [b [E Hb]]. apply Hn. rewrite (Hinj a b); cbn; auto.
    + apply IH. intros x y Hx Hy. apply Hinj; right; auto.
  - intros z Hz. apply nodup_In. apply in_map_iff in Hz. destruct Hz as [a [<- Ha]]. auto.
Qed.

(** ** Examples and refutations *)
Local Notation att := (map (fun q => [q])).
Definition all4 : graph := mkG 4 (fun i j => negb (Nat.eqb i j)).
Definition attr95 : list (list Q) := att [0;1;10;11]%Q.
Definition sp95 : list (list Q) := att [3;3;1;1]%Q.

Lemma meets95 R : meets_in sp95 [4%Q] R <-> (4 <= total_in sp95 R 0)%Q.
Proof. split; [intros H; apply (H 0 4%Q eq_refl)|]. intros H [|[|k]] t Hk; try discriminate. injection Hk as <-. exact H. Qed.

Lemma greedy95 R : greedy_growth manhattan all4 attr95 sp95 [4%Q] [] R -> meets_in sp95 [4%Q] R ->
  In 1 R /\ (In 0 R \/ (In 2 R /\ In 3 R)).
Proof.
  intros [Hne [Hb Hg]] Hm.
  assert (Hfree : forall l c, c < 4 -> ~ In c l -> l <> [] -> (forall x, In x l -> x < 4) -> free_neighbor all4 [] l c).
  { intros [|x l] c Hc Hn Hl Hx; [congruence|]. split; [auto|]. split; [auto|]. split; [auto|]. exists x. split; [left; auto|].
    left. cbn [gadj all4]. apply negb_true_iff, Nat.eqb_neq. intros ->. apply Hn. left; auto. }
  assert (Hstep : forall j b c, 1 <= j -> nth_error R j = Some b -> c < 4 -> ~ In c (firstn j R) ->
    ~ In b (firstn j R) /\ (distance_to manhattan attr95 b (firstn j R) <= distance_to manhattan attr95 c (firstn j R))%Q).
  { intros j b c Hj Hjb Hc Hcn. destruct (Hg j b Hj Hjb) as [_ [[_ [_ [Hnb _]]] Hmin]]. split; [auto|]. apply Hmin, Hfree; auto.
    - destruct R; [congruence|]. destruct j; [lia|discriminate].
    - intros x Hx. apply (Hb x). rewrite <- (firstn_skipn j R). apply in_or_app. auto. }
  assert (Hlow : forall l, R = l -> (total_in sp95 l 0 < 4)%Q -> False).
  { intros l -> Hl. apply (proj1 (meets95 _)) in Hm. lra. }
  destruct R as [|a [|b R]]; [congruence| |].
  { exfalso. destruct (Hb a (or_introl eq_refl)) as [Ha _]. cbn in Ha. apply (Hlow _ eq_refl).
    do 4 (destruct a as [|a]; [vm_compute; reflexivity|]). lia. }
  destruct (Hb a (or_introl eq_refl)) as [Ha _]. cbn in Ha.
  destruct (Hb b (or_intror (or_introl eq_refl))) as [Hbb _]. cbn in Hbb.
  assert (H1 : forall c, c < 4 -> c <> a -> b <> a /\ (distance_to manhattan attr95 b [a] <= distance_to manhattan attr95 c [a])%Q).
  { intros c Hc Hca. destruct (Hstep 1 b c ltac:(lia) eq_refl Hc) as [Hn Hd]; cbn [firstn] in *; [intros [H|[]]; auto|].
    split; [intros ->; apply Hn; left; auto|exact Hd]. }
  assert (H2 : forall c, c < 4 -> c <> a -> c <> b -> (total_in sp95 [a; b] 0 < 4)%Q ->
    exists e R', R = e :: R' /\ e < 4 /\ e <> a /\ e <> b /\
      (distance_to manhattan attr95 e [a; b] <= distance_to manhattan attr95 c [a; b])%Q).
  { intros c Hc Hca Hcb Hl. destruct R as [|e R]; [destruct (Hlow _ eq_refl Hl)|]. exists e, R. split; [auto|].
    destruct (Hb e ltac:(cbn; auto)) as [He _]. cbn in He.
    destruct (Hstep 2 e c ltac:(lia) eq_refl Hc) as [Hn Hd]; cbn [firstn] in *; [intros [H|[H|[]]]; auto|].
    split; [auto|]. split; [intros ->; apply Hn; cbn; auto|]. split; [intros ->; apply Hn; cbn; auto|exact Hd]. }
  destruct a as [|[|[|[|a]]]]; [| | | |lia].
  - destruct (H1 1 ltac:(lia) ltac:(lia)) as [Hba Hd].
    destruct b as [|[|[|[|b]]]]; try lia; try (vm_compute in Hd; exfalso; apply Hd; reflexivity). cbn. auto.
  - destruct (H1 0 ltac:(lia) ltac:(lia)) as [Hba Hd].
    destruct b as [|[|[|[|b]]]]; try lia; try (vm_compute in Hd; exfalso; apply Hd; reflexivity). cbn. auto.
  - destruct (H1 3 ltac:(lia) ltac:(lia)) as [Hba Hd].
    destruct b as [|[|[|[|b]]]]; try lia; try (vm_compute in Hd; exfalso; apply Hd; reflexivity).
    destruct (H2 1 ltac:(lia) ltac:(lia) ltac:(lia) ltac:(vm_compute; reflexivity)) as [e [R' [-> [He [Hea [Heb Hd2]]]]]].
    destruct e as [|[|[|[|e]]]]; try lia; try (vm_compute in Hd2; exfalso; apply Hd2; reflexivity). cbn. auto 6.
  - destruct (H1 2 ltac:(lia) ltac:(lia)) as [Hba Hd].
    destruct b as [|[|[|[|b]]]]; try lia; try (vm_compute in Hd; exfalso; apply Hd; reflexivity).
    destruct (H2 1 ltac:(lia) ltac:(lia) ltac:(lia) ltac:(vm_compute; reflexivity)) as [e [R' [-> [He [Hea [Heb Hd2]]]]]].
    destruct e as [|[|[|[|e]]]]; try lia; try (vm_compute in Hd2; exfalso; apply Hd2; reflexivity). cbn. auto 6.
Qed.

Lemma shaped95 : shaped sp95 [4%Q] 4 /\ non_negative sp95.
Proof.
  split; [split; [reflexivity|]|]; intros x; cbn.
  - intros [<-|[<-|[<-|[<-|[]]]]]; reflexivity.
  - intros q [<-|[<-|[<-|[<-|[]]]]] [<-|[]]; lra.
Qed.

Lemma one_region95 regions rest : greedy_partition manhattan all4 attr95 sp95 [4%Q] regions rest -> length regions <= 1.
Proof.
  intros [[Hnd [Hin _]] [Hgr _]]. destruct regions as [|R0 [|R1 regions]]; cbn [length]; try lia. exfalso.
  destruct (Hgr 0 R0 eq_refl) as [Hm0 Hg0]. destruct (Hgr 1 R1 eq_refl) as [Hm1 _]. cbn [firstn concat] in Hg0.
  destruct (greedy95 R0 Hg0 Hm0) as [H1 H2]. apply (proj1 (meets95 _)) in Hm1.
  assert (Hnd1 : NoDup R1).
  { apply NoDup_app_l in Hnd. cbn [concat] in Hnd. apply NoDup_app_r, NoDup_app_l in Hnd. auto. }
  assert (Hdis : forall x, In x R1 -> x < 4 /\ ~ In x R0).
  { intros x Hx. split; [apply (Hin x); cbn [concat]; rewrite !in_app_iff; auto|]. intros H0.
    apply NoDup_app_l in Hnd. cbn [concat] in Hnd. eapply (NoDup_app_disj R0); [exact Hnd|exact H0|]. apply in_or_app. auto. }
  assert (Hsub : forall l, (forall x, x < 4 -> ~ In x R0 -> In x l) -> (4 <= total_in sp95 l 0)%Q).
  { intros l Hl. eapply Qle_trans; [exact Hm1|]. apply total_in_mono; [apply shaped95|auto|]. intros x Hx. destruct (Hdis x Hx). auto. }
  destruct H2 as [H2|[H2 H3]].
  - assert (H := Hsub [2;3]). vm_compute in H. apply H; [|reflexivity]. intros [|[|[|[|x]]]] Hx Hn; auto; try contradiction. lia.
  - assert (H := Hsub [0]). vm_compute in H. apply H; [|reflexivity]. intros [|[|[|[|x]]]] Hx Hn; auto; try contradiction. lia.
Qed.

(** C95 is false of the code: two regions are possible, and yet the heuristic finds a single one, whatever
    the draws, the number of rounds and the local search. *)
Theorem C95_maximum_refuted :
  exists g attr sp thr, symmetric g /\ no_self_loops g /\ shaped sp thr (gn g) /\ non_negative sp /\
    (exists l, feasible g l 2 /\ forall z, In z l -> meets sp thr l z) /\
    forall expf order O fuel max_it entropy labels0 ls r labels ls' r', (forall l, Permutation (order l) l) -> 0 < max_it ->
      maxp_azp_fit expf order O manhattan fuel g attr sp thr max_it entropy labels0 ls r = Ok (labels, ls', r') ->
      exists l, labels = Some l /\ n_labels l = 1.
Proof.
  assert (Hsym : symmetric all4) by (intros u v _ _; cbn [gadj all4]; rewrite Nat.eqb_sym; auto).
  assert (Hloop : no_self_loops all4) by (intros u _; cbn [gadj all4]; rewrite Nat.eqb_refl; auto).
  destruct shaped95 as [Hsp Hpos].
  exists all4, attr95, sp95, [4%Q]. do 4 (split; [auto|]). split.
  - exists [0;1;0;1]%Z. split.
    + split; [reflexivity|]. split; [reflexivity|]. apply check_regions_all. vm_compute. reflexivity.
    + intros z Hz [|[|k]] t Ht; try discriminate. injection Ht as <-. cbn in Hz.
      repeat (destruct Hz as [<-|Hz]; [vm_compute; discriminate|]). destruct Hz.
  - intros expf order O fuel max_it entropy labels0 ls r labels ls' r' Hord Hit H.
    destruct (C35_maxp_valid expf order O manhattan fuel all4 attr95 sp95 [4%Q] max_it entropy labels0 ls r labels ls' r') as
      [runs [p [l [-> [[Hl [r1 Hg]] [Hle [[x [Hx Ex]] [Hf Hm]]]]]]]]; auto.
    exists l. split; [auto|]. destruct (grows_In _ _ _ _ _ _ _ _ x Hg Hx) as [r2 [r3 E]].
    pose proof (one_region95 (fst x) (snd x) (grow_greedy _ _ _ _ _ _ _ _ _ Hsym Hloop Hsp Hpos E)) as H1.
    destruct Hf as [Hlen [Hn _]]. assert (Hl0 : n_labels l <> 0).
    { unfold n_labels. destruct l as [|z l]; [discriminate|]. intros H0. apply length_zero_iff_nil in H0.
      assert (Hz : In z (nodup Z.eq_dec (z :: l))) by (apply nodup_In; left; auto). rewrite H0 in Hz. destruct Hz. }
    lia.
Qed.

(** C92: the regions of [C33_example] are greedy; growing a region that is already large enough is not *)
Example C92_example :
  greedy_partition manhattan (path_graph 7) (att [1;2;2;0;1;3;0]%Q) (repeat [1%Q] 7) [2%Q] [[1;2];[4;3];[5;6]] [0] /\
  ~ greedy_partition manhattan (path_graph 7) (att [1;2;2;0;1;3;0]%Q) (repeat [1%Q] 7) [2%Q] [[0;1;2];[4;3];[5;6]] [] /\
  partial_partition (path_graph 5) [[0;1];[3;4]] [2] /\
  absorbed manhattan (path_graph 5) (att [1;2;4;5;5]%Q) [[0;1];[3;4]] [2] [[0;1];[3;4;2]].
Proof.
  assert (Hpp : partial_partition (path_graph 5) [[0;1];[3;4]] [2]).
  { split; [repeat constructor; cbn; intuition lia|]. split; [intros a; cbn; lia|].
    assert (Hpair : forall a, a < 4 -> contiguous (path_graph 5) (fun x => In x [a; S a])).
    { intros a Ha. apply (contiguous_ext _ (fun x => In x [a] \/ x = S a)); [intros x; cbn; intuition auto|].
      apply contiguous_add with (b := a); [apply single_contiguous|left; auto|]. left.
      do 4 (destruct a as [|a]; [reflexivity|]). lia. }
    intros R [<-|[<-|[]]]; apply Hpair; lia. }
  split; [|split; [|split; [exact Hpp|]]].
  - apply C92_growth_outcomes; [apply path_symmetric|apply path_no_self_loops|apply all_ones|apply all_ones|].
    exists (draws [1;1;2]), [0]. eexists. split; [auto|]. vm_compute. reflexivity.
  - intros [_ [H _]]. destruct (H 0 _ eq_refl) as [_ [_ [_ Hg]]]. destruct (Hg 2 2 ltac:(lia) eq_refl) as [Hn _]. apply Hn.
    intros [|[|k]] t Ht; try discriminate. injection Ht as <-. vm_compute. discriminate.
  - apply (C92_enclave_outcomes manhattan (path_graph 5)); [apply path_symmetric|exact Hpp|].
    exists rng0. eexists. vm_compute. reflexivity.
Qed.

(** C93: threshold 2 and areas of size 2 or 3; with one smaller area two areas have to share a region *)
Example C93_example :
  shaped (att [2;2;3;2]%Q) [2%Q] 4 /\ non_negative (att [2;2;3;2]%Q) /\
  (forall a, a < 4 -> meets_in (att [2;2;3;2]%Q) [2%Q] [a]) /\
  (exists l, mp_labels (mp_ex 40 (path_graph 4) [1;2;4;5]%Q [2;2;3;2]%Q 2%Q 3 None rng0) = Some l /\ NoDup l) /\
  mp_labels (mp_ex 40 (path_graph 4) [1;2;4;5]%Q [2;1;3;2]%Q 2%Q 3 None rng0) = Some [0;0;1;2]%Z.
Proof.
  split; [split; [reflexivity|]|split; [|split; [|split]]].
  - cbn. intros x [<-|[<-|[<-|[<-|[]]]]]; reflexivity.
  - cbn. intros x q [<-|[<-|[<-|[<-|[]]]]] [<-|[]]; lra.
  - intros a Ha [|[|k]] t Ht; try discriminate. injection Ht as <-.
    destruct a as [|[|[|[|a]]]]; [vm_compute; discriminate..|lia].
  - eexists. split; [vm_compute; reflexivity|]. repeat constructor; cbn; intuition discriminate.
  - vm_compute. reflexivity.
Qed.

(** C94: on this path of four areas one region and two regions are both possible *)
Example C94_example :
  (forall v isl, v < 4 -> island (path_graph 4) v isl -> meets_in (repeat [1%Q] 4) [2%Q] isl) /\
  (exists l, mp_labels (mp_ex 40 (path_graph 4) [0;5;5;0]%Q [1;1;1;1]%Q 2%Q 1 None (draws [0;0;0])) = Some l /\ n_labels l = 2) /\
  (exists l, mp_labels (mp_ex 40 (path_graph 4) [0;5;5;0]%Q [1;1;1;1]%Q 2%Q 1 None (draws [1;0;0])) = Some l /\ n_labels l = 1).
Proof.
  split; [|split].
  - intros v isl Hv Hi. rewrite (island_comp_nodes (path_graph 4) v isl Hv Hi). replace (comp_nodes (path_graph 4) (comp_label (path_graph 4) v)) with [0;1;2;3].
    + intros [|[|k]] t Ht; try discriminate. injection Ht as <-. vm_compute. discriminate.
    + do 4 (destruct v as [|v]; [vm_compute; reflexivity|]). lia.
  - eexists. split; vm_compute; reflexivity.
  - eexists. split; vm_compute; reflexivity.
Qed.

(** C95 (partial): threshold 2 on three areas of size 1 *)
Example C95_example : maximum_regions (path_graph 3) (repeat [1%Q] 3) [2%Q] 1 /\ n_islands (path_graph 3) 1.
Proof.
  split; [|apply n_islands_iff; vm_compute; reflexivity]. split.
  - exists [0;0;0]%Z. split; [split; [reflexivity|]; split; [reflexivity|]; apply check_regions_all; vm_compute; reflexivity|].
    intros z Hz [|[|k]] t Ht; try discriminate. injection Ht as <-. cbn in Hz.
    repeat (destruct Hz as [<-|Hz]; [vm_compute; discriminate|]). destruct Hz.
  - intros l q' [Hl [<- _]] Hm. cbn in Hl. destruct l as [|a [|b [|c [|e l]]]]; try discriminate.
    assert (Ht : forall z, In z [a;b;c] -> (2 <= total (repeat [1%Q] 3) [a;b;c] z 0)%Q) by (intros z Hz; apply (Hm z Hz 0 2%Q eq_refl)).
    pose proof (Ht a ltac:(cbn; auto)) as Ha. pose proof (Ht b ltac:(cbn; auto)) as Hb. pose proof (Ht c ltac:(cbn; auto)) as Hc.
    clear Ht Hm Hl. unfold total, lab in *. cbn [length seq map nth repeat] in *. rewrite !Z.eqb_refl in *.
    assert (Hab : a = b).
    { destruct (Z.eqb_spec b a) as [E|Eba]; [auto|]. destruct (Z.eqb_spec c a) as [Eca|Eca].
      - subst c. rewrite (proj2 (Z.eqb_neq a b)) in Hb by auto. exfalso. clear - Hb. cbn in Hb. lra.
      - exfalso. clear - Ha. cbn in Ha. lra. }
    subst b. assert (Hac : c = a).
    { destruct (Z.eqb_spec c a) as [E|Eca]; [auto|]. rewrite (proj2 (Z.eqb_neq a c)) in Hc by auto. exfalso. clear - Hc. cbn in Hc. lra. }
    subst c. unfold n_labels. cbn [nodup]. destruct (in_dec Z.eq_dec a [a; a]) as [_|H]; [|destruct H; cbn; auto].
    destruct (in_dec Z.eq_dec a [a]) as [_|H]; [|destruct H; cbn; auto]. destruct (in_dec Z.eq_dec a []) as [[]|_]. cbn. lia.
Qed.

Print Assumptions C92_growth_outcomes.
Print Assumptions C92_enclave_outcomes.
Print Assumptions C93_single_areas.
Print Assumptions C94_region_counts.
Print Assumptions C95_maximum_partial.
Print Assumptions C95_maximum_refuted.
