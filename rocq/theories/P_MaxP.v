(** Max-p heuristic: construction phase. *)
From Verif Require Import Base Spec M_Graph P_Graph M_Util P_Base P_Util P_Forest P_Init P_Initial
  M_Objective P_Sum P_Objective M_Azp P_Azp P_Strategy P_Fit P_AzpFit M_Sa M_MaxP.

(** ** permutations by counting *)
Lemma count_cons_app (x a : nat) l : count_occ Nat.eq_dec (a :: l) x = count_occ Nat.eq_dec [a] x + count_occ Nat.eq_dec l x.
Proof. cbn [count_occ]. destruct (Nat.eq_dec a x); lia. Qed.

Lemma perm_count l1 l2 : Permutation l1 l2 <-> forall x, count_occ Nat.eq_dec l1 x = count_occ Nat.eq_dec l2 x.
Proof. apply Permutation_count_occ. Qed.

Ltac perm_goal x := repeat first
  [ rewrite concat_app | rewrite count_occ_app | progress cbn [concat app]
  | match goal with |- context [count_occ Nat.eq_dec (?a :: ?l) x] =>
      lazymatch l with nil => fail | _ => rewrite (count_cons_app x a l) end end
  | progress change (count_occ Nat.eq_dec [] x) with 0 ].
Ltac perm_hyp x H := repeat first
  [ rewrite concat_app in H | rewrite count_occ_app in H | progress cbn [concat app] in H
  | match type of H with context [count_occ Nat.eq_dec (?a :: ?l) x] =>
      lazymatch l with nil => fail | _ => rewrite (count_cons_app x a l) in H end end
  | progress change (count_occ Nat.eq_dec [] x) with 0 in H ].
Ltac perm :=
  apply (proj2 (perm_count _ _)); let x := fresh "x" in intros x;
  repeat match goal with H : Permutation ?a ?b |- _ => let K := fresh in pose proof (proj1 (perm_count _ _) H x) as K; clear H; perm_hyp x K end;
  perm_goal x; lia.

Example perm_test (a b : nat) l m (p : list (list nat)) : Permutation l (a :: m) -> Permutation (concat (p ++ [l]) ++ [b]) (b :: a :: (m ++ concat p)).
Proof. intros H. perm. Qed.

(** ** best candidates *)
Lemma minQ_spec l : l <> [] -> (exists q, In q l /\ minQ l == q)%Q /\ forall q, In q l -> (minQ l <= q)%Q.
Proof.
  destruct l as [|x t]; [congruence|]. intros _. cbn [minQ]. revert x.
  induction t as [|y t IH]; intros x; cbn [fold_left].
  - split; [exists x; split; [left; auto|reflexivity]|]. intros q [->|[]]. lra.
  - destruct (IH (if Qltb y x then y else x)) as [[q [Hq Eq]] Hmin]. split.
    + exists q. split; [|auto]. destruct Hq as [<-|Hq]; [|right; right; auto]. destruct (Qltb y x); [right; left|left]; auto.
    + intros q' Hq'. assert (Hm : (fold_left (fun m y => if Qltb y m then y else m) t (if Qltb y x then y else x) <= (if Qltb y x then y else x))%Q)
        by (apply Hmin; left; auto).
      destruct (Qltb y x) eqn:E; [apply Qltb_lt in E|apply Qltb_ge in E];
        (destruct Hq' as [<-|[<-|Hq']]; [lra|lra|apply Hmin; right; auto]).
Qed.

Lemma best_keys_In f keys k : In k (best_keys f keys) <-> In k keys /\ forall k', In k' keys -> (f k <= f k')%Q.
Proof.
  unfold best_keys. rewrite filter_In, Qeq_bool_iff. split; intros [Hk H]; split; auto.
  - intros k' Hk'. rewrite H. apply minQ_spec; [destruct keys; [destruct Hk|discriminate]|]. apply in_map; auto.
  - destruct (minQ_spec (map f keys)) as [[q [Hq Eq]] Hmin]; [destruct keys; [destruct Hk|discriminate]|].
    apply in_map_iff in Hq. destruct Hq as [k0 [<- Hk0]]. specialize (H k0 Hk0).
    assert (minQ (map f keys) <= f k)%Q by (apply Hmin, in_map; auto). rewrite Eq in *. lra.
Qed.

Lemma best_keys_nonempty f keys : keys <> [] -> best_keys f keys <> [].
Proof.
  intros H. destruct (minQ_spec (map f keys)) as [[q [Hq Eq]] Hmin]; [destruct keys; [congruence|discriminate]|].
  apply in_map_iff in Hq. destruct Hq as [k0 [<- Hk0]]. intros E.
  assert (Hin : In k0 (best_keys f keys)); [|rewrite E in Hin; destruct Hin].
  unfold best_keys. apply filter_In. split; [auto|]. apply Qeq_bool_iff. symmetry; auto.
Qed.

(** ** growing one region *)
Lemma remove_all_spec region : forall assigned rest, Permutation assigned (rest ++ region) ->
  exists assigned', remove_all region assigned = Ok assigned' /\ Permutation assigned' rest.
Proof.
  induction region as [|a region IH]; intros assigned rest Hp; cbn [remove_all].
  - exists assigned. split; [auto|]. rewrite app_nil_r in Hp. auto.
  - destruct (remove_first_perm a assigned) as [l' [E Hl']].
    { eapply Permutation_in; [symmetry; exact Hp|]. apply in_or_app. right; left; auto. }
    rewrite E. apply IH. perm.
Qed.

Lemma set_add_new a s : ~ In a s -> set_add a s = s ++ [a].
Proof. intros H. unfold set_add. apply memb_notIn in H. rewrite H. reflexivity. Qed.

Definition no_adj (g : graph) (l l' : list nat) : Prop := forall a b, In a l -> In b l' -> gadj g a b = false.

Lemma total_in_app sp l l' k : (total_in sp (l ++ l') k == total_in sp l k + total_in sp l' k)%Q.
Proof. unfold total_in. rewrite map_app, sumQ_app. reflexivity. Qed.
Lemma total_in_perm sp l l' k : Permutation l l' -> (total_in sp l k == total_in sp l' k)%Q.
Proof. intros H. unfold total_in. apply sumQ_perm. apply Permutation_map. auto. Qed.

Section Grow.
Variable d : list Q -> list Q -> Q.
Variable g : graph.
Variables attr sp : list (list Q).
Variable threshold : list Q.
Hypothesis Hsym : symmetric g.
Hypothesis Hloop : no_self_loops g.
Hypothesis Hsp : shaped sp threshold (gn g).

Lemma row_length a : a < gn g -> length (row sp a) = length threshold.
Proof. intros Ha. destruct Hsp as [Hl Hx]. apply Hx. apply nth_In. lia. Qed.

Lemma reaches_total x l : length x = length threshold -> (forall k, nth k x 0 == total_in sp l k)%Q ->
  reaches x threshold = true <-> meets_in sp threshold l.
Proof.
  intros Hl Hx. rewrite reaches_spec by auto. unfold meets_in. split; intros H k t Hk; specialize (H k t Hk); specialize (Hx k); lra.
Qed.

Definition extends (P : list (list nat)) (E : list nat) (R U A : list nat) : Prop :=
  Permutation (concat P ++ E ++ R ++ U) (seq 0 (gn g)) /\ Permutation A (concat P ++ R) /\
  no_adj g E (R ++ U) /\ contiguous g (fun a => In a R).

Lemma in_all {P E R U A} : extends P E R U A -> forall a, a < gn g <-> (In a (concat P) \/ In a E \/ In a R \/ In a U).
Proof.
  intros [Hp _] a. assert (In a (seq 0 (gn g)) <-> In a (concat P ++ E ++ R ++ U)).
  { split; apply Permutation_in; [symmetry|]; auto. }
  rewrite in_seq, !in_app_iff in H. split; intros; [apply H; lia|]. apply H in H0. lia.
Qed.
Lemma all_nodup {P E R U A} : extends P E R U A -> NoDup (concat P ++ E ++ R ++ U).
Proof. intros [Hp _]. eapply Permutation_NoDup; [symmetry; exact Hp|apply seq_NoDup]. Qed.

Lemma NoDup_app_disj {A} (l l' : list A) a : NoDup (l ++ l') -> In a l -> In a l' -> False.
Proof.
  induction l as [|x l IH]; intros Hnd Hl Hl'; [destruct Hl|]. cbn in Hnd. inversion Hnd as [|? ? Hni Hnd']; subst.
  destruct Hl as [->|Hl]; [|auto]. apply Hni. apply in_or_app; auto.
Qed.
Lemma NoDup_app_r {A} (l l' : list A) : NoDup (l ++ l') -> NoDup l'.
Proof. induction l as [|x l IH]; intros H; [auto|]. inversion H; auto. Qed.

Definition frontier (R U N : list nat) : Prop := forall x, In x N <-> In x U /\ exists y, In y R /\ gadj g y x = true.

Notation greedy := (greedy_growth d g attr sp threshold).

Lemma greedy_start taken a : a < gn g -> ~ In a taken -> greedy taken [a].
Proof.
  intros Ha Hn. split; [discriminate|]. split; [intros x [<-|[]]; auto|]. intros [|j] b Hj Hb; [lia|].
  cbn in Hb. destruct j; discriminate.
Qed.

Lemma greedy_step taken R w : greedy taken R -> ~ meets_in sp threshold R -> free_neighbor g taken R w ->
  (forall c, free_neighbor g taken R c -> (distance_to d attr w R <= distance_to d attr c R)%Q) ->
  greedy taken (R ++ [w]).
Proof.
  intros [H1 [H2 H3]] Hm Hw Hmin. split; [destruct R; discriminate|]. split.
  - intros a Ha. apply in_app_iff in Ha. destruct Ha as [Ha|[<-|[]]]; [auto|]. destruct Hw as [Hw1 [Hw2 _]]. auto.
  - intros j b Hj Hb. destruct (Nat.lt_ge_cases j (length R)) as [Hl|Hl].
    + rewrite nth_error_app1 in Hb by auto. rewrite firstn_app. replace (j - length R) with 0 by lia.
      cbn [firstn]. rewrite app_nil_r. auto.
    + rewrite nth_error_app2 in Hb by auto. destruct (j - length R) as [|k] eqn:E; [|destruct k; discriminate].
      injection Hb as <-. rewrite firstn_app, E. cbn [firstn]. rewrite app_nil_r, firstn_all2 by lia. auto.
Qed.

(** the candidates are the free neighbours *)
Lemma frontier_free P E R N U A : extends P E R U A -> frontier R U N ->
  forall x, In x N <-> free_neighbor g (concat P) R x.
Proof.
  intros Hext Hfr x. pose proof (in_all Hext) as Hall. pose proof (all_nodup Hext) as Hnd.
  destruct Hext as [H1 [H2 [H3 H4]]]. rewrite (Hfr x). split.
  - intros [HxU [y [Hy Hyx]]]. split; [apply Hall; auto|]. split; [|split].
    + intros H. eapply (NoDup_app_disj (concat P)); [exact Hnd|exact H|]. rewrite !in_app_iff; auto.
    + intros H. apply NoDup_app_r, NoDup_app_r in Hnd. eapply NoDup_app_disj; eauto.
    + exists y. split; [auto|left; auto].
  - intros [Hx [HnP [HnR [y [Hy Hyx]]]]]. assert (Hyg : y < gn g) by (apply Hall; auto).
    assert (Hyx' : gadj g y x = true) by (destruct Hyx as [H|H]; [auto|rewrite (Hsym y x) by auto; auto]).
    split; [|exists y; auto]. destruct (proj1 (Hall x) Hx) as [H|[H|[H|H]]]; [tauto| |tauto|auto].
    exfalso. assert (Hf0 : gadj g x y = false) by (apply H3; [auto|apply in_app_iff; auto]).
    rewrite (Hsym x y) in Hf0 by auto. congruence.
Qed.

(** adding a frontier area *)
Lemma grow_step P E R N U A w : extends P E R U A -> frontier R U N -> In w N ->
  exists U', remove_first w U = Some U' /\ Permutation U (w :: U') /\ ~ In w R /\ w < gn g /\
    extends P E (R ++ [w]) U' (A ++ [w]) /\
    frontier (R ++ [w]) U' (set_diff (set_union (set_discard w N) (neighbors g w)) A).
Proof.
  intros Hext Hfr HwN. destruct (proj1 (Hfr w) HwN) as [HwU [y [HyR Hyw]]].
  destruct (remove_first_perm w U HwU) as [U' [EU HU]]. exists U'. split; [auto|]. split; [auto|].
  pose proof (in_all Hext) as Hall. pose proof (all_nodup Hext) as Hnd.
  destruct Hext as [H1 [H2 [H3 H4]]].
  assert (HwR : ~ In w R).
  { intros H. apply NoDup_app_r, NoDup_app_r in Hnd. eapply NoDup_app_disj; eauto. }
  assert (Hwg : w < gn g) by (apply Hall; auto).
  assert (Hyg : y < gn g) by (apply Hall; auto).
      assert (Hext' : extends P E (R ++ [w]) U' (A ++ [w])).
      { split; [perm|]. split; [perm|]. split.
        - intros a b Ha Hb. apply H3; [auto|]. rewrite in_app_iff in *. destruct Hb as [Hb|Hb].
          + apply in_app_iff in Hb. destruct Hb as [Hb|[->|[]]]; auto.
          + right. eapply Permutation_in; [symmetry; exact HU|]. right; auto.
        - apply (contiguous_ext g (fun a => In a R \/ a = w)).
          + intros a. rewrite in_app_iff. cbn. intuition auto.
          + apply contiguous_add with (b := y); auto. left; auto. }
      split; [auto|]. split; [auto|]. split; [exact Hext'|].
      intros z. rewrite set_diff_In, set_union_In, set_discard_In, neighbors_In.
        assert (HA : In z A <-> In z (concat P) \/ In z R).
        { rewrite <- in_app_iff. split; apply Permutation_in; [auto|symmetry; auto]. }
        assert (HzU : In z U <-> z = w \/ In z U').
        { assert (H : In z U <-> In z (w :: U')) by (split; apply Permutation_in; [auto|symmetry; auto]). rewrite H. cbn. intuition auto. }
        assert (HwU' : ~ In w U').
        { apply NoDup_app_r, NoDup_app_r, NoDup_app_r in Hnd. apply (Permutation_NoDup HU) in Hnd. inversion Hnd; auto. }
        split.
        -- intros [H HnA]. assert (Hzg : z < gn g).
           { destruct H as [[H _]|[H _]]; [|auto]. apply Hfr in H. apply Hall. tauto. }
           assert (HzU' : In z U).
           { destruct H as [[H _]|[_ Hwz]]; [apply Hfr in H; tauto|].
             destruct (proj1 (Hall z) Hzg) as [Hz|[Hz|[Hz|Hz]]]; [exfalso; tauto| |exfalso; tauto|auto].
             exfalso. assert (Hf0 : gadj g z w = false) by (apply H3; [auto|apply in_app_iff; auto]).
             rewrite (Hsym z w) in Hf0 by auto. congruence. }
           apply HzU in HzU'. destruct HzU' as [->|HzU'].
           ++ exfalso. destruct H as [[_ H]|[_ H]]; [congruence|]. rewrite (Hloop w Hwg) in H. discriminate.
           ++ split; [auto|]. destruct H as [[H _]|[_ H]].
              ** apply Hfr in H. destruct H as [_ [y' [Hy' Hy'z]]]. exists y'. split; [apply in_app_iff; auto|auto].
              ** exists w. split; [apply in_app_iff; right; left; auto|auto].
        -- intros [HzU' [y' [Hy' Hy'z]]]. assert (HzUU : In z U) by (apply HzU; auto).
           split.
           ++ apply in_app_iff in Hy'. destruct Hy' as [Hy'|[->|[]]].
              ** left. split; [apply Hfr; split; [auto|]; exists y'; auto|]. intros ->; auto.
              ** right. split; [apply Hall; auto|auto].
           ++ rewrite HA. intros [H|H].
              ** eapply (NoDup_app_disj (concat P)); [exact Hnd|exact H|]. rewrite !in_app_iff; auto.
              ** apply NoDup_app_r, NoDup_app_r in Hnd. eapply (NoDup_app_disj R); eauto.
Qed.

Lemma grow_region_post fuel : forall P E R N x U A r,
  extends P E R U A -> greedy (concat P) R -> frontier R U N -> length x = length threshold -> (forall k, nth k x 0 == total_in sp R k)%Q ->
  length U < fuel ->
  post noexn False (grow_region d g attr sp threshold fuel R N x U A r)
    (fun '(ok, R', U', A', _) => length U' <= length U /\
       if ok : bool then extends P E R' U' A' /\ meets_in sp threshold R' /\ greedy (concat P) R'
       else extends P E R' U' (concat P ++ R') /\ Permutation A' (concat P) /\ ~ meets_in sp threshold R' /\ no_adj g R' U').
Proof.
  induction fuel as [|fuel IH]; intros P E R N x U A r Hext Hgr Hfr Hlen Hx Hf; [lia|]. cbn [grow_region].
  pose proof (reaches_total x R Hlen Hx) as Hre.
  destruct (reaches x threshold) eqn:Ere.
  - cbn. split; [auto|]. split; [auto|]. split; [apply Hre; auto|auto].
  - destruct N as [|n0 N0].
    + destruct (remove_all_spec R A (concat P)) as [A' [EA HA]]; [apply Hext|]. rewrite EA. cbn.
      split; [auto|]. split; [destruct Hext as [H1 [H2 [H3 H4]]]; split; auto|]. split; [auto|].
      split; [intros H; apply Hre in H; discriminate|].
      intros a b Ha Hb. destruct (gadj g a b) eqn:Eab; [|auto]. exfalso. apply (proj2 (Hfr b)). split; [auto|]. exists a; auto.
    + set (N := n0 :: N0) in *.
      destruct (random_element_from_Ok (best_keys (fun a => dissimilarity d attr a R) N) r) as [w [Ew Hw]].
      { apply best_keys_nonempty. discriminate. }
      unfold find_best_area. rewrite Ew. cbn [bind]. apply best_keys_In in Hw. destruct Hw as [HwN Hwmin].
      pose proof (frontier_free P E R N U A Hext Hfr) as Hfree.
      destruct (grow_step P E R N U A w Hext Hfr HwN) as [U' [EU [HU [HwR [Hwg [Hext' Hfr']]]]]]. rewrite EU.
      rewrite (set_add_new w R HwR).
      eapply (post_weaken noexn noexn False False); [auto|auto| |apply (IH P E (R ++ [w]) _ _ U' (A ++ [w]))].
      * intros [[[[ok R'] U''] A'] r'] _ [Hle H]. split; [|exact H].
        apply Permutation_length in HU. cbn in HU. lia.
      * exact Hext'.
      * apply greedy_step; auto; [intros H; apply Hre in H; congruence|apply Hfree; auto|].
        intros c Hc. apply Hwmin, Hfree. exact Hc.
      * exact Hfr'.
      * rewrite add_rows_length, row_length by auto. lia.
      * intros k. rewrite nth_add_rows, total_in_app, Hx. unfold total_in at 3. cbn [map]. rewrite sumQ_cons, sumQ_nil.
        unfold row. ring.
      * apply Permutation_length in HU. cbn in HU. lia.
Qed.

(** the first candidates *)
Lemma seed_frontier P E a U A : extends P E [a] U (A ++ [a]) -> Permutation A (concat P) ->
  frontier [a] U (set_diff (neighbors g a) (A ++ [a])).
Proof.
  intros Hext HA z. rewrite set_diff_In, neighbors_In.
  assert (HzA : In z (A ++ [a]) <-> In z (concat P) \/ z = a).
  { rewrite in_app_iff. cbn [In]. assert (In z A <-> In z (concat P)) by (split; apply Permutation_in; [auto|symmetry; auto]).
    intuition auto. }
  rewrite HzA. pose proof (in_all Hext z) as Hall. pose proof (in_all Hext a) as Halla. pose proof (all_nodup Hext) as Hnd'.
  destruct Hext as [_ [_ [Hna _]]]. assert (Hag : a < gn g) by (apply Halla; right; right; left; left; auto). split.
  - intros [[Hzg Haz] Hn]. destruct (proj1 Hall Hzg) as [H|[H|[H|H]]]; [exfalso; tauto| | |].
    + exfalso. assert (Hza : gadj g z a = false) by (apply Hna; [auto|apply in_app_iff; left; left; auto]).
      rewrite (Hsym z a) in Hza by auto. congruence.
    + destruct H as [->|[]]. exfalso; tauto.
    + split; [auto|]. exists a. split; [left; auto|auto].
  - intros [HzU [y [[<-|[]] Hyz]]]. assert (Hzg : z < gn g) by (apply Hall; auto). split; [auto|]. intros [H|H].
    + eapply (NoDup_app_disj (concat P)); [exact Hnd'|exact H|]. rewrite !in_app_iff; auto.
    + subst z. apply NoDup_app_r, NoDup_app_r in Hnd'. eapply (NoDup_app_disj [a]); [exact Hnd'|left; auto|auto].
Qed.

(** ** the outer loop *)
Definition good_region (R : list nat) : Prop := contiguous g (fun a => In a R) /\ meets_in sp threshold R.
(** a failed attempt: contiguous, below the threshold, and surrounded by regions *)
Definition failed (P : list (list nat)) (F : list nat) : Prop :=
  contiguous g (fun a => In a F) /\ ~ meets_in sp threshold F /\
  forall a b, In a F -> b < gn g -> gadj g a b = true -> In b F \/ In b (concat P).
Definition grown (P F : list (list nat)) (U : list nat) : Prop :=
  Permutation (concat P ++ concat F ++ U) (seq 0 (gn g)) /\
  (forall R, In R P -> good_region R) /\ (forall f, In f F -> failed P f).

Definition all_greedy (P : list (list nat)) : Prop :=
  forall k R, nth_error P k = Some R -> greedy (concat (firstn k P)) R.

Lemma all_greedy_snoc P R : all_greedy P -> greedy (concat P) R -> all_greedy (P ++ [R]).
Proof.
  intros HP HR k R' Hk. destruct (Nat.lt_ge_cases k (length P)) as [Hl|Hl].
  - rewrite nth_error_app1 in Hk by auto. rewrite firstn_app. replace (k - length P) with 0 by lia.
    cbn [firstn]. rewrite app_nil_r. auto.
  - rewrite nth_error_app2 in Hk by auto. destruct (k - length P) as [|j] eqn:E; [|destruct j; discriminate].
    injection Hk as <-. rewrite firstn_app, E. cbn [firstn]. rewrite app_nil_r, firstn_all2 by lia. auto.
Qed.

Lemma failed_more P R f : failed P f -> failed (P ++ [R]) f.
Proof.
  intros [H1 [H2 H3]]. split; [auto|]. split; [auto|]. intros a b Ha Hb Hab.
  destruct (H3 a b Ha Hb Hab) as [H|H]; [auto|right]. rewrite concat_app, in_app_iff. auto.
Qed.

Lemma grown_nodup P F U : grown P F U -> NoDup (concat P ++ concat F ++ U).
Proof. intros [Hp _]. eapply Permutation_NoDup; [symmetry; exact Hp|apply seq_NoDup]. Qed.

Lemma grown_no_adj P F U : grown P F U -> no_adj g (concat F) U.
Proof.
  intros Hg. pose proof (grown_nodup _ _ _ Hg) as Hnd. destruct Hg as [Hp [_ HF]]. intros a b Ha Hb.
  destruct (gadj g a b) eqn:E; [|auto]. exfalso. apply in_concat in Ha. destruct Ha as [f [Hf Ha]].
  assert (Hbg : b < gn g).
  { assert (In b (seq 0 (gn g))); [|rewrite in_seq in *; lia]. eapply Permutation_in; [exact Hp|]. rewrite !in_app_iff; auto. }
  destruct (HF f Hf) as [_ [_ H]]. destruct (H a b Ha Hbg E) as [H'|H'].
  - apply NoDup_app_r in Hnd. eapply (NoDup_app_disj (concat F)); [exact Hnd| |exact Hb]. apply in_concat; eauto.
  - eapply (NoDup_app_disj (concat P)); [exact Hnd|exact H'|]. rewrite in_app_iff; auto.
Qed.

Lemma single_contiguous a : contiguous g (fun x => In x [a]).
Proof.
  apply contiguous_root with (u := a); [left; auto|]. intros v [<-|[]]. apply linked_refl. left; auto.
Qed.

Lemma grow_loop_post fuel : forall P F U A r, grown P F U -> all_greedy P -> Permutation A (concat P) -> length U <= fuel ->
  post noexn False (grow_loop d g attr sp threshold fuel P (concat F) U A r)
    (fun '(P', E', _) => exists F', E' = concat F' /\ grown P' F' [] /\ all_greedy P' /\ exists Pn, P' = P ++ Pn).
Proof.
  induction fuel as [|fuel IH]; intros P F U A r Hg Hgr HA Hf; (destruct U as [|u0 U0]; cbn [grow_loop]; [cbn; exists F; split; [auto|]; split; [auto|]; split; [auto|]; exists []; rewrite app_nil_r; auto|]); [cbn in Hf; lia|].
  set (U := u0 :: U0) in *.
  destruct (pop_randomly_from_Ok U r ltac:(discriminate)) as [a [U1 [Ep HU]]]. rewrite Ep. cbn [bind].
  pose proof (Permutation_length HU) as HUl. cbn [length] in HUl.
  assert (Hag : a < gn g).
  { destruct Hg as [Hp _]. assert (In a (seq 0 (gn g))); [|rewrite in_seq in *; lia]. eapply Permutation_in; [exact Hp|].
    rewrite !in_app_iff. right; right. eapply Permutation_in; [symmetry; exact HU|left; auto]. }
  assert (Hrow : forall k, (nth k (row sp a) 0 == total_in sp [a] k)%Q).
  { intros k. unfold total_in. cbn [map]. rewrite sumQ_cons, sumQ_nil. unfold row. ring. }
  assert (Hre : reaches (row sp a) threshold = true <-> meets_in sp threshold [a]).
  { apply reaches_total; [apply row_length; auto|exact Hrow]. }
  pose proof (grown_no_adj _ _ _ Hg) as Hna. pose proof (grown_nodup _ _ _ Hg) as Hnd.
  assert (HaP : ~ In a (concat P)).
  { intros H. eapply (NoDup_app_disj (concat P)); [exact Hnd|exact H|]. rewrite !in_app_iff. right.
    eapply Permutation_in; [symmetry; exact HU|left; auto]. }
  assert (Hgs : greedy (concat P) [a]) by (apply greedy_start; auto).
  assert (Hweak : forall R, all_greedy (P ++ [R]) -> forall U' A' r', grown (P ++ [R]) F U' -> Permutation A' (concat (P ++ [R])) -> length U' <= fuel ->
    post noexn False (grow_loop d g attr sp threshold fuel (P ++ [R]) (concat F) U' A' r')
      (fun '(P', E', _) => exists F', E' = concat F' /\ grown P' F' [] /\ all_greedy P' /\ exists Pn, P' = P ++ Pn)).
  { intros R HR U' A' r' HG' HA' Hf'. eapply (post_weaken noexn noexn False False); [auto|auto| |apply (IH (P ++ [R]) F U' A' r'); auto].
    intros [[P' E'] r''] _ [F' [K1 [K2 [K3 [Pn ->]]]]]. exists F'. split; [auto|]. split; [auto|]. split; [auto|]. exists (R :: Pn). rewrite <- app_assoc. reflexivity. }
  destruct (reaches (row sp a) threshold) eqn:Ere.
  - apply (Hweak [a] (all_greedy_snoc _ _ Hgr Hgs)); [|perm|lia].
    destruct Hg as [Hp [HP HF]]. split; [perm|]. split.
    + intros R HR. apply in_app_iff in HR. destruct HR as [HR|[<-|[]]]; [auto|]. split; [apply single_contiguous|apply Hre; auto].
    + intros f Hf'. apply failed_more; auto.
  - assert (Hext : extends P (concat F) [a] U1 (A ++ [a])).
    { destruct Hg as [Hp _]. split; [perm|]. split; [perm|]. split; [|apply single_contiguous].
      intros x y Hx Hy. apply Hna; [auto|]. eapply Permutation_in; [symmetry; exact HU|]. exact Hy. }
    eapply (post_bind noexn False); [apply (grow_region_post (S (length U1)) P (concat F) [a] _ _ U1 (A ++ [a]) _ Hext Hgs)|].
    + apply seed_frontier with (P := P) (E := concat F); auto.
    + apply row_length; auto.
    + exact Hrow.
    + lia.
    + intros [[[[ok R] U2] A2] r2] _ [Hle H]. destruct Hg as [Hp [HP HF]]. destruct ok.
      * destruct H as [[E1 [E2 [E3 E4]]] [Hm HgR]]. apply (Hweak R (all_greedy_snoc _ _ Hgr HgR)); [|perm|lia].
        split; [perm|]. split.
        -- intros R' HR'. apply in_app_iff in HR'. destruct HR' as [HR'|[<-|[]]]; [auto|]. split; auto.
        -- intros f Hf'. apply failed_more; auto.
      * destruct H as [Hx [HA2 [Hnm HnU]]]. pose proof (in_all Hx) as Hall. destruct Hx as [E1 [E2 [E3 E4]]].
        replace (concat F ++ R) with (concat (F ++ [R])) by (rewrite concat_app; cbn; rewrite app_nil_r; auto).
        apply (IH P (F ++ [R]) U2 A2); [|auto|auto|lia]. split; [perm|]. split; [auto|].
        intros f Hf'. apply in_app_iff in Hf'. destruct Hf' as [Hf'|[<-|[]]]; [auto|].
        split; [auto|]. split; [auto|]. intros x y Hx' Hy Hxy.
        destruct (proj1 (Hall y) Hy) as [H|[H|[H|H]]]; auto.
        -- exfalso. assert (Hf0 : gadj g y x = false) by (apply E3; [auto|apply in_app_iff; auto]).
           rewrite (Hsym y x) in Hf0; [congruence|auto|]. apply Hall; auto.
        -- exfalso. rewrite (HnU x y Hx' H) in Hxy. discriminate.
Qed.

Theorem grow_regions_greedy r :
  post noexn False (grow_regions d g attr sp threshold r)
    (fun '(P, E, _) => exists F, E = concat F /\ grown P F [] /\ all_greedy P).
Proof.
  unfold grow_regions. eapply (post_weaken noexn noexn False False); [auto|auto| |
    apply (grow_loop_post (gn g) [] [] (seq 0 (gn g)) [] r)].
  - intros [[P E] r'] _ [F [K1 [K2 [K3 _]]]]. exists F. auto.
  - split; [reflexivity|]. split; intros ? [].
  - intros [|k] R H; discriminate.
  - constructor.
  - rewrite seq_length. auto.
Qed.

Theorem grow_regions_post r :
  post noexn False (grow_regions d g attr sp threshold r)
    (fun '(P, E, _) => exists F, E = concat F /\ grown P F []).
Proof.
  eapply (post_weaken noexn noexn False False); [auto|auto| |apply grow_regions_greedy].
  intros [[P E] r'] _ [F [K1 [K2 _]]]. exists F. auto.
Qed.
End Grow.
