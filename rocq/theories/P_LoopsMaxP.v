(** Links of an area to itself in the max-p heuristic. *)
From Verif Require Import Base Spec M_Graph M_Util M_Objective M_Azp M_Sa M_Tabu M_MaxP M_TabuWith P_Base P_Graph P_Util P_Init P_Fit P_Azp P_Greedy P_MaxP P_Loops.

(** what list.remove raises *)
Definition not_in_list : exn := ValueError "list.remove(x): x not in list".

(** the outcome of a run is that error, or an outcome of the other program with suitable draws, whatever follows these *)
Definition covered {A} (x : out (A * rng)) (Y : rng -> out (A * rng)) : Prop :=
  match x with
  | Ok (a, _) => forall q', exists q, Y q = Ok (a, q')
  | Raise e => e = not_in_list \/ exists q, Y q = Raise e
  | NoFuel => exists q, Y q = NoFuel
  end.
Lemma covered_bind {A B} (x : out (A * rng)) Y (k k' : A * rng -> out (B * rng)) : covered x Y ->
  (forall a r, x = Ok (a, r) -> covered (k (a, r)) (fun q => k' (a, q))) -> covered (bind x k) (fun q => bind (Y q) k').
Proof.
  intros Hx Hk. destruct x as [[a r]|e|]; cbn [bind covered] in *.
  - specialize (Hk a r eq_refl). destruct (k (a, r)) as [[b r']|e|]; cbn [covered] in *.
    + intros q'. destruct (Hk q') as [q1 E1]. destruct (Hx q1) as [q E]. exists q. rewrite E. cbn [bind]. auto.
    + destruct Hk as [->|[q1 E1]]; [auto|]. right. destruct (Hx q1) as [q E]. exists q. rewrite E. auto.
    + destruct Hk as [q1 E1]. destruct (Hx q1) as [q E]. exists q. rewrite E. auto.
  - destruct Hx as [->|[q E]]; [auto|]. right. exists q. rewrite E. auto.
  - destruct Hx as [q E]. exists q. rewrite E. auto.
Qed.
Lemma covered_ok {A} (a : A) r : covered (Ok (a, r)) (fun q => Ok (a, q)).
Proof. cbn. intros q'. exists q'. auto. Qed.
Lemma covered_pop (l : list nat) r : covered (pop_randomly_from l r) (pop_randomly_from l).
Proof.
  destruct l as [|x l]; [cbn; right; exists r; auto|]. destruct (pop_randomly_from_Ok (x :: l) r ltac:(discriminate)) as [y [rest [Ep _]]].
  rewrite Ep. cbn [covered]. intros q'. exists (rcons (r 0) q'). unfold pop_randomly_from, randrange in *. cbn [Nat.eqb length bind rcons] in *.
  destruct (nth_error (x :: l) _); [|discriminate]. injection Ep as <- <-. reflexivity.
Qed.
Lemma element_at {A} (l : list A) y : In y l -> forall q', exists q, random_element_from l q = Ok (y, q').
Proof. intros Hy q'. destruct (element_choice l y Hy) as [i Hi]. exists (rcons i q'). auto. Qed.
Lemma element_In {A} (l : list A) r y r' : random_element_from l r = Ok (y, r') -> In y l.
Proof.
  unfold random_element_from, randrange. destruct (Nat.eqb _ 0); cbn [bind]; [discriminate|].
  destruct (nth_error l _) as [x|] eqn:E; intros E'; [|discriminate]. injection E' as <- <-. eapply nth_error_In; eauto.
Qed.
Lemma element_total {A} (l : list A) r : l <> [] -> exists y r', random_element_from l r = Ok (y, r').
Proof.
  intros Hl. unfold random_element_from, randrange. destruct (Nat.eqb_spec (length l) 0) as [E|E]; [destruct l; [congruence|discriminate]|]. cbn [bind].
  destruct (nth_error l (r 0 mod length l)) as [y|] eqn:En; [eauto|]. apply nth_error_None in En. pose proof (Nat.mod_upper_bound (r 0) (length l) E). lia.
Qed.

Section Grow.
Variable d : list Q -> list Q -> Q.
Variables g h : graph.
Variables attr sp : list (list Q).
Variable threshold : list Q.
Hypothesis H : same_between g h.
Hypothesis Hnl : no_self_loops h.

Definition but (x : nat) : nat -> bool := fun y => negb (Nat.eqb x y).

Lemma neighbors_but y : filter (but y) (neighbors g y) = neighbors h y.
Proof.
  rewrite (neighbors_filter g h H (but y) y) by (unfold but; rewrite Nat.eqb_refl; auto).
  apply filter_all. intros x Hx. unfold but. apply negb_true_iff, Nat.eqb_neq. intros <-. apply neighbors_In in Hx. destruct Hx as [Hx E].
  rewrite (Hnl y) in E by auto. discriminate.
Qed.
Lemma filter_comm {A} (f f' : A -> bool) l : filter f (filter f' l) = filter f' (filter f l).
Proof.
  induction l as [|a l IH]; [auto|]. cbn [filter]. destruct (f a) eqn:E1; destruct (f' a) eqn:E2; cbn [filter]; rewrite ?E1, ?E2, ?IH; auto.
Qed.
Lemma next_neighs last y Ng A : In last A ->
  filter (but y) (set_diff (set_union (set_discard y Ng) (neighbors g y)) A) =
  set_diff (set_union (set_discard y (filter (but last) Ng)) (neighbors h y)) A.
Proof.
  intros Hl. rewrite !diff_union, filter_union. f_equal.
  - unfold set_diff, set_discard. rewrite (filter_comm (but y)). rewrite (filter_comm _ (but last) Ng).
    assert (Hd : forall l, filter (but y) (filter (fun b => negb (Nat.eqb y b)) l) = filter (fun b => negb (Nat.eqb y b)) l).
    { intros l. apply filter_all. intros x Hx. apply filter_In in Hx. apply Hx. }
    rewrite Hd, (filter_comm _ (but last)). symmetry. apply filter_all. intros x Hx. apply filter_In in Hx. destruct Hx as [_ Hx].
    unfold but. apply negb_true_iff, Nat.eqb_neq. intros <-. apply memb_In in Hl. rewrite Hl in Hx. discriminate.
  - unfold set_diff. rewrite (filter_comm (but y)), neighbors_but. auto.
Qed.

Lemma remove_first_In a : forall l l', remove_first a l = Some l' -> In a l.
Proof.
  intros l l' E. destruct (in_dec Nat.eq_dec a l) as [|Hn]; [auto|]. exfalso. revert l' E. induction l as [|x l IH]; intros l' E; cbn in E; [discriminate|].
  destruct (Nat.eqb_spec a x) as [->|]; [apply Hn; left; auto|]. destruct (remove_first a l) as [l1|]; [|discriminate].
  eapply IH; eauto. intros Hi. apply Hn. right; auto.
Qed.

Lemma grow_region_covered : forall fuel last region Ng ext U A r, In last A -> ~ In last U -> NoDup U ->
  covered (grow_region d g attr sp threshold fuel region Ng ext U A r)
          (grow_region d h attr sp threshold fuel region (filter (but last) Ng) ext U A).
Proof.
  induction fuel as [|fuel IH]; intros last region Ng ext U A r HA HU Hnd; cbn [grow_region].
  - destruct (reaches ext threshold); [apply covered_ok|]. cbn. exists r. auto.
  - destruct (reaches ext threshold); [apply covered_ok|]. destruct Ng as [|n0 Ng0] eqn:En.
    + cbn [filter]. destruct (remove_all region A) as [A'|e|]; cbn [bind]; [apply covered_ok|cbn; right; exists r; auto|cbn; exists r; auto].
    + rewrite <- En in *. assert (HNg : Ng <> []) by (rewrite En; discriminate).
      unfold find_best_area at 1. destruct (element_total (best_keys (fun a => dissimilarity d attr a region) Ng) r) as [y [r1 Ey]]; [apply best_keys_nonempty; auto|].
      rewrite Ey. cbn [bind].
      pose proof (element_In _ _ _ _ Ey) as Hy. apply best_keys_In in Hy. destruct Hy as [HyN Hmin].
      destruct (remove_first y U) as [U'|] eqn:Er; [|cbn; left; auto].
      assert (HyU : In y U) by (eapply remove_first_In; eauto). assert (Hyl : y <> last) by (intros ->; auto).
      assert (HyH : In y (filter (but last) Ng)) by (apply filter_In; split; [auto|]; unfold but; apply negb_true_iff, Nat.eqb_neq; auto).
      assert (Hbest : In y (best_keys (fun a => dissimilarity d attr a region) (filter (but last) Ng))).
      { apply best_keys_In. split; [auto|]. intros k Hk. apply Hmin. apply filter_In in Hk. tauto. }
      destruct (remove_first_perm y U HyU) as [U2 [Er2 HpU]]. rewrite Er in Er2. injection Er2 as <-.
      assert (HndU : NoDup (y :: U')) by (eapply Permutation_NoDup; [exact HpU|auto]). inversion HndU as [|? ? HyU' HndU']; subst.
      specialize (IH y (set_add y region) (set_diff (set_union (set_discard y (n0 :: Ng0)) (neighbors g y)) A) (add_rows ext (row sp y)) U' (A ++ [y]) r1).
      rewrite (next_neighs last y (n0 :: Ng0) A HA) in IH.
      specialize (IH ltac:(apply in_or_app; right; left; auto) HyU' HndU').
      assert (Hstep : forall q', exists q, (fun q0 => match filter (but last) (n0 :: Ng0) with
          | [] => let* assigned' := remove_all region A in Ok (false, region, U, assigned', q0)
          | _ :: _ => let* '(neigh, r2) := find_best_area d attr region (filter (but last) (n0 :: Ng0)) q0 in
              match remove_first neigh U with
              | Some unassigned' => grow_region d h attr sp threshold fuel (set_add neigh region)
                   (set_diff (set_union (set_discard neigh (filter (but last) (n0 :: Ng0))) (neighbors h neigh)) A)
                   (add_rows ext (row sp neigh)) unassigned' (A ++ [neigh]) r2
              | None => Raise (ValueError "list.remove(x): x not in list") end end) q =
          grow_region d h attr sp threshold fuel (set_add y region)
                   (set_diff (set_union (set_discard y (filter (but last) (n0 :: Ng0))) (neighbors h y)) A)
                   (add_rows ext (row sp y)) U' (A ++ [y]) q').
      { intros q'. destruct (element_at _ _ Hbest q') as [q Eq]. exists q. cbv beta. unfold find_best_area. rewrite Eq. cbn [bind]. rewrite Er.
        destruct (filter (but last) (n0 :: Ng0)); [destruct HyH|auto]. }
      cbv beta in Hstep. revert IH. destruct (grow_region d g attr sp threshold fuel _ _ _ _ _ _) as [[res r2]|e|]; cbn [covered].
      * intros IH q'. destruct (IH q') as [q1 E1]. destruct (Hstep q1) as [q E]. exists q. rewrite <- E1, <- E. reflexivity.
      * intros [->|[q1 E1]]; [auto|]. right. destruct (Hstep q1) as [q E]. exists q. rewrite <- E1, <- E. reflexivity.
      * intros [q1 E1]. destruct (Hstep q1) as [q E]. exists q. rewrite <- E1, <- E. reflexivity.
Qed.

(** the areas of the region and the areas not yet assigned *)
Lemma grow_region_perm : forall fuel region N ext U A r f R' U' A' r', NoDup (region ++ U) ->
  grow_region d g attr sp threshold fuel region N ext U A r = Ok (f, R', U', A', r') -> Permutation (R' ++ U') (region ++ U).
Proof.
  induction fuel as [|fuel IH]; intros region N ext U A r f R' U' A' r' Hnd E; cbn [grow_region] in E.
  - destruct (reaches ext threshold); [|discriminate]. injection E as <- <- <- <- <-. auto.
  - destruct (reaches ext threshold); [injection E as <- <- <- <- <-; auto|]. destruct N as [|n0 N0].
    + destruct (remove_all region A) as [A1|e|]; cbn [bind] in E; [|discriminate|discriminate]. injection E as <- <- <- <- <-. auto.
    + destruct (find_best_area _ _ _ _ r) as [[y r1]|e|]; cbn [bind] in E; [|discriminate|discriminate].
      destruct (remove_first y U) as [U1|] eqn:Er; [|discriminate]. pose proof (remove_first_In _ _ _ Er) as HyU.
      destruct (remove_first_perm y U HyU) as [U2 [Er2 HpU]]. rewrite Er in Er2. injection Er2 as <-.
      assert (Hni : ~ In y region) by (intros Hi; eapply NoDup_app_disj; eauto). rewrite (set_add_new y region Hni) in E.
      assert (Hp : Permutation ((region ++ [y]) ++ U1) (region ++ U)) by perm.
      apply IH in E; [|eapply Permutation_NoDup; [symmetry; exact Hp|auto]]. etransitivity; eauto.
Qed.
Lemma grow_loop_covered : forall fuel P E U A r, NoDup U ->
  covered (grow_loop d g attr sp threshold fuel P E U A r) (grow_loop d h attr sp threshold fuel P E U A).
Proof.
  induction fuel as [|fuel IH]; intros P E U A r Hnd; destruct U as [|u U0] eqn:EU; cbn [grow_loop]; try apply covered_ok; [cbn; exists r; auto|].
  rewrite <- EU in *. apply covered_bind; [apply covered_pop|]. intros [area U1] r1 Ep.
  assert (Hp : Permutation U (area :: U1)).
  { destruct (pop_randomly_from_Ok U r ltac:(rewrite EU; discriminate)) as [x [rest [Ep' Hp]]]. rewrite Ep in Ep'. injection Ep' as <- <- _. auto. }
  assert (Hnd1 : NoDup (area :: U1)) by (eapply Permutation_NoDup; eauto). inversion Hnd1 as [|? ? Hni HndU1]; subst.
  cbv zeta. destruct (reaches (row sp area) threshold); [apply IH; auto|].
  assert (HaA : In area (A ++ [area])) by (apply in_or_app; right; left; auto).
  apply (covered_bind (A := bool * list nat * list nat * list nat)).
  - pose proof (grow_region_covered (S (length U1)) area [area] (set_diff (neighbors g area) (A ++ [area])) (row sp area) U1 (A ++ [area]) r1 HaA Hni HndU1) as Hc.
    rewrite filter_all in Hc.
    + rewrite <- (neighbors_diff g h H area) by auto. exact Hc.
    + intros x Hx. unfold but. apply negb_true_iff, Nat.eqb_neq. intros <-. apply filter_In in Hx. destruct Hx as [_ Hx].
      apply memb_In in HaA. rewrite HaA in Hx. discriminate.
  - intros [[[f R'] U'] A'] r' Eg. apply grow_region_perm in Eg; [|cbn; auto]. cbn [app] in Eg.
    assert (HndU' : NoDup U') by (eapply NoDup_app_r; eapply Permutation_NoDup; [symmetry; exact Eg|auto]).
    destruct f; apply IH; auto.
Qed.
Lemma grow_loop_perm : forall fuel P E U A r P' E' r', NoDup (concat P ++ E ++ U) ->
  grow_loop d g attr sp threshold fuel P E U A r = Ok (P', E', r') -> Permutation (concat P' ++ E') (concat P ++ E ++ U).
Proof.
  induction fuel as [|fuel IH]; intros P E U A r P' E' r' Hnd Eg; destruct U as [|u U0] eqn:EU; cbn [grow_loop] in Eg.
  - injection Eg as <- <- <-. rewrite app_nil_r. auto.
  - discriminate.
  - injection Eg as <- <- <-. rewrite app_nil_r. auto.
  - rewrite <- EU in *. destruct (pop_randomly_from_Ok U r ltac:(rewrite EU; discriminate)) as [area [U1 [Ep Hp]]]. rewrite Ep in Eg. cbn [bind] in Eg. cbv zeta in Eg.
    destruct (reaches (row sp area) threshold).
    + assert (HP : Permutation (concat (P ++ [[area]]) ++ E ++ U1) (concat P ++ E ++ U)) by perm.
      apply IH in Eg; [etransitivity; eauto|]. eapply Permutation_NoDup; [symmetry; exact HP|auto].
    + destruct (grow_region d g attr sp threshold _ _ _ _ _ _ _) as [[[[[f R'] U'] A'] r2]|e|] eqn:E1; cbn [bind] in Eg; [|discriminate|discriminate].
      apply grow_region_perm in E1.
      2: { cbn [app]. assert (HP : NoDup (U ++ concat P ++ E)) by (eapply Permutation_NoDup; [|exact Hnd]; perm).
           eapply Permutation_NoDup; [exact Hp|]. clear - HP. induction U as [|x U IHU]; [constructor|]. inversion HP as [|? ? Hn HP']; subst. constructor; [|auto].
           intros Hi. apply Hn. apply in_or_app. auto. }
      cbn [app] in E1. destruct f.
      * assert (HP : Permutation (concat (P ++ [R']) ++ E ++ U') (concat P ++ E ++ U)) by perm.
        apply IH in Eg; [etransitivity; eauto|]. eapply Permutation_NoDup; [symmetry; exact HP|auto].
      * assert (HP : Permutation (concat P ++ (E ++ R') ++ U') (concat P ++ E ++ U)) by perm.
        apply IH in Eg; [etransitivity; eauto|]. eapply Permutation_NoDup; [symmetry; exact HP|auto].
Qed.
Lemma grow_regions_covered r : covered (grow_regions d g attr sp threshold r) (grow_regions d h attr sp threshold).
Proof. unfold grow_regions. rewrite <- (proj1 H). apply grow_loop_covered, seq_NoDup. Qed.
Lemma grow_regions_disjoint r P E r' : grow_regions d g attr sp threshold r = Ok (P, E, r') -> NoDup (concat P ++ E).
Proof.
  intros Eg. apply grow_loop_perm in Eg; [|cbn; apply seq_NoDup]. cbn in Eg. eapply Permutation_NoDup; [symmetry; exact Eg|apply seq_NoDup].
Qed.

Lemma construct_covered : forall k mp best r, covered (construct d g attr sp threshold k mp best r) (construct d h attr sp threshold k mp best).
Proof.
  induction k as [|k IH]; intros mp best r; cbn [construct]; [apply covered_ok|].
  apply (covered_bind (A := list (list nat) * list nat)); [apply grow_regions_covered|]. intros [P E] r1 _. cbv zeta.
  destruct (Nat.ltb _ _); [apply IH|]. destruct (Nat.eqb _ _); apply IH.
Qed.
Definition disjoint_parts (pe : list (list nat) * list nat) : Prop := NoDup (concat (fst pe) ++ snd pe).
Lemma construct_disjoint : forall k mp best r mp' best' r', Forall disjoint_parts best ->
  construct d g attr sp threshold k mp best r = Ok (mp', best', r') -> Forall disjoint_parts best'.
Proof.
  induction k as [|k IH]; intros mp best r mp' best' r' Hb E; cbn [construct] in E; [injection E as <- <- <-; auto|].
  destruct (grow_regions _ _ _ _ _ r) as [[[P F] r1]|e|] eqn:Eg; cbn [bind] in E; [|discriminate|discriminate]. cbv zeta in E.
  apply grow_regions_disjoint in Eg.
  destruct (Nat.ltb _ _); [apply IH in E; auto|]. destruct (Nat.eqb _ _); apply IH in E; auto. apply Forall_app. auto.
Qed.

(** ** enclaves *)
Lemma find_absent a P : ~ In a (concat P) -> match find_sublist_index a P with Ok k => [k] | _ => [] end = [].
Proof.
  intros Hn. unfold find_sublist_index. assert (E : index_where (memb a) P = None); [|rewrite E; auto].
  induction P as [|s P IH]; [auto|]. cbn [concat] in Hn. cbn [index_where]. rewrite (proj2 (memb_notIn a s)) by (intros Hi; apply Hn, in_or_app; auto).
  rewrite IH; [auto|]. intros Hi. apply Hn, in_or_app; auto.
Qed.
Lemma neigh_regions_loops a P : ~ In a (concat P) -> neigh_regions_idx g a P = neigh_regions_idx h a P.
Proof.
  intros Hn. unfold neigh_regions_idx. rewrite <- neighbors_but. induction (neighbors g a) as [|x l IH]; [auto|]. cbn [flat_map filter].
  unfold but at 1. destruct (Nat.eqb_spec a x) as [<-|Hne]; cbn [negb].
  - rewrite (find_absent a P Hn). cbn [app]. auto.
  - cbn [flat_map]. rewrite IH. auto.
Qed.
Lemma outside_neighbors E a : In a E -> existsb (fun n => negb (memb n E)) (neighbors g a) = existsb (fun n => negb (memb n E)) (neighbors h a).
Proof.
  intros Ha. rewrite <- neighbors_but. induction (neighbors g a) as [|x l IH]; [auto|]. cbn [existsb filter]. unfold but at 1.
  destruct (Nat.eqb_spec a x) as [<-|Hne]; cbn [negb existsb].
  - apply memb_In in Ha. rewrite Ha. cbn [negb orb]. auto.
  - rewrite IH. auto.
Qed.
Lemma concat_add k a : forall P x, In x (concat (add_to_region P k a)) -> x = a \/ In x (concat P).
Proof.
  intros P x Hx. unfold add_to_region in Hx. apply in_concat in Hx. destruct Hx as [s [Hs Hx]]. apply In_nth_error in Hs. destruct Hs as [i Hi].
  destruct (Nat.eq_dec i k) as [->|Hne].
  - assert (Hk : k < length P) by (apply nth_error_lt in Hi; rewrite upd_length in Hi; auto). rewrite nth_error_upd_eq in Hi by auto. injection Hi as <-.
    apply set_add_In in Hx. destruct Hx as [->|Hx]; [auto|]. right. apply in_concat. exists (nth k P []). split; [apply nth_In; auto|auto].
  - rewrite nth_error_upd_ne in Hi by auto. right. apply in_concat. exists s. split; [eapply nth_error_In; eauto|auto].
Qed.
Lemma assign_loop_loops : forall fuel P E r, (forall a, In a E -> ~ In a (concat P)) -> NoDup E ->
  assign_loop d g attr fuel P E r = assign_loop d h attr fuel P E r.
Proof.
  induction fuel as [|fuel IH]; intros P E r Hd Hnd; destruct E as [|e0 E0] eqn:EE; cbn [assign_loop]; auto. rewrite <- EE in *. cbv zeta.
  assert (Ef : filter (fun area => existsb (fun n => negb (memb n E)) (neighbors g area)) E = filter (fun area => existsb (fun n => negb (memb n E)) (neighbors h area)) E).
  { apply filter_ext_in. intros a Ha. apply outside_neighbors; auto. }
  rewrite Ef. destruct (pop_randomly_from _ r) as [[[a rest] r1]|e|] eqn:Ep; cbn [bind]; auto.
  assert (Ha : In a E).
  { destruct (filter (fun area => existsb (fun n => negb (memb n E)) (neighbors h area)) E) as [|b bs] eqn:Eb; [discriminate|].
    destruct (pop_randomly_from_Ok (b :: bs) r ltac:(discriminate)) as [x [rest' [Ep' Hp]]]. rewrite Ep in Ep'. injection Ep' as <- _ _.
    assert (Hx : In a (b :: bs)) by (rewrite Hp; left; auto). rewrite <- Eb in Hx. apply filter_In in Hx. tauto. }
  rewrite neigh_regions_loops by auto. destruct (find_best_region_idx _ _ _ _ _ _) as [[k r2]|e|]; cbn [bind]; auto.
  destruct (remove_first_perm a E Ha) as [E' [Er Hp]]. rewrite Er.
  assert (Hnd' : NoDup (a :: E')) by (eapply Permutation_NoDup; eauto). inversion Hnd' as [|? ? Hni Hnd2]; subst.
  apply IH; auto. intros b Hb Hc. apply concat_add in Hc. destruct Hc as [->|Hc]; [auto|]. apply (Hd b); auto. rewrite Hp. right; auto.
Qed.
Lemma assign_each_loops : forall parts r, Forall disjoint_parts parts -> assign_each d g attr parts r = assign_each d h attr parts r.
Proof.
  induction parts as [|[P E] parts IH]; intros r Hf; cbn [assign_each]; [auto|]. inversion Hf as [|? ? Hd Hf']; subst. unfold disjoint_parts in Hd. cbn [fst snd] in Hd.
  unfold assign_enclaves. rewrite assign_loop_loops.
  - destruct (assign_loop _ h _ _ _ _ _) as [[p r1]|e|]; cbn [bind]; auto. rewrite IH by auto. auto.
  - intros a Ha Hc. eapply NoDup_app_disj; eauto.
  - eapply NoDup_app_r; eauto.
Qed.
End Grow.

(** ** the whole method *)
Section Search.
Variable LS : Type.
Variable wrap : LS -> LS.
Variables ls_g ls_h : LS -> Z -> list Z -> rng -> out (option (list Z) * LS * rng).
Variable obj : objfun.
Variable attr : list (list Q).
Hypothesis Hls : forall s p l r, ls_g s p l r = ls_h s p l r.
Lemma search_all_ext mp : forall parts s b r, search_all LS ls_g obj attr mp parts s b r = search_all LS ls_h obj attr mp parts s b r.
Proof.
  induction parts as [|P parts IH]; intros s b r; cbn [search_all]; [auto|]. destruct (array_from_region_list P) as [l|e|]; cbn [bind]; auto.
  rewrite Hls. destruct (ls_h s _ l r) as [[[[l1|] s1] r1]|e|]; cbn [bind]; auto. destruct (o_call obj l1 attr) as [v|e|]; cbn [bind]; auto.
Qed.
Lemma search_rounds_ext mp parts : forall k s b r, search_rounds LS wrap ls_g obj attr k mp parts s b r = search_rounds LS wrap ls_h obj attr k mp parts s b r.
Proof.
  induction k as [|k IH]; intros s b r; cbn [search_rounds]; [auto|]. rewrite search_all_ext. destruct (search_all _ _ _ _ _ _ _ _ _) as [[[s1 b1] r1]|e|]; cbn [bind]; auto.
Qed.
Theorem maxp_fit_loops g h new d sp thr max_it labels0 ls r : same_between g h -> no_self_loops h ->
  maxp_fit LS wrap ls_g obj attr new d g sp thr max_it labels0 ls r = Raise not_in_list \/
  exists q, maxp_fit LS wrap ls_h obj attr new d h sp thr max_it labels0 ls q = maxp_fit LS wrap ls_g obj attr new d g sp thr max_it labels0 ls r.
Proof.
  intros H Hnl. unfold maxp_fit. pose proof (construct_covered d g h attr sp thr H Hnl max_it 0 [] r) as Hc.
  pose proof (construct_disjoint d g attr sp thr max_it 0 [] r) as Hd.
  destruct (construct d g attr sp thr max_it 0 [] r) as [[[mp before] r1]|e|]; cbn [bind covered] in *.
  - specialize (Hd mp before r1 ltac:(constructor) eq_refl). destruct (Hc r1) as [q E]. right. exists q. rewrite E. cbn [bind].
    rewrite (assign_each_loops d g h attr H Hnl before r1 Hd). destruct (assign_each d h attr before r1) as [[parts r2]|e|]; cbn [bind]; auto.
    destruct parts as [|p parts]; [auto|]. destruct (match ls with Some l => (l, r2) | None => new r2 end) as [ls0 r3].
    rewrite search_rounds_ext. auto.
  - destruct Hc as [->|[q E]]; [auto|]. right. exists q. rewrite E. auto.
  - destruct Hc as [q E]. right. exists q. rewrite E. auto.
Qed.
End Search.
