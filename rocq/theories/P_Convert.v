(** Facts about the input conversions. *)
From Verif Require Export SpecData.
From Verif Require Import Base Spec M_Graph P_Graph M_Util P_Base M_Objective P_Objective M_Azp M_Convert.
From Coq Require Import Permutation Sorting.Sorted.

(** ** positions in the sorted list of names *)
Lemma filter_perm_length {A} (f : A -> bool) l l' : Permutation l l' -> length (filter f l) = length (filter f l').
Proof.
  intros H. induction H as [|x l l' _ IH|x y l|l l' l'' _ IH1 _ IH2]; cbn.
  - reflexivity.
  - destruct (f x); cbn; congruence.
  - destruct (f x), (f y); reflexivity.
  - congruence.
Qed.

Lemma uniqueZ_perm ks : NoDup ks -> Permutation (uniqueZ ks) ks.
Proof.
  intros H. apply NoDup_Permutation; [apply uniqueZ_NoDup|exact H|]. intros x. apply uniqueZ_In.
Qed.

Lemma sorted_before l : StronglySorted Z.lt l ->
  forall k, In k l -> nth_error l (length (filter (fun x => Z.ltb x k) l)) = Some k.
Proof.
  induction 1 as [|x l Hs IH Hx]; intros k Hk; [destruct Hk|].
  cbn [filter]. destruct (Z.ltb_spec x k) as [Hlt|Hge].
  - cbn [length nth_error]. apply IH. destruct Hk as [->|Hk]; [lia|exact Hk].
  - assert (x = k) as ->.
    { destruct Hk as [Hk|Hk]; [exact Hk|]. rewrite Forall_forall in Hx. specialize (Hx k Hk). lia. }
    assert (filter (fun y => Z.ltb y k) l = []) as ->; [|reflexivity].
    rewrite Forall_forall in Hx. clear -Hx. induction l as [|y l IH]; [reflexivity|]. cbn.
    destruct (Z.ltb_spec y k) as [Hlt|_]; [specialize (Hx y (or_introl eq_refl)); lia|].
    apply IH. intros z Hz. apply Hx. right; exact Hz.
Qed.

Lemma position_nth ks k : NoDup ks -> In k ks -> nth_error (uniqueZ ks) (position ks k) = Some k.
Proof.
  intros Hn Hk. unfold position. rewrite <- (filter_perm_length _ _ _ (uniqueZ_perm ks Hn)).
  apply sorted_before; [apply uniqueZ_sorted|]. apply uniqueZ_In; exact Hk.
Qed.

Lemma uniqueZ_full_length ks : NoDup ks -> length (uniqueZ ks) = length ks.
Proof. intros H. apply Permutation_length, uniqueZ_perm; exact H. Qed.

Lemma position_lt ks k : NoDup ks -> In k ks -> position ks k < length ks.
Proof.
  intros Hn Hk. rewrite <- (uniqueZ_full_length ks Hn). apply nth_error_Some.
  rewrite (position_nth ks k Hn Hk). discriminate.
Qed.

Lemma position_inj ks k k' : NoDup ks -> In k ks -> In k' ks -> position ks k = position ks k' -> k = k'.
Proof.
  intros Hn Hk Hk' E. pose proof (position_nth ks k Hn Hk) as H1. pose proof (position_nth ks k' Hn Hk') as H2.
  rewrite E in H1. congruence.
Qed.

Lemma nth_position ks i k : NoDup ks -> nth_error (uniqueZ ks) i = Some k -> In k ks /\ position ks k = i.
Proof.
  intros Hn Hi. assert (Hk : In k ks) by (apply uniqueZ_In; eapply nth_error_In; eauto).
  split; [exact Hk|]. apply (proj1 (NoDup_nth_error (uniqueZ ks)) (uniqueZ_NoDup ks)).
  - rewrite uniqueZ_full_length by exact Hn. apply position_lt; auto.
  - rewrite Hi. apply position_nth; auto.
Qed.

Lemma position_onto ks i : NoDup ks -> i < length ks -> exists k, In k ks /\ position ks k = i.
Proof.
  intros Hn Hi. rewrite <- (uniqueZ_full_length ks Hn) in Hi.
  destruct (nth_error (uniqueZ ks) i) as [k|] eqn:E; [|apply nth_error_None in E; lia].
  exists k. apply nth_position; auto.
Qed.

Lemma position_perm ks ks' k : Permutation ks ks' -> position ks k = position ks' k.
Proof. intros H. apply filter_perm_length; exact H. Qed.

Lemma sorted_uniqueZ ks : StronglySorted Z.lt ks -> uniqueZ ks = ks.
Proof.
  intros H. apply sorted_ext; [apply uniqueZ_sorted|exact H|]. intros x. apply uniqueZ_In.
Qed.

(** ** lookups *)
Lemma dlookup_In {V} (d : dict V) k v : NoDup (keys d) -> (dlookup d k = Some v <-> In (k, v) d).
Proof.
  induction d as [|[k' v'] d IH]; cbn [dlookup keys map fst]; intros Hn; [split; [discriminate|intros []]|].
  inversion Hn as [|? ? Hk' Hn']; subst. destruct (Z.eqb_spec k k') as [->|Hne].
  - split; [intros E; injection E as ->; left; reflexivity|]. intros [E|E]; [congruence|].
    exfalso. apply Hk'. change k' with (fst (k', v)). apply in_map; exact E.
  - rewrite (IH Hn'). split; [intros H; right; exact H|]. intros [E|E]; [congruence|exact E].
Qed.

Lemma dlookup_None {V} (d : dict V) k : dlookup d k = None <-> ~ In k (keys d).
Proof.
  induction d as [|[k' v'] d IH]; cbn [dlookup keys map fst]; [split; [intros _ []|reflexivity]|].
  destruct (Z.eqb_spec k k') as [->|Hne].
  - split; [discriminate|]. intros H. exfalso. apply H. left; reflexivity.
  - rewrite IH. unfold keys. split; [intros H [E|E]; [congruence|auto]|intros H E; apply H; right; exact E].
Qed.

Lemma keys_In {V} (d : dict V) k : In k (keys d) <-> exists v, In (k, v) d.
Proof.
  unfold keys. rewrite in_map_iff. split.
  - intros [[k' v] [E H]]. cbn in E. subst. eauto.
  - intros [v H]. exists (k, v). auto.
Qed.

Lemma name_to_int_Ok {V} (d : dict V) k : NoDup (keys d) -> In k (keys d) ->
  name_to_int d k = Ok (position (keys d) k).
Proof.
  intros Hn Hk. unfold name_to_int.
  assert (index_where (Z.eqb k) (sorted_keys d) = Some (position (keys d) k)) as ->; [|reflexivity].
  apply index_where_spec. split.
  - exists k. split; [apply position_nth; auto|apply Z.eqb_refl].
  - intros j x Hj Hx. destruct (nth_position _ _ _ Hn Hx) as [_ Hp].
    apply Z.eqb_neq. intros <-. lia.
Qed.

Lemma name_to_int_missing {V} (d : dict V) k : ~ In k (keys d) -> name_to_int d k = Raise KeyError.
Proof.
  intros Hk. unfold name_to_int.
  assert (index_where (Z.eqb k) (sorted_keys d) = None) as ->; [|reflexivity].
  apply index_where_None. intros x Hx. apply Z.eqb_neq. intros <-. apply Hk. apply uniqueZ_In; exact Hx.
Qed.

(** ** mapM *)
Lemma mapM_raise {A B} (f : A -> out B) e l :
  (forall x, In x l -> (exists y, f x = Ok y) \/ f x = Raise e) ->
  (exists x, In x l /\ f x = Raise e) -> mapM f l = Raise e.
Proof.
  induction l as [|x l IH]; intros Hf [y [Hy Ey]]; [destruct Hy|]. cbn [mapM].
  destruct (Hf x (or_introl eq_refl)) as [[z Ez]|Ez]; rewrite Ez; cbn [bind]; [|reflexivity].
  rewrite IH; [reflexivity| |].
  - intros w Hw. apply Hf. right; exact Hw.
  - destruct Hy as [->|Hy]; [congruence|]. eauto.
Qed.

(** ** the adjacency matrix of a neighbour dict *)

Definition entries (nb : dict (list Z)) : list (list (nat * nat)) :=
  map (fun p => map (fun j => (position (keys nb) (fst p), position (keys nb) j)) (snd p)) nb.

Lemma matrix_rows_Ok nb : NoDup (keys nb) -> closed_dict nb ->
  mapM (fun '(i, js) => mapM (fun j => let* a := name_to_int nb i in
                                       let* b := name_to_int nb j in Ok (a, b)) js) nb = Ok (entries nb).
Proof.
  intros Hn Hc. unfold entries. apply mapM_Ok. intros [i js] Hi. cbn [fst snd].
  apply mapM_Ok. intros j Hj.
  rewrite name_to_int_Ok; [|exact Hn|apply keys_In; eauto]. cbn [bind].
  rewrite name_to_int_Ok; [|exact Hn|eapply Hc; eauto]. reflexivity.
Qed.

Lemma matrix_from_dict_Ok nb : NoDup (keys nb) -> closed_dict nb ->
  matrix_from_dict nb =
    Ok (mkG (length nb) (fun u v => existsb (fun '(a, b) => Nat.eqb a u && Nat.eqb b v) (concat (entries nb)))).
Proof. intros Hn Hc. unfold matrix_from_dict. rewrite matrix_rows_Ok by auto. reflexivity. Qed.

Lemma entries_In nb u v :
  existsb (fun '(a, b) => Nat.eqb a u && Nat.eqb b v) (concat (entries nb)) = true <->
  exists i j, lists nb i j /\ position (keys nb) i = u /\ position (keys nb) j = v.
Proof.
  rewrite existsb_exists. split.
  - intros [[a b] [H E]]. apply andb_true_iff in E. destruct E as [E1 E2].
    apply Nat.eqb_eq in E1. apply Nat.eqb_eq in E2. subst.
    apply in_concat in H. destruct H as [row [H1 H2]]. unfold entries in H1.
    apply in_map_iff in H1. destruct H1 as [[i js] [<- Hi]]. cbn [fst snd] in H2.
    apply in_map_iff in H2. destruct H2 as [j [E Hj]]. injection E as <- <-.
    exists i, j. split; [exists js; auto|auto].
  - intros [i [j [[js [Hi Hj]] [<- <-]]]].
    exists (position (keys nb) i, position (keys nb) j). split; [|rewrite !Nat.eqb_refl; reflexivity].
    apply in_concat. exists (map (fun j => (position (keys nb) i, position (keys nb) j)) js). split.
    + unfold entries. apply in_map_iff. exists (i, js). auto.
    + apply in_map_iff. eauto.
Qed.

Lemma keys_length {V} (d : dict V) : length (keys d) = length d.
Proof. apply map_length. Qed.

Lemma matrix_entry nb g i j : NoDup (keys nb) -> closed_dict nb -> matrix_from_dict nb = Ok g ->
  In i (keys nb) -> In j (keys nb) ->
  (gadj g (position (keys nb) i) (position (keys nb) j) = true <-> lists nb i j).
Proof.
  intros Hn Hc E Hi Hj. rewrite matrix_from_dict_Ok in E by auto. injection E as <-. cbn [gadj].
  rewrite entries_In. split.
  - intros [i' [j' [Hl [E1 E2]]]].
    assert (In i' (keys nb)) by (destruct Hl as [js [H _]]; apply keys_In; eauto).
    assert (In j' (keys nb)) by (destruct Hl as [js [H1 H2]]; eapply Hc; eauto).
    apply position_inj in E1; auto. apply position_inj in E2; auto. subst; exact Hl.
  - intros Hl. exists i, j. auto.
Qed.

Lemma matrix_bounds nb g u v : NoDup (keys nb) -> closed_dict nb -> matrix_from_dict nb = Ok g ->
  gadj g u v = true -> u < gn g /\ v < gn g.
Proof.
  intros Hn Hc E. rewrite matrix_from_dict_Ok in E by auto. injection E as <-. cbn [gadj gn].
  rewrite entries_In. intros [i [j [[js [Hi Hj]] [<- <-]]]]. rewrite <- (keys_length nb).
  split; apply position_lt; auto; [apply keys_In; eauto|eapply Hc; eauto].
Qed.

Definition closedb (nb : dict (list Z)) : bool :=
  forallb (fun p => forallb (fun j => membZ j (keys nb)) (snd p)) nb.
Lemma closedb_spec nb : closedb nb = true <-> closed_dict nb.
Proof.
  unfold closedb, closed_dict. rewrite forallb_forall. split.
  - intros H i js j Hi Hj. specialize (H _ Hi). rewrite forallb_forall in H. apply membZ_In. apply H; exact Hj.
  - intros H [i js] Hi. apply forallb_forall. intros j Hj. apply membZ_In. eapply H; eauto.
Qed.

Lemma closed_or_not nb : closed_dict nb \/ exists i js j, In (i, js) nb /\ In j js /\ ~ In j (keys nb).
Proof.
  destruct (closedb nb) eqn:E; [left; apply closedb_spec; exact E|right].
  unfold closedb in E. apply not_true_iff_false in E. rewrite forallb_forall in E.
  assert (H : exists p, In p nb /\ forallb (fun j => membZ j (keys nb)) (snd p) = false).
  { clear -E. revert E. generalize (keys nb). intros ks E.
    induction nb as [|p nb IH]; [exfalso; apply E; intros x []|].
    destruct (forallb (fun j => membZ j ks) (snd p)) eqn:Ep; [|exists p; split; [left; reflexivity|exact Ep]].
    destruct IH as [q [Hq Eq]]; [|exists q; split; [right; exact Hq|exact Eq]].
    intros H. apply E. intros x [<-|Hx]; auto. }
  destruct H as [[i js] [Hi Ej]]. cbn [snd] in Ej. exists i, js.
  assert (H : exists j, In j js /\ membZ j (keys nb) = false).
  { clear -Ej. induction js as [|j js IH]; [discriminate|]. cbn in Ej.
    destruct (membZ j (keys nb)) eqn:E; [|exists j; split; [left; reflexivity|exact E]].
    destruct (IH Ej) as [j' [H1 H2]]. exists j'. split; [right; exact H1|exact H2]. }
  destruct H as [j [Hj Em]]. exists j. split; [exact Hi|]. split; [exact Hj|].
  intros Hk. apply membZ_In in Hk. congruence.
Qed.

Lemma matrix_from_dict_KeyError nb i js j : NoDup (keys nb) -> In (i, js) nb -> In j js -> ~ In j (keys nb) ->
  matrix_from_dict nb = Raise KeyError.
Proof.
  intros Hn Hi Hj Hk. unfold matrix_from_dict.
  assert (Hcell : forall i' js' j', In (i', js') nb -> In j' js' ->
    (exists y, (let* a := name_to_int nb i' in let* b := name_to_int nb j' in Ok (a, b)) = Ok y) \/
    (let* a := name_to_int nb i' in let* b := name_to_int nb j' in Ok (a, b)) = Raise KeyError).
  { intros i' js' j' H1 H2. rewrite (name_to_int_Ok nb i') by (auto; apply keys_In; eauto). cbn [bind].
    destruct (in_dec Z.eq_dec j' (keys nb)) as [H3|H3].
    - rewrite name_to_int_Ok by auto. cbn [bind]. left. eexists; reflexivity.
    - rewrite name_to_int_missing by auto. right; reflexivity. }
  rewrite (mapM_raise _ KeyError); [reflexivity| |].
  - intros [i' js'] H'. destruct (forallb (fun j => membZ j (keys nb)) js') eqn:E.
    + left. eexists. rewrite forallb_forall in E.
      apply mapM_Ok with (g := fun j => (position (keys nb) i', position (keys nb) j)).
      intros j' Hj'. rewrite (name_to_int_Ok nb i') by (auto; apply keys_In; eauto). cbn [bind].
      rewrite name_to_int_Ok; [reflexivity|exact Hn|]. apply membZ_In. apply E; exact Hj'.
    + right. apply mapM_raise; [intros; eapply Hcell; eauto|].
      assert (H : exists j, In j js' /\ membZ j (keys nb) = false).
      { clear -E. induction js' as [|j0 js0 IH]; [discriminate|]. cbn in E.
        destruct (membZ j0 (keys nb)) eqn:E0; [|exists j0; split; [left; reflexivity|exact E0]].
        destruct (IH E) as [j' [H1 H2]]. exists j'. split; [right; exact H1|exact H2]. }
      destruct H as [j' [Hj' Em]]. exists j'. split; [exact Hj'|].
      rewrite (name_to_int_Ok nb i') by (auto; apply keys_In; eauto). cbn [bind].
      rewrite name_to_int_missing; [reflexivity|]. intros Hin. apply membZ_In in Hin. congruence.
  - exists (i, js). split; [exact Hi|]. apply mapM_raise; [intros; eapply Hcell; eauto|].
    exists j. split; [exact Hj|].
    rewrite (name_to_int_Ok nb i) by (auto; apply keys_In; eauto). cbn [bind].
    rewrite name_to_int_missing by auto. reflexivity.
Qed.

(** ** arrays from dict values *)


Definition row_of {A} (d : dict (value A)) (k : Z) : list A :=
  match dlookup d k with Some v => value_list v | None => [] end.

Lemma flat_values_Ok {A} (d : dict (value A)) m ks : NoDup (keys d) -> uniform d m -> ks <> [] ->
  (forall k, In k ks -> In k (keys d)) -> flat_values d ks = Ok (concat (map (row_of d) ks)).
Proof.
  intros Hn [[b Hb] _] Hne Hks. destruct ks as [|k0 ks0]; [congruence|]. unfold flat_values.
  destruct (proj1 (keys_In d k0) (Hks k0 (or_introl eq_refl))) as [v0 Hv0].
  unfold dict_get at 1. rewrite (proj2 (dlookup_In d k0 v0 Hn) Hv0). cbn [bind].
  pose proof (Hb _ _ Hv0) as Eb. clear Hne. revert Hks. generalize (k0 :: ks0). intros ks Hks.
  destruct v0 as [a0|l0]; cbn in Eb; subst b.
  - induction ks as [|k ks IH]; [reflexivity|]. cbn [scalars map concat].
    destruct (proj1 (keys_In d k) (Hks k (or_introl eq_refl))) as [v Hv].
    pose proof (Hb _ _ Hv) as Ev. unfold dict_get, row_of at 1.
    rewrite (proj2 (dlookup_In d k v Hn) Hv). cbn [bind]. destruct v as [a|l]; [|discriminate].
    rewrite IH by (intros; apply Hks; right; auto). reflexivity.
  - induction ks as [|k ks IH]; [reflexivity|]. cbn [chained map concat].
    destruct (proj1 (keys_In d k) (Hks k (or_introl eq_refl))) as [v Hv].
    pose proof (Hb _ _ Hv) as Ev. unfold dict_get, row_of at 1.
    rewrite (proj2 (dlookup_In d k v Hn) Hv). cbn [bind]. destruct v as [a|l]; [discriminate|].
    rewrite IH by (intros; apply Hks; right; auto). reflexivity.
Qed.

Lemma concat_uniform_length {A} (rows : list (list A)) c :
  (forall r, In r rows -> length r = c) -> length (concat rows) = length rows * c.
Proof.
  induction rows as [|r rows IH]; intros H; [reflexivity|]. cbn. rewrite app_length, IH, (H r).
  - reflexivity.
  - left; reflexivity.
  - intros; apply H; right; auto.
Qed.

Lemma skipn_concat_uniform {A} (rows : list (list A)) c i :
  (forall r, In r rows -> length r = c) -> skipn (i * c) (concat rows) = concat (skipn i rows).
Proof.
  revert i. induction rows as [|r rows IH]; intros i H.
  - rewrite !skipn_nil. reflexivity.
  - destruct i as [|i]; [reflexivity|]. cbn [skipn concat Nat.mul].
    rewrite <- (IH i) by (intros; apply H; right; auto).
    rewrite <- (H r) at 1 by (left; reflexivity).
    rewrite skipn_app. replace (length r + i * c - length r) with (i * c) by lia.
    rewrite skipn_all2 by lia. reflexivity.
Qed.

Lemma reshape_concat {A} (rows : list (list A)) c : rows <> [] ->
  (forall r, In r rows -> length r = c) -> reshape (length rows) (concat rows) = Ok rows.
Proof.
  intros Hne H. assert (Hl : length rows <> 0) by (destruct rows; [congruence|discriminate]).
  unfold reshape. rewrite (proj2 (Nat.eqb_neq _ _) Hl).
  rewrite (concat_uniform_length rows c H), Nat.mul_comm, Nat.mod_mul by exact Hl.
  rewrite Nat.div_mul by exact Hl. cbn [Nat.eqb]. f_equal.
  clear Hne Hl. induction rows as [|r rows IH]; [reflexivity|].
  cbn [length seq map concat]. f_equal.
  - cbn [Nat.mul skipn]. rewrite <- (H r) at 1 by (left; reflexivity).
    rewrite firstn_app, Nat.sub_diag, firstn_all. cbn [firstn]. apply app_nil_r.
  - rewrite <- IH at 2 by (intros; apply H; right; auto).
    rewrite <- seq_shift, map_map. apply map_ext. intros i. cbn [Nat.mul].
    f_equal. rewrite <- (H r) at 1 by (left; reflexivity).
    rewrite skipn_app. replace (length r + i * c - length r) with (i * c) by lia.
    rewrite skipn_all2 by lia. reflexivity.
Qed.

Lemma reshape_length {A} n (flat : list A) rows : reshape n flat = Ok rows -> length rows = n.
Proof.
  unfold reshape. destruct (Nat.eqb n 0); [discriminate|]. destruct (Nat.eqb (length flat mod n) 0); [|discriminate].
  intros E; injection E as <-. rewrite map_length, seq_length. reflexivity.
Qed.

Lemma row_of_length {A} (d : dict (value A)) m k : NoDup (keys d) -> uniform d m -> In k (keys d) ->
  length (row_of d k) = m.
Proof.
  intros Hn [_ Hm] Hk. apply keys_In in Hk. destruct Hk as [v Hv]. unfold row_of.
  rewrite (proj2 (dlookup_In d k v Hn) Hv). eapply Hm; eauto.
Qed.

Lemma array_rows {A} (d : dict (value A)) m ks : NoDup (keys d) -> uniform d m -> ks <> [] ->
  length ks = length d -> (forall k, In k ks -> In k (keys d)) ->
  array_from_dict_values d (Some ks) = Ok (map (row_of d) ks).
Proof.
  intros Hn Hu Hne Hl Hks. unfold array_from_dict_values, array_from_dict_flat.
  rewrite (flat_values_Ok d m) by auto. cbn [bind].
  rewrite <- Hl, <- (map_length (row_of d) ks). apply reshape_concat with (c := m).
  - destruct ks; [congruence|discriminate].
  - intros r Hr. apply in_map_iff in Hr. destruct Hr as [k [<- Hk]]. apply row_of_length; auto.
Qed.

Lemma array_default {A} (d : dict (value A)) : array_from_dict_values d None =
  array_from_dict_values d (Some (sorted_keys d)).
Proof. reflexivity. Qed.

Lemma sorted_keys_nonempty {V} (d : dict V) : NoDup (keys d) -> d <> [] -> sorted_keys d <> [].
Proof.
  intros Hn Hd E. apply Hd. apply length_zero_iff_nil. rewrite <- keys_length, <- uniqueZ_full_length by exact Hn.
  unfold sorted_keys in E. rewrite E. reflexivity.
Qed.

Lemma array_sorted {A} (d : dict (value A)) m : NoDup (keys d) -> uniform d m -> d <> [] ->
  array_from_dict_values d None = Ok (map (row_of d) (sorted_keys d)).
Proof.
  intros Hn Hu Hd. rewrite array_default. apply array_rows with (m := m); auto.
  - apply sorted_keys_nonempty; auto.
  - unfold sorted_keys. rewrite uniqueZ_full_length by exact Hn. apply keys_length.
  - intros k Hk. apply uniqueZ_In; exact Hk.
Qed.

(** ** attributes of a networkx graph *)
Lemma collect_attrs_fold G names : forall data,
  fold_left (append_attr G) names data =
  map (fun p => (fst p, snd p ++ flat_map (fun a => match nx_attr G a (fst p) with Some q => [q] | None => [] end) names)) data.
Proof.
  induction names as [|a names IH]; intros data; cbn [fold_left flat_map].
  - rewrite <- (map_id data) at 1. apply map_ext. intros [k l]. cbn [fst snd]. rewrite app_nil_r. reflexivity.
  - rewrite IH. unfold append_attr. rewrite map_map. apply map_ext. intros [k l]. cbn [fst snd].
    destruct (nx_attr G a k); rewrite <- ?app_assoc; reflexivity.
Qed.

Definition node_attrs (G : nxgraph) (names : list string) (node : Z) : list Q :=
  flat_map (fun a => match nx_attr G a node with Some q => [q] | None => [] end) names.

Lemma collect_attrs_eq G names : collect_attrs G names = map (fun node => (node, node_attrs G names node)) (nx_nodes G).
Proof.
  unfold collect_attrs. rewrite collect_attrs_fold, map_map. reflexivity.
Qed.


Lemma graph_dict_eq G a names : names_of a = Some names ->
  array_from_graph_or_dict G a =
  array_from_dict_values (map (fun node => (node, Iter (node_attrs G names node))) (nx_nodes G)) None.
Proof.
  unfold array_from_graph_or_dict, array_from_graph, dict_from_graph_attr.
  destruct a; cbn [names_of]; intros E; try discriminate; injection E as <-; cbn [bind];
    rewrite collect_attrs_eq, map_map; reflexivity.
Qed.

Lemma graph_dict_keys G names : keys (map (fun node => (node, Iter (node_attrs G names node))) (nx_nodes G)) = nx_nodes G.
Proof. unfold keys. rewrite map_map. cbn [fst]. apply map_id. Qed.

Lemma node_attrs_length G names node : (forall a, In a names -> nx_attr G a node <> None) ->
  length (node_attrs G names node) = length names.
Proof.
  unfold node_attrs. induction names as [|a names IH]; intros H; [reflexivity|]. cbn [flat_map].
  rewrite app_length, IH by (intros; apply H; right; auto).
  destruct (nx_attr G a node) eqn:E; [reflexivity|]. exfalso. apply (H a (or_introl eq_refl)); exact E.
Qed.

Lemma node_attrs_nth G names node i a : (forall b, In b names -> nx_attr G b node <> None) ->
  nth_error names i = Some a -> nth_error (node_attrs G names node) i = nx_attr G a node.
Proof.
  revert i. unfold node_attrs. induction names as [|b names IH]; intros i H Hi; [destruct i; discriminate|].
  cbn [flat_map]. destruct (nx_attr G b node) as [q|] eqn:E; [|exfalso; apply (H b (or_introl eq_refl)); exact E].
  destruct i as [|i]; cbn in Hi |- *.
  - injection Hi as <-. symmetry; exact E.
  - apply IH; [intros; apply H; right; auto|exact Hi].
Qed.

Lemma graph_array G a names : NoDup (nx_nodes G) -> nx_nodes G <> [] -> names_of a = Some names ->
  (forall node b, In node (nx_nodes G) -> In b names -> nx_attr G b node <> None) ->
  array_from_graph_or_dict G a = Ok (map (node_attrs G names) (uniqueZ (nx_nodes G))).
Proof.
  intros Hn Hne Ha Hall. rewrite (graph_dict_eq G a names Ha).
  set (d := map (fun node => (node, Iter (node_attrs G names node))) (nx_nodes G)).
  assert (Hk : keys d = nx_nodes G) by apply graph_dict_keys.
  assert (Hnd : NoDup (keys d)) by (rewrite Hk; exact Hn).
  rewrite (array_sorted d (length names)).
  - f_equal. unfold sorted_keys. rewrite Hk. apply map_ext_in. intros node Hnode.
    rewrite uniqueZ_In in Hnode. unfold row_of.
    rewrite (proj2 (dlookup_In d node (Iter (node_attrs G names node)) Hnd)); [reflexivity|].
    unfold d. apply in_map_iff. exists node. split; [reflexivity|exact Hnode].
  - exact Hnd.
  - split.
    + exists true. intros k v H. unfold d in H. apply in_map_iff in H. destruct H as [node [E _]]. injection E as <- <-. reflexivity.
    + intros k v H. unfold d in H. apply in_map_iff in H. destruct H as [node [E Hnode]]. injection E as <- <-.
      cbn [value_list]. apply node_attrs_length. intros b Hb. apply Hall; auto.
  - unfold d. destruct (nx_nodes G); [congruence|discriminate].
Qed.
