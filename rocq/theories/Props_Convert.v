(** Property theorems C57-C59, C61, C63, C77-C83: input conversions and search helpers. *)
From Verif Require Import Base Spec M_Graph P_Graph M_Util P_Base P_Util P_Forest P_Init P_Initial
  M_Objective P_Sum P_Objective M_Azp P_Azp P_Strategy P_Fit P_AzpFit Examples Props_Objective Props_Azp
  M_Convert P_Convert.
From Coq Require Import Permutation Sorting.Sorted.

(** Names: 5 - 2 - 9, given in no particular order. *)
Definition ex_nb : dict (list Z) := [(5, [2]); (9, [2]); (2, [9; 5])]%Z.
Lemma ex_nb_distinct : NoDup (keys ex_nb).
Proof. repeat constructor; cbn; intuition congruence. Qed.

(** ** C57: a neighbour dict and its matrix describe the same graph *)
(** Areas are numbered in increasing order of their names: [position] is a bijection between the
    names and 0 .. n-1 that is monotone. *)
Theorem C57_numbering ks : NoDup ks ->
  (forall k, In k ks -> position ks k < length ks) /\
  (forall i, i < length ks -> exists k, In k ks /\ position ks k = i) /\
  (forall k k', In k ks -> In k' ks -> ((k < k')%Z <-> position ks k < position ks k')).
Proof.
  intros Hn. split; [intros; apply position_lt; auto|]. split; [intros; apply position_onto; auto|].
  assert (Hmono : forall k k', In k ks -> In k' ks -> (k < k')%Z -> position ks k < position ks k').
  { intros k k' Hk Hk' Hlt. unfold position.
    assert (Hg : forall l, In k l -> length (filter (fun x => Z.ltb x k) l) < length (filter (fun x => Z.ltb x k') l)).
    { assert (Hle : forall l, length (filter (fun x => Z.ltb x k) l) <= length (filter (fun x => Z.ltb x k') l)).
      { induction l as [|y l IH]; cbn; [lia|].
        destruct (Z.ltb_spec y k), (Z.ltb_spec y k'); cbn; lia. }
      induction l as [|y l IH]; [intros []|]. intros [->|Hy]; cbn.
      - rewrite Z.ltb_irrefl, (proj2 (Z.ltb_lt k k') Hlt). cbn. specialize (Hle l). lia.
      - specialize (IH Hy). destruct (Z.ltb_spec y k), (Z.ltb_spec y k'); cbn; lia. }
    apply Hg; exact Hk. }
  intros k k' Hk Hk'. split; [apply Hmono; auto|]. intros Hlt.
  destruct (Z.lt_trichotomy k k') as [H|[->|H]]; [exact H|lia|].
  specialize (Hmono k' k Hk' Hk H). lia.
Qed.

(** For every dict: either every listed neighbour is itself an area, and the matrix has an entry
    exactly where a neighbour is listed; or KeyError is raised. *)
Theorem C57_matrix_from_dict nb : NoDup (keys nb) -> nb <> [] ->
  ((forall i j, lists nb i j -> In j (keys nb)) /\
   exists g, matrix_from_dict nb = Ok g /\ gn g = length nb /\
     (forall u v, gadj g u v = true -> u < gn g /\ v < gn g) /\
     forall i j, In i (keys nb) -> In j (keys nb) ->
       (gadj g (position (keys nb) i) (position (keys nb) j) = true <-> lists nb i j))
  \/ ((exists i j, lists nb i j /\ ~ In j (keys nb)) /\ matrix_from_dict nb = Raise KeyError).
Proof.
  intros Hn _. destruct (closed_or_not nb) as [Hc|[i [js [j [Hi [Hj Hk]]]]]].
  - left. split; [intros i j [js [H1 H2]]; eapply Hc; eauto|].
    eexists. split; [apply matrix_from_dict_Ok; auto|]. split; [reflexivity|].
    split; [intros u v; eapply matrix_bounds; eauto; apply matrix_from_dict_Ok; auto|].
    intros i j Hi Hj. apply matrix_entry; auto. apply matrix_from_dict_Ok; auto.
  - right. split; [exists i, j; split; [exists js; auto|auto]|].
    eapply matrix_from_dict_KeyError; eauto.
Qed.

Lemma matrix_symmetric nb g : NoDup (keys nb) -> closed_dict nb -> matrix_from_dict nb = Ok g ->
  (forall i j, lists nb i j -> lists nb j i) -> symmetric g.
Proof.
  intros Hn Hc E Hs u v Hu Hv.
  assert (Hgn : gn g = length (keys nb)).
  { rewrite matrix_from_dict_Ok in E by auto. injection E as <-. cbn. symmetry; apply keys_length. }
  rewrite Hgn in Hu, Hv. destruct (position_onto _ _ Hn Hu) as [i [Hi <-]]. destruct (position_onto _ _ Hn Hv) as [j [Hj <-]].
  apply eq_true_iff_eq. rewrite !(matrix_entry nb g) by auto. split; apply Hs.
Qed.

Example C57_example :
  match matrix_from_dict ex_nb with
  | Ok g => gn g = 3 /\ map (fun u => map (gadj g u) [0;1;2]) [0;1;2] =
            [[false; true; true]; [true; false; false]; [true; false; false]]
  | _ => False
  end /\
  (lists ex_nb 2%Z 9%Z /\ position (keys ex_nb) 2%Z = 0 /\ position (keys ex_nb) 9%Z = 2) /\
  matrix_from_dict [(5, [2]); (2, [5; 7])]%Z = Raise KeyError.
Proof.
  split; [vm_compute; auto|]. split; [|reflexivity].
  split; [exists [9;5]%Z; split; [right; right; left; reflexivity|left; reflexivity]|split; reflexivity].
Qed.

(** ** C58: rows of array_from_dict_values *)
(** As many keys asked for as the dict has entries: one row per key asked for, holding its value. *)
Theorem C58_rows_partial {A} (d : dict (value A)) m ks : NoDup (keys d) -> uniform d m -> ks <> [] ->
  length ks = length d -> (forall k, In k ks -> In k (keys d)) ->
  exists rows, array_from_dict_values d (Some ks) = Ok rows /\ length rows = length ks /\
    forall i k v, nth_error ks i = Some k -> In (k, v) d -> nth_error rows i = Some (value_list v).
Proof.
  intros Hn Hu Hne Hl Hks. exists (map (row_of d) ks). split; [apply array_rows with (m := m); auto|].
  split; [apply map_length|]. intros i k v Hi Hv. rewrite nth_error_map, Hi. cbn [option_map].
  unfold row_of. rewrite (proj2 (dlookup_In d k v Hn) Hv). reflexivity.
Qed.

(** No keys asked for: all of them, in increasing order. *)
Theorem C58_sorted_rows {A} (d : dict (value A)) m : NoDup (keys d) -> uniform d m -> d <> [] ->
  exists rows, array_from_dict_values d None = Ok rows /\ length rows = length d /\
    forall k v, In (k, v) d -> nth_error rows (position (keys d) k) = Some (value_list v).
Proof.
  intros Hn Hu Hd. exists (map (row_of d) (sorted_keys d)). split; [apply array_sorted with (m := m); auto|].
  split; [unfold sorted_keys; rewrite map_length, uniqueZ_full_length by exact Hn; apply keys_length|].
  intros k v Hv. rewrite nth_error_map. unfold sorted_keys.
  rewrite position_nth; [|exact Hn|apply keys_In; eauto]. cbn [option_map].
  unfold row_of. rewrite (proj2 (dlookup_In d k v Hn) Hv). reflexivity.
Qed.

(** Every other choice of keys, subset or with repetitions: there is never one row per key. *)
Theorem C58_subset_refuted {A} (d : dict (value A)) ks rows : length ks <> length d ->
  array_from_dict_values d (Some ks) = Ok rows -> length rows <> length ks.
Proof.
  intros Hl. unfold array_from_dict_values. destruct (array_from_dict_flat d (Some ks)) as [flat| |]; try discriminate.
  cbn [bind]. intros E. apply reshape_length in E. congruence.
Qed.

Definition ex_dict : dict (value Q) := [(5%Z, Iter [50; 51]%Q); (9%Z, Iter [90; 91]%Q); (2%Z, Iter [20; 21]%Q); (7%Z, Iter [70; 71]%Q)].
(** The docstring's "subset of the dictionary's values": two areas asked for, four rows of one number
    come back; with three areas ValueError. *)
Example C58_example :
  array_from_dict_values ex_dict (Some [7; 2]%Z) = Ok [[70]; [71]; [20]; [21]]%Q /\
  array_from_dict_values ex_dict (Some [7; 2; 5]%Z) = Raise (ValueError "cannot reshape array") /\
  array_from_dict_values ex_dict (Some [9; 7; 2; 5]%Z) = Ok [[90;91];[70;71];[20;21];[50;51]]%Q /\
  array_from_dict_values ex_dict None = Ok [[20;21];[50;51];[70;71];[90;91]]%Q /\
  uniform ex_dict 2 /\ NoDup (keys ex_dict).
Proof.
  repeat (split; [reflexivity|]). split; [split|].
  - exists true. intros k v [E|[E|[E|[E|[]]]]]; injection E as <- <-; reflexivity.
  - intros k v [E|[E|[E|[E|[]]]]]; injection E as <- <-; reflexivity.
  - repeat constructor; cbn; intuition congruence.
Qed.

(** ** C59: networkx input *)
(** If the nodes were inserted in increasing order and every node has every attribute asked for, row i
    of the attribute array and row i of the matrix belong to the same node. *)
Theorem C59_networkx_partial G a names : StronglySorted Z.lt (nx_nodes G) -> nx_nodes G <> [] ->
  names_of a = Some names ->
  (forall node b, In node (nx_nodes G) -> In b names -> nx_attr G b node <> None) ->
  exists g rows, to_scipy_sparse_matrix G = Ok g /\ array_from_graph_or_dict G a = Ok rows /\
    gn g = length (nx_nodes G) /\ length rows = length (nx_nodes G) /\
    forall i node, nth_error (nx_nodes G) i = Some node ->
      (exists row, nth_error rows i = Some row /\ length row = length names /\
         forall c b, nth_error names c = Some b -> nth_error row c = nx_attr G b node) /\
      forall j other, nth_error (nx_nodes G) j = Some other -> gadj g i j = nx_edge G node other.
Proof.
  intros Hs Hne Ha Hall. pose proof (StronglySorted_lt_NoDup _ Hs) as Hn.
  rewrite (graph_array G a names Hn Hne Ha Hall), (sorted_uniqueZ _ Hs).
  unfold to_scipy_sparse_matrix. destruct (nx_nodes G) as [|n0 ns] eqn:En; [congruence|]. rewrite <- En in *.
  eexists. eexists. split; [reflexivity|]. split; [reflexivity|]. split; [reflexivity|].
  split; [apply map_length|]. intros i node Hi. split.
  - exists (node_attrs G names node). split; [rewrite nth_error_map, Hi; reflexivity|].
    assert (Hin : In node (nx_nodes G)) by (eapply nth_error_In; eauto).
    split; [apply node_attrs_length; intros; apply Hall; auto|].
    intros c b Hc. apply node_attrs_nth; [intros; apply Hall; auto|exact Hc].
  - intros j other Hj. cbn [gadj].
    assert (Hli : i < length (nx_nodes G)) by (apply nth_error_Some; congruence).
    assert (Hlj : j < length (nx_nodes G)) by (apply nth_error_Some; congruence).
    rewrite (proj2 (Nat.ltb_lt _ _) Hli), (proj2 (Nat.ltb_lt _ _) Hlj).
    rewrite (nth_error_nth _ _ 0%Z Hi), (nth_error_nth _ _ 0%Z Hj). reflexivity.
Qed.

(** Whenever the nodes were not inserted in increasing order, some row of the attribute array holds
    the attribute of another node than the same row of the matrix. *)
Theorem C59_networkx_refuted G s f : NoDup (nx_nodes G) -> nx_nodes G <> [] ->
  ~ StronglySorted Z.lt (nx_nodes G) ->
  (forall node, In node (nx_nodes G) -> nx_attr G s node = Some (f node)) ->
  (forall x y, In x (nx_nodes G) -> In y (nx_nodes G) -> f x = f y -> x = y) ->
  exists rows i node row, array_from_graph_or_dict G (ByName s) = Ok rows /\
    nth_error (nx_nodes G) i = Some node /\ nth_error rows i = Some row /\ row <> [f node].
Proof.
  intros Hn Hne Hns Hf Hinj.
  assert (Hall : forall node b, In node (nx_nodes G) -> In b [s] -> nx_attr G b node <> None).
  { intros node b Hnode [<-|[]]. rewrite Hf by exact Hnode. discriminate. }
  pose proof (graph_array G (ByName s) [s] Hn Hne eq_refl Hall) as Hrows.
  assert (Hneq : uniqueZ (nx_nodes G) <> nx_nodes G).
  { intros E. apply Hns. rewrite <- E. apply uniqueZ_sorted. }
  assert (Hd : exists i x y, nth_error (nx_nodes G) i = Some x /\ nth_error (uniqueZ (nx_nodes G)) i = Some y /\ x <> y).
  { assert (Hgen : forall l l' : list Z, l <> l' -> length l = length l' ->
      exists i x y, nth_error l' i = Some x /\ nth_error l i = Some y /\ x <> y);
      [|apply Hgen; [exact Hneq|apply uniqueZ_full_length; exact Hn]].
    induction l as [|y l IH]; intros [|x l'] Hne' Hl; cbn in Hl; try discriminate; [congruence|].
    destruct (Z.eq_dec x y) as [->|Hxy]; [|exists 0, x, y; auto].
    destruct (IH l') as [i [a [b [H1 [H2 H3]]]]]; [congruence|lia|]. exists (S i), a, b. auto. }
  destruct Hd as [i [x [y [Hx [Hy Hxy]]]]].
  exists (map (node_attrs G [s]) (uniqueZ (nx_nodes G))), i, x, (node_attrs G [s] y).
  split; [exact Hrows|]. split; [exact Hx|]. split; [rewrite nth_error_map, Hy; reflexivity|].
  assert (Hiny : In y (nx_nodes G)) by (apply (proj1 (uniqueZ_In _ _)); eapply nth_error_In; eauto).
  assert (Hinx : In x (nx_nodes G)) by (eapply nth_error_In; eauto).
  unfold node_attrs. cbn [flat_map]. rewrite (Hf y Hiny). cbn. intros E. injection E as E.
  apply Hxy. symmetry. apply Hinj; auto.
Qed.

Definition ex_attr (s : string) (node : Z) : option Q := Some (inject_Z (10 * node)).
Definition ex_nx (nodes : list Z) : nxgraph := mkNx nodes (fun u v => (Z.abs (u - v) =? 1)%Z) ex_attr.
(** The path 0 - 1 - 2 with node 2 inserted first: areas are 2, 0, 1, attributes those of 0, 1, 2. *)
Example C59_example :
  array_from_graph_or_dict (ex_nx [2; 0; 1]%Z) (ByName "pop") = Ok [[0]; [10]; [20]]%Q /\
  array_from_graph_or_dict (ex_nx [0; 1; 2]%Z) (ByNames ["pop"; "inc"]%string) = Ok [[0;0]; [10;10]; [20;20]]%Q /\
  match to_scipy_sparse_matrix (ex_nx [2; 0; 1]%Z) with
  | Ok g => map (fun u => map (gadj g u) [0;1;2]) [0;1;2] =
            [[false; false; true]; [false; false; true]; [true; true; false]]
  | _ => False
  end.
Proof. repeat split; reflexivity. Qed.

(** ** C61: search helpers *)
Theorem C61_find_sublist el lst :
  (exists i sub, find_sublist_index el lst = Ok i /\ find_sublist_containing el lst = Ok sub /\
     nth_error lst i = Some sub /\ In el sub /\
     forall j sub', j < i -> nth_error lst j = Some sub' -> ~ In el sub')
  \/ ((forall sub, In sub lst -> ~ In el sub) /\
      find_sublist_index el lst = Raise LookupError /\ find_sublist_containing el lst = Raise LookupError).
Proof.
  unfold find_sublist_index, find_sublist_containing.
  destruct (index_where (memb el) lst) as [i|] eqn:E.
  - left. pose proof (proj1 (index_where_spec _ _ _) E) as [[sub [Hi Hm]] Hmin].
    exists i, sub. split; [reflexivity|].
    assert (find (memb el) lst = Some sub) as ->.
    { clear E. revert i Hi Hmin. induction lst as [|x lst IH]; intros i Hi Hmin; [destruct i; discriminate|].
      cbn [find]. destruct i as [|i]; cbn in Hi.
      - injection Hi as ->. rewrite Hm. reflexivity.
      - rewrite (Hmin 0 x) by (auto; lia). apply (IH i); [exact Hi|].
        intros j y Hj Hy. apply (Hmin (S j)); [lia|exact Hy]. }
    split; [reflexivity|]. split; [exact Hi|]. split; [apply memb_In; exact Hm|].
    intros j sub' Hj Hs Hin. apply memb_In in Hin. rewrite (Hmin j sub') in Hin by auto. discriminate.
  - right. pose proof (proj1 (index_where_None _ _) E) as Hn.
    split; [intros sub Hs Hin; apply memb_In in Hin; rewrite Hn in Hin by auto; discriminate|].
    split; [reflexivity|].
    assert (find (memb el) lst = None) as ->; [|reflexivity].
    clear E. induction lst as [|x lst IH]; [reflexivity|]. cbn [find].
    rewrite Hn by (left; reflexivity). apply IH. intros y Hy. apply Hn. right; exact Hy.
Qed.

Theorem C61_count arr el : count arr el = count_occ Z.eq_dec arr el.
Proof.
  rewrite count_filter. induction arr as [|x l IH]; cbn; auto.
  destruct (Z.eq_dec x el) as [->|Hne]; [rewrite Z.eqb_refl; cbn; congruence|].
  destruct (Z.eqb_spec el x); [congruence|auto].
Qed.

(** Drawing from a list: for every random draw the result is a member, respectively the list is
    split around it; every member can be drawn; an empty list raises ValueError. *)
Theorem C61_random_draws {A} (l : list A) :
  (forall r, (l = [] /\ (exists m, random_element_from l r = Raise (ValueError m)) /\
                        (exists m, pop_randomly_from l r = Raise (ValueError m)))
     \/ exists before x after, l = before ++ x :: after /\
          random_element_from l r = Ok (x, rnext r) /\
          pop_randomly_from l r = Ok (x, before ++ after, rnext r))
  /\ (forall before x after, l = before ++ x :: after ->
        exists r, pop_randomly_from l r = Ok (x, before ++ after, rnext r)).
Proof.
  assert (Hdraw : forall r, l <> [] -> exists before x after, l = before ++ x :: after /\
          length before = r 0 mod length l /\
          random_element_from l r = Ok (x, rnext r) /\
          pop_randomly_from l r = Ok (x, before ++ after, rnext r)).
  { intros r Hne. assert (Hl : length l <> 0) by (destruct l; [congruence|discriminate]).
    pose proof (Nat.mod_upper_bound (r 0) (length l) Hl) as Hp. set (p := r 0 mod length l) in *.
    destruct (nth_error l p) as [x|] eqn:E; [|apply nth_error_None in E; lia].
    destruct (nth_error_split l p E) as [before [after [El Hb]]].
    exists before, x, after. split; [exact El|]. split; [exact Hb|].
    unfold random_element_from, pop_randomly_from, randrange.
    rewrite (proj2 (Nat.eqb_neq _ _) Hl). cbn [bind]. fold p. rewrite E. split; [reflexivity|].
    assert (remove_nth p l = before ++ after) as ->; [|reflexivity].
    rewrite <- Hb, El. clear. induction before as [|y before IH]; cbn; [reflexivity|]. congruence. }
  split.
  - intros r. destruct l as [|y l'] eqn:El.
    + left. split; [reflexivity|]. split; eexists; reflexivity.
    + right. rewrite <- El in *. destruct (Hdraw r) as [b [x [a [H1 [_ [H2 H3]]]]]]; [congruence|].
      exists b, x, a. auto.
  - intros before x after El. exists (fun _ => length before).
    assert (Hne : l <> []) by (rewrite El; destruct before; discriminate).
    destruct (Hdraw (fun _ => length before) Hne) as [b [x' [a [H1 [H2 [_ H3]]]]]].
    assert (Hb : length b = length before).
    { rewrite H2, El, app_length. cbn. apply Nat.mod_small. lia. }
    rewrite El in H1.
    assert (Hsplit : forall (b1 b2 : list A) x1 x2 a1 a2, length b1 = length b2 -> b1 ++ x1 :: a1 = b2 ++ x2 :: a2 ->
              b1 = b2 /\ x1 = x2 /\ a1 = a2).
    { induction b1 as [|z b1 IH]; intros [|z' b2] x1 x2 a1 a2 Hlen E; cbn in *; try discriminate.
      - injection E as -> ->. auto.
      - injection E as -> E. destruct (IH b2 x1 x2 a1 a2) as [-> [-> ->]]; auto. }
    destruct (Hsplit before b x x' after a) as [-> [-> ->]]; [auto|exact H1|]. exact H3.
Qed.

Example C61_example :
  find_sublist_index 2 [[0; 1]; [2]; [2; 3]] = Ok 1 /\ find_sublist_containing 2 [[0; 1]; [2]; [2; 3]] = Ok [2] /\
  find_sublist_containing 7 [[0; 1]; [2]] = Raise LookupError /\
  count [0; 0; 0; 1; 1]%Z 0 = 3 /\ count [0; 0; 0; 1; 1]%Z 2 = 0.
Proof. repeat split; reflexivity. Qed.

(** ** C63: initial labels given with a networkx graph *)
Lemma chained_fuel {A} (d : dict (value A)) ks : chained d ks <> NoFuel.
Proof.
  induction ks as [|k ks IH]; cbn; [discriminate|]. unfold dict_get. destruct (dlookup d k) as [[a|l]|]; cbn; try discriminate.
  destruct (chained d ks); cbn; [discriminate|discriminate|exact IH].
Qed.
Lemma scalars_fuel {A} (d : dict (value A)) ks : scalars d ks <> NoFuel.
Proof.
  induction ks as [|k ks IH]; cbn; [discriminate|]. unfold dict_get. destruct (dlookup d k) as [[a|l]|]; cbn; try discriminate.
  destruct (scalars d ks); cbn; [discriminate|discriminate|exact IH].
Qed.
Lemma array_fuel {A} (d : dict (value A)) ks : array_from_dict_values d ks <> NoFuel.
Proof.
  unfold array_from_dict_values, array_from_dict_flat, flat_values.
  destruct (match ks with Some l => l | None => sorted_keys d end) as [|k l]; cbn [bind]; [discriminate|].
  unfold dict_get. destruct (dlookup d k) as [[a|v]|]; cbn [bind]; try discriminate.
  - pose proof (scalars_fuel d (k :: l)). destruct (scalars d (k :: l)); cbn [bind]; [|discriminate|contradiction].
    unfold reshape. destruct (Nat.eqb _ _); [discriminate|]. destruct (Nat.eqb _ _); discriminate.
  - pose proof (chained_fuel d (k :: l)). destruct (chained d (k :: l)); cbn [bind]; [|discriminate|contradiction].
    unfold reshape. destruct (Nat.eqb _ _); [discriminate|]. destruct (Nat.eqb _ _); discriminate.
Qed.
Lemma graph_array_fuel G a : array_from_graph_or_dict G a <> NoFuel.
Proof.
  unfold array_from_graph_or_dict, array_from_graph. destruct a; cbn [dict_from_graph_attr bind]; try discriminate; apply array_fuel.
Qed.
Lemma graph_array_nonempty G a : array_from_graph_or_dict G a <> Ok [].
Proof.
  intros E. assert (H : exists d, array_from_dict_values d None = Ok (@nil (list Q))).
  { unfold array_from_graph_or_dict, array_from_graph in E.
    destruct a; try discriminate; cbn [dict_from_graph_attr bind] in E; eauto. }
  destruct H as [d Hd]. unfold array_from_dict_values in Hd.
  destruct (array_from_dict_flat d None) as [flat| |] eqn:Ef; try discriminate. cbn [bind] in Hd.
  apply reshape_length in Hd. symmetry in Hd. apply length_zero_iff_nil in Hd. subst d. discriminate.
Qed.

(** They never lead to a fit: whatever the graph, the attributes and the labels, an exception is
    raised; it is TypeError as soon as the arguments can be converted. *)
Theorem C63_networkx_initial_labels_refuted R fit_adj G attr initial :
  (exists e, azp_fit_from_networkx R fit_adj G attr (Some initial) = Raise e) /\
  (forall rows rows2, nx_nodes G <> [] ->
     array_from_graph_or_dict G attr = Ok rows -> array_from_graph_or_dict G initial = Ok rows2 ->
     azp_fit_from_networkx R fit_adj G attr (Some initial) = Raise (TypeError "unhashable type: 'numpy.ndarray'")).
Proof.
  unfold azp_fit_from_networkx.
  pose proof (graph_array_fuel G attr) as F1. pose proof (graph_array_fuel G initial) as F2.
  pose proof (graph_array_nonempty G initial) as Hne. unfold to_scipy_sparse_matrix. split.
  - destruct (nx_nodes G); cbn [bind]; [eexists; reflexivity|].
    destruct (array_from_graph_or_dict G attr) as [rows|e|]; cbn [bind]; [|eexists; reflexivity|congruence].
    destruct (array_from_graph_or_dict G initial) as [[|row rows2]|e|]; cbn [bind];
      [congruence|eexists; reflexivity|eexists; reflexivity|congruence].
  - intros rows rows2 Hn -> E. rewrite E in *. destruct (nx_nodes G); [congruence|]. cbn [bind].
    destruct rows2; [congruence|reflexivity].
Qed.

Definition ex_init : dict (value Q) := [(0%Z, Scalar 0%Q); (1%Z, Scalar 0%Q); (2%Z, Scalar 1%Q)].
Example C63_example fit_adj :
  azp_fit_from_networkx (list Z) fit_adj (ex_nx [0; 1; 2]%Z) (ByName "pop") (Some (ByDict ex_init)) =
    Raise (TypeError "unhashable type: 'numpy.ndarray'") /\
  array_from_graph_or_dict (ex_nx [0; 1; 2]%Z) (ByDict ex_init) = Ok [[0]; [0]; [1]]%Q.
Proof. split; reflexivity. Qed.

(** ** C77: regions of fit_from_dict are contiguous along the neighbour lists *)
Definition label_dict_ok (initial : option (dict (value Z))) : Prop :=
  match initial with
  | None => True
  | Some d => forall k v, In (k, v) d -> exists z, v = Scalar z /\ z <> (-1)%Z
  end.
(** the label of a named area *)
Definition label_of (ks : list Z) (labels : list Z) (k : Z) : option Z := nth_error labels (position ks k).

Lemma dlookup_Some_In {V} (d : dict V) k v : dlookup d k = Some v -> In (k, v) d.
Proof.
  induction d as [|[k' v'] d IH]; cbn; [discriminate|]. destruct (Z.eqb_spec k k') as [->|_]; [|auto].
  intros E; injection E as ->. left; reflexivity.
Qed.

Lemma flat_labels (d : dict (value Z)) ks l : label_dict_ok (Some d) -> flat_values d ks = Ok l ->
  length l = length ks /\ ~ In (-1)%Z l.
Proof.
  intros Hd H. assert (Hs : scalars d ks = Ok l).
  { destruct ks as [|k ks]; [discriminate|]. unfold flat_values in H. unfold dict_get at 1 in H.
    destruct (dlookup d k) as [v|] eqn:E; [|discriminate]. cbn [bind] in H.
    destruct (Hd k v) as [z [-> _]]; [apply dlookup_Some_In; exact E|exact H]. }
  clear H. revert l Hs. induction ks as [|k ks IH]; cbn [scalars]; intros l Hs.
  - injection Hs as <-. split; [reflexivity|intros []].
  - unfold dict_get in Hs. destruct (dlookup d k) as [v|] eqn:E; [|discriminate]. cbn [bind] in Hs.
    destruct (Hd k v) as [z [-> Hz]]; [apply dlookup_Some_In; exact E|].
    destruct (scalars d ks) as [rest| |]; try discriminate. cbn [bind] in Hs. injection Hs as <-.
    destruct (IH rest eq_refl) as [H1 H2]. split; [cbn; congruence|]. intros [Hi|Hi]; auto.
Qed.

Lemma linked_first g P u v : linked g P u v -> P u.
Proof. destruct 1; auto. Qed.

Lemma linked_named nb g labels z : NoDup (keys nb) -> closed_dict nb -> matrix_from_dict nb = Ok g ->
  length labels = length nb ->
  forall u v, linked g (region labels z) u v -> forall a b, In a (keys nb) -> In b (keys nb) ->
  position (keys nb) a = u -> position (keys nb) b = v ->
  named_linked (lists nb) (fun c => In c (keys nb) /\ label_of (keys nb) labels c = Some z) a b.
Proof.
  intros Hn Hc E Hl u v H. induction H as [u Hu|u v w Hu Ht Hl' IH]; intros a b Ha Hb Ea Eb.
  - assert (a = b) as -> by (apply (position_inj (keys nb)); auto; congruence).
    apply named_refl. split; [exact Hb|]. unfold label_of. rewrite Eb. exact Hu.
  - pose proof (linked_first _ _ _ _ Hl') as Hv.
    assert (Hvl : v < length (keys nb)).
    { rewrite keys_length, <- Hl. apply nth_error_Some. unfold region in Hv. congruence. }
    destruct (position_onto (keys nb) v Hn Hvl) as [c [Hc' Ec]].
    apply named_step with (b := c).
    + split; [exact Ha|]. unfold label_of. rewrite Ea. exact Hu.
    + destruct Ht as [Ht|Ht]; [left|right]; apply (matrix_entry nb g); auto; congruence.
    + apply IH; auto.
Qed.

(** For every strategy object, objective, neighbour dict, attribute dict, start and random history:
    when fit_from_dict returns, there is one label per area, n_regions of them, and any two areas
    with the same label are joined by a chain of listed neighbours inside their region. *)
Theorem C77_fit_from_dict_contiguous St start call objv order fuel nb attr p initial s r labels s' r' :
  NoDup (keys nb) -> (forall i j, lists nb i j -> lists nb j i) ->
  (forall l, Permutation (order l) l) -> label_dict_ok initial ->
  azp_fit_from_dict _ (fun adj rows init => azp_fit_with St start call objv order fuel adj rows p init s r)
    nb attr initial = Ok ((labels, s'), r') ->
  length labels = length nb /\ n_labels labels = Z.to_nat p /\
  forall a b z, In a (keys nb) -> In b (keys nb) ->
    label_of (keys nb) labels a = Some z -> label_of (keys nb) labels b = Some z ->
    named_linked (lists nb) (fun c => In c (keys nb) /\ label_of (keys nb) labels c = Some z) a b.
Proof.
  intros Hn Hsym Hord Hi H. unfold azp_fit_from_dict in H.
  destruct (closed_or_not nb) as [Hc|[i [js [j [Hi' [Hj Hk]]]]]];
    [|rewrite (matrix_from_dict_KeyError nb i js j) in H by auto; discriminate].
  destruct (matrix_from_dict nb) as [g| |] eqn:Eg; try discriminate. cbn [bind] in H.
  destruct (array_from_dict_values attr (Some (sorted_keys nb))) as [rows| |]; try discriminate. cbn [bind] in H.
  assert (Hgn : gn g = length nb).
  { pose proof Eg as E. rewrite matrix_from_dict_Ok in E by auto. injection E as <-. reflexivity. }
  assert (Hg : symmetric g) by (eapply matrix_symmetric; eauto).
  assert (Hf : feasible g labels (Z.to_nat p)).
  { destruct initial as [d|].
    - destruct (array_from_dict_flat d (Some (sorted_keys nb))) as [l| |] eqn:El; try discriminate. cbn [bind] in H.
      unfold array_from_dict_flat in El. destruct (flat_labels d (sorted_keys nb) l Hi El) as [Hl Hm].
      apply (C18_azp_feasible St start call objv order fuel g rows p (Some l) s r labels s' r' Hg Hord); [|exact H].
      split; [|exact Hm]. rewrite Hl, Hgn. unfold sorted_keys. rewrite uniqueZ_full_length by exact Hn. apply keys_length.
    - apply (C18_azp_feasible St start call objv order fuel g rows p None s r labels s' r' Hg Hord I H). }
  destruct Hf as [Hl [Hp Hall]]. split; [congruence|]. split; [exact Hp|].
  intros a b z Ha Hb Ea Eb. unfold label_of in Ea, Eb.
  destruct (Hall z) as [_ Hcon]; [eapply nth_error_In; eauto|].
  apply (linked_named nb g labels z Hn Hc Eg) with (u := position (keys nb) a) (v := position (keys nb) b); auto; congruence.
Qed.

(** 5 - 2 - 9 with attributes 1, 1, 5: areas 5 and 2 form one region, 9 the other. *)
Definition ex_attr_dict : dict (value Q) := [(9%Z, Scalar 5%Q); (2%Z, Scalar 1%Q); (5%Z, Scalar 1%Q)].
Definition fit_dict_ex nb attr initial :=
  match azp_fit_from_dict _ (fun adj rows init =>
          azp_fit expd same_order (pairwise manhattan) 40 adj rows 2%Z init (SAzp dum) rng0) nb attr initial with
  | Ok ((l, _), _) => Some l
  | _ => None
  end.
Example C77_example :
  fit_dict_ex ex_nb ex_attr_dict (Some [(2, Scalar 3); (5, Scalar 4); (9, Scalar 3)]%Z) = Some [4; 4; 3]%Z.
Proof. vm_compute. reflexivity. Qed.

(** ** C78: the order in which a dict was filled does not matter *)
Lemma dlookup_perm {V} (d d' : dict V) k : NoDup (keys d) -> Permutation d d' -> dlookup d k = dlookup d' k.
Proof.
  intros Hn Hp. assert (Hn' : NoDup (keys d')) by (eapply Permutation_NoDup; [apply Permutation_map; exact Hp|exact Hn]).
  destruct (dlookup d k) as [v|] eqn:E.
  - apply dlookup_In in E; [|exact Hn]. symmetry. apply dlookup_In; [exact Hn'|]. eapply Permutation_in; eauto.
  - apply dlookup_None in E. symmetry. apply dlookup_None. intros H. apply E.
    eapply Permutation_in; [apply Permutation_map, Permutation_sym; exact Hp|exact H].
Qed.

(** Not even the kind of exception depends on it. *)
Theorem C78_array_order {A} (d d' : dict (value A)) ks : NoDup (keys d) -> Permutation d d' ->
  array_from_dict_values d ks = array_from_dict_values d' ks /\
  array_from_dict_flat d ks = array_from_dict_flat d' ks.
Proof.
  intros Hn Hp.
  assert (Hk : sorted_keys d = sorted_keys d').
  { unfold sorted_keys. apply uniqueZ_ext. intros x. split; apply Permutation_in; apply Permutation_map;
      [exact Hp|apply Permutation_sym; exact Hp]. }
  assert (Hg : forall k, dict_get d k = dict_get d' k).
  { intros k. unfold dict_get. rewrite (dlookup_perm d d' k Hn Hp). reflexivity. }
  assert (Hc : forall l, chained d l = chained d' l).
  { induction l as [|k l IH]; [reflexivity|]. cbn. rewrite Hg, IH. reflexivity. }
  assert (Hs : forall l, scalars d l = scalars d' l).
  { induction l as [|k l IH]; [reflexivity|]. cbn. rewrite Hg, IH. reflexivity. }
  assert (Hf : forall l, flat_values d l = flat_values d' l).
  { intros [|k l]; [reflexivity|]. unfold flat_values. rewrite Hg, Hc, Hs. reflexivity. }
  unfold array_from_dict_values, array_from_dict_flat. rewrite Hk, Hf, (Permutation_length Hp). auto.
Qed.

(** For the matrix the order of the neighbour lists, and repetitions in them, do not matter either. *)
Theorem C78_matrix_order nb nb' : NoDup (keys nb) -> nb <> [] -> Permutation (keys nb) (keys nb') ->
  (forall i j, lists nb i j <-> lists nb' i j) ->
  (matrix_from_dict nb = Raise KeyError /\ matrix_from_dict nb' = Raise KeyError) \/
  exists g g', matrix_from_dict nb = Ok g /\ matrix_from_dict nb' = Ok g' /\ gn g = gn g' /\
    forall u v, gadj g u v = gadj g' u v.
Proof.
  intros Hn Hne Hp Hl. assert (Hn' : NoDup (keys nb')) by (eapply Permutation_NoDup; eauto).
  assert (Hkeys : forall k, In k (keys nb) <-> In k (keys nb')).
  { intros k. split; apply Permutation_in; [exact Hp|apply Permutation_sym; exact Hp]. }
  destruct (closed_or_not nb) as [Hc|[i [js [j [Hi [Hj Hk]]]]]].
  - right. assert (Hc' : closed_dict nb').
    { intros i js j Hi Hj. apply Hkeys. assert (H : lists nb i j) by (apply Hl; exists js; auto).
      destruct H as [js' [H1 H2]]. eapply Hc; eauto. }
    eexists. eexists. split; [apply matrix_from_dict_Ok; auto|]. split; [apply matrix_from_dict_Ok; auto|]. cbn [gn gadj].
    split; [rewrite <- !keys_length; apply Permutation_length; exact Hp|].
    intros u v. apply eq_true_iff_eq. rewrite !entries_In. split; intros [i [j [H1 [H2 H3]]]]; exists i, j;
      (split; [apply Hl; exact H1|]); rewrite <- ?H2, <- ?H3; split; (apply position_perm; first [exact Hp|apply Permutation_sym; exact Hp]).
  - left. split; [eapply matrix_from_dict_KeyError; eauto|].
    assert (H : lists nb' i j) by (apply Hl; exists js; auto). destruct H as [js' [H1 H2]].
    eapply matrix_from_dict_KeyError; eauto. intros H. apply Hk. apply Hkeys; exact H.
Qed.

Example C78_example :
  let nb' := [(2, [5; 9; 5]); (5, [2]); (9, [2])]%Z in
  Permutation (keys ex_nb) (keys nb') /\ (forall i j, lists ex_nb i j <-> lists nb' i j) /\ ex_nb <> nb'.
Proof.
  split; [|split; [|discriminate]].
  - apply NoDup_Permutation; [apply ex_nb_distinct|repeat constructor; cbn; intuition congruence|].
    intros x. cbn. tauto.
  - intros i j. split; intros [js [H1 H2]]; cbn in H1; repeat destruct H1 as [H1|H1]; try contradiction;
      injection H1 as <- <-; cbn in H2; repeat destruct H2 as [H2|H2]; try contradiction; subst j;
      eexists; (split; [cbn; eauto|cbn; auto]).
Qed.

(** ** C79: the attributes handed to the algorithm by AZP.fit_from_dict *)
(** An attribute dict with exactly the areas as keys reaches the algorithm aligned with the matrix. *)
Theorem C79_fit_from_dict_aligned_partial R fit_adj nb attr m : NoDup (keys nb) -> nb <> [] -> closed_dict nb ->
  NoDup (keys attr) -> (forall k, In k (keys attr) <-> In k (keys nb)) -> uniform attr m ->
  exists g rows, azp_fit_from_dict R fit_adj nb attr None = fit_adj g rows None /\
    gn g = length nb /\ length rows = length nb /\
    (forall k v, In (k, v) attr -> nth_error rows (position (keys nb) k) = Some (value_list v)) /\
    (forall i j, In i (keys nb) -> In j (keys nb) ->
       (gadj g (position (keys nb) i) (position (keys nb) j) = true <-> lists nb i j)).
Proof.
  intros Hn Hne Hc Hn' Hk Hu. unfold azp_fit_from_dict.
  assert (Hlen : length attr = length nb).
  { rewrite <- !keys_length. apply Permutation_length, NoDup_Permutation; auto. }
  rewrite (matrix_from_dict_Ok nb Hn Hc). cbn [bind].
  rewrite (array_rows attr m (sorted_keys nb)); auto.
  - cbn [bind]. eexists. eexists. split; [reflexivity|]. split; [reflexivity|].
    split; [unfold sorted_keys; rewrite map_length, uniqueZ_full_length by exact Hn; apply keys_length|]. split.
    + intros k v Hv. rewrite nth_error_map. unfold sorted_keys. rewrite position_nth; [|exact Hn|apply Hk, keys_In; eauto].
      cbn [option_map]. unfold row_of. rewrite (proj2 (dlookup_In attr k v Hn') Hv). reflexivity.
    + intros i j Hi Hj. apply matrix_entry; auto. apply matrix_from_dict_Ok; auto.
  - apply sorted_keys_nonempty; auto.
  - unfold sorted_keys. rewrite uniqueZ_full_length by exact Hn. rewrite keys_length. auto.
  - intros k Hin. apply Hk. apply uniqueZ_In; exact Hin.
Qed.

(** With attributes for further areas the algorithm either is not reached or gets an array whose
    number of rows is not the number of areas. *)
Theorem C79_extra_keys_refuted R fit_adj nb attr : NoDup (keys nb) -> closed_dict nb ->
  length attr <> length nb ->
  (exists e, azp_fit_from_dict R fit_adj nb attr None = Raise e) \/
  exists g rows, azp_fit_from_dict R fit_adj nb attr None = fit_adj g rows None /\
    gn g = length nb /\ length rows = length attr.
Proof.
  intros Hn Hc Hl. unfold azp_fit_from_dict. rewrite (matrix_from_dict_Ok nb Hn Hc). cbn [bind].
  pose proof (array_fuel attr (Some (sorted_keys nb))) as Hf.
  destruct (array_from_dict_values attr (Some (sorted_keys nb))) as [rows|e|] eqn:E; cbn [bind];
    [|left; eexists; reflexivity|congruence].
  right. eexists. exists rows. split; [reflexivity|]. split; [reflexivity|].
  unfold array_from_dict_values in E. destruct (array_from_dict_flat attr (Some (sorted_keys nb))); try discriminate.
  apply reshape_length in E. exact E.
Qed.

(** Two areas 2 and 7, attributes known for four: area 7 gets the second attribute of area 2. *)
Example C79_example :
  azp_fit_from_dict (list (list Q)) (fun g rows _ => Ok rows) [(2, [7]); (7, [2])]%Z ex_dict None =
    Ok [[20]; [21]; [70]; [71]]%Q /\
  azp_fit_from_dict (list (list Q)) (fun g rows _ => Ok rows)
    [(2, [7]); (7, [2; 5; 9]); (5, [7]); (9, [7])]%Z ex_dict None = Ok [[20;21]; [50;51]; [70;71]; [90;91]]%Q.
Proof. split; reflexivity. Qed.

(** ** C80: nodes lacking an attribute *)
Definition has_attr (G : nxgraph) (s : string) (node : Z) : bool :=
  match nx_attr G s node with Some _ => true | None => false end.

Lemma chained_nodes G names ks : NoDup (nx_nodes G) -> (forall k, In k ks -> In k (nx_nodes G)) ->
  chained (map (fun node => (node, Iter (node_attrs G names node))) (nx_nodes G)) ks =
  Ok (concat (map (node_attrs G names) ks)).
Proof.
  intros Hn. induction ks as [|k ks IH]; intros Hk; [reflexivity|]. cbn [chained map concat].
  assert (Hnd : NoDup (keys (map (fun node => (node, Iter (node_attrs G names node))) (nx_nodes G))))
    by (rewrite graph_dict_keys; exact Hn).
  unfold dict_get at 1. rewrite (proj2 (dlookup_In _ k (Iter (node_attrs G names k)) Hnd)).
  - cbn [bind]. rewrite IH by (intros; apply Hk; right; auto). reflexivity.
  - apply in_map_iff. exists k. split; [reflexivity|]. apply Hk. left; reflexivity.
Qed.

(** One attribute: if some nodes have it and some do not, ValueError is raised. *)
Theorem C80_missing_attribute_partial G s : NoDup (nx_nodes G) ->
  (exists node, In node (nx_nodes G) /\ has_attr G s node = true) ->
  (exists node, In node (nx_nodes G) /\ has_attr G s node = false) ->
  exists m, array_from_graph_or_dict G (ByName s) = Raise (ValueError m).
Proof.
  intros Hn [n1 [H1 E1]] [n2 [H2 E2]]. rewrite (graph_dict_eq G (ByName s) [s] eq_refl).
  set (d := map (fun node => (node, Iter (node_attrs G [s] node))) (nx_nodes G)).
  assert (Hk : keys d = nx_nodes G) by apply graph_dict_keys.
  unfold array_from_dict_values, array_from_dict_flat, sorted_keys. rewrite Hk.
  assert (Hflat : flat_values d (uniqueZ (nx_nodes G)) = Ok (concat (map (node_attrs G [s]) (uniqueZ (nx_nodes G))))).
  { assert (Hch : chained d (uniqueZ (nx_nodes G)) = Ok (concat (map (node_attrs G [s]) (uniqueZ (nx_nodes G))))).
    { unfold d. apply chained_nodes; [exact Hn|]. intros k Hin. apply (proj1 (uniqueZ_In _ _)) in Hin. exact Hin. }
    unfold flat_values. destruct (uniqueZ (nx_nodes G)) as [|k ks] eqn:Eu.
    - exfalso. assert (In n1 (uniqueZ (nx_nodes G))) by (apply uniqueZ_In; exact H1). rewrite Eu in H. destruct H.
    - assert (Hin : In k (nx_nodes G)) by (apply (proj1 (uniqueZ_In (nx_nodes G) k)); rewrite Eu; left; reflexivity).
      assert (Hnd : NoDup (keys d)) by (rewrite Hk; exact Hn).
      unfold dict_get at 1. rewrite (proj2 (dlookup_In d k (Iter (node_attrs G [s] k)) Hnd)).
      + cbn [bind]. exact Hch.
      + unfold d. apply in_map_iff. exists k. auto. }
  rewrite Hflat. cbn [bind].
  assert (Hlen : length (concat (map (node_attrs G [s]) (uniqueZ (nx_nodes G)))) =
                 length (filter (has_attr G s) (nx_nodes G))).
  { rewrite <- (filter_perm_length _ _ _ (uniqueZ_perm _ Hn)).
    generalize (uniqueZ (nx_nodes G)). induction l as [|k l IH]; [reflexivity|].
    cbn [map concat filter]. rewrite app_length, IH. unfold node_attrs, has_attr. cbn [flat_map].
    destruct (nx_attr G s k); reflexivity. }
  assert (Hd : length d = length (nx_nodes G)) by (unfold d; apply map_length).
  assert (Hpos : 0 < length (filter (has_attr G s) (nx_nodes G))).
  { assert (Hin : In n1 (filter (has_attr G s) (nx_nodes G))) by (apply filter_In; auto).
    destruct (filter (has_attr G s) (nx_nodes G)); [destruct Hin|cbn; lia]. }
  assert (Hlt : length (filter (has_attr G s) (nx_nodes G)) < length (nx_nodes G)).
  { clear -H2 E2. revert H2. generalize (nx_nodes G) as l. induction l as [|k l IH]; [intros []|].
    assert (Hle : forall l, length (filter (has_attr G s) l) <= length l).
    { induction l0 as [|x l0 IH0]; cbn; [lia|]. destruct (has_attr G s x); cbn; lia. }
    intros [->|H]; cbn.
    - rewrite E2. specialize (Hle l). lia.
    - specialize (IH H). destruct (has_attr G s k); cbn; lia. }
  unfold reshape. rewrite Hd, Hlen.
  destruct (Nat.eqb (length (nx_nodes G)) 0); [eexists; reflexivity|].
  rewrite (Nat.mod_small _ _ Hlt). rewrite (proj2 (Nat.eqb_neq _ 0)) by lia. eexists; reflexivity.
Qed.

(** Two attributes: node 0 lacks "a", node 1 lacks "b"; no exception, and the single column mixes the
    two attributes. *)
Definition ex_gaps : nxgraph :=
  mkNx [0; 1]%Z (fun _ _ => true)
       (fun s node => if String.eqb s "a" then (if Z.eqb node 1 then Some 11%Q else None)
                      else if String.eqb s "b" then (if Z.eqb node 0 then Some 20%Q else None) else None).
Theorem C80_missing_attribute_refuted :
  exists G names rows, NoDup (nx_nodes G) /\ StronglySorted Z.lt (nx_nodes G) /\
    (forall node, In node (nx_nodes G) -> exists s, In s names /\ has_attr G s node = false) /\
    array_from_graph_or_dict G (ByNames names) = Ok rows /\
    nth_error rows 0 = Some [20]%Q /\ nth_error rows 1 = Some [11]%Q /\
    nx_attr G "b" 0%Z = Some 20%Q /\ nx_attr G "a" 1%Z = Some 11%Q.
Proof.
  exists ex_gaps, ["a"; "b"]%string, [[20]; [11]]%Q.
  split; [repeat constructor; cbn; intuition congruence|].
  split; [repeat constructor; lia|]. split.
  - intros node [<-|[<-|[]]]; [exists "a"%string|exists "b"%string]; cbn; auto.
  - repeat (split; [reflexivity|]). reflexivity.
Qed.

(** ** C81: validation of the dicts by PRegionsExact, MaxPRegionsExact and MaxPRegionsHeu *)
Lemma same_keys_spec {V W} (d : dict V) (e : dict W) :
  same_keys d e = true <-> forall k, In k (keys d) <-> In k (keys e).
Proof.
  unfold same_keys. rewrite andb_true_iff, !forallb_forall. split.
  - intros [H1 H2] k. split; intros H; apply membZ_In; auto.
  - intros H. split; intros k Hk; apply membZ_In, H; exact Hk.
Qed.

Theorem C81_pexact_validation R fit_adj nb attr :
  (nb = NotDict \/ attr = NotDict \/
   (exists n a, nb = IsDict n /\ attr = IsDict a /\ exists k, In k (keys a) /\ ~ In k (keys n) \/ In k (keys n) /\ ~ In k (keys a))) ->
  exists msg, pexact_fit_from_dict R fit_adj nb attr = Raise (ValueError msg).
Proof.
  intros H. unfold pexact_fit_from_dict.
  destruct nb as [n|]; [|eexists; reflexivity]. destruct attr as [a|]; [|eexists; reflexivity].
  destruct (same_keys a n) eqn:E; [|eexists; reflexivity]. exfalso.
  rewrite same_keys_spec in E. destruct H as [H|[H|[n' [a' [H1 [H2 [k Hk]]]]]]]; try discriminate.
  injection H1 as <-. injection H2 as <-. specialize (E k). tauto.
Qed.

(** What passes the checks reaches the algorithm aligned with the matrix. *)
Theorem C81_pexact_aligned R fit_adj nb attr m : NoDup (keys nb) -> nb <> [] -> closed_dict nb ->
  NoDup (keys attr) -> (forall k, In k (keys attr) <-> In k (keys nb)) -> uniform attr m ->
  exists g rows, pexact_fit_from_dict R fit_adj (IsDict nb) (IsDict attr) = fit_adj g rows /\
    gn g = length nb /\ length rows = length nb /\
    (forall k v, In (k, v) attr -> nth_error rows (position (keys nb) k) = Some (value_list v)) /\
    (forall i j, In i (keys nb) -> In j (keys nb) ->
       (gadj g (position (keys nb) i) (position (keys nb) j) = true <-> lists nb i j)).
Proof.
  intros Hn Hne Hc Hn' Hk Hu. unfold pexact_fit_from_dict.
  rewrite (proj2 (same_keys_spec attr nb) Hk), (matrix_from_dict_Ok nb Hn Hc). cbn [bind].
  assert (Hp : Permutation (keys attr) (keys nb)) by (apply NoDup_Permutation; auto).
  destruct (C58_sorted_rows attr m Hn' Hu) as [rows [E [Hl Hr]]].
  { intros ->. destruct nb as [|[k v] nb]; [congruence|]. destruct (proj2 (Hk k)); cbn; auto. }
  rewrite E. cbn [bind]. eexists. exists rows. split; [reflexivity|]. split; [reflexivity|].
  split; [rewrite Hl, <- !keys_length; apply Permutation_length; exact Hp|].
  split; [intros k v Hv; rewrite <- (position_perm _ _ k Hp); apply Hr; exact Hv|].
  intros i j Hi Hj. apply matrix_entry; auto. apply matrix_from_dict_Ok; auto.
Qed.

Theorem C81_maxp_validation R fit_adj nb attr sp :
  (nb = NotDict \/ attr = NotDict \/ sp = NotDict \/
   (exists n a e, nb = IsDict n /\ attr = IsDict a /\ sp = IsDict e /\
      exists k, In k (keys n) /\ (~ In k (keys a) \/ ~ In k (keys e)) \/ ~ In k (keys n) /\ (In k (keys a) \/ In k (keys e)))) ->
  exists msg, maxp_fit_from_dict R fit_adj nb attr sp = Raise (ValueError msg).
Proof.
  intros H. unfold maxp_fit_from_dict.
  destruct nb as [n|]; [|eexists; reflexivity]. destruct attr as [a|]; [|eexists; reflexivity].
  destruct (same_keys a n) eqn:E; [|eexists; reflexivity]. destruct sp as [e|]; [|eexists; reflexivity].
  destruct (same_keys e n) eqn:E'; [|eexists; reflexivity]. exfalso.
  rewrite same_keys_spec in E, E'. destruct H as [H|[H|[H|[n' [a' [e' [H1 [H2 [H3 [k Hk]]]]]]]]]]; try discriminate.
  injection H1 as <-. injection H2 as <-. injection H3 as <-. specialize (E k). specialize (E' k). tauto.
Qed.

Theorem C81_maxp_aligned R fit_adj nb attr sp m m' : NoDup (keys nb) -> nb <> [] -> closed_dict nb ->
  NoDup (keys attr) -> (forall k, In k (keys attr) <-> In k (keys nb)) -> uniform attr m ->
  NoDup (keys sp) -> (forall k, In k (keys sp) <-> In k (keys nb)) -> uniform sp m' ->
  exists g rows sp_rows, maxp_fit_from_dict R fit_adj (IsDict nb) (IsDict attr) (IsDict sp) = fit_adj g rows sp_rows /\
    gn g = length nb /\ length rows = length nb /\ length sp_rows = length nb /\
    (forall k v, In (k, v) attr -> nth_error rows (position (keys nb) k) = Some (value_list v)) /\
    (forall k v, In (k, v) sp -> nth_error sp_rows (position (keys nb) k) = Some (value_list v)) /\
    (forall i j, In i (keys nb) -> In j (keys nb) ->
       (gadj g (position (keys nb) i) (position (keys nb) j) = true <-> lists nb i j)).
Proof.
  intros Hn Hne Hc Hn' Hk Hu Hn2 Hk2 Hu2. unfold maxp_fit_from_dict.
  rewrite (proj2 (same_keys_spec attr nb) Hk), (proj2 (same_keys_spec sp nb) Hk2), (matrix_from_dict_Ok nb Hn Hc). cbn [bind].
  assert (Hp : Permutation (keys attr) (keys nb)) by (apply NoDup_Permutation; auto).
  assert (Hp2 : Permutation (keys sp) (keys nb)) by (apply NoDup_Permutation; auto).
  destruct (C58_sorted_rows attr m Hn' Hu) as [rows [E [Hl Hr]]].
  { intros ->. destruct nb as [|[k v] nb]; [congruence|]. destruct (proj2 (Hk k)); cbn; auto. }
  destruct (C58_sorted_rows sp m' Hn2 Hu2) as [rows2 [E2 [Hl2 Hr2]]].
  { intros ->. destruct nb as [|[k v] nb]; [congruence|]. destruct (proj2 (Hk2 k)); cbn; auto. }
  rewrite E, E2. cbn [bind]. eexists. exists rows, rows2. split; [reflexivity|]. split; [reflexivity|].
  split; [rewrite Hl, <- !keys_length; apply Permutation_length; exact Hp|].
  split; [rewrite Hl2, <- !keys_length; apply Permutation_length; exact Hp2|].
  split; [intros k v Hv; rewrite <- (position_perm _ _ k Hp); apply Hr; exact Hv|].
  split; [intros k v Hv; rewrite <- (position_perm _ _ k Hp2); apply Hr2; exact Hv|].
  intros i j Hi Hj. apply matrix_entry; auto. apply matrix_from_dict_Ok; auto.
Qed.

Example C81_example :
  pexact_fit_from_dict _ (fun g rows => Ok (gn g, rows)) (IsDict ex_nb) (IsDict ex_attr_dict) =
    Ok (3, [[1]; [1]; [5]]%Q) /\
  pexact_fit_from_dict _ (fun g rows => Ok (gn g, rows)) (IsDict ex_nb) (IsDict ex_dict) =
    Raise (ValueError "The attr argument has to be of type dict with the same keys as neighbors_dict.") /\
  maxp_fit_from_dict _ (fun g rows sp => Ok (gn g, rows, sp)) (IsDict ex_nb) (IsDict ex_attr_dict) (IsDict ex_attr_dict) =
    Ok (3, [[1]; [1]; [5]]%Q, [[1]; [1]; [5]]%Q) /\
  uniform ex_attr_dict 1 /\ closed_dict ex_nb.
Proof.
  repeat (split; [reflexivity|]). split; [split|].
  - exists false. intros k v [E|[E|[E|[]]]]; injection E as <- <-; reflexivity.
  - intros k v [E|[E|[E|[]]]]; injection E as <- <-; reflexivity.
  - apply closedb_spec. reflexivity.
Qed.

(** ** C82: columns of a data frame *)
Definition wf_frame (df : frame) : Prop :=
  forall s c, In (s, c) (f_cols df) -> length c = length (f_index df).
(** what the caller may write for the columns [names]: one string, or a sequence of strings *)
Definition names_columns (a : col_arg) (names : list string) : Prop :=
  (exists s, a = OneCol s /\ names = [s]) \/ a = ColSeq (map AStr names).
(** not a sequence, or a sequence with something that is not a string *)
Definition not_columns (a : col_arg) : Prop := a = NoSeq \/ exists l, a = ColSeq l /\ In ANotStr l.

Lemma f_col_spec cols s : (exists c, f_col cols s = Ok c /\ In (s, c) cols) \/
  (f_col cols s = Raise KeyError /\ ~ In s (map fst cols)).
Proof.
  induction cols as [|[n c] cols IH]; cbn; [right; auto|]. destruct (String.eqb_spec s n) as [->|Hne].
  - left. exists c. auto.
  - destruct IH as [[c' [H1 H2]]|[H1 H2]]; [left; exists c'; auto|]. right. split; [exact H1|].
    intros [E|E]; [congruence|auto].
Qed.

Theorem C82_columns df a : wf_frame df ->
  ((exists names, names_columns a names) \/ not_columns a) /\
  (not_columns a -> exists msg, array_from_df_col df a = Raise (ValueError msg)) /\
  (forall names, names_columns a names ->
      ((exists s, In s names /\ ~ In s (map fst (f_cols df))) /\ array_from_df_col df a = Raise KeyError) \/
      ((forall s, In s names -> In s (map fst (f_cols df))) /\
       exists rows, array_from_df_col df a = Ok rows /\ length rows = length (f_index df) /\
       forall i row, nth_error rows i = Some row -> length row = length names /\
         forall c s, nth_error names c = Some s ->
           exists col q, In (s, col) (f_cols df) /\ nth_error col i = Some q /\ nth_error row c = Some q)).
Proof.
  intros Hwf. assert (Hrows : forall names,
    ((exists s, In s names /\ ~ In s (map fst (f_cols df))) /\ frame_rows df names = Raise KeyError) \/
      ((forall s, In s names -> In s (map fst (f_cols df))) /\
       exists rows, frame_rows df names = Ok rows /\ length rows = length (f_index df) /\
       forall i row, nth_error rows i = Some row -> length row = length names /\
         forall c s, nth_error names c = Some s ->
           exists col q, In (s, col) (f_cols df) /\ nth_error col i = Some q /\ nth_error row c = Some q)).
  { intros names. unfold frame_rows.
    assert (Hdec : (exists s, In s names /\ ~ In s (map fst (f_cols df))) \/ (forall s, In s names -> In s (map fst (f_cols df)))).
    { induction names as [|s names IH]; [right; intros s []|].
      destruct (in_dec string_dec s (map fst (f_cols df))) as [H|H]; [|left; exists s; split; [left; reflexivity|exact H]].
      destruct IH as [[s' [H1 H2]]|IH]; [left; exists s'; split; [right; exact H1|exact H2]|].
      right. intros s' [<-|Hs]; auto. }
    destruct Hdec as [[s [Hs Hns]]|Hall].
    - left. split; [eauto|]. rewrite (mapM_raise _ KeyError); [reflexivity| |].
      + intros x _. destruct (f_col_spec (f_cols df) x) as [[c [H _]]|[H _]]; [left; eauto|right; exact H].
      + exists s. split; [exact Hs|]. destruct (f_col_spec (f_cols df) s) as [[c [H Hin]]|[H _]]; [|exact H].
        exfalso. apply Hns. change s with (fst (s, c)). apply in_map. exact Hin.
    - right. split; [exact Hall|].
      set (colof := fun s => match f_col (f_cols df) s with Ok c => c | _ => [] end).
      assert (Hcol : forall s, In s names -> f_col (f_cols df) s = Ok (colof s) /\ In (s, colof s) (f_cols df)).
      { intros s Hs. unfold colof. destruct (f_col_spec (f_cols df) s) as [[c [H Hin]]|[_ H]]; [rewrite H; auto|].
        exfalso. apply H, Hall; exact Hs. }
      rewrite (mapM_Ok _ colof) by (intros s Hs; apply Hcol; exact Hs). cbn [bind].
      eexists. split; [reflexivity|]. split; [rewrite map_length, seq_length; reflexivity|].
      intros i row Hi. rewrite nth_error_map in Hi.
      destruct (nth_error (seq 0 (length (f_index df))) i) as [i'|] eqn:Ei; [|discriminate]. cbn in Hi. injection Hi as <-.
      assert (Hlt : i < length (f_index df)).
      { assert (H : nth_error (seq 0 (length (f_index df))) i <> None) by congruence.
        apply nth_error_Some in H. rewrite seq_length in H. exact H. }
      assert (i' = i) as ->.
      { apply nth_error_nth with (d := 0) in Ei. rewrite seq_nth in Ei by exact Hlt. cbn in Ei. congruence. }
      split; [rewrite !map_length; reflexivity|].
      intros c s Hc. destruct (Hcol s) as [_ Hin]; [eapply nth_error_In; eauto|].
      assert (Hlc : i < length (colof s)) by (rewrite (Hwf s (colof s) Hin); exact Hlt).
      destruct (nth_error (colof s) i) as [q|] eqn:Eq; [|apply nth_error_None in Eq; lia].
      exists (colof s), q. split; [exact Hin|]. split; [exact Eq|].
      rewrite !nth_error_map, Hc. cbn [option_map]. f_equal. apply nth_error_nth; exact Eq. }
  assert (Hstr : forall names, forallb is_str (map AStr names) = true /\ map str_of (map AStr names) = names).
  { induction names as [|s names [IH1 IH2]]; [auto|]. cbn. rewrite IH2. auto. }
  assert (Hnot : forall l, In ANotStr l -> forallb is_str l = false).
  { induction l as [|x l IH]; [intros []|]. intros [->|H]; cbn; [reflexivity|]. rewrite IH by auto. apply andb_false_r. }
  split; [|split].
  - destruct a as [s|l|]; [left; exists [s]; left; eauto| |right; left; reflexivity].
    assert (Hl : (exists names, l = map AStr names) \/ In ANotStr l).
    { induction l as [|x l [[names ->]|H]]; [left; exists []; reflexivity| |right; right; exact H].
      destruct x as [s|]; [left; exists (s :: names); reflexivity|right; left; reflexivity]. }
    destruct Hl as [[names ->]|H]; [left; exists names; right; reflexivity|right; right; eauto].
  - intros [->|[l [-> H]]]; cbn [array_from_df_col]; [eauto|]. rewrite (Hnot l H). eauto.
  - intros names [[s [-> ->]]| ->]; cbn [array_from_df_col]; [apply Hrows|].
    destruct (Hstr names) as [-> ->]. apply Hrows.
Qed.

Definition ex_frame : frame := mkFrame [30; 10; 20]%Z [("c1"%string, [1; 2; 3]%Q); ("c2"%string, [7; 8; 9]%Q)].
Example C82_example :
  wf_frame ex_frame /\
  array_from_df_col ex_frame (OneCol "c1") = Ok [[1]; [2]; [3]]%Q /\
  array_from_df_col ex_frame (ColSeq [AStr "c2"; AStr "c1"]) = Ok [[7; 1]; [8; 2]; [9; 3]]%Q /\
  array_from_df_col ex_frame (OneCol "c3") = Raise KeyError /\
  not_columns (ColSeq [AStr "c2"; ANotStr]).
Proof.
  split; [|repeat (split; [reflexivity|]); right; exists [AStr "c2"; ANotStr]; cbn; auto]. intros s c [E|[E|[]]]; injection E as <- <-; reflexivity.
Qed.

(** ** C83: dataframe_to_dict *)
Lemma dict_set_new {V} (d : dict V) k v : ~ In k (keys d) -> dict_set d k v = d ++ [(k, v)].
Proof.
  induction d as [|[k' v'] d IH]; cbn; [reflexivity|]. intros H. destruct (Z.eqb_spec k k') as [->|Hne].
  - exfalso. apply H. left; reflexivity.
  - rewrite IH; [reflexivity|]. intros E. apply H. right; exact E.
Qed.

Lemma dict_of_zip_distinct {V} (ks : list Z) (vs : list V) : NoDup ks -> length vs = length ks ->
  dict_of_zip ks vs = combine ks vs.
Proof.
  unfold dict_of_zip. intros Hn Hl.
  assert (H : forall (d : dict V), (forall k, In k ks -> ~ In k (keys d)) ->
    fold_left (fun d '(k, v) => dict_set d k v) (combine ks vs) d = d ++ combine ks vs).
  { revert vs Hl. induction ks as [|k ks IH]; intros [|v vs] Hl d Hd; cbn in *; try discriminate;
      [rewrite app_nil_r; reflexivity|]. inversion Hn as [|? ? Hk Hn']; subst.
    rewrite dict_set_new by (apply Hd; left; reflexivity).
    rewrite IH; [rewrite <- app_assoc; reflexivity|exact Hn'|lia|].
    intros k' Hk' Hin. unfold keys in Hin. rewrite map_app, in_app_iff in Hin. cbn in Hin.
    destruct Hin as [Hin|[->|[]]]; [apply (Hd k'); auto|auto]. }
  rewrite H; [reflexivity|]. intros k _ [].
Qed.

Lemma dict_set_keys {V} (d : dict V) k v :
  (forall x, In x (keys (dict_set d k v)) <-> In x (keys d) \/ x = k) /\ (NoDup (keys d) -> NoDup (keys (dict_set d k v))).
Proof.
  induction d as [|[k' v'] d0 [IH1 IH2]]; cbn.
  - split; [intros x; intuition congruence|]. intros _. constructor; [intros []|constructor].
  - destruct (Z.eqb_spec k k') as [->|Hne]; cbn; [split; [intros x; intuition congruence|auto]|].
    split.
    + intros x. specialize (IH1 x). unfold keys in IH1. rewrite IH1. intuition congruence.
    + intros H0. inversion H0 as [|? ? H1 H2]; subst. constructor; [|apply IH2; exact H2].
      intros Hin. apply (proj1 (IH1 k')) in Hin. destruct Hin as [Hin|Hin]; [auto|congruence].
Qed.
Lemma dict_set_lookup {V} (d : dict V) k v k' :
  dlookup (dict_set d k v) k' = if Z.eqb k' k then Some v else dlookup d k'.
Proof.
  induction d as [|[k1 v1] d IH]; cbn; [destruct (Z.eqb k' k); reflexivity|].
  destruct (Z.eqb_spec k k1) as [->|Hne]; cbn; [destruct (Z.eqb k' k1); reflexivity|].
  rewrite IH. destruct (Z.eqb_spec k' k1) as [->|]; [|reflexivity]. destruct (Z.eqb_spec k1 k); [congruence|reflexivity].
Qed.
Lemma dict_of_zip_spec {V} (ks : list Z) (vs : list V) : length vs = length ks ->
  NoDup (keys (dict_of_zip ks vs)) /\ (forall k, In k (keys (dict_of_zip ks vs)) <-> In k ks) /\
  forall i k v, nth_error ks i = Some k -> (forall j, i < j -> nth_error ks j <> Some k) -> nth_error vs i = Some v ->
    dlookup (dict_of_zip ks vs) k = Some v.
Proof.
  unfold dict_of_zip. intros Hl.
  assert (H : forall (d : dict V), NoDup (keys d) ->
    let r := fold_left (fun d '(k, v) => dict_set d k v) (combine ks vs) d in
    NoDup (keys r) /\ (forall k, In k (keys r) <-> In k (keys d) \/ In k ks) /\
    (forall k, ~ In k ks -> dlookup r k = dlookup d k) /\
    forall i k v, nth_error ks i = Some k -> (forall j, i < j -> nth_error ks j <> Some k) -> nth_error vs i = Some v ->
      dlookup r k = Some v).
  { revert vs Hl. induction ks as [|k ks IH]; intros [|v vs] Hl d Hd; cbn in Hl; try discriminate.
    - cbn. split; [exact Hd|]. split; [tauto|]. split; [auto|]. intros [|i] k v H; discriminate.
    - cbn [combine fold_left]. destruct (dict_set_keys d k v) as [Hk1 Hk2].
      destruct (IH vs ltac:(lia) (dict_set d k v) (Hk2 Hd)) as [H1 [H2 [H3 H4]]].
      split; [exact H1|]. split; [intros x; rewrite H2, Hk1; cbn; intuition congruence|]. split.
      + intros x Hx. rewrite H3 by (intros E; apply Hx; right; exact E). rewrite dict_set_lookup.
        destruct (Z.eqb_spec x k) as [->|]; [destruct Hx; left; reflexivity|reflexivity].
      + intros [|i] k1 v1 Hi Hlast Hv; cbn in Hi, Hv.
        * injection Hi as <-. injection Hv as <-. rewrite H3.
          -- rewrite dict_set_lookup, Z.eqb_refl. reflexivity.
          -- intros Hin. apply In_nth_error in Hin. destruct Hin as [j Hj]. apply (Hlast (S j)); [lia|exact Hj].
        * apply (H4 i); auto. intros j Hj. apply (Hlast (S j)). lia. }
  destruct (H [] ltac:(constructor)) as [H1 [H2 [_ H4]]]. split; [exact H1|]. split; [|exact H4].
  intros k. rewrite H2. cbn. tauto.
Qed.

(** For every frame: the keys are the index entries, each with the values of the last row it stands for
    (the rows are those of C82), and without repetitions in the index the rows keep their order. *)
Theorem C83_dataframe_to_dict_partial df cols : wf_frame df ->
  match array_from_df_col df (ColSeq (map AStr cols)) with
  | Ok rows => exists d, dataframe_to_dict df cols = Ok d /\ NoDup (keys d) /\
      (forall k, In k (keys d) <-> In k (f_index df)) /\ (NoDup (f_index df) -> keys d = f_index df) /\
      forall i k row, nth_error (f_index df) i = Some k -> (forall j, i < j -> nth_error (f_index df) j <> Some k) ->
        nth_error rows i = Some row -> dlookup d k = Some (Iter row)
  | Raise e => dataframe_to_dict df cols = Raise e
  | NoFuel => False
  end.
Proof.
  intros Hwf.
  assert (Hstr : forall names, forallb is_str (map AStr names) = true /\ map str_of (map AStr names) = names).
  { induction names as [|s names [IH1 IH2]]; [auto|]. cbn. rewrite IH2. auto. }
  cbn [array_from_df_col]. destruct (Hstr cols) as [-> ->]. unfold dataframe_to_dict.
  destruct (frame_rows df cols) as [rows|e|] eqn:E; cbn [bind]; auto.
  - assert (Hl : length rows = length (f_index df)).
    { unfold frame_rows in E. destruct (mapM (f_col (f_cols df)) cols); try discriminate. cbn [bind] in E.
      injection E as <-. rewrite map_length, seq_length. reflexivity. }
    eexists. split; [reflexivity|].
    destruct (dict_of_zip_spec (f_index df) (map (fun r => Iter r) rows)) as [H1 [H2 H3]]; [rewrite map_length; exact Hl|].
    split; [exact H1|]. split; [exact H2|]. split.
    + intros Hn. rewrite dict_of_zip_distinct by (auto; rewrite map_length; auto).
      assert (Hk : forall (vs : list (value Q)) (ks : list Z), length vs = length ks -> map fst (combine ks vs) = ks).
      { induction vs as [|v vs IH]; intros [|k ks] Hv; cbn in *; try discriminate; [reflexivity|]. rewrite IH by lia. reflexivity. }
      apply Hk. rewrite map_length. exact Hl.
    + intros i k row Hi Hlast Hr. apply (H3 i); auto. rewrite nth_error_map, Hr. reflexivity.
  - exfalso. destruct (C82_columns df (ColSeq (map AStr cols)) Hwf) as [_ [_ H]].
    destruct (H cols (or_intror eq_refl)) as [[_ H1]|[_ [rows [H1 _]]]]; cbn [array_from_df_col] in H1;
      destruct (Hstr cols) as [Ha Hb]; rewrite Ha, Hb, E in H1; discriminate.
Qed.

(** With a repeated index entry rows disappear: the dict has fewer entries than the frame has rows. *)
Theorem C83_duplicate_index_refuted df cols d : ~ NoDup (f_index df) ->
  dataframe_to_dict df cols = Ok d -> length d < length (f_index df).
Proof.
  intros Hn H. unfold dataframe_to_dict in H. destruct (frame_rows df cols) as [rows| |]; try discriminate.
  cbn [bind] in H. injection H as <-. unfold dict_of_zip.
  set (vs := map (fun r => Iter r) rows). clearbody vs. clear rows.
  assert (Hset : forall (d : dict (value Q)) k v, (forall x, In x (keys (dict_set d k v)) <-> In x (keys d) \/ x = k) /\
            (NoDup (keys d) -> NoDup (keys (dict_set d k v)))).
  { intros d0 k v. induction d0 as [|[k' v'] d0 [IH1 IH2]]; cbn.
    - split; [intros x; intuition congruence|]. intros _. constructor; [intros []|constructor].
    - destruct (Z.eqb_spec k k') as [->|Hne]; cbn; [split; [intros x; intuition congruence|auto]|].
      split.
      + intros x. specialize (IH1 x). unfold keys in IH1. rewrite IH1. intuition congruence.
      + intros H0. inversion H0 as [|? ? H1 H2]; subst. constructor; [|apply IH2; exact H2].
        intros Hin. apply (proj1 (IH1 k')) in Hin. destruct Hin as [Hin|Hin]; [auto|congruence]. }
  assert (Hfold : forall ks (vs : list (value Q)) d0, NoDup (keys d0) ->
     NoDup (keys (fold_left (fun d '(k, v) => dict_set d k v) (combine ks vs) d0)) /\
     (forall x, In x (keys (fold_left (fun d '(k, v) => dict_set d k v) (combine ks vs) d0)) -> In x (keys d0) \/ In x ks)).
  { induction ks as [|k ks IH]; intros vs0 d0 Hd0; [cbn; auto|]. destruct vs0 as [|v vs0]; [cbn; auto|].
    cbn [combine fold_left]. destruct (IH vs0 (dict_set d0 k v)) as [H1 H2]; [apply Hset; exact Hd0|].
    split; [exact H1|]. intros x Hx. destruct (H2 x Hx) as [H3|H3]; [|right; right; exact H3].
    apply Hset in H3. destruct H3 as [H3| ->]; [left; exact H3|right; left; reflexivity]. }
  destruct (Hfold (f_index df) vs []) as [H1 H2]; [constructor|].
  set (d := fold_left _ _ _) in *. rewrite <- (keys_length d).
  assert (Hincl : incl (keys d) (f_index df)) by (intros x Hx; destruct (H2 x Hx) as [[]|H3]; exact H3).
  pose proof (NoDup_incl_length H1 Hincl) as Hle.
  destruct (Nat.eq_dec (length (keys d)) (length (f_index df))) as [He|He]; [|lia].
  exfalso. apply Hn. apply (NoDup_incl_NoDup H1); [lia|exact Hincl].
Qed.

Example C83_example :
  dataframe_to_dict ex_frame ["c1"; "c2"]%string =
    Ok [(30%Z, Iter [1; 7]%Q); (10%Z, Iter [2; 8]%Q); (20%Z, Iter [3; 9]%Q)] /\
  dataframe_to_dict (mkFrame [4; 6; 4]%Z [("c1"%string, [1; 2; 3]%Q)]) ["c1"%string] =
    Ok [(4%Z, Iter [3]%Q); (6%Z, Iter [2]%Q)].
Proof. split; reflexivity. Qed.

(** ** C86: values that cannot be put into an array are reported *)
(** Values are read in the order of the keys (the given ones, or the sorted ones of the dict), and
    the value of the first key tells whether all values must be iterables or numbers. *)
Definition keys_read {V} (d : dict V) (ks : option (list Z)) (read : list Z) : Prop :=
  match ks with
  | Some l => read = l
  | None => StronglySorted Z.lt read /\ forall k, In k read <-> exists v, In (k, v) d
  end.
Definition is_iter {A} (v : value A) : Prop := exists l, v = Iter l.
Definition reads {A} (d : dict (value A)) (iter : bool) (k : Z) : Prop :=
  exists v, In (k, v) d /\ (iter = true <-> is_iter v).

Lemma keys_read_eq {V} (d : dict V) ks read : keys_read d ks read ->
  match ks with Some l => l | None => sorted_keys d end = read.
Proof.
  destruct ks as [l|]; cbn; [auto|]. intros [Hs Hin]. unfold sorted_keys.
  rewrite <- (sorted_uniqueZ read Hs). apply uniqueZ_ext. intros k. rewrite Hin. apply keys_In.
Qed.

Lemma reads_get {A} (d : dict (value A)) iter k : NoDup (keys d) -> reads d iter k ->
  exists v, dict_get d k = Ok v /\ if iter then exists l, v = Iter l else exists a, v = Scalar a.
Proof.
  intros Hn [v [Hv Hi]]. exists v. unfold dict_get. rewrite (proj2 (dlookup_In d k v Hn) Hv). split; [reflexivity|].
  destruct v as [a|l]; destruct iter; eauto.
  - destruct Hi as [Hi _]. destruct (Hi eq_refl) as [l E]. discriminate.
  - destruct Hi as [_ Hi]. discriminate Hi. exists l. reflexivity.
Qed.

(** No key to read: IndexError.  Otherwise the first key that cannot be read decides: KeyError if it
    is missing, TypeError for a number among iterables, ValueError for an iterable among numbers. *)
Theorem C86_bad_values {A} (d : dict (value A)) ks read : NoDup (keys d) -> keys_read d ks read ->
  (read = [] -> array_from_dict_flat d ks = Raise IndexError) /\
  (forall iter pre k post, read = pre ++ k :: post -> (forall k', In k' pre -> reads d iter k') ->
     ((forall v, ~ In (k, v) d) -> array_from_dict_flat d ks = Raise KeyError) /\
     (forall v, In (k, v) d -> pre <> [] -> iter = true -> ~ is_iter v ->
        exists msg, array_from_dict_flat d ks = Raise (TypeError msg)) /\
     (forall v, In (k, v) d -> pre <> [] -> iter = false -> is_iter v ->
        exists msg, array_from_dict_flat d ks = Raise (ValueError msg))) /\
  (forall iter, read <> [] -> (forall k, In k read -> reads d iter k) ->
     exists rows, array_from_dict_flat d ks = Ok (concat rows) /\ length rows = length read /\
       forall i k v, nth_error read i = Some k -> In (k, v) d -> nth_error rows i = Some (value_list v)).
Proof.
  intros Hn Hr. apply keys_read_eq in Hr. unfold array_from_dict_flat. rewrite Hr. clear Hr ks.
  assert (Hch : forall e pre rest, (forall k', In k' pre -> reads d true k') -> chained d rest = Raise e ->
    chained d (pre ++ rest) = Raise e).
  { intros e pre rest Hp E. induction pre as [|k pre IH]; [exact E|]. cbn [app chained].
    destruct (reads_get d true k Hn (Hp k (or_introl eq_refl))) as [v [-> [l ->]]]. cbn [bind].
    rewrite IH by (intros; apply Hp; right; auto). reflexivity. }
  assert (Hsc : forall e pre rest, (forall k', In k' pre -> reads d false k') -> scalars d rest = Raise e ->
    scalars d (pre ++ rest) = Raise e).
  { intros e pre rest Hp E. induction pre as [|k pre IH]; [exact E|]. cbn [app scalars].
    destruct (reads_get d false k Hn (Hp k (or_introl eq_refl))) as [v [-> [a ->]]]. cbn [bind].
    rewrite IH by (intros; apply Hp; right; auto). reflexivity. }
  assert (Hfl : forall (iter : bool) k0 pre rest, (forall k', In k' (k0 :: pre) -> reads d iter k') ->
    flat_values d ((k0 :: pre) ++ rest) = if iter then chained d ((k0 :: pre) ++ rest) else scalars d ((k0 :: pre) ++ rest)).
  { intros iter k0 pre rest Hp. unfold flat_values. cbn [app].
    destruct (reads_get d iter k0 Hn (Hp k0 (or_introl eq_refl))) as [v [E Hv]]. rewrite E. cbn [bind].
    destruct iter; [destruct Hv as [l ->]|destruct Hv as [a ->]]; reflexivity. }
  split; [|split].
  - intros ->. reflexivity.
  - intros iter pre k post -> Hp. split; [|split].
    + intros Hno. assert (Eg : dict_get d k = Raise KeyError).
      { unfold dict_get. rewrite (proj2 (dlookup_None d k)); [reflexivity|]. rewrite keys_In. intros [v Hv]. exact (Hno v Hv). }
      destruct pre as [|k0 pre]; [cbn [app flat_values]; rewrite Eg; reflexivity|].
      rewrite (Hfl iter) by exact Hp. destruct iter; [apply Hch|apply Hsc]; auto; cbn [chained scalars]; rewrite Eg; reflexivity.
    + intros v Hv Hne -> Hni. destruct pre as [|k0 pre]; [congruence|]. rewrite (Hfl true) by exact Hp.
      eexists. apply Hch; [exact Hp|]. cbn [chained]. unfold dict_get. rewrite (proj2 (dlookup_In d k v Hn) Hv). cbn [bind].
      destruct v as [a|l]; [reflexivity|]. exfalso. apply Hni. exists l. reflexivity.
    + intros v Hv Hne -> [l ->]. destruct pre as [|k0 pre]; [congruence|]. rewrite (Hfl false) by exact Hp.
      eexists. apply Hsc; [exact Hp|]. cbn [scalars]. unfold dict_get. rewrite (proj2 (dlookup_In d k _ Hn) Hv). reflexivity.
  - intros iter Hne Hp. exists (map (row_of d) read). split; [|split; [apply map_length|]].
    + destruct read as [|k0 rest]; [congruence|].
      pose proof (Hfl iter k0 rest [] Hp) as E. rewrite app_nil_r in E. rewrite E. clear E Hfl Hch Hsc Hne.
      revert Hp. generalize (k0 :: rest) as l. destruct iter.
      * induction l as [|k l IH]; [reflexivity|]. intros Hp. cbn [chained map concat].
        destruct (reads_get d true k Hn (Hp k (or_introl eq_refl))) as [v [E [x ->]]]. rewrite E. cbn [bind].
        rewrite IH by (intros; apply Hp; right; auto). cbn [bind]. assert (Er : row_of d k = value_list (Iter x)).
        { unfold row_of. unfold dict_get in E. destruct (dlookup d k); [|discriminate]. injection E as ->. reflexivity. }
        rewrite Er. reflexivity.
      * induction l as [|k l IH]; [reflexivity|]. intros Hp. cbn [scalars map concat].
        destruct (reads_get d false k Hn (Hp k (or_introl eq_refl))) as [v [E [x ->]]]. rewrite E. cbn [bind].
        rewrite IH by (intros; apply Hp; right; auto). cbn [bind]. assert (Er : row_of d k = value_list (Scalar x)).
        { unfold row_of. unfold dict_get in E. destruct (dlookup d k); [|discriminate]. injection E as ->. reflexivity. }
        rewrite Er. reflexivity.
    + intros i k v Hi Hv. rewrite nth_error_map, Hi. cbn [option_map]. unfold row_of.
      rewrite (proj2 (dlookup_In d k v Hn) Hv). reflexivity.
Qed.

(** Something that is not iterable instead of attribute names or a dict: ValueError where both are
    allowed (fit_from_networkx), TypeError from the functions that expect names. *)
Theorem C86_not_iterable G :
  (exists msg, array_from_graph_or_dict G NotIterable = Raise (ValueError msg)) /\
  (exists msg, array_from_graph G NotIterable = Raise (TypeError msg)) /\
  (exists msg, dict_from_graph_attr G NotIterable = Raise (TypeError msg)).
Proof. repeat split; eexists; reflexivity. Qed.

Definition ex_mixed : dict (value Q) := [(4%Z, Scalar 1%Q); (2%Z, Iter [7; 8]%Q); (3%Z, Iter [9]%Q)].
Example C86_example :
  keys_read ex_mixed None [2; 3; 4]%Z /\
  array_from_dict_flat ex_mixed None = Raise (TypeError "object is not iterable") /\
  array_from_dict_flat ex_mixed (Some [4; 3]%Z) = Raise (ValueError "setting an array element with a sequence.") /\
  array_from_dict_flat ex_mixed (Some [3; 5; 4]%Z) = Raise KeyError /\
  array_from_dict_flat ex_mixed (Some [3; 2; 3]%Z) = Ok [9; 7; 8; 9]%Q /\
  array_from_dict_flat ex_mixed (Some []) = Raise IndexError /\
  reads ex_mixed true 2%Z /\ reads ex_mixed true 3%Z /\ reads ex_mixed false 4%Z.
Proof.
  split; [|repeat (split; [reflexivity|])].
  - cbn. split; [repeat constructor; lia|]. intros k. cbn. split.
    + intros [<-|[<-|[<-|[]]]]; eexists; eauto.
    + intros [v [E|[E|[E|[]]]]]; injection E; auto.
  - unfold reads, is_iter. cbn. repeat split; eexists; (split; [eauto|]); split; eauto; try discriminate. intros [l E]. discriminate.
Qed.

Print Assumptions C57_numbering.
Print Assumptions C57_matrix_from_dict.
Print Assumptions C58_rows_partial.
Print Assumptions C58_sorted_rows.
Print Assumptions C58_subset_refuted.
Print Assumptions C59_networkx_partial.
Print Assumptions C59_networkx_refuted.
Print Assumptions C61_find_sublist.
Print Assumptions C61_count.
Print Assumptions C61_random_draws.
Print Assumptions C63_networkx_initial_labels_refuted.
Print Assumptions C77_fit_from_dict_contiguous.
Print Assumptions C78_array_order.
Print Assumptions C78_matrix_order.
Print Assumptions C79_fit_from_dict_aligned_partial.
Print Assumptions C79_extra_keys_refuted.
Print Assumptions C80_missing_attribute_partial.
Print Assumptions C80_missing_attribute_refuted.
Print Assumptions C81_pexact_validation.
Print Assumptions C81_pexact_aligned.
Print Assumptions C81_maxp_validation.
Print Assumptions C81_maxp_aligned.
Print Assumptions C82_columns.
Print Assumptions C83_dataframe_to_dict_partial.
Print Assumptions C83_duplicate_index_refuted.
Print Assumptions C86_bad_values.
Print Assumptions C86_not_iterable.
