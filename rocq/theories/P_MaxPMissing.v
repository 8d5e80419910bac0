(** Max-p heuristic with missing spatially extensive amounts. *)
From Verif Require Import Base Spec M_Graph P_Graph M_Util P_Base P_Util P_Forest P_Init P_Initial
  M_Objective P_Sum P_Objective M_Azp P_Azp P_Strategy P_Fit P_AzpFit M_Sa M_MaxP P_MaxP P_MaxP2 P_MaxP3 P_MaxP4 P_FloatMaxP
  M_MaxPMissing SpecAmounts.

(** ** rows with missing amounts and the rows that stand for them *)
Fixpoint rr (thr : list Q) (x : list (option Q)) (v : list Q) : Prop :=
  match thr, x, v with
  | [], [], [] => True
  | t :: thr', o :: x', q :: v' => (match o with Some p => q = p | None => t <= q end)%Q /\ (0 <= q)%Q /\ rr thr' x' v'
  | _, _, _ => False
  end.
Definition rq thr x v : Prop := (x = [] /\ v = []) \/ rr thr x v.

Lemma rr_length thr : forall x v, rr thr x v -> length x = length thr /\ length v = length thr.
Proof.
  induction thr as [|t thr IH]; intros [|o x] [|q v] H; cbn in *; try contradiction; auto.
  destruct H as [_ [_ H]]. destruct (IH x v H). split; lia.
Qed.
Lemma rr_of thr : forall x v, row_for thr x v -> length x = length thr -> (forall q, In (Some q) x -> (0 <= q)%Q) -> rr thr x v.
Proof.
  induction thr as [|t thr IH]; intros [|o x] [|q v] [Hl H] Hlen Hp; cbn in *; try lia; auto.
  pose proof (H 0 t eq_refl) as H0. cbn in H0. split; [destruct o; [auto|apply H0]|]. split.
  - destruct o as [p|]; [|apply H0]. subst q. apply Hp. left; auto.
  - apply IH; [|lia|intros p Hi; apply Hp; right; auto]. split; [lia|]. intros k t' Hk. apply (H (S k) t' Hk).
Qed.
Lemma rr_add thr : forall x v y w, rr thr x v -> rr thr y w -> rr thr (nadd_rows x y) (add_rows v w).
Proof.
  induction thr as [|t thr IH]; intros [|o x] [|q v] [|o' y] [|q' w] H H'; cbn [rr nadd_rows add_rows] in *; try contradiction; auto.
  destruct H as [H1 [H2 H3]], H' as [H1' [H2' H3']]. split; [|split; [lra|apply IH; auto]].
  destruct o, o'; cbn [nplus]; subst; auto; lra.
Qed.
Lemma rq_add thr x v y w : rq thr x v -> rq thr y w -> rq thr (nadd_rows x y) (add_rows v w).
Proof.
  intros [[-> ->]|H]; [destruct y, w; auto|]. intros [[-> ->]|H']; [|right; apply rr_add; auto].
  replace (nadd_rows x []) with x by (destruct x; auto). replace (add_rows v []) with v by (destruct v; auto). right; auto.
Qed.
Lemma ncompared_same_length x thr : length x = length thr -> ncompared x thr = combine x thr.
Proof. destruct x as [|v [|v2 x]], thr as [|t [|t2 thr]]; cbn; intros H; auto; lia. Qed.

Lemma rr_below thr x v : rr thr x v -> nbelow x thr = negb (reaches v thr).
Proof.
  intros H. destruct (rr_length thr x v H) as [Hx Hv]. unfold nbelow, reaches.
  rewrite ncompared_same_length, compared_same_length by auto. clear Hx Hv. revert x v H.
  induction thr as [|t thr IH]; intros [|o x] [|q v] H; cbn [rr combine existsb forallb fst snd] in *; try contradiction; auto.
  destruct H as [H1 [H2 H3]]. rewrite (IH x v H3), negb_andb. f_equal. destruct o as [p|]; cbn [nlt].
  - subst q. reflexivity.
  - apply Qle_bool_iff in H1. rewrite H1. reflexivity.
Qed.
Lemma rq_below thr x v : rq thr x v -> nbelow x thr = negb (reaches v thr).
Proof. intros [[-> ->]|H]; [|apply rr_below; auto]. unfold nbelow, reaches. destruct thr as [|t [|t2 thr]]; reflexivity. Qed.

Lemma rr_reaches thr x v : rr thr x v -> nreaches x thr = true -> reaches v thr = true.
Proof.
  intros H. destruct (rr_length thr x v H) as [Hx Hv]. unfold nreaches, reaches.
  rewrite ncompared_same_length, compared_same_length by auto. clear Hx Hv. revert x v H.
  induction thr as [|t thr IH]; intros [|o x] [|q v] H; cbn [rr combine forallb fst snd] in *; try contradiction; auto.
  destruct H as [H1 [H2 H3]]. rewrite !andb_true_iff. intros [Ha Hb]. split; [|eauto].
  destruct o as [p|]; cbn [nge] in Ha; [subst; auto|discriminate].
Qed.
Lemma rq_reaches thr x v : rq thr x v -> nreaches x thr = true -> reaches v thr = true.
Proof. intros [[-> ->]|H]; [|apply rr_reaches; auto]. intros _. unfold reaches. destruct thr as [|t [|t2 thr]]; reflexivity. Qed.

Lemma rr_zero thr : forall x v, rr thr x v -> existsb ntrue x = false -> any_nonzero v = false.
Proof.
  induction thr as [|t thr IH]; intros [|o x] [|q v] H; cbn [rr existsb any_nonzero] in *; try contradiction; auto.
  destruct H as [H1 [H2 H3]]. rewrite !orb_false_iff. intros [Ha Hb]. split; [|apply (IH x); auto].
  destruct o as [p|]; cbn [ntrue] in Ha; [subst; auto|discriminate].
Qed.
Lemma rr_sub thr x v y w : rr thr x v -> rr thr y w -> nreaches (nsub_rows x y) thr = true ->
  reaches (sub_rows v w) thr = true /\ ~ In None x /\ ~ In None y.
Proof.
  intros H H'. destruct (rr_length thr x v H) as [Hx Hv]. destruct (rr_length thr y w H') as [Hy Hw].
  unfold nreaches, reaches. rewrite ncompared_same_length, compared_same_length
    by (unfold nsub_rows, sub_rows; rewrite map_length, combine_length; lia).
  unfold nsub_rows, sub_rows. clear Hx Hv Hy Hw. revert x v y w H H'.
  induction thr as [|t thr IH]; intros [|o x] [|q v] [|o' y] [|q' w] H H'; cbn [rr combine map forallb fst snd] in *; try contradiction; auto.
  destruct H as [H1 [H2 H3]], H' as [H1' [H2' H3']]. rewrite !andb_true_iff. intros [Ha Hb].
  destruct (IH x v y w H3 H3' Hb) as [I1 [I2 I3]].
  destruct o as [p|], o' as [p'|]; cbn [nge nminus] in Ha; try discriminate. subst.
  split; [auto|]. split; cbn; intros [?|?]; try discriminate; auto.
Qed.

(** ** the construction phase *)
Section Construct.
Variable d : list Q -> list Q -> Q.
Variable g : graph.
Variable attr : list (list Q).
Variable sp : list (list (option Q)).
Variable sp' : list (list Q).
Variable thr : list Q.
Hypothesis Hrows : forall a, rq thr (nrow sp a) (row sp' a).

Lemma ngrow_region_same fuel : forall region neighs x v unassigned assigned r, rq thr x v ->
  ngrow_region d g attr sp thr fuel region neighs x unassigned assigned r =
  grow_region d g attr sp' thr fuel region neighs v unassigned assigned r.
Proof.
  induction fuel as [|fuel IH]; intros region neighs x v unassigned assigned r Hx; cbn [ngrow_region grow_region];
    rewrite (rq_below thr x v Hx), negb_involutive; [reflexivity|].
  destruct (reaches v thr); [reflexivity|]. destruct neighs as [|n0 ns]; [reflexivity|].
  destruct (find_best_area d attr region (n0 :: ns) r) as [[w r1]|e|]; cbn [bind]; auto.
  destruct (remove_first w unassigned); [|reflexivity]. apply IH. apply rq_add; auto.
Qed.

Lemma ngrow_loop_same fuel : forall partition enclaves unassigned assigned r,
  ngrow_loop d g attr sp thr fuel partition enclaves unassigned assigned r =
  grow_loop d g attr sp' thr fuel partition enclaves unassigned assigned r.
Proof.
  induction fuel as [|fuel IH]; intros partition enclaves unassigned assigned r; destruct unassigned as [|u us]; cbn [ngrow_loop grow_loop]; auto.
  destruct (pop_randomly_from (u :: us) r) as [[[area unassigned1] r1]|e|]; cbn [bind]; auto.
  destruct (nreaches (nrow sp area) thr) eqn:En.
  - rewrite (rq_reaches thr _ _ (Hrows area) En). apply IH.
  - rewrite (ngrow_region_same _ _ _ _ (row sp' area)) by auto.
    destruct (reaches (row sp' area) thr) eqn:Er.
    + cbn [grow_region]. rewrite Er. cbn [bind]. apply IH.
    + destruct (grow_region _ _ _ _ _ _ _ _ _ _ _ _) as [[[[[feasible region] u2] a2] r2]|e|]; cbn [bind]; auto. destruct feasible; apply IH.
Qed.

Lemma ngrow_regions_same r : ngrow_regions d g attr sp thr r = grow_regions d g attr sp' thr r.
Proof. apply ngrow_loop_same. Qed.

Lemma nconstruct_same k : forall mp best r, nconstruct d g attr sp thr k mp best r = construct d g attr sp' thr k mp best r.
Proof.
  induction k as [|k IH]; intros mp best r; cbn [nconstruct construct]; [reflexivity|]. rewrite ngrow_regions_same.
  destruct (grow_regions d g attr sp' thr r) as [[[partition enclaves] r1]|e|]; cbn [bind]; auto.
  destruct (Nat.ltb _ _); [apply IH|]. destruct (Nat.eqb _ _); apply IH.
Qed.

Lemma nmaxp_fit_same LS wrap ls_fit obj new max_it labels0 ls r :
  nmaxp_fit LS wrap ls_fit obj attr new d g sp thr max_it labels0 ls r =
  maxp_fit LS wrap ls_fit obj attr new d g sp' thr max_it labels0 ls r.
Proof. unfold nmaxp_fit, maxp_fit. rewrite nconstruct_same. reflexivity. Qed.
End Construct.

Lemma Forall2_row (R : list (option Q) -> list Q -> Prop) s s' : Forall2 R s s' -> forall a, a < length s -> R (nrow s a) (row s' a).
Proof.
  unfold nrow, row. induction 1 as [|x v s s' H Hs IH]; intros a Ha; cbn in Ha; [lia|]. destruct a as [|a]; cbn [nth]; [auto|].
  apply IH. lia.
Qed.

(** ** amounts that stand for the missing ones *)
Section Filled.
Variable sp : list (list (option Q)).
Variable sp' : list (list Q).
Variable thr : list Q.
Variable n : nat.
Hypothesis Hrec : recorded sp thr n.
Hypothesis Hknown : known_non_negative sp.
Hypothesis Hfill : amply_filled thr sp sp'.

Lemma filled_length : length sp' = n.
Proof. rewrite <- (Forall2_len _ _ _ Hfill). apply Hrec. Qed.
Lemma filled_row a : a < n -> rr thr (nrow sp a) (row sp' a).
Proof.
  intros Ha. destruct Hrec as [Hl Hx]. assert (Hin : In (nrow sp a) sp) by (apply nth_In; lia).
  apply rr_of; [|apply Hx; auto|intros q Hq; eapply Hknown; eauto].
  apply Forall2_row; [auto|lia].
Qed.
Lemma filled_rows a : rq thr (nrow sp a) (row sp' a).
Proof.
  destruct (Nat.ltb_spec a n) as [H|H]; [right; apply filled_row; auto|left].
  unfold nrow, row. pose proof filled_length. rewrite !nth_overflow; auto; destruct Hrec; lia.
Qed.
Lemma rr_nonneg t : forall x v q, rr t x v -> In q v -> (0 <= q)%Q.
Proof.
  induction t as [|t0 t IH]; intros [|o x] [|p v] q H Hq; cbn in *; try contradiction. destruct H as [_ [H2 H3]].
  destruct Hq as [<-|Hq]; [auto|eapply IH; eauto].
Qed.
Lemma filled_shaped : shaped sp' thr n.
Proof.
  split; [apply filled_length|]. intros x Hx. apply (In_nth _ _ []) in Hx. destruct Hx as [a [Ha <-]]. rewrite filled_length in Ha.
  apply (rr_length thr (nrow sp a)). apply filled_row; auto.
Qed.
Lemma filled_non_negative : non_negative sp'.
Proof.
  intros x q Hx Hq. apply (In_nth _ _ []) in Hx. destruct Hx as [a [Ha <-]]. rewrite filled_length in Ha.
  eapply rr_nonneg; [apply filled_row; eauto|exact Hq].
Qed.

(** what the amount of an area says *)
Lemma rr_nth t : forall x v k th, rr t x v -> nth_error t k = Some th ->
  match nth_error x k with Some (Some q) => nth k v 0%Q = q | Some None => (th <= nth k v 0)%Q | None => False end.
Proof.
  induction t as [|t0 t IH]; intros [|o x] [|p v] k th H Hk; cbn in H; try contradiction; [destruct k; discriminate|].
  destruct H as [H1 [H2 H3]]. destruct k as [|k]; cbn in *; [injection Hk as <-; destruct o; auto|]. apply IH; auto.
Qed.
Lemma nth_map_known (x : list (option Q)) k q : nth_error x k = Some (Some q) ->
  nth k (map (fun o => match o with Some q => q | None => 0%Q end) x) 0%Q = q.
Proof. revert k. induction x as [|o x IH]; intros [|k] H; cbn in *; try discriminate; [injection H as ->; auto|auto]. Qed.
Lemma known_row a : nth a (known sp) [] = map (fun o => match o with Some q => q | None => 0%Q end) (nrow sp a).
Proof. unfold known, nrow. change (@nil Q) with (map (fun o : option Q => match o with Some q => q | None => 0%Q end) []) at 1. apply map_nth. Qed.
Lemma not_lacking a k t : a < n -> nth_error thr k = Some t -> ~ lacks sp a k -> nth k (nth a sp' []) 0%Q = nth k (nth a (known sp) []) 0%Q.
Proof.
  intros Ha Hk Hn. pose proof (rr_nth _ _ _ k t (filled_row a Ha) Hk) as H. unfold lacks in Hn. fold (nrow sp a) in Hn. fold (row sp' a).
  destruct (nth_error (nrow sp a) k) as [[q|]|] eqn:E; [|congruence|contradiction]. rewrite H, known_row. symmetry. apply nth_map_known; auto.
Qed.
Lemma lacking a k t : a < n -> nth_error thr k = Some t -> lacks sp a k -> (t <= nth k (nth a sp' []) 0)%Q.
Proof.
  intros Ha Hk Hn. pose proof (rr_nth _ _ _ k t (filled_row a Ha) Hk) as H. unfold lacks in Hn. fold (nrow sp a) in Hn. rewrite Hn in H. exact H.
Qed.
Lemma lacks_dec a k : lacks sp a k \/ ~ lacks sp a k.
Proof. unfold lacks. destruct (nth_error (nth a sp []) k) as [[q|]|]; [right|left|right]; congruence. Qed.
Lemma some_lacks k l : (exists a, In a l /\ lacks sp a k) \/ forall a, In a l -> ~ lacks sp a k.
Proof.
  induction l as [|a l [[b [Hb Hl]]|IH]]; [right; intros a []|left; exists b; split; [right; auto|auto]|].
  destruct (lacks_dec a k) as [H|H]; [left; exists a; split; [left; auto|auto]|right]. intros b [<-|Hb]; auto.
Qed.

Lemma filled_meets labels z : length labels = n -> (meets sp' thr labels z <-> meets_known sp thr labels z).
Proof.
  intros Hlen. assert (Hsame : forall k t, nth_error thr k = Some t -> (forall a, region labels z a -> ~ lacks sp a k) ->
     (total sp' labels z k == total (known sp) labels z k)%Q).
  { intros k t Hk Hno. unfold total. apply sumQ_ext. intros a Ha. apply in_seq in Ha. destruct (Z.eqb_spec (lab labels a) z) as [E|E]; [|reflexivity].
    rewrite (not_lacking a k t); [reflexivity|lia|auto|]. apply Hno. unfold region. rewrite <- E. apply nth_error_nth'. lia. }
  split; intros H k t Hk; specialize (H k t Hk).
  - destruct (some_lacks k (filter (fun a => Z.eqb (lab labels a) z) (seq 0 n))) as [[a [Ha Hl]]|Hno].
    + left. exists a. split; [|auto]. apply filter_In in Ha. destruct Ha as [Ha E]. apply in_seq in Ha. apply Z.eqb_eq in E.
      unfold region. rewrite <- E. apply nth_error_nth'. lia.
    + right. rewrite <- (Hsame k t); auto. intros a Ha. apply Hno. apply filter_In. split.
      * apply in_seq. apply nth_error_lt in Ha. lia.
      * apply Z.eqb_eq. apply lab_of_nth_error; auto.
  - destruct (some_lacks k (filter (fun a => Z.eqb (lab labels a) z) (seq 0 n))) as [[a [Ha Hl]]|Hno].
    + apply filter_In in Ha. destruct Ha as [Ha E]. apply in_seq in Ha. pose proof (lacking a k t ltac:(lia) Hk Hl) as Ht.
      unfold total. rewrite Hlen.
      assert (Hge : forall l, (forall b, In b l -> b < n) -> In a l ->
         (nth k (nth a sp' []) 0 <= sumQ (map (fun b => if Z.eqb (lab labels b) z then nth k (nth b sp' []) 0 else 0) l))%Q).
      { assert (Hpos : forall b, b < n -> (0 <= (if Z.eqb (lab labels b) z then nth k (nth b sp' []) 0 else 0))%Q).
        { intros b Hb. destruct (Z.eqb (lab labels b) z); [|apply Qle_refl]. destruct (nth_in_or_default k (nth b sp' []) 0%Q) as [Hi|Hi]; [|rewrite Hi; apply Qle_refl].
          eapply rr_nonneg; [apply (filled_row b Hb)|exact Hi]. }
        induction l as [|b l IH]; intros Hl1 Hin; [destruct Hin|]. cbn [map]; rewrite sumQ_cons. destruct Hin as [->|Hin].
        - rewrite E. assert (0 <= sumQ (map (fun b => if Z.eqb (lab labels b) z then nth k (nth b sp' []) 0 else 0) l))%Q.
          { clear IH. assert (Hl2 : forall b, In b l -> b < n) by (intros b Hb; apply Hl1; right; auto). clear Hl1.
            induction l as [|b l IH]; cbn [map]; [rewrite sumQ_nil; lra|]. rewrite sumQ_cons. specialize (Hpos b (Hl2 b (or_introl eq_refl))).
            assert (forall b, In b l -> b < n) by (intros b' Hb'; apply Hl2; right; auto). specialize (IH H0). lra. }
          lra.
        - specialize (Hpos b (Hl1 b (or_introl eq_refl))). specialize (IH (fun b' H' => Hl1 b' (or_intror H')) Hin). lra. }
      specialize (Hge (seq 0 n) ltac:(intros b Hb; apply in_seq in Hb; lia) ltac:(apply in_seq; lia)). lra.
    + assert (Hno' : forall a, region labels z a -> ~ lacks sp a k).
      { intros a Ha. apply Hno. apply filter_In. split; [apply in_seq; apply nth_error_lt in Ha; lia|]. apply Z.eqb_eq. apply lab_of_nth_error; auto. }
      rewrite (Hsame k t); auto. destruct H as [[a [Ha Hl]]|H]; [destruct (Hno' a Ha Hl)|auto].
Qed.

Lemma filled_meets_in l : (forall a, In a l -> a < n) -> (meets_in sp' thr l <-> meets_known_in sp thr l).
Proof.
  intros Hlt. assert (Hsame : forall k t, nth_error thr k = Some t -> (forall a, In a l -> ~ lacks sp a k) ->
     (total_in sp' l k == total_in (known sp) l k)%Q).
  { intros k t Hk Hno. unfold total_in. apply sumQ_ext. intros a Ha. rewrite (not_lacking a k t); auto. reflexivity. }
  split; intros H k t Hk; specialize (H k t Hk).
  - destruct (some_lacks k l) as [Hl|Hno]; [auto|right]. rewrite <- (Hsame k t); auto.
  - destruct (some_lacks k l) as [[a [Ha Hl]]|Hno].
    + pose proof (lacking a k t (Hlt a Ha) Hk Hl) as Ht. unfold total_in.
      assert (Hpos : forall b, In b l -> (0 <= nth k (nth b sp' []) 0)%Q).
      { intros b Hb. destruct (nth_in_or_default k (nth b sp' []) 0%Q) as [Hi|Hi]; [|rewrite Hi; lra].
        eapply rr_nonneg; [apply (filled_row b (Hlt b Hb))|exact Hi]. }
      clear - Ha Ht Hpos. assert (Hge : (nth k (nth a sp' []) 0 <= sumQ (map (fun b => nth k (nth b sp' []) 0) l))%Q); [|lra].
      induction l as [|b l IH]; [destruct Ha|]. cbn [map]. rewrite sumQ_cons.
      assert (H0 : (0 <= sumQ (map (fun b => nth k (nth b sp' []) 0) l))%Q).
      { clear - Hpos. assert (Hp : forall b, In b l -> (0 <= nth k (nth b sp' []) 0)%Q) by (intros x Hx; apply Hpos; right; auto). clear Hpos.
        induction l as [|b' l IH]; cbn [map]; [rewrite sumQ_nil; lra|]. rewrite sumQ_cons. specialize (IH (fun x H => Hp x (or_intror H))).
        specialize (Hp b' (or_introl eq_refl)). lra. }
      destruct Ha as [->|Ha]; [lra|]. specialize (IH Ha (fun x H => Hpos x (or_intror H))). specialize (Hpos b (or_introl eq_refl)). lra.
    + rewrite (Hsame k t); auto. destruct H as [[a [Ha Hl]]|H]; [destruct (Hno a Ha Hl)|auto].
Qed.

(** the guard with missing amounts lets fewer moves pass *)
Lemma ndonor_spec labels a : length labels = n -> a < n -> ndonor_ok sp thr a labels = true ->
  spared sp' thr a labels /\ forall k, ~ lacks sp a k.
Proof.
  intros Hlen Ha H. unfold ndonor_ok in H. pose proof (filled_row a Ha) as Hra.
  destruct (existsb ntrue (nrow sp a)) eqn:Et.
  - assert (Hsum : rr thr (nsum_rows (nrows_of labels (lab labels a) sp)) (sum_rows (rows_of labels (lab labels a) sp'))).
    { unfold nrows_of, rows_of. assert (Hin : In a (where_eq labels (lab labels a))) by (apply where_eq_In, nth_error_nth'; lia).
      assert (Hall : forall b, In b (where_eq labels (lab labels a)) -> b < n).
      { intros b Hb. apply where_eq_In in Hb. apply nth_error_lt in Hb. lia. }
      destruct (where_eq labels (lab labels a)) as [|b0 l]; [destruct Hin|]. clear Hin.
      assert (Hgen : forall b, b < n -> (forall c, In c l -> c < n) -> rr thr (nsum_rows (map (nrow sp) (b :: l))) (sum_rows (map (row sp') (b :: l)))).
      { clear b0 Hall. induction l as [|c l IH]; intros b Hb Hl1.
        - cbn. replace (nadd_rows (nrow sp b) []) with (nrow sp b) by (destruct (nrow sp b); auto).
          replace (add_rows (row sp' b) []) with (row sp' b) by (destruct (row sp' b); auto). apply filled_row; auto.
        - change (nsum_rows (map (nrow sp) (b :: c :: l))) with (nadd_rows (nrow sp b) (nsum_rows (map (nrow sp) (c :: l)))).
          change (sum_rows (map (row sp') (b :: c :: l))) with (add_rows (row sp' b) (sum_rows (map (row sp') (c :: l)))).
          apply rr_add; [apply filled_row; auto|]. apply IH; [apply Hl1; left; auto|intros x Hx; apply Hl1; right; auto]. }
      apply Hgen; [apply Hall; left; auto|intros c Hc; apply Hall; right; auto]. }
    destruct (rr_sub thr _ _ _ _ Hsum Hra H) as [Hre [_ Hn]]. split.
    + apply (donor_ok_spec sp' thr labels a); [rewrite Hlen; apply filled_shaped|lia|]. unfold donor_ok. destruct (any_nonzero (row sp' a)); auto.
    + intros k Hk. apply Hn. apply nth_error_In in Hk. exact Hk.
  - split; [left; apply (rr_zero thr (nrow sp a)); auto|]. intros k Hk. apply nth_error_In in Hk.
    assert (Ht : existsb ntrue (nrow sp a) = true); [|congruence]. apply existsb_exists. exists None. auto.
Qed.
End Filled.

(** ** the local search on one component *)
Section WrapComponent.
Variable expf : Q -> Q.
Variables (sp_all sp : list (list (option Q))) (thr : list Q).
Variable sp' : list (list Q).
Variable g : graph.
Hypothesis Hsym : symmetric g.
Hypothesis Hrec : recorded sp thr (gn g).
Hypothesis Hknown : known_non_negative sp.
Hypothesis Hfill : amply_filled thr sp sp'.
Variable E : exn -> Prop.
Variable N : Prop.
Variable c0 : common.
(** whether the component met the thresholds at the start *)
Variable M : Prop.
Variable l0 : list Z.
Variable Inner : nstrategy -> list Z -> Prop.
Hypothesis Hinner : forall s a r l rg, wf g l -> legal_move g l a r -> Inner s l ->
  post E N (nstrat_call expf s a r l rg) (fun '(b, s', _) => Inner s' (if b : bool then upd l a r else l)).

Definition nmp_I (s : nstrategy) (l : list Z) : Prop :=
  exists inner, s = NMaxP c0 sp_all sp thr inner /\ (M -> forall z, In z l -> meets sp' thr l z) /\
    (forall a k, lacks sp a k -> lab l a = lab l0 a) /\ Inner inner l.

Lemma nmp_call_post s a r l rg : wf g l -> legal_move g l a r -> nmp_I s l ->
  post E N (nstrat_call expf s a r l rg) (fun '(b, s', _) => nmp_I s' (if b : bool then upd l a r else l)).
Proof.
  intros Hwf Hl [inner [-> [Hm [Hpin Hin]]]].
  assert (Hlen : length l = gn g) by apply Hwf. pose proof Hl as [Ha [D [HD [Hne [_ [b [_ [Hb _]]]]]]]].
  cbn [nstrat_call]. destruct (ndonor_ok sp thr a l) eqn:Ed; [|cbn; exists inner; auto].
  destruct (ndonor_spec sp sp' thr (gn g) Hrec Hknown Hfill l a Hlen Ha Ed) as [Hsp Hno].
  pose proof (Hinner inner a r l rg Hwf Hl Hin) as Hp.
  destruct (nstrat_call expf inner a r l rg) as [[[b1 s1] rg1]|e|]; cbn [bind post] in *; [|auto|auto].
  exists s1. split; [auto|]. destruct b1; [|auto]. split; [|split; [|auto]].
  - intros HM. specialize (Hm HM).
    apply (spared_meets sp' thr a r l); auto.
    + apply (filled_non_negative sp sp' thr (gn g)); auto.
    + lia.
    + eapply nth_error_In; eauto.
    + apply lab_of_nth_error in HD. congruence.
  - intros x k Hx. rewrite lab_upd_ne; [eauto|]. intros ->. exact (Hno k Hx).
Qed.

Theorem nmp_component_post fuel labels0 s rg : wf g labels0 -> labels0 <> [] -> nmp_I s labels0 -> (N \/ gn g + 1 < fuel) ->
  post E N (azp_component nstrategy (nstrat_call expf) nstrat_val g fuel labels0 s rg)
    (fun '(labels', s', _) => wf g labels' /\ same_labels labels' labels0 /\ nmp_I s' labels').
Proof.
  intros Hwf Hne HI Hf.
  eapply (post_weaken E E N N); [auto|auto| |
    apply (azp_component_post nstrategy (nstrat_call expf) nstrat_val g Hsym E N nmp_I (fun _ => nmp_I) (fun _ _ _ _ => True) (fun _ _ _ => True))
     with (m := fun _ => 0)]; auto.
  - intros [[l' s'] rg'] _ [Hwf' [Hs' [HI' _]]]. auto.
  - intros _ s1 a r l rg1 H1 H2 H3. eapply (post_weaken E E N N); [auto|auto| |apply nmp_call_post; eauto].
    intros [[b s'] rg'] _ H. destruct b; auto.
  - right. intros s1 l1 s2 l2 _ _ [i1 [-> _]] _ _ [i2 [-> _]] Hlt. cbn in Hlt. lra.
Qed.
End WrapComponent.

(** ** all components *)
Section WrapFit.
Variable expf : Q -> Q.
Variable order : list edge -> list edge.
Hypothesis Hord : forall l, Permutation (order l) l.
Variable O : objfun.
Variable g : graph.
Hypothesis Hsym : symmetric g.
Variable attr : list (list Q).
Variable sp : list (list (option Q)).
Variable sp' : list (list Q).
Variable thr : list Q.
Hypothesis Hrec : recorded sp thr (gn g).
Hypothesis Hknown : known_non_negative sp.
Hypothesis Hfill : amply_filled thr sp sp'.
Variable E : exn -> Prop.
Variable N : Prop.
Variable JI : nstrategy -> Prop.
Variable Inner : nat -> list Z -> nstrategy -> list Z -> Prop.
Hypothesis Hstart : forall c l inner, c < n_components g -> wf (comp_graph g c) l -> JI inner ->
  post E N (let* _ := start_common l (attr_c attr g c) O in nstrat_start O inner l (attr_c attr g c) (comp_nodes g c))
    (fun i => Inner c l i l).
Hypothesis Hcall : forall c l0 s a r l rg, c < n_components g -> wf (comp_graph g c) l -> legal_move (comp_graph g c) l a r -> Inner c l0 s l ->
  post E N (nstrat_call expf s a r l rg) (fun '(b, s', _) => Inner c l0 s' (if b : bool then upd l a r else l)).
Hypothesis HJ : forall c l0 s l, Inner c l0 s l -> JI s.

Lemma comp_recorded c : recorded (map (nrow sp) (comp_nodes g c)) thr (gn (comp_graph g c)).
Proof.
  destruct Hrec as [Hl Hx]. split; [rewrite map_length, comp_graph_n; auto|]. intros x H. apply in_map_iff in H.
  destruct H as [a [<- Ha]]. apply Hx. apply nth_In. rewrite Hl. eapply comp_nodes_lt; eauto.
Qed.
Lemma comp_known c : known_non_negative (map (nrow sp) (comp_nodes g c)).
Proof.
  intros x q Hx Hq. apply in_map_iff in Hx. destruct Hx as [a [<- Ha]]. apply (Hknown (nrow sp a)); auto.
  apply nth_In. destruct Hrec as [Hl _]. rewrite Hl. eapply comp_nodes_lt; eauto.
Qed.
Lemma comp_filled c : amply_filled thr (map (nrow sp) (comp_nodes g c)) (map (row sp') (comp_nodes g c)).
Proof.
  assert (Hall : forall a, In a (comp_nodes g c) -> row_for thr (nrow sp a) (row sp' a)).
  { intros a Ha. apply comp_nodes_lt in Ha. destruct Hrec as [Hl _]. rewrite <- Hl in Ha. apply Forall2_row; auto. }
  unfold amply_filled. induction (comp_nodes g c) as [|a l IH]; cbn [map]; constructor; [apply Hall; left; auto|].
  apply IH. intros b Hb. apply Hall. right; auto.
Qed.

Theorem nwrapped_fit_post fuel p l c1 sp1 inner r : (N \/ gn g + 1 < fuel) ->
  (0 <= p)%Z -> feasible g l (Z.to_nat p) -> ~ In (-1)%Z l -> all_meet sp' thr l -> JI inner ->
  post E N (nstrat_fit expf order O fuel g attr p (Some l) (NMaxP c1 sp sp1 thr inner) r)
    (fun '((labels, s'), _) => feasible g labels (Z.to_nat p) /\ all_meet sp' thr labels /\
       (exists c2 sp2 inner', s' = NMaxP c2 sp sp2 thr inner' /\ JI inner') /\
       (forall a k, lacks sp a k -> nth_error labels a = nth_error l a) /\
       forall c, c < n_components g -> exists s, Inner c (comp_part g l c) s (comp_part g labels c)).
Proof.
  intros Hfuel Hp0 Hfeas Hm1 Hmeet HJI. unfold nstrat_fit.
  set (J := fun s => exists c2 sp2 inner', s = NMaxP c2 sp sp2 thr inner' /\ JI inner').
  set (spc := fun c => map (row sp') (comp_nodes g c)).
  set (R := fun c l l' => wf (comp_graph g c) l' /\ same_labels l' l /\
     ((forall z, In z l -> meets (spc c) thr l z) -> (forall z, In z l' -> meets (spc c) thr l' z)) /\
     (forall a k, lacks (map (nrow sp) (comp_nodes g c)) a k -> lab l' a = lab l a) /\ exists s, Inner c l s l').
  assert (Hfp : post E N (fit nstrategy (nstrat_start O) (fun adj labels _ s r => azp_component nstrategy (nstrat_call expf) nstrat_val adj fuel labels s r)
       order g attr p (Some l) (NMaxP c1 sp sp1 thr inner) r)
    (fun '((labels, s'), _) => J s' /\ exists labels0, started_from g p (Some l) labels0 /\
       length labels = gn g /\
       forall c, c < n_components g -> R c (comp_part g labels0 c) (comp_part g labels c))).
  2: {
    eapply (post_weaken E E N N); [auto|auto| |exact Hfp].
    intros [[labels s'] r'] _ [HJ' [l0 [[_ [_ ->]] [Hlen HR]]]].
    destruct Hfeas as [Hl [Hn Hall]].
    assert (Hmc : forall c, c < n_components g -> forall z, In z (comp_part g l c) -> meets (spc c) thr (comp_part g l c) z).
    { intros c Hc z Hz. apply comp_part_In in Hz; auto. destruct Hz as [a [Ha [Hca Ez]]]. subst c.
      apply meets_comp; [split; auto|auto|]. apply Hmeet. eapply nth_error_In; eauto. }
    assert (Hparts : forall c, c < n_components g -> wf (comp_graph g c) (comp_part g labels c) /\ same_labels (comp_part g labels c) (comp_part g l c)).
    { intros c Hc. destruct (HR c Hc) as [H1 [H2 _]]. auto. }
    assert (Hwf : wf g labels) by (split; [auto|apply (assembled_wf g l labels (conj Hl Hall) Hlen Hparts)]).
    split; [|split; [|split; [exact HJ'|split]]].
    - split; [auto|]. split; [|apply Hwf]. rewrite <- Hn. apply same_labels_n. apply (assembled_same_labels g); auto. split; auto.
    - intros z Hz. apply In_nth_error in Hz. destruct Hz as [a Ha]. assert (Hag : a < gn g) by (apply nth_error_lt in Ha; lia).
      apply (meets_comp sp' thr g labels a z Hwf Ha). destruct (HR (comp_label g a) (comp_label_lt g a Hag)) as [_ [_ [H _]]].
      apply H; [apply Hmc, comp_label_lt; auto|]. apply comp_part_In; eauto.
    - intros a k Hk. destruct Hrec as [Hls _].
      assert (Hag : a < gn g).
      { destruct (Nat.ltb_spec a (gn g)) as [|Hge]; [auto|]. unfold lacks in Hk. rewrite nth_overflow in Hk by lia. destruct k; discriminate. }
      assert (Hin : In a (comp_nodes g (comp_label g a))) by (apply comp_nodes_In; auto).
      apply (In_nth _ _ 0) in Hin. destruct Hin as [i [Hi Ei]].
      destruct (HR (comp_label g a) (comp_label_lt g a Hag)) as [_ [_ [_ [H _]]]].
      assert (Hlk : lacks (map (nrow sp) (comp_nodes g (comp_label g a))) i k).
      { unfold lacks. rewrite (nth_indep _ [] (nrow sp 0)) by (rewrite map_length; auto). rewrite map_nth, Ei. exact Hk. }
      specialize (H i k Hlk).
      assert (Hpart : forall lb, length lb = gn g -> lab (comp_part g lb (comp_label g a)) i = lab lb a).
      { intros lb Hlb. apply lab_of_nth_error. unfold comp_part. pose proof (gather_nth (-1)%Z lb (comp_nodes g (comp_label g a)) i a) as Hg.
        rewrite Hg; [apply nth_error_nth'; lia|pose proof (nth_error_nth' (comp_nodes g (comp_label g a)) 0 Hi) as He; rewrite Ei in He; exact He|lia]. }
      rewrite !Hpart in H by auto. rewrite (nth_error_nth' labels (-1)%Z) by lia. rewrite (nth_error_nth' l (-1)%Z) by lia.
      f_equal. exact H.
    - intros c Hc. destruct (HR c Hc) as [_ [_ [_ [_ H]]]]. exact H. }
  apply (fit_post nstrategy _ _ order g attr E N J R); auto.
  - intros c lc s rg Hc Hwf [c2 [sp2 [i2 [-> HJi]]]]. unfold run_component. cbn [nstrat_start]. fold (attr_c attr g c).
    pose proof (Hstart c lc i2 Hc Hwf HJi) as Hs.
    destruct (start_common lc (attr_c attr g c) O) as [cc|e|]; cbn [bind] in *; [|exact Hs|exact Hs].
    destruct (nstrat_start O i2 lc (attr_c attr g c) (comp_nodes g c)) as [i3|e|]; cbn [bind post] in *; [|exact Hs|exact Hs].
    eapply (post_weaken E E N N); [auto|auto| |
      apply (nmp_component_post expf sp (map (nrow sp) (comp_nodes g c)) thr (spc c) (comp_graph g c) (comp_symmetric g c Hsym)
        (comp_recorded c) (comp_known c) (comp_filled c) E N cc (forall z, In z lc -> meets (spc c) thr lc z) lc (Inner c lc))]; auto.
    + intros [[l' s'] r'] _ [Hwf' [Hs' [i' [-> [Hm' [Hpin Hi']]]]]]. split; [exists cc, (map (nrow sp) (comp_nodes g c)), i'; split; [auto|eapply HJ; eauto]|].
      split; [destruct Hwf, Hwf'; lia|]. split; [auto|]. split; [auto|]. split; [auto|]. split; [auto|eauto].
    + eapply comp_part_nonempty; eauto.
    + exists i3. auto.
    + destruct Hfuel as [?|Hfuel]; [auto|right]. pose proof (comp_graph_le g c). lia.
  - split; auto.
  - exists c1, sp1, inner. auto.
Qed.
End WrapFit.

(** ** the default strategy inside *)
Fixpoint ntr (O : objfun) (attr : list (list Q)) (v0 : Q) (s : nstrategy) (l : list Z) : Prop :=
  match s with NBase s => tr O attr v0 s l | NMaxP _ _ _ _ inner => ntr O attr v0 inner l end.
Lemma ntr_inside O attr v0 s l : ntr O attr v0 s l -> nazp_inside s.
Proof. induction s; cbn; [apply tr_inside|auto]. Qed.
Lemma ntr_value O attr v s l : ntr O attr v s l -> exists y, o_call O l attr = Ok y /\ (y <= v)%Q.
Proof. induction s as [s|c sa sc t inner IH]; cbn [ntr]; [|exact IH]. exact (tr_value (fun q => q) (fun _ _ => 0%Q) [] O attr v s l). Qed.
Lemma ntr_call_post expf O attr g v0 N s a r l rg : exact_objective O attr -> length attr = gn g -> wf g l -> legal_move g l a r -> ntr O attr v0 s l ->
  post noexn N (nstrat_call expf s a r l rg) (fun '(b, s', _) => ntr O attr v0 s' (if b : bool then upd l a r else l)).
Proof.
  intros Hex Hattr Hwf Hl. revert rg. induction s as [s|c sp_all sp thr inner IH]; intros rg H; cbn [ntr nstrat_call] in *.
  - eapply (post_bind noexn N); [apply (tr_call_post expf O attr g v0 N s a r l rg Hex Hattr Hwf Hl H)|]. intros [[b s'] rg'] _ Hb. cbn. auto.
  - destruct (ndonor_ok sp thr a l); [|cbn; auto].
    eapply (post_bind noexn N); [apply IH; auto|]. intros [[b s'] rg'] _ Hb. cbn. auto.
Qed.
Lemma ntr_start O attr s l idx v : nazp_inside s -> o_call O l attr = Ok v ->
  exists s', nstrat_start O s l attr idx = Ok s' /\ ntr O attr v s' l.
Proof.
  intros Hi Ev. induction s as [s|c sp_all sp thr inner IH]; cbn [nazp_inside nstrat_start] in *.
  - destruct (tr_start O attr s l idx v Hi Ev) as [s' [Es Hs]]. rewrite Es. cbn. eauto.
  - destruct (IH Hi) as [s' [Es Hs']]. unfold start_common. rewrite Ev. cbn. rewrite Es. cbn. eauto.
Qed.

Lemma anyexn_any {A} (m : out A) : post anyexn True m (fun _ => True).
Proof. destruct m; exact Logic.I. Qed.

(** ** the whole fit *)
Section Whole.
Variable expf : Q -> Q.
Variable order : list edge -> list edge.
Hypothesis Hord : forall l, Permutation (order l) l.
Variable O : objfun.
Variable d : list Q -> list Q -> Q.
Variable g : graph.
Variable attr : list (list Q).
Variable sp : list (list (option Q)).
Variable sp' : list (list Q).
Variable thr : list Q.
Hypothesis Hsym : symmetric g.
Hypothesis Hloop : no_self_loops g.
Hypothesis Hrec : recorded sp thr (gn g).
Hypothesis Hknown : known_non_negative sp.
Hypothesis Hfill : amply_filled thr sp sp'.
Let Hrows := filled_rows sp sp' thr (gn g) Hrec Hknown Hfill.
Let Hsh := filled_shaped sp sp' thr (gn g) Hrec Hknown Hfill.
Let Hnn := filled_non_negative sp sp' thr (gn g) Hrec Hknown Hfill.

Theorem nmaxp_azp_any fuel max_it entropy labels0 ls r : 0 < max_it ->
  post anyexn True (nmaxp_azp_fit expf order O d fuel g attr sp thr max_it entropy labels0 ls r)
    (fun '(labels, _, _) => exists mp before r1 parts r2 l,
       construct d g attr sp' thr max_it 0 [] r = Ok (mp, before, r1) /\ assign_each d g attr before r1 = Ok (parts, r2) /\
       labels = Some l /\ valid_result g sp' thr mp l /\
       exists P l0, In P parts /\ array_from_region_list P = Ok l0 /\ keeps sp l0 l).
Proof.
  intros Hit. unfold nmaxp_azp_fit. rewrite (nmaxp_fit_same d g attr sp sp' thr Hrows).
  set (JW := fun s => exists c1 sp1 inner, s = NMaxP c1 sp sp1 thr inner).
  eapply (post_weaken anyexn anyexn True True); [auto|auto| |
    apply (maxp_fit_post nstrategy _ _ O d g attr sp' thr Hsym Hloop Hsh Hnn anyexn True (fun _ => True) JW
      (fun mp l0 l => valid_result g sp' thr mp l /\ keeps sp l0 l))]; auto.
  - intros [[labels ls'] r'] _ [mp [before [r1 [parts [r2 [l [v [s' [H1 [H2 [H3 [_ [_ [_ [_ [[_ [P [l0 [HP [E0 [_ [HV HK]]]]]]] _]]]]]]]]]]]]]]]].
    exists mp, before, r1, parts, r2, l. do 4 (split; [auto|]). exists P, l0. auto.
  - intros s _. unfold JW. eauto.
  - intros mp s l0 r0 [c1 [sp1 [inner ->]]] [Hf [Hm1 Hmeet]].
    eapply (post_bind anyexn True _ _ _ _).
    + apply (nwrapped_fit_post expf order Hord O g Hsym attr sp sp' thr Hrec Hknown Hfill anyexn True (fun _ => True) (fun _ _ _ _ => True)); auto.
      * intros. apply anyexn_any.
      * intros. destruct (nstrat_call _ _ _ _ _ _) as [[[b s2] rg1]| |]; cbn [post]; auto; exact Logic.I.
      * lia.
      * rewrite Nat2Z.id. auto.
    + intros [[labels s'] r'] _ [H1 [H2 [[c2 [sp2 [i2 [-> _]]]] [H3 _]]]]. cbn [post]. rewrite Nat2Z.id in H1.
      split; [exists c2, sp2, i2; auto|]. exists labels. split; [auto|]. split; [split; auto|exact H3].
  - intros mp l0 l _ _. apply anyexn_any.
  - intros mp x m _ _. exact Logic.I.
  - destruct ls; auto.
Qed.

Hypothesis Hattr : length attr = gn g.
Hypothesis Hex : exact_on O attr.

Theorem nmaxp_azp_default N fuel max_it entropy labels0 ls r : 0 < max_it -> (N \/ gn g + 1 < fuel) ->
  match ls with Some s => nazp_inside s | None => True end ->
  post (fun e => (exists v isl, v < gn g /\ island g v isl /\ ~ meets_in sp' thr isl) /\ exists m, e = ValueError m) N
    (nmaxp_azp_fit expf order O d fuel g attr sp thr max_it entropy labels0 ls r)
    (fun '(labels, ls', _) => exists mp before r1 parts r2 l s',
       construct d g attr sp' thr max_it 0 [] r = Ok (mp, before, r1) /\
       assign_each d g attr before r1 = Ok (parts, r2) /\
       labels = Some l /\ ls' = Some s' /\ nazp_inside s' /\ valid_result g sp' thr mp l /\ parts <> [] /\
       forall P, In P parts -> exists l0 l1 v v1, array_from_region_list P = Ok l0 /\ valid_result g sp' thr mp l0 /\
         valid_result g sp' thr mp l1 /\ not_worse O g attr l0 l1 /\ o_call O l attr = Ok v /\ o_call O l1 attr = Ok v1 /\ (v <= v1)%Q).
Proof.
  intros Hit Hfuel Hls. unfold nmaxp_azp_fit. rewrite (nmaxp_fit_same d g attr sp sp' thr Hrows).
  set (JW := fun s => exists c1 sp1 inner, s = NMaxP c1 sp sp1 thr inner /\ nazp_inside inner).
  set (Ex := fun e => (exists v isl, v < gn g /\ island g v isl /\ ~ meets_in sp' thr isl) /\ exists m, e = ValueError m).
  eapply (post_weaken Ex Ex N N); [auto|auto| |
    apply (maxp_fit_post nstrategy _ _ O d g attr sp' thr Hsym Hloop Hsh Hnn Ex N nazp_inside JW
      (fun mp l0 l => valid_result g sp' thr mp l /\ not_worse O g attr l0 l))]; auto.
  - intros [[labels ls'] r'] _ [mp [before [r1 [parts [r2 [l [v [s' [H1 [H2 [H3 [H4 [H5 [H6 [H7 [[Ev [P [l0 [_ [_ [_ [H _]]]]]]] Hc]]]]]]]]]]]]]]]].
    exists mp, before, r1, parts, r2, l, s'. do 7 (split; [auto|]).
    intros P' HP'. destruct (Hc P' HP') as [l0' [l1 [v1 [E0 [HG [[HR1 HR2] [Ev1 Hle]]]]]]]. exists l0', l1, v, v1.
    destruct HG as [G1 [G2 G3]]. split; [auto|]. split; [split; auto|]. auto.
  - intros s Hs. unfold JW. eauto.
  - intros s [c1 [sp1 [inner [-> Hi]]]]. exact Hi.
  - intros mp s l0 r0 [c1 [sp1 [inner [-> Hi]]]] [Hf [Hm1 Hmeet]].
    eapply (post_bind Ex N _ _ _ _).
    + set (Inner := fun c l0 s l => exists v0, o_call O l0 (attr_c attr g c) = Ok v0 /\ ntr O (attr_c attr g c) v0 s l).
      apply (nwrapped_fit_post expf order Hord O g Hsym attr sp sp' thr Hrec Hknown Hfill Ex N nazp_inside Inner); auto.
      * intros c l i Hc Hwf Hii. destruct (attr_c_exact O attr Hex g Hattr c) as [Hcall _].
        destruct (Hcall l) as [v Ev]; [rewrite attr_c_length; apply Hwf|].
        unfold start_common. rewrite Ev. cbn [bind]. destruct (ntr_start O (attr_c attr g c) i l (comp_nodes g c) v Hii Ev) as [s' [Es Ht]].
        rewrite Es. cbn [post]. exists v. auto.
      * intros c l1 s a r1 l rg Hc Hwf Hl [v0 [Ev0 Ht]].
        eapply (post_weaken noexn Ex N N); [intros e []|auto| |apply (ntr_call_post expf O (attr_c attr g c) (comp_graph g c) v0 N)]; auto.
        -- intros [[b s'] rg'] _ H. exists v0. auto.
        -- apply attr_c_exact; auto.
        -- apply attr_c_length.
      * intros c l1 s l [v0 [_ Ht]]. eapply ntr_inside; eauto.
      * lia.
      * rewrite Nat2Z.id. auto.
    + intros [[labels s'] r'] _ [H1 [H2 [[c2 [sp2 [i2 [-> Hi2]]]] [_ HIn]]]]. cbn [post]. rewrite Nat2Z.id in H1.
      split; [exists c2, sp2, i2; auto|]. exists labels. split; [auto|]. split; [split; auto|].
      intros c Hc. destruct (HIn c Hc) as [s [v0 [Ev0 Ht]]]. destruct (ntr_value _ _ _ _ _ Ht) as [y [Ey Hy]].
      exists v0, y. auto.
  - intros mp l0 l _ [[[Hl _] _] _]. destruct (Hex attr (fun x H => H)) as [Hcall _].
    destruct (Hcall l) as [v Ev]; [lia|]. rewrite Ev. cbn; auto.
  - intros mp x m [Hl [F [HE HG]]] Hn. split; [|eauto].
    destruct (unmet_island g sp' thr) as [H|H]; [|exact H].
    exfalso. apply Hn. apply (island_served g Hsym sp' thr (fst x) F HG). exact H.
  - destruct ls; cbn; auto.
Qed.
End Whole.

(** ** the least ample amounts *)
Definition enough (thr : list Q) (x : list (option Q)) : list Q :=
  map (fun p => match snd p with Some q => q | None => if Qle_bool 0 (fst p) then fst p else 0%Q end) (combine thr x).
Lemma enough_for thr x : length x = length thr -> row_for thr x (enough thr x).
Proof.
  intros H. split; [unfold enough; rewrite map_length, combine_length; lia|]. revert x H.
  induction thr as [|t thr IH]; intros [|o x] H k t0 Hk; cbn in H; try lia; [destruct k; discriminate|].
  destruct k as [|k]; cbn in *.
  - injection Hk as <-. destruct o; [auto|]. destruct (Qle_bool 0 t) eqn:E; [apply Qle_bool_iff in E; split; [apply Qle_refl|auto]|].
    split; [|apply Qle_refl]. destruct (Qlt_le_dec 0 t) as [Hlt|Hle]; [|auto]. apply Qlt_le_weak in Hlt. apply Qle_bool_iff in Hlt. congruence.
  - apply (IH x ltac:(lia) k t0 Hk).
Qed.
Lemma ample_exists sp thr n : recorded sp thr n -> amply_filled thr sp (map (enough thr) sp).
Proof.
  intros [_ H]. unfold amply_filled. induction sp as [|x sp IH]; cbn [map]; constructor.
  - apply enough_for. apply H. left; auto.
  - apply IH. intros y Hy. apply H. right; auto.
Qed.
