(** Max-p heuristic: construction phase, search phase, and the whole fit. *)
From Verif Require Import Base Spec M_Graph P_Graph M_Util P_Base P_Util P_Forest P_Init P_Initial
  M_Objective P_Sum P_Objective M_Azp P_Azp P_Strategy P_Fit P_AzpFit M_Sa M_MaxP P_MaxP P_MaxP2 P_MaxP3 Props_Strategy Props_Azp.

(** ** construction phase *)
(** successive calls of grow_regions *)
Inductive grows (d : list Q -> list Q -> Q) (g : graph) (attr sp : list (list Q)) (thr : list Q) : rng -> list (list (list nat) * list nat) -> rng -> Prop :=
| grows_nil r : grows d g attr sp thr r [] r
| grows_cons r P E r1 runs r2 : grow_regions d g attr sp thr r = Ok (P, E, r1) -> grows d g attr sp thr r1 runs r2 ->
    grows d g attr sp thr r ((P, E) :: runs) r2.

Section Construct.
Variable d : list Q -> list Q -> Q.
Variable g : graph.
Variables attr sp : list (list Q).
Variable thr : list Q.

Lemma construct_spec k : forall mp best r mp' best' r', construct d g attr sp thr k mp best r = Ok (mp', best', r') ->
  (forall x, In x best -> length (fst x) = mp) ->
  exists runs, grows d g attr sp thr r runs r' /\ length runs = k /\ mp <= mp' /\
    (forall x, In x runs -> length (fst x) <= mp') /\
    best' = filter (fun x => Nat.eqb (length (fst x)) mp') (best ++ runs) /\
    (mp' = mp \/ exists x, In x runs /\ length (fst x) = mp').
Proof.
  assert (Hall : forall (l : list (list (list nat) * list nat)) n, (forall x, In x l -> length (fst x) = n) -> filter (fun x => Nat.eqb (length (fst x)) n) l = l).
  { induction l as [|x l IH]; intros n H; cbn; [auto|]. rewrite (proj2 (Nat.eqb_eq _ _)) by (apply H; left; auto). f_equal. apply IH. intros y Hy. apply H; right; auto. }
  assert (Hnone : forall (l : list (list (list nat) * list nat)) n m, n < m -> (forall x, In x l -> length (fst x) = n) -> filter (fun x => Nat.eqb (length (fst x)) m) l = []).
  { induction l as [|x l IH]; intros n m Hlt H; cbn; [auto|]. rewrite (proj2 (Nat.eqb_neq _ _)) by (rewrite (H x (or_introl eq_refl)); lia). eapply IH; eauto. intros y Hy. apply H; right; auto. }
  induction k as [|k IH]; intros mp best r mp' best' r' H Hb; cbn [construct] in H.
  - injection H as <- <- <-. exists []. split; [constructor|]. split; [auto|]. split; [auto|]. split; [intros x []|].
    rewrite app_nil_r, Hall; auto.
  - destruct (grow_regions d g attr sp thr r) as [[[P E] r1]|e|] eqn:Eg; cbn [bind] in H; try discriminate.
    destruct (Nat.ltb_spec mp (length P)) as [Hlt|Hle]; [|destruct (Nat.eqb_spec (length P) mp) as [Heq|Hne]].
    + apply IH in H; [|intros x [<-|[]]; auto]. destruct H as [runs [Hg [Hl [Hmp [Hm [Hb' Hmax]]]]]].
      exists ((P, E) :: runs). split; [econstructor; eauto|]. split; [cbn; auto|]. split; [lia|].
      split; [intros x [<-|Hx]; cbn; auto|]. split; [rewrite Hb', (filter_app _ best), (Hnone best mp mp'); auto; lia|].
      right. destruct Hmax as [->|[x [Hx Ex]]]; [exists (P, E); split; [left; auto|auto]|exists x; split; [right; auto|auto]].
    + apply IH in H; [|intros x Hx; apply in_app_or in Hx; destruct Hx as [Hx|[<-|[]]]; auto].
      destruct H as [runs [Hg [Hl [Hmp [Hm [Hb' Hmax]]]]]].
      exists ((P, E) :: runs). split; [econstructor; eauto|]. split; [cbn; auto|]. split; [lia|].
      split; [intros x [<-|Hx]; cbn; [lia|auto]|]. split; [rewrite Hb', <- app_assoc; auto|].
      destruct Hmax as [->|[x [Hx Ex]]]; [auto|right; exists x; split; [right; auto|auto]].
    + apply IH in H; [|auto]. destruct H as [runs [Hg [Hl [Hmp [Hm [Hb' Hmax]]]]]].
      exists ((P, E) :: runs). split; [econstructor; eauto|]. split; [cbn; auto|]. split; [lia|].
      split; [intros x [<-|Hx]; cbn; [lia|auto]|]. split.
      { rewrite Hb', !filter_app. cbn [filter fst]. rewrite (proj2 (Nat.eqb_neq (length P) mp')) by lia. auto. }
      destruct Hmax as [->|[x [Hx Ex]]]; [auto|right; exists x; split; [right; auto|auto]].
Qed.

Hypothesis Hsym : symmetric g.
Hypothesis Hloop : no_self_loops g.
Hypothesis Hsp : shaped sp thr (gn g).

Definition kept (mp : nat) (x : list (list nat) * list nat) : Prop :=
  length (fst x) = mp /\ exists F, snd x = concat F /\ grown g sp thr (fst x) F [].

Lemma construct_post k : forall mp best r, (forall x, In x best -> kept mp x) -> (best <> [] \/ mp = 0) ->
  post noexn False (construct d g attr sp thr k mp best r)
    (fun '(mp', best', _) => (forall x, In x best' -> kept mp' x) /\ (best' <> [] \/ (k = 0 /\ best = []))).
Proof.
  induction k as [|k IH]; intros mp best r Hb Hne; cbn [construct].
  - cbn [post]. split; [auto|]. destruct best; [right; auto|left; discriminate].
  - eapply (post_bind noexn False); [apply grow_regions_post; auto|]. intros [[P E] r1] _ [F [-> HG]].
    assert (Hnew : kept (length P) (P, concat F)) by (split; [auto|exists F; auto]).
    destruct (Nat.ltb_spec mp (length P)) as [Hlt|Hle]; [|destruct (Nat.eqb_spec (length P) mp) as [Heq|Hn]].
    + eapply (post_weaken noexn noexn False False); [auto|auto| |apply IH].
      * intros [[mp' best'] r'] _ [H1 [H2|[H2 H3]]]; [auto|]. discriminate.
      * intros x [<-|[]]. auto.
      * left. discriminate.
    + subst mp. eapply (post_weaken noexn noexn False False); [auto|auto| |apply IH].
      * intros [[mp' best'] r'] _ [H1 [H2|[H2 H3]]]; [auto|]. destruct best; discriminate.
      * intros x Hx. apply in_app_or in Hx. destruct Hx as [Hx|[<-|[]]]; auto.
      * left. destruct best; discriminate.
    + eapply (post_weaken noexn noexn False False); [auto|auto| |apply IH; auto].
      intros [[mp' best'] r'] _ [H1 [H2|[H2 H3]]]; [auto|]. destruct Hne as [Hne|Hne]; [contradiction|lia].
Qed.

(** ** enclaves *)
Lemma assign_each_post mp : forall before r, (forall x, In x before -> kept mp x) ->
  post (fun e => (exists x, In x before /\ ~ every_island_served g (fst x)) /\ exists m, e = ValueError m) False
    (assign_each d g attr before r)
    (fun '(parts, _) => (forall x, In x before -> every_island_served g (fst x)) /\
       Forall2 (fun x P' => partial_partition g P' [] /\ Forall2 (@incl nat) (fst x) P') before parts).
Proof.
  induction before as [|[P E] before IH]; intros r Hk; cbn [assign_each].
  - cbn [post]. split; [intros x []|constructor].
  - destruct (Hk (P, E) (or_introl eq_refl)) as [Hl [F [HE HG]]]. cbn [fst snd] in *.
    eapply (post_bind _ False _ _ (fun '(P', _) => every_island_served g P /\ partial_partition g P' [] /\ Forall2 (@incl nat) P P')).
    + eapply post_weaken; [| | |apply (assign_enclaves_post d g attr Hsym P E r)]; auto.
      * intros e [Hs Hm]. split; [exists (P, E); split; [left; auto|exact Hs]|exact Hm].
      * rewrite HE. eapply grown_partial; eauto.
    + intros [P' r1] _ [Hs [Hpp Hincl]].
      eapply (post_bind _ False _ _ (fun '(parts, _) => (forall x, In x before -> every_island_served g (fst x)) /\
         Forall2 (fun x P' => partial_partition g P' [] /\ Forall2 (@incl nat) (fst x) P') before parts)).
      * eapply post_weaken; [| | |apply IH]; auto.
        -- intros e [[x [Hx Hn]] Hm]. split; [exists x; split; [right; auto|auto]|auto].
        -- intros x Hx. apply Hk. right; auto.
      * intros [ps r2] _ [H1 H2]. cbn [post]. split; [intros x [<-|Hx]; auto|]. constructor; auto.
Qed.

Hypothesis Hpos : non_negative sp.
(** what the local search starts from *)
Definition startable (mp : nat) (P : list (list nat)) : Prop :=
  exists l, array_from_region_list P = Ok l /\ feasible g l mp /\ ~ In (-1)%Z l /\ all_meet sp thr l.

Lemma Forall2_len {A B} (R : A -> B -> Prop) l l' : Forall2 R l l' -> length l = length l'.
Proof. induction 1; cbn; auto. Qed.
Lemma Forall2_nth_r {A B} (R : A -> B -> Prop) l l' : Forall2 R l l' -> forall k y, nth_error l' k = Some y ->
  exists x, nth_error l k = Some x /\ R x y.
Proof. induction 1; intros [|k] z Hz; cbn in *; try discriminate; [injection Hz as <-; eauto|eauto]. Qed.

Lemma kept_startable mp x P' : kept mp x -> partial_partition g P' [] -> Forall2 (@incl nat) (fst x) P' -> startable mp P'.
Proof.
  intros [Hl [F [HE HG]]] Hpp Hincl. pose proof (array_of_partition g P' Hpp) as [l [El [Hf [Hm1 Hz]]]].
  assert (Hlen : length P' = mp) by (rewrite <- Hl; symmetry; eapply Forall2_len; eauto).
  exists l. rewrite Hlen in Hf. split; [auto|]. split; [auto|]. split; [auto|].
  intros z Hzin. destruct (Hz z Hzin) as [k [-> [Hk Hreg]]].
  destruct (Forall2_nth_r _ _ _ Hincl k (nth k P' [])) as [R [HR Hsub]]; [apply nth_error_nth'; auto|].
  pose proof Hpp as [Hnd _]. rewrite app_nil_r in Hnd.
  assert (HndP : NoDup (nth k P' [])) by (eapply NoDup_in_concat; eauto; apply nth_In; auto).
  intros j t Hj. rewrite (total_region sp l _ (nth k P' []) j Hreg HndP).
  assert (HRin : In R (fst x)) by (eapply nth_error_In; eauto).
  assert (Hm : meets_in sp thr (nth k P' [])).
  { apply (meets_mono sp thr R); auto.
    - pose proof (grown_partial _ _ _ _ _ HG) as [Hnd' _]. apply NoDup_app_l in Hnd'. eapply NoDup_in_concat; eauto.
    - destruct HG as [_ [HG _]]. apply (HG R HRin). }
  apply Hm; auto.
Qed.
End Construct.

(** ** search phase *)
Section SearchPost.
Variable LS : Type.
Variable wrap : LS -> LS.
Variable ls_fit : LS -> Z -> list Z -> rng -> out (option (list Z) * LS * rng).
Variable obj : objfun.
Variable attr : list (list Q).
Variable E : exn -> Prop.
Variable N : Prop.
Variable mp : nat.
(** the local search object before and after wrapping *)
Variables JL JW : LS -> Prop.
Variable Good : list Z -> Prop.
Variable Res : list Z -> list Z -> Prop.
Hypothesis Hwrap : forall s, JL s -> JW (wrap s).
Hypothesis HWL : forall s, JW s -> JL s.
Hypothesis Hfit : forall s l0 r, JW s -> Good l0 ->
  post E N (ls_fit s (Z.of_nat mp) l0 r) (fun '(l, s', _) => JW s' /\ exists l', l = Some l' /\ Res l0 l').
Hypothesis Hobj : forall l0 l, Good l0 -> Res l0 l -> post E N (o_call obj l attr) (fun _ => True).

Definition at_most (b : best) (v : Q) : Prop := match b with None => False | Some (w, _) => (w <= v)%Q end.
Definition from (parts : list (list (list nat))) (b : best) : Prop :=
  match b with
  | None => True
  | Some (v, l) => o_call obj l attr = Ok v /\
                   exists P l0, In P parts /\ array_from_region_list P = Ok l0 /\ Good l0 /\ Res l0 l
  end.
Definition covered (b : best) (P : list (list nat)) : Prop :=
  exists l0 l v, array_from_region_list P = Ok l0 /\ Good l0 /\ Res l0 l /\ o_call obj l attr = Ok v /\ at_most b v.
Definition below (b b' : best) : Prop := forall v, at_most b v -> at_most b' v.

Lemma search_all_post parts0 : forall parts s b r, (forall P, In P parts -> In P parts0) -> (forall P, In P parts -> exists l0, array_from_region_list P = Ok l0 /\ Good l0) ->
  JW s -> from parts0 b ->
  post E N (search_all LS ls_fit obj attr mp parts s b r)
    (fun '(s', b', _) => JW s' /\ from parts0 b' /\ below b b' /\ forall P, In P parts -> covered b' P).
Proof.
  induction parts as [|P parts IH]; intros s b r Hsub Hgood Hs Hb; cbn [search_all].
  - cbn [post]. split; [auto|]. split; [auto|]. split; [intros v; auto|intros P []].
  - destruct (Hgood P (or_introl eq_refl)) as [l0 [E0 HG0]]. rewrite E0. cbn [bind].
    eapply post_bind; [apply Hfit; auto|]. intros [[l s1] r1] _ [Hs1 [l' [-> HR]]].
    pose proof (Hobj l0 l' HG0 HR) as Hv. destruct (o_call obj l' attr) as [v|e|] eqn:Ev; cbn [bind] in *; [|exact Hv|exact Hv].
    set (b1 := if match b with Some (w, _) => Qltb v w | None => true end then Some (v, l') else b).
    assert (Hb1 : from parts0 b1 /\ below b b1 /\ at_most b1 v).
    { unfold b1. destruct b as [[w lw]|].
      - destruct (Qltb v w) eqn:El.
        + apply Qltb_lt in El. split; [split; [auto|exists P, l0; split; [apply Hsub; left; auto|auto]]|].
          split; [intros q Hq; cbn in *; lra|cbn; lra].
        + assert (Hle : ~ (v < w)%Q) by (intros H; apply Qltb_lt in H; congruence).
          split; [auto|]. split; [intros q; auto|cbn; lra].
      - split; [split; [auto|exists P, l0; split; [apply Hsub; left; auto|auto]]|]. split; [intros q []|cbn; lra]. }
    destruct Hb1 as [Hf1 [Hbel Hat]].
    eapply (post_weaken E E N N); [auto|auto| |apply IH; auto].
    + intros [[s2 b2] r2] _ [H1 [H2 [H3 H4]]]. split; [auto|]. split; [auto|]. split; [intros q Hq; apply H3, Hbel; auto|].
      intros P' [<-|HP']; [|auto]. exists l0, l', v. auto 10.
    + intros P' HP'. apply Hsub; right; auto.
    + intros P' HP'. apply Hgood; right; auto.
Qed.

Lemma search_rounds_post parts k : forall s b r, (forall P, In P parts -> exists l0, array_from_region_list P = Ok l0 /\ Good l0) ->
  JL s -> from parts b ->
  post E N (search_rounds LS wrap ls_fit obj attr k mp parts s b r)
    (fun '(s', b', _) => JL s' /\ from parts b' /\ below b b' /\ (0 < k -> forall P, In P parts -> covered b' P)).
Proof.
  induction k as [|k IH]; intros s b r Hgood Hs Hb; cbn [search_rounds].
  - cbn [post]. split; [auto|]. split; [auto|]. split; [intros v; auto|intros H; lia].
  - eapply post_bind; [apply (search_all_post parts parts); auto|]. intros [[s1 b1] r1] _ [H1 [H2 [H3 H4]]].
    eapply (post_weaken E E N N); [auto|auto| |apply IH; auto].
    intros [[s2 b2] r2] _ [G1 [G2 [G3 _]]]. split; [auto|]. split; [auto|]. split; [intros v Hv; apply G3, H3; auto|].
    intros _ P HP. destruct (H4 P HP) as [l0 [l [v [A [B [C [D F]]]]]]]. exists l0, l, v. auto 10.
Qed.
End SearchPost.

(** ** islands below the threshold *)
Lemma meets_in_dec sp thr l : meets_in sp thr l \/ ~ meets_in sp thr l.
Proof.
  unfold meets_in.
  assert (Hdec : forall th j, (forall k t, nth_error th k = Some t -> (t <= total_in sp l (j + k))%Q) \/
                              ~ forall k t, nth_error th k = Some t -> (t <= total_in sp l (j + k))%Q).
  { induction th as [|t0 th IH]; intros j; [left; intros [|k]; discriminate|].
    destruct (Qlt_le_dec (total_in sp l j) t0) as [Hlt|Hle].
    - right. intros H. specialize (H 0 t0 eq_refl). rewrite Nat.add_0_r in H. lra.
    - destruct (IH (Datatypes.S j)) as [H|H].
      + left. intros [|k] t Hk; cbn in Hk; [injection Hk as <-; rewrite Nat.add_0_r; auto|]. rewrite <- Nat.add_succ_comm. apply H; auto.
      + right. intros H'. apply H. intros k t Hk. rewrite Nat.add_succ_comm. apply H'. auto. }
  apply (Hdec thr 0).
Qed.

Lemma unmet_island g sp thr :
  (forall v isl, v < gn g -> island g v isl -> meets_in sp thr isl) \/
  exists v isl, v < gn g /\ island g v isl /\ ~ meets_in sp thr isl.
Proof.
  assert (H : forall k, k <= gn g -> (forall v, v < k -> meets_in sp thr (comp_nodes g (comp_label g v))) \/
                       exists v isl, v < gn g /\ island g v isl /\ ~ meets_in sp thr isl).
  { induction k as [|k IH]; intros Hk; [left; intros v Hv; lia|].
    destruct (IH ltac:(lia)) as [H|H]; [|auto].
    destruct (meets_in_dec sp thr (comp_nodes g (comp_label g k))) as [Hm|Hm].
    - left. intros v Hv. destruct (Nat.eq_dec v k) as [->|Hne]; [auto|apply H; lia].
    - right. exists k, (comp_nodes g (comp_label g k)). split; [lia|]. split; [apply comp_nodes_island; lia|auto]. }
  destruct (H (gn g) (le_n _)) as [H'|H']; [left|auto].
  intros v isl Hv Hi. rewrite (island_comp_nodes g v isl Hv Hi). auto.
Qed.

(** ** the whole fit *)
Section WholeN.
Variable LS : Type.
Variable wrap : LS -> LS.
Variable ls_fit : LS -> Z -> list Z -> rng -> out (option (list Z) * LS * rng).
Variable obj : objfun.
Variable d : list Q -> list Q -> Q.
Variable g : graph.
Variables attr sp : list (list Q).
Variable thr : list Q.
Hypothesis Hsym : symmetric g.
Hypothesis Hloop : no_self_loops g.
Hypothesis Hsp : shaped sp thr (gn g).
Hypothesis Hpos : non_negative sp.

Definition good_start (mp : nat) (l0 : list Z) : Prop := feasible g l0 mp /\ ~ In (-1)%Z l0 /\ all_meet sp thr l0.
Definition named_start (mp : nat) (l0 : list Z) : Prop := good_start mp l0 /\ labels_exactly l0 mp.

Lemma named_exactly l p : (forall z, In z l -> (0 <= z < Z.of_nat p)%Z) -> n_labels l = p -> labels_exactly l p.
Proof.
  intros Hin Hn z. split; [apply Hin|]. intros Hz. unfold n_labels in Hn. apply (nodup_In Z.eq_dec).
  assert (Hincl : incl (nodup Z.eq_dec l) (map Z.of_nat (seq 0 p))).
  { intros y Hy. apply nodup_In in Hy. specialize (Hin y Hy). apply in_map_iff. exists (Z.to_nat y). split; [lia|]. apply in_seq. lia. }
  apply (NoDup_length_incl (NoDup_nodup Z.eq_dec l)) in Hincl; [|rewrite map_length, seq_length; lia].
  apply Hincl. apply in_map_iff. exists (Z.to_nat z). split; [lia|]. apply in_seq. lia.
Qed.

Lemma startable_named mp P : partial_partition g P [] -> length P = mp -> startable g sp thr mp P ->
  exists l0, array_from_region_list P = Ok l0 /\ named_start mp l0.
Proof.
  intros Hpp Hlen [l [El [Hf [Hm1 Hm]]]]. exists l. split; [auto|]. split; [split; auto|].
  apply named_exactly; [|apply Hf]. destruct (array_of_partition g P Hpp) as [l' [El' [_ [_ Hz]]]].
  rewrite El in El'. injection El' as <-. intros z Hin. destruct (Hz z Hin) as [k [-> [Hk _]]]. lia.
Qed.

Lemma unmet_raises new max_it labels0 ls r v isl : 0 < max_it -> v < gn g -> island g v isl -> ~ meets_in sp thr isl ->
  exists m, maxp_fit LS wrap ls_fit obj attr new d g sp thr max_it labels0 ls r = Raise (ValueError m).
Proof.
  intros Hit Hv Hi Hnm. unfold maxp_fit.
  pose proof (construct_post d g attr sp thr Hsym Hloop Hsp max_it 0 [] r (fun x (H : In x []) => match H with end) (or_intror eq_refl)) as Hc.
  destruct (construct d g attr sp thr max_it 0 [] r) as [[[mp before] r1]|e|]; cbn [bind post] in *; [|destruct Hc|destruct Hc].
  destruct Hc as [Hk [Hne|[H0 _]]]; [|lia].
  pose proof (assign_each_post d g attr sp thr Hsym mp before r1 Hk) as Ha.
  destruct (assign_each d g attr before r1) as [[parts r2]|e|]; cbn [bind post] in *.
  - exfalso. destruct Ha as [Hs _]. destruct before as [|x before]; [contradiction|].
    destruct (Hk x (or_introl eq_refl)) as [_ [F [HE HG]]].
    apply (not_served g sp thr (fst x) F v isl); auto. apply Hs. left; auto.
  - destruct Ha as [_ [m ->]]. eauto.
  - destruct Ha.
Qed.

Variable E : exn -> Prop.
Variable N : Prop.
(** what is known of the local search object may depend on the number of regions *)
Variables JL JW : nat -> LS -> Prop.
Variable Res : nat -> list Z -> list Z -> Prop.
Hypothesis Hwrap : forall mp s, JL mp s -> JW mp (wrap s).
Hypothesis HWL : forall mp s, JW mp s -> JL mp s.
Hypothesis Hfit : forall mp s l0 r, JW mp s -> named_start mp l0 ->
  post E N (ls_fit s (Z.of_nat mp) l0 r) (fun '(l, s', _) => JW mp s' /\ exists l', l = Some l' /\ Res mp l0 l').
Hypothesis Hobj : forall mp l0 l, named_start mp l0 -> Res mp l0 l -> post E N (o_call obj l attr) (fun _ => True).
Hypothesis Henc : forall mp x m, kept g sp thr mp x -> ~ every_island_served g (fst x) -> E (ValueError m).

Theorem maxp_fit_post_n new max_it labels0 ls r : 0 < max_it ->
  (forall mp, match ls with Some s => JL mp s | None => forall r, JL mp (fst (new r)) end) ->
  post E N (maxp_fit LS wrap ls_fit obj attr new d g sp thr max_it labels0 ls r)
    (fun '(labels, ls', _) => exists mp before r1 parts r2 l v s',
       construct d g attr sp thr max_it 0 [] r = Ok (mp, before, r1) /\
       assign_each d g attr before r1 = Ok (parts, r2) /\
       labels = Some l /\ ls' = Some s' /\ JL mp s' /\ parts <> [] /\
       (forall P, In P parts -> startable g sp thr mp P) /\
       from obj attr (named_start mp) (Res mp) parts (Some (v, l)) /\
       forall P, In P parts -> covered obj attr (named_start mp) (Res mp) (Some (v, l)) P).
Proof.
  intros Hit Hls. unfold maxp_fit.
  pose proof (construct_post d g attr sp thr Hsym Hloop Hsp max_it 0 [] r (fun x (H : In x []) => match H with end) (or_intror eq_refl)) as Hc.
  destruct (construct d g attr sp thr max_it 0 [] r) as [[[mp before] r1]|e|]; cbn [bind post] in *; [|destruct Hc|destruct Hc].
  destruct Hc as [Hk [Hne|[H0 _]]]; [|lia].
  pose proof (assign_each_post d g attr sp thr Hsym mp before r1 Hk) as Ha.
  destruct (assign_each d g attr before r1) as [[parts r2]|e|] eqn:Ea; cbn [bind post] in *; [| |destruct Ha].
  2: { destruct Ha as [[x [Hx Hn]] [m ->]]. eapply Henc; eauto. }
  destruct Ha as [_ Hall].
  assert (Hst : forall P, In P parts -> startable g sp thr mp P).
  { intros P HP. apply In_nth_error in HP. destruct HP as [k HP]. destruct (Forall2_nth_r _ _ _ Hall k P HP) as [x [Hx [Hpp Hi]]].
    apply (kept_startable g sp thr Hpos mp x P); auto. apply Hk. eapply nth_error_In; eauto. }
  assert (Hnamed : forall P, In P parts -> exists l0, array_from_region_list P = Ok l0 /\ named_start mp l0).
  { intros P HP. pose proof (Hst P HP) as HsP. apply In_nth_error in HP. destruct HP as [k HP].
    destruct (Forall2_nth_r _ _ _ Hall k P HP) as [x [Hx [Hpp Hi]]]. apply startable_named; auto.
    apply nth_error_In in Hx. destruct (Hk x Hx) as [Hlx _]. rewrite <- Hlx. symmetry. eapply Forall2_len; eauto. }
  assert (Hpne : parts <> []) by (intros ->; inversion Hall; subst; contradiction).
  destruct parts as [|P0 parts0]; [contradiction|]. set (parts := P0 :: parts0) in *.
  destruct (match ls with Some l => (l, r2) | None => new r2 end) as [ls0 r3] eqn:Els.
  assert (HJ0 : JL mp ls0).
  { specialize (Hls mp). destruct ls as [s|]; [injection Els as <- <-; auto|]. specialize (Hls r2). rewrite Els in Hls. exact Hls. }
  eapply post_bind.
  - apply (search_rounds_post LS wrap ls_fit obj attr E N mp (JL mp) (JW mp) (named_start mp) (Res mp)); auto.
    + intros l0 l HG HR. apply (Hobj mp l0 l); auto.
    + exact Logic.I.
  - intros [[ls' b] r4] _ [HJ' [Hfrom [_ Hcov]]]. specialize (Hcov ltac:(cbn; lia)). cbn [post].
    destruct b as [[v l]|].
    + exists mp, before, r1, parts, r2, l, v, ls'. auto 12.
    + exfalso. destruct (Hcov P0 (or_introl eq_refl)) as [? [? [? [_ [_ [_ [_ []]]]]]]].
Qed.
End WholeN.

Section Whole.
Variable LS : Type.
Variable wrap : LS -> LS.
Variable ls_fit : LS -> Z -> list Z -> rng -> out (option (list Z) * LS * rng).
Variable obj : objfun.
Variable d : list Q -> list Q -> Q.
Variable g : graph.
Variables attr sp : list (list Q).
Variable thr : list Q.
Hypothesis Hsym : symmetric g.
Hypothesis Hloop : no_self_loops g.
Hypothesis Hsp : shaped sp thr (gn g).
Hypothesis Hpos : non_negative sp.
Variable E : exn -> Prop.
Variable N : Prop.
Variables JL JW : LS -> Prop.
Variable Res : nat -> list Z -> list Z -> Prop.
Hypothesis Hwrap : forall s, JL s -> JW (wrap s).
Hypothesis HWL : forall s, JW s -> JL s.
Hypothesis Hfit : forall mp s l0 r, JW s -> good_start g sp thr mp l0 ->
  post E N (ls_fit s (Z.of_nat mp) l0 r) (fun '(l, s', _) => JW s' /\ exists l', l = Some l' /\ Res mp l0 l').
Hypothesis Hobj : forall mp l0 l, good_start g sp thr mp l0 -> Res mp l0 l -> post E N (o_call obj l attr) (fun _ => True).
Hypothesis Henc : forall mp x m, kept g sp thr mp x -> ~ every_island_served g (fst x) -> E (ValueError m).

Theorem maxp_fit_post new max_it labels0 ls r : 0 < max_it ->
  match ls with Some s => JL s | None => forall r, JL (fst (new r)) end ->
  post E N (maxp_fit LS wrap ls_fit obj attr new d g sp thr max_it labels0 ls r)
    (fun '(labels, ls', _) => exists mp before r1 parts r2 l v s',
       construct d g attr sp thr max_it 0 [] r = Ok (mp, before, r1) /\
       assign_each d g attr before r1 = Ok (parts, r2) /\
       labels = Some l /\ ls' = Some s' /\ JL s' /\ parts <> [] /\
       (forall P, In P parts -> startable g sp thr mp P) /\
       from obj attr (good_start g sp thr mp) (Res mp) parts (Some (v, l)) /\
       forall P, In P parts -> covered obj attr (good_start g sp thr mp) (Res mp) (Some (v, l)) P).
Proof.
  intros Hit Hls.
  eapply (post_weaken E E N N); [auto|auto| |
    apply (maxp_fit_post_n LS wrap ls_fit obj d g attr sp thr Hsym Hloop Hsp Hpos E N (fun _ => JL) (fun _ => JW) Res)]; auto.
  - intros [[labels ls'] r'] _ [mp [before [r1 [parts [r2 [l [v [s' [H1 [H2 [H3 [H4 [H5 [H6 [H7 [[Ev [P [l0 [HP [E0 [[HG _] HR]]]]]] Hc]]]]]]]]]]]]]]]].
    exists mp, before, r1, parts, r2, l, v, s'. do 7 (split; [auto|]). split; [split; [auto|exists P, l0; auto]|].
    intros P' HP'. destruct (Hc P' HP') as [l1 [l2 [v2 [E1 [[HG1 _] H]]]]]. exists l1, l2, v2. auto.
  - intros mp s l0 r0 HJW [HG _]. apply Hfit; auto.
  - intros mp l0 l [HG _] HR. apply (Hobj mp l0 l); auto.
Qed.
End Whole.

(** ** AZP as local search *)
Section WholeAzp.
Variable expf : Q -> Q.
Variable order : list edge -> list edge.
Hypothesis Hord : forall l, Permutation (order l) l.
Variable O : objfun.
Variable d : list Q -> list Q -> Q.
Variable g : graph.
Variables attr sp : list (list Q).
Variable thr : list Q.
Hypothesis Hsym : symmetric g.
Hypothesis Hloop : no_self_loops g.
Hypothesis Hsp : shaped sp thr (gn g).
Hypothesis Hpos : non_negative sp.

(** any strategy inside, whenever fit returns *)
Definition valid_result (mp : nat) (l : list Z) : Prop := feasible g l mp /\ all_meet sp thr l.

Theorem maxp_azp_any fuel max_it entropy labels0 ls r : 0 < max_it ->
  post anyexn True (maxp_azp_fit expf order O d fuel g attr sp thr max_it entropy labels0 ls r)
    (fun '(labels, ls', _) => exists mp before r1 l,
       construct d g attr sp thr max_it 0 [] r = Ok (mp, before, r1) /\ labels = Some l /\ valid_result mp l).
Proof.
  intros Hit. unfold maxp_azp_fit.
  set (JW := fun s => exists c1 sp1 inner, s = SMaxP c1 sp sp1 thr inner).
  eapply (post_weaken anyexn anyexn True True); [auto|auto| |
    apply (maxp_fit_post strategy _ _ O d g attr sp thr Hsym Hloop Hsp Hpos anyexn True (fun _ => True) JW (fun mp _ l => valid_result mp l))]; auto.
  - intros [[labels ls'] r'] _ [mp [before [r1 [parts [r2 [l [v [s' [H1 [H2 [H3 [_ [_ [_ [_ [[_ [P [l0 [_ [_ [_ H]]]]]] _]]]]]]]]]]]]]]]].
    exists mp, before, r1, l. auto.
  - intros s _. unfold JW, maxp_wrap. eauto.
  - intros mp s l0 r0 [c1 [sp1 [inner ->]]] [Hf [Hm1 Hmeet]].
    eapply (post_bind anyexn True _ _ _ _).
    + apply (wrapped_fit_post expf order Hord O g Hsym attr sp thr Hsp Hpos anyexn True (fun _ => True) (fun _ _ _ _ => True)); auto.
      * intros c l inner' _ _ _. destruct (start_common l (attr_c attr g c) O); cbn [bind]; try exact Logic.I. destruct (strat_start O inner' l (attr_c attr g c) (comp_nodes g c)); exact Logic.I.
      * intros c l1 s a r1 l rg _ _ _ _. destruct (strat_call expf s a r1 l rg) as [[[b s1] rg1]| |]; exact Logic.I.
      * lia.
      * rewrite Nat2Z.id. auto.
    + intros [[labels s'] r'] _ [H1 [H2 [[c2 [sp2 [i2 [-> _]]]] _]]]. cbn [post]. rewrite Nat2Z.id in H1.
      split; [exists c2, sp2, i2; auto|]. exists labels. split; [auto|split; auto].
  - intros mp l0 l _ _. destruct (o_call O l attr); exact Logic.I.
  - intros mp x m _ _. exact Logic.I.
  - destruct ls; auto.
Qed.

Hypothesis Hattr : length attr = gn g.
Hypothesis Hex : exact_on O attr.

(** only AllowMoveAZP inside *)
Definition not_worse (l0 l : list Z) : Prop := forall c, c < n_components g ->
  exists x y, o_call O (comp_part g l0 c) (attr_c attr g c) = Ok x /\ o_call O (comp_part g l c) (attr_c attr g c) = Ok y /\ (y <= x)%Q.

Lemma tr_value O' attr' v s l : tr O' attr' v s l -> exists y, o_call O' l attr' = Ok y /\ (y <= v)%Q.
Proof.
  induction s as [c| |c sa sc t inner IH]; cbn [tr]; [|tauto|auto].
  intros [[_ [_ [y [Ey Hy]]]] Hv]. exists y. split; [auto|]. lra.
Qed.

Theorem maxp_azp_default N fuel max_it entropy labels0 ls r : 0 < max_it -> (N \/ gn g + 1 < fuel) ->
  match ls with Some s => azp_inside s | None => True end ->
  post (fun e => (exists v isl, v < gn g /\ island g v isl /\ ~ meets_in sp thr isl) /\ exists m, e = ValueError m) N
    (maxp_azp_fit expf order O d fuel g attr sp thr max_it entropy labels0 ls r)
    (fun '(labels, ls', _) => exists mp before r1 parts r2 l s',
       construct d g attr sp thr max_it 0 [] r = Ok (mp, before, r1) /\
       assign_each d g attr before r1 = Ok (parts, r2) /\
       labels = Some l /\ ls' = Some s' /\ azp_inside s' /\ valid_result mp l /\ parts <> [] /\
       forall P, In P parts -> exists l0 l1 v v1, array_from_region_list P = Ok l0 /\ valid_result mp l0 /\
         valid_result mp l1 /\ not_worse l0 l1 /\ o_call O l attr = Ok v /\ o_call O l1 attr = Ok v1 /\ (v <= v1)%Q).
Proof.
  intros Hit Hfuel Hls. unfold maxp_azp_fit.
  set (JW := fun s => exists c1 sp1 inner, s = SMaxP c1 sp sp1 thr inner /\ azp_inside inner).
  set (Ex := fun e => (exists v isl, v < gn g /\ island g v isl /\ ~ meets_in sp thr isl) /\ exists m, e = ValueError m).
  eapply (post_weaken Ex Ex N N); [auto|auto| |
    apply (maxp_fit_post strategy _ _ O d g attr sp thr Hsym Hloop Hsp Hpos Ex N azp_inside JW (fun mp l0 l => valid_result mp l /\ not_worse l0 l))]; auto.
  - intros [[labels ls'] r'] _ [mp [before [r1 [parts [r2 [l [v [s' [H1 [H2 [H3 [H4 [H5 [H6 [H7 [[Ev [P [l0 [_ [_ [_ [H _]]]]]]] Hc]]]]]]]]]]]]]]]].
    exists mp, before, r1, parts, r2, l, s'. do 7 (split; [auto|]).
    intros P' HP'. destruct (Hc P' HP') as [l0' [l1 [v1 [E0 [HG [[HR1 HR2] [Ev1 Hle]]]]]]]. exists l0', l1, v, v1.
    destruct HG as [G1 [G2 G3]]. split; [auto|]. split; [split; auto|]. auto.
  - intros s Hs. unfold JW, maxp_wrap. eauto.
  - intros s [c1 [sp1 [inner [-> Hi]]]]. exact Hi.
  - intros mp s l0 r0 [c1 [sp1 [inner [-> Hi]]]] [Hf [Hm1 Hmeet]].
    eapply (post_bind Ex N _ _ _ _).
    + set (Inner := fun c l0 s l => exists v0, o_call O l0 (attr_c attr g c) = Ok v0 /\ tr O (attr_c attr g c) v0 s l).
      apply (wrapped_fit_post expf order Hord O g Hsym attr sp thr Hsp Hpos Ex N azp_inside Inner); auto.
      * intros c l i Hc Hwf Hii. destruct (attr_c_exact O attr Hex g Hattr c) as [Hcall _].
        destruct (Hcall l) as [v Ev]; [rewrite attr_c_length; apply Hwf|].
        unfold start_common. rewrite Ev. cbn [bind]. destruct (tr_start O (attr_c attr g c) i l (comp_nodes g c) v Hii Ev) as [s' [Es Ht]].
        rewrite Es. cbn [post]. exists v. auto.
      * intros c l1 s a r1 l rg Hc Hwf Hl [v0 [Ev0 Ht]].
        eapply (post_weaken noexn Ex N N); [intros e []|auto| |apply (tr_call_post expf O (attr_c attr g c) (comp_graph g c) v0 N)]; auto.
        -- intros [[b s'] rg'] _ H. exists v0. auto.
        -- apply attr_c_exact; auto.
        -- apply attr_c_length.
      * intros c l1 s l [v0 [_ Ht]]. eapply tr_inside; eauto.
      * lia.
      * rewrite Nat2Z.id. auto.
    + intros [[labels s'] r'] _ [H1 [H2 [[c2 [sp2 [i2 [-> Hi2]]]] HIn]]]. cbn [post]. rewrite Nat2Z.id in H1.
      split; [exists c2, sp2, i2; auto|]. exists labels. split; [auto|]. split; [split; auto|].
      intros c Hc. destruct (HIn c Hc) as [s [v0 [Ev0 Ht]]]. destruct (tr_value _ _ _ _ _ Ht) as [y [Ey Hy]].
      exists v0, y. auto.
  - intros mp l0 l _ [[[Hl _] _] _]. destruct (Hex attr (fun x H => H)) as [Hcall _].
    destruct (Hcall l) as [v Ev]; [lia|]. rewrite Ev. cbn; auto.
  - intros mp x m [Hl [F [HE HG]]] Hn. split; [|eauto].
    destruct (unmet_island g sp thr) as [H|H]; [|exact H].
    exfalso. apply Hn. apply (island_served g Hsym sp thr (fst x) F HG). exact H.
  - destruct ls; auto.
Qed.
End WholeAzp.
