(** Threshold, prune and leaf iteration of one wavelet tree (exact arithmetic). *)
From Verif Require Import Base M_IntMath F_IntMath M_Morton F_Morton M_NdtreeIndex F_NdtreeIndex
  M_Num F_Num M_Haar F_Haar M_Haar3 F_Haar3 M_Ndtree S_Field M_Wavelet F_Wavelet.
From Coq Require Import QArith Qcanon Qcabs Lqa.
Close Scope Qc_scope.
Close Scope Q_scope.
Open Scope Z_scope.

(** Structural induction through the children array. *)
Lemma oget_In {A} (o : oct A) c : In (oget o c) (olist o).
Proof.
  destruct o. cbn [oget olist In].
  destruct c as [|p|p]; [tauto|..]; [|tauto].
  destruct p as [p|p|]; [destruct p as [p|p|]| |]; try tauto;
    try (destruct p as [p|p|]; try tauto; destruct p; tauto).
Qed.

Lemma node_ind_strong {A} (P : node A -> Prop) :
  (forall d kids, (forall k ch, kids = Some k -> In (Some ch) (olist k) -> P ch) -> P (Node d kids)) ->
  forall n, P n.
Proof.
  intros H. fix IH 1. intros [d [[a0 a1 a2 a3 a4 a5 a6 a7]|]].
  - assert (X : forall o : option (node A), match o with Some n => P n | None => True end -> forall ch, o = Some ch -> P ch)
      by (intros o Ho ch ->; exact Ho).
    apply H. intros k ch E Hin. injection E as <-. cbn [olist In] in Hin.
    destruct Hin as [E|[E|[E|[E|[E|[E|[E|[E|[]]]]]]]]]; revert ch E; apply X.
    + destruct a0; [apply IH|exact I].
    + destruct a1; [apply IH|exact I].
    + destruct a2; [apply IH|exact I].
    + destruct a3; [apply IH|exact I].
    + destruct a4; [apply IH|exact I].
    + destruct a5; [apply IH|exact I].
    + destruct a6; [apply IH|exact I].
    + destruct a7; [apply IH|exact I].
  - apply H. intros k ch E. discriminate E.
Qed.
Lemma getChild_In {A} (n : node A) c ch : getChild n c = Some ch ->
  exists k, nkids n = Some k /\ In (Some ch) (olist k).
Proof.
  unfold getChild. destruct (nkids n) as [k|]; [|discriminate]. intros E. exists k. split; [reflexivity|].
  rewrite <- E. apply oget_In.
Qed.
Lemma node_ind_child {A} (P : node A -> Prop) :
  (forall n, (forall c ch, getChild n c = Some ch -> P ch) -> P n) -> forall n, P n.
Proof.
  intros H n. induction n as [d kids IH] using node_ind_strong. apply H.
  intros c ch E. destruct (getChild_In _ _ _ E) as (k & E1 & E2). exact (IH k ch E1 E2).
Qed.

Lemma oget_omap2 {A B C} (f : A -> B -> C) a b c : 0 <= c < 8 -> oget (omap2 f a b) c = f (oget a c) (oget b c).
Proof. intros H. destruct a, b. child8 c H; reflexivity. Qed.

Lemma child_value_forward o c : 0 <= c < 8 ->
  child_value (fst (forward3 qn o)) (snd (forward3 qn o)) c = oget o c.
Proof. intros H. rewrite <- backward3_value by assumption. rewrite backward_forward3. reflexivity. Qed.

(** ** Threshold *)
Section Threshold.
Context (lo hi : Qc).
Notation thr := (threshold_rec qn lo hi).

(** The child entry produced for child [c]. *)
Definition thr_child (n : wnode) (v : Qc) (c : Z) : option wnode * Qc :=
  match getChild n c with
  | Some ch => (Some (fst (thr ch (child_value v (ndata n) c))), snd (thr ch (child_value v (ndata n) c)))
  | None => (None, qclamp lo hi (child_value v (ndata n) c))
  end.
Lemma thr_spec n v c : 0 <= c < 8 ->
  getChild (fst (thr n v)) c = fst (thr_child n v c) /\
  child_value (snd (thr n v)) (ndata (fst (thr n v))) c = snd (thr_child n v c).
Proof.
  intros Hc. destruct n as [d kids]. cbn [threshold_rec]. unfold thr_child.
  destruct kids as [k|].
  - set (res := omap2 _ k (backward3 qn v d)).
    pose proof (child_value_forward (omap snd res) c Hc) as E.
    destruct (forward3 qn (omap snd res)) as [s d']. cbn [fst snd] in *.
    unfold getChild at 1. cbn [nkids ndata]. rewrite oget_omap by assumption. rewrite E.
    rewrite oget_omap by assumption. subst res. rewrite oget_omap2 by assumption.
    rewrite backward3_value by assumption.
    unfold getChild. cbn [nkids]. destruct (oget k c) as [ch|]; [|split; reflexivity].
    destruct (thr ch (child_value v d c)). split; reflexivity.
  - pose proof (child_value_forward (omap (nclamp qn lo hi) (backward3 qn v d)) c Hc) as E.
    destruct (forward3 qn _) as [s d']. cbn [fst snd] in *. unfold getChild; cbn [nkids ndata fst snd].
    split; [reflexivity|]. rewrite E, oget_omap, backward3_value by assumption. reflexivity.
Qed.

Lemma thr_eval k : forall n v q, height_ok k n -> valid_path q -> (k <= length q)%nat ->
  eval (snd (thr n v)) (fst (thr n v)) q = qclamp lo hi (eval v n q).
Proof.
  induction k as [|k IH]; intros n v q Hn Hq Hk; [contradiction|].
  destruct q as [|c q]; cbn [length] in Hk; [lia|]. inversion Hq; subst. cbn [eval].
  destruct (thr_spec n v c ltac:(assumption)) as [E1 E2]. rewrite E1, E2. unfold thr_child.
  specialize (Hn c ltac:(assumption)).
  destruct (getChild n c) as [ch|]; cbn [fst snd]; [|reflexivity].
  apply IH; [assumption|assumption|lia].
Qed.
Lemma thr_height k : forall n v, height_ok k n -> height_ok k (fst (thr n v)).
Proof.
  induction k as [|k IH]; intros n v Hn; [contradiction|].
  intros c Hc. destruct (thr_spec n v c Hc) as [E1 _]. rewrite E1. unfold thr_child.
  specialize (Hn c Hc). destruct (getChild n c) as [ch|]; cbn [fst]; [apply IH; assumption|exact I].
Qed.

(** The variant of WaveletOctree, which subtracts updates, computes the same tree. *)
Lemma forward3_sub a b :
  forward3 qn (omap2 Qcminus a b) =
  ((fst (forward3 qn a) - fst (forward3 qn b))%Qc, dsub qn (snd (forward3 qn a)) (snd (forward3 qn b))).
Proof.
  destruct a, b.
  cbv -[Qcplus Qcminus Qcmult Qcopp Qcdiv Qcinv Qcpower q2 Q2Qc]. unfold q2.
  f_equal; [field; qneq|]. f_equal; field; qneq.
Qed.
Lemma dsub_dsub d d' : dsub qn d (dsub qn d d') = d'.
Proof. destruct d, d'. cbn [dsub dmap2 nsub qn]. f_equal; ring. Qed.

Lemma wo_threshold_eq n : forall v,
  wo_threshold_rec qn lo hi n v = (fst (thr n v), (v - snd (thr n v))%Qc).
Proof.
  induction n as [d kids IH] using node_ind_strong. intros v. cbn [wo_threshold_rec threshold_rec].
  destruct kids as [k|].
  - set (res1 := omap2 _ k (backward3 qn v d)).
    set (res2 := omap2 (fun kid v => match kid with
                                 | Some ch => let '(ch', v') := thr ch v in (Some ch', v')
                                 | None => (None, nclamp qn lo hi v) end) k (backward3 qn v d)).
    assert (E1 : omap fst res1 = omap fst res2).
    { apply oct_ext. intros c Hc. rewrite !oget_omap by assumption. subst res1 res2.
      rewrite !oget_omap2 by assumption. pose proof (oget_In k c) as HI.
      destruct (oget k c) as [ch|]; [|reflexivity].
      rewrite (IH k ch eq_refl HI). destruct (thr ch _). reflexivity. }
    assert (E2 : omap snd res1 = omap2 Qcminus (backward3 qn v d) (omap snd res2)).
    { apply oct_ext. intros c Hc. rewrite oget_omap2, !oget_omap by assumption. subst res1 res2.
      rewrite !oget_omap2 by assumption. pose proof (oget_In k c) as HI.
      destruct (oget k c) as [ch|]; [|reflexivity].
      rewrite (IH k ch eq_refl HI). destruct (thr ch _). reflexivity. }
    rewrite E1, E2, forward3_sub, forward_backward3. cbn [fst snd].
    destruct (forward3 qn (omap snd res2)) as [s d']. cbn [fst snd]. rewrite dsub_dsub. reflexivity.
  - replace (omap (fun v0 => nsub qn v0 (nclamp qn lo hi v0)) (backward3 qn v d))
      with (omap2 Qcminus (backward3 qn v d) (omap (nclamp qn lo hi) (backward3 qn v d)))
      by (destruct (backward3 qn v d); reflexivity).
    rewrite forward3_sub, forward_backward3. cbn [fst snd].
    destruct (forward3 qn (omap (nclamp qn lo hi) _)) as [s d']. cbn [fst snd]. rewrite dsub_dsub. reflexivity.
Qed.

Lemma wo_prune_eq n : forall v,
  wo_prune_rec qn lo hi n v = (prune_rec qn (fst (thr n v)), (v - snd (thr n v))%Qc).
Proof.
  induction n as [d kids IH] using node_ind_strong. intros v. cbn [wo_prune_rec threshold_rec].
  destruct kids as [k|].
  - set (res1 := omap2 _ k (backward3 qn v d)).
    set (res2 := omap2 (fun kid v => match kid with
                                 | Some ch => let '(ch', v') := thr ch v in (Some ch', v')
                                 | None => (None, nclamp qn lo hi v) end) k (backward3 qn v d)).
    assert (E1 : omap fst res1 = omap (fun kid => match kid with
                        | Some ch => prune_child qn (prune_rec qn ch) | None => None end) (omap fst res2)).
    { apply oct_ext. intros c Hc. rewrite !oget_omap by assumption. subst res1 res2.
      rewrite !oget_omap2 by assumption. pose proof (oget_In k c) as HI.
      destruct (oget k c) as [ch|]; [|reflexivity].
      rewrite (IH k ch eq_refl HI). destruct (thr ch _). reflexivity. }
    assert (E2 : omap snd res1 = omap2 Qcminus (backward3 qn v d) (omap snd res2)).
    { apply oct_ext. intros c Hc. rewrite oget_omap2, !oget_omap by assumption. subst res1 res2.
      rewrite !oget_omap2 by assumption. pose proof (oget_In k c) as HI.
      destruct (oget k c) as [ch|]; [|reflexivity].
      rewrite (IH k ch eq_refl HI). destruct (thr ch _). reflexivity. }
    rewrite E2, forward3_sub, forward_backward3. cbn [fst snd].
    destruct (forward3 qn (omap snd res2)) as [s d']. cbn [fst snd]. rewrite dsub_dsub.
    cbn [prune_rec]. rewrite <- E1. destruct (some_child (omap fst res1)); reflexivity.
  - replace (omap (fun v0 => nsub qn v0 (nclamp qn lo hi v0)) (backward3 qn v d))
      with (omap2 Qcminus (backward3 qn v d) (omap (nclamp qn lo hi) (backward3 qn v d)))
      by (destruct (backward3 qn v d); reflexivity).
    rewrite forward3_sub, forward_backward3. cbn [fst snd].
    destruct (forward3 qn (omap (nclamp qn lo hi) _)) as [s d']. cbn [fst snd]. rewrite dsub_dsub. reflexivity.
Qed.
End Threshold.

(** ** Prune *)
Lemma prune_data (n : wnode) : ndata (prune_rec qn n) = ndata n.
Proof. destruct n as [d [k|]]; cbn [prune_rec]; [|reflexivity]. destruct (some_child _); reflexivity. Qed.

Lemma some_child_false (k : oct (option wnode)) c : some_child k = false -> oget k c = None.
Proof.
  intros H. destruct (oget k c) as [ch|] eqn:E; [|reflexivity].
  assert (some_child k = true); [|congruence].
  apply existsb_exists. exists (Some ch). split; [|reflexivity]. rewrite <- E. apply oget_In.
Qed.
Lemma prune_getChild (n : wnode) c : 0 <= c < 8 ->
  getChild (prune_rec qn n) c =
  match getChild n c with None => None | Some ch => prune_child qn (prune_rec qn ch) end.
Proof.
  intros Hc. destruct n as [d [k|]]; [|reflexivity]. cbn [prune_rec].
  set (k' := omap _ k).
  assert (E : oget k' c = match oget k c with None => None | Some ch => prune_child qn (prune_rec qn ch) end).
  { subst k'. rewrite oget_omap by assumption. destruct (oget k c); reflexivity. }
  unfold getChild. cbn [nkids]. destruct (some_child k') eqn:Es; cbn [nkids].
  - exact E.
  - rewrite <- E. symmetry. apply some_child_false. assumption.
Qed.

Lemma Qcabs_le_iff a b : (Qcabs a <= b <-> - b <= a /\ a <= b)%Qc.
Proof. apply Qcabs_Qcle_condition. Qed.

(** |child - parent| is bounded by 19/8 times the largest detail. *)
Definition q19_8 : Qc := Q2Qc (19 # 8)%Q.
Lemma child_value_near v d c e : 0 <= c < 8 -> (forall x, In x (dlist d) -> (Qcabs x <= e)%Qc) ->
  (Qcabs (child_value v d c - v) <= q19_8 * e)%Qc.
Proof.
  intros Hc He. destruct d as [d1 d2 d3 d4 d5 d6 d7]. cbn [dlist In] in He.
  assert (H1 := He d1 ltac:(tauto)). assert (H2 := He d2 ltac:(tauto)). assert (H3 := He d3 ltac:(tauto)).
  assert (H4 := He d4 ltac:(tauto)). assert (H5 := He d5 ltac:(tauto)). assert (H6 := He d6 ltac:(tauto)).
  assert (H7 := He d7 ltac:(tauto)). clear He.
  rewrite Qcabs_le_iff in *.
  destruct H1, H2, H3, H4, H5, H6, H7.
  assert (D2 : forall x : Qc, (x / q2)%Qc = (Q2Qc (1 # 2) * x)%Qc)
    by (intros x; unfold Qcdiv; rewrite Qcmult_comm; reflexivity).
  assert (D4 : forall x : Qc, (x / (q2 * q2))%Qc = (Q2Qc (1 # 4) * x)%Qc)
    by (intros x; unfold Qcdiv; rewrite Qcmult_comm; reflexivity).
  assert (D8 : forall x : Qc, (x / (q2 * q2 * q2))%Qc = (Q2Qc (1 # 8) * x)%Qc)
    by (intros x; unfold Qcdiv; rewrite Qcmult_comm; reflexivity).
  unfold child_value. rewrite !D2, !D4, !D8. clear D2 D4 D8. unfold q19_8.
  child8 c Hc;
  repeat match goal with |- context [Z.testbit ?a ?b] =>
    let v := eval vm_compute in (Z.testbit a b) in change (Z.testbit a b) with v end;
  cbn [eqb sgn]; toQ; split; lra.
Qed.

Lemma prune_child_none (n : wnode) : prune_child qn n = None ->
  hasChildrenArray n = false /\ forall x, In x (dlist (ndata n)) -> (Qcabs x <= qeps)%Qc.
Proof.
  unfold prune_child. destruct (hasChildrenArray n); cbn [negb andb]; [discriminate|].
  destruct (det_nonzero_tol qn (ndata n)) eqn:E; cbn [negb]; [discriminate|]. intros _.
  split; [reflexivity|]. intros x Hx. unfold det_nonzero_tol in E.
  destruct (qltb qeps (Qcabs x)) eqn:F;
    [assert (existsb (fun v => nltb qn (neps qn) (nabs qn v)) (dlist (ndata n)) = true) as G;
      [apply existsb_exists; exists x; split; [exact Hx|exact F]|congruence]|].
  apply qltb_false in F. exact F.
Qed.
Lemma prune_child_some (n m : wnode) : prune_child qn n = Some m -> m = n.
Proof. unfold prune_child. destruct (_ && _); congruence. Qed.

Lemma qz_add a b : qz (a + b) = (qz a + qz b)%Qc.
Proof. apply Qc_is_canon. unfold qz. rewrite this_plus, !this_Q2Qc. rewrite inject_Z_plus. reflexivity. Qed.
Lemma qz_mul a b : qz (a * b) = (qz a * qz b)%Qc.
Proof. apply Qc_is_canon. unfold qz. rewrite this_mult, !this_Q2Qc. rewrite inject_Z_mult. reflexivity. Qed.
Lemma qz_le a b : a <= b <-> (qz a <= qz b)%Qc.
Proof. unfold qz, Qcle. rewrite !this_Q2Qc. rewrite <- Zle_Qle. reflexivity. Qed.
Lemma qz_inj a b : qz a = qz b -> a = b.
Proof. intros H. assert (qz a <= qz b /\ qz b <= qz a)%Qc as [H1 H2] by (rewrite H; split; apply Qcle_refl).
  apply qz_le in H1, H2. lia. Qed.
Definition prune_unit : Qc := (q19_8 * qeps)%Qc.

Lemma Qcabs_tri a b c x y : (Qcabs (a - b) <= x)%Qc -> (Qcabs (b - c) <= y)%Qc -> (Qcabs (a - c) <= x + y)%Qc.
Proof. rewrite !Qcabs_le_iff. intros [H1 H2] [H3 H4]. split; qlra. Qed.
Lemma Qcabs_sym a b : Qcabs (a - b) = Qcabs (b - a).
Proof. rewrite <- (Qcabs_opp (b - a)). f_equal. ring. Qed.
Lemma prune_unit_pos : (0 <= prune_unit)%Qc.
Proof. discriminate. Qed.

Lemma eval_leaf (n : wnode) v q : hasChildrenArray n = false ->
  eval v n q = match q with [] => v | c :: _ => child_value v (ndata n) c end.
Proof.
  unfold hasChildrenArray. destruct q as [|c q]; [reflexivity|]. cbn [eval]. unfold getChild.
  destruct (nkids n); [discriminate|reflexivity].
Qed.

Lemma prune_eval k : forall n v q, height_ok (S k) n -> valid_path q ->
  (Qcabs (eval v (prune_rec qn n) q - eval v n q) <= qz (Z.of_nat k) * prune_unit)%Qc.
Proof.
  assert (ZERO : forall a k, (Qcabs (a - a) <= qz (Z.of_nat k) * prune_unit)%Qc).
  { intros a j. replace (a - a)%Qc with 0%Qc by ring. replace (Qcabs 0) with 0%Qc by (apply Qc_is_canon; reflexivity).
    assert (H := proj1 (qz_le 0 (Z.of_nat j)) ltac:(lia)). change (qz 0) with 0%Qc in H.
    replace 0%Qc with (0 * prune_unit)%Qc by ring. apply Qcmult_le_compat_r; [exact H|apply prune_unit_pos]. }
  induction k as [|k IH]; intros n v q Hn Hq.
  - destruct q as [|c q]; [apply ZERO|]. inversion Hq; subst. cbn [eval].
    rewrite prune_data, prune_getChild by assumption. specialize (Hn c ltac:(assumption)).
    destruct (getChild n c); [contradiction|]. apply ZERO.
  - destruct q as [|c q]; [apply ZERO|]. inversion Hq; subst. cbn [eval].
    rewrite prune_data, prune_getChild by assumption. specialize (Hn c ltac:(assumption)).
    destruct (getChild n c) as [ch|]; [|apply ZERO].
    set (w := child_value v (ndata n) c). specialize (IH ch w q Hn ltac:(assumption)).
    assert (B : qz (Z.of_nat (S k)) = (qz (Z.of_nat k) + 1)%Qc)
      by (replace (Z.of_nat (S k)) with (Z.of_nat k + 1) by lia; apply qz_add).
    assert (P := prune_unit_pos).
    destruct (prune_child qn (prune_rec qn ch)) as [m|] eqn:E.
    + apply prune_child_some in E. subst m. rewrite B. eapply Qcle_trans; [exact IH|].
      rewrite Qcmult_plus_distr_l. revert P. generalize (qz (Z.of_nat k) * prune_unit)%Qc.
      intros a P. qlra.
    + apply prune_child_none in E as [E1 E2]. rewrite eval_leaf in IH by assumption.
      rewrite B. replace ((qz (Z.of_nat k) + 1) * prune_unit)%Qc
        with (prune_unit + qz (Z.of_nat k) * prune_unit)%Qc by ring.
      eapply Qcabs_tri; [|exact IH].
      destruct q as [|c2 q].
      * replace (w - w)%Qc with 0%Qc by ring. exact P.
      * rewrite Qcabs_sym. inversion Hq as [|? ? ? Hq']; subst. inversion Hq'; subst.
        apply child_value_near; assumption.
Qed.
Lemma prune_height k : forall n, height_ok k n -> height_ok k (prune_rec qn n).
Proof.
  induction k as [|k IH]; intros n Hn; [contradiction|]. intros c Hc. rewrite prune_getChild by assumption.
  specialize (Hn c Hc). destruct (getChild n c) as [ch|]; [|exact I].
  destruct (prune_child qn (prune_rec qn ch)) as [m|] eqn:E; [|exact I].
  apply prune_child_some in E. subst. apply IH. assumption.
Qed.

Lemma prune_idem n : prune_rec qn (prune_rec qn n) = prune_rec qn n.
Proof.
  induction n as [d kids IH] using node_ind_strong. cbn [prune_rec]. destruct kids as [k|]; [|reflexivity].
  set (k' := omap _ k).
  assert (E : omap (fun kid => match kid with Some ch => prune_child qn (prune_rec qn ch) | None => None end) k' = k').
  { apply oct_ext. intros c Hc. rewrite oget_omap by assumption. subst k'. rewrite oget_omap by assumption.
    pose proof (oget_In k c) as HI. destruct (oget k c) as [ch|]; [|reflexivity].
    specialize (IH k ch eq_refl HI).
    destruct (prune_child qn (prune_rec qn ch)) as [m|] eqn:E; [|reflexivity].
    pose proof (prune_child_some _ _ E). subst m. rewrite IH. exact E. }
  destruct (some_child k') eqn:Es; cbn [prune_rec]; [|reflexivity]. rewrite E, Es. reflexivity.
Qed.

