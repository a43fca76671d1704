(** Facts about the Haar transform (exact arithmetic). *)
From Verif Require Import Base M_IntMath F_IntMath M_Num F_Num M_Haar.
From Coq Require Import QArith Qcanon Lqa FinFun.
Close Scope Qc_scope.
Close Scope Q_scope.
Open Scope Z_scope.

(** Index with bit [x] forced to [v]. *)
Definition setb (i x : Z) (v : bool) : Z := if v then Z.setbit i x else Z.clearbit i x.

Lemma setb_testbit i x v j : 0 <= x -> Z.testbit (setb i x v) j = if j =? x then v else Z.testbit i j.
Proof.
  intros Hx. unfold setb. destruct v.
  - rewrite Z.setbit_eqb by assumption. rewrite Z.eqb_sym. destruct (j =? x); reflexivity.
  - rewrite Z.clearbit_eqb. rewrite Z.eqb_sym. destruct (j =? x); [apply andb_false_r|apply andb_true_r].
Qed.
Lemma setb_setb i x u v : 0 <= x -> setb (setb i x u) x v = setb i x v.
Proof.
  intros Hx. apply Z.bits_inj'. intros j Hj. rewrite !setb_testbit by assumption.
  destruct (j =? x); reflexivity.
Qed.
Lemma setb_comm i x y u v : 0 <= x -> 0 <= y -> x <> y -> setb (setb i x u) y v = setb (setb i y v) x u.
Proof.
  intros Hx Hy Hn. apply Z.bits_inj'. intros j Hj. rewrite !setb_testbit by assumption.
  destruct (Z.eqb_spec j x), (Z.eqb_spec j y); congruence || reflexivity.
Qed.
Lemma setb_same i x : 0 <= x -> setb i x (Z.testbit i x) = i.
Proof.
  intros Hx. apply Z.bits_inj'. intros j Hj. rewrite setb_testbit by assumption.
  destruct (Z.eqb_spec j x); congruence.
Qed.

(** Squeezing a bit in and out. *)
Lemma squeeze_in_testbit b v p j : 0 <= p -> 0 <= j ->
  Z.testbit (squeeze_in b v p) j =
  if j <? p then Z.testbit b j else if j =? p then v else Z.testbit b (j - 1).
Proof.
  intros Hp Hj. unfold squeeze_in.
  rewrite Z.shiftl_1_l. replace (2 ^ p - 1) with (Z.ones p) by (rewrite Z.ones_equiv; lia).
  rewrite !Z.lor_spec.
  rewrite Z.shiftl_spec, Z.shiftl_spec by assumption. rewrite !Z.land_spec.
  destruct (Z.ltb_spec j p).
  - rewrite (Z.testbit_neg_r (Z.b2z v)) by lia.
    rewrite (Z.ones_spec_low p j) by lia. rewrite andb_true_r, orb_false_r.
    destruct (Z.leb_spec 1 j).
    + rewrite Z.lnot_spec, Z.ones_spec_low by lia. rewrite andb_false_r. reflexivity.
    + rewrite Z.testbit_neg_r by lia. reflexivity.
  - rewrite (Z.ones_spec_high p j) by lia. rewrite andb_false_r, orb_false_r.
    destruct (Z.eqb_spec j p) as [->|Hne].
    + replace (p - p) with 0 by lia. rewrite Z.b2z_bit0.
      destruct (Z.leb_spec 1 p).
      * rewrite Z.lnot_spec, Z.ones_spec_low by lia. rewrite andb_false_r. reflexivity.
      * rewrite Z.testbit_neg_r by lia. reflexivity.
    + rewrite Z.lnot_spec, Z.ones_spec_high by lia. rewrite andb_true_r.
      replace (Z.testbit (Z.b2z v) (j - p)) with false; [apply orb_false_r|].
      symmetry. destruct v; cbn [Z.b2z].
      * change 1 with (2 ^ 0). apply Z.pow2_bits_false. lia.
      * apply Z.bits_0.
Qed.

Definition squeeze_out (i p : Z) : Z := Z.lor (Z.shiftl (Z.shiftr i (p + 1)) p) (Z.land i (Z.ones p)).
Lemma squeeze_out_testbit i p j : 0 <= p -> 0 <= j ->
  Z.testbit (squeeze_out i p) j = if j <? p then Z.testbit i j else Z.testbit i (j + 1).
Proof.
  intros Hp Hj. unfold squeeze_out. rewrite Z.lor_spec, Z.land_spec, Z.shiftl_spec by assumption.
  destruct (Z.ltb_spec j p).
  - rewrite Z.testbit_neg_r by lia. rewrite Z.ones_spec_low by lia. cbn. apply andb_true_r.
  - rewrite Z.shiftr_spec by lia. rewrite Z.ones_spec_high by lia. rewrite andb_false_r, orb_false_r.
    f_equal. lia.
Qed.
Lemma squeeze_in_out i p v : 0 <= p -> squeeze_in (squeeze_out i p) v p = setb i p v.
Proof.
  intros Hp. apply Z.bits_inj'. intros j Hj.
  rewrite squeeze_in_testbit, setb_testbit by assumption.
  destruct (Z.ltb_spec j p).
  - rewrite squeeze_out_testbit by lia. replace (j <? p) with true by lia.
    replace (j =? p) with false by lia. reflexivity.
  - destruct (Z.eqb_spec j p); [reflexivity|].
    rewrite squeeze_out_testbit by lia. replace (j - 1 <? p) with false by lia. f_equal. lia.
Qed.
Lemma squeeze_out_in b v p : 0 <= p -> squeeze_out (squeeze_in b v p) p = b.
Proof.
  intros Hp. apply Z.bits_inj'. intros j Hj.
  rewrite squeeze_out_testbit by assumption.
  rewrite !squeeze_in_testbit by lia.
  destruct (Z.ltb_spec j p).
  - reflexivity.
  - replace (j + 1 <? p) with false by lia. replace (j + 1 =? p) with false by lia. f_equal. lia.
Qed.
Lemma squeeze_in_bit b v p : 0 <= p -> Z.testbit (squeeze_in b v p) p = v.
Proof.
  intros Hp. rewrite squeeze_in_testbit by lia. replace (p <? p) with false by lia.
  replace (p =? p) with true by lia. reflexivity.
Qed.
Lemma squeeze_in_inj b b' v v' p : 0 <= p -> squeeze_in b v p = squeeze_in b' v' p -> b = b' /\ v = v'.
Proof.
  intros Hp H. split.
  - rewrite <- (squeeze_out_in b v p), <- (squeeze_out_in b' v' p) by assumption. congruence.
  - rewrite <- (squeeze_in_bit b v p), <- (squeeze_in_bit b' v' p) by assumption. congruence.
Qed.
Lemma squeeze_out_range i p n : 0 <= p < n -> 0 <= i < 2 ^ n -> 0 <= squeeze_out i p < 2 ^ (n - 1).
Proof.
  intros Hp Hi.
  assert (H0 : 0 <= squeeze_out i p).
  { unfold squeeze_out. apply Z.lor_nonneg. split.
    - apply Z.shiftl_nonneg, Z.shiftr_nonneg. lia.
    - apply Z.land_nonneg. lia. }
  split; [assumption|].
  apply bits_bound; [assumption|lia|]. intros j Hj.
  rewrite squeeze_out_testbit by lia. replace (j <? p) with false by lia.
  apply (testbit_high i n); lia.
Qed.

Lemma zseq_In n x : In x (zseq n) <-> 0 <= x < n.
Proof.
  unfold zseq. rewrite in_map_iff. split.
  - intros (k & <- & H). apply in_seq in H. lia.
  - intros H. exists (Z.to_nat x). split; [lia|]. apply in_seq. lia.
Qed.
Lemma zseq_NoDup n : NoDup (zseq n).
Proof.
  unfold zseq. apply Injective_map_NoDup; [|apply seq_NoDup].
  intros a b H. lia.
Qed.

(** Pointwise descriptions of one lifting step along an axis. *)
Definition fstep (x : Z) (a : Z -> Qc) (i : Z) : Qc :=
  if Z.testbit i x then (a (setb i x true) - a (setb i x false))%Qc
  else (a (setb i x false) + (a (setb i x true) - a (setb i x false)) / q2)%Qc.
Definition bstep (x : Z) (a : Z -> Qc) (i : Z) : Qc :=
  if Z.testbit i x then (a (setb i x true) + (a (setb i x false) - a (setb i x true) / q2))%Qc
  else (a (setb i x false) - a (setb i x true) / q2)%Qc.

(** The loop over the beams performs the step on every index. *)
Lemma loop_spec (x : Z) (body : (Z -> Qc) -> Z -> Z -> Qc) (g : Z -> bool -> Qc) (a : Z -> Qc) (L : list Z) :
  0 <= x -> NoDup L ->
  (forall a' b, (forall v, a' (squeeze_in b v x) = a (squeeze_in b v x)) -> forall v,
      body a' b (squeeze_in b v x) = g b v) ->
  (forall a' b j, squeeze_out j x <> b -> body a' b j = a' j) ->
  forall a0, (forall j, In (squeeze_out j x) L -> a0 j = a j) ->
  forall j, fold_left body L a0 j =
    if existsb (Z.eqb (squeeze_out j x)) L then g (squeeze_out j x) (Z.testbit j x) else a0 j.
Proof.
  intros Hx Hnd Hin Hout. induction L as [|b L IH]; intros a0 Ha0 j.
  - reflexivity.
  - apply NoDup_cons_iff in Hnd as [Hnb Hnd]. cbn [fold_left existsb].
    rewrite IH; [|assumption|].
    + destruct (existsb (Z.eqb (squeeze_out j x)) L) eqn:E.
      * rewrite orb_true_r. reflexivity.
      * rewrite orb_false_r. destruct (Z.eqb_spec (squeeze_out j x) b) as [Eb|Nb].
        -- rewrite <- (setb_same j x Hx) at 1. rewrite <- squeeze_in_out by assumption. rewrite Eb.
           apply Hin. intros v. apply Ha0. rewrite squeeze_out_in by assumption. left; reflexivity.
        -- apply Hout. assumption.
    + intros k Hk. rewrite Hout; [apply Ha0; right; assumption|]. intros E2. subst b. contradiction.
Qed.

Lemma upd_same {V} (a : Z -> V) i v : upd a i v i = v.
Proof. unfold upd. rewrite Z.eqb_refl. reflexivity. Qed.
Lemma upd_other {V} (a : Z -> V) i v j : j <> i -> upd a i v j = a j.
Proof. unfold upd. intros H. destruct (Z.eqb_spec j i); congruence. Qed.

Lemma squeeze_neq b x : 0 <= x -> squeeze_in b false x <> squeeze_in b true x.
Proof. intros Hx E. apply squeeze_in_inj in E; [|assumption]. destruct E; discriminate. Qed.
Lemma squeeze_out_neq j b v x : 0 <= x -> squeeze_out j x <> b -> j <> squeeze_in b v x.
Proof. intros Hx H ->. rewrite squeeze_out_in in H by assumption. congruence. Qed.

Section Lifted.
Context (dim : Z) (Hdim : 1 <= dim).

Lemma beams_In b : In b (beams dim) <-> 0 <= b < 2 ^ (dim - 1).
Proof. unfold beams. rewrite zseq_In, exp2_pow by lia. reflexivity. Qed.
Lemma existsb_beams x j : 0 <= x < dim -> 0 <= j < 2 ^ dim ->
  existsb (Z.eqb (squeeze_out j x)) (beams dim) = true.
Proof.
  intros Hx Hj. apply existsb_exists. exists (squeeze_out j x). split; [|apply Z.eqb_refl].
  apply beams_In. apply squeeze_out_range; lia.
Qed.

Lemma fwd_axis_spec x a i : 0 <= x < dim -> 0 <= i < 2 ^ dim ->
  fold_left (fwd_beam qn x) (beams dim) a i = fstep x a i.
Proof.
  intros Hx Hi.
  rewrite (loop_spec x (fwd_beam qn x)
    (fun b (v : bool) => let s := a (squeeze_in b false x) in let d := a (squeeze_in b true x) in
       if v then (d - s)%Qc else (s + (d - s) / q2)%Qc) a); try lia.
  - rewrite existsb_beams by assumption. cbv zeta. rewrite !squeeze_in_out by lia. reflexivity.
  - apply zseq_NoDup.
  - intros a' b Ha v. unfold fwd_beam. cbn [nadd nsub nhalf qn].
    assert (N := squeeze_neq b x ltac:(lia)). destruct v.
    + rewrite upd_other by congruence. rewrite upd_same. rewrite !Ha. reflexivity.
    + rewrite upd_same. rewrite upd_same. rewrite upd_other by assumption. rewrite !Ha. reflexivity.
  - intros a' b j Hj. unfold fwd_beam. rewrite !upd_other; [reflexivity|..];
      apply squeeze_out_neq; (lia || assumption).
  - reflexivity.
Qed.
Lemma fwd_axis0_spec a i : 0 <= i < 2 ^ dim ->
  fold_left (fwd_beam0 qn a) (beams dim) (fun _ => n0 qn) i = fstep 0 a i.
Proof.
  intros Hi.
  rewrite (loop_spec 0 (fwd_beam0 qn a)
    (fun b (v : bool) => let s := a (squeeze_in b false 0) in let d := a (squeeze_in b true 0) in
       if v then (d - s)%Qc else (s + (d - s) / q2)%Qc) (fun _ => n0 qn)); try lia.
  - rewrite existsb_beams by lia. cbv zeta. rewrite !squeeze_in_out by lia. reflexivity.
  - apply zseq_NoDup.
  - intros a' b _ v. unfold fwd_beam0. cbn [nadd nsub nhalf qn].
    assert (N := squeeze_neq b 0 ltac:(lia)). destruct v.
    + rewrite upd_other by congruence. rewrite upd_same. reflexivity.
    + rewrite upd_same. rewrite upd_same. reflexivity.
  - intros a' b j Hj. unfold fwd_beam0. rewrite !upd_other; [reflexivity|..];
      apply squeeze_out_neq; (lia || assumption).
  - reflexivity.
Qed.
Lemma bwd_axis_spec x a i : 0 <= x < dim -> 0 <= i < 2 ^ dim ->
  fold_left (bwd_beam qn x) (beams dim) a i = bstep x a i.
Proof.
  intros Hx Hi.
  rewrite (loop_spec x (bwd_beam qn x)
    (fun b (v : bool) => let s := a (squeeze_in b false x) in let d := a (squeeze_in b true x) in
       if v then (d + (s - d / q2))%Qc else (s - d / q2)%Qc) a); try lia.
  - rewrite existsb_beams by assumption. cbv zeta. rewrite !squeeze_in_out by lia. reflexivity.
  - apply zseq_NoDup.
  - intros a' b Ha v. unfold bwd_beam. cbn [nadd nsub nhalf qn].
    assert (N := squeeze_neq b x ltac:(lia)). destruct v.
    + rewrite upd_same. rewrite upd_same. rewrite upd_other by congruence. rewrite !Ha. reflexivity.
    + rewrite upd_other by assumption. rewrite upd_same. rewrite !Ha. reflexivity.
  - intros a' b j Hj. unfold bwd_beam. rewrite !upd_other; [reflexivity|..];
      apply squeeze_out_neq; (lia || assumption).
  - reflexivity.
Qed.
Lemma bwd_axis0_spec a i : 0 <= i < 2 ^ dim ->
  fold_left (bwd_beam0 qn a) (beams dim) (fun _ => n0 qn) i = bstep 0 a i.
Proof.
  intros Hi.
  rewrite (loop_spec 0 (bwd_beam0 qn a)
    (fun b (v : bool) => let s := a (squeeze_in b false 0) in let d := a (squeeze_in b true 0) in
       if v then (d + (s - d / q2))%Qc else (s - d / q2)%Qc) (fun _ => n0 qn)); try lia.
  - rewrite existsb_beams by lia. cbv zeta. rewrite !squeeze_in_out by lia. reflexivity.
  - apply zseq_NoDup.
  - intros a' b _ v. unfold bwd_beam0. cbn [nadd nsub nhalf qn].
    assert (N := squeeze_neq b 0 ltac:(lia)). destruct v.
    + rewrite upd_same. rewrite upd_same. reflexivity.
    + rewrite upd_other by assumption. rewrite upd_same. reflexivity.
  - intros a' b j Hj. unfold bwd_beam0. rewrite !upd_other; [reflexivity|..];
      apply squeeze_out_neq; (lia || assumption).
  - reflexivity.
Qed.

Lemma setb_range i x v n : 0 <= x < n -> 0 <= i < 2 ^ n -> 0 <= setb i x v < 2 ^ n.
Proof.
  intros Hx Hi.
  assert (0 <= setb i x v).
  { unfold setb. destruct v; [apply Z.lor_nonneg; split; [lia|apply Z.shiftl_nonneg; lia]|].
    apply Z.ldiff_nonneg. lia. }
  split; [assumption|]. apply bits_bound; [assumption|lia|]. intros j Hj.
  rewrite setb_testbit by lia. replace (j =? x) with false by lia. apply (testbit_high i n); lia.
Qed.

Definition eqr (a b : Z -> Qc) := forall i, 0 <= i < 2 ^ dim -> a i = b i.
Lemma fstep_eqr x a b : 0 <= x < dim -> eqr a b -> eqr (fstep x a) (fstep x b).
Proof. intros Hx H i Hi. unfold fstep. rewrite !(H (setb i x _)) by (apply setb_range; assumption). reflexivity. Qed.
Lemma bstep_eqr x a b : 0 <= x < dim -> eqr a b -> eqr (bstep x a) (bstep x b).
Proof. intros Hx H i Hi. unfold bstep. rewrite !(H (setb i x _)) by (apply setb_range; assumption). reflexivity. Qed.

Definition axes : list Z := 0 :: map (Z.add 1) (zseq (dim - 1)).
Lemma axes_In x : In x axes <-> 0 <= x < dim.
Proof.
  unfold axes. cbn [In]. rewrite in_map_iff. split.
  - intros [<-|(k & <- & Hk)]; [lia|]. apply zseq_In in Hk. lia.
  - intros H. destruct (Z.eq_dec x 0) as [->|]; [left; reflexivity|].
    right. exists (x - 1). split; [lia|]. apply zseq_In. lia.
Qed.
Lemma axes_NoDup : NoDup axes.
Proof.
  unfold axes. constructor.
  - rewrite in_map_iff. intros (k & E & Hk). apply zseq_In in Hk. lia.
  - apply Injective_map_NoDup; [intros ? ? ?; lia|apply zseq_NoDup].
Qed.

Lemma fold_axes_eqr (G H : Z -> (Z -> Qc) -> Z -> Qc) L :
  (forall x, In x L -> 0 <= x < dim) ->
  (forall x a, 0 <= x < dim -> eqr (G x a) (H x a)) ->
  (forall x a b, 0 <= x < dim -> eqr a b -> eqr (H x a) (H x b)) ->
  forall a b, eqr a b -> eqr (fold_left (fun a x => G x a) L a) (fold_left (fun a x => H x a) L b).
Proof.
  induction L as [|x L IH]; intros HL HG HH a b Hab; [assumption|].
  cbn [fold_left]. apply IH; [intros; apply HL; right; assumption|assumption|assumption|].
  intros i Hi. rewrite HG by (auto; apply HL; left; reflexivity).
  apply HH; [apply HL; left; reflexivity|assumption|assumption].
Qed.

Lemma ForwardLifted_spec c : eqr (ForwardLifted qn dim c) (fold_left (fun a x => fstep x a) axes c).
Proof.
  unfold ForwardLifted, axes. cbn [fold_left].
  apply (fold_axes_eqr (fun x a => fold_left (fwd_beam qn x) (beams dim) a) fstep).
  - intros x Hx. apply axes_In. right. assumption.
  - intros x a Hx i Hi. apply fwd_axis_spec; assumption.
  - apply fstep_eqr.
  - intros i Hi. apply fwd_axis0_spec. assumption.
Qed.
Lemma BackwardLifted_spec c : eqr (BackwardLifted qn dim c) (fold_left (fun a x => bstep x a) axes c).
Proof.
  unfold BackwardLifted, axes. cbn [fold_left].
  apply (fold_axes_eqr (fun x a => fold_left (bwd_beam qn x) (beams dim) a) bstep).
  - intros x Hx. apply axes_In. right. assumption.
  - intros x a Hx i Hi. apply bwd_axis_spec; assumption.
  - apply bstep_eqr.
  - intros i Hi. apply bwd_axis0_spec. assumption.
Qed.
End Lifted.

Ltac qfield := field; try (split; exact q2_neq0'); exact q2_neq0'.

Lemma q2_half x : (x / q2 + x / q2)%Qc = x.
Proof. unfold q2. field. exact q2_neq0. Qed.

Lemma bstep_fstep x a i : 0 <= x -> bstep x (fstep x a) i = a i.
Proof.
  intros Hx. unfold bstep, fstep. rewrite !setb_testbit, !Z.eqb_refl, !setb_setb by assumption.
  rewrite <- (f_equal a (setb_same i x Hx)). destruct (Z.testbit i x); unfold q2; field; exact q2_neq0.
Qed.
Lemma fstep_bstep x a i : 0 <= x -> fstep x (bstep x a) i = a i.
Proof.
  intros Hx. unfold bstep, fstep. rewrite !setb_testbit, !Z.eqb_refl, !setb_setb by assumption.
  rewrite <- (f_equal a (setb_same i x Hx)). destruct (Z.testbit i x); unfold q2; field; exact q2_neq0.
Qed.
Lemma bstep_fstep_comm x y a i : 0 <= x -> 0 <= y -> x <> y ->
  bstep x (fstep y a) i = fstep y (bstep x a) i.
Proof.
  intros Hx Hy Hn. unfold bstep, fstep. rewrite !setb_testbit by assumption.
  replace (y =? x) with false by lia. replace (x =? y) with false by lia.
  rewrite !(setb_comm i x y) by assumption.
  destruct (Z.testbit i x), (Z.testbit i y); unfold q2; field; exact q2_neq0.
Qed.

Lemma fstep_ext x a b : (forall i, a i = b i) -> forall i, fstep x a i = fstep x b i.
Proof. intros H i. unfold fstep. rewrite !H. reflexivity. Qed.
Lemma bstep_ext x a b : (forall i, a i = b i) -> forall i, bstep x a i = bstep x b i.
Proof. intros H i. unfold bstep. rewrite !H. reflexivity. Qed.
Lemma fold_ext (G : Z -> (Z -> Qc) -> Z -> Qc) L :
  (forall x a b, (forall i, a i = b i) -> forall i, G x a i = G x b i) ->
  forall a b, (forall i, a i = b i) -> forall i,
    fold_left (fun a x => G x a) L a i = fold_left (fun a x => G x a) L b i.
Proof.
  intros HG. induction L as [|x L IH]; intros a b H i; cbn [fold_left]; [apply H|].
  apply IH. intros j. apply HG. assumption.
Qed.

Lemma fold_commute (G H : Z -> (Z -> Qc) -> Z -> Qc) x L :
  (forall x a b, (forall i, a i = b i) -> forall i, G x a i = G x b i) ->
  (forall x a b, (forall i, a i = b i) -> forall i, H x a i = H x b i) ->
  (forall y a i, In y L -> G x (H y a) i = H y (G x a) i) ->
  forall a i, G x (fold_left (fun a y => H y a) L a) i = fold_left (fun a y => H y a) L (G x a) i.
Proof.
  intros EG EH. induction L as [|y L IH]; intros C a i; cbn [fold_left]; [reflexivity|].
  rewrite IH by (intros; apply C; right; assumption).
  apply fold_ext; [assumption|]. intros j. apply C. left; reflexivity.
Qed.

Lemma fold_inverse (G H : Z -> (Z -> Qc) -> Z -> Qc) L : NoDup L ->
  (forall x a b, (forall i, a i = b i) -> forall i, G x a i = G x b i) ->
  (forall x a b, (forall i, a i = b i) -> forall i, H x a i = H x b i) ->
  (forall x y a i, In x L -> In y L -> x <> y -> G x (H y a) i = H y (G x a) i) ->
  (forall x a i, In x L -> G x (H x a) i = a i) ->
  forall a i, fold_left (fun a x => G x a) L (fold_left (fun a x => H x a) L a) i = a i.
Proof.
  intros Hnd EG EH. induction L as [|x L IH]; intros C I a i; [reflexivity|].
  apply NoDup_cons_iff in Hnd as [Hx Hnd]. cbn [fold_left].
  rewrite (fold_ext G L EG _ (fold_left (fun a x => H x a) L a)).
  - apply IH; [assumption|..]; intros; [apply C|apply I]; try (right; assumption). assumption.
  - intros j. rewrite fold_commute; [|assumption|assumption|].
    + apply fold_ext; [assumption|]. intros k. apply I. left; reflexivity.
    + intros y b k Hy. apply C; [left; reflexivity|right; assumption|]. intros ->. contradiction.
Qed.

Theorem backward_forward_lifted dim c i : 1 <= dim -> 0 <= i < 2 ^ dim ->
  BackwardLifted qn dim (ForwardLifted qn dim c) i = c i.
Proof.
  intros Hd Hi. rewrite BackwardLifted_spec by assumption.
  assert (E : eqr dim (fold_left (fun a x => bstep x a) (axes dim) (ForwardLifted qn dim c))
     (fold_left (fun a x => bstep x a) (axes dim) (fold_left (fun a x => fstep x a) (axes dim) c))).
  { apply (fold_axes_eqr dim bstep bstep).
    - intros x Hx. apply axes_In in Hx; assumption.
    - intros x a Hx j Hj. reflexivity.
    - apply bstep_eqr.
    - apply ForwardLifted_spec. assumption. }
  rewrite E by assumption. apply fold_inverse.
  - apply axes_NoDup; assumption.
  - intros x a b Hab. apply bstep_ext; assumption.
  - intros x a b Hab. apply fstep_ext; assumption.
  - intros x y a j Hx Hy Hn. apply axes_In in Hx, Hy; try assumption. apply bstep_fstep_comm; lia.
  - intros x a j Hx. apply axes_In in Hx; try assumption. apply bstep_fstep. lia.
Qed.
Theorem forward_backward_lifted dim c i : 1 <= dim -> 0 <= i < 2 ^ dim ->
  ForwardLifted qn dim (BackwardLifted qn dim c) i = c i.
Proof.
  intros Hd Hi. rewrite ForwardLifted_spec by assumption.
  assert (E : eqr dim (fold_left (fun a x => fstep x a) (axes dim) (BackwardLifted qn dim c))
     (fold_left (fun a x => fstep x a) (axes dim) (fold_left (fun a x => bstep x a) (axes dim) c))).
  { apply (fold_axes_eqr dim fstep fstep).
    - intros x Hx. apply axes_In in Hx; assumption.
    - intros x a Hx j Hj. reflexivity.
    - apply fstep_eqr.
    - apply BackwardLifted_spec. assumption. }
  rewrite E by assumption. apply fold_inverse.
  - apply axes_NoDup; assumption.
  - intros x a b Hab. apply fstep_ext; assumption.
  - intros x a b Hab. apply bstep_ext; assumption.
  - intros x y a j Hx Hy Hn. apply axes_In in Hx, Hy; try assumption. symmetry. apply bstep_fstep_comm; lia.
  - intros x a j Hx. apply axes_In in Hx; try assumption. apply fstep_bstep. lia.
Qed.
