(** C74: the special values of M_NaN.v behave as in IEEE 754: comparisons and operations agree with Flocq's single precision numbers. *)
From Coq Require Import Reals Lra.
From Verif Require Import Base M_Image M_RangeBounds M_Measure M_NaN M_ApproxFloat M_FloatIndex F_Float.
From Coq Require Import QArith Qreals.
From Flocq Require Import Core IEEE754.BinarySingleNaN.
Close Scope Q_scope.
Close Scope R_scope.
Open Scope Z_scope.

(** What a float stands for in M_NaN.v *)
Definition value (x : float32) : fl :=
  match x with
  | B754_nan => NaN
  | B754_infinity s => if s then NInf else PInf
  | _ => Fin (f2q x)
  end.

Lemma value_fin x : is_finite x = true -> value x = Fin (f2q x).
Proof. destruct x; try discriminate; reflexivity. Qed.
Lemma qltb_Rlt a b : qltb a b = Rlt_bool (Q2R a) (Q2R b).
Proof.
  unfold qltb. destruct (Rlt_bool_spec (Q2R a) (Q2R b)) as [H|H].
  - apply Rlt_Qlt in H. destruct (Qle_bool b a) eqn:E; [|reflexivity]. apply Qle_bool_iff in E. exfalso. exact (Qlt_not_le _ _ H E).
  - apply Rle_Qle in H. apply Qle_bool_iff in H. rewrite H. reflexivity.
Qed.
Lemma qleb_Rle a b : Qle_bool a b = Rle_bool (Q2R a) (Q2R b).
Proof.
  destruct (Rle_bool_spec (Q2R a) (Q2R b)) as [H|H]; [apply Qle_bool_iff, Rle_Qle; exact H|].
  apply Rlt_Qlt in H. destruct (Qle_bool a b) eqn:E; [|reflexivity]. apply Qle_bool_iff in E. exfalso. exact (Qlt_not_le _ _ H E).
Qed.

(** Comparisons, for all operands *)
Theorem C74_ieee_compare : forall a b : float32, fltb (value a) (value b) = Bltb a b /\ fleb (value a) (value b) = Bleb a b.
Proof.
  intros a b. destruct (is_finite a) eqn:Fa, (is_finite b) eqn:Fb.
  - rewrite !value_fin by assumption. cbn [fltb fleb]. rewrite qltb_Rlt, qleb_Rle, !f2q_R by assumption. split; symmetry.
    + apply Bltb_correct; assumption.
    + apply Bleb_correct; assumption.
  - destruct a as [s|s| |s m e H], b as [s'|s'| |s' m' e' H']; try discriminate; try destruct s; try destruct s'; split; reflexivity.
  - destruct a as [s|s| |s m e H], b as [s'|s'| |s' m' e' H']; try discriminate; try destruct s; try destruct s'; split; reflexivity.
  - destruct a as [s|s| |s m e H], b as [s'|s'| |s' m' e' H']; try discriminate; try destruct s; try destruct s'; split; reflexivity.
Qed.

Lemma f2q_sign s m e H : qltb 0 (f2q (@B754_finite fprec femax s m e H)) = negb s /\ qltb (f2q (@B754_finite fprec femax s m e H)) 0 = s.
Proof.
  rewrite !qltb_Rlt, !f2q_R by reflexivity. rewrite RMicromega.Q2R_0.
  assert (P : (0 < F2R (Float radix2 (Z.pos m) e))%R) by (apply F2R_gt_0; reflexivity). destruct s.
  - assert (E : B2R (@B754_finite fprec femax true m e H) = (- F2R (Float radix2 (Z.pos m) e))%R) by (unfold B2R, F2R; cbn [Fnum Fexp SpecFloat.cond_Zopp]; rewrite opp_IZR; ring).
    rewrite E.
    split; [apply Rlt_bool_false|apply Rlt_bool_true]; lra.
  - change (B2R (@B754_finite fprec femax false m e H)) with (F2R (Float radix2 (Z.pos m) e)). split; [apply Rlt_bool_true|apply Rlt_bool_false]; lra.
Qed.
(** Operations with at least one operand that is infinite or NaN; the divisor is not zero *)
Theorem C74_ieee_special : forall a b : float32, is_finite a = false \/ is_finite b = false ->
  value (Bplus mode_NE a b) = M_NaN.fadd (value a) (value b) /\
  value (Bminus mode_NE a b) = M_NaN.fsub (value a) (value b) /\
  value (Bmult mode_NE a b) = M_NaN.fmul (value a) (value b) /\
  (~ (f2q b == 0 /\ is_finite b = true)%Q -> value (Bdiv mode_NE a b) = M_NaN.fdiv (value a) (value b)).
Proof.
  intros a b H.
  assert (Z0 : qltb 0 0 = false) by reflexivity.
  destruct a as [s|s| |s m e Hm], b as [s'|s'| |s' m' e' Hm']; cbn [is_finite] in H; try (destruct H; discriminate);
    repeat split; try (destruct s); try (destruct s'); try reflexivity;
    try (intros N; try reflexivity; try (exfalso; apply N; split; reflexivity));
    unfold value, M_NaN.fmul, M_NaN.fdiv, M_NaN.fadd, M_NaN.fsub, inf_times;
    rewrite ?(proj1 (f2q_sign _ _ _ _)), ?(proj2 (f2q_sign _ _ _ _)); reflexivity.
Qed.
(** Changing the sign, for all operands *)
Theorem C74_ieee_opp : forall a : float32, match value (Bopp a), fopp (value a) with Fin x, Fin y => (x == y)%Q | x, y => x = y end.
Proof.
  intros [s|[]| |s m e H]; try reflexivity. cbn [value Bopp fopp].
  apply eqR_Qeq. rewrite Q2R_opp. change (B754_finite (negb s) m e H) with (Bopp (@B754_finite fprec femax s m e H)). rewrite !f2q_R by reflexivity. apply B2R_Bopp.
Qed.
(** std::min and std::max return one of their arguments, the first one if a comparison with NaN is involved. *)
Theorem C74_ieee_minmax : forall a b : float32,
  fmin (value a) (value b) = value (if Bltb b a then b else a) /\ fmax (value a) (value b) = value (if Bltb a b then b else a).
Proof.
  intros a b. unfold fmin, fmax. destruct (C74_ieee_compare a b) as [-> _]. destruct (C74_ieee_compare b a) as [-> _].
  split; [destruct (Bltb b a)|destruct (Bltb a b)]; reflexivity.
Qed.
Print Assumptions C74_ieee_compare.
Print Assumptions C74_ieee_special.
Print Assumptions C74_ieee_opp.
Print Assumptions C74_ieee_minmax.
(** Infinity times a negative number, a finite number divided by infinity, infinity minus infinity, and zero times infinity *)
Example C74_ieee_ex : let inf := @B754_infinity fprec femax false in
  value (Bmult mode_NE inf (Bopp fone)) = NInf /\ value (Bdiv mode_NE fone inf) = Fin 0 /\ value (Bminus mode_NE inf inf) = NaN /\
  value (Bmult mode_NE (B754_zero true) inf) = NaN /\ fltb (value fone) (value inf) = true /\ fleb (value B754_nan) (value inf) = false.
Proof. repeat split; reflexivity. Qed.
