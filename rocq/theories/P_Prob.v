(** * C80: log-odds and probabilities *)
From Verif Require Import Base M_ApproxFloat M_FloatIndex F_Float M_Prob.
From Coq Require Import ZArith Reals Lra Lia Psatz.
From Flocq Require Import Core IEEE754.BinarySingleNaN.
Close Scope Z_scope.
Open Scope R_scope.

(** ** Real numbers *)
(** A probability strictly between 0 and 1; the two conversions undo each other. *)
Theorem C80_inverse : (forall x, 0 < logOddsToProbability x < 1 /\ probabilityToLogOdds (logOddsToProbability x) = x) /\
  (forall p, 0 < p < 1 -> logOddsToProbability (probabilityToLogOdds p) = p).
Proof.
  split.
  - intros x. unfold logOddsToProbability, probabilityToLogOdds. cbv zeta. pose proof (exp_pos x) as P. set (o := exp x) in *. split; [split|].
    + apply Rdiv_lt_0_compat; lra.
    + apply Rmult_lt_reg_r with (1 + o); [lra|]. unfold Rdiv. rewrite Rmult_assoc, Rinv_l by lra. lra.
    + replace (o / (1 + o) / (1 - o / (1 + o))) with o by (field; lra). apply ln_exp.
  - intros p H. unfold logOddsToProbability, probabilityToLogOdds. cbv zeta. rewrite exp_ln by (apply Rdiv_lt_0_compat; lra). field. lra.
Qed.
(** More log-odds, more probability; 0 is even odds, changing the sign gives the probability of the contrary. *)
Theorem C80_monotone : (forall x y, x < y <-> logOddsToProbability x < logOddsToProbability y) /\ logOddsToProbability 0 = / 2 /\
  (forall x, logOddsToProbability (- x) = 1 - logOddsToProbability x).
Proof.
  assert (M : forall x y, x < y -> logOddsToProbability x < logOddsToProbability y).
  { intros x y H. apply exp_increasing in H. unfold logOddsToProbability. cbv zeta. pose proof (exp_pos x). pose proof (exp_pos y). set (a := exp x) in *. set (b := exp y) in *. clearbody a b.
    apply Rmult_lt_reg_r with ((1 + a) * (1 + b)); [nra|]. replace (a / (1 + a) * ((1 + a) * (1 + b))) with (a * (1 + b)) by (field; lra). replace (b / (1 + b) * ((1 + a) * (1 + b))) with (b * (1 + a)) by (field; lra). nra. }
  split; [|split].
  - intros x y. split; [apply M|]. intros H. destruct (Rlt_or_le x y) as [L|L]; [exact L|exfalso]. destruct L as [L|L]; [apply M in L; lra|subst; lra].
  - unfold logOddsToProbability. cbv zeta. rewrite exp_0. lra.
  - intros x. unfold logOddsToProbability. cbv zeta. rewrite exp_Ropp. pose proof (exp_pos x). field. split; lra.
Qed.
(** Adding log-odds is Bayes' rule for independent observations. *)
Theorem C80_bayes : forall x y, let p := logOddsToProbability x in let q := logOddsToProbability y in
  logOddsToProbability (x + y) = p * q / (p * q + (1 - p) * (1 - q)).
Proof.
  intros x y. cbv zeta. unfold logOddsToProbability. cbv zeta. rewrite exp_plus. pose proof (exp_pos x). pose proof (exp_pos y). set (a := exp x) in *. set (b := exp y) in *. clearbody a b.
  field. repeat split; try lra; nra.
Qed.
(** The grey level in the displays: the probability of being free. *)
Theorem C80_grey : forall x, logOddsToGrey x = 1 - logOddsToProbability x /\ 0 < logOddsToGrey x < 1 /\ forall y, x < y -> logOddsToGrey y < logOddsToGrey x.
Proof.
  intros x. assert (E : forall x, logOddsToGrey x = 1 - logOddsToProbability x) by reflexivity. rewrite !E. destruct (proj1 C80_inverse x) as [P _].
  split; [reflexivity|]. split; [lra|]. intros y H. rewrite !E. apply (proj1 (proj1 C80_monotone x y)) in H. lra.
Qed.
Example C80_ex : logOddsToProbability (ln 3) = 3 / 4 /\ probabilityToLogOdds (1 / 4) = - ln 3 /\ logOddsToProbability (ln 3 + ln 3) = 9 / 10.
Proof.
  unfold logOddsToProbability, probabilityToLogOdds. cbv zeta. rewrite exp_plus, exp_ln by lra. split; [lra|]. split; [|lra].
  replace (1 / 4 / (1 - 1 / 4)) with (/ 3) by lra. apply ln_Rinv. lra.
Qed.

(** ** Single precision *)
(** std::exp is accurate to 2^-22 of its result (about two units in the last place) at [x]. *)
Definition accurate_at (fexp : float32 -> float32) (x : float32) : Prop :=
  is_finite (fexp x) = true /\ 0 <= B2R (fexp x) /\ Rabs (B2R (fexp x) - exp (B2R x)) <= / 4194304 * exp (B2R x) + bpow radix2 (-149).
Lemma tiny_small : bpow radix2 (-149) <= / 1073741824.
Proof. change (/ 1073741824) with (bpow radix2 (-30)). apply bpow_le. lia. Qed.
Lemma one_big : 1 <= bpow radix2 126.
Proof. change 1 with (bpow radix2 0). apply bpow_le. lia. Qed.
Lemma round_near x g : generic_format radix2 (SpecFloat.fexp fprec femax) g -> Rabs (rnd32 x - x) <= Rabs (g - x).
Proof.
  intros G. pose proof (round_N_pt radix2 (SpecFloat.fexp fprec femax) (fun n => negb (Z.even n)) x) as [_ H]. apply H. exact G.
Qed.
Lemma one_plus o : is_finite o = true -> 0 <= B2R o -> is_finite (fadd fone o) = true /\ B2R (fadd fone o) = rnd32 (1 + B2R o) /\ 1 <= B2R (fadd fone o) /\ B2R o <= B2R (fadd fone o) /\
  Rabs (B2R (fadd fone o) - (1 + B2R o)) <= u32 * (1 + B2R o).
Proof.
  intros Fo Po. destruct fone_R as (E1 & F1 & S1). pose proof (Bplus_correct fprec femax fprec_pos fprec_emax mode_NE fone o F1 Fo) as C. rewrite E1 in C.
  assert (Go : generic_format radix2 (SpecFloat.fexp fprec femax) (B2R o)) by apply generic_format_B2R.
  assert (L : Rlt_bool (Rabs (rnd32 (1 + B2R o))) (bpow radix2 femax) = true).
  { apply Rlt_bool_true. pose proof (round_near (1 + B2R o) (B2R o) Go) as N. replace (B2R o - (1 + B2R o)) with (-1) in N by ring. rewrite (Rabs_left (-1)) in N by lra.
    pose proof (bounded_le_emax_minus_prec) as _. assert (M : B2R o <= bpow radix2 femax - bpow radix2 (femax - fprec)).
    { pose proof (abs_B2R_le_emax_minus_prec fprec femax fprec_pos o) as A. rewrite Rabs_pos_eq in A by exact Po. exact A. }
    assert (K : 4 <= bpow radix2 (femax - fprec)) by (change 4 with (bpow radix2 2); apply bpow_le; vm_compute; discriminate).
    apply rabs_split in N. apply Rabs_def1; lra. }
  rewrite L in C. destruct C as (C1 & C2 & _). unfold fadd. split; [exact C2|]. split; [exact C1|]. rewrite C1.
  assert (O1 : rnd32 1 = 1) by (apply rnd32_format; replace 1 with (IZR 1 * bpow radix2 0) by (cbn; ring); apply (format32 1 0); lia).
  split; [rewrite <- O1 at 1; apply rnd32_le; lra|]. split; [rewrite <- (rnd32_format _ Go) at 1; apply rnd32_le; lra|].
  eapply Rle_trans; [apply rnd32_rel|]; [|rewrite Rabs_pos_eq by lra; lra]. rewrite Rabs_pos_eq by lra. assert (bpow radix2 (-126) <= 1) by (change 1 with (bpow radix2 0); apply bpow_le; lia). lra.
Qed.
(** As long as std::exp does not overflow, the result is a number between 0 and 1 *)
Theorem C80_float_range : forall fexp x, is_finite (fexp x) = true -> 0 <= B2R (fexp x) ->
  is_finite (flogOddsToProbability fexp x) = true /\ 0 <= B2R (flogOddsToProbability fexp x) <= 1.
Proof.
  intros fexp x F P. unfold flogOddsToProbability. cbv zeta. set (o := fexp x) in *. destruct (one_plus o F P) as (F1 & E1 & A & B & _). set (d := fadd fone o) in *.
  assert (Q : 0 <= B2R o / B2R d <= 1).
  { split; [apply Rmult_le_pos; [exact P|]; left; apply Rinv_0_lt_compat; lra|]. apply Rmult_le_reg_r with (B2R d); [lra|]. unfold Rdiv. rewrite Rmult_assoc, Rinv_l by lra. lra. }
  destruct (fdiv_ok o d F ltac:(lra)) as [D1 D2]; [rewrite Rabs_pos_eq by lra; pose proof one_big; lra|]. split; [exact D1|]. rewrite D2.
  assert (O1 : rnd32 1 = 1) by (apply rnd32_format; replace 1 with (IZR 1 * bpow radix2 0) by (cbn; ring); apply (format32 1 0); lia).
  assert (O0 : rnd32 0 = 0) by (apply round_0; apply valid_rnd_round_mode). split; [rewrite <- O0 at 1|rewrite <- O1]; apply rnd32_le; lra.
Qed.
(** and within 2^-21 of the exact probability. *)
Theorem C80_float_accuracy : forall fexp x, accurate_at fexp x ->
  Rabs (B2R (flogOddsToProbability fexp x) - logOddsToProbability (B2R x)) <= / 2097152.
Proof.
  intros fexp x (F & P & Acc). unfold flogOddsToProbability, logOddsToProbability. cbv zeta. set (o := fexp x) in *. destruct (one_plus o F P) as (F1 & E1 & A & B & D). set (d := fadd fone o) in *.
  assert (Q : 0 <= B2R o / B2R d <= 1).
  { split; [apply Rmult_le_pos; [exact P|]; left; apply Rinv_0_lt_compat; lra|]. apply Rmult_le_reg_r with (B2R d); [lra|]. unfold Rdiv. rewrite Rmult_assoc, Rinv_l by lra. lra. }
  destruct (fdiv_ok o d F ltac:(lra)) as [D1 D2]; [rewrite Rabs_pos_eq by lra; pose proof one_big; lra|]. rewrite D2.
  pose proof (rnd32_err (B2R o / B2R d)) as R1. rewrite (Rabs_pos_eq (B2R o / B2R d)) in R1 by lra. pose proof tiny_small as T.
  pose proof (exp_pos (B2R x)) as X. set (E := exp (B2R x)) in *. set (a := B2R o) in *. set (b := B2R d) in *. set (r := rnd32 (a / b)) in *. clearbody E a b r. clear D1 D2 E1 F1.
  assert (S1 : Rabs (a / b - a / (1 + a)) <= u32).
  { replace (a / b - a / (1 + a)) with (- (a / b) * ((b - (1 + a)) / (1 + a))) by (field; lra). rewrite Rabs_mult, Rabs_Ropp, (Rabs_pos_eq (a / b)) by lra.
    assert (Y : Rabs ((b - (1 + a)) / (1 + a)) <= u32).
    { unfold Rdiv. rewrite Rabs_mult, (Rabs_pos_eq (/ (1 + a))) by (left; apply Rinv_0_lt_compat; lra). apply Rmult_le_reg_r with (1 + a); [lra|]. rewrite Rmult_assoc, Rinv_l by lra. lra. }
    pose proof (Rabs_pos ((b - (1 + a)) / (1 + a))). nra. }
  assert (S2 : Rabs (a / (1 + a) - E / (1 + E)) <= / 4194304 + bpow radix2 (-149)).
  { replace (a / (1 + a) - E / (1 + E)) with ((a - E) * / (1 + a) * / (1 + E)) by (field; lra). rewrite !Rabs_mult.
    assert (I1 : 0 < / (1 + a) <= 1) by (split; [apply Rinv_0_lt_compat; lra|]; rewrite <- Rinv_1; apply Rinv_le_contravar; lra).
    assert (I2 : 0 < / (1 + E)) by (apply Rinv_0_lt_compat; lra). rewrite (Rabs_pos_eq (/ (1 + a))), (Rabs_pos_eq (/ (1 + E))) by lra.
    assert (I3 : E * / (1 + E) <= 1) by (apply Rmult_le_reg_r with (1 + E); [lra|]; rewrite Rmult_assoc, Rinv_l by lra; lra).
    assert (I4 : / (1 + E) <= 1) by (rewrite <- Rinv_1; apply Rinv_le_contravar; lra).
    pose proof (bpow_gt_0 radix2 (-149)) as T0. pose proof (Rabs_pos (a - E)) as P0. set (t := bpow radix2 (-149)) in *. set (i := / (1 + E)) in *. set (k := / (1 + a)) in *. set (z := Rabs (a - E)) in *. clearbody t i k z.
    apply Rle_trans with (z * i); [assert (0 <= z * i) by nra; nra|]. apply Rle_trans with ((/ 4194304 * E + t) * i); [nra|]. nra. }
  apply rabs_split in R1. apply rabs_split in S1. apply rabs_split in S2. apply Rabs_le. lra.
Qed.
(** This is met, for instance, at log-odds of 0 if std::exp(0) is 1, and there the result is exact. *)
Example C80_accurate_ex : accurate_at (fun _ => fone) (B754_zero false) /\ B2R (flogOddsToProbability (fun _ => fone) (B754_zero false)) = / 2.
Proof.
  destruct fone_R as (E & F & _). split.
  - split; [exact F|]. rewrite E. split; [lra|]. cbn [B2R]. rewrite exp_0. replace (1 - 1) with 0 by ring. rewrite Rabs_R0. pose proof (bpow_gt_0 radix2 (-149)). lra.
  - assert (X : B2SF (flogOddsToProbability (fun _ => fone) (B754_zero false)) = B2SF fhalf) by (vm_compute; reflexivity). apply B2SF_inj in X. rewrite X. apply fhalf_R.
Qed.
(** When std::exp overflows to infinity, as it must from log-odds of 89 on, the result is not a number. *)
Definition f89 : float32 := f_of_int 89.
Lemma exp_mul n x : exp (INR n * x) = exp x ^ n.
Proof. induction n as [|n IH]; [cbn; rewrite Rmult_0_l; apply exp_0|]. rewrite S_INR, Rmult_plus_distr_r, exp_plus, IH, Rmult_1_l. cbn [pow]. ring. Qed.
Lemma frac_pow a b n : 0 < b -> (a / b) ^ n = a ^ n / b ^ n.
Proof. intros H. unfold Rdiv. rewrite Rpow_mult_distr, pow_inv. reflexivity. Qed.
Lemma frac_pow_ge a b c d n : (0 < b)%Z -> (0 < d)%Z -> (c * b ^ Z.of_nat n <= d * a ^ Z.of_nat n)%Z -> IZR c / IZR d <= (IZR a / IZR b) ^ n.
Proof.
  intros Hb Hd H. apply IZR_lt in Hb, Hd. rewrite frac_pow by exact Hb. apply IZR_le in H. rewrite !mult_IZR, <- !pow_IZR in H. pose proof (pow_lt _ n Hb) as P.
  apply Rmult_le_reg_r with (IZR d * IZR b ^ n); [nra|]. replace (IZR c / IZR d * (IZR d * IZR b ^ n)) with (IZR c * IZR b ^ n) by (field; lra).
  replace (IZR a ^ n / IZR b ^ n * (IZR d * IZR b ^ n)) with (IZR d * IZR a ^ n) by (field; lra). exact H.
Qed.
Lemma exp_big : bpow radix2 128 <= exp 89.
Proof.
  assert (A : 257 / 256 <= exp (/ 256)) by (pose proof (exp_ineq1_le (/ 256)); lra).
  assert (B : 271 / 100 <= exp 1).
  { replace 1 with (INR 256 * / 256) by (rewrite INR_IZR_INZ; change (Z.of_nat 256) with 256%Z; lra). rewrite exp_mul.
    apply Rle_trans with ((257 / 256) ^ 256); [apply frac_pow_ge; [lia|lia|]; vm_compute; discriminate|apply pow_incr; split; [lra|exact A]]. }
  replace 89 with (INR 89 * 1) by (rewrite INR_IZR_INZ; change (Z.of_nat 89) with 89%Z; lra). rewrite exp_mul.
  apply Rle_trans with ((271 / 100) ^ 89); [|apply pow_incr; split; [lra|exact B]].
  replace (bpow radix2 128) with (IZR (2 ^ 128) / 1) by (unfold Rdiv; rewrite Rinv_1, Rmult_1_r; apply (IZR_Zpower radix2); lia). apply frac_pow_ge; [lia|lia|]. vm_compute. discriminate.
Qed.
Theorem C80_overflow_refuted : exists x, is_finite x = true /\ B2R x = 89 /\
  forall fexp, (forall y, is_finite y = true -> bpow radix2 128 <= exp (B2R y) -> fexp y = B754_infinity false) -> is_nan (flogOddsToProbability fexp x) = true.
Proof.
  exists f89. destruct (f_of_int_ok 89 ltac:(lia)) as (F & E & _). split; [exact F|]. split; [exact E|]. intros fexp H.
  unfold flogOddsToProbability. cbv zeta. rewrite (H f89 F) by (unfold f89; rewrite E; exact exp_big). reflexivity.
Qed.
Print Assumptions C80_inverse.
Print Assumptions C80_monotone.
Print Assumptions C80_bayes.
Print Assumptions C80_grey.
Print Assumptions C80_float_range.
Print Assumptions C80_float_accuracy.
Print Assumptions C80_overflow_refuted.
