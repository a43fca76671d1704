(** * C65: the approximate arc tangent stays within its documented error *)
From Verif Require Import M_Image M_Intersector M_ApproxTrig F_ApproxTrig.
From Coq Require Import Reals QArith Qreals Qabs Lra Lia Psatz.
Close Scope Q_scope.
Open Scope R_scope.

(** ** Specification *)
(** [theta] is the angle of the point (x, y) in polar coordinates, in the upper half plane's range [0, pi] or the lower one's [-pi, 0]. The sign bit [sy] of y
    selects the half, which matters only for y = 0 and x < 0. *)
Definition angle_of (sy : bool) (y x theta : R) : Prop :=
  x = sqrt (x * x + y * y) * cos theta /\ y = sqrt (x * x + y * y) * sin theta /\ if sy then - PI <= theta <= 0 else 0 <= theta <= PI.
(** [s] is a possible sign bit of [x]; a zero may have either. *)
Definition sign_bit (s : bool) (x : R) : Prop := if s then x <= 0 else 0 <= x.

(** ** Facts *)
Lemma pi_bounds : 31415926535 / 10000000000 < PI < 31415926537 / 10000000000.
Proof.
  pose proof (PI_2_3_7_ineq 5) as [L U]. unfold tg_alt, PI_2_3_7_tg, Ratan_seq in L, U. cbn [Nat.mul Nat.add sum_f_R0 pow INR] in L, U. lra.
Qed.
Lemma kpi_error : Rabs (RkPi - PI) <= 9 / 100000000 /\ RkHalfPi = RkPi / 2.
Proof. pose proof pi_bounds. unfold RkPi, RkHalfPi, kPi, kHalfPi, Q2R. cbn [Qnum Qden]. split; [apply Rabs_le; lra|lra]. Qed.
Lemma worst_val : 1907 / 1000000000 <= kWorstCaseError.
Proof. unfold kWorstCaseError, Q2R. cbn [Qnum Qden]. lra. Qed.
Lemma approx_atan_opp x : Rapprox_atan (- x) = - Rapprox_atan x.
Proof. unfold Rapprox_atan. replace (- x * - x) with (x * x) by ring. ring. Qed.
Lemma approx_atan_error x : -1 <= x <= 1 -> Rabs (Rapprox_atan x - atan x) <= 1795 / 1000000000.
Proof.
  intros H. destruct (Rle_dec 0 x) as [L|L]; [apply approx_atan_pos; lra|]. pose proof (approx_atan_pos (- x) ltac:(lra)) as A. rewrite approx_atan_opp, atan_opp in A.
  rewrite <- Rabs_Ropp. replace (- (Rapprox_atan x - atan x)) with (- Rapprox_atan x - - atan x) by ring. exact A.
Qed.
Lemma polar_pos x y : 0 < x -> x = sqrt (x * x + y * y) * cos (atan (y / x)) /\ y = sqrt (x * x + y * y) * sin (atan (y / x)).
Proof.
  intros H. rewrite cos_atan, sin_atan. assert (E : sqrt (x * x + y * y) = x * sqrt (1 + (y / x)²)).
  { replace (x * x + y * y) with (x * x * (1 + (y / x)²)) by (unfold Rsqr; field; lra). rewrite sqrt_mult; [|nra|pose proof (Rle_0_sqr (y / x)); lra]. rewrite sqrt_square by lra. reflexivity. }
  assert (P : 0 < sqrt (1 + (y / x)²)) by (apply sqrt_lt_R0; pose proof (Rle_0_sqr (y / x)); lra). rewrite E. split; field; lra.
Qed.
Lemma atan_nonneg u : 0 <= u -> 0 <= atan u.
Proof. intros [H|H]; [rewrite <- atan_0; left; apply atan_increasing; exact H|rewrite <- H, atan_0; lra]. Qed.
Lemma atan_nonpos u : u <= 0 -> atan u <= 0.
Proof. intros H. pose proof (atan_nonneg (- u) ltac:(lra)). rewrite atan_opp in *. lra. Qed.
Lemma quot_le a b : b <> 0 -> Rabs a <= Rabs b -> -1 <= a / b <= 1.
Proof.
  intros Hb H. assert (A : Rabs (a / b) <= 1). { unfold Rdiv. rewrite Rabs_mult, Rabs_inv. apply (Rmult_le_reg_r (Rabs b)); [apply Rabs_pos_lt; exact Hb|]. rewrite Rmult_assoc, Rinv_l, Rmult_1_r, Rmult_1_l; [exact H|]. apply Rabs_no_R0. exact Hb. }
  unfold Rabs in A. destruct (Rcase_abs (a / b)); lra.
Qed.
Lemma quot_sign a b : b <> 0 -> (0 <= a -> 0 < b -> 0 <= a / b) /\ (a <= 0 -> b < 0 -> 0 <= a / b) /\ (0 <= a -> b < 0 -> a / b <= 0) /\ (a <= 0 -> 0 < b -> a / b <= 0).
Proof.
  intros Hb. repeat split; intros Ha Hb'; unfold Rdiv.
  - apply Rmult_le_pos; [exact Ha|]. left. apply Rinv_0_lt_compat. exact Hb'.
  - pose proof (Rinv_lt_0_compat b Hb'). nra.
  - pose proof (Rinv_lt_0_compat b Hb'). nra.
  - pose proof (Rinv_0_lt_compat b Hb'). nra.
Qed.
Lemma rabs_inv a b : Rabs a <= b -> - b <= a <= b.
Proof. unfold Rabs. destruct (Rcase_abs a); lra. Qed.
Lemma polar_sym x y : sqrt (y * y + x * x) = sqrt (x * x + y * y). Proof. f_equal. ring. Qed.
Lemma polar_neg x y : sqrt (- x * - x + - y * - y) = sqrt (x * x + y * y). Proof. f_equal. ring. Qed.

(** ** C65 *)
(** The angle is unique, so the next theorem speaks about the right one. *)
Theorem C65_angle_unique : forall sy y x a b, x <> 0 \/ y <> 0 -> angle_of sy y x a -> angle_of sy y x b -> a = b.
Proof.
  intros sy y x a b N (A1 & A2 & A3) (B1 & B2 & B3). set (r := sqrt (x * x + y * y)) in *.
  assert (R0 : 0 < r) by (apply sqrt_lt_R0; nra). assert (E : cos a = cos b) by (apply (Rmult_eq_reg_l r); lra).
  destruct sy.
  - assert (- a = - b); [|lra]. rewrite <- (acos_cos (- a)), <- (acos_cos (- b)) by lra. rewrite !cos_neg, E. reflexivity.
  - rewrite <- (acos_cos a), <- (acos_cos b) by lra. rewrite E. reflexivity.
Qed.
(** For all points but the origin, in all quadrants and on the axes: the result differs from the angle by at most the documented error kWorstCaseError. A zero
    x coordinate must be the positive zero; a zero y coordinate may have either sign. *)
Theorem C65_atan2_error : forall sy sx y x, x <> 0 \/ y <> 0 -> sign_bit sy y -> sign_bit sx x -> (x = 0 -> sx = false) ->
  exists theta, angle_of sy y x theta /\ Rabs (Rapprox_atan2_signed sy sx y x - theta) <= kWorstCaseError.
Proof.
  intros sy sx y x N Sy Sx Z. pose proof worst_val as W. destruct kpi_error as [KP KH]. pose proof pi_bounds as PB.
  unfold Rapprox_atan2_signed. cbv zeta. destruct (Rlt_dec (Rabs x) (Rabs y)) as [SW|SW].
  - assert (Hy : y <> 0). { intros ->. rewrite Rabs_R0 in SW. pose proof (Rabs_pos x). lra. }
    pose proof (quot_le x y Hy ltac:(lra)) as Q. pose proof (approx_atan_error _ Q) as E. pose proof (atan_bound (x / y)) as AB. destruct (quot_sign x y Hy) as (S1 & S2 & S3 & S4).
    set (res := Rapprox_atan (x / y)) in *. set (al := atan (x / y)) in *. clearbody res.
    destruct sy; cbn [sign_bit] in Sy.
    + assert (Y : y < 0) by lra. destruct (polar_pos (- y) (- x) ltac:(lra)) as [P1 P2]. rewrite polar_neg, polar_sym in P1, P2. replace (- x / - y) with (x / y) in P1, P2 by (field; lra). fold al in P1, P2.
      exists (- (PI / 2) - al). split.
      * split; [|split].
        -- rewrite cos_minus, cos_neg, sin_neg, cos_PI2, sin_PI2. replace (0 * cos al + -1 * sin al) with (- sin al) by ring. lra.
        -- rewrite sin_minus, cos_neg, sin_neg, cos_PI2, sin_PI2. replace (-1 * cos al - 0 * sin al) with (- cos al) by ring. lra.
        -- lra.
      * rewrite KH. destruct sx; cbn [xorb Rcopysign sign_bit] in *.
        -- destruct (Rlt_dec x 0) as [X|X]; [|destruct (Req_dec x 0) as [->|]; [specialize (Z eq_refl); discriminate|lra]].
           apply Rabs_le; apply rabs_inv in E; apply rabs_inv in KP; lra.
        -- destruct (Rlt_dec x 0) as [X|X]; [lra|]. apply Rabs_le; apply rabs_inv in E; apply rabs_inv in KP; lra.
    + assert (Y : 0 < y) by lra. destruct (polar_pos y x Y) as [P1 P2]. rewrite polar_sym in P1, P2. fold al in P1, P2.
      exists (PI / 2 - al). split.
      * split; [|split].
        -- rewrite cos_minus, cos_PI2, sin_PI2. replace (0 * cos al + 1 * sin al) with (sin al) by ring. exact P2.
        -- rewrite sin_minus, cos_PI2, sin_PI2. replace (1 * cos al - 0 * sin al) with (cos al) by ring. exact P1.
        -- lra.
      * rewrite KH. destruct sx; cbn [xorb Rcopysign sign_bit] in *.
        -- destruct (Rlt_dec x 0) as [X|X]; [|destruct (Req_dec x 0) as [->|]; [specialize (Z eq_refl); discriminate|lra]].
           apply Rabs_le; apply rabs_inv in E; apply rabs_inv in KP; lra.
        -- destruct (Rlt_dec x 0) as [X|X]; [lra|]. apply Rabs_le; apply rabs_inv in E; apply rabs_inv in KP; lra.
  - assert (Hx : x <> 0). { intros ->. rewrite Rabs_R0 in SW. destruct N as [N|N]; [contradiction|]. pose proof (Rabs_pos_lt y N). lra. }
    pose proof (quot_le y x Hx ltac:(lra)) as Q. pose proof (approx_atan_error _ Q) as E. pose proof (atan_bound (y / x)) as AB. destruct (quot_sign y x Hx) as (S1 & S2 & S3 & S4).
    pose proof (atan_nonneg (y / x)) as AN. pose proof (atan_nonpos (y / x)) as AP.
    set (res := Rapprox_atan (y / x)) in *. set (al := atan (y / x)) in *. clearbody res.
    destruct (Rlt_dec x 0) as [X|X].
    + destruct (polar_pos (- x) (- y) ltac:(lra)) as [P1 P2]. rewrite polar_neg in P1, P2. replace (- y / - x) with (y / x) in P1, P2 by (field; lra). fold al in P1, P2.
      destruct sy; cbn [sign_bit Rcopysign] in *.
      * exists (- PI + al). split; [split; [|split]|].
        -- rewrite cos_plus, cos_neg, sin_neg, cos_PI, sin_PI. replace (-1 * cos al - - 0 * sin al) with (- cos al) by ring. lra.
        -- rewrite sin_plus, cos_neg, sin_neg, cos_PI, sin_PI. replace (- 0 * cos al + -1 * sin al) with (- sin al) by ring. lra.
        -- specialize (AN (S2 Sy X)). lra.
        -- apply Rabs_le; apply rabs_inv in E; apply rabs_inv in KP; lra.
      * exists (PI + al). split; [split; [|split]|].
        -- rewrite cos_plus, cos_PI, sin_PI. replace (-1 * cos al - 0 * sin al) with (- cos al) by ring. lra.
        -- rewrite sin_plus, cos_PI, sin_PI. replace (0 * cos al + -1 * sin al) with (- sin al) by ring. lra.
        -- specialize (AP (S3 Sy X)). lra.
        -- apply Rabs_le; apply rabs_inv in E; apply rabs_inv in KP; lra.
    + assert (X' : 0 < x) by lra. destruct (polar_pos x y X') as [P1 P2]. fold al in P1, P2. exists al. split; [split; [exact P1|split; [exact P2|]]|].
      * destruct sy; cbn [sign_bit] in Sy; [specialize (AP (S4 Sy X')); lra|specialize (AN (S1 Sy X')); lra].
      * lra.
Qed.
(** With zeros that are positive, as in the models of the projections *)
Theorem C65_atan2_error_plain : forall y x, x <> 0 \/ y <> 0 -> exists theta, angle_of (Rsignbit y) y x theta /\ Rabs (Rapprox_atan2 y x - theta) <= kWorstCaseError.
Proof.
  assert (S : forall z, sign_bit (Rsignbit z) z) by (intros z; unfold sign_bit, Rsignbit; destruct (Rlt_dec z 0); lra).
  intros y x N. apply C65_atan2_error; auto. intros ->. unfold Rsignbit. destruct (Rlt_dec 0 0); [lra|reflexivity].
Qed.
(** The same for the rational numbers of the projection models *)
Lemma q2r0 : Q2R 0 = 0. Proof. unfold Q2R. cbn. lra. Qed.
Lemma q_lt_r a b : M_Image.qltb a b = if Rlt_dec (Q2R a) (Q2R b) then true else false.
Proof.
  unfold M_Image.qltb. destruct (Rlt_dec (Q2R a) (Q2R b)) as [H|H].
  - apply Rlt_Qlt in H. destruct (Qle_bool b a) eqn:E; [|reflexivity]. apply Qle_bool_iff in E. exfalso. apply (Qlt_not_le _ _ H E).
  - destruct (Qle_bool b a) eqn:E; [reflexivity|]. exfalso. apply H. apply Qlt_Rlt. apply Qnot_le_lt. intros L. apply Qle_bool_iff in L. congruence.
Qed.
Lemma approx_atan_q x : Q2R (approx_atan x) = Rapprox_atan (Q2R x).
Proof. unfold approx_atan, Rapprox_atan, Qminus. cbv zeta. repeat rewrite ?Q2R_mult, ?Q2R_plus, ?Q2R_opp. ring. Qed.
Theorem C65_atan2_rational : forall sy sx y x, ~ (x == 0)%Q \/ ~ (y == 0)%Q -> sign_bit sy (Q2R y) -> sign_bit sx (Q2R x) -> ((x == 0)%Q -> sx = false) ->
  exists theta, angle_of sy (Q2R y) (Q2R x) theta /\ Rabs (Q2R (approx_atan2_signed sy sx y x) - theta) <= kWorstCaseError.
Proof.
  intros sy sx y x N Sy Sx Z. assert (E0 : forall z : Q, ~ (z == 0)%Q -> Q2R z <> 0) by (intros z Hz H; apply Hz; apply eqR_Qeq; rewrite q2r0; exact H).
  assert (E : Q2R (approx_atan2_signed sy sx y x) = Rapprox_atan2_signed sy sx (Q2R y) (Q2R x)).
  { unfold approx_atan2_signed, Rapprox_atan2_signed. cbv zeta. rewrite !q_lt_r, !Q2R_abs, q2r0.
    assert (CP : forall m s, Q2R (copysign m s) = Rcopysign (Q2R m) s) by (intros m [|]; cbn [copysign Rcopysign]; [apply Q2R_opp|reflexivity]).
    destruct (Rlt_dec (Rabs (Q2R x)) (Rabs (Q2R y))) as [L|L].
    - assert (Hy : ~ (y == 0)%Q). { intros H. apply Qeq_eqR in H. rewrite q2r0 in H. rewrite H, Rabs_R0 in L. pose proof (Rabs_pos (Q2R x)). lra. }
      destruct (Rlt_dec (Q2R x) 0); rewrite ?Q2R_plus, Q2R_minus, approx_atan_q, !CP, Q2R_div by exact Hy; reflexivity.
    - assert (Hx : ~ (x == 0)%Q). { intros H. assert (H' : Q2R x = 0) by (apply Qeq_eqR in H; rewrite H; apply q2r0). rewrite H', Rabs_R0 in L. destruct N as [N|N]; [contradiction|]. pose proof (Rabs_pos_lt _ (E0 _ N)). lra. }
      destruct (Rlt_dec (Q2R x) 0); rewrite ?Q2R_plus, approx_atan_q, ?CP, Q2R_div by exact Hx; reflexivity. }
  rewrite E. apply C65_atan2_error; try assumption.
  - destruct N as [N|N]; [left|right]; apply E0; exact N.
  - intros H. apply Z. apply eqR_Qeq. rewrite q2r0. exact H.
Qed.
Theorem C65_atan2_rational_plain : forall y x, ~ (x == 0)%Q \/ ~ (y == 0)%Q ->
  exists theta, angle_of (Rsignbit (Q2R y)) (Q2R y) (Q2R x) theta /\ Rabs (Q2R (approx_atan2 y x) - theta) <= kWorstCaseError.
Proof.
  assert (B : forall z, M_Image.qltb z 0 = Rsignbit (Q2R z)) by (intros z; rewrite q_lt_r, q2r0; reflexivity).
  assert (S : forall z, sign_bit (Rsignbit z) z) by (intros z; unfold sign_bit, Rsignbit; destruct (Rlt_dec z 0); lra).
  intros y x N. unfold approx_atan2. rewrite !B. apply C65_atan2_rational; auto.
  intros H. apply Qeq_eqR in H. rewrite H, q2r0. unfold Rsignbit. destruct (Rlt_dec 0 0); [lra|reflexivity].
Qed.
(** If x is the negative zero, the result is off by pi, i.e. it points to the opposite side. *)
Theorem C65_negative_zero_refuted : exists sy sx y x, y <> 0 /\ sign_bit sy y /\ sign_bit sx x /\
  forall theta, angle_of sy y x theta -> 3 < Rabs (Rapprox_atan2_signed sy sx y x - theta).
Proof.
  exists false, true, 1, 0. split; [lra|]. split; [cbn; lra|]. split; [cbn; lra|]. intros theta A.
  assert (T : angle_of false 1 0 (PI / 2)).
  { unfold angle_of. replace (0 * 0 + 1 * 1) with 1 by ring. rewrite sqrt_1, cos_PI2, sin_PI2. pose proof pi_bounds. lra. }
  rewrite (C65_angle_unique false 1 0 theta (PI / 2) ltac:(right; lra) A T). unfold Rapprox_atan2_signed. cbv zeta. rewrite Rabs_R0, Rabs_R1.
  destruct (Rlt_dec 0 1) as [_|X]; [|lra]. destruct (Rlt_dec 0 0) as [X|_]; [lra|]. cbn [xorb Rcopysign]. unfold Rapprox_atan. replace (0 / 1) with 0 by field. rewrite !Rmult_0_l.
  destruct kpi_error as [KP KH]. rewrite KH. pose proof pi_bounds. apply rabs_inv in KP. rewrite Rabs_left; lra.
Qed.
(** Non-vacuity: the point (-1, 2), in the second quadrant with swapped coordinates *)
Example C65_ex : exists theta, angle_of false 2 (-1) theta /\ Rabs (Rapprox_atan2_signed false true 2 (-1) - theta) <= kWorstCaseError /\ PI / 2 < theta.
Proof.
  destruct (C65_atan2_error false true 2 (-1) ltac:(left; lra) ltac:(cbn; lra) ltac:(cbn; lra) ltac:(intros; lra)) as (t & A & E). exists t. split; [exact A|]. split; [exact E|].
  destruct A as (A1 & _ & A3). destruct (Rlt_dec (PI / 2) t) as [|X]; [assumption|]. exfalso. pose proof pi_bounds. assert (0 <= cos t) by (apply cos_ge_0; lra). pose proof (sqrt_pos (-1 * -1 + 2 * 2)). nra.
Qed.
Print Assumptions C65_angle_unique.
Print Assumptions C65_atan2_error.
Print Assumptions C65_atan2_error_plain.
Print Assumptions C65_atan2_rational.
Print Assumptions C65_atan2_rational_plain.
Print Assumptions C65_negative_zero_refuted.
