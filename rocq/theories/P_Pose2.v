(** Property theorems C59: interpolation between two poses. *)
From Verif Require Import M_Pose P_Pose.
From Coq Require Import Reals Lra Psatz List.
Open Scope R_scope.

(** ** Facts *)
Lemma acos_facts d : 0 <= d -> d < 1 -> let h := acos d in 0 < h <= PI / 2 /\ cos h = d /\ 0 < sin h.
Proof.
  intros D0 D1 h. assert (C : cos h = d) by (apply cos_acos; lra). pose proof (acos_bound d) as [B0 B1]. fold h in B0, B1. pose proof PI_RGT_0 as P.
  assert (H0 : 0 < h). { destruct (Rle_lt_or_eq_dec _ _ B0) as [|E]; [assumption|]. rewrite <- E, cos_0 in C. lra. }
  assert (H1 : h <= PI / 2). { apply Rnot_lt_le. intros L. assert (cos h < 0) by (apply cos_lt_0; lra). lra. }
  split; [lra|]. split; [exact C|]. apply sin_gt_0; lra.
Qed.
(** The two weights in the case that uses sines *)
Lemma sine_weights h l : 0 < sin h -> 0 < h <= PI / 2 -> 0 <= l <= 1 -> let s0 := sin ((1 - l) * h) / sin h in let s1 := sin (l * h) / sin h in
  0 <= s0 /\ 0 <= s1 /\ s0 * s0 + s1 * s1 + 2 * s0 * s1 * cos h = 1 /\ s0 + s1 * cos h = cos (l * h) /\ s1 * sin h = sin (l * h).
Proof.
  intros HS Hh Hl s0 s1. pose proof PI_RGT_0 as P. assert (E0 : sin ((1 - l) * h) = sin h * cos (l * h) - cos h * sin (l * h)) by (replace ((1 - l) * h) with (h - l * h) by ring; apply sin_minus).
  assert (A1 : s1 * sin h = sin (l * h)) by (unfold s1; field; lra). assert (A0 : s0 + s1 * cos h = cos (l * h)).
  { unfold s0, s1. rewrite E0. field. lra. }
  assert (P0 : 0 <= sin ((1 - l) * h)) by (apply sin_ge_0; nra). assert (P1 : 0 <= sin (l * h)) by (apply sin_ge_0; nra).
  split; [unfold s0, Rdiv; pose proof (Rinv_0_lt_compat _ HS); nra|]. split; [unfold s1, Rdiv; pose proof (Rinv_0_lt_compat _ HS); nra|].
  split; [|split; assumption]. pose proof (sin2_cos2 h) as SC. pose proof (sin2_cos2 (l * h)) as SC'. unfold Rsqr in *. rewrite <- A0, <- A1 in SC'. nra.
Qed.
(** In both cases *)
Lemma weights d l : 0 <= l <= 1 -> let s := slerp_scales d l in 0 <= fst s /\ 0 <= snd s /\
  fst s * fst s + snd s * snd s <= 1 /\
  (Rabs d < 1 - / 8388608 -> fst s * fst s + snd s * snd s + 2 * fst s * snd s * Rabs d = 1) /\
  (1 - / 8388608 <= Rabs d -> fst s = 1 - l /\ snd s = l).
Proof.
  intros Hl s. unfold s, slerp_scales. pose proof (Rabs_pos d) as P. destruct (Rle_dec (1 - / 8388608) (Rabs d)) as [L|L].
  - cbn [fst snd]. split; [lra|]. split; [lra|]. split; [nra|]. split; [lra|]. auto.
  - cbn [fst snd]. apply Rnot_le_lt in L. destruct (acos_facts (Rabs d) P) as (H1 & H2 & H3); [lra|]. cbv zeta in *. set (h := acos (Rabs d)) in *.
    destruct (sine_weights h l H3 H1 Hl) as (S0 & S1 & S2 & _). cbv zeta in *. rewrite H2 in S2. split; [exact S0|]. split; [exact S1|].
    split; [|split; [intros _; exact S2|lra]]. set (s0 := sin ((1 - l) * h) / sin h) in *. set (s1 := sin (l * h) / sin h) in *.
    assert (0 <= s0 * s1 * Rabs d) by (apply Rmult_le_pos; [apply Rmult_le_pos|]; assumption). lra.
Qed.
(** The sign that makes the dot product positive *)
Definition sgn (d : R) : R := if Rlt_dec d 0 then -1 else 1.
Lemma sgn_sq d : sgn d * sgn d = 1. Proof. unfold sgn. destruct (Rlt_dec d 0); ring. Qed.
Lemma sgn_abs d : sgn d * d = Rabs d. Proof. unfold sgn, Rabs. destruct (Rlt_dec d 0), (Rcase_abs d); lra. Qed.
Lemma slerp_eq a b l : slerp a b l = qadd (qscale (fst (slerp_scales (qdot a b) l)) a) (qscale (snd (slerp_scales (qdot a b) l)) (qscale (sgn (qdot a b)) b)).
Proof. unfold slerp, sgn. set (s := slerp_scales (qdot a b) l). destruct (Rlt_dec (qdot a b) 0); vec; unf; f_equal; ring. Qed.
Lemma slerp_n2 a b l : let s := slerp_scales (qdot a b) l in
  qn2 (slerp a b l) = fst s * fst s * qn2 a + snd s * snd s * qn2 b + 2 * fst s * snd s * Rabs (qdot a b).
Proof.
  intros s. rewrite slerp_eq. fold s. rewrite <- (sgn_abs (qdot a b)). pose proof (sgn_sq (qdot a b)) as Q. set (g := sgn (qdot a b)) in *. clearbody g s.
  replace (snd s * snd s * qn2 b) with (snd s * snd s * (g * g) * qn2 b) by (rewrite Q; ring). clear Q. generalize (fst s) (snd s). intros s0 s1. vec; unf. ring.
Qed.
Lemma qcauchy a b : qdot a b * qdot a b <= qn2 a * qn2 b.
Proof.
  destruct a as [w x y z], b as [w' x' y' z']. unf.
  assert (0 <= (w * x' - x * w')² + (w * y' - y * w')² + (w * z' - z * w')² + (x * y' - y * x')² + (x * z' - z * x')² + (y * z' - z * y')²)
    by (repeat apply Rplus_le_le_0_compat; apply Rle_0_sqr). unfold Rsqr in *. nra.
Qed.
Lemma slerp_accepted a b l : accepted a -> accepted b -> 0 <= l <= 1 -> accepted (slerp a b l).
Proof.
  intros Ha Hb Hl. apply accepted_iff in Ha. apply accepted_iff in Hb. apply accepted_iff. rewrite slerp_n2. pose proof eps_val as [E0 E1].
  destruct (weights (qdot a b) l Hl) as (W0 & W1 & W2 & W3 & W4). cbv zeta in *. set (s0 := fst _) in *. set (s1 := snd _) in *. set (D := Rabs (qdot a b)) in *.
  set (na := qn2 a) in *. set (nb := qn2 b) in *. destruct (Rlt_le_dec D (1 - / 8388608)) as [L|L].
  - specialize (W3 L). replace (2 * s0 * s1 * D) with (1 - s0 * s0 - s1 * s1) by lra.
    assert (Q0 : 0 <= s0 * s0) by nra. assert (Q1 : 0 <= s1 * s1) by nra. set (x := s0 * s0) in *. set (y := s1 * s1) in *. clearbody x y na nb. clear W0 W1 W3 W4. split; nra.
  - destruct (W4 L) as [-> ->]. assert (DU : D <= 1 + norm_eps).
    { apply Rnot_lt_le. intros C. pose proof (qcauchy a b) as Q. assert (DD : D * D = qdot a b * qdot a b) by (unfold D; rewrite <- (Rsqr_abs (qdot a b) : _ * _ = _ * _); reflexivity).
      rewrite <- DD in Q. fold na nb in Q. assert (na * nb <= (1 + norm_eps) * (1 + norm_eps)) by (apply Rmult_le_compat; lra). nra. }
    assert (EL : 1 - norm_eps <= 1 - / 8388608) by (unfold norm_eps; lra). assert (D0 : 1 - norm_eps <= D) by lra.
    assert (Q : 0 <= (1 - l) * l) by nra. set (e := norm_eps) in *. clearbody e na nb D. clear - Ha Hb Hl DU D0 Q.
    split.
    + assert ((1 - l) * (1 - l) * (1 - e) <= (1 - l) * (1 - l) * na) by (apply Rmult_le_compat_l; nra). assert (l * l * (1 - e) <= l * l * nb) by (apply Rmult_le_compat_l; nra).
      assert ((1 - l) * l * (1 - e) <= (1 - l) * l * D) by (apply Rmult_le_compat_l; lra). nra.
    + assert ((1 - l) * (1 - l) * na <= (1 - l) * (1 - l) * (1 + e)) by (apply Rmult_le_compat_l; nra). assert (l * l * nb <= l * l * (1 + e)) by (apply Rmult_le_compat_l; nra).
      assert ((1 - l) * l * D <= (1 - l) * l * (1 + e)) by (apply Rmult_le_compat_l; lra). nra.
Qed.

(** ** Theorems *)
(** Between accepted poses interpolation never aborts for 0 <= l <= 1 and always aborts otherwise; the position moves on the line. *)
Theorem C59_defined : forall a b l, accepted (prot a) -> accepted (prot b) ->
  (0 <= l <= 1 -> exists c, interpolate a b l = Some c /\ accepted (prot c) /\
     ppos c = vadd (vscale (1 - l) (ppos a)) (vscale l (ppos b))) /\
  (~ 0 <= l <= 1 -> interpolate a b l = None).
Proof.
  intros a b l Ha Hb. unfold interpolate. split.
  - intros Hl. destruct (Rle_dec 0 l); [|lra]. destruct (Rle_dec l 1); [|lra]. pose proof (slerp_accepted _ _ l Ha Hb Hl) as R. unfold accepted in R. rewrite R.
    eexists. split; [reflexivity|]. cbn [prot ppos]. split; [exact R|]. destruct a as [qa ta], b as [qb tb]. cbn [ppos]. vec; unf. f_equal; ring.
  - intros N. destruct (Rle_dec 0 l); [|reflexivity]. destruct (Rle_dec l 1); [|reflexivity]. exfalso. lra.
Qed.
(** At the ends it returns the first pose and a pose with the motion of the second. *)
Lemma scales_0 d : slerp_scales d 0 = (1, 0).
Proof.
  unfold slerp_scales. destruct (Rle_dec _ _) as [L|L]; [f_equal; ring|]. apply Rnot_le_lt in L. destruct (acos_facts (Rabs d) (Rabs_pos d)) as (_ & _ & H3); [lra|]. cbv zeta in H3.
  rewrite Rmult_0_l, Rminus_0_r, Rmult_1_l, sin_0. f_equal; field; lra.
Qed.
Lemma scales_1 d : slerp_scales d 1 = (0, 1).
Proof.
  unfold slerp_scales. destruct (Rle_dec _ _) as [L|L]; [f_equal; ring|]. apply Rnot_le_lt in L. destruct (acos_facts (Rabs d) (Rabs_pos d)) as (_ & _ & H3); [lra|]. cbv zeta in H3.
  replace (1 - 1) with 0 by ring. rewrite Rmult_0_l, Rmult_1_l, sin_0. f_equal; field; lra.
Qed.
Theorem C59_ends : forall a b, accepted (prot a) -> accepted (prot b) ->
  interpolate a b 0 = Some a /\ exists c, interpolate a b 1 = Some c /\ forall p, transform c p = transform b p.
Proof.
  intros [qa ta] [qb tb] Ha Hb. cbn [prot] in *. unfold interpolate. cbn [prot ppos]. split.
  - destruct (Rle_dec 0 0); [|lra]. destruct (Rle_dec 0 1); [|lra]. assert (E : slerp qa qb 0 = qa) by (rewrite slerp_eq, scales_0; cbn [fst snd]; generalize (sgn (qdot qa qb)); intros g; vec; unf; f_equal; ring).
    rewrite E, (Ha : checked qa = Some qa). cbn [with_rot]. f_equal. f_equal. vec; unf. f_equal; ring.
  - destruct (Rle_dec 0 1); [|lra]. destruct (Rle_dec 1 1); [|lra]. pose proof (slerp_accepted _ _ 1 Ha Hb ltac:(lra)) as R. unfold accepted in R. rewrite R. eexists. split; [reflexivity|].
    assert (E : slerp qa qb 1 = qscale (sgn (qdot qa qb)) qb) by (rewrite slerp_eq, scales_1; cbn [fst snd]; generalize (sgn (qdot qa qb)); intros g; vec; unf; f_equal; ring).
    rewrite E. intros p. unfold transform, rotate. cbn [prot ppos]. unfold sgn. destruct (Rlt_dec _ _); vec; unf; f_equal; ring.
Qed.
(** Exchanging the two poses gives the same motion. *)
Lemma slerp_swap a b l : 0 <= l <= 1 -> slerp b a (1 - l) = qscale (sgn (qdot a b)) (slerp a b l).
Proof.
  intros Hl. rewrite !slerp_eq. assert (E : qdot b a = qdot a b) by (vec; unf; ring). rewrite E.
  assert (S : slerp_scales (qdot a b) (1 - l) = (snd (slerp_scales (qdot a b) l), fst (slerp_scales (qdot a b) l))).
  { unfold slerp_scales. replace (1 - (1 - l)) with l by ring. destruct (Rle_dec _ _); reflexivity. }
  rewrite S. cbn [fst snd]. pose proof (sgn_sq (qdot a b)) as Q. set (g := sgn (qdot a b)) in *. clearbody g. clear S. generalize (fst (slerp_scales (qdot a b) l)) (snd (slerp_scales (qdot a b) l)).
  intros s0 s1. assert (X : qscale s1 b = qscale (g * g * s1) b) by (rewrite Q; f_equal; ring). rewrite X. clear X E Q. vec; unf. f_equal; ring.
Qed.
Theorem C59_symmetric : forall a b l, accepted (prot a) -> accepted (prot b) -> 0 <= l <= 1 ->
  exists c c', interpolate a b l = Some c /\ interpolate b a (1 - l) = Some c' /\ forall p, transform c p = transform c' p.
Proof.
  intros a b l Ha Hb Hl. unfold interpolate. destruct (Rle_dec 0 l); [|lra]. destruct (Rle_dec l 1); [|lra]. destruct (Rle_dec 0 (1 - l)); [|lra]. destruct (Rle_dec (1 - l) 1); [|lra].
  pose proof (slerp_accepted _ _ l Ha Hb Hl) as R. pose proof (slerp_accepted _ _ (1 - l) Hb Ha ltac:(lra)) as R'. unfold accepted in R, R'. rewrite R, R'.
  eexists. eexists. split; [reflexivity|]. split; [reflexivity|]. intros p. unfold transform, rotate. cbn [prot ppos]. rewrite slerp_swap by exact Hl.
  set (q := slerp (prot a) (prot b) l). clearbody q. unfold sgn. destruct a as [qa ta], b as [qb tb]; destruct (Rlt_dec _ _); vec; unf; f_equal; ring.
Qed.
(** Constant speed: the interpolated rotation turns around one axis, by the fraction [l] of an angle of at most 180 degrees. *)
Theorem C59_constant_speed : forall a b, unit_quat (prot a) -> unit_quat (prot b) -> Rabs (qdot (prot a) (prot b)) < 1 - / 8388608 ->
  exists n alpha, vdot n n = 1 /\ 0 < alpha <= PI /\
    (forall v, rotate (prot b) v = rotate (prot a) (rotation_about n alpha v)) /\
    forall l, 0 <= l <= 1 -> exists c, interpolate a b l = Some c /\ unit_quat (prot c) /\
      forall v, rotate (prot c) v = rotate (prot a) (rotation_about n (l * alpha) v).
Proof.
  intros [qa ta] [qb tb] Ha Hb HD. cbn [prot] in *. set (d := qdot qa qb) in *. destruct (acos_facts (Rabs d) (Rabs_pos d)) as (H1 & H2 & H3); [lra|]. cbv zeta in *.
  set (h := acos (Rabs d)) in *. set (b' := qscale (sgn d) qb). set (r := qprod (qconj qa) b').
  assert (Ub : unit_quat b') by (unfold unit_quat, b'; rewrite qn2_scale, sgn_sq, Hb; ring).
  assert (Rw : qw r = cos h). { rewrite H2, <- sgn_abs. unfold r, b', d. generalize (sgn (qdot qa qb)). intros g. vec; unf. ring. }
  assert (Ur : unit_quat r) by (apply unit_prod; [apply unit_conj|]; assumption).
  set (n := vscale (/ sin h) (qim r)). assert (Nn : vdot n n = 1).
  { assert (X : vdot n n = / sin h * / sin h * (qn2 r - qw r * qw r)) by (unfold n; generalize (/ sin h) r; intros; vec; unf; ring). rewrite X, Rw, Ur.
    pose proof (sin2_cos2 h) as S. unfold Rsqr in S. replace (1 - cos h * cos h) with (sin h * sin h) by lra. field. lra. }
  assert (Er : r = Qt (cos h) (sin h * vx n) (sin h * vy n) (sin h * vz n)).
  { rewrite <- Rw. unfold n. assert (S : sin h * / sin h = 1) by (field; lra). set (i := / sin h) in *. clearbody i. destruct r as [w x y z]. unf. f_equal; rewrite <- Rmult_assoc, S; ring. }
  assert (Eb : qprod qa r = b').
  { unfold r. transitivity (qscale (qn2 qa) b'); [generalize b'; intros; vec; unf; f_equal; ring|]. rewrite Ha. destruct b'. unf. f_equal; ring. }
  exists n, (2 * h). split; [exact Nn|]. split; [lra|]. split.
  - intros v. rewrite <- (C58_angle_axis n (2 * h) v Nn). replace (2 * h / 2) with h by field. rewrite <- Er. unfold rotate.
    assert (X : qrot qb v = qrot b' v) by (unfold b', sgn; destruct (Rlt_dec d 0); vec; unf; f_equal; ring).
    rewrite X, <- Eb, !(rot_unit qa), (rot_unit r), rot_unit, sandwich_prod by (first [assumption|apply unit_prod; assumption]). reflexivity.
  - intros l Hl. set (e := Qt (cos (l * h)) (sin (l * h) * vx n) (sin (l * h) * vy n) (sin (l * h) * vz n)).
    assert (Ue : unit_quat e). { unfold unit_quat. replace (qn2 e) with (Rsqr (sin (l * h)) * vdot n n + Rsqr (cos (l * h))) by (unfold e; generalize n; intros; vec; unf; unfold Rsqr; ring). rewrite Nn, Rmult_1_r. apply sin2_cos2. }
    assert (Es : slerp qa qb l = qprod qa e).
    { rewrite slerp_eq. fold d b'. rewrite <- Eb. unfold slerp_scales. destruct (Rle_dec _ _) as [L|_]; [lra|]. fold h. cbn [fst snd].
      destruct (sine_weights h l H3 H1 Hl) as (_ & _ & _ & W1 & W2). cbv zeta in *. set (s0 := sin ((1 - l) * h) / sin h) in *. set (s1 := sin (l * h) / sin h) in *.
      unfold e. rewrite Er, <- W1, <- W2. clear. generalize (cos h) (sin h) s0 s1 n. intros. vec; unf. f_equal; ring. }
    unfold interpolate. destruct (Rle_dec 0 l); [|lra]. destruct (Rle_dec l 1); [|lra]. cbn [prot ppos]. rewrite Es.
    assert (Uq : unit_quat (qprod qa e)) by (apply unit_prod; assumption). rewrite (unit_accepted _ Uq). eexists. split; [reflexivity|]. cbn [prot]. split; [exact Uq|].
    intros v. rewrite <- (C58_angle_axis n (l * (2 * h)) v Nn). replace (l * (2 * h) / 2) with (l * h) by field. fold e. unfold rotate.
    rewrite !(rot_unit qa), (rot_unit e), rot_unit, sandwich_prod by assumption. reflexivity.
Qed.
(** Nearly equal rotations: the result is within a thousandth of the length of the vector of the first rotation. *)
Definition pure (v : vec3) : quat := Qt 0 (vx v) (vy v) (vz v).
Lemma im_norm x : norm (qim x) <= sqrt (qn2 x).
Proof. apply sqrt_le_1_alt. vec; unf. nra. Qed.
Lemma prod3_norm a b c : sqrt (qn2 (qprod (qprod a b) c)) = sqrt (qn2 a) * sqrt (qn2 b) * sqrt (qn2 c).
Proof. rewrite !qn2_prod, !sqrt_mult_alt; [reflexivity| |]; try apply qn2_pos. apply Rmult_le_pos; apply qn2_pos. Qed.
Lemma sandwich_close q p v : let d := qadd q (qneg p) in
  distance (sandwich q v) (sandwich p v) <= sqrt (qn2 d) * (sqrt (qn2 q) + sqrt (qn2 p)) * norm v.
Proof.
  intros d. assert (E : vsub (sandwich q v) (sandwich p v) = vadd (qim (qprod (qprod d (pure v)) (qconj q))) (qim (qprod (qprod p (pure v)) (qconj d)))).
  { unfold d, pure, sandwich. vec; unf. f_equal; ring. }
  unfold distance. rewrite E. eapply Rle_trans; [apply norm_triangle|].
  pose proof (im_norm (qprod (qprod d (pure v)) (qconj q))) as A. pose proof (im_norm (qprod (qprod p (pure v)) (qconj d))) as B. rewrite prod3_norm, qn2_conj in A, B.
  assert (Np : sqrt (qn2 (pure v)) = norm v) by (unfold norm, pure; f_equal; vec; unf; ring). rewrite Np in A, B. lra.
Qed.
Theorem C59_small_angle : forall a b l, unit_quat (prot a) -> unit_quat (prot b) -> 1 - / 8388608 <= Rabs (qdot (prot a) (prot b)) -> 0 <= l <= 1 ->
  exists c, interpolate a b l = Some c /\
    forall v, distance (rotate (prot c) v) (rotate (prot a) v) <= / 1000 * norm v /\ distance (rotate (prot c) v) (rotate (prot b) v) <= / 1000 * norm v.
Proof.
  intros a b l Ha Hb HD Hl. destruct (proj1 (C59_defined a b l (unit_accepted _ Ha) (unit_accepted _ Hb)) Hl) as (c & Ec & _). exists c. split; [exact Ec|].
  unfold interpolate in Ec. destruct (Rle_dec 0 l); [|lra]. destruct (Rle_dec l 1); [|lra].
  pose proof (slerp_accepted _ _ l (unit_accepted _ Ha) (unit_accepted _ Hb) Hl) as R. unfold accepted in R. rewrite R in Ec. injection Ec as <-. cbn [prot]. clear R.
  pose proof (slerp_n2 (prot a) (prot b) l) as N. cbv zeta in N. rewrite slerp_eq in *. destruct a as [qa ta], b as [qb tb]. cbn [prot] in *. set (d := qdot qa qb) in *.
  destruct (weights d l Hl) as (_ & _ & _ & _ & W). cbv zeta in W. destruct (W HD) as [S0 S1]. rewrite S0, S1 in *. clear W S0 S1.
  set (b' := qscale (sgn d) qb) in *. set (q := qadd (qscale (1 - l) qa) (qscale l b')) in *.
  assert (DU : Rabs d <= 1).
  { apply Rnot_lt_le. intros C. pose proof (qcauchy qa qb) as Q. rewrite Ha, Hb in Q. fold d in Q. pose proof (Rsqr_abs d) as X. unfold Rsqr in X. rewrite X in Q. nra. }
  rewrite Ha, Hb in N. assert (Nq : 1 - / 8388608 <= qn2 q <= 1). { rewrite N. set (D := Rabs d) in *. clearbody D. assert (X0 : 0 <= l * (1 - l)) by (apply Rmult_le_pos; lra). assert (X1 : l * (1 - l) <= / 2) by nra.
    assert (Y0 : 0 <= l * (1 - l) * (1 - D)) by (apply Rmult_le_pos; lra). assert (Y1 : l * (1 - l) * (1 - D) <= / 2 * / 8388608) by (apply Rmult_le_compat; lra).
    replace ((1 - l) * (1 - l) * 1 + l * l * 1 + 2 * (1 - l) * l * D) with (1 - 2 * (l * (1 - l) * (1 - D))) by ring. lra. }
  assert (Ub : unit_quat b') by (unfold unit_quat, b'; rewrite qn2_scale, sgn_sq, Hb; ring).
  assert (Dab : qdot qa b' = Rabs d). { rewrite <- sgn_abs. unfold b', d. generalize (sgn (qdot qa qb)). intros g. vec; unf. ring. }
  assert (Ra : forall v, rotate qb v = rotate b' v) by (intros v; unfold rotate, b', sgn; destruct (Rlt_dec d 0); vec; unf; f_equal; ring).
  assert (K : forall p, unit_quat p -> qn2 (qadd q (qneg p)) <= / 4194304 -> forall v, distance (rotate q v) (rotate p v) <= / 1000 * norm v).
  { intros p Up Hp v. unfold rotate. rewrite (rot_unit p _ Up), rot_sandwich. unfold distance.
    assert (E : vsub (vsub (sandwich q v) (vscale (qn2 q - 1) v)) (sandwich p v) = vadd (vsub (sandwich q v) (sandwich p v)) (vscale (1 - qn2 q) v)).
    { generalize (sandwich q v) (sandwich p v) (qn2 q). clear. intros. vec; unf. f_equal; ring. }
    rewrite E. eapply Rle_trans; [apply norm_triangle|]. rewrite norm_scale. pose proof (sandwich_close q p v) as C. cbv zeta in C. unfold distance in C. rewrite Up, sqrt_1 in C.
    assert (Q1 : sqrt (qn2 q) <= 1) by (rewrite <- sqrt_1; apply sqrt_le_1_alt; lra). assert (Q2 : sqrt (qn2 (qadd q (qneg p))) <= / 2048).
    { rewrite <- (sqrt_square (/ 2048)) by lra. apply sqrt_le_1_alt. lra. }
    assert (Q3 : Rabs (1 - qn2 q) <= / 8388608) by (apply Rabs_le; lra). pose proof (norm_pos v) as NV. pose proof (sqrt_pos (qn2 q)). pose proof (sqrt_pos (qn2 (qadd q (qneg p)))).
    assert (sqrt (qn2 (qadd q (qneg p))) * (sqrt (qn2 q) + 1) <= / 2048 * 2) by (apply Rmult_le_compat; lra).
    assert (sqrt (qn2 (qadd q (qneg p))) * (sqrt (qn2 q) + 1) * norm v <= / 2048 * 2 * norm v) by (apply Rmult_le_compat_r; assumption).
    assert (Rabs (1 - qn2 q) * norm v <= / 8388608 * norm v) by (apply Rmult_le_compat_r; assumption). lra. }
  assert (Da : qn2 (qadd qa (qneg b')) = 2 - 2 * Rabs d). { rewrite <- Dab. transitivity (qn2 qa + qn2 b' - 2 * qdot qa b'); [generalize b'; intros; vec; unf; ring|]. rewrite Ha, Ub. ring. }
  intros v. split; [|rewrite Ra]; apply K; try assumption.
  - replace (qn2 (qadd q (qneg qa))) with (l * l * qn2 (qadd qa (qneg b'))) by (unfold q; generalize b'; intros; vec; unf; ring). rewrite Da. nra.
  - replace (qn2 (qadd q (qneg b'))) with ((1 - l) * (1 - l) * qn2 (qadd qa (qneg b'))) by (unfold q; generalize b'; intros; vec; unf; ring). rewrite Da. nra.
Qed.
(** ** Non-vacuity: half way between no rotation and a quarter turn around z is an eighth turn. *)
Example C59_ex : let a := pose_identity in let b := Pose (Qt (sqrt 2 / 2) 0 0 (sqrt 2 / 2)) (V3 2 4 0) in
  unit_quat (prot a) /\ unit_quat (prot b) /\ Rabs (qdot (prot a) (prot b)) < 1 - / 8388608 /\
  exists c, interpolate a b (1 / 2) = Some c /\ ppos c = V3 1 2 0 /\ rotate (prot c) (V3 1 0 0) = V3 (sqrt 2 / 2) (sqrt 2 / 2) 0.
Proof.
  cbv zeta. assert (S2 : sqrt 2 * sqrt 2 = 2) by (apply sqrt_sqrt; lra). assert (P : 0 < sqrt 2) by (apply sqrt_lt_R0; lra).
  assert (L : sqrt 2 < 1.5) by nra. assert (U1 : unit_quat (prot pose_identity)) by (unf; ring). assert (U2 : unit_quat (Qt (sqrt 2 / 2) 0 0 (sqrt 2 / 2))) by (unf; nra).
  assert (D : qdot (prot pose_identity) (Qt (sqrt 2 / 2) 0 0 (sqrt 2 / 2)) = sqrt 2 / 2) by (unf; field).
  split; [exact U1|]. split; [exact U2|]. cbn [prot]. change (prot pose_identity) with qident in *. split; [rewrite D, Rabs_right; lra|].
  destruct (proj1 (C59_defined pose_identity (Pose (Qt (sqrt 2 / 2) 0 0 (sqrt 2 / 2)) (V3 2 4 0)) (1 / 2) (unit_accepted _ U1) (unit_accepted _ U2)) ltac:(lra)) as (c & Ec & Ac & Pc).
  exists c. split; [exact Ec|]. split; [rewrite Pc; cbn [ppos]; unf; f_equal; field|].
  unfold interpolate in Ec. destruct (Rle_dec 0 (1 / 2)); [|lra]. destruct (Rle_dec (1 / 2) 1); [|lra].
  pose proof (slerp_accepted _ _ (1 / 2) (unit_accepted _ U1) (unit_accepted _ U2) ltac:(lra)) as R. unfold accepted in R. cbn [prot] in *. change (prot pose_identity) with qident in *. rewrite R in Ec. injection Ec as <-. clear Ac Pc R.
  cbn [prot]. rewrite slerp_eq, D. unfold sgn. destruct (Rlt_dec (sqrt 2 / 2) 0); [lra|]. unfold slerp_scales. rewrite Rabs_right by lra. destruct (Rle_dec _ _); [lra|]. cbn [fst snd].
  assert (A : acos (sqrt 2 / 2) = PI / 4). { rewrite <- (acos_cos (PI / 4)) by (pose proof PI_RGT_0; lra). f_equal. rewrite cos_PI4. field_simplify_eq; lra. }
  rewrite A. replace ((1 - 1 / 2) * (PI / 4)) with (PI / 8) by field. replace (1 / 2 * (PI / 4)) with (PI / 8) by field.
  assert (S4 : sin (PI / 4) = sqrt 2 / 2) by (rewrite sin_PI4; field_simplify_eq; lra). assert (C4 : cos (PI / 4) = sqrt 2 / 2) by (rewrite cos_PI4; field_simplify_eq; lra).
  assert (E1 : sqrt 2 / 2 = 1 - 2 * sin (PI / 8) * sin (PI / 8)) by (rewrite <- C4; replace (PI / 4) with (2 * (PI / 8)) by field; apply cos_2a_sin).
  rewrite S4. set (s := sin (PI / 8)) in *. clearbody s. clear A S4 C4 U1 U2 D. set (rt := sqrt 2) in *. clearbody rt.
  assert (E2 : s / (rt / 2) * (s / (rt / 2)) = 2 * (s * s)). { assert (X : s / (rt / 2) * (s / (rt / 2)) = 4 * (s * s) / (rt * rt)) by (field; lra). rewrite X, S2. field. }
  set (k := s / (rt / 2)) in *. clearbody k. unf. f_equal; nra.
Qed.
Print Assumptions C59_defined.
Print Assumptions C59_ends.
Print Assumptions C59_symmetric.
Print Assumptions C59_constant_speed.
Print Assumptions C59_small_angle.
