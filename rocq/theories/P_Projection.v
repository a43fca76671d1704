(** * C66: projecting a point to sensor coordinates and back *)
From Verif Require Import M_Pose M_ApproxTrig P_ApproxTrig M_Projection.
From Coq Require Import Reals QArith Qreals Lra Psatz.
Close Scope Q_scope.
Open Scope R_scope.

(** ** Specification *)
(** Euclidean distance *)
Definition dist3 (a b : vec3) : R := sqrt ((vx a - vx b) ^ 2 + (vy a - vy b) ^ 2 + (vz a - vz b) ^ 2).
Definition len3 (a : vec3) : R := dist3 a (V3 0 0 0).
(** [at2] computes angles of points in the plane up to [eps]; see C65 *)
Definition accurate (at2 : R -> R -> R) (eps : R) : Prop :=
  forall y x, x <> 0 \/ y <> 0 -> exists theta, angle_of (Rsignbit y) y x theta /\ Rabs (at2 y x - theta) <= eps.
Definition within (a b eps : R) : Prop := b - eps <= a <= b + eps.

(** ** Facts *)
Lemma accurate_code : accurate Rapprox_atan2 kWorstCaseError.
Proof. intros y x H. exact (C65_atan2_error_plain y x H). Qed.
Lemma sin_sq_le x : sin x ^ 2 <= x ^ 2.
Proof.
  assert (P : forall x, 0 <= x -> sin x <= x /\ - x <= sin x).
  { clear x. intros x [H|<-]; [|rewrite sin_0; lra]. split; [left; apply sin_lt_x; exact H|]. destruct (Rle_dec x 1) as [L|L].
    - assert (0 <= sin x); [|lra]. apply sin_ge_0; [lra|]. pose proof pi_bounds. lra.
    - pose proof (SIN_bound x). lra. }
  destruct (Rle_dec 0 x) as [L|L]; [destruct (P x L); nra|]. destruct (P (- x) ltac:(lra)) as [A B]. rewrite sin_neg in *. nra.
Qed.
Lemma cos_def_le x : 0 <= 1 - cos x <= x ^ 2 / 2.
Proof. replace x with (2 * (x / 2)) at 1 2 by field. rewrite cos_2a_sin. pose proof (sin_sq_le (x / 2)). pose proof (pow2_ge_0 (sin (x / 2))). nra. Qed.
Lemma abs_sq a b : Rabs a <= b -> a ^ 2 <= b ^ 2.
Proof. intros H. apply rabs_inv in H. nra. Qed.
Lemma sq_abs a b : 0 <= b -> a ^ 2 <= b ^ 2 -> Rabs a <= b.
Proof. intros Hb H. apply Rabs_le. nra. Qed.
Lemma cos_le1 a : -1 <= cos a <= 1. Proof. exact (COS_bound a). Qed.
Lemma sc1 a : sin a * sin a + cos a * cos a = 1. Proof. pose proof (sin2_cos2 a) as H. unfold Rsqr in H. exact H. Qed.
(** The squared distance of two directions *)
Lemma chord2 e a e' a' :
  (cos e * cos a - cos e' * cos a') ^ 2 + (cos e * sin a - cos e' * sin a') ^ 2 + (sin e - sin e') ^ 2 =
  2 * (1 - cos (e - e')) + 2 * (cos e * cos e') * (1 - cos (a - a')).
Proof.
  rewrite !cos_minus. pose proof (sc1 e) as E. pose proof (sc1 e') as E'. pose proof (sc1 a) as A. pose proof (sc1 a') as A'.
  replace (_ + _ + _) with (cos e * cos e * (sin a * sin a + cos a * cos a) + cos e' * cos e' * (sin a' * sin a' + cos a' * cos a') + sin e * sin e + sin e' * sin e' - 2 * (cos e * cos e') * (cos a * cos a' + sin a * sin a') - 2 * (sin e * sin e')) by ring.
  rewrite A, A'. lra.
Qed.
Lemma chord2_le e a e' a' eps : Rabs (e' - e) <= eps -> Rabs (a' - a) <= eps ->
  (cos e * cos a - cos e' * cos a') ^ 2 + (cos e * sin a - cos e' * sin a') ^ 2 + (sin e - sin e') ^ 2 <= 2 * eps ^ 2.
Proof.
  intros He Ha. rewrite chord2. pose proof (cos_def_le (e - e')) as [_ C1]. pose proof (cos_def_le (a - a')) as [C0 C2]. apply abs_sq in He, Ha. pose proof (cos_le1 e). pose proof (cos_le1 e').
  replace ((e' - e) ^ 2) with ((e - e') ^ 2) in He by ring. replace ((a' - a) ^ 2) with ((a - a') ^ 2) in Ha by ring.
  assert (P : cos e * cos e' <= 1) by nra. assert (P2 : 2 * (cos e * cos e') * (1 - cos (a - a')) <= 2 * (1 - cos (a - a'))) by nra. lra.
Qed.
Lemma norm_xy_pos p : vx p <> 0 \/ vy p <> 0 -> 0 < norm_xy p.
Proof. intros H. unfold norm_xy. apply sqrt_lt_R0. destruct H; nra. Qed.
Lemma norm_xy_sq p : norm_xy p * norm_xy p = vx p * vx p + vy p * vy p.
Proof. unfold norm_xy. apply sqrt_sqrt. nra. Qed.
Lemma norm_xy_nonneg p : 0 <= norm_xy p. Proof. apply sqrt_pos. Qed.
Lemma dist_le a b B : 0 <= B -> (vx a - vx b) ^ 2 + (vy a - vy b) ^ 2 + (vz a - vz b) ^ 2 <= B ^ 2 -> dist3 a b <= B.
Proof. intros HB H. unfold dist3. rewrite <- (sqrt_pow2 B HB). apply sqrt_le_1_alt. exact H. Qed.
Lemma len_vdot p : len3 p = sqrt (vdot p p).
Proof. unfold len3, dist3, vdot. cbn [vx vy vz]. f_equal. ring. Qed.

(** ** C66 *)
(** Spherical: the point comes back up to the angular errors times its distance. *)
Theorem C66_spherical : forall at2 eps p, accurate at2 eps -> vx p <> 0 \/ vy p <> 0 ->
  dist3 (sp_cartesian (sp_sensor at2 p)) p <= sqrt 2 * eps * len3 p.
Proof.
  intros at2 eps p A N. pose proof (norm_xy_pos p N) as RP. destruct (A (vz p) (norm_xy p)) as (e & (E1 & E2 & _) & E3); [left; lra|]. destruct (A (vy p) (vx p) N) as (a & (A1 & A2 & _) & A3).
  assert (P : 0 <= eps) by (eapply Rle_trans; [apply Rabs_pos|exact E3]). fold (norm_xy p) in A1, A2.
  set (r := sqrt (norm_xy p * norm_xy p + vz p * vz p)) in *. assert (R1 : sqrt (vdot p p) = r) by (unfold r, vdot; rewrite norm_xy_sq; reflexivity). assert (R0 : 0 <= r) by apply sqrt_pos.
  rewrite len_vdot, R1. apply dist_le; [repeat apply Rmult_le_pos; try assumption; apply sqrt_pos|].
  unfold sp_cartesian, sp_sensor, vscale. cbn [vx vy vz image0 image1 depth]. rewrite R1. set (e' := at2 (vz p) (norm_xy p)) in *. set (a' := at2 (vy p) (vx p)) in *.
  pose proof (chord2_le _ _ _ _ _ E3 A3) as C. rewrite A1, A2. rewrite E2, E1.
  replace (_ + _ + _) with (r ^ 2 * ((cos e * cos a - cos e' * cos a') ^ 2 + (cos e * sin a - cos e' * sin a') ^ 2 + (sin e - sin e') ^ 2)) by ring.
  replace ((sqrt 2 * eps * r) ^ 2) with (r ^ 2 * ((sqrt 2 * sqrt 2) * eps ^ 2)) by ring. rewrite sqrt_sqrt by lra. apply Rmult_le_compat_l; [apply pow2_ge_0|exact C].
Qed.
(** ... and sensor coordinates come back as well: the depth exactly, the angles up to the errors *)
Lemma sin_sign a : - PI < a <= PI -> Rsignbit (sin a) = if Rlt_dec a 0 then true else false.
Proof.
  intros H. unfold Rsignbit. destruct (Rlt_dec a 0) as [L|L], (Rlt_dec (sin a) 0) as [S|S]; try reflexivity; exfalso.
  - apply S. rewrite <- (Ropp_involutive (sin a)), <- sin_neg. assert (0 < sin (- a)) by (apply sin_gt_0; lra). lra.
  - assert (0 <= sin a) by (apply sin_ge_0; lra). lra.
Qed.
Lemma angle_polar r a : 0 < r -> - PI < a <= PI -> angle_of (Rsignbit (r * sin a)) (r * sin a) (r * cos a) a.
Proof.
  intros R0 H. assert (E : Rsignbit (r * sin a) = Rsignbit (sin a)) by (unfold Rsignbit; destruct (Rlt_dec (r * sin a) 0), (Rlt_dec (sin a) 0); try reflexivity; exfalso; nra).
  rewrite E, sin_sign by exact H. unfold angle_of. replace (r * cos a * (r * cos a) + r * sin a * (r * sin a)) with (r ^ 2 * (sin a * sin a + cos a * cos a)) by ring. rewrite sc1, Rmult_1_r, sqrt_pow2 by lra.
  repeat split. destruct (Rlt_dec a 0); lra.
Qed.
Lemma accurate_polar at2 eps r a : accurate at2 eps -> 0 < r -> - PI < a <= PI -> within (at2 (r * sin a) (r * cos a)) a eps.
Proof.
  intros A R0 H. assert (N : r * cos a <> 0 \/ r * sin a <> 0).
  { pose proof (sc1 a) as S. destruct (Req_dec (cos a) 0) as [Z|Z]; [right|left]; apply Rmult_integral_contrapositive; split; try lra. intros X. rewrite Z, X in S. lra. }
  destruct (A _ _ N) as (t & T1 & T2). rewrite (C65_angle_unique _ _ _ t a N T1 (angle_polar r a R0 H)) in T2. unfold within. apply rabs_inv in T2. lra.
Qed.
Lemma norm_xy_polar r e a z : 0 <= r * cos e -> norm_xy (V3 (r * cos e * cos a) (r * cos e * sin a) z) = r * cos e.
Proof.
  intros H. unfold norm_xy. cbn [vx vy]. replace (_ + _) with ((r * cos e) ^ 2 * (sin a * sin a + cos a * cos a)) by ring. rewrite sc1, Rmult_1_r. apply sqrt_pow2. exact H.
Qed.
Theorem C66_spherical_reverse : forall at2 eps e a r, accurate at2 eps -> 0 < r -> - PI / 2 < e < PI / 2 -> - PI < a <= PI ->
  let s := sp_sensor at2 (sp_cartesian (SC e a r)) in within (image0 s) e eps /\ within (image1 s) a eps /\ depth s = r.
Proof.
  intros at2 eps e a r A R0 He Ha. cbv zeta. unfold sp_cartesian, vscale, sp_sensor. cbn [vx vy vz image0 image1 depth]. rewrite <- !Rmult_assoc.
  assert (C : 0 < cos e) by (apply cos_gt_0; lra). assert (RC : 0 < r * cos e) by nra. rewrite norm_xy_polar by lra. split; [|split].
  - apply accurate_polar; [exact A|exact R0|]. pose proof pi_bounds. lra.
  - apply accurate_polar; [exact A|exact RC|exact Ha].
  - unfold vdot. cbn [vx vy vz]. replace (_ + _) with (r ^ 2 * (cos e * cos e * (sin a * sin a + cos a * cos a) + sin e * sin e)) by ring. rewrite sc1, Rmult_1_r, Rplus_comm, sc1, Rmult_1_r. apply sqrt_pow2. lra.
Qed.

(** Ouster: the same, with the beams' origins on a circle around the sensor *)
Theorem C66_ouster : forall at2 eps o zo p, accurate at2 eps -> eps <= 1 -> vx p <> 0 \/ vy p <> 0 ->
  dist3 (ou_cartesian o zo (ou_sensor at2 o zo p)) p <= eps * (ou_range o zo p + sqrt (vx p ^ 2 + vy p ^ 2)).
Proof.
  intros at2 eps o zo p A Hle N. pose proof (norm_xy_pos p N) as RP. destruct (A (vy p) (vx p) N) as (a & (A1 & A2 & _) & A3). fold (norm_xy p) in A1, A2.
  assert (P : 0 <= eps) by (eapply Rle_trans; [apply Rabs_pos|exact A3]).
  assert (NE : sqrt (vx p ^ 2 + vy p ^ 2) = norm_xy p) by (unfold norm_xy; f_equal; ring). rewrite NE. set (rho := norm_xy p) in *. set (g := ou_range o zo p) in *. assert (G0 : 0 <= g) by apply sqrt_pos.
  assert (B : exists e', e' = at2 (vz p - zo) (rho - o) /\ (g * cos e' + o - rho) ^ 2 + (g * sin e' + zo - vz p) ^ 2 <= (eps * g) ^ 2).
  { eexists. split; [reflexivity|]. set (e' := at2 (vz p - zo) (rho - o)). destruct (Req_dec g 0) as [Z|Z].
    - assert (S : (rho - o) * (rho - o) + (vz p - zo) * (vz p - zo) = 0) by (apply sqrt_eq_0; [apply Rplus_le_le_0_compat; apply Rle_0_sqr|exact Z]). pose proof (Rle_0_sqr (rho - o)) as S1. pose proof (Rle_0_sqr (vz p - zo)) as S2. unfold Rsqr in S1, S2. rewrite Z. replace (_ + _) with ((rho - o) * (rho - o) + (vz p - zo) * (vz p - zo)) by ring. rewrite S. lra.
    - destruct (A (vz p - zo) (rho - o)) as (e & (E1 & E2 & _) & E3).
      { destruct (Req_dec (rho - o) 0) as [Z1|Z1]; [right|left; exact Z1]. intros Z2. apply Z. unfold g, ou_range. fold rho. rewrite Z1, Z2. replace (0 * 0 + 0 * 0) with 0 by ring. apply sqrt_0. }
      change (sqrt ((rho - o) * (rho - o) + (vz p - zo) * (vz p - zo))) with g in E1, E2. fold e' in E3.
      replace (g * cos e' + o - rho) with (- (g * (cos e - cos e'))) by lra. replace (g * sin e' + zo - vz p) with (- (g * (sin e - sin e'))) by lra.
      replace (_ + _) with (g ^ 2 * ((cos e - cos e') ^ 2 + (sin e - sin e') ^ 2)) by ring.
      assert (C : (cos e - cos e') ^ 2 + (sin e - sin e') ^ 2 <= eps ^ 2).
      { replace (_ + _) with ((sin e * sin e + cos e * cos e) + (sin e' * sin e' + cos e' * cos e') - 2 * (cos e * cos e' + sin e * sin e')) by ring. rewrite !sc1, <- cos_minus. pose proof (cos_def_le (e - e')) as [_ C]. apply abs_sq in E3. nra. }
      replace ((eps * g) ^ 2) with (g ^ 2 * eps ^ 2) by ring. apply Rmult_le_compat_l; [apply pow2_ge_0|exact C]. }
  destruct B as (e' & EE & B). apply dist_le; [apply Rmult_le_pos; lra|]. unfold ou_cartesian, ou_sensor. cbn [vx vy vz image0 image1 depth]. fold rho g. rewrite <- EE.
  set (bx := g * cos e' + o) in *. set (bz := g * sin e' + zo) in *. set (a' := at2 (vy p) (vx p)) in *.
  rewrite A1, A2. replace (_ + _ + _) with (bx ^ 2 * (sin a' * sin a' + cos a' * cos a') + rho ^ 2 * (sin a * sin a + cos a * cos a) - 2 * bx * rho * (cos a * cos a' + sin a * sin a') + (bz - vz p) ^ 2) by ring.
  rewrite !sc1, <- cos_minus. pose proof (cos_def_le (a - a')) as [D0 D]. apply abs_sq in A3. replace ((a' - a) ^ 2) with ((a - a') ^ 2) in A3 by ring.
  assert (X : Rabs (bx - rho) <= eps * g) by (apply sq_abs; [apply Rmult_le_pos; lra|pose proof (pow2_ge_0 (bz - vz p)); lra]). apply rabs_inv in X.
  assert (Y : 2 * bx * rho * (1 - cos (a - a')) <= (rho + eps * g) * rho * eps ^ 2).
  { set (d := 1 - cos (a - a')) in *. clearbody d. assert (D' : 2 * d <= eps ^ 2) by lra. apply Rle_trans with ((rho + eps * g) * rho * (2 * d)).
    - assert (0 <= rho * (2 * d)) by nra. nra.
    - apply Rmult_le_compat_l; [|exact D']. assert (0 <= eps * g) by nra. nra. }
  replace (bx ^ 2 * 1 + rho ^ 2 * 1 - 2 * bx * rho * cos (a - a') + (bz - vz p) ^ 2) with ((bx - rho) ^ 2 + (bz - vz p) ^ 2 + 2 * bx * rho * (1 - cos (a - a'))) by ring.
  eapply Rle_trans; [apply Rplus_le_compat; [exact B|exact Y]|]. assert (0 <= rho * g * eps ^ 2 * (2 - eps)). { repeat apply Rmult_le_pos; lra. } lra.
Qed.
Theorem C66_ouster_reverse : forall at2 eps o zo e a r, accurate at2 eps -> 0 < r -> 0 < r * cos e + o -> - PI < e <= PI -> - PI < a <= PI ->
  let s := ou_sensor at2 o zo (ou_cartesian o zo (SC e a r)) in within (image0 s) e eps /\ within (image1 s) a eps /\ depth s = r.
Proof.
  intros at2 eps o zo e a r A R0 B He Ha. cbv zeta. unfold ou_sensor, ou_cartesian, ou_range. cbn [vx vy vz image0 image1 depth].
  assert (NX : norm_xy (V3 ((r * cos e + o) * cos a) ((r * cos e + o) * sin a) (r * sin e + zo)) = r * cos e + o).
  { unfold norm_xy. cbn [vx vy]. replace (_ + _) with ((r * cos e + o) ^ 2 * (sin a * sin a + cos a * cos a)) by ring. rewrite sc1, Rmult_1_r. apply sqrt_pow2. lra. }
  rewrite NX. replace (r * cos e + o - o) with (r * cos e) by ring. replace (r * sin e + zo - zo) with (r * sin e) by ring. split; [|split].
  - apply accurate_polar; assumption.
  - apply accurate_polar; assumption.
  - replace (_ + _) with (r ^ 2 * (sin e * sin e + cos e * cos e)) by ring. rewrite sc1, Rmult_1_r. apply sqrt_pow2. lra.
Qed.

(** Pinhole camera: exact in both directions, in front of the camera *)
Theorem C66_pinhole : forall c p, fx c <> 0 -> fy c <> 0 -> kEps <= vz p -> ph_cartesian c (ph_sensor c p) = p.
Proof.
  intros c [x y z] Hx Hy Hz. cbn [vz] in Hz. assert (K : 0 < kEps) by (unfold kEps; lra). unfold ph_cartesian, ph_sensor, vscale. cbn [vx vy vz image0 image1 depth]. rewrite Rmax_left by exact Hz. f_equal; field; repeat split; lra.
Qed.
Theorem C66_pinhole_reverse : forall c u v w, fx c <> 0 -> fy c <> 0 -> kEps <= w -> ph_sensor c (ph_cartesian c (SC u v w)) = SC u v w.
Proof.
  intros c u v w Hx Hy Hw. assert (K : 0 < kEps) by (unfold kEps; lra). unfold ph_cartesian, ph_sensor, vscale. cbn [vx vy vz image0 image1 depth].
  replace (w * (1 / (fx c * fy c)) * (fx c * fy c)) with w by (field; lra). rewrite Rmax_left by exact Hw. f_equal; field; repeat split; lra.
Qed.
(** ... but not behind it: *)
Theorem C66_pinhole_behind_refuted : exists c p, fx c > 0 /\ fy c > 0 /\ ph_cartesian c (ph_sensor c p) <> p.
Proof.
  exists (RPH 1 1 0 0), (V3 1 0 (-1)). cbn [fx fy]. split; [lra|]. split; [lra|]. unfold ph_cartesian, ph_sensor, vscale. cbn [vx vy vz image0 image1 depth fx fy cx cy].
  assert (K : 0 < kEps) by (unfold kEps; lra). rewrite Rmax_right by lra. intros H. injection H as H _ _. assert (I : 0 < / kEps) by (apply Rinv_0_lt_compat; exact K). unfold Rdiv in H. rewrite Rinv_1 in H || idtac. lra.
Qed.

(** With the approximate arc tangent of the code (C65) *)
Theorem C66_spherical_code : forall p, vx p <> 0 \/ vy p <> 0 -> dist3 (sp_cartesian (sp_sensor Rapprox_atan2 p)) p <= 27 / 10000000 * len3 p.
Proof.
  intros p N. eapply Rle_trans; [exact (C66_spherical _ _ p accurate_code N)|]. apply Rmult_le_compat_r; [apply sqrt_pos|].
  assert (W : 0 <= kWorstCaseError <= 19081 / 10000000000) by (unfold kWorstCaseError, Q2R; cbn [Qnum Qden]; lra).
  assert (S : sqrt 2 <= 14143 / 10000) by (rewrite <- (sqrt_pow2 (14143 / 10000)) by lra; apply sqrt_le_1_alt; lra). pose proof (sqrt_pos 2). nra.
Qed.
Theorem C66_ouster_code : forall o zo p, vx p <> 0 \/ vy p <> 0 ->
  dist3 (ou_cartesian o zo (ou_sensor Rapprox_atan2 o zo p)) p <= 1909 / 1000000000 * (ou_range o zo p + sqrt (vx p ^ 2 + vy p ^ 2)).
Proof.
  intros o zo p N. assert (W : 0 <= kWorstCaseError <= 19081 / 10000000000) by (unfold kWorstCaseError, Q2R; cbn [Qnum Qden]; lra).
  eapply Rle_trans; [exact (C66_ouster _ _ o zo p accurate_code ltac:(lra) N)|]. pose proof (sqrt_pos (vx p ^ 2 + vy p ^ 2)). assert (0 <= ou_range o zo p) by apply sqrt_pos. nra.
Qed.
(** Without the condition on p: on the z axis no azimuth is computed (the result of atan2 is NaN, C65_float_origin). *)

(** The error norm of an offset in the image is, up to higher order terms, the distance of the two unit vectors along the beams. *)
Lemma cos_upper x : - PI / 2 <= x <= PI / 2 -> cos x <= 1 - x ^ 2 / 2 + x ^ 4 / 24.
Proof.
  intros H. pose proof (cos_bound x 0 ltac:(lra) ltac:(lra)) as [_ U]. unfold cos_approx, cos_term in U. cbn [Nat.mul Nat.add sum_f_R0 pow fact INR] in U. lra.
Qed.
Lemma cos_lip a b : Rabs (cos a - cos b) <= Rabs (a - b).
Proof.
  apply sq_abs; [apply Rabs_pos|]. rewrite pow2_abs. rewrite form2. replace ((-2 * sin ((a - b) / 2) * sin ((a + b) / 2)) ^ 2) with (4 * (sin ((a - b) / 2) ^ 2 * sin ((a + b) / 2) ^ 2)) by ring.
  pose proof (sin_sq_le ((a - b) / 2)) as S. pose proof (SIN_bound ((a + b) / 2)) as B. pose proof (pow2_ge_0 (sin ((a - b) / 2))) as P. assert (B2 : 0 <= sin ((a + b) / 2) ^ 2 <= 1) by nra. nra.
Qed.
Theorem C66_error_norm : forall e a de da, - PI / 2 <= de <= PI / 2 -> - PI / 2 <= da <= PI / 2 ->
  Rabs (dist3 (sp_cartesian (SC (e + de) (a + da) 1)) (sp_cartesian (SC e a 1)) ^ 2 - sp_error2 e de da) <= de ^ 4 / 12 + Rabs de * da ^ 2 + da ^ 4 / 12.
Proof.
  intros e a de da He Ha. unfold dist3, sp_cartesian, vscale. cbn [vx vy vz image0 image1 depth]. rewrite !Rmult_1_l. rewrite pow2_sqrt by (repeat apply Rplus_le_le_0_compat; apply pow2_ge_0). rewrite chord2.
  replace (e + de - e) with de by ring. replace (a + da - a) with da by ring. unfold sp_error2. set (c := cos e). set (c' := cos (e + de)).
  pose proof (cos_le1 e) as C. fold c in C. pose proof (cos_le1 (e + de)) as C'. fold c' in C'. pose proof (cos_lip (e + de) e) as L. fold c c' in L. replace (e + de - e) with de in L by ring.
  pose proof (cos_def_le de) as [_ D1]. pose proof (cos_upper de He) as D2. pose proof (cos_def_le da) as [D0 D3]. pose proof (cos_upper da Ha) as D4. clearbody c c'.
  assert (E1 : - (de ^ 4 / 12) <= 2 * (1 - cos de) - de ^ 2 <= 0) by lra. assert (E2 : - (da ^ 4 / 12) <= 2 * (1 - cos da) - da ^ 2 <= 0) by lra.
  set (k := 2 * (1 - cos da) - da ^ 2) in *. replace (2 * (1 - cos de) + 2 * (c' * c) * (1 - cos da) - (de * de + c * c * (da * da))) with ((2 * (1 - cos de) - de ^ 2) + c' * c * k + c * (c' - c) * da ^ 2) by (unfold k; ring).
  assert (F1 : - (da ^ 4 / 12) <= c' * c * k <= da ^ 4 / 12). { assert (-1 <= c' * c <= 1) by nra. assert (0 <= da ^ 4) by (replace (da ^ 4) with ((da ^ 2) ^ 2) by ring; apply pow2_ge_0). nra. }
  assert (F2 : - (Rabs de * da ^ 2) <= c * (c' - c) * da ^ 2 <= Rabs de * da ^ 2).
  { apply rabs_inv in L. pose proof (Rabs_pos de). pose proof (pow2_ge_0 da). assert (- Rabs de <= c * (c' - c) <= Rabs de) by nra. nra. }
  apply Rabs_le. lra.
Qed.

(** The interval of depths that the Ouster model gives for a cell is that of the distances to the sensor's origin: it contains the depths of the cell's points
    only up to the distance between the sensor's and the beams' origins. [Rot] is the rotation into the sensor's frame. *)
Definition in_rbox (b : rbox) (p : vec3) : Prop :=
  vx (rmin b) <= vx p <= vx (rmax b) /\ vy (rmin b) <= vy p <= vy (rmax b) /\ vz (rmin b) <= vz p <= vz (rmax b).
Lemma sq_mono a b : Rabs a <= Rabs b -> a ^ 2 <= b ^ 2.
Proof. intros H. rewrite <- (pow2_abs a), <- (pow2_abs b). apply pow_incr. split; [apply Rabs_pos|exact H]. Qed.
Lemma closest_le lo hi t p : lo <= p <= hi -> (t - rclosest lo hi t) ^ 2 <= (p - t) ^ 2.
Proof. intros H. unfold rclosest, Rmin, Rmax. destruct (Rle_dec t lo), (Rle_dec _ hi); apply sq_mono; unfold Rabs; repeat destruct (Rcase_abs _); lra. Qed.
Lemma furthest_ge lo hi t p : lo <= p <= hi -> (p - t) ^ 2 <= (t - rfurthest lo hi t) ^ 2.
Proof. intros H. unfold rfurthest. destruct (Rlt_dec _ t); apply sq_mono; unfold Rabs; repeat destruct (Rcase_abs _); lra. Qed.
Lemma triangle2 a b c d : sqrt (a ^ 2 + b ^ 2) <= sqrt (c ^ 2 + d ^ 2) + sqrt ((a - c) ^ 2 + (b - d) ^ 2).
Proof.
  set (u := sqrt (c ^ 2 + d ^ 2)). set (v := sqrt ((a - c) ^ 2 + (b - d) ^ 2)). assert (U0 : 0 <= u) by apply sqrt_pos. assert (V0 : 0 <= v) by apply sqrt_pos.
  assert (U : u * u = c ^ 2 + d ^ 2) by (apply sqrt_sqrt; apply Rplus_le_le_0_compat; apply pow2_ge_0). assert (V : v * v = (a - c) ^ 2 + (b - d) ^ 2) by (apply sqrt_sqrt; apply Rplus_le_le_0_compat; apply pow2_ge_0).
  rewrite <- (sqrt_pow2 (u + v)) by lra. apply sqrt_le_1_alt.
  assert (CS : c * (a - c) + d * (b - d) <= u * v).
  { assert (Q : Rabs (c * (a - c) + d * (b - d)) <= u * v); [|apply rabs_inv in Q; lra]. apply sq_abs; [nra|]. replace ((u * v) ^ 2) with ((u * u) * (v * v)) by ring. rewrite U, V. pose proof (pow2_ge_0 (c * (b - d) - d * (a - c))). nra. }
  nra.
Qed.
Theorem C66_ouster_depths : forall (Rot : vec3 -> vec3) o zo b t p, (forall v, len3 (Rot v) = len3 v) -> in_rbox b p ->
  let off := sqrt (o ^ 2 + zo ^ 2) in
  fst (ou_depths b t) - off <= ou_range o zo (Rot (vsub p t)) <= snd (ou_depths b t) + off.
Proof.
  intros Rot o zo b t p HR (B1 & B2 & B3). cbv zeta. cbn [ou_depths fst snd]. set (q := Rot (vsub p t)).
  assert (L : len3 q = dist3 p t) by (unfold q; rewrite HR; unfold len3, dist3, vsub; cbn [vx vy vz]; f_equal; ring).
  assert (NQ : len3 q = sqrt (norm_xy q ^ 2 + vz q ^ 2)). { rewrite len_vdot. f_equal. unfold vdot. replace (norm_xy q ^ 2) with (norm_xy q * norm_xy q) by ring. rewrite norm_xy_sq. ring. }
  assert (OR : ou_range o zo q = sqrt ((norm_xy q - o) ^ 2 + (vz q - zo) ^ 2)) by (unfold ou_range; f_equal; ring).
  assert (MI : box_min_dist b t <= dist3 p t).
  { unfold box_min_dist, dist3, vsub, vdot. cbn [vx vy vz]. apply sqrt_le_1_alt. pose proof (closest_le _ _ (vx t) _ B1). pose proof (closest_le _ _ (vy t) _ B2). pose proof (closest_le _ _ (vz t) _ B3). lra. }
  assert (MA : dist3 p t <= box_max_dist b t).
  { unfold box_max_dist, dist3, vsub, vdot. cbn [vx vy vz]. apply sqrt_le_1_alt. pose proof (furthest_ge _ _ (vx t) _ B1). pose proof (furthest_ge _ _ (vy t) _ B2). pose proof (furthest_ge _ _ (vz t) _ B3). lra. }
  pose proof (triangle2 (norm_xy q) (vz q) (norm_xy q - o) (vz q - zo)) as T1. replace (norm_xy q - (norm_xy q - o)) with o in T1 by ring. replace (vz q - (vz q - zo)) with zo in T1 by ring.
  pose proof (triangle2 (norm_xy q - o) (vz q - zo) (norm_xy q) (vz q)) as T2. replace (norm_xy q - o - norm_xy q) with (- o) in T2 by ring. replace (vz q - zo - vz q) with (- zo) in T2 by ring.
  replace ((- o) ^ 2) with (o ^ 2) in T2 by ring. replace ((- zo) ^ 2) with (zo ^ 2) in T2 by ring. rewrite OR. lra.
Qed.
(** With the default offsets a point of a cell can be nearer than the interval says: *)
Theorem C66_ouster_depths_refuted : exists b t p, in_rbox b p /\ ou_range (2767 / 100000) (3618 / 100000) (vsub p t) < fst (ou_depths b t).
Proof.
  exists (RBox (V3 1 0 0) (V3 2 1 1)), (V3 0 0 0), (V3 1 0 0). split; [unfold in_rbox; cbn [rmin rmax vx vy vz]; lra|]. cbn [ou_depths fst]. unfold ou_range, norm_xy, box_min_dist, vsub, vdot. cbn [rmin rmax vx vy vz].
  unfold rclosest. rewrite (Rmax_right 0 1), (Rmin_left 1 2), (Rmax_left 0 0), (Rmin_left 0 1) by lra.
  replace ((1 - 0) * (1 - 0) + (0 - 0) * (0 - 0)) with 1 by ring. rewrite sqrt_1. apply sqrt_lt_1_alt. lra.
Qed.

(** ** Non-vacuity *)
Example C66_ex : exists p, (vx p <> 0 \/ vy p <> 0) /\ len3 p = 13 /\ accurate Rapprox_atan2 kWorstCaseError.
Proof. exists (V3 3 4 12). cbn [vx vy]. split; [left; lra|]. split; [|exact accurate_code]. unfold len3, dist3. cbn [vx vy vz]. replace (_ + _) with (13 ^ 2) by ring. apply sqrt_pow2. lra. Qed.
(** For the pinhole camera it is the squared distance in the image: for points at the same depth, their squared distance in the plane of
    that depth, in pixels. *)
Theorem C66_error_norm_pinhole : forall c p q, vz p = vz q -> kEps <= vz p ->
  let s := ph_sensor c p in let t := ph_sensor c q in
  ph_error2 (image0 s - image0 t) (image1 s - image1 t) = (fx c / vz p * (vx p - vx q)) ^ 2 + (fy c / vz p * (vy p - vy q)) ^ 2.
Proof.
  intros c p q E H. cbv zeta. unfold ph_sensor, ph_error2. cbn [image0 image1]. rewrite <- E. rewrite Rmax_left by exact H. assert (0 < kEps) by (unfold kEps; lra). field. lra.
Qed.
Print Assumptions C66_spherical.
Print Assumptions C66_ouster.
Print Assumptions C66_spherical_reverse.
Print Assumptions C66_ouster_reverse.
Print Assumptions C66_pinhole.
Print Assumptions C66_pinhole_reverse.
Print Assumptions C66_error_norm.
Print Assumptions C66_error_norm_pinhole.
Print Assumptions C66_ouster_depths.
