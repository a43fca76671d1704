(** Property theorems C60: rotation matrices in and out of poses. *)
From Verif Require Import M_Pose P_Pose.
From Coq Require Import Reals Lra Psatz List.
Open Scope R_scope.

(** ** Specification *)
Definition orthonormal_rows (m : mat3) : Prop :=
  forall i j, (i < 3)%nat -> (j < 3)%nat -> vdot (mrow m i) (mrow m j) = if Nat.eqb i j then 1 else 0.
Definition rotation_matrix (m : mat3) : Prop := orthonormal_rows m /\ mdet m = 1.
Definition transposed (m : mat3) : mat3 := M3 (m00 m) (m10 m) (m20 m) (m01 m) (m11 m) (m21 m) (m02 m) (m12 m) (m22 m).

(** ** Facts *)
Lemma rows_of m : orthonormal_rows m ->
  let (a, b, c, d, e, f, g, h, i) := m in
  a * a + b * b + c * c = 1 /\ d * d + e * e + f * f = 1 /\ g * g + h * h + i * i = 1 /\
  a * d + b * e + c * f = 0 /\ a * g + b * h + c * i = 0 /\ d * g + e * h + f * i = 0.
Proof.
  intros H. pose proof (H 0%nat 0%nat ltac:(auto) ltac:(auto)). pose proof (H 1%nat 1%nat ltac:(auto) ltac:(auto)). pose proof (H 2%nat 2%nat ltac:(auto) ltac:(auto)).
  pose proof (H 0%nat 1%nat ltac:(auto) ltac:(auto)). pose proof (H 0%nat 2%nat ltac:(auto) ltac:(auto)). pose proof (H 1%nat 2%nat ltac:(auto) ltac:(auto)). clear H.
  destruct m. cbn in *. unf. tauto.
Qed.
Lemma sq_sum0 a b c : a * a + b * b + c * c = 0 -> a = 0 /\ b = 0 /\ c = 0.
Proof. intros H. repeat split; nra. Qed.
(** The third row is the cross product of the other two. *)
Lemma cross_row (a b c : vec3) : vdot a a = 1 -> vdot b b = 1 -> vdot a b = 0 -> vdot c c = 1 -> vdot (vcross a b) c = 1 -> vcross a b = c.
Proof.
  intros A B AB C D. assert (N : vdot (vcross a b) (vcross a b) = 1).
  { replace (vdot (vcross a b) (vcross a b)) with (vdot a a * vdot b b - vdot a b * vdot a b) by (vec; unf; ring). rewrite A, B, AB. ring. }
  set (x := vcross a b) in *. clearbody x. clear A B AB. destruct x as [x0 x1 x2], c as [c0 c1 c2]. unf.
  destruct (sq_sum0 (x0 - c0) (x1 - c1) (x2 - c2)) as (E0 & E1 & E2); [nra|]. f_equal; lra.
Qed.
(** The products of the components determine norm and matrix. *)
Definition products (q : quat) (m : mat3) : Prop := let (w, x, y, z) := q in let (a, b, c, d, e, f, g, h, i) := m in
  w * w = (1 + a + e + i) / 4 /\ x * x = (1 + a - e - i) / 4 /\ y * y = (1 - a + e - i) / 4 /\ z * z = (1 - a - e + i) / 4 /\
  w * x = (h - f) / 4 /\ w * y = (c - g) / 4 /\ w * z = (d - b) / 4 /\ x * y = (d + b) / 4 /\ x * z = (c + g) / 4 /\ y * z = (h + f) / 4.
Lemma of_products q m : products q m -> unit_quat q /\ qmat q = m.
Proof. intros H. destruct q as [w x y z], m as [a b c d e f g h i]. cbn in H. destruct H as (H1 & H2 & H3 & H4 & H5 & H6 & H7 & H8 & H9 & H10). unf. split; [lra|]. f_equal; lra. Qed.
Lemma pr_main r a : r <> 0 -> 1 / 2 * r * (a * (1 / 2 / r)) = a / 4. Proof. intros H. field. exact H. Qed.
Lemma pr_sq K r : r * r = K -> 1 / 2 * r * (1 / 2 * r) = K / 4. Proof. intros <-. field. Qed.
Lemma pr_other K r a b E : r <> 0 -> r * r = K -> a * b = K * E -> a * (1 / 2 / r) * (b * (1 / 2 / r)) = E / 4.
Proof. intros H <- AB. transitivity (a * b / (4 * (r * r))); [field; exact H|]. rewrite AB. field. exact H. Qed.
Lemma conversion m : rotation_matrix m -> products (quat_of_matrix m) m.
Proof.
  intros [HR HD]. pose proof (rows_of m HR) as R. clear HR. destruct m as [a b c d e f g h i]. cbn in R. destruct R as (R1 & R2 & R3 & R4 & R5 & R6).
  assert (C1 : vcross (V3 a b c) (V3 d e f) = V3 g h i) by (unfold mdet in HD; cbn in HD; apply cross_row; unf; lra).
  assert (C2 : vcross (V3 d e f) (V3 g h i) = V3 a b c) by (unfold mdet in HD; cbn in HD; apply cross_row; unf; lra).
  assert (C3 : vcross (V3 g h i) (V3 a b c) = V3 d e f) by (unfold mdet in HD; cbn in HD; apply cross_row; unf; lra).
  unf. injection C1 as G1 G2 G3. injection C2 as A1 A2 A3. injection C3 as D1 D2 D3. unfold mdet in HD. cbn in HD.
  (* the columns are orthonormal, too *)
  assert (K1 : a * a + d * d + g * g = 1) by (rewrite <- A1 at 2; rewrite <- D1 at 2; rewrite <- G1 at 2; lra).
  assert (K2 : b * b + e * e + h * h = 1) by (rewrite <- A2 at 2; rewrite <- D2 at 2; rewrite <- G2 at 2; lra).
  assert (K3 : c * c + f * f + i * i = 1) by (rewrite <- A3 at 2; rewrite <- D3 at 2; rewrite <- G3 at 2; lra).
  assert (K4 : a * b + d * e + g * h = 0) by (rewrite <- A2, <- D2, <- G2; ring).
  assert (K5 : a * c + d * f + g * i = 0) by (rewrite <- A3, <- D3, <- G3; ring).
  assert (K6 : b * c + e * f + h * i = 0) by (rewrite <- A3, <- D3, <- G3; ring).
  clear HD. unfold quat_of_matrix. cbv [m00 m01 m02 m10 m11 m12 m20 m21 m22].
  assert (RT : forall K, 0 < K -> sqrt K <> 0 /\ sqrt K * sqrt K = K) by (intros K HK; split; [pose proof (sqrt_lt_R0 K HK); lra|apply sqrt_sqrt; lra]).
  destruct (Rlt_dec 0 (a + e + i)) as [T|T].
  - destruct (RT (a + e + i + 1) ltac:(lra)) as [N S]. set (r := sqrt _) in *. clearbody r. cbv zeta. cbn.
    repeat split; try (rewrite (pr_sq _ _ S); lra); try (rewrite pr_main by exact N; lra); (eapply pr_other; [exact N|exact S|lra]).
  - assert (T' : a + e + i <= 0) by lra. clear T.
    destruct (Rlt_dec a e) as [L1|L1]; (destruct (Rlt_dec _ i) as [L2|L2]); cbv zeta.
    + destruct (RT (i - a - e + 1) ltac:(lra)) as [N S]. set (r := sqrt _) in *. clearbody r. cbn.
      repeat split; try (rewrite (pr_sq _ _ S); lra); try (rewrite pr_main by exact N; lra); try (rewrite Rmult_comm, pr_main by exact N; lra); (eapply pr_other; [exact N|exact S|lra]).
    + destruct (RT (e - i - a + 1) ltac:(lra)) as [N S]. set (r := sqrt _) in *. clearbody r. cbn.
      repeat split; try (rewrite (pr_sq _ _ S); lra); try (rewrite pr_main by exact N; lra); try (rewrite Rmult_comm, pr_main by exact N; lra); (eapply pr_other; [exact N|exact S|lra]).
    + destruct (RT (i - a - e + 1) ltac:(lra)) as [N S]. set (r := sqrt _) in *. clearbody r. cbn.
      repeat split; try (rewrite (pr_sq _ _ S); lra); try (rewrite pr_main by exact N; lra); try (rewrite Rmult_comm, pr_main by exact N; lra); (eapply pr_other; [exact N|exact S|lra]).
    + destruct (RT (a - e - i + 1) ltac:(lra)) as [N S]. set (r := sqrt _) in *. clearbody r. cbn.
      repeat split; try (rewrite (pr_sq _ _ S); lra); try (rewrite pr_main by exact N; lra); try (rewrite Rmult_comm, pr_main by exact N; lra); (eapply pr_other; [exact N|exact S|lra]).
Qed.

(** ** Theorems *)
(** The matrix of a pose is a rotation matrix, and that of the inverse is its transpose. *)
Theorem C60_matrix_of_pose : forall q, unit_quat q -> rotation_matrix (qmat q) /\ qmat (qconj q) = transposed (qmat q) /\ forall v, mmul (qmat q) v = rotate q v.
Proof.
  intros q H. split; [|split; [destruct q as [w x y z]; unfold transposed; unf; f_equal; ring|intros v; apply rot_mat]].
  assert (Rr : forall v, mmul (qmat q) v = sandwich q v) by (intros v; rewrite rot_mat; apply rot_unit; exact H).
  assert (Rc : forall v, mmul (qmat (qconj q)) v = sandwich (qconj q) v) by (intros v; rewrite rot_mat; apply rot_unit, unit_conj; exact H).
  assert (TR : qmat (qconj q) = transposed (qmat q)) by (destruct q as [w x y z]; unfold transposed; unf; f_equal; ring). rewrite TR in Rc.
  set (m := qmat q) in *. clearbody m. clear TR. split.
  - assert (U : qn2 (qconj q) = 1) by (rewrite qn2_conj; exact H).
    assert (E : forall i, (i < 3)%nat -> mrow m i = sandwich (qconj q) (match i with O => V3 1 0 0 | S O => V3 0 1 0 | _ => V3 0 0 1 end)).
    { intros i Hi. rewrite <- Rc. destruct m as [a b c d e f g h k], i as [|[|[|i]]]; try (exfalso; Lia.lia); unfold transposed, mrow; unf; f_equal; ring. }
    intros i j Hi Hj. rewrite !E by assumption. rewrite sandwich_dot, U. clear - Hi Hj. destruct i as [|[|[|i]]], j as [|[|[|j]]]; try (exfalso; Lia.lia); cbn [Nat.eqb]; unf; ring.
  - assert (D : mdet m = vdot (mmul m (V3 1 0 0)) (vcross (mmul m (V3 0 1 0)) (mmul m (V3 0 0 1)))) by (destruct m as [a b c d e f g h k]; unfold mdet; unf; ring).
    rewrite D, !Rr, sandwich_cross, (H : qn2 q = 1), vscale_1, sandwich_dot, (H : qn2 q = 1). unf. ring.
Qed.
(** A pose made from a rotation matrix rotates by that matrix. *)
Theorem C60_pose_of_matrix : forall m, rotation_matrix m ->
  exists q, rot_of_matrix m (Some q) /\ unit_quat q /\ qmat q = m /\ forall v, rotate q v = mmul m v.
Proof.
  intros m H. exists (quat_of_matrix m). destruct (of_products _ _ (conversion m H)) as [U E]. split; [|split; [exact U|split; [exact E|]]].
  - assert (V : valid_rotation_matrix m).
    { assert (P : 0 <= mat_eps) by (unfold mat_eps; lra). destruct H as [HR HD]. split; unfold within.
      - rewrite HD, Rminus_diag_eq, Rabs_R0 by reflexivity. exact P.
      - intros i j Hi Hj. rewrite (HR i j Hi Hj), Rminus_diag_eq, Rabs_R0 by reflexivity. exact P. }
    split; [reflexivity|]. intros N. contradiction.
  - intros v. rewrite <- E at 2. symmetry. apply rot_mat.
Qed.
(** Back and forth: the quaternion that comes back has the same rotation, i.e. the same unique representation. *)
Theorem C60_round_trip : forall q, unit_quat q -> exists r, rot_of_matrix (qmat q) (Some r) /\ unique r = unique q.
Proof.
  intros q H. destruct (C60_pose_of_matrix (qmat q)) as (r & Hr & Ur & Er & Rr); [apply C60_matrix_of_pose; exact H|]. exists r. split; [exact Hr|].
  apply C58_unique_canonical; [assumption|assumption|]. intros v. rewrite Rr. apply rot_mat.
Qed.
(** Mirror images and matrices that are not orthonormal to 1e-5 are rejected. *)
Theorem C60_rejected : forall m r, rot_of_matrix m r ->
  (mdet m < 0 -> r = None) /\
  (forall i j, (i < 3)%nat -> (j < 3)%nat -> Rabs (vdot (mrow m i) (mrow m j) - (if Nat.eqb i j then 1 else 0)) > 1.0001 / 100000 -> r = None).
Proof.
  intros m r [_ H]. split.
  - intros D. apply H. intros [V _]. unfold within, mat_eps in V. apply abs_le in V. lra.
  - intros i j Hi Hj D. apply H. intros [_ V]. specialize (V i j Hi Hj). unfold within, mat_eps in V. lra.
Qed.
(** ** Non-vacuity: half a turn around the axis (1, 2, 2) / 3 (its trace is negative) *)
Definition ex_mat : mat3 := M3 (- 7 / 9) (4 / 9) (4 / 9) (4 / 9) (- 1 / 9) (8 / 9) (4 / 9) (8 / 9) (- 1 / 9).
Example C60_ex : rotation_matrix ex_mat /\ mmul ex_mat (V3 1 2 2) = V3 1 2 2 /\ forall v, mmul ex_mat (mmul ex_mat v) = v.
Proof.
  split; [split|split].
  - intros i j Hi Hj. destruct i as [|[|[|i]]], j as [|[|[|j]]]; try (unfold ex_mat; cbn; unf; lra); exfalso; Lia.lia.
  - unfold mdet, ex_mat. cbn. lra.
  - unfold ex_mat. unf. f_equal; lra.
  - intros [x y z]. unfold ex_mat. unf. f_equal; lra.
Qed.
Print Assumptions C60_matrix_of_pose.
Print Assumptions C60_pose_of_matrix.
Print Assumptions C60_round_trip.
Print Assumptions C60_rejected.
