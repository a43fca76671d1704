(** Poses and rotations: /repo/library/cpp/include/wavemap/3rd_party/minkindr/ (quat-transformation.h, rotation-quaternion.h and
    impl/*-inl.h), instantiated at Scalar = float (Transformation3D, include/wavemap/core/common.h:44-47).
    Floats are real numbers: rounding and NaN are left out. A failed CHECK aborts the process: result None.
    The quaternion operations of Eigen (Eigen/src/Geometry/Quaternion.h, versions 3.3 and 3.4; not part of /repo) are modelled by
    their formulas; definitions below that cite no lines of /repo are these. *)
From Coq Require Import Reals Lra.
Open Scope R_scope.

Record vec3 := V3 { vx : R; vy : R; vz : R }.
Record quat := Qt { qw : R; qx : R; qy : R; qz : R }.
Definition vadd (a b : vec3) : vec3 := V3 (vx a + vx b) (vy a + vy b) (vz a + vz b).
Definition vsub (a b : vec3) : vec3 := V3 (vx a - vx b) (vy a - vy b) (vz a - vz b).
Definition vneg (a : vec3) : vec3 := V3 (- vx a) (- vy a) (- vz a).
Definition vscale (s : R) (a : vec3) : vec3 := V3 (s * vx a) (s * vy a) (s * vz a).
Definition vdot (a b : vec3) : R := vx a * vx b + vy a * vy b + vz a * vz b.
Definition vcross (a b : vec3) : vec3 :=
  V3 (vy a * vz b - vz a * vy b) (vz a * vx b - vx a * vz b) (vx a * vy b - vy a * vx b).

(** Eigen: squaredNorm, dot, product, inverse (conjugate divided by the squared norm), normalize *)
Definition qdot (a b : quat) : R := qw a * qw b + qx a * qx b + qy a * qy b + qz a * qz b.
Definition qn2 (q : quat) : R := qdot q q.
Definition qscale (s : R) (q : quat) : quat := Qt (s * qw q) (s * qx q) (s * qy q) (s * qz q).
Definition qadd (a b : quat) : quat := Qt (qw a + qw b) (qx a + qx b) (qy a + qy b) (qz a + qz b).
Definition qneg (q : quat) : quat := Qt (- qw q) (- qx q) (- qy q) (- qz q).
Definition qconj (q : quat) : quat := Qt (qw q) (- qx q) (- qy q) (- qz q).
Definition qprod (a b : quat) : quat :=
  Qt (qw a * qw b - qx a * qx b - qy a * qy b - qz a * qz b)
     (qw a * qx b + qx a * qw b + qy a * qz b - qz a * qy b)
     (qw a * qy b + qy a * qw b + qz a * qx b - qx a * qz b)
     (qw a * qz b + qz a * qw b + qx a * qy b - qy a * qx b).
Definition qinv (q : quat) : quat := qscale (/ qn2 q) (qconj q).
Definition qnormalize (q : quat) : quat := qscale (/ sqrt (qn2 q)) q.
(** Eigen: _transformVector, i.e. q * v *)
Definition qim (q : quat) : vec3 := V3 (qx q) (qy q) (qz q).
Definition qrot (q : quat) (v : vec3) : vec3 :=
  let uv := vcross (qim q) v in let uv := vadd uv uv in
  vadd (vadd v (vscale (qw q) uv)) (vcross (qim q) uv).
(** Eigen: toRotationMatrix *)
Record mat3 := M3 { m00 : R; m01 : R; m02 : R; m10 : R; m11 : R; m12 : R; m20 : R; m21 : R; m22 : R }.
Definition mmul (m : mat3) (v : vec3) : vec3 :=
  V3 (m00 m * vx v + m01 m * vy v + m02 m * vz v) (m10 m * vx v + m11 m * vy v + m12 m * vz v) (m20 m * vx v + m21 m * vy v + m22 m * vz v).
Definition qmat (q : quat) : mat3 :=
  let tx := 2 * qx q in let ty := 2 * qy q in let tz := 2 * qz q in
  let twx := tx * qw q in let twy := ty * qw q in let twz := tz * qw q in
  let txx := tx * qx q in let txy := ty * qx q in let txz := tz * qx q in
  let tyy := ty * qy q in let tyz := tz * qy q in let tzz := tz * qz q in
  M3 (1 - (tyy + tzz)) (txy - twz) (txz + twy)
     (txy + twz) (1 - (txx + tzz)) (tyz - twx)
     (txz - twy) (tyz + twx) (1 - (txx + tyy)).

(** The float 1.0e-4f, impl/rotation-quaternion-inl.h:36-52 [EPS] *)
Definition norm_eps : R := 13743895 / 137438953472.
(** CHECK_NEAR(squaredNorm(), 1, EPS) in the constructors, impl/rotation-quaternion-inl.h:60-89; glog's CHECK_NEAR compares with both ends *)
Definition checked (q : quat) : option quat :=
  if Rle_dec (qn2 q) (1 + norm_eps) then if Rle_dec (1 - norm_eps) (qn2 q) then Some q else None else None.
Definition qident : quat := Qt 1 0 0 0.
(** impl/rotation-quaternion-inl.h:575-586 [normalizationHelper] *)
Definition renormalized (q : quat) : quat := if Rlt_dec norm_eps (Rabs (qn2 q - 1)) then qnormalize q else q.
(** impl/rotation-quaternion-inl.h:420-427 [operator*] *)
Definition rot_mul (a b : quat) : option quat := checked (renormalized (qprod a b)).
(** impl/rotation-quaternion-inl.h:292-314 [inverse], [conjugated] *)
Definition rot_inverse (q : quat) : option quat := checked (qconj q).
(** impl/rotation-quaternion-inl.h:316-322 [rotate], 344-350 [inverseRotate] *)
Definition rotate (q : quat) (v : vec3) : vec3 := qrot q v.
Definition inverse_rotate (q : quat) (v : vec3) : vec3 := qrot (qinv q) v.
(** impl/rotation-quaternion-inl.h:324-331 [rotateVectorized]: every column; CHECK_GT(v.cols(), 0) *)
Definition rotate_all (q : quat) (l : list vec3) : option (list vec3) :=
  match l with nil => None | _ => Some (List.map (mmul (qmat q)) l) end.
(** impl/rotation-quaternion-inl.h:222-253 [getUnique] *)
Definition unique (q : quat) : option quat :=
  let neg := checked (qneg q) in
  if Rlt_dec 0 (qw q) then Some q else if Rlt_dec (qw q) 0 then neg
  else if Rlt_dec 0 (qx q) then Some q else if Rlt_dec (qx q) 0 then neg
  else if Rlt_dec 0 (qy q) then Some q else if Rlt_dec (qy q) 0 then neg
  else if Rlt_dec 0 (qz q) then Some q else neg.

(** QuatTransformationTemplate, quat-transformation.h:48-214: rotation q_A_B and position A_t_A_B *)
Record pose := Pose { prot : quat; ppos : vec3 }.
(** impl/quat-transformation-inl.h:75-79 [setIdentity] *)
Definition pose_identity : pose := Pose qident (V3 0 0 0).
Definition with_rot (q : option quat) (t : vec3) : option pose := match q with Some q => Some (Pose q t) | None => None end.
(** impl/quat-transformation-inl.h:136-142 [operator*] *)
Definition pose_mul (a b : pose) : option pose :=
  with_rot (rot_mul (prot a) (prot b)) (vadd (ppos a) (rotate (prot a) (ppos b))).
(** impl/quat-transformation-inl.h:144-149 [transform] (also operator* with a point, 159-164) *)
Definition transform (x : pose) (p : vec3) : vec3 := vadd (rotate (prot x) p) (ppos x).
(** impl/quat-transformation-inl.h:151-157 [transformVectorized] *)
Definition transform_all (x : pose) (l : list vec3) : option (list vec3) :=
  match rotate_all (prot x) l with Some r => Some (List.map (fun v => vadd v (ppos x)) r) | None => None end.
(** impl/quat-transformation-inl.h:177-181 [inverseTransform] *)
Definition inverse_transform (x : pose) (p : vec3) : vec3 := inverse_rotate (prot x) (vsub p (ppos x)).
(** impl/quat-transformation-inl.h:193-198 [inverse] *)
Definition pose_inverse (x : pose) : option pose :=
  with_rot (rot_inverse (prot x)) (vneg (inverse_rotate (prot x) (ppos x))).
(** Eigen: slerp. NumTraits<float>::epsilon() is 2^-23. *)
Definition slerp_scales (d t : R) : R * R :=
  if Rle_dec (1 - / 8388608) (Rabs d) then (1 - t, t)
  else let theta := acos (Rabs d) in (sin ((1 - t) * theta) / sin theta, sin (t * theta) / sin theta).
Definition slerp (a b : quat) (t : R) : quat :=
  let d := qdot a b in let s := slerp_scales d t in
  let s1 := if Rlt_dec d 0 then - snd s else snd s in
  qadd (qscale (fst s) a) (qscale s1 b).
(** impl/quat-transformation-inl.h:286-297 [interpolateComponentwise] *)
Definition interpolate (a b : pose) (l : R) : option pose :=
  if Rle_dec 0 l then if Rle_dec l 1 then
    with_rot (checked (slerp (prot a) (prot b) l)) (vadd (ppos a) (vscale l (vsub (ppos b) (ppos a))))
  else None else None.

(** The float 1.0e-5f, impl/rotation-quaternion-inl.h:49-51 [EPS::value] *)
Definition mat_eps : R := 10995116 / 1099511627776.
Definition mdet (m : mat3) : R :=
  m00 m * (m11 m * m22 m - m12 m * m21 m) - m01 m * (m10 m * m22 m - m12 m * m20 m) + m02 m * (m10 m * m21 m - m11 m * m20 m).
Definition mrow (m : mat3) (i : nat) : vec3 :=
  match i with O => V3 (m00 m) (m01 m) (m02 m) | S O => V3 (m10 m) (m11 m) (m12 m) | _ => V3 (m20 m) (m21 m) (m22 m) end.
(** impl/rotation-quaternion-inl.h:542-565 [isValidRotationMatrix]: the determinant and the entries of M * M^T *)
Definition within (eps x : R) : Prop := Rabs x <= eps.
Definition valid_rotation_matrix (m : mat3) : Prop :=
  within mat_eps (mdet m - 1) /\
  forall i j, (i < 3)%nat -> (j < 3)%nat -> within mat_eps (vdot (mrow m i) (mrow m j) - (if Nat.eqb i j then 1 else 0)).
(** Eigen: quaternion from a rotation matrix (quaternionbase_assign_impl), with t = sqrt(trace + 1) or the square root for the
    largest diagonal entry *)
Definition quat_of_matrix (m : mat3) : quat :=
  let t := m00 m + m11 m + m22 m in
  if Rlt_dec 0 t then
    let r := sqrt (t + 1) in let s := (1 / 2) / r in
    Qt (1 / 2 * r) ((m21 m - m12 m) * s) ((m02 m - m20 m) * s) ((m10 m - m01 m) * s)
  else
    let i1 := if Rlt_dec (m00 m) (m11 m) then true else false in
    let i2 := if Rlt_dec (if i1 then m11 m else m00 m) (m22 m) then true else false in
    if i2 then
      let r := sqrt (m22 m - m00 m - m11 m + 1) in let s := (1 / 2) / r in
      Qt ((m10 m - m01 m) * s) ((m02 m + m20 m) * s) ((m12 m + m21 m) * s) (1 / 2 * r)
    else if i1 then
      let r := sqrt (m11 m - m22 m - m00 m + 1) in let s := (1 / 2) / r in
      Qt ((m02 m - m20 m) * s) ((m10 m + m01 m) * s) (1 / 2 * r) ((m21 m + m12 m) * s)
    else
      let r := sqrt (m00 m - m11 m - m22 m + 1) in let s := (1 / 2) / r in
      Qt ((m21 m - m12 m) * s) (1 / 2 * r) ((m10 m + m01 m) * s) ((m20 m + m02 m) * s).
(** impl/rotation-quaternion-inl.h:114-120: the constructor from a matrix, as a relation because validity is a proposition *)
Definition rot_of_matrix (m : mat3) (q : option quat) : Prop :=
  (valid_rotation_matrix m -> q = Some (quat_of_matrix m)) /\ (~ valid_rotation_matrix m -> q = None).
(** include/wavemap/core/data_structure/posed_object.h:24-29 [setPose]: T_W_C, R_W_C, T_C_W, R_C_W *)
Record posed := Posed { po_T : pose; po_R : mat3; po_Tinv : pose; po_Rinv : mat3 }.
Definition set_pose (x : pose) : option posed :=
  match pose_inverse x with Some y => Some (Posed x (qmat (prot x)) y (qmat (prot y))) | None => None end.
