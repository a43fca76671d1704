(** Range image intersector, the sensor coordinates of cells, and the range check of the integrators. Files, under
    /repo/library/cpp/: "ri" = include/wavemap/core/integrator/projective/coarse_to_fine/impl/range_image_intersector_inl.h,
    "pm" = include/wavemap/core/integrator/projection_model/, "ps" = src/core/integrator/projection_model/,
    "ab" = include/wavemap/core/data_structure/aabb.h, "at" = include/wavemap/core/utils/math/approximate_trigonometry.h.
    Floats are rationals, int is unbounded; std::sqrt is an arbitrary function [fsqrt]. *)
From Verif Require Import Base M_IntMath M_Image M_RangeBounds M_Measure.
From Coq Require Import QArith Qround Qabs.
Close Scope Z_scope.
Open Scope Q_scope.

(** Point3D *)
Record v3 := V3 { vx : Q; vy : Q; vz : Q }.
Definition v3add (a b : v3) : v3 := V3 (vx a + vx b) (vy a + vy b) (vz a + vz b).
Definition v3sub (a b : v3) : v3 := V3 (vx a - vx b) (vy a - vy b) (vz a - vz b).
Definition v3scale (s : Q) (a : v3) : v3 := V3 (s * vx a) (s * vy a) (s * vz a).
(** A rotation matrix by its columns, and its product with a vector *)
Record m3 := M3 { col0 : v3; col1 : v3; col2 : v3 }.
Definition m3mul (R : m3) (a : v3) : v3 := v3add (v3add (v3scale (vx a) (col0 R)) (v3scale (vy a) (col1 R))) (v3scale (vz a) (col2 R)).
(** AABB<Point3D>, ab:15-38 *)
Record box := Box { bmin : v3; bmax : v3 }.
Definition containsPoint (b : box) (p : v3) : bool :=
  Qle_bool (vx (bmin b)) (vx p) && Qle_bool (vx p) (vx (bmax b)) && (Qle_bool (vy (bmin b)) (vy p) && Qle_bool (vy p) (vy (bmax b))) &&
  (Qle_bool (vz (bmin b)) (vz p) && Qle_bool (vz p) (vz (bmax b))).
(** closestPointTo and furthestPointFrom per coordinate, ab:40-49; minDistanceTo and maxDistanceTo, ab:51-56,82-89 *)
Definition closest1 (lo hi p : Q) : Q := qmin (qmax p lo) hi.
Definition furthest1 (lo hi p : Q) : Q := if qltb ((lo + hi) / 2) p then lo else hi.
Definition v3norm2 (a : v3) : Q := vx a * vx a + vy a * vy a + vz a * vz a.
Definition minDistanceTo (fsqrt : Q -> Q) (b : box) (p : v3) : Q :=
  fsqrt (v3norm2 (v3sub p (V3 (closest1 (vx (bmin b)) (vx (bmax b)) (vx p)) (closest1 (vy (bmin b)) (vy (bmax b)) (vy p))
                              (closest1 (vz (bmin b)) (vz (bmax b)) (vz p))))).
Definition maxDistanceTo (fsqrt : Q -> Q) (b : box) (p : v3) : Q :=
  fsqrt (v3norm2 (v3sub p (V3 (furthest1 (vx (bmin b)) (vx (bmax b)) (vx p)) (furthest1 (vy (bmin b)) (vy (bmax b)) (vy p))
                              (furthest1 (vz (bmin b)) (vz (bmax b)) (vz p))))).

(** SensorCoordinates: image coordinates and depth. AABB<Vector3D> of sensor coordinates. *)
Definition sensor := (v2 * Q)%type.
Record saabb := SB { smin : v2; smax : v2; zmin : Q; zmax : Q }.
(** kInitialMin = FLT_MAX, kInitialMax = lowest(), ab:22-23 *)
Definition kInitialMin : Q := inject_Z (2 ^ 128 - 2 ^ 104).
Definition kInitialMax : Q := - kInitialMin.

(** The corners of the cell in the sensor frame, ps/pinhole_camera_projector.cc:18-31, ps/spherical_projector.cc:46-59:
    corner [k] is the minimum corner plus the edges of the dimensions whose bit is set in [k] *)
Definition corners (W : box) (R : m3) (t : v3) : list v3 :=
  let c := m3mul R (v3sub (bmin W) t) in
  let d := v3sub (bmax W) (bmin W) in
  let e0 := v3scale (vx d) (col0 R) in
  let e1 := v3scale (vy d) (col1 R) in
  let e2 := v3scale (vz d) (col2 R) in
  [c; v3add c e0; v3add c e1; v3add (v3add c e0) e1; v3add c e2; v3add (v3add c e0) e2; v3add (v3add c e1) e2; v3add (v3add (v3add c e0) e1) e2].
Definition minl (l : list Q) : Q := fold_left qmin l kInitialMin.
Definition maxl (l : list Q) : Q := fold_left qmax l kInitialMax.

(** *** Pinhole camera *)
(** PinholeCameraProjectorConfig, pm/pinhole_camera_projector.h:13-42; isValid, ps/pinhole_camera_projector.cc:65-75 *)
Record pinhole := PH { ph_width : Z; ph_height : Z; ph_fx : Q; ph_fy : Q; ph_cx : Q; ph_cy : Q }.
Definition pinhole_isValid (c : pinhole) : bool := (0 <? ph_width c)%Z && (0 <? ph_height c)%Z && qltb 0 (ph_fx c) && qltb 0 (ph_fy c).
(** The base class with unit scale and zero offset, ps/pinhole_camera_projector.cc:6-11 *)
Definition pinhole_base : projector := PB (1, 1) (0, 0).
(** kEpsilon, utils/data/constants.h:15 *)
Definition kEpsilon : Q := 8796093 # 8796093022208.
(** cartesianToSensor, pm/impl/pinhole_camera_projector_inl.h:7-13 *)
Definition pinhole_sensor (c : pinhole) (p : v3) : sensor :=
  let w := qmax (vz p) kEpsilon in ((ph_fx c * vx p / w + ph_cx c, ph_fy c * vy p / w + ph_cy c), vz p).
(** cartesianToSensorAABB, ps/pinhole_camera_projector.cc:13-60 *)
Definition pinhole_aabb (c : pinhole) (W : box) (R : m3) (t : v3) : saabb :=
  let s := map (pinhole_sensor c) (corners W R t) in
  let us := map (fun x => fst (fst x)) s in
  let vs := map (fun x => snd (fst x)) s in
  let zs := map snd s in
  SB (minl us, minl vs) (maxl us, maxl vs) (minl zs) (maxl zs).

(** *** Spherical projection *)
(** approximate::atan, at:10-41: the coefficients as the floats nearest to the decimal literals, fma exact *)
Definition approx_atan (x : Q) : Q :=
  let x2 := x * x in
  let u := x2 * - (12585543 # 1073741824) + (7067009 # 134217728) in
  let u := x2 * u - (15627355 # 134217728) in
  let u := x2 * u + (6494241 # 33554432) in
  let u := x2 * u - (348781 # 1048576) in
  let u := x2 * u + (8388417 # 8388608) in
  x * u.
(** kPi, kHalfPi as floats, utils/data/constants.h:16-18 *)
Definition kPi : Q := 13176795 # 4194304.
Definition kHalfPi : Q := 13176795 # 8388608.
(** std::copysign for a positive magnitude; [s] is the sign bit *)
Definition copysign (m : Q) (s : bool) : Q := if s then - m else m.
(** approximate::atan2, at:43-78, with the sign bits of y and x (zeros have one as well); the sign bit of a quotient is that of y
    or else that of x. y = x = 0 (NaN) is 0 here *)
Definition approx_atan2_signed (sy sx : bool) (y x : Q) : Q :=
  let swap := qltb (Qabs x) (Qabs y) in
  let a := (if swap then x else y) / (if swap then y else x) in
  let sa := xorb sy sx in
  let res := approx_atan a in
  let res := if swap then copysign kHalfPi sa - res else res in
  if qltb x 0 then copysign kPi sy + res else res.
(** ... for numbers whose zeros are positive *)
Definition approx_atan2 (y x : Q) : Q := approx_atan2_signed (qltb y 0) (qltb x 0) y x.
(** The configuration: per axis minimum and maximum angle and number of cells (CP, M_Image.v), elevation then azimuth *)
Record spherical := SP { sp_elevation : circular; sp_azimuth : circular }.
(** CircularProjectorConfig::isValid, ps/circular_projector.cc:9-23 *)
Definition circular_isValid (c : circular) : bool :=
  Qle_bool (- kPi) (cp_min c) && Qle_bool (cp_min c) kPi && Qle_bool (- kPi) (cp_max c) && Qle_bool (cp_max c) kPi &&
  qltb (cp_min c) (cp_max c) && (1 <? cp_num c)%Z.
(** The base class, ps/spherical_projector.cc:8-19 *)
Definition spherical_base (c : spherical) : projector :=
  PB (cp_inc (sp_elevation c), cp_inc (sp_azimuth c)) (cp_min (sp_elevation c), cp_min (sp_azimuth c)).
(** normalize_near, utils/math/angle_normalization.h:11-18; sensorAxisIsPeriodic for one axis, ps/spherical_projector.cc:21-34 *)
Definition normalize_near (a : Q) : Q := if qltb a (- kPi) then a + 2 * kPi else if qltb kPi a then a - 2 * kPi else a.
Definition axis_periodic (c : circular) : bool :=
  let d := normalize_near (cp_max c + cp_inc c) - cp_min c in Qle_bool 0 d && Qle_bool d (cp_inc c).
Section SPHERICAL.
Context (fsqrt : Q -> Q).
(** cartesianToImage, cartesianToSensorZ, pm/impl/spherical_projector_inl.h:57-69 *)
Definition spherical_image (p : v3) : v2 :=
  (approx_atan2 (vz p) (fsqrt (vx p * vx p + vy p * vy p)), approx_atan2 (vy p) (vx p)).
Definition spherical_sensor (p : v3) : sensor := (spherical_image p, fsqrt (v3norm2 p)).
(** One axis of cartesianToSensorAABB, ps/spherical_projector.cc:68-95 *)
Definition angle_interval (angles : list Q) : Q * Q :=
  if qltb kPi (maxl angles - minl angles)
  then (minl (filter (fun a => qltb 0 a) angles), maxl (filter (fun a => negb (qltb 0 a)) angles))
  else (minl angles, maxl angles).
(** cartesianToSensorAABB, ps/spherical_projector.cc:36-98 *)
Definition spherical_aabb (W : box) (R : m3) (t : v3) : saabb :=
  let s := map spherical_image (corners W R t) in
  let e := angle_interval (map fst s) in
  let a := angle_interval (map snd s) in
  SB (fst e, fst a) (snd e, snd a) (minDistanceTo fsqrt W t) (maxDistanceTo fsqrt W t).
End SPHERICAL.

(** *** RangeImageIntersector *)
Section INTERSECTOR.
(** The members, range_image_intersector.h:19-47: projection model, range image, y_axis_wraps_around_, the range limits and
    the paddings of the measurement model *)
Context (P : projector) (im : img Q) (y_axis_wraps : bool) (min_range max_range angle_thr range_front range_behind : Q).
(** determineUpdateType, ri:11-75. [contains]: the cell contains the sensor; [b]: cartesianToSensorAABB of the cell. The image
    has the dimensions of the projection model (checked in ProjectiveIntegrator::integrate). *)
Definition determineUpdateType (contains : bool) (b : saabb) : option update_type :=
  if contains then Some kPossiblyOccupied
  else if qltb max_range (zmin b) || qltb (zmax b) min_range then Some kFullyUnobserved
  else
    let mn := imageToFloorIndex P (fst (smin b) - angle_thr, snd (smin b) - angle_thr) in
    let mx := imageToCeilIndex P (fst (smax b) + angle_thr, snd (smax b) + angle_thr) in
    let x_wraps := (fst mx <? fst mn)%Z in
    let y_wraps := (snd mx <? snd mn)%Z in
    if x_wraps || (negb y_axis_wraps && y_wraps) then
      let x_outside := (fst mx <? 0)%Z && (im_rows im <? fst mn)%Z in
      let y_outside := (snd mx <? 0)%Z && (im_cols im <? snd mn)%Z in
      if (negb x_wraps || x_outside) && (y_axis_wraps || negb y_wraps || y_outside) then Some kFullyUnobserved
      else Some kPossiblyOccupied
    else if (fst mx <? 0)%Z || (snd mx <? 0)%Z || (im_rows im <=? fst mn)%Z || (im_cols im <=? snd mn)%Z then Some kFullyUnobserved
    else getUpdateType im min_range y_axis_wraps (scale_factor (Some P)) mn mx (zmin b - range_behind) (zmax b + range_front).
(** ProjectiveIntegrator::computeUpdate, projective/impl/projective_integrator_inl.h:5-20; [model] is the measurement model *)
Definition computeUpdate (model : v2 -> Q -> Q) (s : sensor) : Q :=
  if qltb (snd s) min_range || qltb max_range (snd s) then 0 else model (fst s) (snd s).
End INTERSECTOR.
