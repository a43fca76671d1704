(** FixedResolutionIntegrator: /repo/library/cpp/src/core/integrator/projective/fixed_resolution/fixed_resolution_integrator.cc
    ("FR"). Floats are rationals. The map is any type [M] with an operation [add] for addToCellValue; the projection model
    ([sens], [to_cart], [prj]) and the measurement model ([model], a function of the range and beam offset images and the sensor
    coordinates) are arbitrary functions. *)
From Verif Require Import Base M_IntMath M_NdtreeIndex M_Num M_Ndtree M_Grid M_Point M_RayTrace M_Image M_RangeBounds M_Measure M_Intersector.
From Coq Require Import QArith Qround Qabs Qcanon Qcabs.
Close Scope Qc_scope.
Close Scope Z_scope.
Open Scope Q_scope.

(** The pose of a PosedObject, core/data_structure/posed_object.h:23-49: rotation matrix and position; a point in the world frame;
    the inverse transformation, whose rotation matrix is the transpose (C58, C60) *)
Record pose3 := Pose3 { po_R : m3; po_t : v3 }.
Definition transpose (R : m3) : m3 :=
  M3 (V3 (vx (col0 R)) (vx (col1 R)) (vx (col2 R))) (V3 (vy (col0 R)) (vy (col1 R)) (vy (col2 R))) (V3 (vz (col0 R)) (vz (col1 R)) (vz (col2 R))).
Definition to_world (T : pose3) (p : v3) : v3 := v3add (m3mul (po_R T) p) (po_t T).
Definition to_sensor (T : pose3) (p : v3) : v3 := m3mul (transpose (po_R T)) (v3sub p (po_t T)).
(** Default constructor and includePoint, core/data_structure/aabb.h:22-35 *)
Definition box_empty : box := Box (V3 kInitialMin kInitialMin kInitialMin) (V3 kInitialMax kInitialMax kInitialMax).
Definition box_include (b : box) (p : v3) : box :=
  Box (V3 (qmin (vx (bmin b)) (vx p)) (qmin (vy (bmin b)) (vy p)) (qmin (vz (bmin b)) (vz p)))
      (V3 (qmax (vx (bmax b)) (vx p)) (qmax (vy (bmax b)) (vy p)) (qmax (vz (bmax b)) (vz p))).
(** FR:51-56,80-85: [sin_angle] is std::sin of the padding angle, [back] the padding behind the surface *)
Definition max_lateral_component (sin_angle max_range back : Q) : Q := qmax (sin_angle * max_range) back.
Definition box_pad (b : box) (x : Q) : box := Box (v3sub (bmin b) (V3 x x x)) (v3add (bmax b) (V3 x x x)).
(** getEndPointOrMaxRange with the start point zero, include/wavemap/core/integrator/impl/integrator_base_inl.h:27-37 *)
Definition truncate (p : v3) (dist max_range : Q) : v3 :=
  if M_Image.qltb max_range dist then v3add (V3 0 0 0) (v3scale (max_range / dist) (v3sub p (V3 0 0 0))) else p.
(** isMeasurementValid, integrator_base_inl.h:5-25; None: a point with a NaN or an infinite coordinate *)
Definition point_valid (p : option v3) : bool := match p with None => false | Some p => measurement_valid (v3norm2 p) end.
(** PinholeCameraProjector::sensorToCartesian, include/wavemap/core/integrator/projection_model/impl/pinhole_camera_projector_inl.h:15-24,
    with the constants of pinhole_camera_projector.h:84-87 *)
Definition pinhole_cartesian (c : pinhole) (im : v2) (w : Q) : v3 :=
  v3scale (w * (1 / (ph_fx c * ph_fy c)))
    (V3 (ph_fy c * fst im - ph_cx c * ph_fy c) (ph_fx c * snd im - ph_cy c * ph_fx c) (ph_fx c * ph_fy c)).
(** SphericalProjector::sensorToCartesian, impl/spherical_projector_inl.h:16-26; std::sin and std::cos are parameters *)
Definition spherical_cartesian (fsin fcos : Q -> Q) (im : v2) (range : Q) : v3 :=
  v3scale range (V3 (fcos (fst im) * fcos (snd im)) (fcos (fst im) * fsin (snd im)) (fsin (fst im))).

Section FR.
Context (rnd : Q -> Z) (sens : v3 -> sensor) (to_cart : v2 -> Q -> v3) (prj : projector) (rows cols : Z).
Context (min_range max_range : Q) (sin_angle back : Q) (model : images -> v2 -> Q -> Q).

(** The body of the loop over the points, FR:17-49 *)
Definition fr_import_point (T : pose3) (st : images * box) (q : option v3) : images * box :=
  if negb (point_valid q) then st else
  match q with
  | None => st
  | Some p =>
      let '(im, b) := st in
      let '(coords, range) := sens p in
      let '(idx, offset) := imageToNearestIndexAndOffset rnd prj coords in
      if negb (within_bounds rows cols idx) then st else
      let old := fst (im idx) in
      let im' := if M_Image.qltb old min_range || M_Image.qltb range old then fun i => if i2_eqb i idx then (range, offset) else im i else im in
      (im', box_include b (to_world T (truncate p range max_range)))
  end.
(** importPointcloud, FR:7-57: the images and the padded box *)
Definition fr_importPointcloud (T : pose3) (cloud : list (option v3)) : images * box :=
  let '(im, b) := fold_left (fr_import_point T) cloud (reset_images, box_include box_empty (po_t T)) in
  (im, box_pad b (max_lateral_component sin_angle max_range back)).
(** importRangeImage, FR:59-86 and src/core/integrator/projective/projective_integrator.cc:91-99; the image has the dimensions of
    the projection model *)
Definition fr_corner (k : i2) : v3 := to_cart (indexToImage prj (fst k * rows, snd k * cols)%Z) max_range.
Definition fr_importRangeImage (T : pose3) (image : i2 -> Q) : images * box :=
  let b := fold_left (fun b k => box_include b (to_world T (fr_corner k))) [(0, 0); (1, 0); (0, 1); (1, 1)]%Z (box_include box_empty (po_t T)) in
  (fun i => (image i, (0, 0)), box_pad b (max_lateral_component sin_angle max_range back)).

(** convert::indexToCenterPoint, core/indexing/index_conversions.h:61-65 *)
Definition cell_center (w : Q) (c : idx3) : v3 :=
  V3 ((inject_Z (px c) + (1 # 2)) * w) ((inject_Z (py c) + (1 # 2)) * w) ((inject_Z (pz c) + (1 # 2)) * w).
(** FR:100-103 with computeUpdate, impl/projective_integrator_inl.h:5-20 *)
Definition fr_update (T : pose3) (w : Q) (im : images) (c : idx3) : Qc :=
  Q2Qc (computeUpdate min_range max_range (model im) (sens (to_sensor T (cell_center w c)))).
Context {M : Type} (add : M -> idx3 -> Qc -> M) (keps : Qc).
(** The corners of the grid: pointToFloorIndex and pointToCeilIndex, core/indexing/index_conversions.h:37-47 *)
Definition v3list (p : v3) : list Q := [vx p; vy p; vz p].
Definition of_list (l : list Z) : idx3 := I3 (nth 0 l 0%Z) (nth 1 l 0%Z) (nth 2 l 0%Z).
(** updateMap, FR:88-108; None if [fuel] iterations of the loop do not suffice *)
Definition fr_updateMap (fuel : nat) (T : pose3) (w : Q) (m : M) (st : images * box) : option M :=
  let w_inv := 1 / w in
  match grid_visit fuel (pointToFloorIndex (v3list (bmin (snd st))) w_inv) (pointToCeilIndex (v3list (bmax (snd st))) w_inv) with
  | None => None
  | Some l => Some (fold_left (fun m i => let u := fr_update T w (fst st) (of_list i) in
                                          if M_Num.qltb keps (Qcabs u) then add m (of_list i) u else m) l m)
  end.
(** integrate, projective_integrator.cc:25-50, for a valid pose and an image of the right dimensions *)
Definition fr_integrate_cloud (fuel : nat) (w : Q) (m : M) (T : pose3) (cloud : list (option v3)) : option M :=
  fr_updateMap fuel T w m (fr_importPointcloud T cloud).
Definition fr_integrate_image (fuel : nat) (w : Q) (m : M) (T : pose3) (image : i2 -> Q) : option M :=
  fr_updateMap fuel T w m (fr_importRangeImage T image).
End FR.
