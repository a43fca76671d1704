(** The projection models over the real numbers. Files, under /repo/library/cpp/include/wavemap/core/integrator/projection_model/:
    "pi" = impl/pinhole_camera_projector_inl.h, "ph" = pinhole_camera_projector.h, "si" = impl/spherical_projector_inl.h, "oi" = impl/ouster_projector_inl.h;
    "oc" = /repo/library/cpp/src/core/integrator/projection_model/ouster_projector.cc, "ab" = /repo/library/cpp/include/wavemap/core/data_structure/aabb.h.
    Floats are real numbers, std::sin, std::cos and square roots are exact; approximate::atan2 is a parameter [at2]. *)
From Verif Require Import M_Pose.
From Coq Require Import Reals Lra.
Open Scope R_scope.

(** SensorCoordinates, /repo/library/cpp/include/wavemap/core/common.h:57-60: image coordinates and depth *)
Record scoords := SC { image0 : R; image1 : R; depth : R }.

(** *** Pinhole camera *)
(** kEpsilon as a float, /repo/library/cpp/include/wavemap/core/utils/data/constants.h:15 *)
Definition kEps : R := 8796093 / 8796093022208.
Record rpinhole := RPH { fx : R; fy : R; cx : R; cy : R }.
(** cartesianToSensor, pi:7-13; cartesianToImage and cartesianToSensorZ are its components, ph:69-74 *)
Definition ph_sensor (c : rpinhole) (p : vec3) : scoords :=
  let w := Rmax (vz p) kEps in SC (fx c * vx p / w + cx c) (fy c * vy p / w + cy c) (vz p).
(** sensorToCartesian, pi:15-24, with the constants of ph:84-87 *)
Definition ph_cartesian (c : rpinhole) (s : scoords) : vec3 :=
  vscale (depth s * (1 / (fx c * fy c))) (V3 (fy c * image0 s - cx c * fy c) (fx c * image1 s - cy c * fx c) (fx c * fy c)).
(** imageOffsetToErrorSquaredNorm, pi:26-32 *)
Definition ph_error2 (ox oy : R) : R := ox * ox + oy * oy.

Section LIDAR.
Context (at2 : R -> R -> R).
Definition norm_xy (p : vec3) : R := sqrt (vx p * vx p + vy p * vy p).
(** *** Spherical *)
(** cartesianToSensor, si:9-14, with cartesianToImage, si:57-64, and cartesianToSensorZ, si:66-69 *)
Definition sp_sensor (p : vec3) : scoords := SC (at2 (vz p) (norm_xy p)) (at2 (vy p) (vx p)) (sqrt (vdot p p)).
(** sensorToCartesian, si:16-26 *)
Definition sp_cartesian (s : scoords) : vec3 :=
  vscale (depth s) (V3 (cos (image0 s) * cos (image1 s)) (cos (image0 s) * sin (image1 s)) (sin (image0 s))).
(** imageOffsetToErrorSquaredNorm, si:28-38; also oi:37-47 *)
Definition sp_error2 (elevation ox oy : R) : R := ox * ox + cos elevation * cos elevation * (oy * oy).

(** *** Ouster: [o] is lidar_origin_to_beam_origin, [zo] lidar_origin_to_sensor_origin_z_offset *)
Context (o zo : R).
(** cartesianToSensor, oi:7-21; cartesianToImage, oi:66-79, and cartesianToSensorZ, oi:81-87, compute the same components *)
Definition ou_range (p : vec3) : R := sqrt ((norm_xy p - o) * (norm_xy p - o) + (vz p - zo) * (vz p - zo)).
Definition ou_sensor (p : vec3) : scoords := SC (at2 (vz p - zo) (norm_xy p - o)) (at2 (vy p) (vx p)) (ou_range p).
(** sensorToCartesian, oi:23-35 *)
Definition ou_cartesian (s : scoords) : vec3 :=
  let bx := depth s * cos (image0 s) + o in let by_ := depth s * sin (image0 s) + zo in
  V3 (bx * cos (image1 s)) (bx * sin (image1 s)) by_.
End LIDAR.
(** minDistanceTo and maxDistanceTo, ab:40-56,82-89: distances to the closest and to the furthest point of a box, coordinate by coordinate *)
Record rbox := RBox { rmin : vec3; rmax : vec3 }.
Definition rclosest (lo hi p : R) : R := Rmin (Rmax p lo) hi.
Definition rfurthest (lo hi p : R) : R := if Rlt_dec ((lo + hi) / 2) p then lo else hi.
Definition box_min_dist (b : rbox) (p : vec3) : R :=
  let d := vsub p (V3 (rclosest (vx (rmin b)) (vx (rmax b)) (vx p)) (rclosest (vy (rmin b)) (vy (rmax b)) (vy p)) (rclosest (vz (rmin b)) (vz (rmax b)) (vz p))) in sqrt (vdot d d).
Definition box_max_dist (b : rbox) (p : vec3) : R :=
  let d := vsub p (V3 (rfurthest (vx (rmin b)) (vx (rmax b)) (vx p)) (rfurthest (vy (rmin b)) (vy (rmax b)) (vy p)) (rfurthest (vz (rmin b)) (vz (rmax b)) (vz p))) in sqrt (vdot d d).
(** The interval of depths in OusterProjector::cartesianToSensorAABB, oc:36-45 *)
Definition ou_depths (b : rbox) (t_W_C : vec3) : R * R := (box_min_dist b t_W_C, box_max_dist b t_W_C).
