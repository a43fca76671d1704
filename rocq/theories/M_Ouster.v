(** The sensor boxes of the Ouster projector. Files, under /repo/library/cpp/: "os" = src/core/integrator/projection_model/
    ouster_projector.cc, "oi" = include/wavemap/core/integrator/projection_model/impl/ouster_projector_inl.h. Floats are
    rationals; std::sqrt is an arbitrary function [fsqrt]. *)
From Verif Require Import Base M_Image M_RangeBounds M_Measure M_Intersector.
From Coq Require Import QArith Qround Qabs.
Close Scope Z_scope.
Open Scope Q_scope.

(** OusterProjectorConfig, ouster_projector.h:13-43: elevation, azimuth, lidar_origin_to_beam_origin and
    lidar_origin_to_sensor_origin_z_offset *)
Record ouster := OU { ou_elevation : circular; ou_azimuth : circular; ou_beam_origin : Q; ou_z_offset : Q }.
(** isValid, os:106-108: the offsets are not checked *)
Definition ouster_isValid (c : ouster) : bool := circular_isValid (ou_elevation c) && circular_isValid (ou_azimuth c).
(** The base class, os:8-19 *)
Definition ouster_base (c : ouster) : projector :=
  PB (cp_inc (ou_elevation c), cp_inc (ou_azimuth c)) (cp_min (ou_elevation c), cp_min (ou_azimuth c)).
Section OUSTER.
Context (fsqrt : Q -> Q) (c : ouster).
(** B_point, oi:12-14 *)
Definition ou_bx (p : v3) : Q := fsqrt (vx p * vx p + vy p * vy p) - ou_beam_origin c.
Definition ou_by (p : v3) : Q := vz p - ou_z_offset c.
(** cartesianToImage, oi:66-79; cartesianToSensor, oi:7-21 *)
Definition ouster_image (p : v3) : v2 := (approx_atan2 (ou_by p) (ou_bx p), approx_atan2 (vy p) (vx p)).
Definition ouster_sensor (p : v3) : sensor := (ouster_image p, fsqrt (ou_bx p * ou_bx p + ou_by p * ou_by p)).
(** cartesianToSensorAABB, os:36-98 *)
Definition ouster_aabb (W : box) (R : m3) (t : v3) : saabb :=
  let s := map ouster_image (corners W R t) in
  let e := angle_interval (map fst s) in
  let a := angle_interval (map snd s) in
  SB (fst e, fst a) (snd e, snd a) (minDistanceTo fsqrt W t) (maxDistanceTo fsqrt W t).
End OUSTER.
