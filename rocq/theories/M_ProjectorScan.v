(** What the coarse-to-fine integrators compute for a node from a posed range image, for any projection model and for both measurement models:
    the instance of the parameters of M_Integrator.v and M_CoarseToFine.v. M_CameraScan.v is the case of a pinhole camera with the
    ContinuousRay model. "CF", "HW" and "HC" as there; files under /repo/library/cpp/include/wavemap/core/integrator/measurement_model/:
    "rh" = continuous_ray.h, "bh" = continuous_beam.h, "ri" = impl/continuous_ray_inl.h, "bi" = impl/continuous_beam_inl.h.
    Floats are rationals; square root, logarithm and the rounding to the nearest pixel are parameters. *)
From Verif Require Import Base M_IntMath M_NdtreeIndex M_Num M_Ndtree M_Point M_Image M_RangeBounds M_Measure M_Intersector M_FixedRes M_Integrator M_CameraScan.
From Coq Require Import QArith Qcanon.
Close Scope Qc_scope.
Close Scope Z_scope.
Open Scope Q_scope.

(** The measurement models that projective integrators use, measurement_model_base.h:13-20; the beam model with the error norm of the projection model
    (/repo/library/cpp/include/wavemap/core/integrator/projection_model/projector_base.h:86-102) and the beam offset image *)
Inductive mmodel := RayModel | BeamModel (error2 : v2 -> v2 -> Q) (offsets : Z -> Z -> v2).
Section SCAN.
Context (fsqrt flog : Q -> Q) (rnd : Q -> Z) (cfg : mm_config) (mm : mmodel).
(** The projection model: its base class, whether the second image axis is periodic, cartesianToSensor and cartesianToSensorAABB *)
Context (prj : projector) (wraps : bool) (sens : v3 -> sensor) (sbox : box -> m3 -> v3 -> saabb).
Context (im : img Q) (T : pose3) (min_range max_range termination_update_error w : Q).
(** getPaddingAngle, rh:54, bh:68 *)
Definition mm_padding : Q := match mm with RayModel => 0 | BeamModel _ _ => angle_threshold cfg end.
(** computeUpdate, ri:27-48, bi:33-47 *)
Definition mm_update : v2 -> Q -> Q :=
  match mm with
  | RayModel => ray_computeUpdate flog cfg rnd prj im
  | BeamModel error2 offsets => beam_computeUpdate fsqrt flog cfg error2 rnd prj im offsets
  end.
(** computeWorstCaseApproximationError, ri:7-25, bi:9-31 *)
Definition mm_worst_error (u : update_type) (distance radius : Q) : Q :=
  match mm with RayModel => ray_worst_error cfg u radius | BeamModel _ _ => beam_worst_error cfg u distance radius end.
(** getPoseInverse() * center and cartesianToSensor, CF:28-30,57-60; projective/impl/projective_integrator_inl.h:7-8 *)
Definition scan_sensor (i : oidx) : sensor := sens (to_sensor T (node_center w i)).
(** range_image_intersector_->determineUpdateType, CF:40-43, HW:144-147, HC:104-107; the paddings of the two models in front of and behind a
    measurement are the same (rh:55-60, bh:69-74). A missing result does not occur (C40_total). *)
Definition scan_type (i : oidx) : update_type :=
  match determineUpdateType prj im wraps min_range max_range mm_padding (range_front cfg) (range_back cfg)
          (containsPoint (node_aabb w i) (po_t T)) (sbox (node_aabb w i) (transpose (po_R T)) (po_t T)) with
  | Some u => u
  | None => kPossiblyOccupied
  end.
(** computeUpdate at the centre, CF:30,68, HW:135,180, HC:136 *)
Definition scan_update (i : oidx) : Q := computeUpdate min_range max_range mm_update (scan_sensor i).
(** computeWorstCaseApproximationError < termination_update_error, CF:57-67, HW:168-179, HC:127-135; the distance is the last sensor
    coordinate of the centre. Simplified: if it is 0, the beam model's quotient is 0 here and infinite in the code (not accepted); the sensor is in
    such a node, except for a node of which no point is seen by a camera. *)
Definition scan_accept (i : oidx) : bool :=
  qltb (mm_worst_error (scan_type i) (snd (scan_sensor i)) (kUnitCubeHalfDiagonal * node_width w i)) termination_update_error.
Definition projector_scan : oracle Qc := Oracle scan_type (fun i => Q2Qc (scan_update i)) scan_accept.
End SCAN.
