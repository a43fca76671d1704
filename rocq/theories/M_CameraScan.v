(** What the coarse-to-fine integrators compute for a node from a posed range image, for the pinhole camera and the
    ContinuousRay measurement model: the instance of the parameters of M_Integrator.v and M_CoarseToFine.v.
    "CF" = /repo/library/cpp/src/core/integrator/projective/coarse_to_fine/coarse_to_fine_integrator.cc,
    "HW" = /repo/library/cpp/src/core/integrator/projective/coarse_to_fine/hashed_wavelet_integrator.cc,
    "HC" = /repo/library/cpp/src/core/integrator/projective/coarse_to_fine/hashed_chunked_wavelet_integrator.cc,
    "HCI" = /repo/library/cpp/include/wavemap/core/integrator/projective/coarse_to_fine/impl/hashed_chunked_wavelet_integrator_inl.h.
    Floats are rationals; the logarithm [flog] and the rounding [rnd] to the nearest pixel are parameters. *)
From Verif Require Import Base M_IntMath M_NdtreeIndex M_Num M_Ndtree M_Point M_Image M_RangeBounds M_Measure M_Intersector M_FixedRes M_Integrator.
From Coq Require Import QArith Qcanon.
Close Scope Qc_scope.
Close Scope Z_scope.
Open Scope Q_scope.

(** constants<float>::kSqrt3, /repo/library/cpp/include/wavemap/core/utils/data/constants.h:22, and kUnitCubeHalfDiagonal,
    /repo/library/cpp/include/wavemap/core/integrator/projective/coarse_to_fine/coarse_to_fine_integrator.h:32-33 *)
Definition kSqrt3 : Q := 14529495 # 8388608.
Definition kUnitCubeHalfDiagonal : Q := kSqrt3 / 2.
(** An Eigen vector with three elements *)
Definition point3 (l : list Q) : v3 := match l with [x; y; z] => V3 x y z | _ => V3 0 0 0 end.

Section CAMERA.
Context (flog : Q -> Q) (rnd : Q -> Z) (cfg : mm_config) (cam : pinhole) (im : img Q) (T : pose3).
Context (min_range max_range termination_update_error w : Q).
(** convert::nodeIndexToAABB(node, min_cell_width_), CF:38-39, HW:142-143, HC:102-103;
    /repo/library/cpp/include/wavemap/core/indexing/index_conversions.h:142-152 *)
Definition node_aabb (i : oidx) : box :=
  Box (point3 (nodeIndexToMinCorner (oni i) w)) (point3 (nodeIndexToMaxCorner (oni i) w)).
(** width<0>(), CF:54; /repo/library/cpp/include/wavemap/core/data_structure/aabb.h:91-94 *)
Definition node_width (i : oidx) : Q := vx (bmax (node_aabb i)) - vx (bmin (node_aabb i)).
(** The centre of the node: of a cell CF:26-27; of a larger node CF:55-56, HC:124-126. HW:131-132 and HCI:49-53 use the first formula up to
    termination_height_;
    the two give the same point in exact arithmetic. *)
Definition node_center (i : oidx) : v3 :=
  if (oh i =? 0)%Z then point3 (nodeIndexToCenterPoint (oni i) w)
  else v3add (bmin (node_aabb i)) (V3 (node_width i / 2) (node_width i / 2) (node_width i / 2)).
(** getPoseInverse() * center and cartesianToSensor, CF:28-30,57-60; projective/impl/projective_integrator_inl.h:7-8 *)
Definition node_sensor (i : oidx) : sensor := pinhole_sensor cam (to_sensor T (node_center i)).
(** range_image_intersector_->determineUpdateType, CF:40-43, HW:144-147, HC:104-107. The ray model has no angle padding. A missing result does
    not occur (C40_total). *)
Definition node_type (i : oidx) : update_type :=
  match determineUpdateType pinhole_base im false min_range max_range 0 (range_front cfg) (range_back cfg)
          (containsPoint (node_aabb i) (po_t T)) (pinhole_aabb cam (node_aabb i) (transpose (po_R T)) (po_t T)) with
  | Some u => u
  | None => kPossiblyOccupied
  end.
(** computeUpdate at the centre, CF:30,68, HW:135,180, HC:136, HCI:63 *)
Definition node_update (i : oidx) : Q :=
  computeUpdate min_range max_range (ray_computeUpdate flog cfg rnd pinhole_base im) (node_sensor i).
(** computeWorstCaseApproximationError < termination_update_error, CF:61-67, HW:171-179, HC:131-135 *)
Definition node_accept (i : oidx) : bool :=
  qltb (ray_worst_error cfg (node_type i) (kUnitCubeHalfDiagonal * node_width i)) termination_update_error.
Definition camera_scan : oracle Qc := Oracle node_type (fun i => Q2Qc (node_update i)) node_accept.
End CAMERA.
