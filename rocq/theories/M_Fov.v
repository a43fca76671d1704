(** The nodes that a scan may touch: getFovMinMaxIndices and the loop over them in
    /repo/library/cpp/src/core/integrator/projective/coarse_to_fine/hashed_wavelet_integrator.cc ("HW") and hashed_chunked_wavelet_integrator.cc
    (the same code on the same lines). Floats are rationals and integers do not overflow. *)
From Verif Require Import Base M_IntMath M_NdtreeIndex M_Num M_Ndtree M_Grid M_Point.
From Coq Require Import QArith Qround.
Close Scope Q_scope.
Open Scope Z_scope.

(** static_cast<int>(std::ceil(std::log2(x))), HW:53-54, for x > 0: the least e with x <= 2^e. For x <= 1 the code's value is zero or
    negative and here zero; it is only used in a maximum with the tree height, which is not negative. *)
Definition ceil_log2 (x : Q) : Z := Z.log2_up (Qceiling x).
(** height, HW:53-55; [T] = tree_height_, [w] = min_cell_width_, [R] = config_.max_range *)
Definition fov_height (T : Z) (w R : Q) : Z := 1 + Z.max (ceil_log2 (R / w)) T.
(** fov_min_idx and fov_max_idx, HW:56-67; getBlockSize() is 2^tree_height on every axis
    (/repo/library/cpp/include/wavemap/core/map/hashed_wavelet_octree.h:91-93, hashed_chunked_wavelet_octree.h:97-99), [o] the sensor_origin *)
Definition fov_min_idx (T : Z) (w R : Q) (o : list Q) : node_index :=
  indexAndHeightToNodeIndex (map (fun i => i - exp2 T) (pointToFloorIndex (map (fun x => (x - R)%Q) o) (1 / w))) (fov_height T w R).
Definition fov_max_idx (T : Z) (w R : Q) (o : list Q) : node_index :=
  indexAndHeightToNodeIndex (map (fun i => i + exp2 T) (pointToCeilIndex (map (fun x => (x + R)%Q) o) (1 / w))) (fov_height T w R).
(** The nodes given to recursiveTester, HW:25-31: None if [fuel] iterations do not suffice *)
Definition fov_list (fuel : nat) (T : Z) (w R : Q) (o : list Q) : option (list oidx) :=
  option_map (map (fun p => OI (height (fov_min_idx T w R o)) (I3 (nth 0 p 0) (nth 1 p 0) (nth 2 p 0))))
    (grid_visit fuel (position (fov_min_idx T w R o)) (position (fov_max_idx T w R o))).
