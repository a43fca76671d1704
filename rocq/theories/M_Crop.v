(** Cropping a map around the robot: /repo/interfaces/ros1/wavemap_ros/src/map_operations/crop_map_operation.cc ("op").
    Positions are exact rationals, time stamps integers; log messages are left out. *)
From Verif Require Import Base M_IntMath M_NdtreeIndex M_Num M_Ndtree M_Wavelet M_HashedBlocks M_Chunked M_Point.
From Coq Require Import QArith.
Close Scope Q_scope.
Open Scope Z_scope.

(** convert::nodeIndexToAABB, /repo/library/cpp/include/wavemap/core/indexing/index_conversions.h:142-152 *)
Definition nodeIndexToAABB (n : node_index) (min_w : Q) : aabb :=
  AABB (indexToMinCorner (position n) (heightToCellWidth min_w (height n))) (indexToMaxCorner (position n) (heightToCellWidth min_w (height n))).
(** `d < box.minDistanceTo(p)`, op:72-73, where minDistanceTo is the square root of minOffsetTo(p).squaredNorm()
    (/repo/library/cpp/include/wavemap/core/data_structure/aabb.h:73-76,82-85). For exact numbers the comparison with the root is that of the squares if d
    is not negative, and true otherwise; the rounding of the root is left out. *)
Definition beyond (d : Q) (b : aabb) (p : list Q) : bool :=
  negb (Qle_bool 0 d) || negb (Qle_bool (squaredNorm (minOffsetTo b p)) (d * d)%Q).
(** indicator_fn, op:67-74; [T]: getTreeHeight(), [w]: getMinCellWidth(), [d]: remove_blocks_beyond_distance, [p]: t_W_B *)
Definition crop_indicator (T : Z) (w d : Q) (p : list Q) (k : idx3) : bool := beyond d (nodeIndexToAABB (NodeIndex T (ilist k)) w) p.
(** eraseBlockIf(indicator_fn), op:76-84, for both hashed map types *)
Definition crop_map {B : Type} (T : Z) (w d : Q) (p : list Q) (m : shash B) : shash B :=
  eraseBlockIf (fun k b => (b, crop_indicator T w d p k)) m.
(** shouldRun, op:36-38, with the period in the unit of the time stamps *)
Definition crop_shouldRun (once_every last now : Z) : bool := once_every <? now - last.
(** run, op:40-89: [last] is last_run_timestamp_, [lookup now] the position of the body frame at the current time if the lookup succeeds. The map is empty if it has no
    blocks (op:48-50, [hw_empty], [hc_empty]). For other map types nothing happens (op:85-88). The result: last_run_timestamp_ and the map *)
Definition crop_run {B : Type} (T : Z) (w d : Q) (once_every : Z) (force : bool) (now : Z) (lookup : Z -> option (list Q)) (last : Z) (m : shash B) : Z * shash B :=
  if negb force && negb (crop_shouldRun once_every last now) then (last, m)
  else if match m with [] => true | _ => false end then (now, m)
  else match lookup now with None => (now, m) | Some p => (now, crop_map T w d p m) end.
