(** Publishing the obstacles of a map as a point cloud:
    /repo/interfaces/ros1/wavemap_ros/src/map_operations/publish_pointcloud_operation.cc ("op").
    A message is the list of its points; the header, the profiler and the conversion to PointCloud2 and to 32-bit
    points are left out. Points are exact rationals. Time stamps are integers. *)
From Verif Require Import Base M_IntMath M_Num M_Ndtree M_Grid M_Wavelet M_HashedBlocks M_Chunked M_Point M_Publish M_VolOctree.
From Coq Require Import QArith.
Close Scope Q_scope.
Open Scope Z_scope.

(** `for (index : Grid(node_min_corner, node_max_corner))`, op:81-91; the iteration is that of M_Grid.v, with at most as
    many steps as the node has cells (the model gives [None] if that does not suffice) *)
Definition pc_grid (i : oidx) : option (list idx3) :=
  option_map (map list_idx) (grid_visit (Z.to_nat (2 ^ (3 * oh i))) (ilist (minCorner i)) (ilist (maxCorner i))).
(** convert::indexToCenterPoint(index, min_cell_width), op:77-78, 87-88 *)
Definition pc_center (w : Q) (c : idx3) : list Q := indexToCenterPoint (ilist c) w.

Section CLOUD.
Context {V : Type} (N : M_Num.num V) (w : Q) (thr : V).
(** add_points_for_leaf_node, op:70-94; [w]: getMinCellWidth(), [thr]: occupancy_threshold_log_odds *)
Definition pc_leaf (iv : oidx * V) : option (list (list Q)) :=
  let '(i, v) := iv in
  if nltb N thr v then
    if oh i =? 0 then Some [pc_center w (opos i)]
    else option_map (map (pc_center w)) (pc_grid i)
  else Some [].
(** the functor applied to each of the visited leaves *)
Definition pc_leaves (l : option (list (oidx * V))) : option (list (list Q)) :=
  match l with Some l => option_map (@concat _) (map_opt pc_leaf l) | None => None end.

(** process_block_if_changed within forEachBlock, op:97-117: [only] is only_publish_changed_blocks, [last] is
    last_run_timestamp_internal_; [stamp] reads a block's time stamp and [leaves] is its forEachLeaf *)
Definition pc_blocks {B : Type} (stamp : B -> Z) (leaves : idx3 -> B -> option (list (oidx * V))) (only : bool) (last : Z) (m : shash B)
  : option (list (list Q)) :=
  option_map (@concat _)
    (map_opt (fun kb => if negb only || (last <? stamp (snd kb)) then pc_leaves (leaves (fst kb) (snd kb)) else Some []) m).
(** publishPointcloud, op:56-128, for the map types; the result is [Some None] if nothing is published because the map is
    empty. [lf], [fuel]: fuel of forEachLeaf. *)
Definition pc_hashed (lf : wblock (V := V) -> nat) (C : wconfig (V := V)) (only : bool) (last : Z) (m : hmap (V := V)) : option (option (list (list Q))) :=
  if hw_empty m then Some None
  else option_map Some (pc_blocks bstamp (fun k b => wt_forEachLeaf N (lf b) 0 (OI (cT C) k) (btree b)) only last m).
Definition pc_chunked (fuel : nat) (C : wconfig (V := V)) (only : bool) (last : Z) (m : cmap (V := V)) : option (option (list (list Q))) :=
  if hc_empty m then Some None
  else option_map Some (pc_blocks cbstamp (fun k b => cb_forEachLeaf N fuel 0 (OI (cT C) k) (cbtree b)) only last m).
Definition pc_plain (fuel : nat) (C : wconfig (V := V)) (t : wtree (V := V)) : option (option (list (list Q))) :=
  if wt_empty N t then Some None else option_map Some (pc_leaves (wo_forEachLeaf N fuel C t)).
Definition pc_vol (fuel : nat) (C : wconfig (V := V)) (t : node V) : option (option (list (list Q))) :=
  if vo_empty N t then Some None else option_map Some (pc_leaves (vo_forEachLeaf N fuel C t)).
Definition pc_dense (C : hbconfig V) (m : hbmap (V := V)) : option (option (list (list Q))) :=
  if hb_empty m then Some None else option_map Some (pc_leaves (Some (hb_forEachLeaf C m))).
End CLOUD.

(** The operation's members last_run_timestamp_ and last_run_timestamp_internal_ *)
Record pcstate := PCS { pc_last_run : Z; pc_last_internal : Z }.
(** shouldRun, op:44-46, with the period in the unit of the time stamps *)
Definition pc_shouldRun (once_every : Z) (s : pcstate) (ros_now : Z) : bool := once_every <? ros_now - pc_last_run s.
(** run, op:48-54. [ros_now]: ros::Time::now(), [now]: Time::now() at the start of the iteration (op:108); [publish last] is
    publishPointcloud for the map as it is. last_run_timestamp_internal_ is not updated if the map is empty (op:60-62). *)
Definition pc_run (once_every : Z) (force : bool) (ros_now now : Z) (publish : Z -> option (option (list (list Q)))) (s : pcstate)
  : option (pcstate * option (list (list Q))) :=
  if force || pc_shouldRun once_every s ros_now then
    match publish (pc_last_internal s) with
    | Some (Some msg) => Some (PCS ros_now now, Some msg)
    | Some None => Some (PCS ros_now (pc_last_internal s), None)
    | None => None
    end
  else Some (s, None).
