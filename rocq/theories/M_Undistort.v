(** Motion undistortion of point clouds:
    "sp" = /repo/library/cpp/src/core/utils/undistortion/stamped_pointcloud.cc and include/wavemap/core/utils/undistortion/*.h,
    "pu" = /repo/library/cpp/src/core/utils/undistortion/pointcloud_undistortion.cc,
    "ru" = /repo/interfaces/ros1/wavemap_ros/src/utils/pointcloud_undistorter.cc,
    "tc" = /repo/interfaces/ros1/wavemap_ros_conversions/include/wavemap_ros_conversions/time_conversions.h.
    Points [P] and poses [T] are arbitrary types with the operations used by the code; the interpolation parameter is a rational
    (in the code a float quotient of two integers). Times are integers with the wrap-around of uint64_t ([u64]; TimeAbsolute = uint64_t,
    TimeOffset = uint32_t, timestamps.h:5-6). *)
From Verif Require Import Base.
From Coq Require Import QArith.
Close Scope Q_scope.
Open Scope Z_scope.

(** tc:7-11 [nanoSecondsToRosTime] and tc:17-20 [rosTimeToNanoSeconds]: seconds and nanoseconds are uint32_t *)
Definition ros_time := (Z * Z)%type.
Definition nanoSecondsToRosTime (n : Z) : ros_time := ((n / 1000000000) mod 2 ^ 32, (n mod 1000000000) mod 2 ^ 32).
Definition rosTimeToNanoSeconds (t : ros_time) : Z := u64 (fst t * 1000000000 + snd t).

Section UNDISTORT.
Context {P T : Type}.
(** T * p, T.inverse(), interpolateComponentwise for a parameter in [0, 1], and the pose made by the default constructor *)
Context (act : T -> P -> P) (inv : T -> T) (interp : T -> T -> Q -> T) (ident : T).
(** StampedPoint, stamped_pointcloud.h:13-22 *)
Record spoint := SP { sp_pos : P; sp_off : Z }.
(** StampedPointcloud, stamped_pointcloud.h:24-67; the sensor frame is left out *)
Record scloud := SC { sc_base : Z; sc_points : list spoint; sc_sorted : bool }.
(** The function std::sort with the comparison of sp:38-41 *)
Context (srt : list spoint -> list spoint).
(** emplace, stamped_pointcloud.h:29-33 *)
Definition sc_emplace (c : scloud) (p : spoint) : scloud := SC (sc_base c) (sc_points c ++ [p]) false.
(** sort, sp:36-44 *)
Definition sc_sort (c : scloud) : scloud := if sc_sorted c then c else SC (sc_base c) (srt (sc_points c)) true.
(** getStartTime, getMedianTime, getEndTime, sp:21-34: sort first. [None]: access to an element of an empty vector *)
Definition time_at (c : scloud) (k : nat) : option Z := option_map (fun p => u64 (sc_base c + sp_off p)) (nth_error (sc_points c) k).
Definition getStartTime (c : scloud) : option Z := time_at (sc_sort c) 0.
Definition getMedianTime (c : scloud) : option Z := time_at (sc_sort c) (length (sc_points c) / 2).
Definition getEndTime (c : scloud) : option Z := time_at (sc_sort c) (length (sc_points c) - 1).

(** StampedPoseBuffer, stamped_pose_buffer.h:9-18 *)
Definition pose_buffer := list (Z * T).
(** The while loop of pu:38-41; [None]: access outside the buffer *)
Fixpoint advance (fuel : nat) (buf : pose_buffer) (left : nat) (time : Z) : option nat :=
  match nth_error buf (S left) with
  | None => None
  | Some (stamp, _) =>
    if (stamp <? time) && (Nat.ltb (left + 2) (length buf)) then
      match fuel with O => None | S f => advance f buf (S left) time end
    else Some left
  end.
(** The pose at a time, pu:42-51, including the CHECKs on the parameter in interpolateComponentwise
    (3rd_party/minkindr/impl/quat-transformation-inl.h:290-291), which fail for the quotient 0 / 0 or x / 0 *)
Definition pose_between (buf : pose_buffer) (left : nat) (time : Z) : option T :=
  match nth_error buf left, nth_error buf (S left) with
  | Some (tl, Tl), Some (tr, Tr) =>
    let num := u64 (time - tl) in let den := u64 (tr - tl) in
    if (den =? 0) || (den <? num) then None else Some (interp Tl Tr (inject_Z num / inject_Z den)%Q)
  | _, _ => None
  end.
(** The loop over the points, pu:29-61: state = previous_point_time, pose_left_idx, T_WCi; result = pose and world position of each point *)
Fixpoint undistort_loop (buf : pose_buffer) (base prev : Z) (left : nat) (cur : T) (pts : list spoint) : option (list (T * P)) :=
  match pts with
  | [] => Some []
  | p :: rest =>
    let time := u64 (base + sp_off p) in
    match (if time =? prev then Some (left, cur)
           else match advance (length buf) buf left time with
                | None => None
                | Some l => option_map (fun T => (l, T)) (pose_between buf l time)
                end) with
    | None => None
    | Some (l, T) => option_map (cons (T, act T (sp_pos p))) (undistort_loop buf base time l T rest)
    end
  end.
(** compensate_motion, pu:6-69: [None] if a CHECK fails or an element outside a vector is accessed. The result is the pose and the
    points of the PosedPointcloud. -1u is an unsigned int (pu:25). *)
Definition compensate_motion (buf : pose_buffer) (c : scloud) : option (T * list P) :=
  match getStartTime c, getEndTime c, buf with
  | Some s, Some e, (b0, _) :: _ =>
    if (b0 <=? s) && (e <=? fst (last buf (0, ident))) then
      match undistort_loop buf (sc_base c) (2 ^ 32 - 1) 0 ident (sc_points (sc_sort c)) with
      | None => None
      | Some l =>
        let med := match nth_error l (length l / 2) with Some x => fst x | None => ident end in
        Some (med, map (fun x => act (inv med) (snd x)) l)
      end
    else None
  | _, _, _ => None
  end.

(** ru:10-62. [tf] is the transform from the sensor frame to the fixed frame in the buffer of the transformer at the time of the call
    (the frames are left out); [n] is num_interpolation_intervals_per_cloud_. UAbort: a CHECK fails, a division by 0 or an access to an
    element of an empty vector. *)
Inductive uresult := UStart | UEnd | UIntermediate | USuccess (pose : T) (points : list P) | UAbort.
Fixpoint buffer_poses (tf : ros_time -> option T) (start step : Z) (k : nat) (from : Z) : option pose_buffer :=
  match k with
  | O => Some []
  | S k' =>
    let stamp := u64 (start + from * step) in
    match tf (nanoSecondsToRosTime stamp) with
    | None => None
    | Some T => option_map (cons (stamp, T)) (buffer_poses tf start step k' (from + 1))
    end
  end.
Definition undistortPointcloud (tf : ros_time -> option T) (n : Z) (c : scloud) : uresult :=
  match getStartTime c, getEndTime c with
  | Some s, Some e =>
    let pts := sc_points (sc_sort c) in
    let off p := match p with Some p => sp_off p | None => 0 end in
    let span := (off (nth_error pts (length pts - 1)) - off (nth_error pts 0)) mod 2 ^ 32 in
    if n - 1 =? 0 then UAbort else
    let step := u64 (span / ((n - 1) mod 2 ^ 32)) in
    match tf (nanoSecondsToRosTime (u64 (s - step))) with
    | None => UStart
    | Some _ =>
      match tf (nanoSecondsToRosTime (u64 (e + step))) with
      | None => UEnd
      | Some _ =>
        match buffer_poses tf s step (Z.to_nat (n + 1)) 0 with
        | None => UIntermediate
        | Some buf => match compensate_motion buf c with Some (pose, pts) => USuccess pose pts | None => UAbort end
        end
      end
    end
  | _, _ => UAbort
  end.
End UNDISTORT.
Arguments spoint : clear implicits. Arguments scloud : clear implicits. Arguments uresult : clear implicits.
