(** The input queues of the ROS node:
    "pt" = /repo/interfaces/ros1/wavemap_ros/src/inputs/pointcloud_topic_input.cc,
    "di" = /repo/interfaces/ros1/wavemap_ros/src/inputs/depth_image_topic_input.cc,
    "tt" = /repo/interfaces/ros1/wavemap_ros/src/utils/tf_transformer.cc.
    Callbacks and the retry timer (ros_input_base.cc:34-38) are served by one thread (app/ros_server.cc: ros::spin), so a history is a
    sequence of received messages and calls of processQueue. The transforms arrive in another thread: every round of the loop in
    processQueue sees its own state of the transform buffer (which is constant during the round). *)
From Verif Require Import Base M_Undistort.
From Coq Require Import QArith Ascii String.
Close Scope string_scope.
Close Scope char_scope.
Close Scope Q_scope.
Open Scope list_scope.
Open Scope Z_scope.

(** The state of the transform buffer: target frame, source frame and time to the transform, if available *)
Definition tf_buffer (T : Type) := string -> string -> ros_time -> option T.
(** TfTransformer::sanitizeFrameId, tt:36-42 *)
Definition sanitizeFrameId (s : string) : string :=
  match s with String c r => if Ascii.eqb c "/"%char then r else s | EmptyString => s end.
(** TfTransformer::lookupTransform, tt:29-34 and 64-73 *)
Definition lookupTransform {T} (b : tf_buffer T) (to from : string) (t : ros_time) : option T := b (sanitizeFrameId to) (sanitizeFrameId from) t.
(** ros::Time + ros::Duration (roscpp): throws if the result is not in the range of ros::Time. Durations are in nanoseconds (the
    rounding of the float time_offset to nanoseconds is left out). *)
Definition add_offset (t : ros_time) (d : Z) : option ros_time :=
  let ns := fst t * 1000000000 + snd t + d in
  if (0 <=? ns) && (ns <? 2 ^ 32 * 1000000000) then Some (ns / 1000000000, ns mod 1000000000) else None.
(** The frame, e.g. pt:108-110, di:69-71 *)
Definition frame_of (configured msg : string) : string := if String.eqb configured EmptyString then msg else configured.

Section INPUT.
Context {P T : Type}.
Context (act : T -> P -> P) (inv : T -> T) (interp : T -> T -> Q -> T) (ident : T) (srt : list (spoint P) -> list (spoint P)).

(** ** Point clouds *)
(** PointcloudTopicInputConfig, pt:19-31, the members used here; times in nanoseconds. [ic_ouster]: the topic type is ouster. *)
Record iconfig := IC { ic_frame : string; ic_offset : Z; ic_undistort : bool; ic_ouster : bool; ic_n : Z; ic_wait : Z; ic_world : string }.
(** sensor_msgs::PointCloud2: a point is its position and the value of the field t (any value if the field is missing) *)
Record pc_msg := PM { pm_stamp : ros_time; pm_frame : string; pm_height : Z; pm_width : Z; pm_fields : list string; pm_points : list (P * Z) }.
(** livox_ros_driver2::CustomMsg *)
Record lv_msg := LM { lm_base : Z; lm_frame : string; lm_points : list (P * Z) }.
(** An element of pointcloud_queue_: the sensor frame and the stamped cloud *)
Definition item := (string * scloud P)%type.
(** CbError: undefined behaviour or an exception *)
Inductive cbresult := CbSkip | CbPush (i : item) | CbError.
(** std::find_if for "x", pt:91-93; the result are the fields behind it *)
Fixpoint after_x (l : list string) : option (list string) :=
  match l with [] => None | s :: r => if String.eqb s "x"%string then Some r else after_x r end.
(** pt:91-103: the names of the next two fields, read without a test for the end *)
Definition check_fields (l : list string) : option bool :=
  match after_x l with
  | None => Some false
  | Some [] => None
  | Some (y :: r) =>
    if negb (String.eqb y "y"%string) then Some false else
    match r with [] => None | z :: _ => Some (String.eqb z "z"%string) end
  end.
Definition load (base : Z) (l : list (P * Z)) : scloud P := fold_left (fun c p => sc_emplace c (SP (fst p) (snd p))) l (SC base [] false).
(** callback(PointCloud2), pt:79-152 *)
Definition callback (cfg : iconfig) (m : pc_msg) : cbresult :=
  if (pm_height m * pm_width m) mod 2 ^ 32 =? 0 then CbSkip else
  match check_fields (pm_fields m) with
  | None => CbError
  | Some false => CbSkip
  | Some true =>
    match add_offset (pm_stamp m) (ic_offset cfg) with
    | None => CbError
    | Some t =>
      let base := rosTimeToNanoSeconds t in
      let timed := ic_undistort cfg && ic_ouster cfg && existsb (String.eqb "t"%string) (pm_fields m) in
      CbPush (frame_of (ic_frame cfg) (pm_frame m), load base (map (fun p => (fst p, if timed then snd p else 0)) (pm_points m)))
    end
  end.
(** callback(CustomMsg), pt:155-180: the offset is converted to int32_t, which is undefined if it does not fit *)
Definition callback_livox (cfg : iconfig) (m : lv_msg) : cbresult :=
  match lm_points m with
  | [] => CbSkip
  | _ =>
    if (- 2 ^ 31 <=? ic_offset cfg) && (ic_offset cfg <? 2 ^ 31) then
      CbPush (frame_of (ic_frame cfg) (lm_frame m), load (u64 (lm_base m + ic_offset cfg)) (lm_points m))
    else CbError
  end.

(** processQueue, pt:183-283. What happens to an element taken out of the queue: runPipeline is called with the posed cloud, or it is
    dropped. [None]: the program aborts. The elements are sorted in place by getStartTime and getEndTime; the model keeps them
    unsorted in the queue and sorts when needed, with the same result. The wait is compared in nanoseconds (in the code in seconds,
    as float). The i-th round uses the transforms [tfs i]. Publishing and logging are left out. *)
Inductive outcome := Integrated (i : item) (pose : T) (points : list P) | Dropped (i : item).
Fixpoint processQueue (cfg : iconfig) (tfs : nat -> tf_buffer T) (k : nat) (q : list item) : option (list outcome * list item) :=
  match q with
  | [] => Some ([], [])
  | it :: rest =>
    let next o := option_map (fun r => (o :: fst r, snd r)) (processQueue cfg tfs (S k) rest) in
    let back := last q it in
    match getEndTime srt (snd back), getStartTime srt (snd it) with
    | Some e, Some s =>
      if ic_wait cfg <? u64 (e - s) then next (Dropped it)
      else if ic_undistort cfg then
        match undistortPointcloud act inv interp ident srt (lookupTransform (tfs k) (ic_world cfg) (fst it)) (ic_n cfg) (snd it) with
        | UEnd => Some ([], q)
        | UStart | UIntermediate => next (Dropped it)
        | USuccess pose pts => next (Integrated it pose pts)
        | UAbort => None
        end
      else
        match lookupTransform (tfs k) (ic_world cfg) (fst it) (nanoSecondsToRosTime (sc_base (snd it))) with
        | None => Some ([], q)
        | Some pose => next (Integrated it pose (map (@sp_pos P) (sc_points (sc_sort srt (snd it)))))
        end
    | _, _ => None
    end
  end.
(** Histories: received messages and timer calls. The state is the log of the outcomes and the queue. *)
Inductive event := EvCloud (m : pc_msg) | EvLivox (m : lv_msg) | EvProcess (tfs : nat -> tf_buffer T).
Definition push (r : cbresult) (s : list outcome * list item) : option (list outcome * list item) :=
  match r with CbSkip => Some s | CbPush i => Some (fst s, snd s ++ [i]) | CbError => None end.
Definition istep (cfg : iconfig) (s : list outcome * list item) (e : event) : option (list outcome * list item) :=
  match e with
  | EvCloud m => push (callback cfg m) s
  | EvLivox m => push (callback_livox cfg m) s
  | EvProcess tfs => option_map (fun r => (fst s ++ fst r, snd r)) (processQueue cfg tfs 0 (snd s))
  end.
Definition irun (cfg : iconfig) (evs : list event) : option (list outcome * list item) :=
  fold_left (fun s e => match s with Some s => istep cfg s e | None => None end) evs (Some ([], [])).
End INPUT.
Arguments pc_msg : clear implicits. Arguments lv_msg : clear implicits. Arguments item : clear implicits. Arguments outcome : clear implicits.
Arguments event : clear implicits. Arguments cbresult : clear implicits.

(** ** Depth images *)
Section DEPTH.
Context {I J T : Type}.
(** The conversion to a float image, di:96-107: transposed and scaled; [None] if toCvCopy returns no image *)
Context (conv : I -> option J).
(** sensor_msgs::Image *)
Record im_msg := IM { im_stamp : ros_time; im_frame : string; im_data : I }.
(** DepthImageTopicInputConfig, di:19-29, the members used here *)
Record dconfig := DC { dc_frame : string; dc_offset : Z; dc_wait : Z; dc_world : string }.
Definition ns_of (t : ros_time) : Z := fst t * 1000000000 + snd t.
(** DepthImageTopicInput::processQueue, di:65-131; the callback (depth_image_topic_input.h:86-88) pushes every message *)
Inductive doutcome := DIntegrated (m : im_msg) (pose : T) (image : J) | DDropped (m : im_msg).
Fixpoint processImages (cfg : dconfig) (tfs : nat -> tf_buffer T) (k : nat) (q : list im_msg) : option (list doutcome * list im_msg) :=
  match q with
  | [] => Some ([], [])
  | m :: rest =>
    let next o := option_map (fun r => (o :: fst r, snd r)) (processImages cfg tfs (S k) rest) in
    match add_offset (im_stamp m) (dc_offset cfg) with
    | None => None
    | Some stamp =>
      match lookupTransform (tfs k) (dc_world cfg) (frame_of (dc_frame cfg) (im_frame m)) stamp with
      | None => if ns_of (im_stamp (last q m)) - ns_of (im_stamp m) <? dc_wait cfg then Some ([], q) else next (DDropped m)
      | Some pose => match conv (im_data m) with None => Some ([], q) | Some j => next (DIntegrated m pose j) end
      end
    end
  end.
Inductive devent := DvImage (m : im_msg) | DvProcess (tfs : nat -> tf_buffer T).
Definition dstep (cfg : dconfig) (s : list doutcome * list im_msg) (e : devent) : option (list doutcome * list im_msg) :=
  match e with
  | DvImage m => Some (fst s, snd s ++ [m])
  | DvProcess tfs => option_map (fun r => (fst s ++ fst r, snd r)) (processImages cfg tfs 0 (snd s))
  end.
Definition drun (cfg : dconfig) (evs : list devent) : option (list doutcome * list im_msg) :=
  fold_left (fun s e => match s with Some s => dstep cfg s e | None => None end) evs (Some ([], [])).
End DEPTH.
Arguments im_msg : clear implicits. Arguments doutcome : clear implicits. Arguments devent : clear implicits.
