(** Model of offline processing of rosbags:
    "rp"  = /repo/interfaces/ros1/wavemap_ros/src/utils/rosbag_processor.cc,
    "inl" = /repo/interfaces/ros1/wavemap_ros/include/wavemap_ros/impl/rosbag_processor_inl.h,
    "app" = /repo/interfaces/ros1/wavemap_ros/app/rosbag_processor.cc.

    The bag view (rosbag::View, a library class) is the list of the messages of all bags in the order in which it
    iterates over them. A message is its topic, its time in nanoseconds and its contents. What happens is a list of
    events. Simplifications: opening and closing of bags, logging and profiling are left out; the overflow of
    ros::Time + ros::Duration (only for times within 0.01 s of the largest ros::Time) too. *)
From Verif Require Import Base.
From Coq Require Import String.
Close Scope string_scope.
Open Scope list_scope.
Open Scope Z_scope.

Section BAG.
Context {M : Type}.
Record bmsg := BM { bm_topic : string; bm_time : Z; bm_data : M }.
(** std::map::find and std::map::try_emplace (which does nothing if the key is already there) *)
Fixpoint sfind {A} (k : string) (m : list (string * A)) : option A :=
  match m with [] => None | (k', a) :: m' => if String.eqb k' k then Some a else sfind k m' end.
Definition try_emplace {A} (k : string) (a : A) (m : list (string * A)) : list (string * A) :=
  match sfind k m with Some _ => m | None => m ++ [(k, a)] end.

(** What the processor does: calling the callback of input number [i] with a message, republishing a message, publishing
    the simulated clock, and ros::spinOnce() at the time of a message. *)
Inductive bevent := BCall (i : nat) (m : bmsg) | BPub (topic : string) (m : bmsg) | BClock (t : Z) | BSpin (t : Z).
(** callbacks_, republishers_ and simulated_clock_pub_, rosbag_processor.h:53-55; an input is its number *)
Record bproc := BP { bp_callbacks : list (string * nat); bp_republishers : list (string * string); bp_clock : bool }.
Definition bproc_new : bproc := BP [] [] false.
(** addCallback, inl:7-30 *)
Definition addCallback (p : bproc) (topic : string) (i : nat) : bproc :=
  BP (try_emplace topic i (bp_callbacks p)) (bp_republishers p) (bp_clock p).
(** addRepublisher, inl:32-40 *)
Definition addRepublisher (p : bproc) (topic republished : string) : bproc :=
  BP (bp_callbacks p) (try_emplace topic republished (bp_republishers p)) (bp_clock p).
(** enableSimulatedClock, rosbag_processor.h:41-43 *)
Definition enableSimulatedClock (p : bproc) : bproc := BP (bp_callbacks p) (bp_republishers p) true.
(** bagsContainTopic, rp:32-39. (A connection can have no messages; the model only sees topics with messages.) *)
Definition bagsContainTopic (view : list bmsg) (topic : string) : bool := existsb (fun m => String.eqb (bm_topic m) topic) view.

(** kSideTasksDt, rp:44: 0.01 s *)
Definition kSideTasksDt : Z := 10000000.
(** Handling of one message, rp:58-88: (time of the last side tasks, events) *)
Definition handle (p : bproc) (last : Z) (m : bmsg) : Z * list bevent :=
  let call := match sfind (bm_topic m) (bp_callbacks p) with Some i => [BCall i m] | None => [] end in
  let pub := match sfind (bm_topic m) (bp_republishers p) with Some t => [BPub t m] | None => [] end in
  if (bm_time m <? last) || (last + kSideTasksDt <? bm_time m)
  then (bm_time m, call ++ pub ++ (if bp_clock p then [BClock (bm_time m)] else []) ++ [BSpin (bm_time m)])
  else (last, call ++ pub).
(** The loop of processAll, rp:52-89. [ok k]: ros::ok() before the k-th message. (The calls of spinOnce before the first
    message, rp:46-50, are left out.) *)
Fixpoint process_loop (ok : nat -> bool) (p : bproc) (k : nat) (last : Z) (view : list bmsg) : list bevent * bool :=
  match view with
  | [] => ([], true)
  | m :: view' =>
      if ok k
      then let '(last', evs) := handle p last m in
           let '(evs', r) := process_loop ok p (S k) last' view' in (evs ++ evs', r)
      else ([], false)
  end.
(** processAll, rp:41-92 *)
Definition processAll (ok : nat -> bool) (p : bproc) (view : list bmsg) : list bevent * bool := process_loop ok p 0 0 view.

(** The setup of the processor by the program, app:41-77; [inputs] are the topics of the server's inputs (all point cloud
    or depth image inputs) *)
Fixpoint add_inputs (p : bproc) (i : nat) (inputs : list string) : bproc :=
  match inputs with [] => p | t :: r => add_inputs (addCallback p t i) (S i) r end.
Definition app_setup (inputs : list string) (view : list bmsg) : bproc :=
  let p := add_inputs bproc_new 0 inputs in
  let p := addRepublisher (addRepublisher p "/tf" "/tf") "/tf_static" "/tf_static" in
  if bagsContainTopic view "/clock" then addRepublisher p "/clock" "/clock" else enableSimulatedClock p.
(** main, app:41-87, up to the end of processAll *)
Definition app_run (ok : nat -> bool) (inputs : list string) (view : list bmsg) : list bevent * bool :=
  processAll ok (app_setup inputs view) view.
End BAG.
Arguments bmsg : clear implicits. Arguments bevent : clear implicits.
