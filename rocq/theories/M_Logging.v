(** * Logging levels
    Model of library/cpp/include/wavemap/core/utils/logging_level.h with src/core/utils/logging_level.cc, of
    interfaces/ros1/wavemap_ros/include/wavemap_ros/utils/ros_logging_level.h ("rh") with src/utils/ros_logging_level.cc ("rc"), and of
    library/python/src/logging.cc. The loggers are outside: glog drops a message whose severity (0 info, 1 warning, 2 error, 3 fatal) is below
    FLAGS_minloglevel; the ROS console is given one of its own levels. *)
From Verif Require Import Base M_Config M_Factory.
From Coq Require Import String.
Open Scope Z_scope.
Open Scope list_scope.

(** logging_level.h:10-12: names of LoggingLevel::Id, kInfo = 0 *)
Definition level_names : list string := ["info"; "warning"; "error"; "fatal"]%string.
(** ros::console::levels of rh:18-21 *)
Inductive severity := Debug | Info | Warn | Error | Fatal.
Definition ros_levels : list severity := [Debug; Info; Warn; Error; Fatal].
(** operator LoggingLevel, rc:6-14; kDebug = 0, kInfo = 1, kFatal = 4. The returned numbers go through the constructor from an id. *)
Definition to_level (id : Z) : Z :=
  if id =? 0 then ts_ofId level_names 0
  else if (1 <? id) && (id <=? 4) then ts_ofId level_names (id - 1)
  else ts_ofId level_names kInvalidTypeId.
(** LoggingLevel::applyToGlog, logging_level.cc:6: the new value of FLAGS_minloglevel *)
Definition applyToGlog (id : Z) : Z := id.
(** RosLoggingLevel::applyToGlog, rc:16-18 *)
Definition ros_applyToGlog (id : Z) : Z := applyToGlog (to_level id).
(** RosLoggingLevel::applyToRosConsole, rc:20-26, if the console accepts the level; None: read beyond the array *)
Definition applyToRosConsole (id : Z) : option severity := if id <? 0 then None else nth_error ros_levels (Z.to_nat id).
(** The loggers once the server has started, ros_server.cc:46-47: FLAGS_minloglevel and the console's level *)
Definition server_logging (s : server_setup) : Z * option severity :=
  let id := ct (s_general s) "logging_level" in (ros_applyToGlog id, applyToRosConsole id).
(** pywavemap.logging.set_level, logging.cc:21-28: FLAGS_minloglevel before and after *)
Definition set_level (minloglevel : Z) (level : string) : Z :=
  match ts_from_name level_names level with Some id => applyToGlog id | None => minloglevel end.
