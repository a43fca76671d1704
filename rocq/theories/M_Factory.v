(** From parameters to components: the parameter conversions of the ROS and Python interfaces, the config classes with their members,
    defaults and validity checks, the factories, and the construction of the ROS server.
    Paths: core/ is /repo/library/cpp/include/wavemap/core/ for headers and /repo/library/cpp/src/core/ for .cc files; ros/ is
    /repo/interfaces/ros1/wavemap_ros/include/wavemap_ros/ and .../wavemap_ros/src/. Floats are rationals (no NaN; decimal literals have
    their decimal value), as in M_Config.v. A component is its class and its config; what it does is modelled elsewhere. Log output,
    publishers, subscribers and timers are not modelled. *)
From Verif Require Import Base M_Config.
From Coq Require Import String QArith.
Close Scope Q_scope.
Open Scope Z_scope.
Open Scope list_scope.

(** ** Parameters from ROS *)
(** XmlRpc::XmlRpcValue; a struct is a std::map, listed in key order *)
Inductive xvalue := XBool (b : bool) | XInt (z : Z) | XDouble (q : Q) | XString (s : string) | XArray (l : list xvalue)
  | XStruct (m : list (string * xvalue)) | XInvalid | XDateTime | XBase64.
(** /repo/interfaces/ros1/wavemap_ros_conversions/src/config_conversions.cc:68-103 [toParamValue], with 39-66 inlined for structs and arrays.
    The conversion of doubles to float is exact here. *)
Fixpoint x_toParamValue (x : xvalue) : pvalue :=
  match x with
  | XBool b => PBool b
  | XInt z => PInt z
  | XDouble q => PFloat q
  | XString s => PString s
  | XArray l => PArray (map x_toParamValue l)
  | XStruct m => PMap (map (fun kv => (fst kv, x_toParamValue (snd kv))) m)
  | XInvalid | XDateTime | XBase64 => PArray []
  end.
(** config_conversions.cc:39-51 [toParamMap] *)
Definition x_toParamMap (x : xvalue) : list (string * pvalue) :=
  match x with XStruct m => map (fun kv => (fst kv, x_toParamValue (snd kv))) m | _ => [] end.
(** config_conversions.cc:53-66 [toParamArray] *)
Definition x_toParamArray (x : xvalue) : list pvalue := match x with XArray l => map x_toParamValue l | _ => [] end.
(** The parameter server: the value under a namespace (ros::NodeHandle::getParam) *)
Definition params_of := string -> option xvalue.
(** config_conversions.cc:28-37, 17-26 and 6-15: the same from a namespace *)
Definition nh_value (nh : params_of) (ns : string) : pvalue := match nh ns with Some x => x_toParamValue x | None => PMap [] end.
Definition nh_array (nh : params_of) (ns : string) : list pvalue := match nh ns with Some x => x_toParamArray x | None => [] end.
Definition nh_map (nh : params_of) (ns : string) : list (string * pvalue) := match nh ns with Some x => x_toParamMap x | None => [] end.

(** ** Parameters from Python *)
Inductive pyvalue := PyBool (b : bool) | PyInt (z : Z) | PyFloat (q : Q) | PyStr (s : string) | PyList (l : list pyvalue)
  | PyDict (m : list (pyvalue * pyvalue)) | PyOther.
(** std::map::emplace of a range of entries: the first entry of a key wins *)
Fixpoint emplace_all {A} (acc : list (string * A)) (l : list (string * A)) : list (string * A) :=
  match l with [] => acc | (k, v) :: l' => emplace_all (match mfind acc k with Some _ => acc | None => acc ++ [(k, v)] end) l' end.
(** /repo/library/python/src/param.cc:46-70 [toParamValue], with 7-44 inlined. None: static_cast<int> of a Python integer that does not
    fit raises an exception. Entries with other keys than strings are ignored (18-24). Maps are listed in the order of insertion. *)
Fixpoint py_toParamValue (v : pyvalue) : option pvalue :=
  match v with
  | PyBool b => Some (PBool b)
  | PyInt z => if (- 2 ^ 31 <=? z) && (z <? 2 ^ 31) then Some (PInt z) else None
  | PyFloat q => Some (PFloat q)
  | PyStr s => Some (PString s)
  | PyList l =>
      match (fix go (l : list pyvalue) : option (list pvalue) :=
        match l with
        | [] => Some []
        | x :: l' => match py_toParamValue x with
                     | Some p => match go l' with Some ps => Some (p :: ps) | None => None end
                     | None => None end
        end) l with Some ps => Some (PArray ps) | None => None end
  | PyDict m =>
      match (fix go (m : list (pyvalue * pyvalue)) : option (list (string * pvalue)) :=
        match m with
        | [] => Some []
        | (PyStr k, x) :: m' => match py_toParamValue x with
                                | Some p => match go m' with Some ps => Some ((k, p) :: ps) | None => None end
                                | None => None end
        | _ :: m' => go m'
        end) m with Some ps => Some (PMap (emplace_all [] ps)) | None => None end
  | PyOther => Some (PArray [])
  end.

(** ** Config classes *)
Definition member := (string * kind * cvalue)%type.
Definition mU (u : si_unit) (n : string) (q : Q) : member := (n, KUnit u, CUnit q).
Definition mF (n : string) (q : Q) : member := (n, KFloat, CFloat q).
Definition mI (n : string) (z : Z) : member := (n, KInt, CInt z).
Definition mS (n s : string) : member := (n, KString, CString s).
Definition mB (n : string) (b : bool) : member := (n, KBool, CBool b).
Definition mT (n : string) (names : list string) (id : Z) : member := (n, KType names, CType id).
Definition mL (n : string) : member := (n, KStrings, CStrings []).
Definition mC (n : string) (ms : list member) : member := (n, KConfig ms, CConfig (defaults ms)).
Definition config := list (string * cvalue).
(** Members of a config object *)
Definition cq (c : config) (n : string) : Q := match mfind c n with Some (CFloat q) | Some (CUnit q) => q | _ => 0%Q end.
Definition cz (c : config) (n : string) : Z := match mfind c n with Some (CInt z) => z | _ => 0 end.
Definition cs (c : config) (n : string) : string := match mfind c n with Some (CString s) => s | _ => ""%string end.
Definition cl (c : config) (n : string) : list string := match mfind c n with Some (CStrings l) => l | _ => [] end.
Definition ct (c : config) (n : string) : Z := match mfind c n with Some (CType i) => i | _ => -1 end.
Definition cc (c : config) (n : string) : config := match mfind c n with Some (CConfig d) => d | _ => [] end.
(** core/config/param_checks.h:9-31 [IS_PARAM_LT], [IS_PARAM_LE] on floats *)
Definition qlt (a b : Q) : bool := negb (Qle_bool b a).
Definition nonempty (s : string) : bool := negb (String.eqb s "").

Section FACTORY.
Context (kPi : Q).

(** core/map/map_base.h:25-27 [MapType::names] *)
Definition map_names : list string := ["hashed_blocks"; "octree"; "wavelet_octree"; "hashed_wavelet_octree"; "hashed_chunked_wavelet_octree"]%string.
(** core/map/map_base.cc:6-18, map_base.h:33-54 *)
Definition MapBaseConfig : list member := [mU kMeters "min_cell_width" (1 # 10); mF "min_log_odds" (-2); mF "max_log_odds" 4].
Definition MapBase_isValid (c : config) : bool := qlt 0 (cq c "min_cell_width") && qlt (cq c "min_log_odds") (cq c "max_log_odds").
(** core/map/volumetric_octree.cc:8-22, volumetric_octree.h:17-43 *)
Definition VolumetricOctreeConfig : list member :=
  [mU kMeters "min_cell_width" (1 # 10); mF "min_log_odds" (-2); mF "max_log_odds" 4; mI "tree_height" 14].
Definition VolumetricOctree_isValid (c : config) : bool :=
  qlt 0 (cq c "min_cell_width") && qlt (cq c "min_log_odds") (cq c "max_log_odds") && (0 <? cz c "tree_height").
(** core/map/wavelet_octree.cc:8-22, wavelet_octree.h:18-48 *)
Definition WaveletOctreeConfig : list member :=
  [mU kMeters "min_cell_width" (1 # 10); mF "min_log_odds" (-2); mF "max_log_odds" 4; mI "tree_height" 14].
Definition WaveletOctree_isValid (c : config) : bool :=
  qlt 0 (cq c "min_cell_width") && qlt (cq c "min_log_odds") (cq c "max_log_odds") && (0 <? cz c "tree_height").
(** core/map/hashed_wavelet_octree.cc:8-23, hashed_wavelet_octree.h:19-57 *)
Definition HashedWaveletOctreeConfig : list member :=
  [mU kMeters "min_cell_width" (1 # 10); mF "min_log_odds" (-2); mF "max_log_odds" 4; mI "tree_height" 6;
   mU kSeconds "only_prune_blocks_if_unused_for" 5].
Definition HashedWaveletOctree_isValid (c : config) : bool :=
  qlt 0 (cq c "min_cell_width") && qlt (cq c "min_log_odds") (cq c "max_log_odds") && (0 <? cz c "tree_height").
(** core/map/hashed_chunked_wavelet_octree.cc:8-24, hashed_chunked_wavelet_octree.h:20-61; the limit is
    core/map/hashed_chunked_wavelet_octree_block.h:16 *)
Definition HashedChunkedWaveletOctreeConfig : list member :=
  [mU kMeters "min_cell_width" (1 # 10); mF "min_log_odds" (-2); mF "max_log_odds" 4; mI "tree_height" 6;
   mU kSeconds "only_prune_blocks_if_unused_for" 5].
Definition HashedChunkedWaveletOctree_isValid (c : config) : bool :=
  qlt 0 (cq c "min_cell_width") && qlt (cq c "min_log_odds") (cq c "max_log_odds") && (0 <? cz c "tree_height") && (cz c "tree_height" <=? 9).

(** core/integrator/projection_model/projector_base.h:22-23 *)
Definition projector_names : list string := ["spherical_projector"; "ouster_projector"; "pinhole_camera_projector"]%string.
(** core/integrator/projection_model/circular_projector.cc:4-23, circular_projector.h:11-29 *)
Definition CircularProjectorConfig : list member := [mU kRadians "min_angle" 0; mU kRadians "max_angle" 0; mI "num_cells" 0].
Definition CircularProjector_isValid (c : config) : bool :=
  Qle_bool (- kPi) (cq c "min_angle") && Qle_bool (cq c "min_angle") kPi && Qle_bool (- kPi) (cq c "max_angle") && Qle_bool (cq c "max_angle") kPi
  && qlt (cq c "min_angle") (cq c "max_angle") && (1 <? cz c "num_cells").
(** core/integrator/projection_model/spherical_projector.cc:100-104, spherical_projector.h:15-31 *)
Definition SphericalProjectorConfig : list member := [mC "elevation" CircularProjectorConfig; mC "azimuth" CircularProjectorConfig].
Definition SphericalProjector_isValid (c : config) : bool := CircularProjector_isValid (cc c "elevation") && CircularProjector_isValid (cc c "azimuth").
(** core/integrator/projection_model/ouster_projector.cc:100-108, ouster_projector.h:15-45 *)
Definition OusterProjectorConfig : list member :=
  [mC "elevation" CircularProjectorConfig; mC "azimuth" CircularProjectorConfig; mU kMeters "lidar_origin_to_beam_origin" (2767 # 100000);
   mU kMeters "lidar_origin_to_sensor_origin_z_offset" (3618 # 100000)].
Definition OusterProjector_isValid (c : config) : bool := CircularProjector_isValid (cc c "elevation") && CircularProjector_isValid (cc c "azimuth").
(** core/integrator/projection_model/pinhole_camera_projector.cc:62-75, pinhole_camera_projector.h:13-42 *)
Definition PinholeCameraProjectorConfig : list member := [mI "width" 0; mI "height" 0; mF "fx" 0; mF "fy" 0; mF "cx" 0; mF "cy" 0].
Definition PinholeCameraProjector_isValid (c : config) : bool :=
  (0 <? cz c "width") && (0 <? cz c "height") && qlt 0 (cq c "fx") && qlt 0 (cq c "fy").

(** core/integrator/measurement_model/measurement_model_base.h:18-19 and 27 *)
Definition measurement_model_names : list string := ["constant_ray"; "continuous_ray"; "continuous_beam"]%string.
Definition beam_selector_names : list string := ["nearest_neighbor"; "all_neighbors"]%string.
(** core/integrator/measurement_model/continuous_ray.cc:4-19, continuous_ray.h:16-42 *)
Definition ContinuousRayConfig : list member :=
  [mU kMeters "range_sigma" 0; mF "scaling_free" (1 # 2); mF "scaling_occupied" (1 # 2); mT "beam_selector_type" beam_selector_names 0].
Definition ContinuousRay_isValid (c : config) : bool := qlt 0 (cq c "range_sigma") && qlt 0 (cq c "scaling_free") && qlt 0 (cq c "scaling_occupied").
(** core/integrator/measurement_model/continuous_beam.cc:4-21, continuous_beam.h:19-51 *)
Definition ContinuousBeamConfig : list member :=
  [mU kRadians "angle_sigma" 0; mU kMeters "range_sigma" 0; mF "scaling_free" (1 # 2); mF "scaling_occupied" (1 # 2);
   mT "beam_selector_type" beam_selector_names 1].
Definition ContinuousBeam_isValid (c : config) : bool :=
  qlt 0 (cq c "angle_sigma") && qlt 0 (cq c "range_sigma") && qlt 0 (cq c "scaling_free") && qlt 0 (cq c "scaling_occupied").

(** core/integrator/integrator_base.h:26-29 *)
Definition integrator_names : list string :=
  ["ray_tracing_integrator"; "fixed_resolution_integrator"; "coarse_to_fine_integrator"; "wavelet_integrator"; "hashed_wavelet_integrator";
   "hashed_chunked_wavelet_integrator"]%string.
(** core/integrator/ray_tracing/ray_tracing_integrator.cc:4-16, ray_tracing_integrator.h:15-27 *)
Definition RayTracingIntegratorConfig : list member := [mU kMeters "min_range" (1 # 2); mU kMeters "max_range" 20].
Definition RayTracingIntegrator_isValid (c : config) : bool :=
  qlt 0 (cq c "min_range") && qlt 0 (cq c "max_range") && qlt (cq c "min_range") (cq c "max_range").
(** core/integrator/projective/projective_integrator.cc:7-23, projective_integrator.h:18-45 *)
Definition ProjectiveIntegratorConfig : list member :=
  [mU kMeters "min_range" (1 # 2); mU kMeters "max_range" 20; mU kMeters "max_update_resolution" 0; mF "termination_update_error" (1 # 10)].
Definition ProjectiveIntegrator_isValid (c : config) : bool :=
  qlt 0 (cq c "min_range") && qlt 0 (cq c "max_range") && qlt (cq c "min_range") (cq c "max_range") && Qle_bool 0 (cq c "max_update_resolution")
  && qlt 0 (cq c "termination_update_error").

(** /repo/library/cpp/include/wavemap/pipeline/map_operations/map_operation_base.h:14 *)
Definition operation_names : list string := ["threshold_map"; "prune_map"]%string.
(** /repo/library/cpp/src/pipeline/map_operations/threshold_map_operation.cc:4-9, threshold_map_operation.h:15-23 *)
Definition ThresholdMapOperationConfig : list member := [mU kSeconds "once_every" 2].
Definition ThresholdMapOperation_isValid (c : config) : bool := qlt 0 (cq c "once_every").
(** /repo/library/cpp/src/pipeline/map_operations/prune_map_operation.cc:4-9, prune_map_operation.h:15-22 *)
Definition PruneMapOperationConfig : list member := [mU kSeconds "once_every" 10].
Definition PruneMapOperation_isValid (c : config) : bool := qlt 0 (cq c "once_every").
(** ros/map_operations/map_ros_operation_types.h:12-13 *)
Definition ros_operation_names : list string := ["publish_map"; "publish_pointcloud"; "crop_map"]%string.
(** ros/map_operations/publish_map_operation.cc:13-26, publish_map_operation.h:18-36 *)
Definition PublishMapOperationConfig : list member := [mU kSeconds "once_every" 2; mI "max_num_blocks_per_msg" 1000; mS "topic" "map"].
Definition PublishMapOperation_isValid (c : config) : bool :=
  qlt 0 (cq c "once_every") && (0 <? cz c "max_num_blocks_per_msg") && nonempty (cs c "topic").
(** ros/map_operations/publish_pointcloud_operation.cc:17-32, publish_pointcloud_operation.h:18-34; the threshold is never NaN here *)
Definition PublishPointcloudOperationConfig : list member :=
  [mU kSeconds "once_every" 1; mF "occupancy_threshold_log_odds" (1 # 1000); mB "only_publish_changed_blocks" true; mS "topic" "obstacle_pointcloud"].
Definition PublishPointcloudOperation_isValid (c : config) : bool := qlt 0 (cq c "once_every") && nonempty (cs c "topic").
(** ros/map_operations/crop_map_operation.cc:12-25, crop_map_operation.h:18-33; a value with unit starts as 0 (value_with_unit.h:22) *)
Definition CropMapOperationConfig : list member :=
  [mU kSeconds "once_every" 10; mS "body_frame" "body"; mU kMeters "remove_blocks_beyond_distance" 0].
Definition CropMapOperation_isValid (c : config) : bool :=
  qlt 0 (cq c "once_every") && nonempty (cs c "body_frame") && qlt 0 (cq c "remove_blocks_beyond_distance").

(** ros/inputs/ros_input_base.h:21 and pointcloud_topic_input.h:27 *)
Definition input_names : list string := ["pointcloud_topic"; "depth_image_topic"]%string.
Definition topic_type_names : list string := ["PointCloud2"; "ouster"; "livox"]%string.
(** ros/inputs/ros_input_base.cc:14-23: the base class checks its part of the config *)
Definition RosInputBase_isValid (c : config) : bool :=
  nonempty (cs c "topic_name") && (0 <? cz c "topic_queue_length") && negb (Nat.eqb (List.length (cl c "measurement_integrator_names")) 0)
  && qlt 0 (cq c "processing_retry_period").
(** ros/inputs/pointcloud_topic_input.cc:19-46, pointcloud_topic_input.h:33-89 *)
Definition PointcloudTopicInputConfig : list member :=
  [mS "topic_name" ""; mT "topic_type" topic_type_names 0; mI "topic_queue_length" 10; mL "measurement_integrator_names";
   mU kSeconds "processing_retry_period" (1 # 20); mU kSeconds "max_wait_for_pose" 1; mS "sensor_frame_id" ""; mU kSeconds "time_offset" 0;
   mB "undistort_motion" false; mI "num_undistortion_interpolation_intervals_per_cloud" 100; mS "projected_range_image_topic_name" "";
   mS "undistorted_pointcloud_topic_name" ""].
Definition PointcloudTopicInput_isValid (c : config) : bool :=
  nonempty (cs c "topic_name") && ts_isValid topic_type_names (ct c "topic_type") && (0 <? cz c "topic_queue_length")
  && negb (Nat.eqb (List.length (cl c "measurement_integrator_names")) 0) && qlt 0 (cq c "processing_retry_period")
  && Qle_bool 0 (cq c "max_wait_for_pose") && (0 <? cz c "num_undistortion_interpolation_intervals_per_cloud").
(** ros/inputs/depth_image_topic_input.cc:19-41, depth_image_topic_input.h:22-69 *)
Definition DepthImageTopicInputConfig : list member :=
  [mS "topic_name" ""; mI "topic_queue_length" 10; mL "measurement_integrator_names"; mU kSeconds "processing_retry_period" (1 # 20);
   mU kSeconds "max_wait_for_pose" 1; mS "sensor_frame_id" ""; mS "image_transport_hints" "raw"; mF "depth_scale_factor" 1;
   mU kSeconds "time_offset" 0; mS "projected_pointcloud_topic_name" ""].
Definition DepthImageTopicInput_isValid (c : config) : bool :=
  nonempty (cs c "topic_name") && (0 <? cz c "topic_queue_length") && negb (Nat.eqb (List.length (cl c "measurement_integrator_names")) 0)
  && qlt 0 (cq c "processing_retry_period") && Qle_bool 0 (cq c "max_wait_for_pose").
(** ros/utils/ros_logging_level.h:16-17; ros/ros_server.cc:17-31, ros_server.h:28-44. [threads]: std::thread::hardware_concurrency() *)
Definition logging_level_names : list string := ["debug"; "info"; "warning"; "error"; "fatal"]%string.
Definition RosServerConfig (threads : Z) : list member :=
  [mS "world_frame" "odom"; mI "num_threads" (Z.max 1 threads); mT "logging_level" logging_level_names 1; mB "allow_reset_map_service" false].
Definition RosServer_isValid (c : config) : bool :=
  nonempty (cs c "world_frame") && (0 <? cz c "num_threads") && ts_isValid logging_level_names (ct c "logging_level").

(** ** Factories *)
Inductive cls := HashedBlocks | VolumetricOctree | WaveletOctree | HashedWaveletOctree | HashedChunkedWaveletOctree
  | SphericalProjector | OusterProjector | PinholeCameraProjector | ContinuousRay | ContinuousBeam
  | RayTracingIntegrator | FixedResolutionIntegrator | CoarseToFineIntegrator | WaveletIntegrator | HashedWaveletIntegrator
  | HashedChunkedWaveletIntegrator | ThresholdMapOperation | PruneMapOperation | PublishMapOperation | PublishPointcloudOperation
  | CropMapOperation | PointcloudTopicInput | DepthImageTopicInput.
Record component := Comp { c_class : cls; c_cfg : config }.
(** What a factory or constructor does: an object, a null pointer, or the end of the program (CHECK fails or an exception is not caught) *)
Inductive made (A : Type) := Made (a : A) | Null | Aborted.
Arguments Made {A} a. Arguments Null {A}. Arguments Aborted {A}.
(** The pattern of all factories: [if (config) return make_unique<Class>(config.value()) else return nullptr], where the constructor calls
    core/config/config_base.h:56-59 [checkValid] *)
Definition construct (k : cls) (isValid : config -> bool) (o : option cvalue) : made component :=
  match o with Some (CConfig c) => if isValid c then Made (Comp k c) else Aborted | _ => Null end.

(** core/map/map_factory.cc:28-82 [MapFactory::create(map_type, params)] *)
Definition map_create_type (id : Z) (p : pvalue) : made component :=
  match id with
  | 0 => construct HashedBlocks MapBase_isValid (cfg_from kPi MapBaseConfig p)
  | 1 => construct VolumetricOctree VolumetricOctree_isValid (cfg_from kPi VolumetricOctreeConfig p)
  | 2 => construct WaveletOctree WaveletOctree_isValid (cfg_from kPi WaveletOctreeConfig p)
  | 3 => construct HashedWaveletOctree HashedWaveletOctree_isValid (cfg_from kPi HashedWaveletOctreeConfig p)
  | 4 => construct HashedChunkedWaveletOctree HashedChunkedWaveletOctree_isValid (cfg_from kPi HashedChunkedWaveletOctreeConfig p)
  | _ => Null
  end.
(** core/map/map_factory.cc:12-26 [MapFactory::create(params, default_map_type)] *)
Definition map_create (p : pvalue) (default : option Z) : made component :=
  match ts_from map_names p with
  | Some id => map_create_type id p
  | None => match default with Some id => map_create_type id p | None => Null end
  end.
(** core/integrator/projection_model/projector_factory.cc:10-63 (called without default type) *)
Definition projector_create (p : pvalue) : made component :=
  match ts_from_sub projector_names p "projection_model" with
  | Some 0 => construct SphericalProjector SphericalProjector_isValid (cfg_from_sub kPi SphericalProjectorConfig p "projection_model")
  | Some 1 => construct OusterProjector OusterProjector_isValid (cfg_from_sub kPi OusterProjectorConfig p "projection_model")
  | Some 2 => construct PinholeCameraProjector PinholeCameraProjector_isValid (cfg_from_sub kPi PinholeCameraProjectorConfig p "projection_model")
  | _ => Null
  end.
(** core/integrator/projection_model/spherical_projector.cc:8-19, ouster_projector.cc:8-19, pinhole_camera_projector.cc:6-11: the dimensions
    passed to the base class *)
Definition dimensions (pr : component) : Z * Z :=
  match c_class pr with
  | PinholeCameraProjector => (cz (c_cfg pr) "width", cz (c_cfg pr) "height")
  | _ => (cz (cc (c_cfg pr) "elevation") "num_cells", cz (cc (c_cfg pr) "azimuth") "num_cells")
  end.
(** core/integrator/measurement_model/measurement_model_factory.cc:10-67 (called without default type); id 0, constant_ray, falls through
    the switch. The check of equal image sizes (continuous_beam.h:63) always holds, integrator_factory.cc:71-76. *)
Definition model_create (p : pvalue) : made component :=
  match ts_from_sub measurement_model_names p "measurement_model" with
  | Some 1 => construct ContinuousRay ContinuousRay_isValid (cfg_from_sub kPi ContinuousRayConfig p "measurement_model")
  | Some 2 => construct ContinuousBeam ContinuousBeam_isValid (cfg_from_sub kPi ContinuousBeamConfig p "measurement_model")
  | _ => Null
  end.
(** An integrator, and its projector, measurement model and image size unless it is a ray tracing integrator *)
Record integrator := Integ { g_comp : component; g_parts : option (component * component * (Z * Z)) }.
(** Class equality, for dynamic_pointer_cast to a final class *)
Definition is_cls (a b : cls) : bool :=
  match a, b with
  | VolumetricOctree, VolumetricOctree | WaveletOctree, WaveletOctree | HashedWaveletOctree, HashedWaveletOctree
  | HashedChunkedWaveletOctree, HashedChunkedWaveletOctree => true
  | _, _ => false
  end.
(** core/integrator/integrator_factory.cc:38-161 [create(integrator_type, ...)] *)
Definition integrator_create_type (id : Z) (p : pvalue) (occupancy_map : component) : made integrator :=
  if id =? 0 then
    match construct RayTracingIntegrator RayTracingIntegrator_isValid (cfg_from_sub kPi RayTracingIntegratorConfig p "integration_method") with
    | Made c => Made (Integ c None) | Null => Null | Aborted => Aborted
    end
  else
  match cfg_from_sub kPi ProjectiveIntegratorConfig p "integration_method" with
  | None => Null
  | Some cfg =>
    match projector_create p with
    | Aborted => Aborted | Null => Null
    | Made pr =>
      match model_create p with
      | Aborted => Aborted | Null => Null
      | Made mo =>
        let assemble k :=
          match construct k ProjectiveIntegrator_isValid (Some cfg) with
          | Made c => Made (Integ c (Some (pr, mo, dimensions pr))) | Null => Null | Aborted => Aborted
          end in
        match id with
        | 1 => assemble FixedResolutionIntegrator
        | 2 => if is_cls (c_class occupancy_map) VolumetricOctree then assemble CoarseToFineIntegrator else Null
        | 3 => if is_cls (c_class occupancy_map) WaveletOctree then assemble WaveletIntegrator else Null
        | 4 => if is_cls (c_class occupancy_map) HashedWaveletOctree then assemble HashedWaveletIntegrator else Null
        | 5 => if is_cls (c_class occupancy_map) HashedChunkedWaveletOctree then assemble HashedChunkedWaveletIntegrator else Null
        | _ => Null
        end
      end
    end
  end.
(** core/integrator/integrator_factory.cc:17-36 [create(params, ...)], called without default type *)
Definition integrator_create (p : pvalue) (occupancy_map : component) : made integrator :=
  match ts_from_sub integrator_names p "integration_method" with
  | Some id => integrator_create_type id p occupancy_map
  | None => Null
  end.
(** /repo/library/cpp/src/pipeline/map_operations/map_operation_factory.cc:20-52 *)
Definition operation_create_type (id : Z) (p : pvalue) : made component :=
  match id with
  | 0 => construct ThresholdMapOperation ThresholdMapOperation_isValid (cfg_from kPi ThresholdMapOperationConfig p)
  | 1 => construct PruneMapOperation PruneMapOperation_isValid (cfg_from kPi PruneMapOperationConfig p)
  | _ => Null
  end.
(** ros/map_operations/map_ros_operation_factory.cc:27-72 *)
Definition ros_operation_create_type (id : Z) (p : pvalue) : made component :=
  match id with
  | 0 => construct PublishMapOperation PublishMapOperation_isValid (cfg_from kPi PublishMapOperationConfig p)
  | 1 => construct PublishPointcloudOperation PublishPointcloudOperation_isValid (cfg_from kPi PublishPointcloudOperationConfig p)
  | 2 => construct CropMapOperation CropMapOperation_isValid (cfg_from kPi CropMapOperationConfig p)
  | _ => Null
  end.
(** ros/ros_server.cc:120-155 [RosServer::addOperation]: what is passed to the pipeline *)
Definition server_operation (p : pvalue) : made component :=
  match getTypeStr p with
  | None => Null
  | Some name =>
    if ts_isValid ros_operation_names (ts_toTypeId ros_operation_names name) then ros_operation_create_type (ts_toTypeId ros_operation_names name) p
    else if ts_isValid operation_names (ts_toTypeId operation_names name) then operation_create_type (ts_toTypeId operation_names name) p
    else Null
  end.
(** ros/inputs/ros_input_factory.cc:11-62; the constructors check the base part first, ros_input_base.cc:30 *)
Definition input_create (p : pvalue) : made component :=
  match ts_from input_names p with
  | Some 0 => construct PointcloudTopicInput (fun c => RosInputBase_isValid c && PointcloudTopicInput_isValid c) (cfg_from kPi PointcloudTopicInputConfig p)
  | Some 1 => construct DepthImageTopicInput (fun c => RosInputBase_isValid c && DepthImageTopicInput_isValid c) (cfg_from kPi DepthImageTopicInputConfig p)
  | _ => Null
  end.

(** ** The ROS server *)
(** A loop that creates objects and keeps those that are not null. None: the program ended. *)
Fixpoint create_all {P A} (create : P -> made A) (l : list P) : option (list A) :=
  match l with
  | [] => Some []
  | p :: l' => match create p with
               | Aborted => None
               | Null => create_all create l'
               | Made a => match create_all create l' with Some r => Some (a :: r) | None => None end
               end
  end.
(** The integrators are added to the pipeline under their names, /repo/library/cpp/src/pipeline/pipeline.cc:30-54; the names are the keys of a
    map, so that try_emplace always succeeds. *)
Definition named_integrator (m : component) (np : string * pvalue) : made (string * integrator) :=
  match integrator_create (snd np) m with Made g => Made (fst np, g) | Null => Null | Aborted => Aborted end.
Record server_setup := Setup { s_general : config; s_map : component; s_operations : list component; s_integrators : list (string * integrator);
  s_inputs : list component }.
(** ros/ros_server.cc:35-90: both constructors; [.value()] of an empty optional throws, CHECK_NOTNULL(occupancy_map_) aborts *)
Definition server_start (threads : Z) (nh : params_of) : made server_setup :=
  match cfg_from kPi (RosServerConfig threads) (nh_value nh "general") with
  | Some (CConfig g) =>
    if RosServer_isValid g then
      match map_create (nh_value nh "map") (Some 0) with
      | Made m =>
        match create_all server_operation (nh_array nh "map_operations") with
        | None => Aborted
        | Some ops =>
          match create_all (named_integrator m) (nh_map nh "measurement_integrators") with
          | None => Aborted
          | Some ints =>
            match create_all input_create (nh_array nh "inputs") with
            | None => Aborted
            | Some ins => Made (Setup g m ops ints ins)
            end
          end
        end
      | _ => Aborted
      end
    else Aborted
  | _ => Aborted
  end.
End FACTORY.
Arguments Made {A} a. Arguments Null {A}. Arguments Aborted {A}.
