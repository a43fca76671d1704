(** The JSON schemas of the configuration files that the project publishes for editors, /repo/tooling/schemas/wavemap/ ("js"). Only the keywords
    used there are modelled: type, properties, additionalProperties: false, required, enum, const, exclusiveMinimum, minProperties and
    maxProperties of values with unit, and references. Titles, descriptions and examples are left out. "minimum" and "exclusiveMinimum" next to a
    reference to an object (pointcloud_input.json, depth_image_input.json) only constrain numbers, so they have no effect. *)
From Verif Require Import Base M_Config M_Factory.
From Coq Require Import String QArith.
Close Scope Q_scope.
Open Scope Z_scope.
Open Scope list_scope.

Inductive stype := SString | SBool | SInt (above : option Z) | SNum (above : option Q) | SEnum (names : list string) | SUnit (names : list string)
  | SNames | SObject (props : list (string * stype)) (required : list string).
(** Validation. Integers are the integers of the parameter tree; a number is an integer or a float. *)
Inductive accepts : stype -> pvalue -> Prop :=
| a_string s : accepts SString (PString s)
| a_bool b : accepts SBool (PBool b)
| a_int lo z : (forall l, lo = Some l -> l < z) -> accepts (SInt lo) (PInt z)
| a_num_int lo z : (forall l, lo = Some l -> (l < inject_Z z)%Q) -> accepts (SNum lo) (PInt z)
| a_num lo q : (forall l, lo = Some l -> (l < q)%Q) -> accepts (SNum lo) (PFloat q)
| a_enum names s : In s names -> accepts (SEnum names) (PString s)
| a_unit names n v : In n names -> accepts (SNum None) v -> accepts (SUnit names) (PMap [(n, v)])
| a_name s : accepts SNames (PString s)
| a_names l : (forall v, In v l -> exists s, v = PString s) -> accepts SNames (PArray l)
| a_object props required m :
    (forall n, In n required -> exists v, In (n, v) m) -> (forall n v, In (n, v) m -> exists st, In (n, st) props /\ accepts st v) ->
    accepts (SObject props required) (PMap m).

(** js value_with_unit/convertible_to_meters.json:1-33, convertible_to_radians.json:1-21, convertible_to_seconds.json:1-18 *)
Definition to_meters := SUnit ["meters"; "m"; "decimeters"; "dm"; "centimeters"; "cm"; "millimeters"; "mm"]%string.
Definition to_radians := SUnit ["radians"; "rad"; "degrees"; "deg"]%string.
Definition to_seconds := SUnit ["seconds"; "sec"; "s"]%string.
Definition const (s : string) : string * stype := ("type"%string, SEnum [s]).
(** js map/hashed_blocks.json:6-22 and the same part of the other map schemas *)
Definition map_common : list (string * stype) := [("min_cell_width", to_meters); ("min_log_odds", SNum None); ("max_log_odds", SNum None)]%string.
(** js measurement_integrators/projection_model.json:6-23 *)
Definition circular_schema := SObject [("min_angle", to_radians); ("max_angle", to_radians); ("num_cells", SInt None)]%string [].
(** js measurement_integrators/measurement_model.json:6-13 *)
Definition beam_selector := SEnum ["nearest_neighbor"; "all_neighbors"]%string.
(** js measurement_integrators/integration_method.json:23-55 *)
Definition projective_props : list (string * stype) :=
  [("type", SEnum ["fixed_resolution_integrator"; "coarse_to_fine_integrator"; "wavelet_integrator"; "hashed_wavelet_integrator";
                   "hashed_chunked_wavelet_integrator"]); ("min_range", to_meters); ("max_range", to_meters); ("max_update_resolution", to_meters);
   ("termination_update_error", SNum (Some 0%Q))]%string.
(** js inputs/pointcloud_input.json:11-81, depth_image_input.json:10-71: the common part *)
Definition input_common : list (string * stype) :=
  [("topic_name", SString); ("measurement_integrator_names", SNames); ("topic_queue_length", SInt (Some 0)); ("processing_retry_period", to_seconds);
   ("max_wait_for_pose", to_seconds); ("sensor_frame_id", SString); ("time_offset", to_seconds); ("reprojected_pointcloud_topic_name", SString);
   ("projected_range_image_topic_name", SString)]%string.
(** The properties of each component: js map/hashed_blocks.json:6-22, octree.json:6-26, wavelet_octree.json:6-26, hashed_wavelet_octree.json:6-30,
    hashed_chunked_wavelet_octree.json:6-30; measurement_integrators/projection_model.json:24-100, measurement_model.json:31-80,
    integration_method.json:6-55; map_operations/threshold_map_operation.json:6-14, prune_map_operation.json:6-14, publish_map_operation.json:6-26,
    publish_pointcloud_operation.json:6-25, crop_map_operation.json:6-25; inputs/pointcloud_input.json:11-81, depth_image_input.json:10-71 *)
Definition schema (k : cls) : list (string * stype) :=
  match k with
  | HashedBlocks => const "hashed_blocks" :: map_common
  | VolumetricOctree => const "octree" :: map_common ++ [("tree_height", SInt None)]
  | WaveletOctree => const "wavelet_octree" :: map_common ++ [("tree_height", SInt None)]
  | HashedWaveletOctree => const "hashed_wavelet_octree" :: map_common ++ [("tree_height", SInt None); ("only_prune_blocks_if_unused_for", to_seconds)]
  | HashedChunkedWaveletOctree =>
      const "hashed_chunked_wavelet_octree" :: map_common ++ [("tree_height", SInt None); ("only_prune_blocks_if_unused_for", to_seconds)]
  | SphericalProjector => [const "spherical_projector"; ("elevation", circular_schema); ("azimuth", circular_schema)]
  | OusterProjector => [const "ouster_projector"; ("elevation", circular_schema); ("azimuth", circular_schema); ("lidar_origin_to_beam_origin", to_meters);
      ("lidar_origin_to_sensor_origin_z_offset", to_meters)]
  | PinholeCameraProjector => [const "pinhole_camera_projector"; ("width", SInt None); ("height", SInt None); ("fx", SNum None); ("fy", SNum None);
      ("cx", SNum None); ("cy", SNum None)]
  | ContinuousRay => [const "continuous_ray"; ("range_sigma", to_meters); ("scaling_free", SNum None); ("scaling_occupied", SNum None);
      ("beam_selector_type", beam_selector)]
  | ContinuousBeam => [const "continuous_beam"; ("angle_sigma", to_radians); ("range_sigma", to_meters); ("scaling_free", SNum None);
      ("scaling_occupied", SNum None); ("beam_selector_type", beam_selector)]
  | RayTracingIntegrator => [const "ray_tracing_integrator"; ("min_range", to_meters); ("max_range", to_meters)]
  | FixedResolutionIntegrator | CoarseToFineIntegrator | WaveletIntegrator | HashedWaveletIntegrator | HashedChunkedWaveletIntegrator => projective_props
  | ThresholdMapOperation => [const "threshold_map"; ("once_every", to_seconds)]
  | PruneMapOperation => [const "prune_map"; ("once_every", to_seconds)]
  | PublishMapOperation => [const "publish_map"; ("once_every", to_seconds); ("max_num_blocks_per_msg", SInt (Some 0)); ("topic", SString)]
  | PublishPointcloudOperation => [const "publish_pointcloud"; ("once_every", to_seconds); ("occupancy_threshold_log_odds", SNum None); ("topic", SString)]
  | CropMapOperation => [const "crop_map"; ("once_every", to_seconds); ("body_frame", SString); ("remove_blocks_beyond_distance", to_meters)]
  | PointcloudTopicInput => const "pointcloud_topic" :: input_common ++ [("topic_type", SEnum ["PointCloud2"; "ouster"; "livox"]); ("undistort_motion", SBool);
      ("num_undistortion_interpolation_intervals_per_cloud", SInt None)]
  | DepthImageTopicInput => const "depth_image_topic" :: input_common ++ [("image_transport_hints", SString); ("depth_scale_factor", SNum None)]
  end%string.
(** js map/map_base.json:5-7, map_operations/map_operation_base.json:5-7, measurement_integrators/projection_model.json:100-102,
    measurement_model.json:84-86, integration_method.json:71-73, inputs/input_base.json:5-7, pointcloud_input.json:6-10, depth_image_input.json:6-9:
    required properties *)
Definition required (k : cls) : list string :=
  match k with
  | PointcloudTopicInput => ["type"; "topic_name"; "topic_type"; "measurement_integrator_names"]
  | DepthImageTopicInput => ["type"; "topic_name"; "measurement_integrator_names"]
  | _ => ["type"]
  end%string.
Definition component_schema (k : cls) : stype := SObject (schema k) (required k).
(** js measurement_integrators/measurement_model.json:14-30 *)
Definition constant_ray_schema : stype := SObject [const "constant_ray"; ("log_odds_occupied", SNum None); ("log_odds_free", SNum None)]%string ["type"%string].
(** js general.json:5-35 *)
Definition general_schema : stype :=
  SObject [("world_frame", SString); ("num_threads", SInt (Some 0)); ("logging_level", SEnum ["debug"; "info"; "warning"; "error"; "fatal"]);
    ("allow_reset_map_service", SBool)]%string [].
