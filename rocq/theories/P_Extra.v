(** Small theorems that complete C45, C48, C70 and C77 (found missing by seeded faults). *)
From Verif Require Import Base M_Config P_Config M_Factory P_Factory.
From Verif Require Import M_Num M_Ndtree M_HashedBlocks M_Publish M_Stream M_FileIO.
From Verif Require Import M_Image M_RangeBounds M_Measure F_Measure P_Measure.
From Coq Require Import String QArith Qcanon Lqa.
Close Scope Qc_scope.
Close Scope Q_scope.
Open Scope Z_scope.
Open Scope list_scope.

(** ** C45: the configurations a measurement model accepts are those with positive parameters *)
Theorem C45_accepted : forall c : mm_config,
  (ray_isValid c = true <-> (0 < range_sigma c)%Q /\ (0 < scaling_free c)%Q /\ (0 < scaling_occupied c)%Q) /\
  (beam_isValid c = true <-> (0 < angle_sigma c)%Q /\ (0 < range_sigma c)%Q /\ (0 < scaling_free c)%Q /\ (0 < scaling_occupied c)%Q) /\
  (proper_config c -> beam_isValid c = true).
Proof.
  intros c.
  assert (L : forall x, M_Image.qltb 0 x = true <-> (0 < x)%Q).
  { intros x. unfold M_Image.qltb. destruct (Qle_bool x 0) eqn:E; cbn [negb].
    - apply Qle_bool_iff in E. split; [discriminate|]. intros H. lra.
    - split; [|reflexivity]. intros _. apply Qnot_le_lt. intros H. apply Qle_bool_iff in H. congruence. }
  assert (R : ray_isValid c = true <-> (0 < range_sigma c)%Q /\ (0 < scaling_free c)%Q /\ (0 < scaling_occupied c)%Q).
  { unfold ray_isValid. rewrite !andb_true_iff, !L. tauto. }
  assert (B : beam_isValid c = true <-> (0 < angle_sigma c)%Q /\ (0 < range_sigma c)%Q /\ (0 < scaling_free c)%Q /\ (0 < scaling_occupied c)%Q).
  { unfold beam_isValid. rewrite andb_true_iff, L, R. tauto. }
  split; [exact R|]. split; [exact B|]. intros (A & A' & A'' & A'''). apply B. lra.
Qed.
Print Assumptions C45_accepted.

(** ** C48: an empty dense map publishes nothing, any other one publishes one message *)
Theorem C48_dense_messages : forall w C (m : hbmap (V := Qc)),
  (m = [] -> hb_publish w C m = ([], [])) /\ (m <> [] -> exists msg, snd (hb_publish w C m) = [msg]) /\ (hb_empty m = true <-> m = []).
Proof.
  intros w C m. unfold hb_publish. destruct m as [|b m]; cbn [hb_empty]; split; try (intros H; congruence); try reflexivity; split.
  - intros H. contradiction.
  - tauto.
  - intros _. eexists. reflexivity.
  - split; discriminate.
Qed.
Print Assumptions C48_dense_messages.

(** ** C70: without a file name, or if the file cannot be opened, saving and loading return false and change nothing *)
Theorem C70_not_opened : forall V (N : M_Num.num V) enc dec fuel a now p e r d,
  (p = 0 \/ e_open e = false -> fstep N enc dec fuel (FSave a p e) d = Some (ASaved false, d)) /\
  (p = 0 \/ r_open r = false \/ d p = None -> fstep N enc dec fuel (FLoad now p r) d = Some (ANotLoaded, d)).
Proof.
  intros V N enc dec fuel a now p e r d. split; cbn [fstep].
  - unfold mapToFile. intros H. destruct (Z.eqb_spec p 0); [reflexivity|]. destruct H as [H| ->]; [contradiction|reflexivity].
  - unfold fileToMap. intros H. destruct (Z.eqb_spec p 0); [reflexivity|]. destruct H as [H|[-> |H]]; [contradiction|reflexivity|].
    destruct (r_open r); [|reflexivity]. cbn [negb]. rewrite H. reflexivity.
Qed.
Print Assumptions C70_not_opened.

(** ** C77: default values *)
(** The numbers that a class uses for the settings its configuration does not mention *)
Definition default_numbers (k : cls) : list (string * Q) :=
  match k with
  | HashedBlocks => [("min_cell_width"%string, (1 # 10)%Q); ("min_log_odds"%string, (- (2))%Q); ("max_log_odds"%string, (4)%Q)]
  | VolumetricOctree | WaveletOctree => [("min_cell_width"%string, (1 # 10)%Q); ("min_log_odds"%string, (- (2))%Q); ("max_log_odds"%string, (4)%Q)]
  | HashedWaveletOctree | HashedChunkedWaveletOctree =>
      [("min_cell_width"%string, (1 # 10)%Q); ("min_log_odds"%string, (- (2))%Q); ("max_log_odds"%string, (4)%Q); ("only_prune_blocks_if_unused_for"%string, (5)%Q)]
  | OusterProjector => [("lidar_origin_to_beam_origin"%string, (2767 # 100000)%Q); ("lidar_origin_to_sensor_origin_z_offset"%string, (3618 # 100000)%Q)]
  | ContinuousRay | ContinuousBeam => [("scaling_free"%string, (1 # 2)%Q); ("scaling_occupied"%string, (1 # 2)%Q)]
  | RayTracingIntegrator => [("min_range"%string, (1 # 2)%Q); ("max_range"%string, (20)%Q)]
  | FixedResolutionIntegrator | CoarseToFineIntegrator | WaveletIntegrator | HashedWaveletIntegrator | HashedChunkedWaveletIntegrator =>
      [("min_range"%string, (1 # 2)%Q); ("max_range"%string, (20)%Q); ("max_update_resolution"%string, (0)%Q); ("termination_update_error"%string, (1 # 10)%Q)]
  | ThresholdMapOperation | PublishMapOperation => [("once_every"%string, (2)%Q)]
  | PruneMapOperation | CropMapOperation => [("once_every"%string, (10)%Q)]
  | PublishPointcloudOperation => [("once_every"%string, (1)%Q); ("occupancy_threshold_log_odds"%string, (1 # 1000)%Q)]
  | PointcloudTopicInput => [("processing_retry_period"%string, (1 # 20)%Q); ("max_wait_for_pose"%string, (1)%Q); ("time_offset"%string, (0)%Q)]
  | DepthImageTopicInput => [("processing_retry_period"%string, (1 # 20)%Q); ("max_wait_for_pose"%string, (1)%Q); ("time_offset"%string, (0)%Q); ("depth_scale_factor"%string, (1)%Q)]
  | SphericalProjector | PinholeCameraProjector => []
  end.
Definition default_integers (k : cls) : list (string * Z) :=
  match k with
  | VolumetricOctree | WaveletOctree => [("tree_height"%string, 14)]
  | HashedWaveletOctree | HashedChunkedWaveletOctree => [("tree_height"%string, 6)]
  | PublishMapOperation => [("max_num_blocks_per_msg"%string, 1000)]
  | PointcloudTopicInput => [("topic_queue_length"%string, 10); ("num_undistortion_interpolation_intervals_per_cloud"%string, 100)]
  | DepthImageTopicInput => [("topic_queue_length"%string, 10)]
  | _ => []
  end.
(** Classes whose configuration may be empty *)
Definition usable_by_default (k : cls) : bool :=
  match k with
  | HashedBlocks | VolumetricOctree | WaveletOctree | HashedWaveletOctree | HashedChunkedWaveletOctree | RayTracingIntegrator | FixedResolutionIntegrator
  | CoarseToFineIntegrator | WaveletIntegrator | HashedWaveletIntegrator | HashedChunkedWaveletIntegrator | ThresholdMapOperation | PruneMapOperation
  | PublishMapOperation | PublishPointcloudOperation => true
  | _ => false
  end.

Definition unmentioned (params : list (string * pvalue)) (n : string) : Prop := forall v, ~ In (n, v) params.
Theorem C77_defaults : forall pi k params c, NoDup (map fst params) -> cfg_from pi (members_of k) (PMap params) = Some (CConfig c) ->
  (forall n q, In (n, q) (default_numbers k) -> unmentioned params n -> number c n q) /\
  (forall n z, In (n, z) (default_integers k) -> unmentioned params n -> mfind c n = Some (CInt z)).
Proof.
  intros pi k params c NP E. destruct (cfg_loaded pi (members_of k) params (members_nodup k) (members_no_type k) NP) as (c' & E' & _ & L). rewrite E in E'. injection E' as <-.
  assert (D : forall n kd d, In (n, kd, d) (members_of k) -> unmentioned params n -> mfind c n = Some d).
  { intros n kd d Hin U. apply (L n kd d Hin). intros v x Hv _. exact (U v Hv). }
  split; intros n q H U; destruct k; cbn in H; decompose [or] H; try contradiction;
  match goal with X : (_, _) = (n, q) |- _ => injection X as <- <- end; unfold number; 
    first [left; apply D with (kd := KUnit kMeters); [cbn; tauto|exact U] | left; apply D with (kd := KUnit kSeconds); [cbn; tauto|exact U]
          | right; apply D with (kd := KFloat); [cbn; tauto|exact U] | apply D with (kd := KInt); [cbn; tauto|exact U]].
Qed.
Theorem C77_empty_configuration : forall pi k, exists r, construct k (valid_of pi k) (cfg_from pi (members_of k) (PMap [])) = r /\
  (if usable_by_default k then exists c, r = Made (Comp k c) else r = Aborted).
Proof.
  intros pi k. eexists. split; [reflexivity|]. destruct k; cbn [usable_by_default]; try (eexists; vm_compute; reflexivity); try (vm_compute; reflexivity);
    unfold valid_of, construct;
    match goal with |- context [cfg_from ?a ?b ?c] => let v := eval vm_compute in (cfg_from a b c) in change (cfg_from a b c) with v end; cbv iota beta;
    unfold SphericalProjector_isValid, OusterProjector_isValid;
    match goal with |- context [CircularProjector_isValid ?a ?b] => replace (CircularProjector_isValid a b) with false
      by (symmetry; unfold CircularProjector_isValid; match goal with |- context [qlt ?x ?y] => change (qlt x y) with false end; rewrite ?andb_false_r; reflexivity) end; reflexivity.
Qed.
Print Assumptions C77_defaults.
Print Assumptions C77_empty_configuration.
(** A configuration that mentions one setting keeps the defaults of the others. *)
Example C77_defaults_ex : exists c, cfg_from 3%Q (members_of HashedWaveletOctree) (PMap [("max_log_odds"%string, PFloat 7%Q)]) = Some (CConfig c) /\
  cq c "max_log_odds" = 7%Q /\ cq c "min_log_odds" = (- (2))%Q /\ cz c "tree_height" = 6.
Proof. eexists. split; [vm_compute; reflexivity|]. repeat split; reflexivity. Qed.
