(** * C77: a configuration builds the components it describes *)
From Verif Require Import Base M_Config P_Config M_Factory.
From Coq Require Import String QArith Lqa.
Close Scope Q_scope.
Open Scope Z_scope.
Open Scope list_scope.

(** ** Specification *)
(** The documented type names and the classes they stand for *)
Definition maps : list (string * cls) :=
  [("hashed_blocks", HashedBlocks); ("octree", VolumetricOctree); ("wavelet_octree", WaveletOctree); ("hashed_wavelet_octree", HashedWaveletOctree);
   ("hashed_chunked_wavelet_octree", HashedChunkedWaveletOctree)]%string.
Definition projectors : list (string * cls) :=
  [("spherical_projector", SphericalProjector); ("ouster_projector", OusterProjector); ("pinhole_camera_projector", PinholeCameraProjector)]%string.
Definition models : list (string * cls) := [("continuous_ray", ContinuousRay); ("continuous_beam", ContinuousBeam)]%string.
Definition integrators : list (string * cls) :=
  [("ray_tracing_integrator", RayTracingIntegrator); ("fixed_resolution_integrator", FixedResolutionIntegrator);
   ("coarse_to_fine_integrator", CoarseToFineIntegrator); ("wavelet_integrator", WaveletIntegrator);
   ("hashed_wavelet_integrator", HashedWaveletIntegrator); ("hashed_chunked_wavelet_integrator", HashedChunkedWaveletIntegrator)]%string.
Definition operations : list (string * cls) :=
  [("threshold_map", ThresholdMapOperation); ("prune_map", PruneMapOperation); ("publish_map", PublishMapOperation);
   ("publish_pointcloud", PublishPointcloudOperation); ("crop_map", CropMapOperation)]%string.
Definition inputs : list (string * cls) := [("pointcloud_topic", PointcloudTopicInput); ("depth_image_topic", DepthImageTopicInput)]%string.
(** The config of each class *)
Definition members_of (k : cls) : list member :=
  match k with
  | HashedBlocks => MapBaseConfig | VolumetricOctree => VolumetricOctreeConfig | WaveletOctree => WaveletOctreeConfig
  | HashedWaveletOctree => HashedWaveletOctreeConfig | HashedChunkedWaveletOctree => HashedChunkedWaveletOctreeConfig
  | SphericalProjector => SphericalProjectorConfig | OusterProjector => OusterProjectorConfig | PinholeCameraProjector => PinholeCameraProjectorConfig
  | ContinuousRay => ContinuousRayConfig | ContinuousBeam => ContinuousBeamConfig
  | RayTracingIntegrator => RayTracingIntegratorConfig
  | FixedResolutionIntegrator | CoarseToFineIntegrator | WaveletIntegrator | HashedWaveletIntegrator | HashedChunkedWaveletIntegrator =>
      ProjectiveIntegratorConfig
  | ThresholdMapOperation => ThresholdMapOperationConfig | PruneMapOperation => PruneMapOperationConfig
  | PublishMapOperation => PublishMapOperationConfig | PublishPointcloudOperation => PublishPointcloudOperationConfig
  | CropMapOperation => CropMapOperationConfig | PointcloudTopicInput => PointcloudTopicInputConfig | DepthImageTopicInput => DepthImageTopicInputConfig
  end.
(** Usable values *)
Definition number (c : config) (n : string) (q : Q) : Prop := mfind c n = Some (CUnit q) \/ mfind c n = Some (CFloat q).
Definition positive (c : config) (n : string) : Prop := exists q, number c n q /\ (0 < q)%Q.
Definition nonnegative (c : config) (n : string) : Prop := exists q, number c n q /\ (0 <= q)%Q.
Definition less (c : config) (n n' : string) : Prop := exists q q', number c n q /\ number c n' q' /\ (q < q')%Q.
Definition at_least (c : config) (n : string) (z : Z) : Prop := exists v, mfind c n = Some (CInt v) /\ z <= v.
Definition text (c : config) (n : string) : Prop := exists s, mfind c n = Some (CString s) /\ s <> ""%string.
Definition circular (pi : Q) (c : config) (n : string) : Prop :=
  exists d a b, mfind c n = Some (CConfig d) /\ mfind d "min_angle" = Some (CUnit a) /\ mfind d "max_angle" = Some (CUnit b) /\
    (- pi <= a)%Q /\ (a < b)%Q /\ (b <= pi)%Q /\ at_least d "num_cells" 2.
Definition some_names (c : config) (n : string) : Prop := exists l, mfind c n = Some (CStrings l) /\ l <> [].
Definition sound (pi : Q) (k : cls) (c : config) : Prop :=
  match k with
  | HashedBlocks => positive c "min_cell_width" /\ less c "min_log_odds" "max_log_odds"
  | VolumetricOctree | WaveletOctree | HashedWaveletOctree =>
      positive c "min_cell_width" /\ less c "min_log_odds" "max_log_odds" /\ at_least c "tree_height" 1
  | HashedChunkedWaveletOctree =>
      positive c "min_cell_width" /\ less c "min_log_odds" "max_log_odds" /\ exists T, mfind c "tree_height" = Some (CInt T) /\ 1 <= T <= 9
  | SphericalProjector | OusterProjector => circular pi c "elevation" /\ circular pi c "azimuth"
  | PinholeCameraProjector => at_least c "width" 1 /\ at_least c "height" 1 /\ positive c "fx" /\ positive c "fy"
  | ContinuousRay => positive c "range_sigma" /\ positive c "scaling_free" /\ positive c "scaling_occupied"
  | ContinuousBeam => positive c "angle_sigma" /\ positive c "range_sigma" /\ positive c "scaling_free" /\ positive c "scaling_occupied"
  | RayTracingIntegrator => positive c "min_range" /\ less c "min_range" "max_range"
  | FixedResolutionIntegrator | CoarseToFineIntegrator | WaveletIntegrator | HashedWaveletIntegrator | HashedChunkedWaveletIntegrator =>
      positive c "min_range" /\ less c "min_range" "max_range" /\ nonnegative c "max_update_resolution" /\ positive c "termination_update_error"
  | ThresholdMapOperation | PruneMapOperation => positive c "once_every"
  | PublishMapOperation => positive c "once_every" /\ at_least c "max_num_blocks_per_msg" 1 /\ text c "topic"
  | PublishPointcloudOperation => positive c "once_every" /\ text c "topic"
  | CropMapOperation => positive c "once_every" /\ text c "body_frame" /\ positive c "remove_blocks_beyond_distance"
  | PointcloudTopicInput =>
      text c "topic_name" /\ at_least c "topic_queue_length" 1 /\ some_names c "measurement_integrator_names" /\ positive c "processing_retry_period" /\
      nonnegative c "max_wait_for_pose" /\ at_least c "num_undistortion_interpolation_intervals_per_cloud" 1
  | DepthImageTopicInput =>
      text c "topic_name" /\ at_least c "topic_queue_length" 1 /\ some_names c "measurement_integrator_names" /\ positive c "processing_retry_period" /\
      nonnegative c "max_wait_for_pose"
  end%string.
(** The config that parameters describe: every member has the value given for it, if it is of the right type, or else its default. *)
Definition loaded (pi : Q) (ms : list member) (params : list (string * pvalue)) (c : config) : Prop :=
  map fst c = map mname ms /\
  forall n k d, In (n, k, d) ms ->
    (forall v x, In (n, v) params -> reads pi k v x -> mfind c n = Some x) /\
    ((forall v x, In (n, v) params -> ~ reads pi k v x) -> mfind c n = Some d).
(** The parameters name a type. *)
Definition type_entry (params : list (string * pvalue)) (name : string) : Prop := In ("type"%string, PString name) params.
(** The parameters describe a usable component of a family, or one with unusable values. *)
Definition describes (pi : Q) (fam : list (string * cls)) (params : list (string * pvalue)) (a : component) : Prop :=
  exists name, type_entry params name /\ In (name, c_class a) fam /\ loaded pi (members_of (c_class a)) params (c_cfg a) /\ sound pi (c_class a) (c_cfg a).
Definition outcome (pi : Q) (k : cls) (params : list (string * pvalue)) (r : made component) : Prop :=
  exists c, loaded pi (members_of k) params c /\ ((sound pi k c /\ r = Made (Comp k c)) \/ (~ sound pi k c /\ r = Aborted)).
(** Keys are distinct in all maps of a parameter. *)
Inductive pwf : pvalue -> Prop :=
| pwf_bool b : pwf (PBool b) | pwf_int z : pwf (PInt z) | pwf_float q : pwf (PFloat q) | pwf_string s : pwf (PString s)
| pwf_array l : (forall v, In v l -> pwf v) -> pwf (PArray l)
| pwf_map m : NoDup (map fst m) -> (forall n v, In (n, v) m -> pwf v) -> pwf (PMap m).
(** Objects for some entries of a list, in order; the other entries describe none. *)
Inductive builds {P A} (describes : P -> A -> Prop) : list P -> list A -> Prop :=
| b_nil : builds describes [] []
| b_make p a l r : describes p a -> builds describes l r -> builds describes (p :: l) (a :: r)
| b_skip p l r : (forall a, ~ describes p a) -> builds describes l r -> builds describes (p :: l) r.
(** The map class an integrator works on (None: any) *)
Definition needs (k : cls) : option cls :=
  match k with
  | CoarseToFineIntegrator => Some VolumetricOctree | WaveletIntegrator => Some WaveletOctree
  | HashedWaveletIntegrator => Some HashedWaveletOctree | HashedChunkedWaveletIntegrator => Some HashedChunkedWaveletOctree
  | _ => None
  end.
(** The rows and columns of the sensor image *)
Definition image_size (pr : component) (w h : Z) : Prop :=
  match c_class pr with
  | PinholeCameraProjector => mfind (c_cfg pr) "width" = Some (CInt w) /\ mfind (c_cfg pr) "height" = Some (CInt h)
  | _ => exists e a, mfind (c_cfg pr) "elevation" = Some (CConfig e) /\ mfind e "num_cells" = Some (CInt w) /\
                     mfind (c_cfg pr) "azimuth" = Some (CConfig a) /\ mfind a "num_cells" = Some (CInt h)
  end.
(** The parameters describe an integrator that works on map m. *)
Definition describes_sub (pi : Q) (fam : list (string * cls)) (p : pvalue) (sub : string) (a : component) : Prop :=
  exists m params, p = PMap m /\ In (sub, PMap params) m /\ describes pi fam params a.
Definition describes_integrator (pi : Q) (m : component) (p : pvalue) (g : integrator) : Prop :=
  describes_sub pi integrators p "integration_method" (g_comp g) /\
  (forall k, needs (c_class (g_comp g)) = Some k -> c_class m = k) /\
  (c_class (g_comp g) = RayTracingIntegrator -> g_parts g = None) /\
  (c_class (g_comp g) <> RayTracingIntegrator ->
     exists pr mo w h, g_parts g = Some (pr, mo, (w, h)) /\ describes_sub pi projectors p "projection_model" pr /\
       describes_sub pi models p "measurement_model" mo /\ image_size pr w h).

(** ** Proof: kinds of loaded members *)
Inductive has_kind : kind -> cvalue -> Prop :=
| hk_bool b : has_kind KBool (CBool b) | hk_int z : has_kind KInt (CInt z) | hk_float q : has_kind KFloat (CFloat q)
| hk_string s : has_kind KString (CString s) | hk_unit u q : has_kind (KUnit u) (CUnit q) | hk_strings l : has_kind KStrings (CStrings l)
| hk_type names i : ts_isValid names i = true -> has_kind (KType names) (CType i)
| hk_config ms c : (forall n k d, In (n, k, d) ms -> exists x, mfind c n = Some x /\ has_kind k x) -> has_kind (KConfig ms) (CConfig c).
Definition kind_ok (pi : Q) (k : kind) : Prop := forall v x, readParam pi k v = Some x -> has_kind k x.
Lemma type_kind_ok names v i : ts_from names v = Some i -> ts_isValid names i = true.
Proof. unfold ts_from, ts_from_name. destruct (getTypeStr v); [|discriminate]. destruct (ts_isValid names _) eqn:E; [|discriminate]. intros H; injection H as <-. exact E. Qed.
Lemma flat_kind_ok pi k : (forall ms, k <> KConfig ms) -> kind_ok pi k.
Proof.
  intros N v x H. destruct k; cbn [readParam] in H.
  - destruct v; try discriminate; injection H as <-; constructor.
  - destruct v; try discriminate; injection H as <-; constructor.
  - destruct v; try discriminate; injection H as <-; constructor.
  - destruct v; try discriminate; injection H as <-; constructor.
  - destruct (ts_from names v) eqn:E; [|discriminate]. injection H as <-. constructor. eapply type_kind_ok; eassumption.
  - destruct (vu_from pi u v); [|discriminate]. injection H as <-. constructor.
  - destruct (strings_from v); [|discriminate]. injection H as <-. constructor.
  - exfalso. eapply N. reflexivity.
Qed.
Lemma config_kind_ok pi ms : NoDup (map mname ms) -> (forall n k d, In (n, k, d) ms -> kind_ok pi k /\ has_kind k d) -> kind_ok pi (KConfig ms).
Proof.
  intros ND OK v x H. destruct v as [| | | | |pm]; cbn [readParam] in H; try discriminate. injection H as <-.
  change (fold_left _ pm (defaults ms)) with (fold_left (load_one pi ms) pm (defaults ms)). constructor.
  assert (G : forall l c, (forall n k d, In (n, k, d) ms -> exists x, mfind c n = Some x /\ has_kind k x) ->
    forall n k d, In (n, k, d) ms -> exists x, mfind (fold_left (load_one pi ms) l c) n = Some x /\ has_kind k x).
  { induction l as [|[pn pv] l IH]; intros c Hc; [exact Hc|]. cbn [fold_left]. apply IH. intros n k d Hin.
    destruct (Hc n k d Hin) as (x & Hx & Kx). destruct (String.eqb_spec n pn) as [<-|Hne].
    - destruct (String.eqb_spec n "type") as [->|Ht]; [rewrite load_type; eauto|].
      rewrite (load_one_hit pi ms c n k d pv x ND Hin Ht Hx). destruct (readParam pi k pv) as [y|] eqn:E; [|eauto].
      exists y. split; [reflexivity|]. exact (proj1 (OK n k d Hin) pv y E).
    - exists x. split; [|exact Kx]. rewrite load_one_other by assumption. exact Hx. }
  apply G. intros n k d Hin. exists d. split; [exact (mfind_defaults ms n k d ND Hin)|]. apply (OK n k d Hin).
Qed.
Ltac nodup := repeat constructor; cbn; intuition discriminate.
Ltac in_cases H := cbn [In] in H; repeat (destruct H as [H|H]); try (injection H as <- <- <-); try contradiction.
Lemma circular_kind_ok pi : kind_ok pi (KConfig CircularProjectorConfig).
Proof.
  apply config_kind_ok; [nodup|]. intros n k d H. in_cases H; split; try constructor; apply flat_kind_ok; discriminate.
Qed.
Lemma circular_default : has_kind (KConfig CircularProjectorConfig) (CConfig (defaults CircularProjectorConfig)).
Proof. constructor. intros n k d H. in_cases H; eexists; (split; [reflexivity|constructor]). Qed.
Lemma members_nodup k : NoDup (map mname (members_of k)).
Proof. destruct k; nodup. Qed.
Lemma members_no_type k n kd d : In (n, kd, d) (members_of k) -> n <> "type"%string.
Proof. intros H. destruct k; cbn [members_of] in H; in_cases H; discriminate. Qed.
Lemma class_kind_ok pi k : kind_ok pi (KConfig (members_of k)).
Proof.
  apply config_kind_ok; [apply members_nodup|]. intros n kd d H.
  destruct k; cbn [members_of] in H; in_cases H;
    first [split; [apply flat_kind_ok; discriminate|constructor; reflexivity] | split; [apply flat_kind_ok; discriminate|constructor]
          | split; [apply circular_kind_ok|apply circular_default]].
Qed.
Definition typed (ms : list member) (c : config) : Prop := forall n k d, In (n, k, d) ms -> exists x, mfind c n = Some x /\ has_kind k x.
Lemma cfg_typed pi k p c : cfg_from pi (members_of k) p = Some (CConfig c) -> typed (members_of k) c.
Proof. intros H. apply (class_kind_ok pi k) in H. inversion H; subst. assumption. Qed.

(** ** Proof: validity checks *)
Lemma qlt_iff a b : qlt a b = true <-> (a < b)%Q.
Proof. unfold qlt. rewrite negb_true_iff. split; intros H. - apply Qnot_le_lt. intros C. apply Qle_bool_iff in C. congruence. - apply not_true_iff_false. rewrite Qle_bool_iff. apply Qlt_not_le. assumption. Qed.
Definition num_field (c : config) (n : string) : Prop := exists q, number c n q.
Lemma cq_number c n q : number c n q -> cq c n = q.
Proof. intros [H|H]; unfold cq; rewrite H; reflexivity. Qed.
Lemma number_inj c n q q' : number c n q -> number c n q' -> q = q'.
Proof. intros H H'. apply cq_number in H, H'. congruence. Qed.
Lemma positive_iff c n : num_field c n -> (qlt 0 (cq c n) = true <-> positive c n).
Proof.
  intros [q H]. rewrite qlt_iff, (cq_number c n q H). unfold positive. split; [eauto|]. intros (q' & H' & P). rewrite (number_inj c n q q' H H'). exact P.
Qed.
Lemma nonnegative_iff c n : num_field c n -> (Qle_bool 0 (cq c n) = true <-> nonnegative c n).
Proof.
  intros [q H]. rewrite Qle_bool_iff, (cq_number c n q H). unfold nonnegative. split; [eauto|]. intros (q' & H' & P). rewrite (number_inj c n q q' H H'). exact P.
Qed.
Lemma less_iff c n n' : num_field c n -> num_field c n' -> (qlt (cq c n) (cq c n') = true <-> less c n n').
Proof.
  intros [q H] [q' H']. rewrite qlt_iff, (cq_number c n q H), (cq_number c n' q' H'). unfold less. split; [eauto 6|].
  intros (x & x' & X & X' & P). rewrite (number_inj c n q x H X), (number_inj c n' q' x' H' X'). exact P.
Qed.
Lemma at_least_iff c n z : (exists v, mfind c n = Some (CInt v)) -> ((z <? cz c n) = true <-> at_least c n (z + 1)).
Proof.
  intros [v H]. unfold cz, at_least. rewrite H, Z.ltb_lt. split; [intros; exists v; split; [reflexivity|lia]|]. intros (v' & E & P). injection E as <-. lia.
Qed.
Lemma text_iff c n : (exists s, mfind c n = Some (CString s)) -> (nonempty (cs c n) = true <-> text c n).
Proof.
  intros [s H]. unfold cs, nonempty, text. rewrite H, negb_true_iff, String.eqb_neq. split; [eauto|]. intros (s' & E & P). injection E as <-. exact P.
Qed.
Lemma names_iff c n : (exists l, mfind c n = Some (CStrings l)) -> (negb (Nat.eqb (List.length (cl c n)) 0) = true <-> some_names c n).
Proof.
  intros [l H]. unfold cl, some_names. rewrite H, negb_true_iff, Nat.eqb_neq. split.
  - intros L. exists l. split; [reflexivity|]. intros ->. apply L. reflexivity.
  - intros (l' & E & P). injection E as <-. destruct l; [contradiction|discriminate].
Qed.
Lemma circular_iff pi c n : (exists d, mfind c n = Some (CConfig d) /\ typed CircularProjectorConfig d) ->
  (CircularProjector_isValid pi (cc c n) = true <-> circular pi c n).
Proof.
  intros (d & H & Td). unfold cc. rewrite H. unfold CircularProjector_isValid, circular.
  destruct (Td "min_angle"%string _ _ (or_introl eq_refl)) as (xa & Ea & Ka). inversion Ka; subst.
  destruct (Td "max_angle"%string _ _ (or_intror (or_introl eq_refl))) as (xb & Eb & Kb). inversion Kb; subst.
  destruct (Td "num_cells"%string _ _ (or_intror (or_intror (or_introl eq_refl)))) as (xn & En & Kn). inversion Kn; subst.
  rewrite !andb_true_iff. assert (N : (1 <? cz d "num_cells") = true <-> at_least d "num_cells" 2) by (apply (at_least_iff d "num_cells" 1); eauto). rewrite N.
  unfold cq. rewrite Ea, Eb. rewrite !Qle_bool_iff, qlt_iff. split.
  - intros (((((A & B) & C) & D) & L) & M). exists d, q, q0. repeat split; assumption.
  - intros (d' & a & b & E & E1 & E2 & A & B & C & M). rewrite H in E. injection E as <-. rewrite Ea in E1. rewrite Eb in E2. injection E1 as <-. injection E2 as <-.
    repeat split; try assumption; lra.
Qed.
(** What the constructors check, by class *)
Definition valid_of (pi : Q) (k : cls) : config -> bool :=
  match k with
  | HashedBlocks => MapBase_isValid | VolumetricOctree => VolumetricOctree_isValid | WaveletOctree => WaveletOctree_isValid
  | HashedWaveletOctree => HashedWaveletOctree_isValid | HashedChunkedWaveletOctree => HashedChunkedWaveletOctree_isValid
  | SphericalProjector => SphericalProjector_isValid pi | OusterProjector => OusterProjector_isValid pi
  | PinholeCameraProjector => PinholeCameraProjector_isValid
  | ContinuousRay => ContinuousRay_isValid | ContinuousBeam => ContinuousBeam_isValid
  | RayTracingIntegrator => RayTracingIntegrator_isValid
  | FixedResolutionIntegrator | CoarseToFineIntegrator | WaveletIntegrator | HashedWaveletIntegrator | HashedChunkedWaveletIntegrator =>
      ProjectiveIntegrator_isValid
  | ThresholdMapOperation => ThresholdMapOperation_isValid | PruneMapOperation => PruneMapOperation_isValid
  | PublishMapOperation => PublishMapOperation_isValid | PublishPointcloudOperation => PublishPointcloudOperation_isValid
  | CropMapOperation => CropMapOperation_isValid
  | PointcloudTopicInput => fun c => RosInputBase_isValid c && PointcloudTopicInput_isValid c
  | DepthImageTopicInput => fun c => RosInputBase_isValid c && DepthImageTopicInput_isValid c
  end.
Ltac inl := cbn [members_of In mU mF mI mS mB mT mL mC]; intuition (reflexivity || auto).
Lemma t_num ms c n k d : typed ms c -> In (n, k, d) ms -> (k = KFloat \/ exists u, k = KUnit u) -> num_field c n.
Proof. intros Ty Hin [->|[u ->]]; destruct (Ty _ _ _ Hin) as (x & E & K); inversion K; subst; [exists q; right; exact E|exists q; left; exact E]. Qed.
Lemma t_int ms c n d : typed ms c -> In (n, KInt, d) ms -> exists v, mfind c n = Some (CInt v).
Proof. intros Ty Hin; destruct (Ty _ _ _ Hin) as (x & E & K); inversion K; subst; eauto. Qed.
Lemma t_str ms c n d : typed ms c -> In (n, KString, d) ms -> exists v, mfind c n = Some (CString v).
Proof. intros Ty Hin; destruct (Ty _ _ _ Hin) as (x & E & K); inversion K; subst; eauto. Qed.
Lemma t_strs ms c n d : typed ms c -> In (n, KStrings, d) ms -> exists v, mfind c n = Some (CStrings v).
Proof. intros Ty Hin; destruct (Ty _ _ _ Hin) as (x & E & K); inversion K; subst; eauto. Qed.
Lemma t_cfg ms c n d ms' : typed ms c -> In (n, KConfig ms', d) ms -> exists v, mfind c n = Some (CConfig v) /\ typed ms' v.
Proof. intros Ty Hin; destruct (Ty _ _ _ Hin) as (x & E & K); inversion K; subst; eauto. Qed.
Ltac member_in := cbn [members_of]; repeat (first [left; reflexivity | right]).
Ltac num Ty := eapply (t_num _ _ _ _ _ Ty); [member_in|first [left; reflexivity|right; eexists; reflexivity]].
Lemma range_pos c : positive c "min_range" -> less c "min_range" "max_range" -> positive c "max_range".
Proof. intros (r & Nr & P) (q & q' & N & N' & L). exists q'. split; [exact N'|]. rewrite (number_inj c _ r q Nr N) in P. lra. Qed.
Lemma valid_iff pi k c : typed (members_of k) c -> (valid_of pi k c = true <-> sound pi k c).
Proof.
  intros Ty. destruct k; cbn [valid_of sound];
  unfold MapBase_isValid, VolumetricOctree_isValid, WaveletOctree_isValid, HashedWaveletOctree_isValid, HashedChunkedWaveletOctree_isValid,
    SphericalProjector_isValid, OusterProjector_isValid, PinholeCameraProjector_isValid, ContinuousRay_isValid, ContinuousBeam_isValid,
    RayTracingIntegrator_isValid, ProjectiveIntegrator_isValid, ThresholdMapOperation_isValid, PruneMapOperation_isValid, PublishMapOperation_isValid,
    PublishPointcloudOperation_isValid, CropMapOperation_isValid, PointcloudTopicInput_isValid, DepthImageTopicInput_isValid, RosInputBase_isValid;
  rewrite ?andb_true_iff;
  repeat match goal with
  | |- context [qlt 0 (cq c ?n)] => rewrite (positive_iff c n) by num Ty
  | |- context [Qle_bool 0 (cq c ?n)] => rewrite (nonnegative_iff c n) by num Ty
  | |- context [qlt (cq c ?n) (cq c ?n')] => rewrite (less_iff c n n') by num Ty
  | |- context [0 <? cz c ?n] => rewrite (at_least_iff c n 0) by (eapply (t_int _ _ _ _ Ty); member_in)
  | |- context [nonempty (cs c ?n)] => rewrite (text_iff c n) by (eapply (t_str _ _ _ _ Ty); member_in)
  | |- context [negb (Nat.eqb (List.length (cl c ?n)) 0)] => rewrite (names_iff c n) by (eapply (t_strs _ _ _ _ Ty); member_in)
  | |- context [CircularProjector_isValid pi (cc c ?n)] => rewrite (circular_iff pi c n) by (eapply (t_cfg _ _ _ _ _ Ty); member_in)
  end; change (0 + 1) with 1.
  all: try tauto.
  all: try (pose proof (range_pos c); tauto).
  - split.
    + intros (((A & B) & T) & U). split; [exact A|]. split; [exact B|]. destruct T as (v & E & L). exists v. split; [exact E|]. unfold cz in U. rewrite E in U. lia.
    + intros (A & B & T & E & L). split; [split; [split; [exact A|exact B]|]|]; [exists T; split; [exact E|lia]|]. unfold cz. rewrite E. lia.
  - assert (TT : ts_isValid topic_type_names (ct c "topic_type") = true).
    { destruct (Ty "topic_type"%string (KType topic_type_names) (CType 0)) as (x & E & K); [member_in|]. inversion K; subst. unfold ct. rewrite E. assumption. }
    tauto.
Qed.

(** ** Proof: factories *)
Lemma mfind_in {A} (m : list (string * A)) n v : NoDup (map fst m) -> (mfind m n = Some v <-> In (n, v) m).
Proof.
  intros NP. induction m as [|[a b] l IH]; [split; [discriminate|intros []]|]. inversion NP as [|? ? Hn NL]; subst. cbn.
  destruct (String.eqb_spec a n) as [->|Ha].
  - split; [intros H; injection H as ->; left; reflexivity|]. intros [H|H]; [congruence|]. exfalso. apply Hn. apply (in_map fst) in H. exact H.
  - rewrite IH by assumption. split; [tauto|]. intros [H|H]; [congruence|assumption].
Qed.
Lemma in_fun {A} (m : list (string * A)) n v v' : NoDup (map fst m) -> In (n, v) m -> In (n, v') m -> v = v'.
Proof. intros N H H'. apply (mfind_in m n) in H, H'; try assumption. congruence. Qed.
Lemma loaded_keys_unique (c c' : config) : map fst c = map fst c' -> NoDup (map fst c) -> (forall n, In n (map fst c) -> mfind c n = mfind c' n) -> c = c'.
Proof.
  revert c'. induction c as [|[n x] c IH]; intros [|[n' x'] c'] K N H; try discriminate; [reflexivity|]. cbn in K. injection K as <- K.
  inversion N as [|? ? Hn N']; subst. f_equal.
  - specialize (H n (or_introl eq_refl)). cbn in H. rewrite String.eqb_refl in H. congruence.
  - apply IH; [assumption|assumption|]. intros m Hm. specialize (H m (or_intror Hm)). cbn in H.
    destruct (String.eqb_spec n m) as [->|]; [contradiction|exact H].
Qed.
Lemma loaded_unique pi ms params c c' : NoDup (map mname ms) -> NoDup (map fst params) -> loaded pi ms params c -> loaded pi ms params c' -> c = c'.
Proof.
  intros NM NP [K L] [K' L']. apply loaded_keys_unique; [congruence|rewrite K; assumption|]. intros n Hn. rewrite K in Hn.
  apply in_map_iff in Hn. destruct Hn as ([[n' k] d] & E & Hin). cbn in E. subst n'.
  destruct (L n k d Hin) as [A B], (L' n k d Hin) as [A' B'].
  destruct (mfind params n) as [v|] eqn:F.
  - destruct (readParam pi k v) as [x|] eqn:R.
    + apply readParam_reads in R. apply (mfind_in params n v NP) in F. rewrite (A v x F R), (A' v x F R). reflexivity.
    + assert (No : forall v0 x, In (n, v0) params -> ~ reads pi k v0 x).
      { intros v0 x H0 H1. apply (mfind_in params n v0 NP) in H0. rewrite F in H0. injection H0 as <-. apply readParam_reads in H1. congruence. }
      rewrite (B No), (B' No). reflexivity.
  - assert (No : forall v0 x, In (n, v0) params -> ~ reads pi k v0 x).
    { intros v0 x H0 _. apply (mfind_in params n v0 NP) in H0. congruence. }
    rewrite (B No), (B' No). reflexivity.
Qed.
Lemma cfg_loaded pi ms params : NoDup (map mname ms) -> (forall n k d, In (n, k, d) ms -> n <> "type"%string) -> NoDup (map fst params) ->
  exists c, cfg_from pi ms (PMap params) = Some (CConfig c) /\ loaded pi ms params c.
Proof.
  intros NM NT NP. destruct (C47_config pi ms NM) as [_ H]. destruct (H params NP) as (c & E & K & L). exists c. split; [exact E|]. split; [exact K|].
  intros n k d Hin. apply L; [assumption|]. eapply NT; eassumption.
Qed.
Lemma cfg_not_map pi ms p : (forall m, p <> PMap m) -> cfg_from pi ms p = None.
Proof. intros H. destruct p; try reflexivity. exfalso. eapply H. reflexivity. Qed.
Lemma construct_outcome pi k params : NoDup (map fst params) ->
  outcome pi k params (construct k (valid_of pi k) (cfg_from pi (members_of k) (PMap params))).
Proof.
  intros NP. destruct (cfg_loaded pi (members_of k) params (members_nodup k) (members_no_type k) NP) as (c & E & L).
  exists c. split; [exact L|]. pose proof (valid_iff pi k c (cfg_typed pi k _ c E)) as V. rewrite E. cbn [construct].
  destruct (valid_of pi k c); [left; split; [apply V; reflexivity|reflexivity]|right; split; [|reflexivity]].
  intros S. apply V in S. discriminate.
Qed.
Lemma type_str params name : NoDup (map fst params) -> (getTypeStr (PMap params) = Some name <-> type_entry params name).
Proof.
  intros NP. unfold type_entry. rewrite <- (mfind_in params _ _ NP). unfold getTypeStr. cbn [getChild]. change kTypeSelectorKey with "type"%string.
  destruct (mfind params "type") as [[]|]; split; intros H; try discriminate; injection H as ->; reflexivity.
Qed.
Definition factory_spec (pi : Q) (fam : list (string * cls)) (f : pvalue -> made component) : Prop :=
  (forall params, NoDup (map fst params) ->
     (forall name k, type_entry params name -> In (name, k) fam -> outcome pi k params (f (PMap params))) /\
     ((forall name k, type_entry params name -> ~ In (name, k) fam) -> f (PMap params) = Null)) /\
  (forall p, (forall m, p <> PMap m) -> f p = Null).
(** A factory that finds the type by name *)
Lemma factory_by_name pi names fam (g : Z -> pvalue -> made component) :
  (forall name k, In (name, k) fam -> exists i, ts_from_name names name = Some i /\ forall p, g i p = construct k (valid_of pi k) (cfg_from pi (members_of k) p)) ->
  (forall name i, ts_from_name names name = Some i -> (exists k, In (name, k) fam) \/ forall p, g i p = Null) ->
  factory_spec pi fam (fun p => match ts_from names p with Some i => g i p | None => Null end).
Proof.
  intros A B. split.
  - intros params NP. split.
    + intros name k T Hin. destruct (A name k Hin) as (i & E & G). unfold ts_from. apply type_str in T; [|assumption]. rewrite T, E, G. apply construct_outcome. assumption.
    + intros No. unfold ts_from. destruct (getTypeStr (PMap params)) as [name|] eqn:T; [|reflexivity]. apply type_str in T; [|assumption].
      destruct (ts_from_name names name) as [i|] eqn:E; [|reflexivity]. destruct (B name i E) as [[k Hk]|N]; [exfalso; eapply No; eassumption|apply N].
  - intros p Hp. unfold ts_from. destruct (getTypeStr p) as [name|]; [|reflexivity]. destruct (ts_from_name names name) as [i|] eqn:E; [|reflexivity].
    destruct (B name i E) as [[k Hk]|N]; [|apply N]. destruct (A name k Hk) as (j & E' & G). rewrite E in E'. injection E' as <-. rewrite G, cfg_not_map by assumption. reflexivity.
Qed.
Lemma factory_iff pi fam f : NoDup (map fst fam) -> factory_spec pi fam f ->
  forall p a, pwf p -> (f p = Made a <-> exists params, p = PMap params /\ describes pi fam params a).
Proof.
  intros NF [F1 F2] p a W. split.
  - intros H. destruct p as [| | | | |params]; try (rewrite F2 in H by discriminate; discriminate). exists params. split; [reflexivity|].
    inversion W as [| | | | |? NP Wm]; subst. destruct (F1 params NP) as [A B].
    assert (Dec : (exists name k, type_entry params name /\ In (name, k) fam) \/ forall name k, type_entry params name -> ~ In (name, k) fam).
    { destruct (getTypeStr (PMap params)) as [name|] eqn:T.
      - destruct (mfind fam name) as [k|] eqn:M.
        + left. exists name, k. split; [apply type_str; assumption|apply mfind_in; assumption].
        + right. intros name' k T' Hin. apply type_str in T'; [|assumption]. assert (name' = name) by congruence. subst. apply mfind_in in Hin; congruence.
      - right. intros name' k T' _. apply type_str in T'; [|assumption]. congruence. }
    destruct Dec as [(name & k & T & Hin)|No]; [|rewrite B in H by assumption; discriminate].
    destruct (A name k T Hin) as (c & L & [[S E]|[S E]]); rewrite E in H; [|discriminate]. injection H as <-. exists name. cbn. auto.
  - intros (params & -> & name & T & Hin & L & S). inversion W as [| | | | |? NP Wm]; subst. destruct (F1 params NP) as [A _].
    destruct (A name _ T Hin) as (c & L' & D). assert (c = c_cfg a) by (eapply loaded_unique; try eassumption; apply members_nodup). subst c.
    destruct D as [[_ E]|[S' _]]; [|contradiction]. rewrite E. destruct a; reflexivity.
Qed.
Ltac family := let H := fresh in intros ? ? H; cbn [In maps projectors models integrators operations inputs] in H; repeat (destruct H as [H|H]); try contradiction;
  injection H as <- <-; eexists; (split; [reflexivity|reflexivity]).
Ltac all_known := let H := fresh in let G := fresh in intros ? ? H; pose proof (proj2 (C47_type_roundtrip _ _ _ H)) as G; cbn [In] in G; repeat (destruct G as [<-|G]); try contradiction;
  first [left; eexists; cbn [In]; repeat (first [left; reflexivity|right]); fail | right; vm_compute in H; injection H as <-; reflexivity].
Definition map_of (pi : Q) (p : pvalue) : made component := match ts_from map_names p with Some id => map_create_type pi id p | None => Null end.
Definition projector_of (pi : Q) (p : pvalue) : made component :=
  match ts_from projector_names p with
  | Some i => (match i with
    | 0 => construct SphericalProjector (SphericalProjector_isValid pi) (cfg_from pi SphericalProjectorConfig p)
    | 1 => construct OusterProjector (OusterProjector_isValid pi) (cfg_from pi OusterProjectorConfig p)
    | 2 => construct PinholeCameraProjector PinholeCameraProjector_isValid (cfg_from pi PinholeCameraProjectorConfig p)
    | _ => Null end)
  | None => Null end.
Definition model_of (pi : Q) (p : pvalue) : made component :=
  match ts_from measurement_model_names p with
  | Some i => (match i with
    | 1 => construct ContinuousRay ContinuousRay_isValid (cfg_from pi ContinuousRayConfig p)
    | 2 => construct ContinuousBeam ContinuousBeam_isValid (cfg_from pi ContinuousBeamConfig p)
    | _ => Null end)
  | None => Null end.
Definition integrator_of (pi : Q) (p : pvalue) : made component :=
  match ts_from integrator_names p with
  | Some i => (match i with
    | 0 => construct RayTracingIntegrator RayTracingIntegrator_isValid (cfg_from pi RayTracingIntegratorConfig p)
    | 1 => construct FixedResolutionIntegrator ProjectiveIntegrator_isValid (cfg_from pi ProjectiveIntegratorConfig p)
    | 2 => construct CoarseToFineIntegrator ProjectiveIntegrator_isValid (cfg_from pi ProjectiveIntegratorConfig p)
    | 3 => construct WaveletIntegrator ProjectiveIntegrator_isValid (cfg_from pi ProjectiveIntegratorConfig p)
    | 4 => construct HashedWaveletIntegrator ProjectiveIntegrator_isValid (cfg_from pi ProjectiveIntegratorConfig p)
    | 5 => construct HashedChunkedWaveletIntegrator ProjectiveIntegrator_isValid (cfg_from pi ProjectiveIntegratorConfig p)
    | _ => Null end)
  | None => Null end.
Lemma map_factory pi : factory_spec pi maps (map_of pi).
Proof. apply (factory_by_name pi map_names maps (map_create_type pi)); [family|all_known]. Qed.
Lemma projector_factory pi : factory_spec pi projectors (projector_of pi).
Proof. eapply (factory_by_name pi projector_names projectors); [family|all_known]. Qed.
Lemma model_factory pi : factory_spec pi models (model_of pi).
Proof. eapply (factory_by_name pi measurement_model_names models); [family|all_known]. Qed.
Lemma integrator_factory pi : factory_spec pi integrators (integrator_of pi).
Proof. eapply (factory_by_name pi integrator_names integrators); [family|all_known]. Qed.
Lemma input_factory pi : factory_spec pi inputs (input_create pi).
Proof.
  pose (g := fun i p => match i with
    | 0 => construct PointcloudTopicInput (fun c => RosInputBase_isValid c && PointcloudTopicInput_isValid c) (cfg_from pi PointcloudTopicInputConfig p)
    | 1 => construct DepthImageTopicInput (fun c => RosInputBase_isValid c && DepthImageTopicInput_isValid c) (cfg_from pi DepthImageTopicInputConfig p)
    | _ => Null end).
  assert (H : factory_spec pi inputs (fun p => match ts_from input_names p with Some i => g i p | None => Null end)) by
    (apply (factory_by_name pi input_names inputs g); [family|all_known]). exact H.
Qed.
Lemma operation_factory pi : factory_spec pi operations (server_operation pi).
Proof.
  assert (K : forall name, ts_isValid ros_operation_names (ts_toTypeId ros_operation_names name) = true \/
                           ts_isValid operation_names (ts_toTypeId operation_names name) = true -> exists k, In (name, k) operations).
  { intros name [H|H].
    - assert (E : ts_from_name ros_operation_names name = Some (ts_toTypeId ros_operation_names name)) by (unfold ts_from_name; rewrite H; reflexivity).
      apply C47_type_roundtrip in E. destruct E as [_ G]. cbn [In ros_operation_names] in G.
      repeat (destruct G as [<-|G]); try contradiction; eexists; cbn [In operations]; repeat (first [left; reflexivity|right]).
    - assert (E : ts_from_name operation_names name = Some (ts_toTypeId operation_names name)) by (unfold ts_from_name; rewrite H; reflexivity).
      apply C47_type_roundtrip in E. destruct E as [_ G]. cbn [In operation_names] in G.
      repeat (destruct G as [<-|G]); try contradiction; eexists; cbn [In operations]; repeat (first [left; reflexivity|right]). }
  assert (G : forall name k p, In (name, k) operations -> getTypeStr p = Some name ->
    server_operation pi p = construct k (valid_of pi k) (cfg_from pi (members_of k) p)).
  { intros name k p H T. unfold server_operation. rewrite T. cbn [In operations] in H. repeat (destruct H as [H|H]); try contradiction; injection H as <- <-; reflexivity. }
  split.
  - intros params NP. split.
    + intros name k T Hin. rewrite (G name k) by (try assumption; apply type_str; assumption). apply construct_outcome. assumption.
    + intros No. unfold server_operation. destruct (getTypeStr (PMap params)) as [name|] eqn:T; [|reflexivity]. apply type_str in T; [|assumption].
      destruct (ts_isValid ros_operation_names _) eqn:E; [destruct (K name (or_introl E)) as [k Hk]; exfalso; eapply No; eassumption|].
      destruct (ts_isValid operation_names _) eqn:E'; [destruct (K name (or_intror E')) as [k Hk]; exfalso; eapply No; eassumption|]. reflexivity.
  - intros p Hp. destruct (getTypeStr p) as [name|] eqn:T; [|unfold server_operation; rewrite T; reflexivity].
    assert (D : (exists k, In (name, k) operations) \/ server_operation pi p = Null).
    { unfold server_operation. rewrite T. destruct (ts_isValid ros_operation_names _) eqn:E; [left; apply K; left; exact E|].
      destruct (ts_isValid operation_names _) eqn:E'; [left; apply K; right; exact E'|]. right. reflexivity. }
    destruct D as [[k Hk]|E]; [|exact E]. rewrite (G name k p Hk T), cfg_not_map by assumption. reflexivity.
Qed.

(** ** Theorems: single components *)
(** Parameters that name a known type build that class with the described config if its values are usable, and end the program if not.
    Unknown or missing type names build nothing, or the default. Parameters that are not a map build nothing. *)
Theorem C77_map : forall pi,
  (forall params default, NoDup (map fst params) ->
     (forall name k, type_entry params name -> In (name, k) maps -> outcome pi k params (map_create pi (PMap params) default)) /\
     ((forall name k, type_entry params name -> ~ In (name, k) maps) ->
        map_create pi (PMap params) None = Null /\ outcome pi HashedBlocks params (map_create pi (PMap params) (Some 0)))) /\
  (forall p default, (forall m, p <> PMap m) -> map_create pi p default = Null).
Proof.
  intros pi. assert (E : forall p d i, ts_from map_names p = Some i -> map_create pi p d = map_of pi p) by (intros p d i H; unfold map_create, map_of; rewrite H; reflexivity).
  split.
  - intros params default NP. destruct (proj1 (map_factory pi) params NP) as [A B]. split.
    + intros name k T Hin. destruct (ts_from map_names (PMap params)) as [i|] eqn:F; [rewrite (E _ default i F); eapply A; eassumption|].
      exfalso. unfold ts_from in F. pose proof T as T'. apply type_str in T'; [|assumption]. rewrite T' in F.
      cbn [In maps] in Hin. repeat (destruct Hin as [Hin|Hin]); try contradiction; injection Hin as <- <-; discriminate.
    + intros No. assert (F : ts_from map_names (PMap params) = None).
      { unfold ts_from. destruct (getTypeStr (PMap params)) as [name|] eqn:T; [|reflexivity]. apply type_str in T; [|assumption].
        destruct (ts_from_name map_names name) as [i|] eqn:F; [|reflexivity]. exfalso. apply C47_type_roundtrip in F. destruct F as [_ G]. cbn [In map_names] in G.
        repeat (destruct G as [<-|G]); try contradiction; eapply No; try exact T; cbn [In maps]; repeat (first [left; reflexivity|right]). }
      unfold map_create. rewrite F. split; [reflexivity|]. apply (construct_outcome pi HashedBlocks). assumption.
  - intros p default Hp. unfold map_create. assert (C : forall i, map_create_type pi i p = Null).
    { intros i. unfold map_create_type. rewrite !cfg_not_map by assumption. cbn [construct]. repeat match goal with |- context [match ?x with _ => _ end] => destruct x end; reflexivity. }
    destruct (ts_from map_names p) as [i|]; [apply C|]. destruct default; [apply C|reflexivity].
Qed.
Theorem C77_operation : forall pi,
  (forall params, NoDup (map fst params) ->
     (forall name k, type_entry params name -> In (name, k) operations -> outcome pi k params (server_operation pi (PMap params))) /\
     ((forall name k, type_entry params name -> ~ In (name, k) operations) -> server_operation pi (PMap params) = Null)) /\
  (forall p, (forall m, p <> PMap m) -> server_operation pi p = Null).
Proof. exact operation_factory. Qed.
Theorem C77_input : forall pi,
  (forall params, NoDup (map fst params) ->
     (forall name k, type_entry params name -> In (name, k) inputs -> outcome pi k params (input_create pi (PMap params))) /\
     ((forall name k, type_entry params name -> ~ In (name, k) inputs) -> input_create pi (PMap params) = Null)) /\
  (forall p, (forall m, p <> PMap m) -> input_create pi p = Null).
Proof. exact input_factory. Qed.

(** ** Integrators *)
Lemma sub_iff pi fam f p sub : NoDup (map fst fam) -> factory_spec pi fam f -> pwf p ->
  forall a, (match getChild p sub with Some c => f c | None => Null end = Made a <-> describes_sub pi fam p sub a).
Proof.
  intros NF FS W a. unfold describes_sub. destruct p as [| | | | |m]; try (cbn; split; [discriminate|intros (? & ? & ? & _); discriminate]).
  inversion W as [| | | | |? NP Wm]; subst. cbn [getChild]. destruct (mfind m sub) as [v|] eqn:E.
  - pose proof E as Hin. apply mfind_in in Hin; [|assumption]. rewrite (factory_iff pi fam f NF FS v a (Wm sub v Hin)). split.
    + intros (params & -> & D). eauto.
    + intros (m' & params & H & Hin' & D). injection H as <-. exists params. split; [|exact D]. apply (in_fun m sub); assumption.
  - split; [discriminate|]. intros (m' & params & H & Hin' & D). injection H as <-. apply (mfind_in m) in Hin'; [congruence|assumption].
Qed.
Lemma projector_iff pi p a : pwf p -> (projector_create pi p = Made a <-> describes_sub pi projectors p "projection_model" a).
Proof.
  intros W. rewrite <- (sub_iff pi projectors (projector_of pi) p "projection_model") by (try assumption; try apply projector_factory; nodup).
  unfold projector_create, projector_of, ts_from_sub, cfg_from_sub. destruct (getChild p "projection_model"); [|tauto]. destruct (ts_from _ _) as [i|]; tauto.
Qed.
Lemma model_iff pi p a : pwf p -> (model_create pi p = Made a <-> describes_sub pi models p "measurement_model" a).
Proof.
  intros W. rewrite <- (sub_iff pi models (model_of pi) p "measurement_model") by (try assumption; try apply model_factory; nodup).
  unfold model_create, model_of, ts_from_sub, cfg_from_sub. destruct (getChild p "measurement_model"); [|tauto]. destruct (ts_from _ _) as [i|]; tauto.
Qed.
Lemma image_size_iff pi pr w h : In (c_class pr) (map snd projectors) -> sound pi (c_class pr) (c_cfg pr) -> (image_size pr w h <-> dimensions pr = (w, h)).
Proof.
  intros Hin S. unfold image_size, dimensions. cbn in Hin. destruct Hin as [H|[H|[H|[]]]]; rewrite <- H in *; cbn [sound] in S.
  1, 2: destruct S as [(d & a & b & E & _ & _ & _ & _ & _ & (v & V & _)) (d' & a' & b' & E' & _ & _ & _ & _ & _ & (v' & V' & _))];
    unfold cc, cz; rewrite E, E', V, V'; split;
    [intros (e & e' & F & G & F' & G'); injection F as <-; injection F' as <-; rewrite V in G; rewrite V' in G'; congruence
    |intros X; injection X as <- <-; exists d, d'; auto].
  destruct S as ((v & V & _) & (v' & V' & _) & _). unfold cz. rewrite V, V'. split; [intros [F F']; congruence|intros X; injection X as <- <-; auto].
Qed.
(** An integrator is built iff its parts are all described by usable parameters and it works on the given map, and then from these parts. *)
Theorem C77_integrator : forall pi p m g, pwf p -> (integrator_create pi p m = Made g <-> describes_integrator pi m p g).
Proof.
  intros pi p m g W. unfold describes_integrator.
  pose proof (sub_iff pi integrators (integrator_of pi) p "integration_method" ltac:(nodup) (integrator_factory pi) W (g_comp g)) as SI. rewrite <- SI. clear SI.
  unfold integrator_create, integrator_of, ts_from_sub. destruct (getChild p "integration_method") as [v|] eqn:C; [|split; [discriminate|intros [H _]; discriminate]].
  destruct (ts_from integrator_names v) as [i|]; [|split; [discriminate|intros [H _]; discriminate]].
  unfold integrator_create_type, cfg_from_sub. rewrite C. destruct g as [gc gp]; cbn [g_comp g_parts].
  assert (CC : forall k f o a, construct k f o = Made a -> c_class a = k).
  { intros k f o a. unfold construct. destruct o as [[]|]; try discriminate. destruct (f _); [|discriminate]. intros H; injection H as <-. reflexivity. }
  destruct (Z.eqb_spec i 0) as [->|Hi].
  - destruct (construct RayTracingIntegrator RayTracingIntegrator_isValid (cfg_from pi RayTracingIntegratorConfig v)) as [a| |] eqn:E; [|split; [discriminate|intros [H _]; discriminate]..].
    apply CC in E. split.
    + intros H; injection H as <- <-. rewrite E. repeat split; try discriminate. intros N; contradiction.
    + intros (H & _ & P & _). injection H as <-. rewrite P by assumption. reflexivity.
  - assert (Main : forall k, k <> RayTracingIntegrator ->
      match cfg_from pi ProjectiveIntegratorConfig v with
      | None => Null
      | Some cfg => match projector_create pi p with
        | Made pr => match model_create pi p with
          | Made mo => match construct k ProjectiveIntegrator_isValid (Some cfg) with
            | Made c => Made (Integ c (Some (pr, mo, dimensions pr))) | Null => Null | Aborted => Aborted end
          | Null => Null | Aborted => Aborted end
        | Null => Null | Aborted => Aborted end
      end = Made (Integ gc gp) <->
      construct k ProjectiveIntegrator_isValid (cfg_from pi ProjectiveIntegratorConfig v) = Made gc /\
      (c_class gc = RayTracingIntegrator -> gp = None) /\
      (c_class gc <> RayTracingIntegrator -> exists pr mo w h, gp = Some (pr, mo, (w, h)) /\ describes_sub pi projectors p "projection_model" pr /\
         describes_sub pi models p "measurement_model" mo /\ image_size pr w h)).
    { intros k Hk. assert (IS : forall pr w h, describes_sub pi projectors p "projection_model" pr -> (image_size pr w h <-> dimensions pr = (w, h))).
      { intros pr w h (? & ? & _ & _ & name & _ & Hin & _ & S). apply (image_size_iff pi); [apply (in_map snd) in Hin; exact Hin|exact S]. }
      split.
      - destruct (cfg_from pi ProjectiveIntegratorConfig v) as [cfg|]; [|discriminate]. destruct (projector_create pi p) as [pr| |] eqn:P; try discriminate.
        destruct (model_create pi p) as [mo| |] eqn:M; try discriminate. destruct (construct k _ _) as [c| |] eqn:E; try discriminate.
        intros H; injection H as <- <-. split; [reflexivity|]. apply CC in E. split; [congruence|]. intros _. apply projector_iff in P; [|assumption].
        destruct (dimensions pr) as [w h] eqn:D. exists pr, mo, w, h. split; [reflexivity|]. split; [assumption|]. split; [apply model_iff; assumption|]. apply IS; assumption.
      - intros (E & _ & P). pose proof E as E'. apply CC in E'. destruct (P ltac:(congruence)) as (pr & mo & w & h & -> & Dp & Dm & I). apply IS in I; [|assumption].
        destruct (cfg_from pi ProjectiveIntegratorConfig v) as [cfg|]; [|discriminate]. apply projector_iff in Dp; [|assumption]. apply model_iff in Dm; [|assumption].
        rewrite Dp, Dm, E, I. reflexivity. }
    assert (Fit : forall k q, k <> RayTracingIntegrator -> (needs k = Some q) -> In q [VolumetricOctree; WaveletOctree; HashedWaveletOctree; HashedChunkedWaveletOctree] ->
      match cfg_from pi ProjectiveIntegratorConfig v with
      | None => Null
      | Some cfg => match projector_create pi p with
        | Made pr => match model_create pi p with
          | Made mo => if is_cls (c_class m) q then match construct k ProjectiveIntegrator_isValid (Some cfg) with
            | Made c => Made (Integ c (Some (pr, mo, dimensions pr))) | Null => Null | Aborted => Aborted end else Null
          | Null => Null | Aborted => Aborted end
        | Null => Null | Aborted => Aborted end
      end = Made (Integ gc gp) <->
      construct k ProjectiveIntegrator_isValid (cfg_from pi ProjectiveIntegratorConfig v) = Made gc /\
      (forall k0, needs (c_class gc) = Some k0 -> c_class m = k0) /\
      (c_class gc = RayTracingIntegrator -> gp = None) /\
      (c_class gc <> RayTracingIntegrator -> exists pr mo w h, gp = Some (pr, mo, (w, h)) /\ describes_sub pi projectors p "projection_model" pr /\
         describes_sub pi models p "measurement_model" mo /\ image_size pr w h)).
    { intros k q Hk Nk Hq. assert (Q : is_cls (c_class m) q = true <-> c_class m = q).
      { cbn in Hq. destruct Hq as [<-|[<-|[<-|[<-|[]]]]]; destruct (c_class m); cbn; split; congruence. }
      destruct (is_cls (c_class m) q).
      - rewrite (Main k Hk). split; [|tauto]. intros (E & H). split; [exact E|]. split; [|exact H]. intros k0 Hn. apply CC in E. rewrite E, Nk in Hn. injection Hn as <-. apply Q. reflexivity.
      - split.
        + destruct (cfg_from _ _ _); [|discriminate]. destruct (projector_create pi p); try discriminate. destruct (model_create pi p); discriminate.
        + intros (E & H & _). apply CC in E. rewrite E in H. apply H in Nk. apply Q in Nk. discriminate. }
    assert (Bad : (match cfg_from pi ProjectiveIntegratorConfig v with
      | None => Null
      | Some cfg => match projector_create pi p with
        | Made pr => match model_create pi p with Made mo => Null | Null => Null | Aborted => Aborted end
        | Null => Null | Aborted => Aborted end
      end : made integrator) <> Made (Integ gc gp)).
    { destruct (cfg_from _ _ _); [|discriminate]. destruct (projector_create pi p); try discriminate. destruct (model_create pi p); discriminate. }
    destruct i as [|[[[?|?|]|[?|?|]|]|[[?|?|]|[?|?|]|]|]|]; try contradiction;
      try (split; [intros H; exfalso; apply Bad; exact H|intros [H _]; discriminate]).
    all: try (apply Fit; [discriminate|reflexivity|cbn; tauto]).
    rewrite (Main FixedResolutionIntegrator ltac:(discriminate)). split; [|tauto]. intros (E & H). split; [exact E|]. split; [|exact H].
    intros k0 Hn. apply CC in E. rewrite E in Hn. discriminate.
Qed.

(** ** Parameters *)
(** How a user writes parameters in the ROS parameter server and in Python *)
Fixpoint to_ros (p : pvalue) : xvalue :=
  match p with
  | PBool b => XBool b | PInt z => XInt z | PFloat q => XDouble q | PString s => XString s
  | PArray l => XArray (map to_ros l) | PMap m => XStruct (map (fun kv => (fst kv, to_ros (snd kv))) m)
  end.
Fixpoint to_py (p : pvalue) : pyvalue :=
  match p with
  | PBool b => PyBool b | PInt z => PyInt z | PFloat q => PyFloat q | PString s => PyStr s
  | PArray l => PyList (map to_py l) | PMap m => PyDict (map (fun kv => (PyStr (fst kv), to_py (snd kv))) m)
  end.
(** All integers have 32 bits. *)
Inductive small_ints : pvalue -> Prop :=
| si_bool b : small_ints (PBool b) | si_int z : - 2 ^ 31 <= z < 2 ^ 31 -> small_ints (PInt z) | si_float q : small_ints (PFloat q)
| si_string s : small_ints (PString s) | si_array l : (forall v, In v l -> small_ints v) -> small_ints (PArray l)
| si_map m : (forall n v, In (n, v) m -> small_ints v) -> small_ints (PMap m).
Lemma pvalue_nested (P : pvalue -> Prop) :
  (forall b, P (PBool b)) -> (forall z, P (PInt z)) -> (forall q, P (PFloat q)) -> (forall s, P (PString s)) ->
  (forall l, (forall v, In v l -> P v) -> P (PArray l)) -> (forall m, (forall n v, In (n, v) m -> P v) -> P (PMap m)) -> forall p, P p.
Proof.
  intros H1 H2 H3 H4 H5 H6. fix IH 1. intros [b|z|q|s|l|m]; [apply H1|apply H2|apply H3|apply H4|apply H5|apply H6].
  - induction l as [|x l IHl]; intros v H; [destruct H|]. destruct H as [<-|H]; [apply IH|apply IHl; exact H].
  - induction m as [|[k x] m IHm]; intros n v H; [destruct H|]. destruct H as [E|H]; [|eapply IHm; exact H]. injection E as _ <-. apply IH.
Qed.
Lemma emplace_fresh {A} (l : list (string * A)) : forall acc, NoDup (map fst (acc ++ l)) -> emplace_all acc l = acc ++ l.
Proof.
  induction l as [|[k v] l IH]; intros acc N; [cbn; rewrite app_nil_r; reflexivity|]. cbn [emplace_all].
  assert (E : mfind acc k = None).
  { destruct (mfind acc k) as [x|] eqn:F; [|reflexivity]. exfalso. rewrite map_app in N. cbn in N. apply NoDup_remove_2 in N. apply N. apply in_or_app. left.
    clear - F. induction acc as [|[a b] acc IHa]; [discriminate|]. cbn in F. destruct (String.eqb_spec a k) as [->|]; [left; reflexivity|right; apply IHa; exact F]. }
  rewrite E, IH; rewrite <- app_assoc; [reflexivity|exact N].
Qed.
(** Parameters written in ROS or Python arrive unchanged, so both interfaces and all of the above read the same configuration. *)
Theorem C77_params : forall p,
  x_toParamValue (to_ros p) = p /\
  (forall l, p = PArray l -> x_toParamArray (to_ros p) = l) /\ (forall m, p = PMap m -> x_toParamMap (to_ros p) = m) /\
  (pwf p -> small_ints p -> py_toParamValue (to_py p) = Some p).
Proof.
  assert (R : forall p, x_toParamValue (to_ros p) = p).
  { induction p as [b|z|q|s|l IH|m IH] using pvalue_nested; try reflexivity; cbn [to_ros x_toParamValue].
    - f_equal. rewrite map_map. rewrite <- (map_id l) at 2. apply map_ext_in. exact IH.
    - f_equal. rewrite map_map. rewrite <- (map_id m) at 2. apply map_ext_in. intros [k v] H. cbn. rewrite (IH k v H). reflexivity. }
  intros p. split; [apply R|]. split; [|split].
  - intros l ->. cbn. rewrite map_map. rewrite <- (map_id l) at 2. apply map_ext. exact R.
  - intros m ->. cbn. rewrite map_map. rewrite <- (map_id m) at 2. apply map_ext. intros [k v]. cbn. rewrite R. reflexivity.
  - induction p as [b|z|q|s|l IH|m IH] using pvalue_nested; intros W S; try reflexivity.
    + inversion S; subst. cbn [to_py py_toParamValue]. replace (- 2 ^ 31 <=? z) with true by lia. replace (z <? 2 ^ 31) with true by lia. reflexivity.
    + inversion W as [| | | |? Wl|]; subst. inversion S as [| | | |? Sl|]; subst. cbn [to_py py_toParamValue].
      match goal with |- match ?G (map to_py l) with _ => _ end = _ => assert (E : G (map to_py l) = Some l) end.
      { clear W S. induction l as [|x l IHl]; [reflexivity|]. cbn [map]. rewrite (IH x (or_introl eq_refl) (Wl x (or_introl eq_refl)) (Sl x (or_introl eq_refl))).
        rewrite IHl; [reflexivity| | |]; intros v H; [apply IH|apply Wl|apply Sl]; right; exact H. }
      rewrite E. reflexivity.
    + inversion W as [| | | | |? NP Wm]; subst. inversion S as [| | | | |? Sm]; subst. cbn [to_py py_toParamValue].
      match goal with |- match ?G ?mm with _ => _ end = _ => assert (E : G mm = Some m) end.
      { clear W S NP. induction m as [|[k x] m IHm]; [reflexivity|]. cbn [map fst snd].
        rewrite (IH k x (or_introl eq_refl) (Wm k x (or_introl eq_refl)) (Sm k x (or_introl eq_refl))).
        rewrite IHm; [reflexivity| | |]; intros n v H; [apply (IH n)|apply (Wm n)|apply (Sm n)]; right; exact H. }
      rewrite E. f_equal. f_equal. apply (emplace_fresh m []). exact NP.
Qed.

(** ** The ROS server *)
(** Sections of the configuration: a map (empty if missing), a list, and a list of named entries *)
Definition section_map (cfg : string -> option pvalue) (ns : string) (params : list (string * pvalue)) : Prop :=
  cfg ns = Some (PMap params) \/ (cfg ns = None /\ params = []).
Definition entries (cfg : string -> option pvalue) (ns : string) : list pvalue := match cfg ns with Some (PArray l) => l | _ => [] end.
Definition named (cfg : string -> option pvalue) (ns : string) : list (string * pvalue) := match cfg ns with Some (PMap m) => m | _ => [] end.
Definition describes_entry (pi : Q) (fam : list (string * cls)) (p : pvalue) (a : component) : Prop := exists params, p = PMap params /\ describes pi fam params a.
Definition describes_named (pi : Q) (m : component) (np : string * pvalue) (ng : string * integrator) : Prop :=
  fst ng = fst np /\ describes_integrator pi m (snd np) (snd ng).
(** The general settings and the map of a server *)
Definition right_base (pi : Q) (threads : Z) (cfg : string -> option pvalue) (s : server_setup) : Prop :=
  exists gp mp, section_map cfg "general" gp /\ loaded pi (RosServerConfig threads) gp (s_general s) /\
    text (s_general s) "world_frame" /\ at_least (s_general s) "num_threads" 1 /\
    section_map cfg "map" mp /\
    (describes pi maps mp (s_map s) \/
     ((forall name k, type_entry mp name -> ~ In (name, k) maps) /\ c_class (s_map s) = HashedBlocks /\
      loaded pi (members_of HashedBlocks) mp (c_cfg (s_map s)) /\ sound pi HashedBlocks (c_cfg (s_map s)))).
Lemma create_all_builds {P A} (f : P -> made A) (D : P -> A -> Prop) l r : (forall p a, In p l -> (f p = Made a <-> D p a)) ->
  create_all f l = Some r -> builds D l r.
Proof.
  revert r. induction l as [|p l IH]; intros r HD H; [injection H as <-; constructor|]. cbn [create_all] in H.
  assert (HD' : forall p a, In p l -> (f p = Made a <-> D p a)) by (intros; apply HD; right; assumption).
  destruct (f p) as [a| |] eqn:E; [|constructor; [|apply IH; assumption]|discriminate].
  - destruct (create_all f l) as [r'|]; [|discriminate]. injection H as <-. constructor; [apply HD; [left; reflexivity|exact E]|apply IH; [assumption|reflexivity]].
  - intros a C. apply HD in C; [congruence|left; reflexivity].
Qed.
Lemma create_all_every {P A} (f : P -> made A) (D : P -> A -> Prop) l r : (forall p a, In p l -> (f p = Made a <-> D p a)) ->
  Forall2 D l r -> create_all f l = Some r.
Proof.
  intros HD H. induction H as [|p a l r H H' IH]; [reflexivity|]. cbn [create_all]. assert (E : f p = Made a) by (apply HD; [left; reflexivity|exact H]).
  rewrite E, IH; [reflexivity|]. intros p' a' Hin. apply HD. right. exact Hin.
Qed.
Section SERVER.
Context (pi : Q) (threads : Z) (cfg : string -> option pvalue).
Notation nh := (fun ns => option_map to_ros (cfg ns)).
Lemma s_value ns : nh_value nh ns = match cfg ns with Some p => p | None => PMap [] end.
Proof. unfold nh_value. destruct (cfg ns) as [p|]; [apply C77_params|reflexivity]. Qed.
Lemma s_array ns : nh_array nh ns = entries cfg ns.
Proof. unfold nh_array, entries. destruct (cfg ns) as [[| | | |l|]|]; try reflexivity. cbn [option_map]. apply (C77_params (PArray l)). reflexivity. Qed.
Lemma s_map_ ns : nh_map nh ns = named cfg ns.
Proof. unfold nh_map, named. destruct (cfg ns) as [[| | | | |m]|]; try reflexivity. cbn [option_map]. apply (C77_params (PMap m)). reflexivity. Qed.
Lemma server_nodup : NoDup (map mname (RosServerConfig threads)).
Proof. nodup. Qed.
Lemma server_no_type n k d : In (n, k, d) (RosServerConfig threads) -> n <> "type"%string.
Proof. intros H. in_cases H; discriminate. Qed.
Lemma server_valid_iff p g : cfg_from pi (RosServerConfig threads) p = Some (CConfig g) ->
  (RosServer_isValid g = true <-> text g "world_frame" /\ at_least g "num_threads" 1).
Proof.
  intros H. assert (Ty : typed (RosServerConfig threads) g).
  { assert (KO : kind_ok pi (KConfig (RosServerConfig threads))).
    { apply config_kind_ok; [apply server_nodup|]. intros n k d Hin. in_cases Hin; split; try constructor; try (apply flat_kind_ok; discriminate); reflexivity. }
    apply KO in H. inversion H; subst. assumption. }
  unfold RosServer_isValid. rewrite !andb_true_iff. rewrite (text_iff g "world_frame") by (eapply (t_str _ _ _ _ Ty); member_in).
  rewrite (at_least_iff g "num_threads" 0) by (eapply (t_int _ _ _ _ Ty); member_in). change (0 + 1) with 1.
  assert (TT : ts_isValid logging_level_names (ct g "logging_level") = true).
  { destruct (Ty "logging_level"%string (KType logging_level_names) (CType 1)) as (x & E & K); [member_in|]. inversion K; subst. unfold ct. rewrite E. assumption. }
  tauto.
Qed.
Context (W : forall ns p, cfg ns = Some p -> pwf p).
Lemma section_wf ns params : section_map cfg ns params -> NoDup (map fst params) /\ nh_value nh ns = PMap params.
Proof.
  rewrite s_value. intros [E|[E ->]]; rewrite E; [|split; [constructor|reflexivity]]. apply W in E. inversion E; subst. split; [assumption|reflexivity].
Qed.
Lemma value_section ns m : nh_value nh ns = PMap m -> section_map cfg ns m.
Proof. rewrite s_value. unfold section_map. destruct (cfg ns); intros H; [left; congruence|right; split; [reflexivity|congruence]]. Qed.
Lemma op_iff p a : In p (entries cfg "map_operations") -> (server_operation pi p = Made a <-> describes_entry pi operations p a).
Proof.
  intros H. apply factory_iff; [nodup|apply operation_factory|]. unfold entries in H. destruct (cfg "map_operations") as [[| | | |l|]|] eqn:E; try (destruct H; fail).
  apply W in E. inversion E; subst. auto.
Qed.
Lemma in_iff p a : In p (entries cfg "inputs") -> (input_create pi p = Made a <-> describes_entry pi inputs p a).
Proof.
  intros H. apply factory_iff; [nodup|apply input_factory|]. unfold entries in H. destruct (cfg "inputs") as [[| | | |l|]|] eqn:E; try (destruct H; fail).
  apply W in E. inversion E; subst. auto.
Qed.
Lemma named_iff m np ng : In np (named cfg "measurement_integrators") -> (named_integrator pi m np = Made ng <-> describes_named pi m np ng).
Proof.
  intros H. assert (Wp : pwf (snd np)).
  { unfold named in H. destruct (cfg "measurement_integrators") as [[| | | | |mm]|] eqn:E; try (destruct H; fail). apply W in E. inversion E as [| | | | |? NP Wm]; subst.
    destruct np as [n v]. eapply Wm. exact H. }
  unfold named_integrator, describes_named. destruct np as [n v], ng as [n' g]; cbn [fst snd] in *. rewrite <- (C77_integrator pi v m g Wp).
  destruct (integrator_create pi v m) as [g'| |]; split; try discriminate; try (intros [_ X]; discriminate).
  - intros X; injection X as <- <-. auto.
  - intros [-> X]. injection X as ->. reflexivity.
Qed.
Lemma map_right mp a : section_map cfg "map" mp ->
  (map_create pi (PMap mp) (Some 0) = Made a <->
   describes pi maps mp a \/ ((forall name k, type_entry mp name -> ~ In (name, k) maps) /\ c_class a = HashedBlocks /\
      loaded pi (members_of HashedBlocks) mp (c_cfg a) /\ sound pi HashedBlocks (c_cfg a))).
Proof.
  intros S. apply section_wf in S. destruct S as [NP _]. destruct (proj1 (C77_map pi) mp (Some 0) NP) as [A B].
  assert (Dec : (exists name k, type_entry mp name /\ In (name, k) maps) \/ forall name k, type_entry mp name -> ~ In (name, k) maps).
  { destruct (getTypeStr (PMap mp)) as [name|] eqn:T.
    - destruct (mfind maps name) as [k|] eqn:M.
      + left. exists name, k. split; [apply type_str; assumption|apply mfind_in; [nodup|assumption]].
      + right. intros name' k T' Hin. apply type_str in T'; [|assumption]. assert (name' = name) by congruence. subst. apply mfind_in in Hin; [congruence|nodup].
    - right. intros name' k T' _. apply type_str in T'; [|assumption]. congruence. }
  split.
  - intros H. destruct Dec as [(name & k & T & Hin)|No].
    + left. destruct (A name k T Hin) as (c & L & [[S E]|[S E]]); rewrite E in H; [|discriminate]. injection H as <-. exists name. cbn. auto.
    + right. split; [exact No|]. destruct (B No) as [_ (c & L & [[S E]|[S E]])]; rewrite E in H; [|discriminate]. injection H as <-. cbn. auto.
  - intros [(name & T & Hin & L & S)|(No & K & L & S)].
    + destruct (A name _ T Hin) as (c & L' & D). assert (c = c_cfg a) by (eapply loaded_unique; try eassumption; apply members_nodup). subst c.
      destruct D as [[_ E]|[S' _]]; [|contradiction]. rewrite E. destruct a; reflexivity.
    + destruct (B No) as [_ (c & L' & D)]. assert (c = c_cfg a) by (eapply loaded_unique; try eassumption; apply (members_nodup HashedBlocks)). subst c.
      destruct D as [[_ E]|[S' _]]; [|contradiction]. rewrite E. destruct a; cbn in *; congruence.
Qed.
End SERVER.
(** If the server starts, then its settings, map, operations, integrators and inputs are the described ones, in the order of the
    configuration; only entries that describe nothing are skipped. *)
Theorem C77_server : forall pi threads cfg s, (forall ns p, cfg ns = Some p -> pwf p) ->
  server_start pi threads (fun ns => option_map to_ros (cfg ns)) = Made s ->
  right_base pi threads cfg s /\
  builds (describes_entry pi operations) (entries cfg "map_operations") (s_operations s) /\
  builds (describes_named pi (s_map s)) (named cfg "measurement_integrators") (s_integrators s) /\
  builds (describes_entry pi inputs) (entries cfg "inputs") (s_inputs s).
Proof.
  intros pi threads cfg s W H. unfold server_start in H. set (nh := fun ns => option_map to_ros (cfg ns)) in *.
  destruct (cfg_from pi (RosServerConfig threads) (nh_value nh "general")) as [[| | | | | | |g]|] eqn:G; try discriminate.
  destruct (RosServer_isValid g) eqn:V; [|discriminate].
  destruct (map_create pi (nh_value nh "map") (Some 0)) as [m| |] eqn:M; try discriminate.
  destruct (create_all (server_operation pi) (nh_array nh "map_operations")) as [ops|] eqn:O; [|discriminate].
  destruct (create_all (named_integrator pi m) (nh_map nh "measurement_integrators")) as [ints|] eqn:I; [|discriminate].
  destruct (create_all (input_create pi) (nh_array nh "inputs")) as [ins|] eqn:N; [|discriminate]. injection H as <-. cbn [s_general s_map s_operations s_integrators s_inputs].
  unfold nh in O, I, N. rewrite s_array in O, N. rewrite s_map_ in I.
  split; [|split; [|split]].
  - assert (Gm : exists gp, nh_value nh "general" = PMap gp).
    { destruct (nh_value nh "general") eqn:E; try discriminate. eauto. }
    destruct Gm as [gp Gp]. assert (Mm : exists mp, nh_value nh "map" = PMap mp).
    { destruct (nh_value nh "map") eqn:E; try (rewrite (proj2 (C77_map pi)) in M by discriminate; discriminate). eauto. }
    destruct Mm as [mp Mp]. pose proof (value_section cfg "general" gp Gp) as Sg. pose proof (value_section cfg "map" mp Mp) as Sm.
    exists gp, mp. split; [exact Sg|]. pose proof (section_wf cfg W "general" gp Sg) as [NG _].
    rewrite Gp in G. destruct (cfg_loaded pi (RosServerConfig threads) gp (server_nodup threads) (server_no_type threads) NG) as (c & E & L).
    assert (c = g) by congruence. subst c. split; [exact L|]. apply (server_valid_iff pi threads _ g G) in V. split; [apply V|]. split; [apply V|]. split; [exact Sm|].
    rewrite Mp in M. apply (map_right pi cfg W mp m Sm). exact M.
  - eapply create_all_builds; [|exact O]. intros p a Hin. apply (op_iff pi cfg W p a Hin).
  - eapply create_all_builds; [|exact I]. intros p a Hin. apply (named_iff pi cfg W m p a Hin).
  - eapply create_all_builds; [|exact N]. intros p a Hin. apply (in_iff pi cfg W p a Hin).
Qed.
(** If every entry describes a component, the server starts with all of them. *)
Theorem C77_server_starts : forall pi threads cfg s, (forall ns p, cfg ns = Some p -> pwf p) ->
  right_base pi threads cfg s ->
  Forall2 (describes_entry pi operations) (entries cfg "map_operations") (s_operations s) ->
  Forall2 (describes_named pi (s_map s)) (named cfg "measurement_integrators") (s_integrators s) ->
  Forall2 (describes_entry pi inputs) (entries cfg "inputs") (s_inputs s) ->
  server_start pi threads (fun ns => option_map to_ros (cfg ns)) = Made s.
Proof.
  intros pi threads cfg [g m ops ints ins] W (gp & mp & Sg & L & T & A & Sm & M) O I N. cbn [s_general s_map s_operations s_integrators s_inputs] in *.
  unfold server_start. destruct (section_wf cfg W "general" gp Sg) as [NG Eg]. destruct (section_wf cfg W "map" mp Sm) as [NM Em]. rewrite Eg, Em.
  destruct (cfg_loaded pi (RosServerConfig threads) gp (server_nodup threads) (server_no_type threads) NG) as (c & E & L').
  assert (c = g) by exact (loaded_unique pi _ gp c g (server_nodup threads) NG L' L). subst c. rewrite E.
  rewrite (proj2 (server_valid_iff pi threads _ g E)) by (split; assumption).
  rewrite (proj2 (map_right pi cfg W mp m Sm) M). rewrite !s_array, s_map_.
  rewrite (create_all_every (server_operation pi) _ _ _ (fun p a Hin => op_iff pi cfg W p a Hin) O).
  rewrite (create_all_every (named_integrator pi m) _ _ _ (fun p a Hin => named_iff pi cfg W m p a Hin) I).
  rewrite (create_all_every (input_create pi) _ _ _ (fun p a Hin => in_iff pi cfg W p a Hin) N). reflexivity.
Qed.

(** ** Defaults *)
(** With no other settings than the type, these classes are built with the listed settings; for the others the program ends. *)
Definition default_settings (k : cls) : option config :=
  match k with
  | HashedBlocks => Some [("min_cell_width", CUnit (1 # 10)); ("min_log_odds", CFloat (-2)); ("max_log_odds", CFloat 4)]
  | VolumetricOctree | WaveletOctree =>
      Some [("min_cell_width", CUnit (1 # 10)); ("min_log_odds", CFloat (-2)); ("max_log_odds", CFloat 4); ("tree_height", CInt 14)]
  | HashedWaveletOctree | HashedChunkedWaveletOctree =>
      Some [("min_cell_width", CUnit (1 # 10)); ("min_log_odds", CFloat (-2)); ("max_log_odds", CFloat 4); ("tree_height", CInt 6);
            ("only_prune_blocks_if_unused_for", CUnit 5)]
  | RayTracingIntegrator => Some [("min_range", CUnit (1 # 2)); ("max_range", CUnit 20)]
  | FixedResolutionIntegrator | CoarseToFineIntegrator | WaveletIntegrator | HashedWaveletIntegrator | HashedChunkedWaveletIntegrator =>
      Some [("min_range", CUnit (1 # 2)); ("max_range", CUnit 20); ("max_update_resolution", CUnit 0); ("termination_update_error", CFloat (1 # 10))]
  | ThresholdMapOperation => Some [("once_every", CUnit 2)]
  | PruneMapOperation => Some [("once_every", CUnit 10)]
  | PublishMapOperation => Some [("once_every", CUnit 2); ("max_num_blocks_per_msg", CInt 1000); ("topic", CString "map")]
  | PublishPointcloudOperation =>
      Some [("once_every", CUnit 1); ("occupancy_threshold_log_odds", CFloat (1 # 1000)); ("only_publish_changed_blocks", CBool true);
            ("topic", CString "obstacle_pointcloud")]
  | SphericalProjector | OusterProjector | PinholeCameraProjector | ContinuousRay | ContinuousBeam | CropMapOperation
  | PointcloudTopicInput | DepthImageTopicInput => None
  end%string.
Theorem C77_defaults : forall pi k name r, outcome pi k [("type"%string, PString name)] r ->
  r = match default_settings k with Some c => Made (Comp k c) | None => Aborted end.
Proof.
  intros pi k name r (c & L & H). assert (NP : NoDup (map fst [("type"%string, PString name)])) by nodup.
  destruct (cfg_loaded pi (members_of k) _ (members_nodup k) (members_no_type k) NP) as (c' & E & L').
  assert (c' = c) by exact (loaded_unique pi _ _ c' c (members_nodup k) NP L' L). subst c'.
  pose proof (valid_iff pi k c (cfg_typed pi k _ c E)) as V.
  assert (D : c = defaults (members_of k)) by (cbn [cfg_from readParam fold_left String.eqb Ascii.eqb Bool.eqb kTypeSelectorKey] in E; congruence). subst c. clear E L L'.
  destruct H as [[S ->]|[S ->]]; [apply V in S|assert (S' : valid_of pi k (defaults (members_of k)) = false) by (destruct (valid_of pi k _) eqn:X; [exfalso; apply S; apply V; reflexivity|reflexivity]); clear S; rename S' into S].
  - destruct k; try reflexivity; exfalso; cbn [valid_of members_of] in S;
      unfold SphericalProjector_isValid, OusterProjector_isValid, CircularProjector_isValid in S; rewrite ?andb_false_r in S; try discriminate S.
  - destruct k; try reflexivity; vm_compute in S; discriminate S.
Qed.
Example C77_defaults_ex : outcome (355 # 113) PruneMapOperation [("type"%string, PString "prune_map")] (server_operation (355 # 113) (PMap [("type"%string, PString "prune_map")])).
Proof. apply (proj1 (C77_operation (355 # 113))) with (name := "prune_map"%string); [nodup|left; reflexivity|right; left; reflexivity]. Qed.

(** ** Example: /repo/interfaces/ros1/wavemap_ros/config/wavemap_livox_mid360.yaml *)
Definition u (name : string) (q : Q) : pvalue := PMap [(name, PFloat q)].
Definition ex_op (type : string) (q : Q) : pvalue := PMap [("type", PString type); ("once_every", u "seconds" q)]%string.
Definition ex_method (type : string) : pvalue := PMap [("type", PString type); ("min_range", u "meters" (1 # 2)); ("max_range", u "meters" 12)]%string.
Definition ex_model (type : string) (range_sigma : pvalue) : pvalue :=
  PMap [("type", PString type); ("angle_sigma", u "degrees" (5 # 100)); ("range_sigma", range_sigma); ("scaling_free", PFloat (2 # 10));
        ("scaling_occupied", PFloat (4 # 10))]%string.
Definition ex_livox (model : pvalue) : pvalue :=
  PMap [("projection_model", PMap [("type", PString "spherical_projector");
           ("elevation", PMap [("num_cells", PInt 32); ("min_angle", u "degrees" (-7)); ("max_angle", u "degrees" 52)]);
           ("azimuth", PMap [("num_cells", PInt 512); ("min_angle", u "degrees" (-180)); ("max_angle", u "degrees" 180)])]);
        ("measurement_model", model); ("integration_method", ex_method "hashed_chunked_wavelet_integrator")]%string.
Definition ex_input : pvalue :=
  PMap [("type", PString "pointcloud_topic"); ("topic_name", PString "/livox/lidar"); ("topic_type", PString "livox");
        ("measurement_integrator_names", PString "livox_mid360"); ("undistort_motion", PBool true);
        ("reprojected_pointcloud_topic_name", PString "/wavemap/input"); ("topic_queue_length", PInt 10); ("max_wait_for_pose", u "seconds" 1)]%string.
Definition ex_cfg (map_type : string) (ops : list pvalue) (model : pvalue) (ns : string) : option pvalue :=
  mfind [("general", PMap [("world_frame", PString "odom"); ("logging_level", PString "debug"); ("allow_reset_map_service", PBool true)]);
         ("map", PMap [("type", PString map_type); ("min_cell_width", u "meters" (1 # 10))]);
         ("map_operations", PArray ops); ("measurement_integrators", PMap [("livox_mid360", ex_livox model)]); ("inputs", PArray [ex_input])]%string ns.
Definition ex_ops : list pvalue := [ex_op "threshold_map" 2; ex_op "prune_map" 10; ex_op "publish_map" 2]%string.
Definition ex_start (map_type : string) (ops : list pvalue) (model : pvalue) : made server_setup :=
  server_start (355 # 113) 8 (fun ns => option_map to_ros (ex_cfg map_type ops model ns)).
Definition wf_list (l : list pvalue) : Prop := forall v, In v l -> pwf v.
Fixpoint distinct (l : list string) : bool := match l with [] => true | x :: l' => negb (existsb (String.eqb x) l') && distinct l' end.
Fixpoint pwfb (p : pvalue) : bool :=
  match p with
  | PArray l => forallb pwfb l
  | PMap m => distinct (map fst m) && forallb (fun kv => pwfb (snd kv)) m
  | _ => true
  end.
Lemma distinct_ok l : distinct l = true -> NoDup l.
Proof.
  induction l as [|x l IH]; [constructor|]. cbn. rewrite andb_true_iff, negb_true_iff. intros [H H']. constructor; [|apply IH; exact H'].
  intros C. apply not_true_iff_false in H. apply H. apply existsb_exists. exists x. split; [exact C|apply String.eqb_refl].
Qed.
Lemma pwfb_ok p : pwfb p = true -> pwf p.
Proof.
  induction p as [b|z|q|s|l IH|m IH] using pvalue_nested; intros H; constructor; cbn [pwfb] in H.
  - rewrite forallb_forall in H. auto.
  - apply andb_true_iff in H. apply distinct_ok. apply H.
  - intros n v Hin. apply andb_true_iff in H. destruct H as [_ H]. rewrite forallb_forall in H. apply (IH n v Hin). apply (H (n, v) Hin).
Qed.
Ltac wf := apply pwfb_ok; vm_compute; reflexivity.
Lemma ex_wf map_type ops model ns p : wf_list ops -> pwf model -> ex_cfg map_type ops model ns = Some p -> pwf p.
Proof.
  intros Wo Wm H. unfold ex_cfg in H. cbn [mfind] in H.
  destruct (String.eqb "general" ns); [injection H as <-; wf|]. destruct (String.eqb "map" ns); [injection H as <-; wf|].
  destruct (String.eqb "map_operations" ns); [injection H as <-; constructor; exact Wo|].
  destruct (String.eqb "measurement_integrators" ns); [|destruct (String.eqb "inputs" ns); [|discriminate]; injection H as <-; wf].
  injection H as <-. constructor; [nodup|]. intros n v [E|[]]. injection E as <- <-. constructor; [nodup|]. intros n v [E|[E|[E|[]]]]; injection E as <- <-; [wf|exact Wm|wf].
Qed.
Definition ex_shown (s : server_setup) :=
  (s_map s, map c_class (s_operations s), map (fun ng => (fst ng, c_class (g_comp (snd ng)), option_map (fun x => (c_class (fst (fst x)), c_class (snd (fst x)), snd x)) (g_parts (snd ng)))) (s_integrators s),
   map (fun a => (c_class a, mfind (c_cfg a) "topic_type", mfind (c_cfg a) "measurement_integrator_names", mfind (c_cfg a) "processing_retry_period")) (s_inputs s))%string.
Example C77_ex :
  (forall ns p, ex_cfg "hashed_chunked_wavelet_octree" ex_ops (ex_model "continuous_beam" (u "meters" (8 # 100))) ns = Some p -> pwf p) /\
  exists s, ex_start "hashed_chunked_wavelet_octree" ex_ops (ex_model "continuous_beam" (u "meters" (8 # 100))) = Made s /\
  ex_shown s =
    (Comp HashedChunkedWaveletOctree [("min_cell_width", CUnit (1 # 10)); ("min_log_odds", CFloat (-2)); ("max_log_odds", CFloat 4);
       ("tree_height", CInt 6); ("only_prune_blocks_if_unused_for", CUnit 5)],
     [ThresholdMapOperation; PruneMapOperation; PublishMapOperation],
     [("livox_mid360", HashedChunkedWaveletIntegrator, Some (SphericalProjector, ContinuousBeam, (32, 512)))],
     [(PointcloudTopicInput, Some (CType 2), Some (CStrings ["livox_mid360"]), Some (CUnit (1 # 20)))])%string.
Proof.
  split; [intros ns p; apply ex_wf; [intros v H; cbn [In ex_ops] in H; repeat (destruct H as [<-|H]; [wf|]); contradiction|wf]|]. eexists. split; [vm_compute; reflexivity|]. vm_compute. reflexivity.
Qed.

(** ** What is not so *)
(** The server does not skip an operation with unusable values, as it does with an unknown one: the program ends. *)
Theorem C77_skip_refuted : exists map_type model bad unknown,
  (forall ns p, ex_cfg map_type (bad :: ex_ops) model ns = Some p -> pwf p) /\
  (forall a, ~ describes_entry (355 # 113) operations bad a) /\ (forall a, ~ describes_entry (355 # 113) operations unknown a) /\
  (exists s, ex_start map_type ex_ops model = Made s) /\ (exists s, ex_start map_type (unknown :: ex_ops) model = Made s) /\
  ex_start map_type (bad :: ex_ops) model = Aborted.
Proof.
  exists "hashed_chunked_wavelet_octree"%string, (ex_model "continuous_beam" (u "meters" (8 # 100))), (ex_op "prune_map" 0), (ex_op "prune" 10).
  assert (Wb : pwf (ex_op "prune_map" 0)) by wf. assert (Wu : pwf (ex_op "prune" 10)) by wf.
  split; [intros ns p; apply ex_wf; [intros v H; cbn [In ex_ops] in H; repeat (destruct H as [<-|H]; [wf|]); contradiction|wf]|]. repeat split.
  - intros a D. apply (factory_iff (355 # 113) operations _ ltac:(nodup) (operation_factory _) _ a Wb) in D. vm_compute in D. discriminate.
  - intros a D. apply (factory_iff (355 # 113) operations _ ltac:(nodup) (operation_factory _) _ a Wu) in D. vm_compute in D. discriminate.
  - eexists. vm_compute. reflexivity.
  - eexists. vm_compute. reflexivity.
Qed.
(** A number without unit is not an error at its place: the default is used, and as this is 0 for range_sigma the program ends. *)
Theorem C77_unit_refuted : exists map_type, (exists s, ex_start map_type ex_ops (ex_model "continuous_beam" (u "meters" (8 # 100))) = Made s) /\
  ex_start map_type ex_ops (ex_model "continuous_beam" (PFloat (8 # 100))) = Aborted.
Proof. exists "hashed_chunked_wavelet_octree"%string. split; [eexists|]; vm_compute; reflexivity. Qed.
(** An accepted type name that builds nothing: the server starts without the integrator. *)
Theorem C77_constant_ray_refuted : exists map_type model, In model measurement_model_names /\
  exists s, ex_start map_type ex_ops (ex_model model (u "meters" (8 # 100))) = Made s /\ s_integrators s = [].
Proof.
  exists "hashed_chunked_wavelet_octree"%string, "constant_ray"%string. split; [left; reflexivity|]. eexists. split; vm_compute; reflexivity.
Qed.
(** A misspelt map type starts the server with hashed blocks, and then without the integrator. *)
Theorem C77_map_type_refuted : exists map_type, (forall k, ~ In (map_type, k) maps) /\
  exists s, ex_start map_type ex_ops (ex_model "continuous_beam" (u "meters" (8 # 100))) = Made s /\ c_class (s_map s) = HashedBlocks /\ s_integrators s = [].
Proof.
  exists "hashed_chunked_wavelet"%string. split; [intros k H; cbn [In maps] in H; repeat (destruct H as [H|H]); try contradiction; discriminate|].
  eexists. split; [vm_compute; reflexivity|]. split; vm_compute; reflexivity.
Qed.
(** Maps are accepted whose log odds cannot be 0, the value of unobserved space, and whose node indices at a height of 40 do not fit in the 64 bits
    of a Morton code. *)
Theorem C77_limits_refuted : exists params a, NoDup (map fst params) /\ map_create (355 # 113) (PMap params) None = Made a /\
  c_class a = HashedWaveletOctree /\ (exists q, number (c_cfg a) "min_log_odds" q /\ (0 < q)%Q) /\ (exists T, mfind (c_cfg a) "tree_height" = Some (CInt T) /\ 64 < 3 * T).
Proof.
  exists [("type", PString "hashed_wavelet_octree"); ("min_log_odds", PInt 1); ("tree_height", PInt 40)]%string. eexists. split; [nodup|].
  split; [vm_compute; reflexivity|]. split; [reflexivity|]. split; [exists 1%Q; split; [right; reflexivity|reflexivity]|]. exists 40. split; [reflexivity|lia].
Qed.

Print Assumptions C77_map.
Print Assumptions C77_operation.
Print Assumptions C77_input.
Print Assumptions C77_integrator.
Print Assumptions C77_params.
Print Assumptions C77_server.
Print Assumptions C77_server_starts.
Print Assumptions C77_defaults.
Print Assumptions C77_skip_refuted.
Print Assumptions C77_unit_refuted.
Print Assumptions C77_constant_ray_refuted.
Print Assumptions C77_map_type_refuted.
Print Assumptions C77_limits_refuted.
