(** * C78: the published schemas and the code agree on the settings *)
From Verif Require Import Base M_Config P_Config M_Factory P_Factory M_Schema.
From Coq Require Import String QArith Lqa.
Close Scope Q_scope.
Open Scope Z_scope.
Open Scope list_scope.

(** Settings of the schemas that no class has, and settings of the classes that are missing in the schemas *)
Definition ignored (k : cls) (n : string) : Prop :=
  (k = PointcloudTopicInput /\ n = "reprojected_pointcloud_topic_name"%string) \/
  (k = DepthImageTopicInput /\ (n = "reprojected_pointcloud_topic_name"%string \/ n = "projected_range_image_topic_name"%string)).
Definition unlisted (k : cls) (n : string) : Prop :=
  (k = PublishPointcloudOperation /\ n = "only_publish_changed_blocks"%string) \/
  (k = PointcloudTopicInput /\ n = "undistorted_pointcloud_topic_name"%string) \/
  (k = DepthImageTopicInput /\ n = "projected_pointcloud_topic_name"%string).

(** ** Proof *)
Inductive fits : stype -> kind -> Prop :=
| f_string : fits SString KString | f_bool : fits SBool KBool | f_int lo : fits (SInt lo) KInt | f_num lo : fits (SNum lo) KFloat
| f_enum names : NoDup names -> fits (SEnum names) (KType names)
| f_unit names u : (forall n, In n names -> forall pi, exists f, is_unit pi n u f) -> fits (SUnit names) (KUnit u)
| f_names : fits SNames KStrings
| f_object props req ms : fits (SObject props req) (KConfig ms).
Lemma fits_reads pi st kd v : fits st kd -> accepts st v -> exists x, reads pi kd v x.
Proof.
  intros F A. destruct F as [| | | |names ND|names u Hu| |props req ms]; inversion A; subst; cbn [reads]; try (eexists; eexists; split; reflexivity).
  - exists (CFloat (inject_Z z)). right. eauto.
  - exists (CFloat q). left. eauto.
  - destruct (In_nth_error names s) as [i Hi]; [assumption|]. destruct (C47_type_names names ND) as [T _]. destruct (T i s Hi) as (_ & _ & E & _).
    exists (CType (Z.of_nat i)), s, (Z.of_nat i). auto.
  - destruct (Hu n ltac:(assumption) pi) as [f Hf]. match goal with H : accepts (SNum None) ?v |- _ => inversion H; subst end.
    + exists (CUnit (inject_Z z * f)%Q). exists (inject_Z z * f)%Q. split; [|reflexivity]. apply C47_units. exists n, f, (PInt z). split; [reflexivity|]. split; [exact Hf|]. right. eauto.
    + exists (CUnit (q * f)%Q). exists (q * f)%Q. split; [|reflexivity]. apply C47_units. exists n, f, (PFloat q). split; [reflexivity|]. split; [exact Hf|]. left. eauto.
  - exists (CStrings [s]). left. eauto.
  - exists (CStrings (flat_map (fun v => match v with PString s => [s] | _ => [] end) l)). right. do 2 eexists. split; [reflexivity|]. split; [reflexivity|].
    apply strings_only. reflexivity.
Qed.
Lemma meters_fit : fits to_meters (KUnit kMeters).
Proof. constructor. intros n H pi. cbn [In] in H. repeat (destruct H as [<-|H]; [eexists; first [apply u_m; tauto|apply u_dm; tauto|apply u_cm; tauto|apply u_mm; tauto]|]). contradiction. Qed.
Lemma radians_fit : fits to_radians (KUnit kRadians).
Proof. constructor. intros n H pi. cbn [In] in H. repeat (destruct H as [<-|H]; [eexists; first [apply u_rad; tauto|apply u_deg; tauto]|]). contradiction. Qed.
Lemma seconds_fit : fits to_seconds (KUnit kSeconds).
Proof. constructor. intros n H pi. cbn [In] in H. repeat (destruct H as [<-|H]; [eexists; apply u_sec; tauto|]). contradiction. Qed.
Ltac fit := first [exact meters_fit|exact radians_fit|exact seconds_fit|constructor; fail|constructor; nodup].
Lemma schema_fits k n st : In (n, st) (schema k) -> n <> "type"%string -> ~ ignored k n -> exists kd d, In (n, kd, d) (members_of k) /\ fits st kd.
Proof.
  intros H T I. destruct k; cbn [schema const map_common projective_props input_common app In] in H;
    repeat (destruct H as [H|H]; [injection H as <- <-; try (exfalso; apply T; reflexivity);
      first [exfalso; apply I; unfold ignored; tauto | do 2 eexists; split; [member_in|fit]]|]); contradiction.
Qed.
Lemma members_listed k n kd d : In (n, kd, d) (members_of k) -> ~ unlisted k n -> exists st, In (n, st) (schema k) /\ fits st kd.
Proof.
  intros H I. destruct k; cbn [members_of] in H; in_cases H;
    first [exfalso; apply I; unfold unlisted; tauto
          | eexists; split; [cbn [schema const map_common projective_props input_common app In]; repeat (first [left; reflexivity|right]); fail|fit]].
Qed.

(** ** Theorems *)
(** A setting that the schema admits takes effect: the built component has the given value. *)
Theorem C78_effect : forall pi k params c n v, NoDup (map fst params) ->
  accepts (component_schema k) (PMap params) -> loaded pi (members_of k) params c ->
  In (n, v) params -> n <> "type"%string -> ~ ignored k n ->
  exists kd d x, In (n, kd, d) (members_of k) /\ reads pi kd v x /\ mfind c n = Some x.
Proof.
  intros pi k params c n v NP A [_ L] Hin T I. inversion A as [| | | | | | | | |? ? ? R P]; subst. destruct (P n v Hin) as (st & Hs & As).
  destruct (schema_fits k n st Hs T I) as (kd & d & Hm & F). destruct (fits_reads pi st kd v F As) as [x Hx].
  exists kd, d, x. split; [exact Hm|]. split; [exact Hx|]. exact (proj1 (L n kd d Hm) v x Hin Hx).
Qed.
(** The same for the settings of an axis of a spherical or Ouster projector *)
Theorem C78_effect_axis : forall pi m c n v, pwf (PMap m) -> accepts circular_schema (PMap m) ->
  cfg_from pi CircularProjectorConfig (PMap m) = Some (CConfig c) -> In (n, v) m ->
  exists kd d x, In (n, kd, d) CircularProjectorConfig /\ reads pi kd v x /\ mfind c n = Some x.
Proof.
  intros pi m c n v W A E Hin. inversion W as [| | | | |? NP _]; subst. inversion A as [| | | | | | | | |? ? ? R P]; subst. destruct (P n v Hin) as (st & Hs & As).
  destruct (cfg_loaded pi CircularProjectorConfig m ltac:(nodup) ltac:(intros ? ? ? H; in_cases H; discriminate) NP) as (c' & E' & [_ L]).
  assert (c' = c) by congruence. subst c'.
  assert (X : exists kd d, In (n, kd, d) CircularProjectorConfig /\ fits st kd).
  { cbn [In] in Hs. repeat (destruct Hs as [Hs|Hs]; [injection Hs as <- <-; do 2 eexists; split; [member_in|fit]|]). contradiction. }
  destruct X as (kd & d & Hm & F). destruct (fits_reads pi st kd v F As) as [x Hx]. exists kd, d, x. split; [exact Hm|]. split; [exact Hx|].
  exact (proj1 (L n kd d Hm) v x Hin Hx).
Qed.
(** An accepted component names a known class, which has this schema (the five projective integrators share one). *)
Theorem C78_type : forall k params, accepts (component_schema k) (PMap params) ->
  exists name k', type_entry params name /\ In (name, k') (maps ++ projectors ++ models ++ integrators ++ operations ++ inputs) /\ schema k' = schema k.
Proof.
  intros k params A. inversion A as [| | | | | | | | |? ? ? R P]; subst. destruct (R "type"%string) as [v Hv]; [destruct k; left; reflexivity|].
  destruct (P _ _ Hv) as (st & Hs & As).
  assert (E : exists names, st = SEnum names /\ In ("type"%string, SEnum names) (schema k)).
  { clear - Hs. pose proof Hs as H. destruct k; cbn [schema const map_common projective_props input_common app In] in Hs;
      repeat (destruct Hs as [Hs|Hs]; [first [discriminate Hs|injection Hs as <-; eexists; split; [reflexivity|exact H]]|]); contradiction. }
  destruct E as (names & -> & Hn). inversion As as [| | | | |? s Hin| | | |]; subst. exists s.
  destruct k;
    (destruct Hn as [Hn|Hn]; [|exfalso; cbn [schema const map_common projective_props input_common app In] in Hn; repeat (destruct Hn as [Hn|Hn]; [discriminate|]); contradiction]);
    injection Hn as <-; cbn [In] in Hin; repeat (destruct Hin as [<-|Hin]; [eexists; split; [exact Hv|split; [cbn [app maps projectors models operations inputs integrators In]; repeat (first [left; reflexivity|right]); fail|reflexivity]]|]); contradiction.
Qed.
(** Every setting of a class is offered by its schema. *)
Theorem C78_listed : forall k n kd d, In (n, kd, d) (members_of k) -> ~ unlisted k n -> exists st, In (n, st) (schema k) /\
  forall pi v, accepts st v -> exists x, reads pi kd v x.
Proof.
  intros k n kd d H I. destruct (members_listed k n kd d H I) as (st & Hs & F). exists st. split; [exact Hs|]. intros pi v A. eapply fits_reads; eassumption.
Qed.
(** The general settings: what the schema admits takes effect, and the server accepts the result unless the frame is empty. *)
Theorem C78_general : forall pi threads params, NoDup (map fst params) -> accepts general_schema (PMap params) -> ~ In ("world_frame"%string, PString "") params ->
  exists c, cfg_from pi (RosServerConfig threads) (PMap params) = Some (CConfig c) /\ RosServer_isValid c = true /\
    (forall n v, In (n, v) params -> exists kd d x, In (n, kd, d) (RosServerConfig threads) /\ reads pi kd v x /\ mfind c n = Some x) /\
    (forall n kd d, In (n, kd, d) (RosServerConfig threads) -> ~ In n (map fst params) -> mfind c n = Some d).
Proof.
  intros pi threads params NP A NE. inversion A as [| | | | | | | | |? ? ? R P]; subst.
  destruct (cfg_loaded pi (RosServerConfig threads) params (server_nodup threads) (server_no_type threads) NP) as (c & E & [K L]).
  assert (Eff : forall n v, In (n, v) params -> exists kd d x, In (n, kd, d) (RosServerConfig threads) /\ reads pi kd v x /\ mfind c n = Some x).
  { intros n v Hin. destruct (P n v Hin) as (st & Hs & As).
    assert (X : exists kd d, In (n, kd, d) (RosServerConfig threads) /\ fits st kd).
    { unfold RosServerConfig. cbn [In] in Hs. repeat (destruct Hs as [Hs|Hs]; [injection Hs as <- <-; do 2 eexists; split; [member_in|fit]|]). contradiction. }
    destruct X as (kd & d & Hm & F). destruct (fits_reads pi st kd v F As) as [x Hx]. exists kd, d, x. split; [exact Hm|]. split; [exact Hx|].
    exact (proj1 (L n kd d Hm) v x Hin Hx). }
  assert (Def : forall n kd d, In (n, kd, d) (RosServerConfig threads) -> ~ In n (map fst params) -> mfind c n = Some d).
  { intros n kd d Hm Hn. apply (proj2 (L n kd d Hm)). intros v x Hin _. apply Hn. apply in_map_iff. exists (n, v). auto. }
  exists c. split; [exact E|]. split; [|split; [exact Eff|exact Def]].
  assert (Look : forall n, {v | In (n, v) params} + {~ In n (map fst params)}).
  { intros n. clear - n. induction params as [|[m v] ps IH]; [right; intros []|]. destruct (string_dec m n) as [->|D]; [left; exists v; left; reflexivity|].
    destruct IH as [[u Hu]|N]; [left; exists u; right; exact Hu|right; intros [H|H]; [apply D; exact H|exact (N H)]]. }
  unfold RosServer_isValid. apply andb_true_intro. split; [apply andb_true_intro; split|].
  - unfold cs. destruct (Look "world_frame"%string) as [[v Hv]|N].
    + destruct (P _ _ Hv) as (st & Hs & As). cbn [In] in Hs. destruct Hs as [Hs|[Hs|[Hs|[Hs|[]]]]]; try discriminate. injection Hs as <-. inversion As as [s| | | | | | | | |]; subst.
      rewrite (proj1 (L "world_frame"%string KString _ (or_introl eq_refl)) _ (CString s) Hv (ex_intro _ s (conj eq_refl eq_refl))).
      unfold nonempty. destruct (String.eqb_spec s "") as [->|]; [contradiction|reflexivity].
    + rewrite (Def _ _ _ (or_introl eq_refl) N). reflexivity.
  - unfold cz. destruct (Look "num_threads"%string) as [[v Hv]|N].
    + destruct (P _ _ Hv) as (st & Hs & As). cbn [In] in Hs. destruct Hs as [Hs|[Hs|[Hs|[Hs|[]]]]]; try discriminate. injection Hs as <-. inversion As as [| |? z Hz| | | | | | |]; subst.
      rewrite (proj1 (L "num_threads"%string KInt _ (or_intror (or_introl eq_refl))) _ (CInt z) Hv (ex_intro _ z (conj eq_refl eq_refl))).
      apply Z.ltb_lt. apply Hz. reflexivity.
    + rewrite (Def _ _ _ (or_intror (or_introl eq_refl)) N). apply Z.ltb_lt. lia.
  - unfold ct. destruct (Look "logging_level"%string) as [[v Hv]|N].
    + destruct (Eff _ _ Hv) as (kd & d & x & Hm & Hr & ->). unfold RosServerConfig in Hm. cbn [In] in Hm. destruct Hm as [Hm|[Hm|[Hm|[Hm|[]]]]]; try discriminate. injection Hm as <- <-.
      destruct Hr as (s & i & _ & T & ->). unfold ts_from_name in T. destruct (ts_isValid logging_level_names (ts_toTypeId logging_level_names s)) eqn:X; [|discriminate]. injection T as <-. exact X.
    + rewrite (Def _ _ _ (or_intror (or_intror (or_introl eq_refl))) N). reflexivity.
Qed.
(** ** What is not so *)
(** The exceptions are exceptions. *)
Theorem C78_ignored_refuted : exists k params n v, NoDup (map fst params) /\ accepts (component_schema k) (PMap params) /\ In (n, v) params /\ n <> "type"%string /\
  forall pi c c', loaded pi (members_of k) params c -> loaded pi (members_of k) (filter (fun e => negb (String.eqb (fst e) n)) params) c' -> c = c'.
Proof.
  pose (params := [("type", PString "pointcloud_topic"); ("topic_name", PString "/livox/lidar"); ("topic_type", PString "livox");
    ("measurement_integrator_names", PString "livox_mid360"); ("reprojected_pointcloud_topic_name", PString "/wavemap/input")]%string).
  exists PointcloudTopicInput, params, "reprojected_pointcloud_topic_name"%string, (PString "/wavemap/input"). split; [nodup|]. split; [|split; [cbn; tauto|split; [discriminate|]]].
  - constructor.
    + intros n H. cbn [required In] in H. repeat (destruct H as [<-|H]; [eexists; cbn [params In]; repeat (first [left; reflexivity|right])|]). contradiction.
    + intros n v H. unfold params in H. cbn [In] in H. repeat (destruct H as [H|H]; [injection H as <- <-; eexists; split;
        [cbn [schema const input_common app In]; repeat (first [left; reflexivity|right]); fail|constructor; cbn; tauto]|]). contradiction.
  - intros pi c c' L L'. destruct (cfg_loaded pi (members_of PointcloudTopicInput) params (members_nodup _) (members_no_type _) ltac:(nodup)) as (d & E & M).
    destruct (cfg_loaded pi (members_of PointcloudTopicInput) (filter (fun e => negb (String.eqb (fst e) "reprojected_pointcloud_topic_name")) params) (members_nodup _) (members_no_type _) ltac:(nodup)) as (d' & E' & M').
    assert (d = c) by (eapply loaded_unique; [apply members_nodup| |exact M|exact L]; nodup). assert (d' = c') by (eapply loaded_unique; [apply members_nodup| |exact M'|exact L']; nodup). subst d d'.
    cut (Some (CConfig c) = Some (CConfig c')); [intros X; injection X as X; exact X|]. rewrite <- E, <- E'. vm_compute. reflexivity.
Qed.
(** A configuration with a setting of the class is rejected by the schema. *)
Theorem C78_unlisted_refuted : exists k params a, NoDup (map fst params) /\ server_operation (355 # 113) (PMap params) = Made a /\ c_class a = k /\
  mfind (c_cfg a) "only_publish_changed_blocks" = Some (CBool false) /\ forall k', ~ accepts (component_schema k') (PMap params).
Proof.
  exists PublishPointcloudOperation, [("type", PString "publish_pointcloud"); ("only_publish_changed_blocks", PBool false)]%string. eexists.
  split; [nodup|]. split; [vm_compute; reflexivity|]. split; [reflexivity|]. split; [reflexivity|]. intros k' A.
  inversion A as [| | | | | | | | |? ? ? R P]; subst. destruct (P "only_publish_changed_blocks"%string (PBool false) (or_intror (or_introl eq_refl))) as (st & H & _).
  destruct k'; cbn [schema const map_common projective_props input_common app In] in H; repeat (destruct H as [H|H]; [discriminate|]); contradiction.
Qed.
(** The schema accepts what ends the program: a negative cell width, a projector without settings. *)
Theorem C78_usable_refuted : exists params params', accepts (component_schema HashedBlocks) (PMap params) /\ accepts (component_schema SphericalProjector) (PMap params') /\
  map_create (355 # 113) (PMap params) None = Aborted /\ projector_create (355 # 113) (PMap [("projection_model"%string, PMap params')]) = Aborted.
Proof.
  exists [("type", PString "hashed_blocks"); ("min_cell_width", PMap [("m", PInt (-1))])]%string, [("type", PString "spherical_projector")]%string.
  split; [|split; [|split; vm_compute; reflexivity]]; (constructor; [intros n [<-|[]]; eexists; left; reflexivity|]); intros n v H; cbn [In] in H;
    repeat (destruct H as [H|H]; [injection H as <- <-; eexists; split; [cbn [schema const map_common app In]; repeat (first [left; reflexivity|right]); fail|]|]); try contradiction;
    first [constructor; left; reflexivity|constructor; [right; left; reflexivity|constructor; discriminate]].
Qed.
(** The schema accepts a measurement model that is never built. *)
Theorem C78_constant_ray_refuted : exists params, accepts constant_ray_schema (PMap params) /\
  forall pi, model_create pi (PMap [("measurement_model"%string, PMap params)]) = Null.
Proof.
  exists [("type", PString "constant_ray"); ("log_odds_free", PFloat (-1))]%string. split; [|reflexivity].
  constructor; [intros n [<-|[]]; eexists; left; reflexivity|]. intros n v [H|[H|[]]]; injection H as <- <-; eexists; (split; [cbn; repeat (first [left; reflexivity|right])|]).
  - constructor. left. reflexivity.
  - constructor. discriminate.
Qed.
(** The schema accepts an empty frame, which ends the server. *)
Theorem C78_empty_frame_refuted : exists params, NoDup (map fst params) /\ accepts general_schema (PMap params) /\
  forall pi threads nh, nh_value nh "general" = PMap params -> server_start pi threads nh = Aborted.
Proof.
  exists [("world_frame", PString "")]%string. split; [nodup|]. split.
  - constructor; [intros n []|]. intros n v [H|[]]. injection H as <- <-. exists SString. split; [left; reflexivity|constructor].
  - intros pi threads nh E. unfold server_start. rewrite E. reflexivity.
Qed.
Example C78_general_ex : let params := [("world_frame", PString "map"); ("num_threads", PInt 4); ("logging_level", PString "warning")]%string in
  NoDup (map fst params) /\ accepts general_schema (PMap params) /\ ~ In ("world_frame"%string, PString "") params.
Proof.
  cbv zeta. split; [nodup|]. split.
  - constructor; [intros n []|]. intros n v H. cbn [In] in H. destruct H as [H|[H|[H|[]]]]; injection H as <- <-; eexists;
      (split; [cbn [In]; repeat (first [left; reflexivity|right]); fail|]); constructor; [intros l H; injection H as <-; lia|cbn; tauto].
  - intros H. cbn [In] in H. destruct H as [H|[H|[H|[]]]]; discriminate.
Qed.
Definition ex_params : list (string * pvalue) :=
  [("type", PString "continuous_beam"); ("angle_sigma", PMap [("deg", PFloat (5 # 100))]); ("range_sigma", PMap [("cm", PInt 8)]); ("beam_selector_type", PString "nearest_neighbor")]%string.
Example C78_ex : NoDup (map fst ex_params) /\ accepts (component_schema ContinuousBeam) (PMap ex_params) /\ exists c, loaded 3 (members_of ContinuousBeam) ex_params c /\
  mfind c "range_sigma" = Some (CUnit (8 # 100)) /\ mfind c "beam_selector_type" = Some (CType 0).
Proof.
  split; [nodup|]. split.
  - constructor; [intros n [<-|[]]; eexists; left; reflexivity|]. intros n v H. unfold ex_params in H. cbn [In] in H.
    repeat (destruct H as [H|H]; [injection H as <- <-; eexists; split; [cbn [schema const In]; repeat (first [left; reflexivity|right]); fail|]|]); try contradiction.
    1, 4: constructor; cbn; tauto.
    1, 2: constructor; [cbn; tauto|constructor; discriminate].
  - destruct (cfg_loaded 3 (members_of ContinuousBeam) ex_params (members_nodup _) (members_no_type _) ltac:(nodup)) as (c & E & L). exists c. split; [exact L|].
    assert (X : c = match cfg_from 3 (members_of ContinuousBeam) (PMap ex_params) with Some (CConfig c) => c | _ => [] end) by (rewrite E; reflexivity). rewrite X. split; reflexivity.
Qed.
Print Assumptions C78_effect.
Print Assumptions C78_effect_axis.
Print Assumptions C78_type.
Print Assumptions C78_listed.
Print Assumptions C78_ignored_refuted.
Print Assumptions C78_unlisted_refuted.
Print Assumptions C78_usable_refuted.
Print Assumptions C78_constant_ray_refuted.
Print Assumptions C78_general.
Print Assumptions C78_empty_frame_refuted.
