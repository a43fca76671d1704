(** Property theorems C84, continued: scans of a level LiDAR. In exact arithmetic. *)
From Verif Require Import Base M_IntMath F_IntMath M_NdtreeIndex M_Num F_Num M_Haar3 M_Ndtree S_Field S_Integrate F_Hash M_Wavelet M_WavHist M_Chunked M_ChunkedHist
  M_VolOctree P_VolOctree P_Wavelet M_Integrator F_Integrator F_Integrator3 P_Integrator P_Integrator3 M_CoarseToFine P_CoarseToFine.
From Verif Require Import M_Point P_Point M_Image M_RangeBounds P_RangeBounds M_Measure F_Measure P_Measure M_Intersector P_Intersector P_Intersector2 P_Intersector3.
From Verif Require Import M_FixedRes P_FixedRes M_CameraScan P_CameraScan P_CameraScan2 M_ProjectorScan P_ProjectorScan P_Azimuth P_Level.
From Coq Require Import QArith Qround Qabs Qcanon Qcabs Lqa Permutation.
Close Scope Qc_scope.
Close Scope Q_scope.
Open Scope Z_scope.

(** ** Specification *)
(** The node does not reach across the planes through the LiDAR that are normal to the world's x and y axes, nor contain a point above or below the LiDAR. *)
Definition aside (T : pose3) (w : Q) (i : oidx) : Prop :=
  let s := cube_side w i in let x := vx (po_t T) in let y := vy (po_t T) in
  let left := ((inject_Z (px (opos i)) + 1) * s)%Q in let right := (inject_Z (px (opos i)) * s)%Q in
  let below := ((inject_Z (py (opos i)) + 1) * s)%Q in let above := (inject_Z (py (opos i)) * s)%Q in
  ((left <= x \/ x <= right) /\ (below <= y \/ y <= above) /\ (left < x \/ x < right \/ below < y \/ y < above))%Q.
(** A level LiDAR: a spherical projection model that is periodic in azimuth only if it covers the circle, and whose columns and padding are not too wide. *)
Definition lidar_ok (fsqrt : Q -> Q) (cfg : mm_config) (mm : mmodel) (sp : spherical) (im : img Q) (T : pose3) : Prop :=
  good_sqrt fsqrt /\ level (po_R T) /\ im_cols im = cp_num (sp_azimuth sp) /\ covers_circle (sp_azimuth sp) /\ (2 * (mm_padding cfg mm + cp_inc (sp_azimuth sp)) <= kPi)%Q.

(** ** Facts *)
Lemma level_transpose R : level R -> level (transpose R).
Proof.
  intros ((O1 & O2 & O3 & O4 & O5 & O6) & Z0 & Z1 & X2 & Y2 & Z2). unfold level, orthonormal, transpose, dot in *. cbn [col0 col1 col2 vx vy vz].
  rewrite Z0, Z1, X2, Y2, Z2 in *. set (a := vx (col0 R)) in *. set (b := vy (col0 R)) in *. set (c := vx (col1 R)) in *. set (d := vy (col1 R)) in *.
  assert (P : (a * a + b * b == 1)%Q) by lra. assert (P' : (c * c + d * d == 1)%Q) by lra. assert (O : (a * c + b * d == 0)%Q) by lra.
  assert (E : (a * a == d * d)%Q).
  { assert (X : (a * c == - (b * d))%Q) by lra. assert (Y : (a * a * (c * c + d * d) == d * d * (a * a + b * b))%Q).
    { setoid_replace (a * a * (c * c + d * d))%Q with ((a * c) * (a * c) + a * a * (d * d))%Q by ring. rewrite X. ring. }
    rewrite P, P' in Y. lra. }
  assert (F : (c * c == b * b)%Q) by lra.
  assert (G : (a * b + c * d == 0)%Q).
  { setoid_replace (a * b + c * d)%Q with ((a * b + c * d) * (a * a + b * b))%Q by (rewrite P; ring).
    assert (A : (a * (a * b + c * d) == 0)%Q) by (setoid_replace (a * (a * b + c * d))%Q with (b * (a * a) + (a * c) * d)%Q by ring; rewrite E; setoid_replace (b * (d * d) + a * c * d)%Q with (d * (a * c + b * d))%Q by ring; rewrite O; ring).
    assert (B : (b * (a * b + c * d) == 0)%Q) by (setoid_replace (b * (a * b + c * d))%Q with (a * (b * b) + (b * d) * c)%Q by ring; rewrite <- F; setoid_replace (a * (c * c) + b * d * c)%Q with (c * (a * c + b * d))%Q by ring; rewrite O; ring).
    setoid_replace ((a * b + c * d) * (a * a + b * b))%Q with (a * (a * (a * b + c * d)) + b * (b * (a * b + c * d)))%Q by ring. rewrite A, B. ring. }
  split; [|repeat split; reflexivity]. repeat split; lra.
Qed.
Lemma level_off_axis W R t : level R -> (vx (M_Intersector.bmax W) < vx t \/ vx t < vx (M_Intersector.bmin W) \/ vy (M_Intersector.bmax W) < vy t \/ vy t < vy (M_Intersector.bmin W))%Q -> off_axis W R t.
Proof.
  intros HL H w (X & Y & _) [A B]. destruct (level_frame R t HL w) as [E _]. unfold h2 in E. rewrite A, B in E. set (dx := (vx w - vx t)%Q) in *. set (dy := (vy w - vy t)%Q) in *.
  assert (S : forall z : Q, (0 <= z * z)%Q) by (intros z; destruct (Qlt_le_dec z 0); nra). pose proof (S dx). pose proof (S dy).
  assert (N : (dx < 0 \/ 0 < dx \/ dy < 0 \/ 0 < dy)%Q) by (unfold dx, dy; destruct H as [H|[H|[H|H]]]; [left|right; left|right; right; left|right; right; right]; lra).
  destruct N as [N|[N|[N|N]]]; nra.
Qed.
Lemma aside_quadrant T w i : 0 <= oh i -> aside T w i -> in_quadrant (node_aabb w i) (po_t T) /\
  (vx (M_Intersector.bmax (node_aabb w i)) < vx (po_t T) \/ vx (po_t T) < vx (M_Intersector.bmin (node_aabb w i)) \/ vy (M_Intersector.bmax (node_aabb w i)) < vy (po_t T) \/ vy (po_t T) < vy (M_Intersector.bmin (node_aabb w i)))%Q.
Proof. intros H (A & B & D). unfold in_quadrant. rewrite box_min, box_max by exact H. cbn [vx vy]. split; [split; assumption|exact D]. Qed.

(** ** Theorems *)
(** Nodes beside a level LiDAR: their sensor boxes enclose all of their points, for both measurement models. *)
Theorem C84_lidar_enclosed : forall fsqrt cfg mm sp im T w i p, (0 <= mm_padding cfg mm)%Q -> lidar_ok fsqrt cfg mm sp im T -> (0 < w)%Q -> 0 <= oh i -> aside T w i -> in_cube3 w i p ->
  enclosed cfg mm (spherical_base sp) (axis_periodic (sp_azimuth sp)) (spherical_sensor fsqrt) (spherical_aabb fsqrt) im T w i p.
Proof.
  intros fsqrt cfg mm sp im T w i p HP (HF & HL & EC & CC & HG) Hw H A I. destruct (aside_quadrant T w i H A) as [Q1 Q2]. apply level_transpose in HL.
  apply (C40_level_box fsqrt sp (node_aabb w i) (transpose (po_R T)) (po_t T) im (mm_padding cfg mm) p HF EC CC HP HG HL Q1); [apply level_off_axis; assumption|apply in_box_cube; assumption].
Qed.
(** A scan of a level LiDAR into an octree, for cells of nodes beside the LiDAR: no cell in a node that the scan declares free becomes more occupied, a cell in a node that it declares unobserved keeps its
    value, and the measurement model agrees for the cell itself. *)
Theorem C84_lidar_octree : forall fsqrt flog rnd cfg mm sp im T min_range max_range tue w C t f,
  let prj := spherical_base sp in let wraps := axis_periodic (sp_azimuth sp) in let sens := spherical_sensor fsqrt in
  scan_setup fsqrt flog rnd cfg mm prj wraps sens im min_range -> lidar_ok fsqrt cfg mm sp im T -> (0 < w)%Q -> vo_valid C -> vo_reachable C t -> map_values C t f ->
  let W := projector_scan fsqrt flog rnd cfg mm prj wraps sens (spherical_aabb fsqrt) im T min_range max_range tue w in
  exists n t' f', (forall fuel, (n <= fuel)%nat -> ctf_updateMap qn keps W fuel C t = Some t') /\ vo_reachable C t' /\ map_values C t' f' /\
  forall c i u, in_octree (cT C) (cell c) -> ends_at W (cT C - 1) c i ->
    assigned min_range max_range sens (mm_update fsqrt flog rnd cfg mm prj im) T w c u ->
    (oh i = 0 -> with_update (f c) u (f' c)) /\
    (0 < oh i -> aside T w i -> (o_type W i = kFullyUnobserved -> f' c = f c /\ u = 0%Qc) /\
      (o_type W i = kFullyFree \/ o_type W i = kFreeOrUnobserved -> f' c <= f c /\ u <= 0)%Qc).
Proof.
  intros fsqrt flog rnd cfg mm sp im T min_range max_range tue w C t f prj wraps sens HS HO Hw HC Hr Hf W.
  destruct (C84_projector_octree fsqrt flog rnd cfg mm prj wraps sens (spherical_aabb fsqrt) im T min_range max_range tue w C t f HS Hw HC Hr Hf) as (n & t' & f' & E & R & V & S).
  exists n, t', f'. split; [exact E|]. split; [exact R|]. split; [exact V|]. intros c i u Hc Hi A. destruct (S c i u Hc Hi A) as (S1 & S2 & S3). fold W in S2, S3. split; [exact S1|].
  intros Hh As. destruct HC as [HT _]. destruct (C61_end_unique W (cT C - 1) c ltac:(lia)) as (i0 & Hi0 & In & _ & Un). rewrite <- (Un i Hi) in In. clear i0 Hi0 Un.
  assert (HP : (0 <= mm_padding cfg mm)%Q) by (destruct HS as (_ & _ & _ & _ & _ & (_ & _ & P & _) & _); exact P).
  assert (X : forall p, in_cube3 w i p -> enclosed cfg mm prj wraps sens (spherical_aabb fsqrt) im T w i p) by (intros p; apply C84_lidar_enclosed; auto; lia).
  pose proof (X _ (middle_in w Hw i ltac:(lia))) as X1. assert (X2 : enclosed cfg mm prj wraps sens (spherical_aabb fsqrt) im T w i (middle w (cell c))) by (apply X, (cell_in w Hw); auto; lia).
  split; [intros U; destruct (S2 Hh U) as [A1 A2]; auto|]. intros U. destruct (S3 Hh U) as [A1 A2]. auto.
Qed.
(** The same for hashed wavelet octrees and hashed chunked wavelet octrees. *)
Theorem C84_lidar_hashed : forall fsqrt flog rnd cfg mm sp im T min_range max_range tue w C m K now k fov sched m' c i u,
  let prj := spherical_base sp in let wraps := axis_periodic (sp_azimuth sp) in let sens := spherical_sensor fsqrt in
  scan_setup fsqrt flog rnd cfg mm prj wraps sens im min_range -> lidar_ok fsqrt cfg mm sp im T -> (0 < w)%Q -> valid_config C -> hw_state C m -> 0 <= i_th K -> fov_ok C k fov ->
  let W := projector_scan fsqrt flog rnd cfg mm prj wraps sens (spherical_aabb fsqrt) im T min_range max_range tue w in
  hw_updateMap qn K W (cT C) now k fov sched m = Some m' ->
  assigned min_range max_range sens (mm_update fsqrt flog rnd cfg mm prj im) T w c u ->
  (scan_updates C m K W k fov c -> scan_stops C m K W (cT C - 1) c i true ->
     exists s, hw_get qn C m' c = applied (fun _ => s) (i_th K) (i_plo K) (i_phi K) (hw_get qn C m) (hw_subdivided C m) i c /\
       (oh i = 0 -> s = u) /\ (aside T w i -> o_type W i = kFullyFree \/ o_type W i = kFreeOrUnobserved -> s <= 0 /\ u <= 0)%Qc) /\
  (0 <= oh i -> in_node i c = true -> aside T w i -> o_type W i = kFullyUnobserved -> u = 0%Qc).
Proof.
  intros fsqrt flog rnd cfg mm sp im T min_range max_range tue w C m K now k fov sched m' c i u prj wraps sens HS HO Hw HC Hm Hth Hf W E A.
  destruct (C84_projector_hashed fsqrt flog rnd cfg mm prj wraps sens (spherical_aabb fsqrt) im T min_range max_range tue w C m K now k fov sched m' c i u HS Hw HC Hm Hth Hf E A) as [S1 S2].
  fold W in S1, S2. assert (HP : (0 <= mm_padding cfg mm)%Q) by (destruct HS as (_ & _ & _ & _ & _ & (_ & _ & P & _) & _); exact P).
  assert (X : 0 <= oh i -> aside T w i -> forall p, in_cube3 w i p -> enclosed cfg mm prj wraps sens (spherical_aabb fsqrt) im T w i p) by (intros; apply C84_lidar_enclosed; auto).
  split.
  - intros Hu Hs. destruct (C41_stop_unique C m K W (cT C - 1) c i true i true Hth ltac:(destruct HC; lia) Hs Hs) as (_ & _ & In & Hh).
    destruct (S1 Hu Hs) as (s & G & Z & F). exists s. split; [exact G|]. split; [exact Z|]. intros As U. destruct (F U) as [F1 F2].
    split; [apply F1, X; [lia|exact As|apply (middle_in w Hw); lia]|apply F2, X; [lia|exact As|apply (cell_in w Hw); [lia|exact In]]].
  - intros Hh In As U. apply S2; [exact Hh|exact In|exact U|]. apply X; [exact Hh|exact As|apply (cell_in w Hw); assumption].
Qed.
Theorem C84_lidar_chunked : forall fuel fsqrt flog rnd cfg mm sp im T min_range max_range tue w C m K now k fov order c i b u,
  let prj := spherical_base sp in let wraps := axis_periodic (sp_azimuth sp) in let sens := spherical_sensor fsqrt in
  scan_setup fsqrt flog rnd cfg mm prj wraps sens im min_range -> lidar_ok fsqrt cfg mm sp im T -> (0 < w)%Q ->
  valid_config C -> 2 <= cT C -> (Z.to_nat (cT C) <= fuel)%nat -> hc_state fuel C m -> 0 <= i_th K -> (i_plo K <= i_phi K)%Qc -> NoDup fov -> fov_ok C k fov ->
  let W := projector_scan fsqrt flog rnd cfg mm prj wraps sens (spherical_aabb fsqrt) im T min_range max_range tue w in
  Permutation order (hc_blocks qn K W m k fov) ->
  let m' := hc_updateMap qn K W (cT C) now order (hc_blocks qn K W m k fov) m in
  assigned min_range max_range sens (mm_update fsqrt flog rnd cfg mm prj im) T w c u ->
  c_updates C m K W k fov c -> c_stops C m K W (cT C - 1) c i b ->
  exists s, hc_get qn C m' c = batch_applied (fun _ => s) (i_plo K) (i_phi K) (hc_get qn C m) b i c /\
    (oh i = 0 -> s = u) /\
    (aside T w i -> (o_type W i = kFullyFree \/ o_type W i = kFreeOrUnobserved -> s <= 0 /\ u <= 0)%Qc /\ (o_type W i = kFullyUnobserved -> u = 0%Qc)).
Proof.
  intros fuel fsqrt flog rnd cfg mm sp im T min_range max_range tue w C m K now k fov order c i b u prj wraps sens HS HO Hw HC HT2 Hfuel Hm Hth Hcl Hnd Hf W Hp m' A Hu Hs.
  destruct (C41_chunked_stop_unique C m K W (cT C - 1) c i b i b Hth ltac:(lia) Hs Hs) as (_ & _ & In & Hh).
  destruct (C84_projector_chunked fuel fsqrt flog rnd cfg mm prj wraps sens (spherical_aabb fsqrt) im T min_range max_range tue w C m K now k fov order c i b u HS Hw HC HT2 Hfuel Hm Hth Hcl Hnd Hf Hp A Hu Hs) as [S1 S2].
  fold W in S1, S2. assert (HP : (0 <= mm_padding cfg mm)%Q) by (destruct HS as (_ & _ & _ & _ & _ & (_ & _ & P & _) & _); exact P).
  assert (X : aside T w i -> forall p, in_cube3 w i p -> enclosed cfg mm prj wraps sens (spherical_aabb fsqrt) im T w i p) by (intros; apply C84_lidar_enclosed; auto; lia).
  destruct S1 as (s & G & Z & F). exists s. split; [exact G|]. split; [exact Z|]. intros As.
  split; [|intros U; apply S2; [exact U|]; apply X; [exact As|apply (cell_in w Hw); [lia|exact In]]]. intros U. destruct (F U) as [F1 F2].
  split; [apply F1, X; [exact As|apply (middle_in w Hw); lia]|apply F2, X; [exact As|apply (cell_in w Hw); [lia|exact In]]].
Qed.
Print Assumptions C84_lidar_enclosed.
Print Assumptions C84_lidar_octree.
Print Assumptions C84_lidar_hashed.
Print Assumptions C84_lidar_chunked.

(** ** Example *)
(** A LiDAR with 32 columns around the circle at (-3, -1, 0), turned by 53 degrees, in free space; cells of 1 m *)
Definition spin_T : pose3 := Pose3 yaw (V3 (-3) (-1) 0).
Definition spin := SP (CP (- (1 # 2)) (147 # 100) 22) (CP (- kPi) kPi 32).
Definition spin_im : img Q := Img 22 32 (fun _ _ => 100)%Q.
Definition spin_W : oracle Qc := projector_scan up_sqrt P_Measure.ex_log round_away lidar_cfg RayModel (spherical_base spin) (axis_periodic (sp_azimuth spin)) (spherical_sensor up_sqrt) (spherical_aabb up_sqrt) spin_im spin_T (1 # 2) 200 (1 # 10) 1.
Lemma spin_ends : ends_at spin_W 8 (I3 4 4 2) (OI 2 (I3 1 1 0)).
Proof.
  exists 2. split; [cbn; lia|]. split; [reflexivity|]. split; [|right; right; vm_compute; reflexivity].
  intros j Hj. assert (Ej : j = 3 \/ j = 4 \/ j = 5 \/ j = 6 \/ j = 7 \/ j = 8) by (cbn in Hj; lia).
  destruct Ej as [->|[->|[->|[->|[->| ->]]]]]; (split; [|vm_compute; reflexivity]);
    unfold unobserved; match goal with |- ~ ?a = _ => let v := eval vm_compute in a in assert (E : a = v) by (vm_compute; reflexivity); rewrite E; discriminate end.
Qed.
Example C84_ex_spin : let i := OI 2 (I3 1 1 0) in let c := I3 4 4 2 in
  scan_setup up_sqrt P_Measure.ex_log round_away lidar_cfg RayModel (spherical_base spin) (axis_periodic (sp_azimuth spin)) (spherical_sensor up_sqrt) spin_im (1 # 2) /\
  lidar_ok up_sqrt lidar_cfg RayModel spin spin_im spin_T /\ axis_periodic (sp_azimuth spin) = true /\
  in_octree 9 (cell c) /\ ends_at spin_W 8 c i /\ aside spin_T 1 i /\ o_type spin_W i = kFullyFree /\
  assigned (1 # 2) 200 (spherical_sensor up_sqrt) (mm_update up_sqrt P_Measure.ex_log round_away lidar_cfg RayModel (spherical_base spin) spin_im) spin_T 1 c (Q2Qc (- (2 # 5))).
Proof.
  cbv zeta. split; [|split; [|split; [|split; [|split; [|split; [|split]]]]]].
  - destruct ex_setup as (HL & HR & _). split; [exact HL|]. split; [exact HR|]. split; [repeat split; reflexivity|]. split; [exact I|]. split; [|split].
    + apply spherical_wd. apply C40_ex_level.
    + split; [reflexivity|]. split; [reflexivity|]. split; [vm_compute; discriminate|]. split; [vm_compute; repeat split|]. intros _. exists 5. split; [lia|reflexivity].
    + split; [reflexivity|]. intros p q _ N. exfalso. apply N. discriminate.
  - split; [apply C40_ex_level|]. split; [apply C40_ex_level|]. split; [reflexivity|]. split; [|vm_compute; discriminate]. intros _. vm_compute. split; reflexivity.
  - vm_compute. reflexivity.
  - unfold in_octree; cbn; lia.
  - exact spin_ends.
  - unfold aside. vm_compute. split; [right; discriminate|]. split; [right; discriminate|right; left; reflexivity].
  - vm_compute. reflexivity.
  - split; [intros _; apply Qc_is_canon; vm_compute; reflexivity|]. intros N. exfalso. apply N. split; vm_compute; discriminate.
Qed.
