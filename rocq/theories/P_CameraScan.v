(** Property theorems C84: what a scan of a pinhole camera with the ContinuousRay measurement model does to every cell when it is
    integrated coarse-to-fine, compared with the update that the model assigns to the cell itself. In exact arithmetic. *)
From Verif Require Import Base M_IntMath F_IntMath M_NdtreeIndex M_Num F_Num M_Haar3 M_Ndtree S_Field S_Integrate F_Hash M_Wavelet M_WavHist
  M_VolOctree P_VolOctree P_Wavelet M_Integrator F_Integrator F_Integrator3 P_Integrator M_CoarseToFine P_CoarseToFine.
From Verif Require Import M_Point P_Point M_Image M_RangeBounds P_RangeBounds M_Measure F_Measure P_Measure M_Intersector P_Intersector P_Intersector2 P_Intersector3.
From Verif Require Import M_FixedRes P_FixedRes M_CameraScan.
From Coq Require Import QArith Qround Qabs Qcanon Qcabs Lqa.
Close Scope Qc_scope.
Close Scope Q_scope.
Open Scope Z_scope.

(** ** Specification *)
(** A point of the cube that a node of a map with cell width [w] stands for, and the middle of the cube *)
Definition cube_side (w : Q) (i : oidx) : Q := (w * inject_Z (2 ^ oh i))%Q.
Definition in_cube3 (w : Q) (i : oidx) (p : v3) : Prop :=
  let s := cube_side w i in
  (inject_Z (px (opos i)) * s <= vx p <= (inject_Z (px (opos i)) + 1) * s)%Q /\
  (inject_Z (py (opos i)) * s <= vy p <= (inject_Z (py (opos i)) + 1) * s)%Q /\
  (inject_Z (pz (opos i)) * s <= vz p <= (inject_Z (pz (opos i)) + 1) * s)%Q.
Definition middle (w : Q) (i : oidx) : v3 :=
  let s := cube_side w i in
  V3 ((inject_Z (px (opos i)) + (1 # 2)) * s) ((inject_Z (py (opos i)) + (1 # 2)) * s) ((inject_Z (pz (opos i)) + (1 # 2)) * s).
(** Depth of a point: its distance from the camera's plane. A cube in front of the camera has only points with a depth of 1e-6 or more. *)
Definition depth (T : pose3) (p : v3) : Q := vz (to_sensor T p).
Definition in_front (T : pose3) (w : Q) (i : oidx) : Prop := forall p, in_cube3 w i p -> (kEpsilon <= depth T p)%Q.
(** The pixel that a point is seen in *)
Definition pixel (rnd : Q -> Z) (cam : pinhole) (T : pose3) (p : v3) : i2 := imageToNearestIndex rnd pinhole_base (fst (pinhole_sensor cam (to_sensor T p))).
(** Rounding to a nearest integer; equal numbers are rounded to the same one. *)
Definition rounds (rnd : Q -> Z) : Prop := nearest rnd /\ forall x y, (x == y)%Q -> rnd x = rnd y.
(** A camera, measurement model and range image as the integrators accept them: pixels without a measurement are zero. *)
Definition camera_setup (flog : Q -> Q) (rnd : Q -> Z) (cfg : mm_config) (cam : pinhole) (im : img Q) (min_range : Q) : Prop :=
  log_like flog /\ rounds rnd /\ proper_config cfg /\ pinhole_isValid cam = true /\ im_rows im = ph_width cam /\ im_cols im = ph_height cam /\
  ph_width cam < 2 ^ 30 /\ ph_height cam < 2 ^ 30 /\ clean_image cfg im min_range.
(** Depths that are used *)
Definition in_range (min_range max_range d : Q) : Prop := (min_range <= d /\ d <= max_range)%Q.
(** The optical axis of the camera has length 1. *)
Definition unit_axis (T : pose3) : Prop := (dot (col2 (po_R T)) (col2 (po_R T)) == 1)%Q.
(** A value with an update: one of at most 1e-6 is dropped. *)
Definition with_update (v u v' : Qc) : Prop := ((keps < Qcabs u)%Qc -> v' = (v + u)%Qc) /\ (~ (keps < Qcabs u)%Qc -> v' = v).

(** ** Facts *)
Lemma qz_pow h : 0 <= h -> (0 < inject_Z (2 ^ h))%Q.
Proof. intros H. change 0%Q with (inject_Z 0). rewrite <- Zlt_Qlt. apply Z.pow_pos_nonneg; lia. Qed.
Lemma exp2_pow h : 0 <= h -> exp2 h = 2 ^ h.
Proof. intros H. unfold exp2. rewrite Z.shiftl_1_l. reflexivity. Qed.
Lemma sensor_comp cam T p q : (vx p == vx q)%Q -> (vy p == vy q)%Q -> (vz p == vz q)%Q ->
  let s := pinhole_sensor cam (to_sensor T p) in let s' := pinhole_sensor cam (to_sensor T q) in
  (fst (fst s) == fst (fst s') /\ snd (fst s) == snd (fst s') /\ snd s == snd s')%Q.
Proof.
  intros X Y Z. cbv zeta. unfold pinhole_sensor. cbn [fst snd]. set (a := to_sensor T p). set (b := to_sensor T q).
  assert (E : (vx a == vx b /\ vy a == vy b /\ vz a == vz b)%Q).
  { unfold a, b, to_sensor, m3mul, v3add, v3scale, v3sub. cbn [vx vy vz]. rewrite X, Y, Z. repeat split; reflexivity. }
  destruct E as (E1 & E2 & E3).
  assert (M : (qmax (vz a) kEpsilon == qmax (vz b) kEpsilon)%Q).
  { unfold qmax. destruct (M_Image.qltb (vz a) kEpsilon) eqn:A, (M_Image.qltb (vz b) kEpsilon) eqn:B; try reflexivity; try exact E3;
      [apply F_Measure.qltb_true in A; apply F_Measure.qltb_false in B|apply F_Measure.qltb_false in A; apply F_Measure.qltb_true in B]; lra. }
  rewrite M, E1, E2, E3. repeat split; reflexivity.
Qed.

Section CAM.
Context (flog : Q -> Q) (rnd : Q -> Z) (cfg : mm_config) (cam : pinhole) (im : img Q) (T : pose3) (min_range max_range tue w : Q).
Context (HS : camera_setup flog rnd cfg cam im min_range) (Hw : (0 < w)%Q).
Notation model := (ray_computeUpdate flog cfg rnd pinhole_base im).
Notation scan := (camera_scan flog rnd cfg cam im T min_range max_range tue w).
Definition update_at (p : v3) : Q := computeUpdate min_range max_range model (pinhole_sensor cam (to_sensor T p)).
Lemma setup_log : log_like flog. Proof. apply HS. Qed.
Lemma setup_cfg : proper_config cfg. Proof. apply HS. Qed.

Lemma ray_at_comp d d' i : (d == d')%Q -> (ray_at flog cfg im d i == ray_at flog cfg im d' i)%Q.
Proof.
  intros E. unfold ray_at. destruct (at_px im i) as [v|]; [|reflexivity].
  rewrite !(ray_one_formula flog cfg setup_log setup_cfg). pose proof (full_p_range cfg setup_cfg d v). pose proof (p_bounds cfg setup_cfg).
  apply lo_eq; [apply setup_log|lra|]. unfold ray_full_p. apply Qplus_comp; [|reflexivity]. apply scale_comp; [apply setup_cfg|]. apply rc_comp. rewrite E. reflexivity.
Qed.
Lemma fold_comp {A} (g h : A -> Q) l : (forall a, In a l -> g a == h a)%Q -> forall u v, (u == v)%Q -> (fold_left (fun u a => u + g a) l u == fold_left (fun u a => u + h a) l v)%Q.
Proof. induction l as [|a l IH]; intros H u v E; [exact E|]. cbn [fold_left]. apply IH; [intros; apply H; right; assumption|]. rewrite E, (H a) by (left; reflexivity). reflexivity. Qed.
Lemma update_comp p q : (vx p == vx q)%Q -> (vy p == vy q)%Q -> (vz p == vz q)%Q -> (update_at p == update_at q)%Q.
Proof.
  intros X Y Z. destruct (sensor_comp cam T p q X Y Z) as (A & B & D). unfold update_at, computeUpdate.
  set (s := pinhole_sensor cam (to_sensor T p)) in *. set (s' := pinhole_sensor cam (to_sensor T q)) in *.
  assert (E1 : qltb (snd s) min_range = qltb (snd s') min_range).
  { destruct (qltb (snd s) min_range) eqn:E, (qltb (snd s') min_range) eqn:F; try reflexivity;
      [apply F_Measure.qltb_true in E; apply F_Measure.qltb_false in F|apply F_Measure.qltb_false in E; apply F_Measure.qltb_true in F]; lra. }
  assert (E2 : qltb max_range (snd s) = qltb max_range (snd s')).
  { destruct (qltb max_range (snd s)) eqn:E, (qltb max_range (snd s')) eqn:F; try reflexivity;
      [apply F_Measure.qltb_true in E; apply F_Measure.qltb_false in F|apply F_Measure.qltb_false in E; apply F_Measure.qltb_true in F]; lra. }
  rewrite E1, E2. destruct (_ || _); [reflexivity|]. unfold ray_computeUpdate.
  assert (R1 : (fst (imageToIndexReal pinhole_base (fst s)) == fst (imageToIndexReal pinhole_base (fst s')))%Q) by (cbn [imageToIndexReal fst snd]; rewrite A; reflexivity).
  assert (R2 : (snd (imageToIndexReal pinhole_base (fst s)) == snd (imageToIndexReal pinhole_base (fst s')))%Q) by (cbn [imageToIndexReal fst snd]; rewrite B; reflexivity).
  destruct (selector cfg).
  - unfold imageToNearestIndex. destruct HS as (_ & (_ & RC) & _). rewrite (RC _ _ R1), (RC _ _ R2). apply ray_at_comp. exact D.
  - unfold imageToNearestIndices, imageToFloorIndex, imageToCeilIndex. rewrite (Qfloor_comp _ _ R1), (Qfloor_comp _ _ R2), (Qceiling_comp _ _ R1), (Qceiling_comp _ _ R2).
    apply fold_comp; [|reflexivity]. intros a _. apply ray_at_comp. exact D.
Qed.

Lemma assigned_update c u : assigned min_range max_range (pinhole_sensor cam) model T w c u -> u = Q2Qc (update_at (middle w (cell c))).
Proof.
  intros [A B].
  assert (E : (update_at (cell_center w c) == update_at (middle w (cell c)))%Q).
  { apply update_comp; unfold middle, cube_side, cell_center, cell; cbn [vx vy vz oh opos]; change (inject_Z (2 ^ 0)) with 1%Q; ring. }
  assert (H : u = Q2Qc (update_at (cell_center w c))).
  { unfold update_at, computeUpdate. change (to_sensor T (cell_center w c)) with (sampled T w c). set (s := pinhole_sensor cam (sampled T w c)) in *.
    destruct (qltb (snd s) min_range) eqn:L1; [apply F_Measure.qltb_true in L1; cbn [orb]; apply B; lra|].
    destruct (qltb max_range (snd s)) eqn:L2; [apply F_Measure.qltb_true in L2; cbn [orb]; apply B; lra|]. apply F_Measure.qltb_false in L1, L2.
    cbn [orb]. apply A. split; assumption. }
  rewrite H. apply Qc_is_canon. cbn [this Q2Qc]. rewrite !Qred_correct. exact E.
Qed.

Lemma box_min i : 0 <= oh i -> M_Intersector.bmin (node_aabb w i) = V3 (inject_Z (px (opos i)) * cube_side w i) (inject_Z (py (opos i)) * cube_side w i) (inject_Z (pz (opos i)) * cube_side w i).
Proof. intros H. unfold cube_side. rewrite <- (exp2_pow _ H). reflexivity. Qed.
Lemma box_max i : 0 <= oh i -> M_Intersector.bmax (node_aabb w i) = V3 ((inject_Z (px (opos i)) + 1) * cube_side w i) ((inject_Z (py (opos i)) + 1) * cube_side w i) ((inject_Z (pz (opos i)) + 1) * cube_side w i).
Proof. intros H. unfold cube_side. rewrite <- (exp2_pow _ H). reflexivity. Qed.
Lemma width_eq i : 0 <= oh i -> (node_width w i == cube_side w i)%Q.
Proof. intros H. unfold node_width. rewrite box_min, box_max by exact H. cbn [vx]. ring. Qed.
Lemma side_pos i : 0 <= oh i -> (0 < cube_side w i)%Q.
Proof. intros H. unfold cube_side. pose proof (qz_pow _ H). nra. Qed.
Lemma in_box_cube i p : 0 <= oh i -> in_cube3 w i p <-> in_box (node_aabb w i) p.
Proof. intros H. unfold in_cube3, in_box. rewrite box_min, box_max by exact H. reflexivity. Qed.
Lemma center_eq i : 0 <= oh i -> (vx (node_center w i) == vx (middle w i) /\ vy (node_center w i) == vy (middle w i) /\ vz (node_center w i) == vz (middle w i))%Q.
Proof.
  intros H. unfold node_center. destruct (Z.eqb_spec (oh i) 0) as [E|E].
  - unfold middle, cube_side. rewrite <- (exp2_pow _ H). repeat split; reflexivity.
  - pose proof (width_eq i H) as W. rewrite box_min by exact H. unfold middle, v3add. cbn [vx vy vz]. rewrite W. repeat split; field.
Qed.
Lemma sample_middle i : 0 <= oh i -> o_sample scan i = Q2Qc (update_at (middle w i)).
Proof.
  intros H. cbn [o_sample camera_scan]. apply Qc_is_canon. cbn [this Q2Qc]. rewrite !Qred_correct. destruct (center_eq i H) as (A & B & D).
  change (node_update flog rnd cfg cam im T min_range max_range w i) with (update_at (node_center w i)). apply update_comp; assumption.
Qed.
Lemma middle_in i : 0 <= oh i -> in_cube3 w i (middle w i).
Proof. intros H. pose proof (side_pos i H). unfold in_cube3, middle. cbn [vx vy vz]. repeat split; nra. Qed.
Lemma cell_in i c : 0 <= oh i -> in_node i c = true -> in_cube3 w i (middle w (cell c)).
Proof.
  intros H I. unfold in_node in I. rewrite !andb_true_iff, !Z.leb_le, !Z.ltb_lt in I. destruct I as (((((A1 & A2) & B1) & B2) & D1) & D2).
  unfold in_cube3, middle, cube_side, cell. cbn [vx vy vz oh opos]. change (inject_Z (2 ^ 0)) with 1%Q.
  assert (K : forall p k, p * 2 ^ oh i <= k -> k < (p + 1) * 2 ^ oh i -> (inject_Z p * (w * inject_Z (2 ^ oh i)) <= (inject_Z k + (1 # 2)) * (w * 1) <= (inject_Z p + 1) * (w * inject_Z (2 ^ oh i)))%Q).
  { intros p k L U. assert (L' : (inject_Z p * inject_Z (2 ^ oh i) <= inject_Z k)%Q) by (rewrite <- inject_Z_mult, <- Zle_Qle; exact L).
    assert (U' : (inject_Z k + 1 <= (inject_Z p + 1) * inject_Z (2 ^ oh i))%Q).
    { change 1%Q with (inject_Z 1). rewrite <- !inject_Z_plus, <- inject_Z_mult, <- Zle_Qle. lia. }
    split; nra. }
  split; [apply K; assumption|]. split; apply K; assumption.
Qed.
Lemma front_corners i : 0 <= oh i -> in_front T w i -> forall q, In q (corners (node_aabb w i) (transpose (po_R T)) (po_t T)) -> (kEpsilon <= vz q)%Q.
Proof.
  intros H F q I. pose proof (side_pos i H) as S. unfold corners in I. rewrite box_min, box_max in I by exact H. cbv zeta in I.
  set (x := inject_Z (px (opos i))) in *. set (y := inject_Z (py (opos i))) in *. set (z := inject_Z (pz (opos i))) in *. set (s := cube_side w i) in *.
  assert (K : forall a b e, (a = 0 \/ a = 1)%Q -> (b = 0 \/ b = 1)%Q -> (e = 0 \/ e = 1)%Q -> (vz q == depth T (V3 ((x + a) * s) ((y + b) * s) ((z + e) * s)))%Q -> (kEpsilon <= vz q)%Q).
  { intros a b e Ha Hb He E. rewrite E. apply F. unfold in_cube3. cbn [vx vy vz]. fold s x y z.
    destruct Ha as [-> | ->], Hb as [-> | ->], He as [-> | ->]; repeat split; nra. }
  cbn [In] in I.
  destruct I as [<-|[<-|[<-|[<-|[<-|[<-|[<-|[<-|[]]]]]]]]];
    [apply (K 0 0 0)%Q|apply (K 1 0 0)%Q|apply (K 0 1 0)%Q|apply (K 1 1 0)%Q|apply (K 0 0 1)%Q|apply (K 1 0 1)%Q|apply (K 0 1 1)%Q|apply (K 1 1 1)%Q];
    try (left; reflexivity); try (right; reflexivity); unfold depth, to_sensor; unfold m3mul; unfold v3add, v3scale, v3sub; cbn [vx vy vz]; ring.
Qed.

Lemma base_setup : valid_setup pinhole_base im false 0.
Proof.
  destruct HS as (_ & _ & _ & V & ER & EC & BW & BH & _). unfold pinhole_isValid in V. rewrite !andb_true_iff, !Z.ltb_lt in V. destruct V as [[[V1 V2] _] _].
  split; [reflexivity|]. split; [reflexivity|]. split; [discriminate|]. split; [|discriminate]. unfold valid_image.
  change (scale_factor (Some pinhole_base)) with (1, 1)%Z. cbn [fst snd]. rewrite ER, EC. lia.
Qed.
Lemma type_some i : exists b, b = containsPoint (node_aabb w i) (po_t T) /\
  determineUpdateType pinhole_base im false min_range max_range 0 (range_front cfg) (range_back cfg) b (pinhole_aabb cam (node_aabb w i) (transpose (po_R T)) (po_t T)) = Some (o_type scan i).
Proof.
  eexists. split; [reflexivity|]. cbn [o_type camera_scan]. unfold node_type.
  destruct (C40_total pinhole_base im false min_range max_range 0 (range_front cfg) (range_back cfg) (containsPoint (node_aabb w i) (po_t T)) (pinhole_aabb cam (node_aabb w i) (transpose (po_R T)) (po_t T)) base_setup) as (u & ->).
  reflexivity.
Qed.
Lemma encloses_point i p : 0 <= oh i -> in_front T w i -> in_cube3 w i p ->
  encloses pinhole_base im false 0 (pinhole_aabb cam (node_aabb w i) (transpose (po_R T)) (po_t T)) (pinhole_sensor cam (to_sensor T p)).
Proof.
  intros H F I. destruct HS as (_ & _ & _ & V & _). unfold pinhole_isValid in V. rewrite !andb_true_iff in V. destruct V as [[_ V3] V4]. apply F_Measure.qltb_true in V3, V4.
  apply (C40_pinhole_box _ cam (node_aabb w i) (transpose (po_R T)) (po_t T) p); [exact V3|exact V4|apply in_box_cube; assumption|apply front_corners; assumption].
Qed.
Lemma type_free_box i : 0 <= oh i -> in_front T w i -> let b := pinhole_aabb cam (node_aabb w i) (transpose (po_R T)) (po_t T) in (snd (smin b) <= snd (smax b))%Q.
Proof.
  intros H F b. destruct (encloses_point i _ H F (middle_in i H)) as (_ & _ & [[L _]|[L _]] & _); [exact L|]. exfalso. fold b in L.
  change (snd (pb_scale pinhole_base)) with 1%Q in L.
  set (R := transpose (po_R T)) in *. set (W := node_aabb w i) in *. set (t := po_t T) in *.
  assert (I : In (snd (fst (pinhole_sensor cam (m3mul R (v3sub (M_Intersector.bmin W) t))))) (map (fun x => snd (fst x)) (map (pinhole_sensor cam) (corners W R t)))) by (left; reflexivity).
  pose proof (minl_le _ _ I) as A. pose proof (maxl_ge _ _ I) as B.
  unfold b, pinhole_aabb in L. cbv zeta in L. cbn [smin smax] in L. revert L A B.
  generalize (map (fun x => snd (fst x)) (map (pinhole_sensor cam) (corners W R t))) (snd (fst (pinhole_sensor cam (m3mul R (v3sub (M_Intersector.bmin W) t))))).
  intros l x L A B. cbn [snd] in L. lra.
Qed.
(** The update at every point of a node, by the type of the node *)
Lemma point_update i p : 0 <= oh i -> in_front T w i -> in_cube3 w i p ->
  (o_type scan i = kFullyUnobserved -> (update_at p == 0)%Q) /\
  (o_type scan i = kFullyFree -> in_range min_range max_range (depth T p) ->
     (update_at p == (match selector cfg with kNearestNeighbor => 1 | kAllNeighbors => 4 end)%Q * ray_free flog cfg)%Q) /\
  (o_type scan i = kFullyFree \/ o_type scan i = kFreeOrUnobserved -> (update_at p <= 0)%Q).
Proof.
  intros H F I. destruct (type_some i) as (b & Eb & U). destruct b.
  { assert (U' : o_type scan i = kPossiblyOccupied) by (cbn in U; injection U as U; symmetry; exact U). rewrite U'. split; [discriminate|]. split; [discriminate|]. intros [X|X]; discriminate X. }
  destruct HS as (HL & (HN & _) & HC & _ & _ & _ & _ & _ & HI).
  destruct (C40_ray_update_partial flog cfg rnd pinhole_base im false min_range max_range _ _ _ HL HC HN base_setup HI (encloses_point i p H F I) U) as (A & B & D).
  split; [exact A|]. split; [|exact D]. intros E R. apply B; [exact E|apply type_free_box; assumption|exact R].
Qed.

(** Depths in a node *)
Lemma cauchy (a b c x y z : Q) : ((a * x + b * y + c * z) * (a * x + b * y + c * z) <= (a * a + b * b + c * c) * (x * x + y * y + z * z))%Q.
Proof.
  assert (S : forall q : Q, (0 <= q * q)%Q) by (intros q; destruct (Qlt_le_dec q 0); nra).
  pose proof (S (a * y - b * x)%Q). pose proof (S (a * z - c * x)%Q). pose proof (S (b * z - c * y)%Q). lra.
Qed.
Lemma depth_bound i c : 0 <= oh i <= 20 -> in_node i c = true -> unit_axis T ->
  (Qabs (depth T (middle w i) - depth T (middle w (cell c))) <= kUnitCubeHalfDiagonal * node_width w i)%Q.
Proof.
  intros [H H20] I U. rewrite width_eq by exact H. pose proof (side_pos i H) as SP. set (S := cube_side w i) in *.
  unfold in_node in I. rewrite !andb_true_iff, !Z.leb_le, !Z.ltb_lt in I. destruct I as (((((A1 & A2) & B1) & B2) & D1) & D2).
  assert (WS : (S <= w * inject_Z (2 ^ 20))%Q).
  { unfold S, cube_side. assert (L : (inject_Z (2 ^ oh i) <= inject_Z (2 ^ 20))%Q) by (rewrite <- Zle_Qle; apply Z.pow_le_mono_r; lia). nra. }
  change (inject_Z (2 ^ 20)) with 1048576%Q in WS.
  assert (K : forall p k, p * 2 ^ oh i <= k -> k < (p + 1) * 2 ^ oh i -> (- (S - w) <= 2 * ((inject_Z p + (1 # 2)) * S - (inject_Z k + (1 # 2)) * (w * inject_Z (2 ^ 0))) <= S - w)%Q).
  { intros p k L G. assert (L' : (inject_Z p * inject_Z (2 ^ oh i) <= inject_Z k)%Q) by (rewrite <- inject_Z_mult, <- Zle_Qle; exact L).
    assert (G' : (inject_Z k + 1 <= (inject_Z p + 1) * inject_Z (2 ^ oh i))%Q).
    { change 1%Q with (inject_Z 1). rewrite <- !inject_Z_plus, <- inject_Z_mult, <- Zle_Qle. lia. }
    change (inject_Z (2 ^ 0)) with 1%Q. unfold S, cube_side. set (n := inject_Z (2 ^ oh i)) in *. set (P := inject_Z p) in *. set (k' := inject_Z k) in *. clearbody n P k'.
    assert (L2 : (w * (P * n) <= w * k')%Q) by nra. assert (G2 : (w * (k' + 1) <= w * ((P + 1) * n))%Q) by nra. split; lra. }
  pose proof (K _ _ A1 A2) as X. pose proof (K _ _ B1 B2) as Y. pose proof (K _ _ D1 D2) as Z. clear K A1 A2 B1 B2 D1 D2.
  assert (WL : (w <= S)%Q).
  { unfold S, cube_side. assert (L : (inject_Z 1 <= inject_Z (2 ^ oh i))%Q) by (rewrite <- Zle_Qle; pose proof (Z.pow_pos_nonneg 2 (oh i)); lia). change (inject_Z 1) with 1%Q in L. nra. }
  assert (DD : forall p, (depth T p == vx (col2 (po_R T)) * (vx p - vx (po_t T)) + vy (col2 (po_R T)) * (vy p - vy (po_t T)) + vz (col2 (po_R T)) * (vz p - vz (po_t T)))%Q).
  { intros p. unfold depth, to_sensor. unfold m3mul. unfold v3add, v3scale, v3sub. cbn [vx vy vz transpose col0 col1 col2]. ring. }
  rewrite !DD. clear DD. unfold middle, cell. cbn [vx vy vz oh opos]. fold S. change (cube_side w (OI 0 c)) with (w * inject_Z (2 ^ 0))%Q.
  set (ax := ((inject_Z (px (opos i)) + (1 # 2)) * S)%Q) in *. set (ay := ((inject_Z (py (opos i)) + (1 # 2)) * S)%Q) in *. set (az := ((inject_Z (pz (opos i)) + (1 # 2)) * S)%Q) in *.
  set (bx := ((inject_Z (px c) + (1 # 2)) * (w * inject_Z (2 ^ 0)))%Q) in *. set (by' := ((inject_Z (py c) + (1 # 2)) * (w * inject_Z (2 ^ 0)))%Q) in *. set (bz := ((inject_Z (pz c) + (1 # 2)) * (w * inject_Z (2 ^ 0)))%Q) in *.
  unfold unit_axis, dot in U. set (n := col2 (po_R T)) in *.
  assert (C := cauchy (vx n) (vy n) (vz n) (ax - bx) (ay - by') (az - bz)). rewrite U in C.
  match goal with |- (Qabs ?e <= _)%Q => setoid_replace e with (vx n * (ax - bx) + vy n * (ay - by') + vz n * (az - bz))%Q by ring end.
  set (d := (vx n * (ax - bx) + vy n * (ay - by') + vz n * (az - bz))%Q) in *. set (x := (ax - bx)%Q) in *. set (y := (ay - by')%Q) in *. set (z := (az - bz)%Q) in *.
  clearbody d x y z S. clear ax ay az bx by' bz n U.
  assert (Q2 : forall v, (- (S - w) <= 2 * v <= S - w)%Q -> (4 * (v * v) <= (S - w) * (S - w))%Q) by (intros v V; nra).
  pose proof (Q2 x X) as X2. pose proof (Q2 y Y) as Y2. pose proof (Q2 z Z) as Z2. clear Q2 X Y Z.
  assert (D : (4 * (d * d) <= 3 * ((S - w) * (S - w)))%Q) by lra. clear C X2 Y2 Z2 x y z.
  set (r := (kUnitCubeHalfDiagonal * S)%Q). assert (R0 : (0 <= r)%Q) by (assert (KP : (0 < kUnitCubeHalfDiagonal)%Q) by reflexivity; unfold r; nra).
  assert (M : (3 * ((S - w) * (S - w)) <= 4 * (r * r))%Q).
  { assert (W1 : (S * (1048575 # 1048576) >= S - w)%Q) by lra. 
    assert (N : (0 <= S - w)%Q) by lra.
    assert (M1 : ((S - w) * (S - w) <= (S * (1048575 # 1048576)) * (S * (1048575 # 1048576)))%Q) by nra.
    assert (M2 : (4 * (r * r) == (kSqrt3 * kSqrt3) * (S * S))%Q) by (unfold r, kUnitCubeHalfDiagonal; field). rewrite M2.
    assert (M3 : (3 * ((1048575 # 1048576) * (1048575 # 1048576)) <= kSqrt3 * kSqrt3)%Q) by (apply Qle_bool_iff; vm_compute; reflexivity). nra. }
  apply Qabs_Qle_condition. split; nra.
Qed.

(** One pixel per point: the update is the log-odds of a probability *)
Lemma nearest_update p : selector cfg = kNearestNeighbor -> in_range min_range max_range (depth T p) ->
  update_at p = ray_at flog cfg im (depth T p) (pixel rnd cam T p).
Proof.
  intros SE [R1 R2]. unfold update_at, computeUpdate. set (s := pinhole_sensor cam (to_sensor T p)). change (depth T p) with (snd s) in *.
  destruct (qltb (snd s) min_range) eqn:A; [apply F_Measure.qltb_true in A; lra|]. destruct (qltb max_range (snd s)) eqn:B; [apply F_Measure.qltb_true in B; lra|].
  cbn [orb]. unfold ray_computeUpdate. rewrite SE. reflexivity.
Qed.
Definition prob_at (p : v3) : Q := match at_px im (pixel rnd cam T p) with None => 1 # 2 | Some m => ray_full_p cfg (depth T p) m end.
Lemma prob_bounds p : (0 < prob_at p < 1)%Q.
Proof.
  unfold prob_at. destruct (at_px im _) as [m|]; [|split; reflexivity]. pose proof (full_p_range cfg setup_cfg (depth T p) m). pose proof (p_bounds cfg setup_cfg). lra.
Qed.
Lemma prob_update p : selector cfg = kNearestNeighbor -> in_range min_range max_range (depth T p) -> (update_at p == log_odds flog (prob_at p))%Q.
Proof.
  intros SE R. rewrite (nearest_update p SE R). unfold ray_at, prob_at. destruct (at_px im _) as [m|].
  - apply ray_one_formula; [apply setup_log|apply setup_cfg].
  - symmetry. apply lo_half. apply setup_log.
Qed.
(** Away from possibly occupied nodes, the probability is one of two. *)
Lemma prob_type i p : 0 <= oh i -> in_front T w i -> in_cube3 w i p -> in_range min_range max_range (depth T p) ->
  (o_type scan i = kFullyFree -> (prob_at p == ray_free_p cfg)%Q) /\
  (o_type scan i = kFreeOrUnobserved -> (prob_at p == ray_free_p cfg \/ prob_at p == 1 # 2)%Q).
Proof.
  intros H F I R. destruct (type_some i) as (b & Eb & U). destruct b.
  { assert (U' : o_type scan i = kPossiblyOccupied) by (cbn in U; injection U as U; symmetry; exact U). rewrite U'. split; discriminate. }
  pose proof HS as (HL & (HN & _) & HC & _ & _ & _ & _ & _ & HI). pose proof (encloses_point i p H F I) as HE.
  assert (NN : near_pixel pinhole_base 0 (fst (pinhole_sensor cam (to_sensor T p))) (pixel rnd cam T p)) by (apply nearest_near; [exact HN|reflexivity|reflexivity|discriminate]).
  assert (FR : forall v, (depth T p + range_front cfg < v)%Q -> (ray_full_p cfg (depth T p) v == ray_free_p cfg)%Q).
  { intros v L. unfold ray_full_p, ray_free_p. pose proof (scale_comp cfg HC (range_contribution ((depth T p - v) / range_sigma cfg)) (- (1 # 2))) as S.
    rewrite S; [unfold scale_contribution; cbn [M_Image.qltb negb Qle_bool Qnum Qden Z.mul Z.leb Z.compare]; cbn; ring|]. apply rc_free. apply div_le_l; [exact HC|]. unfold range_front in L. lra. }
  assert (BH : forall v, (v + range_back cfg < depth T p)%Q -> (ray_full_p cfg (depth T p) v == 1 # 2)%Q).
  { intros v L. unfold ray_full_p. pose proof (scale_comp cfg HC (range_contribution ((depth T p - v) / range_sigma cfg)) 0) as S.
    rewrite S; [unfold scale_contribution; cbn; ring|]. apply rc_behind. apply div_ge_l; [exact HC|]. unfold range_back in L. lra. }
  change (depth T p) with (snd (pinhole_sensor cam (to_sensor T p))) in R, FR, BH.
  unfold prob_at. split; intros E.
  - assert (IM : at_px im (pixel rnd cam T p) = Some (im_px im (fst (pixel rnd cam T p)) (snd (pixel rnd cam T p)))).
    { destruct (C40_update_type_partial _ _ _ _ _ _ _ _ _ _ _ base_setup HE U) as [_ TF]. destruct (pixel rnd cam T p) as [a q].
      destruct (TF E (type_free_box i H F) a q NN) as [I1 I2]. apply at_px_some; assumption. }
    rewrite IM. apply FR. exact (px_free_type cfg pinhole_base im false min_range max_range 0 base_setup _ _ HE _ U _ _ E NN IM).
  - destruct (at_px im (pixel rnd cam T p)) as [v|] eqn:IM; [|right; reflexivity].
    destruct (px_mixed_type cfg pinhole_base im false min_range max_range 0 base_setup HI _ _ HE _ U R _ _ E NN IM) as [L|L]; [left; apply FR; exact L|right; apply BH; exact L].
Qed.
(** The probabilities at the middle of a node and of a cell in it *)
Lemma prob_error i c : 0 <= oh i <= 20 -> in_node i c = true -> in_front T w i -> unit_axis T -> (scaling_free cfg <= scaling_occupied cfg)%Q ->
  in_range min_range max_range (depth T (middle w i)) -> in_range min_range max_range (depth T (middle w (cell c))) ->
  o_type scan i <> kFullyUnobserved -> (o_type scan i = kPossiblyOccupied -> pixel rnd cam T (middle w i) = pixel rnd cam T (middle w (cell c))) ->
  o_accept scan i = true -> (Qabs (prob_at (middle w i) - prob_at (middle w (cell c))) < tue)%Q.
Proof.
  intros [H H20] I F U SF R1 R2 NU SP A. cbn [o_accept camera_scan] in A. unfold node_accept in A. apply F_Measure.qltb_true in A.
  eapply Qle_lt_trans; [|exact A]. clear A. pose proof setup_cfg as HC. pose proof HC as (_ & HC2 & HC3 & HC4).
  destruct (prob_type i (middle w i) H F (middle_in i H) R1) as [F1 M1]. destruct (prob_type i (middle w (cell c)) H F (cell_in i c H I) R2) as [F2 M2].
  change (node_type cfg cam im T min_range max_range w i) with (o_type scan i). destruct (o_type scan i) eqn:E.
  - congruence.
  - rewrite (F1 eq_refl), (F2 eq_refl). setoid_replace (ray_free_p cfg - ray_free_p cfg)%Q with 0%Q by ring. discriminate.
  - cbn [ray_worst_error]. apply Qabs_Qle_condition. unfold ray_free_p in *. specialize (M1 eq_refl). specialize (M2 eq_refl).
    destruct M1 as [-> | ->], M2 as [-> | ->]; split; lra.
  - specialize (SP eq_refl). unfold prob_at. rewrite <- SP. destruct (at_px im (pixel rnd cam T (middle w i))) as [m|].
    + apply C45_ray_error; [exact HC2|apply HC3|exact SF|]. apply depth_bound; [lia|exact I|exact U].
    + setoid_replace ((1 # 2) - (1 # 2))%Q with 0%Q by ring. cbn [ray_worst_error]. change (Qabs 0) with 0%Q.
      pose proof (side_pos i H) as S. assert (W : (0 <= kUnitCubeHalfDiagonal * node_width w i)%Q) by (rewrite width_eq by exact H; assert (KP : (0 < kUnitCubeHalfDiagonal)%Q) by reflexivity; nra).
      assert (D : (0 < (3 # 8) * scaling_occupied cfg / range_sigma cfg)%Q) by (apply Qlt_shift_div_l; lra). nra.
Qed.
End CAM.

(** ** Property theorems *)
(** The region in which a node is exact: the node is a single cell; or it is fully unobserved; or it is fully free, and the middles of node
    and cell are in the range of depths that is used. *)
Definition exact_region (W : oracle Qc) (T : pose3) (min_range max_range w : Q) (i : oidx) (c : idx3) : Prop :=
  oh i = 0 \/ o_type W i = kFullyUnobserved \/
  (o_type W i = kFullyFree /\ in_range min_range max_range (depth T (middle w i)) /\ in_range min_range max_range (depth T (middle w (cell c)))).
Lemma exact_sample flog rnd cfg cam im T min_range max_range tue w i c u : camera_setup flog rnd cfg cam im min_range -> (0 < w)%Q ->
  let W := camera_scan flog rnd cfg cam im T min_range max_range tue w in
  0 <= oh i -> in_node i c = true -> in_front T w i -> assigned min_range max_range (pinhole_sensor cam) (ray_computeUpdate flog cfg rnd pinhole_base im) T w c u ->
  (oh i = 0 -> o_sample W i = u) /\ (o_type W i = kFullyUnobserved -> u = 0%Qc) /\
  (o_type W i = kFullyFree -> in_range min_range max_range (depth T (middle w i)) -> in_range min_range max_range (depth T (middle w (cell c))) -> o_sample W i = u).
Proof.
  intros HS Hw W H I F A. pose proof (assigned_update _ _ _ _ _ _ _ _ _ HS c u A) as Eu. split; [|split].
  - intros E. assert (EC : i = cell c).
    { destruct i as [h [x1 y1 z1]], c as [x2 y2 z2]. cbn [oh] in E. subst h. unfold cell, in_node in *. cbn [oh opos px py pz] in I. change (2 ^ 0) with 1 in I.
      rewrite !andb_true_iff, !Z.leb_le, !Z.ltb_lt in I. f_equal. f_equal; lia. }
    unfold W. rewrite (sample_middle _ _ _ _ _ _ _ _ _ _ HS i H), Eu, EC. reflexivity.
  - intros E. rewrite Eu. apply Qc_is_canon. cbn [this Q2Qc]. rewrite Qred_correct. change (this 0%Qc) with 0%Q.
    apply (point_update flog rnd cfg cam im T min_range max_range tue w HS Hw i); [exact H|exact F|apply cell_in; assumption|exact E].
  - intros E R1 R2. unfold W. rewrite (sample_middle _ _ _ _ _ _ _ _ _ _ HS i H), Eu. apply Qc_is_canon. cbn [this Q2Qc]. rewrite !Qred_correct.
    destruct (point_update flog rnd cfg cam im T min_range max_range tue w HS Hw i _ H F (middle_in w Hw i H)) as (_ & X & _).
    destruct (point_update flog rnd cfg cam im T min_range max_range tue w HS Hw i _ H F (cell_in w Hw i c H I)) as (_ & Y & _).
    rewrite (X E R1), (Y E R2). reflexivity.
Qed.

(** An octree, CoarseToFineIntegrator. For every cell whose part of the map is in front of the camera: in the exact region, the cell changes by
    the update that the measurement model assigns to it, as if every cell had been updated separately. Elsewhere (with one pixel per
    point), the cell changes by the log-odds of a probability that is less than termination_update_error away from the one assigned to
    it, if the middles of node and cell are in the range of depths that is used, and are seen in the same pixel or the node is not possibly
    occupied. *)
Theorem C84_octree : forall flog rnd cfg cam im T min_range max_range tue w C t f,
  camera_setup flog rnd cfg cam im min_range -> (0 < w)%Q -> vo_valid C -> vo_reachable C t -> map_values C t f ->
  let W := camera_scan flog rnd cfg cam im T min_range max_range tue w in
  exists n t' f', (forall fuel, (n <= fuel)%nat -> ctf_updateMap qn keps W fuel C t = Some t') /\ vo_reachable C t' /\ map_values C t' f' /\
  forall c i u, in_octree (cT C) (cell c) -> ends_at W (cT C - 1) c i -> in_front T w i ->
    assigned min_range max_range (pinhole_sensor cam) (ray_computeUpdate flog cfg rnd pinhole_base im) T w c u ->
    (exact_region W T min_range max_range w i c -> with_update (f c) u (f' c)) /\
    (selector cfg = kNearestNeighbor -> (scaling_free cfg <= scaling_occupied cfg)%Q -> unit_axis T ->
     in_range min_range max_range (depth T (middle w i)) -> in_range min_range max_range (depth T (middle w (cell c))) ->
     0 < oh i -> o_type W i <> kFullyUnobserved -> (o_type W i = kPossiblyOccupied -> pixel rnd cam T (middle w i) = pixel rnd cam T (middle w (cell c))) ->
     exists p p', (0 < p < 1)%Q /\ (0 < p' < 1)%Q /\ (Qabs (p - p') < tue)%Q /\ u = Q2Qc (log_odds flog p') /\ with_update (f c) (Q2Qc (log_odds flog p)) (f' c)).
Proof.
  intros flog rnd cfg cam im T min_range max_range tue w C t f HS Hw HC Hr Hf W.
  destruct (C61_scan_effect C t f W HC Hr Hf) as (n & t' & f' & E & R & V & S). exists n, t', f'. split; [exact E|]. split; [exact R|]. split; [exact V|].
  intros c i u Hc Hi Fr A. destruct HC as [HT _]. destruct (C61_end_unique W (cT C - 1) c ltac:(lia)) as (i0 & Hi0 & In & Hh & Un). rewrite <- (Un i Hi) in In, Hh. clear i0 Hi0 Un.
  assert (K : forall v, (0 < oh i -> o_type W i = kFullyUnobserved -> v = 0%Qc) -> (oh i = 0 \/ o_type W i <> kFullyUnobserved -> o_sample W i = v) -> with_update (f c) v (f' c)).
  { intros v K0 K1. specialize (S c i). destruct (Z.eq_dec (oh i) 0) as [E0|E0].
    - specialize (K1 (or_introl E0)). split; intros L.
      + apply S; [exact Hc|exact Hi|]. right. left. rewrite K1. auto.
      + rewrite (S 0%Qc); [ring|exact Hc|exact Hi|]. right. right. rewrite K1. auto.
    - destruct (is_unobserved (o_type W i)) eqn:Eu.
      + apply unobs_true in Eu. rewrite (K0 ltac:(lia) Eu). assert (Z0 : f' c = f c) by (rewrite (S 0%Qc); [ring|exact Hc|exact Hi|]; left; split; [lia|auto]).
        split; intros _; rewrite Z0; [ring|reflexivity].
      + apply unobs_false in Eu. specialize (K1 (or_intror Eu)). split; intros L.
        * apply S; [exact Hc|exact Hi|]. right. left. rewrite K1. auto.
        * rewrite (S 0%Qc); [ring|exact Hc|exact Hi|]. right. right. rewrite K1. auto. }
  split.
  - intros X. destruct (exact_sample flog rnd cfg cam im T min_range max_range tue w i c u HS Hw ltac:(lia) In Fr A) as (X0 & X1 & X2). fold W in X0, X1, X2.
    apply K; [intros _; exact X1|]. intros N. destruct X as [X|[X|(X & R1 & R2)]]; [apply X0; exact X| |apply X2; assumption].
    destruct N as [N|N]; [apply X0; exact N|contradiction].
  - intros SE SF U R1 R2 H0 NU SP.
    exists (prob_at rnd cfg cam im T (middle w i)), (prob_at rnd cfg cam im T (middle w (cell c))).
    split; [eapply prob_bounds; exact HS|]. split; [eapply prob_bounds; exact HS|].
    assert (AC : o_accept W i = true). { destruct Hi as (k & _ & -> & _ & [X|[X|X]]); [cbn [node_of oh] in H0; lia|contradiction|exact X]. }
    split; [eapply (prob_error flog rnd cfg cam im T min_range max_range tue w HS Hw i c); try eassumption; lia|].
    split.
    + rewrite (assigned_update _ _ _ _ _ _ _ _ _ HS c u A). apply Qc_is_canon. cbn [this Q2Qc]. rewrite !Qred_correct. eapply prob_update; eassumption.
    + apply K; [intros _ X; contradiction|]. intros _. unfold W. rewrite (sample_middle _ _ _ _ _ _ _ _ _ _ HS i ltac:(lia)).
      apply Qc_is_canon. cbn [this Q2Qc]. rewrite !Qred_correct. eapply prob_update; eassumption.
Qed.
Print Assumptions C84_octree.

(** A hashed wavelet octree, HashedWaveletIntegrator. Where a scan updates a cell through a node in the exact region, the value that is
    applied is the update that the measurement model assigns to the cell; and a cell in a fully unobserved node, which is
    skipped, is assigned no update. *)
Theorem C84_hashed : forall flog rnd cfg cam im T min_range max_range tue w C m K now k fov sched m' c i u,
  camera_setup flog rnd cfg cam im min_range -> (0 < w)%Q -> valid_config C -> hw_state C m -> 0 <= i_th K -> fov_ok C k fov ->
  let W := camera_scan flog rnd cfg cam im T min_range max_range tue w in
  hw_updateMap qn K W (cT C) now k fov sched m = Some m' -> in_front T w i ->
  assigned min_range max_range (pinhole_sensor cam) (ray_computeUpdate flog cfg rnd pinhole_base im) T w c u ->
  (scan_updates C m K W k fov c -> scan_stops C m K W (cT C - 1) c i true -> exact_region W T min_range max_range w i c ->
     hw_get qn C m' c = applied (fun _ => u) (i_th K) (i_plo K) (i_phi K) (hw_get qn C m) (hw_subdivided C m) i c) /\
  (0 <= oh i -> in_node i c = true -> o_type W i = kFullyUnobserved -> u = 0%Qc).
Proof.
  intros flog rnd cfg cam im T min_range max_range tue w C m K now k fov sched m' c i u HS Hw HC Hm Hth Hf W E Fr A. split.
  - intros Hu Hs X. destruct (C41_stop_unique C m K W (cT C - 1) c i true i true Hth ltac:(destruct HC; lia) Hs Hs) as (_ & _ & In & Hh).
    destruct (C41_scan_effect C m K W now k fov sched m' c HC Hm Hth Hf E) as [U _]. destruct (U Hu) as (i' & b' & S1 & S2).
    destruct (C41_stop_unique C m K W (cT C - 1) c i true i' b' Hth ltac:(destruct HC; lia) Hs S1) as (<- & <- & _). rewrite S2. unfold scan_applied, applied.
    destruct (exact_sample flog rnd cfg cam im T min_range max_range tue w i c u HS Hw ltac:(lia) In Fr A) as (X0 & X1 & X2). fold W in X0, X1, X2.
    assert (ES : o_sample W i = u); [|rewrite ES; reflexivity].
    destruct X as [X|[X|(X & R1 & R2)]]; [apply X0; exact X| |apply X2; assumption].
    rewrite (X1 X). unfold W. rewrite (sample_middle _ _ _ _ _ _ _ _ _ _ HS i ltac:(lia)). apply Qc_is_canon. cbn [this Q2Qc]. rewrite Qred_correct.
    apply (point_update flog rnd cfg cam im T min_range max_range tue w HS Hw i); [lia|exact Fr|apply middle_in; [exact Hw|lia]|exact X].
  - intros H I X. apply (exact_sample flog rnd cfg cam im T min_range max_range tue w i c u HS Hw H I Fr A). exact X.
Qed.
Print Assumptions C84_hashed.

(** ** Examples: a camera that looks along the z axis at walls 10 m (left half of the image) and 4 m away; octree of height 9 with 5 cm cells *)
Definition ex_cfg : mm_config := MM (1 # 100) (3 # 10) (1 # 5) (2 # 5) kNearestNeighbor.
Definition ex_im : img Q := Img 8 6 (fun x y => if (x <? 4)%Z then 10 else 4)%Q.
Definition ex_camera : pinhole := PH 8 6 4 4 4 3.
Definition ex_w : Q := 1 # 20.
Definition ex_W : oracle Qc := camera_scan P_Measure.ex_log round_away ex_cfg ex_camera ex_im at_zero 2 20 (1 # 10) ex_w.
Definition ex_oct : wconfig := WC 9 (Q2Qc (-2)) (Q2Qc 4).
Definition ex_asg : idx3 -> Qc -> Prop := assigned 2 20 (pinhole_sensor ex_camera) (ray_computeUpdate P_Measure.ex_log ex_cfg round_away pinhole_base ex_im) at_zero ex_w.
Lemma ex_setup : camera_setup P_Measure.ex_log round_away ex_cfg ex_camera ex_im 2.
Proof.
  split; [apply C45_ex_hyps|]. split; [split; [exact round_away_nearest|exact round_away_comp]|].
  split; [repeat split; reflexivity|]. split; [reflexivity|]. split; [reflexivity|]. split; [reflexivity|]. split; [reflexivity|]. split; [reflexivity|].
  split; [reflexivity|]. intros p q I N. exfalso. apply N. unfold observed_px. cbn [im_px ex_im]. destruct (p <? 4)%Z; discriminate.
Qed.
Lemma ex_front i : 0 <= oh i -> 0 < pz (opos i) -> in_front at_zero ex_w i.
Proof.
  intros H Z p (_ & _ & L & _). unfold depth, to_sensor, at_zero, no_rot. unfold m3mul. unfold v3add, v3scale, v3sub. cbn [vx vy vz transpose col0 col1 col2 po_R po_t].
  assert (S : (inject_Z 1 * ex_w <= inject_Z (pz (opos i)) * cube_side ex_w i)%Q).
  { unfold cube_side. setoid_replace (inject_Z (pz (opos i)) * (ex_w * inject_Z (2 ^ oh i)))%Q with (inject_Z (pz (opos i) * 2 ^ oh i) * ex_w)%Q by (rewrite inject_Z_mult; ring).
    apply Qmult_le_compat_r; [|discriminate]. rewrite <- Zle_Qle. pose proof (Z.pow_pos_nonneg 2 (oh i)). nia. }
  assert (K : (kEpsilon <= inject_Z 1 * ex_w)%Q) by discriminate. lra.
Qed.
Ltac ends k := exists k; split; [cbn; lia|split; [reflexivity|split; [|try (right; right; vm_compute; reflexivity); try (right; left; vm_compute; reflexivity)]]];
  let j := fresh "j" in let Hj := fresh "Hj" in intros j Hj; assert (Ej : j = 1 \/ j = 2 \/ j = 3 \/ j = 4 \/ j = 5 \/ j = 6 \/ j = 7 \/ j = 8) by (cbn in Hj; lia);
  destruct Ej as [->|[->|[->|[->|[->|[->|[->| ->]]]]]]]; try lia; (split; [intros X; vm_compute in X; discriminate X|vm_compute; reflexivity]).
(** A fully free node of 1.6 m; a fully unobserved one of 6.4 m, seen behind the wall; a possibly occupied one of 20 cm on the wall, with a cell in it that
    is seen in the same pixel *)
Example C84_ex : vo_valid ex_oct /\ vo_reachable ex_oct (vo_new qn) /\ map_values ex_oct (vo_new qn) fzero /\
  (ends_at ex_W 8 (I3 (-40) 5 70) (OI 5 (I3 (-2) 0 2)) /\ in_octree 9 (cell (I3 (-40) 5 70)) /\ in_front at_zero ex_w (OI 5 (I3 (-2) 0 2)) /\
   exact_region ex_W at_zero 2 20 ex_w (OI 5 (I3 (-2) 0 2)) (I3 (-40) 5 70) /\ ex_asg (I3 (-40) 5 70) (Q2Qc (- (2 # 5)))) /\
  (ends_at ex_W 8 (I3 10 5 150) (OI 7 (I3 0 0 1)) /\ in_front at_zero ex_w (OI 7 (I3 0 0 1)) /\ exact_region ex_W at_zero 2 20 ex_w (OI 7 (I3 0 0 1)) (I3 10 5 150)) /\
  (ends_at ex_W 8 (I3 4 0 80) (OI 2 (I3 1 0 20)) /\ in_front at_zero ex_w (OI 2 (I3 1 0 20)) /\ o_type ex_W (OI 2 (I3 1 0 20)) = kPossiblyOccupied /\
   pixel round_away ex_camera at_zero (middle ex_w (OI 2 (I3 1 0 20))) = pixel round_away ex_camera at_zero (middle ex_w (cell (I3 4 0 80))) /\
   in_range 2 20 (depth at_zero (middle ex_w (OI 2 (I3 1 0 20)))) /\ in_range 2 20 (depth at_zero (middle ex_w (cell (I3 4 0 80)))) /\ unit_axis at_zero).
Proof.
  split; [split; [cbn; lia|reflexivity]|]. split; [exists []; split; [constructor|reflexivity]|]. split.
  { split; [cbn; lia|]. intros _ c Hc. rewrite <- (small_vfield ex_oct ltac:(cbn; lia) (vo_new qn) c ltac:(cbn; lia)). unfold vfield, vo_new. destruct (cpath ex_oct c); reflexivity. }
  split; [|split].
  - split; [ends 5|]. split; [unfold in_octree; cbn; lia|]. split; [apply ex_front; cbn; lia|]. split.
    + right. right. split; [vm_compute; reflexivity|]. split; split; discriminate.
    + split; [intros _; apply Qc_is_canon; vm_compute; reflexivity|]. intros N. exfalso. apply N. split; discriminate.
  - split; [ends 7|]. split; [apply ex_front; cbn; lia|]. right. left. vm_compute. reflexivity.
  - split; [ends 2|]. split; [apply ex_front; cbn; lia|]. split; [vm_compute; reflexivity|]. split; [vm_compute; reflexivity|]. repeat split; discriminate.
Qed.

(** A block of 80 cm at the edge of the nearer wall's shadow that the scan adds to an empty hashed map: a cell in its fully free part *)
Definition ex_hashed : wconfig := WC 4 (Q2Qc (-2)) (Q2Qc 4).
Definition ex_cell : idx3 := I3 (-30) 5 70.
Example C84_ex_hashed : valid_config ex_hashed /\ hw_state ex_hashed [] /\ 0 <= i_th exK /\ fov_ok ex_hashed 0 [node_of ex_cell 4] /\
  (exists sched m', hw_updateMap qn exK ex_W 4 1 0 [node_of ex_cell 4] sched [] = Some m') /\ in_front at_zero ex_w (node_of ex_cell 3) /\
  scan_updates ex_hashed [] exK ex_W 0 [node_of ex_cell 4] ex_cell /\ scan_stops ex_hashed [] exK ex_W 3 ex_cell (node_of ex_cell 3) true /\
  exact_region ex_W at_zero 2 20 ex_w (node_of ex_cell 3) ex_cell /\ ex_asg ex_cell (Q2Qc (- (2 # 5))).
Proof.
  assert (V : valid_config ex_hashed) by (split; [cbn; lia|reflexivity]).
  split; [exact V|]. split; [constructor|]. split; [cbn; lia|]. split; [intros i [<-|[]]; reflexivity|]. split; [|split; [|split; [|split; [|split]]]].
  - exists (repeat 0%nat (2 * 8 ^ 4)). apply (C41_terminates ex_hashed [] exK ex_W 1 0 [node_of ex_cell 4]); [exact V|constructor|cbn; lia|].
    intros j Hj. assert (E : length (um_blocks qn exK ex_W [] 0 [node_of ex_cell 4]) = 1%nat) by (vm_compute; reflexivity). rewrite E in Hj.
    assert (j = 0)%nat as -> by lia. rewrite count_occ_repeat_eq by reflexivity. reflexivity.
  - apply ex_front; cbn; lia.
  - split; [left; reflexivity|]. split; [|left; vm_compute; reflexivity]. intros h Hh H. assert (h = 4) as -> by (change (cT ex_hashed) with 4 in Hh; lia). vm_compute in H. discriminate H.
  - apply stop_accept; [cbn; lia| |vm_compute; reflexivity]. intros [H|[_ H]]; [vm_compute in H; discriminate H|]. vm_compute in H. discriminate H.
  - right. right. split; [vm_compute; reflexivity|]. split; split; discriminate.
  - split; [intros _; apply Qc_is_canon; vm_compute; reflexivity|]. intros N. exfalso. apply N. split; discriminate.
Qed.

(** ** False variants *)
(** termination_update_error bounds the error of the probability. The error of the value that is added to the map, its log-odds, can be
    larger, even in a single pixel. *)
Theorem C84_update_error_refuted : exists flog rnd cfg cam im T min_range max_range tue w C c i u,
  camera_setup flog rnd cfg cam im min_range /\ (0 < w)%Q /\ vo_valid C /\
  let W := camera_scan flog rnd cfg cam im T min_range max_range tue w in
  ends_at W (cT C - 1) c i /\ in_octree (cT C) (cell c) /\ in_front T w i /\ unit_axis T /\ (scaling_free cfg <= scaling_occupied cfg)%Q /\
  in_range min_range max_range (depth T (middle w i)) /\ in_range min_range max_range (depth T (middle w (cell c))) /\
  pixel rnd cam T (middle w i) = pixel rnd cam T (middle w (cell c)) /\
  assigned min_range max_range (pinhole_sensor cam) (ray_computeUpdate flog cfg rnd pinhole_base im) T w c u /\
  forall t f, vo_reachable C t -> map_values C t f -> exists n t' f', (forall fuel, (n <= fuel)%nat -> ctf_updateMap qn keps W fuel C t = Some t') /\
    map_values C t' f' /\ (Q2Qc tue < Qcabs (f' c - (f c + u)))%Qc.
Proof.
  exists P_Measure.ex_log, round_away, ex_cfg, ex_camera, ex_im, at_zero, 2%Q, 20%Q, (1 # 10)%Q, ex_w, ex_oct, (I3 4 0 80), (OI 2 (I3 1 0 20)), (Q2Qc (5179 # 103680)).
  destruct C84_ex as (HV & _ & _ & _ & _ & E & F & _ & P & R1 & R2 & U).
  split; [exact ex_setup|]. split; [reflexivity|]. split; [exact HV|]. cbv zeta. fold ex_W. split; [exact E|]. split; [unfold in_octree; cbn; lia|]. split; [exact F|]. split; [exact U|].
  split; [discriminate|]. split; [exact R1|]. split; [exact R2|]. split; [exact P|]. split.
  { split; [intros _; apply Qc_is_canon; vm_compute; reflexivity|]. intros N. exfalso. apply N. split; discriminate. }
  intros t f Hr Hf. destruct (C61_scan_effect ex_oct t f ex_W HV Hr Hf) as (n & t' & f' & A & _ & B & S). exists n, t', f'. split; [exact A|]. split; [exact B|].
  rewrite (S (I3 4 0 80) (OI 2 (I3 1 0 20)) (Q2Qc (319 # 1620))); [|unfold in_octree; cbn; lia|exact E|].
  - setoid_replace (f (I3 4 0 80) + Q2Qc (319 # 1620) - (f (I3 4 0 80) + Q2Qc (5179 # 103680)))%Qc with (Q2Qc (319 # 1620) - Q2Qc (5179 # 103680))%Qc by ring. vm_compute. reflexivity.
  - right. left. split; [right; intros X; vm_compute in X; discriminate X|]. split; [vm_compute; reflexivity|apply Qc_is_canon; vm_compute; reflexivity].
Qed.
(** If node and cell are seen in different pixels, the error of the probability can be larger: here a node of 20 cm at the edge of the wall is made more
    occupied although one of its cells is in free space, 6 m in front of the other wall. *)
Theorem C84_edge_refuted : exists flog rnd cfg cam im T min_range max_range tue w C c i u p p',
  camera_setup flog rnd cfg cam im min_range /\ (0 < w)%Q /\ vo_valid C /\
  let W := camera_scan flog rnd cfg cam im T min_range max_range tue w in
  ends_at W (cT C - 1) c i /\ in_octree (cT C) (cell c) /\ in_front T w i /\ unit_axis T /\ (scaling_free cfg <= scaling_occupied cfg)%Q /\
  in_range min_range max_range (depth T (middle w i)) /\ in_range min_range max_range (depth T (middle w (cell c))) /\
  assigned min_range max_range (pinhole_sensor cam) (ray_computeUpdate flog cfg rnd pinhole_base im) T w c u /\
  o_sample W i = Q2Qc (log_odds flog p) /\ u = Q2Qc (log_odds flog p') /\ (p' < 1 # 2)%Q /\ (1 # 2 < p)%Q /\ (tue < Qabs (p - p'))%Q /\
  forall t f, vo_reachable C t -> map_values C t f -> exists n t' f', (forall fuel, (n <= fuel)%nat -> ctf_updateMap qn keps W fuel C t = Some t') /\
    map_values C t' f' /\ (u < 0 /\ f c < f' c)%Qc.
Proof.
  exists P_Measure.ex_log, round_away, ex_cfg, ex_camera, ex_im, at_zero, 2%Q, 20%Q, (1 # 10)%Q, ex_w, ex_oct, (I3 (-12) 0 80), (OI 2 (I3 (-3) 0 20)), (Q2Qc (- (2 # 5))),
    (ray_full_p ex_cfg (41 # 10) 4), (2 # 5)%Q.
  assert (HV : vo_valid ex_oct) by apply C84_ex. assert (E : ends_at ex_W 8 (I3 (-12) 0 80) (OI 2 (I3 (-3) 0 20))) by ends 2.
  split; [exact ex_setup|]. split; [reflexivity|]. split; [exact HV|]. cbv zeta. fold ex_W. split; [exact E|]. split; [unfold in_octree; cbn; lia|].
  split; [apply ex_front; cbn; lia|]. split; [reflexivity|]. split; [discriminate|]. split; [split; discriminate|]. split; [split; discriminate|]. split.
  { split; [intros _; apply Qc_is_canon; vm_compute; reflexivity|]. intros N. exfalso. apply N. split; discriminate. }
  split; [apply Qc_is_canon; vm_compute; reflexivity|]. split; [apply Qc_is_canon; vm_compute; reflexivity|]. split; [reflexivity|]. split; [vm_compute; reflexivity|]. split; [vm_compute; reflexivity|].
  intros t f Hr Hf. destruct (C61_scan_effect ex_oct t f ex_W HV Hr Hf) as (n & t' & f' & A & _ & B & S). exists n, t', f'. split; [exact A|]. split; [exact B|].
  split; [reflexivity|]. rewrite (S (I3 (-12) 0 80) (OI 2 (I3 (-3) 0 20)) (Q2Qc (319 # 1620))); [|unfold in_octree; cbn; lia|exact E|].
  - unfold Qclt, Qcplus, Q2Qc. cbn [this]. rewrite !Qred_correct. lra.
  - right. left. split; [right; intros X; vm_compute in X; discriminate X|]. split; [vm_compute; reflexivity|apply Qc_is_canon; vm_compute; reflexivity].
Qed.
Print Assumptions C84_update_error_refuted.
Print Assumptions C84_edge_refuted.
