(** Property theorems C84, continued: any projection model and both measurement models. What a scan does to every cell when it is
    integrated coarse-to-fine, compared with the update that the measurement model assigns to the cell itself. In exact arithmetic. *)
From Verif Require Import Base M_IntMath F_IntMath M_NdtreeIndex M_Num F_Num M_Haar3 M_Ndtree S_Field S_Integrate F_Hash M_Wavelet M_WavHist M_Chunked M_ChunkedHist
  M_VolOctree P_VolOctree P_Wavelet M_Integrator F_Integrator F_Integrator3 P_Integrator P_Integrator3 M_CoarseToFine P_CoarseToFine.
From Verif Require Import M_Point P_Point M_Image M_RangeBounds P_RangeBounds M_Measure F_Measure P_Measure M_Intersector P_Intersector P_Intersector2 P_Intersector3.
From Verif Require Import M_FixedRes P_FixedRes M_CameraScan P_CameraScan P_CameraScan2 M_ProjectorScan.
From Coq Require Import QArith Qround Qabs Qcanon Qcabs Lqa Permutation.
Close Scope Qc_scope.
Close Scope Q_scope.
Open Scope Z_scope.

(** ** Specification *)
(** Equal points; functions that do not tell equal numbers apart *)
Definition same_point (p q : v3) : Prop := (vx p == vx q /\ vy p == vy q /\ vz p == vz q)%Q.
Definition same_v2 (p q : v2) : Prop := (fst p == fst q /\ snd p == snd q)%Q.
Definition same_sensor (s s' : sensor) : Prop := same_v2 (fst s) (fst s') /\ (snd s == snd s')%Q.
Definition well_defined (sens : v3 -> sensor) : Prop := forall p q, same_point p q -> same_sensor (sens p) (sens q).
(** Measurement models with a square root and an error norm as they are used *)
Definition mm_ok (fsqrt : Q -> Q) (cfg : mm_config) (mm : mmodel) : Prop :=
  match mm with
  | RayModel => True
  | BeamModel error2 _ => sqrt_like fsqrt cfg /\ (forall a b, 0 <= error2 a b)%Q /\
      forall a b a' b', same_v2 a a' -> same_v2 b b' -> (error2 a b == error2 a' b')%Q
  end.
(** A projection model, measurement model and range image as the integrators accept them; pixels without a measurement are zero. *)
Definition scan_setup (fsqrt flog : Q -> Q) (rnd : Q -> Z) (cfg : mm_config) (mm : mmodel) (prj : projector) (wraps : bool) (sens : v3 -> sensor) (im : img Q)
  (min_range : Q) : Prop :=
  log_like flog /\ rounds rnd /\ proper_config cfg /\ mm_ok fsqrt cfg mm /\ well_defined sens /\
  valid_setup prj im wraps (mm_padding cfg mm) /\ clean_image cfg im min_range.
(** The sensor box of a node encloses the sensor coordinates of a point. *)
Definition enclosed (cfg : mm_config) (mm : mmodel) (prj : projector) (wraps : bool) (sens : v3 -> sensor) (sbox : box -> m3 -> v3 -> saabb) (im : img Q) (T : pose3)
  (w : Q) (i : oidx) (p : v3) : Prop :=
  encloses prj im wraps (mm_padding cfg mm) (sbox (node_aabb w i) (transpose (po_R T)) (po_t T)) (sens (to_sensor T p)).

(** ** Facts *)
Lemma ltb_eq a b a' b' : (a == a')%Q -> (b == b')%Q -> qltb a b = qltb a' b'.
Proof.
  intros A B. destruct (qltb a b) eqn:E, (qltb a' b') eqn:F; try reflexivity;
    [apply F_Measure.qltb_true in E; apply F_Measure.qltb_false in F|apply F_Measure.qltb_false in E; apply F_Measure.qltb_true in F]; lra.
Qed.
Lemma qmax_eq a b a' b' : (a == a')%Q -> (b == b')%Q -> (qmax a b == qmax a' b')%Q.
Proof. intros A B. unfold qmax. rewrite (ltb_eq a b a' b' A B). destruct (qltb a' b'); assumption. Qed.
Lemma to_sensor_same T p q : same_point p q -> same_point (to_sensor T p) (to_sensor T q).
Proof.
  intros (X & Y & Z). unfold same_point, to_sensor, m3mul, v3add, v3scale, v3sub. cbn [vx vy vz]. rewrite X, Y, Z. repeat split; reflexivity.
Qed.
(** Both projections are functions of the point. *)
Lemma pinhole_wd cam : well_defined (pinhole_sensor cam).
Proof.
  intros p q (X & Y & Z). unfold pinhole_sensor, same_sensor, same_v2. cbn [fst snd].
  assert (M : (qmax (vz p) kEpsilon == qmax (vz q) kEpsilon)%Q) by (apply qmax_eq; [exact Z|reflexivity]).
  rewrite M, X, Y, Z. repeat split; reflexivity.
Qed.
Lemma atan_eq x y : (x == y)%Q -> (approx_atan x == approx_atan y)%Q.
Proof. intros E. unfold approx_atan. cbv zeta. rewrite E. reflexivity. Qed.
Lemma atan2_eq y x y' x' : (y == y')%Q -> (x == x')%Q -> (approx_atan2 y x == approx_atan2 y' x')%Q.
Proof.
  intros Y X. unfold approx_atan2, approx_atan2_signed. cbv zeta.
  rewrite (ltb_eq y 0 y' 0 Y ltac:(reflexivity)), (ltb_eq x 0 x' 0 X ltac:(reflexivity)), (ltb_eq (Qabs x) (Qabs y) (Qabs x') (Qabs y')) by (rewrite ?X, ?Y; reflexivity).
  set (sw := qltb (Qabs x') (Qabs y')).
  assert (A : (approx_atan ((if sw then x else y) / (if sw then y else x)) == approx_atan ((if sw then x' else y') / (if sw then y' else x')))%Q).
  { apply atan_eq. destruct sw; rewrite X, Y; reflexivity. }
  revert A. generalize (approx_atan ((if sw then x else y) / (if sw then y else x))) (approx_atan ((if sw then x' else y') / (if sw then y' else x'))). intros a a' A.
  destruct sw, (qltb x' 0); rewrite A; reflexivity.
Qed.
Lemma spherical_wd fsqrt : (forall x y, (x == y)%Q -> (fsqrt x == fsqrt y)%Q) -> well_defined (spherical_sensor fsqrt).
Proof.
  intros HQ p q (X & Y & Z). unfold spherical_sensor, spherical_image, same_sensor, same_v2. cbn [fst snd].
  split; [split|].
  - apply atan2_eq; [exact Z|]. apply HQ. rewrite X, Y. reflexivity.
  - apply atan2_eq; assumption.
  - apply HQ. unfold v3norm2. rewrite X, Y, Z. reflexivity.
Qed.
(** The measurement models are functions of the sensor coordinates. *)
Lemma beam_eq fsqrt flog cfg d d' e e' m m' : log_like flog -> proper_config cfg -> sqrt_like fsqrt cfg -> (0 <= e)%Q -> (d == d')%Q -> (e == e')%Q -> (m == m')%Q -> (beam_beam fsqrt flog cfg d e m == beam_beam fsqrt flog cfg d' e' m')%Q.
Proof.
  intros HL HC HQ P D E M. rewrite !(beam_one_formula fsqrt flog cfg HQ HL HC).
  pose proof (beam_formula_range fsqrt cfg HC d e m). pose proof (p_bounds cfg HC).
  apply lo_eq; [exact HL|lra|]. unfold beam_formula. apply Qplus_comp; [|reflexivity]. apply (scale_comp cfg HC).
  assert (A : (angle_contribution fsqrt cfg e == angle_contribution fsqrt cfg e')%Q).
  { apply Qle_antisym; apply (ac_anti fsqrt cfg HQ HC); lra. }
  rewrite A. apply Qmult_comp; [|reflexivity]. apply rc_comp. rewrite D, M. reflexivity.
Qed.
Lemma fold_eq {A B} (g : A -> Q) (h : B -> Q) l l' : Forall2 (fun a b => g a == h b)%Q l l' -> forall u v, (u == v)%Q ->
  (fold_left (fun u a => u + g a) l u == fold_left (fun u a => u + h a) l' v)%Q.
Proof. intros F. induction F as [|a b l l' E F IH]; intros u v U; [exact U|]. cbn [fold_left]. apply IH. rewrite U, E. reflexivity. Qed.
Lemma fold_ext_q {A} (f g : Q -> A -> Q) l : (forall u a, f u a = g u a) -> forall u, fold_left f l u = fold_left g l u.
Proof. intros H. induction l as [|a l IH]; intros u; [reflexivity|]. cbn [fold_left]. rewrite H. apply IH. Qed.
Section MM.
Context (fsqrt flog : Q -> Q) (rnd : Q -> Z) (cfg : mm_config) (mm : mmodel) (prj : projector) (wraps : bool) (sens : v3 -> sensor) (im : img Q) (min_range max_range : Q).
Context (HS : scan_setup fsqrt flog rnd cfg mm prj wraps sens im min_range).
Notation model := (mm_update fsqrt flog rnd cfg mm prj im).
Lemma real_eq c c' : same_v2 c c' -> same_v2 (imageToIndexReal prj c) (imageToIndexReal prj c').
Proof. intros (A & B). unfold imageToIndexReal, same_v2. cbn [fst snd]. rewrite A, B. split; reflexivity. Qed.
Lemma model_eq c c' d d' : same_v2 c c' -> (d == d')%Q -> (model c d == model c' d')%Q.
Proof.
  intros C D. pose proof HS as (HL & (_ & RC) & HC & HM & _). pose proof (real_eq c c' C) as (R1 & R2). unfold mm_update.
  assert (NI : imageToNearestIndices prj c = imageToNearestIndices prj c').
  { unfold imageToNearestIndices, imageToFloorIndex, imageToCeilIndex. cbv zeta. rewrite (Qfloor_comp _ _ R1), (Qfloor_comp _ _ R2), (Qceiling_comp _ _ R1), (Qceiling_comp _ _ R2). reflexivity. }
  destruct mm as [|error2 offsets].
  - assert (RA : forall i, (ray_at flog cfg im d i == ray_at flog cfg im d' i)%Q).
    { intros i. unfold ray_at. destruct (at_px im i) as [v|]; [|reflexivity]. rewrite !(ray_one_formula flog cfg HL HC).
      pose proof (full_p_range cfg HC d v). pose proof (p_bounds cfg HC). apply lo_eq; [exact HL|lra|]. unfold ray_full_p. apply Qplus_comp; [|reflexivity].
      apply (scale_comp cfg HC). apply rc_comp. rewrite D. reflexivity. }
    unfold ray_computeUpdate. destruct (selector cfg).
    + unfold imageToNearestIndex. cbv zeta. rewrite (RC _ _ R1), (RC _ _ R2). apply RA.
    + rewrite NI. apply fold_comp; [|reflexivity]. intros; apply RA.
  - destruct HM as (HQ & HP & HE). unfold beam_computeUpdate. destruct (selector cfg).
    + unfold beam_nearest, imageToNearestIndexAndOffset. cbv zeta. cbn [fst snd]. rewrite (RC _ _ R1), (RC _ _ R2).
      destruct (at_px im _) as [m|]; [|reflexivity]. apply beam_eq; [exact HL|exact HC|exact HQ|apply HP|exact D| |reflexivity].
      apply HE; [exact C|]. unfold v2sub, same_v2. cbn [fst snd]. rewrite R1, R2. split; reflexivity.
    + set (term := fun (c : v2) (d : Q) (io : i2 * v2) =>
        beam_beam fsqrt flog cfg d (error2 c (match at_px im (fst io) with None => snd io | Some _ => v2sub (snd io) (offsets (fst (fst io)) (snd (fst io))) end))
          (match at_px im (fst io) with None => 0 | Some m => m end)%Q).
      assert (EA : forall c d, beam_all fsqrt flog cfg error2 prj im offsets c d = fold_left (fun u io => u + term c d io)%Q (imageToNearestIndicesAndOffsets prj c) 0%Q).
      { intros a b. unfold beam_all. apply fold_ext_q. intros u [i o]. unfold term. cbn [fst snd]. destruct (at_px im i); reflexivity. }
      rewrite !EA. apply fold_eq; [|reflexivity]. unfold imageToNearestIndicesAndOffsets. cbv zeta. rewrite NI.
      generalize (imageToNearestIndices prj c'). intros l. induction l as [|i l IH]; [constructor|]. cbn [map]. constructor; [|exact IH].
      unfold term. cbn [fst snd]. apply beam_eq; [exact HL|exact HC|exact HQ|apply HP|exact D| |reflexivity].
      apply HE; [exact C|]. destruct (at_px im i); unfold v2sub, same_v2; cbn [fst snd]; rewrite R1, R2; split; reflexivity.
Qed.
Context (sbox : box -> m3 -> v3 -> saabb) (T : pose3) (tue w : Q) (Hw : (0 < w)%Q).
Notation scan := (projector_scan fsqrt flog rnd cfg mm prj wraps sens sbox im T min_range max_range tue w).
Definition p_update (p : v3) : Q := computeUpdate min_range max_range model (sens (to_sensor T p)).
Lemma p_update_same p q : same_point p q -> (p_update p == p_update q)%Q.
Proof.
  intros E. pose proof HS as (_ & _ & _ & _ & WD & _). destruct (WD _ _ (to_sensor_same T p q E)) as [A B]. unfold p_update, computeUpdate.
  rewrite (ltb_eq _ min_range _ min_range B ltac:(reflexivity)), (ltb_eq max_range _ max_range _ ltac:(reflexivity) B). destruct (_ || _); [reflexivity|].
  apply model_eq; assumption.
Qed.
Lemma p_middle i : 0 <= oh i -> same_point (node_center w i) (middle w i).
Proof. intros H. exact (center_eq w i H). Qed.
Lemma p_cell c : same_point (cell_center w c) (middle w (cell c)).
Proof. unfold same_point, middle, cube_side, cell_center, cell; cbn [vx vy vz oh opos]; change (inject_Z (2 ^ 0)) with 1%Q; repeat split; ring. Qed.
Lemma q2_eq a b : (a == b)%Q -> Q2Qc a = Q2Qc b.
Proof. intros E. apply Qc_is_canon. cbn [this Q2Qc]. rewrite !Qred_correct. exact E. Qed.
Lemma p_sample i : 0 <= oh i -> o_sample scan i = Q2Qc (p_update (middle w i)).
Proof. intros H. cbn [o_sample projector_scan]. apply q2_eq. exact (p_update_same _ _ (p_middle i H)). Qed.
Lemma p_assigned c u : assigned min_range max_range sens model T w c u -> u = Q2Qc (p_update (middle w (cell c))).
Proof.
  intros [A B]. rewrite <- (q2_eq _ _ (p_update_same _ _ (p_cell c))).
  unfold p_update, computeUpdate. change (to_sensor T (cell_center w c)) with (sampled T w c). set (s := sens (sampled T w c)) in *.
  destruct (qltb (snd s) min_range) eqn:L1; [apply F_Measure.qltb_true in L1; cbn [orb]; apply B; lra|].
  destruct (qltb max_range (snd s)) eqn:L2; [apply F_Measure.qltb_true in L2; cbn [orb]; apply B; lra|]. apply F_Measure.qltb_false in L1, L2.
  cbn [orb]. apply A. split; assumption.
Qed.
Lemma p_type i : determineUpdateType prj im wraps min_range max_range (mm_padding cfg mm) (range_front cfg) (range_back cfg) (containsPoint (node_aabb w i) (po_t T))
    (sbox (node_aabb w i) (transpose (po_R T)) (po_t T)) = Some (o_type scan i).
Proof.
  pose proof HS as (_ & _ & _ & _ & _ & V & _). cbn [o_type projector_scan]. unfold scan_type.
  destruct (C40_total prj im wraps min_range max_range (mm_padding cfg mm) (range_front cfg) (range_back cfg) (containsPoint (node_aabb w i) (po_t T)) (sbox (node_aabb w i) (transpose (po_R T)) (po_t T)) V) as (u & ->).
  reflexivity.
Qed.
Lemma p_point i p : enclosed cfg mm prj wraps sens sbox im T w i p ->
  (o_type scan i = kFullyUnobserved -> (p_update p == 0)%Q) /\ (o_type scan i = kFullyFree \/ o_type scan i = kFreeOrUnobserved -> (p_update p <= 0)%Q).
Proof.
  intros E. pose proof (p_type i) as U. destruct (containsPoint (node_aabb w i) (po_t T)) eqn:CP.
  { assert (U' : o_type scan i = kPossiblyOccupied) by (cbn [determineUpdateType] in U; injection U as U; symmetry; exact U). rewrite U'. split; [discriminate|]. intros [X|X]; discriminate X. }
  pose proof HS as (HL & (HN & _) & HC & HM & _ & V & HI). unfold enclosed in E. unfold p_update, mm_update.
  revert U E V. generalize (o_type scan i). intros ty U E V. clear CP. revert U E V HM. destruct mm as [|error2 offsets]; cbn [mm_padding mm_ok]; intros U E V HM.
  - destruct (C40_ray_update_partial flog cfg rnd prj im wraps min_range max_range _ _ _ HL HC HN V HI E U) as (A & _ & D). split; [exact A|exact D].
  - destruct HM as (HQ & HP & _). exact (C40_beam_update_partial fsqrt flog cfg error2 rnd prj im offsets wraps min_range max_range _ _ _ HQ HL HC HP HN V HI E U).
Qed.
(** The update of a node and the one of a cell in it *)
Lemma p_relate i c u : 0 <= oh i -> in_node i c = true -> assigned min_range max_range sens model T w c u ->
  (oh i = 0 -> o_sample scan i = u) /\
  (enclosed cfg mm prj wraps sens sbox im T w i (middle w (cell c)) -> o_type scan i = kFullyUnobserved -> u = 0%Qc) /\
  (enclosed cfg mm prj wraps sens sbox im T w i (middle w (cell c)) -> o_type scan i = kFullyFree \/ o_type scan i = kFreeOrUnobserved -> (u <= 0)%Qc) /\
  (enclosed cfg mm prj wraps sens sbox im T w i (middle w i) -> o_type scan i = kFullyFree \/ o_type scan i = kFreeOrUnobserved -> (o_sample scan i <= 0)%Qc).
Proof.
  intros H I A. pose proof (p_assigned c u A) as Eu. split; [|split; [|split]].
  - intros E. assert (EC : i = cell c).
    { destruct i as [h [x1 y1 z1]], c as [x2 y2 z2]. cbn [oh] in E. subst h. unfold cell, in_node in *. cbn [oh opos px py pz] in I. change (2 ^ 0) with 1 in I.
      rewrite !andb_true_iff, !Z.leb_le, !Z.ltb_lt in I. f_equal. f_equal; lia. }
    rewrite p_sample, Eu, EC by exact H. reflexivity.
  - intros E Ty. rewrite Eu. rewrite (q2_eq _ 0%Q); [reflexivity|]. apply (p_point i _ E), Ty.
  - intros E Ty. rewrite Eu. unfold Qcle. cbn [this Q2Qc]. rewrite Qred_correct. apply (p_point i _ E), Ty.
  - intros E Ty. rewrite p_sample by exact H. unfold Qcle. cbn [this Q2Qc]. rewrite Qred_correct. apply (p_point i _ E), Ty.
Qed.
End MM.

(** ** Property theorems *)
(** With a pinhole camera, the sensor box of a node in front of the camera encloses all points of the node. *)
Theorem C84_pinhole_enclosed : forall cfg mm cam im T w i p, pinhole_isValid cam = true -> (0 < w)%Q -> 0 <= oh i -> in_front T w i -> in_cube3 w i p ->
  enclosed cfg mm pinhole_base false (pinhole_sensor cam) (pinhole_aabb cam) im T w i p.
Proof.
  intros cfg mm cam im T w i p V Hw H F I. unfold pinhole_isValid in V. rewrite !andb_true_iff in V. destruct V as [[_ V3] V4]. apply F_Measure.qltb_true in V3, V4.
  apply (C40_pinhole_box _ cam (node_aabb w i) (transpose (po_R T)) (po_t T) p); [exact V3|exact V4|apply in_box_cube; assumption|apply front_corners; assumption].
Qed.

(** An octree, CoarseToFineIntegrator. A cell that the scan updates on its own gets the update that the measurement model assigns to it. A cell in a
    fully unobserved node does not change, and none is assigned to it. A cell in a node that is free, or free or unobserved, is not made more
    occupied, nor is it assigned an update that would do so. *)
Theorem C84_projector_octree : forall fsqrt flog rnd cfg mm prj wraps sens sbox im T min_range max_range tue w C t f,
  scan_setup fsqrt flog rnd cfg mm prj wraps sens im min_range -> (0 < w)%Q -> vo_valid C -> vo_reachable C t -> map_values C t f ->
  let W := projector_scan fsqrt flog rnd cfg mm prj wraps sens sbox im T min_range max_range tue w in
  let seen := enclosed cfg mm prj wraps sens sbox im T w in
  exists n t' f', (forall fuel, (n <= fuel)%nat -> ctf_updateMap qn keps W fuel C t = Some t') /\ vo_reachable C t' /\ map_values C t' f' /\
  forall c i u, in_octree (cT C) (cell c) -> ends_at W (cT C - 1) c i ->
    assigned min_range max_range sens (mm_update fsqrt flog rnd cfg mm prj im) T w c u ->
    (oh i = 0 -> with_update (f c) u (f' c)) /\
    (0 < oh i -> o_type W i = kFullyUnobserved -> f' c = f c /\ (seen i (middle w (cell c)) -> u = 0%Qc)) /\
    (0 < oh i -> o_type W i = kFullyFree \/ o_type W i = kFreeOrUnobserved ->
      (seen i (middle w i) -> f' c <= f c)%Qc /\ (seen i (middle w (cell c)) -> u <= 0)%Qc).
Proof.
  intros fsqrt flog rnd cfg mm prj wraps sens sbox im T min_range max_range tue w C t f HS Hw HC Hr Hf W seen.
  destruct (C61_scan_effect C t f W HC Hr Hf) as (n & t' & f' & E & R & V & S). exists n, t', f'. split; [exact E|]. split; [exact R|]. split; [exact V|].
  intros c i u Hc Hi A. destruct HC as [HT _]. destruct (C61_end_unique W (cT C - 1) c ltac:(lia)) as (i0 & Hi0 & In & Hh & Un). rewrite <- (Un i Hi) in In, Hh. clear i0 Hi0 Un.
  destruct (p_relate fsqrt flog rnd cfg mm prj wraps sens im min_range max_range HS sbox T tue w i c u ltac:(lia) In A) as (X0 & X1 & X2 & X3). fold W in X0, X1, X2, X3. fold seen in X1, X2, X3.
  specialize (S c i). split; [|split].
  - intros E0. specialize (X0 E0). split; intros L.
    + apply S; [exact Hc|exact Hi|]. right. left. rewrite X0. auto.
    + rewrite (S 0%Qc); [ring|exact Hc|exact Hi|]. right. right. rewrite X0. auto.
  - intros H0 Ty. split; [|intros B; exact (X1 B Ty)]. rewrite (S 0%Qc); [ring|exact Hc|exact Hi|]. left. split; [lia|auto].
  - intros H0 Ty. split; [|intros B; exact (X2 B Ty)]. intros B. specialize (X3 B Ty).
    assert (N : o_type W i <> kFullyUnobserved) by (intros Y; rewrite Y in Ty; destruct Ty as [Y'|Y']; discriminate Y').
    destruct (Qclt_le_dec keps (Qcabs (o_sample W i))) as [L|L].
    + rewrite (S (o_sample W i)); [|exact Hc|exact Hi|right; left; auto]. 
      rewrite <- (Qcplus_0_r (f c)) at 2. apply Qcplus_le_compat; [apply Qcle_refl|exact X3].
    + rewrite (S 0%Qc); [|exact Hc|exact Hi|right; right; split; [right; exact N|split; [apply Qcle_not_lt; exact L|reflexivity]]].
      rewrite Qcplus_0_r. apply Qcle_refl.
Qed.

(** A hashed wavelet octree, HashedWaveletIntegrator: the cell is updated with a value [s], which is the assigned one where the scan reaches single
    cells, and does not make the cell more occupied where the node is free, or free or unobserved. *)
Theorem C84_projector_hashed : forall fsqrt flog rnd cfg mm prj wraps sens sbox im T min_range max_range tue w C m K now k fov sched m' c i u,
  scan_setup fsqrt flog rnd cfg mm prj wraps sens im min_range -> (0 < w)%Q -> valid_config C -> hw_state C m -> 0 <= i_th K -> fov_ok C k fov ->
  let W := projector_scan fsqrt flog rnd cfg mm prj wraps sens sbox im T min_range max_range tue w in
  let seen := enclosed cfg mm prj wraps sens sbox im T w in
  hw_updateMap qn K W (cT C) now k fov sched m = Some m' ->
  assigned min_range max_range sens (mm_update fsqrt flog rnd cfg mm prj im) T w c u ->
  (scan_updates C m K W k fov c -> scan_stops C m K W (cT C - 1) c i true ->
     exists s, hw_get qn C m' c = applied (fun _ => s) (i_th K) (i_plo K) (i_phi K) (hw_get qn C m) (hw_subdivided C m) i c /\
       (oh i = 0 -> s = u) /\
       (o_type W i = kFullyFree \/ o_type W i = kFreeOrUnobserved -> (seen i (middle w i) -> s <= 0)%Qc /\ (seen i (middle w (cell c)) -> u <= 0)%Qc)) /\
  (0 <= oh i -> in_node i c = true -> o_type W i = kFullyUnobserved -> seen i (middle w (cell c)) -> u = 0%Qc).
Proof.
  intros fsqrt flog rnd cfg mm prj wraps sens sbox im T min_range max_range tue w C m K now k fov sched m' c i u HS Hw HC Hm Hth Hf W seen E A. split.
  - intros Hu Hs. destruct (C41_stop_unique C m K W (cT C - 1) c i true i true Hth ltac:(destruct HC; lia) Hs Hs) as (_ & _ & In & Hh).
    destruct (C41_scan_effect C m K W now k fov sched m' c HC Hm Hth Hf E) as [U _]. destruct (U Hu) as (i' & b' & S1 & S2).
    destruct (C41_stop_unique C m K W (cT C - 1) c i true i' b' Hth ltac:(destruct HC; lia) Hs S1) as (<- & <- & _).
    destruct (p_relate fsqrt flog rnd cfg mm prj wraps sens im min_range max_range HS sbox T tue w i c u ltac:(lia) In A) as (X0 & X1 & X2 & X3).
    exists (o_sample W i). split; [rewrite S2; reflexivity|]. split; [exact X0|]. intros Ty. split; intros B; [exact (X3 B Ty)|exact (X2 B Ty)].
  - intros H I Ty B. exact (proj1 (proj2 (p_relate fsqrt flog rnd cfg mm prj wraps sens im min_range max_range HS sbox T tue w i c u H I A)) B Ty).
Qed.

(** A hashed chunked wavelet octree, HashedChunkedWaveletIntegrator *)
Theorem C84_projector_chunked : forall fuel fsqrt flog rnd cfg mm prj wraps sens sbox im T min_range max_range tue w C m K now k fov order c i b u,
  scan_setup fsqrt flog rnd cfg mm prj wraps sens im min_range -> (0 < w)%Q ->
  valid_config C -> 2 <= cT C -> (Z.to_nat (cT C) <= fuel)%nat -> hc_state fuel C m -> 0 <= i_th K -> (i_plo K <= i_phi K)%Qc -> NoDup fov -> fov_ok C k fov ->
  let W := projector_scan fsqrt flog rnd cfg mm prj wraps sens sbox im T min_range max_range tue w in
  let seen := enclosed cfg mm prj wraps sens sbox im T w in
  Permutation order (hc_blocks qn K W m k fov) ->
  let m' := hc_updateMap qn K W (cT C) now order (hc_blocks qn K W m k fov) m in
  assigned min_range max_range sens (mm_update fsqrt flog rnd cfg mm prj im) T w c u ->
  c_updates C m K W k fov c -> c_stops C m K W (cT C - 1) c i b ->
  (exists s, hc_get qn C m' c = batch_applied (fun _ => s) (i_plo K) (i_phi K) (hc_get qn C m) b i c /\
     (oh i = 0 -> s = u) /\
     (o_type W i = kFullyFree \/ o_type W i = kFreeOrUnobserved -> (seen i (middle w i) -> s <= 0)%Qc /\ (seen i (middle w (cell c)) -> u <= 0)%Qc)) /\
  (o_type W i = kFullyUnobserved -> seen i (middle w (cell c)) -> u = 0%Qc).
Proof.
  intros fuel fsqrt flog rnd cfg mm prj wraps sens sbox im T min_range max_range tue w C m K now k fov order c i b u HS Hw HC HT2 Hfuel Hm Hth Hcl Hnd Hf W seen Hp m' A Hu Hs.
  destruct (C41_chunked_stop_unique C m K W (cT C - 1) c i b i b Hth ltac:(lia) Hs Hs) as (_ & _ & In & Ho).
  destruct (C41_chunked_effect fuel C m K W now k fov order c HC HT2 Hfuel Hm Hth Hcl Hnd Hf Hp) as [U _]. cbv zeta in U. destruct (U Hu) as (i' & b' & S1 & S2).
  destruct (C41_chunked_stop_unique C m K W (cT C - 1) c i b i' b' Hth ltac:(lia) Hs S1) as (<- & <- & _). fold m' in S2.
  destruct (p_relate fsqrt flog rnd cfg mm prj wraps sens im min_range max_range HS sbox T tue w i c u ltac:(lia) In A) as (X0 & X1 & X2 & X3).
  split; [|intros Ty B; exact (X1 B Ty)]. exists (o_sample W i). split; [rewrite S2; unfold c_applied, batch_applied; reflexivity|].
  split; [exact X0|]. intros Ty. split; intros B; [exact (X3 B Ty)|exact (X2 B Ty)].
Qed.
Print Assumptions C84_pinhole_enclosed.
Print Assumptions C84_projector_octree.
Print Assumptions C84_projector_hashed.
Print Assumptions C84_projector_chunked.

(** ** Examples *)
(** The camera of C84_ex with the ContinuousBeam model *)
Definition ex_beam_cfg : mm_config := MM (1 # 8) (3 # 10) (1 # 5) (2 # 5) kNearestNeighbor.
Definition ex_beam : mmodel := BeamModel (fun _ o => fst o * fst o + snd o * snd o)%Q (fun _ _ => (0, 0)%Q).
Lemma ex_beam_setup : scan_setup ex_sqrt P_Measure.ex_log round_away ex_beam_cfg ex_beam pinhole_base false (pinhole_sensor ex_camera) ex_im 2.
Proof.
  destruct ex_setup as (HL & HR & HC & _ & _ & _ & _ & _ & HI). split; [exact HL|]. split; [exact HR|]. split; [repeat split; reflexivity|]. split; [|split; [apply pinhole_wd|split; [|exact HI]]].
  - split; [split; [apply C45_ex_hyps|vm_compute; reflexivity]|]. split.
    + intros a b. pose proof (sq_nonneg (fst b)). pose proof (sq_nonneg (snd b)). lra.
    + intros a b a' b' _ (X & Y). rewrite X, Y. reflexivity.
  - split; [reflexivity|]. split; [reflexivity|]. split; [vm_compute; discriminate|]. split; [vm_compute; repeat split; discriminate|discriminate].
Qed.
Definition ex_beam_W : oracle Qc := projector_scan ex_sqrt P_Measure.ex_log round_away ex_beam_cfg ex_beam pinhole_base false (pinhole_sensor ex_camera) (pinhole_aabb ex_camera) ex_im at_zero 2 20 (1 # 10) ex_w.
Definition ex_beam_cell : idx3 := I3 (-40) 5 70.
Example C84_ex_beam : scan_setup ex_sqrt P_Measure.ex_log round_away ex_beam_cfg ex_beam pinhole_base false (pinhole_sensor ex_camera) ex_im 2 /\
  pinhole_isValid ex_camera = true /\ in_octree 9 (cell ex_beam_cell) /\ ends_at ex_beam_W 8 ex_beam_cell (node_of ex_beam_cell 3) /\
  o_type ex_beam_W (node_of ex_beam_cell 3) = kFullyFree /\ in_front at_zero ex_w (node_of ex_beam_cell 3) /\
  o_sample ex_beam_W (node_of ex_beam_cell 3) = Q2Qc (- (9445643 # 29296875)) /\
  assigned 2 20 (pinhole_sensor ex_camera) (mm_update ex_sqrt P_Measure.ex_log round_away ex_beam_cfg ex_beam pinhole_base ex_im) at_zero ex_w ex_beam_cell (Q2Qc (- (5193121 # 29296875))) /\
  scan_stops ex_hashed [] exK ex_beam_W 3 ex_beam_cell (node_of ex_beam_cell 3) true /\ scan_updates ex_hashed [] exK ex_beam_W 0 [node_of ex_beam_cell 4] ex_beam_cell /\
  c_stops ex_hashed [] exK ex_beam_W 3 ex_beam_cell (node_of ex_beam_cell 3) AddSample /\ c_updates ex_hashed [] exK ex_beam_W 0 [node_of ex_beam_cell 4] ex_beam_cell.
Proof.
  split; [exact ex_beam_setup|]. split; [reflexivity|]. split; [unfold in_octree; cbn; lia|]. split; [ends 3|]. split; [vm_compute; reflexivity|]. split; [apply ex_front; cbn; lia|].
  split; [apply Qc_is_canon; vm_compute; reflexivity|]. split.
  { split; [intros _; apply Qc_is_canon; vm_compute; reflexivity|]. intros N. exfalso. apply N. split; discriminate. }
  split; [|split; [|split]].
  - apply stop_accept; [cbn; lia| |vm_compute; reflexivity]. intros [H|[_ H]]; [vm_compute in H; discriminate H|]. vm_compute in H. discriminate H.
  - split; [left; reflexivity|]. split; [|left; vm_compute; reflexivity]. intros h Hh H. assert (h = 4) as -> by (change (cT ex_hashed) with 4 in Hh; lia). vm_compute in H. discriminate H.
  - apply bstop_accept; [|vm_compute; reflexivity]. intros [H|[_ H]]; [vm_compute in H; discriminate H|]. vm_compute in H. discriminate H.
  - split; [left; reflexivity|]. split; [|left; vm_compute; reflexivity]. intros h Hh H. assert (h = 4) as -> by (change (cT ex_hashed) with 4 in Hh; lia). vm_compute in H. discriminate H.
Qed.
(** A LiDAR at (-3, 4, 0) that measures a surface 8.2 m away in one direction and free space in the others; cells of 1 m *)
Definition lidar_T : pose3 := Pose3 id_R (V3 (-3) 4 0).
Definition lidar_im : img Q := Img 22 32 (fun x y => if i2_eqb (x, y) (16, 12)%Z then 82 # 10 else 100)%Q.
Definition lidar_cfg : mm_config := MM (1 # 100) (1 # 20) (1 # 5) (2 # 5) kNearestNeighbor.
Definition lidar_W : oracle Qc := projector_scan ex_sqrt P_Measure.ex_log round_away lidar_cfg RayModel (spherical_base sph) (axis_periodic (sp_azimuth sph)) (spherical_sensor ex_sqrt) (spherical_aabb ex_sqrt) lidar_im lidar_T (1 # 2) 200 (1 # 10) 1.
Lemma lidar_setup : scan_setup ex_sqrt P_Measure.ex_log round_away lidar_cfg RayModel (spherical_base sph) (axis_periodic (sp_azimuth sph)) (spherical_sensor ex_sqrt) lidar_im (1 # 2).
Proof.
  destruct ex_setup as (HL & HR & _). split; [exact HL|]. split; [exact HR|]. split; [repeat split; reflexivity|]. split; [exact I|]. split; [|split].
  - apply spherical_wd. apply C40_ex_range.
  - split; [reflexivity|]. split; [reflexivity|]. split; [vm_compute; discriminate|]. split; [vm_compute; repeat split|discriminate].
  - split; [reflexivity|]. intros p q _ N. exfalso. apply N. unfold observed_px. cbn [im_px lidar_im]. destruct (i2_eqb _ _); discriminate.
Qed.
Definition lidar_asg : idx3 -> Qc -> Prop := assigned (1 # 2) 200 (spherical_sensor ex_sqrt) (mm_update ex_sqrt P_Measure.ex_log round_away lidar_cfg RayModel (spherical_base sph) lidar_im) lidar_T 1.
Notation lidar_seen := (enclosed lidar_cfg RayModel (spherical_base sph) (axis_periodic (sp_azimuth sph)) (spherical_sensor ex_sqrt) (spherical_aabb ex_sqrt) lidar_im lidar_T 1).
Definition encloses_b (thr : Q) (b : saabb) (s : sensor) : bool :=
  Qle_bool (zmin b) (snd s) && Qle_bool (snd s) (zmax b) && Qle_bool (fst (smin b)) (fst (fst s)) && Qle_bool (fst (fst s)) (fst (smax b)) &&
  Qle_bool (snd (smin b)) (snd (fst s)) && Qle_bool (snd (fst s)) (snd (smax b)).
Lemma encloses_check (P : projector) (im : img Q) thr b s : encloses_b thr b s = true -> encloses P im false thr b s.
Proof.
  unfold encloses_b. rewrite !andb_true_iff, !Qle_bool_iff. intros (((((A & B) & D) & E) & F) & G). split; [split; assumption|].
  split; [left; split; [lra|split; assumption]|]. split; [left; split; [lra|split; assumption]|]. discriminate.
Qed.
Example C84_ex_lidar : let i := OI 3 (I3 0 0 0) in let c := I3 4 4 2 in
  in_octree 9 (cell c) /\ ends_at lidar_W 8 c i /\ o_type lidar_W i = kFullyFree /\ lidar_seen i (middle 1 i) /\ lidar_seen i (middle 1 (cell c)) /\ lidar_asg c (Q2Qc (- (2 # 5))).
Proof.
  cbv zeta. split; [unfold in_octree; cbn; lia|]. split; [ends 3|]. split; [vm_compute; reflexivity|].
  split; [apply encloses_check; vm_compute; reflexivity|]. split; [apply encloses_check; vm_compute; reflexivity|].
  split; [intros _; apply Qc_is_canon; vm_compute; reflexivity|]. intros N. exfalso. apply N. split; vm_compute; discriminate.
Qed.
(** Without the condition on the sensor box, a scan can mark a cell as free to which the measurement model assigns an occupied update: the node of 8 m around
    the cell is declared fully free, since the corners of the node are seen at lower elevations than the cell. *)
Theorem C84_spherical_refuted : exists fsqrt flog rnd cfg (sp : spherical) im T min_range max_range tue w C c i u,
  circular_isValid (sp_elevation sp) = true /\ circular_isValid (sp_azimuth sp) = true /\ orthonormal (po_R T) /\
  scan_setup fsqrt flog rnd cfg RayModel (spherical_base sp) (axis_periodic (sp_azimuth sp)) (spherical_sensor fsqrt) im min_range /\ (0 < w)%Q /\ vo_valid C /\
  let W := projector_scan fsqrt flog rnd cfg RayModel (spherical_base sp) (axis_periodic (sp_azimuth sp)) (spherical_sensor fsqrt) (spherical_aabb fsqrt) im T min_range max_range tue w in
  in_octree (cT C) (cell c) /\ ends_at W (cT C - 1) c i /\ o_type W i = kFullyFree /\
  assigned min_range max_range (spherical_sensor fsqrt) (mm_update fsqrt flog rnd cfg RayModel (spherical_base sp) im) T w c u /\ (0 < u)%Qc /\
  forall t f, vo_reachable C t -> map_values C t f -> exists n t' f', (forall fuel, (n <= fuel)%nat -> ctf_updateMap qn keps W fuel C t = Some t') /\
    map_values C t' f' /\ (f' c < f c)%Qc.
Proof.
  exists ex_sqrt, P_Measure.ex_log, round_away, lidar_cfg, sph, lidar_im, lidar_T, (1 # 2)%Q, 200%Q, (1 # 10)%Q, 1%Q, ex_oct, (I3 0 4 7), (OI 3 (I3 0 0 0)),
    (Q2Qc (p_update ex_sqrt P_Measure.ex_log round_away lidar_cfg RayModel (spherical_base sph) (spherical_sensor ex_sqrt) lidar_im (1 # 2) 200 lidar_T (middle 1 (cell (I3 0 4 7))))).
  assert (HV : vo_valid ex_oct) by apply C84_ex. assert (E : ends_at lidar_W 8 (I3 0 4 7) (OI 3 (I3 0 0 0))) by ends 3.
  split; [reflexivity|]. split; [reflexivity|]. split; [repeat split; reflexivity|]. split; [exact lidar_setup|]. split; [reflexivity|]. split; [exact HV|]. cbv zeta. fold lidar_W.
  split; [unfold in_octree; cbn; lia|]. split; [exact E|]. split; [vm_compute; reflexivity|]. split.
  { split; [intros _; apply Qc_is_canon; vm_compute; reflexivity|]. intros N. exfalso. apply N. split; vm_compute; discriminate. }
  split; [vm_compute; reflexivity|]. intros t f Hr Hf.
  destruct (C61_scan_effect ex_oct t f lidar_W HV Hr Hf) as (n & t' & f' & A & _ & B & S). exists n, t', f'. split; [exact A|]. split; [exact B|].
  rewrite (S (I3 0 4 7) (OI 3 (I3 0 0 0)) (Q2Qc (- (2 # 5)))); [|unfold in_octree; cbn; lia|exact E|].
  - unfold Qclt, Qcplus, Q2Qc. cbn [this]. rewrite !Qred_correct. lra.
  - right. left. split; [right; intros X; vm_compute in X; discriminate X|]. split; [vm_compute; reflexivity|apply Qc_is_canon; vm_compute; reflexivity].
Qed.
Print Assumptions C84_spherical_refuted.
