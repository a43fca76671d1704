(** C40, continued: the sensor boxes of the projection models. *)
From Verif Require Import Base M_IntMath M_Point P_Point M_Image M_RangeBounds P_RangeBounds M_Measure F_Measure P_Measure M_Intersector P_Intersector.
From Coq Require Import QArith Qround Qabs Lqa Lia.
Close Scope Z_scope.
Open Scope Q_scope.

(** ** Specification *)
Definition in_box (W : box) (w : v3) : Prop :=
  vx (bmin W) <= vx w <= vx (bmax W) /\ vy (bmin W) <= vy w <= vy (bmax W) /\ vz (bmin W) <= vz w <= vz (bmax W).
(** The position of a world point in the frame of the sensor with orientation [R] and position [t] *)
Definition sensor_frame (R : m3) (t w : v3) : v3 := m3mul R (v3sub w t).
(** Columns of length 1 that are orthogonal *)
Definition dot (a b : v3) : Q := vx a * vx b + vy a * vy b + vz a * vz b.
Definition orthonormal (R : m3) : Prop :=
  dot (col0 R) (col0 R) == 1 /\ dot (col1 R) (col1 R) == 1 /\ dot (col2 R) (col2 R) == 1 /\
  dot (col0 R) (col1 R) == 0 /\ dot (col0 R) (col2 R) == 0 /\ dot (col1 R) (col2 R) == 0.

(** ** Convexity *)
Lemma corner_affine W R t w k g : in_box W w -> (forall q, In q (corners W R t) -> dot k q + g <= 0) -> dot k (sensor_frame R t w) + g <= 0.
Proof.
  intros (HX & HY & HZ) H.
  set (d0 := dot k (col0 R)). set (d1 := dot k (col1 R)). set (d2 := dot k (col2 R)).
  set (base := dot k (m3mul R (v3sub (bmin W) t))).
  assert (E : dot k (sensor_frame R t w) == base + (vx w - vx (bmin W)) * d0 + (vy w - vy (bmin W)) * d1 + (vz w - vz (bmin W)) * d2)
    by (unfold base, d0, d1, d2, dot, sensor_frame, m3mul, v3sub, v3add, v3scale; cbn [vx vy vz]; ring).
  assert (S : forall a b c, (a = 0 \/ a = vx (bmax W) - vx (bmin W)) -> (b = 0 \/ b = vy (bmax W) - vy (bmin W)) -> (c = 0 \/ c = vz (bmax W) - vz (bmin W)) ->
    base + a * d0 + b * d1 + c * d2 + g <= 0).
  { intros a b c0 Ha Hb Hc.
    assert (Q : exists q, In q (corners W R t) /\ dot k q == base + a * d0 + b * d1 + c0 * d2).
    { unfold corners. cbv zeta. destruct Ha as [-> | ->], Hb as [-> | ->], Hc as [-> | ->].
      1: eexists; split; [left; reflexivity|]. 2: eexists; split; [do 4 right; left; reflexivity|].
      3: eexists; split; [do 2 right; left; reflexivity|]. 4: eexists; split; [do 6 right; left; reflexivity|].
      5: eexists; split; [do 1 right; left; reflexivity|]. 6: eexists; split; [do 5 right; left; reflexivity|].
      7: eexists; split; [do 3 right; left; reflexivity|]. 8: eexists; split; [do 7 right; left; reflexivity|].
      all: unfold base, d0, d1, d2, dot, m3mul, v3sub, v3add, v3scale; cbn [vx vy vz]; ring. }
    destruct Q as (q & I & <-). apply H. exact I. }
  assert (M : forall lo hi x d, lo <= x <= hi -> exists a, (a = 0 \/ a = hi - lo) /\ (x - lo) * d <= a * d).
  { intros lo hi x d L. destruct (Qlt_le_dec 0 d); [exists (hi - lo)|exists 0]; (split; [auto|nra]). }
  destruct (M _ _ _ d0 HX) as (a & A1 & A2). destruct (M _ _ _ d1 HY) as (b & B1 & B2). destruct (M _ _ _ d2 HZ) as (c & C1 & C2).
  specialize (S a b c A1 B1 C1). rewrite E. lra.
Qed.
Lemma maxl_ge x l : In x l -> x <= maxl l.
Proof.
  unfold maxl. assert (G : forall l i, i <= fold_left qmax l i /\ forall x, In x l -> x <= fold_left qmax l i).
  { clear x l. induction l as [|a l IH]; intros i; cbn [fold_left].
    - split; [apply Qle_refl|intros x []].
    - destruct (IH (qmax i a)) as [A B]. assert (M : i <= qmax i a /\ a <= qmax i a) by (unfold qmax; qcase (qltb i a); lra).
      split; [lra|]. intros x0 [->|I]; [lra|apply B; exact I]. }
  intros I. apply G. exact I.
Qed.
Lemma minl_le x l : In x l -> minl l <= x.
Proof.
  unfold minl. assert (G : forall l i, fold_left qmin l i <= i /\ forall x, In x l -> fold_left qmin l i <= x).
  { clear x l. induction l as [|a l IH]; intros i; cbn [fold_left].
    - split; [apply Qle_refl|intros x []].
    - destruct (IH (qmin i a)) as [A B]. assert (M : qmin i a <= i /\ qmin i a <= a) by (unfold qmin; qcase (qltb a i); lra).
      split; [lra|]. intros x0 [->|I]; [lra|apply B; exact I]. }
  intros I. apply G. exact I.
Qed.

(** ** Pinhole camera *)
Lemma eps_pos : 0 < kEpsilon. Proof. reflexivity. Qed.
(** If all corners of the cell are in front of the camera, the sensor box encloses every point of the cell. *)
Theorem C40_pinhole_box : forall (T : Type) c W R t w (im : img T) wraps thr, 0 < ph_fx c -> 0 < ph_fy c -> in_box W w ->
  (forall q, In q (corners W R t) -> kEpsilon <= vz q) ->
  encloses pinhole_base im wraps thr (pinhole_aabb c W R t) (pinhole_sensor c (sensor_frame R t w)).
Proof.
  intros T c W R t w im wraps thr FX FY HW HZ.
  assert (Z : forall g, (forall q, In q (corners W R t) -> g <= vz q) -> g <= vz (sensor_frame R t w)).
  { intros g H. pose proof (corner_affine W R t w (V3 0 0 (-1)) g HW) as A. unfold dot in A. cbn [vx vy vz] in A.
    assert (B : 0 * vx (sensor_frame R t w) + 0 * vy (sensor_frame R t w) + -1 * vz (sensor_frame R t w) + g <= 0); [|lra].
    apply A. intros q I. specialize (H q I). lra. }
  assert (Z' : forall g, (forall q, In q (corners W R t) -> vz q <= g) -> vz (sensor_frame R t w) <= g).
  { intros g H. pose proof (corner_affine W R t w (V3 0 0 1) (- g) HW) as A. unfold dot in A. cbn [vx vy vz] in A.
    assert (B : 0 * vx (sensor_frame R t w) + 0 * vy (sensor_frame R t w) + 1 * vz (sensor_frame R t w) + - g <= 0); [|lra].
    apply A. intros q I. specialize (H q I). lra. }
  pose proof (Z kEpsilon HZ) as ZP. set (p := sensor_frame R t w) in *.
  assert (WQ : forall q, kEpsilon <= vz q -> qmax (vz q) kEpsilon == vz q) by (intros q H; unfold qmax; qcase (qltb (vz q) kEpsilon); lra).
  pose proof eps_pos as EP.
  (* one image axis: coordinate f x / z + o for a linear function x of the point *)
  assert (AX : forall (x : v3 -> Q) k f o (u : v3 -> Q), 0 < f -> (forall q, x q == dot k q) -> (forall q, u q = f * x q / qmax (vz q) kEpsilon + o) ->
     minl (map u (corners W R t)) <= u p <= maxl (map u (corners W R t))).
  { intros x k f o u F X U.
    assert (UQ : forall q, kEpsilon <= vz q -> (u q - o) * vz q == f * x q).
    { intros q H. rewrite U. rewrite (WQ q H). field. intros E. rewrite E in H. unfold kEpsilon, Qle in H. cbn in H. lia. }
    assert (PP : 0 < vz p) by lra. pose proof (UQ p ZP) as UP. split.
    - set (m := minl (map u (corners W R t))). assert (A : dot (V3 (- f * vx k) (- f * vy k) (- f * vz k + (m - o))) p + 0 <= 0).
      { apply (corner_affine W R t w _ 0 HW). intros q I. assert (L : m <= u q) by (apply minl_le, in_map; exact I).
        pose proof (UQ q (HZ q I)) as UU. pose proof (HZ q I) as HQ. rewrite X in UU. unfold dot in *. cbn [vx vy vz] in *. nra. }
      rewrite X in UP. unfold dot in *. cbn [vx vy vz] in *. apply Qnot_lt_le. intros G. nra.
    - set (m := maxl (map u (corners W R t))). assert (A : dot (V3 (f * vx k) (f * vy k) (f * vz k - (m - o))) p + 0 <= 0).
      { apply (corner_affine W R t w _ 0 HW). intros q I. assert (L : u q <= m) by (apply maxl_ge, in_map; exact I).
        pose proof (UQ q (HZ q I)) as UU. pose proof (HZ q I) as HQ. rewrite X in UU. unfold dot in *. cbn [vx vy vz] in *. nra. }
      rewrite X in UP. unfold dot in *. cbn [vx vy vz] in *. apply Qnot_lt_le. intros G. nra. }
  unfold pinhole_aabb. cbv zeta. rewrite !map_map. unfold encloses. cbn [smin smax zmin zmax fst snd pinhole_base pb_scale].
  pose proof (AX vx (V3 1 0 0) (ph_fx c) (ph_cx c) (fun q => fst (fst (pinhole_sensor c q))) FX) as UX.
  pose proof (AX vy (V3 0 1 0) (ph_fy c) (ph_cy c) (fun q => snd (fst (pinhole_sensor c q))) FY) as UY.
  specialize (UX ltac:(intros q; unfold dot; cbn [vx vy vz]; ring) ltac:(intros q; reflexivity)).
  specialize (UY ltac:(intros q; unfold dot; cbn [vx vy vz]; ring) ltac:(intros q; reflexivity)). cbv beta in UX, UY.
  split.
  - split; [apply Z|apply Z']; intros q I; [apply minl_le|apply maxl_ge]; exact (in_map (fun x => snd (pinhole_sensor c x)) _ _ I).
  - split; [left; split; [exact (Qle_trans _ _ _ (proj1 UX) (proj2 UX))|exact UX]|]. split; [left; split; [exact (Qle_trans _ _ _ (proj1 UY) (proj2 UY))|exact UY]|].
    intros _ L. exfalso. exact (Qlt_not_le _ _ L (Qle_trans _ _ _ (proj1 UY) (proj2 UY))).
Qed.
Print Assumptions C40_pinhole_box.

(** Together: the decision for a cell in front of a pinhole camera is sound at every point of the cell. *)
Theorem C40_pinhole : forall c W R t im min_range max_range thr front behind u,
  pinhole_isValid c = true -> im_rows im = ph_width c -> im_cols im = ph_height c -> (ph_width c < 2 ^ 30)%Z -> (ph_height c < 2 ^ 30)%Z -> 0 <= thr ->
  (forall q, In q (corners W R t) -> kEpsilon <= vz q) ->
  determineUpdateType pinhole_base im false min_range max_range thr front behind (containsPoint W t) (pinhole_aabb c W R t) = Some u ->
  forall w p q, in_box W w -> let s := pinhole_sensor c (sensor_frame R t w) in
  near_pixel pinhole_base thr (fst s) (p, q) ->
  (u = kFullyUnobserved -> in_image im p q -> min_range <= snd s <= max_range -> observed_px im min_range p q -> im_px im p q + behind < snd s) /\
  (u = kFullyFree -> in_image im p q /\ observed_px im min_range p q /\ snd s + front < im_px im p q) /\
  (u = kFreeOrUnobserved -> in_image im p q -> observed_px im min_range p q -> snd s + front < im_px im p q).
Proof.
  intros c W R t im mr xr thr front behind u V ER EC BW BH HT HZ HU w p q HW s N.
  unfold pinhole_isValid in V. rewrite !andb_true_iff, !Z.ltb_lt in V. destruct V as [[[V1 V2] V3] V4]. apply P_RangeBounds.qltb_true in V3, V4.
  destruct (containsPoint W t). { injection HU as <-. split; [|split]; discriminate. }
  pose proof (C40_pinhole_box _ c W R t w im false thr V3 V4 HW HZ) as HE. fold s in HE.
  assert (HS : valid_setup pinhole_base im false thr).
  { split; [reflexivity|]. split; [reflexivity|]. split; [exact HT|]. split; [|discriminate]. unfold valid_image.
    change (scale_factor (Some pinhole_base)) with (1, 1)%Z. cbn [fst snd]. rewrite ER, EC. lia. }
  destruct (C40_update_type_partial _ _ _ _ _ _ _ _ _ _ _ HS HE HU) as [T TF].
  assert (SY : snd (smin (pinhole_aabb c W R t)) <= snd (smax (pinhole_aabb c W R t))).
  { destruct HE as (_ & _ & [[L _]|[L _]] & _); [exact L|]. exfalso.
    (* the box of the camera never wraps around *)
    change (snd (pb_scale pinhole_base)) with 1 in L.
    assert (I : In (snd (fst (pinhole_sensor c (m3mul R (v3sub (bmin W) t))))) (map (fun x => snd (fst x)) (map (pinhole_sensor c) (corners W R t)))) by (left; reflexivity).
    pose proof (minl_le _ _ I) as A. pose proof (maxl_ge _ _ I) as B.
    unfold pinhole_aabb in L. cbv zeta in L. cbn [smin smax] in L. revert L A B.
    generalize (map (fun x => snd (fst x)) (map (pinhole_sensor c) (corners W R t))) (snd (fst (pinhole_sensor c (m3mul R (v3sub (bmin W) t))))).
    intros l x L A B. cbn [snd] in L. lra. }
  split; [|split].
  - intros U I Hz O. destruct (T p q I N) as (T1 & _). destruct (T1 U) as [A|[A|A]]; [lra|lra|apply A; exact O].
  - intros U. pose proof (TF U SY p q N) as I. split; [exact I|]. apply (T p q I N). exact U.
  - intros U I O. destruct (T p q I N) as (_ & _ & T3). apply T3; assumption.
Qed.
Print Assumptions C40_pinhole.

(** A camera looking along the x axis of the world at a wall that is 10 m away in one half of the image and 4 m in the other,
    with unobserved pixels at the right: cells of all four types, all with corners in front of the camera. *)
Definition ex_cam := PH 8 6 4 4 4 3.
Definition ex_R := M3 (V3 0 0 1) (V3 (-1) 0 0) (V3 0 (-1) 0).
Definition ex_wall : img Q := Img 8 6 (fun x y => if (x <? 4)%Z then 10 else if (x <? 6)%Z then 4 else 0).
Definition ex_type (W : box) := determineUpdateType pinhole_base ex_wall false (1 # 2) 20 0 (3 # 10) (6 # 10) (containsPoint W (V3 0 0 0)) (pinhole_aabb ex_cam W ex_R (V3 0 0 0)).
Definition ex_cells := [Box (V3 3 1 0) (V3 4 2 1); Box (V3 8 (-3) 0) (V3 9 (-2) 1); Box (V3 2 (-2) 0) (V3 3 (-1) 1); Box (V3 3 (-1) 0) (V3 4 0 1)].
Example C40_ex_cells : pinhole_isValid ex_cam = true /\
  map ex_type ex_cells = [Some kFullyFree; Some kFullyUnobserved; Some kFreeOrUnobserved; Some kPossiblyOccupied] /\
  forallb (fun W => forallb (fun q => Qle_bool kEpsilon (vz q)) (corners W ex_R (V3 0 0 0))) ex_cells = true.
Proof. vm_compute. repeat split. Qed.
(** Points of the cells and their nearest pixels *)
Example C40_ex_points : let s w := pinhole_sensor ex_cam (sensor_frame ex_R (V3 0 0 0) w) in
  map (fun w => (imageToNearestIndex round_away pinhole_base (fst (s w)), Qred (snd (s w)))) [V3 (7 # 2) (3 # 2) (1 # 2); V3 (17 # 2) (- (5 # 2)) (1 # 2)] =
  [((2, 2)%Z, 7 # 2); ((5, 3)%Z, 17 # 2)].
Proof. vm_compute. reflexivity. Qed.

(** ** Spherical projection *)
Lemma sq_nonneg (x : Q) : 0 <= x * x.
Proof. destruct (Qlt_le_dec x 0); [setoid_replace (x * x) with ((- x) * (- x)) by ring|]; apply Qmult_le_0_compat; lra. Qed.
Lemma closest_sq lo hi t w : lo <= w <= hi -> (t - closest1 lo hi t) * (t - closest1 lo hi t) <= (w - t) * (w - t).
Proof. intros H. unfold closest1, qmin, qmax. 
  pose proof (sq_nonneg (w - t)) as A.
  qcase (qltb t lo); [qcase (qltb hi lo)|qcase (qltb hi t)]; try lra.
  - assert (0 <= (w - lo) * (w + lo - 2 * t)) by (apply Qmult_le_0_compat; lra). lra.
  - assert (0 <= (hi - w) * (2 * t - hi - w)) by (apply Qmult_le_0_compat; lra). lra.
Qed.
Lemma furthest_sq lo hi t w : lo <= w <= hi -> (w - t) * (w - t) <= (t - furthest1 lo hi t) * (t - furthest1 lo hi t).
Proof.
  intros H. unfold furthest1. assert (E : (lo + hi) / 2 * 2 == lo + hi) by field. set (m := (lo + hi) / 2) in *. clearbody m. qcase (qltb m t).
  - assert (0 <= (w - lo) * (2 * t - w - lo)) by (apply Qmult_le_0_compat; lra). lra.
  - assert (0 <= (hi - w) * (hi + w - 2 * t)) by (apply Qmult_le_0_compat; lra). lra.
Qed.
(** The range interval of the sensor box of a spherical projector is right, for every rotation. *)
Theorem C40_spherical_range : forall fsqrt W R t w, (forall x y, 0 <= x -> x <= y -> fsqrt x <= fsqrt y) -> (forall x y, x == y -> fsqrt x == fsqrt y) ->
  orthonormal R -> in_box W w ->
  zmin (spherical_aabb fsqrt W R t) <= snd (spherical_sensor fsqrt (sensor_frame R t w)) <= zmax (spherical_aabb fsqrt W R t).
Proof.
  intros fsqrt W R t w HM HQ (O1 & O2 & O3 & O4 & O5 & O6) (HX & HY & HZ).
  assert (E : v3norm2 (sensor_frame R t w) == (vx w - vx t) * (vx w - vx t) + (vy w - vy t) * (vy w - vy t) + (vz w - vz t) * (vz w - vz t)).
  { set (a := vx w - vx t). set (b := vy w - vy t). set (c := vz w - vz t).
    setoid_replace (v3norm2 (sensor_frame R t w)) with (a * a * dot (col0 R) (col0 R) + b * b * dot (col1 R) (col1 R) + c * c * dot (col2 R) (col2 R) +
      2 * a * b * dot (col0 R) (col1 R) + 2 * a * c * dot (col0 R) (col2 R) + 2 * b * c * dot (col1 R) (col2 R)).
    - rewrite O1, O2, O3, O4, O5, O6. ring.
    - unfold v3norm2, sensor_frame, m3mul, v3sub, v3add, v3scale, dot. cbn [vx vy vz]. fold a b c. ring. }
  unfold spherical_aabb, spherical_sensor, minDistanceTo, maxDistanceTo. cbv zeta. cbn [zmin zmax snd]. rewrite (HQ _ _ E).
  pose proof (closest_sq _ _ (vx t) (vx w) HX). pose proof (closest_sq _ _ (vy t) (vy w) HY). pose proof (closest_sq _ _ (vz t) (vz w) HZ).
  pose proof (furthest_sq _ _ (vx t) (vx w) HX). pose proof (furthest_sq _ _ (vy t) (vy w) HY). pose proof (furthest_sq _ _ (vz t) (vz w) HZ).
  pose proof sq_nonneg as S.
  split; apply HM; unfold v3norm2, v3sub; cbn [vx vy vz].
  - pose proof (S (vx t - closest1 (vx (bmin W)) (vx (bmax W)) (vx t))). pose proof (S (vy t - closest1 (vy (bmin W)) (vy (bmax W)) (vy t))).
    pose proof (S (vz t - closest1 (vz (bmin W)) (vz (bmax W)) (vz t))). lra.
  - lra.
  - pose proof (S (vx w - vx t)). pose proof (S (vy w - vy t)). pose proof (S (vz w - vz t)). lra.
  - lra.
Qed.
Print Assumptions C40_spherical_range.
Example C40_ex_range : (forall x y, 0 <= x -> x <= y -> ex_sqrt x <= ex_sqrt y) /\ (forall x y, x == y -> ex_sqrt x == ex_sqrt y) /\ orthonormal ex_R /\
  Qred (zmin (spherical_aabb ex_sqrt (Box (V3 3 (-4) 0) (V3 11 4 8)) ex_R (V3 0 0 0))) = 3.
Proof.
  split; [apply C45_ex_hyps|]. split; [|split; [repeat split; reflexivity|vm_compute; reflexivity]].
  intros x y E. unfold ex_sqrt. assert (F : Qround.Qfloor (x * 1000000) = Qround.Qfloor (y * 1000000)) by (apply Qround.Qfloor_comp; rewrite E; reflexivity). rewrite F. reflexivity.
Qed.

(** The elevation interval is not: it is taken from the corners of the cell, but the largest elevation of a cell above the
    sensor is on the edge closest to it. Here a cell is declared fully free although the point (3, 0, 8) of it projects onto
    a pixel that measured a surface in front of the point. *)
Definition sph := SP (CP 0 (147 # 100) 22) (CP (- (143 # 100)) (260 # 100) 32).
Definition sph_im : img Q := Img 22 32 (fun x y => if i2_eqb (x, y) (17, 11)%Z then 84 # 10 else 100).
Definition id_R := M3 (V3 1 0 0) (V3 0 1 0) (V3 0 0 1).
Theorem C40_spherical_box_refuted : exists (cfg : spherical) im W R t w,
  circular_isValid (sp_elevation cfg) = true /\ circular_isValid (sp_azimuth cfg) = true /\ orthonormal R /\ in_box W w /\ containsPoint W t = false /\
  valid_setup (spherical_base cfg) im (axis_periodic (sp_azimuth cfg)) 0 /\
  determineUpdateType (spherical_base cfg) im (axis_periodic (sp_azimuth cfg)) (1 # 2) 200 0 (3 # 10) (6 # 10) false (spherical_aabb ex_sqrt W R t) = Some kFullyFree /\
  let s := spherical_sensor ex_sqrt (sensor_frame R t w) in let i := imageToNearestIndex round_away (spherical_base cfg) (fst s) in
  in_image im (fst i) (snd i) /\ im_px im (fst i) (snd i) < snd s.
Proof.
  exists sph, sph_im, (Box (V3 3 (-4) 0) (V3 11 4 8)), id_R, (V3 0 0 0), (V3 3 0 8).
  split; [reflexivity|]. split; [reflexivity|]. split; [repeat split; reflexivity|].
  split; [unfold in_box; cbn; repeat split; apply Qle_bool_iff; reflexivity|]. split; [reflexivity|].
  split; [split; [reflexivity|split; [reflexivity|split; [apply Qle_refl|split; [|discriminate]]]]; vm_compute; repeat split|].
  split; [vm_compute; reflexivity|]. cbv zeta. vm_compute. repeat split; discriminate.
Qed.
Print Assumptions C40_spherical_box_refuted.

(** A cell that reaches behind the camera: the sensor box misses columns at its side, and the cell is declared free or
    unobserved although a point of it is behind a measured surface, and gets an occupied update. *)
Definition side_cam := PH 64 20 12 10 43 5.
Definition side_R := M3 (V3 (- (5 # 13)) 0 (12 # 13)) (V3 0 (-1) 0) (V3 (12 # 13) 0 (5 # 13)).
Definition side_W := Box (V3 (- (12 # 13)) (- (1 # 10) - (13 # 6)) (- (5 # 13))) (V3 (- (12 # 13) + (13 # 6)) (- (1 # 10)) (- (5 # 13) + (13 # 6))).
Definition side_w := V3 (- (12 # 13) + (39 # 24)) (- (1 # 10)) (- (5 # 13)).
Definition side_im : img Q := Img 64 20 (fun x y => if i2_eqb (x, y) (28, 7)%Z then 4 # 10 else 100).
Definition side_mm := MM (1 # 100) (1 # 10) (1 # 2) (1 # 2) kNearestNeighbor.
Theorem C40_pinhole_behind_refuted : exists c W R t w im mm,
  pinhole_isValid c = true /\ orthonormal R /\ in_box W w /\ containsPoint W t = false /\ proper_config mm /\
  determineUpdateType pinhole_base im false (3 # 10) 200 0 (range_front mm) (range_back mm) false (pinhole_aabb c W R t) = Some kFreeOrUnobserved /\
  0 < computeUpdate (3 # 10) 200 (ray_computeUpdate ex_log mm round_away pinhole_base im) (pinhole_sensor c (sensor_frame R t w)).
Proof.
  exists side_cam, side_W, side_R, (V3 0 0 0), side_w, side_im, side_mm.
  split; [reflexivity|]. split; [repeat split; reflexivity|].
  split; [unfold in_box; cbn; repeat split; apply Qle_bool_iff; reflexivity|]. split; [vm_compute; reflexivity|].
  split; [unfold proper_config; cbn; repeat split; reflexivity|]. split; vm_compute; reflexivity.
Qed.
Print Assumptions C40_pinhole_behind_refuted.

(** A range below the minimum range: the pixel counts as unobserved and the cell is declared fully unobserved, but
    computeUpdate uses the pixel and makes a point of the cell more occupied (no filter in importRangeImage). *)
Definition near_im : img Q := Img 8 6 (fun _ _ => 45 # 100).
Theorem C40_min_range_refuted : exists c W R t w im mm,
  pinhole_isValid c = true /\ orthonormal R /\ in_box W w /\ containsPoint W t = false /\ proper_config mm /\
  determineUpdateType pinhole_base im false (1 # 2) 20 0 (range_front mm) (range_back mm) false (pinhole_aabb c W R t) = Some kFullyUnobserved /\
  0 < computeUpdate (1 # 2) 20 (ray_computeUpdate ex_log mm round_away pinhole_base im) (pinhole_sensor c (sensor_frame R t w)).
Proof.
  exists ex_cam, (Box (V3 (65 # 100) 0 0) (V3 (70 # 100) (5 # 100) (5 # 100))), ex_R, (V3 0 0 0), (V3 (65 # 100) 0 0), near_im, side_mm.
  split; [reflexivity|]. split; [repeat split; reflexivity|].
  split; [unfold in_box; cbn; repeat split; apply Qle_bool_iff; reflexivity|]. split; [vm_compute; reflexivity|].
  split; [unfold proper_config; cbn; repeat split; reflexivity|]. split; vm_compute; reflexivity.
Qed.
Print Assumptions C40_min_range_refuted.
