(** C40: cells for which the sensor box of a spherical projector is right. The sensor is level and the cell lies in one quadrant around it. *)
From Verif Require Import Base M_IntMath M_Point P_Point M_Image M_RangeBounds P_RangeBounds M_Measure F_Measure P_Measure M_Intersector P_Intersector P_Intersector3 P_Intersector4 M_Ouster P_Details P_Azimuth.
From Coq Require Import QArith Qround Qabs Lqa Lia.
Close Scope Z_scope.
Open Scope Q_scope.

(** ** Specification *)
(** The sensor's vertical axis is the world's; it may be turned around it. *)
Definition level (R : m3) : Prop := orthonormal R /\ vz (col0 R) == 0 /\ vz (col1 R) == 0 /\ vx (col2 R) == 0 /\ vy (col2 R) == 0 /\ vz (col2 R) == 1.
(** The cell does not reach across the planes through the sensor that are normal to the world's x and y axes. *)
Definition in_quadrant (W : box) (t : v3) : Prop := (vx (bmax W) <= vx t \/ vx t <= vx (bmin W)) /\ (vy (bmax W) <= vy t \/ vy t <= vy (bmin W)).
(** What is assumed of the square root *)
Definition good_sqrt (f : Q -> Q) : Prop := (forall x y, 0 <= x -> x <= y -> f x <= f y) /\ (forall x y, x == y -> f x == f y) /\ (forall x, 0 < x -> 0 < f x).

(** ** Elevation *)
Lemma el_le d z d' z' : 0 < d -> 0 < d' -> z * d' <= z' * d -> approx_atan2 z d <= approx_atan2 z' d'.
Proof.
  intros D D' H. destruct (Qlt_le_dec z 0) as [Z|Z], (Qlt_le_dec z' 0) as [Z'|Z'].
  - rewrite (lower_neg _ _ Z), (lower_neg _ _ Z'). assert (approx_atan2 (- z') d' <= approx_atan2 (- z) d); [|lra]. apply upper_le; [lra|lra|lra|lra|unfold cross; lra|]. intros _. nra.
  - rewrite (lower_neg _ _ Z). pose proof (upper_range (- z) d ltac:(lra) ltac:(lra)). pose proof (upper_range z' d' Z' ltac:(lra)). lra.
  - exfalso. nra.
  - apply upper_le; [lra|lra|lra|lra|unfold cross; lra|]. intros _. nra.
Qed.
Lemma el_range d z : 0 < d -> - kHalfPi <= approx_atan2 z d <= kHalfPi.
Proof.
  assert (G : forall z, 0 < d -> 0 <= z -> 0 <= approx_atan2 z d <= kHalfPi).
  { clear z. intros z D Z. assert (N : ~ (d == 0 /\ z == 0)) by lra. split; [apply upper_range; assumption|]. pose proof A1_bounds as [P1 P2]. destruct (sectors z d Z N) as [B1 B2 ->|B1 B2 ->|B1 B2 ->].
    - pose proof (at_range _ (div_le_1 z d B1 ltac:(lra))). lra.
    - assert (0 <= approx_atan (d / z)); [|lra]. rewrite <- at_0 at 1. pose proof (div_le_1 d z ltac:(lra) ltac:(lra)). apply at_mono_le; [lra|apply Qle_shift_div_l; lra|lra].
    - lra. }
  intros D. destruct (Qlt_le_dec z 0) as [Z|Z]; [|specialize (G z D Z); assert (0 < kHalfPi) by reflexivity; lra]. rewrite (lower_neg _ _ Z). specialize (G (- z) D ltac:(lra)). assert (0 < kHalfPi) by reflexivity. lra.
Qed.
Section LEVEL.
Context (W : box) (R : m3) (t : v3) (HL : level R).
Definition h2 (p : v3) : Q := vx p * vx p + vy p * vy p.
Lemma level_frame w : h2 (sensor_frame R t w) == (vx w - vx t) * (vx w - vx t) + (vy w - vy t) * (vy w - vy t) /\ vz (sensor_frame R t w) == vz w - vz t.
Proof.
  destruct HL as ((O1 & O2 & _ & O4 & _ & _) & Z0 & Z1 & X2 & Y2 & Z2). unfold h2, sensor_frame, m3mul, v3sub, v3add, v3scale, dot in *. cbn [vx vy vz].
  set (a := vx w - vx t). set (b := vy w - vy t). set (c := vz w - vz t). rewrite Z0, Z1 in *. split; [|rewrite Z2; ring].
  rewrite X2, Y2. setoid_replace ((a * vx (col0 R) + b * vx (col1 R) + c * 0) * (a * vx (col0 R) + b * vx (col1 R) + c * 0) + (a * vy (col0 R) + b * vy (col1 R) + c * 0) * (a * vy (col0 R) + b * vy (col1 R) + c * 0))
    with (a * a * (vx (col0 R) * vx (col0 R) + vy (col0 R) * vy (col0 R) + 0 * 0) + b * b * (vx (col1 R) * vx (col1 R) + vy (col1 R) * vy (col1 R) + 0 * 0) + 2 * a * b * (vx (col0 R) * vx (col1 R) + vy (col0 R) * vy (col1 R) + 0 * 0)) by ring.
  rewrite O1, O2, O4. ring.
Qed.
Lemma corner_at x y z : (x = vx (bmin W) \/ x = vx (bmax W)) -> (y = vy (bmin W) \/ y = vy (bmax W)) -> (z = vz (bmin W) \/ z = vz (bmax W)) ->
  exists q, In q (corners W R t) /\ vx q == vx (sensor_frame R t (V3 x y z)) /\ vy q == vy (sensor_frame R t (V3 x y z)) /\ vz q == vz (sensor_frame R t (V3 x y z)).
Proof.
  intros Ha Hb Hc. unfold corners. cbv zeta. destruct Ha as [-> | ->], Hb as [-> | ->], Hc as [-> | ->].
  1: eexists; split; [left; reflexivity|]. 2: eexists; split; [do 4 right; left; reflexivity|].
  3: eexists; split; [do 2 right; left; reflexivity|]. 4: eexists; split; [do 6 right; left; reflexivity|].
  5: eexists; split; [do 1 right; left; reflexivity|]. 6: eexists; split; [do 5 right; left; reflexivity|].
  7: eexists; split; [do 3 right; left; reflexivity|]. 8: eexists; split; [do 7 right; left; reflexivity|].
  all: unfold sensor_frame, m3mul, v3sub, v3add, v3scale; cbn [vx vy vz]; repeat split; ring.
Qed.
Lemma nearest_edge lo hi u : hi <= u \/ u <= lo -> exists n f, (n = lo \/ n = hi) /\ (f = lo \/ f = hi) /\ forall v, lo <= v <= hi -> (n - u) * (n - u) <= (v - u) * (v - u) <= (f - u) * (f - u).
Proof. intros [H|H]; [exists hi, lo|exists lo, hi]; (split; [auto|split; [auto|]]); intros v V; split; nra. Qed.
Context (fsqrt : Q -> Q) (HF : good_sqrt fsqrt) (o zo : Q) (zf df : v3 -> Q) (EZ : forall p, zf p == vz p - zo) (ED : forall p, df p == fsqrt (h2 p) - o).
Definition el (p : v3) : Q := approx_atan2 (zf p) (df p).
Context (HQ : in_quadrant W t) (HO : forall w, in_box W w -> o < fsqrt (h2 (sensor_frame R t w))).
Lemma corner_world q w : in_box W w -> In q (corners W R t) -> exists w', in_box W w' /\ vx q == vx (sensor_frame R t w') /\ vy q == vy (sensor_frame R t w') /\ vz q == vz (sensor_frame R t w').
Proof.
  intros (W1 & W2 & W3) I. assert (G : forall x y z, (x = vx (bmin W) \/ x = vx (bmax W)) -> (y = vy (bmin W) \/ y = vy (bmax W)) -> (z = vz (bmin W) \/ z = vz (bmax W)) -> in_box W (V3 x y z)).
  { intros x y z X Y Z. unfold in_box. cbn [vx vy vz]. destruct X as [-> | ->], Y as [-> | ->], Z as [-> | ->]; repeat split; lra. }
  set (x0 := vx (bmin W)) in *. set (x1 := vx (bmax W)) in *. set (y0 := vy (bmin W)) in *. set (y1 := vy (bmax W)) in *. set (z0 := vz (bmin W)) in *. set (z1 := vz (bmax W)) in *.
  unfold corners in I. cbv zeta in I. cbn [In] in I.
  destruct I as [<-|[<-|[<-|[<-|[<-|[<-|[<-|[<-|[]]]]]]]]]; [exists (V3 x0 y0 z0)|exists (V3 x1 y0 z0)|exists (V3 x0 y1 z0)|exists (V3 x1 y1 z0)|exists (V3 x0 y0 z1)|exists (V3 x1 y0 z1)|exists (V3 x0 y1 z1)|exists (V3 x1 y1 z1)];
    (split; [apply G; auto|]); unfold sensor_frame, m3mul, v3sub, v3add, v3scale, x0, x1, y0, y1, z0, z1; cbn [vx vy vz]; repeat split; ring.
Qed.
Lemma h2_eq p q : vx p == vx q -> vy p == vy q -> h2 p == h2 q.
Proof. intros E F. unfold h2. rewrite E, F. reflexivity. Qed.
Lemma elevation_interval w : in_box W w -> let a := angle_interval (map el (corners W R t)) in fst a <= snd a /\ fst a <= el (sensor_frame R t w) <= snd a.
Proof.
  intros HW a. destruct HF as (HM & HP & _). pose proof HW as (W1 & W2 & W3).
  assert (PC : forall q, In q (corners W R t) -> 0 < df q).
  { intros q I. destruct (corner_world q w HW I) as (w' & I' & E1 & E2 & _). rewrite ED, (HP _ _ (h2_eq _ _ E1 E2)). specialize (HO w' I'). lra. }
  assert (HD : In (m3mul R (v3sub (bmin W) t)) (corners W R t)) by (left; reflexivity).
  assert (RNG : forall q, In q (corners W R t) -> - kHalfPi <= el q <= kHalfPi) by (intros q I; apply el_range, PC; exact I). pose proof kpi2 as K. assert (KP : 0 < kHalfPi) by reflexivity.
  destruct (C40_corner_arc (map el (corners W R t)) (el (m3mul R (v3sub (bmin W) t))) (in_map el _ _ HD)) as (ARC & _ & _ & _ & WRAP). { intros b I. apply in_map_iff in I as (q & <- & I). specialize (RNG q I). lra. }
  fold a in ARC, WRAP. assert (LE : fst a <= snd a).
  { apply Qnot_lt_le. intros B. destruct (proj1 WRAP B) as (u & v & Iu & Iv & D). apply in_map_iff in Iu as (p & <- & Ip). apply in_map_iff in Iv as (q & <- & Iq). pose proof (RNG p Ip). pose proof (RNG q Iq). lra. }
  assert (IN : forall q, In q (corners W R t) -> fst a <= el q <= snd a) by (intros q I; destruct (ARC (el q) (in_map el _ _ I)) as [[_ H]|[H _]]; [exact H|lra]).
  split; [exact LE|]. destruct HQ as [QX QY]. destruct (nearest_edge _ _ _ QX) as (xn & xf & Nx & Fx & BX). destruct (nearest_edge _ _ _ QY) as (yn & yf & Ny & Fy & BY).
  specialize (BX (vx w) W1). specialize (BY (vy w) W2).
  destruct (level_frame w) as [S1 S2]. set (s := sensor_frame R t w) in *.
  assert (NEAR : forall z, (z = vz (bmin W) \/ z = vz (bmax W)) -> exists q, In q (corners W R t) /\ vz q == z - vz t /\ fsqrt (h2 q) <= fsqrt (h2 s)).
  { intros z Hz. destruct (corner_at xn yn z Nx Ny Hz) as (q & I & E1 & E2 & E3). destruct (level_frame (V3 xn yn z)) as [F1 F2]. cbn [vx vy vz] in F1, F2. exists q. split; [exact I|]. split; [rewrite E3; exact F2|].
    apply HM; rewrite (h2_eq _ _ E1 E2), F1; [pose proof (P_Intersector3.sq_nonneg (xn - vx t)); pose proof (P_Intersector3.sq_nonneg (yn - vy t)); lra|rewrite S1; lra]. }
  assert (FAR : forall z, (z = vz (bmin W) \/ z = vz (bmax W)) -> exists q, In q (corners W R t) /\ vz q == z - vz t /\ fsqrt (h2 s) <= fsqrt (h2 q)).
  { intros z Hz. destruct (corner_at xf yf z Fx Fy Hz) as (q & I & E1 & E2 & E3). destruct (level_frame (V3 xf yf z)) as [F1 F2]. cbn [vx vy vz] in F1, F2. exists q. split; [exact I|]. split; [rewrite E3; exact F2|].
    apply HM; rewrite S1; [pose proof (P_Intersector3.sq_nonneg (vx w - vx t)); pose proof (P_Intersector3.sq_nonneg (vy w - vy t)); lra|rewrite (h2_eq _ _ E1 E2), F1; lra]. }
  assert (PS : 0 < df s) by (rewrite ED; specialize (HO w HW); fold s in HO; lra).
  split.
  - destruct (Qlt_le_dec (vz (bmin W) - vz t - zo) 0) as [Z|Z].
    + destruct (NEAR _ (or_introl eq_refl)) as (q & I & E & F). apply Qle_trans with (el q); [apply IN; exact I|]. apply el_le; [apply PC; exact I|exact PS|]. pose proof (PC q I) as Pq. pose proof PS as Ps. rewrite ED in Pq, Ps. rewrite !EZ, !ED, E, S2. nra.
    + destruct (FAR _ (or_introl eq_refl)) as (q & I & E & F). apply Qle_trans with (el q); [apply IN; exact I|]. apply el_le; [apply PC; exact I|exact PS|]. pose proof (PC q I) as Pq. pose proof PS as Ps. rewrite ED in Pq, Ps. rewrite !EZ, !ED, E, S2. nra.
  - destruct (Qlt_le_dec (vz (bmax W) - vz t - zo) 0) as [Z|Z].
    + destruct (FAR _ (or_intror eq_refl)) as (q & I & E & F). apply Qle_trans with (el q); [|apply IN; exact I]. apply el_le; [exact PS|apply PC; exact I|]. pose proof (PC q I) as Pq. pose proof PS as Ps. rewrite ED in Pq, Ps. rewrite !EZ, !ED, E, S2. nra.
    + destruct (NEAR _ (or_intror eq_refl)) as (q & I & E & F). apply Qle_trans with (el q); [|apply IN; exact I]. apply el_le; [exact PS|apply PC; exact I|]. pose proof (PC q I) as Pq. pose proof PS as Ps. rewrite ED in Pq, Ps. rewrite !EZ, !ED, E, S2. nra.
Qed.
End LEVEL.

Lemma fst_arc (f : list Q -> Q * Q) (l : list v2) zm zx x : (let e := f (map fst l) in fst e <= snd e /\ fst e <= x <= snd e) ->
  let b := (let e := f (map fst l) in let a := f (map snd l) in SB (fst e, fst a) (snd e, snd a) zm zx) in fst (smin b) <= fst (smax b) /\ fst (smin b) <= x <= fst (smax b).
Proof. intros H. exact H. Qed.
(** For a level sensor and a cell in one quadrant off its axis, the elevation of each point of the cell is in the interval of the sensor box (Ouster: if the cell is
    outside of the ring on which the beams start). *)
Theorem C40_elevation : forall fsqrt W R t w, good_sqrt fsqrt -> level R -> in_quadrant W t -> in_box W w ->
  (off_axis W R t -> let b := spherical_aabb fsqrt W R t in fst (smin b) <= fst (smax b) /\ fst (smin b) <= fst (spherical_image fsqrt (sensor_frame R t w)) <= fst (smax b)) /\
  (forall cfg, (forall w', in_box W w' -> ou_beam_origin cfg < fsqrt (h2 (sensor_frame R t w'))) ->
   let b := ouster_aabb fsqrt cfg W R t in fst (smin b) <= fst (smax b) /\ fst (smin b) <= fst (ouster_image fsqrt cfg (sensor_frame R t w)) <= fst (smax b)).
Proof.
  intros fsqrt W R t w HF HL HQ HW. split.
  - intros OFF. assert (HO : forall w', in_box W w' -> 0 < fsqrt (h2 (sensor_frame R t w'))).
    { intros w' I. apply (proj2 (proj2 HF)). specialize (OFF w' I). unfold planar0, h2 in *. set (x := vx _) in *. set (y := vy _) in *.
      destruct (Qeq_dec x 0) as [E|E]; [|assert (0 < x * x) by (destruct (Qlt_le_dec 0 x); [|assert (x < 0) by lra]; nra); nra].
      destruct (Qeq_dec y 0) as [F|F]; [exfalso; apply OFF; split; assumption|]. assert (0 < y * y) by (destruct (Qlt_le_dec 0 y); [|assert (y < 0) by lra]; nra). nra. }
    pose proof (elevation_interval W R t HL fsqrt HF 0 0 vz (fun p => fsqrt (vx p * vx p + vy p * vy p)) ltac:(intros; ring) ltac:(intros; unfold h2; ring) HQ HO w HW) as A.
    assert (E1 : forall l, map fst (map (spherical_image fsqrt) l) = map (el vz (fun p => fsqrt (vx p * vx p + vy p * vy p))) l) by (intros l; rewrite map_map; apply map_ext; intros q; reflexivity).
    apply (fst_arc angle_interval (map (spherical_image fsqrt) (corners W R t))). cbv zeta. rewrite E1. exact A.
  - intros cfg HO.
    pose proof (elevation_interval W R t HL fsqrt HF (ou_beam_origin cfg) (ou_z_offset cfg) (ou_by cfg) (ou_bx fsqrt cfg) ltac:(intros; reflexivity) ltac:(intros; reflexivity) HQ HO w HW) as A.
    assert (E1 : forall l, map fst (map (ouster_image fsqrt cfg) l) = map (el (ou_by cfg) (ou_bx fsqrt cfg)) l) by (intros l; rewrite map_map; apply map_ext; intros q; reflexivity).
    apply (fst_arc angle_interval (map (ouster_image fsqrt cfg) (corners W R t))). cbv zeta. rewrite E1. exact A.
Qed.
Print Assumptions C40_elevation.

(** ** The decision for a spherical projector *)
(** An image that is periodic in azimuth covers the whole circle. *)
Definition covers_circle (c : circular) : Prop := axis_periodic c = true -> cp_min c - cp_inc c < - kPi /\ kPi < cp_min c + inject_Z (cp_num c) * cp_inc c.
(** The sensor box of a cell in one quadrant around a level sensor encloses the sensor coordinates of every point of the cell. *)
Theorem C40_level_box : forall fsqrt cfg W R t (im : img Q) thr w,
  good_sqrt fsqrt -> im_cols im = cp_num (sp_azimuth cfg) -> covers_circle (sp_azimuth cfg) ->
  0 <= thr -> 2 * (thr + cp_inc (sp_azimuth cfg)) <= kPi -> level R -> in_quadrant W t -> off_axis W R t -> in_box W w ->
  encloses (spherical_base cfg) im (axis_periodic (sp_azimuth cfg)) thr (spherical_aabb fsqrt W R t) (spherical_sensor fsqrt (sensor_frame R t w)).
Proof.
  intros fsqrt [e a] W R t im thr w HF EC CC HT HG HL HQ OFF HW. cbn [sp_elevation sp_azimuth] in *.
  pose proof (C40_spherical_range fsqrt W R t w (proj1 HF) (proj1 (proj2 HF)) (proj1 HL) HW) as RG.
  pose proof (proj1 (C40_elevation fsqrt W R t w HF HL HQ HW) OFF) as EL. cbv zeta in EL.
  pose proof (proj1 (C40_azimuth fsqrt W R t w OFF HW)) as AZ. cbv zeta in AZ.
  pose proof (azimuth_gap W R t OFF w HW) as GAP. cbv zeta in GAP.
  assert (E1 : forall l, map snd (map (spherical_image fsqrt) l) = map az l) by (intros l; rewrite map_map; apply map_ext; intros r; reflexivity).
  assert (G : snd (smax (spherical_aabb fsqrt W R t)) < snd (smin (spherical_aabb fsqrt W R t)) -> kPi < snd (smin (spherical_aabb fsqrt W R t)) - snd (smax (spherical_aabb fsqrt W R t))).
  { assert (X : forall (f : list Q -> Q * Q) (l : list v2) zm zx, (let a := f (map snd l) in snd a < fst a -> kPi < fst a - snd a) ->
      let b := (let e := f (map fst l) in let a := f (map snd l) in SB (fst e, fst a) (snd e, snd a) zm zx) in snd (smax b) < snd (smin b) -> kPi < snd (smin b) - snd (smax b)) by (intros f l zm zx H; exact H).
    apply (X angle_interval (map (spherical_image fsqrt) (corners W R t))). cbv zeta. rewrite E1. exact GAP. }
  clear GAP. assert (RL : - kPi <= snd (smax (spherical_aabb fsqrt W R t)) /\ snd (smin (spherical_aabb fsqrt W R t)) <= kPi).
  { destruct (proj2 (proj2 (C40_corners_on_arcs fsqrt W R t))) as (_ & _ & A3 & A4).
    apply in_map_iff in A3 as (c3 & E3 & I3). apply in_map_iff in A4 as (c4 & E4 & I4). apply in_map_iff in I3 as (r3 & <- & _). apply in_map_iff in I4 as (r4 & <- & _).
    rewrite <- E3, <- E4. split; apply approx_atan2_range. }
  set (b := spherical_aabb fsqrt W R t) in *. set (s := spherical_sensor fsqrt (sensor_frame R t w)) in *.
  assert (SI : fst s = spherical_image fsqrt (sensor_frame R t w)) by reflexivity.
  split; [exact RG|]. rewrite SI. split; [left; exact EL|]. split.
  - destruct AZ as [A|[A B]]; [left; exact A|right]. split; [|destruct B; auto]. specialize (G A). change (snd (pb_scale (spherical_base (SP e a)))) with (cp_inc a). lra.
  - intros PA L. specialize (CC PA). change (pb_offset (spherical_base (SP e a))) with (cp_min e, cp_min a). change (pb_scale (spherical_base (SP e a))) with (cp_inc e, cp_inc a). cbn [fst snd]. rewrite EC. lra.
Qed.
Print Assumptions C40_level_box.
(** The decision for a cell in one quadrant around a level sensor is sound at every point of the cell, also across the seam of the image. *)
Theorem C40_level_sensor : forall fsqrt cfg W R t (im : img Q) min_range max_range thr front behind u,
  good_sqrt fsqrt -> circular_isValid (sp_elevation cfg) = true -> circular_isValid (sp_azimuth cfg) = true ->
  im_rows im = cp_num (sp_elevation cfg) -> im_cols im = cp_num (sp_azimuth cfg) -> (cp_num (sp_elevation cfg) < 2 ^ 30)%Z -> (cp_num (sp_azimuth cfg) < 2 ^ 30)%Z ->
  (axis_periodic (sp_azimuth cfg) = true -> exists K, (0 <= K)%Z /\ cp_num (sp_azimuth cfg) = (2 ^ K)%Z) -> covers_circle (sp_azimuth cfg) ->
  0 <= thr -> 2 * (thr + cp_inc (sp_azimuth cfg)) <= kPi -> level R -> in_quadrant W t -> off_axis W R t ->
  determineUpdateType (spherical_base cfg) im (axis_periodic (sp_azimuth cfg)) min_range max_range thr front behind (containsPoint W t) (spherical_aabb fsqrt W R t) = Some u ->
  forall w p q, in_box W w -> let s := spherical_sensor fsqrt (sensor_frame R t w) in in_image im p q -> near_pixel (spherical_base cfg) thr (fst s) (p, q) ->
  (u = kFullyUnobserved -> min_range <= snd s <= max_range -> observed_px im min_range p q -> im_px im p q + behind < snd s) /\
  (u = kFullyFree -> observed_px im min_range p q /\ snd s + front < im_px im p q) /\
  (u = kFreeOrUnobserved -> observed_px im min_range p q -> snd s + front < im_px im p q).
Proof.
  intros fsqrt cfg W R t im mr xr thr front behind u HF VE VA ER EC BE BA PK CC HT HG HL HQ OFF HU w p q HW s I N.
  destruct (containsPoint W t). { injection HU as <-. split; [|split]; discriminate. }
  pose proof (C40_level_box fsqrt cfg W R t im thr w HF EC CC HT HG HL HQ OFF HW) as HE. fold s in HE.
  destruct cfg as [e a]. cbn [sp_elevation sp_azimuth] in *.
  pose proof (proj2 (C40_valid_config e a im thr 0 0 HT ER EC BE BA PK) VE VA) as HS.
  destruct (C40_update_type_partial _ _ _ _ _ _ _ _ _ _ _ HS HE HU) as [T _]. destruct (T p q I N) as (T1 & T2 & T3). split; [|split; assumption].
  intros U Hz O. destruct (T1 U) as [A|[A|A]]; [lra|lra|apply A; exact O].
Qed.
Print Assumptions C40_level_sensor.

(** A level sensor turned by 53 degrees, with the image of a lidar that covers the circle, and a cell behind the sensor that crosses the seam. The square root rounds up to thousandths. *)
Definition up_sqrt (x : Q) : Q := ex_sqrt x + (1 # 1000).
Definition lev_cfg := SP (CP (-1) 1 8) (CP (- kPi) kPi 16).
Definition lev_im : img Q := Img 8 16 (fun _ _ => 100).
Definition yaw := M3 (V3 (3 # 5) (4 # 5) 0) (V3 (- (4 # 5)) (3 # 5) 0) (V3 0 0 1).
Definition lev_W := Box (V3 (-4) 4 0) (V3 (-3) 5 1).
Example C40_ex_level : good_sqrt up_sqrt /\ circular_isValid (sp_elevation lev_cfg) = true /\ circular_isValid (sp_azimuth lev_cfg) = true /\
  axis_periodic (sp_azimuth lev_cfg) = true /\ cp_num (sp_azimuth lev_cfg) = (2 ^ 4)%Z /\ covers_circle (sp_azimuth lev_cfg) /\ 2 * (0 + cp_inc (sp_azimuth lev_cfg)) <= kPi /\
  level yaw /\ in_quadrant lev_W (V3 0 0 0) /\ off_axis lev_W yaw (V3 0 0 0) /\
  determineUpdateType (spherical_base lev_cfg) lev_im (axis_periodic (sp_azimuth lev_cfg)) (1 # 2) 200 0 (3 # 10) (6 # 10) (containsPoint lev_W (V3 0 0 0)) (spherical_aabb up_sqrt lev_W yaw (V3 0 0 0)) = Some kFullyFree /\
  qltb (snd (smax (spherical_aabb up_sqrt lev_W yaw (V3 0 0 0)))) (snd (smin (spherical_aabb up_sqrt lev_W yaw (V3 0 0 0)))) = true.
Proof.
  destruct C40_ex_range as (S1 & S2 & _).
  split. { split; [|split].
    - intros x y Hx Hxy. unfold up_sqrt. specialize (S1 x y Hx Hxy). lra.
    - intros x y E. unfold up_sqrt. specialize (S2 x y E). lra.
    - intros x Hx. unfold up_sqrt. assert (S0 : ex_sqrt 0 == 0) by reflexivity. specialize (S1 0 x ltac:(lra) ltac:(lra)). lra. }
  split; [reflexivity|]. split; [reflexivity|]. split; [vm_compute; reflexivity|]. split; [reflexivity|]. split. { intros _. vm_compute. split; reflexivity. }
  split; [vm_compute; discriminate|]. split; [repeat split; reflexivity|].
  split. { unfold in_quadrant, lev_W. cbn. split; [left|right]; lra. }
  split. { intros w (X & Y & _). unfold planar0, sensor_frame, m3mul, v3sub, yaw, lev_W in *. cbn in *. intros [A _]. lra. }
  split; vm_compute; reflexivity.
Qed.

(** The cell is outside of the ring of beam origins of an Ouster whose radius is 3 cm. *)
Example C40_ex_ring : forall w, in_box lev_W w -> 3 # 100 < up_sqrt (h2 (sensor_frame yaw (V3 0 0 0) w)).
Proof.
  intros w (X & Y & _). destruct C40_ex_range as (S1 & _). assert (S0 : 2 <= ex_sqrt 4) by (vm_compute; discriminate).
  assert (H : 4 <= h2 (sensor_frame yaw (V3 0 0 0) w)).
  { unfold h2. set (x := vx _). set (y := vy _). assert (L : x <= -4) by (unfold x, sensor_frame, m3mul, v3sub, yaw, lev_W in *; cbn in *; lra). nra. }
  specialize (S1 4 _ ltac:(lra) H). unfold up_sqrt. lra.
Qed.

(** ** Cells above or below the sensor *)
(** The azimuth interval is wrong for a cell on the sensor's vertical axis: its corners are at 45, 135, -135 and -45 degrees, so the arc taken is the one through the seam, from 45 to -45 degrees.
    A sensor with a field of view of 57 degrees therefore declares the cell below fully unobserved, although its point (1, 0, 1 / 5), straight ahead, projects onto a pixel that measured a surface far behind that point. *)
Definition axis_cfg := SP (CP (- (1 # 2)) (1 # 2) 22) (CP (- (1 # 2)) (1 # 2) 32).
Definition axis_W := Box (V3 (-1) (-1) (1 # 5)) (V3 1 1 (2 # 5)).
Definition axis_w := V3 1 0 (1 # 5).
Definition axis_im : img Q := Img 22 32 (fun _ _ => 100).
Theorem C40_azimuth_axis_refuted : exists (cfg : spherical) im W R t w,
  circular_isValid (sp_elevation cfg) = true /\ circular_isValid (sp_azimuth cfg) = true /\ level R /\ in_box W w /\ containsPoint W t = false /\
  valid_setup (spherical_base cfg) im (axis_periodic (sp_azimuth cfg)) 0 /\
  determineUpdateType (spherical_base cfg) im (axis_periodic (sp_azimuth cfg)) (1 # 2) 200 0 (3 # 10) (6 # 10) false (spherical_aabb up_sqrt W R t) = Some kFullyUnobserved /\
  let b := spherical_aabb up_sqrt W R t in let s := spherical_sensor up_sqrt (sensor_frame R t w) in let i := imageToNearestIndex round_away (spherical_base cfg) (fst s) in
  in_image im (fst i) (snd i) /\ 1 # 2 <= snd s <= 200 /\ observed_px im (1 # 2) (fst i) (snd i) /\ snd s + (6 # 10) < im_px im (fst i) (snd i).
Proof.
  exists axis_cfg, axis_im, axis_W, id_R, (V3 0 0 0), axis_w.
  split; [reflexivity|]. split; [reflexivity|]. split; [repeat split; reflexivity|].
  split; [unfold in_box; cbn; repeat split; apply Qle_bool_iff; reflexivity|]. split; [reflexivity|].
  split. { split; [reflexivity|split; [reflexivity|split; [apply Qle_refl|split; [vm_compute; repeat split|discriminate]]]]. }
  split; [vm_compute; reflexivity|]. cbv zeta. vm_compute. repeat split; discriminate.
Qed.
Print Assumptions C40_azimuth_axis_refuted.
