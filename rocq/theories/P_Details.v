(** Details of C22, C40, C54, C66 and C68 that the other theorems on them leave open: when an octree calls itself empty, when eraseNode reports
    failure, what the Ouster projector assigns to the points along a beam, its sensor boxes at the corners of a cell, and
    when the voxel display recomputes its resolutions. *)
From Verif Require Import Base M_IntMath F_IntMath M_NdtreeIndex F_NdtreeIndex M_Num F_Num M_Haar3 M_Ndtree S_Field F_Hash M_Wavelet F_Leaves F_WavTree F_WavMap
  F_WavHist M_Octree F_Octree P_Octree M_VolOctree P_VolOctree P_CoarseToFine M_Integrator M_Viz.
From Verif Require Import M_Point P_Point M_Image M_RangeBounds P_RangeBounds M_Measure F_Measure P_Measure M_Intersector P_Intersector P_Intersector3 P_Intersector4 M_Ouster P_ProjectorScan.
From Coq Require Import QArith Qround Qabs Qcanon Qcabs Lqa.
Close Scope Qc_scope.
Close Scope Q_scope.
Open Scope Z_scope.

(** ** C22: an octree is empty only if all its cells are zero; a new one is. *)
Theorem C22_empty : forall C, vo_valid C -> vo_empty qn (vo_new qn) = true /\
  forall t f c, vo_reachable C t -> map_values C t f -> vo_empty qn t = true -> in_octree (cT C) (cell c) -> f c = 0%Qc /\ vo_get C t c = 0%Qc.
Proof.
  intros C [HT HC]. split; [reflexivity|]. intros t f c Hr Hf He Hc.
  unfold vo_empty, nd_empty in He. apply andb_true_iff in He as [H1 H2]. apply negb_true_iff in H1. rewrite negb_involutive in H2.
  assert (D : ndata t = 0%Qc) by (apply qeqb_iff; exact H2).
  destruct t as [v [k|]]; [discriminate H1|]. cbn [ndata] in D. subst v.
  assert (G : vo_get C (Node 0%Qc None) c = 0%Qc).
  { unfold vo_get, nd_getNodeOrAncestor. destruct (Z.to_nat _); reflexivity. }
  split; [|exact G]. destruct Hf as [_ Hf]. rewrite Hf; [exact G|cbn; lia|exact Hc].
Qed.
Print Assumptions C22_empty.

(** ** C54: eraseNode reports failure for a node whose parent does not exist or has no children. *)
Theorem C54_erase_no_parent : forall (n : node Z) T i, oh i < T -> 
  let parent := OI (oh i + 1) (imap (fun c => c / 2) (opos i)) in
  (nd_getNode T n parent = None \/ exists p, nd_getNode T n parent = Some p /\ hasChildrenArray p = false) -> snd (nd_eraseNode T n i) = false.
Proof.
  intros n T [h p] HT parent H. cbn [oh opos] in *. unfold nd_eraseNode. cbn [oh opos].
  replace (OI (h + 1) (imap (fun c => div_exp2_floor c 1) p)) with parent by (unfold parent, imap; rewrite !div_exp2_floor_spec by lia; reflexivity).
  destruct H as [-> | (q & -> & L)]; [reflexivity|]. unfold eraseChild, hasChildrenArray in *. destruct (nkids q); [discriminate L|reflexivity].
Qed.
Example C54_erase_no_parent_ex : let n := nd_alloc_data 3 0 (Node 0 None) (OI 1 (I3 1 2 3)) (fun _ => 8) in
  nd_getNode 3 n (OI 1 (I3 1 2 3)) = Some (Node 8 None) /\ snd (nd_eraseNode 3 n (OI 0 (I3 2 4 6))) = false /\ snd (nd_eraseNode 3 n (OI 1 (I3 1 2 3))) = true.
Proof. vm_compute. auto. Qed.
Print Assumptions C54_erase_no_parent.

(** ** C68: a map update in which no block is newer than the last one does not make the display recompute its resolutions; one with a newer block does. *)
Theorem C68_lod_request : forall redraw_all now (z : viz (V := Qc)) d, z_visible z = true ->
  let due := exists k b, In (k, b) (d_blocks d) /\ (redraw_all = true \/ z_last z < bstamp b) in
  (~ due -> z_force (updateMap redraw_all now z (Some d)) = z_force z) /\ (due -> z_force (updateMap redraw_all now z (Some d)) = true).
Proof.
  intros redraw_all now z d Hv due. unfold updateMap. rewrite Hv. cbv zeta. cbn [z_force].
  destruct (filter (fun kb => redraw_all || (z_last z <? bstamp (snd kb))) (d_blocks d)) as [|[k b] l] eqn:E.
  - split; [intros _; apply orb_false_r|]. intros (k & b & I & H). exfalso.
    assert (X : In (k, b) (filter (fun kb => redraw_all || (z_last z <? bstamp (snd kb))) (d_blocks d))).
    { apply filter_In. split; [exact I|]. cbn [snd]. destruct H as [-> | H]; [reflexivity|]. apply Z.ltb_lt in H. rewrite H. apply orb_true_r. }
    rewrite E in X. exact X.
  - split; [|intros _; apply orb_true_r]. intros N. exfalso. apply N. exists k, b.
    assert (X : In (k, b) (filter (fun kb => redraw_all || (z_last z <? bstamp (snd kb))) (d_blocks d))) by (rewrite E; left; reflexivity).
    apply filter_In in X as [X1 X2]. split; [exact X1|]. cbn [snd] in X2. apply orb_true_iff in X2 as [X2|X2]; [left; exact X2|right; apply Z.ltb_lt; exact X2].
Qed.
Print Assumptions C68_lod_request.

(** ** C66, C40: the Ouster projector in exact arithmetic *)
(** Directions, as the cosine and sine of an angle *)
Definition direction (c s : Q) : Prop := (c * c + s * s == 1)%Q.
(** The point at distance [r] along the beam with the given azimuth and elevation. The beams start at [o] from the sensor's axis and [zo] above its
    origin. *)
Definition beam_point (o zo ca sa ce se r : Q) : v3 := V3 ((o + r * ce) * ca) ((o + r * ce) * sa) (zo + r * se).
Section TRIG.
Open Scope Q_scope.
Lemma approx_atan_unit a : -1 <= a <= 1 -> exists u, approx_atan a == a * u /\ 0 <= u <= 1.
Proof.
  intros A. assert (X : 0 <= a * a <= 1) by nra. unfold approx_atan. set (x := a * a) in *. cbv zeta.
  eexists. split; [reflexivity|].
  set (u1 := x * - (12585543 # 1073741824) + (7067009 # 134217728)). assert (U1 : 0 <= u1 <= 6 # 100) by (unfold u1; lra).
  set (u2 := x * u1 - (15627355 # 134217728)). assert (U2 : - (12 # 100) <= u2 <= 0) by (unfold u2; nra).
  set (u3 := x * u2 + (6494241 # 33554432)). assert (U3 : 0 <= u3 <= 2 # 10) by (unfold u3; nra).
  set (u4 := x * u3 - (348781 # 1048576)). assert (U4 : - (4 # 10) <= u4 <= 0) by (unfold u4; nra).
  nra.
Qed.
Lemma div_sign n d : Qabs n <= Qabs d -> exists a, n / d == a /\ -1 <= a <= 1 /\ (0 <= n -> 0 <= d -> 0 <= a) /\ (0 <= n -> d <= 0 -> a <= 0) /\ (n <= 0 -> 0 <= d -> a <= 0) /\ (n <= 0 -> d <= 0 -> 0 <= a).
Proof.
  intros L. exists (n / d). split; [reflexivity|]. destruct (Qlt_le_dec 0 d) as [P|P]; [|destruct (Qlt_le_dec d 0) as [M|M]].
  - assert (R : 0 < / d) by (apply Qinv_lt_0_compat; exact P). assert (I : d * / d == 1) by (field; lra). revert L. unfold Qdiv. apply Qabs_case; apply Qabs_case; intros; repeat split; intros; nra.
  - assert (R : 0 < / - d) by (apply Qinv_lt_0_compat; lra). assert (I : - d * / - d == 1) by (field; lra). assert (E : n / d == - (n * / - d)) by (field; lra). rewrite !E.
    revert L. apply Qabs_case; apply Qabs_case; intros; repeat split; intros; nra.
  - assert (Z : d == 0) by lra. rewrite Z. unfold Qdiv. assert (E : n * / 0 == 0) by (unfold Qinv; cbn; ring). rewrite !E. repeat split; intros; lra.
Qed.
Lemma approx_atan2_range y x : - kPi <= approx_atan2 y x <= kPi.
Proof.
  unfold approx_atan2, approx_atan2_signed. cbv zeta. 
  assert (P : 3 < kPi) by reflexivity. assert (P2 : kPi == 2 * kHalfPi) by reflexivity.
  destruct (qltb (Qabs x) (Qabs y)) eqn:S; [apply qltb_true in S|apply qltb_false in S].
  - destruct (div_sign x y ltac:(lra)) as (a & E & A & S1 & S2 & S3 & S4). destruct (approx_atan_unit _ A) as (u & F & U).
    assert (G : approx_atan (x / y) == a * u) by (rewrite (atan_eq _ _ E); exact F). 
    destruct (qltb y 0) eqn:Y, (qltb x 0) eqn:X; rewrite ?qltb_true, ?qltb_false in Y; rewrite ?qltb_true, ?qltb_false in X; cbn [xorb copysign]; rewrite G; 
      [specialize (S4 ltac:(lra) ltac:(lra))|specialize (S2 ltac:(lra) ltac:(lra))|specialize (S3 ltac:(lra) ltac:(lra))|specialize (S1 ltac:(lra) ltac:(lra))]; nra.
  - destruct (div_sign y x S) as (a & E & A & S1 & S2 & S3 & S4). destruct (approx_atan_unit _ A) as (u & F & U).
    assert (G : approx_atan (y / x) == a * u) by (rewrite (atan_eq _ _ E); exact F). 
    destruct (qltb y 0) eqn:Y, (qltb x 0) eqn:X; rewrite ?qltb_true, ?qltb_false in Y; rewrite ?qltb_true, ?qltb_false in X; cbn [xorb copysign]; rewrite G; 
      [specialize (S4 ltac:(lra) ltac:(lra))|specialize (S3 ltac:(lra) ltac:(lra))|specialize (S2 ltac:(lra) ltac:(lra))|specialize (S1 ltac:(lra) ltac:(lra))]; nra.
Qed.
End TRIG.
(** The image coordinates of each corner of a cell lie on the arcs of the cell's sensor box. *)
Definition on_arcs (b : saabb) (c : v2) : Prop := on_arc (fst (smin b)) (fst (smax b)) (fst c) /\ on_arc (snd (smin b)) (snd (smax b)) (snd c).
(** ... and each end of the box's arcs is the coordinate of some corner. *)
Definition ends_at_corners (b : saabb) (l : list v2) : Prop :=
  In (fst (smin b)) (map fst l) /\ In (fst (smax b)) (map fst l) /\ In (snd (smin b)) (map snd l) /\ In (snd (smax b)) (map snd l).
Lemma arcs (l : list v2) zm zx : l <> [] -> (forall c, In c l -> (- kPi <= fst c <= kPi)%Q /\ (- kPi <= snd c <= kPi)%Q) ->
  let e := angle_interval (map fst l) in let a := angle_interval (map snd l) in let b := SB (fst e, fst a) (snd e, snd a) zm zx in
  (forall c, In c l -> on_arcs b c) /\ ends_at_corners b l.
Proof.
  intros N H e a b. destruct l as [|c0 l]; [exfalso; apply N; reflexivity|]. set (L := c0 :: l) in *.
  assert (I0 : In c0 L) by (left; reflexivity).
  destruct (C40_corner_arc (map fst L) (fst c0) (in_map fst _ _ I0)) as (A1 & A2 & A3 & _). { intros q I. apply in_map_iff in I as (c & <- & I). apply H; exact I. }
  destruct (C40_corner_arc (map snd L) (snd c0) (in_map snd _ _ I0)) as (B1 & B2 & B3 & _). { intros q I. apply in_map_iff in I as (c & <- & I). apply H; exact I. }
  split; [intros c I; split; [apply A1|apply B1]; apply in_map; exact I|]. repeat split; assumption.
Qed.
Theorem C40_corners_on_arcs : forall fsqrt W R t,
  (forall cfg, let b := ouster_aabb fsqrt cfg W R t in let l := map (ouster_image fsqrt cfg) (corners W R t) in (forall c, In c l -> on_arcs b c) /\ ends_at_corners b l) /\
  (let b := spherical_aabb fsqrt W R t in let l := map (spherical_image fsqrt) (corners W R t) in (forall c, In c l -> on_arcs b c) /\ ends_at_corners b l).
Proof.
  intros fsqrt W R t. split; [intros cfg|]; cbv zeta; apply arcs; try discriminate; intros c I; apply in_map_iff in I as (p & <- & _); split; apply approx_atan2_range.
Qed.
Print Assumptions C40_corners_on_arcs.

(** A valid configuration meets the requirements of C40's theorems: positive angular increments, images of the configured size with the power-of-two number of
    columns that a periodic azimuth needs. *)
Lemma inc_pos c : circular_isValid c = true -> (0 < cp_inc c)%Q /\ 1 < cp_num c.
Proof.
  unfold circular_isValid. intros H. apply andb_true_iff in H as [H N]. apply andb_true_iff in H as [_ L]. apply Z.ltb_lt in N. apply qltb_true in L. split; [|exact N].
  unfold cp_inc. apply Qlt_shift_div_l; [|lra]. change 0%Q with (inject_Z 0). rewrite <- Zlt_Qlt. lia.
Qed.
Theorem C40_valid_config : forall e a (im : img Q) thr beam z, (0 <= thr)%Q -> im_rows im = cp_num e -> im_cols im = cp_num a ->
  cp_num e < 2 ^ 30 -> cp_num a < 2 ^ 30 -> (axis_periodic a = true -> exists K, 0 <= K /\ cp_num a = 2 ^ K) ->
  (ouster_isValid (OU e a beam z) = true -> valid_setup (ouster_base (OU e a beam z)) im (axis_periodic a) thr) /\
  (circular_isValid e = true -> circular_isValid a = true -> valid_setup (spherical_base (SP e a)) im (axis_periodic a) thr).
Proof.
  intros e a im thr beam z HT R C NR NC W.
  assert (G : circular_isValid e = true -> circular_isValid a = true -> valid_setup (spherical_base (SP e a)) im (axis_periodic a) thr).
  { intros He Ha. apply inc_pos in He as [E1 E2], Ha as [A1 A2]. set (P := spherical_base (SP e a)).
    assert (S : P_RangeBounds.valid_scale (scale_factor (Some P))) by (apply C39_scale_factor; unfold P; cbn; lra).
    split; [exact E1|]. split; [exact A1|]. split; [exact HT|]. split; [|rewrite C; exact W].
    unfold valid_image. rewrite R, C. destruct S as ([-> | ->] & [-> | ->] & _); lia. }
  split; [|exact G]. intros V. unfold ouster_isValid in V. cbn in V. apply andb_true_iff in V as [He Ha]. exact (G He Ha).
Qed.
Example C40_valid_config_ex : ouster_isValid (OU (CP (- (1 # 4)) (1 # 4) 64) (CP (- kPi) (kPi * (1023 # 1024)) 1024) (2767 # 100000) (3618 # 100000)) = true /\
  ouster_isValid (OU (CP (- (1 # 4)) (1 # 4) 64) (CP (- kPi) kPi 1) 0 0) = false /\ ouster_isValid (OU (CP (1 # 4) (- (1 # 4)) 64) (CP (- kPi) kPi 1024) 0 0) = false.
Proof. vm_compute. auto. Qed.
Print Assumptions C40_valid_config.

Lemma qltb_iff a b c d : ((a < b)%Q <-> (c < d)%Q) -> qltb a b = qltb c d.
Proof. intros H. destruct (qltb a b) eqn:A, (qltb c d) eqn:B; try reflexivity; rewrite ?qltb_true, ?qltb_false in A; rewrite ?qltb_true, ?qltb_false in B; exfalso; [apply H in A|apply H in B]; lra. Qed.
Lemma atan2_scale k y x : (0 < k)%Q -> (approx_atan2 (k * y) (k * x) == approx_atan2 y x)%Q.
Proof.
  intros K. unfold approx_atan2, approx_atan2_signed. cbv zeta.
  rewrite (qltb_iff (k * y) 0 y 0) by (split; nra). rewrite (qltb_iff (k * x) 0 x 0) by (split; nra).
  rewrite (qltb_iff (Qabs (k * x)) (Qabs (k * y)) (Qabs x) (Qabs y)) by (rewrite !Qabs_Qmult, (Qabs_pos k) by lra; split; nra).
  set (sw := qltb (Qabs x) (Qabs y)).
  assert (A : (approx_atan ((if sw then k * x else k * y) / (if sw then k * y else k * x)) == approx_atan ((if sw then x else y) / (if sw then y else x)))%Q).
  { apply atan_eq. destruct sw; unfold Qdiv; rewrite Qinv_mult_distr; [transitivity (k * / k * (x * / y))%Q|transitivity (k * / k * (y * / x))%Q]; try ring; rewrite Qmult_inv_r by lra; ring. }
  destruct sw; destruct (qltb x 0); rewrite A; reflexivity.
Qed.
(** The points along one beam of an Ouster sensor are assigned that beam's azimuth and elevation, at any distance, and their distance along the beam. The square root must be
    right at the two squares the projector takes. *)
Theorem C66_ouster_beam : forall fsqrt e a o zo ca sa ce se r, (forall x y, x == y -> fsqrt x == fsqrt y)%Q -> direction ca sa -> direction ce se ->
  (0 < r -> 0 < o + r * ce -> fsqrt ((o + r * ce) * (o + r * ce)) == o + r * ce -> fsqrt (r * r) == r ->
  let s := ouster_sensor fsqrt (OU e a o zo) (beam_point o zo ca sa ce se r) in
  fst (fst s) == approx_atan2 se ce /\ snd (fst s) == approx_atan2 sa ca /\ snd s == r)%Q.
Proof.
  intros fsqrt e a o zo ca sa ce se r HQ D1 D2 Hr HO S1 S2. unfold direction in *. set (p := beam_point _ _ _ _ _ _ _).
  assert (BX : (ou_bx fsqrt (OU e a o zo) p == r * ce)%Q).
  { unfold ou_bx, p, beam_point. cbn [vx vy vz ou_beam_origin]. rewrite (HQ _ ((o + r * ce) * (o + r * ce))%Q); [rewrite S1; ring|].
    transitivity ((o + r * ce) * (o + r * ce) * (ca * ca + sa * sa))%Q; [ring|rewrite D1; ring]. }
  assert (BY : (ou_by (OU e a o zo) p == r * se)%Q) by (unfold ou_by, p, beam_point; cbn [vz ou_z_offset]; ring).
  unfold ouster_sensor, ouster_image. cbv zeta. cbn [fst snd]. split; [|split].
  - rewrite (atan2_eq _ _ _ _ BY BX). apply atan2_scale. exact Hr.
  - unfold p, beam_point. cbn [vx vy]. apply atan2_scale. exact HO.
  - rewrite (HQ _ (r * r)%Q); [exact S2|]. rewrite BX, BY. transitivity (r * r * (ce * ce + se * se))%Q; [ring|rewrite D2; ring].
Qed.
(** Azimuth (3/5, 4/5), elevation (12/13, 5/13), 13 m along the beam; the beams start 0.02 m from the axis and 0.036 m up. *)
Example C66_ouster_beam_ex : direction (3 # 5) (4 # 5) /\ direction (12 # 13) (5 # 13) /\ (forall x y, x == y -> ex_sqrt x == ex_sqrt y)%Q /\
  (ex_sqrt (((2 # 100) + 13 * (12 # 13)) * ((2 # 100) + 13 * (12 # 13))) == (2 # 100) + 13 * (12 # 13))%Q /\ (ex_sqrt (13 * 13) == 13)%Q /\
  let s := ouster_sensor ex_sqrt (OU (CP 0 1 2) (CP 0 1 2) (2 # 100) (36 # 1000)) (beam_point (2 # 100) (36 # 1000) (3 # 5) (4 # 5) (12 # 13) (5 # 13) 13) in
  (snd s == 13)%Q /\ (Qabs (fst (fst s) - (39479 # 100000)) < 1 # 100000)%Q /\ (Qabs (snd (fst s) - (92730 # 100000)) < 1 # 100000)%Q.
Proof.
  split; [reflexivity|]. split; [reflexivity|]. split.
  { intros x y E. unfold ex_sqrt. rewrite (Qfloor_comp (x * 1000000) (y * 1000000)) by (rewrite E; reflexivity). reflexivity. }
  vm_compute. repeat split; reflexivity.
Qed.
Print Assumptions C66_ouster_beam.

(** ** C65: in exact arithmetic the approximation stays within [-pi, pi] (as floats) and depends only on the direction. *)
Theorem C65_direction_only : forall y x, (- kPi <= approx_atan2 y x <= kPi)%Q /\ forall k, (0 < k)%Q -> (approx_atan2 (k * y) (k * x) == approx_atan2 y x)%Q.
Proof. intros y x. split; [apply approx_atan2_range|intros k K; apply atan2_scale; exact K]. Qed.
Example C65_direction_only_ex : (approx_atan2 0 (-2) == kPi /\ approx_atan2 3 (-4) == approx_atan2 6 (-8) /\ approx_atan2 (-1) (-1000000) < - (314 # 100))%Q.
Proof. vm_compute. auto. Qed.
Print Assumptions C65_direction_only.
