(** * C75: points and indices in single precision *)
From Verif Require Import Base M_IntMath M_NdtreeIndex M_Point M_ApproxFloat M_FloatIndex P_Point F_Float.
From Coq Require Import QArith Qround Qabs Qreals Reals Lra Lia Psatz.
From Flocq Require Import Core IEEE754.BinarySingleNaN.
Close Scope Q_scope.
Open Scope R_scope.

(** ** Vocabulary. [B2R x] is the real number that the float [x] denotes. *)
Definition usable_width (w : float32) : Prop := is_finite w = true /\ bpow radix2 (-100) <= B2R w <= bpow radix2 100.
(** A coordinate in units of the cell width, and the tolerance: about 2.4e-7 of it *)
Definition in_cells (w x : float32) : R := B2R x / B2R w.
Definition tolerance (t : R) : R := (Rabs t + 1) / 4194304.

Lemma big126 : 1073741824 <= bpow radix2 126.
Proof. change 1073741824 with (bpow radix2 30). apply bpow_le. lia. Qed.
Lemma tiny_small : 0 < tiny32 <= / 1099511627776.
Proof. split; [apply bpow_gt_0|]. change (/ 1099511627776) with (bpow radix2 (-40)). apply bpow_le. lia. Qed.
Lemma width_pos w : usable_width w -> 0 < B2R w.
Proof. intros [_ [H _]]. pose proof (bpow_gt_0 radix2 (-100)). lra. Qed.
Lemma inv_ok w : usable_width w -> is_finite (fdiv fone w) = true /\ Rabs (B2R (fdiv fone w) * B2R w - 1) <= u32.
Proof.
  intros U. pose proof (width_pos w U) as P. destruct U as [F [L H]]. destruct fone_R as (O1 & O2 & _).
  assert (I : bpow radix2 (-100) <= / B2R w <= bpow radix2 100).
  { split.
    - replace (bpow radix2 (-100)) with (/ bpow radix2 100) by (symmetry; apply (bpow_opp radix2 100)). apply Rinv_le_contravar; lra.
    - replace (bpow radix2 100) with (/ bpow radix2 (-100)); [apply Rinv_le_contravar; [apply bpow_gt_0|lra]|].
      change (-100)%Z with (- (100))%Z. rewrite bpow_opp. apply Rinv_inv. }
  assert (P' : 0 < / B2R w) by (apply Rinv_0_lt_compat; exact P).
  assert (A : Rabs (/ B2R w) = / B2R w) by (apply Rabs_pos_eq; lra).
  destruct (fdiv_ok fone w O2 ltac:(lra)) as (D1 & D2).
  { rewrite O1. unfold Rdiv. rewrite Rmult_1_l, A. eapply Rle_trans; [apply I|]. apply bpow_le. lia. }
  split; [exact D1|]. rewrite D2, O1. unfold Rdiv. rewrite Rmult_1_l.
  assert (E := rnd32_rel (/ B2R w)). rewrite A in E. specialize (E ltac:(eapply Rle_trans; [|apply I]; apply bpow_le; lia)).
  replace (rnd32 (/ B2R w) * B2R w - 1) with ((rnd32 (/ B2R w) - / B2R w) * B2R w) by (field; lra).
  rewrite Rabs_mult, (Rabs_pos_eq (B2R w)) by lra. apply Rle_trans with (u32 * / B2R w * B2R w); [apply Rmult_le_compat_r; lra|]. apply Req_le. field. lra.
Qed.
(** The scaled coordinate is nearly exact, with or without a fused multiply-add. *)
Lemma scaled_ok b w x : usable_width w -> is_finite x = true -> Rabs (in_cells w x) <= 2000001 ->
  let y := scaled_minus_half b x (fdiv fone w) in
  is_finite y = true /\ Rabs (B2R y - (in_cells w x - / 2)) <= (301 / 100 * Rabs (in_cells w x) + 1) * u32.
Proof.
  intros U Fx B y. pose proof (width_pos w U) as P. destruct (inv_ok w U) as (Fv & Ev). set (v := fdiv fone w) in *. set (t := in_cells w x) in *.
  assert (X : B2R x = t * B2R w) by (unfold t, in_cells; field; lra).
  destruct fhalf_R as (H1 & H2 & _). pose proof big126 as B126. pose proof tiny_small as [T0 T1]. pose proof (Rabs_pos t) as T.
  assert (D : Rabs (B2R x * B2R v - t) <= u32 * Rabs t).
  { rewrite X. replace (t * B2R w * B2R v - t) with (t * (B2R v * B2R w - 1)) by ring. rewrite Rabs_mult, Rmult_comm. apply Rmult_le_compat_r; assumption. }
  set (z := B2R x * B2R v) in *.
  assert (Az : Rabs z <= Rabs t + u32 * Rabs t). { replace z with (t + (z - t)) by ring. eapply Rle_trans; [apply Rabs_triang|lra]. }
  unfold y, scaled_minus_half. destruct b.
  - assert (Fh : is_finite (Bopp fhalf) = true) by (rewrite is_finite_Bopp; exact H2). assert (Rh : B2R (Bopp fhalf) = - / 2) by (rewrite B2R_Bopp, H1; reflexivity).
    assert (S : Rabs (z + - / 2) <= Rabs z + / 2). { eapply Rle_trans; [apply Rabs_triang|]. rewrite Rabs_Ropp, (Rabs_pos_eq (/ 2)); lra. }
    destruct (ffma_ok x v (Bopp fhalf) Fx Fv Fh) as (F1 & F2); [rewrite Rh; fold z; lra|]. split; [exact F1|]. rewrite F2, Rh. fold z.
    pose proof (rnd32_err (z + - / 2)) as R1. replace (rnd32 (z + - / 2) - (t - / 2)) with ((rnd32 (z + - / 2) - (z + - / 2)) + (z - t)) by ring.
    eapply Rle_trans; [apply Rabs_triang|]. lra.
  - destruct (fmul_ok x v Fx Fv) as (F1 & F2 & _); [fold z; lra|]. fold z in F2. set (s := fmul x v) in *.
    pose proof (rnd32_err z) as R1. rewrite <- F2 in R1.
    assert (S : Rabs (B2R s - / 2) <= Rabs z + (u32 * Rabs z + tiny32) + / 2).
    { replace (B2R s - / 2) with (z + (B2R s - z) + - / 2) by ring. eapply Rle_trans; [apply Rabs_triang|]. rewrite Rabs_Ropp, (Rabs_pos_eq (/ 2)) by lra.
      apply Rplus_le_compat_r. eapply Rle_trans; [apply Rabs_triang|lra]. }
    destruct (fsub_ok s fhalf F1 H2) as (G1 & G2); [rewrite H1; lra|]. rewrite H1 in G2. split; [exact G1|]. rewrite G2.
    pose proof (rnd32_err (B2R s - / 2)) as R2.
    replace (rnd32 (B2R s - / 2) - (t - / 2)) with ((rnd32 (B2R s - / 2) - (B2R s - / 2)) + ((B2R s - z) + (z - t))) by ring.
    eapply Rle_trans; [apply Rabs_triang|]. pose proof (Rabs_triang (B2R s - z) (z - t)). lra.
Qed.
Lemma Q2R_inject z : Q2R (inject_Z z) = IZR z.
Proof. unfold Q2R, inject_Z. cbn. field. Qed.
Lemma nearest_R rnd y : nearest rnd -> is_finite y = true -> Rabs (IZR (rnd (f2q y)) - B2R y) <= / 2.
Proof.
  intros N F. specialize (N (f2q y)). rewrite <- (f2q_R y F). apply Qabs_Qle_condition in N. destruct N as [N1 N2]. apply Qle_Rle in N1, N2.
  rewrite Q2R_minus, Q2R_inject in N1, N2. rewrite Q2R_opp in N1. assert (H2 : Q2R (1 # 2) = / 2) by (unfold Q2R; cbn; lra). rewrite H2 in N1, N2. apply Rabs_le. lra.
Qed.
Lemma usable_node w h : is_finite w = true -> bpow radix2 (-60) <= B2R w <= bpow radix2 60 -> (0 <= h <= 30)%Z ->
  usable_width (fheightToCellWidth w h) /\ B2R (fheightToCellWidth w h) = B2R w * IZR (2 ^ h).
Proof.
  intros F [L H] Hh. unfold fheightToCellWidth.
  assert (EX : exp2 h = (2 ^ h)%Z). { unfold exp2. rewrite Z.shiftl_1_l. reflexivity. }
  rewrite EX.
  assert (IE : B2R (f_of_int (2 ^ h)) = bpow radix2 h /\ is_finite (f_of_int (2 ^ h)) = true).
  { pose proof (binary_normalize_correct fprec femax fprec_pos fprec_emax mode_NE (2 ^ h) 0 false) as C. cbv zeta in C.
    assert (E : F2R (Float radix2 (2 ^ h) 0) = bpow radix2 h). { unfold F2R. cbn [Fnum Fexp]. rewrite Rmult_1_r. apply (IZR_Zpower radix2). lia. }
    rewrite E in C. rewrite no_overflow32 in C by (rewrite Rabs_pos_eq by apply bpow_ge_0; apply bpow_le; lia). destruct C as (C1 & C2 & _).
    split; [|exact C2]. unfold f_of_int. rewrite C1. apply rnd32_format. replace (bpow radix2 h) with (1 * bpow radix2 h) by ring. apply (format32 1 h); lia. }
  destruct IE as [IE IF]. assert (Z2 : IZR (2 ^ h) = bpow radix2 h) by (apply (IZR_Zpower radix2); lia).
  pose proof (bpow_gt_0 radix2 (-60)) as P60. pose proof (bpow_gt_0 radix2 h) as Ph. assert (P1 : 1 <= bpow radix2 h) by (change 1 with (bpow radix2 0); apply bpow_le; lia).
  assert (P2 : bpow radix2 h <= bpow radix2 30) by (apply bpow_le; lia).
  assert (UB : B2R w * bpow radix2 h <= bpow radix2 90). { change 90%Z with (60 + 30)%Z. rewrite bpow_plus. apply Rmult_le_compat; lra. }
  assert (LB : bpow radix2 (-60) <= B2R w * bpow radix2 h) by nra.
  destruct (fmul_ok w (f_of_int (2 ^ h)) F IF) as (M1 & M2 & _).
  { rewrite IE, Rabs_pos_eq by lra. eapply Rle_trans; [exact UB|]. apply bpow_le. lia. }
  assert (EQ : B2R (fmul w (f_of_int (2 ^ h))) = B2R w * IZR (2 ^ h)).
  { rewrite M2, IE, Z2. apply rnd32_format. apply (generic_format_FLT radix2 (-149) 24).
    assert (G : FLT_format radix2 (-149) 24 (B2R w)) by (apply (FLT_format_generic radix2 (-149) 24), (generic_format_B2R fprec femax)).
    destruct G as [f G1 G2 G3]. exists (Float radix2 (Fnum f) (Fexp f + h)).
    - rewrite G1. unfold F2R. cbn [Fnum Fexp]. rewrite bpow_plus. ring.
    - exact G2.
    - cbn [Fexp]. cbn in G3. lia. }
  split; [|exact EQ]. split; [exact M1|]. rewrite EQ, Z2. split; [|eapply Rle_trans; [exact UB|apply bpow_le; lia]].
  eapply Rle_trans; [|exact LB]. apply bpow_le. lia.
Qed.

(** ** The theorems *)
(** Converting a cell's index to its centre and back gives the same index, up to two million cells from the origin (20 km for
    cells of 1 cm), for every cell width, every rounding of halves, and with or without fused operations. *)
Lemma center_ok w c : usable_width w -> (Z.abs c <= 2000000)%Z ->
  let x := fmul (fadd (f_of_int c) fhalf) w in
  is_finite x = true /\ Rabs (in_cells w x - (IZR c + / 2)) <= u32 * Rabs (IZR c + / 2).
Proof.
  intros U Hc x. pose proof (width_pos w U) as P. destruct (f_of_int_ok c ltac:(lia)) as (C1 & C2 & _). destruct fhalf_R as (H1 & H2 & _). pose proof big126 as B126.
  assert (AC : Rabs (IZR c) <= 2000000) by (rewrite <- abs_IZR; apply IZR_le; exact Hc).
  assert (A : Rabs (IZR c + / 2) <= 2000001) by (eapply Rle_trans; [apply Rabs_triang|]; rewrite (Rabs_pos_eq (/ 2)); lra).
  destruct (fadd_ok (f_of_int c) fhalf C1 H2) as (S1 & S2 & _); [rewrite C2, H1; lra|].
  rewrite C2, H1 in S2.
  assert (S3 : rnd32 (IZR c + / 2) = IZR c + / 2).
  { apply rnd32_format. replace (IZR c + / 2) with (IZR (2 * c + 1) * bpow radix2 (-1)); [apply format32; lia|].
    rewrite plus_IZR, mult_IZR. change (bpow radix2 (-1)) with (/ 2). field. }
  rewrite S3 in S2. destruct U as [F [L H]].
  assert (HA : / 2 <= Rabs (IZR c + / 2)).
  { destruct (Z_le_gt_dec 0 c) as [h|h].
    - apply IZR_le in h. rewrite Rabs_pos_eq; lra.
    - assert (h' : (c <= -1)%Z) by lia. apply IZR_le in h'. rewrite Rabs_left1; lra. }
  assert (MU : Rabs ((IZR c + / 2) * B2R w) <= bpow radix2 126).
  { rewrite Rabs_mult, (Rabs_pos_eq (B2R w)) by lra. apply Rle_trans with (bpow radix2 26 * bpow radix2 100).
    - apply Rmult_le_compat; [apply Rabs_pos|lra| |lra]. eapply Rle_trans; [exact A|]. change (bpow radix2 26) with 67108864. lra.
    - rewrite <- bpow_plus. apply Rle_refl. }
  destruct (fmul_ok _ w S1 F) as (M1 & M2 & _); [rewrite S2; exact MU|]. fold x in M1, M2. split; [exact M1|].
  rewrite S2 in M2.
  assert (E := rnd32_rel ((IZR c + / 2) * B2R w)). rewrite <- M2 in E.
  assert (LL : bpow radix2 (-126) <= Rabs ((IZR c + / 2) * B2R w)).
  { rewrite Rabs_mult, (Rabs_pos_eq (B2R w)) by lra. apply Rle_trans with (/ 2 * bpow radix2 (-100)).
    - change (/ 2) with (bpow radix2 (-1)). rewrite <- bpow_plus. apply bpow_le. lia.
    - apply Rmult_le_compat; try lra. apply bpow_ge_0. }
  specialize (E LL). unfold in_cells. rewrite Rabs_mult, (Rabs_pos_eq (B2R w)) in E by lra.
  replace (B2R x / B2R w - (IZR c + / 2)) with ((B2R x - (IZR c + / 2) * B2R w) * / B2R w) by (field; lra).
  rewrite Rabs_mult, (Rabs_pos_eq (/ B2R w)) by (apply Rlt_le, Rinv_0_lt_compat; exact P).
  apply Rle_trans with (u32 * (Rabs (IZR c + / 2) * B2R w) * / B2R w).
  - apply Rmult_le_compat_r; [apply Rlt_le, Rinv_0_lt_compat; exact P|]. exact E.
  - apply Req_le. field. lra.
Qed.
Theorem C75_center_roundtrip : forall fma rnd w i, nearest rnd -> usable_width w -> Forall (fun c => (Z.abs c <= 2000000)%Z) i ->
  fpointToNearestIndex fma rnd (findexToCenterPoint i w) (fdiv fone w) = i.
Proof.
  intros fma rnd w i N U H. unfold fpointToNearestIndex, findexToCenterPoint. rewrite map_map. induction H as [|c i Hc H IH]; [reflexivity|].
  cbn [map]. f_equal; [clear IH|exact IH].
  destruct (center_ok w c U Hc) as (F & E). set (x := fmul (fadd (f_of_int c) fhalf) w) in *.
  assert (AC : Rabs (IZR c) <= 2000000) by (rewrite <- abs_IZR; apply IZR_le; exact Hc).
  assert (A : Rabs (IZR c + / 2) <= 2000000 + / 2) by (eapply Rle_trans; [apply Rabs_triang|]; rewrite (Rabs_pos_eq (/ 2)); lra).
  assert (B : Rabs (in_cells w x) <= Rabs (IZR c + / 2) + u32 * Rabs (IZR c + / 2)).
  { replace (in_cells w x) with ((IZR c + / 2) + (in_cells w x - (IZR c + / 2))) by ring. eapply Rle_trans; [apply Rabs_triang|lra]. }
  destruct (scaled_ok fma w x U F) as (G & D); [lra|].
  pose proof (nearest_R rnd _ N G) as R1. set (y := scaled_minus_half fma x (fdiv fone w)) in *. set (n := rnd (f2q y)) in *.
  apply rabs_split in E, D, R1.
  assert (LT : -1 < IZR n - IZR c < 1) by lra. rewrite <- minus_IZR in LT. destruct LT as [L1 L2]. apply (lt_IZR (-1)) in L1. apply (lt_IZR _ 1) in L2. lia.
Qed.
(** The index of a point is that of a cell that contains it, up to the tolerance. *)
Theorem C75_containing_cell : forall fma rnd w p, nearest rnd -> usable_width w ->
  Forall (fun x => is_finite x = true /\ Rabs (in_cells w x) <= 2000000) p ->
  Forall2 (fun x i => let t := in_cells w x in IZR i - tolerance t <= t <= IZR i + 1 + tolerance t)
    p (fpointToNearestIndex fma rnd p (fdiv fone w)).
Proof.
  intros fma rnd w p N U H. unfold fpointToNearestIndex. induction H as [|x p [F B] H IH]; [constructor|].
  cbn [map]. constructor; [|exact IH]. clear IH. cbv zeta.
  destruct (scaled_ok fma w x U F ltac:(lra)) as (G & D). pose proof (nearest_R rnd _ N G) as R1. unfold tolerance. pose proof (Rabs_pos (in_cells w x)).
  apply rabs_split in D, R1. lra.
Qed.
(** A point that is farther than the tolerance from the faces of its cell gets exactly the cell's index. *)
Theorem C75_interior_point : forall fma rnd w p i, nearest rnd -> usable_width w ->
  Forall2 (fun x c => is_finite x = true /\ Rabs (in_cells w x) <= 2000000 /\
    let t := in_cells w x in IZR c + tolerance t < t < IZR c + 1 - tolerance t) p i ->
  fpointToNearestIndex fma rnd p (fdiv fone w) = i.
Proof.
  intros fma rnd w p i N U H. unfold fpointToNearestIndex. induction H as [|x c p i (F & B & C) H IH]; [reflexivity|].
  cbn [map]. f_equal; [clear IH|exact IH]. cbv zeta in C.
  destruct (scaled_ok fma w x U F ltac:(lra)) as (G & D). pose proof (nearest_R rnd _ N G) as R1. unfold tolerance in C. pose proof (Rabs_pos (in_cells w x)).
  set (y := scaled_minus_half fma x (fdiv fone w)) in *. set (n := rnd (f2q y)) in *.
  apply rabs_split in D, R1. assert (LT : -1 < IZR n - IZR c < 1) by lra.
  rewrite <- minus_IZR in LT. destruct LT as [L1 L2]. apply (lt_IZR (-1)) in L1. apply (lt_IZR _ 1) in L2. lia.
Qed.
(** The floor and ceiling indices: the centres of these cells lie on both sides of the point, up to the tolerance. *)
Theorem C75_floor_ceil : forall fma w p, usable_width w ->
  Forall (fun x => is_finite x = true /\ Rabs (in_cells w x) <= 2000000) p ->
  Forall2 (fun x i => let t := in_cells w x in IZR i + / 2 - tolerance t <= t < IZR i + 3 / 2 + tolerance t) p (fpointToFloorIndex fma p (fdiv fone w)) /\
  Forall2 (fun x i => let t := in_cells w x in IZR i - / 2 - tolerance t < t <= IZR i + / 2 + tolerance t) p (fpointToCeilIndex fma p (fdiv fone w)) /\
  Forall2 (fun a b => a <= b <= a + 1)%Z (fpointToFloorIndex fma p (fdiv fone w)) (fpointToCeilIndex fma p (fdiv fone w)).
Proof.
  intros fma w p U H. unfold fpointToFloorIndex, fpointToCeilIndex. induction H as [|x p [F B] H (IH1 & IH2 & IH3)]; [repeat split; constructor|].
  destruct (scaled_ok fma w x U F ltac:(lra)) as (G & D). pose proof (Rabs_pos (in_cells w x)) as A.
  set (y := scaled_minus_half fma x (fdiv fone w)) in *. pose proof (f2q_R y G) as Y.
  pose proof (Qfloor_le (f2q y)) as f1. pose proof (Qlt_floor (f2q y)) as f2. pose proof (Qle_ceiling (f2q y)) as c1. pose proof (Qceiling_lt (f2q y)) as c2.
  apply Qle_Rle in f1, c1. apply Qlt_Rlt in f2, c2. rewrite Q2R_inject in f1, f2, c1, c2. rewrite plus_IZR in f2. rewrite minus_IZR in c2. rewrite Y in f1, f2, c1, c2.
  apply rabs_split in D. unfold tolerance.
  repeat split; cbn [map]; constructor; try assumption; fold y; cbv zeta; try lra.
  split; [apply le_IZR; lra|]. apply Zlt_succ_le. apply lt_IZR. unfold Z.succ. rewrite !plus_IZR. lra.
Qed.
(** Octree nodes: the width of a node is exact, and the round trip through its centre is, too. *)
Theorem C75_node_width_exact : forall w h, is_finite w = true -> bpow radix2 (-60) <= B2R w <= bpow radix2 60 -> (0 <= h <= 30)%Z ->
  B2R (fheightToCellWidth w h) = B2R w * IZR (2 ^ h).
Proof. intros w h F B H. apply (usable_node w h F B H). Qed.
Theorem C75_node_roundtrip : forall fma rnd w n, nearest rnd -> is_finite w = true -> bpow radix2 (-60) <= B2R w <= bpow radix2 60 ->
  (0 <= height n <= 30)%Z -> Forall (fun c => (Z.abs c <= 2000000)%Z) (position n) ->
  fpointToNodeIndex fma rnd (fnodeIndexToCenterPoint n w) w (height n) = n.
Proof.
  intros fma rnd w [h i] N F B H HP. cbn [height position] in *. unfold fpointToNodeIndex, fnodeIndexToCenterPoint. cbn [height position].
  rewrite C75_center_roundtrip; [reflexivity|exact N|apply (usable_node w h F B H)|exact HP].
Qed.
(** Neighbouring cells share their faces bit for bit: there are no gaps and no overlaps. *)
Theorem C75_faces_shared : forall w i, usable_width w -> Forall (fun c => (Z.abs c < 2 ^ 24)%Z) i ->
  findexToMaxCorner i w = findexToMinCorner (map (Z.add 1) i) w.
Proof.
  intros w i U H. unfold findexToMaxCorner, findexToMinCorner. rewrite map_map. induction H as [|c i Hc H IH]; [reflexivity|].
  cbn [map]. f_equal; [|exact IH]. f_equal. clear IH H.
  destruct (f_of_int_ok c ltac:(lia)) as (C1 & C2 & C3). destruct (f_of_int_ok (1 + c) ltac:(lia)) as (D1 & D2 & D3). destruct fone_R as (O1 & O2 & O3).
  assert (E : IZR c + 1 = IZR (1 + c)) by (rewrite plus_IZR; ring).
  destruct (fadd_ok (f_of_int c) fone C1 O2) as (S1 & S2 & S3).
  { rewrite C2, O1, E, <- abs_IZR. eapply Rle_trans; [|apply big126]. apply IZR_le. lia. }
  rewrite C2, O1, E in S2, S3. rewrite O3, andb_false_r in S3. apply B2R_Bsign_inj; [exact S1|exact D1| |].
  - rewrite S2, D2. rewrite <- D2. apply rnd32_format. apply (generic_format_B2R fprec femax).
  - rewrite S3, D3. reflexivity.
Qed.
(** The centre lies between the corners. *)
Theorem C75_center_between_corners : forall w i, usable_width w -> Forall (fun c => (Z.abs c < 2 ^ 24)%Z) i ->
  Forall2 (fun a b => Bleb a b = true) (findexToMinCorner i w) (findexToCenterPoint i w) /\
  Forall2 (fun a b => Bleb a b = true) (findexToCenterPoint i w) (findexToMaxCorner i w).
Proof.
  intros w i U H. pose proof (width_pos w U) as P. destruct U as [F [L B]]. unfold findexToMinCorner, findexToCenterPoint, findexToMaxCorner.
  induction H as [|c i Hc H [IH1 IH2]]; [split; constructor|]. cbn [map].
  destruct (f_of_int_ok c ltac:(lia)) as (C1 & C2 & _). destruct fone_R as (O1 & O2 & _). destruct fhalf_R as (H1 & H2 & _).
  assert (A : Rabs (IZR c) <= 16777216) by (rewrite <- abs_IZR; apply IZR_le; lia). pose proof big126 as B126.
  assert (A' : forall d, 0 <= d <= 1 -> Rabs (IZR c + d) <= 16777217) by (intros d Hd; eapply Rle_trans; [apply Rabs_triang|]; rewrite (Rabs_pos_eq d); lra).
  destruct (fadd_ok (f_of_int c) fone C1 O2) as (S1 & S2 & _); [rewrite C2, O1; specialize (A' 1 ltac:(lra)); lra|].
  destruct (fadd_ok (f_of_int c) fhalf C1 H2) as (T1 & T2 & _); [rewrite C2, H1; specialize (A' (/ 2) ltac:(lra)); lra|].
  rewrite C2, O1 in S2. rewrite C2, H1 in T2.
  assert (C0 : rnd32 (IZR c) = IZR c) by (rewrite <- C2; apply rnd32_format, (generic_format_B2R fprec femax)).
  assert (I1 : IZR c <= B2R (fadd (f_of_int c) fhalf)) by (rewrite T2, <- C0 at 1; apply rnd32_le; lra).
  assert (I2 : B2R (fadd (f_of_int c) fhalf) <= B2R (fadd (f_of_int c) fone)) by (rewrite T2, S2; apply rnd32_le; lra).
  assert (BO : forall d, 0 <= d <= 1 -> Rabs (rnd32 (IZR c + d)) <= bpow radix2 26).
  { intros d Hd. specialize (A' d Hd). pose proof (rnd32_err (IZR c + d)) as E. pose proof tiny_small. change (bpow radix2 26) with 67108864.
    replace (rnd32 (IZR c + d)) with ((IZR c + d) + (rnd32 (IZR c + d) - (IZR c + d))) by ring. eapply Rle_trans; [apply Rabs_triang|lra]. }
  assert (MO : forall z, Rabs z <= bpow radix2 26 -> Rabs (z * B2R w) <= bpow radix2 126).
  { intros z Hz. rewrite Rabs_mult, (Rabs_pos_eq (B2R w)) by lra. change 126%Z with (26 + 100)%Z. rewrite bpow_plus. apply Rmult_le_compat; try lra. apply Rabs_pos. }
  destruct (fmul_ok (f_of_int c) w C1 F) as (M1 & M2 & _); [rewrite C2; apply MO; change (bpow radix2 26) with 67108864; lra|].
  destruct (fmul_ok (fadd (f_of_int c) fhalf) w T1 F) as (N1 & N2 & _); [rewrite T2; apply MO, BO; lra|].
  destruct (fmul_ok (fadd (f_of_int c) fone) w S1 F) as (K1 & K2 & _); [rewrite S2; apply MO, BO; lra|].
  rewrite C2 in M2.
  split; constructor; try assumption; rewrite Bleb_correct by assumption; apply Rle_bool_true; rewrite ?M2, ?N2, ?K2; apply rnd32_le; apply Rmult_le_compat_r; lra.
Qed.

(** ** What does not hold *)
(** Farther away the round trip fails: 126 km from the origin with cells of 3 cm. *)
Definition w3cm : float32 := @B754_finite fprec femax false 16106127 (-29) (eq_refl true).
Lemma w3cm_usable : usable_width w3cm.
Proof.
  assert (E : B2R w3cm = 16106127 / 536870912) by (unfold w3cm, B2R, F2R; cbn -[IZR]; lra).
  split; [reflexivity|]. rewrite E. split.
  - apply Rle_trans with (bpow radix2 (-10)); [apply bpow_le; lia|]. change (bpow radix2 (-10)) with (/ 1024). lra.
  - apply Rle_trans with (bpow radix2 1); [change (bpow radix2 1) with 2; lra|apply bpow_le; lia].
Qed.
Theorem C75_far_roundtrip_refuted : exists w i, usable_width w /\ (i < 4200000)%Z /\
  fpointToNearestIndex false round_away (findexToCenterPoint [i] w) (fdiv fone w) = [i + 1]%Z.
Proof. exists w3cm, 4195112%Z. split; [apply w3cm_usable|]. split; [lia|]. vm_compute. reflexivity. Qed.
(** Without the tolerance: a point strictly inside cell 0 is given to cell -1. *)
Definition small_x : float32 := @B754_finite fprec femax false 8388608 (-53) (eq_refl true).
Lemma fone_usable : usable_width fone.
Proof.
  destruct fone_R as (E & F & _). split; [exact F|]. rewrite E. change 1 with (bpow radix2 0). split; apply bpow_le; lia.
Qed.
Theorem C75_exact_cell_refuted : exists w x, usable_width w /\ is_finite x = true /\ 0 < in_cells w x < 1 /\
  fpointToNearestIndex false round_away [x] (fdiv fone w) = [-1]%Z /\ fpointToNearestIndex true round_away [x] (fdiv fone w) = [-1]%Z.
Proof.
  exists fone, small_x. split; [apply fone_usable|]. split; [reflexivity|]. split; [|split; vm_compute; reflexivity].
  unfold in_cells. destruct fone_R as (E & _). rewrite E. assert (S : B2R small_x = / 1073741824) by (unfold small_x, B2R, F2R; cbn -[IZR]; lra). rewrite S. lra.
Qed.
(** Heights can disagree: the cell of a point is not below the node that the point is given to (C09 for exact arithmetic). *)
Definition small_y : float32 := @B754_finite fprec femax false 12582912 (-49) (eq_refl true).
Theorem C75_heights_disagree_refuted : exists w x, usable_width w /\ is_finite x = true /\
  fpointToNodeIndex false round_away [x] w 0 = NodeIndex 0 [0]%Z /\ fpointToNodeIndex false round_away [x] w 1 = NodeIndex 1 [-1]%Z.
Proof. exists fone, small_y. split; [apply fone_usable|]. split; [reflexivity|]. split; vm_compute; reflexivity. Qed.

(** ** Examples: the hypotheses are met *)
Example C75_roundtrip_ex : fpointToNearestIndex false round_away (findexToCenterPoint [-2000000; 0; 1999999]%Z w3cm) (fdiv fone w3cm) = [-2000000; 0; 1999999]%Z /\
  fpointToNearestIndex true round_away (findexToCenterPoint [-2000000; 0; 1999999]%Z w3cm) (fdiv fone w3cm) = [-2000000; 0; 1999999]%Z.
Proof. split; (apply C75_center_roundtrip; [apply round_away_nearest|apply w3cm_usable|repeat constructor; vm_compute; discriminate]). Qed.
Example C75_node_ex : fpointToNodeIndex true round_away (fnodeIndexToCenterPoint (NodeIndex 7 [12345; -6789; 3]%Z) fone) fone 7 = NodeIndex 7 [12345; -6789; 3]%Z.
Proof.
  apply (C75_node_roundtrip true round_away fone (NodeIndex 7 [12345; -6789; 3]%Z)); [apply round_away_nearest|reflexivity| |cbn; lia|repeat constructor; vm_compute; discriminate].
  destruct fone_R as (E & _). rewrite E. change 1 with (bpow radix2 0). split; apply bpow_le; lia.
Qed.
Example C75_faces_ex : findexToMaxCorner [-1; 41]%Z w3cm = findexToMinCorner [0; 42]%Z w3cm.
Proof. apply (C75_faces_shared w3cm [-1; 41]%Z); [apply w3cm_usable|repeat constructor; vm_compute; reflexivity]. Qed.
Print Assumptions C75_center_roundtrip.
Print Assumptions C75_containing_cell.
Print Assumptions C75_interior_point.
Print Assumptions C75_floor_ceil.
Print Assumptions C75_node_width_exact.
Print Assumptions C75_node_roundtrip.
Print Assumptions C75_faces_shared.
Print Assumptions C75_center_between_corners.
Print Assumptions C75_far_roundtrip_refuted.
Print Assumptions C75_exact_cell_refuted.
Print Assumptions C75_heights_disagree_refuted.
