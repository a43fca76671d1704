(** Property theorems C67: the hashed integrators look at every cell within the range of the sensor, and at no cell far beyond it. *)
From Verif Require Import M_Chunked M_ChunkedHist P_Chunked F_ChunkedMap.
From Verif Require Import Base M_IntMath F_IntMath M_NdtreeIndex M_Num M_Ndtree M_Grid P_Grid M_Point P_Point.
From Verif Require Import S_Field S_Integrate M_Wavelet M_WavHist F_Num P_Wavelet M_Integrator P_Integrator P_Integrator3 M_Fov.
From Coq Require Import QArith Qround Qabs Qcanon Lqa Permutation.
Close Scope Qc_scope.
Close Scope Q_scope.
Open Scope Z_scope.

(** ** Specification *)
(** Some point of the closed cell [c] has at most the distance [d] from (ox, oy, oz). *)
Definition cell_near (w d ox oy oz : Q) (c : idx3) : Prop := exists x y z,
  in_cell w (px c) x /\ in_cell w (py c) y /\ in_cell w (pz c) z /\ ((x - ox) * (x - ox) + (y - oy) * (y - oy) + (z - oz) * (z - oz) <= d * d)%Q.
(** Some coordinate of some point of [c] differs by [d] or more from that of (ox, oy, oz); then the point has at least this distance. *)
Definition cell_far (w d ox oy oz : Q) (c : idx3) : Prop := exists x y z,
  in_cell w (px c) x /\ in_cell w (py c) y /\ in_cell w (pz c) z /\ (d <= Qabs (x - ox) \/ d <= Qabs (y - oy) \/ d <= Qabs (z - oz))%Q.
(** The width of a block *)
Definition block_width (T : Z) (w : Q) : Q := (inject_Z (2 ^ T) * w)%Q.

(** ** One axis *)
Definition amin (T : Z) (w R o : Q) : Z := Qfloor ((o - R) * (1 / w) - (1 # 2)) - 2 ^ T.
Definition amax (T : Z) (w R o : Q) : Z := Qceiling ((o + R) * (1 / w) - (1 # 2)) + 2 ^ T.
Section AXIS.
  Context (T : Z) (w R : Q) (HT : 0 <= T) (Hw : (0 < w)%Q) (HR : (0 <= R)%Q).
  Notation H := (fov_height T w R).
  Lemma fov_height_ge : T + 1 <= H.
  Proof. unfold fov_height. lia. Qed.
  Lemma pow_split : 2 ^ H = 2 * Z.max (2 ^ ceil_log2 (R / w)) (2 ^ T).
  Proof using HT.
    unfold fov_height. pose proof (Z.log2_up_nonneg (Qceiling (R / w))) as L. fold (ceil_log2 (R / w)) in L.
    rewrite Z.pow_add_r by lia. change (2 ^ 1) with 2. f_equal.
    destruct (Z.le_ge_cases (ceil_log2 (R / w)) T) as [C|C].
    - rewrite !Z.max_r; [reflexivity|apply Z.pow_le_mono_r; lia|exact C].
    - rewrite !Z.max_l; [reflexivity|apply Z.pow_le_mono_r; lia|exact C].
  Qed.
  Lemma log2_ub x : (x <= inject_Z (2 ^ ceil_log2 x))%Q.
  Proof.
    eapply Qle_trans; [apply Qle_ceiling|]. rewrite <- Zle_Qle. unfold ceil_log2.
    destruct (Z_le_gt_dec (Qceiling x) 1) as [C|C].
    - rewrite Z.log2_up_eqn0 by exact C. cbn. lia.
    - apply Z.log2_up_spec. lia.
  Qed.
  Lemma log2_lb x : (inject_Z (2 ^ ceil_log2 x) <= 1 \/ inject_Z (2 ^ ceil_log2 x) < 2 * x)%Q.
  Proof.
    unfold ceil_log2. destruct (Z_le_gt_dec (Qceiling x) 1) as [C|C].
    - left. rewrite Z.log2_up_eqn0 by exact C. change (inject_Z (2 ^ 0)) with 1%Q. lra.
    - right. destruct (Z.log2_up_spec (Qceiling x) ltac:(lia)) as [L _]. pose proof (Z.log2_up_pos (Qceiling x) ltac:(lia)) as P.
      set (e := Z.log2_up (Qceiling x)) in *. assert (E : 2 ^ e = 2 * 2 ^ Z.pred e) by (rewrite <- Z.pow_succ_r by lia; f_equal; lia).
      rewrite E, inject_Z_mult. change (inject_Z 2) with 2%Q. assert (L' : 2 ^ Z.pred e <= Qceiling x - 1) by lia.
      rewrite Zle_Qle in L'. destruct (ceil_bounds x) as [B _]. unfold Zminus in L'. rewrite inject_Z_plus in L'. change (inject_Z (- (1))) with (- (1))%Q in L'. lra.
  Qed.
  Lemma pow_range : (2 * R <= inject_Z (2 ^ H) * w)%Q.
  Proof using HT Hw.
    pose proof (log2_ub (R / w)) as L. assert (E : (R == R / w * w)%Q) by (field; lra).
    assert (L2 : (inject_Z (2 ^ ceil_log2 (R / w)) <= inject_Z (Z.max (2 ^ ceil_log2 (R / w)) (2 ^ T)))%Q) by (rewrite <- Zle_Qle; lia).
    rewrite pow_split, inject_Z_mult. change (inject_Z 2) with 2%Q.
    set (m := inject_Z (Z.max _ _)) in *. assert (K : (R / w * w <= m * w)%Q) by (apply Qmult_le_compat_r; lra). lra.
  Qed.
  Lemma pow_block : 2 * 2 ^ T <= 2 ^ H.
  Proof using HT. rewrite pow_split. lia. Qed.
  Lemma pow_upper : (inject_Z (2 ^ H) * w <= 4 * R + 2 * block_width T w)%Q.
  Proof using HT Hw HR.
    assert (E : (R == R / w * w)%Q) by (field; lra). pose proof (log2_lb (R / w)) as L. rewrite pow_split, inject_Z_mult. change (inject_Z 2) with 2%Q.
    unfold block_width. assert (P1 : (1 <= inject_Z (2 ^ T))%Q) by (change 1%Q with (inject_Z 1); rewrite <- Zle_Qle; assert (0 < 2 ^ T) by (apply Z.pow_pos_nonneg; lia); lia).
    assert (P2 : (0 <= R / w)%Q) by (apply Qle_shift_div_l; lra).
    assert (M : (inject_Z (Z.max (2 ^ ceil_log2 (R / w)) (2 ^ T)) <= 2 * (R / w) + inject_Z (2 ^ T))%Q).
    { destruct (Z.max_spec (2 ^ ceil_log2 (R / w)) (2 ^ T)) as [[_ ->]|[_ ->]]; [lra|]. destruct L; lra. }
    set (m := inject_Z (Z.max _ _)) in *. assert (K : (m * w <= (2 * (R / w) + inject_Z (2 ^ T)) * w)%Q) by (apply Qmult_le_compat_r; lra). lra.
  Qed.
  (** A cell of which a point is within the range plus one block *)
  Lemma axis_in o c x : in_cell w c x -> (Qabs (x - o) <= R + block_width T w)%Q -> amin T w R o <= c <= amax T w R o.
  Proof using Hw.
    intros [C1 C2] D. apply Qabs_Qle_condition in D as [D1 D2]. unfold amin, amax, block_width in *.
    assert (E : forall u, (u * (1 / w) * w == u)%Q) by (intros; field; lra).
    set (B := inject_Z (2 ^ T)) in *. split.
    - destruct (floor_bounds ((o - R) * (1 / w) - (1 # 2))) as [F1 F2]. specialize (E (o - R)%Q). set (y := ((o - R) * (1 / w))%Q) in *.
      assert (K : (y - 1 <= inject_Z (c + 2 ^ T))%Q).
      { rewrite inject_Z_plus. fold B. destruct (Qlt_le_dec (inject_Z c + B) (y - 1)) as [L|L]; [|exact L]. exfalso.
        assert ((inject_Z c + B) * w < (y - 1) * w)%Q by (apply Qmult_lt_compat_r; lra). lra. }
      assert (G : (inject_Z (Qfloor (y - (1 # 2))) < inject_Z (c + 2 ^ T + 1))%Q) by (rewrite (inject_Z_plus (c + 2 ^ T)); change (inject_Z 1) with 1%Q; lra).
      rewrite <- Zlt_Qlt in G. lia.
    - destruct (ceil_bounds ((o + R) * (1 / w) - (1 # 2))) as [F1 F2]. specialize (E (o + R)%Q). set (y := ((o + R) * (1 / w))%Q) in *.
      assert (K : (inject_Z (c - 2 ^ T) <= y)%Q).
      { unfold Zminus. rewrite inject_Z_plus, inject_Z_opp. fold B. destruct (Qlt_le_dec y (inject_Z c + - B)) as [L|L]; [|exact L]. exfalso.
        assert (y * w < (inject_Z c + - B) * w)%Q by (apply Qmult_lt_compat_r; lra). lra. }
      assert (G : (inject_Z (c - 2 ^ T - 1) < inject_Z (Qceiling (y - (1 # 2))))%Q) by (unfold Zminus at 1; rewrite inject_Z_plus; change (inject_Z (- (1))) with (- (1))%Q; lra).
      rewrite <- Zlt_Qlt in G. lia.
  Qed.
  Lemma axis_node o c : amin T w R o <= c <= amax T w R o -> amin T w R o / 2 ^ H <= c / 2 ^ H <= amax T w R o / 2 ^ H.
  Proof using HT. intros [A B]. assert (0 < 2 ^ H) by (apply Z.pow_pos_nonneg; pose proof fov_height_ge; lia). split; apply Z.div_le_mono; assumption. Qed.
  Lemma axis_order o : amin T w R o <= amax T w R o.
  Proof using HT Hw HR.
    unfold amin, amax. assert (0 < 2 ^ T) by (apply Z.pow_pos_nonneg; lia).
    assert (Qfloor ((o - R) * (1 / w) - (1 # 2))%Q <= Qceiling ((o + R) * (1 / w) - (1 # 2))%Q); [|lia].
    apply Z.le_trans with (Qfloor ((o + R) * (1 / w) - (1 # 2))%Q).
    - apply Qfloor_resp_le. assert (0 < 1 / w)%Q by (apply Qlt_shift_div_l; lra). set (k := (1 / w)%Q) in *.
      assert ((o - R) * k <= (o + R) * k)%Q by (apply Qmult_le_compat_r; lra). lra.
    - rewrite Zle_Qle. eapply Qle_trans; [apply Qfloor_le|apply Qle_ceiling].
  Qed.
  (** At most four nodes side by side *)
  Lemma axis_few o : amax T w R o / 2 ^ H - amin T w R o / 2 ^ H <= 3.
  Proof using HT Hw HR.
    assert (P : 2 <= 2 ^ H). { pose proof pow_block. assert (0 < 2 ^ T) by (apply Z.pow_pos_nonneg; lia). lia. }
    assert (D : amax T w R o - amin T w R o <= 2 * 2 ^ H + 1).
    { destruct (floor_bounds ((o - R) * (1 / w) - (1 # 2))) as [_ F]. destruct (ceil_bounds ((o + R) * (1 / w) - (1 # 2))) as [C _].
      unfold amin, amax. set (f := Qfloor _) in *. set (c := Qceiling _) in *. pose proof pow_block as PB. pose proof pow_range as PR.
      assert (E : ((o + R) * (1 / w) - (o - R) * (1 / w) == 2 * R * (1 / w))%Q) by ring.
      assert (L : (2 * R * (1 / w) <= inject_Z (2 ^ H))%Q).
      { assert (E2 : (2 * R * (1 / w) == 2 * R / w)%Q) by (field; lra). rewrite E2. apply Qle_shift_div_r; lra. }
      assert (G : (inject_Z (c - f) < inject_Z (2 ^ H + 2))%Q).
      { unfold Zminus. rewrite !inject_Z_plus, inject_Z_opp. change (inject_Z 2) with 2%Q.
        set (u := ((o + R) * (1 / w))%Q) in *. set (v := ((o - R) * (1 / w))%Q) in *. lra. }
      rewrite <- Zlt_Qlt in G. lia. }
    set (m := 2 ^ H) in *. pose proof (Z.div_mod (amax T w R o) m ltac:(lia)). pose proof (Z.div_mod (amin T w R o) m ltac:(lia)).
    pose proof (Z.mod_pos_bound (amax T w R o) m ltac:(lia)). pose proof (Z.mod_pos_bound (amin T w R o) m ltac:(lia)).
    set (q1 := amax T w R o / m) in *. set (q2 := amin T w R o / m) in *. clearbody m q1 q2. nia.
  Qed.
  (** The cells of these nodes are not far away *)
  Lemma axis_local o c x : in_cell w c x -> amin T w R o / 2 ^ H <= c / 2 ^ H <= amax T w R o / 2 ^ H -> (Qabs (x - o) < 5 * R + 3 * block_width T w + w)%Q.
  Proof using HT Hw HR.
    intros [C1 C2] [A B]. pose proof pow_upper as U. assert (P : 0 < 2 ^ H) by (apply Z.pow_pos_nonneg; pose proof fov_height_ge; lia).
    set (m := 2 ^ H) in *. pose proof (Z.div_mod (amax T w R o) m ltac:(lia)). pose proof (Z.div_mod (amin T w R o) m ltac:(lia)). pose proof (Z.div_mod c m ltac:(lia)).
    pose proof (Z.mod_pos_bound (amax T w R o) m ltac:(lia)). pose proof (Z.mod_pos_bound (amin T w R o) m ltac:(lia)). pose proof (Z.mod_pos_bound c m ltac:(lia)).
    assert (L1 : amin T w R o - m + 1 <= c) by nia. assert (L2 : c <= amax T w R o + m - 1) by nia.
    unfold amin, amax in L1, L2. destruct (floor_bounds ((o - R) * (1 / w) - (1 # 2))) as [_ F]. destruct (ceil_bounds ((o + R) * (1 / w) - (1 # 2))) as [C _].
    set (f := Qfloor _) in *. set (g := Qceiling _) in *.
    assert (E1 : ((o - R) * (1 / w) * w == o - R)%Q) by (field; lra). assert (E2 : ((o + R) * (1 / w) * w == o + R)%Q) by (field; lra).
    set (u := ((o + R) * (1 / w))%Q) in *. set (v := ((o - R) * (1 / w))%Q) in *.
    rewrite Zle_Qle in L1, L2. unfold Zminus in L1, L2. rewrite !inject_Z_plus in L1, L2. rewrite !inject_Z_opp in L1. change (inject_Z 1) with 1%Q in L1, L2. change (inject_Z (- (1))) with (- (1))%Q in L2.
    unfold block_width in *. set (b := inject_Z (2 ^ T)) in *. set (M := inject_Z m) in *. set (ic := inject_Z c) in *. set (i_f := inject_Z f) in *. set (ig := inject_Z g) in *.
    assert (K1 : ((v - (3 # 2) - b - M + 1) * w <= ic * w)%Q) by (apply Qmult_le_compat_r; lra).
    assert (K2 : (ic * w <= (u + (1 # 2) + b + M - 1) * w)%Q) by (apply Qmult_le_compat_r; lra).
    apply Qabs_Qlt_condition. split; lra.
  Qed.
End AXIS.

(** ** The field of view *)
Definition fov_of (T : Z) (w R ox oy oz : Q) (l : list oidx) : Prop := forall fuel, (64 <= fuel)%nat -> fov_list fuel T w R [ox; oy; oz] = Some l.
Lemma grid_visit_mono n fuel mn mx r : (n <= fuel)%nat -> grid_visit n mn mx = Some r -> grid_visit fuel mn mx = Some r.
Proof.
  unfold grid_visit. generalize mn at 2 4. revert fuel r. induction n as [|n IH]; intros fuel r cur Hf; cbn [grid_loop].
  - destruct (list_eqb cur (grid_end mn mx)) eqn:E; [|discriminate]. intros X. destruct fuel; cbn [grid_loop]; rewrite E; exact X.
  - destruct fuel as [|fuel]; [lia|]. cbn [grid_loop]. destruct (list_eqb _ _); [auto|]. destruct (grid_loop n mn mx _) eqn:E; [|discriminate]. intros X. rewrite (IH fuel _ _ ltac:(lia) E). exact X.
Qed.
Lemma fov_spec T w R ox oy oz : 0 <= T -> (0 < w)%Q -> (0 <= R)%Q -> let H := fov_height T w R in
  exists l, fov_of T w R ox oy oz l /\ NoDup l /\ (length l <= 64)%nat /\
    forall i, In i l <-> oh i = H /\ amin T w R ox / 2 ^ H <= px (opos i) <= amax T w R ox / 2 ^ H /\
      amin T w R oy / 2 ^ H <= py (opos i) <= amax T w R oy / 2 ^ H /\ amin T w R oz / 2 ^ H <= pz (opos i) <= amax T w R oz / 2 ^ H.
Proof.
  intros HT Hw HR H. set (mn := fun o => amin T w R o / 2 ^ H). set (mx := fun o => amax T w R o / 2 ^ H).
  assert (HH : T + 1 <= H) by apply fov_height_ge.
  assert (Emn : position (fov_min_idx T w R [ox; oy; oz]) = [mn ox; mn oy; mn oz]).
  { unfold fov_min_idx, indexAndHeightToNodeIndex, pointToFloorIndex, scaledPointToFloorIndex, scale_point, mn, amin. cbn [map position].
    rewrite !div_exp2_floor_spec, exp2_pow by lia. reflexivity. }
  assert (Emx : position (fov_max_idx T w R [ox; oy; oz]) = [mx ox; mx oy; mx oz]).
  { unfold fov_max_idx, indexAndHeightToNodeIndex, pointToCeilIndex, scaledPointToCeilIndex, scale_point, mx, amax. cbn [map position].
    rewrite !div_exp2_floor_spec, exp2_pow by lia. reflexivity. }
  assert (Dn : forall o, mn o = amin T w R o / 2 ^ H) by (intros; reflexivity). assert (Dx : forall o, mx o = amax T w R o / 2 ^ H) by (intros; reflexivity). clearbody mn mx.
  assert (O : forall o, mn o <= mx o). { intros o. rewrite Dn, Dx. pose proof (axis_order T w R HT Hw HR o) as AO. apply Z.div_le_mono; [apply Z.pow_pos_nonneg; lia|exact AO]. }
  assert (F : forall o, mx o - mn o <= 3) by (intros o; rewrite Dn, Dx; exact (axis_few T w R HT Hw HR o)).
  assert (NE : nonempty_box [mn ox; mn oy; mn oz] [mx ox; mx oy; mx oz]) by (cbn; auto).
  assert (NC : 0 <= num_cells [mn ox; mn oy; mn oz] [mx ox; mx oy; mx oz] <= 64).
  { cbn [num_cells]. pose proof (O ox). pose proof (O oy). pose proof (O oz). pose proof (F ox). pose proof (F oy). pose proof (F oz).
    set (a := mx ox - mn ox + 1) in *. set (b := mx oy - mn oy + 1) in *. set (c := mx oz - mn oz + 1) in *.
    assert (1 <= a <= 4 /\ 1 <= b <= 4 /\ 1 <= c <= 4) as ((A1 & A2) & (B1 & B2) & (C1 & C2)) by lia. clearbody a b c. rewrite Z.mul_1_r.
    assert (1 <= b * c <= 16) by nia. nia. }
  destruct (C32_grid_visits_box [mn ox; mn oy; mn oz] [mx ox; mx oy; mx oz] 64%nat ltac:(discriminate) NE ltac:(lia)) as (l & V & I & ND & _ & L).
  assert (TR : forall i, In i l -> exists a b c, i = [a; b; c]).
  { intros i Hi. apply I in Hi. destruct i as [|a [|b [|c [|d i]]]]; cbn in Hi; try tauto. exists a, b, c. reflexivity. }
  exists (map (fun p => OI H (I3 (nth 0 p 0) (nth 1 p 0) (nth 2 p 0))) l). split; [|split; [|split]].
  - intros fuel Hf. unfold fov_list. rewrite Emn, Emx. change (height (fov_min_idx T w R [ox; oy; oz])) with H.
    rewrite (grid_visit_mono 64%nat fuel _ _ _ Hf V). reflexivity.
  - clear V L. induction l as [|p l IH]; [constructor|]. inversion ND as [|? ? N1 N2]; subst. cbn [map]. constructor.
    + intros Hi. apply in_map_iff in Hi as (q & E & Hq). apply N1. destruct (TR p ltac:(left; reflexivity)) as (a & b & c & ->).
      destruct (TR q ltac:(right; exact Hq)) as (a' & b' & c' & ->). cbn [nth] in E. injection E as -> -> ->. exact Hq.
    + assert (G : forall P : list Z -> Prop, NoDup l -> True) by auto. clear IH G. assert (TR' : forall i, In i l -> exists a b c, i = [a; b; c]) by (intros i Hi; apply TR; right; exact Hi). clear TR I ND N1.
      induction l as [|q l IH]; [constructor|]. inversion N2 as [|? ? M1 M2]; subst. cbn [map]. constructor; [|apply IH; [exact M2|intros i Hi; apply TR'; right; exact Hi]].
      intros Hi. apply in_map_iff in Hi as (q' & E & Hq). apply M1. destruct (TR' q ltac:(left; reflexivity)) as (a & b & c & ->).
      destruct (TR' q' ltac:(right; exact Hq)) as (a' & b' & c' & ->). cbn [nth] in E. injection E as -> -> ->. exact Hq.
  - rewrite map_length. lia.
  - intros i. rewrite in_map_iff. split.
    + intros (p & <- & Hp). apply I in Hp. destruct p as [|a [|b [|c [|d p]]]]; cbn in Hp; try tauto. cbn [nth oh opos px py pz]. rewrite <- !Dn, <- !Dx. tauto.
    + intros (E & X & Y & Z). exists [px (opos i); py (opos i); pz (opos i)]. split.
      * cbn [nth]. destruct i as [h [a b c]]. cbn [oh opos px py pz] in *. rewrite E. reflexivity.
      * apply I. cbn. rewrite !Dn, !Dx. tauto.
Qed.
Lemma sq_axis a d r : (0 <= d)%Q -> (0 <= r)%Q -> (a * a + r <= d * d)%Q -> (Qabs a <= d)%Q.
Proof.
  intros Hd Hr L. apply Qabs_Qle_condition. split.
  - destruct (Qlt_le_dec a (- d)) as [C|C]; [|exact C]. exfalso. nra.
  - destruct (Qlt_le_dec d a) as [C|C]; [|exact C]. exfalso. nra.
Qed.
Lemma qsq a : (0 <= a * a)%Q. Proof. nra. Qed.

(** C67. The loop ends and looks at no more than 64 nodes, each once, all of the same height above the blocks; together they contain every cell
    of which some point is within max_range plus the width of a block of the sensor, and no cell of which some point is further than
    5 max_range + 3 block widths + 1 cell away on some axis. *)
Theorem C67_fov : forall T w R ox oy oz, 0 <= T -> (0 < w)%Q -> (0 <= R)%Q ->
  exists l H, fov_of T w R ox oy oz l /\ NoDup l /\ (length l <= 64)%nat /\ T < H /\ (forall i, In i l -> oh i = H) /\
    (forall c, cell_near w (R + block_width T w) ox oy oz c -> In (node_of c H) l) /\
    (forall c, cell_far w (5 * R + 3 * block_width T w + w) ox oy oz c -> ~ In (node_of c H) l).
Proof.
  intros T w R ox oy oz HT Hw HR. destruct (fov_spec T w R ox oy oz HT Hw HR) as (l & V & ND & L & I). cbv zeta in I.
  exists l, (fov_height T w R). split; [exact V|]. split; [exact ND|]. split; [exact L|]. split; [pose proof (fov_height_ge T w R); lia|].
  split; [intros i Hi; apply I in Hi; tauto|]. split.
  - intros c (x & y & z & Cx & Cy & Cz & D).
    assert (B : (0 <= R + block_width T w)%Q).
    { unfold block_width. assert (0 <= inject_Z (2 ^ T))%Q by (change 0%Q with (inject_Z 0); rewrite <- Zle_Qle; apply Z.pow_nonneg; lia). assert (0 <= inject_Z (2 ^ T) * w)%Q by (apply Qmult_le_0_compat; lra). lra. }
    pose proof (qsq (x - ox)). pose proof (qsq (y - oy)). pose proof (qsq (z - oz)).
    assert (Dx : (Qabs (x - ox) <= R + block_width T w)%Q) by (apply sq_axis with (r := ((y - oy) * (y - oy) + (z - oz) * (z - oz))%Q); lra).
    assert (Dy : (Qabs (y - oy) <= R + block_width T w)%Q) by (apply sq_axis with (r := ((x - ox) * (x - ox) + (z - oz) * (z - oz))%Q); lra).
    assert (Dz : (Qabs (z - oz) <= R + block_width T w)%Q) by (apply sq_axis with (r := ((x - ox) * (x - ox) + (y - oy) * (y - oy))%Q); lra).
    apply I. cbn [node_of oh opos px py pz]. split; [reflexivity|].
    split; [|split]; apply axis_node; try assumption; eapply axis_in; eassumption.
  - intros c (x & y & z & Cx & Cy & Cz & D) Hi. apply I in Hi as (_ & X & Y & Z). cbn [node_of oh opos px py pz] in X, Y, Z.
    pose proof (axis_local T w R HT Hw HR ox _ x Cx X). pose proof (axis_local T w R HT Hw HR oy _ y Cy Y). pose proof (axis_local T w R HT Hw HR oz _ z Cz Z).
    destruct D as [D|[D|D]]; lra.
Qed.

(** With this field of view, an integrated scan has the effect of C41 on every cell near the sensor, whatever the map contains: unless the scan calls
    some node around the cell, of the block's height or above, unobserved, or its block is saturated free space already, the cell is updated as the
    node at which the refinement stops says. No cell far away changes. *)
Theorem C67_hashed_scan : forall C m K W now w R ox oy oz sched l m' k,
  valid_config C -> hw_state C m -> 0 <= i_th K -> (0 < w)%Q -> (0 <= R)%Q -> fov_of (cT C) w R ox oy oz l -> (forall i, In i l -> oh i = cT C + Z.of_nat k) ->
  hw_updateMap qn K W (cT C) now k l sched m = Some m' ->
  (forall c, cell_near w (R + block_width (cT C) w) ox oy oz c -> (forall h, cT C <= h -> o_type W (node_of c h) <> kFullyUnobserved) ->
     o_type W (node_of c (cT C)) = kPossiblyOccupied \/ (hasBlock m (hw_blockIndex C (node_of c (cT C))) = true /\ (i_slo K <= node_mean (hw_get qn C m) (node_of c (cT C)))%Qc) ->
     exists i applies, scan_stops C m K W (cT C - 1) c i applies /\
       hw_get qn C m' c = if applies then scan_applied C m K W i c else hw_get qn C m c) /\
  (forall c, cell_far w (5 * R + 3 * block_width (cT C) w + w) ox oy oz c -> hw_get qn C m' c = hw_get qn C m c).
Proof.
  intros C m K W now w R ox oy oz sched l m' k HC Hm Hth Hw HR Hl Hk E. pose proof HC as [HT _].
  destruct (C67_fov (cT C) w R ox oy oz ltac:(lia) Hw HR) as (l' & H & V & ND & L & HH & OH & N & F).
  assert (El : l' = l) by (specialize (V 64%nat (le_n _)); rewrite (Hl 64%nat (le_n _)) in V; congruence). subst l'.
  assert (X : forall c, In (node_of c H) l -> H = cT C + Z.of_nat k) by (intros c Hi; apply Hk in Hi; exact Hi).
  assert (X' : forall c, In (node_of c (cT C + Z.of_nat k)) l -> H = cT C + Z.of_nat k) by (intros c Hi; apply OH in Hi; symmetry; exact Hi).
  assert (FO : fov_ok C k l) by exact Hk.
  split; intros c Hc.
  - intros Hu Ho. specialize (N c Hc). pose proof (X c N) as EH.
    destruct (C41_scan_effect C m K W now k l sched m' c HC Hm Hth FO E) as [U _]. apply U.
    split; [rewrite <- EH; exact N|]. split; [intros h Hh; apply Hu; lia|exact Ho].
  - specialize (F c Hc). destruct (C41_scan_effect C m K W now k l sched m' c HC Hm Hth FO E) as [_ U]. apply U.
    intros (Hi & _). apply F. rewrite (X' c Hi). exact Hi.
Qed.
Theorem C67_chunked_scan : forall fuel C m K W now w R ox oy oz order l k,
  valid_config C -> 2 <= cT C -> (Z.to_nat (cT C) <= fuel)%nat -> hc_state fuel C m -> 0 <= i_th K -> (i_plo K <= i_phi K)%Qc ->
  (0 < w)%Q -> (0 <= R)%Q -> fov_of (cT C) w R ox oy oz l -> (forall i, In i l -> oh i = cT C + Z.of_nat k) ->
  Permutation order (hc_blocks qn K W m k l) ->
  let m' := hc_updateMap qn K W (cT C) now order (hc_blocks qn K W m k l) m in
  (forall c, cell_near w (R + block_width (cT C) w) ox oy oz c -> (forall h, cT C <= h -> o_type W (node_of c h) <> kFullyUnobserved) ->
     o_type W (node_of c (cT C)) = kPossiblyOccupied \/ (hasBlock m (hw_blockIndex C (node_of c (cT C))) = true /\ (i_slo K <= node_mean (hc_get qn C m) (node_of c (cT C)))%Qc) ->
     exists i b, c_stops C m K W (cT C - 1) c i b /\ hc_get qn C m' c = c_applied C m K W b i c) /\
  (forall c, cell_far w (5 * R + 3 * block_width (cT C) w + w) ox oy oz c -> hc_get qn C m' c = hc_get qn C m c).
Proof.
  intros fuel C m K W now w R ox oy oz order l k HC HT2 Hfuel Hm Hth Hcl Hw HR Hl Hk HP m'. pose proof HC as [HT _].
  destruct (C67_fov (cT C) w R ox oy oz ltac:(lia) Hw HR) as (l' & H & V & ND & L & HH & OH & N & F).
  assert (El : l' = l) by (specialize (V 64%nat (le_n _)); rewrite (Hl 64%nat (le_n _)) in V; congruence). subst l'.
  assert (X : forall c, In (node_of c H) l -> H = cT C + Z.of_nat k) by (intros c Hi; apply Hk in Hi; exact Hi).
  assert (X' : forall c, In (node_of c (cT C + Z.of_nat k)) l -> H = cT C + Z.of_nat k) by (intros c Hi; apply OH in Hi; symmetry; exact Hi).
  assert (FO : fov_ok C k l) by exact Hk.
  split; intros c Hc.
  - intros Hu Ho. specialize (N c Hc). pose proof (X c N) as EH.
    destruct (C41_chunked_effect fuel C m K W now k l order c HC HT2 Hfuel Hm Hth Hcl ND FO HP) as [U _]. apply U.
    split; [rewrite <- EH; exact N|]. split; [intros h Hh; apply Hu; lia|exact Ho].
  - specialize (F c Hc). destruct (C41_chunked_effect fuel C m K W now k l order c HC HT2 Hfuel Hm Hth Hcl ND FO HP) as [_ U]. apply U.
    intros (Hi & _). apply F. rewrite (X' c Hi). exact Hi.
Qed.

(** ** Non-vacuity *)
(** Cells of 1/10 m, blocks of 8^3 cells, a sensor at (1, -2, 1/2) with a range of 10 m: 128 cells, so nodes of height 8. The cell at the end of the
    range along x is covered, one 60 m away is far; the loop visits eight nodes. *)
Example C67_ex : exists l, fov_of 3 (1 # 10) 10 1 (- (2)) (1 # 2) l /\ length l = 8%nat /\ (forall i, In i l -> oh i = 3 + Z.of_nat 5) /\
  cell_near (1 # 10) (10 + block_width 3 (1 # 10)) 1 (- (2)) (1 # 2) (I3 117 (-20) 5) /\ In (node_of (I3 117 (-20) 5) 8) l /\
  cell_far (1 # 10) (5 * 10 + 3 * block_width 3 (1 # 10) + (1 # 10)) 1 (- (2)) (1 # 2) (I3 600 0 0).
Proof.
  destruct (C67_fov 3 (1 # 10) 10 1 (- (2)) (1 # 2) ltac:(lia) ltac:(reflexivity) ltac:(discriminate)) as (l & H & V & _ & _ & _ & OH & N & _).
  assert (E : fov_list 64 3 (1 # 10) 10 [1%Q; (- (2))%Q; (1 # 2)%Q] = Some l) by (apply V; apply le_n). vm_compute in E. injection E as E.
  assert (C : cell_near (1 # 10) (10 + block_width 3 (1 # 10)) 1 (- (2)) (1 # 2) (I3 117 (-20) 5)).
  { exists (117 # 10)%Q, (- (2))%Q, (1 # 2)%Q. unfold in_cell. repeat split; vm_compute; discriminate. }
  exists l. split; [exact V|]. split; [rewrite <- E; reflexivity|]. split; [rewrite <- E; intros i Hi; cbn [In] in Hi; decompose [or] Hi; try (subst i; reflexivity); contradiction|].
  split; [exact C|]. split.
  - specialize (N _ C). pose proof (OH _ N) as EH. cbn [node_of oh] in EH. assert (H = 8) as <-; [|exact N].
    rewrite <- E in N. cbn [In] in N. unfold node_of in N. decompose [or] N; try contradiction; match goal with X : OI _ _ = OI _ _ |- _ => injection X end; intros; subst; reflexivity.
  - exists 60%Q, 0%Q, 0%Q. unfold in_cell. split; [split; vm_compute; discriminate|]. split; [split; vm_compute; discriminate|]. split; [split; vm_compute; discriminate|].
    left. vm_compute. discriminate.
Qed.
(** The scan of C41_ex (tree height 3, some blocks exist) with cells of 1 m, a range of 2 m and the sensor at (3/2, 3/2, 3/2): the hypotheses of
    C67_hashed_scan hold, and the cell at the surface is updated. *)
Example C67_ex_scan : exists l m', valid_config exC /\ hw_state exC exm /\ fov_of 3 1 2 (3 # 2) (3 # 2) (3 # 2) l /\ (forall i, In i l -> oh i = cT exC + Z.of_nat 1) /\
  hw_updateMap qn exK exW (cT exC) 9 1 l exsched exm = Some m' /\ hw_get qn exC m' (I3 1 1 1) <> hw_get qn exC exm (I3 1 1 1) /\
  cell_near 1 (2 + block_width (cT exC) 1) (3 # 2) (3 # 2) (3 # 2) (I3 1 1 1).
Proof.
  destruct (C67_fov 3 1 2 (3 # 2) (3 # 2) (3 # 2) ltac:(lia) ltac:(reflexivity) ltac:(discriminate)) as (l & H & V & _).
  assert (E : fov_list 64 3 1 2 [(3 # 2)%Q; (3 # 2)%Q; (3 # 2)%Q] = Some l) by (apply V; apply le_n). vm_compute in E. injection E as E.
  eexists l, _. split; [exact exC_valid|]. split; [exact exm_state|]. split; [exact V|].
  split; [rewrite <- E; intros i Hi; cbn [In] in Hi; decompose [or] Hi; try (subst i; reflexivity); contradiction|].
  split; [rewrite <- E; vm_compute; reflexivity|]. split; [vm_compute; intros X; discriminate X|].
  exists (3 # 2)%Q, (3 # 2)%Q, (3 # 2)%Q. unfold in_cell. repeat split; vm_compute; discriminate.
Qed.
Print Assumptions C67_fov.
Print Assumptions C67_hashed_scan.
Print Assumptions C67_chunked_scan.
