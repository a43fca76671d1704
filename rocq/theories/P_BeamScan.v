(** C84 for the ContinuousBeam model: what it means that a coarse-to-fine scan stops at a node and gives all cells in it the update of the
    node's centre. In exact arithmetic. *)
From Verif Require Import Base M_IntMath F_IntMath M_NdtreeIndex M_Num F_Num M_Haar3 M_Ndtree S_Field S_Integrate F_Hash M_Wavelet M_WavHist M_Chunked M_ChunkedHist
  M_VolOctree P_VolOctree P_Wavelet M_Integrator F_Integrator F_Integrator3 P_Integrator P_Integrator3 M_CoarseToFine P_CoarseToFine.
From Verif Require Import M_Point P_Point M_Image M_RangeBounds P_RangeBounds M_Measure F_Measure P_Measure M_Intersector P_Intersector P_Intersector2 P_Intersector3.
From Verif Require Import M_FixedRes P_FixedRes M_CameraScan P_CameraScan P_CameraScan2 M_ProjectorScan P_ProjectorScan.
From Coq Require Import QArith Qabs Qcanon Lqa.
Close Scope Qc_scope.
Close Scope Q_scope.
Open Scope Z_scope.

(** Squared distance of two points *)
Definition dist2 (p q : v3) : Q := ((vx p - vx q) * (vx p - vx q) + (vy p - vy q) * (vy p - vy q) + (vz p - vz q) * (vz p - vz q))%Q.

(** The centre of a cell is not farther from the centre of a node around it than the radius the integrators use. *)
Lemma radius_bound w i c rho : (0 < w)%Q -> 0 <= oh i <= 20 -> in_node i c = true -> (0 <= rho)%Q -> (rho * rho <= dist2 (middle w i) (middle w (cell c)))%Q ->
  (rho <= kUnitCubeHalfDiagonal * node_width w i)%Q.
Proof.
  intros Hw [H H20] I R0 R. rewrite width_eq by exact H. pose proof (side_pos w Hw i H) as SP. set (S := cube_side w i) in *.
  unfold in_node in I. rewrite !andb_true_iff, !Z.leb_le, !Z.ltb_lt in I. destruct I as (((((A1 & A2) & B1) & B2) & D1) & D2).
  assert (WS : (S <= w * inject_Z (2 ^ 20))%Q).
  { unfold S, cube_side. assert (L : (inject_Z (2 ^ oh i) <= inject_Z (2 ^ 20))%Q) by (rewrite <- Zle_Qle; apply Z.pow_le_mono_r; lia). nra. }
  change (inject_Z (2 ^ 20)) with 1048576%Q in WS.
  assert (K : forall p k, p * 2 ^ oh i <= k -> k < (p + 1) * 2 ^ oh i -> (- (S - w) <= 2 * ((inject_Z p + (1 # 2)) * S - (inject_Z k + (1 # 2)) * (w * inject_Z (2 ^ 0))) <= S - w)%Q).
  { intros p k L G. assert (L' : (inject_Z p * inject_Z (2 ^ oh i) <= inject_Z k)%Q) by (rewrite <- inject_Z_mult, <- Zle_Qle; exact L).
    assert (G' : (inject_Z k + 1 <= (inject_Z p + 1) * inject_Z (2 ^ oh i))%Q).
    { change 1%Q with (inject_Z 1). rewrite <- !inject_Z_plus, <- inject_Z_mult, <- Zle_Qle. lia. }
    change (inject_Z (2 ^ 0)) with 1%Q. unfold S, cube_side. set (n := inject_Z (2 ^ oh i)) in *. set (P := inject_Z p) in *. set (k' := inject_Z k) in *. clearbody n P k'.
    assert (L2 : (w * (P * n) <= w * k')%Q) by nra. assert (G2 : (w * (k' + 1) <= w * ((P + 1) * n))%Q) by nra. split; lra. }
  pose proof (K _ _ A1 A2) as X. pose proof (K _ _ B1 B2) as Y. pose proof (K _ _ D1 D2) as Z. clear K A1 A2 B1 B2 D1 D2.
  assert (WL : (w <= S)%Q).
  { unfold S, cube_side. assert (L : (inject_Z 1 <= inject_Z (2 ^ oh i))%Q) by (rewrite <- Zle_Qle; pose proof (Z.pow_pos_nonneg 2 (oh i)); lia). change (inject_Z 1) with 1%Q in L. nra. }
  unfold dist2, middle, cell in R. cbn [vx vy vz oh opos] in R. fold S in R. change (cube_side w (OI 0 c)) with (w * inject_Z (2 ^ 0))%Q in R.
  set (x := ((inject_Z (px (opos i)) + (1 # 2)) * S - (inject_Z (px c) + (1 # 2)) * (w * inject_Z (2 ^ 0)))%Q) in *.
  set (y := ((inject_Z (py (opos i)) + (1 # 2)) * S - (inject_Z (py c) + (1 # 2)) * (w * inject_Z (2 ^ 0)))%Q) in *.
  set (z := ((inject_Z (pz (opos i)) + (1 # 2)) * S - (inject_Z (pz c) + (1 # 2)) * (w * inject_Z (2 ^ 0)))%Q) in *.
  clearbody x y z S.
  assert (Sq : forall a, (- (S - w) <= 2 * a <= S - w)%Q -> (4 * (a * a) <= (S - w) * (S - w))%Q) by (intros a []; nra).
  pose proof (Sq x X). pose proof (Sq y Y). pose proof (Sq z Z). clear X Y Z Sq.
  destruct (Qlt_le_dec (kUnitCubeHalfDiagonal * S) rho) as [G|G]; [exfalso|exact G].
  set (r := (kUnitCubeHalfDiagonal * S)%Q) in *.
  assert (R1 : (0 <= r)%Q) by (assert (KP : (0 < kUnitCubeHalfDiagonal)%Q) by reflexivity; unfold r; nra).
  assert (M1 : (r * r < rho * rho)%Q) by nra.
  assert (M2 : (4 * (r * r) == (kSqrt3 * kSqrt3) * (S * S))%Q) by (unfold r, kUnitCubeHalfDiagonal; field).
  assert (M3 : (3 * ((1048575 # 1048576) * (1048575 # 1048576)) <= kSqrt3 * kSqrt3)%Q) by (apply Qle_bool_iff; vm_compute; reflexivity).
  assert (M4 : (0 <= S - w)%Q) by lra.
  assert (M5 : (S - w <= (1048575 # 1048576) * S)%Q) by lra.
  assert (M6 : ((S - w) * (S - w) <= (1048575 # 1048576) * S * ((1048575 # 1048576) * S))%Q) by nra.
  assert (M7 : (0 <= S * S)%Q) by nra.
  nra.
Qed.

(** If a scan accepts a free node, the probability it would use at any cell of the node differs from the one at the node's centre by less than
    the termination error. [e] and [e'] are the squared angles from the closest beam to the node's centre and to the cell's centre; the second
    lies [rho] or less away in space and hence, at the distance of the node, by [rho / distance] in angle. *)
Theorem C84_beam_accept : forall fsqrt flog rnd cfg error2 offsets prj wraps sens sbox im T min_range max_range tue w i c rho measured d' e e',
  (0 < angle_sigma cfg)%Q -> (0 < range_sigma cfg)%Q -> (0 < scaling_free cfg)%Q -> (0 < w)%Q -> 0 <= oh i <= 20 -> well_defined sens ->
  let W := projector_scan fsqrt flog rnd cfg (BeamModel error2 offsets) prj wraps sens sbox im T min_range max_range tue w in
  let d := snd (sens (to_sensor T (middle w i))) in
  o_type W i = kFullyFree \/ o_type W i = kFreeOrUnobserved -> o_accept W i = true -> in_node i c = true -> (0 < d)%Q ->
  (0 <= rho)%Q -> (rho * rho <= dist2 (middle w i) (middle w (cell c)))%Q -> (Qabs (fsqrt e - fsqrt e') <= rho / d)%Q ->
  (d < measured - 3 * range_sigma cfg)%Q -> (d' < measured - 3 * range_sigma cfg)%Q ->
  (Qabs (beam_p fsqrt cfg d e measured - beam_p fsqrt cfg d' e' measured) < tue)%Q.
Proof.
  intros fsqrt flog rnd cfg error2 offsets prj wraps sens sbox im T min_range max_range tue w i c rho measured d' e e' SA SR SF Hw Hh Wd W d Ty Ac In D R0 R E F F'.
  pose proof (radius_bound w i c rho Hw Hh In R0 R) as B.
  assert (Sn : same_sensor (sens (to_sensor T (node_center w i))) (sens (to_sensor T (middle w i)))).
  { apply Wd. apply to_sensor_same. apply p_middle; lia. }
  destruct Sn as [_ Sd]. fold d in Sd.
  assert (E' : (Qabs (fsqrt e - fsqrt e') <= (kUnitCubeHalfDiagonal * node_width w i) / d)%Q).
  { apply (Qle_trans _ (rho / d)); [exact E|]. apply Qle_shift_div_l; [exact D|].
    setoid_replace (rho / d * d)%Q with rho by (field; lra). exact B. }
  pose proof (C45_beam_error_free fsqrt cfg measured d d d' e e' _ SA SR SF F F' E') as L.
  apply (Qle_lt_trans _ _ _ L). clear L E E'.
  unfold W in Ac, Ty. cbn [o_accept o_type projector_scan] in Ac, Ty. unfold scan_accept in Ac. apply qltb_true in Ac.
  unfold mm_worst_error, scan_sensor in Ac.
  assert (Eq : (beam_worst_error cfg kFullyFree d (kUnitCubeHalfDiagonal * node_width w i) ==
    beam_worst_error cfg (scan_type cfg (BeamModel error2 offsets) prj wraps sbox im T min_range max_range w i)
      (snd (sens (to_sensor T (node_center w i)))) (kUnitCubeHalfDiagonal * node_width w i))%Q).
  { destruct Ty as [-> | ->]; unfold beam_worst_error; rewrite Sd; reflexivity. }
  rewrite Eq. exact Ac.
Qed.
(** A node of 8 cells of the beam model's example scan, accepted as free, and a cell in it *)
Example C84_ex_accept : let i := node_of ex_beam_cell 3 in
  o_type ex_beam_W i = kFullyFree /\ o_accept ex_beam_W i = true /\ in_node i ex_beam_cell = true /\ 0 <= oh i <= 20 /\
  (0 < snd (pinhole_sensor ex_camera (to_sensor at_zero (middle ex_w i))))%Q /\
  (0 < dist2 (middle ex_w i) (middle ex_w (cell ex_beam_cell)))%Q.
Proof. cbv zeta. repeat split; try (vm_compute; congruence). Qed.
Print Assumptions C84_beam_accept.
