(** C72: The batch queries of the Python API return, row by row, what the single queries return.

    A batch shares one query accelerator, so each row is answered with what the accelerator cached during the rows
    before it (and, when interpolating, during the other corners of the cell). *)
From Verif Require Import Base M_IntMath M_NdtreeIndex M_Num M_Haar3 M_Ndtree M_Wavelet M_WavHist M_Chunked M_ChunkedHist M_Accel
  M_Point M_Interpolate M_Python S_Field F_IntMath F_Hash F_Accel P_Point P_Interpolate P_Wavelet P_Chunked P_Accel.
From Coq Require Import QArith Qcanon Qround Qabs Lqa.
Close Scope Qc_scope.
Close Scope Q_scope.
Open Scope Z_scope.

(** Specification vocabulary: the arrays hold 32 bit integers; node indices are those of existing heights whose cells have
    32 bit coordinates; the positions are at most 2^31 - 2 cells away from the origin along each axis. *)
Definition int32 (x : Z) : Prop := - 2 ^ 31 <= x < 2 ^ 31.
Definition cell_row (r : Z * Z * Z) : Prop := let '(x, y, z) := r in int32 x /\ int32 y /\ int32 z.
Definition node_row (T : Z) (r : Z * Z * Z * Z) : Prop :=
  let '(h, x, y, z) := r in 0 <= h <= T /\ int32 (x * 2 ^ h) /\ int32 (y * 2 ^ h) /\ int32 (z * 2 ^ h).
Definition near_origin (w x : Q) : Prop := (Qabs x <= inject_Z (2 ^ 31 - 2) * w)%Q.
Definition position_row (w : Q) (r : Q * Q * Q) : Prop := let '(x, y, z) := r in near_origin w x /\ near_origin w y /\ near_origin w z.

(** *** Proofs *)
Section LOOP.
Context {S : Type} (Inv : S -> Prop).
Lemma query_loop_spec {R X} (f : S -> R -> option (S * X)) (g : R -> X) (ok : R -> Prop) :
  (forall s r, Inv s -> ok r -> exists s', f s r = Some (s', g r) /\ Inv s') ->
  forall rows s, Inv s -> Forall ok rows -> query_loop f s rows = Some (map g rows).
Proof.
  intros H. induction rows as [|r rows IH]; intros s Hs Hr; [reflexivity|]. inversion Hr; subst. cbn [query_loop map].
  destruct (H s r Hs ltac:(assumption)) as (s' & -> & Hs'). rewrite (IH s' Hs') by assumption. reflexivity.
Qed.
Context (T : Z) (HT : 1 <= T).
Section V.
Context {V : Type} (get : S -> oidx -> option (S * V)) (dir : oidx -> V).
Context (Hget : forall s i, Inv s -> node_query T i -> exists s', get s i = Some (s', dir i) /\ Inv s').
Lemma cell_query_ok x y z : int32 x -> int32 y -> int32 z -> node_query T (OI 0 (I3 x y z)).
Proof.
  intros Hx Hy Hz. split; [cbn; lia|]. cbn [oh opos ilist px py pz]. unfold int32 in *. rewrite Z.pow_0_r.
  do 3 (constructor; [rewrite Z.mul_1_r; assumption|]). constructor.
Qed.
Lemma get_cell_spec s r : Inv s -> cell_row r ->
  exists s', get_cell get s r = Some (s', (let '(x, y, z) := r in dir (OI 0 (I3 x y z)))) /\ Inv s'.
Proof. destruct r as [[x y] z]. intros Hs (Hx & Hy & Hz). unfold get_cell. apply Hget; [exact Hs|apply cell_query_ok; assumption]. Qed.
Lemma cells_loop_spec s rows : Inv s -> Forall cell_row rows ->
  cells_loop get s rows = Some (map (fun r => let '(x, y, z) := r in dir (OI 0 (I3 x y z))) rows).
Proof. intros Hs Hr. apply (query_loop_spec _ _ cell_row get_cell_spec); assumption. Qed.
Lemma nodes_loop_spec s rows : Inv s -> Forall (node_row T) rows ->
  nodes_loop get s rows = Some (map (fun r => let '(h, x, y, z) := r in dir (OI h (I3 x y z))) rows).
Proof.
  intros Hs Hr. apply (query_loop_spec _ _ (node_row T)); [|assumption..]. clear s rows Hs Hr.
  intros s [[[h x] y] z] Hs (Hh & Hx & Hy & Hz). apply Hget; [exact Hs|]. split; [cbn; lia|].
  cbn [oh opos ilist px py pz]. repeat (constructor; [assumption|]). constructor.
Qed.
End V.
Section Q.
Context (get : S -> oidx -> option (S * Qc)) (dir : oidx -> Qc) (rnd : Q -> Z) (w : Q) (Hrnd : nearest rnd) (Hw : (0 < w)%Q).
Context (Hget : forall s i, Inv s -> node_query T i -> exists s', get s i = Some (s', dir i) /\ Inv s').
Definition dirl (i : list Z) : Q := this (dir (OI 0 (I3 (nth 0 i 0) (nth 1 i 0) (nth 2 i 0)))).
Lemma gather_spec l : forall s, Inv s -> Forall (fun i => cell_row (lrow i)) l ->
  exists s', gather get s l = Some (s', map dirl l) /\ Inv s'.
Proof.
  induction l as [|i l IH]; intros s Hs Hl; cbn [gather map]; [eauto|]. inversion Hl as [|? ? H1 H2]; subst.
  destruct (get_cell_spec get dir Hget s (lrow i) Hs H1) as (s1 & -> & Hs1). destruct (IH s1 Hs1 H2) as (s2 & -> & Hs2).
  eauto.
Qed.
Lemma scaled x : near_origin w x -> (- inject_Z (2 ^ 31 - 2) <= x * (1 / w) <= inject_Z (2 ^ 31 - 2))%Q.
Proof.
  unfold near_origin. intros H. apply Qabs_Qle_condition in H. destruct H as [H1 H2].
  assert (E : (x * (1 / w) * w == x)%Q) by (field; lra).
  split; apply (Qmult_le_r _ _ w Hw); rewrite E; lra.
Qed.
Lemma floor_range x o : near_origin w x -> 0 <= o <= 1 -> int32 (Qfloor (x * (1 / w) - (1 # 2)) + o).
Proof.
  intros H Ho. apply scaled in H. pose proof (floor_bounds (x * (1 / w) - (1 # 2))) as [H1 H2].
  set (f := Qfloor (x * (1 / w) - (1 # 2))) in *.
  assert (A : (inject_Z f <= inject_Z (2 ^ 31 - 2))%Q) by lra. apply injZ_le in A.
  assert (B : (inject_Z (- (2 ^ 31 - 2) - 2) < inject_Z f)%Q).
  { change (inject_Z (- (2 ^ 31 - 2) - 2)) with ((-2147483648 # 1)%Q). change (inject_Z (2 ^ 31 - 2)) with (2147483646 # 1)%Q in H. lra. }
  apply injZ_lt in B. unfold int32. lia.
Qed.
Lemma nearest_range x : near_origin w x -> int32 (rnd (x * (1 / w) - (1 # 2))%Q).
Proof.
  intros H. apply scaled in H. pose proof (Hrnd (x * (1 / w) - (1 # 2))%Q) as A. apply Qabs_Qle_condition in A.
  set (f := rnd (x * (1 / w) - (1 # 2))%Q) in *. change (inject_Z (2 ^ 31 - 2)) with (2147483646 # 1)%Q in H.
  assert (A1 : (inject_Z f <= inject_Z 2147483646)%Q) by (change (inject_Z 2147483646) with (2147483646 # 1)%Q; lra).
  assert (A2 : (inject_Z (-2147483647) <= inject_Z f)%Q) by (change (inject_Z (-2147483647)) with (-2147483647 # 1)%Q; lra).
  apply injZ_le in A1. apply injZ_le in A2. unfold int32. lia.
Qed.
Lemma interpolate_loop_spec mode s rows : Inv s -> Forall (position_row w) rows ->
  interpolate_loop get rnd w mode s rows = Some (map (py_interpolate1 rnd w (fun c => dir (OI 0 c)) mode) rows).
Proof.
  intros Hs Hr. unfold interpolate_loop. destruct mode; apply (query_loop_spec _ _ (position_row w)); try assumption;
    clear s rows Hs Hr; intros s [[x y] z] Hs (Hx & Hy & Hz).
  - unfold nearest_acc, py_interpolate1, nearestNeighbor, pointToNearestIndex, scaledPointToNearestIndex, scale_point.
    cbn [map]. unfold lrow. cbn [nth].
    edestruct (get_cell_spec get dir Hget s) as (s' & -> & Hs'); [exact Hs|split; [|split]; apply nearest_range; assumption|].
    eauto.
  - unfold trilinear_acc, py_interpolate1.
    edestruct (gather_spec (map (fun k => zadd_l (pointToFloorIndex [x; y; z] (1 / w)) (neighbor_offset (Z.of_nat k))) (seq 0 8)) s Hs)
      as (s' & -> & Hs').
    { unfold pointToFloorIndex, scaledPointToFloorIndex, scale_point. cbn [map seq zadd_l].
      repeat (constructor; [unfold lrow, neighbor_offset; cbn [zadd_l nth]; split; [|split]; apply floor_range; (assumption || (cbn; lia))|]).
      constructor. }
    rewrite map_map. eauto.
Qed.
End Q.
End LOOP.

Lemma hw_cell_node {V} (N : M_Num.num V) C m c : hw_get_node N C m (OI 0 c) = hw_get N C m c.
Proof.
  unfold hw_get_node, hw_get, hw_blockIndex. cbn [oh opos]. replace (imap (fun x => mult_exp2 x 0) c) with c; [reflexivity|].
  destruct c as [x y z]. unfold imap, mult_exp2. cbn [px py pz]. rewrite ?Z.mul_1_r, ?Z.shiftl_0_r. reflexivity.
Qed.
Lemma hc_cell_node {V} (N : M_Num.num V) C m c : hc_get_node N C m (OI 0 c) = hc_get N C m c.
Proof.
  unfold hc_get_node, hc_get, hw_blockIndex. cbn [oh opos]. replace (imap (fun x => mult_exp2 x 0) c) with c; [reflexivity|].
  destruct c as [x y z]. unfold imap, mult_exp2. cbn [px py pz]. rewrite ?Z.mul_1_r, ?Z.shiftl_0_r. reflexivity.
Qed.
Lemma hw_accel_spec {V} (N : M_Num.num V) C m : 1 <= cT C < 20 -> exists Inv : _ -> Prop,
  Inv (hw_accel_new N C) /\ forall s i, Inv s -> node_query (cT C) i -> exists s', hw_accel N C m s i = Some (s', hw_get_node N C m i) /\ Inv s'.
Proof.
  intros HT. exists (inv ndata getChild (backwardSingleChild3 N) (cT C) (hw_root m)). split; [apply inv_new; assumption|].
  intros s i Hs Hi. pose proof Hi as [Hh Hc].
  assert (Hb : block_at (cT C) i <> no_block) by (apply block_not_sentinel; [lia|assumption..]).
  destruct (get_spec ndata getChild (backwardSingleChild3 N) (n0 N) (cT C) (hw_root m) (hw_blockIndex C) HT
    (fun i H => hw_block_at C i H) s i Hs Hh Hb) as (s' & E & Hs').
  exists s'. split; [|exact Hs']. unfold hw_accel. rewrite E, hw_direct by lia. reflexivity.
Qed.
Lemma hc_accel_spec {V} (N : M_Num.num V) C m : 1 <= cT C < 20 -> exists Inv : _ -> Prop,
  Inv (hc_accel_new N C) /\ forall s i, Inv s -> node_query (cT C) i -> exists s', hc_accel N C m s i = Some (s', hc_get_node N C m i) /\ Inv s'.
Proof.
  intros HT. eexists (inv _ _ (backwardSingleChild3 N) (cT C) (hc_root m)). split; [apply inv_new; assumption|].
  intros s i Hs Hi. pose proof Hi as [Hh Hc].
  assert (Hb : block_at (cT C) i <> no_block) by (apply block_not_sentinel; [lia|assumption..]).
  destruct (get_spec _ _ (backwardSingleChild3 N) (n0 N) (cT C) (hc_root m) (hw_blockIndex C) HT
    (fun i H => hw_block_at C i H) s i Hs Hh Hb) as (s' & E & Hs').
  exists s'. split; [|exact Hs']. unfold hc_accel. rewrite E, hc_direct by lia. reflexivity.
Qed.

(** *** The property *)
Theorem C72_hashed_cell_values : forall (V : Type) (N : M_Num.num V) (C : wconfig) (m : hmap) (rows : list (Z * Z * Z)),
  1 <= cT C < 20 -> Forall cell_row rows ->
  py_hw_cells N C m rows = Some (map (fun r => let '(x, y, z) := r in hw_get N C m (I3 x y z)) rows).
Proof.
  intros V N C m rows HT Hr. destruct (hw_accel_spec N C m HT) as (Inv & H1 & H2). unfold py_hw_cells.
  rewrite (cells_loop_spec Inv (cT C) ltac:(lia) _ _ H2 _ _ H1 Hr). f_equal. apply map_ext. intros [[x y] z]. apply hw_cell_node.
Qed.
Theorem C72_hashed_node_values : forall (V : Type) (N : M_Num.num V) (C : wconfig) (m : hmap) (rows : list (Z * Z * Z * Z)),
  1 <= cT C < 20 -> Forall (node_row (cT C)) rows ->
  py_hw_nodes N C m rows = Some (map (fun r => let '(h, x, y, z) := r in hw_get_node N C m (OI h (I3 x y z))) rows).
Proof.
  intros V N C m rows HT Hr. destruct (hw_accel_spec N C m HT) as (Inv & H1 & H2). unfold py_hw_nodes.
  exact (nodes_loop_spec Inv (cT C) _ _ H2 _ _ H1 Hr).
Qed.
Theorem C72_hashed_interpolate : forall (rnd : Q -> Z) (w : Q) (C : wconfig) (m : hmap) (mode : imode) (rows : list (Q * Q * Q)),
  nearest rnd -> (0 < w)%Q -> 1 <= cT C < 20 -> Forall (position_row w) rows ->
  py_hw_interpolate rnd w C m mode rows = Some (map (py_interpolate1 rnd w (hw_get qn C m) mode) rows).
Proof.
  intros rnd w C m mode rows Hn Hw HT Hr. destruct (hw_accel_spec qn C m HT) as (Inv & H1 & H2). unfold py_hw_interpolate.
  rewrite (interpolate_loop_spec Inv (cT C) ltac:(lia) _ _ rnd w Hn Hw H2 mode _ _ H1 Hr). f_equal. apply map_ext.
  intros [[x y] z]. unfold py_interpolate1, nearestNeighbor, trilinear. rewrite ?hw_cell_node. destruct mode; [reflexivity|].
  cbn [map seq]. rewrite !hw_cell_node. reflexivity.
Qed.
Theorem C72_chunked_cell_values : forall (V : Type) (N : M_Num.num V) (C : wconfig) (m : cmap) (rows : list (Z * Z * Z)),
  1 <= cT C < 20 -> Forall cell_row rows ->
  py_hc_cells N C m rows = Some (map (fun r => let '(x, y, z) := r in hc_get N C m (I3 x y z)) rows).
Proof.
  intros V N C m rows HT Hr. destruct (hc_accel_spec N C m HT) as (Inv & H1 & H2). unfold py_hc_cells.
  rewrite (cells_loop_spec Inv (cT C) ltac:(lia) _ _ H2 _ _ H1 Hr). f_equal. apply map_ext. intros [[x y] z]. apply hc_cell_node.
Qed.
Theorem C72_chunked_node_values : forall (V : Type) (N : M_Num.num V) (C : wconfig) (m : cmap) (rows : list (Z * Z * Z * Z)),
  1 <= cT C < 20 -> Forall (node_row (cT C)) rows ->
  py_hc_nodes N C m rows = Some (map (fun r => let '(h, x, y, z) := r in hc_get_node N C m (OI h (I3 x y z))) rows).
Proof.
  intros V N C m rows HT Hr. destruct (hc_accel_spec N C m HT) as (Inv & H1 & H2). unfold py_hc_nodes.
  exact (nodes_loop_spec Inv (cT C) _ _ H2 _ _ H1 Hr).
Qed.
Theorem C72_chunked_interpolate : forall (rnd : Q -> Z) (w : Q) (C : wconfig) (m : cmap) (mode : imode) (rows : list (Q * Q * Q)),
  nearest rnd -> (0 < w)%Q -> 1 <= cT C < 20 -> Forall (position_row w) rows ->
  py_hc_interpolate rnd w C m mode rows = Some (map (py_interpolate1 rnd w (hc_get qn C m) mode) rows).
Proof.
  intros rnd w C m mode rows Hn Hw HT Hr. destruct (hc_accel_spec qn C m HT) as (Inv & H1 & H2). unfold py_hc_interpolate.
  rewrite (interpolate_loop_spec Inv (cT C) ltac:(lia) _ _ rnd w Hn Hw H2 mode _ _ H1 Hr). f_equal. apply map_ext.
  intros [[x y] z]. unfold py_interpolate1, nearestNeighbor, trilinear. rewrite ?hc_cell_node. destruct mode; [reflexivity|].
  cbn [map seq]. rewrite !hc_cell_node. reflexivity.
Qed.
(** A map with two blocks; the batch mixes both blocks, unknown space and repeated rows. *)
Example C72_example :
  let m := hw_run acc_C acc_ops in
  let rows := [(0, 0, 0); (-1, -1, -1); (0, 1, 0); (90, 0, 0); (5, 2, 7); (0, 0, 0)] in
  let nodes := [(2, 0, 0, 0); (0, 5, 2, 7); (3, 0, 0, 0); (1, -1, -1, -1)] in
  let pos := [((1 # 4), (1 # 4), (1 # 4)); ((1 # 4), (1 # 2), (1 # 4)); (0, 0, 0)]%Q in
  1 <= cT acc_C < 20 /\ Forall cell_row rows /\ Forall (node_row (cT acc_C)) nodes /\ Forall (position_row (1 # 2)) pos /\
  option_map (map this) (py_hw_cells qn acc_C m rows) = Some [3; 2; -1; 0; 1; 3]%Q /\
  option_map (map this) (py_hw_nodes qn acc_C m nodes) = Some [1 # 32; 1; 3 # 512; 1 # 4]%Q /\
  option_map (map Qred) (py_hw_interpolate round_away (1 # 2) acc_C m kTrilinear pos) = Some [3; 1; 5 # 8]%Q /\
  option_map (map Qred) (py_hw_interpolate round_away (1 # 2) acc_C m kNearest pos) = Some [3; -1; 2]%Q.
Proof.
  cbv zeta. split; [cbn; lia|]. split; [repeat constructor; cbn; unfold int32; lia|].
  split; [repeat constructor; cbn; unfold int32; lia|]. split; [repeat constructor; unfold near_origin; vm_compute; discriminate|].
  do 3 (split; [vm_compute; reflexivity|]). vm_compute. reflexivity.
Qed.

Print Assumptions C72_hashed_cell_values.
Print Assumptions C72_hashed_node_values.
Print Assumptions C72_hashed_interpolate.
Print Assumptions C72_chunked_cell_values.
Print Assumptions C72_chunked_node_values.
Print Assumptions C72_chunked_interpolate.
