(** Property theorems C44: signed distance fields. *)
From Verif Require Import Base M_IntMath F_IntMath M_Num F_Num M_Ndtree S_Field F_Hash M_Wavelet M_WavHist F_WavHash P_Wavelet
  M_Occupancy P_Occupancy M_Sdf F_Sdf F_Sdf2 F_Sdf3.
From Coq Require Import QArith Qcanon Qcabs Qabs Lqa.
Close Scope Qc_scope.
Close Scope Q_scope.
Open Scope Z_scope.

(** ** Specification *)
(** The class of a cell of a map: [class_of] (P_Occupancy.v) compares the value with 0 and the threshold. *)
Definition cell_is (thr : Q) (C : wconfig) (m : shash wblock) (c : idx3) (k : oclass) : Prop := class_of thr (this (hw_get qn C m c)) k.
(** Cells that touch *)
Definition touching (a b : idx3) : Prop :=
  a <> b /\ Z.abs (px a - px b) <= 1 /\ Z.abs (py a - py b) <= 1 /\ Z.abs (pz a - pz b) <= 1.
(** What is assumed of the square root: monotone, positive on positive numbers, unbounded, and clearly larger at 3x than
    at x. The real square root has these properties, and so has a correctly rounded one (ignoring over- and underflow). *)
Definition sqrt_like (rt : Q -> Q) : Prop :=
  (forall x y, (0 <= x)%Q -> (x <= y)%Q -> (rt x <= rt y)%Q) /\ (forall x, (0 < x)%Q -> (0 < rt x)%Q) /\
  (forall b, exists x, (0 <= x)%Q /\ (b <= rt x)%Q) /\ (forall x, (0 < x)%Q -> (rt x < rt (3 * x))%Q).
(** Points; the center of a cell and its closed cube for cell width [w]; squared distance *)
Definition pt := (Q * Q * Q)%type.
Definition center (w : Q) (c : idx3) : pt :=
  ((inject_Z (px c) + (1 # 2)) * w, (inject_Z (py c) + (1 # 2)) * w, (inject_Z (pz c) + (1 # 2)) * w)%Q.
Definition in_cube (w : Q) (c : idx3) (y : pt) : Prop :=
  let '(y1, y2, y3) := y in
  (inject_Z (px c) * w <= y1 /\ y1 <= (inject_Z (px c) + 1) * w /\ inject_Z (py c) * w <= y2 /\ y2 <= (inject_Z (py c) + 1) * w /\
   inject_Z (pz c) * w <= y3 /\ y3 <= (inject_Z (pz c) + 1) * w)%Q.
Definition sqd (a b : pt) : Q :=
  let '(a1, a2, a3) := a in let '(b1, b2, b3) := b in ((a1 - b1) * (a1 - b1) + (a2 - b2) * (a2 - b2) + (a3 - b3) * (a3 - b3))%Q.
(** [d] is the distance from the center of cell [c] to the cube of cell [o] *)
Definition dist_to_cell (w : Q) (rt : Q -> Q) (c o : idx3) (d : Q) : Prop :=
  exists y, in_cube w o y /\ (forall y', in_cube w o y' -> (sqd (center w c) y <= sqd (center w c) y')%Q) /\ (d == rt (sqd (center w c) y))%Q.
(** squared length of an index difference *)
Definition len2 (a b : idx3) : Z := (px a - px b) * (px a - px b) + (py a - py b) * (py a - py b) + (pz a - pz b) * (pz a - pz b).
(** fuel that suffices to list the leaves *)
Definition enough (lf : wblock (V := Qc) -> nat) : Prop := forall b, (nsize (wroot (btree b)) <= lf b)%nat.

(** ** Proofs *)
Lemma corners_in_node i c : 0 <= oh i -> (inb (minCorner i) (maxCorner i) c <-> in_node i c = true).
Proof.
  intros H. unfold inb, in_node, minCorner, maxCorner, mult_exp2. cbn [imap px py pz]. rewrite exp2_pow by assumption.
  pose proof (Z.pow_pos_nonneg 2 (oh i) ltac:(lia) H). set (P := 2 ^ oh i) in *. rewrite !andb_true_iff, !Z.leb_le, !Z.ltb_lt. nia.
Qed.
Lemma map_leaves_ok thr lf C m : valid_config C -> hashed_reachable C m -> enough lf ->
  exists l, map_leaves lf C m = Some l /\ leaves_ok thr (map_occ C m) l.
Proof.
  intros HC Hr Hf. destruct (C17_hashed_leaves C m lf HC Hr Hf) as (l & E & Cov).
  pose proof (hashed_ok C m HC Hr) as Hok. destruct HC as [HT _].
  destruct (hw_leaves C m lf l HT Hok Hf E) as [Hh _].
  exists (map (fun iv => (fst iv, this (snd iv))) l). split; [unfold map_leaves; rewrite E; reflexivity|].
  assert (Inm : forall i u, In (i, u) (map (fun iv => (fst iv, this (snd iv))) l) -> exists v, In (i, v) l /\ u = this v).
  { intros i u Hi. apply in_map_iff in Hi as ([j v] & [= -> <-] & Hi). exists v. auto. }
  constructor.
  - intros i u Hi. destruct (Inm i u Hi) as (v & Hv & _). destruct (Hh i v Hv) as [H0 _]. unfold minCorner, maxCorner, mult_exp2. cbn [imap px py pz]. rewrite exp2_pow by assumption.
    pose proof (Z.pow_pos_nonneg 2 (oh i) ltac:(lia) H0). lia.
  - intros i u c Hi Hb. destruct (Inm i u Hi) as (v & Hv & ->). destruct (Hh i v Hv) as [H0 _]. apply corners_in_node in Hb; [|assumption].
    unfold map_occ. f_equal. specialize (Cov c). destruct (getBlock m (hw_blockIndex C (cell c))) as [b|]; [|rewrite (Cov i v Hv) in Hb; discriminate].
    destruct (wb_empty qn b); [rewrite (Cov i v Hv) in Hb; discriminate|]. destruct Cov as (l1 & j & l2 & -> & Hj & Ho).
    apply in_app_or in Hv as [Hv|[Hv|Hv]]; [|congruence|]; rewrite (Ho i v) in Hb by (apply in_or_app; auto); discriminate.
  - intros c Hoc. specialize (Cov c). unfold map_occ in Hoc. cbn [class_of] in Hoc. destruct Hoc as [Hn _].
    assert (X : exists i v, In (i, v) l /\ in_node i c = true).
    { assert (Hz : hw_blockIndex C (cell c) = block_of C c) by (unfold cell; rewrite hw_blockIndex_spec by lia; unfold block_of; rewrite Z.sub_0_r; reflexivity).
      rewrite Hz in Cov. pose proof (hw_field_spec C m c ltac:(lia)) as F. unfold hw_field in F. unfold tree_at in F.
      destruct (getBlock m (block_of C c)) as [b|] eqn:Eb.
      - destruct (wb_empty qn b) eqn:Ee.
        + exfalso. apply Hn. pose proof (wb_empty_cell C b c ltac:(lia) Ee) as S0. rewrite <- F in S0.
          unfold Qclt in S0. rewrite this_abs in S0. change (this qeps) with (8589935 # 8589934592)%Q in S0.
          apply Qabs_Qlt_condition in S0. exact S0.
        + destruct Cov as (l1 & j & l2 & -> & Hj & _). exists j, (hw_get qn C m c). split; [apply in_elt|assumption].
      - exfalso. apply Hn. rewrite F, cellv_new by lia. split; reflexivity. }
    destruct X as (i & v & Hv & Hi). exists i, (this v). split; [apply in_map_iff; exists (i, v); auto|]. apply corners_in_node; [apply (Hh i v Hv)|assumption].
Qed.

Lemma axis_closest w c p : (0 < w)%Q -> exists y, (inject_Z p * w <= y /\ y <= (inject_Z p + 1) * w)%Q /\
  axis_gap w c p = ((inject_Z c + (1 # 2)) * w - y)%Q /\
  forall y', (inject_Z p * w <= y' -> y' <= (inject_Z p + 1) * w ->
    axis_gap w c p * axis_gap w c p <= ((inject_Z c + (1 # 2)) * w - y') * ((inject_Z c + (1 # 2)) * w - y'))%Q.
Proof.
  intros Hw. unfold axis_gap. cbv zeta. set (e := ((inject_Z c + (1 # 2)) * w)%Q). set (lo := (inject_Z p * w)%Q).
  assert (Hh : ((inject_Z p + 1) * w == lo + w)%Q) by (unfold lo; ring). 
  assert (X : forall a b : Q, (0 <= a -> a <= b -> a * a <= b * b)%Q) by (intros; nra).
  assert (X0 : forall b : Q, (0 <= b * b)%Q) by (intros [n d]; unfold Qle, Qmult; cbn; nia).
  assert (X1 : forall a b : Q, (0 <= - a -> - a <= - b -> a * a <= b * b)%Q) by (intros; nra).
  destruct (qlt_b e lo) eqn:E1.
  - apply qlt_b_lt in E1. destruct (qlt_b (lo + w) lo) eqn:E2; [apply qlt_b_lt in E2; lra|]. exists lo. split; [lra|]. split; [reflexivity|].
    intros y' H1 H2. apply X1; lra.
  - apply qlt_b_ge in E1. destruct (qlt_b (lo + w) e) eqn:E2.
    + apply qlt_b_lt in E2. exists (lo + w)%Q. split; [lra|]. split; [reflexivity|]. intros y' H1 H2. apply X; lra.
    + apply qlt_b_ge in E2. exists e. split; [lra|]. split; [reflexivity|]. intros y' H1 H2.
      assert (Z0 : ((e - e) * (e - e) == 0)%Q) by ring. rewrite Z0. apply X0.
Qed.
Lemma minDistanceTo_spec w rt c o : (0 < w)%Q -> dist_to_cell w rt c o (minDistanceTo w rt c o).
Proof.
  intros Hw. destruct (axis_closest w (px c) (px o) Hw) as (y1 & B1 & E1 & M1).
  destruct (axis_closest w (py c) (py o) Hw) as (y2 & B2 & E2 & M2). destruct (axis_closest w (pz c) (pz o) Hw) as (y3 & B3 & E3 & M3).
  exists (y1, y2, y3). split; [unfold in_cube; tauto|]. unfold sqd, center. split.
  - intros [[a1 a2] a3] (?&?&?&?&?&?). rewrite <- E1, <- E2, <- E3. specialize (M1 a1). specialize (M2 a2). specialize (M3 a3).
    apply Qplus_le_compat; [apply Qplus_le_compat|]; auto.
  - unfold minDistanceTo. rewrite E1, E2, E3. reflexivity.
Qed.

Lemma rt_pos rt : sqrt_like rt -> forall x y, (0 < x)%Q -> (x <= y)%Q -> (0 < rt x)%Q /\ (rt x <= rt y)%Q.
Proof. intros (Hm & Hp & _) x y H1 H2. split; [auto|]. apply Hm; lra. Qed.
Lemma touching_offset p n : touching p n -> In (isub n p) sdf_offsets /\ iadd p (isub n p) = n.
Proof.
  intros (Hn & H1 & H2 & H3). destruct p as [a b c], n as [a' b' c']. cbn [px py pz] in *. split.
  - apply offsets_in. unfold isub, imap2. cbn [px py pz]. repeat split; try lia. intros [=]. apply Hn. f_equal; lia.
  - unfold iadd, isub, imap2. cbn. f_equal; lia.
Qed.
Lemma quasi_generate_mono w maxd thr rt occ n n' l f : (n <= n')%nat ->
  quasi_generate w maxd thr rt occ n l = Some f -> quasi_generate w maxd thr rt occ n' l = Some f.
Proof.
  intros Hn. unfold quasi_generate. cbv zeta. destruct (quasi_propagate w maxd thr rt occ n _) as [s|] eqn:E; [|discriminate].
  rewrite (quasi_propagate_mono _ _ _ _ _ _ _ _ E n' Hn). auto.
Qed.
Lemma full_generate_mono w maxd thr rt occ n n' l f : (n <= n')%nat ->
  full_generate w maxd thr rt occ n l = Some f -> full_generate w maxd thr rt occ n' l = Some f.
Proof.
  intros Hn. unfold full_generate. cbv zeta. destruct (full_propagate w maxd thr rt occ n _) as [s|] eqn:E; [|discriminate].
  rewrite (full_propagate_mono _ _ _ _ _ _ _ _ E n' Hn). auto.
Qed.

(** ** Theorems *)
(** What the field must say about every cell. An occupied cell is negative or was not reached. *)
Record sdf_sound (thr maxd : Q) (C : wconfig) (m : shash wblock) (f : idx3 -> Q) : Prop := SDF_SOUND {
  so_bound : forall c, (- maxd <= f c /\ f c <= maxd)%Q;
  so_neg : forall c, (f c < 0)%Q -> cell_is thr C m c COccupied;
  so_free : forall c, cell_is thr C m c CFree -> (0 < f c)%Q;
  so_unobs : forall c, cell_is thr C m c CUnobserved -> (f c == maxd)%Q;
  so_occ : forall c, cell_is thr C m c COccupied -> (f c < 0)%Q \/ (f c == maxd)%Q }.

Section C44.
Context (w maxd thr : Q) (rt : Q -> Q) (lf : @wblock Qc -> nat) (C : @wconfig Qc) (m : shash (@wblock Qc)).
Context (HC : valid_config C) (Hr : hashed_reachable C m) (Hlf : enough lf) (Hrt : sqrt_like rt) (Hw : (0 < w)%Q) (Hm : (0 < maxd)%Q).

(** Generation terminates, whatever the map. *)
Theorem C44_quasi_terminates : exists n, forall fuel, (n <= fuel)%nat -> exists f, quasi_sdf w maxd thr rt lf fuel C m = Some f.
Proof.
  destruct (map_leaves_ok thr lf C m HC Hr Hlf) as (l & E & L).
  destruct (quasi_result w maxd thr rt (map_occ C m) l Hw Hm (rt_pos rt Hrt) L) as (n & f & H & _).
  exists n. intros fuel Hf. exists f. unfold quasi_sdf. rewrite E. auto.
Qed.
Lemma quasi_inv fuel f : quasi_sdf w maxd thr rt lf fuel C m = Some f -> exists l,
  finv w maxd thr rt (map_occ C m) (seeds thr l) f /\
  ((3 # 2) * (w * rt 3) < maxd -> forall p o, border_pair thr (map_occ C m) p o -> ~ f (iadd p o) == maxd)%Q.
Proof.
  intros Hf. destruct (map_leaves_ok thr lf C m HC Hr Hlf) as (l & E & L).
  destruct (quasi_result w maxd thr rt (map_occ C m) l Hw Hm (rt_pos rt Hrt) L) as (n & g & H & I & J).
  unfold quasi_sdf in Hf. rewrite E in Hf. pose proof (quasi_generate_mono _ _ _ _ _ fuel (Nat.max fuel n) _ _ (Nat.le_max_l _ _) Hf) as A.
  rewrite H in A by apply Nat.le_max_r. injection A as ->. exists l. auto.
Qed.
Theorem C44_quasi_sound_partial fuel f : quasi_sdf w maxd thr rt lf fuel C m = Some f -> sdf_sound thr maxd C m f.
Proof.
  intros Hf. destruct (quasi_inv fuel f Hf) as (l & I & _).
  assert (K : forall c, vok maxd thr (map_occ C m) c (f c)) by (intros c; apply I).
  assert (X : forall c, _) by exact (fun c => class_excl thr (map_occ C m c)).
  unfold vok in K. constructor; intros c; specialize (K c); specialize (X c); unfold cell_is; fold (map_occ C m c).
  - destruct K as [K|[K|K]]; lra.
  - intros Hn. destruct K as [K|[K|K]]; [lra|lra|tauto].
  - intros Hn. destruct K as [K|[K|K]]; [lra|tauto|]. tauto.
  - intros Hn. destruct K as [K|[K|K]]; [assumption|tauto|tauto].
  - intros Hn. destruct K as [K|[K|K]]; [auto|tauto|tauto].
Qed.
(** At the surface: a free cell that touches an occupied cell is at most half the distance between the two centers
    away, and the occupied cell is negative. *)
Theorem C44_quasi_surface fuel f p n : ((3 # 2) * (w * rt 3) < maxd)%Q -> quasi_sdf w maxd thr rt lf fuel C m = Some f ->
  touching p n -> cell_is thr C m p CFree -> cell_is thr C m n COccupied ->
  (0 < f p /\ f p <= (1 # 2) * (w * rt (inject_Z (len2 n p))) /\ f n < 0)%Q.
Proof.
  intros Hb Hf Ht Hp Hn. destruct (quasi_inv fuel f Hf) as (l & I & J). destruct (C44_quasi_sound_partial fuel f Hf) as [S1 S2 S3 S4 S5].
  destruct (touching_offset p n Ht) as [Ho En]. split; [auto|]. split.
  - destruct (I p) as (_ & _ & B). apply (B (isub n p) Ho Hp). rewrite En. exact Hn.
  - destruct (S5 n Hn) as [A|A]; [assumption|]. exfalso. apply (J Hb p (isub n p)); [|rewrite En; exact A]. split; [assumption|]. rewrite En. auto.
Qed.

Context (Hbig : (rt ((3 # 4) * (w * w)) < maxd)%Q).
Theorem C44_full_terminates : exists n, forall fuel, (n <= fuel)%nat -> exists f, full_sdf w maxd thr rt lf fuel C m = Some f.
Proof.
  destruct (map_leaves_ok thr lf C m HC Hr Hlf) as (l & E & L). destruct Hrt as (R1 & R2 & R3 & R4). destruct (R3 maxd) as (B & HB0 & HB).
  destruct (full_result w maxd thr rt (map_occ C m) l B Hw Hm R1 R2 HB0 HB Hbig L) as (n & f & H & _).
  exists n. intros fuel Hf. eexists. unfold full_sdf. rewrite E. auto.
Qed.
Lemma full_inv fuel f : full_sdf w maxd thr rt lf fuel C m = Some f -> exists l g, f = (fun c => vd_dist (g c)) /\
  ffinv w maxd thr rt (map_occ C m) l g /\
  (rt ((27 # 4) * (w * w)) < maxd -> forall p o, border_pair thr (map_occ C m) p o -> uns g (iadd p o) = false)%Q.
Proof.
  intros Hf. destruct (map_leaves_ok thr lf C m HC Hr Hlf) as (l & E & L). destruct Hrt as (R1 & R2 & R3 & R4). destruct (R3 maxd) as (B & HB0 & HB).
  destruct (full_result w maxd thr rt (map_occ C m) l B Hw Hm R1 R2 HB0 HB Hbig L) as (n & g & H & I & J).
  unfold full_sdf in Hf. rewrite E in Hf. pose proof (full_generate_mono _ _ _ _ _ fuel (Nat.max fuel n) _ _ (Nat.le_max_l _ _) Hf) as A.
  rewrite H in A by apply Nat.le_max_r. injection A as <-. exists l, g. split; [reflexivity|]. split; [assumption|].
  intros Hb. apply J. split; [assumption|].
  assert (Hp : (0 < w * w)%Q) by nra. eapply Qlt_le_trans; [apply (R4 ((3 # 4) * (w * w))%Q); lra|]. apply R1; lra.
Qed.
Theorem C44_full_sound_partial fuel f : full_sdf w maxd thr rt lf fuel C m = Some f -> sdf_sound thr maxd C m f.
Proof.
  intros Hf. destruct (full_inv fuel f Hf) as (l & g & -> & I & _).
  assert (K : forall c, (vd_dist (g c) == maxd \/ class_of thr (map_occ C m c) CFree /\ 0 < vd_dist (g c) < maxd \/
                class_of thr (map_occ C m c) COccupied /\ - maxd < vd_dist (g c) /\ vd_dist (g c) < 0)%Q).
  { intros c. destruct (I c) as [K _]. unfold fok in K. destruct (vd_parent (g c)); [|auto]. destruct K as (_ & K1 & K2 & [(A & _ & D)|(A & _ & D)]).
    - right; left. split; [assumption|]. lra.
    - right; right. split; [assumption|]. lra. }
  assert (X : forall c, _) by exact (fun c => class_excl thr (map_occ C m c)).
  constructor; intros c; specialize (K c); specialize (X c); unfold cell_is; fold (map_occ C m c); cbv beta.
  - destruct K as [K|[K|K]]; lra.
  - intros Hn. destruct K as [K|[K|K]]; [lra|lra|tauto].
  - intros Hn. destruct K as [K|[K|K]]; [lra|tauto|]. tauto.
  - intros Hn. destruct K as [K|[K|K]]; [assumption|tauto|tauto].
  - intros Hn. destruct K as [K|[K|K]]; [auto|tauto|tauto].
Qed.
(** The full generator's values are distances to cells of the other class: to an occupied cell for free cells, so the
    distance to the nearest obstacle is never underestimated, and to a free cell, negated, for occupied cells. *)
Theorem C44_full_distance fuel f c : full_sdf w maxd thr rt lf fuel C m = Some f ->
  (f c == maxd)%Q \/
  cell_is thr C m c CFree /\ (exists o, cell_is thr C m o COccupied /\ dist_to_cell w rt c o (f c)) \/
  cell_is thr C m c COccupied /\ (exists o, cell_is thr C m o CFree /\ dist_to_cell w rt c o (- f c)%Q).
Proof.
  intros Hf. destruct (full_inv fuel f Hf) as (l & g & -> & I & _). destruct (I c) as [K _]. unfold fok in K.
  assert (Y : forall o d, (d == minDistanceTo w rt c o)%Q -> dist_to_cell w rt c o d).
  { intros o d Hd. destruct (minDistanceTo_spec w rt c o Hw) as (y & A1 & A2 & A3). exists y. split; [assumption|]. split; [assumption|]. rewrite Hd. exact A3. }
  destruct (vd_parent (g c)) as [p|]; [|auto]. right. destruct K as (_ & K1 & K2 & [(A & A' & D)|(A & A' & D)]); [left|right]; split; auto; exists p; (split; [assumption|]); apply Y; lra.
Qed.
Theorem C44_full_surface fuel f p n : (rt ((27 # 4) * (w * w)) < maxd)%Q -> full_sdf w maxd thr rt lf fuel C m = Some f ->
  touching p n -> cell_is thr C m p CFree -> cell_is thr C m n COccupied ->
  (0 < f p)%Q /\ (exists d, dist_to_cell w rt p n d /\ (f p <= d)%Q) /\ (f n < 0)%Q.
Proof.
  intros Hb Hf Ht Hp Hn. destruct (C44_full_sound_partial fuel f Hf) as [S1 S2 S3 S4 S5]. destruct (full_inv fuel f Hf) as (l & g & -> & I & J).
  destruct (touching_offset p n Ht) as [Ho En]. split; [apply S3; assumption|]. split.
  - exists (minDistanceTo w rt p n). split; [apply minDistanceTo_spec; assumption|]. destruct (I p) as [_ B]. specialize (B (isub n p) Ho Hp). rewrite En in B. apply B. exact Hn.
  - specialize (J Hb p (isub n p)). rewrite En in J. assert (U : uns g n = false) by (apply J; split; [assumption|]; rewrite En; auto).
    unfold uns in U. destruct (I n) as [K _]. unfold fok in K. destruct (vd_parent (g n)) as [q|]; [|discriminate].
    destruct K as (_ & K1 & K2 & [(A & _ & D)|(A & _ & D)]); [|lra]. exfalso. destruct (class_excl thr (map_occ C m n)). unfold cell_is in Hn. fold (map_occ C m n) in Hn. clear - A Hn H. tauto.
Qed.
End C44.

(** ** Non-vacuity and counterexamples *)
(** A square root approximation that is exact at 0, 1/4 and 1 *)
Definition exrt (x : Q) : Q := if Qle_bool x (1 # 4) then (2 * x)%Q else if Qle_bool x 1 then ((1 # 2) + (x - (1 # 4)) * (2 # 3))%Q else (1 + (x - 1) * (2 # 5))%Q.
Lemma exrt_cases x : ((x <= 1 # 4 /\ exrt x == 2 * x) \/ (1 # 4 < x /\ x <= 1 /\ exrt x == (1 # 2) + (x - (1 # 4)) * (2 # 3)) \/
  (1 < x /\ exrt x == 1 + (x - 1) * (2 # 5)))%Q.
Proof.
  unfold exrt. destruct (Qle_bool x (1 # 4)) eqn:E1; [apply Qle_bool_iff in E1; left; split; [assumption|reflexivity]|].
  assert (1 # 4 < x)%Q by (apply Qnot_le_lt; intros X; apply Qle_bool_iff in X; congruence).
  destruct (Qle_bool x 1) eqn:E2; [apply Qle_bool_iff in E2; right; left; repeat split; try assumption; reflexivity|].
  assert (1 < x)%Q by (apply Qnot_le_lt; intros X; apply Qle_bool_iff in X; congruence). right; right. split; [assumption|reflexivity].
Qed.
Example C44_sqrt_like : sqrt_like exrt.
Proof.
  split; [|split; [|split]].
  - intros x y H1 H2. destruct (exrt_cases x) as [?|[?|?]], (exrt_cases y) as [?|[?|?]]; lra.
  - intros x H1. destruct (exrt_cases x) as [?|[?|?]]; lra.
  - intros b. exists (2 + 3 * Qabs b)%Q. pose proof (Qle_Qabs b). pose proof (Qabs_nonneg b).
    destruct (exrt_cases (2 + 3 * Qabs b)) as [?|[?|?]]; lra.
  - intros x H1. destruct (exrt_cases x) as [?|[?|?]], (exrt_cases (3 * x)) as [?|[?|?]]; lra.
Qed.
Definition exlf : @wblock Qc -> nat := fun b => nsize (wroot (btree b)).
Example C44_enough : enough exlf.
Proof. intros b. apply le_n. Qed.
(** A map with an occupied cell, free cells beside it and nothing else *)
Definition exs : list (Z * hcall) :=
  [(0, HSet (I3 1 1 1) (Q2Qc 2)); (1, HSet (I3 2 1 1) (Q2Qc (-1))); (2, HSet (I3 3 1 1) (Q2Qc (-1)))].
Definition exm44 := hw_run exC exs.
Definition generator := Q -> Q -> Q -> (Q -> Q) -> (@wblock Qc -> nat) -> nat -> @wconfig Qc -> shash (@wblock Qc) -> option (idx3 -> Q).
Definition sample (g : generator) (maxd : Q) (m : shash (@wblock Qc)) (cs : list idx3) : option (list Q) :=
  match g 1%Q maxd 0%Q exrt exlf 100%nat exC m with Some f => Some (map (fun c => Qred (f c)) cs) | None => None end.
Example C44_ex : let l := Some [(-1 # 2); 1 # 2; 3 # 2; 4]%Q in
  sample quasi_sdf 4 exm44 [I3 1 1 1; I3 2 1 1; I3 3 1 1; I3 4 1 1] = l /\ sample full_sdf 4 exm44 [I3 1 1 1; I3 2 1 1; I3 3 1 1; I3 4 1 1] = l.
Proof. split; vm_compute; reflexivity. Qed.
Example C44_hyps : valid_config exC /\ hashed_reachable exC exm44 /\ (0 < 1)%Q /\ (exrt ((3 # 4) * (1 * 1)) < 4)%Q /\ ((3 # 2) * (1 * exrt 3) < 4)%Q /\
  (exrt ((27 # 4) * (1 * 1)) < 4)%Q /\ touching (I3 2 1 1) (I3 1 1 1) /\ cell_is 0 exC exm44 (I3 2 1 1) CFree /\ cell_is 0 exC exm44 (I3 1 1 1) COccupied /\
  cell_is 0 exC exm44 (I3 4 1 1) CUnobserved.
Proof.
  split; [exact exC_valid|]. split; [exists exs; reflexivity|]. split; [reflexivity|]. split; [reflexivity|]. split; [reflexivity|]. split; [reflexivity|].
  split; [split; [discriminate|]; cbn; lia|].
  split; [|split].
  - unfold cell_is. replace (this (hw_get qn exC exm44 (I3 2 1 1))) with (-1)%Q by (vm_compute; reflexivity). cbn [class_of]. split; [intros [A B]; lra|reflexivity].
  - unfold cell_is. replace (this (hw_get qn exC exm44 (I3 1 1 1))) with 2%Q by (vm_compute; reflexivity). cbn [class_of]. split; [intros [A B]; lra|]. apply Qle_bool_iff; reflexivity.
  - unfold cell_is. replace (this (hw_get qn exC exm44 (I3 4 1 1))) with 0%Q by (vm_compute; reflexivity). split; reflexivity.
Qed.
(** Occupied space is not always negative. (1) An occupied cell with no free cell around it keeps the positive maximum
    distance. (2) So does an occupied cell deeper inside an obstacle than the maximum distance. *)
Lemma sample_value g maxd m c v : sample g maxd m [c] = Some [v] -> exists f, g 1%Q maxd 0%Q exrt exlf 100%nat exC m = Some f /\ (f c == v)%Q.
Proof.
  unfold sample. destruct (g _ _ _ _ _ _ _ _) as [f|]; [|discriminate]. cbn [map]. intros [= <-]. exists f. split; [reflexivity|]. symmetry. apply Qred_correct.
Qed.
Definition exthick : list (Z * hcall) :=
  (0, HSet (I3 6 1 1) (Q2Qc (-1))) :: map (fun k => (0, HSet (I3 k 1 1) (Q2Qc 2))) [1; 2; 3; 4; 5].
Theorem C44_inside_negative_refuted : exists C l1 l2 w maxd thr rt fuel c f1 f2 g1 g2, valid_config C /\ sqrt_like rt /\ (0 < w)%Q /\ ((3 # 2) * (w * rt 3) < maxd)%Q /\
  cell_is thr C (hw_run C l1) c COccupied /\ quasi_sdf w maxd thr rt exlf fuel C (hw_run C l1) = Some f1 /\ (f1 c == maxd)%Q /\
  full_sdf w maxd thr rt exlf fuel C (hw_run C l1) = Some g1 /\ (g1 c == maxd)%Q /\
  (exists k, cell_is thr C (hw_run C l2) (I3 (px c + k) (py c) (pz c)) CFree /\ forall j, 0 <= j < k -> cell_is thr C (hw_run C l2) (I3 (px c + j) (py c) (pz c)) COccupied) /\
  quasi_sdf w maxd thr rt exlf fuel C (hw_run C l2) = Some f2 /\ (f2 c == maxd)%Q /\
  full_sdf w maxd thr rt exlf fuel C (hw_run C l2) = Some g2 /\ (g2 c == maxd)%Q.
Proof.
  assert (S1 : sample quasi_sdf 3 (hw_run exC [(0, HSet (I3 1 1 1) (Q2Qc 2))]) [I3 1 1 1] = Some [3]%Q) by (vm_compute; reflexivity).
  assert (S2 : sample full_sdf 3 (hw_run exC [(0, HSet (I3 1 1 1) (Q2Qc 2))]) [I3 1 1 1] = Some [3]%Q) by (vm_compute; reflexivity).
  assert (S3 : sample quasi_sdf 3 (hw_run exC exthick) [I3 1 1 1] = Some [3]%Q) by (vm_compute; reflexivity).
  assert (S4 : sample full_sdf 3 (hw_run exC exthick) [I3 1 1 1] = Some [3]%Q) by (vm_compute; reflexivity).
  destruct (sample_value _ _ _ _ _ S1) as (f1 & F1 & V1). destruct (sample_value _ _ _ _ _ S2) as (g1 & G1 & W1).
  destruct (sample_value _ _ _ _ _ S3) as (f2 & F2 & V2). destruct (sample_value _ _ _ _ _ S4) as (g2 & G2 & W2). clear S1 S2 S3 S4.
  assert (O : forall v : Q, Qle_bool 1 v = true -> class_of 0 v COccupied) by (intros v A; apply Qle_bool_iff in A; cbn [class_of]; split; lra).
  assert (F : forall v : Q, Qle_bool v (-1 # 2) = true -> class_of 0 v CFree) by (intros v A; apply Qle_bool_iff in A; cbn [class_of]; split; lra).
  exists exC, [(0, HSet (I3 1 1 1) (Q2Qc 2))], exthick, 1%Q, 3%Q, 0%Q, exrt, 100%nat, (I3 1 1 1), f1, f2, g1, g2.
  split; [exact exC_valid|]. split; [exact C44_sqrt_like|]. split; [reflexivity|]. split; [reflexivity|].
  split; [apply O; vm_compute; reflexivity|]. split; [exact F1|]. split; [exact V1|]. split; [exact G1|]. split; [exact W1|].
  split; [|auto]. exists 5. cbn [px py pz]. split.
  - apply F. vm_compute. reflexivity.
  - intros j Hj. apply O. assert (j = 0 \/ j = 1 \/ j = 2 \/ j = 3 \/ j = 4) as [ -> | [ -> | [ -> | [ -> | -> ]]]] by lia; vm_compute; reflexivity.
Qed.

Print Assumptions C44_quasi_terminates.
Print Assumptions C44_quasi_sound_partial.
Print Assumptions C44_quasi_surface.
Print Assumptions C44_full_terminates.
Print Assumptions C44_full_sound_partial.
Print Assumptions C44_full_distance.
Print Assumptions C44_full_surface.
Print Assumptions C44_inside_negative_refuted.
