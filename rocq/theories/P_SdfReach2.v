(** C89, continued: upper bounds on the distances that the full Euclidean generator gives to free cells. *)
From Verif Require Import Base M_IntMath F_IntMath M_Num F_Num M_Ndtree S_Field F_Hash M_Wavelet M_WavHist F_WavHash P_Wavelet
  M_Queue P_Queue M_Occupancy P_Occupancy M_Sdf F_Sdf F_Sdf2 F_Sdf3 P_Sdf P_Sdf2 M_SdfAccuracy P_SdfAccuracy F_SdfReach P_SdfReach F_SdfReach2.
From Coq Require Import QArith Qround Qcanon Qcabs Qabs Lqa.
Close Scope Qc_scope.
Close Scope Q_scope.
Open Scope Z_scope.

(** ** Specification *)
(** The square root is too large by a factor of at most [r]. *)
Definition root_at_most (r : Q) (rt : Q -> Q) : Prop := forall x, (0 <= x)%Q -> (rt x * rt x <= r * r * x)%Q.
(** A bit more than half a diagonal of a cell, plus a bit more than one diagonal and one cell width per step, for a root that errs by factors between [q] and [r] *)
Fixpoint full_bound (q r w maxd : Q) (n : nat) : Q :=
  match n with
  | O => r * ((7 # 8) * w)
  | S k => r / q * (full_bound q r w maxd k + w * (maxd / (maxd - w))) + r * ((7 # 4) * w)
  end%Q.

(** ** Proofs *)
Lemma gap_step w rt a o b : sqrt_like rt -> (0 < w)%Q -> -1 <= o <= 1 -> (gapq w (Z.abs (a + o - b)) <= gapq w (Z.abs (a - b)) + w)%Q.
Proof.
  intros Hrt Hw Ho. eapply Qle_trans; [apply (gapq_mono w rt Hw (proj1 Hrt) (proj1 (proj2 Hrt)) _ (Z.abs (a - b) + 1)); lia|]. assert (H : 0 <= Z.abs (a - b)) by lia. set (k := Z.abs (a - b)) in *. clearbody k. clear - Hw H.
  unfold gapq. destruct (Z.leb_spec (k + 1) 0); [lia|]. rewrite inject_Z_plus. change (inject_Z 1) with 1%Q. destruct (Z.leb_spec k 0) as [K|K]; [replace k with 0 by lia; change (inject_Z 0) with 0%Q; lra|lra].
Qed.
Section ROOT.
Context (q r w maxd : Q) (rt : Q -> Q) (Hrt : sqrt_like rt) (Hq : (0 < q)%Q) (Hr : (0 < r)%Q) (HL : root_at_least q rt) (HU : root_at_most r rt) (Hw : (0 < w)%Q) (Hm : (w < maxd)%Q).
Lemma ratio_ge : (1 <= r / q)%Q.
Proof using HL HU Hq Hr.
  destruct (HL 1%Q ltac:(lra)) as [A B]. pose proof (HU 1%Q ltac:(lra)) as C. apply Qle_shift_div_l; [exact Hq|].
  assert (q <= r)%Q; [|lra]. apply sq_le; lra.
Qed.
Lemma first_le : (rt ((3 # 4) * (w * w)) <= r * ((7 # 8) * w))%Q.
Proof using HL HU Hr Hw.
  assert (W : (0 <= w * w)%Q) by apply sqpos. destruct (HL ((3 # 4) * (w * w))%Q ltac:(lra)) as [A _]. pose proof (HU ((3 # 4) * (w * w))%Q ltac:(lra)) as C.
  apply sq_le; [exact A|nra|]. eapply Qle_trans; [exact C|]. assert (R : (0 <= r * r * (w * w))%Q) by (apply Qmult_le_0_compat; [apply sqpos|exact W]).
  apply Qle_minus_iff. setoid_replace (r * ((7 # 8) * w) * (r * ((7 # 8) * w)) + - (r * r * ((3 # 4) * (w * w))))%Q with ((1 # 64) * (r * r * (w * w)))%Q by ring. lra.
Qed.
Lemma step_le p pp o : In o sdf_offsets -> (minDistanceTo w rt (iadd p o) pp <= r / q * minDistanceTo w rt p pp + r * ((7 # 4) * w))%Q.
Proof using Hrt HL HU Hq Hr Hw.
  intros Ho. apply offsets_in in Ho as (Ox & Oy & Oz & _). pose proof (proj1 Hrt) as Hmono. pose proof (proj1 (proj2 Hrt)) as Hpos.
  rewrite !(minD_eq w rt Hw Hmono Hpos). pose proof (D2_nonneg w rt Hw Hmono Hpos p pp) as P1. pose proof (D2_nonneg w rt Hw Hmono Hpos (iadd p o) pp) as P2.
  destruct (HL _ P1) as [A1 A2]. destruct (HL _ P2) as [B1 _]. pose proof (HU _ P2) as B2. set (m := rt (D2 w p pp)) in *. set (m' := rt (D2 w (iadd p o) pp)) in *.
  assert (Q0 : (0 <= m / q)%Q) by (apply Qle_shift_div_l; lra).
  assert (A : (D2 w p pp <= m / q * (m / q))%Q).
  { setoid_replace (m / q * (m / q))%Q with (m * m / (q * q))%Q by (field; lra). apply Qle_shift_div_l; [nra|]. eapply Qle_trans; [|exact A2]. apply Qle_lteq. right. ring. }
  assert (T : (D2 w (iadd p o) pp <= (m / q + (7 # 4) * w) * (m / q + (7 # 4) * w))%Q).
  { destruct p as [p1 p2 p3], o as [o1 o2 o3], pp as [x1 x2 x3]. unfold iadd, imap2, D2 in *. cbn [px py pz] in *.
    pose proof (gap_step w rt p1 o1 x1 Hrt Hw Ox) as G1. pose proof (gap_step w rt p2 o2 x2 Hrt Hw Oy) as G2. pose proof (gap_step w rt p3 o3 x3 Hrt Hw Oz) as G3.
    pose proof (fun k => gapq_nonneg w rt Hw Hmono Hpos k) as GN. pose proof (GN (Z.abs (p1 + o1 - x1))) as N1. pose proof (GN (Z.abs (p2 + o2 - x2))) as N2. pose proof (GN (Z.abs (p3 + o3 - x3))) as N3.
    eapply Qle_trans; [|apply (triangle (gapq w (Z.abs (p1 - x1))) (gapq w (Z.abs (p2 - x2))) (gapq w (Z.abs (p3 - x3))) w w w (m / q) ((7 # 4) * w) Q0 ltac:(lra) A ltac:(nra))].
    clear - G1 G2 G3 N1 N2 N3. apply Qplus_le_compat; [apply Qplus_le_compat|]; (eapply Qle_trans; [apply Qmult_le_compat_r|rewrite Qmult_comm; apply Qmult_le_compat_r]; lra). }
  apply Qle_trans with (r * (m / q + (7 # 4) * w))%Q.
  - apply sq_le; [exact B1|nra|]. eapply Qle_trans; [exact B2|].
    setoid_replace (r * (m / q + (7 # 4) * w) * (r * (m / q + (7 # 4) * w)))%Q with ((m / q + (7 # 4) * w) * (m / q + (7 # 4) * w) * (r * r))%Q by ring.
    rewrite Qmult_comm. apply Qmult_le_compat_r; [exact T|apply sqpos].
  - apply Qle_lteq. right. field. lra.
Qed.
Lemma full_mono j k : (j <= k)%nat -> (0 < full_bound q r w maxd j /\ full_bound q r w maxd j <= full_bound q r w maxd k)%Q.
Proof using HL HU Hq Hr Hw Hm.
  pose proof ratio_ge as L. assert (G : (0 < maxd / (maxd - w))%Q) by (apply Qlt_shift_div_l; lra). assert (G' : (0 < w * (maxd / (maxd - w)))%Q) by nra.
  assert (R : (0 < r * ((7 # 4) * w))%Q) by nra.
  assert (S : forall i, (0 < full_bound q r w maxd i)%Q -> (full_bound q r w maxd i <= full_bound q r w maxd (S i))%Q).
  { intros i P. cbn [full_bound]. clear - L G' R P. set (x := full_bound q r w maxd i) in *. set (y := (w * (maxd / (maxd - w)))%Q) in *. set (z := (r / q)%Q) in *. assert (x + y <= z * (x + y))%Q by nra. lra. }
  assert (P : forall i, (0 < full_bound q r w maxd i)%Q) by (induction i as [|i IH]; [cbn [full_bound]; nra|specialize (S i IH); lra]).
  intros H. split; [apply P|]. induction H as [|k H IH]; [apply Qle_refl|]. eapply Qle_trans; [exact IH|apply S, P].
Qed.
End ROOT.

(** ** Theorems *)
(** A free cell from which [n] steps through free space reach the surface of an obstacle has a value of at most [full_bound n], provided that this is below the maximum distance. *)
Theorem C89_full_reached : forall q r w maxd thr rt lf C m fuel f c n, valid_config C -> hashed_reachable C m -> enough lf ->
  sqrt_like rt -> (0 < q)%Q -> (0 < r)%Q -> root_at_least q rt -> root_at_most r rt -> (0 < w)%Q -> (w < maxd)%Q ->
  full_sdf w maxd thr rt lf fuel C m = Some f -> free_steps (cell_is thr C m) c n -> (full_bound q r w maxd n < maxd)%Q -> (0 < f c /\ f c <= full_bound q r w maxd n)%Q.
Proof.
  intros q r w maxd thr rt lf C m fuel f c n HC Hr Hlf Hrt Hq Hr0 HLo HUp Hw Hm Hf Hs Hb.
  destruct (map_leaves_ok thr lf C m HC Hr Hlf) as (l & E & L). unfold full_sdf in Hf. rewrite E in Hf.
  destruct (steps_path _ c n Hs) as (a & <- & A & S & Z). destruct (bins w maxd Hw Hm) as [G0 G1]. pose proof (first_le q r w rt Hr0 HLo HUp Hw) as F.
  pose proof (full_mono q r w maxd rt Hq Hr0 HLo HUp Hw Hm 0 n ltac:(lia)) as [_ M]. cbn [full_bound] in M.
  refine (full_reach w maxd thr rt (map_occ C m) l Hw Hm (proj1 Hrt) (proj1 (proj2 Hrt)) _ L a n (full_bound q r w maxd) (bin_width w maxd) (r / q)%Q (r * ((7 # 4) * w))%Q
    A S F (fun k => Qle_refl _) Hb G0 _ (ratio_ge q r rt Hq Hr0 HLo HUp) G1 (num_ge w maxd Hw Hm) (fun p pp o => step_le q r w rt Hrt Hq Hr0 HLo HUp Hw p pp o) (fun x X => proj1 (HLo x X)) fuel f Z Hf).
  - lra.
  - nra.
Qed.
(** If all cells within [n + 1] cells of a free cell are observed and one of them is occupied, then the value is at most [full_bound n]. Cases that
    meet the hypotheses of both theorems are in [C89_rounded_reached_ex] and [C89_full_observed_ex] (P_SdfAccuracyR.v). *)
Theorem C89_full_observed : forall q r w maxd thr rt lf C m fuel f c o n, valid_config C -> hashed_reachable C m -> enough lf ->
  sqrt_like rt -> (0 < q)%Q -> (0 < r)%Q -> root_at_least q rt -> root_at_most r rt -> (0 < w)%Q -> (w < maxd)%Q ->
  full_sdf w maxd thr rt lf fuel C m = Some f -> cell_is thr C m c CFree -> cell_is thr C m o COccupied -> within c o (Z.of_nat n + 1) ->
  (forall x, within c x (Z.of_nat n + 1) -> ~ cell_is thr C m x CUnobserved) -> (full_bound q r w maxd n < maxd)%Q -> (0 < f c /\ f c <= full_bound q r w maxd n)%Q.
Proof.
  intros q r w maxd thr rt lf C m fuel f c o n HC Hr Hlf Hrt Hq Hr0 HLo HUp Hw Hm Hf Hc Ho W Obs Hb.
  destruct (straight_steps (cell_is thr C m) o Ho) with (n := n) (c := c) as (k & Hk & F); try assumption.
  - intros x. apply (class_excl thr).
  - intros x X. specialize (Obs x X). unfold cell_is in *. destruct (class_excl thr (this (hw_get qn C m x))) as (_ & _ & _ & [?|[?|?]]); tauto.
  - pose proof (full_mono q r w maxd rt Hq Hr0 HLo HUp Hw Hm k n Hk) as [_ M].
    destruct (C89_full_reached q r w maxd thr rt lf C m fuel f c k HC Hr Hlf Hrt Hq Hr0 HLo HUp Hw Hm Hf F ltac:(lra)) as [A B]. split; [exact A|lra].
Qed.
Print Assumptions C89_full_reached.
Print Assumptions C89_full_observed.
