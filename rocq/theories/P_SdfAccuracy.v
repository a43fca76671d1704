(** C89: the accuracy that the distance field generators declare, against the straight distance to the closest cell of the other class. *)
From Verif Require Import Base M_IntMath F_IntMath M_Num F_Num M_Ndtree S_Field F_Hash M_Wavelet M_WavHist F_WavHash P_Wavelet
  M_Queue P_Queue M_Occupancy P_Occupancy M_Sdf F_Sdf F_Sdf2 F_Sdf3 P_Sdf P_Sdf2 M_SdfAccuracy.
From Coq Require Import QArith Qround Qcanon Qcabs Qabs Lqa.
Close Scope Qc_scope.
Close Scope Q_scope.
Open Scope Z_scope.

(** ** Specification *)
(** The square root is right up to a factor of [k] from below. *)
Definition root_at_least (k : Q) (rt : Q -> Q) : Prop := forall x, (0 <= x)%Q -> (0 <= rt x /\ k * k * x <= rt x * rt x)%Q.
(** All cells of class [k] are at least [D] away from the centre of cell [c]. *)
Definition clear_of (w : Q) (is : idx3 -> oclass -> Prop) (k : oclass) (c : idx3) (D : Q) : Prop :=
  forall o y, is o k -> in_cube w o y -> (D * D <= sqd (center w c) y)%Q.

(** ** Proofs *)
Section Q.
Open Scope Q_scope.
Lemma sq_le a b : 0 <= a -> 0 <= b -> a * a <= b * b -> a <= b.
Proof. intros A B H. apply Qnot_lt_le. intros L. assert (b * b < a * a); [|lra]. apply Qle_lt_trans with (a * b); [apply Qmult_le_compat_r; lra|]. rewrite (Qmult_comm a b). rewrite (Qmult_comm b a). apply Qmult_lt_l; lra. Qed.
Lemma sqpos x : 0 <= x * x.
Proof. nra. Qed.
(** Cauchy-Schwarz and the triangle inequality, for numbers that are at least the lengths of two vectors *)
Lemma cauchy a1 a2 a3 b1 b2 b3 A B : 0 <= A -> 0 <= B -> a1 * a1 + a2 * a2 + a3 * a3 <= A * A -> b1 * b1 + b2 * b2 + b3 * b3 <= B * B ->
  a1 * b1 + a2 * b2 + a3 * b3 <= A * B.
Proof.
  intros HA HB Ha Hb. assert (AB : 0 <= A * B) by (apply Qmult_le_0_compat; assumption).
  destruct (Qlt_le_dec (a1 * b1 + a2 * b2 + a3 * b3) 0) as [N|N]; [lra|]. apply sq_le; [exact N|exact AB|].
  apply Qle_trans with ((a1 * a1 + a2 * a2 + a3 * a3) * (b1 * b1 + b2 * b2 + b3 * b3)).
  - assert (H : 0 <= (a1 * b2 - a2 * b1) * (a1 * b2 - a2 * b1) + (a1 * b3 - a3 * b1) * (a1 * b3 - a3 * b1) + (a2 * b3 - a3 * b2) * (a2 * b3 - a3 * b2)).
    { pose proof (sqpos (a1 * b2 - a2 * b1)). pose proof (sqpos (a1 * b3 - a3 * b1)). pose proof (sqpos (a2 * b3 - a3 * b2)). lra. }
    apply Qle_minus_iff. setoid_replace ((a1 * a1 + a2 * a2 + a3 * a3) * (b1 * b1 + b2 * b2 + b3 * b3) + - ((a1 * b1 + a2 * b2 + a3 * b3) * (a1 * b1 + a2 * b2 + a3 * b3)))
      with ((a1 * b2 - a2 * b1) * (a1 * b2 - a2 * b1) + (a1 * b3 - a3 * b1) * (a1 * b3 - a3 * b1) + (a2 * b3 - a3 * b2) * (a2 * b3 - a3 * b2)) by ring. exact H.
  - setoid_replace (A * B * (A * B)) with (A * A * (B * B)) by ring. assert (0 <= a1 * a1 + a2 * a2 + a3 * a3) by nra. assert (0 <= b1 * b1 + b2 * b2 + b3 * b3) by nra.
    apply Qle_trans with (A * A * (b1 * b1 + b2 * b2 + b3 * b3)); [apply Qmult_le_compat_r; assumption|]. rewrite !(Qmult_comm (A * A)). apply Qmult_le_compat_r; [assumption|nra].
Qed.
Lemma triangle a1 a2 a3 b1 b2 b3 A B : 0 <= A -> 0 <= B -> a1 * a1 + a2 * a2 + a3 * a3 <= A * A -> b1 * b1 + b2 * b2 + b3 * b3 <= B * B ->
  (a1 + b1) * (a1 + b1) + (a2 + b2) * (a2 + b2) + (a3 + b3) * (a3 + b3) <= (A + B) * (A + B).
Proof. intros HA HB Ha Hb. pose proof (cauchy a1 a2 a3 b1 b2 b3 A B HA HB Ha Hb). lra. Qed.
End Q.
Lemma len2_q a b : (inject_Z (len2 a b) == (inject_Z (px a) - inject_Z (px b)) * (inject_Z (px a) - inject_Z (px b)) +
  (inject_Z (py a) - inject_Z (py b)) * (inject_Z (py a) - inject_Z (py b)) + (inject_Z (pz a) - inject_Z (pz b)) * (inject_Z (pz a) - inject_Z (pz b)))%Q.
Proof. unfold len2. rewrite !inject_Z_plus, !inject_Z_mult. unfold Z.sub. rewrite !inject_Z_plus, !inject_Z_opp. ring. Qed.
Lemma len2_pos a b : (0 <= inject_Z (len2 a b))%Q.
Proof. change 0%Q with (inject_Z 0). rewrite <- Zle_Qle. unfold len2. pose proof (Z.square_nonneg (px a - px b)). pose proof (Z.square_nonneg (py a - py b)). pose proof (Z.square_nonneg (pz a - pz b)). lia. Qed.
(** A walk is at least as long as the straight line from its start to some point of a cell of the other class. *)
Lemma walk_straight w rt (is : idx3 -> oclass -> Prop) k q c L : (0 < w)%Q -> (0 <= q)%Q -> root_at_least q rt -> walk w rt is k c L ->
  (0 <= L)%Q /\ exists o y, is o (other k) /\ in_cube w o y /\ (q * q * sqd (center w c) y <= L * L)%Q.
Proof.
  intros Hw Hq HR. induction 1 as [a b Hk Ha Hb T|a c L W [HL (o & y & Ho & Hy & IH)] Hc T].
  - destruct (HR _ (len2_pos a b)) as [R0 R1]. set (r := rt (inject_Z (len2 a b))) in *. split; [nra|].
    exists b, (((inject_Z (px a) + inject_Z (px b) + 1) * (1 # 2) * w), ((inject_Z (py a) + inject_Z (py b) + 1) * (1 # 2) * w), ((inject_Z (pz a) + inject_Z (pz b) + 1) * (1 # 2) * w))%Q.
    split; [exact Hb|]. split.
    + destruct T as (_ & T1 & T2 & T3). unfold in_cube.
      assert (B : forall u v, Z.abs (u - v) <= 1 -> (inject_Z v - 1 <= inject_Z u <= inject_Z v + 1)%Q).
      { intros u v H. split; [setoid_replace (inject_Z v - 1)%Q with (inject_Z (v - 1)) by (unfold Z.sub; rewrite inject_Z_plus; reflexivity)|change 1%Q with (inject_Z 1); rewrite <- inject_Z_plus]; rewrite <- Zle_Qle; lia. }
      apply B in T1, T2, T3. repeat split; nra.
    + rewrite len2_q in R1. unfold sqd, center. set (x1 := inject_Z (px a)) in *. set (x2 := inject_Z (py a)) in *. set (x3 := inject_Z (pz a)) in *. set (z1 := inject_Z (px b)) in *. set (z2 := inject_Z (py b)) in *. set (z3 := inject_Z (pz b)) in *.
      apply Qle_trans with ((w * w * (1 # 4)) * (q * q * ((x1 - z1) * (x1 - z1) + (x2 - z2) * (x2 - z2) + (x3 - z3) * (x3 - z3))))%Q; [apply Qle_lteq; right; field|].
      setoid_replace ((1 # 2) * (w * r) * ((1 # 2) * (w * r)))%Q with (w * w * (1 # 4) * (r * r))%Q by ring. rewrite !(Qmult_comm (w * w * (1 # 4))). apply Qmult_le_compat_r; [exact R1|nra].
  - destruct (HR _ (len2_pos a c)) as [R0 R1]. set (r := rt (inject_Z (len2 a c))) in *. split; [nra|]. exists o, y. split; [exact Ho|]. split; [exact Hy|].
    rewrite len2_q in R1. destruct y as [[y1 y2] y3]. unfold sqd, center in *.
    set (x1 := inject_Z (px a)) in *. set (x2 := inject_Z (py a)) in *. set (x3 := inject_Z (pz a)) in *. set (z1 := inject_Z (px c)) in *. set (z2 := inject_Z (py c)) in *. set (z3 := inject_Z (pz c)) in *.
    pose proof (triangle (q * ((x1 + (1 # 2)) * w - y1)) (q * ((x2 + (1 # 2)) * w - y2)) (q * ((x3 + (1 # 2)) * w - y3)) (q * (w * (z1 - x1))) (q * (w * (z2 - x2))) (q * (w * (z3 - x3))) L (w * r) HL ltac:(nra)) as H.
    eapply Qle_trans; [|apply H].
    + apply Qle_lteq; right. ring.
    + eapply Qle_trans; [|exact IH]. apply Qle_lteq; right. ring.
    + apply Qle_trans with (w * w * (q * q * ((x1 - z1) * (x1 - z1) + (x2 - z2) * (x2 - z2) + (x3 - z3) * (x3 - z3))))%Q; [apply Qle_lteq; right; ring|].
      setoid_replace (w * r * (w * r))%Q with (w * w * (r * r))%Q by ring. rewrite !(Qmult_comm (w * w)). apply Qmult_le_compat_r; [exact R1|nra].
Qed.

(** ** Theorems *)
(** The maximum distance reaches beyond the cells that touch the surface. *)
Definition reaches_surface (w maxd : Q) (rt : Q -> Q) : Prop := (rt ((3 # 4) * (w * w)) < maxd)%Q.
(** No distance is under-estimated by more than the square root's error: if all cells of the other class are at least [D] away, the magnitude of the cell's value is at
    least [q * D], up to the maximum distance. *)
Definition not_under (gen : generator) (q : Q) : Prop := forall w maxd thr rt lf C m fuel f c k D,
  valid_config C -> hashed_reachable C m -> enough lf -> sqrt_like rt -> root_at_least q rt -> (0 < w)%Q -> (0 < maxd)%Q -> reaches_surface w maxd rt ->
  gen w maxd thr rt lf fuel C m = Some f -> cell_is thr C m c k -> (0 <= D <= maxd)%Q -> clear_of w (cell_is thr C m) (other k) c D -> (q * D <= Qabs (f c))%Q.
Lemma below_max q D maxd v : (0 <= q <= 1)%Q -> (0 <= D <= maxd)%Q -> (v == maxd)%Q -> (q * D <= Qabs v)%Q.
Proof. intros Q1 D1 E. rewrite E, Qabs_pos by lra. nra. Qed.
Lemma class_unique thr C m c k k' : cell_is thr C m c k -> cell_is thr C m c k' -> k = k'.
Proof. unfold cell_is. generalize (this (hw_get qn C m c)). intros v. pose proof (class_excl thr v). destruct k, k'; tauto. Qed.
Theorem C89_quasi_under : forall q, (0 <= q <= 1)%Q -> not_under quasi_sdf q.
Proof.
  intros q Q1 w maxd thr rt lf C m fuel f c k D HC Hr Hlf Hrt HR Hw Hm Hs Hf Hk HD Hcl.
  destruct (Qeq_dec (f c) maxd) as [E|E]; [exact (below_max q D maxd _ Q1 HD E)|].
  destruct (C44_quasi_walk w maxd thr rt lf C m fuel f c HC Hr Hlf Hrt Hw Hm Hf E) as (k' & L & Hk' & W & HL).
  rewrite (class_unique _ _ _ _ _ _ Hk' Hk) in W. destruct (walk_straight w rt _ k q c L Hw ltac:(lra) HR W) as (L0 & o & y & Ho & Hy & S).
  specialize (Hcl o y Ho Hy). apply Qle_trans with L; [|exact HL]. apply sq_le; [nra|exact L0|]. eapply Qle_trans; [|exact S].
  setoid_replace (q * D * (q * D))%Q with (q * q * (D * D))%Q by ring. rewrite !(Qmult_comm (q * q)). apply Qmult_le_compat_r; [exact Hcl|nra].
Qed.
Theorem C89_full_under : forall q, (0 <= q <= 1)%Q -> not_under full_sdf q.
Proof.
  intros q Q1 w maxd thr rt lf C m fuel f c k D HC Hr Hlf Hrt HR Hw Hm Hs Hf Hk HD Hcl.
  assert (G : forall o d, cell_is thr C m o (other k) -> dist_to_cell w rt c o d -> (q * D <= d)%Q).
  { intros o d Ho (y & Hy & _ & E). specialize (Hcl o y Ho Hy). rewrite E. destruct (HR (sqd (center w c) y)) as [R0 R1].
    { destruct y as [[y1 y2] y3]. unfold sqd, center. pose proof (sqpos ((inject_Z (px c) + (1 # 2)) * w - y1)). pose proof (sqpos ((inject_Z (py c) + (1 # 2)) * w - y2)). pose proof (sqpos ((inject_Z (pz c) + (1 # 2)) * w - y3)). lra. }
    apply sq_le; [nra|exact R0|]. eapply Qle_trans; [|exact R1].
    setoid_replace (q * D * (q * D))%Q with (q * q * (D * D))%Q by ring. rewrite !(Qmult_comm (q * q)). apply Qmult_le_compat_r; [exact Hcl|nra]. }
  destruct (C44_full_distance w maxd thr rt lf C m HC Hr Hlf Hrt Hw Hm Hs fuel f c Hf) as [E|[(Hc & o & Ho & Hd)|(Hc & o & Ho & Hd)]].
  - exact (below_max q D maxd _ Q1 HD E).
  - rewrite <- (class_unique _ _ _ _ _ _ Hc Hk) in *. apply Qle_trans with (f c); [exact (G o _ Ho Hd)|apply Qle_Qabs].
  - rewrite <- (class_unique _ _ _ _ _ _ Hc Hk) in *. rewrite <- Qabs_opp. apply Qle_trans with (- f c)%Q; [exact (G o _ Ho Hd)|apply Qle_Qabs].
Qed.
(** So the declared limits hold for every square root with an error below half a percent. *)
Theorem C89_declared_under : forall rt w maxd thr lf C m fuel f c k D, sqrt_like rt -> root_at_least (995 # 1000) rt -> valid_config C -> hashed_reachable C m -> enough lf ->
  (0 < w)%Q -> (0 < maxd)%Q -> reaches_surface w maxd rt -> cell_is thr C m c k -> (0 <= D <= maxd)%Q -> clear_of w (cell_is thr C m) (other k) c D ->
  (quasi_sdf w maxd thr rt lf fuel C m = Some f -> ((1 - quasi_kMaxRelativeUnderEstimate) * D <= Qabs (f c))%Q) /\
  (full_sdf w maxd thr rt lf fuel C m = Some f -> ((1 - full_kMaxRelativeUnderEstimate) * D <= Qabs (f c))%Q).
Proof.
  intros rt w maxd thr lf C m fuel f c k D Hrt HR HC Hr Hlf Hw Hm Hs Hk HD Hcl. unfold quasi_kMaxRelativeUnderEstimate, full_kMaxRelativeUnderEstimate.
  split; intros Hf; [pose proof (C89_quasi_under (995 # 1000) ltac:(lra) w maxd thr rt lf C m fuel f c k D HC Hr Hlf Hrt HR Hw Hm Hs Hf Hk HD Hcl)|
    pose proof (C89_full_under (995 # 1000) ltac:(lra) w maxd thr rt lf C m fuel f c k D HC Hr Hlf Hrt HR Hw Hm Hs Hf Hk HD Hcl)]; lra.
Qed.

(** A root that satisfies the hypotheses: one Newton step from the mean of [x] and 1, never below the root *)
Definition newton (x : Q) : Q := ((x + 5) * (1 # 4) - / (x + 1))%Q.
Lemma newton_root : root_at_least 1 newton.
Proof.
  intros x Hx. assert (P : (0 < x + 1)%Q) by lra. assert (E : (newton x == (x * x + 6 * x + 1) * / (4 * (x + 1)))%Q) by (unfold newton; field; lra).
  assert (I : (0 < / (4 * (x + 1)))%Q) by (apply Qinv_lt_0_compat; lra). rewrite E. split; [apply Qmult_le_0_compat; nra|].
  apply Qle_minus_iff. setoid_replace ((x * x + 6 * x + 1) * / (4 * (x + 1)) * ((x * x + 6 * x + 1) * / (4 * (x + 1))) + - (1 * 1 * x))%Q
    with (((x - 1) * (x - 1) * / (4 * (x + 1))) * ((x - 1) * (x - 1) * / (4 * (x + 1))))%Q by (field; lra). apply sqpos.
Qed.
Lemma newton_lt x y : (0 <= x -> x < y -> newton x < newton y)%Q.
Proof.
  intros Hx Hy. unfold newton. assert (I : (/ (y + 1) <= / (x + 1))%Q); [|lra]. apply Qle_shift_inv_l; [lra|].
  setoid_replace (/ (y + 1) * (x + 1))%Q with ((x + 1) / (y + 1))%Q by (unfold Qdiv; ring). apply Qle_shift_div_r; lra.
Qed.
Example C89_newton : sqrt_like newton /\ root_at_least (995 # 1000) newton.
Proof.
  split.
  - split; [|split; [|split]].
    + intros x y Hx Hy. apply Qle_lteq in Hy as [Hy|Hy]; [apply Qlt_le_weak, newton_lt; assumption|]. unfold newton. rewrite Hy. apply Qle_refl.
    + intros x Hx. apply Qle_lt_trans with (newton 0); [unfold newton; vm_compute; discriminate|]. apply newton_lt; lra.
    + intros b. exists (4 * Qabs b)%Q. pose proof (Qabs_nonneg b). pose proof (Qle_Qabs b). split; [lra|]. unfold newton.
      assert (/ (4 * Qabs b + 1) <= 1)%Q by (apply Qle_shift_inv_r; lra). lra.
    + intros x Hx. apply newton_lt; lra.
  - intros x Hx. destruct (newton_root x Hx) as [A B]. split; [exact A|]. nra.
Qed.
(** Cells of the other class are never closer than half a cell, so no observed cell gets a value below that. *)
Lemma clear_half w thr C m c k : (0 < w)%Q -> k <> CUnobserved -> cell_is thr C m c k -> clear_of w (cell_is thr C m) (other k) c ((1 # 2) * w).
Proof.
  intros Hw Hu Hk o y Ho Hy. assert (N : o <> c).
  { intros ->. pose proof (class_unique _ _ _ _ _ _ Hk Ho) as E. destruct k; cbn in E; congruence. }
  destruct y as [[y1 y2] y3]. destruct o as [o1 o2 o3], c as [c1 c2 c3]. unfold in_cube, sqd, center in *. cbn [px py pz] in *.
  assert (G : forall a b v, a <> b -> (inject_Z a * w <= v <= (inject_Z a + 1) * w -> (1 # 2) * w * ((1 # 2) * w) <= ((inject_Z b + (1 # 2)) * w - v) * ((inject_Z b + (1 # 2)) * w - v))%Q).
  { intros a b v D Hv. destruct (Z.lt_ge_cases a b) as [L|L].
    - assert (inject_Z a + 1 <= inject_Z b)%Q by (change 1%Q with (inject_Z 1); rewrite <- inject_Z_plus, <- Zle_Qle; lia). assert ((inject_Z a + 1) * w <= inject_Z b * w)%Q by (apply Qmult_le_compat_r; lra). nra.
    - assert (inject_Z b + 1 <= inject_Z a)%Q by (change 1%Q with (inject_Z 1); rewrite <- inject_Z_plus, <- Zle_Qle; lia). assert ((inject_Z b + 1) * w <= inject_Z a * w)%Q by (apply Qmult_le_compat_r; lra). nra. }
  destruct Hy as (Y1a & Y1b & Y2a & Y2b & Y3). pose proof (sqpos ((inject_Z c1 + (1 # 2)) * w - y1)). pose proof (sqpos ((inject_Z c2 + (1 # 2)) * w - y2)). pose proof (sqpos ((inject_Z c3 + (1 # 2)) * w - y3)).
  destruct (Z.eq_dec o1 c1) as [E1|E1]; [|specialize (G _ c1 _ E1 (conj Y1a Y1b)); lra]. destruct (Z.eq_dec o2 c2) as [E2|E2]; [|specialize (G _ c2 _ E2 (conj Y2a Y2b)); lra].
  destruct (Z.eq_dec o3 c3) as [E3|E3]; [|specialize (G _ c3 _ E3 Y3); lra]. congruence.
Qed.
Example C89_ex : exists fq ff, quasi_sdf 1 4 0 newton exlf 100 exC exm44 = Some fq /\ full_sdf 1 4 0 newton exlf 100 exC exm44 = Some ff /\
  valid_config exC /\ hashed_reachable exC exm44 /\ enough exlf /\ cell_is 0 exC exm44 (I3 2 1 1) CFree /\
  clear_of 1 (cell_is 0 exC exm44) COccupied (I3 2 1 1) ((1 # 2) * 1) /\ reaches_surface 1 4 newton /\ (fq (I3 2 1 1) < 1 /\ ff (I3 2 1 1) < 1)%Q.
Proof.
  assert (S : match quasi_sdf 1 4 0 newton exlf 100 exC exm44, full_sdf 1 4 0 newton exlf 100 exC exm44 with
    | Some f, Some g => Qle_bool (f (I3 2 1 1)) (9 # 10) && Qle_bool (g (I3 2 1 1)) (9 # 10) | _, _ => false end = true) by (vm_compute; reflexivity).
  destruct (quasi_sdf 1 4 0 newton exlf 100 exC exm44) as [f|]; [|discriminate]. destruct (full_sdf 1 4 0 newton exlf 100 exC exm44) as [g|]; [|discriminate].
  apply andb_true_iff in S as [A B]. apply Qle_bool_iff in A, B. exists f, g. pose proof C44_hyps as (H1 & H2 & H3 & _ & _ & _ & _ & H4 & _).
  repeat (split; [first [reflexivity|assumption|exact C44_enough|exact (clear_half 1 0 exC exm44 (I3 2 1 1) CFree H3 ltac:(discriminate) H4)]|]). split; lra.
Qed.

(** ** The declared over-estimates *)
(** Inside obstacles the quasi-Euclidean generator exceeds its limit: a point of a free cell is closer than the value allows. All cells around are observed. *)
Definition exblock : list (Z * hcall) :=
  map (fun c => (0, HAdd c (Q2Qc (if px c + py c + pz c =? 3 then -1 else 2)))) (flat_map (fun x => flat_map (fun y => map (fun z => I3 x y z) [1; 2; 3]) [1; 2; 3]) [1; 2; 3]).
Theorem C89_quasi_over_refuted : exists C l w maxd thr rt fuel f c o y, valid_config C /\ near_sqrt rt /\ (0 < w)%Q /\ ((3 # 2) * (w * rt 3) < maxd)%Q /\
  quasi_sdf w maxd thr rt exlf fuel C (hw_run C l) = Some f /\ cell_is thr C (hw_run C l) c COccupied /\ cell_is thr C (hw_run C l) o CFree /\
  (forall n, touching c n -> ~ cell_is thr C (hw_run C l) n CUnobserved) /\
  in_cube w o y /\ (f c < 0 /\ (1 + quasi_kMaxRelativeOverEstimate) * (1 + quasi_kMaxRelativeOverEstimate) * sqd (center w c) y < f c * f c)%Q.
Proof.
  assert (S1 : match quasi_sdf 1 4 0 fine_sqrt exlf 100 exC (hw_run exC exblock) with
    | Some f => Qle_bool (-124 # 100) (f (I3 2 2 2)) && Qle_bool (f (I3 2 2 2)) (-123 # 100) | None => false end = true) by (vm_compute; reflexivity).
  destruct (quasi_sdf 1 4 0 fine_sqrt exlf 100 exC (hw_run exC exblock)) as [f|] eqn:F; [|discriminate].
  apply andb_true_iff in S1 as [A B]. apply Qle_bool_iff in A. apply Qle_bool_iff in B.
  exists exC, exblock, 1%Q, 4%Q, 0%Q, fine_sqrt, 100%nat, f, (I3 2 2 2), (I3 1 1 1), (2, 2, 2)%Q.
  split; [exact exC_valid|]. split; [exact fine_sqrt_near|]. split; [reflexivity|]. split; [reflexivity|]. split; [exact F|].
  split; [|split; [|split; [|split]]].
  - apply occ_ge. vm_compute. reflexivity.
  - apply free_le. vm_compute. reflexivity.
  - intros n (_ & T1 & T2 & T3). destruct n as [x y z]. cbn [px py pz] in *.
    assert (K : forall v, Z.abs (2 - v) <= 1 -> v = 1 \/ v = 2 \/ v = 3) by (intros; lia). apply K in T1, T2, T3.
    destruct T1 as [->|[->| ->]], T2 as [->|[->| ->]], T3 as [->|[->| ->]]; intros U; unfold cell_is in U; cbn [class_of] in U; revert U; vm_compute; intros [U1 U2]; first [discriminate U1|discriminate U2|exact (U1 eq_refl)|exact (U2 eq_refl)].
  - unfold in_cube. repeat split; apply Qle_bool_iff; reflexivity.
  - split; [lra|]. apply Qlt_le_trans with ((123 # 100) * (123 # 100))%Q; [reflexivity|]. clear F. generalize dependent (f (I3 2 2 2)). intros v A B. nra.
Qed.
(** Both generators exceed their limits where unobserved cells separate a free cell from an obstacle. *)
Definition exgap : list (Z * hcall) := [(0, HAdd (I3 1 1 1) (Q2Qc 2)); (0, HAdd (I3 3 1 1) (Q2Qc (-1)))].
Theorem C89_over_unobserved_refuted : exists C l w maxd thr rt fuel f g c o y, valid_config C /\ near_sqrt rt /\ (0 < w)%Q /\ ((3 # 2) * (w * rt 3) < maxd)%Q /\
  quasi_sdf w maxd thr rt exlf fuel C (hw_run C l) = Some f /\ full_sdf w maxd thr rt exlf fuel C (hw_run C l) = Some g /\
  cell_is thr C (hw_run C l) c CFree /\ cell_is thr C (hw_run C l) o COccupied /\ in_cube w o y /\
  ((1 + quasi_kMaxRelativeOverEstimate) * (1 + quasi_kMaxRelativeOverEstimate) * sqd (center w c) y < f c * f c /\ sqd (center w c) y < maxd * maxd /\
   (1 + full_kMaxRelativeOverEstimate) * (1 + full_kMaxRelativeOverEstimate) * sqd (center w c) y < g c * g c)%Q.
Proof.
  assert (S1 : match quasi_sdf 1 4 0 fine_sqrt exlf 100 exC (hw_run exC exgap), full_sdf 1 4 0 fine_sqrt exlf 100 exC (hw_run exC exgap) with
    | Some f, Some g => Qeq_bool (f (I3 3 1 1)) 4 && Qeq_bool (g (I3 3 1 1)) 4 | _, _ => false end = true) by (vm_compute; reflexivity).
  destruct (quasi_sdf 1 4 0 fine_sqrt exlf 100 exC (hw_run exC exgap)) as [f|] eqn:F; [|discriminate].
  destruct (full_sdf 1 4 0 fine_sqrt exlf 100 exC (hw_run exC exgap)) as [g|] eqn:G; [|discriminate].
  apply andb_true_iff in S1 as [A B]. apply Qeq_bool_iff in A. apply Qeq_bool_iff in B.
  exists exC, exgap, 1%Q, 4%Q, 0%Q, fine_sqrt, 100%nat, f, g, (I3 3 1 1), (I3 1 1 1), (2, 3 # 2, 3 # 2)%Q.
  split; [exact exC_valid|]. split; [exact fine_sqrt_near|]. split; [reflexivity|]. split; [reflexivity|]. split; [exact F|]. split; [exact G|].
  split; [|split; [|split]].
  - apply free_le. vm_compute. reflexivity.
  - apply occ_ge. vm_compute. reflexivity.
  - unfold in_cube. repeat split; apply Qle_bool_iff; reflexivity.
  - rewrite A, B. repeat split.
Qed.
Print Assumptions C89_declared_under.
Print Assumptions C89_quasi_over_refuted.
Print Assumptions C89_over_unobserved_refuted.
