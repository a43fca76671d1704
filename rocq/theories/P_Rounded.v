(** C44, C45: what those theorems assume of the square root and of the logarithm is true of the real functions rounded to single
    precision, so the theorems hold of the generators and measurement models that use them. *)
From Coq Require Import Reals Lra.
From Flocq Require Import Core Relative.
From Verif Require Import Base M_Num M_Ndtree S_Field F_Hash M_Wavelet M_WavHist P_Wavelet M_Occupancy P_Occupancy M_Sdf P_Sdf.
From Verif Require Import M_Image M_RangeBounds M_Measure F_Measure P_Measure.
From Coq Require Import QArith Qabs Qreals Lqa.
From Coq Require Import Lra.
Close Scope Q_scope.
Close Scope Z_scope.
Open Scope R_scope.

(** ** Specification *)
(** The single precision number nearest to a real number (ties to even), with unbounded exponents: 24 significant bits *)
Definition nearest24 (x : R) : R := round radix2 (FLX_exp 24) ZnearestE x.
(** A rational function that computes a real function and rounds the result once *)
Definition rounds_to (f : R -> R) (fq : Q -> Q) : Prop := forall x : Q, Q2R (fq x) = nearest24 (f (Q2R x)).

(** ** Such functions exist *)
Definition to_Q (m e : Z) : Q := if Z.leb 0 e then inject_Z (m * 2 ^ e) else (inject_Z m / inject_Z (2 ^ (- e)))%Q.
Lemma to_Q_ok m e : Q2R (to_Q m e) = F2R (Float radix2 m e).
Proof.
  assert (I : forall z, Q2R (inject_Z z) = IZR z) by (intros z; unfold Q2R, inject_Z; cbn [Qnum Qden]; field).
  unfold to_Q, F2R. cbn [Fnum Fexp]. destruct (Z.leb_spec 0 e) as [H|H].
  - rewrite I, mult_IZR. f_equal. rewrite <- (IZR_Zpower radix2) by assumption. reflexivity.
  - assert (N : IZR (2 ^ (- e)) <> 0) by (apply not_0_IZR; pose proof (Z.pow_pos_nonneg 2 (- e)); lia).
    rewrite Q2R_div; [|intros E; apply N; unfold Qeq, inject_Z in E; cbn in E; apply IZR_eq; lia].
    rewrite !I. unfold Rdiv. f_equal. rewrite <- (Z.opp_involutive e) at 2. rewrite bpow_opp. f_equal. rewrite <- (IZR_Zpower radix2) by lia. reflexivity.
Qed.
Definition rounded (f : R -> R) (x : Q) : Q :=
  to_Q (ZnearestE (scaled_mantissa radix2 (FLX_exp 24) (f (Q2R x)))) (cexp radix2 (FLX_exp 24) (f (Q2R x))).
Lemma rounded_ok f : rounds_to f (rounded f).
Proof. intros x. unfold rounded. rewrite to_Q_ok. reflexivity. Qed.
#[local] Instance prec24 : Prec_gt_0 24. Proof. reflexivity. Qed.
Lemma n24_le x y : x <= y -> nearest24 x <= nearest24 y.
Proof. apply round_le; [apply FLX_exp_valid; exact prec24|apply valid_rnd_N]. Qed.
Lemma n24_err x : Rabs (nearest24 x - x) <= / 16777216 * Rabs x.
Proof.
  pose proof (relative_error_N_FLX radix2 24 prec24 (fun n => negb (Z.even n)) x) as H. unfold nearest24.
  replace (/ 16777216) with (/ 2 * bpow radix2 (- (24) + 1)); [exact H|]. cbn. lra.
Qed.
Lemma n24_exact x : generic_format radix2 (FLX_exp 24) x -> nearest24 x = x.
Proof. apply round_generic. apply valid_rnd_N. Qed.
Lemma n24_pos x : 0 < x -> 0 < nearest24 x.
Proof. intros H. pose proof (n24_err x) as E. rewrite (Rabs_right x) in E by lra. apply Rabs_le_inv in E. lra. Qed.
Lemma rounds_le f fq x y : rounds_to f fq -> f (Q2R x) <= f (Q2R y) -> (fq x <= fq y)%Q.
Proof. intros H L. apply Rle_Qle. rewrite !H. apply n24_le. exact L. Qed.

(** ** C44: the distance field generators *)
Theorem C44_rounded_sqrt : (exists rt, rounds_to sqrt rt) /\ forall rt, rounds_to sqrt rt -> P_Sdf.sqrt_like rt.
Proof.
  split; [exists (rounded sqrt); apply rounded_ok|]. intros rt H.
  assert (P : forall x : Q, (0 < x)%Q -> 0 < Q2R x) by (intros x Hx; rewrite <- RMicromega.Q2R_0; apply Qlt_Rlt; exact Hx).
  split; [|split; [|split]].
  - intros x y Hx Hxy. apply (rounds_le sqrt); [exact H|]. apply sqrt_le_1_alt. apply Qle_Rle. exact Hxy.
  - intros x Hx. apply Rlt_Qlt. rewrite RMicromega.Q2R_0, H. apply n24_pos. apply sqrt_lt_R0. auto.
  - intros b. set (B := (Qabs b + 1)%Q). assert (HB : 1 <= Q2R B) by (rewrite <- RMicromega.Q2R_1; apply Qle_Rle; unfold B; pose proof (Qabs_nonneg b); Lqa.lra).
    assert (HbB : Q2R b <= Q2R B) by (apply Qle_Rle; unfold B; pose proof (Qle_Qabs b); Lqa.lra).
    exists (4 * B * B)%Q. split.
    + apply Rle_Qle. rewrite RMicromega.Q2R_0, !Q2R_mult. replace (Q2R 4) with 4 by (unfold Q2R; cbn; lra). nra.
    + apply Rle_Qle. rewrite H, !Q2R_mult. replace (Q2R 4) with 4 by (unfold Q2R; cbn; lra). set (z := Q2R B) in *.
      replace (4 * z * z) with ((2 * z) * (2 * z)) by ring. rewrite sqrt_square by lra.
      pose proof (n24_err (2 * z)) as E. rewrite (Rabs_right (2 * z)) in E by lra. apply Rabs_le_inv in E. lra.
  - intros x Hx. apply Rlt_Qlt. rewrite !H. rewrite Q2R_mult. replace (Q2R 3) with 3 by (unfold Q2R; cbn; lra).
    rewrite sqrt_mult by (pose proof (P x Hx); lra). assert (S3 : 17 / 10 < sqrt 3).
    { rewrite <- (sqrt_square (17 / 10)) by lra. apply sqrt_lt_1; lra. }
    pose proof (sqrt_lt_R0 _ (P x Hx)) as S. set (s := sqrt (Q2R x)) in *. assert (G : 17 / 10 * s <= sqrt 3 * s) by nra.
    apply n24_le in G. pose proof (n24_err s) as E1. pose proof (n24_err (17 / 10 * s)) as E2.
    rewrite (Rabs_right s) in E1 by lra. rewrite (Rabs_right (17 / 10 * s)) in E2 by lra. apply Rabs_le_inv in E1. apply Rabs_le_inv in E2. lra.
Qed.
Print Assumptions C44_rounded_sqrt.
(** Centers of cells as real points; the real distance from the center of a cell to the cube of another *)
Definition real_distance_to_cell (w : Q) (c o : idx3) (d : R) : Prop :=
  exists y, in_cube w o y /\ d = sqrt (Q2R (sqd (center w c) y)) /\ forall y', in_cube w o y' -> d <= sqrt (Q2R (sqd (center w c) y')).
(** Both generators end; the values of the full Euclidean one are real distances to cells of the other kind, up to the rounding of the root *)
Theorem C44_rounded : forall rt w maxd thr lf C m, rounds_to sqrt rt -> (0 < w)%Q -> (0 < maxd)%Q -> valid_config C -> hashed_reachable C m -> enough lf ->
  (exists n, forall fuel, (n <= fuel)%nat -> exists f, quasi_sdf w maxd thr rt lf fuel C m = Some f /\ sdf_sound thr maxd C m f) /\
  ((rt ((3 # 4) * (w * w)) < maxd)%Q -> exists n, forall fuel, (n <= fuel)%nat -> exists f, full_sdf w maxd thr rt lf fuel C m = Some f /\ sdf_sound thr maxd C m f /\
     forall c, (f c == maxd)%Q \/
       cell_is thr C m c CFree /\ (exists o d, cell_is thr C m o COccupied /\ real_distance_to_cell w c o d /\ Rabs (Q2R (f c) - d) <= / 16777216 * d) \/
       cell_is thr C m c COccupied /\ (exists o d, cell_is thr C m o CFree /\ real_distance_to_cell w c o d /\ Rabs (- Q2R (f c) - d) <= / 16777216 * d)).
Proof.
  intros rt w maxd thr lf C m Hrt Hw Hm HC Hr Hlf. destruct C44_rounded_sqrt as [_ SL]. specialize (SL rt Hrt). split.
  - destruct (C44_quasi_terminates w maxd thr rt lf C m HC Hr Hlf SL Hw Hm) as (n & Hn). exists n. intros fuel Hf. destruct (Hn fuel Hf) as (f & E).
    exists f. split; [exact E|]. exact (C44_quasi_sound_partial w maxd thr rt lf C m HC Hr Hlf SL Hw Hm fuel f E).
  - intros Hb. destruct (C44_full_terminates w maxd thr rt lf C m HC Hr Hlf SL Hw Hm Hb) as (n & Hn). exists n. intros fuel Hf. destruct (Hn fuel Hf) as (f & E).
    exists f. split; [exact E|]. split; [exact (C44_full_sound_partial w maxd thr rt lf C m HC Hr Hlf SL Hw Hm Hb fuel f E)|]. intros c.
    assert (K : forall o d, dist_to_cell w rt c o d -> exists d', real_distance_to_cell w c o d' /\ Rabs (Q2R d - d') <= / 16777216 * d').
    { intros o d (y & Iy & Ly & Ed). exists (sqrt (Q2R (sqd (center w c) y))). split.
      - exists y. split; [exact Iy|]. split; [reflexivity|]. intros y' Iy'. apply sqrt_le_1_alt, Qle_Rle. auto.
      - rewrite (Qeq_eqR _ _ Ed), Hrt. pose proof (n24_err (sqrt (Q2R (sqd (center w c) y)))) as X.
        rewrite (Rabs_right (sqrt _)) in X by (apply Rle_ge, sqrt_pos). exact X. }
    destruct (C44_full_distance w maxd thr rt lf C m HC Hr Hlf SL Hw Hm Hb fuel f c E) as [A|[[A (o & B & D)]|[A (o & B & D)]]]; [left; exact A|right; left|right; right].
    + split; [exact A|]. destruct (K o _ D) as (d' & D1 & D2). exists o, d'. auto.
    + split; [exact A|]. destruct (K o _ D) as (d' & D1 & D2). exists o, d'. rewrite Q2R_opp in D2. auto.
Qed.
Print Assumptions C44_rounded.
Example C44_rounded_hyps : exists rt, rounds_to sqrt rt /\ (0 < 1)%Q /\ (rt ((3 # 4) * (1 * 1)) < 4)%Q /\ valid_config exC /\ hashed_reachable exC exm44 /\ enough exlf.
Proof.
  exists (rounded sqrt). pose proof (rounded_ok sqrt) as H. split; [exact H|]. split; [reflexivity|]. split.
  - apply Rlt_Qlt. rewrite H. replace (Q2R ((3 # 4) * (1 * 1))) with (3 / 4) by (unfold Q2R; cbn; lra). replace (Q2R 4) with 4 by (unfold Q2R; cbn; lra).
    assert (sqrt (3 / 4) <= 1) by (rewrite <- sqrt_1; apply sqrt_le_1_alt; lra). pose proof (n24_err (sqrt (3 / 4))) as X.
    rewrite (Rabs_right (sqrt _)) in X by (apply Rle_ge, sqrt_pos). apply Rabs_le_inv in X. lra.
  - split; [exact exC_valid|]. split; [exists exs; reflexivity|exact C44_enough].
Qed.

(** ** C45: the measurement models *)
(** The logarithm needs no assumption; the root must be exact at one argument, which it is if six times [angle_sigma] has at most 24 bits. *)
Theorem C45_rounded : (exists fsqrt flog, rounds_to sqrt fsqrt /\ rounds_to ln flog) /\
  (forall flog, rounds_to ln flog -> log_like flog) /\
  forall fsqrt c, rounds_to sqrt fsqrt -> (0 < angle_sigma c)%Q -> generic_format radix2 (FLX_exp 24) (Q2R (6 * angle_sigma c)) -> sqrt_like fsqrt c.
Proof.
  split; [exists (rounded sqrt), (rounded ln); split; apply rounded_ok|]. split.
  - intros flog H. split.
    + apply eqR_Qeq. rewrite H, RMicromega.Q2R_1, ln_1, RMicromega.Q2R_0. apply n24_exact. apply generic_format_0.
    + intros x y Hx Hxy. apply (rounds_le ln); [exact H|]. assert (0 < Q2R x) by (rewrite <- RMicromega.Q2R_0; apply Qlt_Rlt; exact Hx).
      apply Qle_Rle in Hxy. destruct Hxy as [L|L]; [left; apply ln_increasing; assumption|rewrite L; right; reflexivity].
  - intros fsqrt c H Hp G. split.
    + intros x y Hx Hxy. apply (rounds_le sqrt); [exact H|]. apply sqrt_le_1_alt, Qle_Rle. exact Hxy.
    + apply eqR_Qeq. rewrite H, Q2R_mult, sqrt_square; [apply n24_exact; exact G|].
      rewrite <- RMicromega.Q2R_0. apply Qle_Rle. Lqa.lra.
Qed.
Print Assumptions C45_rounded.
(** Any single precision value of six times [angle_sigma]: for example 3/64 *)
Example C45_rounded_hyps : generic_format radix2 (FLX_exp 24) (Q2R (6 * (1 # 128))).
Proof.
  replace (Q2R (6 * (1 # 128))) with (F2R (Float radix2 3 (-6))) by (unfold F2R, Q2R; cbn; lra).
  apply generic_format_FLX. exists (Float radix2 3 (-6)); [reflexivity|]. cbn. lia.
Qed.
