(** Property theorems C83: cell widths and node heights. *)
From Verif Require Import Base M_IntMath M_ApproxFloat M_FloatIndex M_CellWidth F_Float P_FloatIndex P_Prob.
From Coq Require Import QArith Qround Qreals Reals Lra Lia Psatz.
From Flocq Require Import Core Relative IEEE754.BinarySingleNaN.
Close Scope Q_scope.
Open Scope R_scope.

(** ** Specification *)
Definition log2 (x : R) : R := ln x / ln 2.
(** Floats in the range of normal numbers (up to 2^126) *)
Definition normal (x : float32) : Prop := is_finite x = true /\ bpow radix2 (-126) <= B2R x <= bpow radix2 126.
(** A usable logarithm: nearly exact, exact at powers of two, and monotone *)
Record good_log2 (f : float32 -> float32) : Prop := {
  gl_accurate : forall x, normal x -> is_finite (f x) = true /\ Rabs (B2R (f x) - log2 (B2R x)) <= / 4194304 * Rabs (log2 (B2R x));
  gl_exact : forall x k, normal x -> B2R x = bpow radix2 k -> B2R (f x) = IZR k;
  gl_monotone : forall x y, normal x -> normal y -> B2R x <= B2R y -> B2R (f x) <= B2R (f y) }.
(** Widths between 2^-60 and 2^60 metres *)
Definition plausible (w : float32) : Prop := is_finite w = true /\ bpow radix2 (-60) <= B2R w <= bpow radix2 60.
(** The width of nodes at height [h], exactly *)
Definition node_width (m : float32) (h : Z) : R := B2R m * bpow radix2 h.

(** ** Proofs *)
Lemma ln2_pos : 0 < ln 2. Proof. rewrite <- ln_1. apply ln_increasing; lra. Qed.
Lemma log2_bpow k : log2 (bpow radix2 k) = IZR k.
Proof.
  unfold log2. rewrite bpow_exp. rewrite ln_exp. change (IZR radix2) with 2. field. apply Rgt_not_eq, ln2_pos.
Qed.
Lemma log2_le x y : 0 < x -> x <= y -> log2 x <= log2 y.
Proof.
  intros Hx H. unfold log2. apply Rmult_le_compat_r; [left; apply Rinv_0_lt_compat, ln2_pos|]. destruct H as [H| ->]; [left; apply ln_increasing; assumption|right; reflexivity].
Qed.
Lemma log2_lt x y : 0 < x -> x < y -> log2 x < log2 y.
Proof. intros Hx H. unfold log2. apply Rmult_lt_compat_r; [apply Rinv_0_lt_compat, ln2_pos|]. apply ln_increasing; assumption. Qed.

Lemma ln_lower y : 0 < y -> 1 - / y <= ln y.
Proof.
  intros H. pose proof (Rinv_0_lt_compat y H) as Hi. rewrite <- (exp_ln (/ y)) by exact Hi. rewrite ln_Rinv by exact H.
  destruct (Req_dec (ln y) 0) as [E|E]; [rewrite E, Ropp_0, exp_0; lra|]. pose proof (exp_ineq1 (- ln y) ltac:(lra)). lra.
Qed.
Lemma format_bpow k : (-149 <= k)%Z -> generic_format radix2 (SpecFloat.fexp fprec femax) (bpow radix2 k).
Proof. intros H. replace (bpow radix2 k) with (1 * bpow radix2 k) by ring. apply (format32 1 k); lia. Qed.
Lemma of_real x : generic_format radix2 (SpecFloat.fexp fprec femax) x -> Rabs x <= bpow radix2 126 ->
  let y := binary_normalize fprec femax fprec_pos fprec_emax mode_NE (Ztrunc (scaled_mantissa radix2 (SpecFloat.fexp fprec femax) x))
    (cexp radix2 (SpecFloat.fexp fprec femax) x) false in is_finite y = true /\ B2R y = x.
Proof.
  intros F H y. pose proof (binary_normalize_correct fprec femax fprec_pos fprec_emax mode_NE (Ztrunc (scaled_mantissa radix2 (SpecFloat.fexp fprec femax) x))
    (cexp radix2 (SpecFloat.fexp fprec femax) x) false) as C. cbv zeta in C. fold y in C. rewrite <- F in C.
  rewrite no_overflow32 in C by exact H. destruct C as (C1 & C2 & _). split; [exact C2|]. rewrite C1. apply rnd32_format. exact F.
Qed.
Lemma pow_float k : (-126 <= k <= 126)%Z -> exists x : float32, normal x /\ B2R x = bpow radix2 k.
Proof.
  intros H. destruct (of_real (bpow radix2 k)) as (F & E); [apply format_bpow; lia|rewrite Rabs_pos_eq by apply bpow_ge_0; apply bpow_le; lia|].
  eexists. split; [|exact E]. split; [exact F|]. rewrite E. split; apply bpow_le; lia.
Qed.
(** Rounding does not pass a power of two unless the number is more than half an ulp away from it. *)
Lemma round_at_bpow k z : (-126 <= k)%Z -> z < bpow radix2 k * (1 + u32) -> rnd32 z <= bpow radix2 k.
Proof.
  intros Hk Hz. destruct (Rle_lt_dec z (bpow radix2 k)) as [L|L].
  - rewrite <- (rnd32_format (bpow radix2 k)) by (apply format_bpow; lia). apply rnd32_le. exact L.
  - destruct (Rle_lt_dec (rnd32 z) (bpow radix2 k)) as [H|H]; [exact H|exfalso].
    assert (G : generic_format radix2 (SpecFloat.fexp fprec femax) (rnd32 z)) by (apply generic_format_round; [apply fexp_correct; reflexivity|apply valid_rnd_round_mode]).
    pose proof (succ_le_lt radix2 (SpecFloat.fexp fprec femax) _ _ (format_bpow k ltac:(lia)) G H) as S.
    rewrite succ_eq_pos in S by apply bpow_ge_0. rewrite ulp_bpow in S.
    replace (SpecFloat.fexp fprec femax (k + 1)) with (k + -23)%Z in S by (unfold SpecFloat.fexp, SpecFloat.emin, fprec, femax; lia).
    rewrite bpow_plus in S. change (bpow radix2 (-23)) with (/ 8388608) in S.
    pose proof (round_near z (bpow radix2 k) (format_bpow k ltac:(lia))) as N. pose proof (bpow_gt_0 radix2 k).
    rewrite (Rabs_left1 (bpow radix2 k - z)) in N by lra. rewrite Rabs_pos_eq in N by nra. nra.
Qed.
Lemma inv_sharp w : plausible w -> is_finite (fdiv fone w) = true /\ Rabs (B2R (fdiv fone w) * B2R w - 1) < u32 /\
  bpow radix2 (-61) <= B2R (fdiv fone w) <= bpow radix2 61.
Proof.
  intros (F & L & H). pose proof (bpow_gt_0 radix2 (-60)) as P. destruct fone_R as (O1 & O2 & _).
  assert (HI : bpow radix2 (-60) <= 1 / B2R w <= bpow radix2 60).
  { unfold Rdiv. rewrite Rmult_1_l. rewrite (bpow_opp radix2 60) at 1. change 60%Z with (- (-60))%Z at 2. rewrite (bpow_opp radix2 (-60)).
    split; apply Rinv_le; lra. }
  destruct (fdiv_ok fone w O2) as (D1 & D2); [lra|rewrite O1, Rabs_pos_eq by lra; eapply Rle_trans; [apply HI|apply bpow_le; lia]|].
  split; [exact D1|]. rewrite D2, O1. set (z := 1 / B2R w) in *.
  assert (E : Rabs (rnd32 z - z) <= u32 / (1 + u32) * z).
  { assert (X : rnd32 z = round radix2 (FLX_exp 24) (Znearest (fun n => negb (Z.even n))) z).
    { apply (round_FLT_FLX radix2 (-149) 24). rewrite Rabs_pos_eq by lra. change (-149 + 24 - 1)%Z with (-126)%Z.
      eapply Rle_trans; [|apply HI]. apply bpow_le. lia. }
    rewrite X. pose proof (relative_error_N_FLX' radix2 24 eq_refl (fun n => negb (Z.even n)) z) as E.
    rewrite (Rabs_pos_eq z) in E by lra. replace (u_ro radix2 24) with u32 in E; [exact E|]. unfold u_ro. change (-24 + 1)%Z with (-23)%Z. cbn. lra. }
  assert (W : z * B2R w = 1) by (unfold z; field; lra).
  assert (U : u32 / (1 + u32) < u32) by lra.
  apply rabs_split in E. split.
  - apply Rabs_def1; nra.
  - split.
    + rewrite <- (rnd32_format (bpow radix2 (-61))) by (apply format_bpow; lia). apply rnd32_le. eapply Rle_trans; [|apply HI]. apply bpow_le; lia.
    + rewrite <- (rnd32_format (bpow radix2 61)) by (apply format_bpow; lia). apply rnd32_le. eapply Rle_trans; [apply HI|]. apply bpow_le; lia.
Qed.
(** The scaled width: a normal number close to the quotient *)
Lemma quotient w m : plausible w -> plausible m -> let y := fmul w (fdiv fone m) in
  normal y /\ B2R y = rnd32 (B2R w * B2R (fdiv fone m)) /\ Rabs (B2R y - B2R w / B2R m) <= / 8000000 * (B2R w / B2R m).
Proof.
  intros (Fw & Lw & Hw) Hm. destruct (inv_sharp m Hm) as (Fi & Ei & Li & Hi). destruct Hm as (Fm & Lm & _). cbv zeta.
  pose proof (bpow_gt_0 radix2 (-60)) as P60. pose proof (bpow_gt_0 radix2 (-61)) as P61.
  set (i := fdiv fone m) in *.
  assert (B : bpow radix2 (-121) <= B2R w * B2R i <= bpow radix2 121).
  { change (-121)%Z with (-60 + -61)%Z. change 121%Z with (60 + 61)%Z. rewrite !bpow_plus. split; apply Rmult_le_compat; lra. }
  pose proof (bpow_gt_0 radix2 (-121)) as P121.
  destruct (fmul_ok w i Fw Fi) as (M1 & M2 & _); [rewrite Rabs_pos_eq by lra; eapply Rle_trans; [apply B|apply bpow_le; lia]|].
  assert (N : normal (fmul w i)).
  { split; [exact M1|]. rewrite M2. split.
    - rewrite <- (rnd32_format (bpow radix2 (-126))) by (apply format_bpow; lia). apply rnd32_le. eapply Rle_trans; [|apply B]. apply bpow_le; lia.
    - rewrite <- (rnd32_format (bpow radix2 126)) by (apply format_bpow; lia). apply rnd32_le. eapply Rle_trans; [apply B|]. apply bpow_le; lia. }
  split; [exact N|]. split; [exact M2|]. rewrite M2. set (z := B2R w * B2R i) in *.
  assert (R1 : Rabs (rnd32 z - z) <= u32 * Rabs z) by (apply rnd32_rel; rewrite Rabs_pos_eq by lra; eapply Rle_trans; [|apply B]; apply bpow_le; lia).
  rewrite (Rabs_pos_eq z) in R1 by lra. set (q := B2R w / B2R m) in *. assert (Z1 : z = q * (B2R i * B2R m)) by (unfold z, q; field; lra).
  assert (Qp : 0 < q) by (unfold q; apply Rdiv_lt_0_compat; lra).
  apply Rabs_def2 in Ei. apply rabs_split in R1. apply Rabs_le. set (t := B2R i * B2R m) in *. nra.
Qed.
Lemma ceil_spec y h : is_finite y = true -> Qceiling (f2q y) = h <-> IZR h - 1 < B2R y <= IZR h.
Proof.
  intros F. rewrite <- (f2q_R y F). set (q := f2q y). clearbody q. clear. pose proof (Qle_ceiling q) as A. pose proof (Qceiling_lt q) as B. apply Qle_Rle in A. apply Qlt_Rlt in B. rewrite Q2R_inject in A, B.
  rewrite minus_IZR in B. split; [intros <-; lra|]. intros (C & D).
  assert (IZR h < IZR (Qceiling q) + 1) as X1 by lra. assert (IZR (Qceiling q) < IZR h + 1) as X2 by lra.
  rewrite <- plus_IZR in X1, X2. apply lt_IZR in X1, X2. lia.
Qed.

Section LOG.
Context (f : float32 -> float32) (G : good_log2 f).
(** What the result says about the scaled width *)
Lemma height_scaled w m h : plausible w -> plausible m -> cell_width_to_height f w m = h ->
  let y := B2R (fmul w (fdiv fone m)) in bpow radix2 (h - 1) < y /\ log2 y <= IZR h + / 4000000 * (Rabs (IZR h) + 1).
Proof.
  intros Hw Hm E y. destruct (quotient w m Hw Hm) as (N & _ & _). unfold cell_width_to_height, fcellWidthToHeight in E.
  destruct (gl_accurate f G _ N) as (Ff & A). apply ceil_spec in E; [|exact Ff]. destruct E as (E1 & E2).
  pose proof N as (Fy & Ly & Hy). fold y in A, Ly, Hy. set (l := B2R (f (fmul w (fdiv fone m)))) in *.
  pose proof (bpow_gt_0 radix2 (-126)) as P126.
  assert (LG : IZR (-126) <= log2 y <= IZR 126). { rewrite <- !log2_bpow. split; apply log2_le; lra. }
  split.
  - destruct (Rlt_le_dec (bpow radix2 (h - 1)) y) as [H|H]; [exact H|exfalso].
    assert (A2 : Rabs (log2 y) <= 126) by (apply Rabs_le; lra). apply rabs_split in A.
    assert (K : (-127 <= h - 1)%Z) by (assert (-127 < IZR h) as X by nra; apply lt_IZR in X; lia).
    assert (T : (h - 1 <= 126)%Z) by (assert (IZR h < 128) as X by nra; apply lt_IZR in X; lia).
    destruct (Z.eq_dec (h - 1) (-127)) as [E|NE].
    + rewrite E in H. assert (bpow radix2 (-127) < bpow radix2 (-126)) by (apply bpow_lt; lia). lra.
    + destruct (pow_float (h - 1) ltac:(lia)) as (x & Nx & Ex).
      pose proof (gl_monotone f G _ _ N Nx) as M. rewrite Ex in M. specialize (M H). rewrite (gl_exact f G x (h - 1) Nx Ex), minus_IZR in M. fold l in M. lra.
  - apply rabs_split in A. destruct (Rle_lt_dec (log2 y) (IZR h)) as [T|T]; [pose proof (Rabs_pos (IZR h)); lra|].
    assert (Rabs (log2 y) <= Rabs (IZR h) + (log2 y - IZR h)). { replace (log2 y) with (IZR h + (log2 y - IZR h)) at 1 by ring. eapply Rle_trans; [apply Rabs_triang|]. rewrite (Rabs_pos_eq (log2 y - IZR h)) by lra. lra. }
    pose proof (Rabs_pos (IZR h)). nra.
Qed.
(** The converse, for the upper side *)
Lemma height_unique w m h : plausible w -> plausible m -> (-120 <= h <= 120)%Z -> let y := B2R (fmul w (fdiv fone m)) in
  y <= bpow radix2 h -> / 4000000 * (Rabs (IZR h) + 1) < log2 y - IZR (h - 1) -> cell_width_to_height f w m = h.
Proof.
  intros Hw Hm Hh y Hy L. destruct (quotient w m Hw Hm) as (N & _ & _). destruct (gl_accurate f G _ N) as (Ff & A). apply ceil_spec; [exact Ff|].
  destruct (pow_float h ltac:(lia)) as (x & Nx & Ex). pose proof (gl_monotone f G _ _ N Nx) as M. rewrite Ex, (gl_exact f G x h Nx Ex) in M. specialize (M Hy).
  split; [|exact M]. fold y in A. apply rabs_split in A. rewrite minus_IZR in L.
  assert (U : log2 y <= IZR h) by (rewrite <- log2_bpow; apply log2_le; [destruct N as (_ & N & _); pose proof (bpow_gt_0 radix2 (-126)); unfold y; lra|exact Hy]).
  assert (Rabs (log2 y) <= Rabs (IZR h) + 1). { apply Rabs_le. pose proof (Rle_abs (IZR h)). pose proof (Rle_abs (- IZR h)). rewrite Rabs_Ropp in *. lra. }
  pose proof (Rabs_pos (IZR h)). nra.
Qed.
End LOG.

(** ** The theorems *)
(** Converting a height to a width and back gives the height again. *)
Theorem C83_roundtrip : forall flog2 m h, good_log2 flog2 -> plausible m -> B2R m <= bpow radix2 30 -> (0 <= h <= 30)%Z ->
  is_finite (height_to_cell_width m h) = true /\ B2R (height_to_cell_width m h) = node_width m h /\
  cell_width_to_height flog2 (height_to_cell_width m h) m = h.
Proof.
  intros f m h G Hm H30 Hh. destruct (usable_node m h (proj1 Hm) (proj2 Hm) Hh) as ((F & _) & E). fold (height_to_cell_width m h) in F, E.
  rewrite (IZR_Zpower radix2) in E by lia. split; [exact F|]. split; [exact E|]. set (w := height_to_cell_width m h) in *.
  pose proof (bpow_gt_0 radix2 h) as Ph. assert (P1 : 1 <= bpow radix2 h) by (change 1 with (bpow radix2 0); apply bpow_le; lia).
  assert (P30 : bpow radix2 h <= bpow radix2 30) by (apply bpow_le; lia). pose proof (bpow_gt_0 radix2 (-60)) as P60. pose proof Hm as (_ & Lm & _).
  assert (Hw : plausible w).
  { split; [exact F|]. rewrite E. split; [nra|]. change 60%Z with (30 + 30)%Z. rewrite bpow_plus. apply Rmult_le_compat; lra. }
  destruct (inv_sharp m Hm) as (Fi & Ei & Li & Hi). destruct (quotient w m Hw Hm) as (N & Ey & _). set (y := fmul w (fdiv fone m)) in *.
  apply Rabs_def2 in Ei. set (i := B2R (fdiv fone m)) in *.
  assert (U : B2R y <= bpow radix2 h). { rewrite Ey. apply round_at_bpow; [lia|]. rewrite E. nra. }
  assert (D : bpow radix2 h * (1 - u32) <= B2R y).
  { rewrite Ey. replace (bpow radix2 h * (1 - u32)) with (IZR 16777215 * bpow radix2 (h + -24)) by (rewrite bpow_plus; change (bpow radix2 (-24)) with u32; lra).
    rewrite <- (rnd32_format (IZR 16777215 * bpow radix2 (h + -24))) by (apply format32; lia). apply rnd32_le. rewrite bpow_plus. change (bpow radix2 (-24)) with u32. rewrite E. nra. }
  apply height_unique; try assumption; [lia|]. fold y.
  assert (X : log2 (bpow radix2 h * (1 - u32)) <= log2 (B2R y)) by (apply log2_le; [nra|exact D]).
  assert (L2 : log2 (bpow radix2 h * (1 - u32)) >= IZR h - / 4).
  { replace (IZR h - / 4) with (IZR h + log2 (exp (- (ln 2 / 4)))) by (unfold log2; rewrite ln_exp; field; apply Rgt_not_eq, ln2_pos).
    rewrite <- (log2_bpow h). unfold log2. rewrite ln_mult by lra. unfold Rdiv. rewrite Rmult_plus_distr_r. apply Rplus_ge_compat_l.
    apply Rmult_ge_compat_r; [left; apply Rinv_0_lt_compat, ln2_pos|]. rewrite ln_exp.
    assert (ln (1 - u32) = - ln (1 / (1 - u32))) as -> by (unfold Rdiv; rewrite Rmult_1_l, ln_Rinv by lra; ring).
    apply Ropp_ge_contravar. apply Rle_ge.
    assert (/ 2 < ln 2) as H2 by exact ln_lt_2. 
    apply Rle_trans with (/ 16); [|lra]. rewrite <- (ln_exp (/ 16)). left. apply ln_increasing; [lra|]. pose proof (exp_ineq1 (/ 16) ltac:(lra)). lra. }
  rewrite minus_IZR. rewrite (Rabs_pos_eq (IZR h)) by (apply IZR_le; lia). assert (IZR h <= 30) by (apply IZR_le; lia). lra.
Qed.


(** The height of a width is the smallest one at which nodes are at least that wide, up to a small relative tolerance: the nodes one level
    below are narrower than the given width, and those at the height at least as wide. *)
Definition width_tolerance (h : Z) : R := (Rabs (IZR h) + 2) / 3000000.
Theorem C83_minimal : forall flog2 w m h, good_log2 flog2 -> plausible w -> plausible m -> cell_width_to_height flog2 w m = h ->
  node_width m (h - 1) * (1 - / 8000000) <= B2R w <= node_width m h * (1 + width_tolerance h).
Proof.
  intros f w m h G Hw Hm E. destruct (height_scaled f G w m h Hw Hm E) as (A & B). destruct (quotient w m Hw Hm) as (N & _ & Q).
  set (y := B2R (fmul w (fdiv fone m))) in *. destruct Hw as (_ & Lw & _). destruct Hm as (_ & Lm & _). pose proof (bpow_gt_0 radix2 (-60)) as P60.
  pose proof (bpow_gt_0 radix2 (h - 1)) as P1. pose proof (bpow_gt_0 radix2 h) as P2.
  set (q := B2R w / B2R m) in *. assert (Wq : B2R w = q * B2R m) by (unfold q; field; lra). assert (Qp : 0 < q) by (unfold q; apply Rdiv_lt_0_compat; lra).
  apply rabs_split in Q. unfold node_width. rewrite Wq. split.
  - assert (bpow radix2 (h - 1) * (1 - / 8000000) <= q) by nra. nra.
  - (* y <= 2^h * exp (eps * ln 2) <= 2^h * (1 + 1.01 eps) *)
    set (e := / 4000000 * (Rabs (IZR h) + 1)) in *.
    assert (Hh : Rabs (IZR h) <= 200).
    { destruct N as (_ & Ny1 & Ny2). fold y in Ny1, Ny2. pose proof (bpow_gt_0 radix2 (-126)) as P126.
      assert (LG : IZR (-126) <= log2 y) by (rewrite <- log2_bpow; apply log2_le; assumption).
      assert (K : (h - 1 < 126)%Z) by (apply (lt_bpow radix2); lra). assert (IZR h <= 126) by (apply IZR_le; lia).
      apply Rabs_le. split; [|lra]. destruct (Rle_lt_dec 0 (IZR h)) as [Z|Z]; [lra|]. unfold e in B. rewrite (Rabs_left (IZR h)) in B by exact Z. lra. }
    assert (E0 : 0 <= e <= / 10000) by (unfold e; pose proof (Rabs_pos (IZR h)); nra).
    assert (Y : y <= bpow radix2 h * exp e).
    { assert (Yp : 0 < y) by (apply (Rlt_trans _ _ _ P1 A)).
      destruct (Rle_lt_dec y (bpow radix2 h * exp e)) as [T|T]; [exact T|exfalso].
      apply log2_lt in T; [|apply Rmult_lt_0_compat; [exact P2|apply exp_pos]]. unfold log2 at 1 in T. rewrite ln_mult, ln_exp in T by (try apply exp_pos; exact P2).
      unfold Rdiv in T. rewrite Rmult_plus_distr_r in T. fold (ln (bpow radix2 h) / ln 2) in T. fold (log2 (bpow radix2 h)) in T. rewrite log2_bpow in T.
      assert (e <= e * / ln 2). { rewrite <- (Rmult_1_r e) at 1. apply Rmult_le_compat_l; [lra|]. rewrite <- Rinv_1. apply Rinv_le; [apply ln2_pos|].
        rewrite <- (ln_exp 1). left. apply ln_increasing; [lra|]. pose proof (exp_ineq1 1 ltac:(lra)). lra. }
      lra. }
    assert (X : exp e <= 1 + e * (1 + / 1000)).
    { assert (X1 : 1 - e <= exp (- e)) by (destruct (Req_dec e 0) as [->|NZ]; [rewrite Ropp_0, exp_0; lra|pose proof (exp_ineq1 (- e) ltac:(lra)); lra]).
      assert (X2 : exp e * exp (- e) = 1) by (rewrite <- exp_plus; replace (e + - e) with 0 by ring; apply exp_0). pose proof (exp_pos e) as X3.
      assert (exp e * (1 - e) <= 1) by (rewrite <- X2; apply Rmult_le_compat_l; lra).
      apply Rmult_le_reg_r with (1 - e); [lra|]. nra. }
    assert (q <= bpow radix2 h * (1 + width_tolerance h)).
    { unfold width_tolerance. pose proof (Rabs_pos (IZR h)) as PH. set (H := Rabs (IZR h)) in *.
      assert (S1 : q * (1 - / 8000000) <= bpow radix2 h * (1 + e * (1 + / 1000))) by nra.
      assert (S2 : 1 + e * (1 + / 1000) <= (1 + (H + 2) / 3000000) * (1 - / 8000000)) by (unfold e; lra).
      apply Rmult_le_reg_r with (1 - / 8000000); [lra|]. eapply Rle_trans; [exact S1|]. rewrite Rmult_assoc. apply Rmult_le_compat_l; [lra|exact S2]. }
    nra.
Qed.

(** Away from the widths of nodes the answer is exact. *)
Theorem C83_exact : forall flog2 w m h, good_log2 flog2 -> plausible w -> plausible m -> (-120 <= h <= 120)%Z ->
  node_width m (h - 1) * (1 + width_tolerance h) < B2R w <= node_width m h * (1 - / 5000000) -> cell_width_to_height flog2 w m = h.
Proof.
  intros f w m h G Hw Hm Hh (A & B). destruct (quotient w m Hw Hm) as (N & _ & Q). apply height_unique; try assumption.
  all: set (y := B2R (fmul w (fdiv fone m))) in *; destruct Hw as (_ & Lw & _); destruct Hm as (_ & Lm & _); pose proof (bpow_gt_0 radix2 (-60)) as P60;
    pose proof (bpow_gt_0 radix2 (h - 1)) as P1; pose proof (bpow_gt_0 radix2 h) as P2;
    set (q := B2R w / B2R m) in *; assert (Wq : B2R w = q * B2R m) by (unfold q; field; lra); assert (Qp : 0 < q) by (unfold q; apply Rdiv_lt_0_compat; lra);
    apply rabs_split in Q; unfold node_width in A, B; rewrite Wq in A, B; assert (Hq : 0 < B2R m) by lra.
  - assert (q <= bpow radix2 h * (1 - / 5000000)). { apply Rmult_le_reg_r with (B2R m); [exact Hq|]. lra. } nra.
  - assert (Q1 : bpow radix2 (h - 1) * (1 + width_tolerance h) < q). { apply Rmult_lt_reg_r with (B2R m); [exact Hq|]. lra. }
    pose proof (Rabs_pos (IZR h)) as PH. assert (HH : Rabs (IZR h) <= 120) by (rewrite <- abs_IZR; apply IZR_le; lia).
    unfold width_tolerance in Q1. set (H := Rabs (IZR h)) in *.
    assert (Y : bpow radix2 (h - 1) * (1 + (H + 1) / 3500000) < y).
    { assert (S : 1 + (H + 1) / 3500000 <= (1 + (H + 2) / 3000000) * (1 - / 8000000)) by lra. nra. }
    assert (E0 : 0 < (H + 1) / 3500000 <= / 10000) by lra. set (t := (H + 1) / 3500000) in *.
    assert (LT : log2 (bpow radix2 (h - 1) * (1 + t)) < log2 y) by (apply log2_lt; [apply Rmult_lt_0_compat; lra|exact Y]).
    unfold log2 at 1 in LT. rewrite ln_mult in LT by lra. unfold Rdiv in LT. rewrite Rmult_plus_distr_r in LT. fold (ln (bpow radix2 (h - 1)) / ln 2) in LT. fold (log2 (bpow radix2 (h - 1))) in LT. rewrite log2_bpow in LT.
    pose proof (ln_lower (1 + t) ltac:(lra)) as GL. pose proof ln2_pos as L0.
    assert (L1 : ln 2 <= 1) by (rewrite <- (ln_exp 1); left; apply ln_increasing; [lra|]; pose proof (exp_ineq1 1 ltac:(lra)); lra).
    assert (GT : t * (1 - / 5000) <= 1 - / (1 + t)). { assert (/ (1 + t) * (1 + t) = 1) by (apply Rinv_l; lra). apply Rmult_le_reg_r with (1 + t); [lra|]. nra. }
    assert (LM : ln (1 + t) <= ln (1 + t) * / ln 2). { rewrite <- (Rmult_1_r (ln (1 + t))) at 1. apply Rmult_le_compat_l; [nra|]. rewrite <- Rinv_1. apply Rinv_le; assumption. }
    unfold t in *. lra.
Qed.
(** A wider cell never gets a smaller height. *)
Theorem C83_monotone : forall flog2 w w' m, good_log2 flog2 -> plausible w -> plausible w' -> plausible m -> B2R w <= B2R w' ->
  (cell_width_to_height flog2 w m <= cell_width_to_height flog2 w' m)%Z.
Proof.
  intros f w w' m G Hw Hw' Hm L. destruct (quotient w m Hw Hm) as (N & E & _). destruct (quotient w' m Hw' Hm) as (N' & E' & _).
  destruct (inv_sharp m Hm) as (_ & _ & I & _). pose proof (bpow_gt_0 radix2 (-61)) as P61.
  assert (M : B2R (fmul w (fdiv fone m)) <= B2R (fmul w' (fdiv fone m))) by (rewrite E, E'; apply rnd32_le; apply Rmult_le_compat_r; lra).
  apply (gl_monotone f G _ _ N N') in M. destruct (gl_accurate f G _ N) as (F & _). destruct (gl_accurate f G _ N') as (F' & _).
  destruct (proj1 (ceil_spec _ (cell_width_to_height f w m) F) eq_refl) as (A & _). destruct (proj1 (ceil_spec _ (cell_width_to_height f w' m) F') eq_refl) as (_ & B).
  assert (IZR (cell_width_to_height f w m) < IZR (cell_width_to_height f w' m) + 1) as X by lra. rewrite <- plus_IZR in X. apply lt_IZR in X. lia.
Qed.

(** ** A usable logarithm: the exact one, rounded *)
Definition clog2 (x : float32) : float32 :=
  let r := rnd32 (log2 (B2R x)) in
  binary_normalize fprec femax fprec_pos fprec_emax mode_NE (Ztrunc (scaled_mantissa radix2 (SpecFloat.fexp fprec femax) r)) (cexp radix2 (SpecFloat.fexp fprec femax) r) false.
Lemma clog2_ok x : normal x -> is_finite (clog2 x) = true /\ B2R (clog2 x) = rnd32 (log2 (B2R x)).
Proof.
  intros (F & L & H). apply of_real; [apply generic_format_round; [apply fexp_correct; reflexivity|apply valid_rnd_round_mode]|].
  pose proof (bpow_gt_0 radix2 (-126)) as P126.
  assert (LG : IZR (-126) <= log2 (B2R x) <= IZR 126) by (rewrite <- !log2_bpow; split; apply log2_le; lra).
  assert (forall k, (Z.abs k <= 126)%Z -> rnd32 (IZR k) = IZR k) as RI.
  { intros k Hk. apply rnd32_format. replace (IZR k) with (IZR k * bpow radix2 0) by (cbn; ring). apply format32; lia. }
  assert (128 <= bpow radix2 126) by (change 128 with (bpow radix2 7); apply bpow_le; lia).
  apply Rabs_le. destruct LG as (G1 & G2). apply rnd32_le in G1, G2. rewrite RI in G1, G2 by lia. lra.
Qed.
(** The numbers next to 1 are not so close that their logarithm could underflow. *)
Lemma log2_not_tiny x : normal x -> log2 (B2R x) <> 0 -> bpow radix2 (-126) <= Rabs (log2 (B2R x)).
Proof.
  intros (F & L & H) NZ. pose proof (bpow_gt_0 radix2 (-126)) as P126. set (r := B2R x) in *.
  assert (Fr : generic_format radix2 (SpecFloat.fexp fprec femax) r) by apply generic_format_B2R.
  assert (F1 : generic_format radix2 (SpecFloat.fexp fprec femax) 1) by (change 1 with (bpow radix2 0); apply format_bpow; lia).
  assert (T : bpow radix2 (-126) <= bpow radix2 (-24)) by (apply bpow_le; lia). change (bpow radix2 (-24)) with u32 in T.
  assert (L1 : ln 2 <= 1) by (rewrite <- (ln_exp 1); left; apply ln_increasing; [lra|]; pose proof (exp_ineq1 1 ltac:(lra)); lra). pose proof ln2_pos as L0.
  assert (S : u32 <= Rabs (ln r)).
  { destruct (Rtotal_order r 1) as [C|[C|C]].
    - pose proof (pred_ge_gt radix2 (SpecFloat.fexp fprec femax) r 1 Fr F1 C) as S. change 1 with (bpow radix2 0) in S. rewrite pred_bpow in S.
      change (bpow radix2 0) with 1 in S. change (bpow radix2 (SpecFloat.fexp fprec femax 0)) with u32 in S.
      pose proof (ln_lower (/ r) ltac:(apply Rinv_0_lt_compat; lra)) as G. rewrite Rinv_inv, ln_Rinv in G by lra.
      rewrite Rabs_left1 by lra. lra.
    - exfalso. apply NZ. unfold log2. rewrite C, ln_1. unfold Rdiv. ring.
    - pose proof (succ_le_lt radix2 (SpecFloat.fexp fprec femax) 1 r F1 Fr C) as S. rewrite succ_eq_pos in S by lra. change 1 with (bpow radix2 0) in S. rewrite ulp_bpow in S.
      change (bpow radix2 0) with 1 in S. change (bpow radix2 (SpecFloat.fexp fprec femax (0 + 1))) with (/ 8388608) in S.
      pose proof (ln_lower r ltac:(lra)) as G. assert (/ r <= 1 - u32). { apply Rmult_le_reg_r with r; [lra|]. rewrite Rinv_l by lra. nra. }
      rewrite Rabs_pos_eq by lra. lra. }
  unfold log2. unfold Rdiv. rewrite Rabs_mult, (Rabs_pos_eq (/ ln 2)) by (left; apply Rinv_0_lt_compat; exact L0).
  assert (1 <= / ln 2) by (rewrite <- Rinv_1; apply Rinv_le; assumption). pose proof (Rabs_pos (ln r)). nra.
Qed.
Lemma clog2_good : good_log2 clog2.
Proof.
  constructor.
  - intros x N. destruct (clog2_ok x N) as (F & E). split; [exact F|]. rewrite E. destruct (Req_dec (log2 (B2R x)) 0) as [Z|Z].
    + rewrite Z. rewrite rnd32_format by apply generic_format_0. rewrite Rabs_R0, Rminus_0_r, Rabs_R0. lra.
    + eapply Rle_trans; [apply rnd32_rel; apply log2_not_tiny; assumption|]. apply Rmult_le_compat_r; [apply Rabs_pos|lra].
  - intros x k N E. rewrite (proj2 (clog2_ok x N)), E, log2_bpow. apply rnd32_format. replace (IZR k) with (IZR k * bpow radix2 0) by (cbn; ring).
    apply format32; [|lia]. destruct N as (_ & L & H). rewrite E in L, H. apply le_bpow in L, H. lia.
  - intros x y Nx Ny H. rewrite (proj2 (clog2_ok x Nx)), (proj2 (clog2_ok y Ny)). apply rnd32_le, log2_le; [|exact H].
    destruct Nx as (_ & L & _). pose proof (bpow_gt_0 radix2 (-126)). lra.
Qed.
Example C83_log2_exists : exists flog2, good_log2 flog2.
Proof. exists clog2. exact clog2_good. Qed.

(** ** What does not hold *)
(** Not exactly: a width just above that of the nodes at height 20 gets height 20, although those nodes are narrower than it. *)
Definition w20 : float32 := @B754_finite fprec femax false 8388609 (-3) (eq_refl true).
Theorem C83_minimal_refuted : exists flog2 w m h, good_log2 flog2 /\ plausible w /\ plausible m /\ cell_width_to_height flog2 w m = h /\ node_width m h < B2R w.
Proof.
  exists clog2, w20, fone, 20%Z. split; [exact clog2_good|].
  assert (W : B2R w20 = 1048576 * (1 + / 8388608)) by (unfold w20; cbn; unfold F2R; cbn; lra).
  assert (Pw : plausible w20).
  { split; [reflexivity|]. rewrite W. split; [apply Rle_trans with (bpow radix2 0); [apply bpow_le; lia|cbn; lra]|apply Rle_trans with (bpow radix2 30); [cbn; lra|apply bpow_le; lia]]. }
  destruct fone_R as (O1 & O2 & _).
  assert (P1 : plausible fone).
  { split; [exact O2|]. rewrite O1. change 1 with (bpow radix2 0). split; apply bpow_le; lia. }
  split; [exact Pw|]. split; [exact P1|]. split; [|unfold node_width; rewrite O1, W; change (bpow radix2 20) with 1048576; lra].
  assert (Y : fmul w20 (fdiv fone fone) = w20) by (apply B2SF_inj; vm_compute; reflexivity).
  unfold cell_width_to_height, fcellWidthToHeight. rewrite Y.
  assert (N : normal w20) by (destruct (quotient w20 fone Pw P1) as (N & _); rewrite Y in N; exact N).
  destruct (clog2_ok w20 N) as (F & E). apply ceil_spec; [exact F|]. rewrite E.
  assert (L : log2 1048576 = 20) by (change 1048576 with (bpow radix2 20); apply log2_bpow).
  assert (A : 20 <= log2 (B2R w20)) by (rewrite <- L; apply log2_le; [lra|rewrite W; lra]).
  assert (B : log2 (B2R w20) <= 20 + / 2097152).
  { rewrite W. unfold log2. rewrite ln_mult by lra. unfold Rdiv. rewrite Rmult_plus_distr_r. fold (ln 1048576 / ln 2) in *. fold (log2 1048576). rewrite L. apply Rplus_le_compat_l.
    assert (ln (1 + / 8388608) <= / 8388608) by (apply Rle_trans with (ln (exp (/ 8388608))); [left; apply ln_increasing; [lra|]; apply exp_ineq1; lra|rewrite ln_exp; lra]).
    assert (/ ln 2 <= 2) by (replace 2 with (/ / 2) at 2 by lra; apply Rinv_le; [lra|left; exact ln_lt_2]).
    assert (0 <= ln (1 + / 8388608)) by (rewrite <- ln_1; left; apply ln_increasing; lra). pose proof ln2_pos as L0. apply Rinv_0_lt_compat in L0. nra. }
  apply rnd32_le in A, B.
  assert (R20 : rnd32 20 = 20) by (apply rnd32_format; replace 20 with (IZR 20 * bpow radix2 0) by (cbn; ring); apply format32; lia).
  assert (R2 : rnd32 (20 + / 2097152) <= 20).
  { destruct (f_of_int_ok 20 ltac:(lia)) as (F20 & E20 & _). pose (s := @B754_finite fprec femax false 8388608 (-44) (eq_refl true) : float32).
    assert (Es : B2R s = / 2097152) by (unfold s; cbn; unfold F2R; cbn; lra).
    destruct (fadd_ok (f_of_int 20) s F20 eq_refl) as (_ & S & _).
    { rewrite E20, Es, Rabs_pos_eq by lra. apply Rle_trans with (bpow radix2 5); [cbn; lra|apply bpow_le; lia]. }
    rewrite E20, Es in S. rewrite <- S. replace (fadd (f_of_int 20) s) with (f_of_int 20) by (apply B2SF_inj; vm_compute; reflexivity). rewrite E20. lra. }
  rewrite R20 in A. change (IZR 20) with 20. lra.
Qed.
(** Widths below the smallest cell width give negative heights, which no node of a map has. *)
Theorem C83_negative_refuted : exists w m, plausible w /\ plausible m /\ 0 < B2R w /\ forall flog2, good_log2 flog2 -> cell_width_to_height flog2 w m = (-1)%Z.
Proof.
  exists fhalf, fone. destruct fone_R as (O1 & O2 & _). destruct fhalf_R as (H1 & H2 & _).
  assert (Ph : plausible fhalf).
  { split; [exact H2|]. rewrite H1. change (/ 2) with (bpow radix2 (-1)). split; apply bpow_le; lia. }
  assert (P1 : plausible fone).
  { split; [exact O2|]. rewrite O1. change 1 with (bpow radix2 0). split; apply bpow_le; lia. }
  split; [exact Ph|]. split; [exact P1|]. split; [rewrite H1; lra|]. intros f G.
  assert (Y : fmul fhalf (fdiv fone fone) = fhalf) by (apply B2SF_inj; vm_compute; reflexivity).
  unfold cell_width_to_height, fcellWidthToHeight. rewrite Y.
  assert (N : normal fhalf) by (destruct (quotient fhalf fone Ph P1) as (N & _); rewrite Y in N; exact N).
  destruct (gl_accurate f G _ N) as (F & _). apply ceil_spec; [exact F|]. rewrite (gl_exact f G fhalf (-1) N) by exact H1. lra.
Qed.
(** Example: nodes of height 3 for cells of 3 cm *)
Example C83_ex : plausible w3cm /\ B2R w3cm <= bpow radix2 30 /\ B2R (height_to_cell_width w3cm 3) = B2R w3cm * 8.
Proof.
  assert (U : B2R w3cm <= 1 /\ / 64 <= B2R w3cm) by (unfold w3cm; cbn; unfold F2R; cbn; lra). destruct U as (U1 & U2).
  assert (Pm : plausible w3cm).
  { split; [reflexivity|]. split; [apply Rle_trans with (bpow radix2 (-6)); [apply bpow_le; lia|change (bpow radix2 (-6)) with (/ 64); lra]|apply Rle_trans with (bpow radix2 0); [change (bpow radix2 0) with 1; lra|apply bpow_le; lia]]. }
  split; [exact Pm|]. split; [apply Rle_trans with (bpow radix2 0); [change (bpow radix2 0) with 1; lra|apply bpow_le; lia]|].
  destruct (C83_roundtrip clog2 w3cm 3 clog2_good Pm) as (_ & E & _); [apply Rle_trans with (bpow radix2 0); [change (bpow radix2 0) with 1; lra|apply bpow_le; lia]|lia|]. exact E.
Qed.
Print Assumptions C83_roundtrip.
Print Assumptions C83_minimal.
Print Assumptions C83_exact.
Print Assumptions C83_monotone.
Print Assumptions C83_log2_exists.
Print Assumptions C83_minimal_refuted.
Print Assumptions C83_negative_refuted.
