(** * C65: the approximate arc tangent in single precision *)
From Verif Require Import M_Image M_Intersector M_ApproxTrig M_ApproxFloat F_ApproxTrig P_ApproxTrig.
From Coq Require Import ZArith Reals QArith Qreals Qabs Lra Lia Psatz.
From Flocq Require Import Core Relative IEEE754.BinarySingleNaN.
Close Scope Q_scope.
Open Scope R_scope.

(** ** One operation *)
Notation rnd := (round radix2 (SpecFloat.fexp fprec femax) (round_mode mode_NE)).
Notation ulpc := (/ 16777216).
Notation tiny := (/ 1000000000000).
Lemma rnd_err x : Rabs (rnd x - x) <= ulpc * Rabs x + tiny.
Proof.
  destruct (relative_error_N_FLT'_ex radix2 (-149) 24 eq_refl (fun n => negb (Z.even n)) x) as (eps & eta & A & B & _ & E).
  assert (E' : rnd x = x * (1 + eps) + eta) by exact E. rewrite E'. replace (x * (1 + eps) + eta - x) with (x * eps + eta) by ring.
  eapply Rle_trans; [apply Rabs_triang|]. rewrite Rabs_mult.
  assert (U : u_ro radix2 24 = ulpc). { unfold u_ro. change (-24 + 1)%Z with (-23)%Z. cbn. lra. }
  rewrite U in A. assert (A' : Rabs eps <= ulpc). { eapply Rle_trans; [exact A|]. unfold Rdiv. lra. }
  assert (B' : bpow radix2 (-149) <= bpow radix2 (-41)) by (apply bpow_le; lia). change (bpow radix2 (-41)) with (/ 2199023255552) in B'.
  pose proof (Rabs_pos x). nra.
Qed.
Lemma no_overflow z : Rabs z <= 100 -> Rlt_bool (Rabs (rnd z)) (bpow radix2 femax) = true.
Proof.
  intros H. apply Rlt_bool_true. pose proof (rnd_err z) as E. assert (B : bpow radix2 8 <= bpow radix2 femax) by (apply bpow_le; unfold femax; lia). change (bpow radix2 8) with 256 in B.
  apply rabs_inv in E. apply rabs_inv in H. assert (Rabs z <= 100) by (apply Rabs_le; lra). apply Rle_lt_trans with 200; [|lra]. apply Rabs_le. lra.
Qed.
(** [r] is a finite float that is as close to [z] as rounding allows. *)
Definition close (r : float32) (z : R) : Prop := is_finite r = true /\ Rabs (B2R r - z) <= ulpc * Rabs z + tiny.
Lemma fmul_close x y : is_finite x = true -> is_finite y = true -> Rabs (B2R x * B2R y) <= 100 -> close (fmul x y) (B2R x * B2R y).
Proof.
  intros Fx Fy H. pose proof (Bmult_correct fprec femax fprec_pos fprec_emax mode_NE x y) as C. rewrite no_overflow in C by exact H. destruct C as (C1 & C2 & _).
  split; [unfold fmul; rewrite C2, Fx, Fy; reflexivity|]. unfold fmul. rewrite C1. apply rnd_err.
Qed.
Lemma ffma_close x y z : is_finite x = true -> is_finite y = true -> is_finite z = true -> Rabs (B2R x * B2R y + B2R z) <= 100 -> close (ffma x y z) (B2R x * B2R y + B2R z).
Proof.
  intros Fx Fy Fz H. pose proof (Bfma_correct fprec femax fprec_pos fprec_emax mode_NE x y z Fx Fy Fz) as C. cbv zeta in C. rewrite no_overflow in C by exact H. destruct C as (C1 & C2 & _).
  split; [exact C2|]. unfold ffma. rewrite C1. apply rnd_err.
Qed.
Lemma fadd_close x y : is_finite x = true -> is_finite y = true -> Rabs (B2R x + B2R y) <= 100 -> close (fadd x y) (B2R x + B2R y).
Proof.
  intros Fx Fy H. pose proof (Bplus_correct fprec femax fprec_pos fprec_emax mode_NE x y Fx Fy) as C. rewrite no_overflow in C by exact H. destruct C as (C1 & C2 & _).
  split; [exact C2|]. unfold fadd. rewrite C1. apply rnd_err.
Qed.
Lemma fsub_close x y : is_finite x = true -> is_finite y = true -> Rabs (B2R x - B2R y) <= 100 -> close (fsub x y) (B2R x - B2R y).
Proof.
  intros Fx Fy H. pose proof (Bminus_correct fprec femax fprec_pos fprec_emax mode_NE x y Fx Fy) as C. rewrite no_overflow in C by exact H. destruct C as (C1 & C2 & _).
  split; [exact C2|]. unfold fsub. rewrite C1. apply rnd_err.
Qed.
Lemma fdiv_close x y : is_finite x = true -> B2R y <> 0 -> Rabs (B2R x / B2R y) <= 100 ->
  close (fdiv x y) (B2R x / B2R y) /\ Bsign (fdiv x y) = xorb (Bsign x) (Bsign y).
Proof.
  intros Fx Fy H. pose proof (Bdiv_correct fprec femax fprec_pos fprec_emax mode_NE x y Fy) as C. rewrite no_overflow in C by exact H. destruct C as (C1 & C2 & C3).
  assert (Fd : is_finite (fdiv x y) = true) by (unfold fdiv; rewrite C2; exact Fx).
  split; [split; [exact Fd|]|].
  - unfold fdiv. rewrite C1. apply rnd_err.
  - unfold fdiv in *. apply C3. destruct (Bdiv mode_NE x y); try reflexivity; discriminate Fd.
Qed.
Lemma close_le r z M : close r z -> Rabs z <= M -> - (ulpc * M + tiny) <= B2R r - z <= ulpc * M + tiny.
Proof. intros [_ C] H. apply rabs_inv in C. lra. Qed.

(** ** The polynomial *)
Lemma prod_bound u v A B : - A <= u <= A -> - B <= v <= B -> - (A * B) <= u * v <= A * B.
Proof.
  intros Hu Hv. apply rabs_inv. rewrite Rabs_mult. apply Rmult_le_compat; try apply Rabs_pos; apply Rabs_le; lra.
Qed.
Lemma c_vals : B2R fa1 = Q2R (8388417 # 8388608) /\ B2R fa3 = Q2R (- (348781 # 1048576)) /\ B2R fa5 = Q2R (6494241 # 33554432) /\
  B2R fa7 = Q2R (- (15627355 # 134217728)) /\ B2R fa9 = Q2R (7067009 # 134217728) /\ B2R fa11 = Q2R (- (12585543 # 1073741824)) /\
  B2R fkPi = RkPi /\ B2R fkHalfPi = RkHalfPi.
Proof. unfold fa1, fa3, fa5, fa7, fa9, fa11, fkPi, fkHalfPi, RkPi, RkHalfPi, kPi, kHalfPi, Q2R, B2R, F2R. cbn -[IZR]. repeat split; lra. Qed.
Lemma fma_stage (q u c : float32) (q0 h bq eu B M lo hi : R) : is_finite q = true -> is_finite u = true -> is_finite c = true ->
  0 <= q0 <= 1 -> - bq <= B2R q - q0 <= bq -> - eu <= B2R u - h <= eu -> - B <= B2R u <= B -> lo <= q0 * h + B2R c <= hi ->
  0 <= eu -> bq * B + eu <= M - hi -> bq * B + eu <= M + lo -> M <= 100 ->
  is_finite (ffma q u c) = true /\ - (bq * B + eu + ulpc * M + tiny) <= B2R (ffma q u c) - (q0 * h + B2R c) <= bq * B + eu + ulpc * M + tiny.
Proof.
  intros Fq Fu Fc Hq0 Hq Hu HB Hh He H1 H2 HM.
  assert (D1 : - (bq * B) <= (B2R q - q0) * B2R u <= bq * B).
  { assert (A : Rabs ((B2R q - q0) * B2R u) <= bq * B) by (rewrite Rabs_mult; apply Rmult_le_compat; try apply Rabs_pos; apply Rabs_le; lra). apply rabs_inv in A. exact A. }
  assert (D2 : - eu <= q0 * (B2R u - h) <= eu) by nra.
  assert (D : B2R q * B2R u + B2R c - (q0 * h + B2R c) = (B2R q - q0) * B2R u + q0 * (B2R u - h)) by ring.
  assert (Z : Rabs (B2R q * B2R u + B2R c) <= M) by (apply Rabs_le; lra).
  pose proof (ffma_close q u c Fq Fu Fc ltac:(lra)) as C. split; [exact (proj1 C)|]. pose proof (close_le _ _ _ C Z). lra.
Qed.
Lemma horner_range q0 h lo hi c : 0 <= q0 <= 1 -> lo <= h <= hi -> Rmin 0 lo + c <= q0 * h + c <= Rmax 0 hi + c.
Proof.
  intros Q H. assert (q0 * h <= Rmax 0 hi) by (destruct (Rle_dec 0 h); [apply Rle_trans with hi; [nra|apply Rmax_r]|apply Rle_trans with 0; [nra|apply Rmax_l]]).
  assert (Rmin 0 lo <= q0 * h) by (destruct (Rle_dec 0 h); [apply Rle_trans with 0; [apply Rmin_l|nra]|apply Rle_trans with lo; [apply Rmin_r|nra]]). lra.
Qed.
(** The rounding error of the polynomial, for an argument that is itself a rounded quotient *)
Lemma fatan_error (a : float32) (a0 : R) : is_finite a = true -> -1 <= a0 <= 1 -> - (6 / 100000000) <= B2R a - a0 <= 6 / 100000000 ->
  is_finite (fatan a) = true /\ - (35 / 100000000) <= B2R (fatan a) - Rapprox_atan a0 <= 35 / 100000000 /\
  -1 <= Rapprox_atan a0 <= 1 /\ (0 <= a0 -> 0 <= Rapprox_atan a0) /\ (a0 <= 0 -> Rapprox_atan a0 <= 0).
Proof.
  intros Fa H0 Ha. unfold fatan. cbv zeta. set (q := fmul a a). set (q0 := a0 * a0). assert (Q0 : 0 <= q0 <= 1) by (unfold q0; nra).
  destruct c_vals as (V1 & V3 & V5 & V7 & V9 & V11 & _).
  assert (D : B2R a * B2R a - q0 = (B2R a - a0) * (B2R a - a0) + 2 * (a0 * (B2R a - a0))) by (unfold q0; ring).
  assert (Dsq : 0 <= (B2R a - a0) * (B2R a - a0) <= 1 / 100000000000000) by (pose proof (prod_bound _ _ _ _ Ha Ha); pose proof (Rle_0_sqr (B2R a - a0)) as SQ; unfold Rsqr in SQ; lra).
  assert (Dl : - (6 / 100000000) <= a0 * (B2R a - a0) <= 6 / 100000000) by (pose proof (prod_bound a0 _ 1 _ ltac:(lra) Ha); lra).
  assert (Za : Rabs (B2R a * B2R a) <= 10001 / 10000) by (apply Rabs_le; lra).
  pose proof (fmul_close a a Fa Fa ltac:(lra)) as Cq. fold q in Cq. pose proof (close_le _ _ _ Cq Za) as Eq. destruct Cq as [Fq _].
  assert (Bq : - (18 / 100000000) <= B2R q - q0 <= 18 / 100000000) by lra. clear Eq Za D.
  (* stage 1 *)
  set (k11 := Q2R (- (12585543 # 1073741824))) in *. set (k9 := Q2R (7067009 # 134217728)) in *. set (k7 := Q2R (- (15627355 # 134217728))) in *.
  set (k5 := Q2R (6494241 # 33554432)) in *. set (k3 := Q2R (- (348781 # 1048576))) in *. set (k1 := Q2R (8388417 # 8388608)) in *.
  assert (K : -11722/1000000 <= k11 <= -11721/1000000 /\ 52653/1000000 <= k9 <= 52654/1000000 /\ -116433/1000000 <= k7 <= -116432/1000000 /\
     193543/1000000 <= k5 <= 193544/1000000 /\ -332624/1000000 <= k3 <= -332623/1000000 /\ 999977/1000000 <= k1 <= 999978/1000000)
    by (unfold k11, k9, k7, k5, k3, k1, Q2R; cbn -[IZR]; lra).
  set (u1 := ffma q fa11 fa9). set (h1 := q0 * k11 + k9). set (u2 := ffma q u1 fa7). set (h2 := q0 * h1 + k7). set (u3 := ffma q u2 fa5). set (h3 := q0 * h2 + k5).
  set (u4 := ffma q u3 fa3). set (h4 := q0 * h3 + k3). set (u5 := ffma q u4 fa1). set (h5 := q0 * h4 + k1).
  assert (R1 : 40930/1000000 <= h1 <= 52654/1000000) by (unfold h1; nra).
  assert (R2 : -116433/1000000 <= h2 <= -63778/1000000) by (unfold h2; nra).
  assert (R3 : 77110/1000000 <= h3 <= 193544/1000000) by (unfold h3; nra).
  assert (R4 : -332624/1000000 <= h4 <= -139079/1000000) by (unfold h4; nra).
  assert (R5 : 667353/1000000 <= h5 <= 999978/1000000) by (unfold h5; nra).
  assert (S1 : is_finite u1 = true /\ - (54 / 10000000000) <= B2R u1 - h1 <= 54 / 10000000000).
  { destruct (fma_stage q fa11 fa9 q0 k11 (18/100000000) 0 (11723/1000000) (52660/1000000) (40930/1000000) (52654/1000000)) as [F E]; try reflexivity; try exact Fq; try exact Q0; try exact Bq; try (rewrite ?V11, ?V9; fold h1; lra).
    fold u1 in F, E. rewrite V9 in E. fold h1 in E. split; [exact F|lra]. }
  destruct S1 as [F1 E1].
  assert (S2 : is_finite u2 = true /\ - (219 / 10000000000) <= B2R u2 - h2 <= 219 / 10000000000).
  { destruct (fma_stage q u1 fa7 q0 h1 (18/100000000) (54/10000000000) (52660/1000000) (116440/1000000) (-116433/1000000) (-63778/1000000)) as [F E]; try reflexivity; try exact Fq; try exact F1; try exact Q0; try exact Bq; try exact E1; try (rewrite ?V7; fold h2; lra).
    fold u2 in F, E. rewrite V7 in E. fold h2 in E. split; [exact F|lra]. }
  destruct S2 as [F2 E2].
  assert (S3 : is_finite u3 = true /\ - (546 / 10000000000) <= B2R u3 - h3 <= 546 / 10000000000).
  { destruct (fma_stage q u2 fa5 q0 h2 (18/100000000) (219/10000000000) (116440/1000000) (193550/1000000) (77110/1000000) (193544/1000000)) as [F E]; try reflexivity; try exact Fq; try exact F2; try exact Q0; try exact Bq; try exact E2; try (rewrite ?V5; fold h3; lra).
    fold u3 in F, E. rewrite V5 in E. fold h3 in E. split; [exact F|lra]. }
  destruct S3 as [F3 E3].
  assert (S4 : is_finite u4 = true /\ - (1095 / 10000000000) <= B2R u4 - h4 <= 1095 / 10000000000).
  { destruct (fma_stage q u3 fa3 q0 h3 (18/100000000) (546/10000000000) (193550/1000000) (332640/1000000) (-332624/1000000) (-139079/1000000)) as [F E]; try reflexivity; try exact Fq; try exact F3; try exact Q0; try exact Bq; try exact E3; try (rewrite ?V3; fold h4; lra).
    fold u4 in F, E. rewrite V3 in E. fold h4 in E. split; [exact F|lra]. }
  destruct S4 as [F4 E4].
  assert (S5 : is_finite u5 = true /\ - (2292 / 10000000000) <= B2R u5 - h5 <= 2292 / 10000000000).
  { destruct (fma_stage q u4 fa1 q0 h4 (18/100000000) (1095/10000000000) (332640/1000000) (999990/1000000) (667353/1000000) (999978/1000000)) as [F E]; try reflexivity; try exact Fq; try exact F4; try exact Q0; try exact Bq; try exact E4; try (rewrite ?V1; fold h5; lra).
    fold u5 in F, E. rewrite V1 in E. fold h5 in E. split; [exact F|lra]. }
  destruct S5 as [F5 E5].
  assert (RA : Rapprox_atan a0 = a0 * h5) by reflexivity. rewrite RA. clearbody u5 h5. clear - F5 E5 R5 Fa H0 Ha.
  assert (D : B2R a * B2R u5 - a0 * h5 = (B2R a - a0) * B2R u5 + a0 * (B2R u5 - h5)) by ring.
  assert (D1 : - (6 / 100000000) <= (B2R a - a0) * B2R u5 <= 6 / 100000000) by (pose proof (prod_bound (B2R a - a0) (B2R u5) _ 1 Ha ltac:(lra)); lra).
  assert (D2 : - (2292 / 10000000000) <= a0 * (B2R u5 - h5) <= 2292 / 10000000000) by (pose proof (prod_bound a0 _ 1 _ ltac:(lra) E5); lra).
  assert (D3 : - (999978/1000000) <= a0 * h5 <= 999978/1000000) by (pose proof (prod_bound a0 h5 1 (999978/1000000) ltac:(lra) ltac:(lra)); lra).
  assert (Z : Rabs (B2R a * B2R u5) <= 1) by (apply Rabs_le; lra).
  pose proof (fmul_close a u5 Fa F5 ltac:(lra)) as C. pose proof (close_le _ _ _ C Z). split; [exact (proj1 C)|]. split; [lra|]. split; [lra|]. split; intros; nra.
Qed.

(** ** C65 *)
Lemma bsign_bit (z : float32) : is_finite z = true -> sign_bit (Bsign z) (B2R z).
Proof.
  destruct z as [s|s| |s m e H]; try discriminate; intros _; unfold sign_bit; cbn [Bsign B2R]; destruct s; try lra.
  - apply F2R_le_0. cbn. lia.
  - apply F2R_ge_0. cbn. lia.
Qed.
Lemma rlt_dec_bool a b : (if Rlt_dec a b then true else false) = Rlt_bool a b.
Proof. destruct (Rlt_dec a b); symmetry; [apply Rlt_bool_true|apply Rlt_bool_false]; lra. Qed.
Lemma fcopysign_spec (m s : float32) : is_finite m = true -> is_finite (fcopysign m s) = true /\ B2R (fcopysign m s) = Rcopysign (B2R m) (Bsign s).
Proof. intros F. unfold fcopysign, Rcopysign. destruct (Bsign s); [rewrite is_finite_Bopp, B2R_Bopp|]; split; auto. Qed.
Lemma fatan2_model (y x : float32) : is_finite y = true -> is_finite x = true -> B2R x <> 0 \/ B2R y <> 0 ->
  is_finite (fatan2 y x) = true /\ Rabs (B2R (fatan2 y x) - Rapprox_atan2_signed (Bsign y) (Bsign x) (B2R y) (B2R x)) <= 65 / 100000000.
Proof.
  intros Fy Fx N. pose proof (bsign_bit y Fy) as Sy. pose proof (bsign_bit x Fx) as Sx. unfold fatan2, Rapprox_atan2_signed. cbv zeta.
  rewrite !Bltb_correct, !B2R_Babs by (rewrite ?is_finite_Babs; auto). cbn [B2R]. rewrite <- !rlt_dec_bool.
  destruct c_vals as (_ & _ & _ & _ & _ & _ & VP & VH). pose proof (fcopysign_spec fkPi y eq_refl) as [FP CP]. rewrite VP in CP.
  destruct kpi_error as [KP KH]. pose proof pi_bounds as PB. apply rabs_inv in KP.
  set (sw := if Rlt_dec (Rabs (B2R x)) (Rabs (B2R y)) then true else false).
  set (p := if sw then x else y). set (q := if sw then y else x).
  assert (PX : (if sw then B2R x else B2R y) = B2R p) by (unfold p; destruct sw; reflexivity). assert (QX : (if sw then B2R y else B2R x) = B2R q) by (unfold q; destruct sw; reflexivity).
  rewrite PX, QX.
  assert (A : B2R q <> 0 /\ Rabs (B2R p) <= Rabs (B2R q)).
  { unfold p, q, sw. destruct (Rlt_dec (Rabs (B2R x)) (Rabs (B2R y))) as [L|L].
    - split; [|lra]. intros H. rewrite H, Rabs_R0 in L. pose proof (Rabs_pos (B2R x)). lra.
    - split; [|lra]. intros H. rewrite H, Rabs_R0 in L. destruct N as [N|N]; [auto|]. apply L. apply Rabs_pos_lt. exact N. }
  destruct A as [Hq Hpq]. pose proof (quot_le _ _ Hq Hpq) as H0. assert (Fp : is_finite p = true) by (unfold p; destruct sw; auto).
  destruct (fdiv_close p q Fp Hq) as [Cd Sd]; [apply Rabs_le; lra|]. pose proof (close_le _ _ 1 Cd ltac:(apply Rabs_le; lra)) as Ed. destruct Cd as [Fd _].
  destruct (fatan_error _ _ Fd H0 ltac:(lra)) as (Fr & Er & Rr & Rp & Rn). assert (SA : Bsign (fdiv p q) = xorb (Bsign y) (Bsign x)) by (rewrite Sd; unfold p, q; destruct sw; [apply Bool.xorb_comm|reflexivity]).
  pose proof (fcopysign_spec fkHalfPi (fdiv p q) eq_refl) as [FH CH]. rewrite VH, SA, KH in CH. rewrite KH.
  set (a := fdiv p q) in *. set (a0 := B2R p / B2R q) in *. set (ra := Rapprox_atan a0) in *. set (fr := fatan a) in *.
  destruct (quot_sign (B2R p) (B2R q) Hq) as (S1 & S2 & S3 & S4). fold a0 in S1, S2, S3, S4.
  assert (SG : (xorb (Bsign y) (Bsign x) = false -> 0 <= a0) /\ (xorb (Bsign y) (Bsign x) = true -> a0 <= 0)).
  { assert (P' : sign_bit (if sw then Bsign x else Bsign y) (B2R p)) by (unfold p; destruct sw; auto). assert (Q' : sign_bit (if sw then Bsign y else Bsign x) (B2R q)) by (unfold q; destruct sw; auto).
    destruct sw, (Bsign y), (Bsign x); cbn [sign_bit] in P', Q'; split; intros X; try discriminate X; first [apply S1; lra|apply S2; lra|apply S3; lra|apply S4; lra]. }
  clearbody ra fr a a0 p q. clear S1 S2 S3 S4 PX QX.
  assert (M : exists r, (if sw then fsub (fcopysign fkHalfPi a) fr else fr) = r /\ is_finite r = true /\
    - (45 / 100000000) <= B2R r - (if sw then Rcopysign (RkPi / 2) (xorb (Bsign y) (Bsign x)) - ra else ra) <= 45 / 100000000 /\
    if xorb (Bsign y) (Bsign x) then -1571 / 1000 <= (if sw then Rcopysign (RkPi / 2) (xorb (Bsign y) (Bsign x)) - ra else ra) <= 0 else 0 <= (if sw then Rcopysign (RkPi / 2) (xorb (Bsign y) (Bsign x)) - ra else ra) <= 1571 / 1000).
  { eexists. split; [reflexivity|]. destruct SG as [G1 G2]. destruct sw.
    - assert (Z : Rabs (B2R (fcopysign fkHalfPi a) - B2R fr) <= 15709 / 10000).
      { rewrite CH. apply Rabs_le. destruct (xorb (Bsign y) (Bsign x)); cbn [Rcopysign]; [pose proof (Rn (G2 eq_refl))|pose proof (Rp (G1 eq_refl))]; lra. }
      pose proof (fsub_close _ _ FH Fr ltac:(lra)) as C. split; [exact (proj1 C)|]. pose proof (close_le _ _ _ C Z) as E. rewrite CH in E. split; [lra|].
      destruct (xorb (Bsign y) (Bsign x)); cbn [Rcopysign]; [pose proof (Rn (G2 eq_refl))|pose proof (Rp (G1 eq_refl))]; lra.
    - split; [exact Fr|]. split; [lra|]. destruct (xorb (Bsign y) (Bsign x)); [pose proof (Rn (G2 eq_refl))|pose proof (Rp (G1 eq_refl))]; lra. }
  destruct M as (r & -> & F & E & G). set (m := if sw then Rcopysign (RkPi / 2) (xorb (Bsign y) (Bsign x)) - ra else ra) in *. clearbody m.
  destruct (Rlt_dec (B2R x) 0) as [X|X]; [|split; [exact F|apply Rabs_le; lra]].
  assert (SX : Bsign x = true) by (destruct (Bsign x); [reflexivity|cbn [sign_bit] in Sx; lra]). rewrite SX, Bool.xorb_true_r in G.
  assert (Z : Rabs (B2R (fcopysign fkPi y) + B2R r) <= 31417 / 10000) by (rewrite CP; apply Rabs_le; destruct (Bsign y); cbn [negb Rcopysign] in *; lra).
  pose proof (fadd_close _ _ FP F ltac:(lra)) as C. split; [exact (proj1 C)|]. pose proof (close_le _ _ _ C Z) as E'. rewrite CP in E'. apply Rabs_le. lra.
Qed.
(** In single precision: for all finite floats but the origin, and x other than -0, the result is finite and within 2.6e-6 of the angle. *)
Theorem C65_float_error : forall y x : float32, is_finite y = true -> is_finite x = true -> B2R x <> 0 \/ B2R y <> 0 -> (B2R x = 0 -> Bsign x = false) ->
  is_finite (fatan2 y x) = true /\ exists theta, angle_of (Bsign y) (B2R y) (B2R x) theta /\ Rabs (B2R (fatan2 y x) - theta) <= 26 / 10000000.
Proof.
  intros y x Fy Fx N Z. destruct (fatan2_model y x Fy Fx N) as [F E]. split; [exact F|].
  destruct (C65_atan2_error (Bsign y) (Bsign x) (B2R y) (B2R x) N (bsign_bit y Fy) (bsign_bit x Fx) Z) as (theta & A & B). exists theta. split; [exact A|].
  apply rabs_inv in E. apply rabs_inv in B. assert (W : kWorstCaseError <= 19081 / 10000000000) by (unfold kWorstCaseError, Q2R; cbn [Qnum Qden]; lra). apply Rabs_le. lra.
Qed.

(** The documented constant itself is exceeded: rounding adds to the error of the polynomial. *)
Definition wy : float32 := @B754_finite fprec femax false 13766288 (-24) (eq_refl true).
Definition wx : float32 := @B754_finite fprec femax true 15675183 (-24) (eq_refl true).
Definition wr : float32 := @B754_finite fprec femax false 10154170 (-22) (eq_refl true).
Lemma wr_eq : fatan2 wy wx = wr. Proof. apply B2SF_inj. vm_compute. reflexivity. Qed.
Fixpoint qeval (c : list Q) (t : Q) : Q := match c with nil => 0%Q | cons a c => Qred (a + t * qeval c t) end.
Lemma qeval_spec c t : Q2R (qeval c t) = peval c (Q2R t).
Proof. induction c as [|a c IH]; cbn [qeval peval]; [unfold Q2R; cbn; lra|]. rewrite Q2R_red, Q2R_plus, Q2R_mult, IH. reflexivity. Qed.
Lemma atan_w : 7206518 / 10000000 <= atan (13766288 / 15675183).
Proof.
  set (u := 13766288 / 15675183). assert (U : u = Q2R (13766288 # 15675183)) by (unfold Q2R; reflexivity). assert (H : 0 <= u <= 1) by (unfold u; lra).
  pose proof (oddsum_atan 16 u H) as A. pose proof pow3_16. rewrite oddsum_int in A. cbn [Nat.mul Nat.add] in A. rewrite pow_1 in A. change (Z.of_nat 0) with 0%Z in A. rewrite U in A at 1 2 3. rewrite <- Q2R_mult, <- qeval_spec, <- Q2R_mult in A.
  assert (L : (72065183 # 100000000 <= (13766288 # 15675183) * qeval (pint 0 (inv_poly 16)) ((13766288 # 15675183) * (13766288 # 15675183)))%Q) by (apply Qle_bool_imp_le; vm_compute; reflexivity).
  apply Qle_Rle in L. set (v := Q2R (_ * _)) in *. clearbody v. unfold Q2R in L. cbn [Qnum Qden] in L. apply rabs_inv in A. lra.
Qed.
Theorem C65_float_constant_refuted : exists y x : float32, is_finite y = true /\ is_finite x = true /\ 0 < B2R y /\ B2R x < 0 /\
  forall theta, angle_of (Bsign y) (B2R y) (B2R x) theta -> kWorstCaseError < Rabs (B2R (fatan2 y x) - theta).
Proof.
  exists wy, wx. split; [reflexivity|]. split; [reflexivity|]. assert (EY : B2R wy = 13766288 / 16777216) by (unfold wy, B2R, F2R; cbn -[IZR]; lra). assert (EX : B2R wx = - (15675183 / 16777216)) by (unfold wx, B2R, F2R; cbn -[IZR]; lra).
  assert (ER : B2R wr = 10154170 / 4194304) by (unfold wr, B2R, F2R; cbn -[IZR]; lra). split; [lra|]. split; [lra|]. intros theta A. change (Bsign wy) with false in A. rewrite wr_eq.
  set (X := B2R wx) in *. set (Y := B2R wy) in *. assert (QE : Y / - X = 13766288 / 15675183) by (rewrite EX, EY; field). destruct (polar_pos (- X) Y ltac:(lra)) as [P1 P2]. rewrite QE in P1, P2. replace (- X * - X + Y * Y) with (X * X + Y * Y) in P1, P2 by ring.
  set (al := atan (13766288 / 15675183)) in *. pose proof atan_w as AW. fold al in AW. pose proof pi_bounds as PB. pose proof (atan_bound (13766288 / 15675183)) as AB. fold al in AB.
  assert (T : angle_of false Y X (PI - al)). { unfold angle_of. replace (PI - al) with (- (al - PI)) by ring. rewrite cos_neg, sin_neg, cos_minus, sin_minus, cos_PI, sin_PI. repeat split; lra. }
  rewrite (C65_angle_unique false Y X theta (PI - al) ltac:(left; lra) A T), ER. unfold kWorstCaseError, Q2R. cbn [Qnum Qden]. rewrite Rabs_right; lra.
Qed.
(** The hypotheses of C65_float_error hold for instance for these two floats, and the bound is not far off: *)
Example C65_float_ex : is_finite wy = true /\ is_finite wx = true /\ B2R wx <> 0 /\ fatan2 wy wx = wr.
Proof. split; [reflexivity|]. split; [reflexivity|]. split; [|exact wr_eq]. unfold wx, B2R, F2R. cbn -[IZR]. lra. Qed.
Print Assumptions C65_float_error.
Print Assumptions C65_float_constant_refuted.
(** At the origin the result is not a number. *)
Theorem C65_float_origin : forall y x : float32, is_finite y = true -> is_finite x = true -> B2R y = 0 -> B2R x = 0 -> is_nan (fatan2 y x) = true.
Proof.
  assert (Z : forall z : float32, is_finite z = true -> B2R z = 0 -> exists s, z = B754_zero s).
  { intros [s|s| |s m e H] F E; try discriminate F; [exists s; reflexivity|]. exfalso. cbn [B2R] in E. apply eq_0_F2R in E. destruct s; discriminate E. }
  intros y x Fy Fx Ey Ex. destruct (Z y Fy Ey) as [sy ->], (Z x Fx Ex) as [sx ->]. destruct sy, sx; vm_compute; reflexivity.
Qed.
Print Assumptions C65_float_origin.
