(** Facts about single precision operations: when they do not overflow, and how far they are from the exact result. *)
From Verif Require Import Base M_IntMath M_Point M_ApproxFloat M_FloatIndex P_Point.
From Coq Require Import QArith Qround Qabs Qreals Reals Lra Lia Psatz.
From Flocq Require Import Core Relative IEEE754.BinarySingleNaN.
Close Scope Q_scope.
Open Scope R_scope.

Notation rnd32 := (round radix2 (SpecFloat.fexp fprec femax) (round_mode mode_NE)).
Notation u32 := (/ 16777216).
Notation tiny32 := (bpow radix2 (-149)).
Lemma rabs_split a b : Rabs a <= b -> - b <= a <= b.
Proof. intros H. apply Rabs_le_inv in H. exact H. Qed.
Lemma rnd32_err x : Rabs (rnd32 x - x) <= u32 * Rabs x + tiny32.
Proof.
  destruct (relative_error_N_FLT'_ex radix2 (-149) 24 eq_refl (fun n => negb (Z.even n)) x) as (eps & eta & A & B & _ & E).
  assert (E' : rnd32 x = x * (1 + eps) + eta) by exact E. rewrite E'. replace (x * (1 + eps) + eta - x) with (x * eps + eta) by ring.
  eapply Rle_trans; [apply Rabs_triang|]. rewrite Rabs_mult.
  assert (U : u_ro radix2 24 = u32). { unfold u_ro. change (-24 + 1)%Z with (-23)%Z. cbn. lra. }
  rewrite U in A. assert (A' : Rabs eps <= u32). { eapply Rle_trans; [exact A|]. unfold Rdiv. lra. }
  pose proof (bpow_gt_0 radix2 (-149)). pose proof (Rabs_pos x). nra.
Qed.
Lemma rnd32_rel x : bpow radix2 (-126) <= Rabs x -> Rabs (rnd32 x - x) <= u32 * Rabs x.
Proof.
  intros H. pose proof (relative_error_N_FLT radix2 (-149) 24 eq_refl (fun n => negb (Z.even n)) x H) as E.
  eapply Rle_trans; [exact E|]. apply Rmult_le_compat_r; [apply Rabs_pos|]. change (bpow radix2 (- (24) + 1)) with (/ 8388608). lra.
Qed.
Lemma rnd32_format x : generic_format radix2 (SpecFloat.fexp fprec femax) x -> rnd32 x = x.
Proof. intros H. apply round_generic; [apply valid_rnd_round_mode|exact H]. Qed.
(** Numbers with at most 24 significant bits that are not too small are floats. *)
Lemma format32 m e : (Z.abs m < 2 ^ 24)%Z -> (-149 <= e)%Z -> generic_format radix2 (SpecFloat.fexp fprec femax) (IZR m * bpow radix2 e).
Proof.
  intros Hm He. apply (generic_format_FLT radix2 (-149) 24). exists (Float radix2 m e).
  - reflexivity.
  - exact Hm.
  - exact He.
Qed.
Lemma rnd32_le x y : x <= y -> rnd32 x <= rnd32 y.
Proof. intros H. apply round_le; [apply fexp_correct; reflexivity|apply valid_rnd_round_mode|exact H]. Qed.
Lemma no_overflow32 z : Rabs z <= bpow radix2 126 -> Rlt_bool (Rabs (rnd32 z)) (bpow radix2 femax) = true.
Proof.
  intros H. apply Rlt_bool_true. apply rabs_split in H.
  assert (B : rnd32 (bpow radix2 126) = bpow radix2 126).
  { apply rnd32_format. replace (bpow radix2 126) with (1 * bpow radix2 126) by ring. apply (format32 1 126); lia. }
  assert (B' : rnd32 (- bpow radix2 126) = - bpow radix2 126).
  { apply rnd32_format. replace (- bpow radix2 126) with (IZR (-1) * bpow radix2 126) by ring. apply (format32 (-1) 126); lia. }
  apply Rle_lt_trans with (bpow radix2 126); [|apply bpow_lt; reflexivity].
  apply Rabs_le. rewrite <- B at 2. rewrite <- B'. split; apply rnd32_le; lra.
Qed.
Lemma fmul_ok x y : is_finite x = true -> is_finite y = true -> Rabs (B2R x * B2R y) <= bpow radix2 126 ->
  is_finite (fmul x y) = true /\ B2R (fmul x y) = rnd32 (B2R x * B2R y) /\ Bsign (fmul x y) = xorb (Bsign x) (Bsign y).
Proof.
  intros Fx Fy H. pose proof (Bmult_correct fprec femax fprec_pos fprec_emax mode_NE x y) as C. rewrite no_overflow32 in C by exact H. destruct C as (C1 & C2 & C3).
  assert (F : is_finite (fmul x y) = true) by (unfold fmul; rewrite C2, Fx, Fy; reflexivity).
  split; [exact F|]. split; [exact C1|]. apply C3. unfold fmul in F. destruct (Bmult mode_NE x y); try reflexivity; discriminate F.
Qed.
Lemma fadd_ok x y : is_finite x = true -> is_finite y = true -> Rabs (B2R x + B2R y) <= bpow radix2 126 ->
  is_finite (fadd x y) = true /\ B2R (fadd x y) = rnd32 (B2R x + B2R y) /\
  Bsign (fadd x y) = match Rcompare (B2R x + B2R y) 0 with Eq => Bsign x && Bsign y | Lt => true | Gt => false end.
Proof.
  intros Fx Fy H. pose proof (Bplus_correct fprec femax fprec_pos fprec_emax mode_NE x y Fx Fy) as C. rewrite no_overflow32 in C by exact H. destruct C as (C1 & C2 & C3).
  split; [exact C2|]. split; [exact C1|exact C3].
Qed.
Lemma fsub_ok x y : is_finite x = true -> is_finite y = true -> Rabs (B2R x - B2R y) <= bpow radix2 126 ->
  is_finite (fsub x y) = true /\ B2R (fsub x y) = rnd32 (B2R x - B2R y).
Proof.
  intros Fx Fy H. pose proof (Bminus_correct fprec femax fprec_pos fprec_emax mode_NE x y Fx Fy) as C. rewrite no_overflow32 in C by exact H. destruct C as (C1 & C2 & _).
  split; [exact C2|exact C1].
Qed.
Lemma ffma_ok x y z : is_finite x = true -> is_finite y = true -> is_finite z = true -> Rabs (B2R x * B2R y + B2R z) <= bpow radix2 126 ->
  is_finite (ffma x y z) = true /\ B2R (ffma x y z) = rnd32 (B2R x * B2R y + B2R z).
Proof.
  intros Fx Fy Fz H. pose proof (Bfma_correct fprec femax fprec_pos fprec_emax mode_NE x y z Fx Fy Fz) as C. cbv zeta in C. rewrite no_overflow32 in C by exact H. destruct C as (C1 & C2 & _).
  split; [exact C2|exact C1].
Qed.
Lemma fdiv_ok x y : is_finite x = true -> B2R y <> 0 -> Rabs (B2R x / B2R y) <= bpow radix2 126 ->
  is_finite (fdiv x y) = true /\ B2R (fdiv x y) = rnd32 (B2R x / B2R y).
Proof.
  intros Fx Fy H. pose proof (Bdiv_correct fprec femax fprec_pos fprec_emax mode_NE x y Fy) as C. rewrite no_overflow32 in C by exact H. destruct C as (C1 & C2 & _).
  split; [unfold fdiv; rewrite C2; exact Fx|exact C1].
Qed.
Lemma f_of_int_ok i : (Z.abs i <= 2 ^ 24)%Z -> is_finite (f_of_int i) = true /\ B2R (f_of_int i) = IZR i /\
  Bsign (f_of_int i) = match Rcompare (IZR i) 0 with Eq => false | Lt => true | Gt => false end.
Proof.
  intros H. pose proof (binary_normalize_correct fprec femax fprec_pos fprec_emax mode_NE i 0 false) as C. cbv zeta in C.
  assert (E : F2R (Float radix2 i 0) = IZR i) by (unfold F2R; cbn; ring). rewrite E in C.
  assert (G : rnd32 (IZR i) = IZR i).
  { apply rnd32_format. destruct (Z.eq_dec (Z.abs i) (2 ^ 24)) as [e|n].
    - replace (IZR i) with (IZR (i / 2) * bpow radix2 1).
      + apply format32; [|lia]. assert (i = 2 ^ 24 \/ i = - 2 ^ 24)%Z as [-> | ->] by lia; vm_compute; reflexivity.
      + change (bpow radix2 1) with (IZR 2). rewrite <- mult_IZR. f_equal. assert (i = 2 ^ 24 \/ i = - 2 ^ 24)%Z as [-> | ->] by lia; vm_compute; reflexivity.
    - replace (IZR i) with (IZR i * bpow radix2 0) by (cbn; ring). apply format32; lia. }
  rewrite no_overflow32 in C.
  - rewrite G in C. destruct C as (C1 & C2 & C3). split; [exact C2|]. split; [exact C1|exact C3].
  - apply Rle_trans with (bpow radix2 24); [|apply bpow_le; lia]. change (bpow radix2 24) with (IZR (2 ^ 24)). rewrite <- abs_IZR. apply IZR_le. exact H.
Qed.
Lemma fone_R : B2R fone = 1 /\ is_finite fone = true /\ Bsign fone = false.
Proof. unfold fone, B2R, F2R. cbn -[IZR]. repeat split; lra. Qed.
Lemma fhalf_R : B2R fhalf = / 2 /\ is_finite fhalf = true /\ Bsign fhalf = false.
Proof. unfold fhalf, B2R, F2R. cbn -[IZR]. repeat split; lra. Qed.
Lemma f2q_R x : is_finite x = true -> Q2R (f2q x) = B2R x.
Proof.
  destruct x as [s|s| |s m e Hb]; intros F; try discriminate F; [unfold f2q, B2R, Q2R; cbn; ring|].
  unfold f2q, B2R, F2R. cbn [Fnum Fexp].
  assert (V : Q2R (if (0 <=? e)%Z then inject_Z (Z.pos m * 2 ^ e) else (Z.pos m # Z.to_pos (2 ^ (- e)))%Q) = IZR (Z.pos m) * bpow radix2 e).
  { destruct (Z.leb_spec 0 e).
    - unfold Q2R, inject_Z. cbn [Qnum Qden]. rewrite mult_IZR, Rinv_1, Rmult_1_r. f_equal. apply (IZR_Zpower radix2). exact H.
    - unfold Q2R. cbn [Qnum Qden]. f_equal. rewrite Z2Pos.id by (apply Z.pow_pos_nonneg; lia).
      change 2%Z with (radix_val radix2). rewrite IZR_Zpower by lia. rewrite bpow_opp, Rinv_inv. reflexivity. }
  destruct s; unfold cond_Zopp; [rewrite Q2R_opp, V; change (- Z.pos m)%Z with (- (Z.pos m))%Z; rewrite opp_IZR; ring|exact V].
Qed.
