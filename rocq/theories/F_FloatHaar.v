(** Rounding errors of the Haar transform in single precision. *)
From Verif Require Import Base M_Num M_Haar M_Haar3 F_Haar3 M_ApproxFloat M_FloatIndex M_FloatNum F_Float.
From Coq Require Import Reals Lra Psatz.
From Flocq Require Import Core Mult_error IEEE754.BinarySingleNaN.
Close Scope Z_scope.
Open Scope R_scope.

(** [x] is finite and within [e] of [x0]. *)
Definition ap (e : R) (x : float32) (x0 : R) : Prop := is_finite x = true /\ Rabs (B2R x - x0) <= e.
Lemma ap_weak e e' x x0 : ap e x x0 -> e <= e' -> ap e' x x0.
Proof. intros [F H] L. split; [exact F|lra]. Qed.
Lemma ap_exact x : is_finite x = true -> ap 0 x (B2R x).
Proof. intros F. split; [exact F|]. rewrite Rminus_diag_eq by reflexivity. rewrite Rabs_R0. lra. Qed.

Lemma tiny32_small : 0 < tiny32 <= / 1000000000000.
Proof.
  split; [apply bpow_gt_0|]. apply Rle_trans with (bpow radix2 (-40)); [apply bpow_le; lia|]. unfold bpow. cbn. lra.
Qed.
Lemma big126_ge z : z <= 1000000000 -> z <= bpow radix2 126.
Proof. intros H. apply Rle_trans with (bpow radix2 40); [unfold bpow; cbn; lra|apply bpow_le; lia]. Qed.

(** Dividing a float by a power of two only rounds subnormal results. *)
Lemma scale_exact x k : generic_format radix2 (SpecFloat.fexp fprec femax) x -> (0 <= k)%Z ->
  Rabs (rnd32 (x * bpow radix2 (- k)) - x * bpow radix2 (- k)) <= tiny32.
Proof.
  intros G Hk. pose proof (bpow_gt_0 radix2 (- k)) as P.
  destruct (Rle_or_lt (bpow radix2 (k - 126)) (Rabs x)) as [N|N].
  - rewrite rnd32_format.
    + rewrite Rminus_diag_eq by reflexivity. rewrite Rabs_R0. apply bpow_ge_0.
    + apply (mult_bpow_exact_FLT radix2 (-149) 24); [exact G|].
      assert (M : (k - 125 <= mag radix2 x)%Z) by (apply mag_ge_bpow; replace (k - 125 - 1)%Z with (k - 126)%Z by lia; exact N). lia.
  - eapply Rle_trans; [apply (error_le_half_ulp radix2 (FLT_exp (-149) 24))|].
    rewrite ulp_FLT_small.
    + pose proof (bpow_gt_0 radix2 (-149)). lra.
    + reflexivity.
    + rewrite Rabs_mult, (Rabs_pos_eq (bpow radix2 (- k))) by lra.
      apply Rlt_le_trans with (bpow radix2 (k - 126) * bpow radix2 (- k)); [apply Rmult_lt_compat_r; assumption|].
      rewrite <- bpow_plus. apply bpow_le. lia.
Qed.

Section Err.
Context (K : R) (HK : 0 <= K <= 10000).
(** The rounding unit for values of magnitude at most [K] *)
Definition om : R := (K + 1) / 16000000.
Lemma om_pos : 0 < om.
Proof. unfold om. lra. Qed.
Lemma om_small : om <= / 1500.
Proof. unfold om. lra. Qed.

(** Scaling by 1, 1/2, 1/4 or 1/8 *)
Lemma ap_half e x x0 : ap e x x0 -> Rabs x0 <= 16 * (K + 1) -> e <= 10 -> ap (e / 2 + tiny32) (nhalf f32n x) (x0 / 2).
Proof.
  intros [F H] B E. cbn [nhalf f32n]. pose proof tiny32_small as T. destruct fhalf_R as (V & Fh & _).
  apply rabs_split in H, B.
  destruct (fmul_ok fhalf x Fh F) as (G & Vx & _).
  { apply Rle_trans with 1000000000; [rewrite V; apply Rabs_le; lra|apply big126_ge; lra]. }
  split; [exact G|]. rewrite Vx, V.
  pose proof (scale_exact (B2R x) 1 (generic_format_B2R _ _ x) ltac:(lia)) as X.
  change (bpow radix2 (- (1))) with (/ 2) in X. rewrite (Rmult_comm (/ 2)).
  apply rabs_split in X. apply Rabs_le. lra.
Qed.
Lemma div2_R x k : is_finite x = true -> Rabs (B2R x) <= 20 * (K + 1) -> (0 <= k <= 3)%Z ->
  is_finite (ndiv2 f32n x k) = true /\ Rabs (B2R (ndiv2 f32n x k) - B2R x * bpow radix2 (- k)) <= tiny32.
Proof.
  intros F B Hk. cbn [ndiv2 f32n].
  assert (P : B2R (f_of_int (2 ^ k)) = bpow radix2 k).
  { destruct (f_of_int_ok (2 ^ k)) as (_ & V & _); [assert (k = 0 \/ k = 1 \/ k = 2 \/ k = 3)%Z as [->|[->|[->| ->]]] by lia; cbn; lia|].
    rewrite V. apply (IZR_Zpower radix2). lia. }
  pose proof (bpow_gt_0 radix2 k) as Q.
  assert (E : B2R x / B2R (f_of_int (2 ^ k)) = B2R x * bpow radix2 (- k)) by (rewrite P, bpow_opp; reflexivity).
  destruct (fdiv_ok x (f_of_int (2 ^ k)) F) as (G & V).
  { rewrite P. lra. }
  { rewrite E, Rabs_mult, (Rabs_pos_eq (bpow radix2 (- k))) by apply bpow_ge_0. apply big126_ge.
    assert (L : bpow radix2 (- k) <= 1) by (change 1 with (bpow radix2 0); apply bpow_le; lia).
    pose proof (bpow_ge_0 radix2 (- k)). pose proof (Rabs_pos (B2R x)). nra. }
  split; [exact G|]. rewrite V, E. apply scale_exact; [apply generic_format_B2R|lia].
Qed.

(** One addition or subtraction with an exact result of magnitude at most [c * (K + 1)] *)
Lemma rnd_err z c : Rabs z <= c * (K + 1) * (101 / 100) -> 1 <= c <= 16 ->
  Rabs z <= bpow radix2 126 /\ Rabs (rnd32 z - z) + 2 * tiny32 <= c * om.
Proof.
  intros B C. pose proof tiny32_small as T. pose proof (rnd32_err z) as E. split; [apply big126_ge; nra|].
  unfold om. nra.
Qed.
Lemma ap_add c e1 e2 x x0 y y0 : ap e1 x x0 -> ap e2 y y0 -> Rabs (x0 + y0) <= c * (K + 1) -> 1 <= c <= 16 -> e1 + e2 <= (K + 1) / 100 ->
  ap (e1 + e2 + c * om) (fadd x y) (x0 + y0).
Proof.
  intros [Fx Hx] [Fy Hy] B C E. pose proof tiny32_small as T. apply rabs_split in Hx, Hy, B.
  destruct (rnd_err (B2R x + B2R y) c) as [N R1]; [apply Rabs_le; nra|exact C|].
  destruct (fadd_ok x y Fx Fy N) as (G & V & _). split; [exact G|]. rewrite V.
  assert (R2 : Rabs (rnd32 (B2R x + B2R y) - (B2R x + B2R y)) <= c * om) by lra. apply rabs_split in R2. apply Rabs_le. lra.
Qed.

(** One lifting step: (a, b) becomes ((a + b) / 2, b - a), and back. *)
Definition fpair (a b : float32) : float32 * float32 := (fadd a (nhalf f32n (fsub b a)), fsub b a).
Definition bpair (s d : float32) : float32 * float32 := (fsub s (nhalf f32n d), fadd d (fsub s (nhalf f32n d))).
Lemma fpair_ap c ea eb a a0 b b0 : ap ea a a0 -> ap eb b b0 -> 1 <= c <= 4 -> Rabs a0 <= c * (K + 1) -> Rabs b0 <= c * (K + 1) ->
  ea <= (K + 1) / 200 -> eb <= (K + 1) / 200 ->
  ap ((ea + eb) / 2 + 2 * c * om) (fst (fpair a b)) ((a0 + b0) / 2) /\ ap (ea + eb + 2 * c * om) (snd (fpair a b)) (b0 - a0).
Proof.
  intros [Fa Ha] [Fb Hb] C Ba Bb Ea Eb. pose proof tiny32_small as T. unfold fpair. cbn [fst snd]. apply rabs_split in Ha, Hb, Ba, Bb.
  assert (Pea : 0 <= ea) by lra. assert (Peb : 0 <= eb) by lra. assert (CK : (K + 1) <= c * (K + 1)) by nra. pose proof om_pos as Po. pose proof om_small as Ps.
  assert (CO : 2 * c * om <= (K + 1) / 1000) by (unfold om; nra).
  destruct (rnd_err (B2R b - B2R a) (2 * c)) as [N1 R1]; [apply Rabs_le; lra|lra|].
  destruct (fsub_ok b a Fb Fa N1) as (G1 & V1). set (d := fsub b a) in *.
  assert (Q1 : Rabs (B2R d - (B2R b - B2R a)) <= 2 * c * om - 2 * tiny32) by (rewrite V1; lra).
  assert (C4 : c * (K + 1) <= 4 * (K + 1)) by nra.
  destruct (ap_half 0 d (B2R d) (ap_exact d G1)) as [G2 H2]; [apply rabs_split in Q1; apply Rabs_le; lra|lra|].
  set (h := nhalf f32n d) in *. apply rabs_split in Q1, H2.
  destruct (rnd_err (B2R a + B2R h) c) as [N2 R2]; [apply Rabs_le; lra|lra|].
  destruct (fadd_ok a h Fa G2 N2) as (G3 & V3 & _).
  assert (Q3 : Rabs (rnd32 (B2R a + B2R h) - (B2R a + B2R h)) <= c * om - 2 * tiny32) by lra. apply rabs_split in Q3.
  split; (split; [assumption|]); [rewrite V3; apply Rabs_le; lra|apply Rabs_le; lra].
Qed.
Lemma bpair_ap c es ed s s0 d d0 : ap es s s0 -> ap ed d d0 -> 1 <= c <= 4 ->
  Rabs (s0 - d0 / 2) <= c * (K + 1) -> Rabs (s0 + d0 / 2) <= c * (K + 1) -> es <= (K + 1) / 400 -> ed <= (K + 1) / 400 ->
  ap (es + ed / 2 + 2 * c * om) (fst (bpair s d)) (s0 - d0 / 2) /\ ap (es + ed / 2 + 2 * c * om) (snd (bpair s d)) (s0 + d0 / 2).
Proof.
  intros [Fs Hs] [Fd Hd] C Ba Bb Es Ed. pose proof tiny32_small as T. unfold bpair. cbn [fst snd]. apply rabs_split in Hs, Hd, Ba, Bb.
  assert (Pes : 0 <= es) by lra. assert (Ped : 0 <= ed) by lra. assert (CK : (K + 1) <= c * (K + 1)) by nra. pose proof om_pos as Po.
  assert (CO : 2 * c * om <= (K + 1) / 1000) by (unfold om; nra).
  assert (C4 : c * (K + 1) <= 4 * (K + 1)) by nra.
  destruct (ap_half 0 d (B2R d) (ap_exact d Fd)) as [G1 H1]; [apply Rabs_le; lra|lra|].
  set (h := nhalf f32n d) in *. apply rabs_split in H1.
  destruct (rnd_err (B2R s - B2R h) c) as [N1 R1]; [apply Rabs_le; lra|lra|].
  destruct (fsub_ok s h Fs G1 N1) as (G2 & V2). set (l := fsub s h) in *.
  assert (Q2 : Rabs (B2R l - (B2R s - B2R h)) <= c * om - 2 * tiny32) by (rewrite V2; lra). apply rabs_split in Q2.
  destruct (rnd_err (B2R d + B2R l) c) as [N2 R2]; [apply Rabs_le; lra|lra|].
  destruct (fadd_ok d l Fd G2 N2) as (G3 & V3 & _).
  assert (Q3 : Rabs (rnd32 (B2R d + B2R l) - (B2R d + B2R l)) <= c * om - 2 * tiny32) by lra. apply rabs_split in Q3.
  split; (split; [assumption|]); [apply Rabs_le; lra|rewrite V3; apply Rabs_le; lra].
Qed.

(** The value of child [c] of a node with exact scale [s] and details [d], as a real number *)
Definition sgnR (b : bool) (x : R) : R := if b then x else - x.
Definition cvR (s : R) (d : det float32) (c : Z) : R :=
  match d with Det d1 d2 d3 d4 d5 d6 d7 =>
    let x := Z.testbit c 0 in let y := Z.testbit c 1 in let z := Z.testbit c 2 in
    s + sgnR x (B2R d1 / 2) + sgnR y (B2R d2 / 2) + sgnR (eqb x y) (B2R d3 / 4)
      + sgnR z (B2R d4 / 2) + sgnR (eqb x z) (B2R d5 / 4) + sgnR (eqb y z) (B2R d6 / 4)
      + sgnR (eqb (eqb x y) z) (B2R d7 / 8)
  end.
Definition dfin (d : det float32) : Prop := Forall (fun x => is_finite x = true) (dlist d).

Lemma backward3_pairs s d1 d2 d3 d4 d5 d6 d7 :
  backward3 f32n s (Det d1 d2 d3 d4 d5 d6 d7) =
  let a := bpair s d1 in let b := bpair d2 d3 in let e := bpair d4 d5 in let f := bpair d6 d7 in
  let a' := bpair (fst a) (fst b) in let b' := bpair (snd a) (snd b) in let e' := bpair (fst e) (fst f) in let f' := bpair (snd e) (snd f) in
  let p := bpair (fst a') (fst e') in let q := bpair (fst b') (fst f') in let r := bpair (snd a') (snd e') in let t := bpair (snd b') (snd f') in
  Oct (fst p) (fst q) (fst r) (fst t) (snd p) (snd q) (snd r) (snd t).
Proof. reflexivity. Qed.
Lemma forward3_pairs a0 a1 a2 a3 a4 a5 a6 a7 :
  forward3 f32n (Oct a0 a1 a2 a3 a4 a5 a6 a7) =
  let a := fpair a0 a1 in let b := fpair a2 a3 in let e := fpair a4 a5 in let f := fpair a6 a7 in
  let a' := fpair (fst a) (fst b) in let b' := fpair (snd a) (snd b) in let e' := fpair (fst e) (fst f) in let f' := fpair (snd e) (snd f) in
  let p := fpair (fst a') (fst e') in let q := fpair (fst b') (fst f') in let r := fpair (snd a') (snd e') in let t := fpair (snd b') (snd f') in
  (fst p, Det (fst q) (fst r) (fst t) (snd p) (snd q) (snd r) (snd t)).
Proof. reflexivity. Qed.

Ltac cvx := cbn [cvR sgnR Z.testbit Z.odd Pos.testbit Pos.pred_N Pos.pred_double eqb] in *.
Lemma backward3_ap s d : is_finite s = true -> dfin d -> (forall c, (0 <= c < 8)%Z -> Rabs (cvR (B2R s) d c) <= K + 1) ->
  forall c, (0 <= c < 8)%Z -> ap (14 * om) (oget (backward3 f32n s d) c) (cvR (B2R s) d c).
Proof.
  intros Fs Fd B. destruct d as [d1 d2 d3 d4 d5 d6 d7]. rewrite backward3_pairs. cbv zeta.
  unfold dfin in Fd. cbn [dlist] in Fd.
  inversion Fd as [|? ? F1 Fd1]; subst. inversion Fd1 as [|? ? F2 Fd2]; subst. inversion Fd2 as [|? ? F3 Fd3]; subst.
  inversion Fd3 as [|? ? F4 Fd4]; subst. inversion Fd4 as [|? ? F5 Fd5]; subst. inversion Fd5 as [|? ? F6 Fd6]; subst. inversion Fd6 as [|? ? F7 _]; subst.
  clear Fd Fd1 Fd2 Fd3 Fd4 Fd5 Fd6.
  pose proof (rabs_split _ _ (B 0%Z ltac:(lia))) as B0. pose proof (rabs_split _ _ (B 1%Z ltac:(lia))) as B1.
  pose proof (rabs_split _ _ (B 2%Z ltac:(lia))) as B2. pose proof (rabs_split _ _ (B 3%Z ltac:(lia))) as B3.
  pose proof (rabs_split _ _ (B 4%Z ltac:(lia))) as B4. pose proof (rabs_split _ _ (B 5%Z ltac:(lia))) as B5.
  pose proof (rabs_split _ _ (B 6%Z ltac:(lia))) as B6. pose proof (rabs_split _ _ (B 7%Z ltac:(lia))) as B7.
  clear B. cvx. set (S := B2R s) in *.
  set (D1 := B2R d1) in *. set (D2 := B2R d2) in *. set (D3 := B2R d3) in *. set (D4 := B2R d4) in *. set (D5 := B2R d5) in *.
  set (D6 := B2R d6) in *. set (D7 := B2R d7) in *.
  pose proof om_pos as Po. assert (Os : 100 * om <= (K + 1) / 1000) by (unfold om; lra).
  destruct (bpair_ap 1 0 0 s S d1 D1 (ap_exact s Fs) (ap_exact d1 F1)) as [A0 A1]; [lra|apply Rabs_le; lra|apply Rabs_le; lra|lra|lra|].
  destruct (bpair_ap 2 0 0 d2 D2 d3 D3 (ap_exact _ F2) (ap_exact _ F3)) as [A2 A3]; [lra|apply Rabs_le; lra|apply Rabs_le; lra|lra|lra|].
  destruct (bpair_ap 2 0 0 d4 D4 d5 D5 (ap_exact _ F4) (ap_exact _ F5)) as [A4 A5]; [lra|apply Rabs_le; lra|apply Rabs_le; lra|lra|lra|].
  destruct (bpair_ap 4 0 0 d6 D6 d7 D7 (ap_exact _ F6) (ap_exact _ F7)) as [A6 A7]; [lra|apply Rabs_le; lra|apply Rabs_le; lra|lra|lra|].
  destruct (bpair_ap 1 _ _ _ _ _ _ A0 A2) as [C0 C2]; [lra|apply Rabs_le; lra|apply Rabs_le; lra|lra|lra|].
  destruct (bpair_ap 1 _ _ _ _ _ _ A1 A3) as [C1 C3]; [lra|apply Rabs_le; lra|apply Rabs_le; lra|lra|lra|].
  destruct (bpair_ap 2 _ _ _ _ _ _ A4 A6) as [C4 C6]; [lra|apply Rabs_le; lra|apply Rabs_le; lra|lra|lra|].
  destruct (bpair_ap 2 _ _ _ _ _ _ A5 A7) as [C5 C7]; [lra|apply Rabs_le; lra|apply Rabs_le; lra|lra|lra|].
  destruct (bpair_ap 1 _ _ _ _ _ _ C0 C4) as [E0 E4]; [lra|apply Rabs_le; lra|apply Rabs_le; lra|lra|lra|].
  destruct (bpair_ap 1 _ _ _ _ _ _ C1 C5) as [E1 E5]; [lra|apply Rabs_le; lra|apply Rabs_le; lra|lra|lra|].
  destruct (bpair_ap 1 _ _ _ _ _ _ C2 C6) as [E2 E6]; [lra|apply Rabs_le; lra|apply Rabs_le; lra|lra|lra|].
  destruct (bpair_ap 1 _ _ _ _ _ _ C3 C7) as [E3 E7]; [lra|apply Rabs_le; lra|apply Rabs_le; lra|lra|lra|].
  clear A0 A1 A2 A3 A4 A5 A6 A7 C0 C1 C2 C3 C4 C5 C6 C7.
  assert (W : forall e x a b, ap e x a -> a = b -> e <= 14 * om -> ap (14 * om) x b) by (intros e x a b H <- L; eapply ap_weak; eassumption).
  intros c Hc. child8 c Hc; cbn [oget]; cvx; [eapply W; [exact E0|..]|eapply W; [exact E1|..]|eapply W; [exact E2|..]|eapply W; [exact E3|..]|
    eapply W; [exact E4|..]|eapply W; [exact E5|..]|eapply W; [exact E6|..]|eapply W; [exact E7|..]]; subst S D1 D2 D3 D4 D5 D6 D7; lra.
Qed.

Lemma forward3_ap o : (forall c, (0 <= c < 8)%Z -> is_finite (oget o c) = true /\ Rabs (B2R (oget o c)) <= K + 1) ->
  is_finite (fst (forward3 f32n o)) = true /\ dfin (snd (forward3 f32n o)) /\
  forall c, (0 <= c < 8)%Z -> Rabs (cvR (B2R (fst (forward3 f32n o))) (snd (forward3 f32n o)) c - B2R (oget o c)) <= 36 * om.
Proof.
  intros B. destruct o as [a0 a1 a2 a3 a4 a5 a6 a7]. rewrite forward3_pairs. cbv zeta. cbn [fst snd].
  destruct (B 0%Z ltac:(lia)) as [F0 B0]. destruct (B 1%Z ltac:(lia)) as [F1 B1]. destruct (B 2%Z ltac:(lia)) as [F2 B2]. destruct (B 3%Z ltac:(lia)) as [F3 B3].
  destruct (B 4%Z ltac:(lia)) as [F4 B4]. destruct (B 5%Z ltac:(lia)) as [F5 B5]. destruct (B 6%Z ltac:(lia)) as [F6 B6]. destruct (B 7%Z ltac:(lia)) as [F7 B7].
  clear B. cbn [oget] in *. apply rabs_split in B0, B1, B2, B3, B4, B5, B6, B7.
  pose proof om_pos as Po. assert (Os : 100 * om <= (K + 1) / 1000) by (unfold om; lra).
  destruct (fpair_ap 1 0 0 a0 _ a1 _ (ap_exact _ F0) (ap_exact _ F1)) as [A0 A1]; [lra|apply Rabs_le; lra|apply Rabs_le; lra|lra|lra|].
  destruct (fpair_ap 1 0 0 a2 _ a3 _ (ap_exact _ F2) (ap_exact _ F3)) as [A2 A3]; [lra|apply Rabs_le; lra|apply Rabs_le; lra|lra|lra|].
  destruct (fpair_ap 1 0 0 a4 _ a5 _ (ap_exact _ F4) (ap_exact _ F5)) as [A4 A5]; [lra|apply Rabs_le; lra|apply Rabs_le; lra|lra|lra|].
  destruct (fpair_ap 1 0 0 a6 _ a7 _ (ap_exact _ F6) (ap_exact _ F7)) as [A6 A7]; [lra|apply Rabs_le; lra|apply Rabs_le; lra|lra|lra|].
  destruct (fpair_ap 1 _ _ _ _ _ _ A0 A2) as [C0 C2]; [lra|apply Rabs_le; lra|apply Rabs_le; lra|lra|lra|].
  destruct (fpair_ap 2 _ _ _ _ _ _ A1 A3) as [C1 C3]; [lra|apply Rabs_le; lra|apply Rabs_le; lra|lra|lra|].
  destruct (fpair_ap 1 _ _ _ _ _ _ A4 A6) as [C4 C6]; [lra|apply Rabs_le; lra|apply Rabs_le; lra|lra|lra|].
  destruct (fpair_ap 2 _ _ _ _ _ _ A5 A7) as [C5 C7]; [lra|apply Rabs_le; lra|apply Rabs_le; lra|lra|lra|].
  destruct (fpair_ap 1 _ _ _ _ _ _ C0 C4) as [E0 E4]; [lra|apply Rabs_le; lra|apply Rabs_le; lra|lra|lra|].
  destruct (fpair_ap 2 _ _ _ _ _ _ C1 C5) as [E1 E5]; [lra|apply Rabs_le; lra|apply Rabs_le; lra|lra|lra|].
  destruct (fpair_ap 2 _ _ _ _ _ _ C2 C6) as [E2 E6]; [lra|apply Rabs_le; lra|apply Rabs_le; lra|lra|lra|].
  destruct (fpair_ap 4 _ _ _ _ _ _ C3 C7) as [E3 E7]; [lra|apply Rabs_le; lra|apply Rabs_le; lra|lra|lra|].
  clear A0 A1 A2 A3 A4 A5 A6 A7 C0 C1 C2 C3 C4 C5 C6 C7.
  split; [exact (proj1 E0)|]. split.
  { unfold dfin. cbn [dlist]. repeat constructor; [exact (proj1 E1)|exact (proj1 E2)|exact (proj1 E3)|exact (proj1 E4)|exact (proj1 E5)|exact (proj1 E6)|exact (proj1 E7)]. }
  apply proj2 in E0, E1, E2, E3, E4, E5, E6, E7. apply rabs_split in E0, E1, E2, E3, E4, E5, E6, E7.
  intros c Hc. child8 c Hc; cbn [oget]; cvx; apply Rabs_le; lra.
Qed.

(** Bounds on a node's coefficients, given its eight child values *)
Definition dbound (B : R) (d : det float32) : Prop :=
  match d with Det d1 d2 d3 d4 d5 d6 d7 =>
    Rabs (B2R d1) <= 2 * B /\ Rabs (B2R d2) <= 2 * B /\ Rabs (B2R d3) <= 4 * B /\ Rabs (B2R d4) <= 2 * B /\
    Rabs (B2R d5) <= 4 * B /\ Rabs (B2R d6) <= 4 * B /\ Rabs (B2R d7) <= 8 * B end.
Lemma coeff_bound B s d : (forall c, (0 <= c < 8)%Z -> Rabs (cvR s d c) <= B) -> Rabs s <= B /\ dbound B d.
Proof.
  clear HK. intros H. destruct d as [d1 d2 d3 d4 d5 d6 d7]. cbn [dbound].
  pose proof (rabs_split _ _ (H 0%Z ltac:(lia))) as B0. pose proof (rabs_split _ _ (H 1%Z ltac:(lia))) as B1.
  pose proof (rabs_split _ _ (H 2%Z ltac:(lia))) as B2. pose proof (rabs_split _ _ (H 3%Z ltac:(lia))) as B3.
  pose proof (rabs_split _ _ (H 4%Z ltac:(lia))) as B4. pose proof (rabs_split _ _ (H 5%Z ltac:(lia))) as B5.
  pose proof (rabs_split _ _ (H 6%Z ltac:(lia))) as B6. pose proof (rabs_split _ _ (H 7%Z ltac:(lia))) as B7.
  clear H. cvx. repeat split; apply Rabs_le; lra.
Qed.

(** Addition of a term that is exact up to underflow *)
Lemma ap_step c e x x0 y y0 : ap e x x0 -> ap (2 * tiny32) y y0 -> Rabs (x0 + y0) <= c * (K + 1) -> 1 <= c <= 16 -> e <= (K + 1) / 200 ->
  ap (e + c * om) (fadd x y) (x0 + y0).
Proof.
  intros [Fx Hx] [Fy Hy] B C E. pose proof tiny32_small as T. apply rabs_split in Hx, Hy, B.
  destruct (rnd_err (B2R x + B2R y) c) as [N R1]; [apply Rabs_le; nra|exact C|].
  destruct (fadd_ok x y Fx Fy N) as (G & V & _). split; [exact G|]. rewrite V.
  assert (R2 : Rabs (rnd32 (B2R x + B2R y) - (B2R x + B2R y)) <= c * om - 2 * tiny32) by lra. apply rabs_split in R2. apply Rabs_le. lra.
Qed.
Definition sf (b : bool) (v : float32) : float32 := if b then v else nopp f32n v.
Lemma sf_R b v : B2R (sf b v) = sgnR b (B2R v) /\ is_finite (sf b v) = is_finite v.
Proof. destruct b; cbn [sf sgnR nopp f32n]; [split; reflexivity|]. split; [apply B2R_Bopp|apply is_finite_Bopp]. Qed.
Lemma div2_ap b x k : is_finite x = true -> Rabs (B2R x) <= 20 * (K + 1) -> (0 <= k <= 3)%Z ->
  ap (2 * tiny32) (sf b (ndiv2 f32n x k)) (sgnR b (B2R x * bpow radix2 (- k))) /\
  ap (2 * tiny32) (ndiv2 f32n (sf b x) k) (sgnR b (B2R x * bpow radix2 (- k))).
Proof.
  intros F B Hk. pose proof tiny32_small as T. split.
  - destruct (div2_R x k F B Hk) as [G V]. destruct (sf_R b (ndiv2 f32n x k)) as [V1 F1]. split; [congruence|]. rewrite V1.
    apply rabs_split in V. apply Rabs_le. destruct b; cbn [sgnR]; lra.
  - destruct (sf_R b x) as [V1 F1]. destruct (div2_R (sf b x) k) as [G V]; [congruence| |exact Hk|].
    + rewrite V1. apply rabs_split in B. apply Rabs_le. destruct b; cbn [sgnR]; lra.
    + split; [exact G|]. rewrite V1 in V. apply rabs_split in V. apply Rabs_le. destruct b; cbn [sgnR] in *; lra.
Qed.

Lemma bsc_terms s d1 d2 d3 d4 d5 d6 d7 c : (0 <= c < 8)%Z ->
  backwardSingleChild3 f32n s (Det d1 d2 d3 d4 d5 d6 d7) c =
  let x := Z.testbit c 0 in let y := Z.testbit c 1 in let z := Z.testbit c 2 in
  fadd (fadd (fadd (fadd (fadd (fadd (fadd s (sf x (ndiv2 f32n d1 1))) (sf y (ndiv2 f32n d2 1))) (sf (eqb x y) (ndiv2 f32n d3 2)))
    (sf z (ndiv2 f32n d4 1))) (sf (eqb x z) (ndiv2 f32n d5 2))) (sf (eqb y z) (ndiv2 f32n d6 2))) (sf (eqb (eqb x y) z) (ndiv2 f32n d7 3)).
Proof. intros H. child8 c H; reflexivity. Qed.
Lemma fsc_terms v c : (0 <= c < 8)%Z ->
  forwardSingleChild3 f32n v c =
  let x := Z.testbit c 0 in let y := Z.testbit c 1 in let z := Z.testbit c 2 in
  (ndiv2 f32n (sf true v) 3, Det (ndiv2 f32n (sf x v) 2) (ndiv2 f32n (sf y v) 2) (ndiv2 f32n (sf (eqb x y) v) 1)
    (ndiv2 f32n (sf z v) 2) (ndiv2 f32n (sf (eqb x z) v) 1) (ndiv2 f32n (sf (eqb y z) v) 1) (ndiv2 f32n (sf (eqb (eqb x y) z) v) 0)).
Proof. intros H. child8 c H; reflexivity. Qed.

Lemma bsc_ap e s s0 d c : ap e s s0 -> dfin d -> (forall c, (0 <= c < 8)%Z -> Rabs (cvR s0 d c) <= K + 1) -> e <= (K + 1) / 1000 -> (0 <= c < 8)%Z ->
  ap (e + 12 * om) (backwardSingleChild3 f32n s d c) (cvR s0 d c).
Proof.
  intros As Fd B Ee Hc. destruct (coeff_bound _ _ _ B) as [Bs Bd]. destruct d as [d1 d2 d3 d4 d5 d6 d7]. rewrite bsc_terms by exact Hc. cbv zeta.
  unfold dfin in Fd. cbn [dlist] in Fd.
  inversion Fd as [|? ? F1 Fd1]; subst. inversion Fd1 as [|? ? F2 Fd2]; subst. inversion Fd2 as [|? ? F3 Fd3]; subst.
  inversion Fd3 as [|? ? F4 Fd4]; subst. inversion Fd4 as [|? ? F5 Fd5]; subst. inversion Fd5 as [|? ? F6 Fd6]; subst. inversion Fd6 as [|? ? F7 _]; subst.
  clear Fd Fd1 Fd2 Fd3 Fd4 Fd5 Fd6. cbn [dbound] in Bd. destruct Bd as (L1 & L2 & L3 & L4 & L5 & L6 & L7).
  pose proof (rabs_split _ _ (B 0%Z ltac:(lia))) as B0. pose proof (rabs_split _ _ (B 1%Z ltac:(lia))) as B1.
  pose proof (rabs_split _ _ (B 2%Z ltac:(lia))) as B2. pose proof (rabs_split _ _ (B 3%Z ltac:(lia))) as B3.
  pose proof (rabs_split _ _ (B 4%Z ltac:(lia))) as B4. pose proof (rabs_split _ _ (B 5%Z ltac:(lia))) as B5.
  pose proof (rabs_split _ _ (B 6%Z ltac:(lia))) as B6. pose proof (rabs_split _ _ (B 7%Z ltac:(lia))) as B7. clear B.
  pose proof (fun b => proj1 (div2_ap b d1 1 F1 ltac:(lra) ltac:(lia))) as T1. pose proof (fun b => proj1 (div2_ap b d2 1 F2 ltac:(lra) ltac:(lia))) as T2.
  pose proof (fun b => proj1 (div2_ap b d3 2 F3 ltac:(lra) ltac:(lia))) as T3. pose proof (fun b => proj1 (div2_ap b d4 1 F4 ltac:(lra) ltac:(lia))) as T4.
  pose proof (fun b => proj1 (div2_ap b d5 2 F5 ltac:(lra) ltac:(lia))) as T5. pose proof (fun b => proj1 (div2_ap b d6 2 F6 ltac:(lra) ltac:(lia))) as T6.
  pose proof (fun b => proj1 (div2_ap b d7 3 F7 ltac:(lra) ltac:(lia))) as T7. clear L1 L2 L3 L4 L5 L6 L7.
  change (bpow radix2 (- (1))) with (/ 2) in *. change (bpow radix2 (- (2))) with (/ 4) in *. change (bpow radix2 (- (3))) with (/ 8) in *.
  pose proof om_pos as Po. assert (Os : 100 * om <= (K + 1) / 1000) by (unfold om; lra).
  cvx.
  child8 c Hc; cvx;
  match goal with |- ap _ (fadd (fadd (fadd (fadd (fadd (fadd (fadd _ (sf ?b1 _)) (sf ?b2 _)) (sf ?b3 _)) (sf ?b4 _)) (sf ?b5 _)) (sf ?b6 _)) (sf ?b7 _)) _ =>
    pose proof (T1 b1) as Q1; pose proof (T2 b2) as Q2; pose proof (T3 b3) as Q3; pose proof (T4 b4) as Q4; pose proof (T5 b5) as Q5; pose proof (T6 b6) as Q6; pose proof (T7 b7) as Q7 end;
  clear T1 T2 T3 T4 T5 T6 T7; cbn [sgnR] in Q1, Q2, Q3, Q4, Q5, Q6, Q7;
  (assert (W1 := ap_step 1 _ _ _ _ _ As Q1 ltac:(apply Rabs_le; lra) ltac:(lra) ltac:(lra)));
  (assert (W2 := ap_step 2 _ _ _ _ _ W1 Q2 ltac:(apply Rabs_le; lra) ltac:(lra) ltac:(lra)));
  (assert (W3 := ap_step 1 _ _ _ _ _ W2 Q3 ltac:(apply Rabs_le; lra) ltac:(lra) ltac:(lra)));
  (assert (W4 := ap_step 2 _ _ _ _ _ W3 Q4 ltac:(apply Rabs_le; lra) ltac:(lra) ltac:(lra)));
  (assert (W5 := ap_step 3 _ _ _ _ _ W4 Q5 ltac:(apply Rabs_le; lra) ltac:(lra) ltac:(lra)));
  (assert (W6 := ap_step 2 _ _ _ _ _ W5 Q6 ltac:(apply Rabs_le; lra) ltac:(lra) ltac:(lra)));
  (assert (W7 := ap_step 1 _ _ _ _ _ W6 Q7 ltac:(apply Rabs_le; lra) ltac:(lra) ltac:(lra)));
  (destruct W7 as [G W7]; split; [exact G|]; apply rabs_split in W7; apply Rabs_le; lra).
Qed.

(** Adding the contribution of a change [x] of child [c] to a node *)
Lemma fsc_node v d x c : is_finite x = true -> Rabs (B2R x) <= 2 * (K + 1) -> dfin d -> dbound (K + 1) d -> (0 <= c < 8)%Z ->
  is_finite (fst (forwardSingleChild3 f32n x c)) = true /\
  Rabs (B2R (fst (forwardSingleChild3 f32n x c)) - B2R x / 8) <= 2 * tiny32 /\
  dfin (dadd f32n d (snd (forwardSingleChild3 f32n x c))) /\
  forall c', (0 <= c' < 8)%Z ->
    Rabs (cvR (v + B2R (fst (forwardSingleChild3 f32n x c))) (dadd f32n d (snd (forwardSingleChild3 f32n x c))) c' -
          (cvR v d c' + (if (c' =? c)%Z then B2R x else 0))) <= 9 * om.
Proof.
  intros Fx Bx Fd Bd Hc. destruct d as [d1 d2 d3 d4 d5 d6 d7]. rewrite fsc_terms by exact Hc. cbv zeta. cbn [fst snd]. cbn [dadd dmap2 nadd f32n].
  unfold dfin in Fd. cbn [dlist] in Fd.
  inversion Fd as [|? ? F1 Fd1]; subst. inversion Fd1 as [|? ? F2 Fd2]; subst. inversion Fd2 as [|? ? F3 Fd3]; subst.
  inversion Fd3 as [|? ? F4 Fd4]; subst. inversion Fd4 as [|? ? F5 Fd5]; subst. inversion Fd5 as [|? ? F6 Fd6]; subst. inversion Fd6 as [|? ? F7 _]; subst.
  clear Fd Fd1 Fd2 Fd3 Fd4 Fd5 Fd6. cbn [dbound] in Bd. destruct Bd as (L1 & L2 & L3 & L4 & L5 & L6 & L7).
  assert (B20 : Rabs (B2R x) <= 20 * (K + 1)) by lra.
  pose proof (fun b => proj2 (div2_ap b x 3 Fx B20 ltac:(lia))) as T3. pose proof (fun b => proj2 (div2_ap b x 2 Fx B20 ltac:(lia))) as T2.
  pose proof (fun b => proj2 (div2_ap b x 1 Fx B20 ltac:(lia))) as T1. pose proof (fun b => proj2 (div2_ap b x 0 Fx B20 ltac:(lia))) as T0.
  change (bpow radix2 (- (1))) with (/ 2) in *. change (bpow radix2 (- (2))) with (/ 4) in *. change (bpow radix2 (- (3))) with (/ 8) in *. change (bpow radix2 (- (0))) with 1 in *.
  apply rabs_split in L1, L2, L3, L4, L5, L6, L7, Bx.
  pose proof om_pos as Po. assert (Os : 100 * om <= (K + 1) / 1000) by (unfold om; lra). pose proof tiny32_small as Ti.
  assert (To : 16 * tiny32 <= om) by (unfold om; lra).
  assert (S : forall b k e d dk, is_finite d = true -> ap (2 * tiny32) e (sgnR b (B2R x * dk)) -> 1 <= k <= 8 -> - (k * (K + 1)) <= B2R d <= k * (K + 1) -> 0 <= dk -> dk * 8 <= k ->
    ap (5 / 4 * k * om) (fadd d e) (B2R d + sgnR b (B2R x * dk))).
  { intros b k e d dk F A Hk Bd D0 D8. eapply ap_weak; [apply (ap_step (5 / 4 * k) 0); [apply ap_exact; exact F|exact A| |lra|lra]|lra].
    assert (P : - (k / 4 * (K + 1)) <= B2R x * dk <= k / 4 * (K + 1)) by (split; nra). apply Rabs_le. destruct b; cbn [sgnR]; lra. }
  pose proof (fun b => S b 2 _ d1 _ F1 (T2 b) ltac:(lra) ltac:(lra) ltac:(lra) ltac:(lra)) as A1.
  pose proof (fun b => S b 2 _ d2 _ F2 (T2 b) ltac:(lra) ltac:(lra) ltac:(lra) ltac:(lra)) as A2.
  pose proof (fun b => S b 4 _ d3 _ F3 (T1 b) ltac:(lra) ltac:(lra) ltac:(lra) ltac:(lra)) as A3.
  pose proof (fun b => S b 2 _ d4 _ F4 (T2 b) ltac:(lra) ltac:(lra) ltac:(lra) ltac:(lra)) as A4.
  pose proof (fun b => S b 4 _ d5 _ F5 (T1 b) ltac:(lra) ltac:(lra) ltac:(lra) ltac:(lra)) as A5.
  pose proof (fun b => S b 4 _ d6 _ F6 (T1 b) ltac:(lra) ltac:(lra) ltac:(lra) ltac:(lra)) as A6.
  pose proof (fun b => S b 8 _ d7 _ F7 (T0 b) ltac:(lra) ltac:(lra) ltac:(lra) ltac:(lra)) as A7.
  clear S T2 T1 T0 L1 L2 L3 L4 L5 L6 L7. specialize (T3 true). destruct T3 as [G0 T3]. cbn [sgnR] in T3. apply rabs_split in T3.
  specialize (A1 (Z.testbit c 0)). specialize (A2 (Z.testbit c 1)). specialize (A3 (eqb (Z.testbit c 0) (Z.testbit c 1))).
  specialize (A4 (Z.testbit c 2)). specialize (A5 (eqb (Z.testbit c 0) (Z.testbit c 2))). specialize (A6 (eqb (Z.testbit c 1) (Z.testbit c 2))).
  specialize (A7 (eqb (eqb (Z.testbit c 0) (Z.testbit c 1)) (Z.testbit c 2))).
  destruct A1 as [G1 A1]. destruct A2 as [G2 A2]. destruct A3 as [G3 A3]. destruct A4 as [G4 A4]. destruct A5 as [G5 A5]. destruct A6 as [G6 A6]. destruct A7 as [G7 A7].
  split; [exact G0|]. split; [apply Rabs_le; lra|]. split; [unfold dfin; cbn [dlist]; repeat constructor; assumption|].
  clear G0 G1 G2 G3 G4 G5 G6 G7 F1 F2 F3 F4 F5 F6 F7 Fx B20 Bx.
  apply rabs_split in A1, A2, A3, A4, A5, A6, A7. cbn [cvR].
  generalize dependent (B2R (ndiv2 f32n (sf true x) 3)). intros r0 T3.
  generalize dependent (B2R (fadd d1 (ndiv2 f32n (sf (Z.testbit c 0) x) 2))). intros r1 A1.
  generalize dependent (B2R (fadd d2 (ndiv2 f32n (sf (Z.testbit c 1) x) 2))). intros r2 A2.
  generalize dependent (B2R (fadd d3 (ndiv2 f32n (sf (eqb (Z.testbit c 0) (Z.testbit c 1)) x) 1))). intros r3 A3.
  generalize dependent (B2R (fadd d4 (ndiv2 f32n (sf (Z.testbit c 2) x) 2))). intros r4 A4.
  generalize dependent (B2R (fadd d5 (ndiv2 f32n (sf (eqb (Z.testbit c 0) (Z.testbit c 2)) x) 1))). intros r5 A5.
  generalize dependent (B2R (fadd d6 (ndiv2 f32n (sf (eqb (Z.testbit c 1) (Z.testbit c 2)) x) 1))). intros r6 A6.
  generalize dependent (B2R (fadd d7 (ndiv2 f32n (sf (eqb (eqb (Z.testbit c 0) (Z.testbit c 1)) (Z.testbit c 2)) x) 0))). intros r7 A7.
  generalize dependent (B2R x). intros X.  generalize (B2R d1) (B2R d2) (B2R d3) (B2R d4) (B2R d5) (B2R d6) (B2R d7). intros y1 y2 y3 y4 y5 y6 y7. intros.
  child8 c Hc; cvx; child8 c' H; cvx; cbn [Z.eqb Pos.eqb]; apply Rabs_le; lra.
Qed.
End Err.
