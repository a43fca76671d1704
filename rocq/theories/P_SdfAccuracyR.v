(** C89 for a correctly rounded square root (24 bits, no over- or underflow). *)
From Coq Require Import Reals Qreals Lra.
From Flocq Require Import Core.
From Verif Require Import Base M_IntMath M_Num F_Num M_Ndtree S_Field F_Hash M_Wavelet M_WavHist F_WavHash P_Wavelet M_Queue M_Occupancy P_Occupancy M_Sdf P_Sdf P_Sdf2 P_Rounded
  M_SdfAccuracy P_SdfAccuracy P_SdfReach P_SdfReach2.
From Coq Require Import QArith Qabs.
Close Scope Q_scope.
Open Scope R_scope.

Lemma rounded_root rt : rounds_to sqrt rt -> root_at_least (995 # 1000) rt.
Proof.
  intros H x Hx. assert (X : 0 <= Q2R x) by (rewrite <- RMicromega.Q2R_0; apply Qle_Rle; exact Hx).
  pose proof (sqrt_pos (Q2R x)) as S0. pose proof (sqrt_sqrt (Q2R x) X) as S1. pose proof (n24_err (sqrt (Q2R x))) as E. rewrite <- H in E.
  rewrite (Rabs_right (sqrt (Q2R x))) in E by lra. apply Rabs_le_inv in E. set (s := sqrt (Q2R x)) in *.
  assert (L : 0 <= 995 / 1000 * s <= Q2R (rt x)) by lra.
  split; apply Rle_Qle; [rewrite RMicromega.Q2R_0; lra|]. rewrite !Q2R_mult. replace (Q2R (995 # 1000)) with (995 / 1000) by (unfold Q2R; cbn; lra). rewrite <- S1.
  replace (995 / 1000 * (995 / 1000) * (s * s)) with ((995 / 1000 * s) * (995 / 1000 * s)) by ring. apply Rmult_le_compat; lra.
Qed.
(** The declared limits on under-estimates hold with the root that the code uses. *)
Theorem C89_rounded_under : (exists rt, rounds_to sqrt rt) /\ forall rt w maxd thr lf C m fuel f c k D, rounds_to sqrt rt -> valid_config C -> hashed_reachable C m -> enough lf ->
  (0 < w)%Q -> (0 < maxd)%Q -> reaches_surface w maxd rt -> cell_is thr C m c k -> (0 <= D <= maxd)%Q -> clear_of w (cell_is thr C m) (other k) c D ->
  (quasi_sdf w maxd thr rt lf fuel C m = Some f -> ((1 - quasi_kMaxRelativeUnderEstimate) * D <= Qabs (f c))%Q) /\
  (full_sdf w maxd thr rt lf fuel C m = Some f -> ((1 - full_kMaxRelativeUnderEstimate) * D <= Qabs (f c))%Q).
Proof.
  split; [exact (proj1 C44_rounded_sqrt)|]. intros rt w maxd thr lf C m fuel f c k D H. apply (C89_declared_under rt w maxd thr lf C m fuel f c k D (proj2 C44_rounded_sqrt rt H) (rounded_root rt H)).
Qed.
Lemma rounded_root_upper rt : rounds_to sqrt rt -> root_at_most (1005 # 1000) rt.
Proof.
  intros H x Hx. assert (X : 0 <= Q2R x) by (rewrite <- RMicromega.Q2R_0; apply Qle_Rle; exact Hx).
  pose proof (sqrt_pos (Q2R x)) as S0. pose proof (sqrt_sqrt (Q2R x) X) as S1. pose proof (n24_err (sqrt (Q2R x))) as E. rewrite <- H in E.
  rewrite (Rabs_right (sqrt (Q2R x))) in E by lra. apply Rabs_le_inv in E. set (s := sqrt (Q2R x)) in *.
  assert (L : 0 <= Q2R (rt x) <= 1005 / 1000 * s) by lra.
  apply Rle_Qle. rewrite !Q2R_mult. replace (Q2R (1005 # 1000)) with (1005 / 1000) by (unfold Q2R; cbn; lra). rewrite <- S1.
  replace (1005 / 1000 * (1005 / 1000) * (s * s)) with ((1005 / 1000 * s) * (1005 / 1000 * s)) by ring. apply Rmult_le_compat; lra.
Qed.
(** With that root, a free cell that is [n] steps away from the surface of an obstacle gets at most [full_bound] from the full Euclidean generator. *)
Theorem C89_rounded_reached : forall rt w maxd thr lf C m fuel f c n, rounds_to sqrt rt -> valid_config C -> hashed_reachable C m -> enough lf -> (0 < w)%Q -> (w < maxd)%Q ->
  full_sdf w maxd thr rt lf fuel C m = Some f -> free_steps (cell_is thr C m) c n -> (full_bound (995 # 1000) (1005 # 1000) w maxd n < maxd)%Q ->
  (0 < f c /\ f c <= full_bound (995 # 1000) (1005 # 1000) w maxd n)%Q.
Proof.
  intros rt w maxd thr lf C m fuel f c n H HC Hr Hlf Hw Hm. apply (C89_full_reached (995 # 1000) (1005 # 1000) w maxd thr rt lf C m fuel f c n HC Hr Hlf (proj2 C44_rounded_sqrt rt H));
    [reflexivity|reflexivity|exact (rounded_root rt H)|exact (rounded_root_upper rt H)|exact Hw|exact Hm].
Qed.
(** The hypotheses are met by the map and cell of [C89_reach_ex], where the bound is below 4. *)
Example C89_rounded_reached_ex : exists rt fuel f, rounds_to sqrt rt /\ full_sdf 1 8 0 rt exlf fuel exC exm44 = Some f /\ valid_config exC /\ hashed_reachable exC exm44 /\ enough exlf /\
  free_steps (cell_is 0 exC exm44) (I3 3 1 1) 1 /\ (full_bound (995 # 1000) (1005 # 1000) 1 8 1 < 4)%Q /\ (0 < f (I3 3 1 1)%Z /\ f (I3 3 1 1)%Z < 4)%Q.
Proof.
  destruct (proj1 C44_rounded_sqrt) as [rt Hrt]. pose proof (proj2 C44_rounded_sqrt rt Hrt) as SL. destruct C89_reach_ex as (_ & _ & HC & HR & HE & _ & HS & _).
  pose proof (first_le (995 # 1000) (1005 # 1000) 1 rt eq_refl (rounded_root rt Hrt) (rounded_root_upper rt Hrt) eq_refl) as F.
  destruct (C44_full_terminates 1 8 0 rt exlf exC exm44 HC HR HE SL eq_refl eq_refl (Qle_lt_trans _ _ 8 F eq_refl)) as [fuel G]. destruct (G fuel (le_n fuel)) as [f Hf]. exists rt, fuel, f.
  assert (B : (full_bound (995 # 1000) (1005 # 1000) 1 8 1 < 4)%Q) by (vm_compute; reflexivity).
  destruct (C89_rounded_reached rt 1 8 0 exlf exC exm44 fuel f (I3 3 1 1) 1 Hrt HC HR HE eq_refl eq_refl Hf HS (Qlt_trans _ 4 8 B eq_refl)) as [L U].
  split; [exact Hrt|]. split; [exact Hf|]. split; [exact HC|]. split; [exact HR|]. split; [exact HE|]. split; [exact HS|]. split; [exact B|]. split; [exact L|]. exact (Qle_lt_trans _ _ _ U B).
Qed.
(** Those of [C89_full_observed] are met by the observed block of [C89_observed_ex]: its centre cell, which touches the occupied cell only at a corner, gets less than 1. *)
Example C89_full_observed_ex : exists rt fuel f, rounds_to sqrt rt /\ full_sdf 1 4 0 rt exlf fuel exC (hw_run exC exfull) = Some f /\
  (forall x, within (I3 2 2 2) x (Z.of_nat 0 + 1) -> ~ cell_is 0 exC (hw_run exC exfull) x CUnobserved) /\ (0 < f (I3 2 2 2)%Z /\ f (I3 2 2 2)%Z < 1)%Q.
Proof.
  destruct (proj1 C44_rounded_sqrt) as [rt Hrt]. pose proof (proj2 C44_rounded_sqrt rt Hrt) as SL. destruct C89_reach_ex as (_ & _ & HC & _ & HE & _). destruct C89_observed_ex as (HR & Hf & Ho & (W1 & W2 & W3 & _) & Obs & _).
  pose proof (first_le (995 # 1000) (1005 # 1000) 1 rt eq_refl (rounded_root rt Hrt) (rounded_root_upper rt Hrt) eq_refl) as F.
  destruct (C44_full_terminates 1 4 0 rt exlf exC (hw_run exC exfull) HC HR HE SL eq_refl eq_refl (Qle_lt_trans _ _ 4 F eq_refl)) as [fuel G]. destruct (G fuel (le_n fuel)) as [f E]. exists rt, fuel, f.
  destruct (C89_full_observed (995 # 1000) (1005 # 1000) 1 4 0 rt exlf exC (hw_run exC exfull) fuel f (I3 2 2 2) (I3 1 1 1) 0 HC HR HE SL eq_refl eq_refl (rounded_root rt Hrt) (rounded_root_upper rt Hrt)
    eq_refl eq_refl E Hf Ho (conj W1 (conj W2 W3)) Obs eq_refl) as [L U].
  split; [exact Hrt|]. split; [exact E|]. split; [exact Obs|]. split; [exact L|]. exact (Qle_lt_trans _ _ 1 U eq_refl).
Qed.
Print Assumptions C89_rounded_under.
Print Assumptions C89_rounded_reached.
