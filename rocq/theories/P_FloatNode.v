(** * C75, C83: the boxes of octree nodes in single precision *)
From Verif Require Import Base M_IntMath M_NdtreeIndex M_Point M_ApproxFloat M_FloatIndex P_Point F_Float P_FloatIndex.
From Coq Require Import QArith Reals Lra Lia Psatz.
From Flocq Require Import Core IEEE754.BinarySingleNaN.
Close Scope Q_scope.
Open Scope R_scope.

(** ** Vocabulary *)
(** Along axis [d] (the axes of the lists are [d], [d + 1], ...) child [rel] is the lower half of its parent or the upper one: pick the
    first or the second coordinate accordingly. *)
Fixpoint by_half (d rel : Z) (lower upper : list float32) : list float32 :=
  match lower, upper with
  | a :: lower', b :: upper' => (if Z.testbit rel d then b else a) :: by_half (d + 1) rel lower' upper'
  | _, _ => []
  end.

(** ** Proof *)
(** The sign of a float that is not a negative zero *)
Definition plain (x : float32) : Prop := is_finite x = true /\ Bsign x = match Rcompare (B2R x) 0 with Lt => true | _ => false end.
Lemma plain_int i : (Z.abs i <= 2 ^ 24)%Z -> plain (f_of_int i) /\ B2R (f_of_int i) = IZR i.
Proof.
  intros H. destruct (f_of_int_ok i H) as (F & V & S). split; [|exact V]. split; [exact F|]. rewrite V, S. destruct (Rcompare (IZR i) 0); reflexivity.
Qed.
Lemma plain_add x y v : is_finite x = true -> is_finite y = true -> Bsign y = false -> B2R x + B2R y = v -> Rabs v <= bpow radix2 126 -> rnd32 v = v ->
  plain (fadd x y) /\ B2R (fadd x y) = v.
Proof.
  intros Fx Fy Sy E H R. destruct (fadd_ok x y Fx Fy) as (F & V & S); [rewrite E; exact H|]. rewrite E in V, S. rewrite R in V. rewrite Sy, andb_false_r in S.
  split; [|exact V]. split; [exact F|]. rewrite V, S. destruct (Rcompare v 0); reflexivity.
Qed.
Lemma plain_mul a b w w' : plain a -> plain b -> is_finite w = true -> is_finite w' = true -> 0 < B2R w' -> B2R w = 2 * B2R w' -> B2R b = 2 * B2R a ->
  Rabs (B2R a * B2R w) <= bpow radix2 126 -> fmul a w = fmul b w'.
Proof.
  intros [Fa Sa] [Fb Sb] Fw Fw' P W B H. assert (E : B2R b * B2R w' = B2R a * B2R w) by (rewrite W, B; ring).
  destruct (fmul_ok a w Fa Fw H) as (M1 & M2 & M3). destruct (fmul_ok b w' Fb Fw') as (N1 & N2 & N3); [rewrite E; exact H|].
  apply B2R_Bsign_inj; [exact M1|exact N1|rewrite M2, N2, E; reflexivity|]. rewrite M3, N3.
  assert (Z1 : Bsign w = false) by (destruct w as [s|s| |s m e X]; try discriminate Fw; [exfalso; cbn in W; lra|];
    destruct s; [exfalso|reflexivity]; pose proof (F2R_lt_0 radix2 (Float radix2 (Z.neg m) e) ltac:(reflexivity)); unfold B2R in W at 1; cbn in W, H0; lra).
  assert (Z2 : Bsign w' = false) by (destruct w' as [s|s| |s m e X]; try discriminate Fw'; [exfalso; cbn in P; lra|];
    destruct s; [exfalso|reflexivity]; pose proof (F2R_lt_0 radix2 (Float radix2 (Z.neg m) e) ltac:(reflexivity)); unfold B2R in P at 1; cbn in P, H0; lra).
  rewrite Z1, Z2, !xorb_false_r, Sa, Sb, B.
  destruct (Rcompare_spec (B2R a) 0), (Rcompare_spec (2 * B2R a) 0); try reflexivity; exfalso; lra.
Qed.
Lemma int24 i : (Z.abs i <= 2 ^ 24)%Z -> rnd32 (IZR i) = IZR i /\ Rabs (IZR i) <= 16777216.
Proof.
  intros H. destruct (f_of_int_ok i H) as (F & V & _). split; [rewrite <- V; apply rnd32_format, (generic_format_B2R fprec femax)|].
  rewrite <- abs_IZR. apply IZR_le. lia.
Qed.
(** The four coordinates of an axis: the halves of an interval *)
Lemma halves w w' c : (Z.abs c < 2 ^ 23)%Z -> is_finite w = true -> is_finite w' = true -> 0 < B2R w' <= bpow radix2 99 -> B2R w = 2 * B2R w' ->
  fmul (f_of_int (2 * c)) w' = fmul (f_of_int c) w /\
  fmul (fadd (f_of_int (2 * c)) fone) w' = fmul (fadd (f_of_int c) fhalf) w /\
  fmul (f_of_int (2 * c + 1)) w' = fmul (fadd (f_of_int c) fhalf) w /\
  fmul (fadd (f_of_int (2 * c + 1)) fone) w' = fmul (fadd (f_of_int c) fone) w.
Proof.
  intros Hc Fw Fw' [P U] W. destruct fone_R as (O1 & O2 & O3). destruct fhalf_R as (H1 & H2 & H3). pose proof big126 as B126.
  destruct (plain_int c ltac:(lia)) as (P0 & V0). destruct (plain_int (2 * c) ltac:(lia)) as (P1 & V1). destruct (plain_int (2 * c + 1) ltac:(lia)) as (P2 & V2).
  destruct (int24 (c + 1) ltac:(lia)) as (R1 & A1). destruct (int24 (2 * c + 1) ltac:(lia)) as (R2 & A2). destruct (int24 (2 * c + 1 + 1) ltac:(lia)) as (R3 & A3).
  destruct (int24 c ltac:(lia)) as (R0 & A0).
  rewrite ?plus_IZR, ?mult_IZR in *.
  assert (RH : rnd32 (IZR c + / 2) = IZR c + / 2).
  { apply rnd32_format. replace (IZR c + / 2) with (IZR (2 * c + 1) * bpow radix2 (-1)); [apply format32; lia|].
    rewrite plus_IZR, mult_IZR. change (bpow radix2 (-1)) with (/ 2). field. }
  assert (AH : Rabs (IZR c + / 2) <= 16777216).
  { replace (IZR c + / 2) with (/ 2 * (2 * IZR c + 1)) by field. rewrite Rabs_mult, (Rabs_pos_eq (/ 2)) by lra. lra. }
  destruct (plain_add (f_of_int c) fone (IZR c + 1) (proj1 P0) O2 O3) as (P3 & V3); [rewrite V0, O1; reflexivity|lra|exact R1|].
  destruct (plain_add (f_of_int c) fhalf (IZR c + / 2) (proj1 P0) H2 H3) as (P4 & V4); [rewrite V0, H1; reflexivity|lra|exact RH|].
  destruct (plain_add (f_of_int (2 * c)) fone (2 * IZR c + 1) (proj1 P1) O2 O3) as (P5 & V5); [rewrite V1, O1; reflexivity|lra|exact R2|].
  destruct (plain_add (f_of_int (2 * c + 1)) fone (2 * IZR c + 1 + 1) (proj1 P2) O2 O3) as (P6 & V6); [rewrite V2, O1; reflexivity|lra|exact R3|].
  assert (MO : forall z, Rabs z <= 16777216 -> Rabs (z * B2R w) <= bpow radix2 126).
  { intros z Hz. rewrite Rabs_mult, (Rabs_pos_eq (B2R w)) by lra. change 126%Z with (26 + 100)%Z. rewrite bpow_plus.
    assert (E : bpow radix2 100 = 2 * bpow radix2 99) by (change 100%Z with (1 + 99)%Z; rewrite bpow_plus; reflexivity).
    apply Rmult_le_compat; try lra; [apply Rabs_pos|]. change (bpow radix2 26) with 67108864. lra. }
  repeat split; symmetry; (apply plain_mul; try assumption; [lra|]); apply MO; congruence.
Qed.
Lemma child_bit rel d : (0 <= d)%Z -> Z.land (Z.shiftr rel d) 1 = Z.b2z (Z.testbit rel d).
Proof.
  intros H. change 1%Z with (Z.ones 1). rewrite Z.land_ones by lia. change (2 ^ 1)%Z with 2%Z. rewrite <- Z.bit0_mod, Z.shiftr_spec by lia. reflexivity.
Qed.
Lemma sf_inj (a b : list float32) : map B2SF a = map B2SF b -> a = b.
Proof.
  revert b. induction a as [|x a IH]; intros [|y b] H; try discriminate H; [reflexivity|]. cbn [map] in H. injection H as H1 H2.
  f_equal; [apply B2SF_inj; exact H1|apply IH; exact H2].
Qed.
(** ** Theorems *)
(** The boxes of the children tile the box of their parent, bit for bit: along each axis a child reaches from the parent's lower face to its
    centre, or from there to its upper face. *)
Theorem C75_children_tile : forall w n rel, is_finite w = true -> bpow radix2 (-60) <= B2R w <= bpow radix2 60 ->
  (1 <= height n <= 30)%Z -> Forall (fun c => (Z.abs c < 2 ^ 23)%Z) (position n) ->
  fnodeIndexToMinCorner (computeChildIndex n rel) w = by_half 0 rel (fnodeIndexToMinCorner n w) (fnodeIndexToCenterPoint n w) /\
  fnodeIndexToMaxCorner (computeChildIndex n rel) w = by_half 0 rel (fnodeIndexToCenterPoint n w) (fnodeIndexToMaxCorner n w).
Proof.
  intros w [h i] rel F B H HP. unfold fnodeIndexToMinCorner, fnodeIndexToMaxCorner, fnodeIndexToCenterPoint, computeChildIndex. cbn [height position] in *.
  destruct (usable_node w h F B ltac:(lia)) as ((F1 & _) & E1). destruct (usable_node w (h - 1) F B ltac:(lia)) as ((F2 & L2 & _) & E2).
  set (W := fheightToCellWidth w h) in *. set (W' := fheightToCellWidth w (h - 1)) in *.
  assert (E : B2R W = 2 * B2R W').
  { rewrite E1, E2. replace h with (1 + (h - 1))%Z at 1 by lia. rewrite Z.pow_add_r, mult_IZR by lia. change (IZR (2 ^ 1)) with 2. ring. }
  assert (P' : 0 < B2R W') by (pose proof (bpow_gt_0 radix2 (-100)); lra).
  assert (U : B2R W' <= bpow radix2 99).
  { rewrite E2. change 99%Z with (60 + 39)%Z. rewrite bpow_plus. assert (IZR (2 ^ (h - 1)) <= bpow radix2 39).
    { rewrite (IZR_Zpower radix2) by lia. apply bpow_le. lia. }
    assert (0 < IZR (2 ^ (h - 1))) by (apply IZR_lt; apply Z.pow_pos_nonneg; lia). pose proof (bpow_gt_0 radix2 (-60)). apply Rmult_le_compat; lra. }
  assert (D : (0 <= 0)%Z) by lia. revert D. generalize 0%Z at 2 3 4 5 6. unfold findexToMinCorner, findexToMaxCorner, findexToCenterPoint.
  induction HP as [|c i Hc HP IH]; intros d D; [split; reflexivity|]. destruct (IH (d + 1)%Z ltac:(lia)) as [I1 I2].
  destruct (halves W W' c Hc F1 F2 (conj P' U) E) as (X1 & X2 & X3 & X4).
  cbn [add_child_offset map by_half]. rewrite I1, I2, child_bit by lia. rewrite (Z.mul_comm c 2).
  destruct (Z.testbit rel d); cbn [Z.b2z]; rewrite ?Z.add_0_r, ?X1, ?X2, ?X3, ?X4; split; reflexivity.
Qed.
(** Farther out they do not: the upper half of cell 2^23 ends at its own lower face. *)
Theorem C75_far_children_refuted : exists w n rel, is_finite w = true /\ bpow radix2 (-60) <= B2R w <= bpow radix2 60 /\ height n = 1%Z /\
  Forall (fun c => (Z.abs c <= 2 ^ 23)%Z) (position n) /\
  fnodeIndexToMaxCorner (computeChildIndex n rel) w = fnodeIndexToMinCorner n w /\ fnodeIndexToMinCorner n w <> fnodeIndexToMaxCorner n w.
Proof.
  exists fone, (NodeIndex 1 [2 ^ 23]%Z), 1%Z. destruct fone_R as (O1 & O2 & _). split; [exact O2|]. split.
  { rewrite O1. change 1 with (bpow radix2 0). split; apply bpow_le; lia. }
  split; [reflexivity|]. split; [repeat constructor; cbn [position]; lia|]. split.
  - apply sf_inj. vm_compute. reflexivity.
  - intros E. apply (f_equal (map B2SF)) in E. revert E. vm_compute. discriminate.
Qed.
(** Non-vacuity: the upper child along the second axis of a node with 10 cm cells, and what by_half picks *)
Definition w10cm : float32 := @B754_finite fprec femax false 13421773 (-27) (eq_refl true).
Example C75_children_ex : let n := NodeIndex 3 [-1; 5; 8388607]%Z in
  Forall (fun c => (Z.abs c < 2 ^ 23)%Z) (position n) /\ computeChildIndex n 2 = NodeIndex 2 [-2; 11; 16777214]%Z /\
  by_half 0 2 (fnodeIndexToMinCorner n w10cm) (fnodeIndexToCenterPoint n w10cm) =
    [nth 0 (fnodeIndexToMinCorner n w10cm) fone; nth 1 (fnodeIndexToCenterPoint n w10cm) fone; nth 2 (fnodeIndexToMinCorner n w10cm) fone].
Proof. cbv zeta. split; [repeat constructor; cbn [position]; lia|]. split; [reflexivity|]. apply sf_inj. vm_compute. reflexivity. Qed.
Print Assumptions C75_children_tile.
