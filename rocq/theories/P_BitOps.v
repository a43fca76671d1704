(** C90: the bit operations act on the individual bits as their names say, for every word. *)
From Verif Require Import Base M_IntMath F_IntMath M_Morton F_Morton M_Haar F_Haar M_BitOps.

(* ---------------- specification ---------------- *)
(** A word of W bits. *)
Definition word (W x : Z) : Prop := 0 <= x < 2 ^ W.
(** The positions of the set bits among the lowest n, in increasing order. *)
Definition set_positions (n : nat) (x : Z) : list nat :=
  filter (fun j => Z.testbit x (Z.of_nat j)) (seq 0 n).

(* ---------------- facts ---------------- *)
Lemma mod_bits x W j : 0 <= W -> 0 <= j -> Z.testbit (x mod 2 ^ W) j = (j <? W) && Z.testbit x j.
Proof.
  intros HW Hj. destruct (Z.ltb_spec j W).
  - apply Z.mod_pow2_bits_low; lia.
  - apply Z.mod_pow2_bits_high; lia.
Qed.
Lemma word_bits W x j : 0 <= W -> word W x -> W <= j -> Z.testbit x j = false.
Proof. intros HW Hx Hj. exact (testbit_high x W j Hx Hj). Qed.
Lemma mod_word W x : 0 <= W -> word W (x mod 2 ^ W).
Proof. intros. apply Z.mod_pos_bound. apply Z.pow_pos_nonneg; lia. Qed.

Lemma is_bit x i : 0 <= i -> negb (Z.land (Z.shiftr x i) 1 =? 0) = Z.testbit x i.
Proof.
  intros Hi. change 1 with (2 ^ 1 - 1). rewrite land_mask by lia.
  rewrite <- Z.bit0_mod. rewrite Z.shiftr_spec by lia. replace (0 + i) with i by lia.
  destruct (Z.testbit x i); reflexivity.
Qed.
Lemma b2z_bits v k : Z.testbit (Z.b2z v) k = v && (k =? 0).
Proof.
  destruct v; cbn [Z.b2z andb].
  - destruct (Z_lt_le_dec k 0); [rewrite Z.testbit_neg_r by lia; lia|].
    change 1 with (2 ^ 0). rewrite Z.pow2_bits_eqb by lia. apply Z.eqb_sym.
  - apply Z.bits_0.
Qed.

(* ---------------- single bits ---------------- *)
Theorem C90_is_bit_set W x i : 0 <= i < W -> is_bit_set W x i = Some (Z.testbit x i).
Proof.
  intros Hi. unfold is_bit_set, shift_ok, promoted. replace ((0 <=? i) && (i <? Z.max 32 W)) with true by lia.
  rewrite is_bit by lia. reflexivity.
Qed.
Theorem C90_set_bit W x i v : 0 <= i < W -> word W x ->
  exists y, set_bit_to W x i v = Some y /\ word W y /\
    (v = true -> set_bit W x i = Some y) /\ (v = false -> unset_bit W x i = Some y) /\
    forall j, 0 <= j < W -> Z.testbit y j = if j =? i then v else Z.testbit x j.
Proof.
  intros Hi Hx. unfold set_bit_to, set_bit, unset_bit, shift_ok, promoted.
  replace ((0 <=? i) && (i <? Z.max 32 W)) with true by lia.
  eexists; split; [reflexivity|]. split; [apply mod_word; lia|].
  assert (B : forall j, 0 <= j < W ->
    Z.testbit (Z.lor (Z.land x (Z.lnot (Z.shiftl 1 i)) mod 2 ^ W) (Z.shiftl (Z.b2z v) i) mod 2 ^ W) j =
    if j =? i then v else Z.testbit x j).
  { intros j Hj. rewrite mod_bits, Z.lor_spec, mod_bits, Z.land_spec, Z.lnot_spec, testbit_shiftl1 by lia.
    rewrite Z.shiftl_spec, b2z_bits by lia.
    replace (j <? W) with true by lia. cbn [andb]. replace (j - i =? 0) with (j =? i) by lia.
    rewrite (Z.eqb_sym i j). destruct (Z.eqb_spec j i) as [->|]; cbn [negb].
    - rewrite andb_false_r, andb_true_r. reflexivity.
    - rewrite !andb_true_r, andb_false_r, orb_false_r. reflexivity. }
  split; [|split; [|exact B]].
  - intros ->. f_equal. apply Z.bits_inj'. intros j Hj. destruct (Z_lt_le_dec j W).
    + rewrite B by lia. rewrite mod_bits, Z.lor_spec, testbit_shiftl1 by lia.
      replace (j <? W) with true by lia. rewrite (Z.eqb_sym i j). cbn [andb].
      destruct (j =? i); [apply orb_true_r|apply orb_false_r].
    + rewrite !mod_bits by lia. replace (j <? W) with false by lia. reflexivity.
  - intros ->. f_equal. apply Z.bits_inj'. intros j Hj. destruct (Z_lt_le_dec j W).
    + rewrite B by lia. rewrite mod_bits, Z.land_spec, Z.lnot_spec, testbit_shiftl1 by lia.
      replace (j <? W) with true by lia. rewrite (Z.eqb_sym i j). cbn [andb].
      destruct (j =? i); [apply andb_false_r|apply andb_true_r].
    + rewrite !mod_bits by lia. replace (j <? W) with false by lia. reflexivity.
Qed.

(* ---------------- counting ---------------- *)
Lemma positions_S n x :
  set_positions (S n) x = set_positions n x ++ (if Z.testbit x (Z.of_nat n) then [n] else []).
Proof.
  unfold set_positions. rewrite seq_S, filter_app. cbn [filter Nat.add].
  destruct (Z.testbit x (Z.of_nat n)); reflexivity.
Qed.
Theorem C90_popcount n x : popcount n x = Z.of_nat (length (set_positions n x)).
Proof.
  induction n as [|n IH]; [reflexivity|]. cbn [popcount]. rewrite positions_S, app_length, IH.
  destruct (Z.testbit x (Z.of_nat n)); cbn [Z.b2z length]; lia.
Qed.
Theorem C90_parity x : parity x = Z.odd (Z.of_nat (length (set_positions 32 x))).
Proof. unfold parity. rewrite C90_popcount. reflexivity. Qed.
Theorem C90_clz n x : word (Z.of_nat n) x -> x <> 0 ->
  exists c, clz n x = Some c /\ 0 <= c < Z.of_nat n /\ Z.testbit x (Z.of_nat n - 1 - c) = true /\
    forall j, Z.of_nat n - 1 - c < j -> Z.testbit x j = false.
Proof.
  intros Hx H0. unfold word in Hx. unfold clz. destruct (Z.eqb_spec x 0); [contradiction|].
  rewrite clz_loop_log2 by lia. eexists; split; [reflexivity|].
  assert (L : 0 <= Z.log2 x < Z.of_nat n) by (split; [apply Z.log2_nonneg|apply Z.log2_lt_pow2; lia]).
  replace (Z.of_nat n - 1 - (Z.of_nat n - 1 - Z.log2 x)) with (Z.log2 x) by lia.
  split; [lia|]. split; [apply Z.bit_log2; lia|]. intros j Hj. apply Z.bits_above_log2; lia.
Qed.

(* ---------------- rotations ---------------- *)
Lemma rotate_mask_bits W width x j : 0 < width <= W -> 32 <= W \/ width = W -> word W x -> 0 <= j ->
  Z.testbit (Z.land x (rotate_mask W width)) j = (j <? width) && Z.testbit x j.
Proof.
  intros Hw Hc Hx Hj. rewrite Z.land_spec. unfold rotate_mask. destruct (Z.ltb_spec W 32).
  - rewrite Z.bits_m1, andb_true_r by lia. destruct Hc as [|E]; [lia|].
    destruct (Z.ltb_spec j width); [reflexivity|]. apply (word_bits W); lia || assumption.
  - rewrite Z.shiftr_spec by lia. replace (2 ^ W - 1) with (Z.ones W) by (rewrite Z.ones_equiv; lia).
    destruct (Z.ltb_spec j width).
    + rewrite Z.ones_spec_low by lia. apply andb_true_r.
    + rewrite Z.ones_spec_high by lia. apply andb_false_r.
Qed.
Lemma rotate_mask_end W width y j : 0 < width <= W -> 32 <= W \/ width = W -> 0 <= j ->
  Z.testbit (Z.land y (rotate_mask W width) mod 2 ^ W) j = (j <? width) && Z.testbit y j.
Proof.
  intros Hw Hc Hj. rewrite mod_bits, Z.land_spec by lia. unfold rotate_mask. destruct (Z.ltb_spec W 32).
  - rewrite Z.bits_m1, andb_true_r by lia. destruct Hc as [|E]; [lia|]. subst. reflexivity.
  - rewrite Z.shiftr_spec by lia. replace (2 ^ W - 1) with (Z.ones W) by (rewrite Z.ones_equiv; lia).
    destruct (Z.ltb_spec j width).
    + rewrite Z.ones_spec_low by lia. replace (j <? W) with true by lia. apply andb_true_r.
    + rewrite Z.ones_spec_high by lia. rewrite andb_false_r, andb_false_r. reflexivity.
Qed.
Lemma sub_mod i s w : 0 <= i < w -> 0 <= s <= w -> (i - s) mod w = if i <? s then i - s + w else i - s.
Proof.
  intros. destruct (Z.ltb_spec i s).
  - symmetry. apply (Z.mod_unique (i - s) w (-1)); lia.
  - apply Z.mod_small. lia.
Qed.
Lemma add_mod i s w : 0 <= i < w -> 0 <= s <= w -> (i + s) mod w = if i + s <? w then i + s else i + s - w.
Proof.
  intros. destruct (Z.ltb_spec (i + s) w).
  - apply Z.mod_small. lia.
  - symmetry. apply (Z.mod_unique (i + s) w 1); lia.
Qed.
Lemma width_word W width y : 0 < width <= W -> (forall j, 0 <= j -> Z.testbit y j = (j <? width) && Z.testbit y j) ->
  0 <= y -> word width y.
Proof.
  intros Hw B Hy. split; [assumption|]. apply bits_bound; [lia|lia|].
  intros m Hm. rewrite B by lia. replace (m <? width) with false by lia. reflexivity.
Qed.

(** A rotation of the lowest [width] bits by [s] places. It is defined if neither [s] nor [width - s] reaches
    the width of the promoted type. *)
Theorem C90_rotate_left W width x s :
  0 < width <= W -> 32 <= W \/ width = W -> word W x -> 0 <= s <= width -> s < promoted W -> width - s < promoted W ->
  exists y, rotate_left W width x s = Some y /\ word width y /\
    forall i, 0 <= i < width -> Z.testbit y i = Z.testbit x ((i - s) mod width).
Proof.
  intros Hw Hc Hx Hs Hs1 Hs2. unfold rotate_left, shift_ok.
  replace ((0 <=? s) && (s <? promoted W) && ((0 <=? width - s) && (width - s <? promoted W))) with true by lia.
  eexists; split; [reflexivity|]. split.
  - apply (width_word W); [lia| |apply mod_word; lia].
    intros j Hj. rewrite rotate_mask_end by lia || assumption. destruct (j <? width); reflexivity.
  - intros i Hi. assert (P : W <= promoted W) by (unfold promoted; lia).
    rewrite rotate_mask_end, Z.lor_spec, mod_bits by lia || assumption.
    rewrite Z.shiftl_spec, Z.shiftr_spec by lia.
    replace (i <? width) with true by lia. replace (i <? promoted W) with true by lia. cbn [andb].
    rewrite sub_mod by lia. destruct (Z.ltb_spec i s).
    + rewrite (Z.testbit_neg_r _ (i - s)) by lia. rewrite rotate_mask_bits by lia || assumption.
      replace (i + (width - s) <? width) with true by lia. cbn [andb orb]. f_equal. lia.
    + rewrite !rotate_mask_bits by lia || assumption.
      replace (i - s <? width) with true by lia. replace (i + (width - s) <? width) with false by lia.
      cbn [andb]. apply orb_false_r.
Qed.
Theorem C90_rotate_right W width x s :
  0 < width <= W -> 32 <= W \/ width = W -> word W x -> 0 <= s <= width -> s < promoted W -> width - s < promoted W ->
  exists y, rotate_right W width x s = Some y /\ word width y /\
    forall i, 0 <= i < width -> Z.testbit y i = Z.testbit x ((i + s) mod width).
Proof.
  intros Hw Hc Hx Hs Hs1 Hs2. unfold rotate_right, shift_ok.
  replace ((0 <=? s) && (s <? promoted W) && ((0 <=? width - s) && (width - s <? promoted W))) with true by lia.
  eexists; split; [reflexivity|]. split.
  - apply (width_word W); [lia| |apply mod_word; lia].
    intros j Hj. rewrite rotate_mask_end by lia || assumption. destruct (j <? width); reflexivity.
  - intros i Hi. assert (P : W <= promoted W) by (unfold promoted; lia).
    rewrite rotate_mask_end, Z.lor_spec, mod_bits by lia || assumption.
    rewrite Z.shiftl_spec, Z.shiftr_spec by lia.
    replace (i <? width) with true by lia. replace (i <? promoted W) with true by lia. cbn [andb].
    rewrite add_mod by lia. destruct (Z.ltb_spec (i + s) width).
    + rewrite rotate_mask_bits by lia || assumption.
      replace (i + s <? width) with true by lia. cbn [andb].
      destruct (Z_lt_le_dec (i - (width - s)) 0).
      * rewrite (Z.testbit_neg_r _ (i - (width - s))) by lia. apply orb_false_r.
      * exfalso. lia.
    + rewrite !rotate_mask_bits by lia || assumption.
      replace (i + s <? width) with false by lia. replace (i - (width - s) <? width) with true by lia.
      cbn [andb orb]. f_equal. lia.
Qed.
(** The two rotations undo each other. *)
Theorem C90_rotate_inverse W width x s :
  0 < width <= W -> 32 <= W \/ width = W -> word W x -> 0 <= s <= width -> s < promoted W -> width - s < promoted W ->
  exists y z, rotate_left W width x s = Some y /\ rotate_right W width x s = Some z /\
    rotate_right W width y s = Some (x mod 2 ^ width) /\ rotate_left W width z s = Some (x mod 2 ^ width).
Proof.
  intros Hw Hc Hx Hs Hs1 Hs2.
  destruct (C90_rotate_left W width x s Hw Hc Hx Hs Hs1 Hs2) as (y & Ey & Wy & By).
  destruct (C90_rotate_right W width x s Hw Hc Hx Hs Hs1 Hs2) as (z & Ez & Wz & Bz).
  assert (P : 2 ^ width <= 2 ^ W) by (apply Z.pow_le_mono_r; lia).
  assert (Wy' : word W y) by (unfold word in *; lia).
  assert (Wz' : word W z) by (unfold word in *; lia).
  destruct (C90_rotate_right W width y s Hw Hc Wy' Hs Hs1 Hs2) as (y' & Ey' & Wyy & Byy).
  destruct (C90_rotate_left W width z s Hw Hc Wz' Hs Hs1 Hs2) as (z' & Ez' & Wzz & Bzz).
  exists y, z. split; [assumption|]. split; [assumption|].
  assert (M : forall k, 0 <= k mod width < width) by (intro; apply Z.mod_pos_bound; lia).
  split; [rewrite Ey'|rewrite Ez']; f_equal; apply Z.bits_inj'; intros j Hj;
    rewrite mod_bits by lia; (destruct (Z.ltb_spec j width); cbn [andb];
      [|match goal with H : word width ?q |- Z.testbit ?q _ = _ => apply (word_bits width q); [lia|exact H|lia] end]).
  - rewrite Byy by lia. rewrite By by apply M. f_equal. rewrite Zminus_mod_idemp_l.
    replace (j + s - s) with j by lia. apply Z.mod_small. lia.
  - rewrite Bzz by lia. rewrite Bz by apply M. f_equal. rewrite Zplus_mod_idemp_l.
    replace (j - s + s) with j by lia. apply Z.mod_small. lia.
Qed.
(** Rotating a whole int by nothing is undefined: the other half of the word is shifted by 32. *)
Theorem C90_rotate_nothing_refuted :
  exists W x, W = 32 /\ word W x /\ rotate_left W W x 0 = None /\ rotate_right W W x 0 = None.
Proof. exists 32, 11. repeat split; vm_compute; congruence. Qed.
(** For a type narrower than int the mask has no effect: rotating the lowest 4 bits of a byte by one place lets the
    bits above into the result. *)
Theorem C90_rotate_narrow_refuted :
  exists x y, word 8 x /\ rotate_left 8 4 x 1 = Some y /\ ~ word 4 y.
Proof.
  exists 17, 34. split; [split; vm_compute; congruence|]. split; [reflexivity|].
  intros [_ H]. vm_compute in H. discriminate.
Qed.

(* ---------------- inserting a bit ---------------- *)
Theorem C90_squeeze_in W x v pos : 0 <= pos < 31 -> 32 <= W -> word W x ->
  exists y, squeeze_in_word W x v pos = Some y /\ word W y /\
    forall j, 0 <= j < W -> Z.testbit y j =
      if j <? pos then Z.testbit x j else if j =? pos then v else Z.testbit x (j - 1).
Proof.
  intros Hp HW Hx. unfold squeeze_in_word. replace ((0 <=? pos) && (pos <? 31)) with true by lia.
  eexists; split; [reflexivity|]. split; [apply mod_word; lia|]. intros j Hj.
  rewrite <- squeeze_in_testbit by lia. rewrite mod_bits by lia. replace (j <? W) with true by lia. cbn [andb].
  unfold squeeze_in. rewrite !Z.lor_spec, mod_bits by (unfold promoted; lia).
  replace (j <? promoted W) with true by (unfold promoted; lia). reflexivity.
Qed.
(** In a 64-bit word the bits from position 31 on cannot be reached: the mask is an int. *)
Theorem C90_squeeze_in_high_refuted :
  exists x v pos, word 64 x /\ 0 <= pos < 64 /\ squeeze_in_word 64 x v pos = None.
Proof. exists 0, true, 40. repeat split; vm_compute; congruence. Qed.

(* ---------------- repeating a block ---------------- *)
Theorem C90_repeat_block W bw c : 0 < W -> 0 < bw -> word W c ->
  exists y, repeat_block W bw c = Some y /\ word W y /\
    forall i, 0 <= i < W -> Z.testbit y i = Z.testbit c (i mod bw).
Proof.
  intros HW Hb Hc. unfold repeat_block. replace (0 <? bw) with true by lia.
  set (k := if bw <? W then Z.land c (Z.shiftl 1 bw - 1) else c).
  set (n := W / bw + Z.b2z (negb (W mod bw =? 0))).
  assert (K : forall j, 0 <= j -> Z.testbit k j = (j <? bw) && Z.testbit c j).
  { intros j Hj. unfold k. destruct (Z.ltb_spec bw W).
    - rewrite Z.shiftl_1_l, land_mask, mod_bits by lia. reflexivity.
    - destruct (Z.ltb_spec j bw); [reflexivity|]. apply (word_bits W); lia || assumption. }
  assert (Nn : W <= n * bw).
  { unfold n. pose proof (Z.div_mod W bw ltac:(lia)). pose proof (Z.mod_pos_bound W bw Hb).
    destruct (Z.eqb_spec (W mod bw) 0); cbn [negb Z.b2z]; nia. }
  assert (B : forall i, 0 <= i -> Z.testbit
    (fold_left (fun r idx => Z.lor r (Z.shiftl k (Z.of_nat idx * bw) mod 2 ^ W)) (seq 0 (Z.to_nat n)) 0) i =
    (i <? W) && Z.testbit c (i mod bw)).
  { intros i Hi. rewrite fold_lor_bits, Z.bits_0. cbn [orb].
    pose proof (Z.div_mod i bw ltac:(lia)) as D. pose proof (Z.mod_pos_bound i bw Hb) as M.
    destruct (Z.ltb_spec i W) as [Hi'|Hi']; cbn [andb].
    - assert (Q : 0 <= i / bw < n) by (split; [apply Z.div_pos; lia|apply Z.div_lt_upper_bound; nia]).
      assert (T : forall idx, Z.testbit (Z.shiftl k (Z.of_nat idx * bw) mod 2 ^ W) i =
                  (Z.of_nat idx =? i / bw) && Z.testbit c (i mod bw)).
      { intros idx. rewrite mod_bits, Z.shiftl_spec by lia. replace (i <? W) with true by lia. cbn [andb].
        destruct (Z.eqb_spec (Z.of_nat idx) (i / bw)) as [E|E]; cbn [andb].
        - rewrite E. replace (i - i / bw * bw) with (i mod bw) by lia. rewrite K by lia.
          replace (i mod bw <? bw) with true by lia. reflexivity.
        - destruct (Z_lt_le_dec (i - Z.of_nat idx * bw) 0); [apply Z.testbit_neg_r; lia|].
          rewrite K by lia. replace (i - Z.of_nat idx * bw <? bw) with false; [reflexivity|].
          symmetry. apply Z.ltb_ge.
          assert (Z.of_nat idx <= i / bw) by (apply Z.div_le_lower_bound; lia). nia. }
      destruct (Z.testbit c (i mod bw)) eqn:Ec.
      + apply existsb_exists. exists (Z.to_nat (i / bw)). split; [apply in_seq; lia|].
        rewrite T, Z2Nat.id, Z.eqb_refl by lia. reflexivity.
      + apply not_true_is_false. intros H. apply existsb_exists in H as (idx & _ & H).
        rewrite T, andb_false_r in H. discriminate.
    - apply not_true_is_false. intros H. apply existsb_exists in H as (idx & _ & H).
      rewrite mod_bits in H by lia. replace (i <? W) with false in H by lia. discriminate. }
  eexists; split; [reflexivity|]. split.
  - assert (Z0 : forall l a, 0 <= a ->
      0 <= fold_left (fun r idx => Z.lor r (Z.shiftl k (Z.of_nat idx * bw) mod 2 ^ W)) l a).
    { induction l as [|q l IH]; intros a Ha; cbn [fold_left]; [assumption|]. apply IH. apply Z.lor_nonneg.
      split; [assumption|]. apply mod_word; lia. }
    split; [apply Z0; lia|]. apply bits_bound; [apply Z0; lia|lia|].
    intros m Hm. rewrite B by lia. replace (m <? W) with false by lia. reflexivity.
  - intros i Hi. rewrite B by lia. replace (i <? W) with true by lia. reflexivity.
Qed.
(** The instance Morton coding uses. *)
Theorem C90_repeat_block64 bw c : 0 < bw -> word 64 c -> repeat_block 64 bw c = Some (repeat_block64 bw c).
Proof.
  intros Hb _. unfold repeat_block, repeat_block64. replace (0 <? bw) with true by lia.
  rewrite Z.quot_div_nonneg, Z.rem_mod_nonneg by lia. reflexivity.
Qed.

(* ---------------- expand and compress ---------------- *)
Lemma positions_len_le n m x : (n <= m)%nat -> (length (set_positions n x) <= length (set_positions m x))%nat.
Proof.
  induction 1; [lia|]. rewrite positions_S, app_length. lia.
Qed.
Lemma positions_nth n x j : (j < n)%nat -> Z.testbit x (Z.of_nat j) = true ->
  nth_error (set_positions n x) (length (set_positions j x)) = Some j.
Proof.
  intros Hj Hb. induction n as [|n IH]; [lia|]. rewrite positions_S. destruct (Nat.eq_dec j n) as [->|].
  - rewrite Hb, nth_error_app2, Nat.sub_diag by lia. reflexivity.
  - assert (j < n)%nat as L by lia. specialize (IH L). rewrite nth_error_app1; [assumption|].
    apply nth_error_Some. congruence.
Qed.
Lemma positions_inv n x k j : nth_error (set_positions n x) k = Some j ->
  (j < n)%nat /\ Z.testbit x (Z.of_nat j) = true /\ k = length (set_positions j x).
Proof.
  induction n as [|n IH]; [destruct k; discriminate|]. rewrite positions_S. intros H.
  destruct (lt_dec k (length (set_positions n x))) as [L|L].
  - rewrite nth_error_app1 in H by assumption. apply IH in H as (A & B & C). repeat split; lia || assumption.
  - rewrite nth_error_app2 in H by lia. destruct (Z.testbit x (Z.of_nat n)) eqn:E.
    + destruct (k - length (set_positions n x))%nat eqn:D.
      * injection H as <-. repeat split; [lia|assumption|lia].
      * destruct n0; discriminate.
    + destruct (k - length (set_positions n x))%nat; discriminate.
Qed.

(** expand puts bit k of the source at the k-th set bit of the selector and clears all others. *)
Theorem C90_expand src sel :
  (forall k j, nth_error (set_positions 64 sel) k = Some j ->
     Z.testbit (pdep64 src sel) (Z.of_nat j) = Z.testbit src (Z.of_nat k)) /\
  (forall j, 0 <= j -> Z.testbit (pdep64 src sel) j = true -> Z.testbit sel j = true /\ j < 64).
Proof.
  split.
  - intros k j H. apply positions_inv in H as (Hj & Hb & ->).
    rewrite pdep64_bits, Hb, C90_popcount, Nat2Z.id by lia. replace (Z.of_nat j <? 64) with true by lia. reflexivity.
  - intros j Hj H. rewrite pdep64_bits in H by assumption. apply andb_prop in H as [H _].
    apply andb_prop in H as [H1 H2]. split; [assumption|lia].
Qed.
(** compress reads the k-th set bit of the selector into bit k and clears the rest. *)
Theorem C90_compress src sel :
  (forall k j, nth_error (set_positions 64 sel) k = Some j ->
     Z.testbit (pext64 src sel) (Z.of_nat k) = Z.testbit src (Z.of_nat j)) /\
  (forall k, nth_error (set_positions 64 sel) k = None -> Z.testbit (pext64 src sel) (Z.of_nat k) = false).
Proof.
  split.
  - intros k j H. destruct (Z.testbit src (Z.of_nat j)) eqn:E.
    + apply pext64_bits; [lia|]. apply positions_inv in H as (Hj & Hb & ->). exists (Z.of_nat j).
      rewrite C90_popcount, Nat2Z.id. repeat split; lia || assumption.
    + apply not_true_is_false. intros H'. apply pext64_bits in H' as (j' & Hj' & A & B & C); [|lia].
      rewrite C90_popcount in C. apply Nat2Z.inj in C.
      assert (N : nth_error (set_positions 64 sel) k = Some (Z.to_nat j')).
      { rewrite <- C. apply positions_nth; [lia|]. rewrite Z2Nat.id by lia. assumption. }
      rewrite N in H. injection H as <-. rewrite Z2Nat.id in E by lia. congruence.
  - intros k H. apply not_true_is_false. intros H'. apply pext64_bits in H' as (j & Hj & A & B & C); [|lia].
    rewrite C90_popcount in C. apply Nat2Z.inj in C.
    assert (N : nth_error (set_positions 64 sel) k = Some (Z.to_nat j)).
    { rewrite <- C. apply positions_nth; [lia|]. rewrite Z2Nat.id by lia. assumption. }
    congruence.
Qed.
(** Compressing what was expanded gives back as many source bits as the selector has; expanding what was
    compressed gives the selected bits back in place. *)
Theorem C90_round_trips src sel : word 64 sel ->
  pext64 (pdep64 src sel) sel = src mod 2 ^ Z.of_nat (length (set_positions 64 sel)) /\
  pdep64 (pext64 src sel) sel = Z.land src sel.
Proof.
  intros Hs. split; apply Z.bits_inj'; intros j Hj.
  - rewrite mod_bits by lia. rewrite <- (Z2Nat.id j) by lia.
    destruct (nth_error (set_positions 64 sel) (Z.to_nat j)) as [i|] eqn:E.
    + rewrite (proj1 (C90_compress _ _) _ _ E), (proj1 (C90_expand _ _) _ _ E).
      replace (Z.of_nat (Z.to_nat j) <? Z.of_nat (length (set_positions 64 sel))) with true; [reflexivity|].
      symmetry. apply Z.ltb_lt. apply Nat2Z.inj_lt. apply nth_error_Some. congruence.
    + rewrite (proj2 (C90_compress _ _) _ E).
      replace (Z.of_nat (Z.to_nat j) <? Z.of_nat (length (set_positions 64 sel))) with false; [reflexivity|].
      symmetry. apply Z.ltb_ge. apply Nat2Z.inj_le. apply nth_error_None. assumption.
  - rewrite Z.land_spec. destruct (Z.testbit sel j) eqn:E.
    + assert (j < 64) by (destruct (Z_lt_le_dec j 64); [assumption|rewrite (word_bits 64 sel j) in E; [discriminate|lia|assumption|lia]]).
      assert (N : nth_error (set_positions 64 sel) (length (set_positions (Z.to_nat j) sel)) = Some (Z.to_nat j))
        by (apply positions_nth; [lia|rewrite Z2Nat.id by lia; assumption]).
      rewrite <- (Z2Nat.id j) at 1 by lia.
      rewrite (proj1 (C90_expand _ _) _ _ N), (proj1 (C90_compress _ _) _ _ N), Z2Nat.id by lia.
      symmetry. apply andb_true_r.
    + rewrite andb_false_r. apply not_true_is_false. intros H. apply C90_expand in H as [H _]; congruence.
Qed.

(* ---------------- the repository's own expectations ---------------- *)
(** library/cpp/test/src/core/utils/bits/test_bit_operations.cc, all its literal expectations. An [int] is written as
    its 32-bit pattern (-1 is 2^32 - 1, the lowest int is 2^31). *)
Example C90_ex_rotate_left :
  rotate_left 32 32 0xB 3 = Some 0x58 /\
  map (fun '(x, s) => rotate_left 32 4 x s)
    [(1,0);(1,1);(1,2);(1,3);(1,4);(8,0);(8,1);(8,2);(8,3);(8,4);(11,0);(11,1);(11,2);(11,3);(11,4);
     (17,0);(17,1);(17,2);(17,3);(17,4);(24,0);(24,1);(24,2);(24,3);(24,4)] =
  map Some [1;2;4;8;1;8;1;2;4;8;11;7;14;13;11;1;2;4;8;1;8;1;2;4;8] /\
  rotate_left 32 32 (2 ^ 32 - 1) 3 = Some (2 ^ 32 - 1) /\ rotate_left 32 32 (2 ^ 31) 3 = Some 4.
Proof. vm_compute. repeat split. Qed.
Example C90_ex_rotate_right :
  rotate_right 32 32 0x58 3 = Some 0xB /\
  map (fun '(x, s) => rotate_right 32 4 x s)
    [(1,0);(1,1);(1,2);(1,3);(1,4);(8,0);(8,1);(8,2);(8,3);(8,4);(11,0);(11,1);(11,2);(11,3);(11,4);
     (17,0);(17,1);(17,2);(17,3);(17,4);(24,0);(24,1);(24,2);(24,3);(24,4)] =
  map Some [1;8;4;2;1;8;4;2;1;8;11;13;14;7;11;1;8;4;2;1;8;4;2;1;8] /\
  rotate_right 32 32 (2 ^ 32 - 1) 3 = Some (2 ^ 32 - 1) /\ rotate_right 32 32 (2 ^ 31) 3 = Some (2 ^ 28).
Proof. vm_compute. repeat split. Qed.
Example C90_ex_squeeze_in :
  map (squeeze_in_word 32 9 false) [0;1;2;3;4] = map Some [18;17;17;17;9] /\
  map (squeeze_in_word 32 9 true) [0;1;2;3;4] = map Some [19;19;21;25;25] /\
  map (squeeze_in 9 false) [0;1;2;3;4] = [18;17;17;17;9] /\ map (squeeze_in 9 true) [0;1;2;3;4] = [19;19;21;25;25].
Proof. vm_compute. repeat split. Qed.
Example C90_ex_counts :
  map (popcount 32) [0;1;2;3;0xAB8;0x3A97] = [0;1;1;2;6;9] /\
  map (popcount 32) [0x024220A0;0x40848E13;0xE0221110;0xFFFFFFFF] = [6;10;8;32] /\
  map (popcount 64) [0x0804522115C22021;0x8B8014183A518150;0xFFFFFFFFFFFFFFFF] = [16;20;64] /\
  map parity [0;1;2;3;0xAB8;0x3A97] = [false;true;true;false;false;true] /\
  map (clz 32) [2 ^ 0;2 ^ 30;2 ^ 31] = map Some [31;1;0] /\ map (clz 64) [2 ^ 0;2 ^ 62;2 ^ 63] = map Some [63;1;0].
Proof. vm_compute. repeat split. Qed.
Example C90_ex_repeat_block :
  map (fun '(w, c) => repeat_block 32 w c)
    [(2,1);(3,1);(4,1);(5,1);(1,1);(32,2^16-1);(16,2^8-1);(8,2^4-1);(4,2^2-1);
     (32,2^10-1);(32,0);(24,2^8-1);(12,2^4-1);(6,2^2-1);(3,1)] =
  map Some [0x55555555;0x49249249;0x11111111;0x42108421;0xFFFFFFFF;0x0000FFFF;0x00FF00FF;0x0F0F0F0F;0x33333333;
            0x000003FF;0;0xFF0000FF;0x0F00F00F;0xC30C30C3;0x49249249] /\
  map (fun '(w, c) => repeat_block 64 w c)
    [(2,1);(3,1);(4,1);(5,1);(64,2^32-1);(32,2^16-1);(16,2^8-1);(8,2^4-1);(4,2^2-1);
     (96,2^32-1);(48,2^16-1);(24,2^8-1);(12,2^4-1);(6,2^2-1);(3,1)] =
  map Some [0x5555555555555555;0x9249249249249249;0x1111111111111111;0x1084210842108421;
            0x00000000FFFFFFFF;0x0000FFFF0000FFFF;0x00FF00FF00FF00FF;0x0F0F0F0F0F0F0F0F;0x3333333333333333;
            0x00000000FFFFFFFF;0xFFFF00000000FFFF;0x00FF0000FF0000FF;0xF00F00F00F00F00F;0x30C30C30C30C30C3;
            0x9249249249249249].
Proof. vm_compute. repeat split. Qed.
Example C90_ex_single :
  is_bit_set 32 5 2 = Some true /\ is_bit_set 32 5 1 = Some false /\ set_bit_to 8 0x81 7 false = Some 1 /\
  set_bit_to 8 0x80 0 true = Some 0x81 /\ unset_bit 8 0x81 7 = Some 1 /\ set_bit 8 0x80 0 = Some 0x81.
Proof. vm_compute. repeat split. Qed.
Example C90_ex_expand :
  set_positions 64 0xA4 = [2;5;7]%nat /\ pdep64 5 0xA4 = 0x84 /\ pext64 0x84 0xA4 = 5 /\ pext64 0xFF 0xA4 = 7.
Proof. vm_compute. repeat split. Qed.

Print Assumptions C90_is_bit_set.
Print Assumptions C90_set_bit.
Print Assumptions C90_popcount.
Print Assumptions C90_parity.
Print Assumptions C90_clz.
Print Assumptions C90_rotate_left.
Print Assumptions C90_rotate_right.
Print Assumptions C90_rotate_inverse.
Print Assumptions C90_rotate_nothing_refuted.
Print Assumptions C90_rotate_narrow_refuted.
Print Assumptions C90_squeeze_in.
Print Assumptions C90_squeeze_in_high_refuted.
Print Assumptions C90_repeat_block.
Print Assumptions C90_repeat_block64.
Print Assumptions C90_expand.
Print Assumptions C90_compress.
Print Assumptions C90_round_trips.
