From Verif Require Import Base M_IntMath.

Lemma exp2_pow e : 0 <= e -> exp2 e = 2 ^ e.
Proof. intros; unfold exp2. rewrite Z.shiftl_mul_pow2 by assumption. lia. Qed.

Lemma pow2_pos e : 0 <= e -> 0 < 2 ^ e.
Proof. intros; apply Z.pow_pos_nonneg; lia. Qed.

Lemma div_exp2_floor_spec v e : 0 <= e -> div_exp2_floor v e = v / 2 ^ e.
Proof. apply shiftr_pow2. Qed.

Lemma div_exp2_floor_remainder_spec v e : 0 <= e -> div_exp2_floor_remainder v e = v mod 2 ^ e.
Proof.
  intros. unfold div_exp2_floor_remainder.
  rewrite Z.shiftl_mul_pow2, Z.mul_1_l by assumption. apply land_mask; assumption.
Qed.

Lemma div_exp2_ceil_spec v e : 0 <= e ->
  2 ^ e * (div_exp2_ceil v e - 1) < v <= 2 ^ e * div_exp2_ceil v e.
Proof.
  intros. unfold div_exp2_ceil. rewrite exp2_pow, shiftr_pow2 by assumption.
  pose proof (pow2_pos e H). set (d := 2 ^ e) in *. nia.
Qed.

(* --- clz / log2 --- *)
Lemma log2_top n x : 2 ^ Z.of_nat n <= x < 2 ^ Z.of_nat (S n) -> Z.log2 x = Z.of_nat n.
Proof.
  intros [H1 H2]. rewrite Nat2Z.inj_succ in H2. apply Z.log2_unique; [lia|]. split; assumption.
Qed.

Lemma clz_loop_log2 n x : 0 < x < 2 ^ Z.of_nat n ->
  clz_loop n x = Z.of_nat n - 1 - Z.log2 x.
Proof.
  induction n as [|n IH]; intros Hx; [change (2 ^ Z.of_nat 0) with 1 in Hx; lia|].
  cbn [clz_loop].
  destruct (Z.testbit x (Z.of_nat n)) eqn:Hb.
  - assert (Z.log2 x = Z.of_nat n); [|lia].
    destruct (Z_lt_le_dec x (2 ^ Z.of_nat n)) as [Hl|Hl].
    + rewrite (testbit_high x (Z.of_nat n)) in Hb by lia. discriminate.
    + apply log2_top; tauto.
  - assert (x < 2 ^ Z.of_nat n).
    { destruct (Z_lt_le_dec x (2 ^ Z.of_nat n)) as [Hl|Hl]; [assumption|].
      assert (Z.log2 x = Z.of_nat n) as Hlog.
      { apply log2_top; tauto. }
      rewrite <- Hlog, Z.bit_log2 in Hb by lia. discriminate. }
    rewrite IH by lia. lia.
Qed.

Lemma log2_floor_spec s w x : 0 < x < 2 ^ Z.of_nat w ->
  log2_floor s w x = Some (Z.log2 x).
Proof.
  intros. unfold log2_floor, clz. destruct (Z.eqb_spec x 0); [lia|].
  rewrite clz_loop_log2 by assumption. destruct s; f_equal; lia.
Qed.

Lemma popcount_nonneg n x : 0 <= popcount n x.
Proof. induction n; cbn [popcount]; [lia|]. destruct (Z.testbit _ _); cbn [Z.b2z]; lia. Qed.

Lemma popcount_zero n x : 0 <= x < 2 ^ Z.of_nat n -> popcount n x = 0 -> x = 0.
Proof.
  intros Hx Hp. apply Z.bits_inj'. intros m Hm. rewrite Z.bits_0.
  assert (Hall : forall k, 0 <= k < Z.of_nat n -> Z.testbit x k = false).
  { clear Hm Hx m. induction n as [|n IH]; [lia|].
    cbn [popcount] in Hp. pose proof (popcount_nonneg n x).
    intros k Hk. destruct (Z.eq_dec k (Z.of_nat n)) as [->|].
    - destruct (Z.testbit x (Z.of_nat n)); cbn [Z.b2z] in Hp; [lia|reflexivity].
    - apply IH; [|lia]. destruct (Z.testbit x (Z.of_nat n)); cbn [Z.b2z] in Hp; lia. }
  destruct (Z_lt_le_dec m (Z.of_nat n)).
  - apply Hall; lia.
  - apply testbit_high with (n := Z.of_nat n); lia.
Qed.

Lemma popcount_ext n x y :
  (forall k, 0 <= k < Z.of_nat n -> Z.testbit x k = Z.testbit y k) -> popcount n x = popcount n y.
Proof.
  induction n as [|n IH]; intros H; [reflexivity|]. cbn [popcount].
  rewrite (H (Z.of_nat n)) by lia. rewrite IH; [reflexivity|]. intros; apply H; lia.
Qed.

Lemma popcount_pow2 n k : 0 <= k < Z.of_nat n -> popcount n (2 ^ k) = 1.
Proof.
  revert k. induction n as [|n IH]; intros k Hk; [lia|]. cbn [popcount].
  rewrite Z.pow2_bits_eqb by lia.
  destruct (Z.eqb_spec k (Z.of_nat n)) as [->|Hne].
  - cbn [Z.b2z]. rewrite (popcount_ext n (2 ^ Z.of_nat n) 0).
    + clear. replace (popcount n 0) with 0; [reflexivity|].
      induction n; cbn [popcount]; [reflexivity|]. rewrite Z.bits_0, <- IHn. reflexivity.
    + intros j Hj. rewrite Z.pow2_bits_eqb, Z.bits_0 by lia.
      destruct (Z.eqb_spec (Z.of_nat n) j); [lia|reflexivity].
  - cbn [Z.b2z]. rewrite IH by lia. reflexivity.
Qed.

Lemma popcount_one_is_pow2 n x : 0 < x < 2 ^ Z.of_nat n -> popcount n x = 1 -> x = 2 ^ Z.log2 x.
Proof.
  revert x. induction n as [|n IH]; intros x Hx Hp; [change (2 ^ Z.of_nat 0) with 1 in Hx; lia|].
  cbn [popcount] in Hp.
  destruct (Z_lt_le_dec x (2 ^ Z.of_nat n)) as [Hl|Hl].
  - rewrite (testbit_high x (Z.of_nat n)) in Hp by lia. cbn [Z.b2z] in Hp. apply IH; lia.
  - assert (Hlog : Z.log2 x = Z.of_nat n).
    { apply log2_top; tauto. }
    assert (Hb : Z.testbit x (Z.of_nat n) = true) by (rewrite <- Hlog; apply Z.bit_log2; lia).
    rewrite Hb in Hp. cbn [Z.b2z] in Hp.
    assert (Hrest : popcount n (x - 2 ^ Z.of_nat n) = 0).
    { rewrite (popcount_ext n _ x); [lia|]. intros k Hk.
      replace (x - 2 ^ Z.of_nat n) with (x + (-1) * 2 ^ Z.of_nat n) by lia.
      rewrite <- (Z.mod_pow2_bits_low _ (Z.of_nat n)) by lia.
      rewrite Z.mod_add by (apply Z.pow_nonzero; lia).
      apply Z.mod_pow2_bits_low; lia. }
    apply popcount_zero in Hrest.
    + rewrite Hlog. lia.
    + replace (Z.of_nat (S n)) with (Z.of_nat n + 1) in Hx by lia.
      rewrite Z.pow_add_r in Hx by lia. lia.
Qed.

Lemma log2_ceil_spec s w x : 0 < x < 2 ^ Z.of_nat w ->
  log2_ceil s w x = Some (Z.log2_up x).
Proof.
  intros Hx. unfold log2_ceil. rewrite log2_floor_spec by assumption.
  destruct (Z.eqb_spec (popcount w x) 1) as [Hp|Hp].
  - apply popcount_one_is_pow2 in Hp; [|assumption]. f_equal.
    rewrite Hp at 2. rewrite Z.log2_up_pow2; [reflexivity|apply Z.log2_nonneg].
  - f_equal. pose proof (Z.le_log2_log2_up x) as H1. pose proof (Z.le_log2_up_succ_log2 x) as H2.
    destruct (Z.eq_dec (Z.log2_up x) (Z.log2 x)) as [He|]; [|lia].
    exfalso. apply Hp. symmetry in He. apply Z.log2_log2_up_exact in He as [b Hb]; [|lia].
    assert (0 <= b) by (destruct (Z_lt_le_dec b 0); [rewrite Z.pow_neg_r in Hb by lia; lia|lia]).
    rewrite Hb. apply popcount_pow2. split; [lia|].
    apply (Z.pow_lt_mono_r_iff 2); lia.
Qed.

Lemma is_power_of_two_spec x : 0 <= x -> is_power_of_two x = true <-> exists k, 0 <= k /\ x = 2 ^ k.
Proof.
  intros Hx. unfold is_power_of_two. split.
  - intros H. apply andb_prop in H as [H1 H2].
    apply negb_true_iff in H1. apply Z.eqb_neq in H1. apply Z.eqb_eq in H2.
    exists (Z.log2 x). split; [apply Z.log2_nonneg|].
    set (k := Z.log2 x). assert (Hk : 0 <= k) by apply Z.log2_nonneg.
    pose proof (Z.log2_spec x ltac:(lia)) as [Hlo Hhi]. fold k in Hlo, Hhi.
    destruct (Z.eq_dec x (2 ^ k)) as [|Hne]; [assumption|exfalso].
    assert (Z.log2 (x - 1) = k) as Hl by (apply Z.log2_unique; lia).
    pose proof (pow2_pos k Hk) as Hp.
    assert (Hx1 : x - 1 <> 0) by lia.
    assert (Z.testbit (Z.land x (x - 1)) k = true).
    { rewrite Z.land_spec. unfold k at 1. rewrite Z.bit_log2 by lia.
      rewrite <- Hl, Z.bit_log2 by lia. reflexivity. }
    rewrite H2, Z.bits_0 in H. discriminate.
  - intros (k & Hk & ->). pose proof (pow2_pos k Hk).
    apply andb_true_intro; split.
    + apply negb_true_iff, Z.eqb_neq. lia.
    + apply Z.eqb_eq. rewrite land_mask by lia. apply Z.mod_same. lia.
Qed.

(* --- number of nodes in perfect trees --- *)
(** Independent specification: the geometric series 1 + b + ... + b^(h-1). *)
Fixpoint geo (b : Z) (h : nat) : Z := match h with O => 0 | S h' => 1 + b * geo b h' end.

Lemma geo_closed b h : (b - 1) * geo b h = b ^ Z.of_nat h - 1.
Proof.
  induction h as [|h IH]; [cbn; lia|]. cbn [geo].
  replace (Z.of_nat (S h)) with (Z.of_nat h + 1) by lia. rewrite Z.pow_add_r by lia.
  rewrite Z.pow_1_r. nia.
Qed.

Lemma geo_nonneg b h : 0 <= b -> 0 <= geo b h.
Proof. intros; induction h; cbn [geo]; nia. Qed.

Lemma num_total_nodes_geo dim (h : nat) : 0 < dim -> dim * Z.of_nat h <= 64 ->
  num_total_nodes dim (Z.of_nat h) = geo (2 ^ dim) h.
Proof.
  intros Hd Hh. unfold num_total_nodes.
  rewrite !exp2_pow by lia. rewrite Z.pow_mul_r by lia. rewrite <- geo_closed.
  assert (2 <= 2 ^ dim) by (change 2 with (2 ^ 1) at 1; apply Z.pow_le_mono_r; lia).
  rewrite Z.mul_comm, Z.div_mul by lia.
  apply u64_small. split; [apply geo_nonneg; lia|].
  pose proof (geo_closed (2 ^ dim) h) as Hc. rewrite <- Z.pow_mul_r in Hc by lia.
  assert (2 ^ (dim * Z.of_nat h) <= 2 ^ 64) by (apply Z.pow_le_mono_r; lia).
  pose proof (geo_nonneg (2 ^ dim) h). nia.
Qed.

(** shifting the series right by whole levels drops those levels *)
Lemma geo_shift b h k : 2 <= b -> geo b (k + h) / b ^ Z.of_nat k = geo b h.
Proof.
  intros Hb. induction k as [|k IH].
  - cbn [Nat.add]. change (b ^ Z.of_nat 0) with 1. apply Z.div_1_r.
  - cbn [Nat.add geo].
    replace (Z.of_nat (S k)) with (1 + Z.of_nat k) by lia. rewrite Z.pow_add_r, Z.pow_1_r by lia.
    rewrite <- Z.div_div; [|lia|apply Z.pow_pos_nonneg; lia].
    replace ((1 + b * geo b (k + h)) / b) with (geo b (k + h)).
    + exact IH.
    + symmetry. rewrite Z.mul_comm, Z.div_add by lia. rewrite Z.div_small by lia. lia.
Qed.

Lemma num_total_nodes_fast_spec dim (h : nat) :
  1 <= dim <= 64 -> Z.of_nat h <= 64 / dim - 1 ->
  num_total_nodes_fast dim (Z.of_nat h) = Some (geo (2 ^ dim) h).
Proof.
  intros Hd Hh. unfold num_total_nodes_fast.
  set (M := 64 / dim - 1) in *.
  replace ((0 <=? Z.of_nat h) && (Z.of_nat h <=? M)) with true by lia.
  f_equal. replace M with (Z.of_nat (Z.to_nat M)) at 1 by lia.
  rewrite num_total_nodes_geo by nia.
  rewrite shiftr_pow2 by nia. rewrite Z.mul_comm, Z.pow_mul_r by lia.
  replace (Z.to_nat M) with (Z.to_nat (M - Z.of_nat h) + h)%nat by lia.
  rewrite <- (geo_shift (2 ^ dim) h (Z.to_nat (M - Z.of_nat h))).
  - rewrite Z2Nat.id by lia. reflexivity.
  - change 2 with (2 ^ 1) at 1; apply Z.pow_le_mono_r; lia.
Qed.

(* --- div_round_up, binomial --- *)
Lemma div_round_up_spec a b : 0 <= a -> 0 < b ->
  b * (div_round_up a b - 1) < a <= b * div_round_up a b.
Proof.
  intros. unfold div_round_up. rewrite Z.quot_div_nonneg, Z.rem_mod_nonneg by lia.
  destruct (Z.eqb_spec (a mod b) 0); cbn [negb Z.b2z]; nia.
Qed.

Lemma ipow_spec b n : ipow b n = b ^ Z.of_nat n.
Proof.
  induction n as [|n IH]; [reflexivity|]. cbn [ipow]. rewrite IH.
  replace (Z.of_nat (S n)) with (Z.of_nat n + 1) by lia. rewrite Z.pow_add_r by lia. lia.
Qed.

Lemma pow_sequence_from_nth cur b n i d : (i < n)%nat ->
  nth i (pow_sequence_from cur b n) d = cur * b ^ Z.of_nat i.
Proof.
  revert cur i. induction n as [|n IH]; intros cur i Hi; [lia|].
  destruct i as [|i]; cbn [pow_sequence_from nth].
  - change (Z.of_nat 0) with 0. rewrite Z.pow_0_r. lia.
  - rewrite IH by lia. replace (Z.of_nat (S i)) with (1 + Z.of_nat i) by lia.
    rewrite Z.pow_add_r by lia. lia.
Qed.
