(** Common imports and arithmetic helpers used by all files. Nothing in this file models wavemap
    code except where a comment cites it. *)
From Coq Require Export ZArith List Bool Lia.
From Coq Require Export ZifyBool.
Export ListNotations.
Global Open Scope Z_scope.

Ltac Zify.zify_post_hook ::= Z.div_mod_to_equations.

(** Reduction to an unsigned 64 bit word (what storing into a [uint64_t] does). *)
Definition u64 (x : Z) : Z := x mod 2 ^ 64.
(** Conversion of an integer to a signed 32 bit word (what storing into an [int32_t] does on the
    two's complement targets wavemap supports). *)
Definition i32 (x : Z) : Z := (x + 2 ^ 31) mod 2 ^ 32 - 2 ^ 31.

Lemma u64_small x : 0 <= x < 2 ^ 64 -> u64 x = x.
Proof. unfold u64; intros; apply Z.mod_small; lia. Qed.

Lemma i32_small x : - 2 ^ 31 <= x < 2 ^ 31 -> i32 x = x.
Proof. unfold i32; intros; rewrite Z.mod_small; lia. Qed.

Lemma u64_testbit x m :
  0 <= m -> Z.testbit (u64 x) m = (m <? 64) && Z.testbit x m.
Proof.
  intros Hm. unfold u64.
  destruct (Z.ltb_spec m 64).
  - rewrite Z.mod_pow2_bits_low by lia. reflexivity.
  - rewrite Z.mod_pow2_bits_high by lia. reflexivity.
Qed.

Lemma u64_range x : 0 <= u64 x < 2 ^ 64.
Proof. unfold u64. apply Z.mod_pos_bound. reflexivity. Qed.

(** Bits of non-negative numbers below a power of two. *)
Lemma testbit_high x n m : 0 <= x < 2 ^ n -> n <= m -> Z.testbit x m = false.
Proof.
  intros Hx Hm.
  destruct (Z.eq_dec x 0) as [->|Hne]; [apply Z.bits_0|].
  apply Z.bits_above_log2; [lia|].
  assert (Z.log2 x < n); [|lia].
  apply Z.log2_lt_pow2; lia.
Qed.

Lemma bits_bound x n :
  0 <= x -> 0 <= n -> (forall m, n <= m -> Z.testbit x m = false) -> x < 2 ^ n.
Proof.
  intros Hx Hn H.
  destruct (Z.eq_dec x 0) as [->|Hne]; [apply Z.pow_pos_nonneg; lia|].
  destruct (Z_lt_le_dec (Z.log2 x) n) as [Hl|Hl].
  - apply Z.log2_lt_pow2; lia.
  - specialize (H (Z.log2 x) Hl). rewrite Z.bit_log2 in H by lia. discriminate.
Qed.

Lemma shiftr_pow2 x n : 0 <= n -> Z.shiftr x n = x / 2 ^ n.
Proof. intros; apply Z.shiftr_div_pow2; assumption. Qed.

Lemma land_mask x n : 0 <= n -> Z.land x (2 ^ n - 1) = x mod 2 ^ n.
Proof.
  intros. replace (2 ^ n - 1) with (Z.ones n); [apply Z.land_ones; assumption|].
  rewrite Z.ones_equiv. lia.
Qed.
