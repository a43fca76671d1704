(** C94: the integer helpers in 32-bit ints: what they compute, and for which arguments they are defined. *)
From Verif Require Import Base M_IntMath F_IntMath M_NdtreeIndex M_Ndtree M_IndexInt P_IndexInt M_IntMath32.
Open Scope Z_scope.

(** ** Specification *)
Definition is_int (z : Z) : Prop := - 2 ^ 31 <= z < 2 ^ 31.
Fixpoint zfact (n : nat) : Z := match n with O => 1 | S n' => Z.of_nat n * zfact n' end.
(** The number of ways to choose m of n things, by Pascal's rule *)
Fixpoint choose (n m : nat) : Z :=
  match n, m with _, O => 1 | O, S _ => 0 | S n', S m' => choose n' m' + choose n' m end.

(** ** Proofs *)
Lemma ir_some z : is_int z -> int_result z = Some z.
Proof. exact (int_result_some z). Qed.
Lemma ir_none z : ~ is_int z -> int_result z = None.
Proof. unfold is_int, int_result, int_min, int_max. intros H. destruct (Z.leb_spec (- 2 ^ 31) z) as [A|A]; [|reflexivity]. destruct (Z.leb_spec z (2 ^ 31 - 1)) as [B|B]; [lia|reflexivity]. Qed.
Lemma is_int_dec z : is_int z \/ ~ is_int z.
Proof. unfold is_int. lia. Qed.
Lemma zfact_pos n : 1 <= zfact n.
Proof. induction n as [|n IH]; [cbn; lia|]. cbn [zfact]. nia. Qed.
Lemma zfact_mono n k : zfact n <= zfact (k + n).
Proof. induction k as [|k IH]; [reflexivity|]. cbn [Nat.add zfact]. pose proof (zfact_pos (k + n)). nia. Qed.
Lemma zfact_small n : (n <= 12)%nat -> zfact n < 2 ^ 31.
Proof. intros H. pose proof (zfact_mono n (12 - n)) as M. replace (12 - n + n)%nat with 12%nat in M by lia. change (zfact 12) with 479001600 in M. lia. Qed.
Lemma zfact_big n : (12 < n)%nat -> 2 ^ 31 <= zfact n.
Proof. intros H. pose proof (zfact_mono 13 (n - 13)) as M. replace (n - 13 + 13)%nat with n in M by lia. change (zfact 13) with 6227020800 in M. lia. Qed.
Lemma factorial_loop_spec x : forall r, 1 <= r < 2 ^ 31 ->
  (r * zfact x < 2 ^ 31 -> factorial_loop x r = Some (r * zfact x)) /\ (2 ^ 31 <= r * zfact x -> factorial_loop x r = None).
Proof.
  induction x as [|x IH]; intros r Hr; [cbn [zfact factorial_loop]; split; [intros _; f_equal; lia|lia]|].
  destruct x as [|x]; [change (zfact 1) with 1; cbn [factorial_loop]; split; [intros _; f_equal; lia|lia]|].
  change (factorial_loop (S (S x)) r) with (ibind (int_result (r * Z.of_nat (S (S x)))) (factorial_loop (S x))).
  change (zfact (S (S x))) with (Z.of_nat (S (S x)) * zfact (S x)). pose proof (zfact_pos (S x)) as P. rewrite Z.mul_assoc.
  set (y := r * Z.of_nat (S (S x))) in *. assert (Y : 1 <= y) by (unfold y; nia).
  destruct (Z.lt_ge_cases y (2 ^ 31)) as [L|L].
  - rewrite ir_some by (unfold is_int; lia). cbn [ibind]. apply IH. lia.
  - rewrite ir_none by (unfold is_int; lia). cbn [ibind]. split; [intros H; nia|reflexivity].
Qed.
Lemma choose_0 n : choose n 0 = 1.
Proof. destruct n; reflexivity. Qed.
Lemma choose_over n : forall m, (n < m)%nat -> choose n m = 0.
Proof. induction n as [|n IH]; intros [|m] H; try lia; [reflexivity|]. cbn [choose]. rewrite !IH by lia. reflexivity. Qed.
Lemma choose_fact n : forall m, (m <= n)%nat -> choose n m * (zfact m * zfact (n - m)) = zfact n.
Proof.
  induction n as [|n IH]; intros [|m] H; try lia.
  - reflexivity.
  - rewrite choose_0, Nat.sub_0_r. change (zfact 0) with 1. lia.
  - cbn [choose]. replace (S n - S m)%nat with (n - m)%nat by lia. pose proof (IH m ltac:(lia)) as A. change (zfact (S n)) with (Z.of_nat (S n) * zfact n). change (zfact (S m)) with (Z.of_nat (S m) * zfact m).
    destruct (Nat.eq_dec m n) as [->|Hn].
    + rewrite (choose_over n (S n)) by lia. transitivity (Z.of_nat (S n) * (choose n n * (zfact n * zfact (n - n)))); [ring|rewrite A; reflexivity].
    + pose proof (IH (S m) ltac:(lia)) as B. change (zfact (S m)) with (Z.of_nat (S m) * zfact m) in B.
      assert (D : zfact (n - m) = Z.of_nat (n - m) * zfact (n - S m)) by (replace (n - m)%nat with (S (n - S m)) by lia; reflexivity).
      replace (Z.of_nat (S n)) with (Z.of_nat (S m) + Z.of_nat (n - m)) by lia.
      transitivity (Z.of_nat (S m) * (choose n m * (zfact m * zfact (n - m))) + Z.of_nat (n - m) * (choose n (S m) * (Z.of_nat (S m) * zfact m * zfact (n - S m)))); [rewrite D; ring|].
      rewrite A, B. ring.
Qed.
Lemma pow_back b k : 0 <= k -> is_int (b ^ (k + 1)) -> is_int (b ^ k).
Proof.
  intros H. rewrite Z.pow_add_r, Z.pow_1_r by lia. set (p := b ^ k). unfold is_int. intros I.
  assert (D : b = 0 \/ b = 1 \/ b = -1 \/ 2 <= Z.abs b) by lia. destruct D as [D|[D|[D|D]]].
  - subst p. rewrite D. destruct (Z.eq_dec k 0) as [->|E]; [cbn; lia|]. rewrite Z.pow_0_l by lia. lia.
  - rewrite D in *. lia.
  - subst p. rewrite D in *. assert (A : Z.abs ((-1) ^ k) = 1) by (rewrite Z.abs_pow; change (Z.abs (-1)) with 1; apply Z.pow_1_l; lia). lia.
  - assert (A : Z.abs (p * b) <= 2 ^ 31) by lia. rewrite Z.abs_mul in A. assert (Z.abs p * 2 <= 2 ^ 31) by nia. lia.
Qed.
Lemma pow_back_n b n k : 0 <= k -> is_int (b ^ (k + Z.of_nat n)) -> is_int (b ^ k).
Proof.
  intros H. induction n as [|n IH]; intros I; [rewrite Z.add_0_r in I; exact I|]. apply IH. apply pow_back; [lia|]. replace (k + Z.of_nat n + 1) with (k + Z.of_nat (S n)) by lia. exact I.
Qed.
Lemma pow_loop_spec b n : forall k, 0 <= k ->
  (is_int (b ^ (k + Z.of_nat n)) -> pow_loop b n (b ^ k) = Some (b ^ (k + Z.of_nat n))) /\ (is_int (b ^ k) -> ~ is_int (b ^ (k + Z.of_nat n)) -> pow_loop b n (b ^ k) = None).
Proof.
  induction n as [|n IH]; intros k H.
  - rewrite Z.add_0_r. cbn [pow_loop]. split; [reflexivity|tauto].
  - cbn [pow_loop]. assert (E : b ^ k * b = b ^ (k + 1)) by (rewrite Z.pow_add_r, Z.pow_1_r by lia; reflexivity). rewrite E.
    replace (k + Z.of_nat (S n)) with (k + 1 + Z.of_nat n) by lia. destruct (IH (k + 1) ltac:(lia)) as [A B]. split.
    + intros I. rewrite ir_some by (apply (pow_back_n b n); [lia|exact I]). cbn [ibind]. exact (A I).
    + intros _ I. destruct (is_int_dec (b ^ (k + 1))) as [J|J]; [rewrite ir_some by exact J; cbn [ibind]; exact (B J I)|rewrite ir_none by exact J; reflexivity].
Qed.

(** ** Theorems *)
(** factorial: the product of the numbers up to x, defined up to 12. *)
Theorem C94_factorial : forall x, 0 <= x -> (x <= 12 -> factorial_32 x = Some (zfact (Z.to_nat x))) /\ (12 < x -> factorial_32 x = None).
Proof.
  intros x H. unfold factorial_32. destruct (factorial_loop_spec (Z.to_nat x) 1 ltac:(lia)) as [A B]. rewrite Z.mul_1_l in *. split; intros L; [apply A, zfact_small; lia|apply B, zfact_big; lia].
Qed.
(** binomial: the number of choices, defined if n is at most 12 or m is at least n. *)
Theorem C94_binomial : forall n m, 0 <= n -> 0 <= m ->
  (n <= 12 \/ n <= m -> binomial_32 n m = Some (choose (Z.to_nat n) (Z.to_nat m))) /\ (12 < n /\ m < n -> binomial_32 n m = None).
Proof.
  intros n m Hn Hm. unfold binomial_32. destruct (Z.ltb_spec n m) as [L|L].
  { split; [intros _; rewrite choose_over by lia; reflexivity|lia]. }
  destruct (Z.eqb_spec n m) as [->|Ne].
  { split; [intros _|lia]. pose proof (choose_fact (Z.to_nat m) (Z.to_nat m) ltac:(lia)) as E. rewrite Nat.sub_diag in E. change (zfact 0) with 1 in E. pose proof (zfact_pos (Z.to_nat m)). f_equal. nia. }
  split.
  - intros [B|B]; [|lia]. rewrite (proj1 (C94_factorial n Hn) B). cbn [ibind]. rewrite (proj1 (C94_factorial m Hm) ltac:(lia)). cbn [ibind].
    rewrite (proj1 (C94_factorial (n - m) ltac:(lia)) ltac:(lia)). cbn [ibind]. replace (Z.to_nat (n - m)) with (Z.to_nat n - Z.to_nat m)%nat by lia.
    pose proof (choose_fact (Z.to_nat n) (Z.to_nat m) ltac:(lia)) as E. pose proof (zfact_pos (Z.to_nat n)) as P. pose proof (zfact_pos (Z.to_nat m)) as P1. pose proof (zfact_pos (Z.to_nat n - Z.to_nat m)) as P2.
    pose proof (zfact_small (Z.to_nat n) ltac:(lia)) as S. set (q := zfact (Z.to_nat m) * zfact (Z.to_nat n - Z.to_nat m)) in *. set (c := choose (Z.to_nat n) (Z.to_nat m)) in *.
    assert (Q : 1 <= q) by (unfold q; nia). assert (C1 : 1 <= c) by nia. rewrite ir_some by (unfold is_int; nia). cbn [ibind]. rewrite <- E. rewrite Z.quot_mul by lia. reflexivity.
  - intros [B _]. rewrite (proj2 (C94_factorial n Hn) B). reflexivity.
Qed.
(** pow: defined exactly if the power is an int; the intermediate products are then ints as well. *)
Theorem C94_pow : forall b e, 0 <= e -> (is_int (b ^ e) -> pow_32 b e = Some (b ^ e)) /\ (~ is_int (b ^ e) -> pow_32 b e = None).
Proof.
  intros b e H. unfold pow_32. destruct (pow_loop_spec b (Z.to_nat e) 0 ltac:(lia)) as [A B]. rewrite Z.add_0_l, Z2Nat.id, Z.pow_0_r in * by lia. split; [exact A|apply B; unfold is_int; lia].
Qed.
(** mult_exp2: defined exactly if the product is an int. *)
Theorem C94_mult_exp2 : forall v e, 0 <= e <= 30 -> (is_int (v * 2 ^ e) -> mult_exp2_32 v e = Some (v * 2 ^ e)) /\ (~ is_int (v * 2 ^ e) -> mult_exp2_32 v e = None).
Proof. intros v e H. unfold mult_exp2_32. rewrite exp2_pow by lia. split; [apply ir_some|apply ir_none]. Qed.
(** div_exp2_ceil: the quotient rounded up, for values that are more than the divisor below 2^31. *)
Theorem C94_div_exp2_ceil : forall v e, is_int v -> 0 <= e <= 30 ->
  (v + 2 ^ e < 2 ^ 31 -> exists q, div_exp2_ceil_32 v e = Some q /\ 2 ^ e * (q - 1) < v <= 2 ^ e * q) /\ (2 ^ 31 <= v + 2 ^ e -> div_exp2_ceil_32 v e = None).
Proof.
  intros v e I H. unfold is_int in I. unfold div_exp2_ceil_32. pose proof (pow2_pos e ltac:(lia)) as P. rewrite exp2_pow by lia. split; intros L.
  - rewrite ir_some by (unfold is_int; lia). cbn [ibind]. rewrite ir_some by (unfold is_int; lia). cbn [ibind]. eexists. split; [reflexivity|].
    pose proof (div_exp2_ceil_spec v e ltac:(lia)) as S. unfold div_exp2_ceil in S. rewrite exp2_pow in S by lia. exact S.
  - rewrite ir_none by (unfold is_int; lia). reflexivity.
Qed.
(** The quotient is always an int, but it is not always computed. *)
Theorem C94_div_exp2_ceil_refuted : exists v e q, is_int v /\ 0 <= e <= 30 /\ is_int q /\ 2 ^ e * (q - 1) < v <= 2 ^ e * q /\ div_exp2_ceil_32 v e = None.
Proof. exists (2 ^ 31 - 1), 1, (2 ^ 30). unfold is_int. change (2 ^ 1) with 2. repeat split; try lia. Qed.
(** div_round_up: the quotient rounded up, for a numerator that is not negative. *)
Theorem C94_div_round_up : forall a b, 0 <= a < 2 ^ 31 -> 0 < b < 2 ^ 31 -> exists q, div_round_up_32 a b = Some q /\ b * (q - 1) < a <= b * q.
Proof.
  intros a b A B. pose proof (div_round_up_spec a b ltac:(lia) ltac:(lia)) as S. unfold div_round_up in S. exists (Z.quot a b + Z.b2z (negb (Z.rem a b =? 0))). split; [|exact S].
  assert (Q : 0 <= Z.quot a b <= a) by (split; [apply Z.quot_pos; lia|rewrite Z.quot_div_nonneg by lia; apply Z.div_le_upper_bound; nia]).
  unfold div_round_up_32. rewrite ir_some by (unfold is_int; lia). cbn [ibind]. apply ir_some. unfold is_int.
  destruct (Z.eqb_spec (Z.rem a b) 0) as [E|E]; cbn [negb Z.b2z]; [lia|]. split; [lia|].
  destruct (Z.eq_dec b 1) as [->|Hb]; [rewrite Z.rem_1_r in E; congruence|]. rewrite Z.quot_div_nonneg in * by lia. assert (a / b <= a / 2) by (apply Z.div_le_compat_l; lia). assert (a / 2 < 2 ^ 30) by (apply Z.div_lt_upper_bound; lia). lia.
Qed.
(** It does not round up negative numbers. *)
Theorem C94_div_round_up_negative_refuted : exists a b q, is_int a /\ 0 < b /\ div_round_up_32 a b = Some q /\ a <= b * (q - 1).
Proof. exists (-1), 2, 1. unfold is_int. split; [lia|]. split; [lia|]. split; [reflexivity|lia]. Qed.
Example C94_ex : factorial_32 12 = Some 479001600 /\ factorial_32 13 = None /\ binomial_32 12 6 = Some 924 /\ choose 12 6 = 924 /\ binomial_32 13 1 = None /\ binomial_32 50 50 = Some 1 /\
  pow_32 (-2) 31 = Some (- 2 ^ 31) /\ pow_32 2 31 = None /\ div_exp2_ceil_32 (-5) 2 = Some (-1) /\ div_exp2_ceil_32 (2 ^ 31 - 5) 2 = Some (2 ^ 29 - 1) /\ div_round_up_32 7 3 = Some 3 /\
  mult_exp2_32 (-1) 30 = Some (- 2 ^ 30).
Proof. vm_compute. repeat split. Qed.
Print Assumptions C94_factorial.
Print Assumptions C94_binomial.
Print Assumptions C94_pow.
Print Assumptions C94_mult_exp2.
Print Assumptions C94_div_exp2_ceil.
Print Assumptions C94_div_exp2_ceil_refuted.
Print Assumptions C94_div_round_up.
Print Assumptions C94_div_round_up_negative_refuted.
