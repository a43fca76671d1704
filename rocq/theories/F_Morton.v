From Verif Require Import Base M_IntMath F_IntMath M_Morton.

(* ---------------- generic bit facts ---------------- *)
Lemma testbit_shiftl1 m j : 0 <= m -> 0 <= j -> Z.testbit (Z.shiftl 1 m) j = (m =? j).
Proof.
  intros. rewrite Z.shiftl_1_l. destruct (Z.eqb_spec m j) as [->|].
  - apply Z.pow2_bits_true; lia.
  - apply Z.pow2_bits_false; lia.
Qed.

Lemma land1_testbit x j : 0 <= j -> Z.testbit (Z.land x 1) j = (j =? 0) && Z.testbit x 0.
Proof.
  intros. rewrite Z.land_spec. replace (Z.testbit 1 j) with (j =? 0).
  - destruct (Z.eqb_spec j 0) as [->|]; [apply andb_true_r|apply andb_false_r].
  - change 1 with (2 ^ 0). rewrite Z.pow2_bits_eqb by lia. apply Z.eqb_sym.
Qed.

Lemma land255_testbit x j : 0 <= j -> Z.testbit (Z.land x 255) j = (j <? 8) && Z.testbit x j.
Proof.
  intros. change 255 with (2 ^ 8 - 1). rewrite land_mask by lia.
  destruct (Z.ltb_spec j 8).
  - apply Z.mod_pow2_bits_low; lia.
  - apply Z.mod_pow2_bits_high; lia.
Qed.

(* ---------------- pdep / pext ---------------- *)
Lemma pdep_loop_bits n : forall m src sel dst j, 0 <= j ->
  Z.testbit (pdep_loop n (Z.of_nat m) (popcount m sel) src sel dst) j =
  Z.testbit dst j ||
  ((Z.of_nat m <=? j) && (j <? Z.of_nat m + Z.of_nat n) && Z.testbit sel j &&
   Z.testbit src (popcount (Z.to_nat j) sel)).
Proof.
  induction n as [|n IH]; intros m src sel dst j Hj; cbn [pdep_loop].
  - replace ((Z.of_nat m <=? j) && (j <? Z.of_nat m + Z.of_nat 0)) with false by lia.
    cbn [andb]. rewrite orb_false_r. reflexivity.
  - replace (Z.of_nat m + 1) with (Z.of_nat (S m)) by lia.
    destruct (Z.testbit sel (Z.of_nat m)) eqn:Hs.
    + replace (popcount m sel + 1) with (popcount (S m) sel)
        by (cbn [popcount]; rewrite Hs; cbn [Z.b2z]; lia).
      rewrite IH by assumption.
      destruct (Z.eq_dec j (Z.of_nat m)) as [->|Hne].
      * replace (Z.of_nat (S m) <=? Z.of_nat m) with false by lia.
        replace (Z.of_nat m <=? Z.of_nat m) with true by lia.
        replace (Z.of_nat m <? Z.of_nat m + Z.of_nat (S n)) with true by lia.
        rewrite Hs, Nat2Z.id. cbn [andb]. rewrite orb_false_r.
        destruct (Z.testbit src (popcount m sel)).
        -- rewrite Z.lor_spec, testbit_shiftl1, Z.eqb_refl by lia. reflexivity.
        -- rewrite orb_false_r. reflexivity.
      * replace (Z.of_nat (S m) <=? j) with (Z.of_nat m <=? j) by lia.
        replace (j <? Z.of_nat (S m) + Z.of_nat n) with (j <? Z.of_nat m + Z.of_nat (S n)) by lia.
        f_equal. destruct (Z.testbit src (popcount m sel)); [|reflexivity].
        rewrite Z.lor_spec, testbit_shiftl1 by lia.
        replace (Z.of_nat m =? j) with false by lia. apply orb_false_r.
    + replace (popcount m sel) with (popcount (S m) sel)
        by (cbn [popcount]; rewrite Hs; reflexivity).
      rewrite IH by assumption.
      destruct (Z.eq_dec j (Z.of_nat m)) as [->|Hne].
      * rewrite Hs, !andb_false_r. reflexivity.
      * replace (Z.of_nat (S m) <=? j) with (Z.of_nat m <=? j) by lia.
        replace (j <? Z.of_nat (S m) + Z.of_nat n) with (j <? Z.of_nat m + Z.of_nat (S n)) by lia.
        reflexivity.
Qed.

Lemma pdep64_bits src sel j : 0 <= j ->
  Z.testbit (pdep64 src sel) j =
  (j <? 64) && Z.testbit sel j && Z.testbit src (popcount (Z.to_nat j) sel).
Proof.
  intros. unfold pdep64. change 0 with (Z.of_nat 0) at 1.
  change 0 with (popcount 0 sel) at 1. rewrite pdep_loop_bits by assumption.
  rewrite Z.bits_0. cbn [orb]. replace (Z.of_nat 0 <=? j) with true by lia.
  replace (j <? Z.of_nat 0 + Z.of_nat 64) with (j <? 64) by lia. reflexivity.
Qed.

Lemma pext_loop_bits n : forall m src sel dst k, 0 <= k ->
  Z.testbit (pext_loop n (Z.of_nat m) (popcount m sel) src sel dst) k = true <->
  Z.testbit dst k = true \/
  exists j, Z.of_nat m <= j < Z.of_nat m + Z.of_nat n /\ Z.testbit sel j = true /\
            Z.testbit src j = true /\ popcount (Z.to_nat j) sel = k.
Proof.
  induction n as [|n IH]; intros m src sel dst k Hk; cbn [pext_loop].
  - split; [auto|]. intros [H|(j & Hj & _)]; [assumption|lia].
  - replace (Z.of_nat m + 1) with (Z.of_nat (S m)) by lia.
    pose proof (popcount_nonneg m sel) as Hnn.
    destruct (Z.testbit sel (Z.of_nat m)) eqn:Hs.
    + replace (popcount m sel + 1) with (popcount (S m) sel)
        by (cbn [popcount]; rewrite Hs; cbn [Z.b2z]; lia).
      rewrite IH by assumption.
      destruct (Z.testbit src (Z.of_nat m)) eqn:Hsrc.
      * rewrite Z.lor_spec, testbit_shiftl1 by lia. split.
        -- intros [H|(j & Hj & H)].
           ++ apply orb_prop in H as [H|H]; [auto|]. right. exists (Z.of_nat m).
              rewrite Nat2Z.id. apply Z.eqb_eq in H. repeat split; auto; lia.
           ++ right. exists j. split; [lia|assumption].
        -- intros [H|(j & Hj & H1 & H2 & H3)].
           ++ left. rewrite H. reflexivity.
           ++ destruct (Z.eq_dec j (Z.of_nat m)) as [->|Hne].
              ** left. rewrite Nat2Z.id in H3. rewrite H3, Z.eqb_refl. apply orb_true_r.
              ** right. exists j. repeat split; auto; lia.
      * split.
        -- intros [H|(j & Hj & H)]; [auto|]. right. exists j. split; [lia|assumption].
        -- intros [H|(j & Hj & H1 & H2 & H3)]; [auto|].
           destruct (Z.eq_dec j (Z.of_nat m)) as [->|Hne]; [congruence|].
           right. exists j. repeat split; auto; lia.
    + replace (popcount m sel) with (popcount (S m) sel)
        by (cbn [popcount]; rewrite Hs; reflexivity).
      rewrite IH by assumption. split.
      * intros [H|(j & Hj & H)]; [auto|]. right. exists j. split; [lia|assumption].
      * intros [H|(j & Hj & H1 & H2 & H3)]; [auto|].
        destruct (Z.eq_dec j (Z.of_nat m)) as [->|Hne]; [congruence|].
        right. exists j. repeat split; auto; lia.
Qed.

Lemma pext64_bits src sel k : 0 <= k ->
  Z.testbit (pext64 src sel) k = true <->
  exists j, 0 <= j < 64 /\ Z.testbit sel j = true /\ Z.testbit src j = true /\
            popcount (Z.to_nat j) sel = k.
Proof.
  intros. unfold pext64. change 0 with (Z.of_nat 0) at 1.
  change 0 with (popcount 0 sel) at 1. rewrite pext_loop_bits by assumption.
  rewrite Z.bits_0. split.
  - intros [H1|(j & Hj & H1)]; [discriminate|]. exists j; split; [lia|assumption].
  - intros (j & Hj & H1). right. exists j; split; [lia|assumption].
Qed.

(* ---------------- the strided pattern ---------------- *)
Lemma fold_lor_bits {A} (f : A -> Z) l acc j : 
  Z.testbit (fold_left (fun r a => Z.lor r (f a)) l acc) j =
  Z.testbit acc j || existsb (fun a => Z.testbit (f a) j) l.
Proof.
  revert acc. induction l as [|a l IH]; intros acc; cbn [fold_left existsb].
  - rewrite orb_false_r. reflexivity.
  - rewrite IH, Z.lor_spec, orb_assoc. reflexivity.
Qed.

Lemma existsb_seq_true (P : nat -> bool) s n :
  existsb P (seq s n) = true <-> exists i, (s <= i < s + n)%nat /\ P i = true.
Proof.
  rewrite existsb_exists. split; intros (i & H1 & H2); exists i; (split; [|assumption]).
  - apply in_seq in H1. lia.
  - apply in_seq. lia.
Qed.

Lemma bool_eq_iff (a b : bool) : (a = true <-> b = true) -> a = b.
Proof. destruct a, b; intuition congruence. Qed.

Lemma pattern_bits dim j : 1 <= dim <= 64 -> 0 <= j ->
  Z.testbit (pattern dim) j = (j <? 64) && (j mod dim =? 0).
Proof.
  intros Hd Hj. unfold pattern, repeat_block64.
  assert (Hc : (if dim <? 64 then Z.land 1 (Z.shiftl 1 dim - 1) else 1) = 1).
  { destruct (dim <? 64); [|reflexivity].
    rewrite Z.shiftl_1_l, land_mask by lia. apply Z.mod_small.
    split; [lia|]. apply Z.pow_gt_1; lia. }
  rewrite Hc. rewrite fold_lor_bits, Z.bits_0. cbn [orb].
  fold (div_round_up 64 dim). pose proof (div_round_up_spec 64 dim ltac:(lia) ltac:(lia)) as Hr.
  set (nb := div_round_up 64 dim) in *.
  apply bool_eq_iff. rewrite existsb_seq_true, andb_true_iff, Z.ltb_lt, Z.eqb_eq. split.
  - intros (i & Hi & H). rewrite u64_testbit, testbit_shiftl1 in H by nia.
    apply andb_prop in H as [H1 H2]. apply Z.eqb_eq in H2. split; [lia|].
    rewrite <- H2. apply Z.mod_mul. lia.
  - intros [H1 H2]. exists (Z.to_nat (j / dim)).
    assert (Hjd : j = dim * (j / dim)) by (apply Z.div_exact; lia).
    assert (0 <= j / dim) by (apply Z.div_pos; lia).
    assert (j / dim < nb) by nia.
    split; [lia|]. rewrite u64_testbit, testbit_shiftl1 by nia.
    rewrite Z2Nat.id by lia. nia.
Qed.

Definition sel (dim d : Z) : Z := u64 (Z.shiftl (pattern dim) d).

Lemma mod_shift j d dim : 0 <= d < dim -> d <= j -> ((j - d) mod dim =? 0) = (j mod dim =? d).
Proof.
  intros Hd Hj.
  pose proof (Z.div_mod j dim ltac:(lia)) as E1. pose proof (Z.mod_pos_bound j dim ltac:(lia)) as B1.
  destruct (Z.eqb_spec (j mod dim) d) as [He|Hne].
  - apply Z.eqb_eq. replace (j - d) with ((j / dim) * dim) by lia. apply Z.mod_mul. lia.
  - apply Z.eqb_neq. intros H0. apply Hne.
    apply Z.div_exact in H0; [|lia].
    replace j with (d + ((j - d) / dim) * dim) by lia.
    rewrite Z.mod_add by lia. apply Z.mod_small. lia.
Qed.

Lemma sel_bits dim d j : 1 <= dim <= 64 -> 0 <= d < dim -> 0 <= j ->
  Z.testbit (sel dim d) j = (j <? 64) && (j mod dim =? d).
Proof.
  intros Hd Hdd Hj. unfold sel. rewrite u64_testbit by assumption.
  rewrite Z.shiftl_spec by assumption.
  destruct (Z_lt_le_dec j d) as [Hl|Hl].
  - rewrite Z.testbit_neg_r by lia. rewrite andb_false_r.
    rewrite (Z.mod_small j) by lia. lia.
  - rewrite pattern_bits by lia. rewrite mod_shift by lia. lia.
Qed.

Lemma div_succ a n : 0 < n -> (a + 1) / n = a / n + Z.b2z ((a + 1) mod n =? 0).
Proof.
  intros Hn. pose proof (Z.div_mod a n ltac:(lia)) as E. pose proof (Z.mod_pos_bound a n Hn) as B.
  destruct (Z_lt_le_dec (a mod n + 1) n) as [Hl|Hl].
  - assert ((a + 1) mod n = a mod n + 1) as Em.
    { replace (a + 1) with (a mod n + 1 + (a / n) * n) by lia.
      rewrite Z.mod_add by lia. apply Z.mod_small; lia. }
    rewrite Em. replace (a mod n + 1 =? 0) with false by lia. cbn [Z.b2z].
    symmetry. rewrite Z.add_0_r. apply Z.div_unique with (a mod n + 1); lia.
  - assert ((a + 1) mod n = 0) as Em.
    { replace (a + 1) with ((a / n + 1) * n) by lia. apply Z.mod_mul; lia. }
    rewrite Em. cbn [Z.eqb Z.b2z]. symmetry. apply Z.div_unique with 0; lia.
Qed.

Lemma popcount_sel dim d (j : nat) : 1 <= dim <= 64 -> 0 <= d < dim -> Z.of_nat j <= 64 ->
  popcount j (sel dim d) = (Z.of_nat j + dim - 1 - d) / dim.
Proof.
  intros Hd Hdd. induction j as [|j IH]; intros Hj.
  - cbn [popcount]. symmetry. apply Z.div_small. lia.
  - cbn [popcount]. rewrite IH by lia. rewrite sel_bits by lia.
    replace (Z.of_nat j <? 64) with true by lia. cbn [andb].
    replace (Z.of_nat (S j) + dim - 1 - d) with (Z.of_nat j + dim - 1 - d + 1) by lia.
    rewrite div_succ by lia.
    replace (Z.of_nat j + dim - 1 - d + 1) with ((Z.of_nat j - d) + 1 * dim) by lia.
    rewrite Z.mod_add by lia.
    destruct (Z_lt_le_dec (Z.of_nat j) d) as [Hl|Hl].
    + rewrite (Z.mod_small (Z.of_nat j)) by lia.
      replace (Z.of_nat j =? d) with false by lia.
      assert ((Z.of_nat j - d) mod dim <> 0); [|cbn [Z.b2z]; lia].
      replace (Z.of_nat j - d) with (Z.of_nat j - d + dim + (-1) * dim) by lia.
      rewrite Z.mod_add by lia. rewrite Z.mod_small by lia. lia.
    + rewrite mod_shift by lia. lia.
Qed.

Lemma rank_on_stride dim d j : 1 <= dim <= 64 -> 0 <= d < dim -> 0 <= j <= 64 -> j mod dim = d ->
  popcount (Z.to_nat j) (sel dim d) = j / dim.
Proof.
  intros Hd Hdd Hj Hm. rewrite popcount_sel by lia. rewrite Z2Nat.id by lia.
  pose proof (Z.div_mod j dim ltac:(lia)) as E.
  replace (j + dim - 1 - d) with (dim - 1 + (j / dim) * dim) by lia.
  rewrite Z.div_add by lia. rewrite Z.div_small by lia. lia.
Qed.

Lemma pdep_sel_bits dim d src j : 1 <= dim <= 64 -> 0 <= d < dim -> 0 <= j ->
  Z.testbit (pdep64 (u64 src) (sel dim d)) j =
  (j <? 64) && (j mod dim =? d) && Z.testbit src (j / dim).
Proof.
  intros Hd Hdd Hj. rewrite pdep64_bits, sel_bits by assumption.
  destruct (Z.ltb_spec j 64); [|reflexivity].
  destruct (Z.eqb_spec (j mod dim) d) as [He|]; [|reflexivity].
  cbn [andb]. rewrite rank_on_stride by lia.
  assert (0 <= j / dim <= j) by (split; [apply Z.div_pos; lia|apply Z.div_le_upper_bound; nia]).
  rewrite u64_testbit by lia. replace (j / dim <? 64) with true by lia. reflexivity.
Qed.

Lemma pext_sel_bits dim d src k : 1 <= dim <= 64 -> 0 <= d < dim -> 0 <= k ->
  Z.testbit (pext64 src (sel dim d)) k = (k * dim + d <? 64) && Z.testbit src (k * dim + d).
Proof.
  intros Hd Hdd Hk. apply bool_eq_iff. rewrite pext64_bits, andb_true_iff, Z.ltb_lt by assumption.
  split.
  - intros (j & Hj & H1 & H2 & H3). rewrite sel_bits in H1 by lia.
    apply andb_prop in H1 as [_ H1]. apply Z.eqb_eq in H1.
    rewrite rank_on_stride in H3 by lia.
    pose proof (Z.div_mod j dim ltac:(lia)). replace (k * dim + d) with j by lia. split; [lia|assumption].
  - intros [H1 H2]. exists (k * dim + d). rewrite sel_bits by nia.
    assert (E : (k * dim + d) mod dim = d)
      by (rewrite Z.add_comm, Z.mod_add by lia; apply Z.mod_small; lia).
    assert (E2 : (k * dim + d) / dim = k)
      by (rewrite Z.add_comm, Z.div_add by lia; rewrite Z.div_small by lia; lia).
    repeat split; try nia; [assumption|].
    rewrite rank_on_stride; nia.
Qed.

(* ---------------- encode ---------------- *)
Lemma nth_cons_Z (c : Z) cs n : 0 < n -> nth (Z.to_nat n) (c :: cs) 0 = nth (Z.to_nat (n - 1)) cs 0.
Proof. intros. replace (Z.to_nat n) with (S (Z.to_nat (n - 1))) by lia. reflexivity. Qed.

Lemma encode_bmi2_from_bits dim : 1 <= dim <= 64 -> forall idx d morton j,
  0 <= d -> d + Z.of_nat (length idx) <= dim -> 0 <= j ->
  Z.testbit (encode_bmi2_from dim d idx morton) j =
  Z.testbit morton j ||
  ((j <? 64) && (d <=? j mod dim) && (j mod dim <? d + Z.of_nat (length idx)) &&
   Z.testbit (nth (Z.to_nat (j mod dim - d)) idx 0) (j / dim)).
Proof.
  intros Hd. induction idx as [|c cs IH]; intros d morton j Hd0 Hlen Hj; cbn [encode_bmi2_from].
  - cbn [length]. replace ((d <=? j mod dim) && (j mod dim <? d + Z.of_nat 0)) with false by lia.
    rewrite <- andb_assoc. rewrite <- (andb_assoc (j <? 64)).
    replace ((d <=? j mod dim) && ((j mod dim <? d + Z.of_nat 0))) with false by lia.
    cbn [nth]. destruct (Z.to_nat (j mod dim - d)); rewrite Z.bits_0, ?andb_false_r, ?orb_false_r; reflexivity.
  - cbn [length] in *. rewrite IH by lia. fold (sel dim d).
    rewrite Z.lor_spec, pdep_sel_bits by lia. rewrite <- orb_assoc. f_equal.
    pose proof (Z.mod_pos_bound j dim ltac:(lia)) as B.
    destruct (Z.ltb_spec j 64); [|reflexivity]. cbn [andb].
    destruct (Z.eqb_spec (j mod dim) d) as [He|Hne].
    + rewrite He. replace (d - d) with 0 by lia. cbn [Z.to_nat nth andb].
      replace (d + 1 <=? d) with false by lia. replace (d <=? d) with true by lia.
      replace (d <? d + Z.of_nat (S (length cs))) with true by lia. cbn [andb].
      apply orb_false_r.
    + cbn [andb orb].
      destruct (Z.leb_spec (d + 1) (j mod dim)) as [Hl|Hl].
      * rewrite (nth_cons_Z c cs (j mod dim - d)) by lia.
        replace (j mod dim - d - 1) with (j mod dim - (d + 1)) by lia.
        replace (d <=? j mod dim) with true by lia.
        replace (d + 1 + Z.of_nat (length cs)) with (d + Z.of_nat (S (length cs))) by lia.
        reflexivity.
      * replace (d <=? j mod dim) with false by lia. reflexivity.
Qed.

(** The meaning of a Morton code: bit j holds bit (j / dim) of coordinate (j mod dim). *)
Definition is_morton (dim : Z) (idx : list Z) (code : Z) : Prop :=
  forall j, 0 <= j ->
    Z.testbit code j = (j <? 64) && Z.testbit (nth (Z.to_nat (j mod dim)) idx 0) (j / dim).

Lemma encode_bmi2_spec dim idx : 1 <= dim <= 64 -> Z.of_nat (length idx) = dim ->
  is_morton dim idx (encode_bmi2 dim idx).
Proof.
  intros Hd Hlen j Hj. unfold encode_bmi2. rewrite encode_bmi2_from_bits by lia.
  rewrite Z.bits_0. cbn [orb]. pose proof (Z.mod_pos_bound j dim ltac:(lia)).
  replace (0 <=? j mod dim) with true by lia.
  replace (j mod dim <? 0 + Z.of_nat (length idx)) with true by lia.
  rewrite Z.sub_0_r, !andb_true_r. reflexivity.
Qed.

Lemma is_morton_unique dim idx c1 c2 : is_morton dim idx c1 -> is_morton dim idx c2 -> c1 = c2.
Proof. intros H1 H2. apply Z.bits_inj'. intros j Hj. rewrite H1, H2 by assumption. reflexivity. Qed.

Lemma encode_bmi2_range dim idx : 1 <= dim <= 64 -> Z.of_nat (length idx) = dim ->
  0 <= encode_bmi2 dim idx < 2 ^ 64.
Proof.
  intros Hd Hlen.
  assert (E : encode_bmi2 dim idx = u64 (encode_bmi2 dim idx)).
  { apply Z.bits_inj'. intros j Hj. rewrite u64_testbit by assumption.
    rewrite (encode_bmi2_spec dim idx Hd Hlen j Hj).
    rewrite andb_assoc, andb_diag. reflexivity. }
  rewrite E. apply u64_range.
Qed.

(* ---------------- LUT encode ---------------- *)
Lemma lut_encode_bits dim b j : 1 <= dim -> 0 <= j ->
  Z.testbit (lut_encode dim b) j = (j mod dim =? 0) && (j / dim <? 8) && Z.testbit b (j / dim).
Proof.
  intros Hd Hj. unfold lut_encode. rewrite fold_lor_bits, Z.bits_0. cbn [orb].
  apply bool_eq_iff. rewrite existsb_exists.
  assert (Hbit : forall i, 0 <= i ->
    Z.testbit (Z.shiftl (Z.land (Z.shiftr b i) 1) (dim * i)) j = (j =? dim * i) && Z.testbit b i).
  { intros i Hi. rewrite Z.shiftl_spec by assumption.
    destruct (Z_lt_le_dec j (dim * i)) as [Hl|Hl].
    - rewrite Z.testbit_neg_r by lia. replace (j =? dim * i) with false by lia. reflexivity.
    - rewrite land1_testbit by lia. rewrite Z.shiftr_spec by lia. rewrite Z.add_0_l.
      replace (j - dim * i =? 0) with (j =? dim * i) by lia. reflexivity. }
  split.
  - intros (i & Hin & H). assert (0 <= i < 8) by (cbn [In] in Hin; lia).
    rewrite Hbit in H by lia. apply andb_prop in H as [H1 H2]. apply Z.eqb_eq in H1.
    subst j. rewrite (Z.mul_comm dim), Z.mod_mul, Z.div_mul by lia. cbn [Z.eqb andb].
    rewrite H2. lia.
  - intros H. apply andb_prop in H as [H H3]. apply andb_prop in H as [H1 H2].
    apply Z.eqb_eq in H1. apply Z.ltb_lt in H2.
    assert (0 <= j / dim) by (apply Z.div_pos; lia).
    exists (j / dim). split; [cbn [In]; lia|].
    rewrite Hbit by lia. rewrite H3. rewrite andb_true_r. apply Z.eqb_eq.
    apply Z.div_exact; lia.
Qed.

Lemma encode_lut_byte_bits dim shift : 1 <= dim -> 0 <= shift -> forall idx d morton j,
  0 <= d -> d + Z.of_nat (length idx) <= dim -> 0 <= j ->
  Z.testbit (encode_lut_byte dim d shift idx morton) j =
  Z.testbit morton j ||
  ((j / dim <? 8) && (d <=? j mod dim) && (j mod dim <? d + Z.of_nat (length idx)) &&
   Z.testbit (nth (Z.to_nat (j mod dim - d)) idx 0) (j / dim + shift)).
Proof.
  intros Hd Hs. induction idx as [|c cs IH]; intros d morton j Hd0 Hlen Hj; cbn [encode_lut_byte].
  - cbn [nth]. destruct (Z.to_nat (j mod dim - d)); rewrite Z.bits_0, ?andb_false_r, ?orb_false_r; reflexivity.
  - cbn [length] in *. rewrite IH by lia. rewrite Z.lor_spec, <- orb_assoc. f_equal.
    pose proof (Z.mod_pos_bound j dim ltac:(lia)) as B.
    pose proof (Z.div_mod j dim ltac:(lia)) as E.
    assert (Hq : 0 <= j / dim) by (apply Z.div_pos; lia).
    assert (Hthis : Z.testbit (Z.shiftl (lut_encode dim (Z.land (Z.shiftr c shift) 255)) d) j =
                    (j mod dim =? d) && (j / dim <? 8) && Z.testbit c (j / dim + shift)).
    { rewrite Z.shiftl_spec by assumption.
      destruct (Z_lt_le_dec j d) as [Hl|Hl].
      - rewrite Z.testbit_neg_r by lia. rewrite (Z.mod_small j) by lia.
        replace (j =? d) with false by lia. reflexivity.
      - rewrite lut_encode_bits by lia. rewrite mod_shift by lia.
        destruct (Z.eqb_spec (j mod dim) d) as [He|]; [|reflexivity].
        replace (j - d) with ((j / dim) * dim) by lia. rewrite Z.div_mul by lia.
        rewrite land255_testbit by lia. rewrite Z.shiftr_spec by lia.
        destruct (j / dim <? 8); reflexivity. }
    rewrite Hthis.
    destruct (Z.ltb_spec (j / dim) 8); [|rewrite andb_false_r; reflexivity].
    rewrite andb_true_r. cbn [andb].
    destruct (Z.eqb_spec (j mod dim) d) as [He|Hne].
    + rewrite He. replace (d - d) with 0 by lia. cbn [Z.to_nat nth andb].
      replace (d + 1 <=? d) with false by lia. replace (d <=? d) with true by lia.
      replace (d <? d + Z.of_nat (S (length cs))) with true by lia. cbn [andb].
      apply orb_false_r.
    + cbn [andb orb].
      destruct (Z.leb_spec (d + 1) (j mod dim)) as [Hl|Hl].
      * rewrite (nth_cons_Z c cs (j mod dim - d)) by lia.
        replace (j mod dim - d - 1) with (j mod dim - (d + 1)) by lia.
        replace (d <=? j mod dim) with true by lia.
        replace (d + 1 + Z.of_nat (length cs)) with (d + Z.of_nat (S (length cs))) by lia.
        reflexivity.
      * replace (d <=? j mod dim) with false by lia. reflexivity.
Qed.

Lemma div_sub_mul j k dim : 0 < dim -> (j - k * dim) / dim = j / dim - k.
Proof. intros. replace (j - k * dim) with (j + (- k) * dim) by lia. rewrite Z.div_add; lia. Qed.
Lemma mod_sub_mul j k dim : 0 < dim -> (j - k * dim) mod dim = j mod dim.
Proof. intros. replace (j - k * dim) with (j + (- k) * dim) by lia. rewrite Z.mod_add; lia. Qed.

(** one iteration of the byte loop: bits for bytes >= k+1 are known, now process byte k *)
Lemma encode_lut_step dim idx k morton : 1 <= dim -> Z.of_nat (length idx) = dim -> 0 <= k < 4 ->
  (forall j, 0 <= j < 64 -> Z.testbit morton j =
     (j / dim <? 8 * (3 - k)) &&
     Z.testbit (nth (Z.to_nat (j mod dim)) idx 0) (j / dim + 8 * (k + 1))) ->
  forall j, 0 <= j < 64 ->
  Z.testbit (encode_lut_byte dim 0 (8 * k) idx (u64 (Z.shiftl morton (8 * dim)))) j =
     (j / dim <? 8 * (4 - k)) &&
     Z.testbit (nth (Z.to_nat (j mod dim)) idx 0) (j / dim + 8 * k).
Proof.
  intros Hd Hlen Hk IH j Hj. rewrite encode_lut_byte_bits by lia.
  pose proof (Z.mod_pos_bound j dim ltac:(lia)) as B.
  assert (Hq : 0 <= j / dim) by (apply Z.div_pos; lia).
  replace (0 <=? j mod dim) with true by lia.
  replace (j mod dim <? 0 + Z.of_nat (length idx)) with true by lia.
  rewrite Z.sub_0_r, !andb_true_r.
  rewrite u64_testbit by lia. replace (j <? 64) with true by lia. cbn [andb].
  rewrite Z.shiftl_spec by lia.
  destruct (Z_lt_le_dec (j - 8 * dim) 0) as [Hl|Hl].
  - rewrite Z.testbit_neg_r by lia. cbn [orb].
    assert (j / dim < 8) by (apply Z.div_lt_upper_bound; lia).
    replace (j / dim <? 8) with true by lia.
    replace (j / dim <? 8 * (4 - k)) with true by lia. reflexivity.
  - rewrite IH by nia.
    rewrite div_sub_mul, mod_sub_mul by lia.
    assert (8 <= j / dim) by (apply Z.div_le_lower_bound; lia).
    replace (j / dim <? 8) with false by lia. rewrite orb_false_r.
    replace (j / dim - 8 <? 8 * (3 - k)) with (j / dim <? 8 * (4 - k)) by lia.
    replace (j / dim - 8 + 8 * (k + 1)) with (j / dim + 8 * k) by lia. reflexivity.
Qed.

Lemma encode_lut_byte_high dim shift : 1 <= dim -> 0 <= shift -> forall idx d morton j,
  0 <= d -> d + Z.of_nat (length idx) <= dim -> 8 * dim <= j -> Z.testbit morton j = false ->
  Z.testbit (encode_lut_byte dim d shift idx morton) j = false.
Proof.
  intros Hd Hs idx d morton j Hd0 Hlen Hj Hm. rewrite encode_lut_byte_bits by lia.
  assert (8 <= j / dim) by (apply Z.div_le_lower_bound; lia).
  replace (j / dim <? 8) with false by lia. rewrite Hm. reflexivity.
Qed.

(** bits above 31 of an int32 repeat the sign bit; below they are the coordinate's bits *)
Lemma encode_lut_bits dim idx j : 2 <= dim <= 8 -> Z.of_nat (length idx) = dim ->
  0 <= j ->
  Z.testbit (encode_lut dim idx) j =
  (j <? 64) && Z.testbit (nth (Z.to_nat (j mod dim)) idx 0) (j / dim).
Proof.
  intros Hd Hlen Hj.
  destruct (Z.ltb_spec j 64) as [Hl|Hl].
  - cbn [andb]. unfold encode_lut. cbn [fold_left].
    assert (Hq : j / dim < 32) by (apply Z.div_lt_upper_bound; lia).
    change (8 * 0) with 0.
    rewrite (encode_lut_step dim idx 0) with (j := j); try lia.
    + rewrite Z.mul_0_r, Z.add_0_r. replace (j / dim <? 8 * (4 - 0)) with true by lia. reflexivity.
    + clear j Hj Hl Hq. intros j Hj. change (0 + 1) with 1.
      rewrite (encode_lut_step dim idx 1) with (j := j); try lia; [reflexivity|].
      clear j Hj. intros j Hj. change (1 + 1) with 2.
      rewrite (encode_lut_step dim idx 2) with (j := j); try lia; [reflexivity|].
      clear j Hj. intros j Hj. change (2 + 1) with 3.
      rewrite (encode_lut_step dim idx 3) with (j := j); try lia; [reflexivity|].
      clear j Hj. intros j Hj. rewrite Z.bits_0.
      assert (0 <= j / dim) by (apply Z.div_pos; lia).
      replace (j / dim <? 8 * (3 - 3)) with false by lia. reflexivity.
  - cbn [andb]. unfold encode_lut. cbn [fold_left].
    apply encode_lut_byte_high; try lia.
    rewrite u64_testbit by lia. replace (j <? 64) with false by lia. reflexivity.
Qed.

Lemma encode_lut_spec dim idx : 2 <= dim <= 8 -> Z.of_nat (length idx) = dim ->
  is_morton dim idx (encode_lut dim idx).
Proof. intros Hd Hlen j Hj. apply encode_lut_bits; assumption. Qed.

Lemma encode_lut_eq_bmi2 dim idx : 2 <= dim <= 8 -> Z.of_nat (length idx) = dim ->
  encode_lut dim idx = encode_bmi2 dim idx.
Proof.
  intros. apply (is_morton_unique dim idx).
  - apply encode_lut_spec; assumption.
  - apply encode_bmi2_spec; lia.
Qed.

(* ---------------- decode ---------------- *)
Lemma pext_nonneg_bits src sl : 0 <= pext64 src sl.
Proof.
  unfold pext64.
  assert (H : forall n m k dst, 0 <= m -> 0 <= k -> 0 <= dst -> 0 <= pext_loop n m k src sl dst).
  { induction n as [|n IH]; intros m k dst Hm Hk Hdst; cbn [pext_loop]; [assumption|].
    destruct (Z.testbit sl m); apply IH; try lia.
    destruct (Z.testbit src m); [|assumption]. apply Z.lor_nonneg. split; [assumption|].
    apply Z.shiftl_nonneg. lia. }
  apply H; lia.
Qed.

Lemma i32_testbit x k : 0 <= k < 32 -> Z.testbit (i32 x) k = Z.testbit x k.
Proof.
  intros Hk. unfold i32.
  rewrite <- (Z.mod_pow2_bits_low _ 32) by lia.
  rewrite <- (Z.mod_pow2_bits_low x 32) by lia. f_equal.
  rewrite Zminus_mod_idemp_l. f_equal. lia.
Qed.

Lemma coord_of_code dim idx code d : 1 <= dim <= 64 -> is_morton dim idx code -> 0 <= d < dim ->
  0 <= nth (Z.to_nat d) idx 0 <= kMaxSingleCoordinate dim ->
  i32 (pext64 code (sel dim d)) = nth (Z.to_nat d) idx 0.
Proof.
  intros Hd Hm Hdd Hc. set (c := nth (Z.to_nat d) idx 0) in *.
  assert (Hmax : exists B, kMaxSingleCoordinate dim = 2 ^ B - 1 /\ 0 <= B <= 31 /\ B * dim <= 64 - dim + 1).
  { unfold kMaxSingleCoordinate. destruct (Z.ltb_spec dim 3).
    - exists 31. lia.
    - exists (kMaxTreeHeight dim). unfold kMaxTreeHeight. split; [reflexivity|]. nia. }
  destruct Hmax as (B & HB & HB1 & HB2). rewrite HB in Hc.
  assert (E : pext64 code (sel dim d) = c).
  { apply Z.bits_inj'. intros k Hk. rewrite pext_sel_bits by lia.
    destruct (Z_lt_le_dec k B) as [Hl|Hl].
    - assert (k * dim + d < 64) by nia. replace (k * dim + d <? 64) with true by lia. cbn [andb].
      rewrite Hm by nia. replace (k * dim + d <? 64) with true by lia. cbn [andb].
      rewrite Z.add_comm, Z.div_add, Z.mod_add, Z.div_small, Z.mod_small by lia. reflexivity.
    - rewrite (testbit_high c B k) by lia.
      destruct (Z.ltb_spec (k * dim + d) 64) as [H64|]; [|reflexivity]. cbn [andb].
      rewrite Hm by nia. rewrite Z.add_comm, Z.div_add, Z.mod_add, Z.div_small, Z.mod_small by lia.
      fold c. rewrite Z.add_0_l, (testbit_high c B k) by lia. apply andb_false_r. }
  rewrite E. apply i32_small.
  assert (2 ^ B <= 2 ^ 31) by (apply Z.pow_le_mono_r; lia). lia.
Qed.

Lemma list_eq_by_nth (l : list Z) n f : length l = n ->
  (forall i, (i < n)%nat -> f i = nth i l 0) -> map f (seq 0 n) = l.
Proof.
  intros Hl Hf. apply nth_ext with (d := 0) (d' := 0).
  - rewrite map_length, seq_length. congruence.
  - rewrite map_length, seq_length. intros i Hi.
    rewrite (nth_indep _ 0 (f 0%nat)) by (rewrite map_length, seq_length; assumption).
    rewrite map_nth, seq_nth by assumption. apply Hf. assumption.
Qed.

Lemma decode_encode_bmi2 dim idx code : 1 <= dim <= 64 -> Z.of_nat (length idx) = dim ->
  is_morton dim idx code ->
  Forall (fun c => 0 <= c <= kMaxSingleCoordinate dim) idx -> decode_bmi2 dim code = idx.
Proof.
  intros Hd Hlen Hm Hall. unfold decode_bmi2. apply list_eq_by_nth; [lia|].
  intros i Hi. fold (sel dim (Z.of_nat i)).
  rewrite (coord_of_code dim idx code) by
    (try lia; try assumption; rewrite Forall_forall in Hall; apply Hall, nth_In; lia).
  rewrite Nat2Z.id. reflexivity.
Qed.

Lemma nth_map_seq (f : nat -> Z) n i : (i < n)%nat -> nth i (map f (seq 0 n)) 0 = f i.
Proof.
  intros. rewrite (nth_indep _ 0 (f 0%nat)) by (rewrite map_length, seq_length; assumption).
  rewrite map_nth, seq_nth by assumption. reflexivity.
Qed.

Lemma is_morton_decode_bmi2 dim code : 2 <= dim <= 64 -> 0 <= code < 2 ^ 64 ->
  is_morton dim (decode_bmi2 dim code) code.
Proof.
  intros Hd Hc j Hj. unfold decode_bmi2.
  pose proof (Z.mod_pos_bound j dim ltac:(lia)) as B.
  pose proof (Z.div_mod j dim ltac:(lia)) as E.
  destruct (Z.ltb_spec j 64) as [Hl|Hl]; [|apply testbit_high with (n := 64); lia].
  cbn [andb]. rewrite nth_map_seq by lia. rewrite Z2Nat.id by lia. fold (sel dim (j mod dim)).
  assert (0 <= j / dim < 32) by (split; [apply Z.div_pos; lia|apply Z.div_lt_upper_bound; lia]).
  rewrite i32_testbit by lia. rewrite pext_sel_bits by lia.
  replace (j / dim * dim + j mod dim) with j by lia. replace (j <? 64) with true by lia. reflexivity.
Qed.

Lemma encode_decode_bmi2 dim code : 2 <= dim <= 64 -> 0 <= code < 2 ^ 64 ->
  encode_bmi2 dim (decode_bmi2 dim code) = code.
Proof.
  intros Hd Hc. apply (is_morton_unique dim (decode_bmi2 dim code)).
  - apply encode_bmi2_spec; [lia|]. unfold decode_bmi2. rewrite map_length, seq_length. lia.
  - apply is_morton_decode_bmi2; assumption.
Qed.

(* ---------------- LUT decode ---------------- *)
Lemma fold_lor_cond_bits {A} (c : A -> bool) (f : A -> Z) l acc j :
  Z.testbit (fold_left (fun r a => if c a then Z.lor r (f a) else r) l acc) j =
  Z.testbit acc j || existsb (fun a => c a && Z.testbit (f a) j) l.
Proof.
  revert acc. induction l as [|a l IH]; intros acc; cbn [fold_left existsb].
  - rewrite orb_false_r. reflexivity.
  - rewrite IH. destruct (c a); cbn [andb orb]; [|reflexivity].
    rewrite Z.lor_spec, orb_assoc. reflexivity.
Qed.

Lemma lut_decode_bits dim b k : 1 <= dim -> 0 <= k ->
  Z.testbit (lut_decode dim b) k = (k * dim <? 8) && Z.testbit b (k * dim).
Proof.
  intros Hd Hk. unfold lut_decode. rewrite fold_lor_cond_bits, Z.bits_0. cbn [orb].
  assert (Hbit : forall i, 0 <= i -> i mod dim = 0 ->
    Z.testbit (Z.shiftl (Z.land (Z.shiftr b i) 1) (i / dim)) k = (i =? k * dim) && Z.testbit b i).
  { intros i Hi Hmod. rewrite Z.shiftl_spec by assumption.
    assert (Ei : i = dim * (i / dim)) by (apply Z.div_exact; lia).
    destruct (Z_lt_le_dec k (i / dim)) as [Hl|Hl].
    - rewrite Z.testbit_neg_r by lia. replace (i =? k * dim) with false by nia. reflexivity.
    - rewrite land1_testbit by lia. rewrite Z.shiftr_spec by lia. rewrite Z.add_0_l.
      replace (k - i / dim =? 0) with (i =? k * dim) by nia. reflexivity. }
  apply bool_eq_iff. rewrite existsb_exists. split.
  - intros (i & Hin & H). assert (0 <= i < 8) by (cbn [In] in Hin; lia).
    apply andb_prop in H as [H1 H2]. apply Z.eqb_eq in H1. rewrite Hbit in H2 by lia.
    apply andb_prop in H2 as [H2 H3]. apply Z.eqb_eq in H2. subst i. rewrite H3. lia.
  - intros H. apply andb_prop in H as [H1 H2]. apply Z.ltb_lt in H1.
    exists (k * dim). split; [cbn [In]; nia|]. rewrite Z.mod_mul by lia. cbn [Z.eqb andb].
    rewrite Hbit by (try apply Z.mod_mul; nia). rewrite Z.eqb_refl, H2. reflexivity.
Qed.

Lemma decode_coordinate_lut_eq dim d code : 2 <= dim <= 4 -> 0 <= d < dim -> 0 <= code ->
  code < 2 ^ (dim * div_round_up 8 dim * (64 / (dim * div_round_up 8 dim))) ->
  decode_coordinate_lut dim code d = i32 (pext64 code (sel dim d)).
Proof.
  intros Hd Hdd Hc0 Hc. unfold decode_coordinate_lut. f_equal.
  pose proof (div_round_up_spec 8 dim ltac:(lia) ltac:(lia)) as Hr.
  set (nb := div_round_up 8 dim) in *.
  replace (dim * nb / dim) with nb by (rewrite Z.mul_comm, Z.div_mul; lia).
  set (nc := 64 / (dim * nb)) in *.
  assert (Hnb : 1 <= nb) by nia.
  assert (Hcs : 8 <= dim * nb) by lia.
  assert (Hncs : dim * nb * nc <= 64) by (unfold nc; apply Z.mul_div_le; lia).
  assert (Hnc0 : 0 <= nc) by (unfold nc; apply Z.div_pos; lia).
  apply Z.bits_inj'. intros k Hk. rewrite pext_sel_bits by lia.
  rewrite fold_lor_bits, Z.bits_0. cbn [orb].
  apply bool_eq_iff. rewrite existsb_seq_true, andb_true_iff, Z.ltb_lt.
  assert (Hbit : forall i : nat,
    Z.testbit (Z.shiftl (lut_decode dim (Z.land (Z.shiftr code (dim * nb * Z.of_nat i + d)) 255))
                 (nb * Z.of_nat i)) k =
    (nb * Z.of_nat i <=? k) && (k <? nb * Z.of_nat i + nb) && Z.testbit code (k * dim + d)).
  { intros i. rewrite Z.shiftl_spec by assumption.
    destruct (Z.leb_spec (nb * Z.of_nat i) k) as [Hl|Hl].
    - cbn [andb]. rewrite lut_decode_bits by lia. rewrite land255_testbit by nia.
      rewrite Z.shiftr_spec by nia.
      replace ((k - nb * Z.of_nat i) * dim + (dim * nb * Z.of_nat i + d)) with (k * dim + d) by ring.
      destruct (Z.ltb_spec k (nb * Z.of_nat i + nb)).
      + replace ((k - nb * Z.of_nat i) * dim <? 8) with true by nia. reflexivity.
      + replace ((k - nb * Z.of_nat i) * dim <? 8) with false by nia. reflexivity.
    - rewrite Z.testbit_neg_r by lia. reflexivity. }
  split.
  - intros (i & Hi & H). rewrite Hbit in H.
    apply andb_prop in H as [H H2]. split; [|assumption].
    assert (Z.of_nat i < nc) by lia. nia.
  - intros [H1 H2]. exists (Z.to_nat (k / nb)).
    assert (Hkn : 0 <= k / nb) by (apply Z.div_pos; lia).
    pose proof (Z.div_mod k nb ltac:(lia)) as E. pose proof (Z.mod_pos_bound k nb ltac:(lia)) as Bm.
    assert (Hlt : k / nb < nc).
    { destruct (Z_lt_le_dec (k / nb) nc) as [|Hge]; [assumption|exfalso].
      rewrite (testbit_high code (dim * nb * nc)) in H2; [discriminate|lia|].
      assert (nb * nc <= k) by nia. nia. }
    split; [lia|]. rewrite Hbit. rewrite Z2Nat.id by lia. rewrite H2. lia.
Qed.

Lemma decode_lut_eq_bmi2 dim code : dim = 2 \/ dim = 3 \/ dim = 4 ->
  0 <= code < 2 ^ (if dim =? 3 then 63 else 64) ->
  decode_lut dim code = decode_bmi2 dim code.
Proof.
  intros Hd Hc. unfold decode_lut, decode_bmi2. apply map_ext_in. intros i Hi. apply in_seq in Hi.
  fold (sel dim (Z.of_nat i)). apply decode_coordinate_lut_eq; try lia.
  destruct Hd as [->|[->| ->]]; cbn in Hc |- *; lia.
Qed.
