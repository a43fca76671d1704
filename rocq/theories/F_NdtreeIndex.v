From Verif Require Import Base M_IntMath F_IntMath M_Morton F_Morton M_NdtreeIndex.

(** Specification: the set of smallest-resolution cells covered by a node. *)
Definition covers (n : node_index) (cell : list Z) : Prop :=
  Forall2 (fun p c => 2 ^ height n * p <= c < 2 ^ height n * (p + 1)) (position n) cell.

(* ------------ relative child index ------------ *)
Fixpoint rel0 (pos : list Z) : Z := match pos with [] => 0 | c :: cs => c mod 2 + 2 * rel0 cs end.

Lemma land1_mod x : Z.land x 1 = x mod 2.
Proof. change 1 with (2 ^ 1 - 1). rewrite land_mask by lia. reflexivity. Qed.

Lemma relative_child_from_rel0 pos : forall i, 0 <= i -> relative_child_from i pos = 2 ^ i * rel0 pos.
Proof.
  induction pos as [|c cs IH]; intros i Hi; cbn [relative_child_from rel0]; [lia|].
  rewrite land1_mod, IH by lia. rewrite Z.shiftl_mul_pow2 by lia.
  rewrite Z.pow_add_r, Z.pow_1_r by lia. ring.
Qed.

Lemma rel0_range pos : 0 <= rel0 pos < 2 ^ Z.of_nat (length pos).
Proof.
  induction pos as [|c cs IH]; cbn [rel0 length]; [cbn; lia|].
  rewrite Nat2Z.inj_succ, Z.pow_succ_r by lia. pose proof (Z.mod_pos_bound c 2). lia.
Qed.

Lemma rel0_bits pos : forall d, 0 <= d ->
  Z.testbit (rel0 pos) d =
  (d <? Z.of_nat (length pos)) && Z.testbit (nth (Z.to_nat d) pos 0) 0.
Proof.
  induction pos as [|c cs IH]; intros d Hd; cbn [rel0].
  - rewrite Z.bits_0. destruct (Z.to_nat d); cbn [nth]; rewrite Z.bits_0, andb_false_r; reflexivity.
  - cbn [length]. rewrite Zmod_odd, <- Z.bit0_odd.
    replace (if Z.testbit c 0 then 1 else 0) with (Z.b2z (Z.testbit c 0)) by (destruct (Z.testbit c 0); reflexivity).
    destruct (Z.eq_dec d 0) as [->|Hne].
    + rewrite Z.add_b2z_double_bit0. cbn [Z.to_nat nth].
      replace (0 <? Z.of_nat (S (length cs))) with true by lia. reflexivity.
    + replace d with (Z.succ (d - 1)) at 1 by lia.
      rewrite <- Z.div2_bits by lia.
      replace ((Z.b2z (Z.testbit c 0) + 2 * rel0 cs) / 2) with (rel0 cs)
        by (destruct (Z.testbit c 0); cbn [Z.b2z]; lia).
      rewrite IH by lia. rewrite (nth_cons_Z c cs d) by lia. f_equal. lia.
Qed.

Lemma computeRelativeChildIndex_range n :
  0 <= computeRelativeChildIndex n < 2 ^ Z.of_nat (length (position n)).
Proof.
  unfold computeRelativeChildIndex. rewrite relative_child_from_rel0 by lia.
  rewrite Z.pow_0_r, Z.mul_1_l. apply rel0_range.
Qed.

Lemma nth_map_div pos k i : nth i (map (fun c => div_exp2_floor c k) pos) 0 = div_exp2_floor (nth i pos 0) k.
Proof.
  replace 0 with (div_exp2_floor 0 k) at 1 by apply Z.shiftr_0_l.
  apply (map_nth (fun c => div_exp2_floor c k)).
Qed.

(** Reading the relative child index from the Morton code of a node equals taking the low bits of
    the ancestor's coordinates. *)
Lemma relative_child_morton dim h pos p :
  1 <= dim <= 64 -> Z.of_nat (length pos) = dim -> 0 <= h < p -> p * dim <= 64 ->
  relativeChildIndexFromMorton dim (nodeIndexToMorton dim (NodeIndex h pos)) p =
  computeRelativeChildIndex (NodeIndex (p - 1) (map (fun c => div_exp2_floor c (p - 1 - h)) pos)).
Proof.
  intros Hd Hlen Hh Hp. unfold computeRelativeChildIndex.
  rewrite relative_child_from_rel0 by lia. rewrite Z.pow_0_r, Z.mul_1_l.
  unfold relativeChildIndexFromMorton. rewrite Z.shiftl_1_l, land_mask by lia.
  apply Z.bits_inj'. intros d Hdd. cbn [position].
  rewrite rel0_bits by assumption. rewrite map_length.
  destruct (Z.ltb_spec d (Z.of_nat (length pos))) as [Hl|Hl].
  - cbn [andb]. rewrite Z.mod_pow2_bits_low by lia. rewrite Z.shiftr_spec by lia.
    unfold nodeIndexToMorton; cbn [height position].
    rewrite u64_testbit by nia. replace (d + (p - 1) * dim <? 64) with true by nia. cbn [andb].
    rewrite Z.shiftl_spec by nia.
    rewrite (encode_bmi2_spec dim pos Hd Hlen) by nia.
    replace (d + (p - 1) * dim - h * dim) with (d + (p - 1 - h) * dim) by ring.
    replace (d + (p - 1 - h) * dim <? 64) with true by nia. cbn [andb].
    rewrite Z.mod_add, Z.div_add, Z.mod_small, Z.div_small by lia.
    rewrite nth_map_div. unfold div_exp2_floor. rewrite Z.shiftr_spec by lia.
    f_equal. 
  - rewrite Z.mod_pow2_bits_high by lia. reflexivity.
Qed.

(* ------------ parent / child ------------ *)
Lemma add_child_offset_length rel pos : forall i, length (add_child_offset i rel pos) = length pos.
Proof. induction pos as [|c cs IH]; intros i; cbn [add_child_offset length]; [reflexivity|]. rewrite IH. reflexivity. Qed.

Lemma parent_child n rel : computeParentIndex1 (computeChildIndex n rel) = n.
Proof.
  destruct n as [h pos]. unfold computeParentIndex1, computeChildIndex. cbn [height position].
  f_equal; [lia|]. generalize 0 as i. induction pos as [|c cs IH]; intros i; [reflexivity|].
  cbn [add_child_offset map]. rewrite IH. f_equal.
  rewrite div_exp2_floor_spec by lia. rewrite land1_mod. change (2 ^ 1) with 2. lia.
Qed.

Lemma child_parent n :
  computeChildIndex (computeParentIndex1 n) (computeRelativeChildIndex n) = n.
Proof.
  destruct n as [h pos]. unfold computeParentIndex1, computeChildIndex, computeRelativeChildIndex.
  cbn [height position]. f_equal; [lia|].
  rewrite relative_child_from_rel0 by lia. rewrite Z.pow_0_r, Z.mul_1_l.
  assert (H : forall pos i r, 0 <= i -> (forall d, 0 <= d < Z.of_nat (length pos) ->
              Z.testbit r (i + d) = Z.testbit (nth (Z.to_nat d) pos 0) 0) ->
            add_child_offset i r (map (fun c => div_exp2_floor c 1) pos) = pos).
  { clear. induction pos as [|c cs IH]; intros i r Hi H; [reflexivity|].
    cbn [map add_child_offset]. f_equal.
    - rewrite land1_mod, Zmod_odd, <- Z.bit0_odd, Z.shiftr_spec by lia.
      specialize (H 0 ltac:(cbn [length]; lia)). cbn [Z.to_nat nth] in H.
      rewrite Z.add_0_l. rewrite Z.add_0_r in H. rewrite H, Z.bit0_odd.
      rewrite div_exp2_floor_spec by lia. change (2 ^ 1) with 2.
      pose proof (Zmod_odd c). pose proof (Z.div_mod c 2). destruct (Z.odd c); lia.
    - apply IH; [lia|]. intros d Hd. specialize (H (d + 1) ltac:(cbn [length]; lia)).
      replace (i + 1 + d) with (i + (d + 1)) by lia. rewrite H.
      rewrite nth_cons_Z by lia. f_equal. f_equal. f_equal. lia. }
  apply H; [lia|]. intros d Hd. rewrite Z.add_0_l, rel0_bits by lia.
  replace (d <? Z.of_nat (length pos)) with true by lia. reflexivity.
Qed.

Lemma rel_of_child n rel : 0 <= rel < 2 ^ Z.of_nat (length (position n)) ->
  computeRelativeChildIndex (computeChildIndex n rel) = rel.
Proof.
  destruct n as [h pos]. unfold computeChildIndex, computeRelativeChildIndex. cbn [height position].
  intros Hr. rewrite relative_child_from_rel0 by lia. rewrite Z.pow_0_r, Z.mul_1_l.
  apply Z.bits_inj'. intros d Hd. rewrite rel0_bits by assumption. rewrite add_child_offset_length.
  destruct (Z.ltb_spec d (Z.of_nat (length pos))) as [Hl|Hl].
  - cbn [andb]. clear Hr.
    assert (H : forall pos i d, 0 <= i -> 0 <= d < Z.of_nat (length pos) ->
       Z.testbit (nth (Z.to_nat d) (add_child_offset i rel pos) 0) 0 = Z.testbit rel (i + d)).
    { clear. induction pos as [|c cs IH]; intros i d Hi Hd; [cbn [length] in Hd; lia|].
      cbn [add_child_offset]. destruct (Z.eq_dec d 0) as [->|Hne].
      - cbn [Z.to_nat nth]. rewrite Z.bit0_odd, Z.odd_add, Z.odd_mul. cbn [Z.odd]. 
        rewrite andb_false_r, xorb_false_l, <- Z.bit0_odd, land1_testbit, Z.shiftr_spec by lia.
        cbn [Z.eqb andb]. f_equal. lia.
      - rewrite nth_cons_Z by lia. cbn [length] in Hd. rewrite IH by lia. f_equal. lia. }
    rewrite H by lia. rewrite Z.add_0_l. reflexivity.
  - symmetry. apply testbit_high with (n := Z.of_nat (length pos)); lia.
Qed.

(** ancestors compose *)
Lemma div_exp2_floor_compose c a b : 0 <= a -> 0 <= b ->
  div_exp2_floor (div_exp2_floor c a) b = div_exp2_floor c (a + b).
Proof. intros. unfold div_exp2_floor. apply Z.shiftr_shiftr; assumption. Qed.

Lemma computeParentIndex_iterated n h1 h2 p : height n <= h1 -> h1 <= h2 ->
  computeParentIndex n h1 = Some p -> computeParentIndex p h2 = computeParentIndex n h2.
Proof.
  intros H1 H2 Hp. unfold computeParentIndex in *.
  replace (height n <=? h1) with true in Hp by lia. injection Hp as <-. cbn [height position].
  replace (h1 <=? h2) with true by lia. replace (height n <=? h2) with true by lia.
  f_equal. f_equal. rewrite map_map. apply map_ext. intros c.
  rewrite div_exp2_floor_compose by lia. f_equal. lia.
Qed.

(* ------------ cells covered ------------ *)
Lemma covers_iff n cell : 0 <= height n ->
  covers n cell <-> indexAndHeightToNodeIndex cell (height n) = n.
Proof.
  destruct n as [h pos]. unfold covers, indexAndHeightToNodeIndex. cbn [height position]. intros Hh.
  pose proof (pow2_pos h Hh) as Hp.
  split.
  - intros H. f_equal. induction H as [|p c ps cs Hpc _ IH]; [reflexivity|]. cbn [map].
    f_equal; [|assumption]. rewrite div_exp2_floor_spec by assumption.
    symmetry. apply Z.div_unique with (c - 2 ^ h * p); lia.
  - intros H. injection H as H. subst pos. induction cell as [|c cs IH]; cbn [map]; constructor; [|assumption].
    rewrite div_exp2_floor_spec by assumption.
    pose proof (Z.div_mod c (2 ^ h) ltac:(lia)). pose proof (Z.mod_pos_bound c (2 ^ h) Hp). nia.
Qed.

Lemma min_max_corner_spec n cell : 0 <= height n ->
  covers n cell <->
  Forall2 Z.le (nodeIndexToMinCornerIndex n) cell /\ Forall2 Z.le cell (nodeIndexToMaxCornerIndex n).
Proof.
  destruct n as [h pos]. unfold covers, nodeIndexToMaxCornerIndex, nodeIndexToMinCornerIndex.
  cbn [height position]. intros Hh. unfold mult_exp2. rewrite exp2_pow by assumption.
  rewrite map_map. split.
  - intros H. induction H as [|p c ps cs Hpc _ [IH1 IH2]]; cbn [map]; split; constructor; try assumption; lia.
  - intros [H1 H2]. revert cell H1 H2. induction pos as [|p ps IH]; intros cell H1 H2; cbn [map] in *.
    + inversion H1; constructor.
    + inversion H1; subst. inversion H2; subst. constructor; [lia|]. apply IH; assumption.
Qed.

(** The children partition their parent's cells. *)
Lemma children_partition n cell : 0 < height n -> covers n cell ->
  exists rel, 0 <= rel < 2 ^ Z.of_nat (length (position n)) /\ covers (computeChildIndex n rel) cell /\
    forall rel', 0 <= rel' < 2 ^ Z.of_nat (length (position n)) ->
                 covers (computeChildIndex n rel') cell -> rel' = rel.
Proof.
  intros Hh Hc. pose proof Hc as Hc'. apply covers_iff in Hc'; [|lia].
  set (ch := indexAndHeightToNodeIndex cell (height n - 1)).
  assert (Hpar : computeParentIndex1 ch = n).
  { rewrite <- Hc'. unfold ch, computeParentIndex1, indexAndHeightToNodeIndex. cbn [height position].
    f_equal; [lia|]. rewrite map_map. apply map_ext. intros c. rewrite div_exp2_floor_compose by lia.
    f_equal. lia. }
  assert (Hlen : length (position ch) = length (position n)).
  { rewrite <- Hpar. unfold computeParentIndex1. cbn [position]. rewrite map_length. reflexivity. }
  exists (computeRelativeChildIndex ch). split; [|split].
  - rewrite <- Hlen. apply computeRelativeChildIndex_range.
  - rewrite <- Hpar at 1. rewrite child_parent. apply covers_iff; [cbn; lia|]. reflexivity.
  - intros rel' Hr Hc2. apply covers_iff in Hc2; [|cbn [computeChildIndex height]; lia].
    cbn [computeChildIndex height] in Hc2. fold ch in Hc2. rewrite Hc2. symmetry. apply rel_of_child. assumption.
Qed.

Lemma child_covers_parent n rel cell : 0 < height n -> covers (computeChildIndex n rel) cell -> covers n cell.
Proof.
  intros Hh Hc. apply covers_iff in Hc; [|cbn [computeChildIndex height]; lia].
  apply covers_iff; [lia|]. cbn [computeChildIndex height] in Hc.
  transitivity (computeParentIndex1 (computeChildIndex n rel)); [|apply parent_child].
  rewrite <- Hc. unfold computeParentIndex1, indexAndHeightToNodeIndex. cbn [height position].
  f_equal; [lia|]. rewrite map_map. apply map_ext. intros c. rewrite div_exp2_floor_compose by lia.
  f_equal. lia.
Qed.

(* ------------ last common ancestor ------------ *)
Lemma shiftr_eq_lxor a b k : 0 <= k -> Z.shiftr a k = Z.shiftr b k <-> Z.shiftr (Z.lxor a b) k = 0.
Proof.
  intros. rewrite Z.shiftr_lxor. split.
  - intros ->. apply Z.lxor_nilpotent.
  - apply Z.lxor_eq.
Qed.

Lemma lca_spec dim m1 h1 m2 h2 :
  1 <= dim <= 64 -> 0 <= m1 < 2 ^ 64 -> 0 <= m2 < 2 ^ 64 -> 0 <= h1 -> 0 <= h2 ->
  let L := computeLastCommonAncestorHeight dim m1 h1 m2 h2 in
  h1 <= L /\ h2 <= L /\ Z.shiftr m1 (L * dim) = Z.shiftr m2 (L * dim) /\
  forall H, h1 <= H -> h2 <= H -> Z.shiftr m1 (H * dim) = Z.shiftr m2 (H * dim) -> L <= H.
Proof.
  intros Hd Hm1 Hm2 Hh1 Hh2. cbv zeta. unfold computeLastCommonAncestorHeight.
  destruct (Z.eqb_spec m1 m2) as [->|Hne].
  - repeat split; try lia.
  - set (x := Z.lxor m1 m2).
    assert (Hx0 : x <> 0) by (unfold x; intros H0; apply Z.lxor_eq in H0; contradiction).
    assert (Hxn : 0 <= x) by (unfold x; apply Z.lxor_nonneg; lia).
    assert (Hx : x < 2 ^ 64).
    { apply bits_bound; [assumption|lia|]. intros m Hm. unfold x. rewrite Z.lxor_spec.
      rewrite !(testbit_high _ 64 m) by lia. reflexivity. }
    unfold clz. destruct (Z.eqb_spec x 0); [contradiction|].
    rewrite clz_loop_log2 by (change (2 ^ Z.of_nat 64) with (2 ^ 64); lia).
    replace (64 - (Z.of_nat 64 - 1 - Z.log2 x)) with (Z.log2 x + 1) by lia.
    pose proof (Z.log2_nonneg x) as Hl0.
    pose proof (div_round_up_spec (Z.log2 x + 1) dim ltac:(lia) ltac:(lia)) as Hr.
    set (L := div_round_up (Z.log2 x + 1) dim) in *.
    assert (Hshift : forall k, 0 <= k -> (Z.shiftr x k = 0 <-> Z.log2 x < k)).
    { intros k Hk. split.
      - intros Hs. destruct (Z_lt_le_dec (Z.log2 x) k) as [|Hge]; [assumption|exfalso].
        assert (Z.testbit (Z.shiftr x k) (Z.log2 x - k) = true).
        { rewrite Z.shiftr_spec by lia. replace (Z.log2 x - k + k) with (Z.log2 x) by lia.
          apply Z.bit_log2. lia. }
        rewrite Hs, Z.bits_0 in H. discriminate.
      - intros Hlt. apply Z.shiftr_eq_0; lia. }
    split; [lia|]. split; [lia|]. split.
    + apply shiftr_eq_lxor; [nia|]. apply Hshift; nia.
    + intros H HH1 HH2 Heq. apply shiftr_eq_lxor in Heq; [|nia]. apply Hshift in Heq; nia.
Qed.

(** position-level reading of shifted Morton codes: ancestors coincide iff the codes do. *)
Definition in_range (dim : Z) (n : node_index) : Prop :=
  0 <= height n /\ Forall (fun c => 0 <= c /\ c * 2 ^ height n < 2 ^ (64 / dim)) (position n).

Lemma in_range_bits dim n c k : 1 <= dim <= 64 -> in_range dim n -> In c (position n) ->
  64 / dim - height n <= k -> Z.testbit c k = false.
Proof.
  intros Hd [Hh Hall] Hin Hk. rewrite Forall_forall in Hall. destruct (Hall c Hin) as [Hc0 Hc].
  destruct (Z.eq_dec c 0) as [->|Hne]; [apply Z.bits_0|].
  assert (Hlt : height n < 64 / dim).
  { destruct (Z_lt_le_dec (height n) (64 / dim)) as [|Hge]; [assumption|].
    assert (2 ^ (64 / dim) <= 2 ^ height n) by (apply Z.pow_le_mono_r; lia). nia. }
  apply testbit_high with (n := 64 / dim - height n); [|assumption].
  split; [assumption|].
  replace (64 / dim) with (64 / dim - height n + height n) in Hc by lia.
  rewrite Z.pow_add_r in Hc by lia. pose proof (pow2_pos (height n) Hh). nia.
Qed.

Lemma morton_shift_bits dim n H j : 1 <= dim <= 64 -> Z.of_nat (length (position n)) = dim ->
  in_range dim n -> height n <= H -> 0 <= j ->
  Z.testbit (Z.shiftr (nodeIndexToMorton dim n) (H * dim)) j =
  Z.testbit (nth (Z.to_nat (j mod dim)) (position n) 0) (j / dim + (H - height n)).
Proof.
  intros Hd Hlen Hr HH Hj. pose proof Hr as [Hh _].
  assert (Hq : 0 <= j / dim) by (apply Z.div_pos; lia).
  pose proof (Z.mod_pos_bound j dim ltac:(lia)) as B. pose proof (Z.div_mod j dim ltac:(lia)) as E.
  rewrite Z.shiftr_spec by lia. unfold nodeIndexToMorton. rewrite u64_testbit by nia.
  rewrite Z.shiftl_spec by nia.
  rewrite (encode_bmi2_spec dim (position n) Hd Hlen) by nia.
  replace (j + H * dim - height n * dim) with (j + (H - height n) * dim) by ring.
  rewrite Z.mod_add, Z.div_add by lia.
  destruct (Z.ltb_spec (j + H * dim) 64) as [Hl|Hl]; cbn [andb].
  - replace (j + (H - height n) * dim <? 64) with true by nia. reflexivity.
  - symmetry. apply (in_range_bits dim n); try assumption.
    + apply nth_In. lia.
    + assert (64 / dim <= j / dim + H); [|lia].
      apply Z.lt_succ_r. apply Z.div_lt_upper_bound; [lia|]. nia.
Qed.

Lemma ancestors_eq_iff_codes dim n1 n2 H :
  1 <= dim <= 64 -> Z.of_nat (length (position n1)) = dim -> Z.of_nat (length (position n2)) = dim ->
  in_range dim n1 -> in_range dim n2 -> height n1 <= H -> height n2 <= H ->
  (computeParentIndex n1 H = computeParentIndex n2 H <->
   Z.shiftr (nodeIndexToMorton dim n1) (H * dim) = Z.shiftr (nodeIndexToMorton dim n2) (H * dim)).
Proof.
  intros Hd Hl1 Hl2 Hr1 Hr2 H1 H2. unfold computeParentIndex.
  replace (height n1 <=? H) with true by lia. replace (height n2 <=? H) with true by lia.
  split.
  - intros E. injection E as E. apply Z.bits_inj'. intros j Hj.
    rewrite !morton_shift_bits by (assumption || lia).
    pose proof (f_equal (fun l => Z.testbit (nth (Z.to_nat (j mod dim)) l 0) (j / dim)) E) as E'.
    cbv beta in E'. rewrite !nth_map_div in E'. unfold div_exp2_floor in E'.
    rewrite !Z.shiftr_spec in E' by (apply Z.div_pos; lia). exact E'.
  - intros E. f_equal. f_equal.
    apply nth_ext with (d := 0) (d' := 0); [rewrite !map_length; lia|].
    rewrite map_length. intros i Hi. rewrite !nth_map_div. unfold div_exp2_floor.
    apply Z.bits_inj'. intros k Hk. rewrite !Z.shiftr_spec by assumption.
    pose proof (f_equal (fun c => Z.testbit c (k * dim + Z.of_nat i)) E) as E'. cbv beta in E'.
    rewrite !morton_shift_bits in E' by (assumption || nia).
    rewrite (Z.add_comm (k * dim)), !Z.mod_add, !Z.div_add, !Z.mod_small, !Z.div_small in E' by lia.
    rewrite Nat2Z.id in E'. rewrite Z.add_0_l in E'. exact E'.
Qed.

Lemma nodeIndexToMorton_range dim n : 0 <= nodeIndexToMorton dim n < 2 ^ 64.
Proof. apply u64_range. Qed.

Lemma lca_positions dim n1 n2 :
  1 <= dim <= 64 -> Z.of_nat (length (position n1)) = dim -> Z.of_nat (length (position n2)) = dim ->
  in_range dim n1 -> in_range dim n2 ->
  let L := computeLastCommonAncestorHeight dim (nodeIndexToMorton dim n1) (height n1)
                                               (nodeIndexToMorton dim n2) (height n2) in
  height n1 <= L /\ height n2 <= L /\ computeParentIndex n1 L = computeParentIndex n2 L /\
  forall H, height n1 <= H -> height n2 <= H ->
            computeParentIndex n1 H = computeParentIndex n2 H -> L <= H.
Proof.
  intros Hd Hl1 Hl2 Hr1 Hr2. cbv zeta.
  pose proof Hr1 as [Hh1 _]. pose proof Hr2 as [Hh2 _].
  destruct (lca_spec dim (nodeIndexToMorton dim n1) (height n1) (nodeIndexToMorton dim n2) (height n2))
    as (A & B & C & D); try lia; try apply nodeIndexToMorton_range.
  split; [assumption|]. split; [assumption|]. split.
  - apply (ancestors_eq_iff_codes dim); assumption.
  - intros H HH1 HH2 E. apply D; try assumption.
    apply (ancestors_eq_iff_codes dim); assumption.
Qed.

(* ------------ linear index ------------ *)
Lemma inner_product_scale k : forall cur b idx,
  inner_product (pow_sequence_from (k * cur) b (length idx)) idx =
  k * inner_product (pow_sequence_from cur b (length idx)) idx.
Proof.
  intros cur b idx. revert cur. induction idx as [|c cs IH]; intros cur; cbn [length pow_sequence_from inner_product]; [lia|].
  replace (k * cur * b) with (k * (cur * b)) by ring. rewrite IH. ring.
Qed.

Lemma linear_cons b c cs : indexToLinearIndex b (c :: cs) = c + b * indexToLinearIndex b cs.
Proof.
  unfold indexToLinearIndex, pow_sequence. cbn [length pow_sequence_from inner_product].
  replace (1 * b) with (b * 1) by lia. rewrite inner_product_scale. lia.
Qed.

Lemma linear_range b idx : 0 < b -> Forall (fun c => 0 <= c < b) idx ->
  0 <= indexToLinearIndex b idx < b ^ Z.of_nat (length idx).
Proof.
  intros Hb H. induction H as [|c cs Hc _ IH]; [cbn; lia|].
  rewrite linear_cons. cbn [length]. rewrite Nat2Z.inj_succ, Z.pow_succ_r by lia. nia.
Qed.

Lemma map_pow_sequence_div b lin (n : nat) : forall cur, 0 < b -> 0 < cur ->
  map (fun p => (lin / p) mod b) (pow_sequence_from (cur * b) b n) =
  map (fun p => (lin / cur / b / p) mod b) (pow_sequence_from 1 b n).
Proof.
  intros cur Hb Hcur.
  assert (H : forall n e, 0 < e ->
     map (fun p => (lin / p) mod b) (pow_sequence_from (cur * b * e) b n) =
     map (fun p => (lin / cur / b / p) mod b) (pow_sequence_from e b n)).
  { clear n. induction n as [|n IH]; intros e He; [reflexivity|]. cbn [pow_sequence_from map]. f_equal.
    - rewrite !Z.div_div by nia. rewrite Z.mul_assoc. reflexivity.
    - replace (cur * b * e * b) with (cur * b * (e * b)) by ring. apply IH. nia. }
  specialize (H n 1). rewrite Z.mul_1_r in H. apply H. lia.
Qed.

Lemma linear_inverse_cons b n lin : 0 < b ->
  linearIndexToIndex b (S n) lin = (lin mod b) :: linearIndexToIndex b n (lin / b).
Proof.
  intros Hb. unfold linearIndexToIndex, pow_sequence. cbn [pow_sequence_from map].
  rewrite Z.div_1_r. f_equal. rewrite (map_pow_sequence_div b lin n 1) by lia.
  rewrite Z.div_1_r. reflexivity.
Qed.

Lemma linear_roundtrip b idx : 0 < b -> Forall (fun c => 0 <= c < b) idx ->
  linearIndexToIndex b (length idx) (indexToLinearIndex b idx) = idx.
Proof.
  intros Hb H. induction H as [|c cs Hc Hcs IH]; [reflexivity|].
  cbn [length]. rewrite linear_inverse_cons, linear_cons by assumption.
  replace ((c + b * indexToLinearIndex b cs) mod b) with c
    by (rewrite Z.mul_comm, Z.mod_add by lia; symmetry; apply Z.mod_small; lia).
  replace ((c + b * indexToLinearIndex b cs) / b) with (indexToLinearIndex b cs).
  - rewrite IH. reflexivity.
  - rewrite Z.mul_comm, Z.div_add by lia. rewrite Z.div_small by lia. lia.
Qed.

Lemma linear_inverse_range b n lin : 0 < b ->
  length (linearIndexToIndex b n lin) = n /\ Forall (fun c => 0 <= c < b) (linearIndexToIndex b n lin).
Proof.
  intros Hb. revert lin. induction n as [|n IH]; intros lin; [split; constructor|].
  rewrite linear_inverse_cons by assumption. destruct (IH (lin / b)) as [H1 H2]. split.
  - cbn [length]. congruence.
  - constructor; [apply Z.mod_pos_bound; lia|assumption].
Qed.

Lemma linear_roundtrip2 b n lin : 0 < b -> 0 <= lin < b ^ Z.of_nat n ->
  indexToLinearIndex b (linearIndexToIndex b n lin) = lin.
Proof.
  intros Hb. revert lin. induction n as [|n IH]; intros lin Hlin.
  - change (b ^ Z.of_nat 0) with 1 in Hlin. cbn. lia.
  - rewrite linear_inverse_cons, linear_cons by assumption.
    rewrite Nat2Z.inj_succ, Z.pow_succ_r in Hlin by lia.
    rewrite IH; [pose proof (Z.div_mod lin b); lia|].
    split; [apply Z.div_pos; lia|apply Z.div_lt_upper_bound; lia].
Qed.
