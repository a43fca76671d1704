(** Property theorems C03 - C07 (integer helpers, Morton codes, tree addressing, linear indices).
    Each theorem is closed by a lemma proved elsewhere; an [Example] shows that its hypotheses are
    met by a non-trivial case. *)
From Verif Require Import Base M_IntMath F_IntMath M_Morton F_Morton M_NdtreeIndex F_NdtreeIndex.

(* ------------------------------------------------------------------------------------------ *)
(** C03: decoding the Morton code of an index gives the index back, for both implementations.
    [kMaxSingleCoordinate] is the documented limit (2^20 - 1 for 3D). *)
Theorem C03_decode_encode : forall dim idx,
  2 <= dim <= 4 -> Z.of_nat (length idx) = dim ->
  Forall (fun c => 0 <= c <= kMaxSingleCoordinate dim) idx ->
  decode_bmi2 dim (encode_bmi2 dim idx) = idx.
Proof.
  intros dim idx Hd Hl Hf.
  exact (decode_encode_bmi2 dim idx (encode_bmi2 dim idx) ltac:(lia) Hl
           (encode_bmi2_spec dim idx ltac:(lia) Hl) Hf).
Qed.
Example C03_decode_encode_ex :
  Forall (fun c => 0 <= c <= kMaxSingleCoordinate 3) [5; 1048575; 77] /\
  encode_bmi2 3 [5; 1048575; 77] = 329406144174435799 /\
  decode_bmi2 3 329406144174435799 = [5; 1048575; 77].
Proof. split; [repeat constructor; vm_compute; discriminate|]. split; vm_compute; reflexivity. Qed.
Print Assumptions C03_decode_encode.

(** C03: every 64 bit code is the code of the index it decodes to (so codes identify cells). *)
Theorem C03_encode_decode : forall dim code,
  2 <= dim <= 64 -> 0 <= code < 2 ^ 64 -> encode_bmi2 dim (decode_bmi2 dim code) = code.
Proof. exact encode_decode_bmi2. Qed.
Example C03_encode_decode_ex : encode_bmi2 3 (decode_bmi2 3 9876543210123456789) = 9876543210123456789.
Proof. vm_compute; reflexivity. Qed.
Print Assumptions C03_encode_decode.

(** C03: the table based encoder and the pdep based encoder return the same code for every index,
    negative coordinates included. *)
Theorem C03_encoders_agree : forall dim idx,
  2 <= dim <= 8 -> Z.of_nat (length idx) = dim -> encode_lut dim idx = encode_bmi2 dim idx.
Proof. exact encode_lut_eq_bmi2. Qed.
Example C03_encoders_agree_ex : encode_lut 3 [-3; 12345; -1] = encode_bmi2 3 [-3; 12345; -1] /\
                                encode_lut 3 [-3; 12345; -1] <> encode_lut 3 [-3; 12345; -2].
Proof. split; [vm_compute; reflexivity|vm_compute; discriminate]. Qed.
Print Assumptions C03_encoders_agree.

(** C03: in one dimension the two encoders do NOT agree on negative coordinates (the table loop
    stops after 32 bits while pdep sees the sign-extended 64 bit word). *)
Theorem C03_encoders_agree_1d_refuted : exists c, - 2 ^ 31 <= c < 2 ^ 31 /\
  encode_lut 1 [c] <> encode_bmi2 1 [c].
Proof. exists (-1). split; [lia|vm_compute; discriminate]. Qed.
Print Assumptions C03_encoders_agree_1d_refuted.

(** C03: both decoders agree on all codes the documentation allows ([kMaxMortonIndex]). *)
Theorem C03_decoders_agree : forall dim code,
  dim = 2 \/ dim = 3 \/ dim = 4 -> 0 <= code <= kMaxMortonIndex dim ->
  decode_lut dim code = decode_bmi2 dim code.
Proof.
  intros dim code Hd Hc. apply decode_lut_eq_bmi2; [assumption|].
  destruct Hd as [->|[->| ->]]; cbn in Hc |- *; lia.
Qed.
Example C03_decoders_agree_ex :
  decode_lut 3 329406144174435799 = [5; 1048575; 77] /\ 329406144174435799 <= kMaxMortonIndex 3.
Proof. split; [vm_compute; reflexivity|vm_compute; discriminate]. Qed.
Print Assumptions C03_decoders_agree.

(* ------------------------------------------------------------------------------------------ *)
(** C04: reading the relative child index out of the Morton code of a node, at any ancestor height,
    equals taking the low coordinate bits of the node's ancestor (negative coordinates included). *)
Theorem C04_morton_child_index : forall dim h pos p anc,
  1 <= dim <= 64 -> Z.of_nat (length pos) = dim -> 0 <= h < p -> p * dim <= 64 ->
  computeParentIndex (NodeIndex h pos) (p - 1) = Some anc ->
  relativeChildIndexFromMorton dim (nodeIndexToMorton dim (NodeIndex h pos)) p =
  computeRelativeChildIndex anc.
Proof.
  intros dim h pos p anc Hd Hl Hh Hp Ha. unfold computeParentIndex in Ha. cbn [height position] in Ha.
  replace (h <=? p - 1) with true in Ha by lia. injection Ha as <-.
  exact (relative_child_morton dim h pos p Hd Hl Hh Hp).
Qed.
Example C04_morton_child_index_ex :
  computeParentIndex (NodeIndex 1 [-7; 3; 10]) 3 = Some (NodeIndex 3 [-2; 0; 2]) /\
  relativeChildIndexFromMorton 3 (nodeIndexToMorton 3 (NodeIndex 1 [-7; 3; 10])) 4 = 0 /\
  relativeChildIndexFromMorton 3 (nodeIndexToMorton 3 (NodeIndex 1 [-7; 3; 10])) 3 = 6.
Proof. repeat split; vm_compute; reflexivity. Qed.
Print Assumptions C04_morton_child_index.

(** C04: parent and child are mutually inverse. *)
Theorem C04_parent_child : forall n rel,
  computeParentIndex1 (computeChildIndex n rel) = n /\
  (0 <= rel < 2 ^ Z.of_nat (length (position n)) ->
   computeRelativeChildIndex (computeChildIndex n rel) = rel) /\
  computeChildIndex (computeParentIndex1 n) (computeRelativeChildIndex n) = n.
Proof.
  intros n rel. exact (conj (parent_child n rel) (conj (rel_of_child n rel) (child_parent n))).
Qed.
Example C04_parent_child_ex :
  computeChildIndex (NodeIndex 4 [-2; 0; 5]) 6 = NodeIndex 3 [-4; 1; 11].
Proof. vm_compute; reflexivity. Qed.
Print Assumptions C04_parent_child.

(** C04: a node's cells (the smallest cells between its minimum and maximum corner index) are the
    disjoint union of its children's cells. *)
Theorem C04_children_partition : forall n cell, 0 < height n ->
  (covers n cell <->
   exists rel, 0 <= rel < 2 ^ Z.of_nat (length (position n)) /\ covers (computeChildIndex n rel) cell) /\
  (forall r1 r2, 0 <= r1 < 2 ^ Z.of_nat (length (position n)) ->
                 0 <= r2 < 2 ^ Z.of_nat (length (position n)) ->
     covers (computeChildIndex n r1) cell -> covers (computeChildIndex n r2) cell -> r1 = r2).
Proof.
  intros n cell Hh. split; [split|].
  - intros Hc. destruct (children_partition n cell Hh Hc) as (rel & H1 & H2 & _). exists rel. auto.
  - intros (rel & _ & H). exact (child_covers_parent n rel cell Hh H).
  - intros r1 r2 H1 H2 Hc1 Hc2.
    destruct (children_partition n cell Hh (child_covers_parent n r1 cell Hh Hc1)) as (rel & _ & _ & H).
    rewrite (H r1 H1 Hc1), (H r2 H2 Hc2). reflexivity.
Qed.
Theorem C04_corner_indices : forall n cell, 0 <= height n ->
  (covers n cell <-> Forall2 Z.le (nodeIndexToMinCornerIndex n) cell /\
                     Forall2 Z.le cell (nodeIndexToMaxCornerIndex n)).
Proof. exact min_max_corner_spec. Qed.
Example C04_children_partition_ex : covers (NodeIndex 2 [-1; 0; 3]) [-1; 2; 15].
Proof. unfold covers; cbn [height position]. repeat constructor; vm_compute; congruence. Qed.
Print Assumptions C04_children_partition.
Print Assumptions C04_corner_indices.

(* ------------------------------------------------------------------------------------------ *)
(** C05: the last common ancestor height is the smallest height at or above both nodes at which the
    two nodes have the same ancestor. [in_range] says the nodes fit the Morton code (the documented
    non-negative domain). *)
Theorem C05_last_common_ancestor : forall dim n1 n2,
  1 <= dim <= 64 -> Z.of_nat (length (position n1)) = dim -> Z.of_nat (length (position n2)) = dim ->
  in_range dim n1 -> in_range dim n2 ->
  let L := computeLastCommonAncestorHeight dim (nodeIndexToMorton dim n1) (height n1)
                                               (nodeIndexToMorton dim n2) (height n2) in
  height n1 <= L /\ height n2 <= L /\ computeParentIndex n1 L = computeParentIndex n2 L /\
  forall H, height n1 <= H -> height n2 <= H ->
            computeParentIndex n1 H = computeParentIndex n2 H -> L <= H.
Proof. exact lca_positions. Qed.
Example C05_ex :
  in_range 3 (NodeIndex 0 [5; 6; 7]) /\ in_range 3 (NodeIndex 2 [0; 0; 1]) /\
  computeLastCommonAncestorHeight 3 (nodeIndexToMorton 3 (NodeIndex 0 [5; 6; 7])) 0
                                    (nodeIndexToMorton 3 (NodeIndex 2 [0; 0; 1])) 2 = 3.
Proof.
  split; [|split]; [..|vm_compute; reflexivity];
    (split; [cbn; lia|]; cbn [height position]; repeat constructor; vm_compute; congruence).
Qed.
Print Assumptions C05_last_common_ancestor.

(** C05, same statement directly on codes, for all 64 bit codes: the codes agree from height L on
    and at no smaller admissible height. *)
Theorem C05_last_common_ancestor_codes : forall dim m1 h1 m2 h2,
  1 <= dim <= 64 -> 0 <= m1 < 2 ^ 64 -> 0 <= m2 < 2 ^ 64 -> 0 <= h1 -> 0 <= h2 ->
  let L := computeLastCommonAncestorHeight dim m1 h1 m2 h2 in
  h1 <= L /\ h2 <= L /\ Z.shiftr m1 (L * dim) = Z.shiftr m2 (L * dim) /\
  forall H, h1 <= H -> h2 <= H -> Z.shiftr m1 (H * dim) = Z.shiftr m2 (H * dim) -> L <= H.
Proof. exact lca_spec. Qed.
Print Assumptions C05_last_common_ancestor_codes.

(* ------------------------------------------------------------------------------------------ *)
(** C06: shifts and masks are floor, ceiling and Euclidean remainder, for negative inputs too. *)
Theorem C06_div_exp2 : forall v e, 0 <= e ->
  v = 2 ^ e * div_exp2_floor v e + div_exp2_floor_remainder v e /\
  0 <= div_exp2_floor_remainder v e < 2 ^ e /\
  2 ^ e * (div_exp2_ceil v e - 1) < v <= 2 ^ e * div_exp2_ceil v e.
Proof.
  intros v e He. rewrite div_exp2_floor_spec, div_exp2_floor_remainder_spec by assumption.
  pose proof (pow2_pos e He).
  split; [apply Z.div_mod; lia|]. split; [apply Z.mod_pos_bound; lia|].
  exact (div_exp2_ceil_spec v e He).
Qed.
Example C06_div_exp2_ex : div_exp2_floor (-13) 2 = -4 /\ div_exp2_ceil (-13) 2 = -3 /\
                          div_exp2_floor_remainder (-13) 2 = 3.
Proof. repeat split; reflexivity. Qed.
Print Assumptions C06_div_exp2.

(** C06: [log2_floor]/[log2_ceil] for signed and unsigned types of any width: largest k with
    2^k <= x, respectively smallest k with x <= 2^k. *)
Theorem C06_log2 : forall sgn width x, 0 < x < 2 ^ Z.of_nat width ->
  exists f c, log2_floor sgn width x = Some f /\ log2_ceil sgn width x = Some c /\
    2 ^ f <= x < 2 ^ (f + 1) /\ x <= 2 ^ c /\ (forall k, 0 <= k -> x <= 2 ^ k -> c <= k).
Proof.
  intros s w x Hx. exists (Z.log2 x), (Z.log2_up x).
  split; [apply log2_floor_spec; assumption|]. split; [apply log2_ceil_spec; assumption|].
  split; [apply Z.log2_spec; lia|].
  split; [apply Z.log2_log2_up_spec; lia|]. intros k Hk Hxk. apply Z.log2_up_le_pow2; lia.
Qed.
Example C06_log2_ex : log2_floor true 32 1000 = Some 9 /\ log2_ceil true 32 1000 = Some 10 /\
                      log2_ceil false 64 1024 = Some 10.
Proof. repeat split; reflexivity. Qed.
Print Assumptions C06_log2.

(** C06: [is_power_of_two]. *)
Theorem C06_is_power_of_two : forall x, 0 <= x ->
  is_power_of_two x = true <-> exists k, 0 <= k /\ x = 2 ^ k.
Proof. exact is_power_of_two_spec. Qed.
Example C06_is_power_of_two_ex : is_power_of_two 4096 = true /\ is_power_of_two 0 = false /\
                                 is_power_of_two 12 = false.
Proof. repeat split; reflexivity. Qed.
Print Assumptions C06_is_power_of_two.

(** C06: the constant-time node count equals the geometric series 1 + 2^dim + ... + 2^(dim (h-1))
    ([geo], F_IntMath.v) for every height the code admits. *)
Theorem C06_num_total_nodes_fast : forall dim h, 1 <= dim <= 64 -> Z.of_nat h <= 64 / dim - 1 ->
  num_total_nodes_fast dim (Z.of_nat h) = Some (geo (2 ^ dim) h) /\
  num_total_nodes dim (Z.of_nat h) = geo (2 ^ dim) h.
Proof.
  intros dim h Hd Hh. split; [exact (num_total_nodes_fast_spec dim h Hd Hh)|].
  apply num_total_nodes_geo; [lia|]. nia.
Qed.
Example C06_num_total_nodes_ex : num_total_nodes_fast 3 4 = Some 585 /\ geo 8 4 = 1 + 8 + 64 + 512.
Proof. split; vm_compute; reflexivity. Qed.
Print Assumptions C06_num_total_nodes_fast.

(* ------------------------------------------------------------------------------------------ *)
(** C07: linear indices are a bijection between in-range indices and [0, cells_per_side^dim). *)
Theorem C07_linear_index_bijection : forall cells_per_side (dim : nat), 0 < cells_per_side ->
  (forall idx, length idx = dim -> Forall (fun c => 0 <= c < cells_per_side) idx ->
     0 <= indexToLinearIndex cells_per_side idx < cells_per_side ^ Z.of_nat dim /\
     linearIndexToIndex cells_per_side dim (indexToLinearIndex cells_per_side idx) = idx) /\
  (forall lin, 0 <= lin < cells_per_side ^ Z.of_nat dim ->
     length (linearIndexToIndex cells_per_side dim lin) = dim /\
     Forall (fun c => 0 <= c < cells_per_side) (linearIndexToIndex cells_per_side dim lin) /\
     indexToLinearIndex cells_per_side (linearIndexToIndex cells_per_side dim lin) = lin).
Proof.
  intros b dim Hb. split.
  - intros idx <- Hall. split; [exact (linear_range b idx Hb Hall)|exact (linear_roundtrip b idx Hb Hall)].
  - intros lin Hlin. destruct (linear_inverse_range b dim lin Hb) as [H1 H2].
    split; [assumption|]. split; [assumption|]. exact (linear_roundtrip2 b dim lin Hb Hlin).
Qed.
Example C07_ex : indexToLinearIndex 16 [3; 15; 7] = 2035 /\ linearIndexToIndex 16 3 2035 = [3; 15; 7].
Proof. split; vm_compute; reflexivity. Qed.
Print Assumptions C07_linear_index_bijection.
