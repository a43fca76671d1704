(** Model of library/cpp/include/wavemap/core/utils/bits/bit_operations.h (the parts used by
    Morton encoding) and of utils/bits/morton_encoding.h.
    Words are [Z]; reductions to 64 bits ([u64]) and to [int32_t] ([i32]) are explicit.
    An [Index<dim>] is a list of [dim] integers. *)
From Verif Require Import Base M_IntMath.

(** Intel PDEP, the instruction behind bit_operations.h:37-42 [expand]:
    for m = 0..63, if selector bit m is set, result bit m := source bit k, k := k + 1. *)
Fixpoint pdep_loop (n : nat) (m k src sel dst : Z) : Z :=
  match n with
  | O => dst
  | S n' =>
      if Z.testbit sel m
      then pdep_loop n' (m + 1) (k + 1) src sel
             (if Z.testbit src k then Z.lor dst (Z.shiftl 1 m) else dst)
      else pdep_loop n' (m + 1) k src sel dst
  end.
Definition pdep64 (src sel : Z) : Z := pdep_loop 64 0 0 src sel 0.

(** Intel PEXT, behind bit_operations.h:58-63 [compress]. *)
Fixpoint pext_loop (n : nat) (m k src sel dst : Z) : Z :=
  match n with
  | O => dst
  | S n' =>
      if Z.testbit sel m
      then pext_loop n' (m + 1) (k + 1) src sel
             (if Z.testbit src m then Z.lor dst (Z.shiftl 1 k) else dst)
      else pext_loop n' (m + 1) k src sel dst
  end.
Definition pext64 (src sel : Z) : Z := pext_loop 64 0 0 src sel 0.

(** bit_operations.h:172-188 [repeat_block<uint64_t>]. *)
Definition repeat_block64 (block_width block_contents : Z) : Z :=
  let num_blocks := Z.quot 64 block_width + Z.b2z (negb (Z.rem 64 block_width =? 0)) in
  let contents :=
    if block_width <? 64 then Z.land block_contents (Z.shiftl 1 block_width - 1)
    else block_contents in
  fold_left (fun r idx => Z.lor r (u64 (Z.shiftl contents (Z.of_nat idx * block_width))))
            (seq 0 (Z.to_nat num_blocks)) 0.

(** morton_encoding.h:81,130: [constexpr auto pattern = repeat_block<uint64_t>(dim, 0b1)]. *)
Definition pattern (dim : Z) : Z := repeat_block64 dim 1.

(** morton_encoding.h:79-84 [encode], BIT_EXPAND branch: loop over the coordinates, [d] is
    [dim_idx]. The [int32_t] coordinate is converted to [uint64_t] (sign extension). *)
Fixpoint encode_bmi2_from (dim d : Z) (idx : list Z) (morton : Z) : Z :=
  match idx with
  | [] => morton
  | c :: cs =>
      encode_bmi2_from dim (d + 1) cs
        (Z.lor morton (pdep64 (u64 c) (u64 (Z.shiftl (pattern dim) d))))
  end.
Definition encode_bmi2 (dim : Z) (idx : list Z) : Z := encode_bmi2_from dim 0 idx 0.

(** morton_encoding.h:26-34 [generate_encoder], one table entry. *)
Definition lut_encode (dim byte : Z) : Z :=
  fold_left (fun acc bit_idx =>
               Z.lor acc (Z.shiftl (Z.land (Z.shiftr byte bit_idx) 1) (dim * bit_idx)))
            [0; 1; 2; 3; 4; 5; 6; 7] 0.

(** morton_encoding.h:91-95: inner loop over the coordinates for one byte. *)
Fixpoint encode_lut_byte (dim d shift : Z) (idx : list Z) (morton : Z) : Z :=
  match idx with
  | [] => morton
  | c :: cs =>
      encode_lut_byte dim (d + 1) shift cs
        (Z.lor morton (Z.shiftl (lut_encode dim (Z.land (Z.shiftr c shift) 255)) d))
  end.

(** morton_encoding.h:86-97 [encode], LUT branch: bytes 3..0 of the [int32_t] coordinates.
    The table holds [uint_fast32_t] (64 bit on the supported platforms): no truncation there. *)
Definition encode_lut (dim : Z) (idx : list Z) : Z :=
  fold_left (fun morton byte_idx =>
               encode_lut_byte dim 0 (8 * byte_idx) idx (u64 (Z.shiftl morton (8 * dim))))
            [3; 2; 1; 0] 0.

(** morton_encoding.h:36-44 [generate_decoder], one table entry: bits 0, dim, 2 dim, ... < 8. *)
Definition lut_decode (dim byte : Z) : Z :=
  fold_left (fun acc bit_idx =>
               if bit_idx mod dim =? 0
               then Z.lor acc (Z.shiftl (Z.land (Z.shiftr byte bit_idx) 1) (bit_idx / dim))
               else acc)
            [0; 1; 2; 3; 4; 5; 6; 7] 0.

(** morton_encoding.h:104-119 [decode_coordinate]. The shift of the promoted [int] table entry
    overflows for dim = 1 (undefined behaviour in C++); this model shifts without overflow, so
    theorems about it are stated for dim = 2, 3 only. *)
Definition decode_coordinate_lut (dim morton coordinate_idx : Z) : Z :=
  let kChunkSize := dim * div_round_up 8 dim in
  let kNumBitsPerChunk := kChunkSize / dim in
  let kNumChunks := 64 / kChunkSize in
  i32 (fold_left (fun coordinate chunk =>
         let chunk_idx := Z.of_nat chunk in
         Z.lor coordinate
           (Z.shiftl
              (lut_decode dim
                 (Z.land (Z.shiftr morton (kChunkSize * chunk_idx + coordinate_idx)) 255))
              (kNumBitsPerChunk * chunk_idx)))
       (seq 0 (Z.to_nat kNumChunks)) 0).

(** morton_encoding.h:121-140 [decode], both branches; the result is stored in [int32_t]. *)
Definition decode_bmi2 (dim morton : Z) : list Z :=
  map (fun d => i32 (pext64 morton (u64 (Z.shiftl (pattern dim) (Z.of_nat d)))))
      (seq 0 (Z.to_nat dim)).
Definition decode_lut (dim morton : Z) : list Z :=
  map (fun d => decode_coordinate_lut dim morton (Z.of_nat d)) (seq 0 (Z.to_nat dim)).

(** morton_encoding.h:10-21 limits. [IndexElement] is [int32_t]. *)
Definition kMaxTreeHeight (dim : Z) : Z := 64 / dim - 1.
Definition kMaxSingleCoordinate (dim : Z) : Z :=
  if dim <? 3 then 2 ^ 31 - 1 else 2 ^ kMaxTreeHeight dim - 1.
Definition kMaxMortonIndex (dim : Z) : Z :=
  if dim <? 3 then 2 ^ 64 - 1 else 2 ^ (dim * kMaxTreeHeight dim) - 1.
