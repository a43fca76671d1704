(** The word level functions of /repo/library/cpp/include/wavemap/core/utils/bits/bit_operations.h that the
    other model files do not need. Words of type T have [W] bits and are represented by their value as an
    unsigned number, 0 .. 2^W - 1 (that is bit_cast_unsigned, bit_operations.h:90-97); a result of a signed T
    is given by its bits as well. Operands narrower than int are promoted to int (32 bits) by C++.
    [None] is undefined behaviour: a shift by a negative amount or by at least the width of the (promoted)
    operand. popcount, parity, clz, expand and compress are in M_IntMath, M_Haar and M_Morton. *)
From Verif Require Import Base M_IntMath.

(** Width of the type in which arithmetic on a W-bit operand happens. *)
Definition promoted (W : Z) : Z := Z.max 32 W.
(** A shift by [s] of an operand of [W] bits is defined. *)
Definition shift_ok (W s : Z) : bool := (0 <=? s) && (s <? promoted W).

(** is_bit_set, bit_operations.h:108-111 *)
Definition is_bit_set (W x i : Z) : option bool :=
  if shift_ok W i then Some (negb (Z.land (Z.shiftr x i) 1 =? 0)) else None.
(** set_bit(bitstring, bit_index), bit_operations.h:113-116; the result is stored in a W-bit word *)
Definition set_bit (W x i : Z) : option Z :=
  if shift_ok W i then Some (Z.lor x (Z.shiftl 1 i) mod 2 ^ W) else None.
(** unset_bit, bit_operations.h:118-121 *)
Definition unset_bit (W x i : Z) : option Z :=
  if shift_ok W i then Some (Z.land x (Z.lnot (Z.shiftl 1 i)) mod 2 ^ W) else None.
(** set_bit(bitstring, bit_index, value), bit_operations.h:123-126 *)
Definition set_bit_to (W x i : Z) (v : bool) : option Z :=
  match unset_bit W x i with
  | Some y => Some (Z.lor y (Z.shiftl (Z.b2z v) i) mod 2 ^ W)
  | None => None
  end.

(** The mask of rotate_left and rotate_right, bit_operations.h:131,141. [~std::make_unsigned_t<T>{}] is the int
    -1 if T is narrower than int (its right shifts stay -1), otherwise the all-ones word of T. *)
Definition rotate_mask (W width : Z) : Z := if W <? 32 then -1 else Z.shiftr (2 ^ W - 1) (W - width).
(** rotate_left, bit_operations.h:128-136. The left shift happens in the promoted type. *)
Definition rotate_left (W width x s : Z) : option Z :=
  let r := Z.land x (rotate_mask W width) in
  if shift_ok W s && shift_ok W (width - s)
  then Some (Z.land (Z.lor (Z.shiftl r s mod 2 ^ promoted W) (Z.shiftr r (width - s))) (rotate_mask W width) mod 2 ^ W)
  else None.
(** rotate_right, bit_operations.h:138-146 *)
Definition rotate_right (W width x s : Z) : option Z :=
  let r := Z.land x (rotate_mask W width) in
  if shift_ok W s && shift_ok W (width - s)
  then Some (Z.land (Z.lor (Z.shiftr r s) (Z.shiftl r (width - s) mod 2 ^ promoted W)) (rotate_mask W width) mod 2 ^ W)
  else None.

(** squeeze_in on W-bit words, bit_operations.h:148-154. The mask is computed in int: [1 << position] for
    position = 31 is the smallest int, and subtracting 1 overflows. *)
Definition squeeze_in_word (W x : Z) (bit : bool) (pos : Z) : option Z :=
  if (0 <=? pos) && (pos <? 31) then
    let mask := Z.shiftl 1 pos - 1 in
    let lower := Z.land x mask in
    let upper := Z.land x (Z.lnot mask) in
    Some (Z.lor (Z.lor (Z.shiftl upper 1 mod 2 ^ promoted W) (Z.shiftl (Z.b2z bit) pos)) lower mod 2 ^ W)
  else None.

(** repeat_block for an unsigned T of at least 32 bits, bit_operations.h:172-188; a block width of zero divides
    by zero, a negative one is not considered *)
Definition repeat_block (W block_width block_contents : Z) : option Z :=
  if 0 <? block_width then
    let num_blocks := W / block_width + Z.b2z (negb (W mod block_width =? 0)) in
    let contents :=
      if block_width <? W then Z.land block_contents (Z.shiftl 1 block_width - 1) else block_contents in
    Some (fold_left (fun r idx => Z.lor r (Z.shiftl contents (Z.of_nat idx * block_width) mod 2 ^ W))
                    (seq 0 (Z.to_nat num_blocks)) 0)
  else None.
