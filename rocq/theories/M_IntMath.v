(** Model of library/cpp/include/wavemap/core/utils/math/int_math.h and tree_math.h.
    Integers are unbounded [Z]; [int] overflow is not modelled unless stated. *)
From Verif Require Import Base.

(** int_math.h:10-14 [exp2]: [1 << exponent]. *)
Definition exp2 (e : Z) : Z := Z.shiftl 1 e.

(** bit_operations.h:28-34,166-170 [clz] on a [width]-bit word: number of leading zeros.
    [__builtin_clz] is undefined for 0 (guarded by DCHECK): modelled as [None].
    Spelled out as a loop from the most significant bit downwards. *)
Fixpoint clz_loop (n : nat) (x : Z) : Z :=
  match n with
  | O => 0
  | S n' => if Z.testbit x (Z.of_nat n') then 0 else 1 + clz_loop n' x
  end.
Definition clz (width : nat) (x : Z) : option Z :=
  if x =? 0 then None else Some (clz_loop width x).

(** bit_operations.h:156-159 [popcount] on a [width]-bit word. *)
Fixpoint popcount (n : nat) (x : Z) : Z :=
  match n with
  | O => 0
  | S n' => Z.b2z (Z.testbit x (Z.of_nat n')) + popcount n' x
  end.

(** int_math.h:16-25 [log2_floor]. [digits] of a signed [width]-bit type is [width-1],
    of an unsigned one [width]; so both branches compute [width - 1 - clz]. *)
Definition log2_floor (is_signed : bool) (width : nat) (x : Z) : option Z :=
  match clz width x with
  | None => None
  | Some c =>
      if is_signed then Some ((Z.of_nat width - 1) - c) else Some (Z.of_nat width - c - 1)
  end.

(** int_math.h:27-36 [log2_ceil]. *)
Definition log2_ceil (is_signed : bool) (width : nat) (x : Z) : option Z :=
  match log2_floor is_signed width x with
  | None => None
  | Some l => if popcount width x =? 1 then Some l else Some (l + 1)
  end.

(** int_math.h:38-41 [is_power_of_two]. *)
Definition is_power_of_two (x : Z) : bool := negb (x =? 0) && (Z.land x (x - 1) =? 0).

(** int_math.h:43-46 [mult_exp2]. *)
Definition mult_exp2 (v e : Z) : Z := v * exp2 e.
(** int_math.h:48 [div_exp2_floor]: arithmetic right shift. *)
Definition div_exp2_floor (v e : Z) : Z := Z.shiftr v e.
(** int_math.h:50-52 [div_exp2_ceil]. *)
Definition div_exp2_ceil (v e : Z) : Z := Z.shiftr (v + exp2 e - 1) e.
(** int_math.h:54-57 [div_exp2_floor_remainder]: mask with [(1 << e) - 1]. *)
Definition div_exp2_floor_remainder (v e : Z) : Z := Z.land v (Z.shiftl 1 e - 1).

(** int_math.h:89-96 [pow]: repeated multiplication; exponent counts loop iterations. *)
Fixpoint ipow (base : Z) (n : nat) : Z :=
  match n with O => 1 | S n' => ipow base n' * base end.

(** int_math.h:98-107 [pow_sequence]: entry 0 is 1, each following entry is the previous one
    times the base. *)
Fixpoint pow_sequence_from (cur base : Z) (n : nat) : list Z :=
  match n with O => [] | S n' => cur :: pow_sequence_from (cur * base) base n' end.
Definition pow_sequence (base : Z) (dim : nat) : list Z := pow_sequence_from 1 base dim.

(** int_math.h:109-112 [div_round_up]; C++ [/] and [%] truncate toward zero. *)
Definition div_round_up (a b : Z) : Z := Z.quot a b + Z.b2z (negb (Z.rem a b =? 0)).

(** int_math.h:114-121 [factorial]: multiply downwards while [1 < x] (x non-negative here). *)
Fixpoint factorial (x : nat) : Z :=
  match x with
  | O => 1
  | S x' => match x' with O => 1 | S _ => Z.of_nat x * factorial x' end
  end.
(** int_math.h:123-132 [binomial]. *)
Definition binomial (n m : nat) : Z :=
  if (n <? m)%nat then 0
  else if (n =? m)%nat then 1
  else factorial n / (factorial m * factorial (n - m)).

(** tree_math.h:7-10 [num_total_nodes] ([size_t] arithmetic: result reduced mod 2^64). *)
Definition num_total_nodes (dim h : Z) : Z := u64 ((exp2 (dim * h) - 1) / (exp2 dim - 1)).
(** tree_math.h:12-20 [num_total_nodes_fast]: [None] where the DCHECK fails. *)
Definition num_total_nodes_fast (dim h : Z) : option Z :=
  let kMaxHeight := 64 / dim - 1 in
  let kMaxNumNodes := num_total_nodes dim kMaxHeight in
  if (0 <=? h) && (h <=? kMaxHeight)
  then Some (Z.shiftr kMaxNumNodes ((kMaxHeight - h) * dim)) else None.
(** tree_math.h:22-32 [num_inner_nodes], [num_leaf_nodes]. *)
Definition num_inner_nodes (dim h : Z) : Z := num_total_nodes dim (h - 1).
Definition num_leaf_nodes (dim h : Z) : Z := exp2 (dim * (h - 1)).
