(** * The integer helpers in 32-bit ints
    Model of library/cpp/include/wavemap/core/utils/math/int_math.h for T = int, where a result outside the range of int is undefined behaviour: None.
    Products and sums are checked one by one, in the order in which the code computes them ([int_result] of M_IndexInt.v). *)
From Verif Require Import Base M_IntMath M_IndexInt.
Open Scope Z_scope.

Definition ibind {A} (o : option Z) (f : Z -> option A) : option A := match o with Some z => f z | None => None end.
(** int_math.h:43-46 [mult_exp2] *)
Definition mult_exp2_32 (v e : Z) : option Z := int_result (v * exp2 e).
(** int_math.h:50-52 [div_exp2_ceil]: value + exp2(exp), then - 1, then the shift *)
Definition div_exp2_ceil_32 (v e : Z) : option Z := ibind (int_result (v + exp2 e)) (fun s => ibind (int_result (s - 1)) (fun d => Some (Z.shiftr d e))).
(** int_math.h:89-96 [pow]: the loop; [k] iterations are left *)
Fixpoint pow_loop (base : Z) (k : nat) (pow : Z) : option Z :=
  match k with O => Some pow | S k' => ibind (int_result (pow * base)) (pow_loop base k') end.
Definition pow_32 (base exponent : Z) : option Z := pow_loop base (Z.to_nat exponent) 1.
(** int_math.h:109-112 [div_round_up]: the quotient and the sum are ints for the arguments considered here *)
Definition div_round_up_32 (a b : Z) : option Z := ibind (int_result (Z.quot a b)) (fun q => int_result (q + Z.b2z (negb (Z.rem a b =? 0)))).
(** int_math.h:114-121 [factorial]: [for (; 1 < x; --x) result *= x] *)
Fixpoint factorial_loop (x : nat) (result : Z) : option Z :=
  match x with
  | S x' => match x' with O => Some result | S _ => ibind (int_result (result * Z.of_nat x)) (factorial_loop x') end
  | O => Some result
  end.
Definition factorial_32 (x : Z) : option Z := factorial_loop (Z.to_nat x) 1.
(** int_math.h:123-132 [binomial] *)
Definition binomial_32 (n m : Z) : option Z :=
  if n <? m then Some 0 else if n =? m then Some 1 else
  ibind (factorial_32 n) (fun fn => ibind (factorial_32 m) (fun fm => ibind (factorial_32 (n - m)) (fun fd => ibind (int_result (fm * fd)) (fun p => Some (Z.quot fn p))))).
