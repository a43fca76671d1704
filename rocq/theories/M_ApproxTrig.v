(** The approximate arc tangents over the real numbers: /repo/library/cpp/include/wavemap/core/utils/math/approximate_trigonometry.h ("at").
    The coefficients and constants are those of the rational version in M_Intersector.v (the floats); the operations are exact. *)
From Verif Require Import M_Intersector.
From Coq Require Import Reals QArith Qreals.
Close Scope Q_scope.
Open Scope R_scope.

(** approximate::atan, at:10-41 *)
Definition Rapprox_atan (x : R) : R :=
  let x2 := x * x in
  let u := x2 * Q2R (- (12585543 # 1073741824)) + Q2R (7067009 # 134217728) in
  let u := x2 * u + Q2R (- (15627355 # 134217728)) in
  let u := x2 * u + Q2R (6494241 # 33554432) in
  let u := x2 * u + Q2R (- (348781 # 1048576)) in
  let u := x2 * u + Q2R (8388417 # 8388608) in
  x * u.
(** kPi, kHalfPi as floats, /repo/library/cpp/include/wavemap/core/utils/data/constants.h:16-18; std::copysign *)
Definition RkPi : R := Q2R kPi.
Definition RkHalfPi : R := Q2R kHalfPi.
Definition Rcopysign (m : R) (s : bool) : R := if s then - m else m.
(** kWorstCaseError, at:44, as a float *)
Definition kWorstCaseError : R := Q2R (8391473 # 4398046511104).
(** approximate::atan2, at:43-78, with the sign bits of y and x *)
Definition Rapprox_atan2_signed (sy sx : bool) (y x : R) : R :=
  let swap := if Rlt_dec (Rabs x) (Rabs y) then true else false in
  let a := (if swap then x else y) / (if swap then y else x) in
  let sa := xorb sy sx in
  let res := Rapprox_atan a in
  let res := if swap then Rcopysign RkHalfPi sa - res else res in
  if Rlt_dec x 0 then Rcopysign RkPi sy + res else res.
(** ... for numbers whose zeros are positive *)
Definition Rsignbit (x : R) : bool := if Rlt_dec x 0 then true else false.
Definition Rapprox_atan2 (y x : R) : R := Rapprox_atan2_signed (Rsignbit y) (Rsignbit x) y x.
