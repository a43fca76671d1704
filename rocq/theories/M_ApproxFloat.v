(** The approximate arc tangents with IEEE 754 single precision arithmetic (Flocq), rounding to nearest, ties to even:
    /repo/library/cpp/include/wavemap/core/utils/math/approximate_trigonometry.h ("at"). *)
From Coq Require Import ZArith Bool.
From Flocq Require Import Core IEEE754.BinarySingleNaN.
Open Scope Z_scope.

Definition fprec : Z := 24.
Definition femax : Z := 128.
#[global] Instance fprec_pos : Prec_gt_0 fprec. Proof. reflexivity. Qed.
#[global] Instance fprec_emax : Prec_lt_emax fprec femax. Proof. reflexivity. Qed.
(** FloatingPoint is float, /repo/library/cpp/include/wavemap/core/common.h:13 *)
Definition float32 : Set := binary_float fprec femax.
Definition fmul (x y : float32) : float32 := Bmult mode_NE x y.
Definition ffma (x y z : float32) : float32 := Bfma mode_NE x y z.
Definition fdiv (x y : float32) : float32 := Bdiv mode_NE x y.
Definition fadd (x y : float32) : float32 := Bplus mode_NE x y.
Definition fsub (x y : float32) : float32 := Bminus mode_NE x y.
(** The literals of at:25-30, rounded to floats *)
Definition fa1 : float32 := @B754_finite fprec femax false 16776834 (-24) (eq_refl true).
Definition fa3 : float32 := @B754_finite fprec femax true 11160992 (-25) (eq_refl true).
Definition fa5 : float32 := @B754_finite fprec femax false 12988482 (-26) (eq_refl true).
Definition fa7 : float32 := @B754_finite fprec femax true 15627355 (-27) (eq_refl true).
Definition fa9 : float32 := @B754_finite fprec femax false 14134018 (-28) (eq_refl true).
Definition fa11 : float32 := @B754_finite fprec femax true 12585543 (-30) (eq_refl true).
(** kPi and kHalfPi, /repo/library/cpp/include/wavemap/core/utils/data/constants.h:16-18 *)
Definition fkPi : float32 := @B754_finite fprec femax false 13176795 (-22) (eq_refl true).
Definition fkHalfPi : float32 := @B754_finite fprec femax false 13176795 (-23) (eq_refl true).
(** approximate::atan, at:10-41 *)
Definition fatan (x : float32) : float32 :=
  let x_sq := fmul x x in
  let u := ffma x_sq fa11 fa9 in
  let u := ffma x_sq u fa7 in
  let u := ffma x_sq u fa5 in
  let u := ffma x_sq u fa3 in
  let u := ffma x_sq u fa1 in
  fmul x u.
(** std::copysign for a positive first argument *)
Definition fcopysign (m s : float32) : float32 := if Bsign s then Bopp m else m.
(** approximate::atan2, at:43-78 *)
Definition fatan2 (y x : float32) : float32 :=
  let swap := Bltb (Babs x) (Babs y) in
  let atan_input := fdiv (if swap then x else y) (if swap then y else x) in
  let res := fatan atan_input in
  let res := if swap then fsub (fcopysign fkHalfPi atan_input) res else res in
  if Bltb x (B754_zero false) then fadd (fcopysign fkPi y) res else res.
