(** Single precision as a number type of the map models: FloatingPoint = float, /repo/library/cpp/include/wavemap/core/common.h:18, with
    Flocq's IEEE 754 arithmetic, rounding to nearest, ties to even. A compiler may contract [a + 0.5f * d] into a fused multiply-add;
    since halving and the divisions by 2, 4 and 8 of the Haar transform only round when the result is subnormal, this changes results by
    less than 2^-149 and is not modelled separately. *)
From Verif Require Import Base M_Num M_Ndtree M_Wavelet M_ApproxFloat M_FloatIndex.
From Flocq Require Import Core IEEE754.BinarySingleNaN.
Close Scope R_scope.
Open Scope Z_scope.

(** The literal 1e-3f *)
Definition f32eps : float32 := @B754_finite fprec femax false 8589935 (-33) (eq_refl true).
Definition f32n : num float32 :=
  MkNum float32 (B754_zero false) fadd fsub Bopp (fun x => fmul fhalf x) (fun x k => fdiv x (f_of_int (2 ^ k))) Bltb Beqb Babs f32eps.

(** Histories of calls on a HashedWaveletOctree,
    /repo/library/cpp/include/wavemap/core/map/hashed_wavelet_octree.h:77-108, each made at some time (Time::now() during the call).
    setCellValue and pruneSmart are left out here (exact arithmetic: M_WavHist.v). *)
Inductive fcall := FAdd (i : idx3) (u : float32) | FThreshold | FPrune | FClear.
Definition fhw_apply (C : wconfig (V := float32)) (m : shash (wblock (V := float32))) (tc : Z * fcall) : shash (wblock (V := float32)) :=
  let '(now, c) := tc in
  match c with
  | FAdd i u => hw_add f32n C now m i u
  | FThreshold => hw_threshold f32n C m
  | FPrune => hw_prune f32n C m
  | FClear => hw_clear m
  end.
Definition fhw_run (C : wconfig (V := float32)) (l : list (Z * fcall)) : shash (wblock (V := float32)) := fold_left (fhw_apply C) l [].
