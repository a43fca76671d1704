(** Haar transform.
    /repo/library/cpp/include/wavemap/core/map/cell_types/{haar_coefficients.h,haar_transform.h,
    impl/haar_transform_inl.h}. Arrays of 2^dim coefficients are functions [Z -> V]; only the entries
    0 .. 2^dim - 1 are meaningful. *)
From Verif Require Import Base M_IntMath M_Num.

(** bit_ops::squeeze_in, utils/bits/bit_operations.h:148-154 *)
Definition squeeze_in (bits : Z) (bit : bool) (pos : Z) : Z :=
  let mask := Z.shiftl 1 pos - 1 in
  let lower := Z.land bits mask in
  let upper := Z.land bits (Z.lnot mask) in
  Z.lor (Z.lor (Z.shiftl upper 1) (Z.shiftl (Z.b2z bit) pos)) lower.

(** bit_ops::parity on a 32 bit word, utils/bits/bit_operations.h:161-164 (__builtin_parity) *)
Definition parity (x : Z) : bool := Z.odd (popcount 32 x).

(** Array element write *)
Definition upd {V} (a : Z -> V) (i : Z) (v : V) : Z -> V := fun j => if j =? i then v else a j.

(** for (idx = 0; idx < n; ++idx) *)
Definition zseq (n : Z) : list Z := map Z.of_nat (seq 0 (Z.to_nat n)).

Section Haar.
Context {V : Type} (N : num V) (dim : Z).

(** kNumBeams = exp2(dim - 1), haar_transform_inl.h:15 *)
Definition beams : list Z := zseq (exp2 (dim - 1)).

(** ForwardLifted, first loop body (axis 0, data moved from [c] to [a]), haar_transform_inl.h:17-25 *)
Definition fwd_beam0 (c a : Z -> V) (beam : Z) : Z -> V :=
  let s := squeeze_in beam false 0 in
  let d := squeeze_in beam true 0 in
  let a1 := upd a d (nsub N (c d) (c s)) in
  upd a1 s (nadd N (c s) (nhalf N (a1 d))).

(** ForwardLifted, in-place loop body, haar_transform_inl.h:28-36 *)
Definition fwd_beam (axis : Z) (a : Z -> V) (beam : Z) : Z -> V :=
  let s := squeeze_in beam false axis in
  let d := squeeze_in beam true axis in
  let a1 := upd a d (nsub N (a d) (a s)) in
  upd a1 s (nadd N (a1 s) (nhalf N (a1 d))).

(** ForwardLifted, haar_transform_inl.h:8-40. The uninitialised result array is modelled by zeros. *)
Definition ForwardLifted (c : Z -> V) : Z -> V :=
  let a0 := fold_left (fwd_beam0 c) beams (fun _ => n0 N) in
  fold_left (fun a axis => fold_left (fwd_beam axis) beams a) (map (Z.add 1) (zseq (dim - 1))) a0.

(** ForwardParallel, haar_transform_inl.h:42-66 *)
Definition ForwardParallel (c : Z -> V) : Z -> V := fun p =>
  ndiv2 N (fold_left (fun acc ch => nadd N acc (if parity (Z.land p (Z.lnot ch)) then nopp N (c ch) else c ch))
                     (zseq (exp2 dim)) (n0 N))
          (dim - popcount 32 p).

(** ForwardSingleChild, haar_transform_inl.h:68-85 *)
Definition ForwardSingleChild (x : V) (ch : Z) : Z -> V := fun p =>
  ndiv2 N (if parity (Z.land p (Z.lnot ch)) then nopp N x else x) (dim - popcount 32 p).

(** BackwardLifted, first loop body, haar_transform_inl.h:95-101 *)
Definition bwd_beam0 (p a : Z -> V) (beam : Z) : Z -> V :=
  let s := squeeze_in beam false 0 in
  let d := squeeze_in beam true 0 in
  let a1 := upd a s (nsub N (p s) (nhalf N (p d))) in
  upd a1 d (nadd N (p d) (a1 s)).

(** BackwardLifted, in-place loop body, haar_transform_inl.h:103-113 *)
Definition bwd_beam (axis : Z) (a : Z -> V) (beam : Z) : Z -> V :=
  let s := squeeze_in beam false axis in
  let d := squeeze_in beam true axis in
  let a1 := upd a s (nsub N (a s) (nhalf N (a d))) in
  upd a1 d (nadd N (a1 d) (a1 s)).

(** BackwardLifted, haar_transform_inl.h:87-116. The uninitialised array is modelled by zeros. *)
Definition BackwardLifted (p : Z -> V) : Z -> V :=
  let a0 := fold_left (bwd_beam0 p) beams (fun _ => n0 N) in
  fold_left (fun a axis => fold_left (bwd_beam axis) beams a) (map (Z.add 1) (zseq (dim - 1))) a0.

(** BackwardSingleChild, haar_transform_inl.h:141-158. Entry 0 of [p] is the scale and entry i the
    detail i-1 (haar_coefficients.h:91-96). *)
Definition BackwardSingleChild (p : Z -> V) (ch : Z) : V :=
  fold_left (fun acc i =>
      let contribution := ndiv2 N (p i) (popcount 32 i) in
      nadd N acc (if parity (Z.land (Z.lnot ch) i) then nopp N contribution else contribution))
    (map (Z.add 1) (zseq (exp2 dim - 1))) (p 0).

(** BackwardParallel, haar_transform_inl.h:118-139: each entry starts at 0, adds the scale and then
    the same contributions as BackwardSingleChild. *)
Definition BackwardParallel (p : Z -> V) : Z -> V := fun ch =>
  fold_left (fun acc i =>
      let contribution := ndiv2 N (p i) (popcount 32 i) in
      nadd N acc (if parity (Z.land (Z.lnot ch) i) then nopp N contribution else contribution))
    (map (Z.add 1) (zseq (exp2 dim - 1))) (nadd N (n0 N) (p 0)).
End Haar.
