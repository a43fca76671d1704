(** Conversions between points and indices with IEEE 754 single precision arithmetic (Flocq), rounding to nearest, ties to even:
    /repo/library/cpp/include/wavemap/core/indexing/index_conversions.h ("ic"). The exact versions are in M_Point.v. *)
From Verif Require Import Base M_IntMath M_NdtreeIndex M_Point M_ApproxFloat.
From Coq Require Import QArith Qround.
From Flocq Require Import Core IEEE754.BinarySingleNaN.
Close Scope R_scope.
Close Scope Q_scope.
Open Scope Z_scope.

(** The literals 1.f and 0.5f *)
Definition fone : float32 := @B754_finite fprec femax false 8388608 (-23) (eq_refl true).
Definition fhalf : float32 := @B754_finite fprec femax false 8388608 (-24) (eq_refl true).
(** static_cast<FloatingPoint>(int), Eigen's cast<FloatingPoint>() *)
Definition f_of_int (i : Z) : float32 := binary_normalize fprec femax fprec_pos fprec_emax mode_NE i 0 false.
(** The number that a finite float denotes (casting a NaN or an infinity to int is undefined; here it is 0) *)
Definition f2q (x : float32) : Q :=
  match x with
  | B754_finite s m e _ =>
      let v := if 0 <=? e then inject_Z (Z.pos m * 2 ^ e) else (Z.pos m # Z.to_pos (2 ^ (- e)))%Q in
      if s then (- v)%Q else v
  | _ => 0%Q
  end.
(** [point * cell_width_inv - 0.5f], ic:18, 23, 28, 34, 40 and 46. With [fma] the compiler contracts the two operations into a fused
    multiply-add (as GCC does by default on targets that have it), otherwise both round. *)
Definition scaled_minus_half (fma : bool) (x w_inv : float32) : float32 :=
  if fma then ffma x w_inv (Bopp fhalf) else fsub (fmul x w_inv) fhalf.
(** pointToNearestIndex, ic:16-19, 31-35; [rnd] is the rounding of Eigen's round() *)
Definition fpointToNearestIndex (fma : bool) (rnd : Q -> Z) (p : list float32) (w_inv : float32) : list Z :=
  map (fun x => rnd (f2q (scaled_minus_half fma x w_inv))) p.
(** pointToFloorIndex, ic:21-24, 37-41 *)
Definition fpointToFloorIndex (fma : bool) (p : list float32) (w_inv : float32) : list Z :=
  map (fun x => Qfloor (f2q (scaled_minus_half fma x w_inv))) p.
(** pointToCeilIndex, ic:26-29, 43-47 *)
Definition fpointToCeilIndex (fma : bool) (p : list float32) (w_inv : float32) : list Z :=
  map (fun x => Qceiling (f2q (scaled_minus_half fma x w_inv))) p.
(** indexToMinCorner, ic:49-53 *)
Definition findexToMinCorner (i : list Z) (w : float32) : list float32 := map (fun c => fmul (f_of_int c) w) i.
(** indexToMaxCorner, ic:55-59 *)
Definition findexToMaxCorner (i : list Z) (w : float32) : list float32 := map (fun c => fmul (fadd (f_of_int c) fone) w) i.
(** indexToCenterPoint, ic:61-65 *)
Definition findexToCenterPoint (i : list Z) (w : float32) : list float32 := map (fun c => fmul (fadd (f_of_int c) fhalf) w) i.
(** heightToCellWidth, ic:75-78 *)
Definition fheightToCellWidth (min_w : float32) (h : Z) : float32 := fmul min_w (f_of_int (exp2 h)).
(** pointToNodeIndex, ic:108-116 *)
Definition fpointToNodeIndex (fma : bool) (rnd : Q -> Z) (p : list float32) (min_w : float32) (h : Z) : node_index :=
  NodeIndex h (fpointToNearestIndex fma rnd p (fdiv fone (fheightToCellWidth min_w h))).
(** nodeIndexToCenterPoint, ic:118-124; nodeIndexToMinCorner, ic:126-132; nodeIndexToMaxCorner, ic:134-140 *)
Definition fnodeIndexToCenterPoint (n : node_index) (min_w : float32) : list float32 :=
  findexToCenterPoint (position n) (fheightToCellWidth min_w (height n)).
Definition fnodeIndexToMinCorner (n : node_index) (min_w : float32) : list float32 :=
  findexToMinCorner (position n) (fheightToCellWidth min_w (height n)).
Definition fnodeIndexToMaxCorner (n : node_index) (min_w : float32) : list float32 :=
  findexToMaxCorner (position n) (fheightToCellWidth min_w (height n)).
