(** Point queries on a map: utils/query/map_interpolator.h and utils/query/impl/map_interpolator_inl.h (under
    /repo/library/cpp/include/wavemap/core/). The map is any function from cell indices to values (the template
    parameter MapT: only getMinCellWidth() and getCellValue() are used). Exact rationals instead of floats; the
    DCHECKs of lines 39-44 are not modelled (P_Interpolate.v proves the conditions they check). *)
From Verif Require Import Base M_Point.
From Coq Require Import QArith Qround Qabs Lqa.
Close Scope Q_scope.
Open Scope Z_scope.

(** map_interpolator_inl.h:9-16 *)
Definition nearestNeighbor (rnd : Q -> Z) (getCellValue : list Z -> Q) (min_cell_width : Q) (position : list Q) : Q :=
  let cell_width_inv := (1 / min_cell_width)%Q in
  getCellValue (pointToNearestIndex rnd position cell_width_inv).

(** map_interpolator_inl.h:29-30 *)
Definition neighbor_offset (k : Z) : list Z :=
  [Z.land (Z.shiftr k 2) 1; Z.land (Z.shiftr k 1) 1; Z.land k 1].
Fixpoint zadd_l (a b : list Z) : list Z :=
  match a, b with x :: a', y :: b' => (x + y) :: zadd_l a' b' | _, _ => [] end.
(** std::array element access *)
Definition qat (l : list Q) (i : nat) : Q := nth i l 0%Q.
(** map_interpolator_inl.h:38 *)
Definition tri_offset (min_cell_width : Q) (position : list Q) : list Q :=
  let cell_width_inv := (1 / min_cell_width)%Q in
  let min_corner_index := pointToFloorIndex position cell_width_inv in
  map (fun x => (x * cell_width_inv)%Q) (qsub_l position (indexToCenterPoint min_corner_index min_cell_width)).
(** map_interpolator_inl.h:19-65 *)
Definition trilinear (getCellValue : list Z -> Q) (min_cell_width : Q) (position : list Q) : Q :=
  let cell_width_inv := (1 / min_cell_width)%Q in
  let min_corner_index := pointToFloorIndex position cell_width_inv in
  (* lines 27-32 *)
  let cube := map (fun k => getCellValue (zadd_l min_corner_index (neighbor_offset (Z.of_nat k)))) (seq 0 8) in
  (* lines 35-42 *)
  let a := tri_offset min_cell_width position in
  let a_comp := map (fun x => (1 - x)%Q) a in
  (* lines 48-52 *)
  let plane := map (fun c => (qat a_comp 0 * qat cube c + qat a 0 * qat cube (c + 4))%Q) (seq 0 4) in
  (* lines 56-60 *)
  let line := map (fun s => (qat a_comp 1 * qat plane s + qat a 1 * qat plane (s + 2))%Q) (seq 0 2) in
  (* line 64 *)
  (qat a_comp 2 * qat line 0 + qat a 2 * qat line 1)%Q.
