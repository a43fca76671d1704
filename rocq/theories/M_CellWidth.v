(** Conversion between cell widths and node heights in single precision:
    /repo/library/cpp/include/wavemap/core/indexing/index_conversions.h ("ic") and the Python functions on top of it,
    /repo/library/python/src/convert.cc ("py"). [flog2] is std::log2 for floats. *)
From Verif Require Import Base M_IntMath M_ApproxFloat M_FloatIndex.
From Coq Require Import QArith Qround.
Close Scope Q_scope.
Open Scope Z_scope.
Section CELL_WIDTH.
Context (flog2 : float32 -> float32).
(** cellWidthToHeight, ic:80-83; the cast of the result to an integer is undefined for NaN and infinities, here it gives 0 *)
Definition fcellWidthToHeight (cell_width min_cell_width_inv : float32) : Z := Qceiling (f2q (flog2 (fmul cell_width min_cell_width_inv))).
(** cell_width_to_height, py:10-14 *)
Definition cell_width_to_height (cell_width min_cell_width : float32) : Z := fcellWidthToHeight cell_width (fdiv fone min_cell_width).
(** height_to_cell_width, py:22 *)
Definition height_to_cell_width (min_cell_width : float32) (height : Z) : float32 := fheightToCellWidth min_cell_width height.
End CELL_WIDTH.
