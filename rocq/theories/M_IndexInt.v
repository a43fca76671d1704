(** * Octree indices in 32-bit ints
    The conversion between the indices of the user and those inside the octree maps of bounded size, with the range of int: common.h:25 [IndexElement].
    A signed addition or subtraction whose result is not an int is undefined behaviour: None. *)
From Verif Require Import Base M_IntMath M_NdtreeIndex M_Num M_Haar3 M_Ndtree M_Wavelet M_Octree M_VolOctree.
Open Scope Z_scope.

(** The result of an operation on ints *)
Definition int_result (z : Z) : option Z := if (int_min <=? z) && (z <=? int_max) then Some z else None.
(** Eigen's coefficient-wise operations on Index3D *)
Definition index_result (f : Z -> Z) (i : idx3) : option idx3 :=
  match int_result (f (px i)), int_result (f (py i)), int_result (f (pz i)) with Some x, Some y, Some z => Some (I3 x y z) | _, _, _ => None end.
(** wavelet_octree.h:121-130, volumetric_octree.h:107-116 [toInternal]; the offset 2^(tree_height-1) itself is an int for the heights that the
    constructor of Ndtree accepts (impl/ndtree_inl.h:16: at most kMaxTreeHeight = 21). *)
Definition toInternal_int (T : Z) (i : oidx) : option oidx := option_map (OI (oh i)) (index_result (fun c => c + wo_offset T (oh i)) (opos i)).
(** wavelet_octree.h:134-139, volumetric_octree.h:120-125 [toExternalNodeIndex] *)
Definition toExternal_int (T : Z) (i : oidx) : option oidx := option_map (OI (oh i)) (index_result (fun c => c - wo_offset T (oh i)) (opos i)).
Section INT.
Context {V : Type} (N : M_Num.num V).
(** impl/wavelet_octree_inl.h:50-148 [getCellValue], [setCellValue], [addToCellValue]: the index is converted first. *)
Definition wo_get_int (C : wconfig (V := V)) (t : wtree) (i : oidx) : option V := option_map (wt_get N (cT C) t) (toInternal_int (cT C) i).
Definition wo_set_int (C : wconfig (V := V)) (t : wtree) (i : oidx) (v : V) : option wtree := option_map (fun j => wt_set N (cT C) t j v) (toInternal_int (cT C) i).
Definition wo_add_int (C : wconfig (V := V)) (t : wtree) (i : oidx) (u : V) : option wtree := option_map (fun j => wt_add N (cT C) t j u) (toInternal_int (cT C) i).
(** impl/volumetric_octree_inl.h:29-80 [getCellValue], [setCellValue], [addToCellValue] *)
Definition vo_get_int (C : wconfig (V := V)) t (c : idx3) : option V :=
  option_map (fun j => ndata (fst (nd_getNodeOrAncestor (cT C) t j))) (toInternal_int (cT C) (OI 0 c)).
Definition vo_set_int (C : wconfig (V := V)) t (i : oidx) (v : V) := option_map (fun j => nd_alloc_data (cT C) (n0 N) t j (fun _ => v)) (toInternal_int (cT C) i).
Definition vo_add_int (C : wconfig (V := V)) t (i : oidx) (u : V) := option_map (fun j => nd_alloc_data (cT C) (n0 N) t j (fun v => nadd N v u)) (toInternal_int (cT C) i).
End INT.
