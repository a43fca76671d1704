(** * Indices of the hashed maps in 32-bit ints
    The products and sums that HashedBlocks, HashedWaveletOctree and HashedChunkedWaveletOctree compute from indices, with the range of int. The block and
    the cell of an index are obtained by a shift to the right and a mask (int_math.h:48,54-57), which stay in the range. *)
From Verif Require Import Base M_IntMath M_NdtreeIndex M_Num M_Haar3 M_Ndtree M_Wavelet M_IndexInt.
Open Scope Z_scope.

Definition bind_index (o : option idx3) (f : idx3 -> option idx3) : option idx3 := match o with Some i => f i | None => None end.
(** hashed_blocks.cc:4-6, hashed_wavelet_octree.cc:63-65, hashed_chunked_wavelet_octree.cc:64-66 [getMinIndex]; blocks of 2^T cells per side *)
Definition min_index_int {B} (T : Z) (m : shash B) : option idx3 := index_result (fun c => exp2 T * c) (getMinBlockIndex m).
(** hashed_blocks.cc:8-13, hashed_wavelet_octree.cc:67-72, hashed_chunked_wavelet_octree.cc:68-73 [getMaxIndex]: add 1, multiply, subtract 1 *)
Definition max_index_int {B} (T : Z) (m : shash B) : option idx3 :=
  match m with
  | [] => Some (I3 0 0 0)
  | _ => bind_index (index_result (fun c => c + 1) (getMaxBlockIndex m)) (fun i => bind_index (index_result (fun c => exp2 T * c) i) (index_result (fun c => c - 1)))
  end.
(** impl/hashed_wavelet_octree_inl.h:27-36,97-101 [getCellValue(OctreeIndex)]: the block is that of the node's smallest cell,
    index_conversions.h:163-170 [nodeIndexToMinCornerIndex] *)
Definition hw_get_node_int {V} (N : M_Num.num V) (C : wconfig (V := V)) (m : hmap) (i : oidx) : option V :=
  option_map (fun c => match getBlock m (indexToBlockIndex3 c (cT C)) with None => n0 N | Some b => wb_get N C b (hw_cellIndex C i) end)
    (index_result (fun c => mult_exp2 c (oh i)) (opos i)).
