(** Model of library/cpp/include/wavemap/core/indexing/ndtree_index.h (+ impl/ndtree_index_inl.h)
    and of the integer part of indexing/index_conversions.h.
    A [Position] is a list of [dim] integers (unbounded, no int32 overflow). *)
From Verif Require Import Base M_IntMath M_Morton.

(** ndtree_index.h:16-34: members [height] and [position]. *)
Record node_index := NodeIndex { height : Z; position : list Z }.

(** ndtree_index_inl.h:13-16. *)
Definition computeParentIndex1 (n : node_index) : node_index :=
  NodeIndex (height n + 1) (map (fun c => div_exp2_floor c 1) (position n)).
(** ndtree_index_inl.h:18-24; [None] where DCHECK_GE(parent_height, height) fails
    (a negative shift, undefined behaviour in a release build). *)
Definition computeParentIndex (n : node_index) (parent_height : Z) : option node_index :=
  if height n <=? parent_height
  then Some (NodeIndex parent_height
               (map (fun c => div_exp2_floor c (parent_height - height n)) (position n)))
  else None.
(** ndtree_index_inl.h:37-40: add [(relative_child_index >> i) & 1] to coordinate i of the doubled
    position. *)
Fixpoint add_child_offset (i rel : Z) (pos : list Z) : list Z :=
  match pos with
  | [] => []
  | c :: cs => (c * 2 + Z.land (Z.shiftr rel i) 1) :: add_child_offset (i + 1) rel cs
  end.
(** ndtree_index_inl.h:26-43. *)
Definition computeChildIndex (n : node_index) (rel : Z) : node_index :=
  NodeIndex (height n - 1) (add_child_offset 0 rel (position n)).
(** ndtree_index_inl.h:45-54: all [2^dim] children in order. *)
Definition computeChildIndices (dim : Z) (n : node_index) : list node_index :=
  map (fun k => computeChildIndex n (Z.of_nat k)) (seq 0 (Z.to_nat (exp2 dim))).
(** ndtree_index_inl.h:56-63 [computeRelativeChildIndex() const] ([uint8_t] accumulator; no overflow
    for dim <= 8). *)
Fixpoint relative_child_from (i : Z) (pos : list Z) : Z :=
  match pos with
  | [] => 0
  | c :: cs => Z.shiftl (Z.land c 1) i + relative_child_from (i + 1) cs
  end.
Definition computeRelativeChildIndex (n : node_index) : Z := relative_child_from 0 (position n).
(** ndtree_index_inl.h:65-71 [computeRelativeChildIndex(morton, parent_height)]. *)
Definition relativeChildIndexFromMorton (dim morton parent_height : Z) : Z :=
  Z.land (Z.shiftr morton ((parent_height - 1) * dim)) (Z.shiftl 1 dim - 1).
(** ndtree_index_inl.h:73-93. *)
Definition computeLastCommonAncestorHeight (dim m1 h1 m2 h2 : Z) : Z :=
  let max_height := Z.max h1 h2 in
  if m1 =? m2 then max_height
  else
    match clz 64 (Z.lxor m1 m2) with
    | None => max_height (* unreachable: the codes differ *)
    | Some c => Z.max max_height (div_round_up (64 - c) dim)
    end.
(** ndtree_index_inl.h:95-103. *)
Definition computeLevelTraversalDistance (dim morton parent_height child_height : Z) : Z :=
  Z.land (Z.shiftr morton (child_height * dim)) (u64 (Z.shiftl 1 ((parent_height - child_height) * dim)) - 1).
(** ndtree_index_inl.h:105-115. *)
Definition computeTreeTraversalDistance (dim morton parent_height child_height : Z) : option Z :=
  match num_total_nodes_fast dim (parent_height - child_height) with
  | None => None
  | Some first => Some (first + computeLevelTraversalDistance dim morton parent_height child_height)
  end.

(** index_conversions.h:154-161. *)
Definition indexAndHeightToNodeIndex (idx : list Z) (h : Z) : node_index :=
  NodeIndex h (map (fun c => div_exp2_floor c h) idx).
(** index_conversions.h:163-170. *)
Definition nodeIndexToMinCornerIndex (n : node_index) : list Z :=
  map (fun c => mult_exp2 c (height n)) (position n).
(** index_conversions.h:172-180. *)
Definition nodeIndexToMaxCornerIndex (n : node_index) : list Z :=
  map (fun c => c + (exp2 (height n) - 1)) (nodeIndexToMinCornerIndex n).
(** index_conversions.h:182-196 (the BMI2 encoder; equal to the LUT one by [encode_lut_eq_bmi2]). *)
Definition nodeIndexToMorton (dim : Z) (n : node_index) : Z :=
  u64 (Z.shiftl (encode_bmi2 dim (position n)) (height n * dim)).

(** index_conversions.h:85-93 [indexToLinearIndex]: inner product with the power sequence. *)
Fixpoint inner_product (a b : list Z) : Z :=
  match a, b with
  | x :: a', y :: b' => x * y + inner_product a' b'
  | _, _ => 0
  end.
Definition indexToLinearIndex (cells_per_side : Z) (idx : list Z) : Z :=
  inner_product (pow_sequence cells_per_side (length idx)) idx.
(** index_conversions.h:95-106 [linearIndexToIndex]. *)
Definition linearIndexToIndex (cells_per_side : Z) (dim : nat) (lin : Z) : list Z :=
  map (fun p => (lin / p) mod cells_per_side) (pow_sequence cells_per_side dim).
