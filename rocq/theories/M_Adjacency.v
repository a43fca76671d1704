(** Grid and n-d tree adjacency: /repo/library/cpp/include/wavemap/core/utils/neighbors/ adjacency.h,
    grid_adjacency.h, grid_neighborhood.h, ndtree_adjacency.h and their impl/ files. Index<dim> is the list of
    its components; the dimension is the length of the list. *)
From Verif Require Import Base M_IntMath M_NdtreeIndex M_Grid.

(** Adjacency::Id, adjacency.h:12-20 *)
Definition kSharedVertex := 0.
Definition kSharedEdge := 1.
Definition kSharedFace := 2.
Definition kSharedCube := 3.
Definition kAnyDisjoint := 4.
Definition kAny := 5.
Definition kNone := 6.
(** Adjacency::toMask (uint8_t), impl/adjacency_inl.h:5-20 *)
Definition toMask (dim : Z) (id : Z) : Z :=
  if (0 <=? id) && (id <=? 3) then Z.shiftl 1 id
  else if id =? kAnyDisjoint then Z.shiftl 1 dim - 1
  else if id =? kAny then 255
  else 0.
Definition zsum (l : list Z) : Z := fold_right Z.add 0 l.
(** computeAdjacency(index_offset), impl/grid_adjacency_inl.h:14-23 *)
Definition computeAdjacency (o : list Z) : Z :=
  let a := map Z.abs o in
  if existsb (fun c => 1 <? c) a then kNone else Z.of_nat (length o) - zsum a.
(** isAdjacent(offset, mask), impl/grid_adjacency_inl.h:43-48 *)
Definition isAdjacentMask (o : list Z) (mask : Z) : bool :=
  negb (Z.land (toMask (Z.of_nat (length o)) (computeAdjacency o)) mask =? 0).
(** isAdjacent(offset, id), impl/grid_adjacency_inl.h:31-35 *)
Definition isAdjacent (o : list Z) (id : Z) : bool := isAdjacentMask o (toMask (Z.of_nat (length o)) id).
(** index_1 - index_2 *)
Fixpoint vsub (a b : list Z) : list Z := match a, b with x :: a', y :: b' => x - y :: vsub a' b' | _, _ => [] end.
(** areAdjacent(index_1, index_2, id), impl/grid_adjacency_inl.h:25-29 with 37-41 *)
Definition areAdjacent (a b : list Z) (id : Z) : bool := isAdjacentMask (vsub a b) (toMask (Z.of_nat (length (vsub a b))) id).

(** GridNeighborhood::numNeighbors, impl/grid_neighborhood_inl.h:8-21 *)
Definition numNeighbors (dim : nat) (id : Z) : Z :=
  let mask := toMask (Z.of_nat dim) id in
  fold_left (fun n k => if Z.testbit mask (Z.of_nat k) then n + exp2 (Z.of_nat (dim - k)) * binomial dim k else n)
    (seq 0 (S dim)) 0.
(** GridNeighborhood::generateIndexOffsets, impl/grid_neighborhood_inl.h:23-41: the offsets written into the
    array, in order ([None]: the grid iteration does not end within the fuel 3^dim). The array has
    numNeighbors elements, so one element more would be written out of bounds. *)
Definition generateIndexOffsets (dim : nat) (id : Z) : option (list (list Z)) :=
  option_map (filter (fun o => (id =? kAny) || isAdjacent o id))
    (grid_visit (Nat.pow 3 dim) (repeat (-1) dim) (repeat 1 dim)).

(** areAdjacent(node_1, node_2), ndtree_adjacency.h:10-28 *)
Fixpoint all_between (w : Z) (big small : list Z) : bool :=
  match big, small with
  | b :: big', s :: small' => (b - 1 <=? s) && (s <=? b + w) && all_between w big' small'
  | _, _ => true
  end.
Definition nodesAdjacent (n1 n2 : node_index) : bool :=
  let height_diff := Z.abs (height n1 - height n2) in
  let width := exp2 height_diff in
  let smallest := if height n1 <? height n2 then n1 else n2 in
  let biggest := if height n1 <? height n2 then n2 else n1 in
  all_between width (map (fun c => mult_exp2 c height_diff) (position biggest)) (position smallest).
