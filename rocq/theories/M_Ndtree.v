(** 3D indices, octree nodes (NdtreeNode, Ndtree) and the spatial hash.
    Paths are relative to /repo/library/cpp/include/wavemap/core. *)
From Verif Require Import Base M_IntMath M_Morton M_NdtreeIndex M_Num M_Haar M_Haar3.

(** Index3D, common.h:25-36 (int32 components; unbounded here). *)
Record idx3 := I3 { px : Z; py : Z; pz : Z }.
Definition imap (f : Z -> Z) (i : idx3) : idx3 := I3 (f (px i)) (f (py i)) (f (pz i)).
Definition imap2 (f : Z -> Z -> Z) (i j : idx3) : idx3 := I3 (f (px i) (px j)) (f (py i) (py j)) (f (pz i) (pz j)).
Definition ieqb (i j : idx3) : bool := (px i =? px j) && (py i =? py j) && (pz i =? pz j).
Definition ilist (i : idx3) : list Z := [px i; py i; pz i].

(** OctreeIndex = NdtreeIndex<3>, indexing/ndtree_index.h:14-34. *)
Record oidx := OI { oh : Z; opos : idx3 }.
(** The generic index of M_NdtreeIndex.v *)
Definition oni (i : oidx) : node_index := NodeIndex (oh i) (ilist (opos i)).
(** nodeIndexToMorton for OctreeIndex, indexing/index_conversions.h:182-196 *)
Definition omorton (i : oidx) : Z := nodeIndexToMorton 3 (oni i).
(** NdtreeIndex<3>::computeChildIndex, indexing/impl/ndtree_index_inl.h:26-43, on the 3D record *)
Definition ochild (i : oidx) (rel : Z) : oidx :=
  OI (oh i - 1) (I3 (px (opos i) * 2 + Z.land (Z.shiftr rel 0) 1)
                    (py (opos i) * 2 + Z.land (Z.shiftr rel 1) 1)
                    (pz (opos i) * 2 + Z.land (Z.shiftr rel 2) 1)).

(** NdtreeNode<DataT,3>, data_structure/ndtree/ndtree_node.h:13-56: a data member and an optional
    array of optional children (unique_ptrs; ownership makes it a tree). *)
Inductive node (A : Type) := Node (data : A) (children : option (oct (option (node A)))).
Arguments Node {A}.

Section NdtreeNode.
Context {A : Type}.
Definition ndata (n : node A) : A := match n with Node d _ => d end.
Definition nkids (n : node A) : option (oct (option (node A))) := match n with Node _ k => k end.
(** hasChildrenArray, ndtree_node.h:33 *)
Definition hasChildrenArray (n : node A) : bool := match nkids n with None => false | Some _ => true end.
(** getChild, impl/ndtree_node_inl.h:70-88 *)
Definition getChild (n : node A) (c : Z) : option (node A) :=
  match nkids n with None => None | Some k => oget k c end.
(** hasAtLeastOneChild, impl/ndtree_node_inl.h:40-51 *)
Definition hasAtLeastOneChild (n : node A) : bool :=
  match nkids n with
  | None => false
  | Some k => existsb (fun c => match c with Some _ => true | None => false end) (olist k)
  end.
(** Writing through the reference returned by getOrAllocateChild (impl/ndtree_node_inl.h:90-108):
    the children array is created if needed and child [c] replaced. *)
Definition setChild (n : node A) (c : Z) (ch : node A) : node A :=
  let kids := match nkids n with None => otab (fun _ => None) | Some k => k end in
  Node (ndata n) (Some (oset kids c (Some ch))).
(** getOrAllocateChild, impl/ndtree_node_inl.h:90-108, the node referred to by the result; [dflt] is
    the data of a newly constructed child. *)
Definition childOrNew (dflt : A) (n : node A) (c : Z) : node A :=
  match getChild n c with Some ch => ch | None => Node dflt None end.
(** eraseChild, impl/ndtree_node_inl.h:59-68: (new node, returned flag) *)
Definition eraseChild (n : node A) (c : Z) : node A * bool :=
  match nkids n with
  | None => (n, false)
  | Some k => (Node (ndata n) (Some (oset k c None)), true)
  end.
(** Ndtree::size, impl/ndtree_inl.h:19-23: number of nodes visited by the preorder iterator. *)
Fixpoint nsize (n : node A) : nat :=
  match n with Node _ kids =>
    match kids with
    | None => 1
    | Some k => S (list_sum (olist (omap (fun c => match c with None => O | Some ch => nsize ch end) k)))
    end
  end.
End NdtreeNode.

(** SpatialHash<BlockData,3>, data_structure/spatial_hash.h:18-54. The std::unordered_map is an
    association list; its order is arbitrary and no theorem depends on it. *)
Definition shash (B : Type) := list (idx3 * B).
Section SpatialHash.
Context {B : Type}.
(** getBlock, impl/spatial_hash_inl.h:73-95 *)
Fixpoint getBlock (m : shash B) (i : idx3) : option B :=
  match m with
  | [] => None
  | (k, b) :: m' => if ieqb k i then Some b else getBlock m' i
  end.
(** hasBlock, impl/spatial_hash_inl.h:46-50 *)
Definition hasBlock (m : shash B) (i : idx3) : bool := match getBlock m i with Some _ => true | None => false end.
(** Writing through the reference returned by getOrAllocateBlock / getBlock
    (impl/spatial_hash_inl.h:97-104): replace the block at [i], inserting the key if absent. *)
Fixpoint setBlock (m : shash B) (i : idx3) (b : B) : shash B :=
  match m with
  | [] => [(i, b)]
  | (k, b') :: m' => if ieqb k i then (k, b) :: m' else (k, b') :: setBlock m' i b
  end.
Definition blockOrNew (dflt : B) (m : shash B) (i : idx3) : B :=
  match getBlock m i with Some b => b | None => dflt end.
(** eraseBlock, impl/spatial_hash_inl.h:52-56 *)
Definition eraseBlock (m : shash B) (i : idx3) : shash B * bool :=
  (filter (fun kb => negb (ieqb (fst kb) i)) m, hasBlock m i).
(** eraseBlockIf with an indicator that may modify the block, impl/spatial_hash_inl.h:58-71 *)
Fixpoint eraseBlockIf (f : idx3 -> B -> B * bool) (m : shash B) : shash B :=
  match m with
  | [] => []
  | (k, b) :: m' => let '(b', erase) := f k b in
                    if erase then eraseBlockIf f m' else (k, b') :: eraseBlockIf f m'
  end.
(** forEachBlock with a mutating visitor, impl/spatial_hash_inl.h:106-113 *)
Definition forEachBlock (f : idx3 -> B -> B) (m : shash B) : shash B :=
  map (fun kb => (fst kb, f (fst kb) (snd kb))) m.
(** getMinBlockIndex / getMaxBlockIndex, impl/spatial_hash_inl.h:16-44 *)
Definition int_max : Z := 2 ^ 31 - 1.
Definition int_min : Z := - 2 ^ 31.
Definition getMinBlockIndex (m : shash B) : idx3 :=
  match m with
  | [] => I3 0 0 0
  | _ => fold_left (fun acc kb => imap2 Z.min acc (fst kb)) m (I3 int_max int_max int_max)
  end.
Definition getMaxBlockIndex (m : shash B) : idx3 :=
  match m with
  | [] => I3 0 0 0
  | _ => fold_left (fun acc kb => imap2 Z.max acc (fst kb)) m (I3 int_min int_min int_min)
  end.
End SpatialHash.
