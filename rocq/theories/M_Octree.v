(** Octree containers with arbitrary node data: Ndtree (data_structure/ndtree/) and NdtreeBlockHash
    (data_structure/ndtree_block_hash.h), dimension 3. Paths are relative to
    /repo/library/cpp/include/wavemap/core. Nodes are those of M_Ndtree.v; a reference to a node is modelled by
    the function applied to it. *)
From Verif Require Import Base M_IntMath M_Morton M_NdtreeIndex M_Haar3 M_Ndtree.

Section OCTREE.
Context {A : Type}.
Notation tree := (node A).

(** Ndtree::getNode, ndtree/impl/ndtree_inl.h:75-87; [k] = number of remaining loop iterations *)
Fixpoint nd_get_loop (k : nat) (node_height morton : Z) (n : tree) : option tree :=
  match k with
  | O => Some n
  | S k' => match getChild n (relativeChildIndexFromMorton 3 morton node_height) with
            | None => None
            | Some ch => nd_get_loop k' (node_height - 1) morton ch
            end
  end.
Definition nd_getNode (T : Z) (n : tree) (i : oidx) : option tree :=
  nd_get_loop (Z.to_nat (T - oh i)) T (omorton i) n.
(** hasNode, ndtree/ndtree.h:39 *)
Definition nd_hasNode (T : Z) (n : tree) (i : oidx) : bool := match nd_getNode T n i with Some _ => true | None => false end.

(** getOrAllocateNode, ndtree/impl/ndtree_inl.h:89-105, followed by the update [f] of the node it refers to;
    [dflt] is the data of new nodes. *)
Fixpoint nd_alloc_loop (k : nat) (node_height morton : Z) (dflt : A) (f : tree -> tree) (n : tree) : tree :=
  match k with
  | O => f n
  | S k' => let c := relativeChildIndexFromMorton 3 morton node_height in
            setChild n c (nd_alloc_loop k' (node_height - 1) morton dflt f (childOrNew dflt n c))
  end.
(** ... when the update only changes the node's data() *)
Definition nd_alloc_data (T : Z) (dflt : A) (n : tree) (i : oidx) (g : A -> A) : tree :=
  nd_alloc_loop (Z.to_nat (T - oh i)) T (omorton i) dflt (fun x => Node (g (ndata x)) (nkids x)) n.

(** getNodeOrAncestor, ndtree/impl/ndtree_inl.h:114-132 *)
Fixpoint nd_anc_loop (k : nat) (node_height morton : Z) (n : tree) : tree * Z :=
  match k with
  | O => (n, node_height)
  | S k' => match getChild n (relativeChildIndexFromMorton 3 morton node_height) with
            | None => (n, node_height)
            | Some ch => nd_anc_loop k' (node_height - 1) morton ch
            end
  end.
Definition nd_getNodeOrAncestor (T : Z) (n : tree) (i : oidx) : tree * Z :=
  nd_anc_loop (Z.to_nat (T - oh i)) T (omorton i) n.

(** Writing through the pointer returned by getNode (no allocation). *)
Fixpoint nd_modify_loop (k : nat) (node_height morton : Z) (f : tree -> tree) (n : tree) : tree :=
  match k with
  | O => f n
  | S k' => let c := relativeChildIndexFromMorton 3 morton node_height in
            match getChild n c with
            | None => n
            | Some ch => setChild n c (nd_modify_loop k' (node_height - 1) morton f ch)
            end
  end.
(** eraseNode, ndtree/impl/ndtree_inl.h:59-67: (new tree, returned flag) *)
Definition nd_eraseNode (T : Z) (n : tree) (i : oidx) : tree * bool :=
  let parent := OI (oh i + 1) (imap (fun c => div_exp2_floor c 1) (opos i)) in
  let rel := computeRelativeChildIndex (oni i) in
  match nd_getNode T n parent with
  | None => (n, false)
  | Some p => (nd_modify_loop (Z.to_nat (T - oh parent)) T (omorton parent) (fun x => fst (eraseChild x rel)) n,
               snd (eraseChild p rel))
  end.

(** NdtreeNode::empty and hasNonzeroData, ndtree/impl/ndtree_node_inl.h:10-13,30-33; [nonzero] is
    data::is_nonzero for the data type *)
Definition nd_empty (nonzero : A -> bool) (n : tree) : bool := negb (hasChildrenArray n) && negb (nonzero (ndata n)).
(** Every children array holds at least one child. eraseNode can leave empty arrays behind. *)
Fixpoint no_empty_arrays (n : tree) : bool :=
  match n with Node _ kids =>
    match kids with
    | None => true
    | Some k => hasAtLeastOneChild n &&
                forallb (fun b => b) (olist (omap (fun o => match o with None => true | Some ch => no_empty_arrays ch end) k))
    end
  end.
(** Ndtree::prune, ndtree/impl/ndtree_inl.h:25-47: the loop visits the nodes in postorder, so the children of a
    node have been pruned when it is visited. The postorder iterator only works if no children array is empty
    (see C34); [None] otherwise. *)
Fixpoint nd_prune_rec (nonzero : A -> bool) (n : tree) : tree :=
  match n with Node d kids =>
    match kids with
    | None => Node d None
    | Some k =>
        let k' := omap (fun o => match o with
                                 | None => None
                                 | Some ch => let ch' := nd_prune_rec nonzero ch in
                                              if nd_empty nonzero ch' then None else Some ch'
                                 end) k in
        if existsb (fun o => match o with Some _ => true | None => false end) (olist k')
        then Node d (Some k') else Node d None
    end
  end.
Definition nd_prune (nonzero : A -> bool) (n : tree) : option tree :=
  if no_empty_arrays n then Some (nd_prune_rec nonzero n) else None.
(** clear, ndtree/ndtree.h:33 and ndtree_node_inl.h:15-19; [zero] is a value-initialised data object *)
Definition nd_clear (zero : A) (n : tree) : tree := Node zero None.

(** ** Leaf visits with an explicit stack *)
(** The loop of VolumetricOctree::forEachLeaf (/repo/library/cpp/src/core/map/volumetric_octree.cc:116-151) and
    of NdtreeBlockHash::forEachLeaf const (data_structure/impl/ndtree_block_hash_inl.h:235-257). They differ in
    the test whether the node has children ([expand]) and in the reported value: the sum of the data along the
    path or the data of the node ([val], from the value of the parent). [fuel] bounds the number of iterations;
    None: not enough. *)
Context {V : Type} (expand : tree -> bool) (val : V -> tree -> V).
Definition nd_visit_child (idx : oidx) (n : tree) (v : V) (sa : list (oidx * tree * V) * list (oidx * V)) (c : Z) :=
  match getChild n c with
  | Some ch => ((ochild idx c, ch, v) :: fst sa, snd sa)
  | None => (fst sa, (ochild idx c, v) :: snd sa)
  end.
Fixpoint nd_leaf_loop (fuel : nat) (stack : list (oidx * tree * V)) (acc : list (oidx * V)) : option (list (oidx * V)) :=
  match stack with
  | [] => Some (rev acc)
  | (idx, n, parent_value) :: stack' =>
      match fuel with
      | O => None
      | S fuel' =>
          let v := val parent_value n in
          if expand n
          then let sa := fold_left (nd_visit_child idx n v) [0; 1; 2; 3; 4; 5; 6; 7] (stack', acc) in
               nd_leaf_loop fuel' (fst sa) (snd sa)
          else nd_leaf_loop fuel' stack' ((idx, v) :: acc)
      end
  end.
End OCTREE.

(** ** NdtreeBlockHash<CellDataT,3>, data_structure/ndtree_block_hash.h:11-97 *)
Section BLOCKHASH.
Context {A : Type} (T : Z) (dflt : A).
Notation bmap := (shash (node A)).
(** indexToBlockIndex, indexToCellIndex, cellAndBlockIndexToIndex:
    data_structure/impl/ndtree_block_hash_inl.h:261-290 *)
Definition bh_blockIndex (i : oidx) : idx3 := imap (fun c => div_exp2_floor c (T - oh i)) (opos i).
Definition bh_cellIndex (i : oidx) : oidx := OI (oh i) (imap (fun c => div_exp2_floor_remainder c (T - oh i)) (opos i)).
Definition bh_index (b : idx3) (i : oidx) : oidx := OI (oh i) (imap2 (fun c o => c + exp2 (T - oh i) * o) (opos i) b).
(** getNode, getValue, hasValue, getValueOrDefault:
    data_structure/impl/ndtree_block_hash_inl.h:78-87,118-137,161-168 *)
Definition bh_getNode (m : bmap) (i : oidx) : option (node A) :=
  match getBlock m (bh_blockIndex i) with
  | None => None
  | Some b => nd_getNode T b (bh_cellIndex i)
  end.
Definition bh_getValue (m : bmap) (i : oidx) : option A := option_map ndata (bh_getNode m i).
Definition bh_hasValue (m : bmap) (i : oidx) : bool := match bh_getNode m i with Some _ => true | None => false end.
Definition bh_getValueOrDefault (m : bmap) (i : oidx) : A := match bh_getValue m i with Some v => v | None => dflt end.
(** getOrAllocateValue followed by the update [g] of the value,
    data_structure/impl/ndtree_block_hash_inl.h:48-54,89-97,139-143 *)
Definition bh_update (m : bmap) (i : oidx) (g : A -> A) : bmap :=
  let bi := bh_blockIndex i in
  setBlock m bi (nd_alloc_data T dflt (blockOrNew (Node dflt None) m bi) (bh_cellIndex i) g).
(** getNodeOrAncestor / getValueOrAncestor, data_structure/impl/ndtree_block_hash_inl.h:106-116,153-159 *)
Definition bh_getValueOrAncestor (m : bmap) (i : oidx) : option A * Z :=
  match getBlock m (bh_blockIndex i) with
  | None => (None, T)
  | Some b => let r := nd_getNodeOrAncestor T b (bh_cellIndex i) in (Some (ndata (fst r)), snd r)
  end.
(** size, data_structure/impl/ndtree_block_hash_inl.h:8-15 *)
Definition bh_size (m : bmap) : nat := list_sum (map (fun kb => nsize (snd kb)) m).
(** forEachLeaf (const), data_structure/impl/ndtree_block_hash_inl.h:223-259 *)
Fixpoint bh_forEachLeaf (fuel : node A -> nat) (m : bmap) : option (list (oidx * A)) :=
  match m with
  | [] => Some []
  | (k, b) :: m' =>
      match nd_leaf_loop hasAtLeastOneChild (fun _ n => ndata n) (fuel b) [(OI T k, b, dflt)] [], bh_forEachLeaf fuel m' with
      | Some l, Some l' => Some (l ++ l')
      | _, _ => None
      end
  end.
End BLOCKHASH.
