(** Chunked octrees: ChunkedNdtreeChunk, the node references into chunks, ChunkedNdtree, and the map built on
    them (HashedChunkedWaveletOctreeBlock, HashedChunkedWaveletOctree); dimension 3. Headers are relative to
    /repo/library/cpp/include/wavemap/core (CN = data_structure/chunked_ndtree), sources to
    /repo/library/cpp/src/core/map. *)
From Verif Require Import Base M_IntMath M_Morton M_NdtreeIndex M_Num M_Haar M_Haar3 M_Ndtree M_Wavelet.

(** The offset of a level in the arrays of a chunk, tree_math::perfect_tree::num_total_nodes_fast<3>
    (utils/math/tree_math.h:12-20); its DCHECK never fails here, see C53_indices *)
Definition level_offset (depth : Z) : Z := match num_total_nodes_fast 3 depth with Some n => n | None => 0 end.

(** ChunkedNdtreeChunk<A,3,H>, CN/chunked_ndtree_chunk.h:14-77: node_data_, node_has_at_least_one_child_ and the
    optional array child_chunks_. The fixed-size arrays are functions from their indices; the theorems
    C53_indices show that the code only uses indices within the arrays. *)
Inductive chunk (A : Type) := Chunk (cdata : Z -> A) (cbits : Z -> bool) (ckids : option (Z -> option (chunk A))).
Arguments Chunk {A}.

Section CHUNK.
Context {A : Type} (zero : A).
Notation chunkA := (chunk A).
Definition cdata (ch : chunkA) := match ch with Chunk d _ _ => d end.
Definition cbits (ch : chunkA) := match ch with Chunk _ b _ => b end.
Definition ckids (ch : chunkA) := match ch with Chunk _ _ k => k end.
(** assignment to an array element *)
Definition fset {B} (f : Z -> B) (i : Z) (v : B) : Z -> B := fun j => if j =? i then v else f j.
(** Default construction and clear(), CN/chunked_ndtree_chunk.h:27,74-76 and impl/chunked_ndtree_chunk_inl.h:15-20 *)
Definition chunk_new : chunkA := Chunk (fun _ => zero) (fun _ => false) None.
(** getChild(LinearIndex), impl/chunked_ndtree_chunk_inl.h:89-111 *)
Definition chunk_getChild (ch : chunkA) (i : Z) : option chunkA := match ckids ch with None => None | Some k => k i end.
(** Replacing the chunk that child_chunks_[i] points to *)
Definition chunk_setChild (ch : chunkA) (i : Z) (c : option chunkA) : chunkA :=
  match ckids ch with
  | None => ch
  | Some k => Chunk (cdata ch) (cbits ch) (Some (fset k i c))
  end.
(** getOrAllocateChild, impl/chunked_ndtree_chunk_inl.h:113-132: the array, then the child *)
Definition chunk_allocChild (ch : chunkA) (i : Z) : chunkA :=
  let k := match ckids ch with None => fun _ => None | Some k => k end in
  match k i with
  | None => Chunk (cdata ch) (cbits ch) (Some (fset k i (Some chunk_new)))
  | Some _ => Chunk (cdata ch) (cbits ch) (Some k)
  end.
(** eraseChild, impl/chunked_ndtree_chunk_inl.h:79-87 *)
Definition chunk_eraseChild (ch : chunkA) (i : Z) : chunkA :=
  match chunk_getChild ch i with Some _ => chunk_setChild ch i None | None => ch end.
(** nodeData(i) = d and nodeHasAtLeastOneChild(i) = b, impl/chunked_ndtree_chunk_inl.h:47-53,148-154 *)
Definition chunk_setData (ch : chunkA) (i : Z) (d : A) : chunkA := Chunk (fset (cdata ch) i d) (cbits ch) (ckids ch).
Definition chunk_setBit (ch : chunkA) (i : Z) (b : bool) : chunkA := Chunk (cdata ch) (fset (cbits ch) i b) (ckids ch).

(** The C++ pointer to a chunk is modelled by the list of child indices that leads to it from the root chunk. *)
Fixpoint chunk_at (P : list Z) (ch : chunkA) : option chunkA :=
  match P with
  | [] => Some ch
  | i :: P' => match chunk_getChild ch i with None => None | Some c => chunk_at P' c end
  end.
Fixpoint chunk_upd (P : list Z) (f : chunkA -> chunkA) (ch : chunkA) : chunkA :=
  match P with
  | [] => f ch
  | i :: P' => match chunk_getChild ch i with None => ch | Some c => chunk_setChild ch i (Some (chunk_upd P' f c)) end
  end.

(** ChunkedNdtreeNodeRef, CN/chunked_ndtree_node_address.h: a chunk, relative_node_depth_ and
    level_traversal_distance_ *)
Record nref := NR { nchunk : list Z; ndepth : Z; ndist : Z }.
Context (H : Z).   (* ChunkType::kHeight *)
(** computeRelativeNodeIndex, computeChildLevelTraversalDistance: impl/chunked_ndtree_node_address_inl.h:177-190 *)
Definition nr_index (depth dist : Z) : Z := level_offset depth + dist.
Definition nr_childDist (dist c : Z) : Z := Z.lor (Z.shiftl dist 3) c.
(** data(), impl/chunked_ndtree_node_address_inl.h:98-101 (read, write); the default for a dangling reference is
    never used *)
Definition nr_data (root : chunkA) (r : nref) : A :=
  match chunk_at (nchunk r) root with Some ch => cdata ch (nr_index (ndepth r) (ndist r)) | None => zero end.
Definition nr_setData (root : chunkA) (r : nref) (d : A) : chunkA :=
  chunk_upd (nchunk r) (fun ch => chunk_setData ch (nr_index (ndepth r) (ndist r)) d) root.
(** hasAtLeastOneChild() (read, assignment), impl/chunked_ndtree_node_address_inl.h:103-106 *)
Definition nr_bit (root : chunkA) (r : nref) : bool :=
  match chunk_at (nchunk r) root with Some ch => cbits ch (nr_index (ndepth r) (ndist r)) | None => false end.
Definition nr_setBit (root : chunkA) (r : nref) (b : bool) : chunkA :=
  chunk_upd (nchunk r) (fun ch => chunk_setBit ch (nr_index (ndepth r) (ndist r)) b) root.
(** The address of a child, lines 148-156 and 165-174 of impl/chunked_ndtree_node_address_inl.h *)
Definition nr_step (r : nref) (c : Z) : nref :=
  let d := nr_childDist (ndist r) c in
  if ndepth r + 1 =? H then NR (nchunk r ++ [d]) 0 0 else NR (nchunk r) (ndepth r + 1) d.
(** getChild, impl/chunked_ndtree_node_address_inl.h:141-157 (None: null pointer) *)
Definition nr_getChild (root : chunkA) (r : nref) (c : Z) : option nref :=
  if nr_bit root r then
    if ndepth r + 1 =? H
    then match chunk_at (nchunk r ++ [nr_childDist (ndist r) c]) root with Some _ => Some (nr_step r c) | None => None end
    else Some (nr_step r c)
  else None.
(** getOrAllocateChild, impl/chunked_ndtree_node_address_inl.h:159-175: (tree, reference to the child) *)
Definition nr_allocChild (root : chunkA) (r : nref) (c : Z) : chunkA * nref :=
  let root1 := nr_setBit root r true in
  ((if ndepth r + 1 =? H
    then chunk_upd (nchunk r) (fun ch => chunk_allocChild ch (nr_childDist (ndist r) c)) root1
    else root1), nr_step r c).
(** eraseChild, impl/chunked_ndtree_node_address_inl.h:114-139. [k] counts the iterations of the outer loop,
    child_depth <= kHeight. *)
Definition zrange (a b : Z) : list Z := map (fun j => a + Z.of_nat j) (seq 0 (Z.to_nat (b - a))).
Definition erase_level (depth start end_ : Z) (ch : chunkA) : chunkA :=
  fold_left (fun ch i =>
    if depth =? H then chunk_eraseChild ch i
    else let j := level_offset depth + i in chunk_setBit (chunk_setData ch j zero) j false)
    (zrange start end_) ch.
Fixpoint erase_loop (k : nat) (depth start end_ : Z) (ch : chunkA) : chunkA :=
  match k with
  | O => ch
  | S k' => erase_loop k' (depth + 1) (Z.shiftl start 3) (Z.shiftl end_ 3) (erase_level depth start end_ ch)
  end.
Definition nr_eraseChild (root : chunkA) (r : nref) (c : Z) : chunkA :=
  if nr_bit root r then
    let d := nr_childDist (ndist r) c in
    chunk_upd (nchunk r) (erase_loop (Z.to_nat (H - ndepth r)) (ndepth r + 1) d (d + 1)) root
  else root.

(** getRootNode, CN/chunked_ndtree.h:52-53 *)
Definition nr_root : nref := NR [] 0 0.
(** ChunkedNdtree(max_height), CN/impl/chunked_ndtree_inl.h:12-17: max_height_ is rounded up to whole chunks
    (int_math::div_round_up) *)
Definition ct_max_height (max_height : Z) : Z := H * div_round_up max_height H.
(** getNode, CN/impl/chunked_ndtree_inl.h:78-106; [k] = number of remaining iterations *)
Fixpoint ct_get_loop (k : nat) (root : chunkA) (node_height morton : Z) (r : nref) : option nref :=
  match k with
  | O => Some r
  | S k' => match nr_getChild root r (relativeChildIndexFromMorton 3 morton node_height) with
            | None => None
            | Some r' => ct_get_loop k' root (node_height - 1) morton r'
            end
  end.
Definition ct_getNode (T : Z) (root : chunkA) (i : oidx) : option nref :=
  ct_get_loop (Z.to_nat (T - oh i)) root T (omorton i) nr_root.
(** getOrAllocateNode, CN/impl/chunked_ndtree_inl.h:108-124 *)
Fixpoint ct_alloc_loop (k : nat) (root : chunkA) (node_height morton : Z) (r : nref) : chunkA * nref :=
  match k with
  | O => (root, r)
  | S k' => let '(root', r') := nr_allocChild root r (relativeChildIndexFromMorton 3 morton node_height) in
            ct_alloc_loop k' root' (node_height - 1) morton r'
  end.
Definition ct_getOrAllocateNode (T : Z) (root : chunkA) (i : oidx) : chunkA * nref :=
  ct_alloc_loop (Z.to_nat (T - oh i)) root T (omorton i) nr_root.
(** ... followed by an update of the node's data() *)
Definition ct_alloc_data (T : Z) (root : chunkA) (i : oidx) (g : A -> A) : chunkA :=
  let '(root', r) := ct_getOrAllocateNode T root i in nr_setData root' r (g (nr_data root' r)).
(** getNodeOrAncestor, CN/impl/chunked_ndtree_inl.h:126-167 *)
Fixpoint ct_anc_loop (k : nat) (root : chunkA) (node_height morton : Z) (r : nref) : nref * Z :=
  match k with
  | O => (r, node_height)
  | S k' => match nr_getChild root r (relativeChildIndexFromMorton 3 morton node_height) with
            | None => (r, node_height)
            | Some r' => ct_anc_loop k' root (node_height - 1) morton r'
            end
  end.
Definition ct_getNodeOrAncestor (T : Z) (root : chunkA) (i : oidx) : nref * Z :=
  ct_anc_loop (Z.to_nat (T - oh i)) root T (omorton i) nr_root.
(** Erasing a node through its parent: getNode(parent), then eraseChild on the reference. ChunkedNdtree has no
    eraseNode of its own; this is what Ndtree::eraseNode does (ndtree/impl/ndtree_inl.h:59-67). *)
Definition ct_eraseNode (T : Z) (root : chunkA) (i : oidx) : chunkA :=
  let parent := OI (oh i + 1) (imap (fun c => div_exp2_floor c 1) (opos i)) in
  match ct_getNode T root parent with
  | None => root
  | Some r => nr_eraseChild root r (computeRelativeChildIndex (oni i))
  end.
End CHUNK.

(* ---------------------------------------------------------------------------------------------- *)
Section BLOCK.
Context {V : Type} (N : num V).
Notation cnode := (chunk (det V)).
(** kChunkHeight, map/hashed_chunked_wavelet_octree_block.h:15 *)
Definition kChunkHeight : Z := 3.
Notation H := kChunkHeight.
Notation data := (nr_data (dzero N)).

(** getCellValue, map/impl/hashed_chunked_wavelet_octree_block_inl.h:21-34 *)
Fixpoint cb_get_loop (k : nat) (root : cnode) (parent_height morton : Z) (value : V) (r : nref) : V :=
  match k with
  | O => value
  | S k' =>
      let c := relativeChildIndexFromMorton 3 morton parent_height in
      let value' := backwardSingleChild3 N value (data root r) c in
      match nr_getChild H root r c with
      | None => value'
      | Some r' => cb_get_loop k' root (parent_height - 1) morton value' r'
      end
  end.

(** First loop of setCellValue and addToCellValue, hashed_chunked_wavelet_octree_block.cc:45-55,84-92: (tree,
    ancestors with the last one first, current_value). addToCellValue does not compute the value. *)
Fixpoint cb_down (k : nat) (root : cnode) (parent_height morton : Z) (value : V) (anc : list nref)
  : cnode * list nref * V :=
  match k, anc with
  | S k', r :: _ =>
      let c := relativeChildIndexFromMorton 3 morton parent_height in
      let value' := backwardSingleChild3 N value (data root r) c in
      let '(root', r') := nr_allocChild (dzero N) H root r c in
      cb_down k' root' (parent_height - 1) morton value' (r' :: anc)
  | _, _ => (root, anc, value)
  end.
(** Second loop, hashed_chunked_wavelet_octree_block.cc:59-68,96-105: pops the ancestors *)
Fixpoint cb_up (anc : list nref) (root : cnode) (parent_height morton : Z) (scale : V) : cnode * V :=
  match anc with
  | [] => (root, scale)
  | r :: anc' =>
      let c := relativeChildIndexFromMorton 3 morton parent_height in
      let '(s, d) := forwardSingleChild3 N scale c in
      cb_up anc' (nr_setData root r (dadd N (data root r) d)) (parent_height + 1) morton s
  end.

(** A chunked tree together with its root scale coefficient *)
Record ctree := CT { croot : cnode; cscale : V }.
Definition ct_new : ctree := CT (chunk_new (dzero N)) (n0 N).
Definition cb_get (T : Z) (t : ctree) (i : oidx) : V :=
  cb_get_loop (Z.to_nat (T - oh i)) (croot t) T (omorton i) (cscale t) nr_root.
(** [inc] gives the increment from current_value. If index.height = T the second loop does not run. *)
Definition cb_update (T : Z) (t : ctree) (i : oidx) (inc : V -> V) : ctree :=
  let '(root', anc, value) := cb_down (Z.to_nat (T - (oh i + 1))) (croot t) T (omorton i) (cscale t) [nr_root] in
  if oh i <? T then
    let '(root'', s) := cb_up anc root' (oh i + 1) (omorton i) (inc value) in CT root'' (nadd N (cscale t) s)
  else CT root' (nadd N (cscale t) (inc value)).

(** recursiveThreshold, hashed_chunked_wavelet_octree_block.cc:151-174: (tree, node_scale_coefficient). The
    recursion is bounded by [fuel]; the theorems hold for every fuel of at least tree_height. *)
Fixpoint cb_threshold_rec (fuel : nat) (lo hi : V) (root : cnode) (r : nref) (scale : V) : cnode * V :=
  match fuel with
  | O => (root, scale)
  | S fuel' =>
      let values := backward3 N scale (data root r) in
      let '(root', values') := fold_left (fun rv c =>
          let '(root1, vs) := rv in
          match nr_getChild H root1 r c with
          | Some r' => let '(root2, s) := cb_threshold_rec fuel' lo hi root1 r' (oget vs c) in (root2, oset vs c s)
          | None => (root1, oset vs c (nclamp N lo hi (oget vs c)))
          end) [0; 1; 2; 3; 4; 5; 6; 7] (root, values) in
      let '(s, d) := forward3 N values' in
      (nr_setData root' r d, s)
  end.
(** recursivePrune, hashed_chunked_wavelet_octree_block.cc:176-193 *)
Fixpoint cb_prune_rec (fuel : nat) (root : cnode) (r : nref) : cnode :=
  match fuel with
  | O => root
  | S fuel' =>
      let '(root', flag) := fold_left (fun rf c =>
          let '(root1, flag) := rf in
          match nr_getChild H root1 r c with
          | Some r' =>
              let root2 := cb_prune_rec fuel' root1 r' in
              if negb (nr_bit root2 r') && negb (det_nonzero_tol N (data root2 r'))
              then (nr_eraseChild (dzero N) H root2 r c, flag)
              else (root2, true)
          | None => (root1, flag)
          end) [0; 1; 2; 3; 4; 5; 6; 7] (root, false) in
      nr_setBit root' r flag
  end.
(** empty(), map/impl/hashed_chunked_wavelet_octree_block_inl.h:7-14 with ChunkedNdtree::empty (CN/chunked_ndtree.h:31)
    and ChunkedNdtreeNodeRef::empty (CN/impl/chunked_ndtree_node_address_inl.h:82-85) *)
Definition ct_empty (t : ctree) : bool :=
  negb (nr_bit (croot t) nr_root) && negb (det_nonzero N (data (croot t) nr_root)) && isUnobserved N (cscale t).

(** forEachLeaf, hashed_chunked_wavelet_octree_block.cc:109-149, as in M_Wavelet.v *)
Definition cb_visit (th : Z) (root : cnode) (idx : oidx) (r : nref) (values : oct V)
    (sa : list (oidx * nref * V) * list (oidx * V)) (c : Z) :=
  let '(stack, acc) := sa in
  let ci := ochild idx c in
  match nr_getChild H root r c with
  | Some r' => if th <? oh ci then ((ci, r', oget values c) :: stack, acc) else (stack, (ci, oget values c) :: acc)
  | None => (stack, (ci, oget values c) :: acc)
  end.
Fixpoint cb_leaf_loop (fuel : nat) (th : Z) (root : cnode) (stack : list (oidx * nref * V)) (acc : list (oidx * V))
  : option (list (oidx * V)) :=
  match stack with
  | [] => Some (rev acc)
  | (idx, r, s) :: stack' =>
      match fuel with
      | O => None
      | S fuel' =>
          let '(st, ac) := fold_left (cb_visit th root idx r (backward3 N s (data root r))) [0; 1; 2; 3; 4; 5; 6; 7] (stack', acc) in
          cb_leaf_loop fuel' th root st ac
      end
  end.
Definition cb_forEachLeaf (fuel : nat) (th : Z) (root_index : oidx) (t : ctree) : option (list (oidx * V)) :=
  if ct_empty t then Some [] else cb_leaf_loop fuel th (croot t) [(root_index, nr_root, cscale t)] [].

(** HashedChunkedWaveletOctreeBlock, map/hashed_chunked_wavelet_octree_block.h:12-96 *)
Record cblock := CB { cbtree : ctree; cbthr : bool; cbprn : bool; cbstamp : Z }.
Definition cb_new (now : Z) : cblock := CB ct_new false false now.
(** setCellValue, addToCellValue: hashed_chunked_wavelet_octree_block.cc:34-107 *)
Definition cb_set (C : wconfig (V := V)) (now : Z) (b : cblock) (i : oidx) (v : V) : cblock :=
  CB (cb_update (cT C) (cbtree b) i (fun cur => nsub N v cur)) true true now.
Definition cb_add (C : wconfig (V := V)) (now : Z) (b : cblock) (i : oidx) (u : V) : cblock :=
  CB (cb_update (cT C) (cbtree b) i (fun _ => u)) true true now.
(** threshold, prune, clear: hashed_chunked_wavelet_octree_block.cc:10-32 *)
Definition cb_threshold (fuel : nat) (C : wconfig (V := V)) (b : cblock) : cblock :=
  if cbthr b then
    let '(root, s) := cb_threshold_rec fuel (clo C) (chi C) (croot (cbtree b)) nr_root (cscale (cbtree b)) in
    CB (CT root s) false (cbprn b) (cbstamp b)
  else b.
Definition cb_prune (fuel : nat) (C : wconfig (V := V)) (b : cblock) : cblock :=
  if cbprn b then
    let b1 := cb_threshold fuel C b in
    CB (CT (cb_prune_rec fuel (croot (cbtree b1)) nr_root) (cscale (cbtree b1))) (cbthr b1) false (cbstamp b1)
  else b.
Definition cb_clear (now : Z) (b : cblock) : cblock := CB ct_new (cbthr b) (cbprn b) now.
Definition cb_empty (b : cblock) : bool := ct_empty (cbtree b).

(** HashedChunkedWaveletOctree, map/hashed_chunked_wavelet_octree.h:63-136. The conversions of indices to block
    and cell indices (map/impl/hashed_chunked_wavelet_octree_inl.h:100-114) are those of HashedWaveletOctree. *)
Definition cmap := shash cblock.
(** getCellValue(OctreeIndex), getCellValue(Index3D), setCellValue, addToCellValue:
    map/impl/hashed_chunked_wavelet_octree_inl.h:15-54 *)
Definition hc_get_node (C : wconfig (V := V)) (m : cmap) (i : oidx) : V :=
  match getBlock m (hw_blockIndex C i) with None => n0 N | Some b => cb_get (cT C) (cbtree b) (hw_cellIndex C i) end.
Definition hc_get (C : wconfig (V := V)) (m : cmap) (i : idx3) : V :=
  match getBlock m (indexToBlockIndex3 i (cT C)) with
  | None => n0 N
  | Some b => cb_get (cT C) (cbtree b) (hw_cellIndex C (OI 0 i))
  end.
Definition hc_set (C : wconfig (V := V)) (now : Z) (m : cmap) (i : idx3) (v : V) : cmap :=
  let bi := indexToBlockIndex3 i (cT C) in
  setBlock m bi (cb_set C now (blockOrNew (cb_new now) m bi) (hw_cellIndex C (OI 0 i)) v).
Definition hc_add (C : wconfig (V := V)) (now : Z) (m : cmap) (i : idx3) (u : V) : cmap :=
  let bi := indexToBlockIndex3 i (cT C) in
  setBlock m bi (cb_add C now (blockOrNew (cb_new now) m bi) (hw_cellIndex C (OI 0 i)) u).
(** threshold, prune, pruneSmart, clear, empty: hashed_chunked_wavelet_octree.cc:26-51, .h:82-87 *)
Definition hc_threshold (fuel : nat) (C : wconfig (V := V)) (m : cmap) : cmap := forEachBlock (fun _ => cb_threshold fuel C) m.
Definition hc_prune (fuel : nat) (C : wconfig (V := V)) (m : cmap) : cmap :=
  eraseBlockIf (fun _ b => let b' := cb_prune fuel C b in (b', cb_empty b')) m.
Definition hc_pruneSmart (fuel : nat) (C : wconfig (V := V)) (max_age now : Z) (m : cmap) : cmap :=
  eraseBlockIf (fun _ b => let b' := if max_age <? now - cbstamp b then cb_prune fuel C b else b in (b', cb_empty b')) m.
Definition hc_clear (m : cmap) : cmap := [].
Definition hc_empty (m : cmap) : bool := match m with [] => true | _ => false end.
(** getMinIndex, getMaxIndex: hashed_chunked_wavelet_octree.cc:64-73 *)
Definition hc_min_index (C : wconfig (V := V)) (m : cmap) : idx3 := imap (fun c => exp2 (cT C) * c) (getMinBlockIndex m).
Definition hc_max_index (C : wconfig (V := V)) (m : cmap) : idx3 :=
  if hc_empty m then I3 0 0 0 else imap (fun c => exp2 (cT C) * (c + 1) - 1) (getMaxBlockIndex m).
(** forEachLeaf, hashed_chunked_wavelet_octree.cc:75-81 *)
Fixpoint hc_forEachLeaf (fuel : nat) (C : wconfig (V := V)) (m : cmap) : option (list (oidx * V)) :=
  match m with
  | [] => Some []
  | (k, b) :: m' =>
      match cb_forEachLeaf fuel 0 (OI (cT C) k) (cbtree b), hc_forEachLeaf fuel C m' with
      | Some l, Some l' => Some (l ++ l')
      | _, _ => None
      end
  end.
End BLOCK.
Arguments CT {V}. Arguments croot {V}. Arguments cscale {V}.
Arguments CB {V}. Arguments cbtree {V}. Arguments cbthr {V}. Arguments cbprn {V}. Arguments cbstamp {V}.
