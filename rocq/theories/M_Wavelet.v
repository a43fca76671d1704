(** Wavelet octree maps: WaveletOctree, HashedWaveletOctreeBlock and HashedWaveletOctree.
    Headers are relative to /repo/library/cpp/include/wavemap/core/map, sources to
    /repo/library/cpp/src/core/map. *)
From Verif Require Import Base M_IntMath M_NdtreeIndex M_Num M_Haar M_Haar3 M_Ndtree.

(** omap over two arrays *)
Definition omap2 {A B C} (f : A -> B -> C) (a : oct A) (b : oct B) : oct C :=
  match a with Oct a0 a1 a2 a3 a4 a5 a6 a7 =>
  match b with Oct b0 b1 b2 b3 b4 b5 b6 b7 =>
    Oct (f a0 b0) (f a1 b1) (f a2 b2) (f a3 b3) (f a4 b4) (f a5 b5) (f a6 b6) (f a7 b7) end end.

Section Wavelet.
Context {V : Type} (N : num V).
Notation wnode := (node (det V)).

(** The query loop, impl/wavelet_octree_inl.h:56-65 and impl/hashed_wavelet_octree_block_inl.h:25-31:
    [k] = parent_height - index.height iterations remain; both loops stop at a missing child. *)
Fixpoint get_loop (k : nat) (parent_height morton : Z) (value : V) (n : wnode) : V :=
  match k with
  | O => value
  | S k' =>
      let child_index := relativeChildIndexFromMorton 3 morton parent_height in
      let value' := backwardSingleChild3 N value (ndata n) child_index in
      match getChild n child_index with
      | None => value'
      | Some ch => get_loop k' (parent_height - 1) morton value' ch
      end
  end.

(** The two loops of setCellValue/addToCellValue, impl/wavelet_octree_inl.h:79-108,122-147 and
    hashed_wavelet_octree_block.cc:38-69,77-105. The first loop walks down from [parent_height] to
    index.height + 1, allocating children and remembering them on a stack (here: the recursion); the
    second one walks back up, adding forwardSingleChild coefficients to each remembered node.
    [k] = parent_height - (index.height + 1). [inc] gives the increment from the value reached by the
    first loop. The result is (node, coefficients.scale). *)
Fixpoint update_loop (k : nat) (parent_height morton : Z) (inc : V -> V) (current_value : V) (n : wnode)
  : wnode * V :=
  let child_index := relativeChildIndexFromMorton 3 morton parent_height in
  match k with
  | O =>
      let '(s, d) := forwardSingleChild3 N (inc current_value) child_index in
      (Node (dadd N (ndata n) d) (nkids n), s)
  | S k' =>
      let value' := backwardSingleChild3 N current_value (ndata n) child_index in
      let child := childOrNew (dzero N) n child_index in
      let '(child', x) := update_loop k' (parent_height - 1) morton inc value' child in
      let '(s, d) := forwardSingleChild3 N x child_index in
      let n' := setChild n child_index child' in
      (Node (dadd N (ndata n') d) (nkids n'), s)
  end.

(** A tree together with its root scale coefficient. *)
Record wtree := WT { wroot : wnode; wscale : V }.

(** {tree with zero data, root_scale_coefficient_{}} (hashed_wavelet_octree_block.h:76-77) *)
Definition wt_new : wtree := WT (Node (dzero N) None) (n0 N).

(** getCellValue / setCellValue / addToCellValue on one tree for an index with position relative to
    the tree; [T] is tree_height. If index.height = T both loops are empty and only the root scale
    changes. *)
Definition wt_get (T : Z) (t : wtree) (i : oidx) : V :=
  get_loop (Z.to_nat (T - oh i)) T (omorton i) (wscale t) (wroot t).
Definition wt_update (T : Z) (t : wtree) (i : oidx) (inc : V -> V) : wtree :=
  match Z.to_nat (T - oh i) with
  | O => WT (wroot t) (nadd N (wscale t) (inc (wscale t)))
  | S k => let '(n', s) := update_loop k T (omorton i) inc (wscale t) (wroot t) in
           WT n' (nadd N (wscale t) s)
  end.
Definition wt_set (T : Z) (t : wtree) (i : oidx) (v : V) : wtree := wt_update T t i (fun cur => nsub N v cur).
Definition wt_add (T : Z) (t : wtree) (i : oidx) (u : V) : wtree := wt_update T t i (fun _ => u).

(** empty(), impl/wavelet_octree_inl.h:12-19, impl/hashed_wavelet_octree_block_inl.h:7-14 with
    NdtreeNode::empty (impl/ndtree_node_inl.h:10-13) and OccupancyClassifier::isUnobserved. *)
Definition isUnobserved (v : V) : bool := nltb N (nabs N v) (neps N).
Definition wt_empty (t : wtree) : bool :=
  negb (hasChildrenArray (wroot t)) && negb (det_nonzero N (ndata (wroot t))) && isUnobserved (wscale t).

(** HashedWaveletOctreeBlock::recursiveThreshold, hashed_wavelet_octree_block.cc:150-174 *)
Fixpoint threshold_rec (lo hi : V) (n : wnode) (scale : V) : wnode * V :=
  match n with Node d kids =>
    let values := backward3 N scale d in
    match kids with
    | None =>
        let '(s, d') := forward3 N (omap (nclamp N lo hi) values) in (Node d' None, s)
    | Some k =>
        let res := omap2 (fun kid v =>
            match kid with
            | Some ch => let '(ch', v') := threshold_rec lo hi ch v in (Some ch', v')
            | None => (None, nclamp N lo hi v)
            end) k values in
        let '(s, d') := forward3 N (omap snd res) in (Node d' (Some (omap fst res)), s)
    end
  end.

(** HashedWaveletOctreeBlock::recursivePrune, hashed_wavelet_octree_block.cc:176-195 *)
Definition prune_child (n : wnode) : option wnode :=
  if negb (hasChildrenArray n) && negb (det_nonzero_tol N (ndata n)) then None else Some n.
Definition some_child (k : oct (option wnode)) : bool :=
  existsb (fun c => match c with Some _ => true | None => false end) (olist k).
Fixpoint prune_rec (n : wnode) : wnode :=
  match n with Node d kids =>
    match kids with
    | None => Node d None
    | Some k =>
        let k' := omap (fun kid => match kid with Some ch => prune_child (prune_rec ch) | None => None end) k in
        if some_child k' then Node d (Some k') else Node d None
    end
  end.

(** WaveletOctree::recursiveThreshold, wavelet_octree.cc:105-126: returns the scale update. *)
Fixpoint wo_threshold_rec (lo hi : V) (n : wnode) (scale : V) : wnode * V :=
  match n with Node d kids =>
    let values := backward3 N scale d in
    match kids with
    | None =>
        let '(su, du) := forward3 N (omap (fun v => nsub N v (nclamp N lo hi v)) values) in
        (Node (dsub N d du) None, su)
    | Some k =>
        let res := omap2 (fun kid v =>
            match kid with
            | Some ch => let '(ch', u) := wo_threshold_rec lo hi ch v in (Some ch', u)
            | None => (None, nsub N v (nclamp N lo hi v))
            end) k values in
        let '(su, du) := forward3 N (omap snd res) in (Node (dsub N d du) (Some (omap fst res)), su)
    end
  end.

(** WaveletOctree::recursivePrune, wavelet_octree.cc:128-159 *)
Fixpoint wo_prune_rec (lo hi : V) (n : wnode) (scale : V) : wnode * V :=
  match n with Node d kids =>
    let values := backward3 N scale d in
    match kids with
    | None =>
        let '(su, du) := forward3 N (omap (fun v => nsub N v (nclamp N lo hi v)) values) in
        (Node (dsub N d du) None, su)
    | Some k =>
        let res := omap2 (fun kid v =>
            match kid with
            | Some ch => let '(ch', u) := wo_prune_rec lo hi ch v in (prune_child ch', u)
            | None => (None, nsub N v (nclamp N lo hi v))
            end) k values in
        let '(su, du) := forward3 N (omap snd res) in
        let k' := omap fst res in
        (Node (dsub N d du) (if some_child k' then Some k' else None), su)
    end
  end.

(** forEachLeaf with its explicit stack, wavelet_octree.cc:64-103 and
    hashed_wavelet_octree_block.cc:108-148. The visitor calls are collected in a list; [th] is
    termination_height (0 for WaveletOctree, which has no such test: its nodes are always above height
    0). [fuel] bounds the number of loop iterations; None = fuel exhausted. *)
Definition leaf_visit (th : Z) (stack : list (oidx * wnode * V)) (acc : list (oidx * V))
    (idx : oidx) (n : wnode) (values : oct V) (c : Z) : list (oidx * wnode * V) * list (oidx * V) :=
  let ci := ochild idx c in
  match getChild n c with
  | Some ch => if th <? oh ci then ((ci, ch, oget values c) :: stack, acc)
               else (stack, (ci, oget values c) :: acc)
  | None => (stack, (ci, oget values c) :: acc)
  end.
Fixpoint leaf_loop (fuel : nat) (th : Z) (stack : list (oidx * wnode * V)) (acc : list (oidx * V))
  : option (list (oidx * V)) :=
  match stack with
  | [] => Some (rev acc)
  | (idx, n, s) :: stack' =>
      match fuel with
      | O => None
      | S fuel' =>
          let values := backward3 N s (ndata n) in
          let '(st, ac) := fold_left (fun sa c => leaf_visit th (fst sa) (snd sa) idx n values c)
                             [0; 1; 2; 3; 4; 5; 6; 7] (stack', acc) in
          leaf_loop fuel' th st ac
      end
  end.
Definition wt_forEachLeaf (fuel : nat) (th : Z) (root_index : oidx) (t : wtree) : option (list (oidx * V)) :=
  if wt_empty t then Some [] else leaf_loop fuel th [(root_index, wroot t, wscale t)] [].

(* ---------------------------------------------------------------------------------------------- *)
(** WaveletOctreeConfig (wavelet_octree.h:18-48), HashedWaveletOctreeConfig
    (hashed_wavelet_octree.h:20-57) without the cell width. *)
Record wconfig := WC { cT : Z; clo : V; chi : V }.

(** WaveletOctree, wavelet_octree.h:50-145: root_index_offset_ = 2^(tree_height-1) per axis. *)
Definition wo_offset (T h : Z) : Z := div_exp2_floor (mult_exp2 1 (T - 1)) h.
(** toInternal(OctreeIndex), wavelet_octree.h:125-130 *)
Definition wo_toInternal (T : Z) (i : oidx) : oidx := OI (oh i) (imap (fun c => c + wo_offset T (oh i)) (opos i)).
(** toExternalNodeIndex, wavelet_octree.h:134-139 *)
Definition wo_toExternal (T : Z) (i : oidx) : oidx := OI (oh i) (imap (fun c => c - wo_offset T (oh i)) (opos i)).

(** getCellValue, setCellValue, addToCellValue on OctreeIndex, impl/wavelet_octree_inl.h:50-148; the
    Index3D overloads call them with height 0 (lines 45-48, 69-73, 111-115). *)
Definition wo_get (C : wconfig) (t : wtree) (i : oidx) : V := wt_get (cT C) t (wo_toInternal (cT C) i).
Definition wo_set (C : wconfig) (t : wtree) (i : oidx) (v : V) : wtree := wt_set (cT C) t (wo_toInternal (cT C) i) v.
Definition wo_add (C : wconfig) (t : wtree) (i : oidx) (u : V) : wtree := wt_add (cT C) t (wo_toInternal (cT C) i) u.
(** threshold, prune, clear: wavelet_octree.cc:24-32, impl/wavelet_octree_inl.h:21-24 *)
Definition wo_threshold (C : wconfig) (t : wtree) : wtree :=
  let '(n, su) := wo_threshold_rec (clo C) (chi C) (wroot t) (wscale t) in WT n (nsub N (wscale t) su).
Definition wo_prune (C : wconfig) (t : wtree) : wtree :=
  let '(n, su) := wo_prune_rec (clo C) (chi C) (wroot t) (wscale t) in WT n (nsub N (wscale t) su).
Definition wo_clear (t : wtree) : wtree := wt_new.
(** forEachLeaf, wavelet_octree.cc:64-103 (leaf indices are reported in external coordinates) *)
Definition wo_forEachLeaf (fuel : nat) (C : wconfig) (t : wtree) : option (list (oidx * V)) :=
  option_map (map (fun iv => (wo_toExternal (cT C) (fst iv), snd iv)))
    (wt_forEachLeaf fuel 0 (OI (cT C) (I3 0 0 0)) t).

(** getMinPossibleIndex, getMaxPossibleIndex: impl/wavelet_octree_inl.h:35-43 *)
Definition wo_minPossible (C : wconfig) : idx3 := let o := - mult_exp2 1 (cT C - 1) in I3 o o o.
Definition wo_maxPossible (C : wconfig) : idx3 :=
  let o := exp2 (cT C) - 1 - mult_exp2 1 (cT C - 1) in I3 o o o.
(** nodeIndexToMinCornerIndex / nodeIndexToMaxCornerIndex, indexing/index_conversions.h:163-180 *)
Definition minCorner (i : oidx) : idx3 := imap (fun c => mult_exp2 c (oh i)) (opos i).
Definition maxCorner (i : oidx) : idx3 := imap (fun c => mult_exp2 c (oh i) + (exp2 (oh i) - 1)) (opos i).
(** getMinIndex, getMaxIndex: wavelet_octree.cc:34-62, for maps that are not empty() (for an empty map
    the code returns `{}`, an uninitialised Eigen vector). [None]: fuel of forEachLeaf exhausted. *)
Definition wo_minIndex (fuel : nat) (C : wconfig) (t : wtree) : option idx3 :=
  option_map (fun l => fold_left (fun acc iv => if isUnobserved (snd iv) then acc
                                                else imap2 Z.min acc (minCorner (fst iv))) l (wo_maxPossible C))
    (wo_forEachLeaf fuel C t).
Definition wo_maxIndex (fuel : nat) (C : wconfig) (t : wtree) : option idx3 :=
  option_map (fun l => fold_left (fun acc iv => if isUnobserved (snd iv) then acc
                                                else imap2 Z.max acc (maxCorner (fst iv))) l (wo_minPossible C))
    (wo_forEachLeaf fuel C t).

(* ---------------------------------------------------------------------------------------------- *)
(** HashedWaveletOctreeBlock, hashed_wavelet_octree_block.h:12-86. Timestamps are integers. *)
Record wblock := WB { btree : wtree; bthr : bool; bprn : bool; bstamp : Z }.
Definition wb_new (now : Z) : wblock := WB wt_new false false now.
(** getCellValue, impl/hashed_wavelet_octree_block_inl.h:20-33 *)
Definition wb_get (C : wconfig) (b : wblock) (i : oidx) : V := wt_get (cT C) (btree b) i.
(** setCellValue / addToCellValue, hashed_wavelet_octree_block.cc:33-106 *)
Definition wb_set (C : wconfig) (now : Z) (b : wblock) (i : oidx) (v : V) : wblock :=
  WB (wt_set (cT C) (btree b) i v) true true now.
Definition wb_add (C : wconfig) (now : Z) (b : wblock) (i : oidx) (u : V) : wblock :=
  WB (wt_add (cT C) (btree b) i u) true true now.
(** threshold, prune, clear, empty: hashed_wavelet_octree_block.cc:9-31 *)
Definition wb_threshold (C : wconfig) (b : wblock) : wblock :=
  if bthr b then
    let '(n, s) := threshold_rec (clo C) (chi C) (wroot (btree b)) (wscale (btree b)) in
    WB (WT n s) false (bprn b) (bstamp b)
  else b.
Definition wb_prune (C : wconfig) (b : wblock) : wblock :=
  if bprn b then
    let b1 := wb_threshold C b in
    WB (WT (prune_rec (wroot (btree b1))) (wscale (btree b1))) (bthr b1) false (bstamp b1)
  else b.
Definition wb_clear (now : Z) (b : wblock) : wblock := WB wt_new (bthr b) (bprn b) now.
Definition wb_empty (b : wblock) : bool := wt_empty (btree b).

(** HashedWaveletOctree, hashed_wavelet_octree.h:59-130 *)
Definition hmap := shash wblock.
(** convert::indexToBlockIndex, data_structure/impl/spatial_hash_inl.h:8-13 *)
Definition indexToBlockIndex3 (i : idx3) (log2_side : Z) : idx3 := imap (fun c => div_exp2_floor c log2_side) i.
(** indexToBlockIndex, indexToCellIndex: impl/hashed_wavelet_octree_inl.h:97-110 *)
Definition hw_blockIndex (C : wconfig) (i : oidx) : idx3 :=
  indexToBlockIndex3 (imap (fun c => mult_exp2 c (oh i)) (opos i)) (cT C).
Definition hw_cellIndex (C : wconfig) (i : oidx) : oidx :=
  OI (oh i) (imap (fun c => div_exp2_floor_remainder c (cT C - oh i)) (opos i)).
(** getCellValue(OctreeIndex), impl/hashed_wavelet_octree_inl.h:27-36 *)
Definition hw_get_node (C : wconfig) (m : hmap) (i : oidx) : V :=
  match getBlock m (hw_blockIndex C i) with
  | None => n0 N
  | Some b => wb_get C b (hw_cellIndex C i)
  end.
(** getCellValue(Index3D), setCellValue, addToCellValue: impl/hashed_wavelet_octree_inl.h:15-25,38-54 *)
Definition hw_get (C : wconfig) (m : hmap) (i : idx3) : V :=
  match getBlock m (indexToBlockIndex3 i (cT C)) with
  | None => n0 N
  | Some b => wb_get C b (hw_cellIndex C (OI 0 i))
  end.
Definition hw_set (C : wconfig) (now : Z) (m : hmap) (i : idx3) (v : V) : hmap :=
  let bi := indexToBlockIndex3 i (cT C) in
  setBlock m bi (wb_set C now (blockOrNew (wb_new now) m bi) (hw_cellIndex C (OI 0 i)) v).
Definition hw_add (C : wconfig) (now : Z) (m : hmap) (i : idx3) (u : V) : hmap :=
  let bi := indexToBlockIndex3 i (cT C) in
  setBlock m bi (wb_add C now (blockOrNew (wb_new now) m bi) (hw_cellIndex C (OI 0 i)) u).
(** threshold, prune, pruneSmart, clear, empty: hashed_wavelet_octree.cc:25-50, .h:77-82.
    [max_age] is only_prune_blocks_if_unused_for, in the (integer) unit of the time stamps. *)
Definition hw_threshold (C : wconfig) (m : hmap) : hmap := forEachBlock (fun _ => wb_threshold C) m.
Definition hw_prune (C : wconfig) (m : hmap) : hmap :=
  eraseBlockIf (fun _ b => let b' := wb_prune C b in (b', wb_empty b')) m.
Definition hw_pruneSmart (C : wconfig) (max_age now : Z) (m : hmap) : hmap :=
  eraseBlockIf (fun _ b => let b' := if max_age <? now - bstamp b then wb_prune C b else b in (b', wb_empty b')) m.
Definition hw_clear (m : hmap) : hmap := [].
Definition hw_empty (m : hmap) : bool := match m with [] => true | _ => false end.
(** getMinIndex, getMaxIndex: hashed_wavelet_octree.cc:63-72 *)
Definition hw_min_index (C : wconfig) (m : hmap) : idx3 := imap (fun c => exp2 (cT C) * c) (getMinBlockIndex m).
Definition hw_max_index (C : wconfig) (m : hmap) : idx3 :=
  if hw_empty m then I3 0 0 0 else imap (fun c => exp2 (cT C) * (c + 1) - 1) (getMaxBlockIndex m).
(** forEachLeaf, hashed_wavelet_octree.cc:74-80: all blocks in turn; [None] if the fuel of a block runs out *)
Fixpoint hw_forEachLeaf (fuel : wblock -> nat) (C : wconfig) (m : hmap) : option (list (oidx * V)) :=
  match m with
  | [] => Some []
  | (k, b) :: m' =>
      match wt_forEachLeaf (fuel b) 0 (OI (cT C) k) (btree b), hw_forEachLeaf fuel C m' with
      | Some l, Some l' => Some (l ++ l')
      | _, _ => None
      end
  end.
End Wavelet.
Arguments WT {V}. Arguments wroot {V}. Arguments wscale {V}.
Arguments WC {V}. Arguments cT {V}. Arguments clo {V}. Arguments chi {V}.
Arguments WB {V}. Arguments btree {V}. Arguments bthr {V}. Arguments bprn {V}. Arguments bstamp {V}.
