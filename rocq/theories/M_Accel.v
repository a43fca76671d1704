(** Query accelerators: /repo/library/cpp/include/wavemap/core/utils/query/query_accelerator.h (lines "h:"),
    impl/query_accelerator_inl.h ("inl:") and /repo/library/cpp/src/core/utils/query/query_accelerator.cc ("cc:"). *)
From Verif Require Import Base M_IntMath M_Morton M_NdtreeIndex M_Num M_Haar M_Haar3 M_Ndtree M_Wavelet M_Chunked M_Octree.

(** std::numeric_limits<IndexElement>::max() in every component: the initial block index, h:155-156 and cc:10 *)
Definition no_block : idx3 := I3 (2 ^ 31 - 1) (2 ^ 31 - 1) (2 ^ 31 - 1).
(** morton::kMaxTreeHeight<3>, utils/bits/morton_encoding.h:10-11: the length of the stacks (h:107, 152-153) *)
Definition kMaxTreeHeight3 : Z := 64 / 3 - 1.
(** Assignment to one element of a std::array *)
Definition aset {A} (f : Z -> A) (h : Z) (a : A) : Z -> A := fun j => if j =? h then a else f j.

(** QueryAccelerator<HashedWaveletOctree>, h:121-159 and cc:6-79, and QueryAccelerator<HashedChunkedWaveletOctree>,
    h:172-212 and cc:81-154, which differ only in the type of node pointers. [P] are (non-null) node pointers, [pdata]
    and [pchild] read a node; [bsc] is Transform::backwardSingleChild; [block_root] is map_.getBlock followed by
    getRootNode() and getRootScale(); [block_index] is map_.indexToBlockIndex; [T] is tree_height_. *)
Section WAVELET.
Context {P D V : Type} (pdata : P -> D) (pchild : P -> Z -> option P) (bsc : V -> D -> Z -> V) (zero : V).
Context (T : Z) (block_root : idx3 -> option (P * V)) (block_index : oidx -> idx3).
(** h:152-158 *)
Record acc := ACC { a_nodes : Z -> option P; a_vals : Z -> V; a_block : idx3; a_morton : Z; a_height : Z }.
(** Initial state (h:152-158) and reset() (cc:6-13) *)
Definition acc_new : acc := ACC (fun _ => None) (fun _ => zero) no_block (2 ^ 64 - 1) T.
(** The loop cc:65-76; [k] = height_ - index.height *)
Fixpoint acc_walk (k : nat) (nodes : Z -> option P) (vals : Z -> V) (morton h : Z) : (Z -> option P) * (Z -> V) * Z :=
  match k with
  | O => (nodes, vals, h)
  | S k' =>
      match nodes h with
      | None => (nodes, vals, h)
      | Some p =>
          let c := relativeChildIndexFromMorton 3 morton h in
          acc_walk k' (aset nodes (h - 1) (pchild p c)) (aset vals (h - 1) (bsc (vals h) (pdata p) c)) morton (h - 1)
      end
  end.
(** cc:52-78, after height_ has been set to [h]; [None]: the CHECK_NOTNULL of line 59 fails *)
Definition acc_finish (nodes : Z -> option P) (vals : Z -> V) (b : idx3) (morton prev_h h ih : Z) : option (acc * V) :=
  if h =? ih then Some (ACC nodes vals b morton h, vals h) else
  match (if negb (prev_h =? T) && (h =? prev_h)
         then match nodes (h + 1) with
              | None => None
              | Some p => Some (aset nodes h (pchild p (relativeChildIndexFromMorton 3 morton (h + 1))))
              end
         else Some nodes) with
  | None => None
  | Some nodes1 =>
      let '(nodes', vals', h') := acc_walk (Z.to_nat (h - ih)) nodes1 vals morton h in
      Some (ACC nodes' vals' b morton h', vals' h')
  end.
(** getCellValue, cc:15-79. [None]: undefined behaviour or an abort. Every execution accesses
    node_stack_[tree_height_] (line 27, 40 or 45), which is out of bounds if tree_height_ >= kMaxTreeHeight. *)
Definition acc_get (a : acc) (i : oidx) : option (acc * V) :=
  if kMaxTreeHeight3 <=? T then None else
  let b := block_index i in
  let morton := omorton i in
  if ieqb b (a_block a) then
    match a_nodes a T with
    | None => Some (ACC (a_nodes a) (a_vals a) b morton (a_height a), zero)
    | Some _ =>
        let l := computeLastCommonAncestorHeight 3 morton (oh i) (a_morton a) (a_height a) in
        acc_finish (a_nodes a) (a_vals a) b morton (a_height a) l (oh i)
    end
  else
    match block_root b with
    | Some (r, s) => acc_finish (aset (a_nodes a) T (Some r)) (aset (a_vals a) T s) b morton (a_height a) T (oh i)
    | None => Some (ACC (aset (a_nodes a) T None) (aset (a_vals a) T zero) b morton T, zero)
    end.
(** A sequence of queries on one accelerator *)
Fixpoint acc_queries (a : acc) (l : list oidx) : option (list V) :=
  match l with
  | [] => Some []
  | i :: l' =>
      match acc_get a i with
      | None => None
      | Some (a', v) => option_map (cons v) (acc_queries a' l')
      end
  end.
End WAVELET.

(** The two instances. A pointer to a chunked node is the tree it points into and a node reference. *)
Section INSTANCES.
Context {V : Type} (N : num V) (C : wconfig (V := V)).
Definition hw_root (m : hmap) (b : idx3) : option (node (det V) * V) :=
  option_map (fun blk => (wroot (btree blk), wscale (btree blk))) (getBlock m b).
Definition hw_acc_queries (m : hmap) (l : list oidx) : option (list V) :=
  acc_queries ndata getChild (backwardSingleChild3 N) (n0 N) (cT C) (hw_root m) (hw_blockIndex C)
    (acc_new (n0 N) (cT C)) l.
Definition hc_root (m : cmap) (b : idx3) : option ((chunk (det V) * nref) * V) :=
  option_map (fun blk => ((croot (cbtree blk), nr_root), cscale (cbtree blk))) (getBlock m b).
Definition hc_acc_queries (m : cmap) (l : list oidx) : option (list V) :=
  acc_queries (fun p => nr_data (dzero N) (fst p) (snd p))
    (fun p c => option_map (pair (fst p)) (nr_getChild kChunkHeight (fst p) (snd p) c))
    (backwardSingleChild3 N) (n0 N) (cT C) (hc_root m) (hw_blockIndex C)
    (acc_new (n0 N) (cT C)) l.
End INSTANCES.

(** QueryAccelerator<SpatialHash>, h:25-46 and inl:8-35, and the block cache of QueryAccelerator<DenseBlockHash>,
    h:49-73 and inl:37-65. A non-null block pointer is the index of the block it points to (blocks live in an
    unordered_map, so pointers stay valid while other blocks are added). *)
Section BLOCKS.
Context {B : Type}.
Record bacc := BACC { bc_index : idx3; bc_block : option idx3 }.
Definition bacc_new : bacc := BACC no_block None.
Definition bacc_get (m : shash B) (a : bacc) (b : idx3) : bacc * option B :=
  let a' := if ieqb b (bc_index a) then a else BACC b (if hasBlock m b then Some b else None) in
  (a', match bc_block a' with Some k => getBlock m k | None => None end).
(** getOrAllocateBlock, inl:25-35: (accelerator, map, block) *)
Definition bacc_alloc (dflt : B) (m : shash B) (a : bacc) (b : idx3) : bacc * shash B * option B :=
  if negb (ieqb b (bc_index a)) || match bc_block a with None => true | _ => false end
  then let m' := setBlock m b (blockOrNew dflt m b) in (BACC b (Some b), m', getBlock m' b)
  else (a, m, match bc_block a with Some k => getBlock m k | None => None end).
Inductive bacc_call := BGet (b : idx3) | BAlloc (b : idx3).
(** Calls on one accelerator: final map and the results *)
Fixpoint bacc_run (dflt : B) (m : shash B) (a : bacc) (l : list bacc_call) : shash B * list (option B) :=
  match l with
  | [] => (m, [])
  | BGet b :: l' => let '(a', r) := bacc_get m a b in let '(m', rs) := bacc_run dflt m a' l' in (m', r :: rs)
  | BAlloc b :: l' =>
      let '(a', m1, r) := bacc_alloc dflt m a b in let '(m', rs) := bacc_run dflt m1 a' l' in (m', r :: rs)
  end.
End BLOCKS.

(** QueryAccelerator<NdtreeBlockHash>::getNode, h:76-108 and inl:67-148, on a map that does not change
    (getOrAllocateNode is modelled in M_AccelAlloc) *)
Section NDTREE.
Context {A : Type} (T : Z).
Notation nodeA := (node A).
Notation bmap := (shash nodeA).
Record nacc := NACC { n_nodes : Z -> option nodeA; n_block : idx3; n_exists : bool; n_morton : Z; n_height : Z }.
Definition nacc_new : nacc := NACC (fun _ => None) no_block false (2 ^ 64 - 1) T.
(** The loop inl:134-145, result (stack, height, node); [None]: a null pointer is dereferenced *)
Fixpoint nacc_walk (k : nat) (nodes : Z -> option nodeA) (morton h : Z) : option ((Z -> option nodeA) * Z * nodeA) :=
  match nodes h with
  | None => None
  | Some p =>
      match k with
      | O => Some (nodes, h, p)
      | S k' =>
          match getChild p (relativeChildIndexFromMorton 3 morton h) with
          | None => Some (nodes, h, p)
          | Some ch => nacc_walk k' (aset nodes (h - 1) (Some ch)) morton (h - 1)
          end
      end
  end.
(** getNode with getBlock, inl:77-90 and 107-148. [None]: undefined behaviour (also if the stack is accessed out of
    bounds, which happens if a block exists and tree_height_ >= kMaxTreeHeight) *)
Definition nacc_get (m : bmap) (a : nacc) (i : oidx) : option (nacc * option nodeA) :=
  let b := bh_blockIndex T i in
  let morton := omorton i in
  let '(nodes, ex, h1) :=
    if ieqb b (n_block a) then (n_nodes a, n_exists a, n_height a)
    else match getBlock m b with
         | Some r => (aset (n_nodes a) T (Some r), true, T)
         | None => (n_nodes a, false, T)
         end in
  if ex then
    if kMaxTreeHeight3 <=? T then None else
    let h := if h1 =? T then T else computeLastCommonAncestorHeight 3 morton (oh i) (n_morton a) (n_height a) in
    match nacc_walk (Z.to_nat (h - oh i)) nodes morton h with
    | None => None
    | Some (nodes', h', p) => Some (NACC nodes' b true morton h', Some p)
    end
  else Some (NACC nodes b false morton h1, None).
Fixpoint nacc_queries (m : bmap) (a : nacc) (l : list oidx) : option (list (option nodeA)) :=
  match l with
  | [] => Some []
  | i :: l' => match nacc_get m a i with
               | None => None
               | Some (a', r) => option_map (cons r) (nacc_queries m a' l')
               end
  end.
End NDTREE.
