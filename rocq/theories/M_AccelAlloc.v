(** Model of QueryAccelerator<NdtreeBlockHash> when nodes are also allocated and written through it:
    library/cpp/include/wavemap/core/utils/query/query_accelerator.h:76-108 and impl/query_accelerator_inl.h:67-188 ("inl").

    M_Accel models the read-only use, where the map does not change and a cached node pointer can be represented by
    the node it points to. Here the map changes under the cached pointers, so a node pointer is an address: the index
    of the block and the path of child indices from the block's root. Dereferencing looks the address up in the
    current map. (In the C++ the addresses are stable too: blocks live in an unordered_map, children behind
    unique_ptrs.) *)
From Verif Require Import Base M_IntMath M_Morton M_NdtreeIndex M_Ndtree M_Octree M_Accel.

Section ACCEL.
Context {A : Type}.
Notation tree := (node A).
Notation bmap := (shash tree).

(** The node at the end of a path of child indices, and an update of it *)
Fixpoint node_at (q : list Z) (n : tree) : option tree :=
  match q with
  | [] => Some n
  | c :: q' => match getChild n c with None => None | Some ch => node_at q' ch end
  end.
Fixpoint mod_at (q : list Z) (f : tree -> tree) (n : tree) : tree :=
  match q with
  | [] => f n
  | c :: q' => match getChild n c with None => n | Some ch => setChild n c (mod_at q' f ch) end
  end.
(** A NodeType*: block and path. *)
Definition nptr : Type := idx3 * list Z.
Definition deref (m : bmap) (p : nptr) : option tree :=
  match getBlock m (fst p) with None => None | Some r => node_at (snd p) r end.
Definition write (m : bmap) (p : nptr) (f : tree -> tree) : bmap :=
  match getBlock m (fst p) with None => m | Some r => setBlock m (fst p) (mod_at (snd p) f r) end.

(** Members node_stack_, block_index_, block_ != nullptr, morton_code and height, h:97-107. *)
Record pacc := PACC { p_stack : Z -> option nptr; p_block : idx3; p_exists : bool; p_morton : Z; p_height : Z }.

Context (T : Z) (dflt : A).
(** Constructor, h:84-85 and 99-107; also reset(), inl:67-75. *)
Definition pacc_new : pacc := PACC (fun _ => None) no_block false (2 ^ 64 - 1) T.

(** The loop of getNode, inl:134-147: (stack, height, returned pointer); [None]: a null or dangling pointer is
    dereferenced. *)
Fixpoint get_walk (k : nat) (m : bmap) (st : Z -> option nptr) (morton h : Z) : option ((Z -> option nptr) * Z * nptr) :=
  match st h with
  | None => None
  | Some p =>
      match k with
      | O => Some (st, h, p)
      | S k' =>
          match deref m p with
          | None => None
          | Some n =>
              let c := relativeChildIndexFromMorton 3 morton h in
              match getChild n c with
              | None => Some (st, h, p)
              | Some _ => get_walk k' m (aset st (h - 1) (Some (fst p, snd p ++ [c]))) morton (h - 1)
              end
          end
      end
  end.
(** The loop of getOrAllocateNode, inl:174-185; [d] is the data of a newly constructed child, i.e. what the caller's
    arguments make of it. (stack, height, map, returned pointer) *)
Fixpoint alloc_walk (d : A) (k : nat) (m : bmap) (st : Z -> option nptr) (morton h : Z)
  : option ((Z -> option nptr) * Z * bmap * nptr) :=
  match st h with
  | None => None
  | Some p =>
      match k with
      | O => Some (st, h, m, p)
      | S k' =>
          match deref m p with
          | None => None
          | Some _ =>
              let c := relativeChildIndexFromMorton 3 morton h in
              alloc_walk d k' (write m p (fun n => setChild n c (childOrNew d n c)))
                (aset st (h - 1) (Some (fst p, snd p ++ [c]))) morton (h - 1)
          end
      end
  end.
(** The height from which to walk down, inl:120-125 and 164-168 *)
Definition start_height (a : pacc) (i : oidx) (h1 : Z) : Z :=
  if h1 =? T then T else computeLastCommonAncestorHeight 3 (omorton i) (oh i) (p_morton a) (p_height a).

(** getNode with getBlock, inl:77-90 and 107-148. [None]: undefined behaviour, including the stack being accessed out
    of bounds, which happens as soon as a block exists if tree_height_ >= kMaxTreeHeight. *)
Definition pacc_get (m : bmap) (a : pacc) (i : oidx) : option (pacc * option nptr) :=
  let b := bh_blockIndex T i in
  let '(st, ex, h1) :=
    if ieqb b (p_block a) then (p_stack a, p_exists a, p_height a)
    else if hasBlock m b then (aset (p_stack a) T (Some (b, [])), true, T)
    else (p_stack a, false, T) in
  if ex then
    if kMaxTreeHeight3 <=? T then None else
    let h := start_height a i h1 in
    match get_walk (Z.to_nat (h - oh i)) m st (omorton i) h with
    | None => None
    | Some (st', h', p) => Some (PACC st' b true (omorton i) h', Some p)
    end
  else Some (PACC st b false (omorton i) h1, None).
(** getOrAllocateNode with getOrAllocateBlock, inl:92-105 and 150-188. The arguments are not passed on to
    getOrAllocateBlock (inl:160-161): the root of a new block gets the map's default value
    (data_structure/impl/ndtree_block_hash_inl.h:48-54). *)
Definition pacc_alloc (d : A) (m : bmap) (a : pacc) (i : oidx) : option (pacc * bmap * nptr) :=
  if kMaxTreeHeight3 <=? T then None else
  let b := bh_blockIndex T i in
  let '(m1, st, h1) :=
    if negb (ieqb b (p_block a)) || negb (p_exists a)
    then (setBlock m b (blockOrNew (Node dflt None) m b), aset (p_stack a) T (Some (b, [])), T)
    else (m, p_stack a, p_height a) in
  let h := start_height a i h1 in
  match alloc_walk d (Z.to_nat (h - oh i)) m1 st (omorton i) h with
  | None => None
  | Some (st', h', m', p) => Some (PACC st' b true (omorton i) h', m', p)
  end.

(** Calls on one accelerator: reading the data of the node getNode returns, and updating the data of the node
    getOrAllocateNode(index, args) returns. *)
Inductive pcall := PRead (i : oidx) | PUpdate (i : oidx) (g : A -> A).
Definition data_fn (g : A -> A) (n : tree) : tree := Node (g (ndata n)) (nkids n).
(** Final map and the values read *)
Fixpoint pacc_run (d : A) (m : bmap) (a : pacc) (l : list pcall) : option (bmap * list (option A)) :=
  match l with
  | [] => Some (m, [])
  | PRead i :: l' =>
      match pacc_get m a i with
      | None => None
      | Some (a', None) => option_map (fun r => (fst r, None :: snd r)) (pacc_run d m a' l')
      | Some (a', Some p) =>
          match deref m p with
          | None => None
          | Some n => option_map (fun r => (fst r, Some (ndata n) :: snd r)) (pacc_run d m a' l')
          end
      end
  | PUpdate i g :: l' =>
      match pacc_alloc d m a i with
      | None => None
      | Some (a', m', p) =>
          match deref m' p with
          | None => None
          | Some _ => pacc_run d (write m' p (data_fn g)) a' l'
          end
      end
  end.
End ACCEL.
Arguments PRead {A} i.
