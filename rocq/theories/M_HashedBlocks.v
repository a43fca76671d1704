(** * HashedBlocks: dense blocks in a spatial hash
    Model of library/cpp/include/wavemap/core/data_structure/{dense_grid,dense_block_hash}.h,
    impl/dense_block_hash_inl.h, map/hashed_blocks.h, map/impl/hashed_blocks_inl.h and
    src/core/map/hashed_blocks.cc. Paths in the comments are relative to these directories. The number type is
    arbitrary ([N : num V]); no law of arithmetic is used. [K] is kCellsPerSideLog2 (4 in the code). *)
From Verif Require Import Base M_IntMath M_NdtreeIndex M_Num M_Ndtree M_Queue.

Section HB.
Context {V : Type} (N : num V).
(** MapBaseConfig (map/map_base.h:36-41) bounds, default_value_ (dense_block_hash.h:74), kCellsPerSideLog2 *)
Record hbconfig := HBC { hlo : V; hhi : V; hdef : V; hK : Z }.
Context (C : hbconfig).
(** DenseGrid (dense_grid.h:10-57): array of kCellsPerSide^3 values *)
Definition hblock := list V.
(** dense_grid.h:20-22 *)
Definition hb_side : Z := exp2 (hK C).
Definition hb_ncells : Z := exp2 (3 * hK C).
(** dense_grid.h:26-28 [DenseGrid(default_value)] *)
Definition hb_new : hblock := repeat (hdef C) (Z.to_nat hb_ncells).
(** dense_grid.h:30-50 [operator\[\], at]; indices are in range wherever the code uses them *)
Definition hb_lin (cell : idx3) : nat := Z.to_nat (indexToLinearIndex hb_side (ilist cell)).
Definition hb_at (b : hblock) (cell : idx3) : V := nth (hb_lin cell) b (hdef C).
Definition hb_put (b : hblock) (cell : idx3) (v : V) : hblock := update_nth (hb_lin cell) (fun _ => v) b.
(** impl/dense_block_hash_inl.h:144-149 [indexToBlockIndex], indexing/index_conversions.h [indexToBlockIndex] *)
Definition hb_blockIndex (i : idx3) : idx3 := imap (fun c => div_exp2_floor c (hK C)) i.
(** impl/dense_block_hash_inl.h:151-156 [indexToCellIndex] *)
Definition hb_cellIndex (i : idx3) : idx3 := imap (fun c => div_exp2_floor_remainder c (hK C)) i.
(** impl/dense_block_hash_inl.h:158-163 [cellAndBlockIndexToIndex] *)
Definition hb_index (b c : idx3) : idx3 := imap2 (fun b c => hb_side * b + c) b c.

Definition hbmap := shash hblock.
(** impl/dense_block_hash_inl.h:57-66 [getValue] *)
Definition hb_getValue (m : hbmap) (i : idx3) : option V :=
  match getBlock m (hb_blockIndex i) with Some b => Some (hb_at b (hb_cellIndex i)) | None => None end.
(** impl/dense_block_hash_inl.h:45-49 [hasValue] *)
Definition hb_hasValue (m : hbmap) (i : idx3) : bool := match hb_getValue m i with Some _ => true | None => false end.
(** impl/dense_block_hash_inl.h:78-86 [getValueOrDefault]; map/impl/hashed_blocks_inl.h:12-14 [getCellValue] *)
Definition hb_get (m : hbmap) (i : idx3) : V := match hb_getValue m i with Some v => v | None => hdef C end.
(** Assignment through the reference of impl/dense_block_hash_inl.h:68-76 [getOrAllocateValue] *)
Definition hb_modify (m : hbmap) (i : idx3) (f : V -> V) : hbmap :=
  let b := blockOrNew hb_new m (hb_blockIndex i) in
  setBlock m (hb_blockIndex i) (hb_put b (hb_cellIndex i) (f (hb_at b (hb_cellIndex i)))).
(** map/impl/hashed_blocks_inl.h:16-19 [setCellValue] *)
Definition hb_set (m : hbmap) (i : idx3) (v : V) : hbmap := hb_modify m i (fun _ => v).
(** map/impl/hashed_blocks_inl.h:21-25 [addToCellValue] with map/map_base.h:124-126 [clampedAdd] *)
Definition hb_add (m : hbmap) (i : idx3) (u : V) : hbmap := hb_modify m i (fun v => nclamp N (hlo C) (hhi C) (nadd N v u)).
(** map/hashed_blocks.h:30-32 [threshold] *)
Definition hb_threshold (m : hbmap) : hbmap := m.
(** hashed_blocks.cc:15-23 [prune]; pruneSmart is prune (map/map_base.h:82-86) *)
Definition hb_prune (m : hbmap) : hbmap :=
  eraseBlockIf (fun _ b => (b, forallb (fun v => neqb N v (hdef C)) b)) m.
(** map/hashed_blocks.h:34 [clear] *)
Definition hb_clear (m : hbmap) : hbmap := [].
(** map/hashed_blocks.h:28-29 [empty, size] with dense_block_hash.h:24-25 *)
Definition hb_empty (m : hbmap) : bool := match m with [] => true | _ => false end.
Definition hb_size (m : hbmap) : Z := hb_ncells * Z.of_nat (length m).
(** impl/dense_block_hash_inl.h:126-142 and hashed_blocks.cc:25-32 [forEachLeaf]: visited leaves in order *)
Definition list_idx (l : list Z) : idx3 := I3 (nth 0 l 0) (nth 1 l 0) (nth 2 l 0).
Definition hb_forEachLeaf (m : hbmap) : list (oidx * V) :=
  flat_map (fun kb => map (fun lin => (OI 0 (hb_index (fst kb) (list_idx (linearIndexToIndex hb_side 3 (Z.of_nat lin)))), nth lin (snd kb) (hdef C)))
    (seq 0 (Z.to_nat hb_ncells))) m.
(** hashed_blocks.cc:4-13 [getMinIndex, getMaxIndex] *)
Definition hb_minIndex (m : hbmap) : idx3 := imap (fun b => hb_side * b) (getMinBlockIndex m).
Definition hb_maxIndex (m : hbmap) : idx3 :=
  if hb_empty m then I3 0 0 0 else imap (fun b => hb_side * (b + 1) - 1) (getMaxBlockIndex m).

(** Mutating members (map/hashed_blocks.h:30-49, dense_block_hash.h:32). *)
Inductive hbcall := HBSet (i : idx3) (v : V) | HBAdd (i : idx3) (u : V) | HBThreshold | HBPrune | HBClear | HBErase (b : idx3).
Definition hb_apply (m : hbmap) (c : hbcall) : hbmap :=
  match c with
  | HBSet i v => hb_set m i v | HBAdd i u => hb_add m i u | HBThreshold => hb_threshold m
  | HBPrune => hb_prune m | HBClear => hb_clear m | HBErase b => fst (eraseBlock m b)
  end.
Definition hb_run (l : list hbcall) : hbmap := fold_left hb_apply l [].
End HB.
Arguments hbconfig : clear implicits. Arguments hbcall : clear implicits.
Arguments hlo {V}. Arguments hhi {V}. Arguments hdef {V}. Arguments hK {V}. Arguments HBC {V}.
