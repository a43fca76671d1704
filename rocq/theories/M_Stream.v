(** Saving and loading maps: /repo/library/cpp/src/io/stream_conversions.cc (lines "cc:"), the byte formats of
    /repo/library/cpp/include/wavemap/io/impl/streamable_types_impl.h (lines "impl:") and streamable_types.h.
    A byte is an integer in 0..255. Fields are dumped in the memory layout of a little-endian machine. *)
From Verif Require Import Base M_IntMath M_NdtreeIndex M_Num M_Haar M_Haar3 M_Ndtree M_Wavelet M_HashedBlocks M_Chunked M_Subtree.

(** ostream.write(reinterpret_cast<const char*>(&x), n) for an integer x of n bytes. The output stream is
    modelled by the bytes written; write errors are not modelled. *)
Definition le_bytes (n : nat) (x : Z) : list Z := map (fun k => (x / 2 ^ (8 * Z.of_nat k)) mod 256) (seq 0 n).
(** The integer in a little-endian variable *)
Fixpoint le_value (l : list Z) : Z := match l with [] => 0 | b :: l' => b + 256 * le_value l' end.

(** An input stream: the bytes not read yet, and good() *)
Record istream := IS { irest : list Z; igood : bool }.
(** istream.read(&x, n): [init] are the bytes of x before the call. If fewer than n bytes are left, those are
    stored, and eofbit and failbit are set; if the stream is not good, nothing happens. *)
Definition iread (n : nat) (init : list Z) (s : istream) : list Z * istream :=
  if igood s then
    if (n <=? length (irest s))%nat then (firstn n (irest s), IS (skipn n (irest s)) true)
    else (irest s ++ skipn (length (irest s)) init, IS [] false)
  else (init, s).

(** StorageFormat::Id, streamable_types.h:91 *)
Definition kWaveletOctree : Z := 0.
Definition kHashedWaveletOctree : Z := 1.
Definition kHashedBlocks : Z := 2.
(** StorageFormat::read, impl:146-150; the id is initialised with kInvalidTypeId = -1 (core/config/type_selector.h:18,48) *)
Definition r_format (s : istream) : Z * istream := let '(b, s1) := iread 4 [255; 255; 255; 255] s in (i32 (le_value b), s1).
(** StorageFormat::peek, impl:152-157: seekg clears eofbit but has no effect while failbit is set, so that after a failed
    read the stream is not good *)
Definition peek_format (s : istream) : Z * istream := let '(x, s1) := r_format s in (x, if igood s1 then s else s1).
(** Zero-initialised integer fields *)
Definition r_i32 (s : istream) : Z * istream := let '(b, s1) := iread 4 [0; 0; 0; 0] s in (i32 (le_value b), s1).
Definition r_u64 (s : istream) : Z * istream := let '(b, s1) := iread 8 [0; 0; 0; 0; 0; 0; 0; 0] s in (le_value b, s1).
Definition r_u8 (s : istream) : Z * istream := let '(b, s1) := iread 1 [0] s in (le_value b, s1).
(** Index3D::read, Index3D::write, impl:5-17 *)
Definition r_index (s : istream) : idx3 * istream :=
  let '(x, s1) := r_i32 s in let '(y, s2) := r_i32 s1 in let '(z, s3) := r_i32 s2 in (I3 x y z, s3).
Definition w_index (i : idx3) : list Z := le_bytes 4 (px i) ++ le_bytes 4 (py i) ++ le_bytes 4 (pz i).

(** What a typed streamToMap does: run out of fuel (never, see the theorems), abort the program (CHECK), return false
    without touching the map pointer, or set the pointer to a new map, leave the stream in state [s] and return its
    good(). *)
Inductive outcome (M : Type) := OFuel | OAbort | ORefused | ODone (m : M) (s : istream).
Arguments OFuel {M}. Arguments OAbort {M}. Arguments ORefused {M}. Arguments ODone {M}.

Section STREAM.
(** A float's 32 bits: [enc] (as an integer in 0..2^32-1) and [dec] *)
Context {V : Type} (N : num V) (enc : V -> Z) (dec : Z -> V).
Notation wnode := (node (det V)).

Definition w_f32 (v : V) : list Z := le_bytes 4 (enc v).
Definition r_f32 (s : istream) : V * istream := let '(b, s1) := iread 4 [0; 0; 0; 0] s in (dec (le_value b), s1).
Definition isValidBase (w lo hi : V) : bool := nltb N (n0 N) w && nltb N lo hi.

(** ** HashedBlocks *)
(** mapToStream(HashedBlocks), cc:76-119; HashedBlocksHeader::write, impl:29-37; HashedBlockHeader::write, impl:19-21.
    [w] is the map's min_cell_width. *)
Definition hb_save (w : V) (C : hbconfig V) (m : hbmap (V := V)) : list Z :=
  le_bytes 4 kHashedBlocks ++ w_f32 w ++ w_f32 (hlo C) ++ w_f32 (hhi C) ++ le_bytes 8 (Z.of_nat (length m)) ++
  flat_map (fun kb => w_index (fst kb) ++ flat_map w_f32 (snd kb)) m.
(** The loop over the cells, cc:157-163 *)
Fixpoint r_cells (n : nat) (s : istream) : list V * istream :=
  match n with
  | O => ([], s)
  | S n' => let '(v, s1) := r_f32 s in let '(l, s2) := r_cells n' s1 in (v :: l, s2)
  end.
(** The loop over the blocks, cc:141-164; returning false at 145-147 is the same as leaving the loop, since then good()
    is false at 167. All cells of the block referred to by getOrAllocateBlock are assigned. *)
Fixpoint hb_load_blocks (fuel : nat) (C : hbconfig V) (num : Z) (m : hbmap) (s : istream) : option (hbmap * istream) :=
  if num <=? 0 then Some (m, s) else
  match fuel with
  | O => None
  | S fuel' =>
      if negb (igood s) then Some (m, s) else
      let '(i, s1) := r_index s in
      let '(cells, s2) := r_cells (Z.to_nat (hb_ncells C)) s1 in
      hb_load_blocks fuel' C (num - 1) (setBlock m i cells) s2
  end.
(** streamToMap(HashedBlocks), cc:121-169; HashedBlocksHeader::read, impl:39-50; the constructor checks the config
    (core/map/hashed_blocks.h:24-26, default_value 0; core/map/map_base.cc:11-18; CHECK in core/config/config_base.h:56-59);
    16^3 cells per block (core/map/hashed_blocks.h:14-15) *)
Definition hb_load (fuel : nat) (s : istream) : outcome (V * hbconfig V * hbmap) :=
  if negb (igood s) then ORefused else
  let '(f, s0) := r_format s in
  if negb (f =? kHashedBlocks) then ORefused else
  let '(w, s1) := r_f32 s0 in let '(lo, s2) := r_f32 s1 in let '(hi, s3) := r_f32 s2 in let '(num, s4) := r_u64 s3 in
  if negb (isValidBase w lo hi) then OAbort else
  let C := HBC lo hi (n0 N) 4 in
  match hb_load_blocks fuel C num [] s4 with
  | None => OFuel
  | Some (m, s5) => ODone (w, C, m) s5
  end.

(** ** Octree nodes *)
(** WaveletOctreeNode::write, impl:52-59; allocated_children_bitset as a number *)
Definition w_node (d : det V) (bits : Z) : list Z := flat_map w_f32 (dlist d) ++ le_bytes 1 bits.
(** WaveletOctreeNode::read, impl:61-69 *)
Definition r_node (s : istream) : det V * Z * istream :=
  let '(d1, s1) := r_f32 s in let '(d2, s2) := r_f32 s1 in let '(d3, s3) := r_f32 s2 in let '(d4, s4) := r_f32 s3 in
  let '(d5, s5) := r_f32 s4 in let '(d6, s6) := r_f32 s5 in let '(d7, s7) := r_f32 s6 in let '(b, s8) := r_u8 s7 in
  (Det d1 d2 d3 d4 d5 d6 d7, b, s8).
(** The set of children as a bitset, cc:199-205 *)
Definition child_bits (has : Z -> bool) : Z := fold_left (fun acc c => acc + (if has c then 2 ^ c else 0)) child_ids 0.
(** Assigning to the node a pointer refers to; [q] is the path of child indices that leads to it *)
Fixpoint at_path (q : list Z) (f : wnode -> wnode) (n : wnode) : wnode :=
  match q with
  | [] => f n
  | c :: q' => match getChild n c with Some ch => setChild n c (at_path q' f ch) | None => n end
  end.
(** The reading loop, cc:242-263 and 391-417: a stack of pointers into the tree that is being built *)
Fixpoint r_tree (fuel : nat) (stack : list (list Z)) (root : wnode) (s : istream) : option (wnode * istream) :=
  match stack with
  | [] => Some (root, s)
  | q :: st =>
      match fuel with
      | O => None
      | S fuel' =>
          let '(d, bits, s1) := r_node s in
          let kids := filter (fun c => Z.testbit bits c) (rev child_ids) in
          let root1 := at_path q (fun n => Node d (nkids n)) root in
          let root2 := fold_left (fun r c => at_path q (fun n => setChild n c (childOrNew (dzero N) n c)) r) kids root1 in
          r_tree fuel' (fold_left (fun st c => (q ++ [c]) :: st) kids st) root2 s1
      end
  end.

(** ** WaveletOctree *)
(** mapToStream(WaveletOctree), cc:171-211; WaveletOctreeHeader::write, impl:71-82 *)
Definition wo_save (fuel : nat) (w : V) (C : wconfig (V := V)) (t : wtree (V := V)) : option (list Z) :=
  match iterate pre_next fuel (pre_begin (wroot t)) with
  | None => None
  | Some l => Some (le_bytes 4 kWaveletOctree ++ w_f32 w ++ w_f32 (clo C) ++ w_f32 (chi C) ++ le_bytes 4 (cT C) ++ w_f32 (wscale t) ++
      flat_map (fun x => w_node (ndata (snd x)) (child_bits (fun c => match getChild (snd x) c with Some _ => true | None => false end))) l)
  end.
(** streamToMap(WaveletOctree), cc:213-267; WaveletOctreeHeader::read, impl:84-97; constructor
    (core/map/wavelet_octree.h:61-62, core/map/wavelet_octree.cc:14-22) *)
Definition wo_load (fuel : nat) (s : istream) : outcome (V * wconfig * wtree) :=
  if negb (igood s) then ORefused else
  let '(f, s0) := r_format s in
  if negb (f =? kWaveletOctree) then ORefused else
  let '(w, s1) := r_f32 s0 in let '(lo, s2) := r_f32 s1 in let '(hi, s3) := r_f32 s2 in
  let '(th, s4) := r_i32 s3 in let '(scale, s5) := r_f32 s4 in
  if negb (isValidBase w lo hi && (0 <? th)) then OAbort else
  match r_tree fuel [[]] (Node (dzero N) None) s5 with
  | None => OFuel
  | Some (root, s6) => ODone (w, WC th lo hi, WT root scale) s6
  end.

(** ** HashedWaveletOctree *)
(** A child's average value is saturated, cc:337-339 (with 282-284) *)
Definition saturated (C : wconfig (V := V)) (v : V) : bool :=
  nltb N v (nadd N (clo C) (neps N)) || nltb N (nsub N (chi C) (neps N)) v.
(** The writing loop, cc:317-350, over a stack of (scale, node) *)
Fixpoint hw_save_loop (fuel : nat) (C : wconfig (V := V)) (stack : list (V * wnode)) : option (list Z) :=
  match stack with
  | [] => Some []
  | (scale, n) :: st =>
      match fuel with
      | O => None
      | S fuel' =>
          let child_scales := backward3 N scale (ndata n) in
          let kept c := negb (saturated C (oget child_scales c)) && match getChild n c with Some _ => true | None => false end in
          let st' := fold_left (fun st c => if saturated C (oget child_scales c) then st
                                            else match getChild n c with Some ch => (oget child_scales c, ch) :: st | None => st end)
                       (rev child_ids) st in
          option_map (app (w_node (ndata n) (child_bits kept))) (hw_save_loop fuel' C st')
      end
  end.
Fixpoint concat_opt {A B} (f : A -> option (list B)) (l : list A) : option (list B) :=
  match l with
  | [] => Some []
  | a :: l' => match f a, concat_opt f l' with Some x, Some y => Some (x ++ y) | _, _ => None end
  end.
(** HashedWaveletOctreeHeader::write, impl:114-124, with the format id (cc:287-299, 445-456) *)
Definition w_hw_header (w : V) (C : wconfig (V := V)) (num : Z) : list Z :=
  le_bytes 4 kHashedWaveletOctree ++ w_f32 w ++ w_f32 (clo C) ++ w_f32 (chi C) ++ le_bytes 4 (cT C) ++ le_bytes 8 num.
(** mapToStream(HashedWaveletOctree), cc:269-354; block header: impl:99-103 *)
Definition hw_save (fuel : nat) (w : V) (C : wconfig (V := V)) (m : hmap (V := V)) : option (list Z) :=
  option_map (app (w_hw_header w C (Z.of_nat (length m))))
    (concat_opt (fun kb => option_map (fun l => w_index (fst kb) ++ w_f32 (wscale (btree (snd kb))) ++ l)
                    (hw_save_loop fuel C [(wscale (btree (snd kb)), wroot (btree (snd kb)))])) m).
(** The loop over the blocks, cc:377-419; [now] is the time stamp of newly allocated blocks *)
Fixpoint hw_load_blocks (fuel : nat) (now : Z) (num : Z) (m : hmap (V := V)) (s : istream) : option (hmap (V := V) * istream) :=
  if num <=? 0 then Some (m, s) else
  match fuel with
  | O => None
  | S fuel' =>
      if negb (igood s) then Some (m, s) else
      let '(i, s1) := r_index s in
      let '(scale, s2) := r_f32 s1 in
      let b := blockOrNew (wb_new N now) m i in
      match r_tree fuel' [[]] (wroot (btree b)) s2 with
      | None => None
      | Some (root, s3) => hw_load_blocks fuel' now (num - 1) (setBlock m i (WB (WT root scale) (bthr b) (bprn b) (bstamp b))) s3
      end
  end.
(** streamToMap(HashedWaveletOctree), cc:356-424; HashedWaveletOctreeHeader::read, impl:126-140; block header: impl:105-112;
    constructor (core/map/hashed_wavelet_octree.h:70-72, core/map/hashed_wavelet_octree.cc:15-23) *)
Definition hw_load (fuel : nat) (now : Z) (s : istream) : outcome (V * wconfig * hmap (V := V)) :=
  if negb (igood s) then ORefused else
  let '(f, s0) := r_format s in
  if negb (f =? kHashedWaveletOctree) then ORefused else
  let '(w, s1) := r_f32 s0 in let '(lo, s2) := r_f32 s1 in let '(hi, s3) := r_f32 s2 in
  let '(th, s4) := r_i32 s3 in let '(num, s5) := r_u64 s4 in
  if negb (isValidBase w lo hi && (0 <? th)) then OAbort else
  match hw_load_blocks fuel now num [] s5 with
  | None => OFuel
  | Some (m, s6) => ODone (w, WC th lo hi, m) s6
  end.

(** ** HashedChunkedWaveletOctree *)
(** The writing loop, cc:474-507, over a stack of (scale, node reference) *)
Fixpoint hc_save_loop (fuel : nat) (C : wconfig (V := V)) (root : chunk (det V)) (stack : list (V * nref)) : option (list Z) :=
  match stack with
  | [] => Some []
  | (scale, r) :: st =>
      match fuel with
      | O => None
      | S fuel' =>
          let data := nr_data (dzero N) root r in
          let child_scales := backward3 N scale data in
          let kept c := negb (saturated C (oget child_scales c)) &&
                        match nr_getChild kChunkHeight root r c with Some _ => true | None => false end in
          let st' := fold_left (fun st c => if saturated C (oget child_scales c) then st
                                            else match nr_getChild kChunkHeight root r c with Some ch => (oget child_scales c, ch) :: st | None => st end)
                       (rev child_ids) st in
          option_map (app (w_node data (child_bits kept))) (hc_save_loop fuel' C root st')
      end
  end.
(** mapToStream(HashedChunkedWaveletOctree), cc:426-511 *)
Definition hc_save (fuel : nat) (w : V) (C : wconfig (V := V)) (m : cmap (V := V)) : option (list Z) :=
  option_map (app (w_hw_header w C (Z.of_nat (length m))))
    (concat_opt (fun kb => option_map (fun l => w_index (fst kb) ++ w_f32 (cscale (cbtree (snd kb))) ++ l)
                    (hc_save_loop fuel C (croot (cbtree (snd kb))) [(cscale (cbtree (snd kb)), nr_root)])) m).

(** ** Any map *)
Inductive anymap :=
| AnyHB (w : V) (C : hbconfig V) (m : hbmap (V := V))
| AnyWO (w : V) (C : wconfig (V := V)) (t : wtree (V := V))
| AnyHW (w : V) (C : wconfig (V := V)) (m : hmap (V := V))
| AnyHC (w : V) (C : wconfig (V := V)) (m : cmap (V := V))
| AnyOther.   (* VolumetricOctree *)
(** mapToStream(MapBase), cc:8-32: the bytes written, or false *)
Inductive saved := SFuel | SFalse | STrue (l : list Z).
Definition map_save (fuel : nat) (m : anymap) : saved :=
  match m with
  | AnyHB w C m => STrue (hb_save w C m)
  | AnyWO w C t => match wo_save fuel w C t with Some l => STrue l | None => SFuel end
  | AnyHW w C m => match hw_save fuel w C m with Some l => STrue l | None => SFuel end
  | AnyHC w C m => match hc_save fuel w C m with Some l => STrue l | None => SFuel end
  | AnyOther => SFalse
  end.
(** streamToMap(MapBase), cc:34-74: the program is aborted, or false is returned and the caller's pointer kept or reset
    to null, or true is returned and the pointer set. (A pointer passed in never matters: the typed converters replace
    it.) *)
Inductive load := LFuel | LAbort | LKept | LNull | LOk (m : anymap) (s : istream).
Definition map_load (fuel : nat) (now : Z) (s : istream) : load :=
  if negb (igood s) then LKept else
  let '(f, s1) := peek_format s in
  if f =? kHashedBlocks then
    match hb_load fuel s1 with OFuel => LFuel | OAbort => LAbort | ORefused => LKept
    | ODone (w, C, m) s2 => if igood s2 then LOk (AnyHB w C m) s2 else LKept end
  else if f =? kWaveletOctree then
    match wo_load fuel s1 with OFuel => LFuel | OAbort => LAbort | ORefused => LKept
    | ODone (w, C, t) s2 => if igood s2 then LOk (AnyWO w C t) s2 else LKept end
  else if f =? kHashedWaveletOctree then
    match hw_load fuel now s1 with OFuel => LFuel | OAbort => LAbort | ORefused => LKept
    | ODone (w, C, m) s2 => if igood s2 then LOk (AnyHW w C m) s2 else LKept end
  else LNull.
End STREAM.
