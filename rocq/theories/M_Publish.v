(** Map publication over ROS and reception. Files: "pub" =
    /repo/interfaces/ros1/wavemap_ros/include/wavemap_ros/map_operations/impl/publish_map_operation_inl.h, "op" =
    /repo/interfaces/ros1/wavemap_ros/src/map_operations/publish_map_operation.cc, "msg" =
    /repo/interfaces/ros1/wavemap_ros_conversions/src/map_msg_conversions.cc.
    A message is the structure that is handed to the publisher; it arrives unchanged (ROS's own encoding is not
    modelled). The profiler, the header (frame and time stamp) and the thread pool (C36, C37: all tasks are done when
    wait_all returns, and each fills its own part of the message) are left out. *)
From Verif Require Import Base M_IntMath M_Num M_Haar3 M_Ndtree M_Wavelet M_HashedBlocks M_Subtree M_Stream.

(** ** Messages *)
Section MSG.
Context {V : Type}.
Notation wnode := (node (det V)).
(** WaveletOctreeNode.msg: the coefficients and the bitset of children. The message's array has eight elements, of which
    the sender fills seven (the eighth is zero). The receiver copies all eight into an array of seven (msg:241-242,
    437-438), which is undefined behaviour; it is modelled by what happens on 64-bit machines, where the eighth value is
    stored in the padding between the coefficients and the pointer to the children (ndtree_node.h:54-55). *)
Definition nmsg := (det V * Z)%type.
(** HashedWaveletOctreeBlock.msg *)
Record bmsg := BM { bm_index : idx3; bm_scale : V; bm_nodes : list nmsg }.
(** HashedWaveletOctree.msg *)
Record mmsg := MM { mm_width : V; mm_conf : wconfig (V := V); mm_alloc : list idx3; mm_blocks : list bmsg }.
End MSG.
Arguments nmsg V : clear implicits. Arguments bmsg V : clear implicits. Arguments mmsg V : clear implicits.

Section PUBLISH.
Context {V : Type} (N : num V).
Notation wnode := (node (det V)).
Notation conf := (wconfig (V := V)).
Notation hmap := (hmap (V := V)).

(** ** Sending *)
(** The loop of blockToRosMsg, msg:348-382, over a stack of (scale, node); [saturated]: msg:264-266, 371 *)
Fixpoint ros_nodes (fuel : nat) (C : conf) (stack : list (V * wnode)) : option (list (nmsg V)) :=
  match stack with
  | [] => Some []
  | (scale, n) :: st =>
      match fuel with
      | O => None
      | S fuel' =>
          let child_scales := backward3 N scale (ndata n) in
          let kept c := negb (saturated N C (oget child_scales c)) && match getChild n c with Some _ => true | None => false end in
          let st' := fold_left (fun st c => if saturated N C (oget child_scales c) then st
                                            else match getChild n c with Some ch => (oget child_scales c, ch) :: st | None => st end)
                       (rev child_ids) st in
          option_map (cons (ndata n, child_bits kept)) (ros_nodes fuel' C st')
      end
  end.
(** blockToRosMsg, msg:330-383. [lf]: fuel. *)
Definition blockToRosMsg (lf : wblock (V := V) -> nat) (C : conf) (i : idx3) (b : wblock) : option (bmsg V) :=
  option_map (BM i (wscale (btree b))) (ros_nodes (lf b) C [(wscale (btree b), wroot (btree b))]).
Fixpoint map_opt {A B} (f : A -> option B) (l : list A) : option (list B) :=
  match l with
  | [] => Some []
  | a :: l' => match f a, map_opt f l' with Some x, Some y => Some (x :: y) | _, _ => None end
  end.
(** mapToRosMsg(HashedWaveletOctree), msg:258-328, with include_blocks. [ord] stands for the order in which a std::unordered_set
    is traversed: it gets the elements and returns them in that order. *)
Definition mapToRosMsg (lf : wblock -> nat) (ord : list idx3 -> list idx3) (w : V) (C : conf) (m : hmap) (include : list idx3) : option (mmsg V) :=
  let kept := filter (hasBlock m) include in
  option_map (MM w C (map fst m))
    (map_opt (fun i => match getBlock m i with Some b => blockToRosMsg lf C i b | None => Some (BM i (n0 N) []) end) (ord kept)).
(** The selection loop, pub:33-41: threshold the block, add it, stop after [maxn] blocks. *)
Fixpoint pub_select (C : conf) (maxn cnt : Z) (m : hmap) (changed : list idx3) : hmap * list idx3 :=
  match changed with
  | [] => (m, [])
  | i :: rest =>
      match getBlock m i with
      | None => pub_select C maxn cnt m rest
      | Some b =>
          let m1 := setBlock m i (wb_threshold N C b) in
          if maxn <=? cnt + 1 then (m1, [i])
          else let '(m2, l) := pub_select C maxn (cnt + 1) m1 rest in (m2, i :: l)
      end
  end.
(** The loop over the changed blocks, pub:29-59. Erasing elements does not reorder a std::unordered_set. *)
Fixpoint pub_loop (fuel : nat) (lf : wblock -> nat) (ord : list idx3 -> list idx3) (w : V) (C : conf) (maxn : Z) (m : hmap)
  (changed : list idx3) : option (hmap * list (mmsg V)) :=
  match changed with
  | [] => Some (m, [])
  | _ :: _ =>
      match fuel with
      | O => None
      | S fuel' =>
          let '(m1, sel) := pub_select C maxn 0 m changed in
          match mapToRosMsg lf ord w C m1 sel with
          | None => None
          | Some msg =>
              option_map (fun r => (fst r, msg :: snd r)) (pub_loop fuel' lf ord w C maxn m1 (skipn (length sel) changed))
          end
      end
  end.
(** publishHashedMap, pub:11-60: the map afterwards and the messages sent *)
Definition publishHashedMap (lf : wblock -> nat) (ord : list idx3 -> list idx3) (w : V) (C : conf) (maxn : Z) (last : Z) (whole : bool) (m : hmap)
  : option (hmap * list (mmsg V)) :=
  let changed := map fst (filter (fun kb => whole || (last <? bstamp (snd kb))) m) in
  pub_loop (length changed) lf ord w C maxn m (ord changed).

(** ** Receiving *)
(** The loop over the nodes of a block, msg:428-451; [None]: a node too many (top() of an empty stack) *)
Fixpoint ros_tree (nodes : list (nmsg V)) (stack : list (list Z)) (root : wnode) : option wnode :=
  match nodes with
  | [] => Some root
  | (d, bits) :: rest =>
      match stack with
      | [] => None
      | q :: st =>
          let kids := filter (fun c => Z.testbit bits c) (rev child_ids) in
          let root1 := at_path q (fun n => Node d (nkids n)) root in
          let root2 := fold_left (fun r c => at_path q (fun n => setChild n c (childOrNew (dzero N) n c)) r) kids root1 in
          ros_tree rest (fold_left (fun st c => (q ++ [c]) :: st) kids st) root2
      end
  end.
(** msg:413-452. [now]: the time stamp of new and of cleared blocks. *)
Definition recv_block (now : Z) (m : hmap) (bm : bmsg V) : option hmap :=
  let b := match getBlock m (bm_index bm) with Some b => wb_clear N now b | None => wb_new N now end in
  option_map (fun root => setBlock m (bm_index bm) (WB (WT root (bm_scale bm)) (bthr b) (bprn b) (bstamp b)))
    (ros_tree (bm_nodes bm) [[]] (wroot (btree b))).
Fixpoint recv_blocks (now : Z) (m : hmap) (l : list (bmsg V)) : option hmap :=
  match l with
  | [] => Some m
  | bm :: l' => match recv_block now m bm with Some m' => recv_blocks now m' l' | None => None end
  end.
(** Equality of configs; the members that are not transmitted have their default values on both sides *)
Definition veq (a b : V) : bool := negb (nltb N a b) && negb (nltb N b a).
Definition conf_eq (w : V) (C : conf) (w' : V) (C' : conf) : bool :=
  veq w w' && veq (clo C) (clo C') && veq (chi C) (chi C') && (cT C =? cT C').
(** rosMsgToMap(HashedWaveletOctree), msg:385-453. The subscriber's map pointer: null, or a map with its configuration. *)
Definition subscriber := option (V * conf * hmap).
Definition recv (now : Z) (s : subscriber) (msg : mmsg V) : option subscriber :=
  let m0 := match s with
            | Some (w, C, m) => if conf_eq w C (mm_width msg) (mm_conf msg)
                                then eraseBlockIf (fun i b => (b, negb (existsb (ieqb i) (mm_alloc msg)))) m else []
            | None => []
            end in
  option_map (fun m => Some (mm_width msg, mm_conf msg, m)) (recv_blocks now m0 (mm_blocks msg)).
Fixpoint recv_all (now : Z) (s : subscriber) (l : list (mmsg V)) : option subscriber :=
  match l with
  | [] => Some s
  | msg :: l' => match recv now s msg with Some s' => recv_all now s' l' | None => None end
  end.

(** ** WaveletOctree: the whole map in every message *)
(** WaveletOctree.msg *)
Record womsg := WOM { wom_width : V; wom_conf : conf; wom_scale : V; wom_nodes : list (nmsg V) }.
(** mapToRosMsg(WaveletOctree), msg:184-209 *)
Definition wo_toMsg (fuel : nat) (w : V) (C : conf) (t : wtree) : option womsg :=
  option_map (fun l => WOM w C (wscale t) (map (fun x => (ndata (snd x), child_bits (fun c => match getChild (snd x) c with Some _ => true | None => false end))) l))
    (iterate pre_next fuel (pre_begin (wroot t))).
(** rosMsgToMap(WaveletOctree), msg:211-256 *)
Definition wo_recv (s : option (V * conf * wtree)) (msg : womsg) : option (option (V * conf * wtree)) :=
  let t := match s with
           | Some (w, C, t) => if conf_eq w C (wom_width msg) (wom_conf msg) then t else wt_new N
           | None => wt_new N
           end in
  option_map (fun root => Some (wom_width msg, wom_conf msg, WT root (wom_scale msg))) (ros_tree (wom_nodes msg) [[]] (wroot t)).
(** publishMap, op:59-87, for the maps that are not hashed wavelet octrees: nothing if the map is empty, otherwise threshold
    and send. [wt_empty]: WaveletOctree::empty, impl/wavelet_octree_inl.h:12-19. *)
Definition wo_publish (fuel : nat) (w : V) (C : conf) (t : wtree) : option (wtree * list womsg) :=
  if wt_empty N t then Some (t, [])
  else let t1 := wo_threshold N C t in option_map (fun msg => (t1, [msg])) (wo_toMsg fuel w C t1).

(** ** HashedBlocks *)
(** HashedBlocks.msg: allocated block indices, blocks with their values *)
Record hbmsg := HBM { hbm_width : V; hbm_lo : V; hbm_hi : V; hbm_alloc : list idx3; hbm_blocks : list (idx3 * list V) }.
(** mapToRosMsg(HashedBlocks), msg:109-140 *)
Definition hb_toMsg (w : V) (C : hbconfig V) (m : hbmap (V := V)) : hbmsg := HBM w (hlo C) (hhi C) (map fst m) m.
(** Writing the received values over the first cells of a block, msg:176-180; writing past its end: [None] *)
Definition hb_overwrite (vals b : list V) : option (list V) :=
  if (length vals <=? length b)%nat then Some (vals ++ skipn (length vals) b) else None.
Fixpoint hb_recv_blocks (C : hbconfig V) (m : hbmap (V := V)) (l : list (idx3 * list V)) : option (hbmap (V := V)) :=
  match l with
  | [] => Some m
  | (i, vals) :: l' =>
      match hb_overwrite vals (blockOrNew (hb_new C) m i) with
      | Some b => hb_recv_blocks C (setBlock m i b) l'
      | None => None
      end
  end.
(** rosMsgToMap(HashedBlocks), msg:142-182 *)
Definition hb_recv (s : option (V * hbconfig V * hbmap (V := V))) (msg : hbmsg) : option (option (V * hbconfig V * hbmap (V := V))) :=
  let C := HBC (hbm_lo msg) (hbm_hi msg) (n0 N) 4 in
  let m0 := match s with
            | Some (w, C', m) => if veq w (hbm_width msg) && veq (hlo C') (hbm_lo msg) && veq (hhi C') (hbm_hi msg)
                                 then eraseBlockIf (fun i b => (b, negb (existsb (ieqb i) (hbm_alloc msg)))) m else []
            | None => []
            end in
  option_map (fun m => Some (hbm_width msg, C, m)) (hb_recv_blocks C m0 (hbm_blocks msg)).
(** publishMap, op:59-87 *)
Definition hb_publish (w : V) (C : hbconfig V) (m : hbmap (V := V)) : hbmap (V := V) * list hbmsg :=
  if hb_empty m then (m, []) else let m1 := hb_threshold m in (m1, [hb_toMsg w C m1]).
End PUBLISH.
Arguments womsg V : clear implicits. Arguments hbmsg V : clear implicits. Arguments subscriber V : clear implicits.

(** ** A publisher and a subscriber *)
Section SYSTEM.
Context {V : Type} (N : num V) (lf : wblock (V := V) -> nat) (w : V) (C : wconfig (V := V)) (maxn : Z).
(** The publisher's map, last_run_timestamp_internal_, the subscriber *)
Record psys := PSY { ps_map : hmap (V := V); ps_last : Z; ps_sub : subscriber V }.
(** publishMap, op:59-87, for hashed wavelet octrees, followed by the delivery of its messages. [now]: Time::now() at
    pub:16; [rnow]: the subscriber's clock. If the map is empty, nothing happens, and the time of the last run stays. *)
Definition sys_publish (now rnow : Z) (whole : bool) (ord : list idx3 -> list idx3) (s : psys) : option (psys * list (mmsg V)) :=
  if hw_empty (ps_map s) then Some (s, [])
  else match publishHashedMap N lf ord w C maxn (ps_last s) whole (ps_map s) with
       | None => None
       | Some (m, msgs) =>
           match recv_all N rnow (ps_sub s) msgs with
           | None => None
           | Some sub => Some (PSY m now sub, msgs)
           end
       end.
End SYSTEM.
Arguments psys V : clear implicits.
