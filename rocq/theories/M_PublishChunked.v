(** Publication of a hashed chunked wavelet octree over ROS. Files as in M_Publish.v: "pub" =
    /repo/interfaces/ros1/wavemap_ros/include/wavemap_ros/map_operations/impl/publish_map_operation_inl.h, "op" =
    /repo/interfaces/ros1/wavemap_ros/src/map_operations/publish_map_operation.cc, "msg" =
    /repo/interfaces/ros1/wavemap_ros_conversions/src/map_msg_conversions.cc. The message is the one of a hashed wavelet octree, and
    the subscriber builds a hashed wavelet octree from it (M_Publish.v). The same things are left out as there. *)
From Verif Require Import Base M_IntMath M_Num M_Haar3 M_Ndtree M_Wavelet M_HashedBlocks M_Subtree M_Stream M_Chunked M_Publish.

Section PUBLISH.
Context {V : Type} (N : num V).
Notation conf := (wconfig (V := V)).
Notation cmap := (cmap (V := V)).

(** The loop of blockToRosMsg, msg:548-580, over a stack of (scale, node reference); [saturated]: msg:463-464, 570-572 *)
Fixpoint cros_nodes (fuel : nat) (C : conf) (root : chunk (det V)) (stack : list (V * nref)) : option (list (nmsg V)) :=
  match stack with
  | [] => Some []
  | (scale, r) :: st =>
      match fuel with
      | O => None
      | S fuel' =>
          let data := nr_data (dzero N) root r in
          let child_scales := backward3 N scale data in
          let kept c := negb (saturated N C (oget child_scales c)) &&
                        match nr_getChild kChunkHeight root r c with Some _ => true | None => false end in
          let st' := fold_left (fun st c => if saturated N C (oget child_scales c) then st
                                            else match nr_getChild kChunkHeight root r c with Some ch => (oget child_scales c, ch) :: st | None => st end)
                       (rev child_ids) st in
          option_map (cons (data, child_bits kept)) (cros_nodes fuel' C root st')
      end
  end.
(** blockToRosMsg, msg:529-581. [nf]: fuel. *)
Definition cblockToRosMsg (nf : nat) (C : conf) (i : idx3) (b : cblock (V := V)) : option (bmsg V) :=
  option_map (BM i (cscale (cbtree b))) (cros_nodes nf C (croot (cbtree b)) [(cscale (cbtree b), nr_root)]).
(** mapToRosMsg(HashedChunkedWaveletOctree), msg:455-527, with include_blocks. [ord] as in M_Publish.v. *)
Definition cmapToRosMsg (nf : nat) (ord : list idx3 -> list idx3) (w : V) (C : conf) (m : cmap) (include : list idx3) : option (mmsg V) :=
  let kept := filter (hasBlock m) include in
  option_map (MM w C (map fst m))
    (map_opt (fun i => match getBlock m i with Some b => cblockToRosMsg nf C i b | None => Some (BM i (n0 N) []) end) (ord kept)).
(** The selection loop, pub:33-41. [tf]: fuel of threshold. *)
Fixpoint cpub_select (tf : nat) (C : conf) (maxn cnt : Z) (m : cmap) (changed : list idx3) : cmap * list idx3 :=
  match changed with
  | [] => (m, [])
  | i :: rest =>
      match getBlock m i with
      | None => cpub_select tf C maxn cnt m rest
      | Some b =>
          let m1 := setBlock m i (cb_threshold N tf C b) in
          if maxn <=? cnt + 1 then (m1, [i])
          else let '(m2, l) := cpub_select tf C maxn (cnt + 1) m1 rest in (m2, i :: l)
      end
  end.
(** The loop over the changed blocks, pub:29-59 *)
Fixpoint cpub_loop (fuel tf nf : nat) (ord : list idx3 -> list idx3) (w : V) (C : conf) (maxn : Z) (m : cmap)
  (changed : list idx3) : option (cmap * list (mmsg V)) :=
  match changed with
  | [] => Some (m, [])
  | _ :: _ =>
      match fuel with
      | O => None
      | S fuel' =>
          let '(m1, sel) := cpub_select tf C maxn 0 m changed in
          match cmapToRosMsg nf ord w C m1 sel with
          | None => None
          | Some msg =>
              option_map (fun r => (fst r, msg :: snd r)) (cpub_loop fuel' tf nf ord w C maxn m1 (skipn (length sel) changed))
          end
      end
  end.
(** publishHashedMap, pub:11-60: the map afterwards and the messages sent *)
Definition cpublishHashedMap (tf nf : nat) (ord : list idx3 -> list idx3) (w : V) (C : conf) (maxn : Z) (last : Z) (whole : bool) (m : cmap)
  : option (cmap * list (mmsg V)) :=
  let changed := map fst (filter (fun kb => whole || (last <? cbstamp (snd kb))) m) in
  cpub_loop (length changed) tf nf ord w C maxn m (ord changed).
End PUBLISH.

(** ** A publisher and a subscriber *)
Section SYSTEM.
Context {V : Type} (N : num V) (tf nf : nat) (w : V) (C : wconfig (V := V)) (maxn : Z).
(** The publisher's map, last_run_timestamp_internal_, the subscriber *)
Record cpsys := CPS { cps_map : cmap (V := V); cps_last : Z; cps_sub : subscriber V }.
(** publishMap, op:59-87, for hashed chunked wavelet octrees, followed by the delivery of its messages *)
Definition csys_publish (now rnow : Z) (whole : bool) (ord : list idx3 -> list idx3) (s : cpsys) : option (cpsys * list (mmsg V)) :=
  if hc_empty (cps_map s) then Some (s, [])
  else match cpublishHashedMap N tf nf ord w C maxn (cps_last s) whole (cps_map s) with
       | None => None
       | Some (m, msgs) =>
           match recv_all N rnow (cps_sub s) msgs with
           | None => None
           | Some sub => Some (CPS m now sub, msgs)
           end
       end.
End SYSTEM.
Arguments cpsys V : clear implicits.
