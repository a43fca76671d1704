(** VolumetricOctree. Paths are relative to /repo/library/cpp. *)
From Verif Require Import Base M_IntMath M_Num M_Haar3 M_Ndtree M_Wavelet M_Octree.

Section VOLOCTREE.
Context {V : Type} (N : num V) (keps : V).
(** [keps]: kEpsilon, include/wavemap/core/utils/data/constants.h:15 *)
Notation tree := (node V).
(** The configuration has the same members as that of WaveletOctree:
    include/wavemap/core/map/volumetric_octree.h:17-43 *)
Notation config := (wconfig (V := V)).

(** Constructor and clear: volumetric_octree.h:55-56,62,97 (the data of the root is value-initialised). *)
Definition vo_new : tree := Node (n0 N) None.
Definition vo_clear (t : tree) : tree := nd_clear (n0 N) t.
(** empty: volumetric_octree.h:58, NdtreeNode::empty and data::is_nonzero (utils/data/comparisons.h:11-15) *)
Definition vo_empty (t : tree) : bool := nd_empty (fun v => negb (neqb N v (n0 N))) t.
(** toInternal, toExternalNodeIndex: volumetric_octree.h:99-125, the same arithmetic as in WaveletOctree. *)
Definition vo_internal (C : config) (i : oidx) : oidx := wo_toInternal (cT C) i.
Definition vo_external (C : config) (i : oidx) : oidx := wo_toExternal (cT C) i.
(** getCellValue, getDeepestNodeAtIndex: include/wavemap/core/map/impl/volumetric_octree_inl.h:29-36,64-80. The loop
    is that of Ndtree::getNodeOrAncestor. *)
Definition vo_get (C : config) (t : tree) (c : idx3) : V :=
  ndata (fst (nd_getNodeOrAncestor (cT C) t (vo_internal C (OI 0 c)))).
(** setCellValue, addToCellValue: volumetric_octree_inl.h:38-62. Cells are nodes of height 0. *)
Definition vo_set (C : config) (t : tree) (i : oidx) (v : V) : tree :=
  nd_alloc_data (cT C) (n0 N) t (vo_internal C i) (fun _ => v).
Definition vo_add (C : config) (t : tree) (i : oidx) (u : V) : tree :=
  nd_alloc_data (cT C) (n0 N) t (vo_internal C i) (fun v => nadd N v u).

(** prune, src/core/map/volumetric_octree.cc:30-84; threshold calls prune (cc:24-28). *)
Definition vo_clamp (C : config) (v : V) : V := nclamp N (clo C) (chi C) v.
Definition vo_is_leaf_near (first : V) (o : option tree) : bool :=
  match o with
  | Some ch => negb (hasChildrenArray ch) && negb (nltb N keps (nabs N (nsub N (ndata ch) first)))
  | None => negb (nltb N keps (nabs N (nsub N (n0 N) first)))
  end.
(** The second half of the recursion, cc:49-81, on the children as left by the first half. *)
Definition vo_merge (C : config) (node_value : V) (k : oct (option tree)) : tree :=
  let first := vo_clamp C (nadd N node_value (match oget k 0 with Some ch => ndata ch | None => n0 N end)) in
  if forallb (vo_is_leaf_near first) (olist k) then Node first None else Node (n0 N) (Some k).
Fixpoint vo_prune_rec (C : config) (parent_value : V) (n : tree) : tree :=
  match n with Node d kids =>
    let node_value := nadd N parent_value d in
    match kids with
    | None => Node (vo_clamp C node_value) None
    | Some k =>
        vo_merge C node_value
          (omap (fun o => match o with
                          | Some ch => Some (vo_prune_rec C node_value ch)
                          | None => if nltb N keps (nabs N node_value)
                                    then Some (Node (vo_clamp C (nadd N node_value (n0 N))) None) else None
                          end) k)
    end
  end.
Definition vo_prune (C : config) (t : tree) : tree := vo_prune_rec C (n0 N) t.
Definition vo_threshold (C : config) (t : tree) : tree := vo_prune C t.

(** forEachLeaf, cc:116-151 *)
Definition vo_forEachLeaf (fuel : nat) (C : config) (t : tree) : option (list (oidx * V)) :=
  option_map (map (fun iv => (vo_external C (fst iv), snd iv)))
    (nd_leaf_loop hasChildrenArray (fun pv n => nadd N pv (ndata n)) fuel [(OI (cT C) (I3 0 0 0), t, n0 N)] []).
(** getMinIndex, getMaxIndex, cc:86-114, for maps that are not empty() (for an empty map the code returns `{}`, an
    uninitialised vector). *)
Definition vo_minIndex (fuel : nat) (C : config) (t : tree) : option idx3 :=
  option_map (fun l => fold_left (fun acc iv => if isUnobserved N (snd iv) then acc
                                                else imap2 Z.min acc (minCorner (fst iv))) l (wo_maxPossible C))
    (vo_forEachLeaf fuel C t).
Definition vo_maxIndex (fuel : nat) (C : config) (t : tree) : option idx3 :=
  option_map (fun l => fold_left (fun acc iv => if isUnobserved N (snd iv) then acc
                                                else imap2 Z.max acc (maxCorner (fst iv))) l (wo_minPossible C))
    (vo_forEachLeaf fuel C t).

(** Mutating members, volumetric_octree.h:60-62,73-76, and histories of calls on a new map. *)
Inductive vcall := VSet (i : oidx) (v : V) | VAdd (i : oidx) (u : V) | VThreshold | VPrune | VClear.
Definition vo_apply (C : config) (t : tree) (c : vcall) : tree :=
  match c with
  | VSet i v => vo_set C t i v
  | VAdd i u => vo_add C t i u
  | VThreshold => vo_threshold C t
  | VPrune => vo_prune C t
  | VClear => vo_clear t
  end.
Definition vo_run (C : config) (l : list vcall) : tree := fold_left (vo_apply C) l vo_new.
End VOLOCTREE.
