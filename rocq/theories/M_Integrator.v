(** The coarse-to-fine integrators: HashedWaveletIntegrator, WaveletIntegrator and
    HashedChunkedWaveletIntegrator. Paths are relative to /repo/library/cpp, with
    HW = src/core/integrator/projective/coarse_to_fine/hashed_wavelet_integrator.cc,
    IMPL = include/wavemap/core/integrator/projective/coarse_to_fine/impl. *)
From Verif Require Import Base M_IntMath M_NdtreeIndex M_Num M_Haar M_Haar3 M_Ndtree M_Wavelet M_Chunked.
From Verif Require M_RangeBounds.
Notation update_type := M_RangeBounds.update_type.
Notation kFullyUnobserved := M_RangeBounds.kFullyUnobserved.
Notation kFullyFree := M_RangeBounds.kFullyFree.
Notation kFreeOrUnobserved := M_RangeBounds.kFreeOrUnobserved.
Notation kPossiblyOccupied := M_RangeBounds.kPossiblyOccupied.
Definition is_unobserved (u : update_type) : bool := match u with kFullyUnobserved => true | _ => false end.
Definition is_occupied (u : update_type) : bool := match u with kPossiblyOccupied => true | _ => false end.

(** What the integrators compute from the posed range image for a node. During one updateMap() the image, the
    pose and the models do not change, so each is a function of the node index:
    [o_type]   range_image_intersector_->determineUpdateType of the node's bounding box (HW:144-149);
    [o_sample] computeUpdate at the node's centre (HW:131-135,166-170,180);
    [o_accept] computeWorstCaseApproximationError(o_type, depth of the centre, bounding radius)
               < termination_update_error (HW:166-179). *)
Record oracle (V : Type) := Oracle { o_type : oidx -> update_type; o_sample : oidx -> V; o_accept : oidx -> bool }.
Arguments Oracle {V}. Arguments o_type {V}. Arguments o_sample {V}. Arguments o_accept {V}.

(** Constants of the integrator: [i_th] = termination_height_, [i_plo] = min_log_odds - kNoiseThreshold,
    [i_phi] = max_log_odds + kNoiseThreshold, [i_slo] = min_log_odds + kNoiseThreshold / 10
    (include/wavemap/core/integrator/projective/coarse_to_fine/hashed_wavelet_integrator.h:42-50). *)
Record iconst (V : Type) := IC { i_th : Z; i_plo : V; i_phi : V; i_slo : V }.
Arguments IC {V}. Arguments i_th {V}. Arguments i_plo {V}. Arguments i_phi {V}. Arguments i_slo {V}.

Section INTEGRATE.
Context {V : Type} (N : num V) (K : iconst V) (W : oracle V).
Notation wnode := (node (det V)).

(** std::clamp(sample + node_value, min_log_odds_ - kNoiseThreshold, max_log_odds_ + kNoiseThreshold), HW:136-138,182-184 *)
Definition clampAdd (sample value : V) : V := nclamp N (i_plo K) (i_phi K) (nadd N sample value).
(** !node || !node->hasAtLeastOneChild(), HW:181 *)
Definition no_children (n : option wnode) : bool :=
  match n with None => true | Some n => negb (hasAtLeastOneChild n) end.

(** Handling of one child in the loop of updateBlock, HW:125-190: either its value is final (with the flag saying
    whether setNeedsThresholding() is called) or it is refined. *)
Inductive action := Done (value : V) (needs_thresholding : bool) | Refine.
Definition ub_child (idx : oidx) (n : option wnode) (value : V) : action :=
  if oh idx <=? i_th K then Done (clampAdd (o_sample W idx) value) false
  else if is_unobserved (o_type W idx) then Done value false
  else if negb (is_occupied (o_type W idx)) && nltb N value (i_slo K) then Done value false
  else if o_accept W idx then
    if no_children n then Done (clampAdd (o_sample W idx) value) false
    else Done (nadd N value (o_sample W idx)) true
  else Refine.

(** StackElement, HW:78-84: parent_node, parent_node_index, next_child_idx, child_scale_coefficients. parent_node is
    a reference into the block's tree; here each element holds the referenced node itself, and a finished node is
    written into its parent when it is popped. *)
Record frame := FR { f_node : wnode; f_idx : oidx; f_next : Z; f_vals : oct V }.
(** State of one updateBlock call: the stack and the block's needs_thresholding flag, or its result. *)
Inductive task := Running (stack : list frame) (thr : bool) | Finished (t : wtree (V := V)) (thr : bool).
(** One iteration of the while loop, HW:96-201. The child's computeRelativeChildIndex() (HW:176,196) is the index it
    was made from. *)
Definition ub_step (s : task) : task :=
  match s with
  | Finished _ _ => s
  | Running [] _ => s
  | Running (FR n idx next vals :: st) thr =>
      if 8 <=? next then
        let '(scale, details) := forward3 N vals in
        let n' := Node details (nkids n) in
        match st with
        | [] => Finished (WT n' scale) thr
        | FR pn pidx pnext pvals :: st' =>
            Running (FR (setChild pn (pnext - 1) n') pidx pnext (oset pvals (pnext - 1) scale) :: st') thr
        end
      else
        match ub_child (ochild idx next) (getChild n next) (oget vals next) with
        | Done v f => Running (FR n idx (next + 1) (oset vals next v) :: st) (thr || f)
        | Refine =>
            let ch := childOrNew (dzero N) n next in
            Running (FR ch (ochild idx next) 0 (backward3 N (oget vals next) (ndata ch))
                     :: FR (setChild n next ch) idx (next + 1) vals :: st) thr
        end
  end.
(** The state before the first iteration, HW:87-94 *)
Definition ub_start (T : Z) (bi : idx3) (b : wblock (V := V)) : task :=
  let t := btree b in
  Running [FR (wroot t) (OI T bi) 0 (backward3 N (wscale t) (ndata (wroot t)))] (bthr b).
(** The block after updateBlock, HW:75-76,104-106; None while the loop runs *)
Definition ub_result (now : Z) (s : task) : option (wblock (V := V)) :=
  match s with Finished t thr => Some (WB t thr true now) | Running _ _ => None end.

(** recursiveTester, IMPL/hashed_wavelet_integrator_inl.h:7-38: the blocks appended to update_job_list. [k] is
    node_index.height - tree_height_. *)
Fixpoint tester (m : shash (wblock (V := V))) (k : nat) (idx : oidx) : list idx3 :=
  if is_unobserved (o_type W idx) then []
  else match k with
  | O => if is_occupied (o_type W idx) then [opos idx]
         else match getBlock m (opos idx) with
              | Some b => if nltb N (wscale (btree b)) (i_slo K) then [] else [opos idx]
              | None => []
              end
  | S k' => flat_map (fun c => tester m k' (ochild idx c)) [0; 1; 2; 3; 4; 5; 6; 7]
  end.
(** updateMap, HW:11-49. [fov] are the nodes of the Grid over getFovMinMaxIndices (HW:25-31, 51-69), [k] their height
    above tree_height. The thread pool runs one task per selected block; [sched] lists which task makes the next
    loop iteration, so that all interleavings of the loop iterations of different tasks are covered. A task only
    accesses its own block. The result is None unless all tasks have finished (wait_all, HW:48). *)
Definition um_blocks (m : shash (wblock (V := V))) (k : nat) (fov : list oidx) : list idx3 :=
  flat_map (tester m k) fov.
Definition um_alloc (now : Z) (m : shash (wblock (V := V))) (l : list idx3) : shash (wblock (V := V)) :=
  fold_left (fun m b => setBlock m b (blockOrNew (wb_new N now) m b)) l m.
Definition um_tasks (T : Z) (m : shash (wblock (V := V))) (l : list idx3) : list (idx3 * task) :=
  flat_map (fun b => match getBlock m b with Some blk => [(b, ub_start T b blk)] | None => [] end) l.
(** task number [j] makes one iteration *)
Fixpoint step_nth (j : nat) (ts : list (idx3 * task)) : list (idx3 * task) :=
  match ts with
  | [] => []
  | (b, s) :: ts' => match j with O => (b, ub_step s) :: ts' | S j' => (b, s) :: step_nth j' ts' end
  end.
Definition um_sched (sched : list nat) (ts : list (idx3 * task)) : list (idx3 * task) :=
  fold_left (fun ts j => step_nth j ts) sched ts.
Fixpoint um_collect (now : Z) (m : shash (wblock (V := V))) (ts : list (idx3 * task)) : option (shash (wblock (V := V))) :=
  match ts with
  | [] => Some m
  | (b, s) :: ts' => match ub_result now s with Some blk => um_collect now (setBlock m b blk) ts' | None => None end
  end.
Definition hw_updateMap (T now : Z) (k : nat) (fov : list oidx) (sched : list nat) (m : shash (wblock (V := V)))
  : option (shash (wblock (V := V))) :=
  let l := um_blocks m k fov in
  let m1 := um_alloc now m l in
  um_collect now m1 (um_sched sched (um_tasks T m1 l)).

(* ---------------------------------------------------------------------------------------------- *)
(** WaveletIntegrator::recursiveSamplerCompressor, IMPL/wavelet_integrator_inl.h:7-101. Of the parent node only the
    child concerned changes: the result is that child (None: not allocated) and the returned scale update. [k] bounds
    the recursion; the height of the node suffices. kNoiseThreshold is the same as in the hashed integrator. *)
Fixpoint rsc (k : nat) (idx : oidx) (value : V) (n : option wnode) : option wnode * V :=
  if oh idx <=? i_th K then (n, nsub N (clampAdd (o_sample W idx) value) value)
  else if is_unobserved (o_type W idx) then (n, n0 N)
  else if negb (is_occupied (o_type W idx)) && nltb N value (i_slo K) then (n, n0 N)
  else if o_accept W idx then
    if no_children n then (n, nsub N (clampAdd (o_sample W idx) value) value)
    else (n, o_sample W idx)
  else match k with
  | O => (n, n0 N)
  | S k' =>
      let nd := match n with Some nd => nd | None => Node (dzero N) None end in
      let vals := backward3 N value (ndata nd) in
      let '(nd', ups) := fold_left (fun su c =>
          let '(nd1, ups) := su in
          let '(ch, u) := rsc k' (ochild idx c) (oget vals c) (getChild nd1 c) in
          (match ch with Some x => setChild nd1 c x | None => nd1 end, oset ups c u))
        [0; 1; 2; 3; 4; 5; 6; 7] (nd, otab (fun _ => n0 N)) in
      let '(s, d) := forward3 N ups in
      (Some (Node (dadd N (ndata nd') d) (nkids nd')), s)
  end.
(** updateMap, src/core/integrator/projective/coarse_to_fine/wavelet_integrator.cc:6-29, with getFirstChildIndices
    (include/wavemap/core/map/impl/wavelet_octree_inl.h:26-33). All first children are given the root's scale
    coefficient as their value. *)
Definition wo_updateMap (T : Z) (t : wtree (V := V)) : wtree (V := V) :=
  let '(nd, ups) := fold_left (fun su c =>
      let '(nd, ups) := su in
      let idx := wo_toExternal T (ochild (OI T (I3 0 0 0)) c) in
      let '(ch, u) := rsc (Z.to_nat T) idx (wscale t) (getChild nd c) in
      (match ch with Some x => setChild nd c x | None => nd end, oset ups c u))
    [0; 1; 2; 3; 4; 5; 6; 7] (wroot t, otab (fun _ => n0 N)) in
  let '(s, d) := forward3 N ups in
  WT (Node (dadd N (ndata nd) d) (nkids nd)) (nadd N (wscale t) s).

(* ---------------------------------------------------------------------------------------------- *)
(** HashedChunkedWaveletIntegrator, src/core/integrator/projective/coarse_to_fine/hashed_chunked_wavelet_integrator.cc
    (HC). Its constants have the same names; kNoiseThreshold is 1e-3 and min_log_odds_shrunk_ = min_log_odds +
    kNoiseThreshold (include/wavemap/core/integrator/projective/coarse_to_fine/hashed_chunked_wavelet_integrator.h:42-57). *)
Notation cnode := (chunk (det V)).
Notation H := kChunkHeight.
Notation data := (nr_data (dzero N)).
(** updateLeavesBatch, IMPL/hashed_chunked_wavelet_integrator_inl.h:40-82: (parent_value, parent_details) *)
Definition clamp2 (v : V) : V :=
  let v1 := if nltb N v (i_plo K) then i_plo K else v in if nltb N (i_phi K) v1 then i_phi K else v1.
Definition leaves_batch (idx : oidx) (value : V) (details : det V) : V * det V :=
  let vals := backward3 N value details in
  forward3 N (otab (fun c => clamp2 (nadd N (o_sample W (ochild idx c)) (oget vals c)))).
(** updateNodeRecursive, HC:85-162: (tree, node_value, block_needs_thresholding). The reference node_details stays
    valid when children are allocated, since allocation never moves existing chunks. *)
Fixpoint cu_rec (k : nat) (root : cnode) (r : nref) (idx : oidx) (value : V) (thr : bool) : cnode * V * bool :=
  match k with
  | O => (root, value, thr)
  | S k' =>
      let '(root', vals', thr') := fold_left (fun s c =>
          let '(root1, vals, thr1) := s in
          let ci := ochild idx c in
          if is_unobserved (o_type W ci) then s
          else if negb (is_occupied (o_type W ci)) && nltb N (oget vals c) (i_slo K) then s
          else if o_accept W ci then (root1, oset vals c (nadd N (oget vals c) (o_sample W ci)), true)
          else
            let '(root2, r2) := nr_allocChild (dzero N) H root1 r c in
            if oh ci <=? i_th K + 1 then
              let '(v, d) := leaves_batch ci (oget vals c) (data root2 r2) in
              (nr_setData root2 r2 d, oset vals c v, thr1)
            else
              let '(root3, v, thr3) := cu_rec k' root2 r2 ci (oget vals c) thr1 in
              (root3, oset vals c v, thr3))
        [0; 1; 2; 3; 4; 5; 6; 7] (root, backward3 N value (data root r), thr) in
      let '(s, d) := forward3 N vals' in
      (nr_setData root' r d, s, thr')
  end.
(** updateBlock, HC:71-83 *)
Definition cb_updateBlock (T now : Z) (bi : idx3) (b : cblock (V := V)) : cblock (V := V) :=
  let '(root, s, thr) := cu_rec (Z.to_nat T) (croot (cbtree b)) nr_root (OI T bi) (cscale (cbtree b)) (cbthr b) in
  CB (CT root s) thr true now.
(** recursiveTester, IMPL/hashed_chunked_wavelet_integrator_inl.h:7-38 *)
Fixpoint ctester (m : shash (cblock (V := V))) (k : nat) (idx : oidx) : list idx3 :=
  if is_unobserved (o_type W idx) then []
  else match k with
  | O => if is_occupied (o_type W idx) then [opos idx]
         else match getBlock m (opos idx) with
              | Some b => if nltb N (cscale (cbtree b)) (i_slo K) then [] else [opos idx]
              | None => []
              end
  | S k' => flat_map (fun c => ctester m k' (ochild idx c)) [0; 1; 2; 3; 4; 5; 6; 7]
  end.
(** updateMap, HC:11-49: the tasks run in some order [order] of the selected blocks (each task only accesses its own
    block; interleavings of tasks are treated for the hashed integrator). *)
Definition hc_blocks (m : shash (cblock (V := V))) (k : nat) (fov : list oidx) : list idx3 := flat_map (ctester m k) fov.
Definition hc_alloc (now : Z) (m : shash (cblock (V := V))) (l : list idx3) : shash (cblock (V := V)) :=
  fold_left (fun m b => setBlock m b (blockOrNew (cb_new N now) m b)) l m.
Definition hc_updateMap (T now : Z) (order : list idx3) (l : list idx3) (m : shash (cblock (V := V)))
  : shash (cblock (V := V)) :=
  fold_left (fun m b => match getBlock m b with
                        | Some blk => setBlock m b (cb_updateBlock T now b blk)
                        | None => m
                        end) order (hc_alloc now m l).
End INTEGRATE.

(** States of a HashedWaveletOctree that API calls (M_WavHist.v) and integrated scans can produce. *)
From Verif Require Import M_WavHist.
From Coq Require Import Qcanon.
Close Scope Qc_scope.
Open Scope Z_scope.
Inductive hw_state (C : wconfig (V := Qc)) : shash (wblock (V := Qc)) -> Prop :=
| HS_new : hw_state C []
| HS_call m tc : hw_state C m -> hw_state C (hw_apply C m tc)
| HS_scan m m' K W now k fov sched : hw_state C m -> 0 <= i_th K ->
    hw_updateMap qn K W (cT C) now k fov sched m = Some m' -> hw_state C m'.

(** States of a HashedChunkedWaveletOctree that API calls and integrated scans can produce; [fuel] bounds the
    recursion of threshold() and prune() in the model (M_Chunked.v). *)
From Coq Require Import Permutation.
From Verif Require Import M_ChunkedHist.
Inductive hc_state (fuel : nat) (C : wconfig (V := Qc)) : shash (cblock (V := Qc)) -> Prop :=
| CS_new : hc_state fuel C []
| CS_call m tc : hc_state fuel C m -> hc_state fuel C (hc_apply fuel C m tc)
| CS_scan m K W now k fov order : hc_state fuel C m -> 0 <= i_th K ->
    NoDup fov -> (forall i, In i fov -> oh i = cT C + Z.of_nat k) -> Permutation order (hc_blocks qn K W m k fov) ->
    hc_state fuel C (hc_updateMap qn K W (cT C) now order (hc_blocks qn K W m k fov) m).
