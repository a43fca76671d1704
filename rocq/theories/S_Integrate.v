(** Specification vocabulary for coarse-to-fine integration: the effect of one integrated scan on the field of cell
    values. Nothing here refers to trees, blocks, coefficients, stacks or tasks. *)
From Verif Require Import Base M_Ndtree S_Field.
From Verif Require M_RangeBounds.
From Coq Require Import QArith Qcanon Qcabs.
Close Scope Qc_scope.
Close Scope Q_scope.
Open Scope Z_scope.

(** The node of height [h] that contains cell [c]. *)
Definition node_of (c : idx3) (h : Z) : oidx :=
  OI h (I3 (px c / 2 ^ h) (py c / 2 ^ h) (pz c / 2 ^ h)).

Section SPEC.
(** What a scan says about a node: its update type, the update sampled at its centre, and whether the error bound
    allows to apply that sample to the whole node. *)
Context (typ : oidx -> M_RangeBounds.update_type) (sample : oidx -> Qc) (accept : oidx -> bool).
(** [th]: height at which refinement ends; [plo], [phi]: clamping range; [slo]: below this mean a node counts as
    saturated free space. *)
Context (th : Z) (plo phi slo : Qc).
(** The map before the scan: its field, which nodes have stored children, and which blocks exist. *)
Context (f : field) (subdivided : oidx -> bool) (has_block : oidx -> bool).

Definition unobserved (i : oidx) : Prop := typ i = M_RangeBounds.kFullyUnobserved.
Definition occupied (i : oidx) : Prop := typ i = M_RangeBounds.kPossiblyOccupied.
(** A node that needs no update: outside the observed space, or free space that is saturated already. *)
Definition skip (i : oidx) : Prop := unobserved i \/ (~ occupied i /\ (node_mean f i < slo)%Qc).

(** Where the refinement stops for cell [c], going down from height [h]: [stops h c i b] says that node [i] is the
    first one on the way to [c] at which it stops, with [b = false] if the node is skipped and [b = true] if its
    sample is applied. *)
Inductive stops : Z -> idx3 -> oidx -> bool -> Prop :=
| stop_bottom h c : h <= th -> stops h c (node_of c h) true
| stop_skip h c : th < h -> skip (node_of c h) -> stops h c (node_of c h) false
| stop_accept h c : th < h -> ~ skip (node_of c h) -> accept (node_of c h) = true -> stops h c (node_of c h) true
| stop_below h c i b : th < h -> ~ skip (node_of c h) -> accept (node_of c h) = false -> stops (h - 1) c i b -> stops h c i b.

(** The value of a cell of node [i] after the sample of [i] has been applied: where the map stores finer detail below
    a coarse node the plain sample is added, otherwise the node's mean is clamped to the range. *)
Definition applied (i : oidx) (c : idx3) : Qc :=
  if (th <? oh i) && subdivided i then (f c + sample i)%Qc
  else (f c + (clampq plo phi (node_mean f i + sample i) - node_mean f i))%Qc.

(** The same for integrators that process cells in batches of the eight children of a node: refinement ends one level
    higher, and the children of that node are then updated one by one. *)
Inductive how := Keep | AddSample | ClampAdded.
Inductive batch_stops : Z -> idx3 -> oidx -> how -> Prop :=
| bstop_skip h c : skip (node_of c h) -> batch_stops h c (node_of c h) Keep
| bstop_accept h c : ~ skip (node_of c h) -> accept (node_of c h) = true -> batch_stops h c (node_of c h) AddSample
| bstop_batch h c : ~ skip (node_of c h) -> accept (node_of c h) = false -> h <= th + 1 ->
    batch_stops h c (node_of c (h - 1)) ClampAdded
| bstop_below h c i b : ~ skip (node_of c h) -> accept (node_of c h) = false -> th + 1 < h ->
    batch_stops (h - 1) c i b -> batch_stops h c i b.
(** The value of cell [c] of node [i] afterwards. *)
Definition batch_applied (b : how) (i : oidx) (c : idx3) : Qc :=
  match b with
  | Keep => f c
  | AddSample => (f c + sample i)%Qc
  | ClampAdded => (f c + (clampq plo phi (node_mean f i + sample i) - node_mean f i))%Qc
  end.

(** The block of height [T] that contains [c] is updated iff the scan's field of view [fov] (nodes of height [T + k])
    contains it, no node from [T + k] down to the block is unobserved, and the block may be occupied or exists and is
    not yet saturated. *)
Definition block_updated (T k : Z) (fov : list oidx) (c : idx3) : Prop :=
  In (node_of c (T + k)) fov /\ (forall h, T <= h <= T + k -> ~ unobserved (node_of c h)) /\
  (occupied (node_of c T) \/ (has_block (node_of c T) = true /\ (slo <= node_mean f (node_of c T))%Qc)).
End SPEC.
