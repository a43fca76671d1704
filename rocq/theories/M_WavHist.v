(** Histories of API calls on the wavelet maps. A history is a list of calls; running it means applying
    the modelled member functions one after the other to a newly constructed map. *)
From Verif Require Import Base M_Num M_Ndtree M_Wavelet.
From Coq Require Import Qcanon.
Close Scope Qc_scope.
Open Scope Z_scope.

(** Mutating members of WaveletOctree, /repo/library/cpp/include/wavemap/core/map/wavelet_octree.h:66-92 *)
Inductive call :=
| CSet (i : oidx) (v : Qc)      (* setCellValue *)
| CAdd (i : oidx) (u : Qc)      (* addToCellValue *)
| CThreshold | CPrune | CClear.
Definition wo_apply (C : wconfig) (t : wtree) (c : call) : wtree :=
  match c with
  | CSet i v => wo_set qn C t i v
  | CAdd i u => wo_add qn C t i u
  | CThreshold => wo_threshold qn C t
  | CPrune => wo_prune qn C t
  | CClear => wo_clear qn t
  end.
Definition wo_run (C : wconfig) (l : list call) : wtree := fold_left (wo_apply C) l (wt_new qn).

(** Mutating members of HashedWaveletOctree,
    /repo/library/cpp/include/wavemap/core/map/hashed_wavelet_octree.h:77-108; each call is made at
    some time (the value of Time::now() during the call). *)
Inductive hcall :=
| HSet (i : idx3) (v : Qc) | HAdd (i : idx3) (u : Qc)
| HThreshold | HPrune | HPruneSmart (max_age : Z) | HClear | HEraseBlock (b : idx3).
Definition hw_apply (C : wconfig) (m : shash wblock) (tc : Z * hcall) : shash wblock :=
  let '(now, c) := tc in
  match c with
  | HSet i v => hw_set qn C now m i v
  | HAdd i u => hw_add qn C now m i u
  | HThreshold => hw_threshold qn C m
  | HPrune => hw_prune qn C m
  | HPruneSmart age => hw_pruneSmart qn C age now m
  | HClear => hw_clear m
  | HEraseBlock b => fst (eraseBlock m b)
  end.
Definition hw_run (C : wconfig) (l : list (Z * hcall)) : shash wblock := fold_left (hw_apply C) l [].
