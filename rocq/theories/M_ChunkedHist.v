(** Histories of API calls on the hashed chunked wavelet octree. *)
From Verif Require Import Base M_Num M_Ndtree M_Wavelet M_WavHist M_Chunked.
From Coq Require Import Qcanon.
Close Scope Qc_scope.
Open Scope Z_scope.

(** Mutating members of HashedChunkedWaveletOctree,
    /repo/library/cpp/include/wavemap/core/map/hashed_chunked_wavelet_octree.h:82-115; the calls are those of
    [hcall] in M_WavHist.v. [fuel] bounds the recursion of threshold and prune. *)
Definition hc_apply (fuel : nat) (C : wconfig) (m : shash cblock) (tc : Z * hcall) : shash cblock :=
  let '(now, c) := tc in
  match c with
  | HSet i v => hc_set qn C now m i v
  | HAdd i u => hc_add qn C now m i u
  | HThreshold => hc_threshold qn fuel C m
  | HPrune => hc_prune qn fuel C m
  | HPruneSmart age => hc_pruneSmart qn fuel C age now m
  | HClear => hc_clear m
  | HEraseBlock b => fst (eraseBlock m b)
  end.
Definition hc_run (fuel : nat) (C : wconfig) (l : list (Z * hcall)) : shash cblock := fold_left (hc_apply fuel C) l [].
