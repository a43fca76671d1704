(** Model of the batch queries of the Python bindings, library/python/src/maps.cc ("mc"): get_cell_values on an array of
    indices or node indices and interpolate on an array of positions, for HashedWaveletOctree (mc:121-243) and
    HashedChunkedWaveletOctree (mc:255-380), and the corresponding single queries.

    An n x 3 array is the list of its rows. Simplifications: the results array is a list; the ownership of the memory
    (nb::capsule), the conversion of Python objects and overload resolution are nanobind's and not modelled. Exact
    rationals in the interpolation. *)
From Verif Require Import Base M_IntMath M_NdtreeIndex M_Num M_Haar3 M_Ndtree M_Wavelet M_Chunked M_Accel M_Point M_Interpolate.
From Coq Require Import QArith Qcanon.
Close Scope Qc_scope.
Close Scope Q_scope.
Open Scope Z_scope.

(** InterpolationMode, mc:20 *)
Inductive imode := kNearest | kTrilinear.

(** The loops over an accelerator with state [S]; [get] is its getCellValue(OctreeIndex), [None]: it aborts. *)
Section BATCH.
Context {S V : Type} (get : S -> oidx -> option (S * V)).
(** A loop that computes results[query_idx] from row query_idx and carries the accelerator along *)
Fixpoint query_loop {R X : Type} (f : S -> R -> option (S * X)) (s : S) (rows : list R) : option (list X) :=
  match rows with
  | [] => Some []
  | r :: rows' => match f s r with None => None | Some (s', x) => option_map (cons x) (query_loop f s' rows') end
  end.
(** QueryAccelerator::getCellValue(Index3D), utils/query/query_accelerator.h:135-137 and 187-189: the node at height 0 *)
Definition get_cell (s : S) (r : Z * Z * Z) : option (S * V) := let '(x, y, z) := r in get s (OI 0 (I3 x y z)).
(** mc:137-142 and 272-277 *)
Definition cells_loop (s : S) (rows : list (Z * Z * Z)) : option (list V) := query_loop get_cell s rows.
(** mc:166-173 and 302-309 *)
Definition nodes_loop (s : S) (rows : list (Z * Z * Z * Z)) : option (list V) :=
  query_loop (fun s r => let '(h, x, y, z) := r in get s (OI h (I3 x y z))) s rows.
End BATCH.

Section INTERPOLATE.
Context {S : Type} (get : S -> oidx -> option (S * Qc)) (rnd : Q -> Z) (w : Q).
Definition lrow (i : list Z) : Z * Z * Z := (nth 0 i 0, nth 1 i 0, nth 2 i 0).
(** interpolate::nearestNeighbor with MapT = QueryAccelerator, include/wavemap/core/utils/query/impl/map_interpolator_inl.h:9-16 *)
Definition nearest_acc (s : S) (p : list Q) : option (S * Q) :=
  match get_cell get s (lrow (pointToNearestIndex rnd p (1 / w))) with None => None | Some (s', v) => Some (s', this v) end.
(** map_interpolator_inl.h:27-32: the 8 corner values are fetched in order from the accelerator *)
Fixpoint gather (s : S) (l : list (list Z)) : option (S * list Q) :=
  match l with
  | [] => Some (s, [])
  | i :: l' =>
      match get_cell get s (lrow i) with
      | None => None
      | Some (s', v) => match gather s' l' with None => None | Some (s'', vs) => Some (s'', this v :: vs) end
      end
  end.
(** map_interpolator_inl.h:35-64 *)
Definition tri_combine (cube : list Q) (p : list Q) : Q :=
  let a := tri_offset w p in
  let a_comp := map (fun x => (1 - x)%Q) a in
  let plane := map (fun c => (qat a_comp 0 * qat cube c + qat a 0 * qat cube (c + 4))%Q) (seq 0 4) in
  let line := map (fun s => (qat a_comp 1 * qat plane s + qat a 1 * qat plane (s + 2))%Q) (seq 0 2) in
  (qat a_comp 2 * qat line 0 + qat a 2 * qat line 1)%Q.
(** interpolate::trilinear with MapT = QueryAccelerator, map_interpolator_inl.h:19-65 *)
Definition trilinear_acc (s : S) (p : list Q) : option (S * Q) :=
  let min_corner_index := pointToFloorIndex p (1 / w) in
  match gather s (map (fun k => zadd_l min_corner_index (neighbor_offset (Z.of_nat k))) (seq 0 8)) with
  | None => None
  | Some (s', cube) => Some (s', tri_combine cube p)
  end.
(** mc:214-236 and 351-373 *)
Definition interpolate_loop (mode : imode) (s : S) (rows : list (Q * Q * Q)) : option (list Q) :=
  let point r := let '(x, y, z) := r in [x; y; z] in
  match mode with
  | kNearest => query_loop (fun s r => nearest_acc s (point r)) s rows
  | kTrilinear => query_loop (fun s r => trilinear_acc s (point r)) s rows
  end.
End INTERPOLATE.

(** The bound methods. [hw_accel], [hc_accel]: getCellValue of the two accelerators. *)
Section METHODS.
Context {V : Type} (N : M_Num.num V) (C : wconfig (V := V)).
Definition hw_accel (m : hmap) := acc_get ndata getChild (backwardSingleChild3 N) (n0 N) (cT C) (hw_root m) (hw_blockIndex C).
Definition hw_accel_new := acc_new (P := node (det V)) (n0 N) (cT C).
Definition hc_accel (m : cmap) :=
  acc_get (fun p => nr_data (dzero N) (fst p) (snd p))
    (fun p c => option_map (pair (fst p)) (nr_getChild kChunkHeight (fst p) (snd p) c))
    (backwardSingleChild3 N) (n0 N) (cT C) (hc_root m) (hw_blockIndex C).
Definition hc_accel_new := acc_new (P := chunk (det V) * nref) (n0 N) (cT C).
(** HashedWaveletOctree.get_cell_values: mc:121-149 (n x 3) and 150-180 (n x 4) *)
Definition py_hw_cells (m : hmap) (rows : list (Z * Z * Z)) : option (list V) := cells_loop (hw_accel m) hw_accel_new rows.
Definition py_hw_nodes (m : hmap) (rows : list (Z * Z * Z * Z)) : option (list V) := nodes_loop (hw_accel m) hw_accel_new rows.
(** HashedChunkedWaveletOctree.get_cell_values: mc:255-284 and 285-316 *)
Definition py_hc_cells (m : cmap) (rows : list (Z * Z * Z)) : option (list V) := cells_loop (hc_accel m) hc_accel_new rows.
Definition py_hc_nodes (m : cmap) (rows : list (Z * Z * Z * Z)) : option (list V) := nodes_loop (hc_accel m) hc_accel_new rows.
End METHODS.
(** interpolate on an array: mc:197-243 and 333-380 *)
Definition py_hw_interpolate (rnd : Q -> Z) (w : Q) (C : wconfig (V := Qc)) (m : hmap) (mode : imode) (rows : list (Q * Q * Q)) :=
  interpolate_loop (hw_accel qn C m) rnd w mode (hw_accel_new qn C) rows.
Definition py_hc_interpolate (rnd : Q -> Z) (w : Q) (C : wconfig (V := Qc)) (m : cmap) (mode : imode) (rows : list (Q * Q * Q)) :=
  interpolate_loop (hc_accel qn C m) rnd w mode (hc_accel_new qn C) rows.
(** interpolate on one position, for any map: mc:71-87 (repeated at 181-196 and 317-332); the map is its
    getCellValue(Index3D) *)
Definition py_interpolate1 (rnd : Q -> Z) (w : Q) (getCellValue : idx3 -> Qc) (mode : imode) (r : Q * Q * Q) : Q :=
  let p := let '(x, y, z) := r in [x; y; z] in
  let f i := this (getCellValue (I3 (nth 0 i 0) (nth 1 i 0) (nth 2 i 0))) in
  match mode with kNearest => nearestNeighbor rnd f w p | kTrilinear => trilinear f w p end.
