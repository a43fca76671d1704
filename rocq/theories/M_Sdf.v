(** Signed distance field generators, /repo/library/cpp/src/core/utils/sdf/: "q" =
    quasi_euclidean_sdf_generator.cc, "f" = full_euclidean_sdf_generator.cc.
    Floats are rationals. The square root used by Eigen's norm() is a parameter [rt] applied to the sum of squares.
    The distance fields (HashedBlocks, DenseBlockHash) are modelled by the value of every cell, that is by what
    getCellValue / getValueOrDefault return; allocating a block fills it with the default value and changes none
    of them (M_HashedBlocks.v, C21). The occupancy map enters through its leaves (forEachLeaf) and its cell values
    (QueryAccelerator::getCellValue, equal to the map's by C19). Indices are unbounded integers. *)
From Verif Require Import Base M_IntMath M_Grid M_Adjacency M_Num M_Ndtree M_Wavelet M_Queue M_Occupancy.
From Coq Require Import QArith Qcanon Qround Qabs.
Close Scope Qc_scope.
Close Scope Q_scope.
Open Scope Z_scope.

(** Index3D arithmetic; squared norm *)
Definition iadd (a b : idx3) : idx3 := imap2 Z.add a b.
Definition isub (a b : idx3) : idx3 := imap2 Z.sub a b.
Definition isq (o : idx3) : Z := px o * px o + py o * py o + pz o * pz o.
Definition i3_of (l : list Z) : idx3 := I3 (nth 0 l 0) (nth 1 l 0) (nth 2 l 0).
Definition l_of (i : idx3) : list Z := [px i; py i; pz i].
(** The indices visited by `for (index : Grid<3>(mn, mx))`; the fuel is the number of cells, which suffices when
    mn <= mx (C32) *)
Definition grid3 (mn mx : idx3) : list idx3 :=
  match grid_visit (Z.to_nat ((px mx - px mn + 1) * (py mx - py mn + 1) * (pz mx - pz mn + 1))) (l_of mn) (l_of mx) with
  | Some l => map i3_of l
  | None => []
  end.
(** kNeighborIndexOffsets, quasi_euclidean_sdf_generator.h:25-26, full_euclidean_sdf_generator.h:39-40 *)
Definition sdf_offsets : list idx3 :=
  match generateIndexOffsets 3 kAnyDisjoint with Some l => map i3_of l | None => [] end.
(** std::min *)
Definition qminb (a b : Q) : Q := if qlt_b b a then b else a.
(** std::signbit (no negative zeros: they do not occur, see P_Sdf.v) and std::copysign *)
Definition signbit (v : Q) : bool := qlt_b v 0.
Definition copysign (a s : Q) : Q := if signbit s then Qopp (Qabs a) else Qabs a.
(** assign one cell *)
Definition fput {A} (f : idx3 -> A) (i : idx3) (v : A) : idx3 -> A := fun j => if ieqb i j then v else f j.

Section SDF.
(** min_cell_width, max_distance_, the classifier's threshold, the square root, the occupancy of every cell *)
Context (w maxd thr : Q) (rt : Q -> Q) (occ : idx3 -> Q).

(** norm() of an integer offset *)
Definition inorm (o : idx3) : Q := rt (inject_Z (isq o)).

(** The state: distance field and open queue *)
Record sst := SS { s_fld : idx3 -> Q; s_q : bqueue idx3 }.

(** ** Quasi-Euclidean generator *)
(** body of the loop over the padded grid, q:59-91 *)
Definition quasi_seed_cell (min_corner max_corner : idx3) (s : sst) (index : idx3) : sst :=
  let nearest := imap2 Z.min (imap2 Z.max index min_corner) max_corner in
  if ieqb index nearest then s
  else if negb (oc_is_id thr (occ index) kFree) then s
  else
    let sdf_value := s_fld s index in
    let uninitialized := Qeq_bool maxd sdf_value in
    let distance := ((1 # 2) * w * inorm (isub index nearest))%Q in
    SS (fput (s_fld s) index (qminb sdf_value distance))
       (if uninitialized then bq_push (s_q s) distance index else s_q s).
(** the functor passed to forEachLeaf, q:41-92 *)
Definition quasi_seed_leaf (s : sst) (leaf : oidx * Q) : sst :=
  if negb (oc_is_id thr (snd leaf) kOccupied) then s
  else
    let mn := minCorner (fst leaf) in
    let mx := maxCorner (fst leaf) in
    fold_left (quasi_seed_cell mn mx) (grid3 (imap (fun c => c - 1) mn) (imap (fun c => c + 1) mx)) s.
(** seed, q:31-93 *)
Definition quasi_seed (leaves : list (oidx * Q)) (s : sst) : sst := fold_left quasi_seed_leaf leaves s.

(** body of the loop over the neighbors, q:119-175. [index] was popped, [sdf_value] is its value. *)
Definition quasi_neighbor (index : idx3) (sdf_value : Q) (s : sst) (offset : idx3) : sst :=
  let df_value := Qabs sdf_value in
  let len := (w * inorm offset)%Q in
  let cand := (df_value + len)%Q in
  if Qle_bool maxd cand then s
  else
    let nb := iadd index offset in
    let nv := s_fld s nb in
    let uninitialized := Qeq_bool maxd nv in
    if uninitialized && oc_is_id thr (occ nb) kUnobserved then s
    else
      let nv1 := if uninitialized && oc_is_id thr (occ nb) kOccupied then Qopp maxd else nv in
      let crossed := xorb (signbit nv1) (signbit sdf_value) in
      if crossed && negb (qlt_b nv1 0) then SS (fput (s_fld s) nb nv1) (s_q s)
      else
        let cand1 := if crossed then (len - df_value)%Q else cand in
        SS (fput (s_fld s) nb (copysign (qminb (Qabs nv1) cand1) nv1))
           (if uninitialized then bq_push (s_q s) cand1 nb else s_q s).
(** one iteration of the loop in propagate, q:111-176; [None]: front() of the queue is undefined *)
Definition quasi_step (s : sst) : option sst :=
  let '(q1, front) := bq_front (s_q s) in
  match front with
  | None => None
  | Some index => Some (fold_left (quasi_neighbor index (s_fld s index)) sdf_offsets (SS (s_fld s) (bq_pop q1)))
  end.
(** propagate, q:95-177. [None]: not finished after [fuel] iterations, or undefined behaviour. *)
Fixpoint quasi_propagate (fuel : nat) (s : sst) : option sst :=
  if bq_empty (s_q s) then Some s
  else match fuel with
       | O => None
       | S fuel' => match quasi_step s with Some s' => quasi_propagate fuel' s' | None => None end
       end.
(** generate, q:11-29 *)
Definition sdf_num_bins : Z := Qceiling (maxd / w).
Definition quasi_generate (fuel : nat) (leaves : list (oidx * Q)) : option (idx3 -> Q) :=
  let s := quasi_seed leaves (SS (fun _ => maxd) (bq_new sdf_num_bins maxd)) in
  option_map s_fld (quasi_propagate fuel s).

(** ** Full Euclidean generator *)
(** VectorDistance, full_euclidean_sdf_generator.h:11-21. The parent [None] stands for the uninitialized parent,
    whose three components are INT_MAX. *)
Record vdist := VD { vd_parent : option idx3; vd_dist : Q }.
Record fst_ := FS { f_fld : idx3 -> vdist; f_q : bqueue idx3 }.
(** one axis of child_center - closest_point, f:189-199: the child's center (c + 1/2) w, clamped to the parent's
    interval [p w, p w + w] *)
Definition axis_gap (c p : Z) : Q :=
  let center := ((inject_Z c + (1 # 2)) * w)%Q in
  let lo := (inject_Z p * w)%Q in
  let hi := (lo + w)%Q in
  let m := if qlt_b center lo then lo else center in
  let closest := if qlt_b hi m then hi else m in
  (center - closest)%Q.
(** minDistanceTo, f:187-201 *)
Definition minDistanceTo (child parent : idx3) : Q :=
  let dx := axis_gap (px child) (px parent) in
  let dy := axis_gap (py child) (py parent) in
  let dz := axis_gap (pz child) (pz parent) in
  rt (dx * dx + dy * dy + dz * dz)%Q.
Definition is_none {A} (o : option A) : bool := match o with None => true | Some _ => false end.
(** f:67-101 *)
Definition full_seed_cell (min_corner max_corner : idx3) (s : fst_) (index : idx3) : fst_ :=
  let nearest := imap2 Z.min (imap2 Z.max index min_corner) max_corner in
  if ieqb index nearest then s
  else if negb (oc_is_id thr (occ index) kFree) then s
  else
    let v := f_fld s index in
    let uninitialized := is_none (vd_parent v) in
    let distance := minDistanceTo index nearest in
    FS (if qlt_b distance (vd_dist v) then fput (f_fld s) index (VD (Some nearest) distance) else f_fld s)
       (if uninitialized then bq_push (f_q s) distance index else f_q s).
(** f:49-102 *)
Definition full_seed_leaf (s : fst_) (leaf : oidx * Q) : fst_ :=
  if negb (oc_is_id thr (snd leaf) kOccupied) then s
  else
    let mn := minCorner (fst leaf) in
    let mx := maxCorner (fst leaf) in
    fold_left (full_seed_cell mn mx) (grid3 (imap (fun c => c - 1) mn) (imap (fun c => c + 1) mx)) s.
(** seed, f:39-103 *)
Definition full_seed (leaves : list (oidx * Q)) (s : fst_) : fst_ := fold_left full_seed_leaf leaves s.
(** f:125-183. A cell whose parent is uninitialized changes no neighbor: the distance to the cell at INT_MAX exceeds
    max_distance_ (simplification: for maps and maximum distances that do not reach the cell at INT_MAX). *)
Definition full_neighbor (index : idx3) (v : vdist) (s : fst_) (offset : idx3) : fst_ :=
  let nb := iadd index offset in
  match vd_parent v with
  | None => s
  | Some parent =>
    let cand := minDistanceTo nb parent in
    if Qle_bool maxd cand then s
    else
      let nv := f_fld s nb in
      let uninitialized := is_none (vd_parent nv) in
      if uninitialized && oc_is_id thr (occ nb) kUnobserved then s
      else
        let d1 := if uninitialized && oc_is_id thr (occ nb) kOccupied then Qopp maxd else vd_dist nv in
        let crossed := xorb (signbit d1) (signbit (vd_dist v)) in
        if crossed && negb (qlt_b d1 0) then FS (fput (f_fld s) nb (VD (vd_parent nv) d1)) (f_q s)
        else
          let cand1 := if crossed then minDistanceTo nb index else cand in
          FS (fput (f_fld s) nb
                (if qlt_b cand1 (Qabs d1) then VD (if crossed then Some index else Some parent) (copysign cand1 d1)
                 else VD (vd_parent nv) d1))
             (if uninitialized then bq_push (f_q s) cand1 nb else f_q s)
  end.
(** f:118-184 *)
Definition full_step (s : fst_) : option fst_ :=
  let '(q1, front) := bq_front (f_q s) in
  match front with
  | None => None
  | Some index => Some (fold_left (full_neighbor index (f_fld s index)) sdf_offsets (FS (f_fld s) (bq_pop q1)))
  end.
(** propagate, f:105-185 *)
Fixpoint full_propagate (fuel : nat) (s : fst_) : option fst_ :=
  if bq_empty (f_q s) then Some s
  else match fuel with
       | O => None
       | S fuel' => match full_step s with Some s' => full_propagate fuel' s' | None => None end
       end.
(** generate, f:9-37. The final copy stores the distance of every allocated cell; the others have the default
    value max_distance_ in both fields. *)
Definition full_generate (fuel : nat) (leaves : list (oidx * Q)) : option (idx3 -> Q) :=
  let s := full_seed leaves (FS (fun _ => VD None maxd) (bq_new sdf_num_bins maxd)) in
  option_map (fun s' c => vd_dist (f_fld s' c)) (full_propagate fuel s).
End SDF.

(** ** The generators applied to a HashedWaveletOctree (q:11, f:9). [lf]: fuel of forEachLeaf. *)
Definition map_leaves (lf : @wblock Qc -> nat) (C : @wconfig Qc) (m : shash (@wblock Qc)) : option (list (oidx * Q)) :=
  option_map (map (fun iv => (fst iv, this (snd iv)))) (hw_forEachLeaf qn lf C m).
Definition map_occ (C : @wconfig Qc) (m : shash (@wblock Qc)) (c : idx3) : Q := this (hw_get qn C m c).
Definition quasi_sdf (w maxd thr : Q) (rt : Q -> Q) (lf : @wblock Qc -> nat) (fuel : nat) C m : option (idx3 -> Q) :=
  match map_leaves lf C m with Some l => quasi_generate w maxd thr rt (map_occ C m) fuel l | None => None end.
Definition full_sdf (w maxd thr : Q) (rt : Q -> Q) (lf : @wblock Qc -> nat) (fuel : nat) C m : option (idx3 -> Q) :=
  match map_leaves lf C m with Some l => full_generate w maxd thr rt (map_occ C m) fuel l | None => None end.
