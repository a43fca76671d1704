(** Range readings that are missing (NaN) or infinite. Depth images are handed to the integrator as they are (importRangeImage,
    /repo/library/cpp/src/core/integrator/projective/projective_integrator.cc:91-99; depth_image_topic_input.cc:96-109), and a
    missing depth is a NaN in 32FC1 images. Files under /repo/library/cpp/include/wavemap/core/integrator/:
    "ag" = measurement_model/approximate_gaussian_distribution.h, "ri" = measurement_model/impl/continuous_ray_inl.h,
    "bi" = measurement_model/impl/continuous_beam_inl.h, "h" = projective/coarse_to_fine/hierarchical_range_bounds.h,
    "hi" = .../impl/hierarchical_range_bounds_inl.h, "ii" = .../impl/range_image_intersector_inl.h,
    "ib" = impl/integrator_base_inl.h.
    Floats are rationals with the special values of IEEE 754; operations on finite numbers are exact and zero has no sign. *)
From Verif Require Import Base M_Image M_RangeBounds M_Measure M_Intersector.
From Coq Require Import QArith Qround Qabs.
Close Scope Z_scope.
Open Scope Q_scope.

Inductive fl := Fin (q : Q) | PInf | NInf | NaN.
(** Comparisons: false if an operand is NaN *)
Definition fltb (a b : fl) : bool :=
  match a, b with
  | Fin x, Fin y => qltb x y
  | NInf, Fin _ | NInf, PInf | Fin _, PInf => true
  | _, _ => false
  end.
Definition fleb (a b : fl) : bool :=
  match a, b with
  | Fin x, Fin y => Qle_bool x y
  | NInf, Fin _ | NInf, PInf | Fin _, PInf | NInf, NInf | PInf, PInf => true
  | _, _ => false
  end.
(** Arithmetic *)
Definition fopp (a : fl) : fl := match a with Fin x => Fin (- x) | PInf => NInf | NInf => PInf | NaN => NaN end.
Definition fadd (a b : fl) : fl :=
  match a, b with
  | NaN, _ | _, NaN | PInf, NInf | NInf, PInf => NaN
  | PInf, _ | _, PInf => PInf
  | NInf, _ | _, NInf => NInf
  | Fin x, Fin y => Fin (x + y)
  end.
Definition fsub (a b : fl) : fl :=
  match a, b with
  | Fin x, Fin y => Fin (x - y)
  | _, _ => fadd a (fopp b)
  end.
(** An infinity times a finite number *)
Definition inf_times (neg : bool) (x : Q) : fl :=
  if qltb 0 x then (if neg then NInf else PInf) else if qltb x 0 then (if neg then PInf else NInf) else NaN.
Definition fmul (a b : fl) : fl :=
  match a, b with
  | NaN, _ | _, NaN => NaN
  | Fin x, Fin y => Fin (x * y)
  | PInf, Fin y => inf_times false y
  | NInf, Fin y => inf_times true y
  | Fin x, PInf => inf_times false x
  | Fin x, NInf => inf_times true x
  | PInf, PInf | NInf, NInf => PInf
  | PInf, NInf | NInf, PInf => NInf
  end.
(** Division; the divisors of the code (range_sigma and 1 - p) are positive, a zero divisor gives NaN here *)
Definition fdiv (a b : fl) : fl :=
  match a, b with
  | NaN, _ | _, NaN => NaN
  | Fin x, Fin y => if Qeq_bool y 0 then NaN else Fin (x / y)
  | PInf, Fin y => inf_times false y
  | NInf, Fin y => inf_times true y
  | Fin _, _ => Fin 0
  | _, _ => NaN
  end.
(** std::min and std::max: std::min(a, b) is (b < a) ? b : a, std::max(a, b) is (a < b) ? b : a *)
Definition fmin (a b : fl) : fl := if fltb b a then b else a.
Definition fmax (a b : fl) : fl := if fltb a b then b else a.

(** cumulative, ag:12-26 *)
Definition fcumulative (t : fl) : fl :=
  let t_plus_three := fadd t (Fin 3) in
  let three_min_t := fsub (Fin 3) t in
  if fltb t (Fin (- (3))) then Fin 0
  else if fleb t (Fin (- (1))) then fmul (fmul (fmul (Fin (1 # 48)) t_plus_three) t_plus_three) t_plus_three
  else if fltb t (Fin 1) then fadd (Fin (1 # 2)) (fmul (fmul (fmul (Fin (1 # 24)) t) t_plus_three) three_min_t)
  else if fleb t (Fin 3) then fsub (Fin 1) (fmul (fmul (fmul (Fin (1 # 48)) three_min_t) three_min_t) three_min_t)
  else Fin 1.

Section MODELS.
(** std::sqrt is only applied to the (finite) angular error; std::log of the finite numbers is an arbitrary function *)
Context (fsqrt flog : Q -> Q).
Context (c : mm_config).
(** std::log *)
Definition f_log (a : fl) : fl := match a with Fin x => Fin (flog x) | PInf => PInf | _ => NaN end.
(** ri:75-77, bi:142-144 *)
Definition frange_contribution (f : fl) : fl :=
  fsub (fsub (fcumulative f) (fmul (Fin (1 # 2)) (fcumulative (fsub f (Fin 3))))) (Fin (1 # 2)).
(** ri:83-84, bi:153-154 *)
Definition flog_odds (scaled_contribs : fl) : fl :=
  let p := fadd scaled_contribs (Fin (1 # 2)) in f_log (fdiv p (fsub (Fin 1) p)).
(** computeFullBeamUpdate, ri:70-87 *)
Definition fray_full (dist : Q) (measured : fl) : fl :=
  let f := fdiv (fsub (Fin dist) measured) (Fin (range_sigma c)) in
  let r := frange_contribution f in
  flog_odds (if fltb r (Fin 0) then fmul (Fin (scaling_free c)) r else fmul (Fin (scaling_occupied c)) r).
(** computeFreeSpaceBeamUpdate, ri:89-94 *)
Definition fray_free : fl := flog_odds (fmul (Fin (- (1 # 2))) (Fin (scaling_free c))).
(** computeBeamUpdate for a pixel inside the image, ri:57-68 *)
Definition fray_beam (dist : Q) (measured : fl) : fl :=
  if fltb (Fin (range_back c)) (fsub (Fin dist) measured) then Fin 0
  else if fltb (Fin dist) (fsub measured (Fin (range_front c))) then fray_free
  else fray_full dist measured.
(** ri:50-57 *)
Definition fray_at (im : img fl) (dist : Q) (i : i2) : fl :=
  match at_px im i with None => Fin 0 | Some measured => fray_beam dist measured end.
(** computeUpdate, ri:27-48 *)
Definition fray_computeUpdate (rnd : Q -> Z) (P : projector) (im : img fl) (coords : v2) (dist : Q) : fl :=
  match selector c with
  | kNearestNeighbor => fray_at im dist (imageToNearestIndex rnd P coords)
  | kAllNeighbors => fold_left (fun update i => fadd update (fray_at im dist i)) (imageToNearestIndices P coords) (Fin 0)
  end.

(** computeBeamUpdate, bi:116-157; the angular error is finite *)
Definition fbeam_beam (dist err2 : Q) (measured : fl) : fl :=
  if qltb (angle_threshold c * angle_threshold c) err2 || fltb (fadd measured (Fin (range_back c))) (Fin dist) then Fin 0 else
  let angle_contrib := Fin (angle_contribution fsqrt c err2) in
  let fully_in_free_space := fltb (Fin dist) (fsub measured (Fin (range_front c))) in
  let range_contrib :=
    if fully_in_free_space then Fin (- (1 # 2))
    else frange_contribution (fdiv (fsub (Fin dist) measured) (Fin (range_sigma c))) in
  let contribs := fmul range_contrib angle_contrib in
  flog_odds (if fully_in_free_space || fltb contribs (Fin 0) then fmul (Fin (scaling_free c)) contribs
             else fmul (Fin (scaling_occupied c)) contribs).
Context (error2 : v2 -> v2 -> Q).
(** computeBeamUpdateNearestNeighbor, bi:49-73 *)
Definition fbeam_nearest (rnd : Q -> Z) (P : projector) (im : img fl) (offsets : Z -> Z -> v2) (coords : v2) (dist : Q) : fl :=
  let '(i, cell_offset) := imageToNearestIndexAndOffset rnd P coords in
  match at_px im i with
  | None => Fin 0
  | Some measured => fbeam_beam dist (error2 coords (v2sub (offsets (fst i) (snd i)) cell_offset)) measured
  end.
(** computeBeamUpdateAllNeighbors, bi:75-114 *)
Definition fbeam_all (P : projector) (im : img fl) (offsets : Z -> Z -> v2) (coords : v2) (dist : Q) : fl :=
  fold_left (fun update io =>
      let '(i, o) := io in
      let '(measured, o') := match at_px im i with None => (Fin 0, o) | Some m => (m, v2sub o (offsets (fst i) (snd i))) end in
      fadd update (fbeam_beam dist (error2 coords o') measured))
    (imageToNearestIndicesAndOffsets P coords) (Fin 0).
(** computeUpdate, bi:33-47 *)
Definition fbeam_computeUpdate (rnd : Q -> Z) (P : projector) (im : img fl) (offsets : Z -> Z -> v2) (coords : v2) (dist : Q) : fl :=
  match selector c with
  | kNearestNeighbor => fbeam_nearest rnd P im offsets coords dist
  | kAllNeighbors => fbeam_all P im offsets coords dist
  end.
End MODELS.

(** *** HierarchicalRangeBounds; the pyramids and the queries are those of M_RangeBounds.v, for values of any type *)
Section BOUNDS.
Context (im : img fl) (min_range : Q) (wraps : bool) (s : i2).
(** isUnobserved, valueOrInit, h:121-140 *)
Definition fpx_unobserved (v : fl) : bool := fltb v (Fin min_range).
Definition fvalueOrInit (init v : fl) : fl := if fpx_unobserved v then init else v.
(** h:86-87,100-111 *)
Definition flower_img := transform (fvalueOrInit (Fin kUnknownLower)) im.
Definition fupper_img := transform (fvalueOrInit (Fin kUnknownUpper)) im.
Definition fmask_img := transform fpx_unobserved im.
Definition flower_levels := computeReducedPyramid fmin (Fin kUnknownLower) wraps s flower_img.
Definition fupper_levels := computeReducedPyramid fmax (Fin kUnknownUpper) wraps s fupper_img.
Definition fmask_levels := computeReducedPyramid orb true wraps s fmask_img.
(** getBounds and hasUnobserved of a rectangle, hi:35-255 *)
Definition fgetLowerBound (mn mx : i2) : option fl := obind flower_levels (fun lv => query fmin wraps s flower_img lv mn mx).
Definition fgetUpperBound (mn mx : i2) : option fl := obind fupper_levels (fun lv => query fmax wraps s fupper_img lv mn mx).
Definition fhasUnobserved (mn mx : i2) : option bool := obind fmask_levels (fun lv => query orb wraps s fmask_img lv mn mx).
(** getUpdateType, hi:257-279 *)
Definition fgetUpdateType (mn mx : i2) (range_min range_max : Q) : option update_type :=
  let mnc := (Z.max (fst mn) 0, Z.max (snd mn) 0) in
  let mxc := (Z.min (fst mx) (im_rows im - 1), Z.min (snd mx) (im_cols im - 1)) in
  match fgetLowerBound mnc mxc, fgetUpperBound mnc mxc with
  | Some lo, Some hi =>
      if fltb hi (Fin range_min) then Some kFullyUnobserved
      else if fltb (Fin range_max) lo then
        if negb (i2_eqb mn mnc) || negb (i2_eqb mx mxc) then Some kFreeOrUnobserved
        else match fhasUnobserved mnc mxc with
             | None => None
             | Some true => Some kFreeOrUnobserved
             | Some false => Some kFullyFree
             end
      else Some kPossiblyOccupied
  | _, _ => None
  end.
End BOUNDS.
(** determineUpdateType, ii:11-75; as in M_Intersector.v *)
Definition fdetermineUpdateType (P : projector) (im : img fl) (y_axis_wraps : bool)
    (min_range max_range angle_thr range_front range_behind : Q) (contains : bool) (b : saabb) : option update_type :=
  if contains then Some kPossiblyOccupied
  else if qltb max_range (zmin b) || qltb (zmax b) min_range then Some kFullyUnobserved
  else
    let mn := imageToFloorIndex P (fst (smin b) - angle_thr, snd (smin b) - angle_thr) in
    let mx := imageToCeilIndex P (fst (smax b) + angle_thr, snd (smax b) + angle_thr) in
    let x_wraps := (fst mx <? fst mn)%Z in
    let y_wraps := (snd mx <? snd mn)%Z in
    if x_wraps || (negb y_axis_wraps && y_wraps) then
      let x_outside := (fst mx <? 0)%Z && (im_rows im <? fst mn)%Z in
      let y_outside := (snd mx <? 0)%Z && (im_cols im <? snd mn)%Z in
      if (negb x_wraps || x_outside) && (y_axis_wraps || negb y_wraps || y_outside) then Some kFullyUnobserved
      else Some kPossiblyOccupied
    else if (fst mx <? 0)%Z || (snd mx <? 0)%Z || (im_rows im <=? fst mn)%Z || (im_cols im <=? snd mn)%Z then Some kFullyUnobserved
    else fgetUpdateType im min_range y_axis_wraps (scale_factor (Some P)) mn mx (zmin b - range_behind) (zmax b + range_front).
(** ProjectiveIntegrator::computeUpdate, projective/impl/projective_integrator_inl.h:5-20 *)
Definition fcomputeUpdate (min_range max_range : Q) (model : v2 -> Q -> fl) (s : sensor) : fl :=
  if qltb (snd s) min_range || qltb max_range (snd s) then Fin 0 else model (fst s) (snd s).

(** isMeasurementValid, ib:5-25, for the points of point clouds; 1e-3f * 1e-3f as the exact square of the decimal number *)
Definition is_nan (a : fl) : bool := match a with NaN => true | _ => false end.
Definition fisMeasurementValid (x y z : fl) : bool :=
  if is_nan x || is_nan y || is_nan z then false else
  let d2 := fadd (fadd (fmul x x) (fmul y y)) (fmul z z) in
  negb (fltb d2 (Fin (1 # 1000000))) && negb (fltb (Fin 1000000) d2).
