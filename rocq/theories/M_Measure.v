(** Measurement models. Files under /repo/library/cpp/include/wavemap/core/integrator/measurement_model/:
    "ag" = approximate_gaussian_distribution.h, "rh" = continuous_ray.h, "ri" = impl/continuous_ray_inl.h,
    "bh" = continuous_beam.h, "bi" = impl/continuous_beam_inl.h. Floats are rationals; std::sqrt and std::log are
    arbitrary functions [fsqrt] and [flog] on them. *)
From Verif Require Import Base M_Image M_RangeBounds.
From Coq Require Import QArith Qround Qabs.
Close Scope Z_scope.
Open Scope Q_scope.

(** ag:12-28 *)
Definition cumulative (t : Q) : Q :=
  let t_plus_three := t + 3 in
  let three_min_t := 3 - t in
  if qltb t (- (3)) then 0
  else if Qle_bool t (- (1)) then (1 # 48) * t_plus_three * t_plus_three * t_plus_three
  else if qltb t 1 then (1 # 2) + (1 # 24) * t * t_plus_three * three_min_t
  else if Qle_bool t 3 then 1 - (1 # 48) * three_min_t * three_min_t * three_min_t
  else 1.

(** BeamSelectorType, measurement_model_base.h:22-28 *)
Inductive beam_selector := kNearestNeighbor | kAllNeighbors.

(** ContinuousRayConfig, rh:16-42; the angle uncertainty is only used by the beam model, ContinuousBeamConfig, bh:19-51 *)
Record mm_config := MM { angle_sigma : Q; range_sigma : Q; scaling_free : Q; scaling_occupied : Q; selector : beam_selector }.
(** isValid, src/core/integrator/measurement_model/continuous_ray.cc:10-19 and continuous_beam.cc:11-21 *)
Definition ray_isValid (c : mm_config) : bool := qltb 0 (range_sigma c) && qltb 0 (scaling_free c) && qltb 0 (scaling_occupied c).
Definition beam_isValid (c : mm_config) : bool := qltb 0 (angle_sigma c) && ray_isValid c.

Section MODELS.
Context (fsqrt flog : Q -> Q).
Context (c : mm_config).
(** range_threshold_front_, range_threshold_back_, angle_threshold_: rh:75-76, bh:90-94 *)
Definition range_front : Q := 3 * range_sigma c.
Definition range_back : Q := 6 * range_sigma c.
Definition angle_threshold : Q := 6 * angle_sigma c.

(** The range contribution, ri:73-77, bi:139-145, and the scaling by its sign, ri:79-81 *)
Definition range_contribution (f : Q) : Q := cumulative f - (1 # 2) * cumulative (f - 3) - (1 # 2).
Definition scale_contribution (x : Q) : Q := if qltb x 0 then scaling_free c * x else scaling_occupied c * x.
(** log-odds of a probability, ri:83-84, bi:153-154 *)
Definition log_odds (p : Q) : Q := flog (p / (1 - p)).

(** *** ContinuousRay *)
(** computeFullBeamUpdate, ri:70-87: the probability, then its log-odds *)
Definition ray_full_p (dist measured : Q) : Q :=
  scale_contribution (range_contribution ((dist - measured) / range_sigma c)) + (1 # 2).
Definition ray_full (dist measured : Q) : Q := log_odds (ray_full_p dist measured).
(** computeFreeSpaceBeamUpdate, ri:89-94 *)
Definition ray_free_p : Q := - (1 # 2) * scaling_free c + (1 # 2).
Definition ray_free : Q := log_odds ray_free_p.
(** computeBeamUpdate for a pixel inside the image, ri:57-68 *)
Definition ray_beam (dist measured : Q) : Q :=
  if qltb range_back (dist - measured) then 0
  else if qltb dist (measured - range_front) then ray_free
  else ray_full dist measured.
(** ri:50-57 *)
Definition ray_at (im : img Q) (dist : Q) (i : i2) : Q :=
  match at_px im i with None => 0 | Some measured => ray_beam dist measured end.
(** computeUpdate, ri:27-48; [coords] and [dist] are the sensor coordinates of the cell *)
Definition ray_computeUpdate (rnd : Q -> Z) (P : projector) (im : img Q) (coords : v2) (dist : Q) : Q :=
  match selector c with
  | kNearestNeighbor => ray_at im dist (imageToNearestIndex rnd P coords)
  | kAllNeighbors => fold_left (fun update i => update + ray_at im dist i) (imageToNearestIndices P coords) 0
  end.
(** computeWorstCaseApproximationError, ri:7-25 *)
Definition ray_worst_error (u : update_type) (cell_bounding_radius : Q) : Q :=
  match u with
  | kFullyUnobserved | kFullyFree => 0
  | kFreeOrUnobserved => (1 # 2) * scaling_free c
  | kPossiblyOccupied => (3 # 8) * scaling_occupied c / range_sigma c * cell_bounding_radius
  end.

(** *** ContinuousBeam *)
(** angle_contrib, bi:127-133 *)
Definition angle_contribution (err2 : Q) : Q := 1 - cumulative (fsqrt err2 / angle_sigma c - 3).
(** computeBeamUpdate, bi:116-157: the condition for a zero update, the probability, and the update *)
Definition beam_unknown (dist err2 measured : Q) : bool :=
  qltb (angle_threshold * angle_threshold) err2 || qltb (measured + range_back) dist.
Definition beam_p (dist err2 measured : Q) : Q :=
  let fully_in_free_space := qltb dist (measured - range_front) in
  let range_contrib := if fully_in_free_space then - (1 # 2) else range_contribution ((dist - measured) / range_sigma c) in
  let contribs := range_contrib * angle_contribution err2 in
  (if fully_in_free_space || qltb contribs 0 then scaling_free c * contribs else scaling_occupied c * contribs) + (1 # 2).
Definition beam_beam (dist err2 measured : Q) : Q :=
  if beam_unknown dist err2 measured then 0 else log_odds (beam_p dist err2 measured).
(** The error norm of the projection model: linearization point and offset (projector_base.h:86-102) *)
Context (error2 : v2 -> v2 -> Q).
Definition v2sub (a b : v2) : v2 := (fst a - fst b, snd a - snd b).
(** computeBeamUpdateNearestNeighbor, bi:49-73; [offsets] is the beam offset image *)
Definition beam_nearest (rnd : Q -> Z) (P : projector) (im : img Q) (offsets : Z -> Z -> v2) (coords : v2) (dist : Q) : Q :=
  let '(i, cell_offset) := imageToNearestIndexAndOffset rnd P coords in
  match at_px im i with
  | None => 0
  | Some measured => beam_beam dist (error2 coords (v2sub (offsets (fst i) (snd i)) cell_offset)) measured
  end.
(** computeBeamUpdateAllNeighbors, bi:75-114: a neighbour outside the image keeps the distance 0 and its own offset *)
Definition beam_all (P : projector) (im : img Q) (offsets : Z -> Z -> v2) (coords : v2) (dist : Q) : Q :=
  fold_left (fun update io =>
      let '(i, o) := io in
      let '(measured, o') := match at_px im i with None => (0, o) | Some m => (m, v2sub o (offsets (fst i) (snd i))) end in
      update + beam_beam dist (error2 coords o') measured)
    (imageToNearestIndicesAndOffsets P coords) 0.
(** computeUpdate, bi:33-47 *)
Definition beam_computeUpdate (rnd : Q -> Z) (P : projector) (im : img Q) (offsets : Z -> Z -> v2) (coords : v2) (dist : Q) : Q :=
  match selector c with
  | kNearestNeighbor => beam_nearest rnd P im offsets coords dist
  | kAllNeighbors => beam_all P im offsets coords dist
  end.
(** computeWorstCaseApproximationError, bi:9-31 *)
Definition beam_worst_error (u : update_type) (cell_to_sensor_distance cell_bounding_radius : Q) : Q :=
  let worst_angular_error := (3 # 16) * scaling_free c / angle_sigma c * (cell_bounding_radius / cell_to_sensor_distance) in
  match u with
  | kFullyUnobserved => 0
  | kFullyFree | kFreeOrUnobserved => worst_angular_error
  | kPossiblyOccupied => qmax worst_angular_error ((3 # 8) * scaling_occupied c / range_sigma c * cell_bounding_radius)
  end.
End MODELS.

