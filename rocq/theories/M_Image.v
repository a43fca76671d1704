(** Image index conversions and import of point clouds. Files under /repo/library/cpp/:
    "pb" = include/wavemap/core/integrator/projection_model/impl/projector_base_inl.h,
    "cp" = .../projection_model/circular_projector.h, "pi" = src/core/integrator/projective/projective_integrator.cc,
    "im" = include/wavemap/core/data_structure/image.h. Floats are rationals. *)
From Verif Require Import Base M_Point.
From Coq Require Import QArith Qround Qabs.
Close Scope Q_scope.
Open Scope Z_scope.

(** Vector2D and Index2D *)
Definition v2 := (Q * Q)%type.
Definition i2 := (Z * Z)%type.
(** projector_base.h:31-39,117-119: scale factor, its inverse, and offset *)
Record projector := PB { pb_scale : v2; pb_offset : v2 }.
Definition pb_inv (P : projector) : v2 := (1 / fst (pb_scale P), 1 / snd (pb_scale P))%Q.
(** pb:115-119 *)
Definition imageToIndexReal (P : projector) (c : v2) : v2 :=
  ((fst c - fst (pb_offset P)) * fst (pb_inv P), (snd c - snd (pb_offset P)) * snd (pb_inv P))%Q.
(** pb:7-13; [rnd] is Eigen's round() *)
Definition imageToNearestIndex (rnd : Q -> Z) (P : projector) (c : v2) : i2 :=
  let r := imageToIndexReal P c in (rnd (fst r), rnd (snd r)).
(** pb:15-21 *)
Definition imageToFloorIndex (P : projector) (c : v2) : i2 :=
  let r := imageToIndexReal P c in (Qfloor (fst r), Qfloor (snd r)).
(** pb:23-29 *)
Definition imageToCeilIndex (P : projector) (c : v2) : i2 :=
  let r := imageToIndexReal P c in (Qceiling (fst r), Qceiling (snd r)).
(** pb:31-39 *)
Definition imageToNearestIndexAndOffset (rnd : Q -> Z) (P : projector) (c : v2) : i2 * v2 :=
  let r := imageToIndexReal P c in
  let i := (rnd (fst r), rnd (snd r)) in
  (i, ((inject_Z (fst i) - fst r) * fst (pb_scale P), (inject_Z (snd i) - snd r) * snd (pb_scale P))%Q).
(** pb:41-59: the four columns *)
Definition imageToNearestIndices (P : projector) (c : v2) : list i2 :=
  let lo := imageToFloorIndex P c in let hi := imageToCeilIndex P c in
  [lo; (fst hi, snd lo); (fst lo, snd hi); hi].
(** pb:61-90 *)
Definition imageToNearestIndicesAndOffsets (P : projector) (c : v2) : list (i2 * v2) :=
  let r := imageToIndexReal P c in
  map (fun i => (i, (fst (pb_scale P) * (inject_Z (fst i) - fst r), snd (pb_scale P) * (inject_Z (snd i) - snd r))%Q))
    (imageToNearestIndices P c).
(** pb:92-97 *)
Definition indexToImage (P : projector) (i : i2) : v2 :=
  (inject_Z (fst i) * fst (pb_scale P) + fst (pb_offset P), inject_Z (snd i) * snd (pb_scale P) + snd (pb_offset P))%Q.

(** CircularProjector, cp:31-89: min_angle, max_angle, num_cells *)
Record circular := CP { cp_min : Q; cp_max : Q; cp_num : Z }.
(** cp:81-84 *)
Definition cp_inc (C : circular) : Q := ((cp_max C - cp_min C) / inject_Z (cp_num C - 1))%Q.
(** cp:86-88 *)
Definition angleToScaledAngle (C : circular) (a : Q) : Q := ((a - cp_min C) * (1 / cp_inc C))%Q.
(** cp:47-62 *)
Definition angleToNearestIndex (rnd : Q -> Z) (C : circular) (a : Q) : Z := rnd (angleToScaledAngle C a).
Definition angleRemainder (rnd : Q -> Z) (C : circular) (a : Q) : Q :=
  ((angleToScaledAngle C a - inject_Z (rnd (angleToScaledAngle C a))) * cp_inc C)%Q.
Definition angleToFloorIndex (C : circular) (a : Q) : Z := Qfloor (angleToScaledAngle C a).
Definition angleToCeilIndex (C : circular) (a : Q) : Z := Qceiling (angleToScaledAngle C a).
(** cp:63-66 *)
Definition indexToAngle (C : circular) (i : Z) : Q := (cp_min C + inject_Z i * cp_inc C)%Q.

(** ** importPointcloud, pi:52-89 *)
Section IMPORT.
Context {P : Type}.
(** isMeasurementValid (integrator_base_inl.h:5-25) and cartesianToSensor of the projection model are
    arbitrary functions of the point; the model returns (image coordinates, depth). *)
Context (valid : P -> bool) (sensor : P -> v2 * Q) (rnd : Q -> Z) (prj : projector).
Context (rows cols : Z) (min_range : Q).
(** The range image and the beam offset image: pixel -> value *)
Definition images := i2 -> Q * v2.
(** resetToInitialValue, im:42; the initial value is zero (data::fill::zero) *)
Definition reset_images : images := fun _ => (0%Q, (0%Q, 0%Q)).
(** im:54-57 *)
Definition within_bounds (i : i2) : bool := (0 <=? fst i) && (fst i <? rows) && (0 <=? snd i) && (snd i <? cols).
Definition i2_eqb (a b : i2) : bool := (fst a =? fst b) && (snd a =? snd b).
Definition qltb (a b : Q) : bool := negb (Qle_bool b a).
(** The loop body, pi:61-88 *)
Definition import_point (im : images) (p : P) : images :=
  if negb (valid p) then im else
  let '(coords, range) := sensor p in
  let '(idx, offset) := imageToNearestIndexAndOffset rnd prj coords in
  if negb (within_bounds idx) then im else
  let old := fst (im idx) in
  if qltb old min_range || qltb range old
  then fun i => if i2_eqb i idx then (range, offset) else im i
  else im.
Definition importPointcloud (cloud : list P) : images := fold_left import_point cloud reset_images.
End IMPORT.
