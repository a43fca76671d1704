(** Ray tracing integrator: /repo/library/cpp/src/core/integrator/ray_tracing/ray_tracing_integrator.cc,
    src/core/integrator/integrator_base.cc, include/wavemap/core/integrator/impl/integrator_base_inl.h and
    include/wavemap/core/integrator/measurement_model/constant_ray.h.
    Floats are rationals; std::sqrt (in Eigen's norm()) is a parameter [fsqrt], the rounding of pointToNearestIndex a parameter [rnd].
    The map is any type [M] with an operation [add] for addToCellValue; the clock read by the map does not advance during a call. *)
From Verif Require Import Base M_IntMath M_NdtreeIndex M_Point M_Num M_Ndtree M_Ray.
From Coq Require Import QArith Qcanon.
Close Scope Qc_scope.
Close Scope Q_scope.
Open Scope Z_scope.

(** A Point3D: with a NaN coordinate, without NaN but with an infinite coordinate, or finite *)
Inductive fpoint := PNan | PInf | PFin (p : vec Q).
(** The pose of a PosedObject (core/data_structure/posed_object.h:27-49): position (None if it contains a NaN) and rotation matrix
    (finite entries; infinite positions are left out) *)
Record rpose := RPose { rp_pos : option (vec Q); rp_rot : nat -> nat -> Q }.
(** RayTracingIntegratorConfig, ray_tracing_integrator.h:15-27 *)
Record rtconfig := RTC { rt_min : Q; rt_max : Q }.
(** ray_tracing_integrator.cc:8-16 *)
Definition rt_valid (c : rtconfig) : bool := negb (Qle_bool (rt_min c) 0) && negb (Qle_bool (rt_max c) 0) && negb (Qle_bool (rt_max c) (rt_min c)).
(** ConstantRayConfig, constant_ray.h:12-14: 0.85f and -0.4f *)
Definition log_odds_occupied : Qc := Q2Qc (14260634 # 16777216).
Definition log_odds_free : Qc := Q2Qc (- 13421773 # 33554432).

Definition vsub (a b : vec Q) : vec Q := fun i => (a i - b i)%Q.
Definition vnorm2 (a : vec Q) : Q := (a 0%nat * a 0%nat + a 1%nat * a 1%nat + a 2%nat * a 2%nat)%Q.
(** PosedPointcloud::getPointsGlobal, core/data_structure/pointcloud.h:76-79: rotate and translate every point. A NaN or an
    infinite coordinate stays one (a rotation with zero entries turns an infinite coordinate into a NaN; the point is skipped
    either way). *)
Definition to_global (rot : nat -> nat -> Q) (o : vec Q) (p : fpoint) : fpoint :=
  match p with
  | PFin p => PFin (fun i => rot i 0%nat * p 0%nat + rot i 1%nat * p 1%nat + rot i 2%nat * p 2%nat + o i)%Q
  | PNan => PNan | PInf => PInf
  end.
(** integrator_base_inl.h:5-25 [isMeasurementValid], for a point without NaN given by its squared norm. 1e-3f * 1e-3f is taken
    as the exact square of the float 1e-3f. *)
Definition low2 : Q := (8589935 # 8589934592) * (8589935 # 8589934592).
Definition high2 : Q := 1000000.
Definition measurement_valid (n2 : Q) : bool := Qle_bool low2 n2 && Qle_bool n2 high2.
(** integrator_base_inl.h:27-37 [getEndPointOrMaxRange] *)
Definition end_or_max_range (s e : vec Q) (dist max_range : Q) : vec Q :=
  if Qle_bool dist max_range then e else fun i => (s i + max_range / dist * (e i - s i))%Q.
Definition vi (x : vec Z) : idx3 := I3 (x 0%nat) (x 1%nat) (x 2%nat).

Section RT.
Context (rnd : Q -> Z) (fsqrt : Q -> Q) {M : Type} (add : M -> idx3 -> Qc -> M).
(** constant_ray.h:69-73: the cell of the end point *)
Definition end_cell (w : Q) (e : vec Q) : vec Z := fun i => rnd (e i * (1 / w) - (1 # 2))%Q.
(** constant_ray.h:44-52 [computeUpdate] *)
Definition ray_update (w : Q) (e : vec Q) (x : vec Z) : Qc :=
  if ieqb (vi x) (vi (end_cell w e)) then log_odds_occupied else log_odds_free.
(** The end of the ray that is traced, ray_tracing_integrator.cc:36-39 *)
Definition traced_end (c : rtconfig) (s e : vec Q) : vec Q := end_or_max_range s e (fsqrt (vnorm2 (vsub s e))) (rt_max c).
(** The body of the loop over the points, ray_tracing_integrator.cc:29-45; an infinite point has an infinite norm *)
Definition rt_point (c : rtconfig) (w : Q) (s : vec Q) (m : M) (p : fpoint) : M :=
  match p with
  | PNan | PInf => m
  | PFin e =>
    if measurement_valid (vnorm2 (vsub e s)) then
      fold_left (fun m x => add m (vi x) (ray_update w e x)) (ray_visit 3 (ray_of_points rnd 3 s (traced_end c s e) w)) m
    else m
  end.
(** ray_tracing_integrator.cc:18-46 [integrate]. None: the process aborts. getPointsGlobal (core/data_structure/pointcloud.h:76-79)
    calls transformVectorized, which begins with CHECK_GT(rhs.cols(), 0)
    (3rd_party/minkindr/impl/quat-transformation-inl.h:152-160). *)
Definition rt_integrate (c : rtconfig) (w : Q) (m : M) (pose : rpose) (cloud : list fpoint) : option M :=
  match rp_pos pose with
  | None => Some m
  | Some s => match cloud with [] => None | _ => Some (fold_left (rt_point c w s) (map (to_global (rp_rot pose) s) cloud) m) end
  end.
End RT.
