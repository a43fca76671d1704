(** * Occupancy classes and masks
    Model of library/cpp/include/wavemap/core/utils/query/{occupancy,occupancy_classifier}.h and their
    impl/*_inl.h. Values are rationals instead of floats; 1e-3f is its exact float value 8589935 / 2^33. Masks are the
    integers 0..255 of a uint8_t; C++ computes on them after promotion to int, as Z does here. *)
From Verif Require Import Base.
From Coq Require Import QArith Qabs Lqa.
Close Scope Q_scope.
Open Scope Z_scope.

(** occupancy.h:12 [enum Id] *)
Inductive occ_id := kFree | kOccupied | kUnobserved | kObserved | kAny.
(** occupancy.h:12: enumerators are numbered from 0 *)
Definition id_num (i : occ_id) : Z := match i with kFree => 0 | kOccupied => 1 | kUnobserved => 2 | kObserved => 3 | kAny => 4 end.
(** impl/occupancy_inl.h:5-15 [Occupancy::toMask(Id)] *)
Definition occ_toMask (i : occ_id) : Z :=
  if id_num i <? 3 then Z.shiftl 1 (id_num i) else if id_num i =? 3 then 3 else 7.
(** impl/occupancy_inl.h:16-19 [Occupancy::toMask(bool, bool, bool)] *)
Definition occ_toMask3 (free occupied unobserved : bool) : Z :=
  Z.lor (Z.lor (Z.b2z free) (Z.shiftl (Z.b2z occupied) 1)) (Z.shiftl (Z.b2z unobserved) 2).

(** occupancy_classifier.h:43 [kUnobservedThreshold] *)
Definition unobserved_thr : Q := 8589935 # 8589934592.
(** < on floats *)
Definition qlt_b (a b : Q) : bool := negb (Qle_bool b a).
(** impl/occupancy_classifier_inl.h:58-61 [isUnobserved] *)
Definition oc_isUnobserved (v : Q) : bool := qlt_b (Qabs v) unobserved_thr.
(** impl/occupancy_classifier_inl.h:63-66 [isObserved] *)
Definition oc_isObserved (v : Q) : bool := negb (oc_isUnobserved v).
(** impl/occupancy_classifier_inl.h:5-12 [classify] *)
Definition oc_classify (thr v : Q) : occ_id :=
  if oc_isUnobserved v then kUnobserved else if qlt_b v thr then kFree else kOccupied.
(** impl/occupancy_classifier_inl.h:14-22 [toMask] *)
Definition oc_toMask (thr v : Q) : Z :=
  if oc_isUnobserved v then occ_toMask kUnobserved else if qlt_b v thr then occ_toMask kFree else occ_toMask kOccupied.
(** impl/occupancy_classifier_inl.h:39-43 [has(Mask, Mask)] *)
Definition oc_has (region mask : Z) : bool := negb (Z.land region mask =? 0).
(** impl/occupancy_classifier_inl.h:34-37 [has(Mask, Id)] *)
Definition oc_has_id (region : Z) (i : occ_id) : bool := oc_has region (occ_toMask i).
(** impl/occupancy_classifier_inl.h:29-32 [is(value, Mask)] *)
Definition oc_is (thr v : Q) (mask : Z) : bool := oc_has (oc_toMask thr v) mask.
(** impl/occupancy_classifier_inl.h:24-27 [is(value, Id)] *)
Definition oc_is_id (thr v : Q) (i : occ_id) : bool := oc_is thr v (occ_toMask i).
(** impl/occupancy_classifier_inl.h:50-56 [isFully(Mask, Mask)] *)
Definition oc_isFully (region mask : Z) : bool := Z.land (Z.land region 7) (Z.lnot mask) =? 0.
(** impl/occupancy_classifier_inl.h:45-48 [isFully(Mask, Id)] *)
Definition oc_isFully_id (region : Z) (i : occ_id) : bool := oc_isFully region (occ_toMask i).
