(** Points and index/point conversions: index_conversions.h, and axis-aligned boxes: aabb.h (both under
    /repo/library/cpp/include/wavemap/core/). Points of any dimension are lists of rationals (exact
    arithmetic instead of float); indices are lists of unbounded integers. *)
From Verif Require Import Base M_IntMath M_NdtreeIndex.
From Coq Require Import QArith Qround Qabs Lqa.
Close Scope Q_scope.
Open Scope Z_scope.

(** std::round (Eigen's scalar ArrayBase::round()): nearest integer, halves away from zero.
    (Eigen's vectorised kernels may round halves to even; theorems that do not depend on the rounding of
    halves are stated for every nearest rounding, see P_Point.v.) *)
Definition round_away (x : Q) : Z :=
  if Qle_bool 0 x then Qfloor (x + (1 # 2))%Q else Qceiling (x - (1 # 2))%Q.

(** index_conversions.h:16-19, with the rounding function as a parameter *)
Definition scaledPointToNearestIndex (rnd : Q -> Z) (p : list Q) : list Z := map (fun x => rnd (x - (1 # 2))%Q) p.
(** index_conversions.h:21-24 *)
Definition scaledPointToFloorIndex (p : list Q) : list Z := map (fun x => Qfloor (x - (1 # 2))%Q) p.
(** index_conversions.h:26-29 *)
Definition scaledPointToCeilIndex (p : list Q) : list Z := map (fun x => Qceiling (x - (1 # 2))%Q) p.
Definition scale_point (p : list Q) (s : Q) : list Q := map (fun x => (x * s)%Q) p.
(** index_conversions.h:31-35 *)
Definition pointToNearestIndex rnd (p : list Q) (w_inv : Q) : list Z := scaledPointToNearestIndex rnd (scale_point p w_inv).
(** index_conversions.h:37-41 *)
Definition pointToFloorIndex (p : list Q) (w_inv : Q) : list Z := scaledPointToFloorIndex (scale_point p w_inv).
(** index_conversions.h:43-47 *)
Definition pointToCeilIndex (p : list Q) (w_inv : Q) : list Z := scaledPointToCeilIndex (scale_point p w_inv).
(** index_conversions.h:49-53 *)
Definition indexToMinCorner (i : list Z) (w : Q) : list Q := map (fun c => (inject_Z c * w)%Q) i.
(** index_conversions.h:55-59 *)
Definition indexToMaxCorner (i : list Z) (w : Q) : list Q := map (fun c => ((inject_Z c + 1) * w)%Q) i.
(** index_conversions.h:61-65 *)
Definition indexToCenterPoint (i : list Z) (w : Q) : list Q := map (fun c => ((inject_Z c + (1 # 2)) * w)%Q) i.
(** index_conversions.h:67-73 *)
Definition indexToNewResolution rnd (i : list Z) (src dst : Q) : list Z :=
  pointToNearestIndex rnd (indexToCenterPoint i src) (1 / dst).
(** index_conversions.h:75-78 *)
Definition heightToCellWidth (min_w : Q) (h : Z) : Q := (min_w * inject_Z (exp2 h))%Q.
(** index_conversions.h:108-116 *)
Definition pointToNodeIndex rnd (p : list Q) (min_w : Q) (h : Z) : node_index :=
  NodeIndex h (pointToNearestIndex rnd p (1 / heightToCellWidth min_w h)).
(** index_conversions.h:118-124 *)
Definition nodeIndexToCenterPoint (n : node_index) (min_w : Q) : list Q :=
  indexToCenterPoint (position n) (heightToCellWidth min_w (height n)).
(** index_conversions.h:126-132 *)
Definition nodeIndexToMinCorner (n : node_index) (min_w : Q) : list Q :=
  indexToMinCorner (position n) (heightToCellWidth min_w (height n)).
(** index_conversions.h:134-140 *)
Definition nodeIndexToMaxCorner (n : node_index) (min_w : Q) : list Q :=
  indexToMaxCorner (position n) (heightToCellWidth min_w (height n)).

(** ** Axis-aligned boxes, aabb.h *)
(** aabb.h:15-30 *)
Record aabb := AABB { bmin : list Q; bmax : list Q }.
(** Default constructor, aabb.h:22-28: every component is numeric_limits::max() / lowest(); the largest
    finite value is the parameter [big]. *)
Definition aabb_empty (big : Q) (dim : nat) : aabb := AABB (repeat big dim) (repeat (- big)%Q dim).
Fixpoint zip {A B C} (f : A -> B -> C) (a : list A) (b : list B) : list C :=
  match a, b with x :: a', y :: b' => f x y :: zip f a' b' | _, _ => [] end.
(** Eigen cwiseMin / cwiseMax *)
Definition qmin (x y : Q) : Q := if Qle_bool x y then x else y.
Definition qmax (x y : Q) : Q := if Qle_bool x y then y else x.
(** aabb.h:32-35 *)
Definition includePoint (b : aabb) (p : list Q) : aabb := AABB (zip qmin (bmin b) p) (zip qmax (bmax b) p).
(** aabb.h:36-38 *)
Fixpoint all2 {A B} (f : A -> B -> bool) (a : list A) (b : list B) : bool :=
  match a, b with x :: a', y :: b' => f x y && all2 f a' b' | _, _ => true end.
Definition containsPoint (b : aabb) (p : list Q) : bool := all2 Qle_bool (bmin b) p && all2 Qle_bool p (bmax b).
(** aabb.h:40-43 *)
Definition closestPointTo (b : aabb) (p : list Q) : list Q := zip qmin (zip qmax p (bmin b)) (bmax b).
(** aabb.h:44-49, for floating point scalars *)
Fixpoint select3 (mn mx p : list Q) : list Q :=
  match mn, mx, p with
  | a :: mn', b :: mx', x :: p' => (if Qle_bool x ((a + b) / 2) then b else a) :: select3 mn' mx' p'
  | _, _, _ => []
  end.
Definition furthestPointFrom (b : aabb) (p : list Q) : list Q := select3 (bmin b) (bmax b) p.
(** aabb.h:44-49 for integer scalars (AABB<Index3D>): the division truncates *)
Definition furthest_int (mn mx x : Z) : Z := if Z.quot (mn + mx) 2 <? x then mn else mx.
Definition qsub_l (a b : list Q) : list Q := zip Qminus a b.
(** aabb.h:51-56 *)
Definition minOffsetTo (b : aabb) (p : list Q) : list Q := qsub_l p (closestPointTo b p).
Definition maxOffsetTo (b : aabb) (p : list Q) : list Q := qsub_l p (furthestPointFrom b p).
(** aabb.h:58-62 *)
Definition minOffsetToBox (b c : aabb) : list Q :=
  map (fun x => qmax x 0) (qsub_l (zip qmax (bmin b) (bmin c)) (zip qmin (bmax b) (bmax c))).
(** aabb.h:65-71 *)
Definition maxOffsetToBox (b c : aabb) : list Q :=
  zip (fun d1 d2 => if Qle_bool (Qabs.Qabs d1) (Qabs.Qabs d2) then d2 else d1)
      (qsub_l (bmin b) (bmax c)) (qsub_l (bmax b) (bmin c)).
(** aabb.h:73-80: squaredNorm() of the offset *)
Definition squaredNorm (v : list Q) : Q := fold_right (fun x s => (x * x + s)%Q) 0%Q v.
(** aabb.h:107-121 *)
Definition corner_point (b : aabb) (corner : Z) : list Q :=
  map (fun d => if Z.testbit corner (Z.of_nat d) then nth d (bmax b) 0%Q else nth d (bmin b) 0%Q) (seq 0 (length (bmin b))).
