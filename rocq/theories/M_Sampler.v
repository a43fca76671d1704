(** PointSampler. Paths are relative to /repo/library/cpp: h: include/wavemap/core/utils/query/point_sampler.h,
    inl: include/wavemap/core/utils/query/impl/point_sampler_inl.h, cc: src/core/utils/query/point_sampler.cc,
    rng: include/wavemap/core/utils/random_number_generator.h. Real arithmetic instead of floats. *)
From Verif Require Import Base M_IntMath M_NdtreeIndex M_Num M_Ndtree M_Wavelet M_Occupancy M_Classified M_Point.
From Coq Require Import QArith.
Close Scope Q_scope.
Open Scope Z_scope.

Section Sampler.
Context {V : Type} (N : M_Num.num V) (is : V -> occ_id -> bool) (C : wconfig (V := V)) (w : Q).
(** The generator, rng:9-42: any state and any two functions for getRandomInteger (rng:18-24) and getRandomRealNumber (rng:26-32) *)
Context {G : Type} (rint : G -> Z -> Z -> Z * G) (rreal : G -> Q -> Q -> Q * G).

Definition idx_of (l : list Z) : idx3 := match l with [x; y; z] => I3 x y z | _ => I3 0 0 0 end.
(** getRandomPointInAABB, inl:19-23; the braces evaluate their elements from left to right *)
Definition randomInAABB (g : G) (b : aabb) : list Q * G :=
  let '(x, g1) := rreal g (nth 0 (bmin b) 0%Q) (nth 0 (bmax b) 0%Q) in
  let '(y, g2) := rreal g1 (nth 1 (bmin b) 0%Q) (nth 1 (bmax b) 0%Q) in
  let '(z, g3) := rreal g2 (nth 2 (bmin b) 0%Q) (nth 2 (bmax b) 0%Q) in ([x; y; z], g3).
(** nodeIndexToAABB, indexing/index_conversions.h:142-152 *)
Definition nodeAABB (i : oidx) : aabb := AABB (nodeIndexToMinCorner (oni i) w) (nodeIndexToMaxCorner (oni i) w).
(** getRandomPointInBlock, inl:25-29 *)
Definition randomInBlock (g : G) (k : idx3) : list Q * G := randomInAABB g (nodeAABB (OI (cT C) k)).
(** getRandomBlock, cc:4-18. The order of the list stands for the order in which the hash map is iterated. *)
Definition randomBlock (g : G) (blocks : list idx3) : option idx3 * G :=
  match blocks with
  | [] => (None, g)
  | _ => let '(n, g1) := rint g 0 (Z.of_nat (length blocks) - 1) in (nth_error blocks (Z.to_nat n), g1)
  end.
(** the point of an attempt, cc:28-36; [None]: continue *)
Definition attempt (g : G) (blocks : list idx3) (box : option aabb) : option (list Q) * G :=
  match box with
  | Some b => let '(p, g') := randomInAABB g b in (Some p, g')
  | None =>
      match randomBlock g blocks with
      | (Some k, g1) => let '(p, g') := randomInBlock g1 k in (Some p, g')
      | (None, g1) => (None, g1)
      end
  end.
(** the loop, cc:27-41; isFully(Index3D): impl/classified_map_inl.h:53-56. The cell is found with min_cell_width_inv_ (h:38-40).
    [None]: undefined behaviour in the classified map. *)
Fixpoint attempts (n : nat) (mask : Z) (box : option aabb) (s : cmstate) (g : G) : option (option (list Q) * cmstate * G) :=
  match n with
  | O => Some (None, s, g)
  | S n' =>
      match attempt g (map fst (cm_map s)) box with
      | (Some p, g') =>
          match cm_call N is C s (KFully (OI 0 (idx_of (pointToNearestIndex round_away p (1 / w)))) mask) with
          | Some (s', ABool true) => Some (Some p, s', g')
          | Some (s', _) => attempts n' mask box s' g'
          | None => None
          end
      | (None, g') => attempts n' mask box s g'
      end
  end.
(** getRandomPointImpl, cc:20-44, called by getRandomPoint (inl:11-17) with attempt_idx = 0; empty(): no blocks *)
Definition getRandomPoint (n : nat) (mask : Z) (box : option aabb) (s : cmstate) (g : G) : option (option (list Q) * cmstate * G) :=
  match cm_map s with
  | [] => Some (None, s, g)
  | _ => attempts n mask box s g
  end.
(** the overload for a class, inl:5-9 *)
Definition getRandomPointId (n : nat) (id : occ_id) := getRandomPoint n (occ_toMask id).
End Sampler.
