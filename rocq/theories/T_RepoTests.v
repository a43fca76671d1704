(** The literal expectations of the repository's unit tests, evaluated on the model. These are tests of the model (does it
    say what the authors of wavemap expect of the code?), not properties. Files under /repo/library/cpp/test/src/core/. Those of
    utils/bits/test_bit_operations.cc are in P_BitOps.v. *)
From Verif Require Import Base M_IntMath M_Adjacency M_Occupancy M_Grid M_Haar3 M_Ndtree M_Subtree M_Point M_Interpolate.
From Coq Require Import QArith.
Close Scope Q_scope.
Open Scope Z_scope.

(** utils/math/test_int_math.cc: Exp2, Log2 (all tested values), PowSequence, Factorial, Binomial *)
Example test_exp2 : map exp2 (map Z.of_nat (seq 0 31)) = map (Z.pow 2) (map Z.of_nat (seq 0 31)).
Proof. vm_compute. reflexivity. Qed.
(** base_value 2^1 .. 2^30 with offsets -1, 0, 1 *)
Definition log2_values : list Z := flat_map (fun k => let b := 2 ^ Z.of_nat k in [b - 1; b; b + 1]) (seq 1 30).
Example test_log2 :
  map (log2_floor true 32) log2_values = map (fun x => Some (Z.log2 x)) log2_values /\
  map (log2_ceil true 32) log2_values = map (fun x => Some (Z.log2_up x)) log2_values /\
  map (log2_floor false 32) log2_values = map (fun x => Some (Z.log2 x)) log2_values /\
  map (log2_ceil false 32) log2_values = map (fun x => Some (Z.log2_up x)) log2_values.
Proof. vm_compute. repeat split. Qed.
Example test_pow_sequence :
  pow_sequence 1 1 = [1] /\ pow_sequence 4 1 = [1] /\ pow_sequence 1 4 = [1; 1; 1; 1] /\ pow_sequence 2 4 = [1; 2; 4; 8] /\
  pow_sequence 3 4 = [1; 3; 9; 27] /\ pow_sequence (-2) 4 = [1; -2; 4; -8].
Proof. vm_compute. repeat split. Qed.
Example test_factorial :
  map factorial (seq 0 11) = [1; 1; 2; 6; 24; 120; 720; 5040; 40320; 362880; 3628800].
Proof. vm_compute. reflexivity. Qed.
Example test_binomial :
  map (fun n => map (binomial n) (seq 0 5)) (seq 0 5) =
  [[1; 0; 0; 0; 0]; [1; 1; 0; 0; 0]; [1; 2; 1; 0; 0]; [1; 3; 3; 1; 0]; [1; 4; 6; 4; 1]].
Proof. vm_compute. reflexivity. Qed.

(** utils/math/test_tree_math.cc, all tests *)
Example test_leaf_counts :
  map (fun d => map (num_leaf_nodes d) [1; 2; 3]) [1; 2; 3] = [[1; 2; 4]; [1; 4; 16]; [1; 8; 64]].
Proof. vm_compute. reflexivity. Qed.
Example test_total_counts :
  map (fun d => map (num_total_nodes d) [0; 1; 2; 3]) [1; 2; 3] = [[0; 1; 3; 7]; [0; 1; 5; 21]; [0; 1; 9; 73]].
Proof. vm_compute. reflexivity. Qed.
Example test_inner_counts :
  map (fun d => map (num_inner_nodes d) [2; 3; 4]) [1; 2; 3] = [[1; 3; 7]; [1; 5; 21]; [1; 9; 73]].
Proof. vm_compute. reflexivity. Qed.
Example test_fast_counts :
  map (fun d => map (num_total_nodes_fast d) (map Z.of_nat (seq 0 21))) [1; 2; 3] =
  map (fun d => map (fun h => Some (num_total_nodes d h)) (map Z.of_nat (seq 0 21))) [1; 2; 3].
Proof. vm_compute. reflexivity. Qed.

(** utils/neighbors/test_adjacency.cc and test_grid_neighborhood.cc *)
Example test_adjacency_mask :
  map (fun d => map (Z.testbit (toMask d kNone)) [kSharedVertex; kSharedEdge; kSharedFace; kSharedCube]) [1; 2; 3] =
    [[false; false; false; false]; [false; false; false; false]; [false; false; false; false]] /\
  map (fun d => map (Z.testbit (toMask d M_Adjacency.kAny)) [kSharedVertex; kSharedEdge; kSharedFace; kSharedCube]) [1; 2; 3] =
    [[true; true; true; true]; [true; true; true; true]; [true; true; true; true]] /\
  map (fun d => map (Z.testbit (toMask d kAnyDisjoint)) [kSharedVertex; kSharedEdge; kSharedFace; kSharedCube]) [1; 2; 3] =
    [[true; false; false; false]; [true; true; false; false]; [true; true; true; false]].
Proof. vm_compute. repeat split. Qed.
Example test_num_neighbors :
  map (fun id => map (fun d => numNeighbors d id) [1; 2; 3]%nat)
    [kSharedVertex; kSharedEdge; kSharedFace; kSharedCube; kNone; kAnyDisjoint; M_Adjacency.kAny] =
  [[2; 4; 8]; [1; 4; 12]; [0; 1; 6]; [0; 0; 1]; [0; 0; 0]; [2; 8; 26]; [3; 9; 27]].
Proof. vm_compute. reflexivity. Qed.
(** Every offset of the 3 x 3 x 3 grid (without the centre for disjoint neighbours) occurs exactly once. *)
Definition occurs (l : list (list Z)) (o : list Z) : nat := length (filter (list_eqb o) l).
Definition grid_offsets (d : nat) : list (list Z) :=
  match grid_visit 100 (repeat (-1) d) (repeat 1 d) with Some l => l | None => [] end.
Example test_offsets : forall d, In d [1; 2; 3]%nat ->
  exists a b, generateIndexOffsets d kAnyDisjoint = Some a /\ generateIndexOffsets d M_Adjacency.kAny = Some b /\
    Z.of_nat (length a) = numNeighbors d kAnyDisjoint /\ Z.of_nat (length b) = numNeighbors d M_Adjacency.kAny /\
    length (grid_offsets d) = (3 ^ d)%nat /\
    forallb (fun o => list_eqb o (repeat 0 d) || (occurs a o =? 1)%nat) (grid_offsets d) = true /\
    forallb (fun o => (occurs b o =? 1)%nat) (grid_offsets d) = true.
Proof.
  intros d Hd.
  repeat destruct Hd as [<- | Hd]; [| | |destruct Hd]; eexists; eexists; (split; [vm_compute; reflexivity|]);
    (split; [vm_compute; reflexivity|]); repeat split; vm_compute; reflexivity.
Qed.

(** utils/query/test_occupancy_classifier.cc: CellOccupancy, RegionOccupancy *)
Definition four : list occ_id := [kFree; kOccupied; kUnobserved; kObserved].
Example test_cell_occupancy :
  map oc_isUnobserved [-1#1; 0#1; 1#1]%Q = [false; true; false] /\ map oc_isObserved [-1#1; 0#1; 1#1]%Q = [true; false; true] /\
  map (fun v => map (oc_is_id (0#1) v) four) [-1#1; 0#1; 1#1]%Q =
    [[true; false; false; true]; [false; false; true; false]; [false; true; false; true]] /\
  map (fun v => map (oc_is_id (-1#1) v) four) [-11#10; -9#10; 0#1; 1#1]%Q =
    [[true; false; false; true]; [false; true; false; true]; [false; false; true; false]; [false; true; false; true]].
Proof. vm_compute. repeat split. Qed.
Example test_region_occupancy :
  map (fun r => (map (oc_has_id r) four, map (oc_isFully_id r) four))
    [occ_toMask kFree; occ_toMask kOccupied; occ_toMask kUnobserved; Z.lor (occ_toMask kFree) (occ_toMask kUnobserved);
     Z.lor (occ_toMask kOccupied) (occ_toMask kUnobserved); Z.lor (occ_toMask kFree) (occ_toMask kOccupied)] =
  [([true; false; false; true], [true; false; false; true]); ([false; true; false; true], [false; true; false; true]);
   ([false; false; true; false], [false; false; true; false]); ([true; false; true; true], [false; false; false; false]);
   ([false; true; true; true], [false; false; false; false]); ([true; true; false; true], [false; false; false; true])].
Proof. vm_compute. repeat split. Qed.

(** utils/iterate/test_subtree_iterator.cc: demoTree and the three orders. The test's nodes have four children; here they have
    eight, of which the first four are used. *)
Definition leaf (v : Z) : node Z := Node v None.
Definition inner (v : Z) (children : list (Z * node Z)) : node Z := fold_left (fun n ck => setChild n (fst ck) (snd ck)) children (leaf v).
Definition demoTree : node Z :=
  inner 1 [(0, inner 2 [(0, leaf 4); (1, inner 5 [(2, leaf 9); (3, leaf 10)]); (2, leaf 6)]);
           (1, inner 3 [(1, inner 7 [(0, leaf 11); (1, leaf 12); (2, leaf 13); (3, leaf 14)]); (3, inner 8 [(2, leaf 15)])])].
Example test_subtree :
  option_map (map (fun x => ndata (snd x))) (iterate pre_next 20 (pre_begin demoTree)) =
    Some [1; 2; 4; 5; 9; 10; 6; 3; 7; 11; 12; 13; 14; 8; 15] /\
  option_map (map (fun x => ndata (snd x))) (post_iterate 20 (post_begin demoTree)) =
    Some [4; 9; 10; 5; 6; 2; 11; 12; 13; 14; 7; 15; 8; 3; 1] /\
  option_map (map (fun x => ndata (snd x))) (iterate bfs_next 20 (pre_begin demoTree)) =
    Some [1; 2; 3; 4; 5; 6; 7; 8; 9; 10; 11; 12; 13; 14; 15].
Proof. vm_compute. repeat split. Qed.

(** utils/query/test_map_interpolator.cpp *)
Definition inside (i : list Z) : bool := forallb (fun c => (0 <=? c) && (c <=? 1)) i.
Definition known (i : list Z) : Q :=
  if inside i then inject_Z (4 * nth 0 i 0 + 2 * nth 1 i 0 + nth 2 i 0 + 1) else 0%Q.
Definition centre (i : list Z) : list Q := map (fun c => inject_Z c + (1 # 2))%Q i.
Definition all_indices : list (list Z) := match grid_visit 100 [-1; -1; -1] [2; 2; 2] with Some l => l | None => [] end.
Definition partitions (d : nat) (i : list Z) : Q := if inside i then (if nth d i 0 =? 0 then 1%Q else 2%Q) else 0%Q.
(** The point at fraction a of the segment along axis d *)
Definition on_segment (d : nat) (a : Q) : list Q := map (fun k => if (k =? d)%nat then ((1 # 2) + a)%Q else 1%Q) (seq 0 3).
Example test_interpolator :
  length all_indices = 64%nat /\
  forallb (fun i => Qeq_bool (trilinear known 1 (centre i)) (known i)) all_indices = true /\
  forallb (fun d => forallb (fun k => let a := (Z.of_nat k # 20)%Q in Qeq_bool (trilinear (partitions d) 1 (on_segment d a)) (1 + a)%Q) (seq 0 21)) (seq 0 3) = true.
Proof. vm_compute. repeat split. Qed.
