(** Property theorems C82: the hash values of map indices. Blocks of one region have different
    hashes, nodes of different height have different hashes, but far apart indices can collide. *)
From Verif Require Import Base M_IntMath M_NdtreeIndex M_IndexHash.
From Coq Require Import Znumtheory.

(* --------------------------------------- specification --------------------------------------- *)
(** Two blocks lie in one region of 17191 x 17191 x 14 blocks. *)
Definition same_region (a b : Z * Z * Z) : Prop :=
  let '(x, y, z) := a in let '(x', y', z') := b in
  Z.abs (x - x') < 17191 /\ Z.abs (y - y') < 17191 /\ Z.abs (z - z') < 14.
Definition cell (a : Z * Z * Z) : list Z := let '(x, y, z) := a in [x; y; z].

(* ------------------------------------------- facts ------------------------------------------- *)
Lemma hash32_u64 x : hash32 (u64 x) = hash32 x.
Proof.
  unfold hash32, u64. symmetry. apply Zmod_div_mod; [lia|lia|]. exists (2 ^ 32). reflexivity.
Qed.
Lemma hash32_mod a b : hash32 a = hash32 b -> exists k, a = b + k * 2 ^ 32.
Proof.
  unfold hash32. intros H. exists (a / 2 ^ 32 - b / 2 ^ 32).
  pose proof (Z.div_mod a (2 ^ 32) ltac:(lia)). pose proof (Z.div_mod b (2 ^ 32) ltac:(lia)). lia.
Qed.
Lemma hash32_step acc a x : hash32 (u64 (acc + u64 (a * u64 x))) = hash32 (acc + a * x).
Proof.
  rewrite hash32_u64. unfold hash32, u64.
  rewrite <- (Zplus_mod_idemp_r ((a * (x mod 2 ^ 64)) mod 2 ^ 64)).
  rewrite <- (Zmod_div_mod (2 ^ 32) (2 ^ 64) (a * (x mod 2 ^ 64))) by (try lia; exists (2 ^ 32); reflexivity).
  rewrite <- (Zmult_mod_idemp_r (x mod 2 ^ 64)).
  rewrite <- (Zmod_div_mod (2 ^ 32) (2 ^ 64) x) by (try lia; exists (2 ^ 32); reflexivity).
  rewrite Zmult_mod_idemp_r, Zplus_mod_idemp_r. reflexivity.
Qed.
Lemma hash32_acc a b : hash32 (hash32 a + b) = hash32 (a + b).
Proof. unfold hash32. apply Zplus_mod_idemp_l. Qed.
Lemma hash32_range x : 0 <= hash32 x < 2 ^ 32.
Proof. unfold hash32. apply Z.mod_pos_bound. lia. Qed.

Lemma index_hash3 x y z : index_hash [x; y; z] = hash32 (x + 17191 * y + 295530481 * z).
Proof.
  unfold index_hash. change (hash_coefficients (length [x; y; z])) with [1; 17191; 295530481].
  cbn [transform_reduce]. rewrite !hash32_step, (hash32_acc (0 + 1 * x)), (hash32_acc (0 + 1 * x + 17191 * y)). f_equal. ring.
Qed.

Lemma node_hash3 h x y z :
  0 <= h < 2 ^ 20 ->
  node_hash (NodeIndex h [x; y; z]) = hash32 (x + 17191 * y + 295530481 * z) + 5080464498871 * h.
Proof.
  intros Hh. unfold node_hash. cbn [position height].
  change (hash_coefficients (S (length [x; y; z]))) with [1; 17191; 295530481; 5080464498871].
  cbn [removelast last transform_reduce]. rewrite !hash32_step, (hash32_acc (0 + 1 * x)), (hash32_acc (0 + 1 * x + 17191 * y)).
  rewrite (u64_small h) by lia. rewrite (u64_small (_ * h)) by lia.
  replace (0 + 1 * x + 17191 * y + 295530481 * z) with (x + 17191 * y + 295530481 * z) by ring.
  pose proof (hash32_range (x + 17191 * y + 295530481 * z)) as B. apply u64_small. lia.
Qed.

Lemma digits dx dy dz k : Z.abs dx < 17191 -> Z.abs dy < 17191 -> Z.abs dz < 14 ->
  dx + 17191 * dy + 295530481 * dz = k * 2 ^ 32 -> dx = 0 /\ dy = 0 /\ dz = 0.
Proof.
  intros Hx Hy Hz E. change (2 ^ 32) with 4294967296 in E.
  assert (k = 0) as -> by lia.
  assert (exists q, q = dy + 17191 * dz) as (q & Hq) by (eexists; reflexivity).
  assert (dx + 17191 * q = 0) as E1 by lia.
  assert (q = 0) by lia. subst q. assert (dz = 0) by lia. lia.
Qed.

(* ------------------------------------------ theorems ------------------------------------------ *)
(** C82: the hash is a function of the block that does not depend on how the sum is cut: it is
    [x + 17191 y + 17191^2 z] modulo 2^32. *)
Theorem C82_hash_value : forall x y z,
  index_hash [x; y; z] = (x + 17191 * y + 17191 ^ 2 * z) mod 2 ^ 32.
Proof. intros. rewrite index_hash3. reflexivity. Qed.

(** C82: two different blocks of one region never have the same hash. *)
Theorem C82_region : forall a b, same_region a b -> a <> b -> index_hash (cell a) <> index_hash (cell b).
Proof.
  intros [[x y] z] [[x' y'] z'] (Hx & Hy & Hz) N E. cbn [cell] in E. rewrite !index_hash3 in E.
  apply hash32_mod in E. destruct E as (k & E).
  destruct (digits (x - x') (y - y') (z - z') k Hx Hy Hz ltac:(lia)) as (A & B & C).
  apply N. repeat f_equal; lia.
Qed.

(** C82: nodes with the same hash have the same height and their positions have the same hash, so
    nodes of different height never collide, and nodes of one region collide only if equal. *)
Theorem C82_nodes : forall h a h' b,
  0 <= h < 2 ^ 20 -> 0 <= h' < 2 ^ 20 ->
  node_hash (NodeIndex h (cell a)) = node_hash (NodeIndex h' (cell b)) ->
  h = h' /\ index_hash (cell a) = index_hash (cell b) /\ (same_region a b -> a = b).
Proof.
  intros h [[x y] z] h' [[x' y'] z'] Hh Hh' E. cbn [cell] in *. rewrite !node_hash3 in E by assumption.
  pose proof (hash32_range (x + 17191 * y + 295530481 * z)) as A.
  pose proof (hash32_range (x' + 17191 * y' + 295530481 * z')) as B.
  assert (h = h') as -> by lia. split; [reflexivity|].
  assert (index_hash [x; y; z] = index_hash [x'; y'; z']) as EH by (rewrite !index_hash3; lia).
  split; [exact EH|]. intros R.
  assert (a_dec : {(x, y, z) = (x', y', z')} + {(x, y, z) <> (x', y', z')}).
  { destruct (Z.eq_dec x x'), (Z.eq_dec y y'), (Z.eq_dec z z'); subst;
      try (right; intros Q; injection Q; congruence). left; reflexivity. }
  destruct a_dec as [Q|Q]; [exact Q|]. exfalso. exact (C82_region _ _ R Q EH).
Qed.

(** C82: the region cannot be taken any larger: one step beyond it in the first direction two blocks
    collide, and the same in the second direction; 2^32 blocks away everything repeats. *)
Theorem C82_collision_refuted : exists a b, a <> b /\
  (forall i, (i < 3)%nat -> - 2 ^ 31 <= nth i (cell a) 0 < 2 ^ 31 /\ - 2 ^ 31 <= nth i (cell b) 0 < 2 ^ 31) /\
  index_hash (cell a) = index_hash (cell b).
Proof.
  exists (17191, 0, 0), (0, 1, 0). split; [discriminate|]. split; [|vm_compute; reflexivity].
  intros i Hi. destruct i as [|[|[|i]]]; cbn [cell nth]; lia.
Qed.

Theorem C82_period : forall x y z x' y' z',
  (x - x') + 17191 * (y - y') + 17191 ^ 2 * (z - z') = 0 \/
  (x - x') + 17191 * (y - y') + 17191 ^ 2 * (z - z') = 2 ^ 32 ->
  index_hash [x; y; z] = index_hash [x'; y'; z'].
Proof.
  intros x y z x' y' z' H. rewrite !C82_hash_value. change (17191 ^ 2) with 295530481 in *.
  destruct H as [H|H].
  - f_equal. lia.
  - replace (x + 17191 * y + 295530481 * z) with (x' + 17191 * y' + 295530481 * z' + 1 * 2 ^ 32) by lia.
    apply Z.mod_add. lia.
Qed.

(** Non-vacuity: negative coordinates and both corners of a region. *)
Example C82_ex :
  same_region (-8595, -8595, -7) (8595, 8595, 6) /\
  index_hash [-8595; -8595; -7] = 2078488689 /\ index_hash [8595; 8595; 6] = 1920948126 /\
  node_hash (NodeIndex 5 [-1; 0; 0]) = 5080464498871 * 5 + 4294967295.
Proof. split; [vm_compute; repeat split; reflexivity|]. repeat split; vm_compute; reflexivity. Qed.
Example C82_nodes_ex : exists h a h' b, 0 <= h < 2 ^ 20 /\ 0 <= h' < 2 ^ 20 /\ a <> b /\
  node_hash (NodeIndex h (cell a)) = node_hash (NodeIndex h' (cell b)) /\ h = h'.
Proof.
  exists 3, (17191, -2, 5), 3, (0, -1, 5). repeat split; try lia; try discriminate.
Qed.

Print Assumptions C82_hash_value.
Print Assumptions C82_region.
Print Assumptions C82_nodes.
Print Assumptions C82_collision_refuted.
Print Assumptions C82_period.
