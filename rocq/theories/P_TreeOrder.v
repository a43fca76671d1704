(** Property theorems C81: the numbers the library gives to the nodes below a node
    ([computeLevelTraversalDistance], [computeTreeTraversalDistance]) count them level by level, in
    the order in which [computeChildIndices] lists the children, without gaps or repetitions. *)
From Verif Require Import Base M_IntMath F_IntMath M_Morton F_Morton M_NdtreeIndex F_NdtreeIndex.

(* --------------------------------------- specification --------------------------------------- *)
(** A node is a descendant of [P], [k] levels further down: it is [k] lower and the cells it covers
    lie in [P]. The number of coordinates of the two is the same. *)
Definition descendant (P : node_index) (k : nat) (n : node_index) : Prop :=
  height n = height P - Z.of_nat k /\
  Forall2 (fun p c => 2 ^ Z.of_nat k * p <= c < 2 ^ Z.of_nat k * (p + 1)) (position P) (position n).

(** The nodes [k] levels below [P]: the children of the children of ... of [P]. *)
Fixpoint generation (dim : Z) (P : node_index) (k : nat) : list node_index :=
  match k with
  | O => [P]
  | S k' => flat_map (computeChildIndices dim) (generation dim P k')
  end.
(** Breadth-first: [P], its children, its grandchildren, ... down to [k] levels below [P]. *)
Fixpoint breadth_first (dim : Z) (P : node_index) (k : nat) : list node_index :=
  match k with
  | O => [P]
  | S k' => breadth_first dim P k' ++ generation dim P (S k')
  end.

(* ------------------------------------------- facts ------------------------------------------- *)
Lemma nodes_eta n : NodeIndex (height n) (position n) = n.
Proof. destruct n; reflexivity. Qed.

Lemma children_in dim n c : 1 <= dim -> Z.of_nat (length (position n)) = dim ->
  (In c (computeChildIndices dim n) <-> computeParentIndex1 c = n /\ Z.of_nat (length (position c)) = dim).
Proof.
  intros Hd Hl. unfold computeChildIndices. rewrite in_map_iff. split.
  - intros (k & <- & Hk). split; [apply parent_child|].
    cbn [computeChildIndex position]. rewrite add_child_offset_length. exact Hl.
  - intros (Hp & Hc). exists (Z.to_nat (computeRelativeChildIndex c)).
    pose proof (computeRelativeChildIndex_range c) as B. rewrite Hc in B.
    split.
    + rewrite Z2Nat.id by lia. rewrite <- Hp. apply child_parent.
    + apply in_seq. split; [lia|]. cbn [Nat.add].
      rewrite exp2_pow by lia. lia.
Qed.

Lemma children_nodup dim n : 1 <= dim -> Z.of_nat (length (position n)) = dim ->
  NoDup (computeChildIndices dim n).
Proof.
  intros Hd Hl. unfold computeChildIndices.
  assert (forall a b, In a (seq 0 (Z.to_nat (exp2 dim))) -> In b (seq 0 (Z.to_nat (exp2 dim))) ->
            computeChildIndex n (Z.of_nat a) = computeChildIndex n (Z.of_nat b) -> a = b) as Inj.
  { intros a b Ha Hb E. apply in_seq in Ha. apply in_seq in Hb. rewrite exp2_pow in Ha, Hb by lia.
    pose proof (Z.pow_pos_nonneg 2 dim ltac:(lia) ltac:(lia)).
    pose proof (rel_of_child n (Z.of_nat a)) as A. pose proof (rel_of_child n (Z.of_nat b)) as B.
    rewrite Hl in A, B. rewrite E in A. rewrite A in B by lia. specialize (B ltac:(lia)). lia. }
  pose proof (seq_NoDup (Z.to_nat (exp2 dim)) 0) as N.
  induction N as [|x l Hx N IH]; [constructor|].
  cbn [map]. constructor.
  - rewrite in_map_iff. intros (y & E & Hy). apply Hx.
    rewrite <- (Inj y x); [assumption|right; assumption|left; reflexivity|exact E].
  - apply IH. intros a b Ha Hb. apply Inj; right; assumption.
Qed.

Lemma encode_child dim c m : 1 <= dim <= 64 -> Z.of_nat (length (position c)) = dim ->
  0 <= m -> m + dim <= 64 ->
  encode_bmi2 dim (position c) mod 2 ^ (m + dim) =
  2 ^ dim * (encode_bmi2 dim (position (computeParentIndex1 c)) mod 2 ^ m) + computeRelativeChildIndex c.
Proof.
  intros Hd Hl Hm Hmd.
  rewrite (Z.add_comm m dim), Z.pow_add_r by lia.
  pose proof (Z.pow_pos_nonneg 2 dim ltac:(lia) ltac:(lia)) as P1.
  pose proof (Z.pow_pos_nonneg 2 m ltac:(lia) ltac:(lia)) as P2.
  rewrite Z.rem_mul_r by lia.
  assert (encode_bmi2 dim (position c) mod 2 ^ dim = computeRelativeChildIndex c) as ->.
  { unfold computeRelativeChildIndex. rewrite relative_child_from_rel0, Z.pow_0_r, Z.mul_1_l by lia.
    apply Z.bits_inj'. intros j Hj. rewrite rel0_bits by assumption. rewrite Hl.
    destruct (Z.ltb_spec j dim) as [Hlt|Hge].
    - rewrite Z.mod_pow2_bits_low by lia. rewrite (encode_bmi2_spec dim _ Hd Hl) by lia.
      rewrite Z.mod_small, Z.div_small by lia. replace (j <? 64) with true by lia. reflexivity.
    - rewrite Z.mod_pow2_bits_high by lia. reflexivity. }
  assert ((encode_bmi2 dim (position c) / 2 ^ dim) mod 2 ^ m =
          encode_bmi2 dim (position (computeParentIndex1 c)) mod 2 ^ m) as ->; [|ring].
  apply Z.bits_inj'. intros j Hj. destruct (Z.ltb_spec j m) as [Hlt|Hge].
  - rewrite !Z.mod_pow2_bits_low by lia. rewrite <- Z.shiftr_div_pow2, Z.shiftr_spec by lia.
    rewrite (encode_bmi2_spec dim _ Hd Hl) by lia.
    rewrite (encode_bmi2_spec dim (position (computeParentIndex1 c))) by
      (try assumption; cbn [computeParentIndex1 position]; rewrite map_length; assumption).
    cbn [computeParentIndex1 position]. rewrite nth_map_div. unfold div_exp2_floor.
    rewrite Z.shiftr_spec by (apply Z.div_pos; lia).
    replace (j + dim) with (j + 1 * dim) by ring. rewrite Z.mod_add, Z.div_add by lia.
    replace (j + 1 * dim <? 64) with true by lia. replace (j <? 64) with true by lia. reflexivity.
  - rewrite !Z.mod_pow2_bits_high by lia. reflexivity.
Qed.

Lemma level_encode dim n H : 1 <= dim <= 64 -> Z.of_nat (length (position n)) = dim ->
  0 <= height n <= H -> H <= 64 / dim - 1 ->
  computeLevelTraversalDistance dim (nodeIndexToMorton dim n) H (height n) =
  encode_bmi2 dim (position n) mod 2 ^ ((H - height n) * dim).
Proof.
  intros Hd Hl Hh HH.
  assert (H * dim < 64) as HB.
  { pose proof (Z.mul_div_le 64 dim ltac:(lia)). nia. }
  unfold computeLevelTraversalDistance.
  rewrite Z.shiftl_mul_pow2, Z.mul_1_l by nia.
  assert (u64 (2 ^ ((H - height n) * dim)) = 2 ^ ((H - height n) * dim)) as ->.
  { unfold u64. apply Z.mod_small. split; [apply Z.pow_nonneg; lia|]. apply Z.pow_lt_mono_r; nia. }
  rewrite land_mask by nia.
  apply Z.bits_inj'. intros j Hj.
  destruct (Z.ltb_spec j ((H - height n) * dim)) as [Hlt|Hge].
  - rewrite !Z.mod_pow2_bits_low by lia. rewrite Z.shiftr_spec by lia. unfold nodeIndexToMorton.
    rewrite u64_testbit by nia. replace (j + height n * dim <? 64) with true by nia.
    rewrite Z.shiftl_spec by nia. cbn [andb]. f_equal. lia.
  - rewrite !Z.mod_pow2_bits_high by (split; [nia|lia]). reflexivity.
Qed.

Lemma generation_facts dim P k : 1 <= dim -> Z.of_nat (length (position P)) = dim ->
  forall n, In n (generation dim P k) -> height n = height P - Z.of_nat k /\ Z.of_nat (length (position n)) = dim.
Proof.
  intros Hd Hl. induction k as [|k IH]; intros n Hn.
  - cbn [generation In] in Hn. destruct Hn as [<-|[]]. split; [lia|exact Hl].
  - cbn [generation] in Hn. apply in_flat_map in Hn. destruct Hn as (p & Hp & Hn).
    destruct (IH p Hp) as (A & B). apply children_in in Hn; [|lia|assumption].
    destruct Hn as (E & Hc). split; [|exact Hc]. rewrite <- E in A. cbn [computeParentIndex1 height] in A. lia.
Qed.

Lemma map_add_seq a w : forall t, map (fun r => (a + r)%nat) (seq t w) = seq (a + t) w.
Proof.
  induction w as [|w IH]; intros t; [reflexivity|]. cbn [seq map]. rewrite IH. do 2 f_equal. lia.
Qed.

Lemma flat_seq (w : nat) : forall n s,
  flat_map (fun i => map (fun r => (w * i + r)%nat) (seq 0 w)) (seq s n) = seq (w * s) (n * w).
Proof.
  induction n as [|n IH]; intros s; [reflexivity|].
  cbn [seq flat_map]. rewrite IH. replace (S n * w)%nat with (w + n * w)%nat by lia.
  rewrite seq_app, map_add_seq. f_equal; f_equal; lia.
Qed.

Lemma map_flat_map {A B C} (f : B -> C) (g : A -> list B) l :
  map f (flat_map g l) = flat_map (fun x => map f (g x)) l.
Proof. induction l as [|x l IH]; [reflexivity|]. cbn [flat_map]. rewrite map_app, IH. reflexivity. Qed.
Lemma flat_map_map {A B C} (f : A -> B) (g : B -> list C) l :
  flat_map g (map f l) = flat_map (fun x => g (f x)) l.
Proof. induction l as [|x l IH]; [reflexivity|]. cbn [flat_map map]. rewrite IH. reflexivity. Qed.
Lemma flat_map_ext_in {A B} (f g : A -> list B) l : (forall x, In x l -> f x = g x) ->
  flat_map f l = flat_map g l.
Proof.
  intros H. induction l as [|x l IH]; [reflexivity|]. cbn [flat_map]. rewrite H by (left; reflexivity).
  rewrite IH; [reflexivity|]. intros y Hy. apply H. right; exact Hy.
Qed.

(* ------------------------------------------ theorems ------------------------------------------ *)
(** C81: the children of a node are exactly the nodes one level down inside it, each listed once. *)
Theorem C81_children : forall dim n, 1 <= dim -> Z.of_nat (length (position n)) = dim ->
  NoDup (computeChildIndices dim n) /\
  Z.of_nat (length (computeChildIndices dim n)) = 2 ^ dim /\
  forall c, In c (computeChildIndices dim n) <-> descendant n 1 c.
Proof.
  intros dim n Hd Hl. split; [apply children_nodup; assumption|]. split.
  { unfold computeChildIndices. rewrite map_length, seq_length, exp2_pow by lia.
    pose proof (Z.pow_nonneg 2 dim ltac:(lia)). lia. }
  intros c. rewrite children_in by assumption. unfold descendant. cbn [Z.of_nat Pos.of_succ_nat].
  rewrite Z.pow_1_r. split.
  - intros (<- & Hc). cbn [computeParentIndex1 height position]. split; [lia|].
    clear Hc Hl. induction (position c) as [|x l IH]; [constructor|]. cbn [map]. constructor; [|exact IH].
    rewrite div_exp2_floor_spec, Z.pow_1_r by lia. lia.
  - intros (Hh & F). split.
    + rewrite <- (nodes_eta n). unfold computeParentIndex1. f_equal; [lia|].
      clear Hh Hl. induction F as [|p x l l' H F IH]; [reflexivity|]. cbn [map]. rewrite IH. f_equal.
      rewrite div_exp2_floor_spec, Z.pow_1_r by lia. lia.
    + rewrite <- Hl. clear Hl. induction F as [|p x l l' H F IH]; [reflexivity|]. cbn [length]. lia.
Qed.

(** C81: the [k]-th generation is the set of all descendants [k] levels down. *)
Theorem C81_generation : forall dim P k, 1 <= dim -> Z.of_nat (length (position P)) = dim ->
  forall n, In n (generation dim P k) <-> descendant P k n.
Proof.
  intros dim P k Hd Hl. induction k as [|k IH]; intros n.
  - cbn [generation In]. unfold descendant. change (Z.of_nat 0) with 0. rewrite Z.pow_0_r. split.
    + intros [<-|[]]. split; [lia|]. clear Hl. induction (position P) as [|x l IH']; [constructor|].
      constructor; [lia|]. apply IH'.
    + intros (Hh & F). left. rewrite <- (nodes_eta n), <- (nodes_eta P). f_equal; [lia|].
      clear Hh Hl. induction F as [|p x l l' H F IH]; [reflexivity|]. rewrite IH. f_equal. lia.
  - cbn [generation]. rewrite in_flat_map.
    assert (forall p c, 2 ^ Z.of_nat k * p <= div_exp2_floor c 1 < 2 ^ Z.of_nat k * (p + 1) <->
                        2 ^ Z.of_nat (S k) * p <= c < 2 ^ Z.of_nat (S k) * (p + 1)) as Step.
    { intros p c. rewrite div_exp2_floor_spec, Z.pow_1_r by lia.
      rewrite Nat2Z.inj_succ, Z.pow_succ_r by lia. nia. }
    split.
    + intros (p & Hp & Hn). pose proof (generation_facts dim P k Hd Hl p Hp) as (_ & Hlp).
      apply children_in in Hn; [|lia|assumption]. destruct Hn as (<- & Hc).
      apply IH in Hp. destruct Hp as (Hh & F). cbn [computeParentIndex1 height position] in Hh, F.
      split; [lia|]. clear - F Step. remember (map (fun c => div_exp2_floor c 1) (position n)) as q eqn:E.
      revert E. generalize (position n) as pos. induction F as [|p x l l' H F IH]; intros pos E.
      * destruct pos; [constructor|discriminate].
      * destruct pos as [|c pos]; [discriminate|]. cbn [map] in E. injection E as -> E.
        constructor; [apply Step; exact H|]. apply IH. exact E.
    + intros (Hh & F). exists (computeParentIndex1 n).
      assert (In (computeParentIndex1 n) (generation dim P k)) as Hp.
      { apply IH. split; cbn [computeParentIndex1 height position]; [lia|].
        clear - F Step. induction F as [|p x l l' H F IH]; [constructor|]. cbn [map].
        constructor; [apply Step; exact H|exact IH]. }
      split; [exact Hp|]. pose proof (generation_facts dim P k Hd Hl _ Hp) as (_ & Hlp).
      apply children_in; [lia|exact Hlp|]. split; [reflexivity|].
      cbn [computeParentIndex1 position] in Hlp. rewrite map_length in Hlp. exact Hlp.
Qed.

(** C81: numbered by [computeLevelTraversalDistance], the nodes of a level below [P] are numbered
    0, 1, 2, ... in order. *)
Theorem C81_level : forall dim P k,
  1 <= dim <= 64 -> Z.of_nat (length (position P)) = dim ->
  Z.of_nat k <= height P <= 64 / dim - 1 ->
  map (fun n => computeLevelTraversalDistance dim (nodeIndexToMorton dim n) (height P) (height n))
      (generation dim P k) =
  map Z.of_nat (seq 0 (length (generation dim P k))) /\
  Z.of_nat (length (generation dim P k)) = 2 ^ (dim * Z.of_nat k).
Proof.
  intros dim P k Hd Hl HP.
  assert (height P * dim < 64) as HB.
  { pose proof (Z.mul_div_le 64 dim ltac:(lia)). nia. }
  assert (map (fun n => encode_bmi2 dim (position n) mod 2 ^ (Z.of_nat k * dim)) (generation dim P k) =
          map Z.of_nat (seq 0 (Z.to_nat (2 ^ (dim * Z.of_nat k))))) as Main.
  { assert (Z.of_nat k <= height P) as Hk by lia. clear HP. revert Hk.
    induction k as [|k IH]; intros Hk.
    - change (Z.of_nat 0) with 0. rewrite Z.mul_0_l, Z.mul_0_r. cbn [generation map].
      change (2 ^ 0) with 1. rewrite Z.mod_1_r. reflexivity.
    - specialize (IH ltac:(lia)). cbn [generation]. rewrite map_flat_map.
      rewrite (flat_map_ext_in _ (fun p => map (fun r => Z.of_nat (Z.to_nat (2 ^ dim) *
                 Z.to_nat (encode_bmi2 dim (position p) mod 2 ^ (Z.of_nat k * dim)) + r))
                 (seq 0 (Z.to_nat (2 ^ dim))))).
      + rewrite <- (flat_map_map (fun p => encode_bmi2 dim (position p) mod 2 ^ (Z.of_nat k * dim))
          (fun e => map (fun r => Z.of_nat (Z.to_nat (2 ^ dim) * Z.to_nat e + r)) (seq 0 (Z.to_nat (2 ^ dim))))).
        rewrite IH, flat_map_map.
        rewrite (flat_map_ext_in _ (fun i => map Z.of_nat (map (fun r => (Z.to_nat (2 ^ dim) * i + r)%nat)
                   (seq 0 (Z.to_nat (2 ^ dim)))))).
        * rewrite <- map_flat_map, flat_seq. rewrite Nat.mul_0_r. f_equal. f_equal.
          rewrite <- Z2Nat.inj_mul by (apply Z.pow_nonneg; lia). f_equal.
          rewrite <- Z.pow_add_r by lia. f_equal. lia.
        * intros i _. rewrite map_map. apply map_ext. intros r. rewrite Nat2Z.id. reflexivity.
      + intros p Hp. pose proof (generation_facts dim P k ltac:(lia) Hl p Hp) as (Hh & Hlp).
        unfold computeChildIndices. rewrite map_map, exp2_pow by lia. apply map_ext_in.
        intros r Hr. apply in_seq in Hr.
        pose proof (Z.pow_pos_nonneg 2 dim ltac:(lia) ltac:(lia)) as P1.
        pose proof (Z.pow_pos_nonneg 2 (Z.of_nat k * dim) ltac:(lia) ltac:(lia)) as P2.
        pose proof (Z.mod_pos_bound (encode_bmi2 dim (position p)) _ P2) as B.
        replace (Z.of_nat (S k) * dim) with (Z.of_nat k * dim + dim) by lia.
        rewrite encode_child; try assumption; try nia.
        * rewrite parent_child, rel_of_child by (rewrite Hlp; lia).
          rewrite Nat2Z.inj_add, Nat2Z.inj_mul, !Z2Nat.id by lia. reflexivity.
        * cbn [computeChildIndex position]. rewrite add_child_offset_length. exact Hlp. }
  assert (length (generation dim P k) = Z.to_nat (2 ^ (dim * Z.of_nat k))) as Len.
  { apply (f_equal (@length Z)) in Main. rewrite !map_length, seq_length in Main. exact Main. }
  split.
  - rewrite Len, <- Main. apply map_ext_in. intros n Hn.
    pose proof (generation_facts dim P k ltac:(lia) Hl n Hn) as (Hh & Hln).
    rewrite level_encode by (try assumption; lia). f_equal. f_equal. f_equal. lia.
  - rewrite Len, Z2Nat.id; [reflexivity|]. apply Z.pow_nonneg; lia.
Qed.

Lemma geo_snoc b k : geo b (S k) = geo b k + b ^ Z.of_nat k.
Proof.
  induction k as [|k IH]; [cbn [geo]; change (Z.of_nat 0) with 0; rewrite Z.pow_0_r; lia|].
  change (geo b (S (S k))) with (1 + b * geo b (S k)). rewrite IH at 1.
  change (geo b (S k)) with (1 + b * geo b k).
  rewrite Nat2Z.inj_succ, Z.pow_succ_r by lia. ring.
Qed.

(** C81: numbered by [computeTreeTraversalDistance], a node and everything down to [k] levels below
    it are numbered 0, 1, 2, ... breadth-first. *)
Theorem C81_tree : forall dim P k,
  1 <= dim <= 64 -> Z.of_nat (length (position P)) = dim ->
  Z.of_nat k <= height P <= 64 / dim - 1 ->
  map (fun n => computeTreeTraversalDistance dim (nodeIndexToMorton dim n) (height P) (height n))
      (breadth_first dim P k) =
  map (fun i => Some (Z.of_nat i)) (seq 0 (length (breadth_first dim P k))).
Proof.
  intros dim P k Hd Hl HP.
  enough (map (fun n => computeTreeTraversalDistance dim (nodeIndexToMorton dim n) (height P) (height n))
           (breadth_first dim P k) =
          map (fun i => Some (Z.of_nat i)) (seq 0 (length (breadth_first dim P k))) /\
          Z.of_nat (length (breadth_first dim P k)) = geo (2 ^ dim) (S k)) as [E _] by exact E.
  assert (forall j, (j <= k)%nat ->
    map (fun n => computeTreeTraversalDistance dim (nodeIndexToMorton dim n) (height P) (height n))
      (generation dim P j) =
    map (fun i => Some (geo (2 ^ dim) j + Z.of_nat i)) (seq 0 (length (generation dim P j))) /\
    Z.of_nat (length (generation dim P j)) = (2 ^ dim) ^ Z.of_nat j) as G.
  { intros j Hj. destruct (C81_level dim P j Hd Hl ltac:(lia)) as (E & L).
    split; [|rewrite L, Z.pow_mul_r by lia; reflexivity].
    rewrite <- (map_map Z.of_nat (fun z => Some (geo (2 ^ dim) j + z))), <- E, map_map.
    apply map_ext_in. intros n Hn.
    pose proof (generation_facts dim P j ltac:(lia) Hl n Hn) as (Hh & _).
    unfold computeTreeTraversalDistance. replace (height P - height n) with (Z.of_nat j) by lia.
    rewrite num_total_nodes_fast_spec by lia. reflexivity. }
  revert G. clear HP. induction k as [|k IH]; intros G.
  - split; [|cbn [breadth_first length geo]; lia]. cbn [breadth_first]. destruct (G 0%nat ltac:(lia)) as (G0 & _). cbn [generation geo] in G0.
    rewrite G0. apply map_ext. intros i. reflexivity.
  - destruct IH as (E & L); [intros j Hj; apply G; lia|].
    assert (Z.of_nat (length (breadth_first dim P (S k))) =
            Z.of_nat (length (breadth_first dim P k)) + Z.of_nat (length (generation dim P (S k)))) as LS
      by (cbn [breadth_first]; rewrite app_length; lia).
    destruct (G (S k) ltac:(lia)) as (GE & GL).
    split.
    + cbn [breadth_first]. rewrite map_app, E, GE.
      rewrite app_length, seq_app, map_app. f_equal. cbn [Nat.add].
      rewrite <- L. generalize (length (generation dim P (S k))) as w.
      generalize (length (breadth_first dim P k)) as a. intros a w.
      replace (seq a w) with (map (fun r => (a + r)%nat) (seq 0 w))
        by (rewrite map_add_seq, Nat.add_0_r; reflexivity).
      rewrite map_map. apply map_ext.
      intros i. f_equal. lia.
    + rewrite LS, L, (geo_snoc (2 ^ dim) (S k)).
      rewrite GL. reflexivity.
Qed.

(** C81: so the number tells the node, and a node is numbered before everything below it. *)
Theorem C81_number_identifies : forall dim P k n n' x,
  1 <= dim <= 64 -> Z.of_nat (length (position P)) = dim ->
  Z.of_nat k <= height P <= 64 / dim - 1 ->
  In n (breadth_first dim P k) -> In n' (breadth_first dim P k) ->
  computeTreeTraversalDistance dim (nodeIndexToMorton dim n) (height P) (height n) = Some x ->
  computeTreeTraversalDistance dim (nodeIndexToMorton dim n') (height P) (height n') = Some x ->
  n = n'.
Proof.
  intros dim P k n n' x Hd Hl HP Hn Hn' E E'. pose proof (C81_tree dim P k Hd Hl HP) as T.
  set (f := fun n => computeTreeTraversalDistance dim (nodeIndexToMorton dim n) (height P) (height n)) in T.
  set (l := breadth_first dim P k) in *.
  destruct (In_nth l n P Hn) as (i & Hi & Ni). destruct (In_nth l n' P Hn') as (j & Hj & Nj).
  assert (forall m, (m < length l)%nat -> f (nth m l P) = Some (Z.of_nat m)) as Nth.
  { intros m Hm. rewrite <- (map_nth f l P m), T.
    rewrite (nth_indep _ _ (Some (Z.of_nat 0))) by (rewrite map_length, seq_length; exact Hm).
    rewrite (map_nth (fun i => Some (Z.of_nat i)) _ 0%nat m), seq_nth by exact Hm. reflexivity. }
  pose proof (Nth i Hi) as A. pose proof (Nth j Hj) as B. rewrite Ni in A. rewrite Nj in B.
  unfold f in A, B. rewrite E in A. rewrite E' in B. injection A as ->. injection B as B.
  apply Nat2Z.inj in B. rewrite <- Ni, <- Nj, B. reflexivity.
Qed.

Theorem C81_parent_first : forall dim P k n x,
  1 <= dim <= 64 -> Z.of_nat (length (position P)) = dim ->
  Z.of_nat k <= height P <= 64 / dim - 1 -> (0 < k)%nat -> descendant P k n ->
  computeTreeTraversalDistance dim (nodeIndexToMorton dim n) (height P) (height n) = Some x ->
  exists y, computeTreeTraversalDistance dim (nodeIndexToMorton dim (computeParentIndex1 n)) (height P)
              (height (computeParentIndex1 n)) = Some y /\ y < x.
Proof.
  intros dim P k n x Hd Hl HP Hk Dn E. destruct k as [|k]; [lia|].
  apply (C81_generation dim P (S k)) in Dn; [|lia|exact Hl].
  pose proof Dn as Dn0. cbn [generation] in Dn. apply in_flat_map in Dn. destruct Dn as (p & Hp & Hn).
  pose proof (generation_facts dim P k ltac:(lia) Hl p Hp) as (Hhp & Hlp).
  apply children_in in Hn; [|lia|exact Hlp]. destruct Hn as (Ep & Hln). rewrite Ep.
  pose proof (generation_facts dim P (S k) ltac:(lia) Hl n Dn0) as (Hhn & _).
  destruct (C81_level dim P k Hd Hl ltac:(lia)) as (L & Len).
  destruct (C81_level dim P (S k) Hd Hl ltac:(lia)) as (L' & Len').
  unfold computeTreeTraversalDistance in *.
  replace (height P - height n) with (Z.of_nat (S k)) in E by lia.
  replace (height P - height p) with (Z.of_nat k) by lia.
  rewrite num_total_nodes_fast_spec in E |- * by lia. apply (f_equal (fun o => match o with Some z => z | None => 0 end)) in E.
  cbv beta iota in E. subst x. eexists. split; [reflexivity|].
  rewrite geo_snoc.
  assert (computeLevelTraversalDistance dim (nodeIndexToMorton dim p) (height P) (height p) < 2 ^ (dim * Z.of_nat k)).
  { pose proof (in_map (fun n => computeLevelTraversalDistance dim (nodeIndexToMorton dim n) (height P) (height n)) _ _ Hp) as I.
    rewrite L in I. apply in_map_iff in I. destruct I as (i & Ei & Hi). apply in_seq in Hi.
    rewrite <- Ei. lia. }
  assert (0 <= computeLevelTraversalDistance dim (nodeIndexToMorton dim n) (height P) (height n)).
  { pose proof (in_map (fun n => computeLevelTraversalDistance dim (nodeIndexToMorton dim n) (height P) (height n)) _ _ Dn0) as I.
    rewrite L' in I. apply in_map_iff in I. destruct I as (i & Ei & Hi). rewrite <- Ei. lia. }
  rewrite <- Z.pow_mul_r by lia. lia.
Qed.

(** C81 fails for taller trees: above height 20 (in 3D) the Morton code drops the upper bits of the
    position, and two nodes below the same root get the same number. *)
Theorem C81_tall_refuted : exists P n n',
  length (position P) = 3%nat /\ descendant P 20 n /\ descendant P 20 n' /\ n <> n' /\
  computeTreeTraversalDistance 3 (nodeIndexToMorton 3 n) (height P) (height n) =
  computeTreeTraversalDistance 3 (nodeIndexToMorton 3 n') (height P) (height n').
Proof.
  exists (NodeIndex 22 [0; 0; 0]), (NodeIndex 2 [0; 0; 0]), (NodeIndex 2 [0; 0; 2 ^ 19]).
  split; [reflexivity|]. split; [|split; [|split]].
  - split; [reflexivity|]. repeat constructor; vm_compute; discriminate.
  - split; [reflexivity|]. repeat constructor; vm_compute; (reflexivity || discriminate).
  - discriminate.
  - vm_compute. reflexivity.
Qed.

Example C81_ex :
  let P := NodeIndex 4 [5; -3; 0] in
  (2 <= 4 <= 64 / 3 - 1) /\ length (breadth_first 3 P 2) = 73%nat /\
  nth 9 (breadth_first 3 P 2) P = NodeIndex 2 [20; -12; 0] /\
  nth 72 (breadth_first 3 P 2) P = NodeIndex 2 [23; -9; 3] /\
  computeTreeTraversalDistance 3 (nodeIndexToMorton 3 (NodeIndex 2 [23; -9; 3])) 4 2 = Some 72.
Proof. vm_compute. repeat split; try reflexivity; discriminate. Qed.

Print Assumptions C81_children.
Print Assumptions C81_generation.
Print Assumptions C81_level.
Print Assumptions C81_tree.
Print Assumptions C81_number_identifies.
Print Assumptions C81_parent_first.
Print Assumptions C81_tall_refuted.
