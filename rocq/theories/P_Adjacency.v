(** Property theorems C35: neighbourhoods and adjacency. *)
From Verif Require Import Base M_IntMath F_IntMath M_NdtreeIndex M_Grid P_Grid M_Adjacency.
From Coq Require Import QArith Lqa.
Close Scope Q_scope.
Open Scope Z_scope.

(** ** Specification *)
(** The closed unit cell at integer position i is the product of [i, i+1]. *)
Definition in_closed_cell (i : list Z) (p : list Q) : Prop :=
  Forall2 (fun c x => (inject_Z c <= x <= inject_Z c + 1)%Q) i p.
(** Two cells share a box of dimension k: they have a point in common and exactly k axes along which the
    shared points can vary. *)
Fixpoint free_axes (a b : list Z) : Z :=
  match a, b with x :: a', y :: b' => (if x =? y then 1 else 0) + free_axes a' b' | _, _ => 0 end.
Definition share (a b : list Z) (k : Z) : Prop := (exists p, in_closed_cell a p /\ in_closed_cell b p) /\ free_axes a b = k.
(** Meaning of the adjacency types *)
Definition adjacency_holds (id : Z) (a b : list Z) : Prop :=
  if id =? kAny then exists k, share a b k
  else if id =? kAnyDisjoint then (exists k, share a b k) /\ a <> b
  else if id =? kNone then False
  else share a b id.

(** ** Proofs *)
Lemma share_iff a : forall b, length a = length b ->
  ((exists p, in_closed_cell a p /\ in_closed_cell b p) <-> Forall (fun c => Z.abs c <= 1) (vsub a b)).
Proof.
  induction a as [|x a IH]; intros [|y b] L; try discriminate; cbn [vsub].
  - split; [constructor|]. intros _. exists []. split; constructor.
  - injection L as L. specialize (IH b L). split.
    + intros (p & H1 & H2). inversion H1; subst. inversion H2; subst. constructor; [|apply IH; eauto].
      assert (A : (inject_Z x <= inject_Z (y + 1))%Q) by (rewrite inject_Z_plus; change (inject_Z 1) with 1%Q; lra).
      assert (B : (inject_Z y <= inject_Z (x + 1))%Q) by (rewrite inject_Z_plus; change (inject_Z 1) with 1%Q; lra).
      rewrite <- Zle_Qle in A, B. lia.
    + intros H. inversion H as [|? ? H1 H2]; subst. apply IH in H2 as (p & P1 & P2). exists (inject_Z (Z.max x y) :: p).
      assert (E : forall c d : Z, c <= d -> (inject_Z c <= inject_Z d)%Q) by (intros; rewrite <- Zle_Qle; assumption).
      assert (E1 : forall c d : Z, d <= c + 1 -> (inject_Z d <= inject_Z c + 1)%Q) by (intros c d ?; change 1%Q with (inject_Z 1); rewrite <- inject_Z_plus; apply E; lia).
      split; constructor; try assumption; split; first [apply E; lia | apply E1; lia].
Qed.
Lemma free_axes_sum a : forall b, length a = length b -> Forall (fun c => Z.abs c <= 1) (vsub a b) ->
  free_axes a b = Z.of_nat (length (vsub a b)) - zsum (map Z.abs (vsub a b)).
Proof.
  induction a as [|x a IH]; intros [|y b] L H; try discriminate; [reflexivity|]. injection L as L. cbn [vsub] in *.
  inversion H as [|? ? H1 H2]; subst. cbn [free_axes length map zsum fold_right]. fold (zsum (map Z.abs (vsub a b))). rewrite (IH b L H2).
  destruct (Z.eqb_spec x y); lia.
Qed.
Lemma vsub_length a : forall b, length a = length b -> length (vsub a b) = length a.
Proof. induction a; intros [|y b] L; cbn in *; try discriminate; auto. Qed.
Lemma free_axes_bounds a : forall b, length a = length b -> 0 <= free_axes a b <= Z.of_nat (length a).
Proof. induction a as [|x a IH]; intros [|y b] L; cbn in *; try discriminate; [lia|]. specialize (IH b ltac:(lia)). destruct (x =? y); lia. Qed.
Lemma free_axes_all a : forall b, length a = length b -> (free_axes a b = Z.of_nat (length a) <-> a = b).
Proof.
  induction a as [|x a IH]; intros [|y b] L; cbn [free_axes length] in *; try discriminate; [tauto|]. injection L as L. pose proof (free_axes_bounds a b L). destruct (IH b L) as [I1 I2].
  destruct (Z.eqb_spec x y) as [->|N].
  - split; [intros; f_equal; apply I1; lia|]. intros [= E]. rewrite (I2 E). lia.
  - split; [lia|]. intros [= E1 E2]. contradiction.
Qed.
Lemma existsb_abs l : existsb (fun c => 1 <? c) (map Z.abs l) = false <-> Forall (fun c => Z.abs c <= 1) l.
Proof.
  induction l as [|x l IH]; cbn; [split; [constructor|reflexivity]|]. rewrite orb_false_iff, IH. split.
  - intros [H1 H2]. constructor; [lia|assumption].
  - intros H. inversion H; subst. split; [lia|assumption].
Qed.
Lemma adjacency_value a b : length a = length b ->
  (exists k, share a b k) /\ computeAdjacency (vsub a b) = free_axes a b \/ ~ (exists k, share a b k) /\ computeAdjacency (vsub a b) = kNone.
Proof.
  intros L. unfold computeAdjacency. destruct (existsb _ _) eqn:E.
  - right. split; [|reflexivity]. intros (k & S & _). apply share_iff in S; [|assumption]. apply existsb_abs in S. congruence.
  - left. apply existsb_abs in E. pose proof E as E'. rewrite <- share_iff in E by assumption. split; [exists (free_axes a b); split; [assumption|reflexivity]|].
    rewrite free_axes_sum by assumption. reflexivity.
Qed.

(** areAdjacent(index_1, index_2, type) holds exactly if the two closed cells touch in the way the type says:
    in a vertex, edge, face, cube (the dimension of the shared box), in anything but being the same cell, or
    in anything. For 1, 2 and 3 dimensions and all indices. *)
Theorem C35_cells_adjacent : forall a b id, length a = length b -> (1 <= length a <= 3)%nat -> 0 <= id <= 6 ->
  (areAdjacent a b id = true <-> adjacency_holds id a b).
Proof.
  intros a b id L HL Hid. unfold areAdjacent, isAdjacentMask. rewrite vsub_length by assumption. unfold adjacency_holds.
  pose proof (free_axes_bounds a b L) as FB. pose proof (free_axes_all a b L) as FA.
  destruct (adjacency_value a b L) as [[(k & S & Sk) ->]|[S ->]].
  - set (f := free_axes a b) in *.
    assert (D : forall d f', (1 <= d <= 3)%nat -> 0 <= f' <= Z.of_nat d ->
      (negb (Z.land (toMask (Z.of_nat d) f') (toMask (Z.of_nat d) id) =? 0) = if id =? kAny then true else if id =? kAnyDisjoint then negb (f' =? Z.of_nat d) else if id =? kNone then false else f' =? id)).
    { intros d f' Hd Hf. assert (Ed : d = 1%nat \/ d = 2%nat \/ d = 3%nat) by lia.
      assert (Ei : id = 0 \/ id = 1 \/ id = 2 \/ id = 3 \/ id = 4 \/ id = 5 \/ id = 6) by lia.
      assert (Ef : f' = 0 \/ f' = 1 \/ f' = 2 \/ f' = 3) by lia.
      destruct Ed as [-> | [-> | ->]]; destruct Ei as [-> | [-> | [-> | [-> | [-> | [-> | ->]]]]]]; destruct Ef as [-> | [-> | [-> | ->]]]; try lia; reflexivity. }
    rewrite (D (length a) f HL FB). destruct (Z.eqb_spec id kAny); [split; [eauto|reflexivity]; intros _; exists k; split; assumption|].
    destruct (Z.eqb_spec id kAnyDisjoint).
    { rewrite negb_true_iff, Z.eqb_neq, FA. split; [intros; split; [exists k; split; assumption|assumption]|tauto]. }
    destruct (Z.eqb_spec id kNone); [split; [discriminate|tauto]|]. rewrite Z.eqb_eq. unfold share. fold f. tauto.
  - replace (toMask (Z.of_nat (length a)) kNone) with 0 by reflexivity. rewrite Z.land_0_l. cbn [Z.eqb negb]. split; [discriminate|].
    destruct (id =? kAny); [contradiction|]. destruct (id =? kAnyDisjoint); [tauto|]. destruct (id =? kNone); [contradiction|]. intros H. exfalso. apply S. exists id. assumption.
Qed.
Lemma vsub_0 o : vsub o (repeat 0 (length o)) = o.
Proof. induction o as [|x o IH]; cbn; [reflexivity|]. rewrite IH. f_equal. lia. Qed.
Lemma box_ones d o : in_box_list (repeat (-1) d) (repeat 1 d) o <-> length o = d /\ Forall (fun c => -1 <= c <= 1) o.
Proof.
  revert o. induction d as [|d IH]; intros [|x o]; cbn; try (split; [tauto|intros [? ?]; discriminate]).
  - split; [auto|tauto].
  - rewrite IH. split; [intros [H [H1 H2]]; split; [lia|constructor; assumption]|]. intros [L H]. inversion H; subst. split; [assumption|split; [lia|assumption]].
Qed.
Lemma ones_nonempty d : nonempty_box (repeat (-1) d) (repeat 1 d).
Proof. induction d; cbn; auto; split; [lia|assumption]. Qed.
(** generateIndexOffsets returns exactly the offsets of the cells that stand in the requested relation to the
    cell at the origin, each exactly once, and as many as numNeighbors announces (so the array is exactly
    filled). *)
Theorem C35_offsets_complete : forall d id, (1 <= d <= 3)%nat -> 0 <= id <= 6 ->
  exists l, generateIndexOffsets d id = Some l /\
    (forall o, In o l <-> length o = d /\ adjacency_holds id o (repeat 0 d)) /\ NoDup l /\
    Z.of_nat (length l) = numNeighbors d id.
Proof.
  intros d id Hd Hid. unfold generateIndexOffsets.
  destruct (C32_grid_visits_box (repeat (-1) d) (repeat 1 d) (Nat.pow 3 d)) as (g & G & GI & GN & _).
  { destruct d; [lia|discriminate]. } { apply ones_nonempty. }
  { assert (Ed : d = 1%nat \/ d = 2%nat \/ d = 3%nat) by lia. destruct Ed as [-> | [-> | ->]]; vm_compute; discriminate. }
  rewrite G. cbn [option_map]. eexists. split; [reflexivity|]. split; [|split].
  - intros o. rewrite filter_In, GI, box_ones. split.
    + intros [[L F] H]. split; [assumption|]. apply orb_true_iff in H. destruct H as [H|H].
      * apply Z.eqb_eq in H. unfold adjacency_holds. rewrite H. cbn. exists (free_axes o (repeat 0 d)). split; [|reflexivity].
        apply share_iff; [rewrite repeat_length; assumption|]. rewrite <- L, vsub_0. eapply Forall_impl; [|exact F]. cbv beta. intros; lia.
      * apply C35_cells_adjacent; [rewrite repeat_length; assumption|lia|assumption|]. unfold areAdjacent. rewrite <- L, vsub_0. exact H.
    + intros [L H]. split; [split; [assumption|]|].
      * assert (S : exists k, share o (repeat 0 d) k).
        { unfold adjacency_holds in H. destruct (id =? kAny); [assumption|]. destruct (id =? kAnyDisjoint); [tauto|]. destruct (id =? kNone); [contradiction|eauto]. }
        destruct S as (k & S & _). apply share_iff in S; [|rewrite repeat_length; assumption]. rewrite <- L, vsub_0 in S. eapply Forall_impl; [|exact S]. cbv beta. intros; lia.
      * apply C35_cells_adjacent in H; [|rewrite repeat_length; assumption|lia|assumption]. unfold areAdjacent in H. rewrite <- L, vsub_0 in H. rewrite orb_true_iff. right. exact H.
  - apply NoDup_filter. assumption.
  - assert (E : g = match grid_visit (Nat.pow 3 d) (repeat (-1) d) (repeat 1 d) with Some x => x | None => [] end) by (rewrite G; reflexivity). rewrite E.
    assert (Ed : d = 1%nat \/ d = 2%nat \/ d = 3%nat) by lia.
    assert (Ei : id = 0 \/ id = 1 \/ id = 2 \/ id = 3 \/ id = 4 \/ id = 5 \/ id = 6) by lia. clear - Ed Ei.
    destruct Ed as [-> | [-> | ->]]; destruct Ei as [-> | [-> | [-> | [-> | [-> | [-> | ->]]]]]]; vm_compute; reflexivity.
Qed.
(** Known counts: 6 faces, 12 edges, 8 vertices, 26 neighbours, 27 with the cell itself. *)
Example C35_counts : map (numNeighbors 3) [kSharedFace; kSharedEdge; kSharedVertex; kAnyDisjoint; kAny] = [6; 12; 8; 26; 27] /\ generateIndexOffsets 2 kSharedEdge = Some [[0; -1]; [-1; 0]; [1; 0]; [0; 1]].
Proof. split; vm_compute; reflexivity. Qed.

(** ** Nodes of different sizes: a node at height h and position c covers, along each axis, [c, c+1] * 2^h *)
Definition in_closed_node (n : node_index) (p : list Q) : Prop :=
  Forall2 (fun c x => (inject_Z (c * 2 ^ height n) <= x <= inject_Z ((c + 1) * 2 ^ height n))%Q) (position n) p.
Lemma axis_touch D h b s : 0 <= D -> 0 <= h ->
  (b * 2 ^ D - 1 <= s <= b * 2 ^ D + 2 ^ D <-> s * 2 ^ h <= (b + 1) * 2 ^ (h + D) /\ b * 2 ^ (h + D) <= (s + 1) * 2 ^ h).
Proof.
  intros HD Hh. rewrite Z.pow_add_r by lia. pose proof (Z.pow_pos_nonneg 2 h ltac:(lia) Hh). set (A := 2 ^ h) in *. set (B := 2 ^ D) in *.
  replace ((b + 1) * (A * B)) with ((b * B + B) * A) by ring. replace (b * (A * B)) with ((b * B) * A) by ring.
  rewrite <- !Z.mul_le_mono_pos_r by assumption. lia.
Qed.
Lemma Forall2_inv {A B} (R : A -> B -> Prop) a l b l' : Forall2 R (a :: l) (b :: l') -> R a b /\ Forall2 R l l'.
Proof. intros H. inversion H; subst. auto. Qed.
Lemma touch_iff D h : 0 <= D -> 0 <= h -> forall big small, length big = length small ->
  (all_between (exp2 D) (map (fun c => mult_exp2 c D) big) small = true <->
   exists p, Forall2 (fun c x => (inject_Z (c * 2 ^ (h + D)) <= x <= inject_Z ((c + 1) * 2 ^ (h + D)))%Q) big p /\
             Forall2 (fun c x => (inject_Z (c * 2 ^ h) <= x <= inject_Z ((c + 1) * 2 ^ h))%Q) small p).
Proof.
  intros HD Hh. induction big as [|b big IH]; intros [|s small] L; try discriminate.
  - cbn. split; [intros _; exists []; split; constructor|reflexivity].
  - injection L as L. cbn [map all_between]. rewrite andb_true_iff, (IH small L). clear IH.
    assert (E : (mult_exp2 b D - 1 <=? s) && (s <=? mult_exp2 b D + exp2 D) = true <-> b * 2 ^ D - 1 <= s <= b * 2 ^ D + 2 ^ D).
    { unfold mult_exp2, exp2. rewrite Z.shiftl_1_l. lia. }
    rewrite E, (axis_touch D h) by assumption. split.
    + intros [[A B] (p & P1 & P2)]. exists (inject_Z (Z.max (s * 2 ^ h) (b * 2 ^ (h + D))) :: p).
      pose proof (Z.pow_pos_nonneg 2 h ltac:(lia) Hh). pose proof (Z.pow_pos_nonneg 2 (h + D) ltac:(lia) ltac:(lia)).
      split; (constructor; [|assumption]); split; rewrite <- Zle_Qle; nia.
    + intros ([|x p] & P1 & P2); [inversion P1|]. apply Forall2_inv in P1 as [[A1 A2] P1]. apply Forall2_inv in P2 as [[B1 B2] P2].
      split; [|exists p; split; assumption]. split; rewrite Zle_Qle; lra.
Qed.
(** The node adjacency test of ndtree_adjacency.h holds exactly if the two closed node cubes have a point in
    common ("touch or overlap"), in every dimension and for all heights. *)
Theorem C35_nodes_touch : forall n1 n2, length (position n1) = length (position n2) -> 0 <= height n1 -> 0 <= height n2 ->
  (nodesAdjacent n1 n2 = true <-> exists p, in_closed_node n1 p /\ in_closed_node n2 p).
Proof.
  intros n1 n2 L H1 H2. unfold nodesAdjacent, in_closed_node. destruct (Z.ltb_spec (height n1) (height n2)).
  - replace (Z.abs (height n1 - height n2)) with (height n2 - height n1) by lia.
    rewrite (touch_iff (height n2 - height n1) (height n1)) by (assumption || lia || (symmetry; assumption)).
    replace (height n1 + (height n2 - height n1)) with (height n2) by lia. firstorder.
  - replace (Z.abs (height n1 - height n2)) with (height n1 - height n2) by lia.
    rewrite (touch_iff (height n1 - height n2) (height n2)) by (assumption || lia).
    replace (height n2 + (height n1 - height n2)) with (height n1) by lia. firstorder.
Qed.
Example C35_nodes_ex : nodesAdjacent (NodeIndex 0 [-1; 4; 3]) (NodeIndex 2 [0; 0; 0]) = true /\
  nodesAdjacent (NodeIndex 2 [0; 0; 0]) (NodeIndex 0 [-2; 4; 3]) = false.
Proof. split; reflexivity. Qed.

Print Assumptions C35_cells_adjacent.
Print Assumptions C35_offsets_complete.
Print Assumptions C35_nodes_touch.
