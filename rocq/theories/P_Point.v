(** Property theorems C09 (points and indices) and C46 (axis-aligned boxes). *)
From Verif Require Import Base M_IntMath F_IntMath M_NdtreeIndex M_Point.
From Coq Require Import QArith Qround Lqa Qabs.
Close Scope Q_scope.
Open Scope Z_scope.

(** ** Specification: cells as sets of points *)
(** the closed cell / its interior, per axis *)
Definition in_cell (w : Q) (i : Z) (x : Q) : Prop := (inject_Z i * w <= x /\ x <= (inject_Z i + 1) * w)%Q.
Definition inside_cell (w : Q) (i : Z) (x : Q) : Prop := (inject_Z i * w < x /\ x < (inject_Z i + 1) * w)%Q.
Definition point_in_cell w (i : list Z) (p : list Q) := Forall2 (in_cell w) i p.
Definition point_inside_cell w (i : list Z) (p : list Q) := Forall2 (inside_cell w) i p.
(** Rounding to a nearest integer, halves in any way *)
Definition nearest (rnd : Q -> Z) : Prop := forall x, (Qabs (inject_Z (rnd x) - x) <= 1 # 2)%Q.

(** *** Facts about rounding *)
Lemma injZ_le a b : (inject_Z a <= inject_Z b)%Q -> a <= b.
Proof. intros H. rewrite <- Zle_Qle in H. assumption. Qed.
Lemma injZ_lt a b : (inject_Z a < inject_Z b)%Q -> a < b.
Proof. intros H. rewrite <- Zlt_Qlt in H. assumption. Qed.
Lemma injZ_S a : (inject_Z (a + 1) == inject_Z a + 1)%Q.
Proof. rewrite inject_Z_plus. reflexivity. Qed.
Lemma floor_unique x z : (inject_Z z <= x)%Q -> (x < inject_Z z + 1)%Q -> Qfloor x = z.
Proof.
  intros H1 H2. pose proof (Qfloor_le x). pose proof (Qlt_floor x) as H0. rewrite injZ_S in H0.
  assert (z < Qfloor x + 1) by (apply injZ_lt; rewrite injZ_S; lra).
  assert (Qfloor x < z + 1) by (apply injZ_lt; rewrite injZ_S; lra). lia.
Qed.
Lemma ceil_unique x z : (inject_Z z - 1 < x)%Q -> (x <= inject_Z z)%Q -> Qceiling x = z.
Proof.
  intros H1 H2. unfold Qceiling. rewrite (floor_unique _ (- z)); [lia| |]; rewrite inject_Z_opp; lra.
Qed.
Lemma ceil_bounds x : (inject_Z (Qceiling x) - 1 < x /\ x <= inject_Z (Qceiling x))%Q.
Proof.
  pose proof (Qceiling_lt x) as H. pose proof (Qle_ceiling x). replace (Qceiling x - 1) with (Qceiling x + (-1)) in H by lia.
  rewrite inject_Z_plus in H. change (inject_Z (-1)) with (-1)%Q in H. split; lra.
Qed.
Lemma floor_bounds x : (inject_Z (Qfloor x) <= x /\ x < inject_Z (Qfloor x) + 1)%Q.
Proof. pose proof (Qfloor_le x). pose proof (Qlt_floor x) as H0. rewrite injZ_S in H0. split; assumption. Qed.
Lemma round_away_nearest : nearest round_away.
Proof.
  intros x. unfold round_away. apply Qabs_Qle_condition. destruct (Qle_bool 0 x) eqn:E.
  - destruct (floor_bounds (x + (1 # 2))). split; lra.
  - destruct (ceil_bounds (x - (1 # 2))). split; lra.
Qed.
(** Where std::round puts a point: the cell below for non-positive, the cell above for positive points. *)
Lemma round_away_cell x : round_away (x - (1 # 2)) = if Qle_bool x 0 then Qceiling x - 1 else Qfloor x.
Proof.
  unfold round_away. destruct (Qle_bool x 0) eqn:E.
  - apply Qle_bool_iff in E. destruct (Qle_bool 0 (x - (1 # 2))) eqn:E2; [apply Qle_bool_iff in E2; lra|].
    destruct (ceil_bounds x). apply ceil_unique.
    + replace (Qceiling x - 1) with (Qceiling x + (-1)) by lia. rewrite inject_Z_plus. change (inject_Z (-1)) with (-1)%Q. lra.
    + replace (Qceiling x - 1) with (Qceiling x + (-1)) by lia. rewrite inject_Z_plus. change (inject_Z (-1)) with (-1)%Q. lra.
  - assert (0 < x)%Q by (apply Qnot_le_lt; intros H; apply Qle_bool_iff in H; congruence).
    destruct (Qle_bool 0 (x - (1 # 2))) eqn:E2.
    + destruct (floor_bounds x). apply floor_unique; lra.
    + assert (x - (1 # 2) < 0)%Q by (apply Qnot_le_lt; intros H2; apply Qle_bool_iff in H2; congruence).
      replace (Qfloor x) with 0 by (symmetry; apply floor_unique; change (inject_Z 0) with 0%Q; lra).
      apply ceil_unique; change (inject_Z 0) with 0%Q; lra.
Qed.

Lemma Forall2_map_l {A B C} (P : B -> C -> Prop) (f : A -> B) (l : list A) (l' : list C) :
  Forall2 P (map f l) l' <-> Forall2 (fun a => P (f a)) l l'.
Proof.
  revert l'; induction l as [|a l IH]; intros l'; split; intros H; inversion H; subst; constructor; try assumption; apply IH; assumption.
Qed.
Lemma Forall2_map_r {A B C} (P : C -> B -> Prop) (f : A -> B) (l' : list C) (l : list A) :
  Forall2 P l' (map f l) <-> Forall2 (fun c a => P c (f a)) l' l.
Proof.
  revert l; induction l' as [|a l' IH]; intros l; split; intros H; destruct l as [|x l]; inversion H; subst; constructor; try assumption; apply IH; assumption.
Qed.
Lemma Forall2_same {A} (P : A -> A -> Prop) (l : list A) : (forall x, P x x) -> Forall2 P l l.
Proof. intros H. induction l; constructor; auto. Qed.
Lemma Forall2_impl2 {A B} (P Q' : A -> B -> Prop) l l' : (forall a b, P a b -> Q' a b) -> Forall2 P l l' -> Forall2 Q' l l'.
Proof. intros H. induction 1; constructor; auto. Qed.

Lemma scaled_le w x k : (0 < w)%Q -> (inject_Z k <= x * (1 / w))%Q -> (inject_Z k * w <= x)%Q.
Proof.
  intros Hw H. apply (Qmult_le_compat_r _ _ w) in H; [|lra].
  assert (E : (x * (1 / w) * w == x)%Q) by (field; lra). rewrite E in H. assumption.
Qed.
Lemma scale_le_iff w x y : (0 < w)%Q -> ((y <= x * (1 / w))%Q <-> (y * w <= x)%Q).
Proof.
  intros Hw. assert (E : (x * (1 / w) * w == x)%Q) by (field; lra). split; intros H.
  - apply (Qmult_le_compat_r _ _ w) in H; [|lra]. rewrite E in H. assumption.
  - apply (Qmult_le_r _ _ w Hw). rewrite E. assumption.
Qed.
Lemma scale_ge_iff w x y : (0 < w)%Q -> ((x * (1 / w) <= y)%Q <-> (x <= y * w)%Q).
Proof.
  intros Hw. assert (E : (x * (1 / w) * w == x)%Q) by (field; lra). split; intros H.
  - apply (Qmult_le_compat_r _ _ w) in H; [|lra]. rewrite E in H. assumption.
  - apply (Qmult_le_r _ _ w Hw). rewrite E. assumption.
Qed.
Lemma scale_lt_iff w x y : (0 < w)%Q -> ((y < x * (1 / w))%Q <-> (y * w < x)%Q).
Proof.
  intros Hw. pose proof (scale_ge_iff w x y Hw) as [A B]. split; intros H; apply Qnot_le_lt; intros N.
  - apply B in N. lra.
  - apply A in N. lra.
Qed.
Lemma scale_gt_iff w x y : (0 < w)%Q -> ((x * (1 / w) < y)%Q <-> (x < y * w)%Q).
Proof.
  intros Hw. pose proof (scale_le_iff w x y Hw) as [A B]. split; intros H; apply Qnot_le_lt; intros N.
  - apply B in N. lra.
  - apply A in N. lra.
Qed.

(** C09. The selected cell contains the point, for every way of rounding halves. *)
Theorem C09_cell_contains_point : forall rnd w p, nearest rnd -> (0 < w)%Q ->
  point_in_cell w (pointToNearestIndex rnd p (1 / w)) p.
Proof.
  intros rnd w p Hr Hw. unfold point_in_cell, pointToNearestIndex, scaledPointToNearestIndex, scale_point.
  rewrite map_map. apply Forall2_map_l. apply Forall2_same. intros x. unfold in_cell.
  specialize (Hr (x * (1 / w) - (1 # 2))%Q). apply Qabs_Qle_condition in Hr. destruct Hr as [H1 H2]. split.
  - apply (scale_le_iff w x _ Hw). lra.
  - apply (scale_ge_iff w x _ Hw). lra.
Qed.
(** A point in the interior of a cell is mapped to exactly this cell; in particular the centre. *)
Theorem C09_interior_point : forall rnd w i p, nearest rnd -> (0 < w)%Q ->
  point_inside_cell w i p -> pointToNearestIndex rnd p (1 / w) = i.
Proof.
  intros rnd w i p Hr Hw H. induction H as [|c x i p [H1 H2] _ IH]; [reflexivity|].
  cbn. f_equal; [|exact IH].
  specialize (Hr (x * (1 / w) - (1 # 2))%Q). apply Qabs_Qle_condition in Hr. destruct Hr as [H3 H4].
  apply (scale_lt_iff w x _ Hw) in H1. apply (scale_gt_iff w x _ Hw) in H2.
  set (r := rnd _) in *. assert (r < c + 1) by (apply injZ_lt; rewrite injZ_S; lra).
  assert (c < r + 1) by (apply injZ_lt; rewrite injZ_S; lra). lia.
Qed.
Lemma center_inside w i : (0 < w)%Q -> point_inside_cell w i (indexToCenterPoint i w).
Proof.
  intros Hw. unfold point_inside_cell, indexToCenterPoint. apply Forall2_map_r, Forall2_same. intros c. unfold inside_cell.
  split; apply Qmult_lt_compat_r; lra.
Qed.
Theorem C09_center_roundtrip : forall rnd w i, nearest rnd -> (0 < w)%Q ->
  pointToNearestIndex rnd (indexToCenterPoint i w) (1 / w) = i.
Proof. intros rnd w i Hr Hw. apply (C09_interior_point rnd w); auto. apply center_inside; assumption. Qed.
Example C09_nearest_ex : nearest round_away. Proof. apply round_away_nearest. Qed.
Example C09_ex1 : point_inside_cell (1 # 2) [-2; 1] [- (3 # 4); 9 # 10]%Q /\
  pointToNearestIndex round_away [- (3 # 4); 9 # 10]%Q (1 / (1 # 2)) = [-2; 1].
Proof.
  split; [|vm_compute; reflexivity].
  repeat constructor; vm_compute; reflexivity.
Qed.
(** Points on a face: std::round assigns them to the upper cell on the positive side of the origin and to
    the lower cell otherwise, so cells are not uniformly half-open. *)
Theorem C09_boundary_rule : forall w z, (0 < w)%Q ->
  pointToNearestIndex round_away [inject_Z z * w]%Q (1 / w) = [if 0 <? z then z else z - 1].
Proof.
  intros w z Hw. cbn. f_equal.
  assert (E : (inject_Z z * w * (1 / w) == inject_Z z)%Q) by (field; lra).
  assert (F : Qfloor (inject_Z z * w * (1 / w)) = z).
  { rewrite E. apply Qfloor_Z. }
  assert (G : Qceiling (inject_Z z * w * (1 / w)) = z).
  { rewrite E. apply Qceiling_Z. }
  rewrite round_away_cell, F, G. destruct (Z.ltb_spec 0 z).
  - replace (Qle_bool (inject_Z z * w * (1 / w)) 0) with false; [reflexivity|]. symmetry. apply not_true_iff_false. intros X.
    apply Qle_bool_iff in X. rewrite E in X. change 0%Q with (inject_Z 0) in X. apply injZ_le in X. lia.
  - replace (Qle_bool (inject_Z z * w * (1 / w)) 0) with true; [reflexivity|]. symmetry.
    apply Qle_bool_iff. rewrite E. change 0%Q with (inject_Z 0). rewrite <- Zle_Qle. assumption.
Qed.
Theorem C09_half_open_refuted : exists w p i, (0 < w)%Q /\ pointToNearestIndex round_away [p] (1 / w) = [i] /\
  ~ (inject_Z i * w <= p /\ p < (inject_Z i + 1) * w)%Q.
Proof.
  exists 1%Q, 0%Q, (-1). split; [reflexivity|]. split; [vm_compute; reflexivity|]. cbn. intros [_ H]. vm_compute in H. discriminate.
Qed.

(** Offsets of corners and centres; floor and ceil neighbours *)
Theorem C09_corners : forall w i, (0 <= w)%Q ->
  Forall2 (fun a b => b - a == w)%Q (indexToMinCorner i w) (indexToMaxCorner i w) /\
  Forall2 (fun a b => b - a == w / 2)%Q (indexToMinCorner i w) (indexToCenterPoint i w).
Proof.
  intros w i Hw. unfold indexToMinCorner, indexToMaxCorner, indexToCenterPoint. split; apply Forall2_map_l, Forall2_map_r, Forall2_same;
    intros c; field.
Qed.
Theorem C09_corners_span_cell : forall w i p, point_in_cell w i p <->
  Forall2 (fun a x => a <= x)%Q (indexToMinCorner i w) p /\ Forall2 (fun b x => x <= b)%Q (indexToMaxCorner i w) p.
Proof.
  intros w i p. unfold point_in_cell, indexToMinCorner, indexToMaxCorner. rewrite !Forall2_map_l. split.
  - intros H. split; eapply Forall2_impl2; try exact H; intros a b [H1 H2]; assumption.
  - intros [H1 H2]. revert p H1 H2. induction i as [|c i IH]; intros p H1 H2; inversion H1; inversion H2; subst; constructor.
    + split; congruence || (injection H7; intros; subst; assumption) || assumption.
    + inversion H2; subst. apply IH; assumption.
Qed.
Theorem C09_floor_ceil : forall w p, (0 < w)%Q ->
  Forall2 (fun c x => c <= x /\ x < c + w)%Q (indexToCenterPoint (pointToFloorIndex p (1 / w)) w) p /\
  Forall2 (fun c x => x <= c /\ c < x + w)%Q (indexToCenterPoint (pointToCeilIndex p (1 / w)) w) p.
Proof.
  intros w p Hw. unfold indexToCenterPoint, pointToFloorIndex, pointToCeilIndex, scaledPointToFloorIndex, scaledPointToCeilIndex, scale_point.
  rewrite !map_map, !Forall2_map_l. split; apply Forall2_same; intros x.
  - destruct (floor_bounds (x * (1 / w) - (1 # 2))) as [H1 H2]. set (f := inject_Z (Qfloor _)) in *. split.
    + apply (scale_le_iff w x _ Hw). lra.
    + assert (H : (x < (f + 1 + (1 # 2)) * w)%Q) by (apply (scale_gt_iff w x _ Hw); lra). lra.
  - destruct (ceil_bounds (x * (1 / w) - (1 # 2))) as [H1 H2]. set (f := inject_Z (Qceiling _)) in *. split.
    + apply (scale_ge_iff w x _ Hw). lra.
    + assert (H : ((f - 1 + (1 # 2)) * w < x)%Q) by (apply (scale_lt_iff w x _ Hw); lra). lra.
Qed.

(** A node at height h spans exactly the cells of its subtree: its corners are the outer corners of the
    cells between its min and max corner index, and a finest cell lies in it iff the node is its
    ancestor. *)
Lemma width_pos w h : (0 < w)%Q -> 0 <= h -> (0 < heightToCellWidth w h)%Q.
Proof.
  intros Hw Hh. unfold heightToCellWidth. apply Qmult_lt_0_compat; [assumption|]. rewrite exp2_pow by assumption.
  change 0%Q with (inject_Z 0). rewrite <- Zlt_Qlt. apply Z.pow_pos_nonneg; lia.
Qed.
Theorem C09_node_spans_cells : forall w n, 0 <= height n ->
  Forall2 Qeq (nodeIndexToMinCorner n w) (indexToMinCorner (nodeIndexToMinCornerIndex n) w) /\
  Forall2 Qeq (nodeIndexToMaxCorner n w) (indexToMaxCorner (nodeIndexToMaxCornerIndex n) w) /\
  Forall2 (fun c m => c - m == w * inject_Z (2 ^ height n) / 2)%Q (nodeIndexToCenterPoint n w) (nodeIndexToMinCorner n w).
Proof.
  intros w n Hh. unfold nodeIndexToMinCorner, nodeIndexToMaxCorner, nodeIndexToMinCornerIndex, nodeIndexToMaxCornerIndex,
    indexToMinCorner, indexToMaxCorner, nodeIndexToCenterPoint, indexToCenterPoint, nodeIndexToMinCornerIndex, heightToCellWidth.
  rewrite !map_map. rewrite exp2_pow by assumption.
  split; [|split]; apply Forall2_map_l, Forall2_map_r, Forall2_same; intros c; cbv beta.
  - unfold mult_exp2. rewrite inject_Z_mult, exp2_pow by assumption. ring.
  - unfold mult_exp2. rewrite exp2_pow by assumption. replace (c * 2 ^ height n + (2 ^ height n - 1)) with ((c + 1) * 2 ^ height n + (-1)) by ring.
    rewrite inject_Z_plus, inject_Z_mult, inject_Z_plus. change (inject_Z (-1)) with (-1)%Q. change (inject_Z 1) with 1%Q. ring.
  - field.
Qed.
Theorem C09_cells_inside_node : forall w h i c, (0 < w)%Q -> 0 <= h -> length i = length c ->
  (indexAndHeightToNodeIndex c h = NodeIndex h i <->
   (forall p, point_in_cell w c p -> point_in_cell (heightToCellWidth w h) i p)).
Proof.
  intros w h i c Hw Hh HL. unfold indexAndHeightToNodeIndex.
  assert (H2 : 0 < 2 ^ h) by (apply Z.pow_pos_nonneg; lia).
  assert (S : forall a b, (forall x, in_cell w b x -> in_cell (heightToCellWidth w h) a x) <-> b / 2 ^ h = a).
  { intros a b. unfold in_cell, heightToCellWidth. rewrite exp2_pow by assumption. split.
    - intros H. destruct (H (inject_Z b * w)%Q) as [A _]; [split; lra|].
      destruct (H ((inject_Z b + 1) * w)%Q) as [_ B]; [split; lra|].
      assert (a * 2 ^ h <= b).
      { apply injZ_le. rewrite inject_Z_mult. apply (Qmult_le_r _ _ w Hw). lra. }
      assert (b + 1 <= (a + 1) * 2 ^ h).
      { apply injZ_le. rewrite inject_Z_mult, !injZ_S. apply (Qmult_le_r _ _ w Hw). lra. }
      symmetry. apply (Z.div_unique b (2 ^ h) a (b - a * 2 ^ h)); lia.
    - intros <- x [A B]. pose proof (Z.div_mod b (2 ^ h) ltac:(lia)) as E. pose proof (Z.mod_pos_bound b (2 ^ h) H2).
      set (q := b / 2 ^ h) in *. split.
      + assert (inject_Z q * inject_Z (2 ^ h) <= inject_Z b)%Q by (rewrite <- inject_Z_mult, <- Zle_Qle; lia).
        apply Qle_trans with (inject_Z b * w)%Q; [|assumption].
        assert (L : ((inject_Z q * inject_Z (2 ^ h)) * w <= inject_Z b * w)%Q) by (apply Qmult_le_compat_r; lra). lra.
      + assert (inject_Z b + 1 <= (inject_Z q + 1) * inject_Z (2 ^ h))%Q by (rewrite <- !injZ_S, <- inject_Z_mult, <- Zle_Qle; lia).
        assert (L : ((inject_Z b + 1) * w <= (inject_Z q + 1) * inject_Z (2 ^ h) * w)%Q) by (apply Qmult_le_compat_r; lra). lra. }
  assert (E0 : forall l, map (fun x => div_exp2_floor x h) l = map (fun x => x / 2 ^ h) l).
  { intros l. apply map_ext. intros. apply div_exp2_floor_spec. assumption. }
  rewrite E0. split.
  - intros H p Hp. injection H as H. subst i. unfold point_in_cell in *. apply Forall2_map_l. eapply Forall2_impl2; [|exact Hp].
    intros a x Hx. cbv beta. apply (proj2 (S (a / 2 ^ h) a) eq_refl). assumption.
  - intros H. f_equal. clear E0. revert i HL H. induction c as [|b c IH]; intros [|a i] HL H; cbn in HL; try discriminate; [reflexivity|].
    cbn [map]. f_equal.
    + apply S. intros x Hx. assert (P : point_in_cell w (b :: c) (x :: indexToMinCorner c w)).
      { constructor; [assumption|]. unfold indexToMinCorner. apply Forall2_map_r, Forall2_same. intros z. unfold in_cell. split; lra. }
      apply H in P. inversion P; subst. assumption.
    + apply IH; [congruence|]. intros p Hp. assert (P : point_in_cell w (b :: c) ((inject_Z b * w)%Q :: p)).
      { constructor; [|assumption]. unfold in_cell. split; lra. }
      apply H in P. inversion P; subst. assumption.
Qed.
Example C09_ex2 : indexAndHeightToNodeIndex [-3; 5] 2 = NodeIndex 2 [-1; 1] /\
  nodeIndexToMinCornerIndex (NodeIndex 2 [-1; 1]) = [-4; 4] /\ nodeIndexToMaxCornerIndex (NodeIndex 2 [-1; 1]) = [-1; 7].
Proof. vm_compute. auto. Qed.

(** The node selected for a point at height h is the ancestor of the cell selected at height 0: for every
    point with std::round, and off the cell faces for every nearest rounding. *)
Lemma ceil_div x n : 0 < n -> Qceiling (x * (1 / inject_Z n)) - 1 = (Qceiling x - 1) / n.
Proof.
  intros Hn. assert (Hq : (0 < inject_Z n)%Q) by (change 0%Q with (inject_Z 0); rewrite <- Zlt_Qlt; assumption).
  destruct (ceil_bounds x) as [A B]. set (c := Qceiling x) in *.
  pose proof (Z.div_mod (c - 1) n ltac:(lia)) as E. pose proof (Z.mod_pos_bound (c - 1) n Hn) as M. set (q := (c - 1) / n) in *.
  enough (Qceiling (x * (1 / inject_Z n)) = q + 1) by lia. apply ceil_unique.
  - rewrite injZ_S. apply (scale_lt_iff (inject_Z n) x _ Hq).
    assert (L : (inject_Z (q * n) <= inject_Z (c + -1))%Q) by (rewrite <- Zle_Qle; lia).
    rewrite inject_Z_mult, inject_Z_plus in L. change (inject_Z (-1)) with (-1)%Q in L. lra.
  - apply (scale_ge_iff (inject_Z n) x _ Hq).
    assert (L : (inject_Z c <= inject_Z ((q + 1) * n))%Q) by (rewrite <- Zle_Qle; lia).
    rewrite inject_Z_mult in L. lra.
Qed.
Lemma floor_div x n : 0 < n -> Qfloor (x * (1 / inject_Z n)) = Qfloor x / n.
Proof.
  intros Hn. assert (Hq : (0 < inject_Z n)%Q) by (change 0%Q with (inject_Z 0); rewrite <- Zlt_Qlt; assumption).
  destruct (floor_bounds x) as [A B]. set (c := Qfloor x) in *.
  pose proof (Z.div_mod c n ltac:(lia)) as E. pose proof (Z.mod_pos_bound c n Hn) as M. set (q := c / n) in *. apply floor_unique.
  - apply (scale_le_iff (inject_Z n) x _ Hq).
    assert (L : (inject_Z (q * n) <= inject_Z c)%Q) by (rewrite <- Zle_Qle; lia).
    rewrite inject_Z_mult in L. lra.
  - apply (scale_gt_iff (inject_Z n) x _ Hq). rewrite <- injZ_S.
    assert (L : (inject_Z (c + 1) <= inject_Z ((q + 1) * n))%Q) by (rewrite <- Zle_Qle; lia).
    rewrite inject_Z_mult, injZ_S in L. lra.
Qed.
Lemma round_away_comp x y : (x == y)%Q -> round_away x = round_away y.
Proof.
  intros E. unfold round_away. replace (Qle_bool 0 y) with (Qle_bool 0 x).
  - destruct (Qle_bool 0 x); [apply Qfloor_comp|apply Qceiling_comp]; rewrite E; reflexivity.
  - apply eq_true_iff_eq. rewrite !Qle_bool_iff, E. reflexivity.
Qed.
Theorem C09_node_is_ancestor : forall w p h, (0 < w)%Q -> 0 <= h ->
  pointToNodeIndex round_away p w h = indexAndHeightToNodeIndex (pointToNearestIndex round_away p (1 / w)) h.
Proof.
  intros w p h Hw Hh. unfold pointToNodeIndex, indexAndHeightToNodeIndex, pointToNearestIndex, scaledPointToNearestIndex, scale_point.
  f_equal. rewrite !map_map. apply map_ext. intros x. rewrite div_exp2_floor_spec by assumption.
  assert (Hn : 0 < 2 ^ h) by (apply Z.pow_pos_nonneg; lia).
  assert (Hq : (0 < inject_Z (2 ^ h))%Q) by (change 0%Q with (inject_Z 0); rewrite <- Zlt_Qlt; assumption).
  assert (E : (x * (1 / heightToCellWidth w h) == (x * (1 / w)) * (1 / inject_Z (2 ^ h)))%Q).
  { unfold heightToCellWidth. rewrite exp2_pow by assumption. field. split; lra. }
  rewrite (round_away_comp _ ((x * (1 / w)) * (1 / inject_Z (2 ^ h)) - (1 # 2))) by (rewrite E; reflexivity).
  set (y := (x * (1 / w))%Q). rewrite !round_away_cell. clear E. clearbody y.
  replace (Qle_bool (y * (1 / inject_Z (2 ^ h))) 0) with (Qle_bool y 0).
  - destruct (Qle_bool y 0); [apply ceil_div|apply floor_div]; assumption.
  - apply eq_true_iff_eq. rewrite !Qle_bool_iff. rewrite (scale_ge_iff (inject_Z (2 ^ h)) y 0 Hq). split; intros; lra.
Qed.
Theorem C09_node_is_ancestor_any_rounding : forall rnd w c p h, nearest rnd -> (0 < w)%Q -> 0 <= h ->
  point_inside_cell w c p -> pointToNodeIndex rnd p w h = indexAndHeightToNodeIndex c h.
Proof.
  intros rnd w c p h Hr Hw Hh H. unfold pointToNodeIndex, indexAndHeightToNodeIndex. f_equal.
  apply (C09_interior_point rnd); [assumption|apply width_pos; assumption|].
  unfold point_inside_cell in *. apply Forall2_map_l. eapply Forall2_impl2; [|exact H]. intros b x [A B].
  rewrite div_exp2_floor_spec by assumption. unfold inside_cell, heightToCellWidth. rewrite exp2_pow by assumption.
  assert (H2 : 0 < 2 ^ h) by (apply Z.pow_pos_nonneg; lia).
  pose proof (Z.div_mod b (2 ^ h) ltac:(lia)) as E. pose proof (Z.mod_pos_bound b (2 ^ h) H2).
  set (q := b / 2 ^ h) in *. split.
  - assert (inject_Z q * inject_Z (2 ^ h) <= inject_Z b)%Q by (rewrite <- inject_Z_mult, <- Zle_Qle; lia).
    assert (L : ((inject_Z q * inject_Z (2 ^ h)) * w <= inject_Z b * w)%Q) by (apply Qmult_le_compat_r; lra). lra.
  - assert (inject_Z b + 1 <= (inject_Z q + 1) * inject_Z (2 ^ h))%Q by (rewrite <- !injZ_S, <- inject_Z_mult, <- Zle_Qle; lia).
    assert (L : ((inject_Z b + 1) * w <= (inject_Z q + 1) * inject_Z (2 ^ h) * w)%Q) by (apply Qmult_le_compat_r; lra). lra.
Qed.
(** With halves rounded to even (another nearest rounding) it can fail for points on a cell face. *)
Definition round_even (x : Q) : Z :=
  let f := Qfloor x in
  if Qle_bool (x - inject_Z f) (1 # 2) then (if Qle_bool (1 # 2) (x - inject_Z f) then (if Z.even f then f else f + 1) else f) else f + 1.
Theorem C09_node_is_ancestor_half_even_refuted : nearest round_even /\ exists w p h, (0 < w)%Q /\ 0 <= h /\
  pointToNodeIndex round_even p w h <> indexAndHeightToNodeIndex (pointToNearestIndex round_even p (1 / w)) h.
Proof.
  split.
  - intros x. unfold round_even. destruct (floor_bounds x) as [A B]. apply Qabs_Qle_condition. set (f := Qfloor x) in *.
    destruct (Qle_bool (x - inject_Z f) (1 # 2)) eqn:E1.
    + apply Qle_bool_iff in E1. destruct (Qle_bool (1 # 2) (x - inject_Z f)) eqn:E2.
      * apply Qle_bool_iff in E2. destruct (Z.even f); rewrite ?injZ_S; split; lra.
      * split; lra.
    + assert ((1 # 2) < x - inject_Z f)%Q by (apply Qnot_le_lt; intros N; apply Qle_bool_iff in N; congruence).
      rewrite injZ_S. split; lra.
  - exists 1%Q, [2%Q], 1. split; [reflexivity|]. split; [lia|]. vm_compute. discriminate.
Qed.
(** Changing the resolution by a power of two maps a cell to its ancestor. *)
Theorem C09_new_resolution : forall rnd w i h, nearest rnd -> (0 < w)%Q -> 0 <= h ->
  indexToNewResolution rnd i w (heightToCellWidth w h) = position (indexAndHeightToNodeIndex i h).
Proof.
  intros rnd w i h Hr Hw Hh. rewrite <- (C09_node_is_ancestor_any_rounding rnd w i (indexToCenterPoint i w) h); auto.
  apply center_inside. assumption.
Qed.

(** ** C46: axis-aligned boxes *)
Definition inside (mn mx p : list Q) : Prop := Forall2 Qle mn p /\ Forall2 Qle p mx.
Definition dist2 (a b : list Q) : Q := fold_right Qplus 0%Q (zip (fun x y => ((x - y) * (x - y))%Q) a b).
Definition bounded (big : Q) (p : list Q) : Prop := Forall (fun x => - big <= x /\ x <= big)%Q p.

Lemma qmin_spec x y : (qmin x y <= x /\ qmin x y <= y /\ (qmin x y = x \/ qmin x y = y))%Q.
Proof.
  unfold qmin. destruct (Qle_bool x y) eqn:E.
  - apply Qle_bool_iff in E. split; [lra|]. split; [lra|auto].
  - assert (y < x)%Q by (apply Qnot_le_lt; intros N; apply Qle_bool_iff in N; congruence). split; [lra|]. split; [lra|auto].
Qed.
Lemma qmax_spec x y : (x <= qmax x y /\ y <= qmax x y /\ (qmax x y = x \/ qmax x y = y))%Q.
Proof.
  unfold qmax. destruct (Qle_bool x y) eqn:E.
  - apply Qle_bool_iff in E. split; [lra|]. split; [lra|auto].
  - assert (y < x)%Q by (apply Qnot_le_lt; intros N; apply Qle_bool_iff in N; congruence). split; [lra|]. split; [lra|auto].
Qed.
Lemma all2_forall2 a : forall b, length a = length b -> (all2 Qle_bool a b = true <-> Forall2 Qle a b).
Proof.
  induction a as [|x a IH]; intros [|y b] H; cbn in *; try discriminate; [split; auto|].
  rewrite andb_true_iff, Qle_bool_iff, IH by congruence. split; [intros []; constructor; assumption|intros K; inversion K; auto].
Qed.
Theorem C46_contains_point : forall b p, length (bmin b) = length p -> length (bmax b) = length p ->
  (containsPoint b p = true <-> inside (bmin b) (bmax b) p).
Proof.
  intros b p H1 H2. unfold containsPoint, inside. rewrite andb_true_iff, !all2_forall2 by congruence. reflexivity.
Qed.

Lemma zip_length {A B C} (f : A -> B -> C) a : forall b, length a = length b -> length (zip f a b) = length a.
Proof. induction a as [|x a IH]; intros [|y b] H; cbn in *; try discriminate; [reflexivity|]. f_equal. apply IH. congruence. Qed.
Lemma F2_refl l : Forall2 Qle l l. Proof. apply Forall2_same. intros; apply Qle_refl. Qed.
Lemma F2_trans a b c : Forall2 Qle a b -> Forall2 Qle b c -> Forall2 Qle a c.
Proof.
  intros H. revert c. induction H as [|x y a b H0 H IH]; intros c K; inversion K; subst; constructor.
  - eapply Qle_trans; eassumption.
  - apply IH. assumption.
Qed.
Lemma zipmin_le a : forall b, length a = length b -> Forall2 Qle (zip qmin a b) a /\ Forall2 Qle (zip qmin a b) b.
Proof.
  induction a as [|x a IH]; intros [|y b] H; cbn in *; try discriminate; [split; constructor|].
  destruct (IH b ltac:(congruence)), (qmin_spec x y) as (?&?&?). split; constructor; assumption.
Qed.
Lemma zipmax_le a : forall b, length a = length b -> Forall2 Qle a (zip qmax a b) /\ Forall2 Qle b (zip qmax a b).
Proof.
  induction a as [|x a IH]; intros [|y b] H; cbn in *; try discriminate; [split; constructor|].
  destruct (IH b ltac:(congruence)), (qmax_spec x y) as (?&?&?). split; constructor; assumption.
Qed.
Lemma zipmin_glb a : forall b c, Forall2 Qle c a -> Forall2 Qle c b -> Forall2 Qle c (zip qmin a b).
Proof.
  induction a as [|x a IH]; intros [|y b] c H K; cbn; inversion H; subst; inversion K; subst; constructor.
  - destruct (qmin_spec x y) as (?&?&[->| ->]); assumption.
  - apply IH; assumption.
Qed.
Lemma zipmax_lub a : forall b c, Forall2 Qle a c -> Forall2 Qle b c -> Forall2 Qle (zip qmax a b) c.
Proof.
  induction a as [|x a IH]; intros [|y b] c H K; cbn; inversion H; subst; inversion K; subst; constructor.
  - destruct (qmax_spec x y) as (?&?&[->| ->]); assumption.
  - apply IH; assumption.
Qed.
Definition include_all (b : aabb) (l : list (list Q)) : aabb := fold_left includePoint l b.
Lemma include_dims d l : forall b, length (bmin b) = d -> length (bmax b) = d -> Forall (fun p => length p = d) l ->
  length (bmin (include_all b l)) = d /\ length (bmax (include_all b l)) = d.
Proof.
  induction l as [|p l IH]; intros b H1 H2 H; [split; assumption|]. inversion H; subst. apply IH; [| |assumption]; cbn;
  rewrite zip_length; congruence.
Qed.
(** A box built from points contains all of them and lies in every box that does. *)
Theorem C46_include_smallest : forall big d l,
  l <> [] -> Forall (fun p => length p = d /\ bounded big p) l ->
  let b := include_all (aabb_empty big d) l in
  (forall p, In p l -> inside (bmin b) (bmax b) p) /\
  (forall mn mx, (forall p, In p l -> inside mn mx p) -> Forall2 Qle mn (bmin b) /\ Forall2 Qle (bmax b) mx).
Proof.
  intros big d l Hne Hl.
  assert (Dim : Forall (fun p => length p = d) l) by (eapply Forall_impl; [|exact Hl]; intros ? []; assumption).
  assert (D0 : length (bmin (aabb_empty big d)) = d /\ length (bmax (aabb_empty big d)) = d) by (cbn; rewrite !repeat_length; auto).
  assert (Mono : forall l b, length (bmin b) = d -> length (bmax b) = d -> Forall (fun p => length p = d) l ->
     Forall2 Qle (bmin (include_all b l)) (bmin b) /\ Forall2 Qle (bmax b) (bmax (include_all b l))).
  { clear. induction l as [|p l IH]; intros b H1 H2 H; cbn [include_all fold_left]; [split; apply F2_refl|]. inversion H; subst.
    destruct (IH (includePoint b p)) as [A B]; [cbn; rewrite zip_length; congruence|cbn; rewrite zip_length; congruence|assumption|].
    destruct (zipmin_le (bmin b) p ltac:(congruence)), (zipmax_le (bmax b) p ltac:(congruence)).
    split; eapply F2_trans; try eassumption. }
  assert (In1 : forall l b, length (bmin b) = d -> length (bmax b) = d -> Forall (fun p => length p = d) l ->
     forall p, In p l -> inside (bmin (include_all b l)) (bmax (include_all b l)) p).
  { clear - Mono. induction l as [|q l IH]; intros b H1 H2 H p Hp; [destruct Hp|]. inversion H as [|? ? Hq Hl]; subst x l0.
    assert (L1 : length (bmin (includePoint b q)) = d) by (cbn; rewrite zip_length; congruence).
    assert (L2 : length (bmax (includePoint b q)) = d) by (cbn; rewrite zip_length; congruence).
    destruct Hp as [->|Hp]; [|apply (IH (includePoint b q)); assumption].
    destruct (Mono l (includePoint b p) L1 L2 Hl) as [A B].
    destruct (zipmin_le (bmin b) p ltac:(congruence)), (zipmax_le (bmax b) p ltac:(congruence)).
    split; cbn [include_all fold_left]; eapply F2_trans; try eassumption. }
  assert (Glb : forall l b mn mx, Forall2 Qle mn (bmin b) -> Forall2 Qle (bmax b) mx ->
     (forall p, In p l -> inside mn mx p) -> Forall2 Qle mn (bmin (include_all b l)) /\ Forall2 Qle (bmax (include_all b l)) mx).
  { clear. induction l as [|p l IH]; intros b mn mx H1 H2 H; [split; assumption|]. cbn [include_all fold_left]. apply IH.
    - cbn. apply zipmin_glb; [assumption|]. apply H. left. reflexivity.
    - cbn. apply zipmax_lub; [assumption|]. apply H. left. reflexivity.
    - intros q Hq. apply H. right. assumption. }
  cbv zeta. split; [destruct D0; apply In1; assumption|].
  intros mn mx H. destruct l as [|p l]; [congruence|]. cbn [include_all fold_left].
  inversion Hl as [|? ? [Hp Hb] Hl']; subst x l0. apply (Glb l); [| |intros q Hq; apply H; right; assumption].
  - assert (E : zip qmin (repeat big d) p = p \/ True) by auto. clear E.
    assert (inside mn mx p) as [A _] by (apply H; left; reflexivity). cbn. apply zipmin_glb; [|assumption].
    eapply F2_trans; [exact A|]. clear - Hp Hb. subst d. induction Hb as [|x p [] _ IH]; cbn; constructor; assumption.
  - assert (inside mn mx p) as [_ A] by (apply H; left; reflexivity). cbn. apply zipmax_lub; [|assumption].
    eapply F2_trans; [|exact A]. clear - Hp Hb. subst d. induction Hb as [|x p [] _ IH]; cbn; constructor; assumption.
Qed.
Example C46_ex1 : let b := include_all (aabb_empty 100 2) [[1; 2]; [3; 0]]%Q in bmin b = [1; 0]%Q /\ bmax b = [3; 2]%Q.
Proof. vm_compute. auto. Qed.

(** Closest and furthest points of a (non-empty) box *)
Fixpoint box_le (mn mx : list Q) : Prop := match mn, mx with a :: mn', b :: mx' => (a <= b)%Q /\ box_le mn' mx' | [], [] => True | _, _ => False end.
Lemma inside_cons a mn b mx x p : inside (a :: mn) (b :: mx) (x :: p) <-> (a <= x /\ x <= b)%Q /\ inside mn mx p.
Proof.
  unfold inside. split.
  - intros [H1 H2]. inversion H1; inversion H2; subst. auto.
  - intros [[] []]. split; constructor; assumption.
Qed.
Lemma sq_le a b : (Qabs a <= Qabs b)%Q -> (a * a <= b * b)%Q.
Proof.
  intros H. assert (E : forall z, (z * z == Qabs z * Qabs z)%Q).
  { intros z. apply (Qabs_case z (fun y => z * z == y * y)%Q); intros; ring. }
  rewrite (E a), (E b). pose proof (Qabs_nonneg a). apply Qle_trans with (Qabs a * Qabs b)%Q.
  - rewrite (Qmult_comm (Qabs a) (Qabs b)). apply Qmult_le_compat_r; lra.
  - apply Qmult_le_compat_r; lra.
Qed.
Lemma norm_dist p : forall c, length p = length c -> (squaredNorm (qsub_l p c) == dist2 p c)%Q.
Proof. induction p as [|x p IH]; intros [|y c] H; cbn in *; try discriminate; [reflexivity|]. rewrite IH by congruence. reflexivity. Qed.
Theorem C46_closest_point : forall b p, box_le (bmin b) (bmax b) -> length p = length (bmin b) ->
  inside (bmin b) (bmax b) (closestPointTo b p) /\
  (forall q, inside (bmin b) (bmax b) q -> dist2 p (closestPointTo b p) <= dist2 p q)%Q /\
  (squaredNorm (minOffsetTo b p) == dist2 p (closestPointTo b p))%Q.
Proof.
  intros [mn mx] p. cbn [bmin bmax]. unfold closestPointTo, minOffsetTo. cbn [bmin bmax].
  assert (G : box_le mn mx -> length p = length mn ->
    inside mn mx (zip qmin (zip qmax p mn) mx) /\ (forall q, inside mn mx q -> dist2 p (zip qmin (zip qmax p mn) mx) <= dist2 p q)%Q).
  { revert mn mx. induction p as [|x p IH]; intros [|a mn] [|b mx] Hb HL; cbn in Hb, HL; try discriminate; try contradiction.
    - cbn. split; [split; constructor|]. intros q _. unfold dist2. cbn. lra.
    - destruct Hb as [Hab Hb]. destruct (IH mn mx Hb ltac:(congruence)) as [I1 I2]. cbn [zip].
      destruct (qmax_spec x a) as (M1 & M2 & M3). destruct (qmin_spec (qmax x a) b) as (N1 & N2 & N3).
      assert (K : (a <= qmin (qmax x a) b)%Q) by (destruct N3 as [->| ->]; lra).
      split; [apply inside_cons; auto|]. intros [|y q] Hq; [destruct Hq as [Hq _]; inversion Hq|].
      apply inside_cons in Hq. destruct Hq as [[Y1 Y2] Hq]. specialize (I2 q Hq). unfold dist2 in *. cbn [zip fold_right].
      assert (L : ((x - qmin (qmax x a) b) * (x - qmin (qmax x a) b) <= (x - y) * (x - y))%Q).
      { apply sq_le. unfold qmin, qmax in *. destruct (Qle_bool x a) eqn:E1.
        - apply Qle_bool_iff in E1. destruct (Qle_bool a b) eqn:E2; [|apply not_true_iff_false in E2; rewrite Qle_bool_iff in E2; contradiction].
          rewrite (Qabs_neg (x - a)), (Qabs_neg (x - y)) by lra. lra.
        - assert (a < x)%Q by (apply Qnot_le_lt; intros N; apply Qle_bool_iff in N; congruence).
          destruct (Qle_bool x b) eqn:E2.
          + apply Qle_bool_iff in E2. setoid_replace (x - x)%Q with 0%Q by ring. change (Qabs 0) with 0%Q. apply Qabs_nonneg.
          + assert (b < x)%Q by (apply Qnot_le_lt; intros N; apply Qle_bool_iff in N; congruence).
            rewrite (Qabs_pos (x - b)), (Qabs_pos (x - y)) by lra. lra. }
      lra. }
  intros Hb HL. destruct (G Hb HL) as [G1 G2]. split; [assumption|]. split; [assumption|]. apply norm_dist.
  assert (length mx = length mn). { clear - Hb. revert mx Hb. induction mn as [|a mn IH]; intros [|b mx] H; cbn in *; try contradiction; [reflexivity|]. f_equal. apply IH. tauto. }
  rewrite !zip_length; [reflexivity|congruence|rewrite zip_length; congruence].
Qed.
Theorem C46_furthest_point : forall b p, box_le (bmin b) (bmax b) -> length p = length (bmin b) ->
  inside (bmin b) (bmax b) (furthestPointFrom b p) /\
  (forall q, inside (bmin b) (bmax b) q -> dist2 p q <= dist2 p (furthestPointFrom b p))%Q /\
  (squaredNorm (maxOffsetTo b p) == dist2 p (furthestPointFrom b p))%Q.
Proof.
  intros [mn mx] p. cbn [bmin bmax]. unfold furthestPointFrom, maxOffsetTo, furthestPointFrom. cbn [bmin bmax]. intros Hb HL.
  assert (G : inside mn mx (select3 mn mx p) /\ (forall q, inside mn mx q -> dist2 p q <= dist2 p (select3 mn mx p))%Q /\ length p = length (select3 mn mx p)).
  { revert mn mx Hb HL. induction p as [|x p IH]; intros [|a mn] [|b mx] Hb HL; cbn in Hb, HL; try discriminate; try contradiction.
    - cbn. split; [split; constructor|]. split; [|reflexivity]. intros q _. unfold dist2. cbn. lra.
    - destruct Hb as [Hab Hb]. destruct (IH mn mx Hb ltac:(congruence)) as (I1 & I2 & I3). cbn [select3].
      assert (K : forall y, (a <= y /\ y <= b)%Q -> let f := if Qle_bool x ((a + b) / 2) then b else a in
              ((a <= f /\ f <= b) /\ (x - y) * (x - y) <= (x - f) * (x - f))%Q).
      { intros y [Y1 Y2]. cbv zeta. destruct (Qle_bool x ((a + b) / 2)) eqn:E.
        - apply Qle_bool_iff in E. assert (E' : (2 * x <= a + b)%Q).
          { setoid_replace (a + b)%Q with (2 * ((a + b) / 2))%Q by field. lra. }
          split; [split; lra|]. apply sq_le. rewrite (Qabs_neg (x - b)) by lra. apply Qabs_Qle_condition. split; lra.
        - assert (E' : ((a + b) / 2 < x)%Q) by (apply Qnot_le_lt; intros N; apply Qle_bool_iff in N; congruence).
          assert (E2 : (a + b < 2 * x)%Q) by (setoid_replace (a + b)%Q with (2 * ((a + b) / 2))%Q by field; lra).
          split; [split; lra|]. apply sq_le. rewrite (Qabs_pos (x - a)) by lra. apply Qabs_Qle_condition. split; lra. }
      split; [|split; [|cbn; congruence]].
      + apply inside_cons. split; [|assumption]. apply (K a). split; lra.
      + intros [|y q] Hq; [destruct Hq as [Hq _]; inversion Hq|]. apply inside_cons in Hq. destruct Hq as [Hy Hq].
        specialize (I2 q Hq). destruct (K y Hy) as [_ L]. unfold dist2 in *. cbn [zip fold_right]. lra. }
  destruct G as (G1 & G2 & G3). split; [assumption|]. split; [assumption|]. apply norm_dist. assumption.
Qed.
(** For integer boxes the truncating division picks the wrong end. *)
Theorem C46_furthest_int_refuted : exists mn mx x y, mn <= mx /\ mn <= y <= mx /\ Z.abs (x - furthest_int mn mx x) < Z.abs (x - y).
Proof. exists (-3), 0, (-1), (-3). vm_compute. repeat split; discriminate || reflexivity. Qed.

(** Offsets between two boxes *)
Theorem C46_min_offset_boxes : forall b c, box_le (bmin b) (bmax b) -> box_le (bmin c) (bmax c) -> length (bmin b) = length (bmin c) ->
  (forall p q, inside (bmin b) (bmax b) p -> inside (bmin c) (bmax c) q -> squaredNorm (minOffsetToBox b c) <= dist2 p q)%Q /\
  (exists p q, inside (bmin b) (bmax b) p /\ inside (bmin c) (bmax c) q /\ (squaredNorm (minOffsetToBox b c) == dist2 p q)%Q).
Proof.
  intros [mn mx] [mn2 mx2]. unfold minOffsetToBox. cbn [bmin bmax]. revert mx mn2 mx2.
  induction mn as [|a mn IH]; intros [|b mx] [|a2 mn2] [|b2 mx2] H1 H2 HL; cbn in H1, H2, HL; try contradiction; try discriminate.
  - split.
    + intros p q [Hp _] _. inversion Hp; subst. unfold dist2. cbn. lra.
    + exists [], []. unfold dist2. cbn. repeat split; constructor || lra.
  - destruct H1 as [Hab H1], H2 as [Hab2 H2]. destruct (IH mx mn2 mx2 H1 H2 ltac:(congruence)) as (I1 & p0 & q0 & P0 & Q0 & E0).
    clear IH. cbn [zip map qsub_l squaredNorm fold_right].
    set (d := qmax (qmax a a2 - qmin b b2) 0).
    fold (qsub_l (zip qmax mn mn2) (zip qmin mx mx2)).
    fold (squaredNorm (map (fun x => qmax x 0) (qsub_l (zip qmax mn mn2) (zip qmin mx mx2)))).
    set (R := squaredNorm _) in *.
    destruct (qmax_spec a a2) as (M1 & M2 & M3). destruct (qmin_spec b b2) as (N1 & N2 & N3).
    destruct (qmax_spec (qmax a a2 - qmin b b2) 0) as (D1 & D2 & D3). fold d in D1, D2, D3.
    split.
    + intros [|x p] [|y q] Hp Hq; try (destruct Hp as [Hp _]; inversion Hp; fail); try (destruct Hq as [Hq _]; inversion Hq; fail).
      apply inside_cons in Hp, Hq. destruct Hp as [Hx Hp], Hq as [Hy Hq]. specialize (I1 p q Hp Hq). unfold dist2 in *. cbn [zip fold_right].
      assert (L : (d * d <= (x - y) * (x - y))%Q).
      { apply sq_le. rewrite (Qabs_pos d) by lra. destruct D3 as [->| ->]; [|apply Qabs_nonneg].
        destruct M3 as [->| ->], N3 as [->| ->].
        - apply Qle_trans with 0%Q; [lra|apply Qabs_nonneg].
        - apply Qle_trans with (x - y)%Q; [lra|apply Qle_Qabs].
        - apply Qle_trans with (- (x - y))%Q; [lra|]. rewrite <- Qabs_opp. apply Qle_Qabs.
        - apply Qle_trans with 0%Q; [lra|apply Qabs_nonneg]. }
      lra.
    + assert (exists x y, (a <= x /\ x <= b)%Q /\ (a2 <= y /\ y <= b2)%Q /\ (d * d == (x - y) * (x - y))%Q) as (x & y & Hx & Hy & E).
      { destruct (Qlt_le_dec b a2) as [C|C].
        - exists b, a2. split; [lra|]. split; [lra|]. assert (Ed : (d == a2 - b)%Q).
          { destruct M3 as [M3|M3]; rewrite M3 in *; destruct N3 as [N3|N3]; rewrite N3 in *; destruct D3 as [D3|D3]; rewrite D3 in *; lra. }
          rewrite Ed. ring.
        - destruct (Qlt_le_dec b2 a) as [C2|C2].
          + exists a, b2. split; [lra|]. split; [lra|]. assert (Ed : (d == a - b2)%Q).
            { destruct M3 as [M3|M3]; rewrite M3 in *; destruct N3 as [N3|N3]; rewrite N3 in *; destruct D3 as [D3|D3]; rewrite D3 in *; lra. }
            rewrite Ed. ring.
          + exists (qmax a a2), (qmax a a2). assert (Ed : (d == 0)%Q).
            { destruct M3 as [M3|M3]; rewrite M3 in *; destruct N3 as [N3|N3]; rewrite N3 in *; destruct D3 as [D3|D3]; rewrite D3 in *; lra. }
            split; [destruct M3 as [M3|M3]; rewrite M3 in *; split; lra|]. split; [destruct M3 as [M3|M3]; rewrite M3 in *; split; lra|]. rewrite Ed. ring. }
      exists (x :: p0), (y :: q0). split; [apply inside_cons; auto|]. split; [apply inside_cons; auto|].
      unfold dist2 in *. cbn [zip fold_right]. rewrite <- E0, E. reflexivity.
Qed.
Theorem C46_max_offset_boxes : forall b c, box_le (bmin b) (bmax b) -> box_le (bmin c) (bmax c) -> length (bmin b) = length (bmin c) ->
  (forall p q, inside (bmin b) (bmax b) p -> inside (bmin c) (bmax c) q -> dist2 p q <= squaredNorm (maxOffsetToBox b c))%Q /\
  (exists p q, inside (bmin b) (bmax b) p /\ inside (bmin c) (bmax c) q /\ (squaredNorm (maxOffsetToBox b c) == dist2 p q)%Q).
Proof.
  intros [mn mx] [mn2 mx2]. unfold maxOffsetToBox. cbn [bmin bmax]. revert mx mn2 mx2.
  induction mn as [|a mn IH]; intros [|b mx] [|a2 mn2] [|b2 mx2] H1 H2 HL; cbn in H1, H2, HL; try contradiction; try discriminate.
  - split.
    + intros p q [Hp _] _. inversion Hp; subst. unfold dist2. cbn. lra.
    + exists [], []. unfold dist2. cbn. repeat split; constructor || lra.
  - destruct H1 as [Hab H1], H2 as [Hab2 H2]. destruct (IH mx mn2 mx2 H1 H2 ltac:(congruence)) as (I1 & p0 & q0 & P0 & Q0 & E0).
    clear IH. cbn [zip qsub_l]. fold (qsub_l mn mx2) (qsub_l mx mn2).
    set (l := zip _ (qsub_l mn mx2) (qsub_l mx mn2)) in *. cbn [squaredNorm fold_right]. fold (squaredNorm l).
    set (d := if Qle_bool (Qabs (a - b2)) (Qabs (b - a2)) then (b - a2)%Q else (a - b2)%Q).
    assert (Bd : (Qabs (a - b2) <= Qabs d /\ Qabs (b - a2) <= Qabs d)%Q /\ (d = (b - a2)%Q \/ d = (a - b2)%Q)).
    { unfold d. destruct (Qle_bool (Qabs (a - b2)) (Qabs (b - a2))) eqn:E.
      - apply Qle_bool_iff in E. split; [split; lra|auto].
      - assert (Qabs (b - a2) < Qabs (a - b2))%Q by (apply Qnot_le_lt; intros N; apply Qle_bool_iff in N; congruence). split; [split; lra|auto]. }
    destruct Bd as [[B1 B2] B3]. clearbody d. split.
    + intros [|x p] [|y q] Hp Hq; try (destruct Hp as [Hp _]; inversion Hp; fail); try (destruct Hq as [Hq _]; inversion Hq; fail).
      apply inside_cons in Hp, Hq. destruct Hp as [Hx Hp], Hq as [Hy Hq]. specialize (I1 p q Hp Hq). unfold dist2 in *. cbn [zip fold_right].
      assert (L : ((x - y) * (x - y) <= d * d)%Q).
      { apply sq_le. apply Qabs_Qle_condition. split.
        - apply Qle_trans with (- Qabs (a - b2))%Q; [lra|]. pose proof (Qle_Qabs (- (a - b2))) as L. rewrite Qabs_opp in L. lra.
        - apply Qle_trans with (Qabs (b - a2))%Q; [|assumption]. pose proof (Qle_Qabs (b - a2)). lra. }
      lra.
    + destruct B3 as [->| ->].
      * exists (b :: p0), (a2 :: q0). split; [apply inside_cons; split; [split; lra|assumption]|]. split; [apply inside_cons; split; [split; lra|assumption]|].
        unfold dist2 in *. cbn [zip fold_right]. rewrite <- E0. reflexivity.
      * exists (a :: p0), (b2 :: q0). split; [apply inside_cons; split; [split; lra|assumption]|]. split; [apply inside_cons; split; [split; lra|assumption]|].
        unfold dist2 in *. cbn [zip fold_right]. rewrite <- E0. reflexivity.
Qed.
(** The corners of a box are exactly the points with every coordinate at one of the two ends: coordinate
    d is the maximum iff bit d of the corner number is set. *)
Theorem C46_corners : forall b k d, length (bmin b) = length (bmax b) -> (d < length (bmin b))%nat ->
  nth d (corner_point b k) 0%Q = if Z.testbit k (Z.of_nat d) then nth d (bmax b) 0%Q else nth d (bmin b) 0%Q.
Proof.
  intros b k d _ H. unfold corner_point.
  set (f := fun d => if Z.testbit k (Z.of_nat d) then nth d (bmax b) 0%Q else nth d (bmin b) 0%Q).
  rewrite (nth_indep _ 0%Q (f 0%nat)) by (rewrite map_length, seq_length; assumption).
  rewrite (map_nth f), seq_nth by assumption. reflexivity.
Qed.
Example C46_ex2 : let b := AABB [0; -1]%Q [2; 1]%Q in box_le (bmin b) (bmax b) /\
  closestPointTo b [5; 0]%Q = [2; 0]%Q /\ furthestPointFrom b [5; 1 # 2]%Q = [0; -1]%Q /\ corner_point b 2 = [0; 1]%Q /\
  (squaredNorm (minOffsetToBox b (AABB [4; 0] [5; 3])) == 4)%Q /\ (squaredNorm (maxOffsetToBox b (AABB [4; 0] [5; 3])) == 41)%Q.
Proof. cbn. repeat split; try reflexivity; discriminate. Qed.

Print Assumptions C09_cell_contains_point.
Print Assumptions C09_node_is_ancestor.
Print Assumptions C09_cells_inside_node.
Print Assumptions C46_include_smallest.
Print Assumptions C46_min_offset_boxes.
Print Assumptions C46_max_offset_boxes.
