(** Property C36: interpolation interpolates. *)
From Verif Require Import Base M_Point P_Point M_Interpolate.
From Coq Require Import QArith Qround Qabs Lqa.
Close Scope Q_scope.
Open Scope Z_scope.

(** ** Specification *)
(** Coordinate of the centre of the cells with index [i] along one axis. *)
Definition centre (w : Q) (i : Z) : Q := ((inject_Z i + (1 # 2)) * w)%Q.
(** [i] is the lower cell of a pair of neighbours whose centres enclose [x]; on a centre plane both pairs do. *)
Definition brackets (w : Q) (i : Z) (x : Q) : Prop := (centre w i <= x /\ x <= centre w (i + 1)%Z)%Q.
(** Textbook trilinear weight of the cell [c] for a coordinate [x]: 1 at its centre, falling linearly to 0 one
    cell further. *)
Definition hat (w : Q) (c : Z) (x : Q) : Q := (1 - Qabs (x - centre w c) / w)%Q.
(** The eight cells with lower corner (i,j,k), and the weighted sum over them. *)
Definition corners8 (i j k : Z) : list (Z * Z * Z) :=
  [(i,j,k); (i,j,k+1); (i,j+1,k); (i,j+1,k+1); (i+1,j,k); (i+1,j,k+1); (i+1,j+1,k); (i+1,j+1,k+1)].
Definition weighted_sum (f : list Z -> Q) w (x y z : Q) (l : list (Z * Z * Z)) : Q :=
  fold_right (fun c s => match c with (a, b, d) => (hat w a x * hat w b y * hat w d z * f [a; b; d] + s)%Q end) 0%Q l.

(** ** Proofs *)
Lemma floor_pair w x : (0 < w)%Q ->
  let i := Qfloor (x * (1 / w) - (1 # 2)) in (centre w i <= x /\ x < centre w (i + 1)%Z)%Q.
Proof.
  intros Hw i. pose proof (floor_bounds (x * (1 / w) - (1 # 2))) as [H1 H2]. fold i in H1, H2.
  unfold centre. rewrite injZ_S. split.
  - apply (scale_le_iff w x (inject_Z i + (1 # 2)) Hw). lra.
  - apply (scale_gt_iff w x (inject_Z i + 1 + (1 # 2)) Hw). lra.
Qed.
Lemma offset1 w x i : (0 < w)%Q -> (centre w i <= x /\ x <= centre w (i + 1)%Z)%Q ->
  let a := ((x - centre w i) * (1 / w))%Q in (0 <= a /\ a <= 1 /\ a * w == x - centre w i)%Q.
Proof.
  intros Hw [H1 H2] a.
  assert (E : (a * w == x - centre w i)%Q) by (unfold a; field; lra).
  unfold centre in *. rewrite injZ_S in H2. 
  repeat split; [apply (Qmult_le_r _ _ w Hw) | apply (Qmult_le_r _ _ w Hw) | exact E]; lra.
Qed.
Lemma hat_lo w x i : (0 < w)%Q -> brackets w i x -> (hat w i x == 1 - (x - centre w i) * (1 / w))%Q.
Proof. intros Hw [H1 H2]. unfold hat. rewrite Qabs_pos by lra. field. lra. Qed.
Lemma hat_hi w x i : (0 < w)%Q -> brackets w i x -> (hat w (i + 1)%Z x == (x - centre w i) * (1 / w))%Q.
Proof.
  intros Hw [H1 H2]. unfold hat. rewrite Qabs_neg by lra.
  unfold centre. rewrite injZ_S. field. lra.
Qed.

Lemma trilinear_eq f w x y z : (0 < w)%Q ->
  let i := Qfloor (x * (1 / w) - (1 # 2)) in
  let j := Qfloor (y * (1 / w) - (1 # 2)) in
  let k := Qfloor (z * (1 / w) - (1 # 2)) in
  let a := ((x - centre w i) * (1 / w))%Q in
  let b := ((y - centre w j) * (1 / w))%Q in
  let c := ((z - centre w k) * (1 / w))%Q in
  (trilinear f w [x; y; z] ==
   (1 - a) * (1 - b) * (1 - c) * f [i; j; k] + (1 - a) * (1 - b) * c * f [i; j; k + 1]%Z
   + (1 - a) * b * (1 - c) * f [i; j + 1; k]%Z + (1 - a) * b * c * f [i; j + 1; k + 1]%Z
   + a * (1 - b) * (1 - c) * f [i + 1; j; k]%Z + a * (1 - b) * c * f [i + 1; j; k + 1]%Z
   + a * b * (1 - c) * f [i + 1; j + 1; k]%Z + a * b * c * f [i + 1; j + 1; k + 1]%Z)%Q.
Proof.
  intros Hw i j k a b c. unfold trilinear, tri_offset, pointToFloorIndex, scaledPointToFloorIndex, scale_point, qat.
  cbn [map seq nth zip qsub_l indexToCenterPoint zadd_l Nat.add].
  fold i j k. unfold neighbor_offset.
  cbn [Z.of_nat Pos.of_succ_nat Pos.succ Z.shiftr Z.shiftl Z.opp Pos.iter Z.div2 Pos.div2 Z.land Pos.land N.of_nat Z.of_N Pos.lor Pos.sub zadd_l].
  rewrite ?Z.add_0_r. 
  unfold qsub_l. cbn [zip map nth]. fold (centre w i) (centre w j) (centre w k). fold a b c.
  ring.
Qed.
Lemma brackets_dec w i j x : (0 < w)%Q -> brackets w i x -> (centre w j <= x /\ x < centre w (j + 1)%Z)%Q ->
  i = j \/ (j = i + 1 /\ (x == centre w j)%Q).
Proof.
  intros Hw [H1 H2] [H3 H4]. unfold centre in *. rewrite injZ_S in H2, H4.
  assert (A : i < j + 1). { apply injZ_lt. rewrite injZ_S. assert ((inject_Z i + (1#2)) * w < (inject_Z j + 1 + (1#2)) * w)%Q as B by lra. apply Qmult_lt_r in B; [lra | exact Hw]. }
  assert (A' : j <= i + 1). { apply injZ_le. rewrite injZ_S. assert ((inject_Z j + (1#2)) * w <= (inject_Z i + 1 + (1#2)) * w)%Q as B by lra. apply Qmult_le_r in B; [lra | exact Hw]. }
  destruct (Z.eq_dec i j) as [|N]; [auto | right]. assert (j = i + 1) by lia. subst j. split; [reflexivity |].
  rewrite injZ_S in *. lra.
Qed.
(** Per-axis statement: the linear interpolation of a function [g] between two neighbours does not depend on
    which bracketing pair is used. *)
Lemma axis_side w i j x (g : Z -> Q) : (0 < w)%Q -> brackets w i x -> (centre w j <= x /\ x < centre w (j + 1)%Z)%Q ->
  (hat w i x * g i + hat w (i + 1)%Z x * g (i + 1)%Z ==
   (1 - (x - centre w j) * (1 / w)) * g j + ((x - centre w j) * (1 / w)) * g (j + 1)%Z)%Q.
Proof.
  intros Hw HB HJ. destruct (brackets_dec w i j x Hw HB HJ) as [<- | [-> E]].
  - rewrite hat_lo, hat_hi by assumption. reflexivity.
  - rewrite (hat_lo w x i), (hat_hi w x i) by assumption.
    assert (H1 : ((x - centre w (i + 1)%Z) * (1 / w) == 0)%Q) by (rewrite E; field; lra).
    assert (H2 : ((x - centre w i) * (1 / w) == 1)%Q).
    { rewrite E. unfold centre. rewrite injZ_S. field. lra. }
    rewrite H1, H2. ring.
Qed.

(** The result is the textbook trilinear formula, for every choice of eight cells whose centres enclose the
    point. On a plane of cell centres two choices exist and both give the same result. *)
Theorem C36_trilinear_formula : forall f w x y z i j k, (0 < w)%Q ->
  brackets w i x -> brackets w j y -> brackets w k z ->
  (trilinear f w [x; y; z] == weighted_sum f w x y z (corners8 i j k))%Q.
Proof.
  intros f w x y z i j k Hw Hi Hj Hk. rewrite trilinear_eq by exact Hw. cbv zeta.
  set (i' := Qfloor (x * (1 / w) - (1 # 2))). set (j' := Qfloor (y * (1 / w) - (1 # 2))). set (k' := Qfloor (z * (1 / w) - (1 # 2))).
  pose proof (floor_pair w x Hw : centre w i' <= x /\ x < centre w (i' + 1)%Z)%Q as Fi.
  pose proof (floor_pair w y Hw : centre w j' <= y /\ y < centre w (j' + 1)%Z)%Q as Fj.
  pose proof (floor_pair w z Hw : centre w k' <= z /\ z < centre w (k' + 1)%Z)%Q as Fk.
  pose proof (fun g => axis_side w i i' x g Hw Hi Fi) as Ai.
  pose proof (fun g => axis_side w j j' y g Hw Hj Fj) as Aj.
  pose proof (fun g => axis_side w k k' z g Hw Hk Fk) as Ak.
  cbn [weighted_sum corners8 fold_right].
  set (G := fun i j => (hat w k z * f [i; j; k] + hat w (k + 1)%Z z * f [i; j; k + 1]%Z)%Q).
  set (H := fun i => (hat w j y * G i j + hat w (j + 1)%Z y * G i (j + 1)%Z)%Q).
  transitivity (hat w i x * H i + hat w (i + 1)%Z x * H (i + 1)%Z)%Q; [| unfold H, G; ring].
  rewrite (Ai H). unfold H. rewrite (Aj (G i')), (Aj (G (i' + 1))). unfold G.
  rewrite (Ak (fun k => f [i'; j'; k])), (Ak (fun k => f [i'; j' + 1; k]%Z)), (Ak (fun k => f [i' + 1; j'; k]%Z)), (Ak (fun k => f [i' + 1; j' + 1; k]%Z)).
  ring.
Qed.
Print Assumptions C36_trilinear_formula.

(** Such a choice always exists, so the previous theorem covers every point. *)
Theorem C36_enclosing_cells_exist : forall w x, (0 < w)%Q -> exists i, brackets w i x.
Proof. intros w x Hw. eexists. pose proof (floor_pair w x Hw) as [H1 H2]. split; [exact H1 | apply Qlt_le_weak; exact H2]. Qed.
Print Assumptions C36_enclosing_cells_exist.

Lemma hat_center w i : (0 < w)%Q -> (hat w i (centre w i) == 1)%Q.
Proof. intros Hw. unfold hat. rewrite (Qabs_wd _ 0) by ring. unfold Qabs; cbn. field. lra. Qed.
Lemma brackets_centre w i : (0 < w)%Q -> brackets w i (centre w i).
Proof. intros Hw. unfold brackets, centre. rewrite injZ_S. split; nra. Qed.

(** At a cell centre: the stored value. *)
Theorem C36_value_at_centre : forall f w i j k, (0 < w)%Q ->
  (trilinear f w [centre w i; centre w j; centre w k] == f [i; j; k])%Q.
Proof.
  intros f w i j k Hw. rewrite (C36_trilinear_formula f w _ _ _ i j k) by auto using brackets_centre.
  cbn [weighted_sum corners8 fold_right].
  rewrite !hat_hi by auto using brackets_centre. rewrite !hat_center by exact Hw.
  setoid_replace ((centre w i - centre w i) * (1 / w))%Q with 0%Q by (field; lra).
  setoid_replace ((centre w j - centre w j) * (1 / w))%Q with 0%Q by (field; lra).
  setoid_replace ((centre w k - centre w k) * (1 / w))%Q with 0%Q by (field; lra).
  ring.
Qed.
Print Assumptions C36_value_at_centre.

Lemma lerp_bound a lo hi u v : (0 <= a -> a <= 1 -> lo <= u /\ u <= hi -> lo <= v /\ v <= hi ->
  lo <= (1 - a) * u + a * v /\ (1 - a) * u + a * v <= hi)%Q.
Proof. intros. split; nra. Qed.

(** Between the smallest and the largest of the eight enclosing cells. *)
Theorem C36_within_bounds : forall f w x y z i j k lo hi, (0 < w)%Q ->
  brackets w i x -> brackets w j y -> brackets w k z ->
  (forall a b c, In (a, b, c) (corners8 i j k) -> lo <= f [a; b; c] /\ f [a; b; c] <= hi)%Q ->
  (lo <= trilinear f w [x; y; z] /\ trilinear f w [x; y; z] <= hi)%Q.
Proof.
  intros f w x y z i j k lo hi Hw Hi Hj Hk HB.
  rewrite (C36_trilinear_formula f w x y z i j k) by assumption. cbn [weighted_sum corners8 fold_right].
  rewrite !hat_hi, !hat_lo by assumption.
  destruct (offset1 w x i Hw Hi) as (a0 & a1 & _). destruct (offset1 w y j Hw Hj) as (b0 & b1 & _). destruct (offset1 w z k Hw Hk) as (c0 & c1 & _).
  set (a := ((x - centre w i) * (1 / w))%Q) in *. set (b := ((y - centre w j) * (1 / w))%Q) in *. set (c := ((z - centre w k) * (1 / w))%Q) in *.
  unfold corners8 in HB.
  assert (Z0 : forall A B, (lo <= (1 - c) * f A + c * f B /\ (1 - c) * f A + c * f B <= hi)%Q \/ ~ ((lo <= f A /\ f A <= hi) /\ (lo <= f B /\ f B <= hi))%Q).
  { intros A B. destruct (Qlt_le_dec (f A) lo); [right; lra|]. destruct (Qlt_le_dec hi (f A)); [right; lra|].
    destruct (Qlt_le_dec (f B) lo); [right; lra|]. destruct (Qlt_le_dec hi (f B)); [right; lra|]. left. apply lerp_bound; auto. }
  assert (L : forall A B C A' B' C', In (A, B, C) (corners8 i j k) -> In (A', B', C') (corners8 i j k) ->
     (lo <= (1 - c) * f [A; B; C] + c * f [A'; B'; C'] /\ (1 - c) * f [A; B; C] + c * f [A'; B'; C'] <= hi)%Q).
  { intros A B C A' B' C' I1 I2. apply lerp_bound; auto. }
  assert (P : forall A, A = i \/ A = i + 1 ->
     let g B := ((1 - c) * f [A; B; k] + c * f [A; B; k + 1]%Z)%Q in
     (lo <= (1 - b) * g j + b * g (j + 1)%Z /\ (1 - b) * g j + b * g (j + 1)%Z <= hi)%Q).
  { intros A HA g. apply lerp_bound; auto; unfold g; apply L; destruct HA; subst A; unfold corners8; cbn; tauto. }
  pose proof (lerp_bound a lo hi _ _ a0 a1 (P i (or_introl eq_refl)) (P (i + 1) (or_intror eq_refl))) as R.
  cbv zeta in R. destruct R as [R1 R2]. split.
  - eapply Qle_trans; [exact R1 |]. apply Qle_lteq; right; ring.
  - eapply Qle_trans; [| exact R2]. apply Qle_lteq; right; ring.
Qed.
Print Assumptions C36_within_bounds.

(** Affine fields are reproduced. *)
Theorem C36_affine : forall (f : list Z -> Q) w a b c d x y z, (0 < w)%Q ->
  (forall i j k, f [i; j; k] == a * centre w i + b * centre w j + c * centre w k + d)%Q ->
  (trilinear f w [x; y; z] == a * x + b * y + c * z + d)%Q.
Proof.
  intros f w a b c d x y z Hw HF.
  destruct (C36_enclosing_cells_exist w x Hw) as [i Hi]. destruct (C36_enclosing_cells_exist w y Hw) as [j Hj]. destruct (C36_enclosing_cells_exist w z Hw) as [k Hk].
  rewrite (C36_trilinear_formula f w x y z i j k) by assumption. cbn [weighted_sum corners8 fold_right].
  rewrite !HF. rewrite !hat_hi, !hat_lo by assumption.
  unfold centre. rewrite !injZ_S. field. lra.
Qed.
Print Assumptions C36_affine.

(** Nearest neighbour: the value of a cell containing the point; the value of *the* cell if the point is not on
    a cell face. *)
Theorem C36_nearest_neighbor : forall rnd f w p, nearest rnd -> (0 < w)%Q ->
  exists i, nearestNeighbor rnd f w p = f i /\ point_in_cell w i p.
Proof. intros. eexists. split; [reflexivity | apply C09_cell_contains_point; assumption]. Qed.
Print Assumptions C36_nearest_neighbor.
Theorem C36_nearest_neighbor_interior : forall rnd f w p i, nearest rnd -> (0 < w)%Q ->
  point_inside_cell w i p -> nearestNeighbor rnd f w p = f i.
Proof. intros rnd f w p i Hr Hw Hp. unfold nearestNeighbor. f_equal. apply C09_interior_point; assumption. Qed.
Print Assumptions C36_nearest_neighbor_interior.

(** The conditions of the DCHECKs in lines 39-44. *)
Theorem C36_offsets_in_unit_cube : forall w p, (0 < w)%Q -> Forall (fun a => 0 <= a /\ a <= 1)%Q (tri_offset w p).
Proof.
  intros w p Hw. unfold tri_offset, pointToFloorIndex, scaledPointToFloorIndex, scale_point, indexToCenterPoint, qsub_l.
  induction p as [|x p IH]; cbn; constructor; [| exact IH].
  pose proof (floor_pair w x Hw) as [H1 H2]. 
  destruct (offset1 w x (Qfloor (x * (1 / w) - (1 # 2))) Hw) as (A & B & _); [split; lra |]. split; [exact A | exact B].
Qed.
Print Assumptions C36_offsets_in_unit_cube.

(** A field with a single occupied cell, 0.2 m cells: the value half way between the cell and its neighbour, and
    at negative coordinates. *)
Example C36_ex :
  let f := fun i => if list_eq_dec Z.eq_dec i [-1; 0; 2] then 4%Q else 0%Q in
  let w := (1 # 5)%Q in
  Qred (trilinear f w [(-1 # 10)%Q; (1 # 10)%Q; (1 # 2)%Q]) = 4%Q /\
  Qred (trilinear f w [0%Q; (1 # 10)%Q; (1 # 2)%Q]) = 2%Q /\
  Qred (trilinear f w [0%Q; (1 # 5)%Q; (1 # 2)%Q]) = 1%Q /\
  nearestNeighbor round_away f w [(-1 # 100)%Q; (1 # 10)%Q; (1 # 2)%Q] = 4%Q /\ brackets w (-1) 0 /\
  nearest round_away.
Proof. vm_compute. repeat split; try discriminate. exact round_away_nearest. Qed.
