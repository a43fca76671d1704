(** Facts about the approximate Gaussian and the contributions of the measurement models. *)
From Verif Require Import Base M_Image M_RangeBounds M_Measure.
From Coq Require Import QArith Qabs Lqa.
Close Scope Z_scope.
Open Scope Q_scope.

Lemma qltb_true a b : qltb a b = true <-> a < b.
Proof. unfold qltb. rewrite negb_true_iff, <- not_true_iff_false, Qle_bool_iff. split; [apply Qnot_le_lt|apply Qlt_not_le]. Qed.
Lemma qltb_false a b : qltb a b = false <-> b <= a.
Proof. unfold qltb. rewrite negb_false_iff. apply Qle_bool_iff. Qed.
Lemma qleb_false a b : Qle_bool a b = false <-> b < a.
Proof. rewrite <- not_true_iff_false, Qle_bool_iff. split; [apply Qnot_le_lt|apply Qlt_not_le]. Qed.
Ltac qcase b := let E := fresh "E" in destruct b eqn:E; [first [apply qltb_true in E|apply Qle_bool_iff in E]|first [apply qltb_false in E|apply qleb_false in E]].

(** ** The five pieces *)
Lemma cum1 t : t <= - (3) -> cumulative t == 0.
Proof. intros H. unfold cumulative. qcase (qltb t (- (3))); [reflexivity|]. qcase (Qle_bool t (- (1))); [|lra]. assert (X : t == - (3)) by lra. rewrite X. ring. Qed.
Lemma cum2 t : - (3) <= t <= - (1) -> cumulative t == (1 # 48) * (t + 3) * (t + 3) * (t + 3).
Proof. intros H. unfold cumulative. qcase (qltb t (- (3))); [lra|]. qcase (Qle_bool t (- (1))); [reflexivity|lra]. Qed.
Lemma cum3 t : - (1) <= t <= 1 -> cumulative t == (1 # 2) + (1 # 24) * t * (t + 3) * (3 - t).
Proof.
  intros H. unfold cumulative. qcase (qltb t (- (3))); [lra|]. qcase (Qle_bool t (- (1))).
  - assert (X : t == - (1)) by lra. rewrite X. ring.
  - qcase (qltb t 1); [reflexivity|]. qcase (Qle_bool t 3); [|lra]. assert (X : t == 1) by lra. rewrite X. ring.
Qed.
Lemma cum4 t : 1 <= t <= 3 -> cumulative t == 1 - (1 # 48) * (3 - t) * (3 - t) * (3 - t).
Proof. intros H. unfold cumulative. qcase (qltb t (- (3))); [lra|]. qcase (Qle_bool t (- (1))); [lra|]. qcase (qltb t 1); [lra|]. qcase (Qle_bool t 3); [reflexivity|lra]. Qed.
Lemma cum5 t : 3 <= t -> cumulative t == 1.
Proof.
  intros H. unfold cumulative. qcase (qltb t (- (3))); [lra|]. qcase (Qle_bool t (- (1))); [lra|]. qcase (qltb t 1); [lra|].
  qcase (Qle_bool t 3); [|reflexivity]. assert (X : t == 3) by lra. rewrite X. ring.
Qed.
Lemma cum_comp x y : x == y -> cumulative x == cumulative y.
Proof.
  intros E. destruct (Qlt_le_dec x (- (3))) as [A|A]; [rewrite !cum1 by lra; reflexivity|].
  destruct (Qlt_le_dec x (- (1))) as [B|B]; [rewrite !cum2 by lra; rewrite E; reflexivity|].
  destruct (Qlt_le_dec x 1) as [C|C]; [rewrite !cum3 by lra; rewrite E; reflexivity|].
  destruct (Qlt_le_dec x 3) as [D|D]; [rewrite !cum4 by lra; rewrite E; reflexivity|]. rewrite !cum5 by lra. reflexivity.
Qed.
#[global] Instance cum_proper : Proper (Qeq ==> Qeq) cumulative := cum_comp.

(** ** Slopes: a function whose increments over each piece are between l and u times the distance *)
Definition slope (F : Q -> Q) (l u x y : Q) : Prop := l * (y - x) <= F y - F x <= u * (y - x).
Lemma slope_trans F l u x y z : slope F l u x y -> slope F l u y z -> slope F l u x z.
Proof. unfold slope. intros [A B] [C D]. split; lra. Qed.
Definition slope_on F l u a b : Prop := forall x y, a <= x -> x <= y -> y <= b -> slope F l u x y.
Definition slope_below F l u b : Prop := forall x y, x <= y -> y <= b -> slope F l u x y.
Definition slope_above F l u a : Prop := forall x y, a <= x -> x <= y -> slope F l u x y.
Lemma slope_glue F l u a b : a <= b -> slope_below F l u a -> slope_on F l u a b -> slope_below F l u b.
Proof.
  intros Hab A B x y Hxy Hy. destruct (Qlt_le_dec y a) as [Ya|Ya]; [apply A; lra|].
  destruct (Qlt_le_dec a x) as [Xa|Xa]; [apply B; lra|]. apply slope_trans with a; [apply A; lra|apply B; lra].
Qed.
Lemma slope_join F l u a b c : a <= b -> b <= c -> slope_on F l u a b -> slope_on F l u b c -> slope_on F l u a c.
Proof.
  intros Hab Hbc A B x y Hx Hxy Hy. destruct (Qlt_le_dec y b) as [Yb|Yb]; [apply A; lra|].
  destruct (Qlt_le_dec b x) as [Xb|Xb]; [apply B; lra|]. apply slope_trans with b; [apply A; lra|apply B; lra].
Qed.
Lemma slope_all F l u a : slope_below F l u a -> slope_above F l u a -> forall x y, x <= y -> slope F l u x y.
Proof.
  intros A B x y Hxy. destruct (Qlt_le_dec y a) as [Ya|Ya]; [apply A; lra|].
  destruct (Qlt_le_dec a x) as [Xa|Xa]; [apply B; lra|]. apply slope_trans with a; [apply A; lra|apply B; lra].
Qed.
Lemma cum_slope1 : slope_below cumulative 0 (3 # 8) (- (3)).
Proof. intros x y Hxy Hy. unfold slope. rewrite !cum1 by lra. lra. Qed.
Lemma cum_slope2 : slope_on cumulative 0 (3 # 8) (- (3)) (- (1)).
Proof.
  intros x y Hx Hxy Hy. unfold slope. rewrite !cum2 by lra.
  set (a := x + 3). set (d := y - x). assert (E : y + 3 == a + d) by (unfold a, d; ring). rewrite E.
  assert (0 <= a) by (unfold a; lra). assert (0 <= d) by (unfold d; lra). assert (a + d <= 2) by (unfold a, d; lra).
  clearbody a d. clear E.
  assert (X : (1 # 48) * (a + d) * (a + d) * (a + d) - (1 # 48) * a * a * a == (1 # 48) * d * ((a + d) * (a + d) + (a + d) * a + a * a)) by ring.
  rewrite X. assert (0 <= (a + d) * (a + d) + (a + d) * a + a * a <= 12) by nra. nra.
Qed.
Lemma cum_slope3 : slope_on cumulative 0 (3 # 8) (- (1)) 1.
Proof.
  intros x y Hx Hxy Hy. unfold slope. rewrite !cum3 by lra.
  assert (X : (1 # 2) + (1 # 24) * y * (y + 3) * (3 - y) - ((1 # 2) + (1 # 24) * x * (x + 3) * (3 - x)) ==
    (1 # 24) * (y - x) * (9 - (x * x + x * y + y * y))) by ring.
  rewrite X. assert (0 <= x * x + x * y + y * y <= 3) by nra. nra.
Qed.
Lemma cum_slope4 : slope_on cumulative 0 (3 # 8) 1 3.
Proof.
  intros x y Hx Hxy Hy. unfold slope. rewrite !cum4 by lra.
  set (a := 3 - y). set (d := y - x). assert (E : 3 - x == a + d) by (unfold a, d; ring). rewrite E.
  assert (0 <= a) by (unfold a; lra). assert (0 <= d) by (unfold d; lra). assert (a + d <= 2) by (unfold a, d; lra).
  clearbody a d. clear E.
  assert (X : 1 - (1 # 48) * a * a * a - (1 - (1 # 48) * (a + d) * (a + d) * (a + d)) == (1 # 48) * d * ((a + d) * (a + d) + (a + d) * a + a * a)) by ring.
  rewrite X. assert (0 <= (a + d) * (a + d) + (a + d) * a + a * a <= 12) by nra. nra.
Qed.
Lemma cum_slope5 : slope_above cumulative 0 (3 # 8) 3.
Proof. intros x y Hx Hxy. unfold slope. rewrite !cum5 by lra. lra. Qed.
Lemma cum_slope x y : x <= y -> slope cumulative 0 (3 # 8) x y.
Proof.
  apply (slope_all cumulative 0 (3 # 8) 3); [|exact cum_slope5].
  apply slope_glue with (- (3)); [lra|exact cum_slope1|].
  apply slope_join with (- (1)); [lra|lra|exact cum_slope2|]. apply slope_join with 1; [lra|lra|exact cum_slope3|exact cum_slope4].
Qed.
Lemma cum_range t : 0 <= cumulative t <= 1.
Proof.
  destruct (Qlt_le_dec t (- (3))) as [A|A].
  - rewrite cum1 by lra. lra.
  - destruct (Qlt_le_dec t 3) as [B|B]; [|rewrite cum5 by lra; lra].
    pose proof (cum_slope (- (3)) t A) as [S1 _]. pose proof (cum_slope t 3 ltac:(lra)) as [S2 _].
    rewrite (cum1 (- (3))) in S1 by lra. rewrite (cum5 3) in S2 by lra. lra.
Qed.

(** ** The range contribution *)
Notation rc := range_contribution.
Lemma rc_comp x y : x == y -> rc x == rc y.
Proof. intros E. unfold range_contribution. rewrite E. reflexivity. Qed.
#[global] Instance rc_proper : Proper (Qeq ==> Qeq) range_contribution := rc_comp.
Lemma rc_slope x y : x <= y -> slope rc (- (3 # 16)) (3 # 8) x y.
Proof.
  intros H. pose proof (cum_slope x y H) as [A B]. pose proof (cum_slope (x - 3) (y - 3) ltac:(lra)) as [C D].
  unfold slope, range_contribution in *. split; lra.
Qed.
Lemma rc_free f : f <= - (3) -> rc f == - (1 # 2).
Proof. intros H. unfold range_contribution. rewrite !cum1 by lra. ring. Qed.
Lemma rc_behind f : 6 <= f -> rc f == 0.
Proof. intros H. unfold range_contribution. rewrite !cum5 by lra. ring. Qed.
Lemma rc_up0 : slope_below rc 0 (3 # 8) 0.
Proof.
  intros x y Hxy Hy. pose proof (cum_slope x y Hxy) as [A B]. unfold slope, range_contribution in *.
  rewrite (cum1 (x - 3)), (cum1 (y - 3)) by lra. lra.
Qed.
Lemma rc_01 f : 0 <= f <= 1 -> rc f == (1 # 24) * f * (9 - f * f) - (1 # 96) * f * f * f.
Proof. intros H. unfold range_contribution. rewrite (cum3 f), (cum2 (f - 3)) by lra. ring. Qed.
Lemma rc_12 f : 1 <= f <= 2 -> rc f == (1 # 2) - (1 # 48) * (3 - f) * (3 - f) * (3 - f) - (1 # 96) * f * f * f.
Proof. intros H. unfold range_contribution. rewrite (cum4 f), (cum2 (f - 3)) by lra. ring. Qed.
Lemma rc_up1 : slope_on rc 0 (3 # 8) 0 1.
Proof.
  intros x y Hx Hxy Hy. split; [|apply rc_slope; assumption]. rewrite !rc_01 by lra.
  assert (X : (1 # 24) * y * (9 - y * y) - (1 # 96) * y * y * y - ((1 # 24) * x * (9 - x * x) - (1 # 96) * x * x * x) ==
    (y - x) * ((3 # 8) - (5 # 96) * (x * x + x * y + y * y))) by ring.
  rewrite X. assert (x * x + x * y + y * y <= 3) by nra. nra.
Qed.
Lemma rc_up2 : slope_on rc 0 (3 # 8) 1 (3 # 2).
Proof.
  intros x y Hx Hxy Hy. split; [|apply rc_slope; assumption]. rewrite !rc_12 by lra.
  assert (X : (1 # 2) - (1 # 48) * (3 - y) * (3 - y) * (3 - y) - (1 # 96) * y * y * y - ((1 # 2) - (1 # 48) * (3 - x) * (3 - x) * (3 - x) - (1 # 96) * x * x * x) ==
    (y - x) * ((1 # 48) * ((3 - x) * (3 - x) + (3 - x) * (3 - y) + (3 - y) * (3 - y)) - (1 # 96) * (x * x + x * y + y * y))) by ring.
  rewrite X. assert (x * x + x * y + y * y <= 27 # 4) by nra.
  assert (27 # 4 <= (3 - x) * (3 - x) + (3 - x) * (3 - y) + (3 - y) * (3 - y)) by nra. nra.
Qed.
(** Non-decreasing up to 3/2 sigma behind the measured distance, *)
Lemma rc_up x y : x <= y -> y <= 3 # 2 -> rc x <= rc y.
Proof.
  intros Hxy Hy. assert (S : slope_below rc 0 (3 # 8) (3 # 2)).
  { apply slope_glue with 0; [lra|exact rc_up0|]. apply slope_join with 1; [lra|lra|exact rc_up1|exact rc_up2]. }
  destruct (S x y Hxy Hy). lra.
Qed.
(** and non-increasing from 2 sigma on. *)
Lemma rc_23 f : 2 <= f <= 3 -> rc f == (1 # 4) - (1 # 48) * (3 - f) * (3 - f) * (3 - f) + (1 # 48) * (3 - f) * (9 - (3 - f) * (3 - f)).
Proof. intros H. unfold range_contribution. rewrite (cum4 f), (cum3 (f - 3)) by lra. ring. Qed.
Lemma rc_down1 : slope_on rc (- (3 # 16)) 0 2 3.
Proof.
  intros x y Hx Hxy Hy. split; [apply rc_slope; assumption|]. rewrite !rc_23 by lra.
  set (a := 3 - y). set (d := y - x). assert (E : 3 - x == a + d) by (unfold a, d; ring). rewrite E.
  assert (0 <= a) by (unfold a; lra). assert (0 <= d) by (unfold d; lra). assert (a + d <= 1) by (unfold a, d; lra).
  clearbody a d. clear E.
  assert (X : (1 # 4) - (1 # 48) * a * a * a + (1 # 48) * a * (9 - a * a) -
    ((1 # 4) - (1 # 48) * (a + d) * (a + d) * (a + d) + (1 # 48) * (a + d) * (9 - (a + d) * (a + d))) ==
    d * ((1 # 24) * ((a + d) * (a + d) + (a + d) * a + a * a) - (9 # 48))) by ring.
  rewrite X. assert ((a + d) * (a + d) + (a + d) * a + a * a <= 3) by nra. nra.
Qed.
Lemma rc_down2 : slope_above rc (- (3 # 16)) 0 3.
Proof.
  intros x y Hx Hxy. pose proof (cum_slope (x - 3) (y - 3) ltac:(lra)) as [A B]. unfold slope, range_contribution in *.
  rewrite (cum5 x), (cum5 y) by lra. lra.
Qed.
Lemma rc_down x y : 2 <= x -> x <= y -> rc y <= rc x.
Proof.
  intros Hx Hxy. destruct (Qlt_le_dec y 3) as [Y|Y].
  - destruct (rc_down1 x y Hx Hxy ltac:(lra)). lra.
  - destruct (Qlt_le_dec x 3) as [X|X].
    + destruct (rc_down1 x 3 Hx ltac:(lra) ltac:(lra)). destruct (rc_down2 3 y ltac:(lra) Y). lra.
    + destruct (rc_down2 x y X Hxy). lra.
Qed.
Lemma rc_neg f : f <= 0 -> - (1 # 2) <= rc f <= 0.
Proof.
  intros H. assert (Z : rc 0 == 0) by reflexivity. split.
  - unfold range_contribution. rewrite (cum1 (f - 3)) by lra. pose proof (cum_range f). lra.
  - rewrite <- Z. apply rc_up; lra.
Qed.
Lemma rc_pos f : 0 <= f -> 0 <= rc f <= 13 # 32.
Proof.
  intros H. assert (Z : rc 0 == 0) by reflexivity.
  assert (B : forall x, 1 <= x <= 2 -> rc x <= 13 # 32).
  { intros x Hx. rewrite rc_12 by lra. set (e := x - (7 # 4)). assert (E : x == (7 # 4) + e) by (unfold e; ring). rewrite E.
    assert (- (3 # 4) <= e <= 1 # 4) by (unfold e; lra). clearbody e. clear E Hx x.
    assert (X : (1 # 2) - (1 # 48) * (3 - ((7 # 4) + e)) * (3 - ((7 # 4) + e)) * (3 - ((7 # 4) + e)) - (1 # 96) * ((7 # 4) + e) * ((7 # 4) + e) * ((7 # 4) + e) ==
      (2479 # 6144) + (1 # 512) * e - (17 # 128) * (e * e) + (1 # 96) * (e * e * e)) by ring.
    rewrite X. assert (e * e * e <= (1 # 4) * (e * e)) by nra. assert (0 <= e * e) by nra. nra. }
  destruct (Qlt_le_dec f 1) as [A|A].
  - split; [rewrite <- Z; apply rc_up; lra|]. pose proof (rc_up f 1 ltac:(lra) ltac:(lra)). pose proof (B 1 ltac:(lra)). lra.
  - destruct (Qlt_le_dec f 2) as [C|C].
    + split; [|apply B; lra]. rewrite rc_12 by lra. nra.
    + pose proof (rc_down 2 f ltac:(lra) C). pose proof (B 2 ltac:(lra)).
      split; [|lra]. destruct (Qlt_le_dec f 6) as [D|D]; [|rewrite rc_behind by lra; lra].
      pose proof (rc_down f 6 ltac:(lra) ltac:(lra)). rewrite (rc_behind 6) in * by lra. assumption.
Qed.
