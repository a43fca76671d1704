(** C40, C65: the approximate arc tangent is strictly increasing with the angle, so the azimuth intervals of the spherical and the Ouster
    projector's sensor boxes enclose every cell that stays off the sensor's vertical axis. *)
From Verif Require Import Base M_IntMath M_Point P_Point M_Image M_RangeBounds P_RangeBounds M_Measure F_Measure P_Measure M_Intersector P_Intersector P_Intersector3 P_Intersector4 M_Ouster P_Details.
From Coq Require Import QArith Qround Qabs Lqa Lia.
Close Scope Z_scope.
Open Scope Q_scope.

(** ** The approximate arc tangent increases *)
Lemma at_diff x y : approx_atan y - approx_atan x == (y - x) * ((8388417 # 8388608) - (348781 # 1048576) * (x * x + x * y + y * y)
  + (6494241 # 33554432) * (x * x * (x * x + x * y + y * y) + y * y * y * (x + y))
  - (15627355 # 134217728) * (x * x * (x * x * (x * x + x * y + y * y) + y * y * y * (x + y)) + y * y * y * y * y * (x + y))
  + (7067009 # 134217728) * (x * x * (x * x * (x * x * (x * x + x * y + y * y) + y * y * y * (x + y)) + y * y * y * y * y * (x + y)) + y * y * y * y * y * y * y * (x + y))
  - (12585543 # 1073741824) * (x * x * (x * x * (x * x * (x * x * (x * x + x * y + y * y) + y * y * y * (x + y)) + y * y * y * y * y * (x + y)) + y * y * y * y * y * y * y * (x + y)) + y * y * y * y * y * y * y * y * y * (x + y))).
Proof. unfold approx_atan. cbv zeta. ring. Qed.
Lemma mul_le1 a b : 0 <= a -> b <= 1 -> b * a <= a.
Proof. intros A B. nra. Qed.
Lemma at_lt y x : 0 <= y -> y < x -> x <= 1 -> approx_atan y < approx_atan x.
Proof.
  intros Hy H Hx. pose proof (at_diff x y) as E. set (D := _ - _ * (x * x + x * y + y * y) + _ - _ + _ - _) in E.
  assert (P : 0 < D); [|nra]. unfold D. clear D E.
  assert (X2 : 0 <= x * x <= 1) by nra. assert (Y2 : 0 <= y * y <= x * x) by nra. set (S2 := x * x + x * y + y * y). assert (B2 : 3 * (y * y) <= S2 <= 3) by (unfold S2; nra).
  set (s := x + y). assert (Bs : 2 * y <= s <= 2) by (unfold s; lra).
  set (y3 := y * y * y). assert (B3 : 0 <= y3 <= y * y) by (unfold y3; nra).
  set (y5 := y3 * y * y). change (y * y * y * y * y) with y5. set (y7 := y5 * y * y). change (y5 * y * y) with y7. set (y9 := y7 * y * y). change (y7 * y * y) with y9.
  assert (B5 : 0 <= y5 <= y3) by (unfold y5; rewrite <- Qmult_assoc; split; [apply Qmult_le_0_compat; lra|rewrite Qmult_comm; apply mul_le1; lra]).
  assert (B7 : 0 <= y7 <= y5) by (unfold y7; rewrite <- Qmult_assoc; split; [apply Qmult_le_0_compat; lra|rewrite Qmult_comm; apply mul_le1; lra]).
  assert (B9 : 0 <= y9 <= y7) by (unfold y9; rewrite <- Qmult_assoc; split; [apply Qmult_le_0_compat; lra|rewrite Qmult_comm; apply mul_le1; lra]).
  assert (Bx : forall z, 0 <= z -> x * x * z <= z) by (intros z Z; apply mul_le1; lra).
  assert (B0 : forall z, 0 <= z -> 0 <= x * x * z) by (intros z Z; apply Qmult_le_0_compat; lra).
  assert (BS : forall z, 0 <= z -> 0 <= z * s <= 2 * z) by (intros z Z; nra).
  set (S4 := x * x * S2 + y3 * s). assert (C4 : 2 * (y3 * s) <= S4).
  { unfold S4. assert (y * y * (3 * (y * y)) <= x * x * S2) by (apply Qmult_le_compat_nonneg; lra). 
    assert (y3 * s <= x * x * S2); [|lra]. unfold S2, s, y3. assert (0 <= x * y) by nra. nra. }
  assert (N4 : 0 <= S4) by (pose proof (BS y3 ltac:(lra)); lra).
  set (S6 := x * x * S4 + y5 * s). assert (C6 : S6 <= (3 # 2) * S4).
  { unfold S6. pose proof (Bx S4 N4). assert (y5 * s <= y3 * s) by (apply Qmult_le_compat_r; lra). lra. }
  assert (N6 : 0 <= S6) by (unfold S6; pose proof (B0 S4 N4); pose proof (BS y5 ltac:(lra)); lra).
  set (S8 := x * x * S6 + y7 * s). assert (N8 : 0 <= S8) by (unfold S8; pose proof (B0 S6 N6); pose proof (BS y7 ltac:(lra)); lra).
  set (S10 := x * x * S8 + y9 * s). assert (C10 : S10 <= 2 * S8).
  { unfold S10. pose proof (Bx S8 N8). assert (y9 * s <= y7 * s) by (apply Qmult_le_compat_r; lra). pose proof (B0 S6 N6). unfold S8 in *. lra. }
  lra.
Qed.
Lemma at_neg x : approx_atan (- x) == - approx_atan x.
Proof. unfold approx_atan. cbv zeta. ring. Qed.
Lemma at_0 : approx_atan 0 == 0. Proof. reflexivity. Qed.
Lemma at_mono x y : -1 <= x -> x < y -> y <= 1 -> approx_atan x < approx_atan y.
Proof.
  intros X L Y. destruct (Qlt_le_dec x 0) as [N|N]; [|apply at_lt; assumption].
  assert (G : forall z, 0 < z -> z <= 1 -> 0 < approx_atan z) by (intros z Z1 Z2; rewrite <- at_0 at 1; apply at_lt; lra).
  destruct (Qlt_le_dec y 0) as [M|M].
  - assert (approx_atan (- y) < approx_atan (- x)) by (apply at_lt; lra). rewrite !at_neg in H. lra.
  - assert (0 < approx_atan (- x)) by (apply G; lra). rewrite at_neg in H. destruct (Qlt_le_dec 0 y) as [K|K]; [specialize (G y K Y); lra|].
    assert (E : y == 0) by lra. rewrite (P_ProjectorScan.atan_eq _ _ E), at_0. lra.
Qed.
Lemma at_mono_le x y : -1 <= x -> x <= y -> y <= 1 -> approx_atan x <= approx_atan y.
Proof. intros X L Y. apply Qle_lteq in L as [L|E]; [apply Qlt_le_weak, at_mono; assumption|]. rewrite (P_ProjectorScan.atan_eq _ _ E). apply Qle_refl. Qed.

(** ** Sectors of the upper half plane *)
Definition A1 := approx_atan 1.
Lemma A1_bounds : 0 < A1 /\ 2 * A1 < kHalfPi.
Proof. split; reflexivity. Qed.
Lemma at_range q : -1 <= q <= 1 -> - A1 <= approx_atan q <= A1.
Proof. intros H. split; [change (- A1) with (- approx_atan 1); rewrite <- at_neg|]; apply at_mono_le; lra. Qed.
Lemma kpi2 : kPi == 2 * kHalfPi. Proof. reflexivity. Qed.
Inductive sector (y x a : Q) : Prop :=
| SRight : 0 < x -> y <= x -> a == approx_atan (y / x) -> sector y x a
| SMid : - y < x -> x < y -> a == kHalfPi - approx_atan (x / y) -> sector y x a
| SLeft : x < 0 -> y <= - x -> a == kPi + approx_atan (y / x) -> sector y x a.
Lemma sectors y x : 0 <= y -> ~ (x == 0 /\ y == 0) -> sector y x (approx_atan2 y x).
Proof.
  intros Y N. pose proof kpi2 as K. unfold approx_atan2, approx_atan2_signed. cbv zeta. assert (SY : qltb y 0 = false) by (apply qltb_false; exact Y). rewrite SY.
  destruct (qltb (Qabs x) (Qabs y)) eqn:S; [apply qltb_true in S|apply qltb_false in S]; rewrite (Qabs_pos y Y) in S; destruct (qltb x 0) eqn:X; [apply qltb_true in X|apply qltb_false in X|apply qltb_true in X|apply qltb_false in X]; cbn [xorb copysign].
  - rewrite (Qabs_neg x) in S by lra. apply SMid; lra.
  - rewrite (Qabs_pos x) in S by lra. apply SMid; lra.
  - rewrite (Qabs_neg x) in S by lra. apply SLeft; lra.
  - rewrite (Qabs_pos x) in S by lra. apply SRight; [|lra|reflexivity]. destruct (Qlt_le_dec 0 x); [assumption|]. exfalso. apply N. split; lra.
Qed.
Lemma div_le_1 n d : 0 < d -> - d <= n <= d -> -1 <= n / d <= 1.
Proof. intros D H. split; [apply Qle_shift_div_l|apply Qle_shift_div_r]; lra. Qed.
Lemma div_ord n d n' d' : 0 < d -> 0 < d' -> n * d' < n' * d -> n / d < n' / d'.
Proof. intros D D' H. apply Qlt_shift_div_l; [assumption|]. setoid_replace (n / d * d') with (n * d' / d) by (field; lra). apply Qlt_shift_div_r; assumption. Qed.
Lemma div_ord_le n d n' d' : 0 < d -> 0 < d' -> n * d' <= n' * d -> n / d <= n' / d'.
Proof. intros D D' H. apply Qle_shift_div_l; [assumption|]. setoid_replace (n / d * d') with (n * d' / d) by (field; lra). apply Qle_shift_div_r; assumption. Qed.
Lemma div_neg n d : d < 0 -> n / d == - (n / - d).
Proof. intros D. field. lra. Qed.
(** The directions (x, y) and (x', y'): the second is counter-clockwise of the first if this is positive. *)
Definition cross (x y x' y' : Q) : Q := x * y' - y * x'.
Lemma upper_lt y x y' x' : 0 <= y -> 0 <= y' -> ~ (x == 0 /\ y == 0) -> ~ (x' == 0 /\ y' == 0) -> 0 < cross x y x' y' -> approx_atan2 y x < approx_atan2 y' x'.
Proof.
  intros Y Y' N N' C. unfold cross in C. pose proof A1_bounds as [P1 P2]. pose proof kpi2 as K.
  destruct (sectors y x Y N) as [B1 B2 ->|B1 B2 ->|B1 B2 ->], (sectors y' x' Y' N') as [C1 C2 ->|C1 C2 ->|C1 C2 ->];
  try rewrite (P_ProjectorScan.atan_eq _ _ (div_neg y x B1)), at_neg; try rewrite (P_ProjectorScan.atan_eq _ _ (div_neg y' x' C1)), at_neg.
  - apply at_mono; [pose proof (div_le_1 y x B1); lra| |pose proof (div_le_1 y' x' C1); lra]. apply div_ord; lra.
  - pose proof (at_range _ (div_le_1 y x B1 ltac:(lra))). pose proof (at_range _ (div_le_1 x' y' ltac:(lra) ltac:(lra))). lra.
  - pose proof (at_range _ (div_le_1 y x B1 ltac:(lra))). pose proof (at_range _ (div_le_1 y' (- x') ltac:(lra) ltac:(lra))). lra.
  - exfalso. nra.
  - assert (approx_atan (x' / y') < approx_atan (x / y)); [|lra]. pose proof (div_le_1 x y ltac:(lra) ltac:(lra)). pose proof (div_le_1 x' y' ltac:(lra) ltac:(lra)). apply at_mono; [lra|apply div_ord; lra|lra].
  - pose proof (at_range _ (div_le_1 x y ltac:(lra) ltac:(lra))). pose proof (at_range _ (div_le_1 y' (- x') ltac:(lra) ltac:(lra))). lra.
  - exfalso. nra.
  - exfalso. nra.
  - assert (approx_atan (y' / - x') < approx_atan (y / - x)); [|lra]. pose proof (div_le_1 y (- x) ltac:(lra) ltac:(lra)). pose proof (div_le_1 y' (- x') ltac:(lra) ltac:(lra)). apply at_mono; [lra|apply div_ord; lra|lra].
Qed.
Lemma upper_le y x y' x' : 0 <= y -> 0 <= y' -> ~ (x == 0 /\ y == 0) -> ~ (x' == 0 /\ y' == 0) -> 0 <= cross x y x' y' -> (cross x y x' y' == 0 -> 0 < x * x' + y * y') -> approx_atan2 y x <= approx_atan2 y' x'.
Proof.
  intros Y Y' N N' C D. apply Qle_lteq in C as [C|C]; [apply Qlt_le_weak, upper_lt; assumption|]. symmetry in C. specialize (D C). unfold cross in C. pose proof A1_bounds as [P1 P2]. pose proof kpi2 as K.
  destruct (sectors y x Y N) as [B1 B2 ->|B1 B2 ->|B1 B2 ->], (sectors y' x' Y' N') as [C1 C2 ->|C1 C2 ->|C1 C2 ->];
  try rewrite (P_ProjectorScan.atan_eq _ _ (div_neg y x B1)), at_neg; try rewrite (P_ProjectorScan.atan_eq _ _ (div_neg y' x' C1)), at_neg.
  - apply at_mono_le; [pose proof (div_le_1 y x B1); lra| |pose proof (div_le_1 y' x' C1); lra]. apply div_ord_le; lra.
  - pose proof (at_range _ (div_le_1 y x B1 ltac:(lra))). pose proof (at_range _ (div_le_1 x' y' ltac:(lra) ltac:(lra))). lra.
  - pose proof (at_range _ (div_le_1 y x B1 ltac:(lra))). pose proof (at_range _ (div_le_1 y' (- x') ltac:(lra) ltac:(lra))). lra.
  - exfalso. nra.
  - assert (approx_atan (x' / y') <= approx_atan (x / y)); [|lra]. pose proof (div_le_1 x y ltac:(lra) ltac:(lra)). pose proof (div_le_1 x' y' ltac:(lra) ltac:(lra)). apply at_mono_le; [lra|apply div_ord_le; lra|lra].
  - pose proof (at_range _ (div_le_1 x y ltac:(lra) ltac:(lra))). pose proof (at_range _ (div_le_1 y' (- x') ltac:(lra) ltac:(lra))). lra.
  - exfalso. nra.
  - exfalso. nra.
  - assert (approx_atan (y' / - x') <= approx_atan (y / - x)); [|lra]. pose proof (div_le_1 y (- x) ltac:(lra) ltac:(lra)). pose proof (div_le_1 y' (- x') ltac:(lra) ltac:(lra)). apply at_mono_le; [lra|apply div_ord_le; lra|lra].
Qed.
Lemma upper_range y x : 0 <= y -> ~ (x == 0 /\ y == 0) -> 0 <= approx_atan2 y x <= kPi.
Proof.
  intros Y N. pose proof A1_bounds as [P1 P2]. pose proof kpi2 as K. split; [|apply approx_atan2_range].
  destruct (sectors y x Y N) as [B1 B2 ->|B1 B2 ->|B1 B2 ->].
  - rewrite <- at_0 at 1. apply at_mono_le; [lra| |apply (div_le_1 y x B1); lra]. apply Qle_shift_div_l; lra.
  - pose proof (at_range _ (div_le_1 x y ltac:(lra) ltac:(lra))). lra.
  - rewrite (P_ProjectorScan.atan_eq _ _ (div_neg y x B1)), at_neg. pose proof (at_range _ (div_le_1 y (- x) ltac:(lra) ltac:(lra))). lra.
Qed.
Lemma upper_pos y x : 0 <= y -> 0 < y \/ x < 0 -> 0 < approx_atan2 y x.
Proof.
  intros Y N. pose proof A1_bounds as [P1 P2]. pose proof kpi2 as K. assert (N' : ~ (x == 0 /\ y == 0)) by lra.
  destruct (sectors y x Y N') as [B1 B2 ->|B1 B2 ->|B1 B2 ->].
  - rewrite <- at_0 at 1. apply at_mono; [lra| |apply (div_le_1 y x B1); lra]. apply Qlt_shift_div_l; lra.
  - pose proof (at_range _ (div_le_1 x y ltac:(lra) ltac:(lra))). lra.
  - rewrite (P_ProjectorScan.atan_eq _ _ (div_neg y x B1)), at_neg. pose proof (at_range _ (div_le_1 y (- x) ltac:(lra) ltac:(lra))). lra.
Qed.
Lemma upper_mirror y x : 0 <= y -> ~ (x == 0 /\ y == 0) -> approx_atan2 y (- x) == kPi - approx_atan2 y x.
Proof.
  intros Y N. pose proof kpi2 as K. assert (N' : ~ (- x == 0 /\ y == 0)) by (intros [E1 E2]; apply N; split; lra).
  destruct (sectors y x Y N) as [B1 B2 ->|B1 B2 ->|B1 B2 ->], (sectors y (- x) Y N') as [C1 C2 ->|C1 C2 ->|C1 C2 ->]; try (exfalso; lra).
  - assert (E : y / - x == - (y / x)) by (field; lra). rewrite (P_ProjectorScan.atan_eq _ _ E), at_neg. ring.
  - assert (E : - x / y == - (x / y)) by (field; lra). rewrite (P_ProjectorScan.atan_eq _ _ E), at_neg. lra.
  - assert (E : y / - x == - (y / x)) by (field; lra). rewrite (P_ProjectorScan.atan_eq _ _ E), at_neg. lra.
Qed.
Lemma lower_neg y x : y < 0 -> approx_atan2 y x == - approx_atan2 (- y) x.
Proof.
  intros Y. pose proof kpi2 as K. unfold approx_atan2, approx_atan2_signed. cbv zeta. assert (SY : qltb y 0 = true) by (apply qltb_true; exact Y). assert (SY' : qltb (- y) 0 = false) by (apply qltb_false; lra). rewrite SY, SY'.
  assert (SS : qltb (Qabs x) (Qabs (- y)) = qltb (Qabs x) (Qabs y)).
  { destruct (qltb (Qabs x) (Qabs y)) eqn:S; [apply qltb_true in S; apply qltb_true; rewrite Qabs_opp; exact S|apply qltb_false in S; apply qltb_false; rewrite Qabs_opp; exact S]. }
  rewrite SS. assert (EX : x / - y == - (x / y)) by (field; lra). assert (EY : - y / x == - (y / x)) by (unfold Qdiv; ring).
  destruct (qltb (Qabs x) (Qabs y)), (qltb x 0); cbn [xorb copysign]; rewrite ?(P_ProjectorScan.atan_eq _ _ EX), ?(P_ProjectorScan.atan_eq _ _ EY), ?at_neg; ring.
Qed.

(** ** C65: the approximate arc tangent orders directions as their angles do *)
(** Angles are counted from the negative x axis (exclusive) counter-clockwise to the negative x axis (inclusive). Within each of the half planes y >= 0 and y < 0 the
    order of two directions is the sign of their cross product. *)
Definition before (x y x' y' : Q) : Prop := (y < 0 /\ 0 <= y') \/ (((y < 0 /\ y' < 0) \/ (0 <= y /\ 0 <= y')) /\ 0 < cross x y x' y') \/ (y == 0 /\ 0 < x /\ y' == 0 /\ x' < 0).
Theorem C65_increasing : forall x y x' y', ~ (x == 0 /\ y == 0) -> ~ (x' == 0 /\ y' == 0) -> before x y x' y' -> approx_atan2 y x < approx_atan2 y' x'.
Proof.
  intros x y x' y' N N' [[A B]|[[[[A B]|[A B]] C]|(A & B & C & D)]].
  - pose proof (upper_pos (- y) x ltac:(lra) ltac:(lra)). rewrite (lower_neg y x A). pose proof (upper_range y' x' B N'). lra.
  - rewrite (lower_neg y x A), (lower_neg y' x' B). assert (approx_atan2 (- y') x' < approx_atan2 (- y) x); [|lra]. apply upper_lt; [lra|lra|lra|lra|]. unfold cross in *. lra.
  - apply upper_lt; assumption.
  - pose proof (upper_pos y' x' ltac:(lra) ltac:(lra)). destruct (sectors y x ltac:(lra) N) as [B1 B2 ->|B1 B2 ->|B1 B2 ->]; [|exfalso; lra|exfalso; lra].
    assert (E : y / x == 0) by (rewrite A; field; lra). rewrite (P_ProjectorScan.atan_eq _ _ E), at_0. exact H.
Qed.
Print Assumptions C65_increasing.
Example C65_increasing_ex : before (-1) (-1 # 100) 1 (-1) /\ before 1 (-1) 1 0 /\ before 1 0 (99 # 100) 1 /\ before (99 # 100) 1 (-1) 0.
Proof. unfold before, cross. repeat split; lra. Qed.

(** ** C40: the azimuth interval of a cell *)
Definition az (p : v3) : Q := approx_atan2 (vy p) (vx p).
Definition pcross (p q : v3) : Q := cross (vx p) (vy p) (vx q) (vy q).
Definition planar0 (p : v3) : Prop := vx p == 0 /\ vy p == 0.
Lemma antipode p q : 0 <= vy p -> vy q < 0 -> ~ planar0 p -> (0 < pcross p q -> kPi < az p - az q) /\ (pcross p q < 0 -> az p - az q < kPi).
Proof.
  intros P Q NP. unfold az, pcross, cross, planar0 in *. rewrite (lower_neg _ _ Q). assert (NQ : ~ (- vx q == 0 /\ - vy q == 0)) by lra.
  pose proof (upper_mirror (- vy q) (- vx q) ltac:(lra) NQ) as M.
  assert (E : approx_atan2 (- vy q) (- - vx q) == approx_atan2 (- vy q) (vx q)). 
  { assert (NQ' : ~ (vx q == 0 /\ - vy q == 0)) by lra. pose proof (upper_mirror (- vy q) (vx q) ltac:(lra) NQ') as M'. rewrite M' in M. lra. }
  rewrite E in M. split; intros C.
  - assert (approx_atan2 (- vy q) (- vx q) < approx_atan2 (vy p) (vx p)); [|lra]. apply upper_lt; try assumption; [lra|]. unfold cross. lra.
  - assert (approx_atan2 (vy p) (vx p) < approx_atan2 (- vy q) (- vx q)); [|lra]. apply upper_lt; try assumption; [lra|]. unfold cross. lra.
Qed.
Lemma all_neg {A} (f : A -> Q) l : (forall q, In q l -> f q < 0) -> exists g, 0 < g /\ forall q, In q l -> f q + g <= 0.
Proof.
  induction l as [|a l IH]; intros H; [exists 1; split; [lra|intros q []]|]. destruct IH as (g & G & I); [intros q J; apply H; right; exact J|].
  pose proof (H a (or_introl eq_refl)). destruct (Qlt_le_dec g (- f a)) as [L|L]; [exists g|exists (- f a)]; (split; [lra|]); intros q [<-|J]; try lra; specialize (I q J); lra.
Qed.
Lemma some_nonneg {A} (f : A -> Q) l : (exists q, In q l /\ 0 <= f q) \/ (forall q, In q l -> f q < 0).
Proof.
  induction l as [|a l [(q & I & F)|IH]]; [right; intros q []|left; exists q; split; [right|]; assumption|].
  destruct (Qlt_le_dec (f a) 0) as [L|L]; [right; intros q [<-|I]; [exact L|apply IH; exact I]|left; exists a; split; [left; reflexivity|exact L]].
Qed.
Section CELL.
Context (W : box) (R : m3) (t : v3).
(** No point of the cell is on the vertical axis of the sensor. *)
Definition off_axis : Prop := forall w, in_box W w -> ~ planar0 (sensor_frame R t w).
Context (OFF : off_axis).
(** The positions of the cell's points, seen along the vertical axis *)
Definition shadow (x y : Q) : Prop := exists w, in_box W w /\ vx (sensor_frame R t w) == x /\ vy (sensor_frame R t w) == y.
Lemma shadow_mix x y x' y' a b : shadow x y -> shadow x' y' -> 0 <= a -> 0 <= b -> a + b == 1 -> shadow (a * x + b * x') (a * y + b * y').
Proof.
  intros (w & (W1 & W2 & W3) & EX & EY) (w' & (W1' & W2' & W3') & EX' & EY') A B AB.
  exists (V3 (a * vx w + b * vx w') (a * vy w + b * vy w') (a * vz w + b * vz w')). split.
  - assert (G : forall lo hi u v, lo <= u <= hi -> lo <= v <= hi -> lo <= a * u + b * v <= hi).
    { intros lo hi u v U V. assert (E : b == 1 - a) by lra. rewrite E in *. split; nra. }
    unfold in_box. cbn [vx vy vz]. split; [apply G; assumption|]. split; apply G; assumption.
  - rewrite <- EX, <- EY, <- EX', <- EY'. assert (E : b == 1 - a) by lra. unfold sensor_frame, m3mul, v3sub, v3add, v3scale. cbn [vx vy vz]. split; rewrite E; ring.
Qed.
Lemma shadow_proper x y x' y' : x == x' -> y == y' -> shadow x y -> shadow x' y'.
Proof. intros E F (w & I & A & B). exists w. split; [exact I|]. split; lra. Qed.
Lemma no_origin x y : shadow x y -> ~ (x == 0 /\ y == 0).
Proof. intros (w & I & A & B) [E F]. apply (OFF w I). split; lra. Qed.
Lemma no_mix x y x' y' a b : shadow x y -> shadow x' y' -> 0 <= a -> 0 <= b -> 0 < a + b -> a * x + b * x' == 0 -> a * y + b * y' == 0 -> False.
Proof.
  intros S S' A B AB E F. assert (I : 0 < / (a + b)) by (apply Qinv_lt_0_compat; exact AB).
  assert (D : forall z, 0 <= z -> 0 <= z / (a + b)) by (intros z Z; unfold Qdiv; apply Qmult_le_0_compat; lra).
  pose proof (shadow_mix _ _ _ _ (a / (a + b)) (b / (a + b)) S S' (D a A) (D b B) ltac:(field; lra)) as M. apply no_origin in M. apply M. split.
  - setoid_replace (a / (a + b) * x + b / (a + b) * x') with ((a * x + b * x') / (a + b)) by (field; lra). rewrite E. field. lra.
  - setoid_replace (a / (a + b) * y + b / (a + b) * y') with ((a * y + b * y') / (a + b)) by (field; lra). rewrite F. field. lra.
Qed.
(** Directions of the cell are never opposite ... *)
Lemma cross0 x y x' y' : shadow x y -> shadow x' y' -> cross x y x' y' == 0 -> 0 < x * x' + y * y'.
Proof.
  intros S S' C. unfold cross in C. apply Qnot_le_lt. intros D. pose proof (no_origin _ _ S) as N. assert (P : 0 < x * x + y * y).
  { destruct (Qeq_dec x 0) as [E|E]; [|assert (0 < x * x) by (destruct (Qlt_le_dec 0 x); [|assert (x < 0) by lra]; nra); nra].
    destruct (Qeq_dec y 0) as [F|F]; [exfalso; apply N; split; assumption|]. assert (0 < y * y) by (destruct (Qlt_le_dec 0 y); [|assert (y < 0) by lra]; nra). nra. }
  apply (no_mix x y x' y' (- (x * x' + y * y')) (x * x + y * y) S S'); [lra|lra|lra| |].
  - setoid_replace (- (x * x' + y * y') * x + (x * x + y * y) * x') with (- y * (x * y' - y * x')) by ring. rewrite C. ring.
  - setoid_replace (- (x * x' + y * y') * y + (x * x + y * y) * y') with (x * (x * y' - y * x')) by ring. rewrite C. ring.
Qed.
(** ... and all its points above and below the x axis are connected across the same side of it. *)
Lemma crossing x y x' y' : shadow x y -> shadow x' y' -> 0 <= y -> y' < 0 -> exists z, shadow z 0 /\ (y - y') * z == - cross x y x' y' /\ ~ z == 0.
Proof.
  intros S S' Y Y'. exists (- cross x y x' y' / (y - y')). assert (D : forall z, 0 <= z -> 0 <= z / (y - y')) by (intros z Z; apply Qle_shift_div_l; lra).
  assert (H : shadow (- cross x y x' y' / (y - y')) 0).
  { eapply shadow_proper; [| |apply (shadow_mix _ _ _ _ (- y' / (y - y')) (y / (y - y')) S S' (D (- y') ltac:(lra)) (D y ltac:(lra)) ltac:(field; lra))]; unfold cross; field; lra. }
  split; [exact H|]. split; [field; lra|]. intros E. apply (no_origin _ _ H). split; [exact E|reflexivity].
Qed.
Lemma same_side p q p' q' : shadow (vx p) (vy p) -> shadow (vx q) (vy q) -> shadow (vx p') (vy p') -> shadow (vx q') (vy q') -> 0 <= vy p -> vy q < 0 -> 0 <= vy p' -> vy q' < 0 ->
  0 < pcross p q -> 0 < pcross p' q'.
Proof.
  intros P Q P' Q' Y1 Y2 Y1' Y2' C. unfold pcross in *. destruct (crossing _ _ _ _ P Q Y1 Y2) as (z & Z1 & Z2 & Z3). destruct (crossing _ _ _ _ P' Q' Y1' Y2') as (z' & Z1' & Z2' & Z3').
  apply Qnot_le_lt. intros L. assert (Zn : z < 0). { apply Qnot_le_lt. intros G. assert (0 <= (vy p - vy q) * z) by (apply Qmult_le_0_compat; lra). lra. }
  assert (Zp : 0 < z'). { assert (0 <= z'); [|destruct (Qlt_le_dec 0 z'); [assumption|exfalso; apply Z3'; lra]]. apply Qnot_lt_le. intros G. assert (0 < (vy p' - vy q') * - z') by (apply Qmult_lt_0_compat; lra). lra. }
  apply (no_mix z 0 z' 0 z' (- z) Z1 Z1'); [lra|lra|lra|ring|ring].
Qed.
Lemma corner_in q w : in_box W w -> In q (corners W R t) -> shadow (vx q) (vy q).
Proof.
  intros (W1 & W2 & W3) I. set (x0 := vx (bmin W)) in *. set (x1 := vx (bmax W)) in *. set (y0 := vy (bmin W)) in *. set (y1 := vy (bmax W)) in *. set (z0 := vz (bmin W)) in *. set (z1 := vz (bmax W)) in *.
  assert (G : forall x y z, (x = x0 \/ x = x1) -> (y = y0 \/ y = y1) -> (z = z0 \/ z = z1) -> in_box W (V3 x y z)).
  { intros x y z X Y Z. unfold in_box. cbn [vx vy vz]. fold x0 x1 y0 y1 z0 z1. destruct X as [-> | ->], Y as [-> | ->], Z as [-> | ->]; repeat split; lra. }
  unfold corners in I. cbv zeta in I. cbn [In] in I.
  destruct I as [<-|[<-|[<-|[<-|[<-|[<-|[<-|[<-|[]]]]]]]]]; [exists (V3 x0 y0 z0)|exists (V3 x1 y0 z0)|exists (V3 x0 y1 z0)|exists (V3 x1 y1 z0)|exists (V3 x0 y0 z1)|exists (V3 x1 y0 z1)|exists (V3 x0 y1 z1)|exists (V3 x1 y1 z1)];
    (split; [apply G; auto|]); unfold sensor_frame, m3mul, v3sub, v3add, v3scale, x0, x1, y0, y1, z0, z1; cbn [col0 col1 col2 vx vy vz]; split; ring.
Qed.
(** Every linear function of the cell's points is, at some corner, at least what it is at a given point. *)
Lemma corner_above w k : in_box W w -> 0 <= dot k (sensor_frame R t w) -> exists q, In q (corners W R t) /\ 0 <= dot k q.
Proof.
  intros HW D. destruct (some_nonneg (dot k) (corners W R t)) as [E|N]; [exact E|]. exfalso. destruct (all_neg _ _ N) as (g & G & I).
  pose proof (corner_affine W R t w k g HW I). lra.
Qed.
Lemma zero_dec p : shadow (vx p) (vy p) -> ~ planar0 p.
Proof. intros S. exact (no_origin _ _ S). Qed.
(** The azimuth of every point of the cell lies on the arc that the code computes from the corners. *)
Lemma azimuth_arc w : in_box W w -> let a := angle_interval (map az (corners W R t)) in on_arc (fst a) (snd a) (az (sensor_frame R t w)).
Proof.
  intros HW a. set (s := sensor_frame R t w). assert (HS : shadow (vx s) (vy s)) by (exists w; split; [exact HW|split; reflexivity]).
  assert (HC : forall q, In q (corners W R t) -> shadow (vx q) (vy q)) by (intros q; apply corner_in with w; exact HW).
  assert (NS := zero_dec s HS). assert (NC : forall q, In q (corners W R t) -> ~ planar0 q) by (intros q I; apply zero_dec, HC; exact I).
  (* corners on either side of the point *)
  assert (CB : exists q, In q (corners W R t) /\ 0 <= pcross q s).
  { destruct (corner_above w (V3 (vy s) (- vx s) 0) HW) as (q & I & D); [unfold dot; cbn [vx vy vz]; fold s; lra|]. exists q. split; [exact I|]. unfold pcross, cross, dot in *. cbn [vx vy vz] in D. lra. }
  assert (CA : exists q, In q (corners W R t) /\ 0 <= pcross s q).
  { destruct (corner_above w (V3 (- vy s) (vx s) 0) HW) as (q & I & D); [unfold dot; cbn [vx vy vz]; fold s; lra|]. exists q. split; [exact I|]. unfold pcross, cross, dot in *. cbn [vx vy vz] in D. lra. }
  assert (UP : forall p q, 0 <= vy p -> 0 <= vy q -> shadow (vx p) (vy p) -> shadow (vx q) (vy q) -> 0 <= pcross p q -> az p <= az q).
  { intros p q P Q SP SQ C. apply upper_le; try assumption; [apply (zero_dec p SP)|apply (zero_dec q SQ)|]. intros E. apply (cross0 _ _ _ _ SP SQ E). }
  assert (LO : forall p q, vy p < 0 -> vy q < 0 -> shadow (vx p) (vy p) -> shadow (vx q) (vy q) -> 0 <= pcross p q -> az p <= az q).
  { intros p q P Q SP SQ C. unfold az. rewrite (lower_neg _ _ P), (lower_neg _ _ Q). assert (approx_atan2 (- vy q) (vx q) <= approx_atan2 (- vy p) (vx p)); [|lra].
    unfold pcross, cross in C. apply upper_le; [lra|lra|lra|lra|unfold cross; lra|]. intros E. assert (E' : cross (vx p) (vy p) (vx q) (vy q) == 0) by (unfold cross in *; lra). pose proof (cross0 _ _ _ _ SP SQ E'). lra. }
  assert (NEG : forall p, vy p < 0 -> az p < 0). { intros p P. unfold az. rewrite (lower_neg _ _ P). pose proof (upper_pos (- vy p) (vx p) ltac:(lra) ltac:(lra)). lra. }
  assert (POS : forall p, 0 <= vy p -> ~ planar0 p -> 0 <= az p <= kPi) by (intros p P N; apply upper_range; assumption).
  assert (RNG : forall p, - kPi <= az p <= kPi) by (intros p; apply approx_atan2_range).
  assert (HD : In (m3mul R (v3sub (bmin W) t)) (corners W R t)) by (left; reflexivity).
  destruct (C40_corner_arc (map az (corners W R t)) (az (m3mul R (v3sub (bmin W) t))) (in_map az _ _ HD)) as (ARC & _ & _ & _ & WRAP). { intros b I. apply in_map_iff in I as (q & <- & _). apply RNG. }
  fold a in ARC, WRAP. assert (ARC' : forall q, In q (corners W R t) -> on_arc (fst a) (snd a) (az q)) by (intros q I; apply ARC, in_map; exact I).
  (* pairs on both sides of the x axis *)
  assert (NZ : forall p q, shadow (vx p) (vy p) -> shadow (vx q) (vy q) -> 0 <= vy p -> vy q < 0 -> ~ pcross p q == 0).
  { intros p q SP SQ P Q E. destruct (crossing _ _ _ _ SP SQ P Q) as (z & _ & Z & NZ). apply NZ. unfold pcross in E. rewrite E in Z.
    assert (D : 0 < vy p - vy q) by lra. destruct (Qlt_le_dec 0 z) as [G|G]; [assert (0 < (vy p - vy q) * z) by (apply Qmult_lt_0_compat; lra); lra|].
    destruct (Qlt_le_dec z 0) as [G'|G']; [assert (0 < (vy p - vy q) * - z) by (apply Qmult_lt_0_compat; lra); lra|lra]. }
  destruct (Qlt_le_dec (snd a) (fst a)) as [B|B].
  - (* through the seam *)
    right. split; [exact B|]. destruct (proj1 WRAP B) as (u & v & Iu & Iv & D). apply in_map_iff in Iu as (p & <- & Ip). apply in_map_iff in Iv as (q & <- & Iq).
    assert (P : 0 <= vy p) by (apply Qnot_lt_le; intros L; pose proof (NEG p L); pose proof (RNG q); lra).
    assert (Q : vy q < 0) by (apply Qnot_le_lt; intros L; pose proof (POS q L (NC q Iq)); pose proof (RNG p); lra).
    assert (C : 0 < pcross p q).
    { apply Qnot_le_lt. intros L. apply Qle_lteq in L as [L|L]; [pose proof (proj2 (antipode p q P Q (NC p Ip)) L); lra|exact (NZ p q (HC p Ip) (HC q Iq) P Q L)]. }
    assert (SIDE : forall p' q', shadow (vx p') (vy p') -> shadow (vx q') (vy q') -> 0 <= vy p' -> vy q' < 0 -> 0 < pcross p' q') by (intros p' q' S1 S2 Y1 Y2; apply (same_side p q p' q'); auto).
    assert (WR : kPi < maxl (map az (corners W R t)) - minl (map az (corners W R t))) by (pose proof (maxl_ge _ _ (in_map az _ _ Ip)); pose proof (minl_le _ _ (in_map az _ _ Iq)); lra).
    assert (LOW : forall q', In q' (corners W R t) -> 0 <= vy q' -> fst a <= az q').
    { intros q' I' Y'. unfold a, angle_interval. rewrite (proj2 (qltb_true _ _) WR). cbn [fst]. apply minl_le, filter_In. split; [apply in_map; exact I'|]. apply qltb_true. apply upper_pos; [exact Y'|].
      pose proof (SIDE q' q (HC q' I') (HC q Iq) Y' Q) as G. unfold pcross, cross in G. destruct (Qlt_le_dec 0 (vy q')) as [L|L]; [left; exact L|right]. assert (Z : vy q' == 0) by lra. rewrite Z in G. nra. }
    assert (HIGH : forall q', In q' (corners W R t) -> vy q' < 0 -> az q' <= snd a).
    { intros q' I' Y'. unfold a, angle_interval. rewrite (proj2 (qltb_true _ _) WR). cbn [snd]. apply maxl_ge, filter_In. split; [apply in_map; exact I'|]. apply Bool.negb_true_iff, qltb_false. pose proof (NEG q' Y'). lra. }
    destruct (Qlt_le_dec (vy s) 0) as [Y|Y].
    + right. destruct CA as (c & Ic & Cc). destruct (Qlt_le_dec (vy c) 0) as [Yc|Yc]; [apply Qle_trans with (az c); [apply LO; auto|apply HIGH; assumption]|].
      exfalso. pose proof (SIDE c s (HC c Ic) HS Yc Y). unfold pcross, cross in *. lra.
    + left. destruct CB as (c & Ic & Cc). destruct (Qlt_le_dec (vy c) 0) as [Yc|Yc]; [|apply Qle_trans with (az c); [apply LOW; assumption|apply UP; auto]].
      exfalso. pose proof (SIDE s c HS (HC c Ic) Y Yc). unfold pcross, cross in *. lra.
  - (* not through the seam *)
    left. split; [exact B|].
    assert (IN : forall q, In q (corners W R t) -> fst a <= az q <= snd a) by (intros q I; destruct (ARC' q I) as [[_ H]|[H _]]; [exact H|lra]).
    assert (NOT : forall p q, In p (corners W R t) -> In q (corners W R t) -> 0 <= vy p -> vy q < 0 -> 0 < pcross p q -> False).
    { intros p q Ip Iq P Q C. pose proof (proj1 (antipode p q P Q (NC p Ip)) C) as D. assert (snd a < fst a); [|lra]. apply (proj2 WRAP). exists (az p), (az q). split; [apply in_map; exact Ip|]. split; [apply in_map; exact Iq|exact D]. }
    assert (GE : 0 <= vy s -> exists c, In c (corners W R t) /\ 0 <= vy c).
    { intros Y. destruct (corner_above w (V3 0 1 0) HW) as (c & I & D); [unfold dot; cbn [vx vy vz]; fold s; lra|]. exists c. split; [exact I|]. unfold dot in D. cbn [vx vy vz] in D. lra. }
    assert (LT : vy s < 0 -> exists c, In c (corners W R t) /\ vy c < 0).
    { intros Y. destruct (some_nonneg (fun c => - vy c) (corners W R t)) as [_|N]; [|].
      - destruct (some_nonneg (fun c => - vy c + vy s) (corners W R t)) as [(c & I & D)|N]; [exists c; split; [exact I|lra]|]. exfalso. destruct (all_neg _ _ N) as (g & G & J).
        pose proof (corner_affine W R t w (V3 0 (-1) 0) (vy s + g) HW) as A. unfold dot in A. cbn [vx vy vz] in A. fold s in A.
        assert (X : 0 * vx s + -1 * vy s + 0 * vz s + (vy s + g) <= 0); [|lra]. apply A. intros c I. specialize (J c I). lra.
      - exfalso. pose proof (corner_affine W R t w (V3 0 (-1) 0) 0 HW) as A. unfold dot in A. cbn [vx vy vz] in A. fold s in A.
        assert (X : 0 * vx s + -1 * vy s + 0 * vz s + 0 <= 0); [|lra]. apply A. intros c I. specialize (N c I). lra. }
    destruct (Qlt_le_dec (vy s) 0) as [Y|Y]; split.
    + destruct CB as (c & Ic & Cc). destruct (Qlt_le_dec (vy c) 0) as [Yc|Yc]; [apply Qle_trans with (az c); [apply IN; exact Ic|apply LO; auto]|].
      exfalso. destruct (LT Y) as (d & Id & Yd). assert (C1 : 0 < pcross c s) by (apply Qle_lteq in Cc as [Cc|Cc]; [exact Cc|exfalso; symmetry in Cc; exact (NZ c s (HC c Ic) HS Yc Y Cc)]).
      apply (NOT c d Ic Id Yc Yd). apply (same_side c s c d); auto.
    + destruct CA as (c & Ic & Cc). apply Qle_trans with (az c); [|apply IN; exact Ic]. destruct (Qlt_le_dec (vy c) 0) as [Yc|Yc]; [apply LO; auto|]. pose proof (NEG s Y). pose proof (POS c Yc (NC c Ic)). lra.
    + destruct CB as (c & Ic & Cc). apply Qle_trans with (az c); [apply IN; exact Ic|]. destruct (Qlt_le_dec (vy c) 0) as [Yc|Yc]; [|apply UP; auto]. pose proof (NEG c Yc). pose proof (POS s Y NS). lra.
    + destruct CA as (c & Ic & Cc). destruct (Qlt_le_dec (vy c) 0) as [Yc|Yc]; [|apply Qle_trans with (az c); [apply UP; auto|apply IN; exact Ic]].
      exfalso. destruct (GE Y) as (d & Id & Yd). assert (C1 : 0 < pcross s c) by (apply Qle_lteq in Cc as [Cc|Cc]; [exact Cc|exfalso; symmetry in Cc; exact (NZ s c HS (HC c Ic) Y Yc Cc)]).
      apply (NOT d c Id Ic Yd Yc). apply (same_side s c d c); auto.
Qed.
(** An arc through the seam leaves more than half a turn. *)
Lemma azimuth_gap w : in_box W w -> let a := angle_interval (map az (corners W R t)) in snd a < fst a -> kPi < fst a - snd a.
Proof.
  intros HW a B. assert (HC : forall q, In q (corners W R t) -> shadow (vx q) (vy q)) by (intros q; apply corner_in with w; exact HW).
  assert (NC : forall q, In q (corners W R t) -> ~ planar0 q) by (intros q I; apply zero_dec, HC; exact I).
  assert (NEG : forall p, vy p < 0 -> az p < 0). { intros p P. unfold az. rewrite (lower_neg _ _ P). pose proof (upper_pos (- vy p) (vx p) ltac:(lra) ltac:(lra)). lra. }
  assert (POS : forall p, 0 <= vy p -> ~ planar0 p -> 0 <= az p <= kPi) by (intros p P N; apply upper_range; assumption).
  assert (RNG : forall p, - kPi <= az p <= kPi) by (intros p; apply approx_atan2_range).
  assert (HD : In (m3mul R (v3sub (bmin W) t)) (corners W R t)) by (left; reflexivity).
  destruct (C40_corner_arc (map az (corners W R t)) (az (m3mul R (v3sub (bmin W) t))) (in_map az _ _ HD)) as (_ & _ & _ & _ & WRAP). { intros b I. apply in_map_iff in I as (q & <- & _). apply RNG. }
  fold a in WRAP. destruct (proj1 WRAP B) as (u & v & Iu & Iv & D). clear WRAP. apply in_map_iff in Iu as (p & <- & Ip). apply in_map_iff in Iv as (q & <- & Iq).
  assert (P : 0 <= vy p) by (apply Qnot_lt_le; intros L; pose proof (NEG p L); pose proof (RNG q); lra).
  assert (Q : vy q < 0) by (apply Qnot_le_lt; intros L; pose proof (POS q L (NC q Iq)); pose proof (RNG p); lra).
  assert (C : 0 < pcross p q).
  { apply Qnot_le_lt. intros L. apply Qle_lteq in L as [L|L]; [pose proof (proj2 (antipode p q P Q (NC p Ip)) L); lra|].
    destruct (crossing _ _ _ _ (HC p Ip) (HC q Iq) P Q) as (z & _ & Z & NZ). apply NZ. unfold pcross in L. rewrite L in Z.
    destruct (Qlt_le_dec 0 z) as [G|G]; [assert (0 < (vy p - vy q) * z) by (apply Qmult_lt_0_compat; lra); lra|].
    destruct (Qlt_le_dec z 0) as [G'|G']; [assert (0 < (vy p - vy q) * - z) by (apply Qmult_lt_0_compat; lra); lra|lra]. }
  assert (WR : kPi < maxl (map az (corners W R t)) - minl (map az (corners W R t))) by (pose proof (maxl_ge _ _ (in_map az _ _ Ip)); pose proof (minl_le _ _ (in_map az _ _ Iq)); lra).
  assert (P1 : kPi < kInitialMin) by reflexivity. assert (P2 : kInitialMax < - kPi) by reflexivity.
  assert (F : exists p', In p' (corners W R t) /\ fst a = az p' /\ 0 < az p').
  { assert (I : In (fst a) (filter (fun x => qltb 0 x) (map az (corners W R t)))).
    { unfold a, angle_interval. rewrite (proj2 (qltb_true _ _) WR). cbn [fst]. apply minl_in with (az p); [|pose proof (RNG p); lra]. apply filter_In. split; [apply in_map; exact Ip|]. apply qltb_true. pose proof (RNG q). lra. }
    apply filter_In in I as [I J]. apply in_map_iff in I as (p' & E & I). exists p'. split; [exact I|]. split; [symmetry; exact E|]. apply qltb_true in J. rewrite E. exact J. }
  assert (S : exists q', In q' (corners W R t) /\ snd a = az q' /\ az q' <= 0).
  { assert (I : In (snd a) (filter (fun x => negb (qltb 0 x)) (map az (corners W R t)))).
    { unfold a, angle_interval. rewrite (proj2 (qltb_true _ _) WR). cbn [snd]. apply maxl_in with (az q); [|pose proof (RNG q); lra]. apply filter_In. split; [apply in_map; exact Iq|]. apply Bool.negb_true_iff, qltb_false. pose proof (NEG q Q). lra. }
    apply filter_In in I as [I J]. apply in_map_iff in I as (q' & E & I). exists q'. split; [exact I|]. split; [symmetry; exact E|]. apply Bool.negb_true_iff, qltb_false in J. rewrite E. exact J. }
  destruct F as (p' & Ip' & -> & Fp). destruct S as (q' & Iq' & -> & Sq).
  assert (P' : 0 <= vy p') by (apply Qnot_lt_le; intros L; pose proof (NEG p' L); lra).
  assert (Q' : vy q' < 0).
  { apply Qnot_le_lt. intros L. assert (G : 0 < pcross q' q) by (apply (same_side p q q' q); auto). unfold pcross, cross in G.
    assert (X : 0 < az q'); [|lra]. apply upper_pos; [exact L|]. destruct (Qlt_le_dec 0 (vy q')) as [K|K]; [left; exact K|right]. assert (Z : vy q' == 0) by lra. rewrite Z in G. nra. }
  apply (antipode p' q' P' Q' (NC p' Ip')). apply (same_side p q p' q'); auto.
Qed.
End CELL.
Lemma snd_arc (f : list Q -> Q * Q) (l : list v2) zm zx x : (let a := f (map snd l) in on_arc (fst a) (snd a) x) ->
  let b := (let e := f (map fst l) in let a := f (map snd l) in SB (fst e, fst a) (snd e, snd a) zm zx) in on_arc (snd (smin b)) (snd (smax b)) x.
Proof. intros H. exact H. Qed.
(** For a cell that stays off the sensor's vertical axis, the azimuth of each of its points is on the arc of the sensor box. *)
Theorem C40_azimuth : forall fsqrt W R t w, off_axis W R t -> in_box W w ->
  (let b := spherical_aabb fsqrt W R t in on_arc (snd (smin b)) (snd (smax b)) (snd (spherical_image fsqrt (sensor_frame R t w)))) /\
  (forall cfg, let b := ouster_aabb fsqrt cfg W R t in on_arc (snd (smin b)) (snd (smax b)) (snd (ouster_image fsqrt cfg (sensor_frame R t w)))).
Proof.
  intros fsqrt W R t w OFF HW. pose proof (azimuth_arc W R t OFF w HW) as A. cbv zeta in A.
  assert (E1 : forall l, map snd (map (spherical_image fsqrt) l) = map az l) by (intros l; rewrite map_map; apply map_ext; intros q; reflexivity).
  assert (E2 : forall cfg l, map snd (map (ouster_image fsqrt cfg) l) = map az l) by (intros cfg l; rewrite map_map; apply map_ext; intros q; reflexivity).
  split; [|intros cfg]; [apply (snd_arc angle_interval (map (spherical_image fsqrt) (corners W R t)))|apply (snd_arc angle_interval (map (ouster_image fsqrt cfg) (corners W R t)))]; cbv zeta;
    [rewrite E1|rewrite E2]; exact A.
Qed.
Print Assumptions C40_azimuth.
