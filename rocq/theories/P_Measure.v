(** C45: the measurement models are bounded and monotone. *)
From Verif Require Import Base M_Image M_RangeBounds M_Measure F_Measure.
From Coq Require Import QArith Qabs Lqa.
Close Scope Z_scope.
Open Scope Q_scope.

(** ** Specification *)
(** What is assumed about the logarithm and the square root: they never decrease, log 1 = 0, and the square root is exact
    for the square of the angle at which beams are cut off (a rational function cannot be exact for all squares). *)
Definition log_like (flog : Q -> Q) : Prop := flog 1 == 0 /\ forall x y, 0 < x -> x <= y -> flog x <= flog y.
Definition sqrt_like (fsqrt : Q -> Q) (c : mm_config) : Prop :=
  (forall x y, 0 <= x -> x <= y -> fsqrt x <= fsqrt y) /\ fsqrt ((6 * angle_sigma c) * (6 * angle_sigma c)) == 6 * angle_sigma c.
(** Configurations whose probabilities are strictly between 0 and 1 *)
Definition proper_config (c : mm_config) : Prop :=
  0 < angle_sigma c /\ 0 < range_sigma c /\ 0 < scaling_free c < 1 /\ 0 < scaling_occupied c < 16 # 13.
(** The smallest and the largest probability a model may assign to a cell *)
Definition p_min (c : mm_config) : Q := (1 # 2) - (1 # 2) * scaling_free c.
Definition p_max (c : mm_config) : Q := (1 # 2) + (13 # 32) * scaling_occupied c.

(** ** The approximate Gaussian is a continuous cumulative distribution *)
Theorem C45_cumulative : forall x y : Q,
  (0 <= cumulative x <= 1) /\ (x <= - (3) -> cumulative x == 0) /\ (3 <= x -> cumulative x == 1) /\ cumulative 0 == 1 # 2 /\
  (x <= y -> cumulative x <= cumulative y) /\ Qabs (cumulative x - cumulative y) <= (3 # 8) * Qabs (x - y) /\
  cumulative (- x) == 1 - cumulative x.
Proof.
  intros x y. split; [apply cum_range|]. split; [apply cum1|]. split; [apply cum5|]. split; [reflexivity|].
  split; [intros H; destruct (cum_slope x y H); lra|]. split.
  - destruct (Qlt_le_dec x y) as [H|H].
    + destruct (cum_slope x y ltac:(lra)) as [A B]. rewrite (Qabs_neg (x - y)) by lra. apply Qabs_Qle_condition. lra.
    + destruct (cum_slope y x H) as [A B]. rewrite (Qabs_pos (x - y)) by lra. apply Qabs_Qle_condition. lra.
  - destruct (Qlt_le_dec x (- (3))) as [A|A]; [rewrite (cum1 x), cum5 by lra; reflexivity|].
    destruct (Qlt_le_dec x (- (1))) as [B|B]; [rewrite (cum2 x), cum4 by lra; ring|].
    destruct (Qlt_le_dec x 1) as [C|C]; [rewrite !cum3 by lra; ring|].
    destruct (Qlt_le_dec x 3) as [D|D]; [rewrite (cum4 x), cum2 by lra; ring|]. rewrite (cum5 x), cum1 by lra. ring.
Qed.
Print Assumptions C45_cumulative.
Example C45_ex_cumulative : cumulative (- (2)) == 1 # 48 /\ cumulative (1 # 2) == 131 # 192 /\ cumulative 2 == 47 # 48.
Proof. repeat split; reflexivity. Qed.

(** ** Probabilities and log-odds *)
Section LOGODDS.
Context (flog : Q -> Q) (HL : log_like flog).
Notation lo := (log_odds flog).
Lemma odds_pos p : 0 < p < 1 -> 0 < p / (1 - p).
Proof. intros H. apply Qlt_shift_div_l; lra. Qed.
Lemma odds_mono p q : 0 < p -> p <= q -> q < 1 -> p / (1 - p) <= q / (1 - q).
Proof. intros A B C. apply Qle_shift_div_r; [lra|]. setoid_replace (q / (1 - q) * (1 - p)) with (q * (1 - p) / (1 - q)) by (field; lra). apply Qle_shift_div_l; [lra|]. nra. Qed.
Lemma lo_mono p q : 0 < p -> p <= q -> q < 1 -> lo p <= lo q.
Proof. intros A B C. unfold log_odds. apply HL; [apply odds_pos; lra|apply odds_mono; assumption]. Qed.
Lemma lo_eq p q : 0 < p < 1 -> p == q -> lo p == lo q.
Proof. intros A B. apply Qle_antisym; apply lo_mono; lra. Qed.
Lemma lo_half : lo (1 # 2) == 0.
Proof.
  destruct HL as [L1 L2]. unfold log_odds. rewrite <- L1. apply Qle_antisym; apply L2; try reflexivity; apply Qle_bool_iff; reflexivity.
Qed.
Lemma lo_neg p : 0 < p -> p <= 1 # 2 -> lo p <= 0.
Proof. intros A B. rewrite <- lo_half. apply lo_mono; lra. Qed.
Lemma lo_pos p : p < 1 -> 1 # 2 <= p -> 0 <= lo p.
Proof. intros A B. rewrite <- lo_half. apply lo_mono; lra. Qed.
End LOGODDS.

(** ** ContinuousRay *)
Section RAY.
Context (flog : Q -> Q) (c : mm_config).
Context (HL : log_like flog) (HC : proper_config c).
Notation s := (range_sigma c).
Lemma scale_mono x y : x <= y -> scale_contribution c x <= scale_contribution c y.
Proof.
  intros H. destruct HC as (_ & _ & F & O). unfold scale_contribution. qcase (qltb x 0); qcase (qltb y 0); nra.
Qed.
Lemma scale_comp x y : x == y -> scale_contribution c x == scale_contribution c y.
Proof. intros H. apply Qle_antisym; apply scale_mono; lra. Qed.
Lemma scale_range x : - (1 # 2) <= x <= 13 # 32 -> - (1 # 2) * scaling_free c <= scale_contribution c x <= (13 # 32) * scaling_occupied c.
Proof. intros H. destruct HC as (_ & _ & F & O). unfold scale_contribution. qcase (qltb x 0); split; nra. Qed.
Lemma rc_range f : - (1 # 2) <= range_contribution f <= 13 # 32.
Proof. destruct (Qlt_le_dec f 0) as [H|H]; [pose proof (rc_neg f ltac:(lra)); lra|pose proof (rc_pos f H); lra]. Qed.
Lemma div_mono a b : a <= b -> a / s <= b / s.
Proof. intros H. destruct HC as (_ & P & _). apply Qle_shift_div_r; [lra|]. setoid_replace (b / s * s) with b by (field; lra). exact H. Qed.
Lemma div_le_l a k : a <= k * s -> a / s <= k.
Proof. intros H. destruct HC as (_ & P & _). apply Qle_shift_div_r; lra. Qed.
Lemma div_ge_l a k : k * s <= a -> k <= a / s.
Proof. intros H. destruct HC as (_ & P & _). apply Qle_shift_div_l; lra. Qed.

Lemma full_p_range d m : p_min c <= ray_full_p c d m <= p_max c.
Proof. unfold p_min, p_max, ray_full_p. pose proof (scale_range _ (rc_range ((d - m) / s))). lra. Qed.
Lemma p_bounds : 0 < p_min c /\ p_max c < 1.
Proof. destruct HC as (_ & _ & F & O). unfold p_min, p_max. lra. Qed.

(** The three branches of the model are one formula: the update is the log-odds of ray_full_p everywhere. *)
Lemma ray_one_formula d m : ray_beam flog c d m == log_odds flog (ray_full_p c d m).
Proof.
  pose proof (full_p_range d m) as R. pose proof p_bounds as B. unfold ray_beam.
  qcase (qltb (range_back c) (d - m)).
  - rewrite <- (lo_half flog HL). apply lo_eq; [assumption|lra|]. unfold ray_full_p.
    rewrite (scale_comp _ 0); [unfold scale_contribution; cbn; ring|]. apply rc_behind. apply div_ge_l. unfold range_back in E. lra.
  - qcase (qltb d (m - range_front c)); [|reflexivity]. unfold ray_free. symmetry. apply lo_eq; [assumption|lra|]. unfold ray_full_p, ray_free_p.
    rewrite (scale_comp _ (- (1 # 2))); [unfold scale_contribution; cbn [qltb negb Qle_bool Qnum Qden Z.mul Z.leb Z.compare]; cbn; ring|].
    apply rc_free. apply div_le_l. unfold range_front in E0. lra.
Qed.
Lemma full_p_mono d1 d2 m : range_contribution ((d1 - m) / s) <= range_contribution ((d2 - m) / s) -> ray_full_p c d1 m <= ray_full_p c d2 m.
Proof. intros H. unfold ray_full_p. pose proof (scale_mono _ _ H). lra. Qed.
Lemma ray_mono d1 d2 m : range_contribution ((d1 - m) / s) <= range_contribution ((d2 - m) / s) -> ray_beam flog c d1 m <= ray_beam flog c d2 m.
Proof.
  intros H. rewrite !ray_one_formula. pose proof (full_p_range d1 m). pose proof (full_p_range d2 m). pose proof p_bounds.
  apply lo_mono; [assumption|lra|apply full_p_mono; exact H|lra].
Qed.
End RAY.

(** The update of a single pixel: between the log-odds of the two extreme probabilities; 0 from 6 sigma behind the surface
    on, constant up to 3 sigma in front of it; not positive in front of the measured range and not negative behind it;
    non-decreasing along the ray up to (and 1.5 sigma past) the surface, non-increasing from 2 sigma behind it. *)
Theorem C45_ray : forall flog c measured d d', log_like flog -> proper_config c ->
  let u := ray_beam flog c in let sigma := range_sigma c in
  (log_odds flog (p_min c) <= u d measured <= log_odds flog (p_max c)) /\
  (measured + 6 * sigma <= d -> u d measured == 0) /\
  (d <= measured - 3 * sigma -> u d measured == log_odds flog (p_min c)) /\
  (d <= measured -> u d measured <= 0) /\ (measured <= d -> 0 <= u d measured) /\
  (d <= d' -> d' <= measured + (3 # 2) * sigma -> u d measured <= u d' measured) /\
  (measured + 2 * sigma <= d -> d <= d' -> u d' measured <= u d measured).
Proof.
  intros flog c m d d' HL HC u sigma. subst sigma. pose proof (full_p_range c HC d m) as R. pose proof (p_bounds c HC) as B.
  assert (P : 0 < range_sigma c) by (destruct HC as (_ & P & _); exact P).
  assert (E0 : forall f, 0 <= f -> 0 <= scale_contribution c f) by (intros f Hf; destruct HC as (_ & _ & F & O); unfold scale_contribution; qcase (qltb f 0); nra).
  assert (E1 : forall f, f <= 0 -> scale_contribution c f <= 0) by (intros f Hf; destruct HC as (_ & _ & F & O); unfold scale_contribution; qcase (qltb f 0); nra).
  assert (Z : forall f, f == 0 -> scale_contribution c f == 0) by (intros f Hf; apply Qle_antisym; [apply E1|apply E0]; lra).
  split. { unfold u. rewrite ray_one_formula by assumption. split; apply lo_mono; try assumption; lra. }
  split. { intros H. unfold u. rewrite ray_one_formula by assumption. rewrite <- (lo_half flog HL). apply lo_eq; [assumption|lra|].
    unfold ray_full_p. rewrite Z; [ring|]. apply rc_behind, div_ge_l; [assumption|lra]. }
  split. { intros H. unfold u. rewrite ray_one_formula by assumption. apply lo_eq; [assumption|lra|].
    unfold ray_full_p, p_min. rewrite (scale_comp c HC _ (- (1 # 2))); [unfold scale_contribution; cbn; ring|]. apply rc_free, div_le_l; [assumption|lra]. }
  split. { intros H. unfold u. rewrite ray_one_formula by assumption. apply lo_neg; [assumption|lra|].
    unfold ray_full_p. assert (F : (d - m) / range_sigma c <= 0) by (apply div_le_l; [assumption|lra]). pose proof (E1 _ (proj2 (rc_neg _ F))). lra. }
  split. { intros H. unfold u. rewrite ray_one_formula by assumption. apply lo_pos; [assumption|lra|].
    unfold ray_full_p. assert (F : 0 <= (d - m) / range_sigma c) by (apply div_ge_l; [assumption|lra]). pose proof (E0 _ (proj1 (rc_pos _ F))). lra. }
  split.
  - intros H H'. apply ray_mono; try assumption. apply rc_up; [apply div_mono; [assumption|lra]|apply div_le_l; [assumption|lra]].
  - intros H H'. apply ray_mono; try assumption. apply rc_down; [apply div_ge_l; [assumption|lra]|apply div_mono; [assumption|lra]].
Qed.
Print Assumptions C45_ray.

Lemma fold_sum_bound {A} (g : A -> Q) lo hi l : (forall a, lo <= g a <= hi) -> forall u,
  u + inject_Z (Z.of_nat (length l)) * lo <= fold_left (fun u a => u + g a) l u <= u + inject_Z (Z.of_nat (length l)) * hi.
Proof.
  intros H. induction l as [|a l IH]; intros u.
  - cbn [fold_left length]. change (inject_Z (Z.of_nat 0)) with 0. lra.
  - cbn [fold_left length]. rewrite Nat2Z.inj_succ, <- Z.add_1_r, inject_Z_plus. specialize (IH (u + g a)). specialize (H a).
    change (inject_Z 1) with 1. lra.
Qed.
Lemma fold_left_ext_in {A B} (f g : B -> A -> B) l : (forall b a, In a l -> f b a = g b a) -> forall b, fold_left f l b = fold_left g l b.
Proof. induction l as [|a l IH]; intros H b; [reflexivity|]. cbn [fold_left]. rewrite H by (left; reflexivity). apply IH. intros; apply H; right; assumption. Qed.
(** computeUpdate: the bounds hold whatever the image. *)
Theorem C45_ray_compute : forall flog c rnd P im coords d, log_like flog -> proper_config c ->
  let u := ray_computeUpdate flog c rnd P im coords d in
  let k := match selector c with kNearestNeighbor => 1 | kAllNeighbors => 4 end in
  k * log_odds flog (p_min c) <= u <= k * log_odds flog (p_max c).
Proof.
  intros flog c rnd P im coords d HL HC u k.
  pose proof (p_bounds c HC) as B.
  assert (HP : 0 < scaling_free c /\ 0 < scaling_occupied c) by (destruct HC as (_ & _ & F & O); lra).
  assert (N : log_odds flog (p_min c) <= 0) by (apply lo_neg; [assumption|lra|unfold p_min; lra]).
  assert (O : 0 <= log_odds flog (p_max c)) by (apply lo_pos; [assumption|lra|unfold p_max; lra]).
  assert (A : forall i, log_odds flog (p_min c) <= ray_at flog c im d i <= log_odds flog (p_max c)).
  { intros i. unfold ray_at. destruct (at_px im i) as [m|]; [|lra]. apply (C45_ray flog c m d d HL HC). }
  unfold u, k, ray_computeUpdate. destruct (selector c).
  - specialize (A (imageToNearestIndex rnd P coords)). lra.
  - pose proof (fold_sum_bound (ray_at flog c im d) _ _ (imageToNearestIndices P coords) A 0) as F.
    change (length (imageToNearestIndices P coords)) with 4%nat in F. change (inject_Z (Z.of_nat 4)) with 4 in F. lra.
Qed.
Print Assumptions C45_ray_compute.

(** ** ContinuousBeam *)
Section BEAM.
Context (fsqrt flog : Q -> Q) (c : mm_config).
Context (HS : sqrt_like fsqrt c) (HL : log_like flog) (HC : proper_config c).
Notation s := (range_sigma c).
Notation ac := (angle_contribution fsqrt c).
Lemma ac_range e : 0 <= ac e <= 1.
Proof. unfold angle_contribution. pose proof (cum_range (fsqrt e / angle_sigma c - 3)). lra. Qed.
Lemma ang_pos : 0 < angle_sigma c.
Proof. destruct HC as (P & _). exact P. Qed.
Lemma ac_anti e e' : 0 <= e -> e <= e' -> ac e' <= ac e.
Proof.
  intros H H'. unfold angle_contribution. pose proof ang_pos as P. destruct HS as [S _]. specialize (S e e' H H').
  assert (D : fsqrt e / angle_sigma c <= fsqrt e' / angle_sigma c).
  { apply Qle_shift_div_r; [lra|]. setoid_replace (fsqrt e' / angle_sigma c * angle_sigma c) with (fsqrt e') by (field; lra). exact S. }
  destruct (cum_slope (fsqrt e / angle_sigma c - 3) (fsqrt e' / angle_sigma c - 3) ltac:(lra)). lra.
Qed.
Lemma ac_zero e : angle_threshold c * angle_threshold c <= e -> ac e == 0.
Proof.
  intros H. pose proof ang_pos as P. unfold angle_contribution. destruct HS as [S1 R].
  assert (G : angle_threshold c <= fsqrt e) by (unfold angle_threshold in *; rewrite <- R; apply S1; nra).
  rewrite cum5; [ring|]. assert (6 <= fsqrt e / angle_sigma c) by (apply Qle_shift_div_l; [lra|unfold angle_threshold in G; lra]). lra.
Qed.
(** One formula for all branches *)
Definition beam_formula (d e m : Q) : Q := scale_contribution c (range_contribution ((d - m) / s) * ac e) + (1 # 2).
Lemma beam_p_formula d e m : beam_p fsqrt c d e m == beam_formula d e m.
Proof.
  unfold beam_p, beam_formula. qcase (qltb d (m - range_front c)); cbn [orb].
  - assert (F : range_contribution ((d - m) / s) == - (1 # 2)) by (apply rc_free, div_le_l; [assumption|unfold range_front in E; lra]).
    pose proof (ac_range e) as A. rewrite (scale_comp c HC _ (- (1 # 2) * ac e)) by (rewrite F; reflexivity).
    unfold scale_contribution. qcase (qltb (- (1 # 2) * ac e) 0); [reflexivity|]. assert (Z : ac e == 0) by lra. rewrite Z. ring.
  - unfold scale_contribution. reflexivity.
Qed.
Lemma prod_range x a : - (1 # 2) <= x <= 13 # 32 -> 0 <= a <= 1 -> - (1 # 2) <= x * a <= 13 # 32.
Proof. intros. nra. Qed.
Lemma beam_formula_range d e m : p_min c <= beam_formula d e m <= p_max c.
Proof.
  unfold p_min, p_max, beam_formula. pose proof (scale_range c HC _ (prod_range _ _ (rc_range ((d - m) / s)) (ac_range e))). lra.
Qed.
Lemma beam_one_formula d e m : beam_beam fsqrt flog c d e m == log_odds flog (beam_formula d e m).
Proof.
  pose proof (beam_formula_range d e m) as R. pose proof (p_bounds c HC) as B. unfold beam_beam.
  destruct (beam_unknown c d e m) eqn:U.
  - rewrite <- (lo_half flog HL). apply lo_eq; [assumption|lra|]. unfold beam_formula.
    assert (Z : range_contribution ((d - m) / s) * ac e == 0).
    { unfold beam_unknown in U. apply orb_prop in U as [U|U]; apply qltb_true in U.
      - rewrite ac_zero by lra. ring.
      - rewrite rc_behind; [ring|]. apply div_ge_l; [assumption|unfold range_back in U; lra]. }
    rewrite (scale_comp c HC _ 0 Z). unfold scale_contribution. cbn. ring.
  - symmetry. apply lo_eq; [assumption|lra|]. symmetry. apply beam_p_formula.
Qed.
Lemma beam_mono d e d' e' m : range_contribution ((d - m) / s) * ac e <= range_contribution ((d' - m) / s) * ac e' ->
  beam_beam fsqrt flog c d e m <= beam_beam fsqrt flog c d' e' m.
Proof.
  intros H. rewrite !beam_one_formula. pose proof (beam_formula_range d e m). pose proof (beam_formula_range d' e' m). pose proof (p_bounds c HC).
  apply lo_mono; [assumption|lra| |lra]. unfold beam_formula. pose proof (scale_mono c HC _ _ H). lra.
Qed.
End BEAM.

(** The update of a single beam: as for the ray; in addition it is 0 from 6 sigma off the beam's axis on, and moving away
    from the axis brings it closer to 0. [e] and [e'] are squared angular errors. *)
Theorem C45_beam : forall fsqrt flog c measured d d' e e', sqrt_like fsqrt c -> log_like flog -> proper_config c -> 0 <= e ->
  let u := beam_beam fsqrt flog c in let sigma := range_sigma c in
  (log_odds flog (p_min c) <= u d e measured <= log_odds flog (p_max c)) /\
  (measured + 6 * sigma <= d -> u d e measured == 0) /\
  ((6 * angle_sigma c) * (6 * angle_sigma c) <= e -> u d e measured == 0) /\
  (d <= measured -> u d e measured <= 0) /\ (measured <= d -> 0 <= u d e measured) /\
  (d <= d' -> d' <= measured + (3 # 2) * sigma -> u d e measured <= u d' e measured) /\
  (measured + 2 * sigma <= d -> d <= d' -> u d' e measured <= u d e measured) /\
  (e <= e' -> d <= measured -> u d e measured <= u d e' measured) /\
  (e <= e' -> measured <= d -> u d e' measured <= u d e measured).
Proof.
  intros fsqrt flog c m d d' e e' HS HL HC He u sigma. subst sigma.
  pose proof (p_bounds c HC) as B. pose proof (ac_range fsqrt c e) as A.
  assert (HP : 0 < scaling_free c /\ 0 < scaling_occupied c) by (destruct HC as (_ & _ & F & O); lra).
  assert (Z : forall x, x == 0 -> scale_contribution c x == 0) by (intros x Hx; rewrite (scale_comp c HC _ 0 Hx); unfold scale_contribution; cbn; ring).
  assert (E0 : forall f, 0 <= f -> 0 <= scale_contribution c f) by (intros f Hf; unfold scale_contribution; qcase (qltb f 0); nra).
  assert (E1 : forall f, f <= 0 -> scale_contribution c f <= 0) by (intros f Hf; unfold scale_contribution; qcase (qltb f 0); nra).
  pose proof (beam_formula_range fsqrt c HC d e m) as R.
  split. { unfold u. rewrite beam_one_formula by assumption. split; apply lo_mono; try assumption; lra. }
  split. { intros H. unfold u. rewrite beam_one_formula by assumption. rewrite <- (lo_half flog HL). apply lo_eq; [assumption|lra|].
    unfold beam_formula. rewrite Z; [ring|]. rewrite rc_behind; [ring|]. apply div_ge_l; [assumption|lra]. }
  split. { intros H. unfold u. rewrite beam_one_formula by assumption. rewrite <- (lo_half flog HL). apply lo_eq; [assumption|lra|].
    unfold beam_formula. rewrite Z; [ring|]. rewrite (ac_zero fsqrt c HS HC e H). ring. }
  split. { intros H. unfold u. rewrite beam_one_formula by assumption. apply lo_neg; [assumption|lra|]. unfold beam_formula.
    assert (F : (d - m) / range_sigma c <= 0) by (apply div_le_l; [assumption|lra]). pose proof (rc_neg _ F).
    pose proof (E1 (range_contribution ((d - m) / range_sigma c) * angle_contribution fsqrt c e) ltac:(nra)). lra. }
  split. { intros H. unfold u. rewrite beam_one_formula by assumption. apply lo_pos; [assumption|lra|]. unfold beam_formula.
    assert (F : 0 <= (d - m) / range_sigma c) by (apply div_ge_l; [assumption|lra]). pose proof (rc_pos _ F).
    pose proof (E0 (range_contribution ((d - m) / range_sigma c) * angle_contribution fsqrt c e) ltac:(nra)). lra. }
  split. { intros H H'. apply beam_mono; try assumption.
    assert (M : range_contribution ((d - m) / range_sigma c) <= range_contribution ((d' - m) / range_sigma c)); [|nra].
    apply rc_up; [apply div_mono; [assumption|lra]|apply div_le_l; [assumption|lra]]. }
  split. { intros H H'. apply beam_mono; try assumption.
    assert (M : range_contribution ((d' - m) / range_sigma c) <= range_contribution ((d - m) / range_sigma c)); [|nra].
    apply rc_down; [apply div_ge_l; [assumption|lra]|apply div_mono; [assumption|lra]]. }
  split.
  - intros H H'. apply beam_mono; try assumption. pose proof (ac_anti fsqrt c HS HC e e' He H) as M.
    assert (F : (d - m) / range_sigma c <= 0) by (apply div_le_l; [assumption|lra]). pose proof (rc_neg _ F). nra.
  - intros H H'. apply beam_mono; try assumption. pose proof (ac_anti fsqrt c HS HC e e' He H) as M.
    assert (F : 0 <= (d - m) / range_sigma c) by (apply div_ge_l; [assumption|lra]). pose proof (rc_pos _ F). nra.
Qed.
Print Assumptions C45_beam.

(** computeUpdate of the beam model, for every image, offset image and non-negative error norm. *)
Theorem C45_beam_compute : forall fsqrt flog c error2 rnd P im offsets coords d,
  sqrt_like fsqrt c -> log_like flog -> proper_config c -> (forall a b, 0 <= error2 a b) ->
  let u := beam_computeUpdate fsqrt flog c error2 rnd P im offsets coords d in
  let k := match selector c with kNearestNeighbor => 1 | kAllNeighbors => 4 end in
  k * log_odds flog (p_min c) <= u <= k * log_odds flog (p_max c).
Proof.
  intros fsqrt flog c error2 rnd P im offsets coords d HS HL HC HE u k.
  pose proof (p_bounds c HC) as B.
  assert (HP : 0 < scaling_free c /\ 0 < scaling_occupied c) by (destruct HC as (_ & _ & F & O); lra).
  assert (N : log_odds flog (p_min c) <= 0) by (apply lo_neg; [assumption|lra|unfold p_min; lra]).
  assert (O : 0 <= log_odds flog (p_max c)) by (apply lo_pos; [assumption|lra|unfold p_max; lra]).
  assert (A : forall o m, log_odds flog (p_min c) <= beam_beam fsqrt flog c d (error2 coords o) m <= log_odds flog (p_max c)).
  { intros o m. apply (C45_beam fsqrt flog c m d d (error2 coords o) 0 HS HL HC). apply HE. }
  unfold u, k, beam_computeUpdate. destruct (selector c).
  - unfold beam_nearest. destruct (imageToNearestIndexAndOffset rnd P coords) as [i o]. destruct (at_px im i) as [m|]; [|lra].
    specialize (A (v2sub (offsets (fst i) (snd i)) o) m). lra.
  - unfold beam_all.
    set (g := fun io : i2 * v2 => let '(i, o) := io in let '(measured, o') := match at_px im i with None => (0, o) | Some m => (m, v2sub o (offsets (fst i) (snd i))) end in
       beam_beam fsqrt flog c d (error2 coords o') measured).
    assert (G : forall io, log_odds flog (p_min c) <= g io <= log_odds flog (p_max c)).
    { intros [i o]. unfold g. destruct (at_px im i) as [m|]; apply A. }
    pose proof (fold_sum_bound g _ _ (imageToNearestIndicesAndOffsets P coords) G 0) as F.
    assert (E : fold_left (fun u a => u + g a) (imageToNearestIndicesAndOffsets P coords) 0 =
       fold_left (fun update io => let '(i, o) := io in let '(measured, o') := match at_px im i with None => (0, o) | Some m => (m, v2sub o (offsets (fst i) (snd i))) end in
       update + beam_beam fsqrt flog c d (error2 coords o') measured) (imageToNearestIndicesAndOffsets P coords) 0).
    { apply fold_left_ext_in. intros u0 [i o] _. unfold g. destruct (at_px im i); reflexivity. }
    rewrite E in F. change (length (imageToNearestIndicesAndOffsets P coords)) with 4%nat in F. change (inject_Z (Z.of_nat 4)) with 4 in F. lra.
Qed.
Print Assumptions C45_beam_compute.

(** ** Examples *)
(** A logarithm (a rational approximation around 1) and a square root with a resolution of 1/1000 *)
Definition ex_log (x : Q) : Q := 2 * (x - 1) / (x + 1).
Definition ex_sqrt (x : Q) : Q := inject_Z (Z.sqrt (Qround.Qfloor (x * 1000000))) / 1000.
Definition ex_config := MM (1 # 100) (1 # 10) (1 # 2) (1 # 2) kAllNeighbors.
Example C45_ex_hyps : log_like ex_log /\ sqrt_like ex_sqrt ex_config /\ proper_config ex_config.
Proof.
  split; [|split].
  - split; [reflexivity|]. intros x y Hx Hxy. unfold ex_log. apply Qle_shift_div_l; [lra|].
    setoid_replace (2 * (x - 1) / (x + 1) * (y + 1)) with (2 * (x - 1) * (y + 1) / (x + 1)) by (field; lra).
    apply Qle_shift_div_r; [lra|]. nra.
  - split; [|reflexivity]. intros x y Hx Hxy. unfold ex_sqrt. apply Qle_shift_div_r; [lra|].
    setoid_replace (inject_Z (Z.sqrt (Qround.Qfloor (y * 1000000))) / 1000 * 1000) with (inject_Z (Z.sqrt (Qround.Qfloor (y * 1000000)))) by field.
    rewrite <- Zle_Qle. apply Z.sqrt_le_mono. apply Qround.Qfloor_resp_le. lra.
  - unfold proper_config, ex_config. cbn. repeat split; lra.
Qed.
(** In front of, at and behind a surface at 10 m; on the axis of the beam, 3 sigma off it, and far off it *)
Example C45_ex_ray : map (fun d => Qred (ray_beam ex_log ex_config d 10)) [9; 99 # 10; 10; 1015 # 100; 11] = [- (1); - (2 # 3); 0; 101 # 128; 0].
Proof. vm_compute. reflexivity. Qed.
Example C45_ex_beam : map (fun e => map (fun d => Qred (beam_beam ex_sqrt ex_log ex_config d e 10)) [9; 99 # 10; 10; 1015 # 100; 11]) [0; 9 # 10000; 1] =
  [[- (1); - (2 # 3); 0; 101 # 128; 0]; [- (1 # 2); - (1 # 3); 0; 101 # 256; 0]; [0; 0; 0; 0; 0]].
Proof. vm_compute. reflexivity. Qed.

(** ** The worst-case error of sampling a cell only at its centre *)
(** For one pixel, the ray model's bound on the error of the probability is right if scaling_free <= scaling_occupied. *)
Theorem C45_ray_error : forall c measured d d' radius,
  0 < range_sigma c -> 0 < scaling_free c -> scaling_free c <= scaling_occupied c -> Qabs (d - d') <= radius ->
  Qabs (ray_full_p c d measured - ray_full_p c d' measured) <= ray_worst_error c kPossiblyOccupied radius.
Proof.
  intros c m. assert (K : forall d d' radius, 0 < range_sigma c -> 0 < scaling_free c -> scaling_free c <= scaling_occupied c -> d <= d' -> d' - d <= radius ->
    Qabs (ray_full_p c d m - ray_full_p c d' m) <= ray_worst_error c kPossiblyOccupied radius).
  { intros d d' r P F O L H. unfold ray_full_p, ray_worst_error.
    set (f := (d - m) / range_sigma c). set (f' := (d' - m) / range_sigma c).
    assert (D : f' - f == (d' - d) / range_sigma c) by (unfold f, f'; field; lra).
    assert (D0 : 0 <= (d' - d) / range_sigma c) by (apply Qle_shift_div_l; lra).
    assert (D1 : (d' - d) / range_sigma c <= r / range_sigma c).
    { apply Qle_shift_div_r; [lra|]. setoid_replace (r / range_sigma c * range_sigma c) with r by (field; lra). exact H. }
    destruct (rc_slope f f' ltac:(lra)) as [A B].
    setoid_replace ((3 # 8) * scaling_occupied c / range_sigma c * r) with ((3 # 8) * scaling_occupied c * (r / range_sigma c)) by (field; lra).
    set (x := range_contribution f) in *. set (y := range_contribution f') in *. set (q := r / range_sigma c) in *. set (e := (d' - d) / range_sigma c) in *.
    assert (G : forall a b, a <= b -> 0 <= scale_contribution c b - scale_contribution c a <= scaling_occupied c * (b - a)).
    { intros a b Hab. unfold scale_contribution. qcase (qltb a 0); qcase (qltb b 0); split; nra. }
    assert (SO : 0 < scaling_occupied c) by lra.
    apply Qabs_Qle_condition. destruct (Qlt_le_dec x y) as [C|C].
    - pose proof (G x y ltac:(lra)). assert (y - x <= (3 # 8) * q) by lra. nra.
    - pose proof (G y x C). assert (x - y <= (3 # 16) * q) by lra. assert (0 <= q) by lra. nra. }
  intros d d' r P F O H. apply Qabs_Qle_condition in H. destruct (Qlt_le_dec d d') as [L|L].
  - apply K; try assumption; lra.
  - rewrite Qabs_Qminus. apply K; try assumption; lra.
Qed.
Print Assumptions C45_ray_error.
(** In free space, the beam model's bound is right if the angle to the beam's axis differs by at most radius / distance. *)
Theorem C45_beam_error_free : forall fsqrt c measured dist d d' e e' radius,
  0 < angle_sigma c -> 0 < range_sigma c -> 0 < scaling_free c ->
  d < measured - 3 * range_sigma c -> d' < measured - 3 * range_sigma c -> Qabs (fsqrt e - fsqrt e') <= radius / dist ->
  Qabs (beam_p fsqrt c d e measured - beam_p fsqrt c d' e' measured) <= beam_worst_error c kFullyFree dist radius.
Proof.
  intros fsqrt c m dist d d' e e' r A P F H H' G. unfold beam_p, beam_worst_error, range_front.
  apply qltb_true in H. apply qltb_true in H'. rewrite H, H'. cbn [orb]. clear H H'.
  unfold angle_contribution. set (q := r / dist) in *. set (a := fsqrt e) in *. set (b := fsqrt e') in *.
  set (C := cumulative (a / angle_sigma c - 3)). set (C' := cumulative (b / angle_sigma c - 3)).
  assert (L : Qabs (C - C') <= (3 # 8) * (q / angle_sigma c)).
  { destruct (C45_cumulative (a / angle_sigma c - 3) (b / angle_sigma c - 3)) as (_ & _ & _ & _ & _ & L & _). fold C C' in L.
    assert (X : Qabs (a / angle_sigma c - 3 - (b / angle_sigma c - 3)) <= q / angle_sigma c).
    { apply Qabs_Qle_condition in G. apply Qabs_Qle_condition.
      setoid_replace (a / angle_sigma c - 3 - (b / angle_sigma c - 3)) with ((a - b) / angle_sigma c) by (field; lra). split.
      - apply Qle_shift_div_l; [lra|]. setoid_replace (- (q / angle_sigma c) * angle_sigma c) with (- q) by (field; lra). lra.
      - apply Qle_shift_div_r; [lra|]. setoid_replace (q / angle_sigma c * angle_sigma c) with q by (field; lra). lra. }
    lra. }
  setoid_replace ((3 # 16) * scaling_free c / angle_sigma c * q) with ((1 # 2) * scaling_free c * ((3 # 8) * (q / angle_sigma c))) by (field; lra).
  apply Qabs_Qle_condition in L. apply Qabs_Qle_condition. set (w := (3 # 8) * (q / angle_sigma c)) in *. nra.
Qed.
Print Assumptions C45_beam_error_free.
Example C45_ex_error : Qred (ray_full_p ex_config (99 # 10) 10) = (1 # 3) /\ Qred (ray_full_p ex_config 10 10) = (1 # 2) /\
  Qred (ray_worst_error ex_config kPossiblyOccupied (1 # 10)) = (3 # 16).
Proof. vm_compute. auto. Qed.

(** ** What fails *)
(** isValid accepts every positive scaling factor. From scaling_free = 1 on the free-space probability is not positive,
    so the logarithm of a number <= 0 is taken. *)
Theorem C45_scaling_refuted : exists c d measured, beam_isValid c = true /\ d < measured - range_front c /\
  ray_free_p c < 0 /\ ray_free_p c / (1 - ray_free_p c) < 0 /\ beam_p ex_sqrt c d 0 measured < 0.
Proof. exists (MM (1 # 100) (1 # 10) 2 (1 # 2) kAllNeighbors), 1, 10. repeat split; vm_compute; reflexivity. Qed.
(** The ray model's bound uses only scaling_occupied: it is too small if scaling_free is larger. *)
Theorem C45_ray_error_refuted : exists c measured d d' radius, ray_isValid c = true /\ Qabs (d - d') <= radius /\
  ray_worst_error c kPossiblyOccupied radius < Qabs (ray_full_p c d measured - ray_full_p c d' measured).
Proof.
  exists (MM (1 # 100) 1 (1 # 2) (1 # 10) kNearestNeighbor), 10, 10, (19 # 2), (1 # 2).
  split; [reflexivity|]. split; [apply Qle_bool_iff; reflexivity|vm_compute; reflexivity].
Qed.
(** The beam model's bound is the larger of the angular and the range error; the error can be larger than both, even with
    the default scaling factors. *)
Theorem C45_beam_error_refuted : exists c measured dist d' e e' radius, proper_config c /\ beam_isValid c = true /\
  Qabs (dist - d') <= radius /\ Qabs (ex_sqrt e - ex_sqrt e') <= radius / dist /\
  beam_unknown c dist e measured = false /\ beam_unknown c d' e' measured = false /\
  beam_worst_error c kPossiblyOccupied dist radius < Qabs (beam_p ex_sqrt c dist e measured - beam_p ex_sqrt c d' e' measured).
Proof.
  exists ex_config, (511 # 100), 5, (502 # 100), (529 # 1000000), (729 # 1000000), (2 # 100).
  split; [apply C45_ex_hyps|]. split; [reflexivity|]. split; [apply Qle_bool_iff; reflexivity|].
  split; [apply Qle_bool_iff; reflexivity|]. repeat split; vm_compute; reflexivity.
Qed.
Print Assumptions C45_scaling_refuted.
Print Assumptions C45_ray_error_refuted.
Print Assumptions C45_beam_error_refuted.
