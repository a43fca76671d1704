(** Facts about the image pyramids of M_RangeBounds.v *)
From Verif Require Import Base M_IntMath F_IntMath M_Image M_RangeBounds.

Lemma ceil_bound d e u : 0 <= e -> 0 <= u < d -> 0 <= u / 2 ^ e < div_exp2_ceil d e.
Proof.
  intros He Hu. pose proof (div_exp2_ceil_spec d e He) as S. pose proof (pow2_pos e He) as P. set (w := 2 ^ e) in *.
  split; [apply Z.div_pos; lia|]. apply Z.div_lt_upper_bound; lia.
Qed.
Lemma div_succ u e : 0 <= e -> u / 2 ^ (e + 1) = (u / 2 ^ e) / 2.
Proof. intros. rewrite Z.pow_add_r, Z.pow_1_r by lia. rewrite Z.div_div by (try apply Z.pow_nonzero; lia). reflexivity. Qed.
Lemma half_or u : u = 2 * (u / 2) \/ u = 2 * (u / 2) + 1.
Proof. pose proof (Z.div_mod u 2 ltac:(lia)). pose proof (Z.mod_pos_bound u 2 ltac:(lia)). lia. Qed.
Lemma i2_eqb_iff a b : i2_eqb a b = true <-> a = b.
Proof. destruct a as [a1 a2], b as [b1 b2]. unfold i2_eqb. cbn [fst snd]. rewrite andb_true_iff, !Z.eqb_eq. split; [intros [-> ->]; reflexivity|intros E; injection E; auto]. Qed.
Lemma at_px_in {T} (im : img T) x y : 0 <= x < im_rows im -> 0 <= y < im_cols im -> at_px im (x, y) = Some (im_px im x y).
Proof.
  intros A B. unfold at_px. cbn [fst snd].
  replace ((0 <=? x) && (x <? im_rows im) && (0 <=? y) && (y <? im_cols im)) with true; [reflexivity|].
  symmetry. rewrite !andb_true_iff, !Z.leb_le, !Z.ltb_lt. lia.
Qed.

Section PYR.
Context {T : Type} (red : T -> T -> T) (init : T) (wraps : bool) (s : i2).
Context (Hsx : 0 < fst s) (Hsy : 0 < snd s).
Notation level := (level red init wraps s).
Notation levels_loop := (levels_loop red init wraps s).
Notation reduce4 := (reduce4 red init wraps).

(** ** A property that holds of a pixel holds of everything it is pooled into *)
Section GOOD.
Context (G : T -> Prop) (G1 : forall a b, G a -> G (red a b)) (G2 : forall a b, G b -> G (red a b)).

Lemma reduce4_good prev mn mx u v :
  u = fst mn \/ u = fst mx -> v = snd mn \/ v = snd mx -> fst mn <= fst mx -> snd mn <= snd mx ->
  u < im_rows prev -> v < im_cols prev -> G (im_px prev u v) -> G (reduce4 prev mn mx).
Proof.
  intros Hu Hv Lu Lv Bu Bv Hg. unfold M_RangeBounds.reduce4.
  assert (A1 : fst mn < im_rows prev) by lia. assert (A2 : snd mn < im_cols prev) by lia.
  rewrite (proj2 (Z.ltb_lt _ _) A1), (proj2 (Z.ltb_lt _ _) A2). cbn [andb].
  destruct (Z.ltb_spec (fst mx) (im_rows prev)) as [X|X]; destruct (Z.ltb_spec (snd mx) (im_cols prev)) as [Y|Y].
  - destruct Hu as [-> | ->], Hv as [-> | ->]; auto.
  - assert (E : v = snd mn) by lia. rewrite E in Hg. destruct (wraps && _); destruct Hu as [-> | ->]; auto.
  - assert (E : u = fst mn) by lia. rewrite E in Hg. destruct Hv as [-> | ->]; auto.
  - assert (E : u = fst mn) by lia. assert (E' : v = snd mn) by lia. rewrite E, E' in Hg. destruct (wraps && _); auto.
Qed.

Context (DX DY u v : Z) (Hu : 0 <= u < DX) (Hv : 0 <= v < DY).
(** What the image before level [k] (the range image for [k] = 0) is like *)
Definition before (k : Z) (im : img T) : Prop :=
  if k =? 0 then im_rows im * fst s = DX /\ im_cols im * snd s = DY /\ G (im_px im (u / fst s) (v / snd s))
  else im_rows im = div_exp2_ceil DX k /\ im_cols im = div_exp2_ceil DY k /\ G (im_px im (u / 2 ^ k) (v / 2 ^ k)).

Lemma level_good k prev : 0 <= k -> before k prev -> before (k + 1) (level DX DY k prev).
Proof.
  intros Hk. unfold before. rewrite (proj2 (Z.eqb_neq (k + 1) 0)) by lia. intros Hb.
  unfold M_RangeBounds.level. cbn [im_rows im_cols im_px]. split; [reflexivity|split; [reflexivity|]].
  rewrite !div_succ by lia. cbn [fst snd].
  destruct (Z.eqb_spec k 0) as [-> |Nk].
  - destruct Hb as [R [C Hg]]. change (2 ^ 0) with 1. rewrite !Z.div_1_r. rewrite !Z.quot_div_nonneg by (try (pose proof (Z.div_pos u 2); pose proof (Z.div_pos v 2)); lia).
    apply (reduce4_good prev _ _ (u / fst s) (v / snd s)); cbn [fst snd]; try assumption.
    + destruct (half_or u) as [E|E]; [left|right]; rewrite <- E; reflexivity.
    + destruct (half_or v) as [E|E]; [left|right]; rewrite <- E; reflexivity.
    + apply Z.div_le_mono; lia.
    + apply Z.div_le_mono; lia.
    + apply Z.div_lt_upper_bound; lia.
    + apply Z.div_lt_upper_bound; lia.
  - destruct Hb as [R [C Hg]].
    apply (reduce4_good prev _ _ (u / 2 ^ k) (v / 2 ^ k)); cbn [fst snd]; try assumption; try apply half_or; try lia.
    + rewrite R. apply ceil_bound; lia.
    + rewrite C. apply ceil_bound; lia.
Qed.
Lemma levels_good n : forall k prev j im, 0 <= k -> before k prev -> nth_error (levels_loop n DX DY k prev) j = Some im ->
  before (k + Z.of_nat j + 1) im.
Proof.
  induction n as [|n IH]; intros k prev j im Hk Hb E; [destruct j; discriminate|].
  cbn [M_RangeBounds.levels_loop] in E. destruct j as [|j]; cbn [nth_error] in E.
  - injection E as <-. replace (k + Z.of_nat 0 + 1) with (k + 1) by lia. apply level_good; assumption.
  - apply IH in E; [|lia|apply level_good; assumption]. replace (k + Z.of_nat (S j) + 1) with (k + 1 + Z.of_nat j + 1) by lia. exact E.
Qed.
End GOOD.

Lemma levels_length n : forall DX DY k prev, length (levels_loop n DX DY k prev) = n.
Proof. induction n as [|n IH]; intros; cbn [M_RangeBounds.levels_loop length]; [reflexivity|rewrite IH; reflexivity]. Qed.

(** ** Access to the levels *)
Lemma level_access (G : T -> Prop) (G1 : forall a b, G a -> G (red a b)) (G2 : forall a b, G b -> G (red a b))
    (im : img T) n k p q : let DX := fst s * im_rows im in let DY := snd s * im_cols im in
  0 <= k < Z.of_nat n -> 0 <= p < im_rows im -> 0 <= q < im_cols im ->
  exists t, at_level (levels_loop n DX DY 0 im) k ((fst s * p) / 2 ^ (k + 1), (snd s * q) / 2 ^ (k + 1)) = Some t /\
    (G (im_px im p q) -> G t).
Proof.
  intros DX DY Hk Hp Hq. unfold at_level. rewrite (proj2 (Z.ltb_ge k 0)) by lia.
  assert (Bx : 0 <= fst s * p < DX) by (unfold DX; nia). assert (By : 0 <= snd s * q < DY) by (unfold DY; nia).
  destruct (nth_error (levels_loop n DX DY 0 im) (Z.to_nat k)) as [lv|] eqn:E.
  2: { apply nth_error_None in E. rewrite levels_length in E. lia. }
  assert (D : before (fun _ => True) DX DY (fst s * p) (snd s * q) (k + 1) lv).
  { replace (k + 1) with (0 + Z.of_nat (Z.to_nat k) + 1) by lia.
    eapply (levels_good (fun _ => True)); try eassumption; auto; [lia|]. unfold before, DX, DY. cbn. split; [ring|split; [ring|exact I]]. }
  unfold before in D. rewrite (proj2 (Z.eqb_neq (k + 1) 0)) in D by lia. destruct D as [D1 [D2 _]].
  rewrite at_px_in by (rewrite ?D1, ?D2; apply ceil_bound; lia).
  eexists. split; [reflexivity|]. intros Hg.
  assert (D : before G DX DY (fst s * p) (snd s * q) (k + 1) lv).
  { replace (k + 1) with (0 + Z.of_nat (Z.to_nat k) + 1) by lia.
    eapply (levels_good G); try eassumption; [lia|]. unfold before, DX, DY. cbn. split; [ring|split; [ring|]].
    rewrite (Z.mul_comm (fst s) p), (Z.mul_comm (snd s) q), !Z.div_mul by lia. exact Hg. }
  unfold before in D. rewrite (proj2 (Z.eqb_neq (k + 1) 0)) in D by lia. apply D.
Qed.
End PYR.

(** ** Columns, with wrapping *)
Lemma wrap_cols cols sy a b q q' bu K (w : bool) e :
  0 < sy -> 0 <= a < cols -> 0 <= b < cols -> 0 <= q < cols ->
  (if w then 0 <= K /\ sy * cols = 2 ^ K /\ bu = b + cols /\ (q' = q \/ q' = q + cols) else bu = b /\ q' = q) ->
  a <= q' <= bu -> 0 <= e -> (sy * bu) / 2 ^ e - (sy * a) / 2 ^ e <= 1 ->
  ((sy * q) / 2 ^ e = (sy * a) / 2 ^ e \/ (sy * q) / 2 ^ e = (sy * b) / 2 ^ e) /\
  ((sy * a) / 2 ^ e = (sy * bu) / 2 ^ e -> (sy * b) / 2 ^ e = (sy * a) / 2 ^ e).
Proof.
  intros Hs Ha Hb Hq Hw Hr He Hd. pose proof (pow2_pos e He) as P.
  assert (Mono : forall x y, x <= y -> (sy * x) / 2 ^ e <= (sy * y) / 2 ^ e) by (intros; apply Z.div_le_mono; nia).
  destruct w.
  - destruct Hw as [HK [HD [-> Hq']]]. destruct (Z_le_gt_dec e K) as [L|L].
    + assert (Sh : forall x, (sy * (x + cols)) / 2 ^ e = (sy * x) / 2 ^ e + 2 ^ (K - e)).
      { intros x. rewrite Z.mul_add_distr_l, HD. replace (2 ^ K) with (2 ^ (K - e) * 2 ^ e) by (rewrite <- Z.pow_add_r by lia; f_equal; lia).
        apply Z.div_add. lia. }
      assert (Lt : forall x, 0 <= x < cols -> 0 <= (sy * x) / 2 ^ e < 2 ^ (K - e)).
      { intros x Hx. split; [apply Z.div_pos; nia|]. apply Z.div_lt_upper_bound; [lia|]. rewrite <- Z.pow_add_r by lia. replace (e + (K - e)) with K by lia. nia. }
      rewrite Sh in *. pose proof (Lt a Ha). pose proof (Lt b Hb). pose proof (Lt q Hq).
      split; [|lia]. destruct Hq' as [-> | ->].
      * left. pose proof (Mono a q). lia.
      * right. pose proof (Mono (q + cols) (b + cols)) as M. rewrite !Sh in M. lia.
    + assert (Z0 : forall x, 0 <= x < cols -> (sy * x) / 2 ^ e = 0).
      { intros x Hx. apply Z.div_small. assert (2 ^ K < 2 ^ e) by (apply Z.pow_lt_mono_r; lia). nia. }
      rewrite !Z0 by assumption. lia.
  - destruct Hw as [-> ->]. pose proof (Mono a q). pose proof (Mono q b). lia.
Qed.

Section QUERY.
Context {T : Type} (red : T -> T -> T) (init : T) (wraps : bool) (s : i2).
Context (Hsx : 0 < fst s) (Hsy : 0 < snd s).
(** Properties that pooling preserves *)
Definition pooled (G : T -> Prop) : Prop := forall a b, G a \/ G b -> G (red a b).
Context (im : img T) (Hr : 0 < im_rows im) (Hc : 0 < im_cols im).
Context (Hw32 : Z.max (fst s * im_rows im) (snd s * im_cols im) < 2 ^ 31).
Notation pix p q := (0 <= p < im_rows im /\ 0 <= q < im_cols im).
Notation lvs n := (levels_loop red init wraps s n (fst s * im_rows im) (snd s * im_cols im) 0 im).

(** [t] is pooled from the pixels in cell [(x, y)] of height [e] (and others) *)
Definition stands_for (e x y : Z) (t : T) : Prop :=
  forall p q, pix p q -> (fst s * p) / 2 ^ e = x -> (snd s * q) / 2 ^ e = y -> forall G, pooled G -> G (im_px im p q) -> G t.

Lemma cell_access n k p1 q1 x y : 0 <= k < Z.of_nat n -> pix p1 q1 ->
  x = (fst s * p1) / 2 ^ (k + 1) -> y = (snd s * q1) / 2 ^ (k + 1) ->
  exists t, at_level (lvs n) k (x, y) = Some t /\ stands_for (k + 1) x y t.
Proof.
  intros Hk [Hp1 Hq1] -> ->.
  destruct (level_access red init wraps s Hsx Hsy (fun _ => True) ltac:(auto) ltac:(auto) im n k p1 q1 Hk Hp1 Hq1) as [t [E _]].
  exists t. split; [exact E|]. intros p q [Hp Hq] Ex Ey G HG Hg.
  destruct (level_access red init wraps s Hsx Hsy G ltac:(intros; apply HG; auto) ltac:(intros; apply HG; auto) im n k p q Hk Hp Hq) as [t' [E' Hg']].
  rewrite Ex, Ey, E in E'. injection E' as <-. auto.
Qed.
Lemma leaf_access p1 q1 : pix p1 q1 ->
  exists t, at_px im (p1, q1) = Some t /\ stands_for 0 (fst s * p1) (snd s * q1) t.
Proof.
  intros [Hp Hq]. rewrite at_px_in by assumption. eexists. split; [reflexivity|]. intros p q _ Ex Ey G _ Hg.
  rewrite Z.pow_0_r, Z.div_1_r in Ex, Ey. assert (p = p1) by nia. assert (q = q1) by nia. subst. exact Hg.
Qed.

(** The rectangle from [mn] to [mx], which wraps around the image if the last column is before the first *)
Definition rect (mn mx : i2) (p q : Z) : Prop :=
  fst mn <= p <= fst mx /\ (if snd mn <=? snd mx then snd mn <= q <= snd mx else snd mn <= q \/ q <= snd mx).

Lemma four_good (at_ : i2 -> option T) (fx fy : Z -> Z) e (a b : i2) :
  (forall x y, x = fst a \/ x = fst b -> y = snd a \/ y = snd b -> exists t, at_ (x, y) = Some t /\ stands_for e (fx x) (fy y) t) ->
  exists t, red2 red (red2 red (red2 red (at_ a) (at_ (fst a, snd b))) (at_ (fst b, snd a))) (at_ b) = Some t /\
    forall x y, x = fst a \/ x = fst b -> y = snd a \/ y = snd b -> stands_for e (fx x) (fy y) t.
Proof.
  intros H. destruct a as [ax ay], b as [bx by_]. cbn [fst snd] in *.
  destruct (H ax ay) as [t1 [-> S1]]; auto. destruct (H ax by_) as [t2 [-> S2]]; auto.
  destruct (H bx ay) as [t3 [-> S3]]; auto. destruct (H bx by_) as [t4 [-> S4]]; auto. cbn [red2].
  eexists. split; [reflexivity|]. intros x y Hx Hy p q Hpq Ex Ey G HG Hg.
  assert (I : forall t, stands_for e (fx x) (fy y) t -> G t) by (intros t St; exact (St p q Hpq Ex Ey G HG Hg)).
  destruct Hx as [-> | ->], Hy as [-> | ->]; [apply I in S1|apply I in S2|apply I in S3|apply I in S4]; auto 10 using HG.
Qed.

Lemma query_good n mn mx :
  n = Z.to_nat (Z.log2_up (Z.max (fst s * im_rows im) (snd s * im_cols im))) ->
  pix (fst mn) (snd mn) -> pix (fst mx) (snd mx) -> fst mn <= fst mx ->
  snd mn <= snd mx \/ (wraps = true /\ exists K, 0 <= K /\ snd s * im_cols im = 2 ^ K) ->
  exists t, query red wraps s im (lvs n) mn mx = Some t /\
    forall p q, pix p q -> rect mn mx p q -> forall G, pooled G -> G (im_px im p q) -> G t.
Proof.
  intros Hn Hmn Hmx Hx Hy. unfold query.
  destruct (i2_eqb mn mx) eqn:Eq.
  { apply i2_eqb_iff in Eq. subst mx. destruct mn as [a b]. cbn [fst snd] in *. rewrite at_px_in by tauto.
    eexists. split; [reflexivity|]. intros p q Hpq R G _ Hg. unfold rect in R. cbn [fst snd] in R. rewrite Z.leb_refl in R.
    assert (p = a) by lia. assert (q = b) by lia. subst. exact Hg. }
  set (w := wraps && (snd mx <? snd mn)).
  set (bu := if w then snd mx + im_cols im else snd mx). cbv zeta. cbn [fst snd].
  assert (Hbu : snd mn <= bu).
  { unfold bu, w. destruct Hy as [Hy|[-> _]]; [|destruct (Z.ltb_spec (snd mx) (snd mn)); cbn [andb]; lia].
    rewrite (proj2 (Z.ltb_ge _ _)) by lia. rewrite andb_false_r. lia. }
  rewrite (proj2 (Z.leb_le _ _) Hx), (proj2 (Z.leb_le _ _) Hbu). cbn [andb negb].
  assert (Hw : if w then exists K, 0 <= K /\ snd s * im_cols im = 2 ^ K else True).
  { unfold w. destruct wraps; cbn [andb]; [|exact I]. destruct (Z.ltb_spec (snd mx) (snd mn)); [|exact I]. destruct Hy as [Hy|[_ Hy]]; [lia|exact Hy]. }
  assert (Hww : w = true -> snd mx < snd mn) by (unfold w; intros E; apply andb_prop in E as [_ E]; apply Z.ltb_lt in E; exact E).
  set (D := Z.max (fst s * fst mx - fst s * fst mn) (snd s * bu - snd s * snd mn)).
  assert (HD1 : 1 <= D).
  { unfold D. destruct (Z.eq_dec (fst mn) (fst mx)) as [E|E]; [|assert (fst s * (fst mx - fst mn) >= 1) by nia; lia].
    assert (snd mn <> bu).
    { intros E'. destruct w eqn:Ew; [unfold bu in *; lia|]. unfold bu in E'. destruct mn, mx; cbn [fst snd] in *; subst.
      rewrite (proj2 (i2_eqb_iff _ _) eq_refl) in Eq. discriminate. }
    assert (snd s * (bu - snd mn) >= 1) by nia. lia. }
  assert (HD2 : D < Z.max (fst s * im_rows im) (snd s * im_cols im)).
  { unfold D. assert (bu - snd mn < im_cols im) by (unfold bu in *; destruct w; [specialize (Hww eq_refl)|]; lia).
    assert (fst s * (fst mx - fst mn) < fst s * im_rows im) by (apply Z.mul_lt_mono_pos_l; lia).
    assert (snd s * (bu - snd mn) < snd s * im_cols im) by (apply Z.mul_lt_mono_pos_l; lia). lia. }
  rewrite (proj2 (Z.eqb_neq D 0)) by lia. rewrite log2_floor_spec by (change (2 ^ Z.of_nat 32) with (2 * 2 ^ 31); lia).
  set (l := Z.log2 D).
  assert (Hl : 0 <= l) by (apply Z.log2_nonneg).
  assert (HlD : 2 ^ l <= D < 2 ^ (l + 1)) by (apply Z.log2_spec; lia).
  assert (Hln : l < Z.of_nat n).
  { rewrite Hn, Z2Nat.id by apply Z.log2_up_nonneg. destruct (Z_lt_le_dec l (Z.log2_up (Z.max (fst s * im_rows im) (snd s * im_cols im)))) as [L|L]; [exact L|].
    pose proof (Z.log2_up_spec (Z.max (fst s * im_rows im) (snd s * im_cols im)) ltac:(lia)) as [_ U].
    pose proof (Z.pow_le_mono_r 2 _ _ ltac:(lia) L). lia. }
  rewrite !div_exp2_floor_spec by lia. rewrite Z.pow_1_r, <- !div_succ by lia.
  (* columns *)
  assert (Col : forall e q, 0 <= e -> 0 <= q < im_cols im -> (if snd mn <=? snd mx then snd mn <= q <= snd mx else snd mn <= q \/ q <= snd mx) ->
    (snd s * bu) / 2 ^ e - (snd s * snd mn) / 2 ^ e <= 1 ->
    ((snd s * q) / 2 ^ e = (snd s * snd mn) / 2 ^ e \/ (snd s * q) / 2 ^ e = (snd s * snd mx) / 2 ^ e) /\
    ((snd s * snd mn) / 2 ^ e = (snd s * bu) / 2 ^ e -> (snd s * snd mx) / 2 ^ e = (snd s * snd mn) / 2 ^ e)).
  { intros e q He Hq Hrect Hd. unfold bu in Hd |- *. destruct w eqn:Ew.
    - specialize (Hww eq_refl). rewrite (proj2 (Z.leb_gt _ _)) in Hrect by lia. destruct Hw as [K [HK HD]].
      destruct Hrect as [Q|Q].
      + apply (wrap_cols (im_cols im) (snd s) (snd mn) (snd mx) q q (snd mx + im_cols im) K true e); try tauto; try lia.
      + apply (wrap_cols (im_cols im) (snd s) (snd mn) (snd mx) q (q + im_cols im) (snd mx + im_cols im) K true e); try tauto; try lia.
    - destruct (Z.leb_spec (snd mn) (snd mx)) as [L|L]; [|exfalso; unfold bu in Hbu; lia].
      apply (wrap_cols (im_cols im) (snd s) (snd mn) (snd mx) q q (snd mx) 0 false e); try tauto; lia. }
  assert (Row : forall e p, 0 <= e -> fst mn <= p <= fst mx -> (fst s * fst mx) / 2 ^ e - (fst s * fst mn) / 2 ^ e <= 1 ->
    (fst s * p) / 2 ^ e = (fst s * fst mn) / 2 ^ e \/ (fst s * p) / 2 ^ e = (fst s * fst mx) / 2 ^ e).
  { intros e p He Hp Hd. assert (P := pow2_pos e He).
    assert ((fst s * fst mn) / 2 ^ e <= (fst s * p) / 2 ^ e) by (apply Z.div_le_mono; nia).
    assert ((fst s * p) / 2 ^ e <= (fst s * fst mx) / 2 ^ e) by (apply Z.div_le_mono; nia). lia. }
  assert (Par : forall a b, a <= b -> b - a <= D -> b / 2 ^ (l + 1) - a / 2 ^ (l + 1) <= 1).
  { intros a b Hab Hd. assert (P := pow2_pos (l + 1) ltac:(lia)). assert (b <= a + 1 * 2 ^ (l + 1)) by lia.
    pose proof (Z.div_le_mono b (a + 1 * 2 ^ (l + 1)) _ P ltac:(lia)) as M. rewrite Z.div_add in M by lia. lia. }
  assert (ParX : (fst s * fst mx) / 2 ^ (l + 1) - (fst s * fst mn) / 2 ^ (l + 1) <= 1)
    by (apply Par; [apply Z.mul_le_mono_nonneg_l; [apply Z.lt_le_incl|]; assumption|unfold D; apply Z.le_max_l]).
  assert (ParY : (snd s * bu) / 2 ^ (l + 1) - (snd s * snd mn) / 2 ^ (l + 1) <= 1)
    by (apply Par; [apply Z.mul_le_mono_nonneg_l; [apply Z.lt_le_incl|]; assumption|unfold D; apply Z.le_max_r]).
  (* cells at the corners *)
  assert (Cor : forall k x y, 0 <= k < Z.of_nat n ->
     x = (fst s * fst mn) / 2 ^ (k + 1) \/ x = (fst s * fst mx) / 2 ^ (k + 1) ->
     y = (snd s * snd mn) / 2 ^ (k + 1) \/ y = (snd s * snd mx) / 2 ^ (k + 1) ->
     exists t, at_level (lvs n) k (x, y) = Some t /\ stands_for (k + 1) x y t).
  { intros k x y Hk [Ex|Ex] [Ey|Ey];
      [exact (cell_access n k _ _ x y Hk Hmn Ex Ey)|exact (cell_access n k _ _ x y Hk (conj (proj1 Hmn) (proj2 Hmx)) Ex Ey)
      |exact (cell_access n k _ _ x y Hk (conj (proj1 Hmx) (proj2 Hmn)) Ex Ey)|exact (cell_access n k _ _ x y Hk Hmx Ex Ey)]. }
  assert (Fin : forall e t, 0 <= e -> (fst s * fst mx) / 2 ^ e - (fst s * fst mn) / 2 ^ e <= 1 ->
     (snd s * bu) / 2 ^ e - (snd s * snd mn) / 2 ^ e <= 1 ->
     (forall x y, x = (fst s * fst mn) / 2 ^ e \/ x = (fst s * fst mx) / 2 ^ e ->
        y = (snd s * snd mn) / 2 ^ e \/ y = (snd s * snd mx) / 2 ^ e -> stands_for e x y t) ->
     forall p q, pix p q -> rect mn mx p q -> forall G, pooled G -> G (im_px im p q) -> G t).
  { intros e t He Dx Dy St p q Hpq [Rx Ry]. destruct (Col e q He (proj2 Hpq) Ry Dy) as [Cq _].
    refine (St _ _ (Row e p He Rx Dx) Cq p q Hpq eq_refl eq_refl). }
  assert (Hl0 : 0 <= l + 1) by (clear - Hl; lia).
  assert (Hl1 : l <> 0 -> 0 <= l - 1 < Z.of_nat n) by (clear - Hl Hln; lia).
  destruct ((Z.abs _ <=? 1) && (Z.abs _ <=? 1)) eqn:Near.
  - apply andb_prop in Near as [Nx Ny]. apply Z.leb_le in Nx, Ny.
    assert (Nx' : (fst s * fst mx) / 2 ^ l - (fst s * fst mn) / 2 ^ l <= 1) by (apply Z.abs_le in Nx; apply Nx).
    assert (Ny' : (snd s * bu) / 2 ^ l - (snd s * snd mn) / 2 ^ l <= 1) by (apply Z.abs_le in Ny; apply Ny). clear Nx Ny.
    destruct (i2_eqb ((fst s * fst mn) / 2 ^ l, _) _) eqn:E1.
    { exfalso. apply i2_eqb_iff in E1. pose proof (f_equal fst E1) as Ex. pose proof (f_equal snd E1) as Ey. cbn [fst snd] in Ex, Ey.
      assert (P := pow2_pos l Hl).
      assert (Bad : forall a b, a / 2 ^ l = b / 2 ^ l -> b - a < 2 ^ l).
      { clear - P. intros a b E. pose proof (Z.div_mod a (2 ^ l) ltac:(lia)). pose proof (Z.div_mod b (2 ^ l) ltac:(lia)).
        pose proof (Z.mod_pos_bound a (2 ^ l) P). pose proof (Z.mod_pos_bound b (2 ^ l) P). rewrite E in *. lia. }
      apply Bad in Ex. apply Bad in Ey. unfold D in HlD. clear - Ex Ey HlD. lia. }
    assert (ColEq : (snd s * snd mn) / 2 ^ l = (snd s * bu) / 2 ^ l -> (snd s * snd mx) / 2 ^ l = (snd s * snd mn) / 2 ^ l).
    { intros E. refine (proj2 (Col l (snd mn) Hl (proj2 Hmn) _ Ny') E). destruct (Z.leb_spec (snd mn) (snd mx)); [split; [apply Z.le_refl|assumption]|left; apply Z.le_refl]. }
    destruct (((fst s * fst mn) / 2 ^ l =? (fst s * fst mx) / 2 ^ l) || ((snd s * snd mn) / 2 ^ l =? (snd s * bu) / 2 ^ l)) eqn:E2.
    + (* two cells *)
      assert (Two : forall (at_ : i2 -> option T) a b, (exists t, at_ a = Some t /\ stands_for l ((fst s * fst mn) / 2 ^ l) ((snd s * snd mn) / 2 ^ l) t) ->
         (exists t, at_ b = Some t /\ stands_for l ((fst s * fst mx) / 2 ^ l) ((snd s * snd mx) / 2 ^ l) t) ->
         exists t, red2 red (at_ a) (at_ b) = Some t /\
           forall p q, pix p q -> rect mn mx p q -> forall G, pooled G -> G (im_px im p q) -> G t).
      { intros at_ a b [t1 [-> S1]] [t2 [-> S2]]. cbn [red2]. eexists. split; [reflexivity|].
        intros p q Hpq R G HG Hg.
        assert (K : ((fst s * p) / 2 ^ l = (fst s * fst mn) / 2 ^ l /\ (snd s * q) / 2 ^ l = (snd s * snd mn) / 2 ^ l) \/
                    ((fst s * p) / 2 ^ l = (fst s * fst mx) / 2 ^ l /\ (snd s * q) / 2 ^ l = (snd s * snd mx) / 2 ^ l)).
        { destruct R as [Rx Ry]. destruct (Col l q Hl (proj2 Hpq) Ry Ny') as [Cq _]. pose proof (Row l p Hl Rx Nx') as Cp.
          apply orb_prop in E2 as [E2|E2]; apply Z.eqb_eq in E2; [|apply ColEq in E2].
          - destruct Cq as [Cq|Cq]; [left|right]; (split; [destruct Cp as [-> | ->]; congruence|exact Cq]).
          - destruct Cp as [Cp|Cp]; [left|right]; (split; [exact Cp|destruct Cq as [-> | ->]; congruence]). }
        apply HG. destruct K as [[K1 K2]|[K1 K2]]; [left; exact (S1 p q Hpq K1 K2 G HG Hg)|right; exact (S2 p q Hpq K1 K2 G HG Hg)]. }
      destruct (Z.eqb_spec l 0) as [L0|L0].
      * rewrite L0, Z.pow_0_r, !Z.div_1_r in Two.
        apply Two; [replace mn with (fst mn, snd mn) at 1 by (destruct mn; reflexivity)|replace mx with (fst mx, snd mx) at 1 by (destruct mx; reflexivity)]; apply leaf_access; assumption.
      * assert (Cor' := Cor (l - 1)). rewrite Z.sub_add in Cor'. specialize (fun x y => Cor' x y (Hl1 L0)).
        apply Two; apply Cor'; auto.
    + destruct (i2_eqb ((fst s * fst mn) / 2 ^ (l + 1), _) _) eqn:E3.
      * (* common parent *)
        apply i2_eqb_iff in E3. pose proof (f_equal fst E3) as Ex. pose proof (f_equal snd E3) as Ey. cbn [fst snd] in Ex, Ey.
        destruct (Cor l _ _ (conj Hl Hln) (or_introl eq_refl) (or_introl eq_refl)) as [t [-> St]]. exists t. split; [reflexivity|].
        apply (Fin (l + 1) t Hl0 ParX ParY).
        assert (Cy : (snd s * snd mx) / 2 ^ (l + 1) = (snd s * snd mn) / 2 ^ (l + 1)).
        { refine (proj2 (Col (l + 1) (snd mn) Hl0 (proj2 Hmn) _ ParY) Ey).
          destruct (Z.leb_spec (snd mn) (snd mx)); [split; [apply Z.le_refl|assumption]|left; apply Z.le_refl]. }
        rewrite Cy, <- Ex. intros x y [-> | ->] [-> | ->]; exact St.
      * destruct (Z.eqb_spec l 0) as [L0|L0].
        -- destruct (four_good (at_px im) (fun x => fst s * x) (fun y => snd s * y) 0 mn mx) as [t [Et St]].
           { intros x y Hx' Hy'. apply leaf_access. destruct Hx' as [-> | ->], Hy' as [-> | ->]; tauto. }
           exists t. split; [exact Et|]. rewrite L0 in Nx', Ny'. apply (Fin 0 t (Z.le_refl 0) Nx' Ny'). rewrite Z.pow_0_r, !Z.div_1_r.
           intros x y [-> | ->] [-> | ->]; apply St; auto.
        -- destruct (four_good (at_level (lvs n) (l - 1)) (fun x => x) (fun y => y) l
             ((fst s * fst mn) / 2 ^ l, (snd s * snd mn) / 2 ^ l) ((fst s * fst mx) / 2 ^ l, (snd s * snd mx) / 2 ^ l)) as [t [Et St]].
           { cbn [fst snd]. intros x y Hx' Hy'. assert (Cor' := Cor (l - 1) x y (Hl1 L0)). rewrite Z.sub_add in Cor'. apply Cor'; assumption. }
           exists t. split; [exact Et|]. apply (Fin l); auto.
  - destruct (four_good (at_level (lvs n) l) (fun x => x) (fun y => y) (l + 1)
      ((fst s * fst mn) / 2 ^ (l + 1), (snd s * snd mn) / 2 ^ (l + 1)) ((fst s * fst mx) / 2 ^ (l + 1), (snd s * snd mx) / 2 ^ (l + 1))) as [t [Et St]].
    { cbn [fst snd]. intros x y Hx' Hy'. apply Cor; auto. }
    exists t. split; [exact Et|]. apply (Fin (l + 1)); auto.
Qed.
End QUERY.

(** ** Pooled values come from the image *)
Section ALL.
Context {T : Type} (red : T -> T -> T) (init : T) (wraps : bool) (s : i2).
Context (Hsx : 0 < fst s) (Hsy : 0 < snd s).
Context (H : T -> Prop) (H0 : H init) (H2 : forall a b, H a -> H b -> H (red a b)).
Definition all_px (im : img T) : Prop := forall x y, 0 <= x < im_rows im -> 0 <= y < im_cols im -> H (im_px im x y).
Lemma reduce4_all prev mn mx : all_px prev -> 0 <= fst mn <= fst mx -> 0 <= snd mn <= snd mx -> H (reduce4 red init wraps prev mn mx).
Proof.
  intros A Bx By. unfold reduce4.
  destruct (Z.ltb_spec (fst mn) (im_rows prev)), (Z.ltb_spec (snd mn) (im_cols prev)); cbn [andb]; try assumption.
  destruct (Z.ltb_spec (fst mx) (im_rows prev)), (Z.ltb_spec (snd mx) (im_cols prev)); try destruct (wraps && _);
    repeat (apply H2 || apply H0 || (apply A; lia)).
Qed.
Lemma level_all dx dy k prev : all_px prev -> all_px (level red init wraps s dx dy k prev).
Proof.
  intros A x y [Hx _] [Hy _]. unfold level. cbn [im_px fst snd].
  destruct (k =? 0); apply reduce4_all; cbn [fst snd]; try assumption; try lia;
    (split; [apply Z.quot_pos; lia|apply Z.quot_le_mono; lia]).
Qed.
Lemma levels_all n : forall dx dy k prev j lv, all_px prev -> nth_error (levels_loop red init wraps s n dx dy k prev) j = Some lv -> all_px lv.
Proof.
  induction n as [|n IH]; intros dx dy k prev j lv A E; [destruct j; discriminate|].
  cbn [levels_loop] in E. destruct j as [|j]; cbn [nth_error] in E.
  - injection E as <-. apply level_all, A.
  - eapply IH; [|exact E]. apply level_all, A.
Qed.
Lemma at_px_all im i t : all_px im -> at_px im i = Some t -> H t.
Proof.
  intros A. unfold at_px. destruct (_ && _) eqn:E; [|discriminate]. intros X; injection X as <-.
  rewrite !andb_true_iff, !Z.leb_le, !Z.ltb_lt in E. apply A; lia.
Qed.
Lemma at_level_all lv k i t : Forall all_px lv -> at_level lv k i = Some t -> H t.
Proof.
  intros A. unfold at_level. destruct (k <? 0); [discriminate|]. destruct (nth_error lv (Z.to_nat k)) as [im|] eqn:E; [|discriminate].
  apply at_px_all. rewrite Forall_forall in A. apply A. eapply nth_error_In; exact E.
Qed.
Lemma red2_all (a b : option T) t : (forall x, a = Some x -> H x) -> (forall x, b = Some x -> H x) -> red2 red a b = Some t -> H t.
Proof. destruct a, b; cbn [red2]; try discriminate. intros A B E; injection E as <-. auto. Qed.
Lemma query_all im lv mn mx t : all_px im -> Forall all_px lv -> query red wraps s im lv mn mx = Some t -> H t.
Proof.
  intros A B. unfold query. cbv zeta.
  assert (R1 : forall i t, at_px im i = Some t -> H t) by (intros i x; apply at_px_all; exact A).
  assert (R2 : forall k i t, at_level lv k i = Some t -> H t) by (intros k i x; apply at_level_all; exact B).
  destruct (i2_eqb mn mx); [apply R1|]. destruct (negb _); [discriminate|].
  match goal with |- context [match ?o with Some _ => _ | None => _ end] => destruct o as [l|] end; [|discriminate].
  repeat match goal with |- context [if ?b then _ else _] => match type of b with bool => destruct b end end; try discriminate;
    intros E; repeat first [exact (R1 _ _ E)|exact (R2 _ _ _ E)|refine (red2_all _ _ _ _ _ E); clear E; [intros ? E|intros ? E]].
Qed.
End ALL.
