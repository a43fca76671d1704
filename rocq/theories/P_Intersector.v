(** C40: the update types of cells are sound. *)
From Verif Require Import Base M_IntMath F_IntMath M_Point M_Image M_RangeBounds F_RangeBounds P_RangeBounds M_Measure F_Measure P_Measure M_Intersector.
From Coq Require Import QArith Qround Qabs Lqa.
Close Scope Q_scope.
Open Scope Z_scope.

(** ** Specification *)
(** Pixel [i] may be used for a point with image coordinates [c]: on both axes the centre of the pixel is less than the
    angular padding plus one pixel away *)
Definition near_pixel (P : projector) (thr : Q) (c : v2) (i : i2) : Prop :=
  (Qabs (fst (indexToImage P i) - fst c) < fst (pb_scale P) + thr)%Q /\
  (Qabs (snd (indexToImage P i) - snd c) < snd (pb_scale P) + thr)%Q.
(** An interval of image coordinates encloses [c]. An interval whose start is above its end contains what is not between
    the two; the gap must be larger than the padding and a pixel at either side. *)
Definition axis_encloses (thr pitch lo hi c : Q) : Prop :=
  (lo <= hi /\ lo <= c <= hi)%Q \/ (hi + 2 * (thr + pitch) <= lo /\ (c <= hi \/ lo <= c))%Q.
(** A sensor box encloses the sensor coordinates of a point. If the box wraps around along the second axis and the image is
    periodic along it, then the ends of the interval are in the image (the image covers the whole circle). *)
Definition encloses {T} (P : projector) (im : img T) (wraps : bool) (thr : Q) (b : saabb) (s : sensor) : Prop :=
  (zmin b <= snd s <= zmax b)%Q /\
  axis_encloses thr (fst (pb_scale P)) (fst (smin b)) (fst (smax b)) (fst (fst s)) /\
  axis_encloses thr (snd (pb_scale P)) (snd (smin b)) (snd (smax b)) (snd (fst s)) /\
  (wraps = true -> (snd (smax b) < snd (smin b))%Q ->
   (snd (pb_offset P) - snd (pb_scale P) < snd (smax b))%Q /\ (snd (smin b) < snd (pb_offset P) + inject_Z (im_cols im) * snd (pb_scale P))%Q).
(** The projectors and images the integrator is built for *)
Definition valid_setup {T} (P : projector) (im : img T) (wraps : bool) (thr : Q) : Prop :=
  (0 < fst (pb_scale P))%Q /\ (0 < snd (pb_scale P))%Q /\ (0 <= thr)%Q /\ valid_image (scale_factor (Some P)) im /\
  (wraps = true -> exists K, 0 <= K /\ im_cols im = 2 ^ K).

(** ** From image coordinates to pixels *)
Lemma real_le s o a b : (0 < s)%Q -> (a <= b)%Q -> ((a - o) * (1 / s) <= (b - o) * (1 / s))%Q.
Proof. intros S L. apply Qmult_le_compat_r; [lra|]. apply Qlt_le_weak. apply Qlt_shift_div_l; lra. Qed.
Lemma real_gap s o a b : (0 < s)%Q -> (a + 2 * s <= b)%Q -> ((a - o) * (1 / s) + 2 <= (b - o) * (1 / s))%Q.
Proof.
  intros S L. pose proof (real_le s o _ _ S L) as R. setoid_replace ((a + 2 * s - o) * (1 / s))%Q with ((a - o) * (1 / s) + 2)%Q in R by (field; lra). exact R.
Qed.
Lemma near_le s o thr c hi i : (0 < s)%Q -> (Qabs (inject_Z i * s + o - c) < s + thr)%Q -> (c <= hi)%Q -> i <= Qceiling ((hi + thr - o) * (1 / s)).
Proof.
  intros S N L. apply Qabs_Qlt_condition in N as [_ N].
  set (r := ((hi + thr - o) * (1 / s))%Q). assert (E : (r * s == hi + thr - o)%Q) by (unfold r; field; lra). clearbody r.
  pose proof (Qle_ceiling r) as C. set (k := Qceiling r) in *. clearbody k.
  assert (B : (inject_Z i < inject_Z (k + 1))%Q).
  { rewrite inject_Z_plus. change (inject_Z 1) with 1%Q. apply Qnot_le_lt. intros G. assert (((inject_Z k + 1) * s <= inject_Z i * s)%Q) by (apply Qmult_le_compat_r; lra).
    assert ((r * s <= inject_Z k * s)%Q) by (apply Qmult_le_compat_r; lra). lra. }
  rewrite <- Zlt_Qlt in B. lia.
Qed.
Lemma near_ge s o thr c lo i : (0 < s)%Q -> (Qabs (inject_Z i * s + o - c) < s + thr)%Q -> (lo <= c)%Q -> Qfloor ((lo - thr - o) * (1 / s)) <= i.
Proof.
  intros S N L. apply Qabs_Qlt_condition in N as [N _].
  set (r := ((lo - thr - o) * (1 / s))%Q). assert (E : (r * s == lo - thr - o)%Q) by (unfold r; field; lra). clearbody r.
  pose proof (Qfloor_le r) as C. set (k := Qfloor r) in *. clearbody k.
  assert (B : (inject_Z k < inject_Z (i + 1))%Q).
  { rewrite inject_Z_plus. change (inject_Z 1) with 1%Q. apply Qnot_le_lt. intros G. assert (((inject_Z i + 1) * s <= inject_Z k * s)%Q) by (apply Qmult_le_compat_r; lra).
    assert ((inject_Z k * s <= r * s)%Q) by (apply Qmult_le_compat_r; lra). lra. }
  rewrite <- Zlt_Qlt in B. lia.
Qed.
(** The interval of pixel indices of an axis *)
Lemma axis_pixels s o thr lo hi c i : (0 < s)%Q -> (0 <= thr)%Q -> axis_encloses thr s lo hi c -> (Qabs (inject_Z i * s + o - c) < s + thr)%Q ->
  let a := Qfloor ((lo - thr - o) * (1 / s)) in let b := Qceiling ((hi + thr - o) * (1 / s)) in
  ((lo <= hi)%Q /\ a <= b /\ a <= i <= b) \/ ((hi < lo)%Q /\ b < a /\ (i <= b \/ a <= i)).
Proof.
  intros S T [(L & C1 & C2)|(G & C)] N a b.
  - left. split; [exact L|]. assert (A : a <= i) by (unfold a; eapply near_ge; eassumption). assert (B : i <= b) by (unfold b; eapply near_le; eassumption). lia.
  - right. split; [lra|]. split.
    + assert (R : ((hi + thr - o) * (1 / s) + 2 <= (lo - thr - o) * (1 / s))%Q) by (apply real_gap; [exact S|lra]).
      unfold a, b. set (x := ((hi + thr - o) * (1 / s))%Q) in *. set (y := ((lo - thr - o) * (1 / s))%Q) in *. clearbody x y.
      pose proof (Qceiling_lt x) as X. pose proof (Qlt_floor y) as Y. rewrite Zlt_Qlt.
      unfold Z.sub in X. rewrite inject_Z_plus in X, Y. change (inject_Z 1) with 1%Q in Y. change (inject_Z (- (1))) with (-1)%Q in X. lra.
    + destruct C as [C|C]; [left; unfold b; eapply near_le; eassumption|right; unfold a; eapply near_ge; eassumption].
Qed.

Section SOUND.
Context (P : projector) (im : img Q) (wraps : bool) (min_range max_range thr front behind : Q).
Context (HS : valid_setup P im wraps thr).
Notation sf := (scale_factor (Some P)).
Lemma sf_ok : P_RangeBounds.valid_scale sf.
Proof. apply C39_scale_factor; destruct HS as (A & B & _); lra. Qed.
Definition lo_idx (b : saabb) := imageToFloorIndex P (fst (smin b) - thr, snd (smin b) - thr)%Q.
Definition hi_idx (b : saabb) := imageToCeilIndex P (fst (smax b) + thr, snd (smax b) + thr)%Q.
Definition clamp_lo (mn : i2) : i2 := (Z.max (fst mn) 0, Z.max (snd mn) 0).
Definition clamp_hi (mx : i2) : i2 := (Z.min (fst mx) (im_rows im - 1), Z.min (snd mx) (im_cols im - 1)).
Lemma clamp_valid mn mx : fst mn <= fst mx -> (wraps = true \/ snd mn <= snd mx) -> 0 <= fst mx -> 0 <= snd mx -> fst mn < im_rows im -> snd mn < im_cols im ->
  valid_rect im wraps (clamp_lo mn) (clamp_hi mx).
Proof.
  intros A B C D E F. destruct HS as (_ & _ & _ & (R & K & _) & W). unfold valid_rect, in_image, clamp_lo, clamp_hi. cbn [fst snd].
  split; [lia|]. split; [lia|]. split; [lia|]. destruct wraps; [|left; lia].
  destruct (Z_le_gt_dec (snd mn) (snd mx)); [left; lia|right]. split; [reflexivity|apply W; reflexivity].
Qed.
(** What getUpdateType says about the pixels of the rectangle *)
Lemma type_pixels mn mx rmin rmax : valid_rect im wraps (clamp_lo mn) (clamp_hi mx) ->
  exists u, getUpdateType im min_range wraps sf mn mx rmin rmax = Some u /\
  (forall p q, in_image im p q -> in_rect (clamp_lo mn) (clamp_hi mx) p q ->
    (u = kFullyUnobserved -> observed_px im min_range p q -> im_px im p q < rmin)%Q /\
    (u = kFullyFree -> observed_px im min_range p q /\ rmax < im_px im p q)%Q /\
    (u = kFreeOrUnobserved -> observed_px im min_range p q -> rmax < im_px im p q)%Q) /\
  (u = kFullyFree -> clamp_lo mn = mn /\ clamp_hi mx = mx).
Proof.
  intros V. assert (VI : valid_image sf im) by (destruct HS as (_ & _ & _ & H & _); exact H).
  destruct (C39_bounds_conservative sf im min_range wraps _ _ sf_ok VI V) as (lo & hi & E & B).
  destruct (C39_has_unobserved sf im min_range wraps _ _ sf_ok VI V) as (h & EH & H).
  unfold getUpdateType. fold (clamp_lo mn). fold (clamp_hi mx). rewrite E.
  destruct (qltb hi rmin) eqn:L1.
  { exists kFullyUnobserved. split; [reflexivity|]. apply P_RangeBounds.qltb_true in L1. split; [|discriminate]. intros p q Hp Hq.
    split; [|split; discriminate]. intros _ O. specialize (B p q Hp Hq O). lra. }
  destruct (qltb rmax lo) eqn:L2.
  2:{ exists kPossiblyOccupied. split; [reflexivity|]. split; [|discriminate]. intros p q Hp Hq. split; [|split]; discriminate. }
  apply P_RangeBounds.qltb_true in L2.
  assert (FU : forall p q, in_image im p q -> in_rect (clamp_lo mn) (clamp_hi mx) p q -> observed_px im min_range p q -> (rmax < im_px im p q)%Q).
  { intros p q Hp Hq O. specialize (B p q Hp Hq O). lra. }
  destruct (negb (i2_eqb mn (clamp_lo mn)) || negb (i2_eqb mx (clamp_hi mx))) eqn:CL.
  { exists kFreeOrUnobserved. split; [reflexivity|]. split; [|discriminate]. intros p q Hp Hq. split; [discriminate|]. split; [discriminate|]. intros _. apply FU; assumption. }
  rewrite EH. destruct h.
  { exists kFreeOrUnobserved. split; [reflexivity|]. split; [|discriminate]. intros p q Hp Hq. split; [discriminate|]. split; [discriminate|]. intros _. apply FU; assumption. }
  exists kFullyFree. split; [reflexivity|]. split.
  - intros p q Hp Hq. split; [discriminate|]. split; [|discriminate]. intros _.
    assert (O : observed_px im min_range p q).
    { unfold observed_px. destruct (Qlt_le_dec (im_px im p q) min_range) as [L|L]; [|exact L]. exfalso.
      assert (false = true); [|discriminate]. apply H. exists p, q. split; [exact Hp|]. split; [exact Hq|]. unfold observed_px. lra. }
    split; [exact O|]. apply FU; assumption.
  - intros _. apply orb_false_iff in CL as [C1 C2]. apply negb_false_iff in C1, C2. unfold i2_eqb in C1, C2. apply andb_true_iff in C1 as [C1 C1'], C2 as [C2 C2'].
    apply Z.eqb_eq in C1, C1', C2, C2'. destruct mn, mx. unfold clamp_lo, clamp_hi in *. cbn [fst snd] in *. split; congruence.
Qed.
End SOUND.

(** determineUpdateType always succeeds: no access outside of the image or the pyramid. *)
Theorem C40_total : forall P im wraps min_range max_range thr front behind contains b,
  valid_setup P im wraps thr -> exists u, determineUpdateType P im wraps min_range max_range thr front behind contains b = Some u.
Proof.
  intros P im wraps mr xr thr front behind contains b HS. unfold determineUpdateType.
  destruct contains; [eexists; reflexivity|]. destruct (qltb _ _ || qltb _ _); [eexists; reflexivity|].
  fold (lo_idx P thr b). fold (hi_idx P thr b). generalize (lo_idx P thr b) (hi_idx P thr b). intros mn mx. cbv zeta.
  destruct ((fst mx <? fst mn) || (negb wraps && (snd mx <? snd mn))) eqn:W.
  { match goal with |- context [if ?x then _ else _] => destruct x end; eexists; reflexivity. }
  destruct ((fst mx <? 0) || _ || _ || _) eqn:F; [eexists; reflexivity|].
  apply orb_false_iff in W as [W1 W2]. apply Z.ltb_ge in W1. apply orb_false_iff in F as [F F4]. apply orb_false_iff in F as [F F3]. apply orb_false_iff in F as [F1 F2].
  apply Z.ltb_ge in F1, F2. apply Z.leb_gt in F3, F4.
  destruct (type_pixels P im wraps mr thr HS mn mx (zmin b - behind) (zmax b + front)) as (u & E & _).
  - apply (clamp_valid P im wraps thr HS); try assumption. destruct wraps; [left; reflexivity|right]. cbn [negb andb] in W2. apply Z.ltb_ge in W2. exact W2.
  - exists u. exact E.
Qed.
Print Assumptions C40_total.

(** Missing for the full property: that the sensor boxes of all projectors enclose their cells. C40_pinhole proves it for cells in
    front of a camera; C40_spherical_box_refuted and C40_pinhole_behind_refuted show where it is false.
    The decision is sound for every point [s] of a cell whose sensor box encloses it, and every pixel near the point.
    Unobserved: the point is out of the sensor's range or behind what the pixel measured. Fully free: the pixel measured a
    range beyond the point, and no pixel is outside of the image (unless the cell is on the seam of a periodic image). Free
    or unobserved: the pixel measured a range beyond the point or nothing. *)
Theorem C40_update_type_partial : forall P im wraps min_range max_range thr front behind b s u,
  valid_setup P im wraps thr -> encloses P im wraps thr b s ->
  determineUpdateType P im wraps min_range max_range thr front behind false b = Some u ->
  (forall p q, in_image im p q -> near_pixel P thr (fst s) (p, q) ->
    (u = kFullyUnobserved -> snd s < min_range \/ max_range < snd s \/ (observed_px im min_range p q -> im_px im p q + behind < snd s))%Q /\
    (u = kFullyFree -> observed_px im min_range p q /\ snd s + front < im_px im p q)%Q /\
    (u = kFreeOrUnobserved -> observed_px im min_range p q -> snd s + front < im_px im p q)%Q) /\
  (u = kFullyFree -> (snd (smin b) <= snd (smax b))%Q -> forall p q, near_pixel P thr (fst s) (p, q) -> in_image im p q).
Proof.
  intros P im wraps mr xr thr front behind b [c z] u HS (Hz & HX & HY & HW). cbn [fst snd] in *. unfold determineUpdateType.
  destruct (qltb xr (zmin b) || qltb (zmax b) mr) eqn:Z0.
  { intros E. injection E as <-. split; [|discriminate]. intros p q _ _. split; [|split; discriminate]. intros _.
    apply orb_true_iff in Z0 as [Z0|Z0]; apply P_RangeBounds.qltb_true in Z0; [right; left|left]; lra. }
  clear Z0. cbv zeta. fold (lo_idx P thr b). fold (hi_idx P thr b).
  pose proof HS as (SX & SY & HT & (R0 & C0 & _) & HK).
  (* the axes *)
  assert (AX : forall p q, near_pixel P thr c (p, q) ->
    ((fst (smin b) <= fst (smax b))%Q /\ fst (lo_idx P thr b) <= fst (hi_idx P thr b) /\ fst (lo_idx P thr b) <= p <= fst (hi_idx P thr b)) \/
    ((fst (smax b) < fst (smin b))%Q /\ fst (hi_idx P thr b) < fst (lo_idx P thr b) /\ (p <= fst (hi_idx P thr b) \/ fst (lo_idx P thr b) <= p))).
  { intros p q [N _]. exact (axis_pixels _ _ _ _ _ _ p SX HT HX N). }
  assert (AY : forall p q, near_pixel P thr c (p, q) ->
    ((snd (smin b) <= snd (smax b))%Q /\ snd (lo_idx P thr b) <= snd (hi_idx P thr b) /\ snd (lo_idx P thr b) <= q <= snd (hi_idx P thr b)) \/
    ((snd (smax b) < snd (smin b))%Q /\ snd (hi_idx P thr b) < snd (lo_idx P thr b) /\ (q <= snd (hi_idx P thr b) \/ snd (lo_idx P thr b) <= q))).
  { intros p q [_ N]. exact (axis_pixels _ _ _ _ _ _ q SY HT HY N). }
  assert (SEAM : wraps = true -> (snd (smax b) < snd (smin b))%Q -> 0 <= snd (hi_idx P thr b) /\ snd (lo_idx P thr b) < im_cols im).
  { intros W L. destruct (HW W L) as [A B]. unfold hi_idx, lo_idx, imageToCeilIndex, imageToFloorIndex, imageToIndexReal, pb_inv. cbn [fst snd].
    set (s := snd (pb_scale P)) in *. set (o := snd (pb_offset P)) in *. split.
    - assert (L1 : (-1 < (snd (smax b) + thr - o) * (1 / s))%Q).
      { setoid_replace ((snd (smax b) + thr - o) * (1 / s))%Q with ((snd (smax b) + thr - o) / s)%Q by (field; lra). apply Qlt_shift_div_l; [exact SY|lra]. }
      pose proof (Qle_ceiling ((snd (smax b) + thr - o) * (1 / s))) as C. assert (D : (inject_Z (-1) < inject_Z (Qceiling ((snd (smax b) + thr - o) * (1 / s))))%Q) by (change (inject_Z (-1)) with (-1)%Q; lra).
      rewrite <- Zlt_Qlt in D. lia.
    - assert (L1 : ((snd (smin b) - thr - o) * (1 / s) < inject_Z (im_cols im))%Q).
      { setoid_replace ((snd (smin b) - thr - o) * (1 / s))%Q with ((snd (smin b) - thr - o) / s)%Q by (field; lra). apply Qlt_shift_div_r; [exact SY|lra]. }
      pose proof (Qfloor_le ((snd (smin b) - thr - o) * (1 / s))) as C. rewrite Zlt_Qlt. lra. }
  revert AX AY SEAM. generalize (lo_idx P thr b) (hi_idx P thr b). intros mn mx AX AY SEAM.
  destruct ((fst mx <? fst mn) || (negb wraps && (snd mx <? snd mn))) eqn:W.
  { match goal with |- context [if ?x then _ else _] => destruct x eqn:O end; intros E; injection E as <-.
    2:{ split; [|discriminate]. intros p q _ _. split; [|split]; discriminate. }
    split; [|discriminate]. intros p q Hp N. split; [|split; discriminate]. intros _. exfalso.
    specialize (AX p q N). specialize (AY p q N). destruct Hp as [Hp Hq].
    apply andb_true_iff in O as [O1 O2]. apply orb_true_iff in W as [W|W].
    - rewrite W in O1. cbn [negb orb] in O1. apply andb_true_iff in O1 as [O1 O1']. apply Z.ltb_lt in W, O1, O1'. lia.
    - apply andb_true_iff in W as [W1 W]. apply negb_true_iff in W1. rewrite W1, W in O2. cbn [negb orb] in O2.
      apply andb_true_iff in O2 as [O2 O2']. apply Z.ltb_lt in W, O2, O2'. lia. }
  apply orb_false_iff in W as [W1 W2]. apply Z.ltb_ge in W1.
  destruct ((fst mx <? 0) || _ || _ || _) eqn:F.
  { intros E. injection E as <-. split; [|discriminate]. intros p q [Hp Hq] N. split; [|split; discriminate]. intros _. exfalso.
    specialize (AX p q N). specialize (AY p q N). rewrite !orb_true_iff, !Z.ltb_lt, !Z.leb_le in F.
    destruct AY as [AY|AY]; [lia|]. destruct wraps; [|cbn [negb andb] in W2; apply Z.ltb_ge in W2; lia].
    destruct (SEAM eq_refl (proj1 AY)). lia. }
  apply orb_false_iff in F as [F F4]. apply orb_false_iff in F as [F F3]. apply orb_false_iff in F as [F1 F2].
  apply Z.ltb_ge in F1, F2. apply Z.leb_gt in F3, F4.
  assert (V : valid_rect im wraps (clamp_lo mn) (clamp_hi im mx)).
  { apply (clamp_valid P im wraps thr HS); try assumption. destruct wraps; [left; reflexivity|right]. cbn [negb andb] in W2. apply Z.ltb_ge in W2. exact W2. }
  destruct (type_pixels P im wraps mr thr HS mn mx (zmin b - behind) (zmax b + front) V) as (u' & -> & T & TF).
  intros E. injection E as ->. split.
  - intros p q Hp N. pose proof (AX p q N) as X. pose proof (AY p q N) as Y.
    assert (IR : in_rect (clamp_lo mn) (clamp_hi im mx) p q).
    { destruct Hp as [Hp Hq]. unfold in_rect, clamp_lo, clamp_hi. cbn [fst snd]. split; [lia|]. destruct Y as [Y|(L & Y & Y')]; [left; lia|].
      destruct wraps; [|cbn [negb andb] in W2; apply Z.ltb_ge in W2; lia]. destruct (SEAM eq_refl L). right. lia. }
    destruct (T p q Hp IR) as (T1 & T2 & T3). split; [|split].
    + intros -> . right. right. intros O. specialize (T1 eq_refl O). lra.
    + intros -> . destruct (T2 eq_refl). split; [assumption|lra].
    + intros -> O. specialize (T3 eq_refl O). lra.
  - intros -> L p q N. specialize (AX p q N). specialize (AY p q N). destruct (TF eq_refl) as [C1 C2]. unfold clamp_lo, clamp_hi in C1, C2.
    destruct mn as [mn1 mn2], mx as [mx1 mx2]. cbn [fst snd] in *. injection C1 as C1 C1'. injection C2 as C2 C2'. unfold in_image.
    destruct AX as [AX|AX]; [|lia]. destruct AY as [AY|AY]; [lia|]. lra.
Qed.
Print Assumptions C40_update_type_partial.
