(** C39: the bounds of the hierarchical range image are conservative. *)
From Verif Require Import Base M_IntMath F_IntMath M_Image M_RangeBounds F_RangeBounds.
From Coq Require Import QArith Qround Qabs Lqa.
Close Scope Q_scope.
Open Scope Z_scope.

(** ** Specification *)
Definition in_image {T} (im : img T) (p q : Z) : Prop := 0 <= p < im_rows im /\ 0 <= q < im_cols im.
(** A pixel is observed if its range is at least the smallest range of the sensor *)
Definition observed_px (im : img Q) (min_range : Q) (p q : Z) : Prop := (min_range <= im_px im p q)%Q.
(** Pixel (p, q) is in the rectangle from [mn] to [mx]; the rectangle may go past the last column into the first one *)
Definition in_rect (mn mx : i2) (p q : Z) : Prop :=
  fst mn <= p <= fst mx /\ (snd mn <= snd mx /\ snd mn <= q <= snd mx \/ snd mx < snd mn /\ (snd mn <= q \/ q <= snd mx)).
(** The images and rectangles the class is meant for: the corners are pixels, and only an image that wraps around and has
    a power of two of columns is accessed with a wrapping rectangle *)
Definition valid_image {T} (s : i2) (im : img T) : Prop :=
  0 < im_rows im /\ 0 < im_cols im /\ Z.max (fst s * im_rows im) (snd s * im_cols im) < 2 ^ 31.
Definition valid_rect (im : img Q) (wraps : bool) (mn mx : i2) : Prop :=
  in_image im (fst mn) (snd mn) /\ in_image im (fst mx) (snd mx) /\ fst mn <= fst mx /\
  (snd mn <= snd mx \/ wraps = true /\ exists K, 0 <= K /\ im_cols im = 2 ^ K).
Definition valid_scale (s : i2) : Prop := (fst s = 1 \/ fst s = 2) /\ (snd s = 1 \/ snd s = 2) /\ (fst s = 1 \/ snd s = 1).

(** ** The scale factor *)
Lemma qltb_true a b : qltb a b = true <-> (a < b)%Q.
Proof. unfold qltb. rewrite negb_true_iff, <- not_true_iff_false, Qle_bool_iff. split; [apply Qnot_le_lt|apply Qlt_not_le]. Qed.
Lemma qltb_false' a b : qltb a b = false <-> (b <= a)%Q.
Proof. unfold qltb. rewrite negb_false_iff. apply Qle_bool_iff. Qed.
(** The CHECKs of the constructor hold for every projector with non-zero strides. *)
Theorem C39_scale_factor : forall P : projector, ~ (fst (pb_scale P) == 0)%Q -> ~ (snd (pb_scale P) == 0)%Q ->
  valid_scale (scale_factor (Some P)).
Proof.
  intros P Hx Hy. unfold scale_factor.
  set (dx := Qabs (fst (indexToImage P (1, 1)) - fst (indexToImage P (0, 0)))).
  set (dy := Qabs (snd (indexToImage P (1, 1)) - snd (indexToImage P (0, 0)))).
  assert (Px : (0 < dx)%Q).
  { assert (E : (dx == Qabs (fst (pb_scale P)))%Q) by (unfold dx, indexToImage; cbn [fst snd]; change (inject_Z 1) with 1%Q; change (inject_Z 0) with 0%Q; apply Qabs_wd; ring).
    rewrite E. apply Qnot_le_lt. intros L. apply Hx. destruct (Qabs_Qle_condition (fst (pb_scale P)) 0) as [Q _]. specialize (Q L). lra. }
  assert (Py : (0 < dy)%Q).
  { assert (E : (dy == Qabs (snd (pb_scale P)))%Q) by (unfold dy, indexToImage; cbn [fst snd]; change (inject_Z 1) with 1%Q; change (inject_Z 0) with 0%Q; apply Qabs_wd; ring).
    rewrite E. apply Qnot_le_lt. intros L. apply Hy. destruct (Qabs_Qle_condition (snd (pb_scale P)) 0) as [Q _]. specialize (Q L). lra. }
  clearbody dx dy. clear Hx Hy P.
  set (m := if qltb dy dx then dy else dx).
  assert (Pm : (0 < m)%Q /\ (m <= dx)%Q /\ (m <= dy)%Q /\ (m = dx \/ m = dy)).
  { unfold m. destruct (qltb dy dx) eqn:E; [apply qltb_true in E|apply qltb_false' in E]; repeat split; try lra; auto. }
  clearbody m. destruct Pm as (Pm & Mx & My & Mm).
  set (f := fun d => Qfloor (if qltb 2 (d / m) then 2%Q else (d / m)%Q)).
  assert (F : forall d, (m <= d)%Q -> f d = 1 \/ f d = 2).
  { intros d Hd. unfold f. assert (H1 : (1 <= d / m)%Q) by (apply Qle_shift_div_l; lra).
    assert (H2 : 1 <= Qfloor (if qltb 2 (d / m) then 2%Q else (d / m)%Q) <= 2).
    { split.
      - apply (Qfloor_resp_le 1). destruct (qltb 2 (d / m)); [unfold Qle; cbn; lia|assumption].
      - apply (Qfloor_resp_le _ 2). destruct (qltb 2 (d / m)) eqn:E; [apply Qle_refl|]. apply qltb_false' in E. exact E. }
    lia. }
  assert (F1 : forall d, d = m -> f d = 1).
  { intros d ->. unfold f. assert (E : (m / m == 1)%Q) by (apply Qmult_inv_r; lra).
    destruct (qltb 2 (m / m)) eqn:L; [apply qltb_true in L; lra|]. rewrite E. reflexivity. }
  unfold valid_scale. cbn [fst snd]. change (Qfloor _) with (f dx) at 1 2 5. change (Qfloor _) with (f dy).
  split; [exact (F dx Mx)|]. split; [exact (F dy My)|]. destruct Mm as [E|E]; [left|right]; apply F1; symmetry; exact E.
Qed.
Print Assumptions C39_scale_factor.

(** ** The pyramids *)
Lemma in_rect_rect mn mx p q : in_rect mn mx p q <-> rect mn mx p q.
Proof. unfold in_rect, rect. destruct (Z.leb_spec (snd mn) (snd mx)); lia. Qed.
Lemma pyr_eq {T} (red : T -> T -> T) init wraps s (im : img T) : 0 < fst s -> 0 < snd s -> 0 < im_rows im -> 0 < im_cols im ->
  Z.max (fst s * im_rows im) (snd s * im_cols im) < 2 ^ 31 -> computeReducedPyramid red init wraps s im =
  Some (levels_loop red init wraps s (Z.to_nat (Z.log2_up (Z.max (fst s * im_rows im) (snd s * im_cols im))))
          (fst s * im_rows im) (snd s * im_cols im) 0 im).
Proof.
  intros S1 S2 R C M. assert (0 < fst s * im_rows im) by lia. assert (0 < snd s * im_cols im) by lia.
  unfold computeReducedPyramid. rewrite log2_ceil_spec by lia.
  assert (E : negb wraps || negb (popcount 32 (im_cols im) =? 0) = true); [|rewrite E; reflexivity].
  destruct wraps; [|reflexivity]. cbn [negb orb]. apply negb_true_iff, Z.eqb_neq. intros Q.
  apply popcount_zero in Q; [lia|]. change (2 ^ Z.of_nat 32) with (2 ^ 32). nia.
Qed.
Lemma vs_pos s : valid_scale s -> 0 < fst s /\ 0 < snd s.
Proof. unfold valid_scale. lia. Qed.
Lemma scaled_pow2 s im (wraps : bool) mn mx : valid_scale s -> valid_rect im wraps mn mx ->
  snd mn <= snd mx \/ (wraps = true /\ exists K, 0 <= K /\ snd s * im_cols im = 2 ^ K).
Proof.
  intros (_ & S & _) (_ & _ & _ & [L|[W [K [HK E]]]]); [left; exact L|right]. split; [exact W|]. destruct S as [-> | ->].
  - exists K. lia.
  - exists (K + 1). rewrite Z.pow_add_r by lia. lia.
Qed.
Section ANYTREE.
Context {T : Type} (red : T -> T -> T) (init : T) (f : Q -> T) (wraps : bool) (s : i2) (im : img Q).
Context (Hs : valid_scale s) (Hi : valid_image s im).
Let tim := transform f im.
Lemma ask_rect mn mx : valid_rect im wraps mn mx ->
  exists t, obind (computeReducedPyramid red init wraps s tim) (fun lv => query red wraps s tim lv mn mx) = Some t /\
    forall p q, in_image im p q -> in_rect mn mx p q -> forall G, pooled red G -> G (f (im_px im p q)) -> G t.
Proof.
  intros Hv. destruct (vs_pos s Hs) as [S1 S2]. destruct Hi as (R & C & M). pose proof (scaled_pow2 s im wraps mn mx Hs Hv) as W.
  destruct Hv as (A & B & L & _). unfold tim. rewrite pyr_eq by assumption. cbn [obind].
  destruct (query_good red init wraps s S1 S2 (transform f im) R C M _ mn mx eq_refl A B L W) as (t & Q & K).
  exists t. split; [exact Q|]. intros p q Hp Hq G PG HG. apply (K p q Hp); [apply in_rect_rect; exact Hq|exact PG|exact HG].
Qed.
Lemma ask_node h i : 0 < h <= Z.log2_up (Z.max (fst s * im_rows im) (snd s * im_cols im)) ->
  (exists p q, in_image im p q /\ fst i = fst s * p / 2 ^ h /\ snd i = snd s * q / 2 ^ h) ->
  exists t, obind (computeReducedPyramid red init wraps s tim) (fun lv => node_query lv h i) = Some t /\
    forall p q, in_image im p q -> fst i = fst s * p / 2 ^ h -> snd i = snd s * q / 2 ^ h ->
      forall G, pooled red G -> G (f (im_px im p q)) -> G t.
Proof.
  intros Hh (p & q & Hp & E1 & E2). destruct (vs_pos s Hs) as [S1 S2]. destruct Hi as (R & C & M).
  unfold tim. rewrite pyr_eq by assumption. cbn [obind]. unfold node_query.
  destruct i as [x y]. cbn [fst snd] in *.
  destruct (cell_access red init wraps s S1 S2 (transform f im) (Z.to_nat (Z.log2_up (Z.max (fst s * im_rows im) (snd s * im_cols im)))) (h - 1) p q x y) as (t & Q & K);
    [lia|exact Hp|rewrite Z.sub_add; exact E1|rewrite Z.sub_add; exact E2|].
  exists t. split; [exact Q|]. intros p' q' Hp' E1' E2' G PG HG. unfold stands_for in K. rewrite Z.sub_add in K.
  apply (K p' q' Hp'); auto.
Qed.
Lemma ask_all mn mx (H : T -> Prop) t : H init -> (forall a b, H a -> H b -> H (red a b)) ->
  (forall p q, in_image im p q -> H (f (im_px im p q))) ->
  obind (computeReducedPyramid red init wraps s tim) (fun lv => query red wraps s tim lv mn mx) = Some t -> H t.
Proof.
  intros H0 H2 Ha. destruct (vs_pos s Hs) as [S1 S2]. destruct Hi as (R & C & M). unfold tim. rewrite pyr_eq by assumption. cbn [obind].
  assert (A : all_px H (transform f im)) by (intros x y Hx Hy; apply Ha; split; assumption).
  apply (query_all red init wraps s H H0 H2); try assumption.
  apply Forall_forall. intros lv Hlv. apply In_nth_error in Hlv as [j Hj].
  exact (levels_all red init wraps s S1 S2 H H0 H2 _ _ _ _ _ _ _ A Hj).
Qed.
End ANYTREE.

Lemma pooled_le v : pooled qmin (fun t => t <= v)%Q.
Proof. intros a b H. unfold qmin. destruct (qltb b a) eqn:E; [apply qltb_true in E|apply qltb_false' in E]; destruct H; lra. Qed.
Lemma pooled_ge v : pooled qmax (fun t => v <= t)%Q.
Proof. intros a b H. unfold qmax. destruct (qltb a b) eqn:E; [apply qltb_true in E|apply qltb_false' in E]; destruct H; lra. Qed.
Lemma pooled_true : pooled orb (fun b => b = true).
Proof. intros a b [-> | ->]; [reflexivity|apply orb_true_r]. Qed.
Lemma voi_observed mr i v : (mr <= v)%Q -> valueOrInit mr i v = v.
Proof. intros H. unfold valueOrInit, px_unobserved. apply qltb_false' in H. rewrite H. reflexivity. Qed.

(** getBounds on a rectangle, including one that wraps around: it succeeds and no observed pixel of the rectangle is
    outside the bounds. *)
Theorem C39_bounds_conservative : forall s im min_range wraps mn mx,
  valid_scale s -> valid_image s im -> valid_rect im wraps mn mx ->
  exists lo hi, getBounds im min_range wraps s mn mx = Some (lo, hi) /\
    forall p q, in_image im p q -> in_rect mn mx p q -> observed_px im min_range p q -> (lo <= im_px im p q <= hi)%Q.
Proof.
  intros s im mr wraps mn mx Hs Hi Hv.
  destruct (ask_rect qmin kUnknownLower (valueOrInit mr kUnknownLower) wraps s im Hs Hi mn mx Hv) as (lo & E1 & K1).
  destruct (ask_rect qmax kUnknownUpper (valueOrInit mr kUnknownUpper) wraps s im Hs Hi mn mx Hv) as (hi & E2 & K2).
  exists lo, hi. unfold getBounds, getLowerBound, getUpperBound, lower_levels, upper_levels, lower_img, upper_img.
  rewrite E1, E2. split; [reflexivity|]. intros p q Hp Hq Ho. split.
  - apply (K1 p q Hp Hq _ (pooled_le _)). rewrite voi_observed by exact Ho. apply Qle_refl.
  - apply (K2 p q Hp Hq _ (pooled_ge _)). rewrite voi_observed by exact Ho. apply Qle_refl.
Qed.
Print Assumptions C39_bounds_conservative.

(** hasUnobserved on a rectangle. *)
Theorem C39_has_unobserved : forall s im min_range wraps mn mx,
  valid_scale s -> valid_image s im -> valid_rect im wraps mn mx ->
  exists b, hasUnobserved im min_range wraps s mn mx = Some b /\
    ((exists p q, in_image im p q /\ in_rect mn mx p q /\ ~ observed_px im min_range p q) -> b = true).
Proof.
  intros s im mr wraps mn mx Hs Hi Hv.
  destruct (ask_rect orb true (px_unobserved mr) wraps s im Hs Hi mn mx Hv) as (b & E & K).
  exists b. split; [exact E|]. intros (p & q & Hp & Hq & Ho). apply (K p q Hp Hq _ pooled_true).
  unfold px_unobserved. apply qltb_true. apply Qnot_le_lt. exact Ho.
Qed.
Print Assumptions C39_has_unobserved.

(** The bounds are attained: each is either the range of an observed pixel of the image or the value for "unknown". *)
Theorem C39_bounds_attained : forall s im min_range wraps mn mx lo hi,
  valid_scale s -> valid_image s im -> getBounds im min_range wraps s mn mx = Some (lo, hi) ->
  let measured v := exists p q, in_image im p q /\ observed_px im min_range p q /\ v = im_px im p q in
  (lo = 10000%Q \/ measured lo) /\ (hi = 0%Q \/ measured hi).
Proof.
  intros s im mr wraps mn mx lo hi Hs Hi E measured. unfold getBounds in E.
  destruct (getLowerBound im mr wraps s mn mx) as [l|] eqn:E1; [|discriminate].
  destruct (getUpperBound im mr wraps s mn mx) as [u|] eqn:E2; [|discriminate]. injection E as -> ->.
  assert (V : forall i p q, in_image im p q -> valueOrInit mr i (im_px im p q) = i \/ measured (valueOrInit mr i (im_px im p q))).
  { intros i p q Hp. unfold valueOrInit. destruct (px_unobserved mr (im_px im p q)) eqn:U; [left; reflexivity|right].
    exists p, q. split; [exact Hp|]. split; [|reflexivity]. apply qltb_false' in U. exact U. }
  split.
  - apply (ask_all qmin kUnknownLower (valueOrInit mr kUnknownLower) wraps s im Hs Hi mn mx (fun v => v = 10000%Q \/ measured v) lo).
    + left; reflexivity.
    + intros a b Ha Hb. unfold qmin. destruct (qltb b a); assumption.
    + intros p q Hp. apply V, Hp.
    + exact E1.
  - apply (ask_all qmax kUnknownUpper (valueOrInit mr kUnknownUpper) wraps s im Hs Hi mn mx (fun v => v = 0%Q \/ measured v) hi).
    + left; reflexivity.
    + intros a b Ha Hb. unfold qmax. destruct (qltb a b); assumption.
    + intros p q Hp. apply V, Hp.
    + exact E2.
Qed.
Print Assumptions C39_bounds_attained.

(** The accessors for a node of the pyramid: node [i] at height [h] stands for the pixels whose scaled index, divided by
    2^h, is [i]. *)
Theorem C39_node_bounds : forall s im min_range wraps h i,
  valid_scale s -> valid_image s im -> 0 < h <= Z.log2_up (Z.max (fst s * im_rows im) (snd s * im_cols im)) ->
  let below p q := in_image im p q /\ fst i = fst s * p / 2 ^ h /\ snd i = snd s * q / 2 ^ h in
  (exists p q, below p q) ->
  exists lo hi b, getNodeBounds im min_range wraps s h i = Some (lo, hi) /\ nodeHasUnobserved im min_range wraps s h i = Some b /\
    forall p q, below p q ->
      (observed_px im min_range p q -> (lo <= im_px im p q <= hi)%Q) /\ (~ observed_px im min_range p q -> b = true).
Proof.
  intros s im mr wraps h i Hs Hi Hh below Hb.
  destruct (ask_node qmin kUnknownLower (valueOrInit mr kUnknownLower) wraps s im Hs Hi h i Hh Hb) as (lo & E1 & K1).
  destruct (ask_node qmax kUnknownUpper (valueOrInit mr kUnknownUpper) wraps s im Hs Hi h i Hh Hb) as (hi & E2 & K2).
  destruct (ask_node orb true (px_unobserved mr) wraps s im Hs Hi h i Hh Hb) as (b & E3 & K3).
  exists lo, hi, b. unfold getNodeBounds, nodeHasUnobserved, lower_levels, upper_levels, mask_levels, lower_img, upper_img, mask_img.
  destruct (Z.eqb_spec h 0) as [X|_]; [lia|]. rewrite E1, E2, E3. split; [reflexivity|]. split; [reflexivity|].
  intros p q (Hp & I1 & I2). split.
  - intros Ho. split.
    + apply (K1 p q Hp I1 I2 _ (pooled_le _)). rewrite voi_observed by exact Ho. apply Qle_refl.
    + apply (K2 p q Hp I1 I2 _ (pooled_ge _)). rewrite voi_observed by exact Ho. apply Qle_refl.
  - intros Ho. apply (K3 p q Hp I1 I2 _ pooled_true). unfold px_unobserved. apply qltb_true. apply Qnot_le_lt. exact Ho.
Qed.
Print Assumptions C39_node_bounds.

(** ** Examples *)
(** 3 x 4 pixels; pixel (1, 2) is unobserved, (2, 0) has the smallest range. Rows are two pyramid steps apart. *)
Definition ex_im : img Q := Img 3 4 (fun x y => if i2_eqb (x, y) (1, 2) then 0%Q else if i2_eqb (x, y) (2, 0) then 3%Q else inject_Z (10 + x + 4 * y)).
Example C39_ex_rect : valid_scale (2, 1) /\ valid_image (2, 1) ex_im /\ valid_rect ex_im true (0, 3) (2, 1) /\
  getBounds ex_im 1 true (2, 1) (0, 3) (2, 1) = Some (3%Q, 24%Q) /\
  getBounds ex_im 1 true (2, 1) (1, 1) (2, 2) = Some (3%Q, 24%Q) /\
  hasUnobserved ex_im 1 true (2, 1) (1, 1) (1, 2) = Some true /\
  hasUnobserved ex_im 1 true (2, 1) (0, 0) (0, 1) = Some false.
Proof.
  split; [unfold valid_scale; cbn; lia|]. split; [unfold valid_image; cbn; lia|].
  split; [unfold valid_rect, in_image; cbn; repeat split; try lia; right; split; [reflexivity|exists 2; lia]|]. vm_compute. auto.
Qed.
Example C39_ex_node : getNodeBounds ex_im 1 true (2, 1) 2 (1, 0) = Some (3%Q, 24%Q) /\ nodeHasUnobserved ex_im 1 true (2, 1) 1 (1, 1) = Some true.
Proof. vm_compute. auto. Qed.
Example C39_ex_scale : scale_factor (Some (PB (1 # 100, - (3 # 100)) (0, 0)))%Q = (1, 2).
Proof. vm_compute. reflexivity. Qed.

(** The check that a wrapping image has a power of two of columns (inl:296) tests that the number of set bits is not zero,
    so it accepts every image. With another number of columns, a wrapping rectangle gets a lower bound above a range
    measured in it: five columns with ranges 10, 10, 10, 10, 1, rectangle from column 3 over column 4 to column 0. *)
Definition wrap_im : img Q := Img 1 5 (fun _ y => if y =? 4 then 1%Q else 10%Q).
Theorem C39_wrap_refuted : exists im min_range mn mx lo hi p q,
  valid_image (1, 1) im /\ computeReducedPyramid qmin kUnknownLower true (1, 1) im <> None /\
  getBounds im min_range true (1, 1) mn mx = Some (lo, hi) /\
  in_image im (fst mn) (snd mn) /\ in_image im (fst mx) (snd mx) /\ fst mn <= fst mx /\
  in_image im p q /\ in_rect mn mx p q /\ observed_px im min_range p q /\ (im_px im p q < lo)%Q.
Proof.
  exists wrap_im, (1 # 2)%Q, (0, 3), (0, 0), 10%Q, 10%Q, 0, 4.
  split; [unfold valid_image; cbn; lia|]. split; [|split; [vm_compute; reflexivity|]].
  - assert (E : option_map (@length _) (computeReducedPyramid qmin kUnknownLower true (1, 1) wrap_im) = Some 3%nat) by (vm_compute; reflexivity).
    intros X. rewrite X in E. discriminate.
  - unfold in_image, in_rect, observed_px. cbn. repeat split; try lia; try (unfold Qle, Qlt; cbn; lia).
Qed.
Print Assumptions C39_wrap_refuted.
