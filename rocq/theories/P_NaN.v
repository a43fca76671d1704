(** C74: missing (NaN) and infinite range readings. *)
From Verif Require Import Base M_IntMath F_IntMath M_Point M_Image M_RangeBounds F_RangeBounds P_RangeBounds M_Measure F_Measure P_Measure M_Intersector P_Intersector P_Intersector3 M_NaN.
From Coq Require Import QArith Qround Qabs Qminmax Lqa.
Close Scope Z_scope.
Open Scope Q_scope.

(** ** Specification *)
(** At a distance [dist] from the sensor, reading [m] is as good as a finite reading [v]. A missing reading and minus infinity say
    nothing about the cell, like a surface well in front of it; plus infinity is like a surface well behind the cell. *)
Definition stands_for (c : mm_config) (dist : Q) (m : fl) (v : Q) : Prop :=
  match m with
  | Fin q => v = q
  | PInf => dist + 3 * range_sigma c < v
  | NInf | NaN => v + 6 * range_sigma c < dist
  end.
Definition image_stands_for (c : mm_config) (dist : Q) (im : img fl) (im' : img Q) : Prop :=
  im_rows im' = im_rows im /\ im_cols im' = im_cols im /\
  forall p q, in_image im p q -> stands_for c dist (im_px im p q) (im_px im' p q).
(** A reading is below or above a number *)
Definition below (m : fl) (q : Q) : Prop := match m with Fin x => x < q | NInf => True | PInf | NaN => False end.
Definition above (m : fl) (q : Q) : Prop := match m with Fin x => q < x | PInf => True | NInf | NaN => False end.
(** The pixel is at or beyond the minimum range *)
Definition usable (m : fl) (min_range : Q) : Prop := match m with Fin x => min_range <= x | PInf => True | NInf | NaN => False end.

(** ** The measurement models *)
Section MEASURE.
Context (fsqrt flog : Q -> Q) (c : mm_config).
Context (HL : log_like flog) (HC : proper_config c).
Lemma fcum_fin t : fcumulative (Fin t) = Fin (cumulative t).
Proof.
  unfold fcumulative, cumulative. cbn [fltb fleb fadd fsub fmul].
  destruct (qltb t (- (3))); [reflexivity|]. destruct (Qle_bool t (- (1))); [reflexivity|]. destruct (qltb t 1); [reflexivity|]. destruct (Qle_bool t 3); reflexivity.
Qed.
Lemma frc_fin f : frange_contribution (Fin f) = Fin (range_contribution f).
Proof. unfold frange_contribution, range_contribution. cbn [fsub]. rewrite !fcum_fin. reflexivity. Qed.
Lemma frc_nan : frange_contribution NaN = Fin (1 - (1 # 2) * 1 - (1 # 2)).
Proof. reflexivity. Qed.
Lemma flo_fin x : x + (1 # 2) < 1 -> flog_odds flog (Fin x) = Fin (log_odds flog (x + (1 # 2))).
Proof.
  intros H. unfold flog_odds, log_odds. cbn [fadd fsub fdiv]. destruct (Qeq_bool (1 - (x + (1 # 2))) 0) eqn:E; [|reflexivity].
  apply Qeq_bool_iff in E. lra.
Qed.
Lemma sigma_pos : 0 < range_sigma c.
Proof. destruct HC as (_ & P & _). exact P. Qed.
Lemma div_sigma x : fdiv (Fin x) (Fin (range_sigma c)) = Fin (x / range_sigma c).
Proof. cbn [fdiv]. destruct (Qeq_bool (range_sigma c) 0) eqn:E; [|reflexivity]. apply Qeq_bool_iff in E. pose proof sigma_pos. lra. Qed.
Lemma fray_free_fin : fray_free flog c = Fin (ray_free flog c).
Proof. unfold fray_free. cbn [fmul]. rewrite flo_fin; [reflexivity|]. destruct HC as (_ & _ & F & _). lra. Qed.
Lemma lo_zero x : x == 0 -> log_odds flog (x + (1 # 2)) == 0.
Proof. intros H. rewrite <- (lo_half flog HL). apply lo_eq; [assumption| |]; rewrite H; [split|]; reflexivity. Qed.

Lemma ray_pixel dist m v : stands_for c dist m v -> exists u, fray_beam flog c dist m = Fin u /\ u == ray_beam flog c dist v.
Proof.
  intros H. pose proof sigma_pos as S. unfold fray_beam, ray_beam. destruct m as [q| | |]; cbn [stands_for] in H.
  - subst v. cbn [fsub fltb]. destruct (qltb (range_back c) (dist - q)); [eexists; split; reflexivity|].
    destruct (qltb dist (q - range_front c)); [rewrite fray_free_fin; eexists; split; reflexivity|].
    unfold fray_full. cbn [fsub]. rewrite div_sigma, frc_fin. cbn [fltb].
    assert (E : (if qltb (range_contribution ((dist - q) / range_sigma c)) 0 then fmul (Fin (scaling_free c)) (Fin (range_contribution ((dist - q) / range_sigma c)))
            else fmul (Fin (scaling_occupied c)) (Fin (range_contribution ((dist - q) / range_sigma c)))) =
            Fin (scale_contribution c (range_contribution ((dist - q) / range_sigma c)))) by (unfold scale_contribution; destruct (qltb _ _); reflexivity).
    rewrite E. rewrite flo_fin; [eexists; split; reflexivity|]. pose proof (full_p_range c HC dist q) as R. pose proof (p_bounds c HC). unfold ray_full_p in R. lra.
  - cbn [fsub fadd fopp fltb]. unfold range_back, range_front. qcase (qltb (6 * range_sigma c) (dist - v)); [lra|].
    qcase (qltb dist (v - 3 * range_sigma c)); [|lra]. rewrite fray_free_fin. eexists; split; reflexivity.
  - cbn [fsub fadd fopp fltb]. unfold range_back. qcase (qltb (6 * range_sigma c) (dist - v)); [|lra]. eexists; split; reflexivity.
  - cbn [fsub fadd fopp fltb]. unfold range_back. qcase (qltb (6 * range_sigma c) (dist - v)); [|lra].
    unfold fray_full. cbn [fsub fadd fopp fdiv]. rewrite frc_nan. cbn [fltb]. change (qltb (1 - (1 # 2) * 1 - (1 # 2)) 0) with false. cbn [fmul].
    assert (Z : scaling_occupied c * (1 - (1 # 2) * 1 - (1 # 2)) == 0) by ring. rewrite flo_fin by (rewrite Z; reflexivity).
    eexists. split; [reflexivity|]. apply lo_zero. exact Z.
Qed.
Lemma beam_pixel dist e m v : stands_for c dist m v -> exists u, fbeam_beam fsqrt flog c dist e m = Fin u /\ u == beam_beam fsqrt flog c dist e v.
Proof.
  intros H. pose proof sigma_pos as S. unfold fbeam_beam, beam_beam, beam_unknown.
  destruct (qltb (angle_threshold c * angle_threshold c) e); cbn [orb]; [eexists; split; reflexivity|].
  destruct m as [q| | |]; cbn [stands_for] in H.
  - subst v. cbn [fadd fltb]. destruct (qltb (q + range_back c) dist); [eexists; split; reflexivity|]. cbn [fsub fltb].
    pose proof (beam_p_formula fsqrt c HC dist e q) as P1. pose proof (beam_formula_range fsqrt c HC dist e q) as P2. pose proof (p_bounds c HC) as P3.
    unfold beam_p in *. cbv zeta in *. destruct (qltb dist (q - range_front c)); cbn [orb fmul fltb] in *.
    + rewrite flo_fin by lra. eexists; split; reflexivity.
    + rewrite div_sigma, frc_fin. cbn [fmul fltb]. destruct (qltb (range_contribution _ * _) 0); rewrite flo_fin by lra; eexists; split; reflexivity.
  - cbn [fadd fsub fopp fltb]. unfold range_back, range_front. qcase (qltb (v + 6 * range_sigma c) dist); [lra|].
    pose proof (beam_p_formula fsqrt c HC dist e v) as P1. pose proof (beam_formula_range fsqrt c HC dist e v) as P2. pose proof (p_bounds c HC) as P3.
    unfold beam_p, range_front in *. cbv zeta in *. destruct (qltb dist (v - 3 * range_sigma c)) eqn:F; [|apply qltb_false in F; lra].
    cbn [orb fmul] in *. rewrite flo_fin by lra. eexists; split; reflexivity.
  - cbn [fadd fltb]. unfold range_back. qcase (qltb (v + 6 * range_sigma c) dist); [|lra]. eexists; split; reflexivity.
  - cbn [fadd fsub fopp fltb fdiv]. unfold range_back. qcase (qltb (v + 6 * range_sigma c) dist); [|lra]. rewrite frc_nan. cbn [fmul fltb orb].
    assert (Z : (1 - (1 # 2) * 1 - (1 # 2)) * angle_contribution fsqrt c e == 0) by ring.
    qcase (qltb ((1 - (1 # 2) * 1 - (1 # 2)) * angle_contribution fsqrt c e) 0); [lra|].
    assert (Z' : scaling_occupied c * ((1 - (1 # 2) * 1 - (1 # 2)) * angle_contribution fsqrt c e) == 0) by (rewrite Z; ring).
    rewrite flo_fin by (rewrite Z'; reflexivity). eexists. split; [reflexivity|]. apply lo_zero. exact Z'.
Qed.
Lemma fold_fin {A} (f : A -> fl) (g : A -> Q) l : (forall a, exists u, f a = Fin u /\ u == g a) ->
  forall x y, x == y -> exists u, fold_left (fun s a => fadd s (f a)) l (Fin x) = Fin u /\ u == fold_left (fun s a => s + g a) l y.
Proof.
  intros H. induction l as [|a l IH]; intros x y E; [exists x; split; [reflexivity|exact E]|].
  cbn [fold_left]. destruct (H a) as (w & -> & W). cbn [fadd]. apply IH. rewrite E, W. reflexivity.
Qed.
End MEASURE.
Lemma at_px_stands c dist im im' i : image_stands_for c dist im im' ->
  match at_px im i, at_px im' i with Some m, Some v => stands_for c dist m v | None, None => True | _, _ => False end.
Proof.
  intros (R & C & H). unfold at_px. rewrite R, C.
  destruct ((0 <=? fst i)%Z && (fst i <? im_rows im)%Z && (0 <=? snd i)%Z && (snd i <? im_cols im)%Z) eqn:E; [|exact I].
  apply H. rewrite !andb_true_iff, !Z.leb_le, !Z.ltb_lt in E. unfold in_image. lia.
Qed.

(** The measurement models never return NaN or an infinity, whatever the pixels are, and missing or infinite readings count as if
    the surface were well in front of the cell (no information) or well behind it. This holds for both models and both ways of
    selecting pixels; [im'] is any image of finite readings that stands for [im]. *)
Theorem C74_updates : forall fsqrt flog c error2 rnd P im im' offsets coords dist,
  log_like flog -> proper_config c -> image_stands_for c dist im im' ->
  (exists u, fray_computeUpdate flog c rnd P im coords dist = Fin u /\ u == ray_computeUpdate flog c rnd P im' coords dist) /\
  (exists u, fbeam_computeUpdate fsqrt flog c error2 rnd P im offsets coords dist = Fin u /\
             u == beam_computeUpdate fsqrt flog c error2 rnd P im' offsets coords dist).
Proof.
  intros fsqrt flog c error2 rnd P im im' offsets coords dist HL HC HI. split.
  - assert (A : forall i, exists u, fray_at flog c im dist i = Fin u /\ u == ray_at flog c im' dist i).
    { intros i. pose proof (at_px_stands c dist im im' i HI) as H. unfold fray_at, ray_at.
      destruct (at_px im i), (at_px im' i); try contradiction; [apply ray_pixel; assumption|eexists; split; reflexivity]. }
    unfold fray_computeUpdate, ray_computeUpdate. destruct (selector c); [apply A|]. apply (fold_fin (fray_at flog c im dist) (ray_at flog c im' dist) _ A). reflexivity.
  - unfold fbeam_computeUpdate, beam_computeUpdate. destruct (selector c).
    + unfold fbeam_nearest, beam_nearest. destruct (imageToNearestIndexAndOffset rnd P coords) as [i o]. pose proof (at_px_stands c dist im im' i HI) as H.
      destruct (at_px im i), (at_px im' i); try contradiction; [apply beam_pixel; assumption|eexists; split; reflexivity].
    + unfold fbeam_all, beam_all. generalize (imageToNearestIndicesAndOffsets P coords). intros l.
      assert (G : forall x y, x == y -> exists u, fold_left (fun update io => let '(i, o) := io in
          let '(measured, o') := match at_px im i with None => (Fin 0, o) | Some m => (m, v2sub o (offsets (fst i) (snd i))) end in
          fadd update (fbeam_beam fsqrt flog c dist (error2 coords o') measured)) l (Fin x) = Fin u /\
        u == fold_left (fun update io => let '(i, o) := io in
          let '(measured, o') := match at_px im' i with None => (0, o) | Some m => (m, v2sub o (offsets (fst i) (snd i))) end in
          update + beam_beam fsqrt flog c dist (error2 coords o') measured) l y).
      { induction l as [|[i o] l IH]; intros x y E; [exists x; split; [reflexivity|exact E]|]. cbn [fold_left].
        pose proof (at_px_stands c dist im im' i HI) as H. destruct (at_px im i) as [m|], (at_px im' i) as [v|]; try contradiction.
        - destruct (beam_pixel fsqrt flog c HL HC dist (error2 coords (v2sub o (offsets (fst i) (snd i)))) m v H) as (w & -> & W). cbn [fadd]. apply IH. rewrite E, W. reflexivity.
        - destruct (beam_pixel fsqrt flog c HL HC dist (error2 coords o) (Fin 0) 0 eq_refl) as (w & -> & W). cbn [fadd]. apply IH. rewrite E, W. reflexivity. }
      apply G. reflexivity.
Qed.
Print Assumptions C74_updates.
(** There is always such an image, so the theorem covers every image. *)
Theorem C74_updates_all_images : forall c dist im, exists im', image_stands_for c dist im im'.
Proof.
  intros c dist im.
  exists (Img (im_rows im) (im_cols im) (fun p q => match im_px im p q with Fin x => x | PInf => dist + 3 * range_sigma c + 1 | _ => dist - 6 * range_sigma c - 1 end)).
  split; [reflexivity|]. split; [reflexivity|]. intros p q _. cbn [im_px]. destruct (im_px im p q); cbn [stands_for]; try reflexivity; lra.
Qed.
Print Assumptions C74_updates_all_images.
(** In particular a cell whose nearest pixel is missing is left unchanged. *)
Theorem C74_missing_pixel : forall flog c rnd P im coords dist p q, log_like flog -> proper_config c -> selector c = kNearestNeighbor ->
  imageToNearestIndex rnd P coords = (p, q) -> in_image im p q -> im_px im p q = NaN ->
  exists u, fray_computeUpdate flog c rnd P im coords dist = Fin u /\ u == 0.
Proof.
  intros flog c rnd P im coords dist p q HL HC HS HI IN HN. unfold fray_computeUpdate. rewrite HS, HI. unfold fray_at, at_px. cbn [fst snd].
  assert (E : ((0 <=? p)%Z && (p <? im_rows im)%Z && (0 <=? q)%Z && (q <? im_cols im)%Z)%bool = true) by (rewrite !andb_true_iff, !Z.leb_le, !Z.ltb_lt; unfold in_image in IN; lia).
  rewrite E, HN. destruct (ray_pixel flog c HL HC dist NaN (dist - 6 * range_sigma c - 1)) as (u & -> & U); [cbn; lra|].
  exists u. split; [reflexivity|]. rewrite U. unfold ray_beam, range_back. qcase (qltb (6 * range_sigma c) (dist - (dist - 6 * range_sigma c - 1))); [reflexivity|lra].
Qed.
Print Assumptions C74_missing_pixel.

(** ** Related images have related pyramids *)
Section RELATED.
Context {T U : Type} (R : T -> U -> Prop) (red : T -> T -> T) (red' : U -> U -> U) (init : T) (init' : U).
Context (HR : forall a b a' b', R a a' -> R b b' -> R (red a b) (red' a' b')) (HI : R init init').
Context (wraps : bool) (s : i2) (Hs : (0 < fst s)%Z /\ (0 < snd s)%Z).
Definition img_rel (im : img T) (im' : img U) : Prop :=
  im_rows im' = im_rows im /\ im_cols im' = im_cols im /\ forall p q, in_image im p q -> R (im_px im p q) (im_px im' p q).
Definition opt_rel {A B} (Q : A -> B -> Prop) (o : option A) (o' : option B) : Prop :=
  match o, o' with Some a, Some b => Q a b | None, None => True | _, _ => False end.
Open Scope Z_scope.
Lemma reduce4_rel prev prev' mn mx : img_rel prev prev' -> 0 <= fst mn <= fst mx -> 0 <= snd mn <= snd mx ->
  R (reduce4 red init wraps prev mn mx) (reduce4 red' init' wraps prev' mn mx).
Proof.
  intros (E1 & E2 & H) A B. unfold reduce4. rewrite E1, E2.
  destruct (fst mn <? im_rows prev) eqn:L1; cbn [andb]; [|exact HI]. destruct (snd mn <? im_cols prev) eqn:L2; [|exact HI].
  apply Z.ltb_lt in L1, L2.
  destruct (fst mx <? im_rows prev) eqn:L3; destruct (snd mx <? im_cols prev) eqn:L4;
    repeat match goal with H : (_ <? _) = true |- _ => apply Z.ltb_lt in H end;
    try (destruct (wraps && (snd mx <=? im_cols prev)));
    repeat apply HR; try exact HI; apply H; unfold in_image; lia.
Qed.
Lemma level_rel dx dy k prev prev' : 0 <= k -> img_rel prev prev' -> img_rel (level red init wraps s dx dy k prev) (level red' init' wraps s dx dy k prev').
Proof.
  intros Hk H. split; [reflexivity|]. split; [reflexivity|]. intros p q [Hp Hq]. cbn [level im_px im_rows im_cols] in *.
  destruct (k =? 0).
  - apply reduce4_rel; [exact H| |]; cbn [fst snd]; (split; [apply Z.quot_pos; lia|apply Z.quot_le_mono; lia]).
  - apply reduce4_rel; [exact H| |]; cbn [fst snd]; lia.
Qed.
Lemma levels_rel n dx dy : forall k prev prev', 0 <= k -> img_rel prev prev' ->
  Forall2 img_rel (levels_loop red init wraps s n dx dy k prev) (levels_loop red' init' wraps s n dx dy k prev').
Proof.
  induction n as [|n IH]; intros k prev prev' Hk H; [constructor|]. cbn [levels_loop]. cbv zeta.
  constructor; [apply level_rel; assumption|]. apply IH; [lia|]. apply level_rel; assumption.
Qed.
Lemma pyramid_rel im im' : img_rel im im' -> opt_rel (Forall2 img_rel) (computeReducedPyramid red init wraps s im) (computeReducedPyramid red' init' wraps s im').
Proof.
  intros H. pose proof H as (E1 & E2 & _). unfold computeReducedPyramid. rewrite E1, E2.
  destruct (negb wraps || negb (popcount 32 (im_cols im) =? 0)); [|exact I]. destruct (log2_ceil _ _ _); [|exact I]. cbn [option_map opt_rel].
  apply levels_rel; [lia|exact H].
Qed.
Lemma at_px_rel im im' i : img_rel im im' -> opt_rel R (at_px im i) (at_px im' i).
Proof.
  intros (E1 & E2 & H). unfold at_px. rewrite E1, E2.
  destruct ((0 <=? fst i) && (fst i <? im_rows im) && (0 <=? snd i) && (snd i <? im_cols im)) eqn:E; [|exact I].
  apply H. rewrite !andb_true_iff, !Z.leb_le, !Z.ltb_lt in E. unfold in_image. lia.
Qed.
Lemma at_level_rel lv lv' k i : Forall2 img_rel lv lv' -> opt_rel R (at_level lv k i) (at_level lv' k i).
Proof.
  intros H. unfold at_level. destruct (k <? 0); [exact I|]. revert lv' H. generalize (Z.to_nat k). intros n. revert lv.
  induction n as [|n IH]; intros lv lv' H; destruct H as [|a b l l' A B]; cbn [nth_error]; try exact I; [apply at_px_rel; exact A|apply IH; exact B].
Qed.
Lemma red2_rel a b a' b' : opt_rel R a a' -> opt_rel R b b' -> opt_rel R (red2 red a b) (red2 red' a' b').
Proof. destruct a, a', b, b'; cbn; try contradiction; auto. Qed.
Lemma query_rel im im' lv lv' mn mx : img_rel im im' -> Forall2 img_rel lv lv' -> opt_rel R (query red wraps s im lv mn mx) (query red' wraps s im' lv' mn mx).
Proof.
  intros H HL. pose proof (fun i => at_px_rel im im' i H) as A. pose proof (fun k i => at_level_rel lv lv' k i HL) as B.
  pose proof H as (E1 & E2 & _). unfold query. rewrite E2.
  destruct (i2_eqb mn mx); [apply A|]. cbv zeta. match goal with |- context [if negb ?x then _ else _] => destruct (negb x) end; [exact I|].
  match goal with |- context [match ?x with Some _ => _ | None => None end] => destruct x as [l|] end; [|exact I].
  match goal with |- context [if ?x then if i2_eqb _ _ then _ else _ else _] => destruct x end.
  - match goal with |- context [if i2_eqb ?a ?b then None else _] => destruct (i2_eqb a b) end; [exact I|].
    match goal with |- context [if ?x || ?y then _ else _] => destruct (x || y) end.
    + destruct (l =? 0); apply red2_rel; auto.
    + match goal with |- context [if i2_eqb ?a ?b then _ else _] => destruct (i2_eqb a b) end; [apply B|]. destruct (l =? 0); repeat apply red2_rel; auto.
  - repeat apply red2_rel; auto.
Qed.
End RELATED.

(** ** Images without NaN *)
(** Infinities and large numbers replaced by bounds *)
Definition fclamp (B : Q) (v : fl) : Q :=
  match v with Fin x => if Qle_bool B x then B else if Qle_bool x (- B) then - B else x | PInf => B | NInf | NaN => - B end.
Definition is_clamp (B : Q) (v : fl) (q : Q) : Prop := v <> NaN /\ q = fclamp B v.
Lemma clamp_mono B a b : 0 < B -> a <> NaN -> b <> NaN -> fltb a b = false -> qltb (fclamp B a) (fclamp B b) = false.
Proof.
  intros HB HA HB' H. apply qltb_false. destruct a as [x| | |], b as [y| | |]; cbn [fltb fclamp] in *; try congruence; try lra.
  - apply qltb_false in H. qcase (Qle_bool B y); qcase (Qle_bool B x); try qcase (Qle_bool x (- B)); try qcase (Qle_bool y (- B)); lra.
  - qcase (Qle_bool B x); try qcase (Qle_bool x (- B)); lra.
  - qcase (Qle_bool B y); try qcase (Qle_bool y (- B)); lra.
Qed.
Lemma clamp_strict B a b : 0 < B -> fltb a b = true -> qltb (fclamp B a) (fclamp B b) = false -> fclamp B a = fclamp B b.
Proof.
  intros HB H L. apply qltb_false in L. destruct a as [x| | |], b as [y| | |]; cbn [fltb fclamp] in *; try congruence.
  - apply qltb_true in H. qcase (Qle_bool B y); qcase (Qle_bool B x); try qcase (Qle_bool x (- B)); try qcase (Qle_bool y (- B)); try reflexivity; lra.
  - qcase (Qle_bool B x); try qcase (Qle_bool x (- B)); try reflexivity; lra.
  - qcase (Qle_bool B y); try qcase (Qle_bool y (- B)); try reflexivity; lra.
  - lra.
Qed.
Lemma clamp_fmin B a b a' b' : 0 < B -> is_clamp B a a' -> is_clamp B b b' -> is_clamp B (fmin a b) (qmin a' b').
Proof.
  intros HB [N1 ->] [N2 ->]. unfold fmin, qmin. destruct (fltb b a) eqn:E.
  - split; [exact N2|]. destruct (qltb (fclamp B b) (fclamp B a)) eqn:L; [reflexivity|]. symmetry. exact (clamp_strict B b a HB E L).
  - split; [exact N1|]. rewrite (clamp_mono B b a HB N2 N1 E). reflexivity.
Qed.
Lemma clamp_fmax B a b a' b' : 0 < B -> is_clamp B a a' -> is_clamp B b b' -> is_clamp B (fmax a b) (qmax a' b').
Proof.
  intros HB [N1 ->] [N2 ->]. unfold fmax, qmax. destruct (fltb a b) eqn:E.
  - split; [exact N2|]. destruct (qltb (fclamp B a) (fclamp B b)) eqn:L; [reflexivity|]. exact (clamp_strict B a b HB E L).
  - split; [exact N1|]. rewrite (clamp_mono B a b HB N1 N2 E). reflexivity.
Qed.
Lemma clamp_lt_r B v q : 0 < B -> - B < q -> q <= B -> v <> NaN -> fltb v (Fin q) = qltb (fclamp B v) q.
Proof.
  intros HB H1 H2 HN. destruct v as [x| | |]; cbn [fltb fclamp]; try congruence.
  - qcase (Qle_bool B x); [|qcase (Qle_bool x (- B)); [|reflexivity]].
    + destruct (qltb x q) eqn:A, (qltb B q) eqn:C; try reflexivity; try apply qltb_true in A; try apply qltb_true in C; lra.
    + destruct (qltb x q) eqn:A, (qltb (- B) q) eqn:C; try reflexivity; try apply qltb_false in A; try apply qltb_false in C; lra.
  - symmetry. apply qltb_false. lra.
  - symmetry. apply qltb_true. lra.
Qed.
Lemma clamp_lt_l B v q : 0 < B -> - B <= q -> q < B -> v <> NaN -> fltb (Fin q) v = qltb q (fclamp B v).
Proof.
  intros HB H1 H2 HN. destruct v as [x| | |]; cbn [fltb fclamp]; try congruence.
  - qcase (Qle_bool B x); [|qcase (Qle_bool x (- B)); [|reflexivity]].
    + destruct (qltb q x) eqn:A, (qltb q B) eqn:C; try reflexivity; try apply qltb_false in A; try apply qltb_false in C; lra.
    + destruct (qltb q x) eqn:A, (qltb q (- B)) eqn:C; try reflexivity; try apply qltb_true in A; try apply qltb_true in C; lra.
  - symmetry. apply qltb_true. lra.
  - symmetry. apply qltb_false. lra.
Qed.
Section NO_NAN.
Context (im : img fl) (min_range : Q) (wraps : bool) (s : i2) (B : Q).
Context (Hs : (0 < fst s)%Z /\ (0 < snd s)%Z) (HN : forall p q, in_image im p q -> im_px im p q <> NaN).
Context (HB : 10000 < B) (HM : - B < min_range < B).
Notation im' := (transform (fclamp B) im).
Lemma unobs_clamp v : v <> NaN -> fpx_unobserved min_range v = px_unobserved min_range (fclamp B v).
Proof. intros H. unfold fpx_unobserved, px_unobserved. apply clamp_lt_r; [lra|lra|lra|exact H]. Qed.
Lemma init_clamp k v : - B < k < B -> v <> NaN -> is_clamp B (fvalueOrInit min_range (Fin k) v) (valueOrInit min_range k (fclamp B v)).
Proof.
  intros K H. unfold fvalueOrInit, valueOrInit. rewrite <- (unobs_clamp v H). destruct (fpx_unobserved min_range v); [|split; [exact H|reflexivity]].
  split; [discriminate|]. cbn [fclamp]. qcase (Qle_bool B k); [lra|]. qcase (Qle_bool k (- B)); [lra|reflexivity].
Qed.
Lemma lower_rel mn mx : opt_rel (is_clamp B) (fgetLowerBound im min_range wraps s mn mx) (getLowerBound im' min_range wraps s mn mx).
Proof.
  assert (I : is_clamp B (Fin kUnknownLower) kUnknownLower).
  { split; [discriminate|]. unfold kUnknownLower. cbn [fclamp]. qcase (Qle_bool B 10000); [lra|]. qcase (Qle_bool 10000 (- B)); [lra|reflexivity]. }
  assert (H : img_rel (is_clamp B) (flower_img im min_range) (lower_img im' min_range)).
  { split; [reflexivity|]. split; [reflexivity|]. intros p q P. cbn. apply init_clamp; [unfold kUnknownLower; lra|apply HN; exact P]. }
  unfold fgetLowerBound, getLowerBound, flower_levels, lower_levels.
  pose proof (pyramid_rel (is_clamp B) fmin qmin _ _ (fun a b a' b' => clamp_fmin B a b a' b' ltac:(lra)) I wraps s Hs _ _ H) as L.
  destruct (computeReducedPyramid fmin _ _ _ _) as [lv|], (computeReducedPyramid qmin _ _ _ _) as [lv'|]; cbn [opt_rel obind] in *; try contradiction; [|exact L].
  eapply query_rel; try eassumption. intros a b a' b'. apply clamp_fmin. lra.
Qed.
Lemma upper_rel mn mx : opt_rel (is_clamp B) (fgetUpperBound im min_range wraps s mn mx) (getUpperBound im' min_range wraps s mn mx).
Proof.
  assert (I : is_clamp B (Fin kUnknownUpper) kUnknownUpper).
  { split; [discriminate|]. unfold kUnknownUpper. cbn [fclamp]. qcase (Qle_bool B 0); [lra|]. qcase (Qle_bool 0 (- B)); [lra|reflexivity]. }
  assert (H : img_rel (is_clamp B) (fupper_img im min_range) (upper_img im' min_range)).
  { split; [reflexivity|]. split; [reflexivity|]. intros p q P. cbn. apply init_clamp; [unfold kUnknownUpper; lra|apply HN; exact P]. }
  unfold fgetUpperBound, getUpperBound, fupper_levels, upper_levels.
  pose proof (pyramid_rel (is_clamp B) fmax qmax _ _ (fun a b a' b' => clamp_fmax B a b a' b' ltac:(lra)) I wraps s Hs _ _ H) as L.
  destruct (computeReducedPyramid fmax _ _ _ _) as [lv|], (computeReducedPyramid qmax _ _ _ _) as [lv'|]; cbn [opt_rel obind] in *; try contradiction; [|exact L].
  eapply query_rel; try eassumption. intros a b a' b'. apply clamp_fmax. lra.
Qed.
Lemma mask_rel mn mx : fhasUnobserved im min_range wraps s mn mx = hasUnobserved im' min_range wraps s mn mx.
Proof.
  assert (H : img_rel (@eq bool) (fmask_img im min_range) (mask_img im' min_range)).
  { split; [reflexivity|]. split; [reflexivity|]. intros p q P. cbn. apply unobs_clamp, HN, P. }
  assert (O : forall a b a' b' : bool, a = a' -> b = b' -> (a || b)%bool = (a' || b')%bool) by (intros; subst; reflexivity).
  unfold fhasUnobserved, hasUnobserved, fmask_levels, mask_levels.
  pose proof (pyramid_rel (@eq bool) orb orb true true O eq_refl wraps s Hs _ _ H) as L.
  destruct (computeReducedPyramid orb true wraps s (fmask_img im min_range)) as [lv|], (computeReducedPyramid orb true wraps s (mask_img im' min_range)) as [lv'|]; cbn [opt_rel obind] in *; try contradiction; [|reflexivity].
  assert (W : opt_rel (@eq bool) (query orb wraps s (fmask_img im min_range) lv mn mx) (query orb wraps s (mask_img im' min_range) lv' mn mx))
    by (apply (query_rel (@eq bool) orb orb true true O eq_refl wraps s _ _ _ _ mn mx H L)).
  destruct (query orb wraps s (fmask_img im min_range) lv mn mx), (query orb wraps s (mask_img im' min_range) lv' mn mx); cbn in W; try contradiction; congruence.
Qed.
Lemma type_clamp mn mx rmin rmax : - B < rmin < B -> - B < rmax < B ->
  fgetUpdateType im min_range wraps s mn mx rmin rmax = getUpdateType im' min_range wraps s mn mx rmin rmax.
Proof.
  intros R1 R2. unfold fgetUpdateType, getUpdateType, getBounds. cbn [im_rows im_cols transform].
  set (mnc := (Z.max (fst mn) 0, Z.max (snd mn) 0)). set (mxc := (Z.min (fst mx) (im_rows im - 1), Z.min (snd mx) (im_cols im - 1))).
  pose proof (lower_rel mnc mxc) as L. pose proof (upper_rel mnc mxc) as U.
  destruct (fgetLowerBound im min_range wraps s mnc mxc) as [lo|], (getLowerBound im' min_range wraps s mnc mxc) as [lo'|]; cbn [opt_rel] in L; try contradiction; [|reflexivity].
  destruct (fgetUpperBound im min_range wraps s mnc mxc) as [hi|], (getUpperBound im' min_range wraps s mnc mxc) as [hi'|]; cbn [opt_rel] in U; try contradiction; [|reflexivity].
  destruct L as [L1 ->], U as [U1 ->]. rewrite (clamp_lt_r B hi rmin), (clamp_lt_l B lo rmax) by (try assumption; lra). rewrite mask_rel. reflexivity.
Qed.
End NO_NAN.

(** Without NaN pixels the update types of cells are right for infinite readings too. Missing: images with NaN pixels, for which
    this is false (below); and, as for C40, that the sensor boxes of all projectors enclose their cells. *)
Theorem C74_update_type_partial : forall P (im : img fl) wraps min_range max_range thr front behind b s u,
  valid_setup P im wraps thr -> encloses P im wraps thr b s ->
  (forall p q, in_image im p q -> im_px im p q <> NaN) ->
  fdetermineUpdateType P im wraps min_range max_range thr front behind false b = Some u ->
  (forall p q, in_image im p q -> near_pixel P thr (fst s) (p, q) ->
    (u = kFullyUnobserved -> snd s < min_range \/ max_range < snd s \/ (usable (im_px im p q) min_range -> below (im_px im p q) (snd s - behind))) /\
    (u = kFullyFree -> usable (im_px im p q) min_range /\ above (im_px im p q) (snd s + front)) /\
    (u = kFreeOrUnobserved -> usable (im_px im p q) min_range -> above (im_px im p q) (snd s + front))) /\
  (u = kFullyFree -> snd (smin b) <= snd (smax b) -> forall p q, near_pixel P thr (fst s) (p, q) -> in_image im p q).
Proof.
  intros P im wraps mr xr thr front behind b s u HS HE HN HU.
  set (rmin := zmin b - behind). set (rmax := zmax b + front).
  set (B := 10001 + Qabs mr + Qabs rmin + Qabs rmax + Qabs (snd s - behind) + Qabs (snd s + front)).
  assert (AB : forall x, 0 <= Qabs x /\ - Qabs x <= x <= Qabs x).
  { intros x. split; [apply Qabs_nonneg|]. pose proof (Qle_Qabs x). pose proof (Qle_Qabs (- x)) as H'. rewrite Qabs_opp in H'. lra. }
  pose proof (AB mr) as A1. pose proof (AB rmin) as A2. pose proof (AB rmax) as A3. pose proof (AB (snd s - behind)) as A4. pose proof (AB (snd s + front)) as A5.
  assert (SC : (0 < fst (scale_factor (Some P)))%Z /\ (0 < snd (scale_factor (Some P)))%Z).
  { destruct (C39_scale_factor P) as (S1 & S2 & _); [destruct HS as (X & Y & _); lra..|]. split; lia. }
  assert (EQ : determineUpdateType P (transform (fclamp B) im) wraps mr xr thr front behind false b = Some u).
  { rewrite <- HU. unfold determineUpdateType, fdetermineUpdateType. cbn [im_rows im_cols transform].
    destruct (qltb xr (zmin b) || qltb (zmax b) mr); [reflexivity|]. cbv zeta.
    match goal with |- (if ?x then _ else _) = _ => destruct x end; [reflexivity|]. match goal with |- (if ?x then _ else _) = _ => destruct x end; [reflexivity|].
    symmetry. apply type_clamp; [exact SC|exact HN|unfold B; lra|unfold B; lra|fold rmin; unfold B; lra|fold rmax; unfold B; lra]. }
  clear HU. assert (HS' : valid_setup P (transform (fclamp B) im) wraps thr) by exact HS. assert (HE' : encloses P (transform (fclamp B) im) wraps thr b s) by exact HE.
  destruct (C40_update_type_partial _ _ _ _ _ _ _ _ _ _ _ HS' HE' EQ) as [T TF]. split; [|exact TF].
  intros p q I N. destruct (T p q I N) as (T1 & T2 & T3). specialize (HN p q I). cbn [transform im_px] in T1, T2, T3. unfold observed_px in T1, T2, T3. cbn [transform im_px] in T1, T2, T3.
  assert (OB : usable (im_px im p q) mr <-> mr <= fclamp B (im_px im p q)).
  { assert (- B < mr < B) by (unfold B; lra). clearbody B. clear - H HN. destruct (im_px im p q) as [x| | |]; cbn [usable fclamp]; try congruence; try (split; [lra|trivial]; fail).
    - qcase (Qle_bool B x); [lra|]. qcase (Qle_bool x (- B)); lra.
    - split; [tauto|lra]. }
  assert (AV : fclamp B (im_px im p q) > snd s + front -> above (im_px im p q) (snd s + front)).
  { assert (- B < snd s + front < B) by (unfold B; lra). clearbody B. clear - H HN. destruct (im_px im p q) as [x| | |]; cbn [above fclamp]; try congruence; try tauto; try lra.
    qcase (Qle_bool B x); [lra|]. qcase (Qle_bool x (- B)); lra. }
  assert (BE : fclamp B (im_px im p q) + behind < snd s -> below (im_px im p q) (snd s - behind)).
  { assert (- B < snd s - behind < B) by (unfold B; lra). clearbody B. clear - H HN. destruct (im_px im p q) as [x| | |]; cbn [below fclamp]; try congruence; try tauto; try lra.
    qcase (Qle_bool B x); [lra|]. qcase (Qle_bool x (- B)); lra. }
  split; [|split].
  - intros E. destruct (T1 E) as [X|[X|X]]; [left; exact X|right; left; exact X|right; right]. intros O. apply BE, X, OB, O.
  - intros E. destruct (T2 E) as [X Y]. split; [apply OB, X|apply AV, Y].
  - intros E O. apply AV, T3, OB; assumption.
Qed.
Print Assumptions C74_update_type_partial.

(** ** Point clouds *)
(** Points with NaN or infinite coordinates, or closer than 1 mm or further than 1 km, are never used. *)
Theorem C74_pointcloud : forall x y z, fisMeasurementValid x y z = true <->
  exists a b c, x = Fin a /\ y = Fin b /\ z = Fin c /\ 1 # 1000000 <= a * a + b * b + c * c <= 1000000.
Proof.
  intros x y z. split.
  - intros H. unfold fisMeasurementValid in H. destruct x as [a| | |], y as [b| | |], z as [c| | |]; cbn [is_nan orb fmul fadd fltb negb andb] in H; try discriminate.
    exists a, b, c. do 3 (split; [reflexivity|]). apply andb_true_iff in H as [H1 H2]. apply negb_true_iff in H1, H2. apply qltb_false in H1, H2. lra.
  - intros (a & b & c & -> & -> & -> & H). unfold fisMeasurementValid. cbn [is_nan orb fmul fadd fltb]. apply andb_true_iff. rewrite !negb_true_iff, !qltb_false. lra.
Qed.
Print Assumptions C74_pointcloud.

(** ** NaN pixels and update types *)
(** The cell, in view of pixels (2, 2) to (3, 3) of the camera of C40_ex_cells, its centre, and a point seen by pixel (3, 3) *)
Definition nan_im (r00 r10 r01 r11 : fl) : img fl :=
  Img 8 6 (fun x y => if i2_eqb (x, y) (2, 2)%Z then r00 else if i2_eqb (x, y) (3, 2)%Z then r10 else if i2_eqb (x, y) (2, 3)%Z then r01
                      else if i2_eqb (x, y) (3, 3)%Z then r11 else Fin 9).
Definition nan_W := Box (V3 4 (13 # 10) (3 # 10)) (V3 (47 # 10) 2 1).
Definition nan_w := V3 (43 # 10) (135 # 100) (35 # 100).
Definition nan_far_W := Box (V3 (660 # 100) (2145 # 1000) (495 # 1000)) (V3 (7755 # 1000) (330 # 100) (165 # 100)).
Definition nan_far_w := V3 (7095 # 1000) (22275 # 10000) (5775 # 10000).
Definition box_centre (W : box) : v3 := v3scale (1 # 2) (v3add (bmin W) (bmax W)).
(** The update a point of the map gets on its own *)
Definition point_update (mm : mm_config) (im : img fl) (c : pinhole) (R : m3) (t w : v3) : fl :=
  fcomputeUpdate (1 # 2) 20 (fray_computeUpdate ex_log mm round_away pinhole_base im) (pinhole_sensor c (sensor_frame R t w)).
Definition cell_type (mm : mm_config) (im : img fl) (c : pinhole) (R : m3) (t : v3) (W : box) : option update_type :=
  fdetermineUpdateType pinhole_base im false (1 # 2) 20 0 (range_front mm) (range_back mm) (containsPoint W t) (pinhole_aabb c W R t).
(** The hypotheses the theorems below share: a camera and a cell in front of it, and the point [w] of the cell *)
Definition camera_cell (c : pinhole) (W : box) (R : m3) (t w : v3) (mm : mm_config) (im : img fl) : Prop :=
  pinhole_isValid c = true /\ orthonormal R /\ (forall q, In q (corners W R t) -> kEpsilon <= vz q) /\ in_box W w /\ containsPoint W t = false /\
  proper_config mm /\ valid_setup pinhole_base im false 0.
Ltac camera_cell_tac :=
  split; [reflexivity|]; split; [repeat split; reflexivity|];
  split; [intros q Hq; cbn [In corners] in Hq; repeat (destruct Hq as [<-|Hq]; [vm_compute; discriminate|]); contradiction|];
  split; [unfold in_box; cbn; repeat split; apply Qle_bool_iff; reflexivity|]; split; [vm_compute; reflexivity|];
  split; [unfold proper_config; cbn; repeat split; reflexivity|];
  split; [reflexivity|]; split; [reflexivity|]; split; [apply Qle_refl|]; split; [vm_compute; repeat split|discriminate].

(** A missing reading can hide the reading next to it from the bounds, because std::min(NaN, x) is NaN and std::min(x, NaN) is x:
    an obstacle is measured inside of the cell, but the cell is declared fully free and, sampled at its centre, made free. *)
Theorem C74_obstacle_erased_refuted : exists c W R t w mm im, camera_cell c W R t w mm im /\
  cell_type mm im c R t W = Some kFullyFree /\
  (exists u, point_update mm im c R t w = Fin u /\ 0 < u) /\ (exists u, point_update mm im c R t (box_centre W) = Fin u /\ u < 0).
Proof.
  exists ex_cam, nan_W, ex_R, (V3 0 0 0), nan_w, side_mm, (nan_im (Fin 9) (Fin 9) NaN (Fin (42 # 10))).
  split; [camera_cell_tac|]. split; [vm_compute; reflexivity|]. split; eexists; (split; [vm_compute; reflexivity|reflexivity]).
Qed.
Print Assumptions C74_obstacle_erased_refuted.
(** It can also hide the furthest reading: a surface is measured inside of the cell, but the cell is declared fully unobserved and
    skipped. *)
Theorem C74_surface_skipped_refuted : exists c W R t w mm im, camera_cell c W R t w mm im /\
  cell_type mm im c R t W = Some kFullyUnobserved /\ exists u, point_update mm im c R t w = Fin u /\ 0 < u.
Proof.
  exists ex_cam, nan_far_W, ex_R, (V3 0 0 0), nan_far_w, side_mm, (nan_im (Fin 2) (Fin 2) NaN (Fin 7)).
  split; [camera_cell_tac|]. split; [vm_compute; reflexivity|]. eexists. split; [vm_compute; reflexivity|reflexivity].
Qed.
Print Assumptions C74_surface_skipped_refuted.
(** And a missing reading does not count as unobserved: a cell with pixels that measured nothing is declared fully free and made
    free everywhere, although its points there get no update of their own. *)
Theorem C74_missing_is_free_refuted : exists c W R t w mm im p q, camera_cell c W R t w mm im /\
  imageToNearestIndex round_away pinhole_base (fst (pinhole_sensor c (sensor_frame R t w))) = (p, q) /\ im_px im p q = NaN /\
  cell_type mm im c R t W = Some kFullyFree /\
  (exists u, point_update mm im c R t w = Fin u /\ u == 0) /\ (exists u, point_update mm im c R t (box_centre W) = Fin u /\ u < 0).
Proof.
  exists ex_cam, nan_W, ex_R, (V3 0 0 0), nan_w, side_mm, (nan_im (Fin 9) (Fin 9) NaN NaN), 3%Z, 3%Z.
  split; [camera_cell_tac|]. split; [vm_compute; reflexivity|]. split; [reflexivity|]. split; [vm_compute; reflexivity|].
  split; eexists; (split; [vm_compute; reflexivity|reflexivity]).
Qed.
Print Assumptions C74_missing_is_free_refuted.

(** Readings without NaN, some of them infinite: the hypotheses of C74_update_type_partial hold, and all four types occur. *)
Definition inf_im : img fl := Img 8 6 (fun x y => if (x <? 4)%Z then PInf else if (x <? 6)%Z then Fin 4 else NInf).
Example C74_ex_types : (forall p q, im_px inf_im p q <> NaN) /\ valid_setup pinhole_base inf_im false 0 /\
  map (cell_type side_mm inf_im ex_cam ex_R (V3 0 0 0)) ex_cells = [Some kFullyFree; Some kFullyUnobserved; Some kFreeOrUnobserved; Some kPossiblyOccupied] /\
  forallb (fun W => negb (containsPoint W (V3 0 0 0)) && forallb (fun q => Qle_bool kEpsilon (vz q)) (corners W ex_R (V3 0 0 0))) ex_cells = true.
Proof.
  split; [intros p q; cbn; destruct (p <? 4)%Z; [discriminate|]; destruct (p <? 6)%Z; discriminate|].
  split; [split; [reflexivity|]; split; [reflexivity|]; split; [apply Qle_refl|]; split; [vm_compute; repeat split|discriminate]|]. split; vm_compute; reflexivity.
Qed.
Example C74_ex_updates : log_like ex_log /\ proper_config side_mm /\
  map (fun m => match fray_beam ex_log side_mm 4 m with Fin u => Some (Qred u) | _ => None end) [NaN; NInf; PInf; Fin (39 # 10)] = [Some 0; Some 0; Some (- (1)); Some (31 # 48)] /\
  fisMeasurementValid (Fin 3) (Fin 4) (Fin 0) = true /\ fisMeasurementValid (Fin 3) NaN (Fin 0) = false /\ fisMeasurementValid PInf (Fin 3) NInf = false.
Proof. split; [apply C45_ex_hyps|]. split; [unfold proper_config; cbn; repeat split; reflexivity|]. vm_compute. repeat split. Qed.
