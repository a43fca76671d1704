(** C40, continued: the update types and the updates that the measurement models compute. *)
From Verif Require Import Base M_IntMath M_Point P_Point M_Image M_RangeBounds P_RangeBounds M_Measure F_Measure P_Measure M_Intersector P_Intersector.
From Coq Require Import QArith Qround Qabs Lqa.
Close Scope Q_scope.
Open Scope Z_scope.

(** ** Specification *)
(** Pixels without a measurement in range are zero, and the occupied zone behind a surface is thinner than the smallest
    range, so that a zero pixel has no effect *)
Definition clean_image (c : mm_config) (im : img Q) (min_range : Q) : Prop :=
  (6 * range_sigma c < min_range)%Q /\ forall p q, in_image im p q -> ~ observed_px im min_range p q -> (im_px im p q <= 0)%Q.

(** ** The pixels that computeUpdate uses are near *)
Lemma near1 s o thr c i : (0 < s)%Q -> (0 <= thr)%Q -> (Qabs (inject_Z i - (c - o) * (1 / s)) < 1)%Q -> (Qabs (inject_Z i * s + o - c) < s + thr)%Q.
Proof.
  intros S T N. set (r := ((c - o) * (1 / s))%Q) in *. assert (E : (c == r * s + o)%Q) by (unfold r; field; lra). clearbody r.
  apply Qabs_Qlt_condition in N as [N1 N2]. apply Qabs_Qlt_condition. rewrite E. split; nra.
Qed.
Lemma floor_near x : (Qabs (inject_Z (Qfloor x) - x) < 1)%Q.
Proof. pose proof (Qfloor_le x). pose proof (Qlt_floor x) as L. rewrite inject_Z_plus in L. change (inject_Z 1) with 1%Q in L. apply Qabs_Qlt_condition. lra. Qed.
Lemma ceil_near x : (Qabs (inject_Z (Qceiling x) - x) < 1)%Q.
Proof.
  pose proof (Qle_ceiling x). pose proof (Qceiling_lt x) as L. unfold Z.sub in L. rewrite inject_Z_plus in L. change (inject_Z (- (1))) with (-1)%Q in L.
  apply Qabs_Qlt_condition. lra.
Qed.
Lemma nearest_near rnd P thr c : nearest rnd -> (0 < fst (pb_scale P))%Q -> (0 < snd (pb_scale P))%Q -> (0 <= thr)%Q ->
  near_pixel P thr c (imageToNearestIndex rnd P c).
Proof. intros H A B T. split; apply near1; try assumption; pose proof (H (fst (imageToIndexReal P c))); pose proof (H (snd (imageToIndexReal P c))); cbn in *; lra. Qed.
Lemma neighbours_near P thr c : (0 < fst (pb_scale P))%Q -> (0 < snd (pb_scale P))%Q -> (0 <= thr)%Q ->
  forall i, In i (imageToNearestIndices P c) -> near_pixel P thr c i.
Proof.
  intros A B T i H. unfold imageToNearestIndices, imageToFloorIndex, imageToCeilIndex, imageToIndexReal, pb_inv in H. cbn [In fst snd] in H. destruct H as [<-|[<-|[<-|[<-|[]]]]]; (split; apply near1; try assumption; first [apply floor_near | apply ceil_near]).
Qed.
Lemma at_px_in {T} (im : img T) i v : at_px im i = Some v -> (0 <= fst i < im_rows im /\ 0 <= snd i < im_cols im) /\ v = im_px im (fst i) (snd i).
Proof.
  unfold at_px. destruct (_ && _) eqn:E; [|discriminate]. intros H. injection H as <-. rewrite !andb_true_iff, Z.leb_le, Z.leb_le, !Z.ltb_lt in E. split; [lia|reflexivity].
Qed.
Lemma at_px_some {T} (im : img T) i : 0 <= fst i < im_rows im -> 0 <= snd i < im_cols im -> at_px im i = Some (im_px im (fst i) (snd i)).
Proof. intros A B. unfold at_px. destruct (Z.leb_spec 0 (fst i)), (Z.ltb_spec (fst i) (im_rows im)), (Z.leb_spec 0 (snd i)), (Z.ltb_spec (snd i) (im_cols im)); try lia; reflexivity. Qed.
Lemma fold_ext_in {A B} (f g : B -> A -> B) l : (forall b a, In a l -> f b a = g b a) -> forall b, fold_left f l b = fold_left g l b.
Proof. induction l as [|a l IH]; intros H b; [reflexivity|]. cbn [fold_left]. rewrite H by (left; reflexivity). apply IH. intros; apply H; right; assumption. Qed.
Lemma fold_sum_const {A} (g : A -> Q) (k : Q) l : (forall a, In a l -> g a == k)%Q -> forall u, (fold_left (fun u a => u + g a)%Q l u == u + inject_Z (Z.of_nat (length l)) * k)%Q.
Proof.
  induction l as [|a l IH]; intros H u.
  - cbn [fold_left length]. change (inject_Z (Z.of_nat 0)) with 0%Q. ring.
  - cbn [fold_left length]. rewrite IH by (intros; apply H; right; assumption). rewrite (H a) by (left; reflexivity).
    rewrite Nat2Z.inj_succ, <- Z.add_1_r, inject_Z_plus. change (inject_Z 1) with 1%Q. ring.
Qed.
Lemma fold_sum_neg {A} (g : A -> Q) l : (forall a, In a l -> g a <= 0)%Q -> forall u, (u <= 0 -> fold_left (fun u a => u + g a) l u <= 0)%Q.
Proof.
  induction l as [|a l IH]; intros H u U; [exact U|]. cbn [fold_left]. apply IH; [intros; apply H; right; assumption|].
  pose proof (H a (or_introl eq_refl)). lra.
Qed.

Section UPDATES.
Context (flog : Q -> Q) (c : mm_config) (HL : log_like flog) (HC : proper_config c).
Context (P : projector) (im : img Q) (wraps : bool) (min_range max_range thr : Q).
Context (HS : valid_setup P im wraps thr) (HI : clean_image c im min_range).
Context (b : saabb) (s : sensor) (HE : encloses P im wraps thr b s) (u : update_type).
Context (HU : determineUpdateType P im wraps min_range max_range thr (range_front c) (range_back c) false b = Some u).
Context (HR : (min_range <= snd s <= max_range)%Q).
(** A pixel near the point, by update type *)
Lemma px_unobserved_type i v : u = kFullyUnobserved -> near_pixel P thr (fst s) i -> at_px im i = Some v -> (v + range_back c < snd s)%Q.
Proof.
  intros U N A. apply at_px_in in A as [I ->]. destruct i as [p q]. cbn [fst snd] in *.
  destruct (C40_update_type_partial _ _ _ _ _ _ _ _ _ _ _ HS HE HU) as [T _]. destruct (T p q I N) as (T1 & _). specialize (T1 U).
  destruct T1 as [T1|[T1|T1]]; [lra|lra|]. destruct (Qlt_le_dec (im_px im p q) min_range) as [L|L]; [|apply T1; exact L].
  destruct HI as [B Z]. specialize (Z p q I ltac:(unfold observed_px; lra)). unfold range_back. lra.
Qed.
Lemma px_free_type i v : u = kFullyFree -> near_pixel P thr (fst s) i -> at_px im i = Some v -> (snd s + range_front c < v)%Q.
Proof.
  intros U N A. apply at_px_in in A as [I ->]. destruct i as [p q]. cbn [fst snd] in *.
  destruct (C40_update_type_partial _ _ _ _ _ _ _ _ _ _ _ HS HE HU) as [T _]. destruct (T p q I N) as (_ & T2 & _). apply T2. exact U.
Qed.
Lemma px_mixed_type i v : u = kFreeOrUnobserved -> near_pixel P thr (fst s) i -> at_px im i = Some v -> (snd s + range_front c < v \/ v + range_back c < snd s)%Q.
Proof.
  intros U N A. apply at_px_in in A as [I ->]. destruct i as [p q]. cbn [fst snd] in *.
  destruct (C40_update_type_partial _ _ _ _ _ _ _ _ _ _ _ HS HE HU) as [T _]. destruct (T p q I N) as (_ & _ & T3). specialize (T3 U).
  destruct (Qlt_le_dec (im_px im p q) min_range) as [L|L]; [right|left; apply T3; exact L].
  destruct HI as [B Z]. specialize (Z p q I ltac:(unfold observed_px; lra)). unfold range_back. lra.
Qed.
Lemma sp : (0 < range_sigma c)%Q. Proof. destruct HC as (_ & A & _). exact A. Qed.
(** One pixel of the ray model *)
Lemma ray_behind v : (v + range_back c < snd s)%Q -> ray_beam flog c (snd s) v = 0%Q.
Proof. intros H. unfold ray_beam. assert (E : qltb (range_back c) (snd s - v) = true) by (apply P_RangeBounds.qltb_true; lra). rewrite E. reflexivity. Qed.
Lemma ray_front v : (snd s + range_front c < v)%Q -> ray_beam flog c (snd s) v = log_odds flog (ray_free_p c).
Proof.
  intros H. pose proof sp. unfold ray_beam. assert (E : qltb (range_back c) (snd s - v) = false) by (apply qltb_false'; unfold range_back, range_front in *; lra). rewrite E.
  assert (E' : qltb (snd s) (v - range_front c) = true) by (apply P_RangeBounds.qltb_true; lra). rewrite E'. reflexivity.
Qed.
Lemma free_neg : (log_odds flog (ray_free_p c) <= 0)%Q.
Proof. destruct HC as (_ & _ & F & _). apply lo_neg; [exact HL| |]; unfold ray_free_p; lra. Qed.
Lemma in_range (model : v2 -> Q -> Q) : computeUpdate min_range max_range model s = model (fst s) (snd s).
Proof.
  unfold computeUpdate. destruct (qltb (snd s) min_range) eqn:A; [apply P_RangeBounds.qltb_true in A; lra|].
  destruct (qltb max_range (snd s)) eqn:B; [apply P_RangeBounds.qltb_true in B; lra|]. reflexivity.
Qed.
Lemma beam_behind fsqrt e v : (v + range_back c < snd s)%Q -> beam_beam fsqrt flog c (snd s) e v = 0%Q.
Proof.
  intros H. unfold beam_beam, beam_unknown. assert (E : qltb (v + range_back c) (snd s) = true) by (apply P_RangeBounds.qltb_true; lra). rewrite E, orb_true_r. reflexivity.
Qed.
End UPDATES.

(** Ray model: a cell that is declared unobserved gets no update at any of its points; a fully free cell gets the free-space
    update at all its points; and a cell declared free or unobserved is never made more occupied. *)
Theorem C40_ray_update_partial : forall flog c rnd P im wraps min_range max_range b s u,
  log_like flog -> proper_config c -> nearest rnd -> valid_setup P im wraps 0%Q -> clean_image c im min_range ->
  encloses P im wraps 0%Q b s ->
  determineUpdateType P im wraps min_range max_range 0%Q (range_front c) (range_back c) false b = Some u ->
  let update := computeUpdate min_range max_range (ray_computeUpdate flog c rnd P im) s in
  let k := match selector c with kNearestNeighbor => 1 | kAllNeighbors => 4 end%Q in
  (u = kFullyUnobserved -> (update == 0)%Q) /\
  (u = kFullyFree -> (snd (smin b) <= snd (smax b))%Q -> (min_range <= snd s <= max_range)%Q -> (update == k * ray_free flog c)%Q) /\
  (u = kFullyFree \/ u = kFreeOrUnobserved -> (update <= 0)%Q).
Proof.
  intros flog c rnd P im wraps mr xr b s u HL HC HN HS HI HE HU update k.
  pose proof HS as (SX & SY & _).
  destruct (qltb (snd s) mr || qltb xr (snd s)) eqn:RG.
  { assert (E : update = 0%Q) by (unfold update, computeUpdate; rewrite RG; reflexivity). rewrite E.
    apply orb_true_iff in RG as [RG|RG]; apply P_RangeBounds.qltb_true in RG; (split; [reflexivity|split; [intros; lra|intros; lra]]). }
  apply orb_false_iff in RG as [R1 R2]. apply qltb_false' in R1, R2. pose proof (conj R1 R2) as HR.
  assert (EU : update = ray_computeUpdate flog c rnd P im (fst s) (snd s)) by (apply in_range; exact HR).
  pose proof (nearest_near rnd P 0 (fst s) HN SX SY ltac:(lra)) as NN.
  pose proof (neighbours_near P 0 (fst s) SX SY ltac:(lra)) as NA.
  assert (A : forall i, near_pixel P 0 (fst s) i ->
    (u = kFullyUnobserved -> ray_at flog c im (snd s) i == 0)%Q /\
    (u = kFullyFree -> (snd (smin b) <= snd (smax b))%Q -> ray_at flog c im (snd s) i == ray_free flog c)%Q /\
    (u = kFullyFree \/ u = kFreeOrUnobserved -> ray_at flog c im (snd s) i <= 0)%Q).
  { intros i N. unfold ray_at. split; [|split].
    - intros U. destruct (at_px im i) as [v|] eqn:E; [|reflexivity]. rewrite (ray_behind flog c s v); [reflexivity|].
      eapply px_unobserved_type; eassumption.
    - intros U L. destruct (C40_update_type_partial _ _ _ _ _ _ _ _ _ _ _ HS HE HU) as [_ T]. destruct i as [p q]. destruct (T U L p q N) as [I1 I2].
      rewrite (at_px_some im (p, q)) by assumption. rewrite (ray_front flog c HC s); [reflexivity|].
      eapply px_free_type; try eassumption. apply at_px_some; assumption.
    - intros U. destruct (at_px im i) as [v|] eqn:E; [|apply Qle_refl]. destruct U as [U|U].
      + rewrite (ray_front flog c HC s v); [apply (free_neg flog c HL HC)|]. eapply px_free_type; eassumption.
      + destruct (px_mixed_type c P im wraps mr xr 0 HS HI b s HE u HU HR i v U N E) as [F|F].
        * rewrite (ray_front flog c HC s v F). apply (free_neg flog c HL HC).
        * rewrite (ray_behind flog c s v F). apply Qle_refl. }
  rewrite EU. unfold k, ray_computeUpdate. destruct (selector c).
  - destruct (A _ NN) as (A1 & A2 & A3). split; [exact A1|]. split; [|exact A3]. intros U L _. rewrite (A2 U L). ring.
  - split; [|split].
    + intros U. rewrite (fold_sum_const (ray_at flog c im (snd s)) 0); [change (inject_Z (Z.of_nat (length (imageToNearestIndices P (fst s))))) with 4%Q; ring|]. intros i I. apply A; [apply NA; exact I|exact U].
    + intros U L _. rewrite (fold_sum_const (ray_at flog c im (snd s)) (ray_free flog c));
        [change (inject_Z (Z.of_nat (length (imageToNearestIndices P (fst s))))) with 4%Q; ring|]. intros i I. apply A; [apply NA; exact I|exact U|exact L].
    + intros U. apply fold_sum_neg; [|apply Qle_refl]. intros i I. apply A; [apply NA; exact I|exact U].
Qed.
Print Assumptions C40_ray_update_partial.

(** Beam model, for every image of beam offsets and non-negative error norm. *)
Theorem C40_beam_update_partial : forall fsqrt flog c error2 rnd P im offsets wraps min_range max_range b s u,
  sqrt_like fsqrt c -> log_like flog -> proper_config c -> (forall x y, 0 <= error2 x y)%Q -> nearest rnd ->
  valid_setup P im wraps (angle_threshold c) -> clean_image c im min_range -> encloses P im wraps (angle_threshold c) b s ->
  determineUpdateType P im wraps min_range max_range (angle_threshold c) (range_front c) (range_back c) false b = Some u ->
  let update := computeUpdate min_range max_range (beam_computeUpdate fsqrt flog c error2 rnd P im offsets) s in
  (u = kFullyUnobserved -> (update == 0)%Q) /\ (u = kFullyFree \/ u = kFreeOrUnobserved -> (update <= 0)%Q).
Proof.
  intros fsqrt flog c error2 rnd P im offsets wraps mr xr b s u HQ HL HC HP HN HS HI HE HU update.
  pose proof HS as (SX & SY & HT & _). pose proof HI as [HB _].
  destruct (qltb (snd s) mr || qltb xr (snd s)) eqn:RG.
  { assert (E : update = 0%Q) by (unfold update, computeUpdate; rewrite RG; reflexivity). rewrite E. split; intros _; [reflexivity|apply Qle_refl]. }
  apply orb_false_iff in RG as [R1 R2]. apply qltb_false' in R1, R2. pose proof (conj R1 R2) as HR.
  assert (EU : update = beam_computeUpdate fsqrt flog c error2 rnd P im offsets (fst s) (snd s)) by (apply in_range; exact HR).
  pose proof (nearest_near rnd P _ (fst s) HN SX SY HT) as NN. pose proof (neighbours_near P _ (fst s) SX SY HT) as NA.
  assert (F0 : forall e v, (snd s + range_front c < v)%Q -> (0 <= e)%Q -> (beam_beam fsqrt flog c (snd s) e v <= 0)%Q).
  { intros e v F He. destruct (C45_beam fsqrt flog c v (snd s) (snd s) e e HQ HL HC He) as (_ & _ & _ & N & _). apply N.
    pose proof (sp c HC). unfold range_front in F. lra. }
  assert (A : forall i v e, near_pixel P (angle_threshold c) (fst s) i -> at_px im i = Some v -> (0 <= e)%Q ->
    (u = kFullyUnobserved -> beam_beam fsqrt flog c (snd s) e v == 0)%Q /\ (u = kFullyFree \/ u = kFreeOrUnobserved -> beam_beam fsqrt flog c (snd s) e v <= 0)%Q).
  { intros i v e N E He. split.
    - intros U. rewrite (beam_behind flog c s fsqrt e v); [reflexivity|]. eapply px_unobserved_type; eassumption.
    - intros [U|U].
      + apply F0; [|exact He]. eapply px_free_type; eassumption.
      + destruct (px_mixed_type c P im wraps mr xr _ HS HI b s HE u HU HR i v U N E) as [F|F]; [apply F0; assumption|].
        rewrite (beam_behind flog c s fsqrt e v F). apply Qle_refl. }
  rewrite EU. unfold beam_computeUpdate. destruct (selector c).
  - unfold beam_nearest. destruct (imageToNearestIndexAndOffset rnd P (fst s)) as [i o] eqn:EI.
    assert (Ei : i = imageToNearestIndex rnd P (fst s)) by (unfold imageToNearestIndexAndOffset in EI; injection EI as <- _; reflexivity).
    destruct (at_px im i) as [v|] eqn:E; [|split; intros _; [reflexivity|apply Qle_refl]]. apply (A i v); [rewrite Ei; exact NN|exact E|apply HP].
  - unfold beam_all.
    set (g := fun io : i2 * v2 => let '(i, o) := io in let '(measured, o') := match at_px im i with None => (0%Q, o) | Some m => (m, v2sub o (offsets (fst i) (snd i))) end in
       beam_beam fsqrt flog c (snd s) (error2 (fst s) o') measured).
    assert (G : forall io, In io (imageToNearestIndicesAndOffsets P (fst s)) ->
      (u = kFullyUnobserved -> g io == 0)%Q /\ (u = kFullyFree \/ u = kFreeOrUnobserved -> g io <= 0)%Q).
    { intros [i o] I. assert (N : near_pixel P (angle_threshold c) (fst s) i).
      { apply NA. unfold imageToNearestIndicesAndOffsets in I. apply in_map_iff in I as (j & EJ & I). injection EJ as <- _. exact I. }
      unfold g. destruct (at_px im i) as [v|] eqn:E; [apply (A i v _ N E); apply HP|].
      rewrite (beam_behind flog c s fsqrt); [split; intros _; [reflexivity|apply Qle_refl]|]. unfold range_back. lra. }
    rewrite (fold_ext_in _ (fun u0 a => u0 + g a)%Q) by (intros u0 [i o] _; unfold g; destruct (at_px im i); reflexivity).
    split.
    + intros U. rewrite (fold_sum_const g 0); [change (inject_Z (Z.of_nat (length (imageToNearestIndicesAndOffsets P (fst s))))) with 4%Q; ring|]. intros io I. apply G; [exact I|exact U].
    + intros U. apply fold_sum_neg; [|apply Qle_refl]. intros io I. apply G; [exact I|exact U].
Qed.
Print Assumptions C40_beam_update_partial.

(** A cell on the seam of a periodic image with 8 columns: the hypotheses hold, for points at both sides of the seam. *)
Definition seam_P := PB (1 # 4, 785 # 1000)%Q (- (1 # 2), - (2750 # 1000))%Q.
Definition seam_im : img Q := Img 4 8 (fun x y => if 2 <? Z.abs (2 * y - 7) then 10%Q else 2%Q).
Definition seam_b := SB (- (1 # 10), 28 # 10)%Q (2 # 10, - (28 # 10))%Q 4 5.
Definition seam_c := MM (1 # 100) (1 # 20) (1 # 2) (1 # 2) kNearestNeighbor.
Example C40_ex_seam : valid_setup seam_P seam_im true 0 /\ clean_image seam_c seam_im (1 # 2) /\ proper_config seam_c /\
  encloses seam_P seam_im true 0 seam_b ((1 # 10, 3)%Q, 9 # 2)%Q /\ encloses seam_P seam_im true 0 seam_b ((1 # 10, - (3))%Q, 9 # 2)%Q /\
  determineUpdateType seam_P seam_im true (1 # 2) 20 0 (range_front seam_c) (range_back seam_c) false seam_b = Some kFullyFree /\
  Qred (computeUpdate (1 # 2) 20 (ray_computeUpdate ex_log seam_c round_away seam_P seam_im) ((1 # 10, - (3))%Q, 9 # 2)%Q) = (- (1))%Q.
Proof.
  split. { split; [reflexivity|]. split; [reflexivity|]. split; [apply Qle_refl|]. split; [vm_compute; repeat split|]. intros _. exists 3. split; [lia|reflexivity]. }
  split. { split; [reflexivity|]. intros p q _ H. exfalso. apply H. unfold observed_px, seam_im. cbn [im_px]. destruct (2 <? _); apply Qle_bool_iff; reflexivity. }
  split; [unfold proper_config; cbn; repeat split; reflexivity|].
  assert (E : forall a, (a <= - (28 # 10) \/ (28 # 10) <= a)%Q -> encloses seam_P seam_im true 0 seam_b ((1 # 10, a)%Q, 9 # 2)%Q).
  { intros a A. unfold encloses, axis_encloses, seam_P, seam_im, seam_b. cbn [fst snd zmin zmax smin smax pb_scale pb_offset im_cols].
    change (inject_Z 8) with 8%Q. repeat split; lra. }
  split; [apply E; right; apply Qle_bool_iff; reflexivity|]. split; [apply E; left; apply Qle_bool_iff; reflexivity|].
  split; vm_compute; reflexivity.
Qed.
