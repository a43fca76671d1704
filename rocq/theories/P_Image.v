(** Property theorems C51 (image index conversions) and C43 (import of point clouds). *)
From Verif Require Import Base M_Point P_Point M_Image.
From Coq Require Import QArith Qround Qabs Lqa Permutation.
Close Scope Q_scope.
Open Scope Z_scope.

(** ** C51 *)
Definition v2eq (a b : v2) : Prop := (fst a == fst b /\ snd a == snd b)%Q.
Definition valid_scale (P : projector) : Prop := ~ (fst (pb_scale P) == 0)%Q /\ ~ (snd (pb_scale P) == 0)%Q.

Lemma nearest_inject rnd x n : nearest rnd -> (x == inject_Z n)%Q -> rnd x = n.
Proof.
  intros H E. pose proof (H x) as A. apply Qabs_Qle_condition in A as [A B].
  assert (A' : (inject_Z (rnd x) < inject_Z (n + 1))%Q) by (rewrite inject_Z_plus; change (inject_Z 1) with 1%Q; lra).
  assert (B' : (inject_Z n < inject_Z (rnd x + 1))%Q) by (rewrite inject_Z_plus; change (inject_Z 1) with 1%Q; lra).
  rewrite <- Zlt_Qlt in A', B'. lia.
Qed.
Lemma real_of_index P i : valid_scale P -> v2eq (imageToIndexReal P (indexToImage P i)) (inject_Z (fst i), inject_Z (snd i)).
Proof. intros [H1 H2]. unfold v2eq, imageToIndexReal, indexToImage, pb_inv. cbn [fst snd]. split; field; assumption. Qed.

(** The nearest (and the floor and ceiling) index of a pixel's image coordinates is the pixel itself. *)
Theorem C51_index_roundtrip : forall rnd P i, nearest rnd -> valid_scale P ->
  imageToNearestIndex rnd P (indexToImage P i) = i /\
  imageToFloorIndex P (indexToImage P i) = i /\ imageToCeilIndex P (indexToImage P i) = i /\
  imageToNearestIndices P (indexToImage P i) = [i; i; i; i].
Proof.
  intros rnd P [i j] Hn Hs. destruct (real_of_index P (i, j) Hs) as [E1 E2]. cbn [fst snd] in E1, E2.
  assert (A : imageToFloorIndex P (indexToImage P (i, j)) = (i, j)) by (unfold imageToFloorIndex; rewrite E1, E2, !Qfloor_Z; reflexivity).
  assert (B : imageToCeilIndex P (indexToImage P (i, j)) = (i, j)) by (unfold imageToCeilIndex; rewrite E1, E2, !Qceiling_Z; reflexivity).
  split; [|split; [assumption|split; [assumption|]]].
  - unfold imageToNearestIndex. rewrite (nearest_inject rnd _ i), (nearest_inject rnd _ j) by assumption. reflexivity.
  - unfold imageToNearestIndices. rewrite A, B. reflexivity.
Qed.
(** The pixel found for a coordinate is a nearest one: its centre is at most half a pixel pitch away on each
    axis, and no pixel is closer. *)
Theorem C51_nearest_is_nearest : forall rnd P c j, nearest rnd -> valid_scale P ->
  let i := imageToNearestIndex rnd P c in
  let dist := fun k => (Qabs (fst (indexToImage P k) - fst c), Qabs (snd (indexToImage P k) - snd c)) in
  (fst (dist i) <= Qabs (fst (pb_scale P)) * (1 # 2) /\ snd (dist i) <= Qabs (snd (pb_scale P)) * (1 # 2) /\
   fst (dist i) <= fst (dist j) /\ snd (dist i) <= snd (dist j))%Q.
Proof.
  intros rnd P [x y] [jx jy] Hn [H1 H2]. unfold imageToNearestIndex, imageToIndexReal, pb_inv, indexToImage. cbv zeta. cbn [fst snd].
  assert (G : forall s o z k, ~ (s == 0)%Q -> let n := rnd ((z - o) * (1 / s))%Q in
    (Qabs (inject_Z n * s + o - z) <= Qabs s * (1 # 2) /\ Qabs (inject_Z n * s + o - z) <= Qabs (inject_Z k * s + o - z))%Q).
  { intros s o z k Hs. cbv zeta. set (r := ((z - o) * (1 / s))%Q). assert (Ez : (z == r * s + o)%Q) by (unfold r; field; assumption).
    pose proof (Hn r) as D. set (n := rnd r) in *. pose proof D as AB. apply Qabs_Qle_condition in AB as [A B].
    assert (F : forall m : Q, (Qabs (m * s + o - z) == Qabs (m - r) * Qabs s)%Q) by (intros m; rewrite <- Qabs_Qmult; apply Qabs_wd; rewrite Ez; ring).
    rewrite !F. assert (Hs0 := Qabs_nonneg s). split.
    - rewrite (Qmult_comm (Qabs s)). apply Qmult_le_compat_r; assumption.
    - apply Qmult_le_compat_r; [|assumption]. destruct (Z.eq_dec k n) as [->|N]; [apply Qle_refl|].
      apply Qle_trans with (1 # 2)%Q; [assumption|]. destruct (Z_lt_le_dec k n) as [L|L].
      + assert (inject_Z k <= inject_Z n - 1)%Q by (change 1%Q with (inject_Z 1); unfold Qminus; rewrite <- inject_Z_opp, <- inject_Z_plus, <- Zle_Qle; lia).
        rewrite Qabs_Qminus. eapply Qle_trans; [|apply Qle_Qabs]. lra.
      + assert (inject_Z n + 1 <= inject_Z k)%Q by (change 1%Q with (inject_Z 1); rewrite <- inject_Z_plus, <- Zle_Qle; lia).
        eapply Qle_trans; [|apply Qle_Qabs]. lra. }
  destruct (G (fst (pb_scale P)) (fst (pb_offset P)) x jx H1) as [G1 G2]. destruct (G (snd (pb_scale P)) (snd (pb_offset P)) y jy H2) as [G3 G4]. tauto.
Qed.
(** The four nearest indices are the corners of the pixel square around the coordinate: floor and ceiling on
    each axis, and the coordinate lies between their centres. *)
Theorem C51_four_indices_surround : forall P c, valid_scale P ->
  exists lo hi : i2, imageToNearestIndices P c = [lo; (fst hi, snd lo); (fst lo, snd hi); hi] /\
    fst lo <= fst hi <= fst lo + 1 /\ snd lo <= snd hi <= snd lo + 1 /\
    forall rx ry, (fst c == rx * fst (pb_scale P) + fst (pb_offset P) -> snd c == ry * snd (pb_scale P) + snd (pb_offset P) ->
      inject_Z (fst lo) <= rx <= inject_Z (fst hi) /\ inject_Z (snd lo) <= ry <= inject_Z (snd hi))%Q.
Proof.
  intros P [x y] [H1 H2]. exists (imageToFloorIndex P (x, y)), (imageToCeilIndex P (x, y)). split; [reflexivity|].
  unfold imageToFloorIndex, imageToCeilIndex, imageToIndexReal, pb_inv. cbn [fst snd].
  set (rx0 := ((x - fst (pb_offset P)) * (1 / fst (pb_scale P)))%Q). set (ry0 := ((y - snd (pb_offset P)) * (1 / snd (pb_scale P)))%Q).
  assert (G : forall r, Qfloor r <= Qceiling r <= Qfloor r + 1).
  { intros r. pose proof (Qfloor_le r). pose proof (Qle_ceiling r). split; [rewrite Zle_Qle; lra|].
    pose proof (Qlt_floor r). assert (L : (inject_Z (Qceiling r - 1) < r)%Q) by apply Qceiling_lt.
    assert (M : (inject_Z (Qceiling r - 1) < inject_Z (Qfloor r + 1))%Q) by lra. rewrite <- Zlt_Qlt in M. lia. }
  split; [apply G|]. split; [apply G|]. intros rx ry Ex Ey.
  assert (Rx : (rx0 == rx)%Q) by (unfold rx0; rewrite Ex; field; assumption).
  assert (Ry : (ry0 == ry)%Q) by (unfold ry0; rewrite Ey; field; assumption).
  pose proof (Qfloor_le rx0). pose proof (Qle_ceiling rx0). pose proof (Qfloor_le ry0). pose proof (Qle_ceiling ry0). lra.
Qed.
(** The offsets reported with the indices are the differences between the pixel centre and the coordinate,
    and the indices are those of the functions without offsets. *)
Theorem C51_offsets : forall rnd P c, valid_scale P ->
  (let '(i, o) := imageToNearestIndexAndOffset rnd P c in
   i = imageToNearestIndex rnd P c /\ v2eq o ((fst (indexToImage P i) - fst c)%Q, (snd (indexToImage P i) - snd c)%Q)) /\
  map fst (imageToNearestIndicesAndOffsets P c) = imageToNearestIndices P c /\
  Forall (fun io => v2eq (snd io) ((fst (indexToImage P (fst io)) - fst c)%Q, (snd (indexToImage P (fst io)) - snd c)%Q))
    (imageToNearestIndicesAndOffsets P c).
Proof.
  intros rnd P [x y] [H1 H2]. split; [|split].
  - unfold imageToNearestIndexAndOffset. split; [reflexivity|]. unfold v2eq, indexToImage, imageToIndexReal, pb_inv. cbn [fst snd]. split; field; assumption.
  - unfold imageToNearestIndicesAndOffsets. rewrite map_map. cbn [fst]. apply map_id.
  - unfold imageToNearestIndicesAndOffsets. apply Forall_forall. intros io H. apply in_map_iff in H as (i & <- & _).
    unfold v2eq, indexToImage, imageToIndexReal, pb_inv. cbn [fst snd]. split; field; assumption.
Qed.
(** Circular projector: cell 0 is at min_angle, the last cell at max_angle, indices round-trip, and angles
    between the first and last cell get an index in range. *)
Theorem C51_circular : forall rnd C i a, nearest rnd -> (cp_min C < cp_max C)%Q -> 1 < cp_num C ->
  angleToNearestIndex rnd C (indexToAngle C i) = i /\
  angleToFloorIndex C (indexToAngle C i) = i /\ angleToCeilIndex C (indexToAngle C i) = i /\
  (indexToAngle C 0 == cp_min C)%Q /\ (indexToAngle C (cp_num C - 1) == cp_max C)%Q /\
  (a == indexToAngle C (angleToNearestIndex rnd C a) + angleRemainder rnd C a)%Q /\
  ((cp_min C <= a <= cp_max C)%Q -> 0 <= angleToNearestIndex rnd C a < cp_num C).
Proof.
  intros rnd C i a Hn Hm Hc. unfold indexToAngle, angleToNearestIndex, angleToFloorIndex, angleToCeilIndex, angleRemainder, angleToScaledAngle.
  assert (Hd : (0 < inject_Z (cp_num C - 1))%Q) by (change 0%Q with (inject_Z 0); rewrite <- Zlt_Qlt; lia).
  assert (Hi : (0 < cp_inc C)%Q) by (unfold cp_inc; apply Qlt_shift_div_l; lra).
  assert (Ei : (cp_inc C * inject_Z (cp_num C - 1) == cp_max C - cp_min C)%Q) by (unfold cp_inc; field; lra).
  set (c := cp_inc C) in *. set (N := inject_Z (cp_num C - 1)) in *.
  assert (E : ((cp_min C + inject_Z i * c - cp_min C) * (1 / c) == inject_Z i)%Q) by (field; lra).
  split; [apply (nearest_inject rnd); assumption|]. split; [rewrite E; apply Qfloor_Z|]. split; [rewrite E; apply Qceiling_Z|].
  split; [change (inject_Z 0) with 0%Q; ring|]. split; [fold N; rewrite Qmult_comm, Ei; ring|]. set (r := ((a - cp_min C) * (1 / c))%Q).
  assert (Er : (r * c == a - cp_min C)%Q) by (unfold r; field; lra).
  split; [rewrite (Qmult_comm (r - _) c); assert (X : (c * (r - inject_Z (rnd r)) == r * c - inject_Z (rnd r) * c)%Q) by ring; rewrite X, Er; ring|].
  intros [A B]. pose proof (Hn r) as D. apply Qabs_Qle_condition in D as [D1 D2]. set (n := rnd r) in *.
  assert (R0 : (0 <= r)%Q) by (unfold r; apply Qmult_le_0_compat; [lra|apply Qle_shift_div_l; lra]).
  assert (R1 : (r <= N)%Q). { apply Qmult_lt_0_le_reg_r with c; [assumption|]. rewrite Er, Qmult_comm, Ei. lra. }
  assert (L1 : (inject_Z (-1) < inject_Z n)%Q) by (change (inject_Z (-1)) with (-1)%Q; lra).
  assert (L2 : (inject_Z n < inject_Z (cp_num C - 1 + 1))%Q) by (rewrite inject_Z_plus; fold N; change (inject_Z 1) with 1%Q; lra).
  rewrite <- Zlt_Qlt in L1, L2. lia.
Qed.
Example C51_ex : let P := PB (2 # 1, - 3 # 1)%Q (5 # 1, 7 # 1)%Q in valid_scale P /\ nearest round_away /\
  imageToNearestIndex round_away P (10 # 1, 0 # 1)%Q = (3, 2) /\ imageToNearestIndices P (10 # 1, 0 # 1)%Q = [(2, 2); (3, 2); (2, 3); (3, 3)].
Proof. cbv zeta. split; [split; intros H; vm_compute in H; discriminate|]. split; [apply round_away_nearest|]. split; vm_compute; reflexivity. Qed.

(** ** C43 *)
Section IMPORT_SPEC.
Context {P : Type} (valid : P -> bool) (sensor : P -> v2 * Q) (rnd : Q -> Z) (prj : projector) (rows cols : Z).
(** A point hits a pixel if it is valid, its projection is nearest to the pixel, and the pixel exists. *)
Definition hits (p : P) (i : i2) : Prop :=
  valid p = true /\ fst (imageToNearestIndexAndOffset rnd prj (fst (sensor p))) = i /\ 0 <= fst i < rows /\ 0 <= snd i < cols.
(** The image an importer should produce: pixels without hit hold 0, others the smallest depth of all hits
    together with the beam offset of a point of this depth. *)
Definition closest_returns (cloud : list P) (im : images) : Prop :=
  forall i, (forall p, In p cloud -> ~ hits p i) /\ im i = (0%Q, (0%Q, 0%Q)) \/
    exists p, In p cloud /\ hits p i /\ im i = (snd (sensor p), snd (imageToNearestIndexAndOffset rnd prj (fst (sensor p)))) /\
      forall p', In p' cloud -> hits p' i -> (snd (sensor p) <= snd (sensor p'))%Q.
End IMPORT_SPEC.
Lemma i2_eqb_eq a b : i2_eqb a b = true <-> a = b.
Proof. destruct a, b. unfold i2_eqb. cbn. rewrite andb_true_iff, !Z.eqb_eq. split; [intros [-> ->]; reflexivity|intros [= -> ->]; auto]. Qed.
Lemma qltb_lt a b : qltb a b = true <-> (a < b)%Q.
Proof. unfold qltb. rewrite negb_true_iff. destruct (Qle_bool b a) eqn:E; [apply Qle_bool_iff in E; split; [discriminate|lra]|].
  split; [|reflexivity]. intros _. apply Qnot_le_lt. intros H. apply Qle_bool_iff in H. congruence. Qed.
Lemma import_step {P} valid sensor rnd prj rows cols min_range (im : images) (p : P) :
  (exists i, hits valid sensor rnd prj rows cols p i /\
     let upd := qltb (fst (im i)) min_range || qltb (snd (sensor p)) (fst (im i)) in
     forall j, import_point valid sensor rnd prj rows cols min_range im p j =
       if upd && i2_eqb j i then (snd (sensor p), snd (imageToNearestIndexAndOffset rnd prj (fst (sensor p)))) else im j) \/
  (forall i, ~ hits valid sensor rnd prj rows cols p i) /\ (forall j, import_point valid sensor rnd prj rows cols min_range im p j = im j).
Proof.
  unfold import_point, hits. destruct (valid p); cbn [negb].
  2: { right. split; [intros i [H _]; discriminate|reflexivity]. }
  destruct (sensor p) as [c r]. cbn [fst snd]. destruct (imageToNearestIndexAndOffset rnd prj c) as [idx off] eqn:E. cbn [fst snd].
  destruct (within_bounds rows cols idx) eqn:W; unfold within_bounds in W; cbn [negb].
  - left. exists idx. split; [repeat split; lia|]. cbv zeta. intros j.
    destruct (qltb (fst (im idx)) min_range || qltb r (fst (im idx))); cbn [andb]; reflexivity.
  - right. split; [|reflexivity]. intros i (_ & <- & B). lia.
Qed.
(** If all points are at least min_range deep, importing a cloud gives the closest return per pixel.
    Missing: points closer than min_range; for them it is false, see [C43_short_range_refuted]. *)
Theorem C43_closest_return_partial : forall (P : Type) valid sensor rnd prj rows cols min_range (cloud : list P),
  (0 < min_range)%Q ->
  (forall p i, In p cloud -> hits valid sensor rnd prj rows cols p i -> (min_range <= snd (sensor p))%Q) ->
  closest_returns valid sensor rnd prj rows cols cloud (importPointcloud valid sensor rnd prj rows cols min_range cloud).
Proof.
  intros P valid sensor rnd prj rows cols mr cloud Hm. unfold importPointcloud.
  induction cloud as [|p cloud IH] using rev_ind; intros Hr.
  - intros i. left. split; [intros ? []|reflexivity].
  - rewrite fold_left_app. cbn [fold_left]. set (im := fold_left _ cloud _) in *.
    assert (IH' : closest_returns valid sensor rnd prj rows cols cloud im) by (apply IH; intros; apply Hr with i; [apply in_or_app; auto|assumption]). clear IH.
    destruct (import_step valid sensor rnd prj rows cols mr im p) as [(k & Hk & U)|[Hk U]].
    + cbv zeta in U. intros i. rewrite U. clear U. destruct (i2_eqb i k) eqn:Ek.
      * apply i2_eqb_eq in Ek. subst k. rewrite andb_true_r. pose proof (Hr p i (in_elt p cloud []) Hk) as Hp.
        destruct (IH' i) as [[N E]|(q & Q1 & Q2 & E & Q3)].
        -- rewrite E. cbn [fst]. assert (L : qltb 0 mr = true) by (apply qltb_lt; assumption). rewrite L. cbn [orb]. right. exists p.
           split; [apply in_or_app; cbn; auto|]. split; [assumption|]. split; [reflexivity|]. intros p' [H|[<-|[]]]%in_app_or H'; [exfalso; eapply N; eassumption|apply Qle_refl].
        -- assert (Hq := Hr q i (in_or_app _ _ _ (or_introl Q1)) Q2). rewrite E. cbn [fst].
           assert (L : qltb (snd (sensor q)) mr = false) by (destruct (qltb _ _) eqn:X; [apply qltb_lt in X; lra|reflexivity]). rewrite L. cbn [orb].
           right. destruct (qltb (snd (sensor p)) (snd (sensor q))) eqn:X.
           ++ apply qltb_lt in X. exists p. split; [apply in_or_app; cbn; auto|]. split; [assumption|]. split; [reflexivity|].
              intros p' [H|[<-|[]]]%in_app_or H'; [specialize (Q3 p' H H'); lra|apply Qle_refl].
           ++ exists q. split; [apply in_or_app; auto|]. split; [assumption|]. split; [reflexivity|].
              intros p' [H|[<-|[]]]%in_app_or H'; [apply Q3; assumption|]. apply Qnot_lt_le. intros C. apply qltb_lt in C. congruence.
      * rewrite andb_false_r. assert (Hi : ~ hits valid sensor rnd prj rows cols p i).
        { intros (_ & E1 & _). destruct Hk as (_ & E2 & _). rewrite E1 in E2. subst k. rewrite (proj2 (i2_eqb_eq i i) eq_refl) in Ek. discriminate. }
        destruct (IH' i) as [[N E]|(q & Q1 & Q2 & E & Q3)].
        -- left. split; [|assumption]. intros p' [H|[<-|[]]]%in_app_or; [apply N; assumption|assumption].
        -- right. exists q. split; [apply in_or_app; auto|]. split; [assumption|]. split; [assumption|].
           intros p' [H|[<-|[]]]%in_app_or H'; [apply Q3; assumption|contradiction].
    + intros i. rewrite U. destruct (IH' i) as [[N E]|(q & Q1 & Q2 & E & Q3)].
      * left. split; [|assumption]. intros p' [H|[<-|[]]]%in_app_or; [apply N; assumption|apply Hk].
      * right. exists q. split; [apply in_or_app; auto|]. split; [assumption|]. split; [assumption|].
        intros p' [H|[<-|[]]]%in_app_or H'; [apply Q3; assumption|exfalso; eapply Hk; eassumption].
Qed.
(** Under the same condition the order of the points does not matter for the ranges. *)
Theorem C43_order_irrelevant_partial : forall (P : Type) valid sensor rnd prj rows cols min_range (c1 c2 : list P) i,
  (0 < min_range)%Q -> Permutation c1 c2 ->
  (forall p i, In p c1 -> hits valid sensor rnd prj rows cols p i -> (min_range <= snd (sensor p))%Q) ->
  (fst (importPointcloud valid sensor rnd prj rows cols min_range c1 i) ==
   fst (importPointcloud valid sensor rnd prj rows cols min_range c2 i))%Q.
Proof.
  intros P valid sensor rnd prj rows cols mr c1 c2 i Hm Hp Hr.
  assert (Hr2 : forall p i, In p c2 -> hits valid sensor rnd prj rows cols p i -> (mr <= snd (sensor p))%Q).
  { intros p j Hin. apply Hr. eapply Permutation_in; [apply Permutation_sym|]; eassumption. }
  destruct (C43_closest_return_partial P valid sensor rnd prj rows cols mr c1 Hm Hr i) as [[N1 ->]|(p1 & A1 & B1 & -> & D1)];
  destruct (C43_closest_return_partial P valid sensor rnd prj rows cols mr c2 Hm Hr2 i) as [[N2 ->]|(p2 & A2 & B2 & -> & D2)]; cbn [fst].
  - reflexivity.
  - exfalso. apply (N1 p2); [eapply Permutation_in; [apply Permutation_sym|]; eassumption|assumption].
  - exfalso. apply (N2 p1); [eapply Permutation_in; eassumption|assumption].
  - assert (L1 := D1 p2 (Permutation_in _ (Permutation_sym Hp) A2) B2). assert (L2 := D2 p1 (Permutation_in _ Hp A1) B1). lra.
Qed.
(** In general every stored range is that of a point hitting the pixel. *)
Theorem C43_range_of_some_point : forall (P : Type) valid sensor rnd prj rows cols min_range (cloud : list P) i,
  let v := importPointcloud valid sensor rnd prj rows cols min_range cloud i in
  v = (0%Q, (0%Q, 0%Q)) \/
  exists p, In p cloud /\ hits valid sensor rnd prj rows cols p i /\ v = (snd (sensor p), snd (imageToNearestIndexAndOffset rnd prj (fst (sensor p)))).
Proof.
  intros P valid sensor rnd prj rows cols mr cloud i. cbv zeta. unfold importPointcloud. induction cloud as [|p cloud IH] using rev_ind; [left; reflexivity|].
  rewrite fold_left_app. cbn [fold_left]. set (im := fold_left _ cloud _) in *.
  assert (K : im i = (0%Q, (0%Q, 0%Q)) \/ (exists p0, In p0 (cloud ++ [p]) /\ hits valid sensor rnd prj rows cols p0 i /\ im i = (snd (sensor p0), snd (imageToNearestIndexAndOffset rnd prj (fst (sensor p0)))))).
  { destruct IH as [E|(q & Q1 & Q2 & E)]; [left; assumption|right; exists q; split; [apply in_or_app; auto|auto]]. }
  destruct (import_step valid sensor rnd prj rows cols mr im p) as [(k & Hk & U)|[Hk U]]; rewrite U; [|assumption].
  destruct (i2_eqb i k) eqn:Ek; [|rewrite andb_false_r; assumption]. apply i2_eqb_eq in Ek. subst k.
  destruct (_ || _); cbn [andb]; [|assumption]. right. exists p. split; [apply in_or_app; cbn; auto|auto].
Qed.
(** Three returns in the same pixel at 5 m, 0.5 m and 7 m, with min_range 1 m. The result depends on the
    order, and in the first order a farther return replaces a valid closer one. *)
Definition one_pixel (r : Q) : v2 * Q := ((0%Q, 0%Q), r).
Definition unit_prj : projector := PB (1%Q, 1%Q) (0%Q, 0%Q).
Theorem C43_short_range_refuted : exists c1 c2 : list Q, Permutation c1 c2 /\
  let run c := fst (importPointcloud (fun _ => true) one_pixel round_away unit_prj 1 1 1 c (0, 0)) in
  run c1 = 7%Q /\ run c2 = (1 # 2)%Q /\ In 5%Q c1 /\ ~ closest_returns (fun _ => true) one_pixel round_away unit_prj 1 1 c1 (importPointcloud (fun _ => true) one_pixel round_away unit_prj 1 1 1 c1).
Proof.
  exists [5; 1 # 2; 7]%Q, [5; 7; 1 # 2]%Q. split; [apply perm_skip, perm_swap|]. cbv zeta. split; [vm_compute; reflexivity|]. split; [vm_compute; reflexivity|].
  split; [left; reflexivity|]. intros H. specialize (H (0, 0)). destruct H as [[N _]|(p & _ & _ & E & M)].
  - apply (N 5%Q); [left; reflexivity|]. unfold hits. vm_compute. repeat split; discriminate || reflexivity.
  - vm_compute in E. injection E as <-. specialize (M 5%Q (or_introl eq_refl)). vm_compute in M. apply M; [|reflexivity]. repeat split; discriminate || reflexivity.
Qed.
Example C43_ex : let c := [5; 3; 7]%Q in
  (forall p i, In p c -> hits (fun _ => true) one_pixel round_away unit_prj 1 1 p i -> (1 <= snd (one_pixel p))%Q) /\
  fst (importPointcloud (fun _ => true) one_pixel round_away unit_prj 1 1 1 c (0, 0)) = 3%Q.
Proof. cbv zeta. split; [|vm_compute; reflexivity]. intros p i [<-|[<-|[<-|[]]]] _; vm_compute; discriminate. Qed.

Print Assumptions C51_index_roundtrip.
Print Assumptions C51_nearest_is_nearest.
Print Assumptions C51_four_indices_surround.
Print Assumptions C51_offsets.
Print Assumptions C51_circular.
Print Assumptions C43_closest_return_partial.
Print Assumptions C43_order_irrelevant_partial.
Print Assumptions C43_range_of_some_point.
Print Assumptions C43_short_range_refuted.
