(** Property theorem C33 (ray iteration). *)
From Verif Require Import Base M_IntMath M_NdtreeIndex M_Point M_Ray P_Point.
From Coq Require Import QArith Qround Lqa Qabs.
Close Scope Q_scope.
Open Scope Z_scope.

(** ** Specification *)
Definition veq {A} (d : nat) (a b : vec A) : Prop := forall i, (i < d)%nat -> a i = b i.
Fixpoint l1 (d : nat) (a b : vec Z) : Z := match d with O => 0 | S d' => l1 d' a b + Z.abs (a d' - b d') end.
(** [b] is the face neighbour of [a] one unit along some axis, in the direction of [goal]. *)
Definition step_toward (d : nat) (goal a b : vec Z) : Prop :=
  exists m, (m < d)%nat /\ goal m <> a m /\ b m = a m + Z.sgn (goal m - a m) /\ forall i, (i < d)%nat -> i <> m -> b i = a i.
(** A connected shortest path: starts at [s], ends at [e], 1 + L1 distance cells, each step toward [e], and
    no cell twice. *)
Definition shortest_path (d : nat) (s e : vec Z) (l : list (vec Z)) : Prop :=
  Z.of_nat (length l) = 1 + l1 d s e /\
  (forall x, veq d (nth 0 l x) s) /\ (forall x, veq d (nth (length l - 1) l x) e) /\
  (forall k x, (S k < length l)%nat -> step_toward d e (nth k l x) (nth (S k) l x)) /\
  (forall j k x, (j < k)%nat -> (k < length l)%nat -> ~ veq d (nth j l x) (nth k l x)).

(** ** General lemma *)
Lemma min_coeff_spec d t : (0 < d)%nat -> (min_coeff d t < d)%nat /\ forall i, (i < d)%nat -> (t (min_coeff d t) <= t i)%Q.
Proof.
  induction d as [|d IH]; [lia|]. intros _. destruct d as [|d]; [cbn; split; [lia|]; intros i Hi; replace i with 0%nat by lia; apply Qle_refl|].
  destruct (IH ltac:(lia)) as [A B]. remember (S d) as d1. assert (E : min_coeff (S d1) t = let m := min_coeff d1 t in if Qle_bool (t m) (t d1) then m else d1) by (subst d1; reflexivity).
  rewrite E. cbv zeta. destruct (Qle_bool (t (min_coeff d1 t)) (t d1)) eqn:L.
  - apply Qle_bool_iff in L. split; [lia|]. intros i Hi. destruct (Nat.eq_dec i d1) as [->|]; [assumption|apply B; lia].
  - assert (t d1 < t (min_coeff d1 t))%Q by (apply Qnot_le_lt; intros N; apply Qle_bool_iff in N; congruence).
    split; [lia|]. intros i Hi. destruct (Nat.eq_dec i d1) as [->|]; [apply Qle_refl|]. specialize (B i ltac:(lia)). lra.
Qed.
Lemma vsum_ext d a b : (forall i, (i < d)%nat -> a i = b i) -> vsum d a = vsum d b.
Proof. induction d as [|d IH]; intros H; cbn; [reflexivity|]. rewrite IH, H by (intros; try apply H; lia). reflexivity. Qed.
Lemma vsum_upd d a m x : (m < d)%nat -> vsum d (upd a m x) = vsum d a - a m + x.
Proof.
  induction d as [|d IH]; intros H; [lia|]. cbn. destruct (Nat.eq_dec m d) as [->|N].
  - rewrite (vsum_ext d (upd a d x) a) by (intros i Hi; unfold upd; replace (Nat.eqb i d) with false by (symmetry; apply Nat.eqb_neq; lia); reflexivity).
    unfold upd. rewrite Nat.eqb_refl. lia.
  - rewrite IH by lia. unfold upd at 1. replace (Nat.eqb d m) with false by (symmetry; apply Nat.eqb_neq; lia). lia.
Qed.
Lemma vsum_le d a b : (forall i, (i < d)%nat -> a i <= b i) -> vsum d a <= vsum d b.
Proof. induction d as [|d IH]; intros H; cbn; [lia|]. specialize (H d ltac:(lia)) as K. assert (vsum d a <= vsum d b) by (apply IH; intros; apply H; lia). lia. Qed.
Lemma vsum_eq_all d a b : (forall i, (i < d)%nat -> a i <= b i) -> vsum d a = vsum d b -> forall i, (i < d)%nat -> a i = b i.
Proof.
  induction d as [|d IH]; intros H E i Hi; [lia|]. cbn in E. specialize (H d ltac:(lia)) as K.
  assert (vsum d a <= vsum d b) by (apply vsum_le; intros; apply H; lia).
  destruct (Nat.eq_dec i d) as [->|]; [lia|]. apply IH; [intros; apply H; lia|lia|lia].
Qed.
Lemma vsum_lt_some d a b : vsum d a < vsum d b -> exists i, (i < d)%nat /\ a i < b i.
Proof.
  induction d as [|d IH]; cbn; intros H; [lia|]. destruct (Z_lt_le_dec (a d) (b d)) as [C|C]; [exists d; split; [lia|assumption]|].
  destruct IH as (i & Hi & L); [lia|]. exists i. split; [lia|assumption].
Qed.
Lemma l1_vsum d a b : l1 d a b = vsum d (fun i => Z.abs (a i - b i)).
Proof. induction d as [|d IH]; cbn; [reflexivity|]. rewrite IH. reflexivity. Qed.

Section RAY.
  Context (d : nat) (r : ray).
  Let n (i : nat) : Z := Z.abs (r_end r i - r_start r i).
  Context (Hd : (0 < d)%nat).
  Context (Hlen : r_len r = vsum d n + 1).
  Context (Hsign : forall i, (i < d)%nat -> n i <> 0 -> r_signs r i = Z.sgn (r_end r i - r_start r i)).
  Context (Hbefore : forall i c, (i < d)%nat -> 0 <= c < n i -> (r_tinit r i + inject_Z c * r_tstep r i < 1)%Q).
  Context (Hafter : forall i, (i < d)%nat -> (1 <= r_tinit r i + inject_Z (n i) * r_tstep r i)%Q).

  (** After k steps: [c i] steps were made along axis i, never more than needed. *)
  Definition inv (k : Z) (st : ray_state) : Prop :=
    exists c : vec Z, (forall i, (i < d)%nat -> 0 <= c i <= n i /\ fst st i = r_start r i + Z.sgn (r_end r i - r_start r i) * c i /\
                        (snd st i == r_tinit r i + inject_Z (c i) * r_tstep r i)%Q) /\ vsum d c = k.
  Lemma inv_step k st : inv k st -> k < vsum d n -> inv (k + 1) (ray_next d r st) /\ step_toward d (r_end r) (fst st) (fst (ray_next d r st)).
  Proof.
    intros (c & Hc & Hk) Hlt. destruct st as [cur t]. cbn [ray_next fst snd] in *. set (m := min_coeff d t).
    destruct (min_coeff_spec d t Hd) as [Hm Hmin]. fold m in Hm, Hmin.
    assert (Hcm : c m < n m).
    { destruct (vsum_lt_some d c n) as (i & Hi & L); [lia|].
      destruct (Hc i Hi) as (A1 & _ & A3). specialize (Hbefore i (c i) Hi ltac:(lia)). specialize (Hmin i Hi).
      destruct (Z_lt_le_dec (c m) (n m)) as [C|C]; [assumption|]. destruct (Hc m Hm) as (B1 & _ & B3).
      assert (E : c m = n m) by lia. rewrite E in B3. specialize (Hafter m Hm). lra. }
    destruct (Hc m Hm) as (B1 & B2 & B3). rewrite Hsign by (assumption || lia).
    set (sg := Z.sgn (r_end r m - r_start r m)) in *.
    assert (Hsg : (sg = 1 /\ n m = r_end r m - r_start r m) \/ (sg = -1 /\ n m = r_start r m - r_end r m)) by (unfold sg, n in *; lia).
    split.
    - exists (upd c m (c m + 1)). split.
      + intros i Hi. unfold upd. cbn [fst snd]. destruct (Nat.eqb_spec i m) as [->|N].
        * split; [lia|]. split; [fold sg; rewrite B2; ring|]. rewrite B3, injZ_S. ring.
        * apply Hc. assumption.
      + rewrite vsum_upd by assumption. lia.
    - exists m. split; [assumption|]. split; [lia|]. split.
      + unfold upd. rewrite Nat.eqb_refl. f_equal. destruct Hsg as [[S1 S2]|[S1 S2]]; rewrite S1 in *; lia.
      + intros i Hi N. unfold upd. destruct (Nat.eqb_spec i m); [contradiction|reflexivity].
  Qed.
  Lemma inv_after k : Z.of_nat k <= vsum d n -> inv (Z.of_nat k) (ray_after d r k).
  Proof.
    induction k as [|k IH]; intros H.
    - exists (fun _ => 0). cbn. split.
      + intros i Hi. split; [unfold n; lia|]. split; [lia|]. change (inject_Z 0) with 0%Q. ring.
      + clear. induction d as [|d' IH]; cbn; [reflexivity|]. lia.
    - cbn [ray_after]. replace (Z.of_nat (S k)) with (Z.of_nat k + 1) by lia. apply inv_step; [apply IH; lia|lia].
  Qed.
  Lemma inv_l1 k st : inv k st -> l1 d (fst st) (r_end r) = vsum d n - k.
  Proof.
    intros (c & Hc & <-). rewrite l1_vsum. clear Hbefore Hafter Hsign Hlen Hd.
    induction d as [|d' IH]; cbn [vsum]; [reflexivity|].
    rewrite IH by (intros i Hi; apply Hc; lia). destruct (Hc d' ltac:(lia)) as (A & B & _). rewrite B.
    unfold n in *. destruct (Z.sgn_spec (r_end r d' - r_start r d')) as [[S1 S2]|[[S1 S2]|[S1 S2]]]; rewrite S2 in *; lia.
  Qed.
  Lemma visit_nth k x : (k < Z.to_nat (r_len r))%nat -> nth k (ray_visit d r) x = fst (ray_after d r k).
  Proof.
    intros H. unfold ray_visit. set (f := fun k => fst (ray_after d r k)).
    rewrite (nth_indep _ x (f 0%nat)) by (rewrite map_length, seq_length; assumption).
    rewrite (map_nth f), seq_nth by assumption. reflexivity.
  Qed.
  Lemma ray_path : shortest_path d (r_start r) (r_end r) (ray_visit d r).
  Proof.
    assert (Hn : 0 <= vsum d n). { replace 0 with (vsum d (fun _ => 0)) by (clear; induction d; cbn; lia). apply vsum_le. intros. unfold n. lia. }
    assert (L : length (ray_visit d r) = Z.to_nat (r_len r)) by (unfold ray_visit; rewrite map_length, seq_length; reflexivity).
    unfold shortest_path. rewrite L. split; [|split; [|split; [|split]]].
    - rewrite l1_vsum. rewrite Hlen. rewrite (vsum_ext d (fun i => Z.abs (r_start r i - r_end r i)) n) by (intros; unfold n; lia). lia.
    - intros x. rewrite visit_nth by lia. intros i Hi. reflexivity.
    - intros x. rewrite visit_nth by lia. replace (Z.to_nat (r_len r) - 1)%nat with (Z.to_nat (vsum d n)) by lia.
      destruct (inv_after (Z.to_nat (vsum d n)) ltac:(lia)) as (c & Hc & Hk).
      intros i Hi. destruct (Hc i Hi) as (A & B & _). rewrite B.
      assert (E : c i = n i). { apply (vsum_eq_all d); [intros j Hj; destruct (Hc j Hj); lia|lia|assumption]. }
      rewrite E. unfold n. lia.
    - intros k x Hk. rewrite !visit_nth by lia. cbn [ray_after]. apply (inv_step (Z.of_nat k)); [apply inv_after; lia|lia].
    - intros j k x Hjk Hk. rewrite !visit_nth by lia. intros E.
      pose proof (inv_l1 _ _ (inv_after j ltac:(lia))) as Ej. pose proof (inv_l1 _ _ (inv_after k ltac:(lia))) as Ek.
      assert (l1 d (fst (ray_after d r j)) (r_end r) = l1 d (fst (ray_after d r k)) (r_end r)).
      { rewrite !l1_vsum. apply vsum_ext. intros i Hi. rewrite (E i Hi). reflexivity. }
      lia.
  Qed.
End RAY.

(** C33, index constructor: for every dimension and all endpoints. (The proof uses of minCoeff only that
    the coefficient it selects is minimal, so it does not depend on how ties are broken.) *)
Lemma indices_times d s e : let r := ray_of_indices d s e in let n i := Z.abs (r_end r i - r_start r i) in
  (forall i c, (i < d)%nat -> 0 <= c < n i -> (r_tinit r i + inject_Z c * r_tstep r i < 1)%Q) /\
  (forall i, (i < d)%nat -> (1 <= r_tinit r i + inject_Z (n i) * r_tstep r i)%Q).
Proof.
  cbv zeta. split; cbn [r_start r_end r_len r_signs r_tinit r_tstep ray_of_indices].
  - intros i c Hi Hc. set (x := e i - s i) in *. destruct (Z.eqb_spec x 0) as [E|N]; [rewrite E in Hc; cbn in Hc; lia|].
    destruct (Z_lt_le_dec 0 x) as [P|P].
    + replace (Z.sgn x) with 1 by lia. change (inject_Z (Z.max 1 0)) with 1%Q. change (inject_Z 1) with 1%Q.
      assert (0 < inject_Z x)%Q by (change 0%Q with (inject_Z 0); rewrite <- Zlt_Qlt; assumption).
      assert (inject_Z c + 1 <= inject_Z x)%Q by (rewrite <- injZ_S, <- Zle_Qle; lia).
      setoid_replace ((1 - (1 # 2)) / inject_Z x + inject_Z c * (1 / inject_Z x))%Q with ((inject_Z c + (1 # 2)) * (1 / inject_Z x))%Q by (field; lra).
      apply (scale_gt_iff (inject_Z x)); lra.
    + replace (Z.sgn x) with (-1) by lia. change (inject_Z (Z.max (-1) 0)) with 0%Q. change (inject_Z (-1)) with (-1)%Q.
      assert (E : (inject_Z x == - inject_Z (- x))%Q) by (rewrite inject_Z_opp; ring).
      assert (0 < inject_Z (- x))%Q by (change 0%Q with (inject_Z 0); rewrite <- Zlt_Qlt; lia).
      assert (inject_Z c + 1 <= inject_Z (- x))%Q by (rewrite <- injZ_S, <- Zle_Qle; lia).
      rewrite E. setoid_replace ((0 - (1 # 2)) / - inject_Z (- x) + inject_Z c * (-1 / - inject_Z (- x)))%Q with ((inject_Z c + (1 # 2)) * (1 / inject_Z (- x)))%Q by (field; lra).
      apply (scale_gt_iff (inject_Z (- x))); lra.
  - intros i Hi. set (x := e i - s i) in *. destruct (Z.eqb_spec x 0) as [E|N]; [rewrite E; vm_compute; discriminate|].
    destruct (Z_lt_le_dec 0 x) as [P|P].
    + replace (Z.sgn x) with 1 by lia. replace (Z.abs x) with x by lia. change (inject_Z (Z.max 1 0)) with 1%Q. change (inject_Z 1) with 1%Q.
      assert (0 < inject_Z x)%Q by (change 0%Q with (inject_Z 0); rewrite <- Zlt_Qlt; assumption).
      setoid_replace ((1 - (1 # 2)) / inject_Z x + inject_Z x * (1 / inject_Z x))%Q with ((inject_Z x + (1 # 2)) * (1 / inject_Z x))%Q by (field; lra).
      apply (scale_le_iff (inject_Z x)); lra.
    + replace (Z.sgn x) with (-1) by lia. replace (Z.abs x) with (- x) by lia. change (inject_Z (Z.max (-1) 0)) with 0%Q. change (inject_Z (-1)) with (-1)%Q.
      assert (E : (inject_Z x == - inject_Z (- x))%Q) by (rewrite inject_Z_opp; ring).
      assert (0 < inject_Z (- x))%Q by (change 0%Q with (inject_Z 0); rewrite <- Zlt_Qlt; lia).
      rewrite E. setoid_replace ((0 - (1 # 2)) / - inject_Z (- x) + inject_Z (- x) * (-1 / - inject_Z (- x)))%Q with ((inject_Z (- x) + (1 # 2)) * (1 / inject_Z (- x)))%Q by (field; lra).
      apply (scale_le_iff (inject_Z (- x))); lra.
Qed.
Theorem C33_ray_between_indices : forall d s e, (0 < d)%nat -> shortest_path d s e (ray_visit d (ray_of_indices d s e)).
Proof.
  intros d s e Hd. destruct (indices_times d s e) as [H1 H2]. apply (ray_path d (ray_of_indices d s e)); [assumption|reflexivity|reflexivity|exact H1|exact H2].
Qed.

(** C33, point constructor: the visited cells form a shortest path from the start point's cell to the end
    point's cell, provided the end point is strictly inside a cell (off the cell faces). The start point is
    arbitrary. What is missing: end points on a cell face; there the claim is false, see
    [C33_end_on_face_refuted]. *)
Lemma qsgn_pos x : (0 < x)%Q -> qsgn x = 1.
Proof. unfold Qlt, qsgn. cbn. lia. Qed.
Lemma qsgn_neg x : (x < 0)%Q -> qsgn x = -1.
Proof. unfold Qlt, qsgn. cbn. lia. Qed.
Lemma nearest_in_cell rnd w x : nearest rnd -> (0 < w)%Q -> in_cell w (rnd (x * (1 / w) - (1 # 2))%Q) x.
Proof. intros Hr Hw. pose proof (C09_cell_contains_point rnd w [x] Hr Hw) as H. inversion H; subst. assumption. Qed.
Lemma points_times rnd d s e w ei : nearest rnd -> (0 < w)%Q -> (forall i, (i < d)%nat -> inside_cell w (ei i) (e i)) ->
  let r := ray_of_points rnd d s e w in let n i := Z.abs (r_end r i - r_start r i) in
  (forall i, in_cell w (r_start r i) (s i)) /\ (forall i, (i < d)%nat -> r_end r i = ei i) /\
  (forall i, (i < d)%nat ->
    ((0 < e i - s i /\ (r_start r i <= r_end r i)%Z /\ inject_Z (r_end r i) * w < e i /\ e i < (inject_Z (r_end r i) + 1) * w) \/
     (e i - s i < 0 /\ (r_end r i <= r_start r i)%Z /\ inject_Z (r_end r i) * w < e i /\ e i < (inject_Z (r_end r i) + 1) * w) \/
     (e i - s i == 0 /\ r_end r i = r_start r i))%Q) /\
  (forall i, (i < d)%nat -> n i <> 0 -> r_signs r i = Z.sgn (r_end r i - r_start r i)) /\
  (forall i c, (i < d)%nat -> 0 <= c < n i -> (r_tinit r i + inject_Z c * r_tstep r i < 1)%Q) /\
  (forall i, (i < d)%nat -> (1 <= r_tinit r i + inject_Z (n i) * r_tstep r i)%Q).
Proof.
  intros Hr Hw He r n. subst n. cbv beta.
  assert (Hs : forall i, in_cell w (r_start r i) (s i)) by (intros i; apply nearest_in_cell; assumption).
  assert (Ee : forall i, (i < d)%nat -> r_end r i = ei i).
  { intros i Hi. pose proof (C09_interior_point rnd w [ei i] [e i] Hr Hw) as H.
    assert (X : [r_end r i] = [ei i]); [apply H; constructor; [apply He; assumption|constructor]|]. congruence. }
  assert (B : forall i, (i < d)%nat ->
    ((0 < e i - s i /\ (r_start r i <= r_end r i)%Z /\ inject_Z (r_end r i) * w < e i /\ e i < (inject_Z (r_end r i) + 1) * w) \/
     (e i - s i < 0 /\ (r_end r i <= r_start r i)%Z /\ inject_Z (r_end r i) * w < e i /\ e i < (inject_Z (r_end r i) + 1) * w) \/
     (e i - s i == 0 /\ r_end r i = r_start r i))%Q).
  { intros i Hi. specialize (Hs i). destruct (He i Hi) as [E1 E2]. rewrite <- Ee in E1, E2 by assumption. destruct Hs as [S1 S2].
    assert (Sep : forall a b, (inject_Z a * w < (inject_Z b + 1) * w)%Q -> a <= b).
    { intros a b H. rewrite <- injZ_S in H. rewrite (Qmult_lt_r _ _ w Hw) in H. apply injZ_lt in H. lia. }
    destruct (Q_dec (e i - s i) 0) as [[C|C]|C].
    - right; left. split; [assumption|]. split; [|split; assumption]. apply Sep. lra.
    - left. split; [assumption|]. split; [|split; assumption]. apply Sep. lra.
    - right; right. split; [assumption|].
      assert (r_end r i <= r_start r i) by (apply Sep; lra). assert (r_start r i <= r_end r i) by (apply Sep; lra). lia. }
  split; [exact Hs|]. split; [exact Ee|]. split; [exact B|]. split; [|split].
  - intros i Hi Hn. cbn [r_signs r ray_of_points]. destruct (B i Hi) as [(C & O & _)|[(C & O & _)|(C & O)]]; [| |rewrite O in Hn; lia].
    + rewrite qsgn_pos by assumption. lia.
    + rewrite qsgn_neg by assumption. lia.
  - intros i c Hi Hc. specialize (Hs i). destruct (B i Hi) as [(C & O & E1 & E2)|[(C & O & E1 & E2)|(C & O)]]; [| |rewrite O in Hc; lia].
    + cbn [r_tinit r_tstep r ray_of_points]. fold r.
      replace (Qeq_bool (e i - s i) 0) with false by (symmetry; apply not_true_iff_false; rewrite Qeq_bool_iff; lra).
      rewrite qsgn_pos by assumption. change (inject_Z (Z.max 1 0)) with 1%Q. change (inject_Z 1) with 1%Q.
      change (rnd (s i * (1 / w) - (1 # 2))%Q) with (r_start r i). set (a := r_start r i) in *. set (x := (e i - s i)%Q) in *.
      setoid_replace ((1 * w - (s i - inject_Z a * w)) / x + inject_Z c * (1 * w / x))%Q with (((inject_Z a + 1 + inject_Z c) * w - s i) * (1 / x))%Q by (field; lra).
      apply (scale_gt_iff x); [assumption|].
      assert (inject_Z a + 1 + inject_Z c <= inject_Z (r_end r i))%Q by (rewrite <- injZ_S, <- inject_Z_plus, <- Zle_Qle; lia).
      assert (K : ((inject_Z a + 1 + inject_Z c) * w <= inject_Z (r_end r i) * w)%Q) by (apply Qmult_le_compat_r; lra). unfold x. lra.
    + cbn [r_tinit r_tstep r ray_of_points]. fold r.
      replace (Qeq_bool (e i - s i) 0) with false by (symmetry; apply not_true_iff_false; rewrite Qeq_bool_iff; lra).
      rewrite qsgn_neg by assumption. change (inject_Z (Z.max (-1) 0)) with 0%Q. change (inject_Z (-1)) with (-1)%Q.
      change (rnd (s i * (1 / w) - (1 # 2))%Q) with (r_start r i). set (a := r_start r i) in *. set (x := (s i - e i)%Q).
      assert (X : (e i - s i == - x)%Q) by (unfold x; ring). rewrite X. assert (0 < x)%Q by (unfold x; lra).
      setoid_replace ((0 * w - (s i - inject_Z a * w)) / - x + inject_Z c * (-1 * w / - x))%Q with ((s i - (inject_Z a - inject_Z c) * w) * (1 / x))%Q by (field; lra).
      apply (scale_gt_iff x); [assumption|].
      assert (inject_Z (r_end r i) + 1 <= inject_Z a - inject_Z c)%Q by (rewrite <- injZ_S; unfold Qminus; rewrite <- inject_Z_opp, <- inject_Z_plus, <- Zle_Qle; lia).
      assert (K : ((inject_Z (r_end r i) + 1) * w <= (inject_Z a - inject_Z c) * w)%Q) by (apply Qmult_le_compat_r; lra). unfold x. lra.
  - intros i Hi. specialize (Hs i). destruct (B i Hi) as [(C & O & E1 & E2)|[(C & O & E1 & E2)|(C & O)]].
    + replace (Z.abs (r_end r i - r_start r i)) with (r_end r i - r_start r i) by lia. cbn [r_tinit r_tstep r ray_of_points]. fold r.
      replace (Qeq_bool (e i - s i) 0) with false by (symmetry; apply not_true_iff_false; rewrite Qeq_bool_iff; lra).
      rewrite qsgn_pos by assumption. change (inject_Z (Z.max 1 0)) with 1%Q. change (inject_Z 1) with 1%Q.
      change (rnd (s i * (1 / w) - (1 # 2))%Q) with (r_start r i). change (rnd (e i * (1 / w) - (1 # 2))%Q) with (r_end r i).
      set (a := r_start r i) in *. set (b := r_end r i) in *. set (x := (e i - s i)%Q) in *.
      setoid_replace ((1 * w - (s i - inject_Z a * w)) / x + inject_Z (b - a) * (1 * w / x))%Q with (((inject_Z b + 1) * w - s i) * (1 / x))%Q.
      2:{ replace (b - a) with (b + - a) by lia. rewrite inject_Z_plus, inject_Z_opp. field. lra. }
      apply (scale_le_iff x); [assumption|]. unfold x. lra.
    + replace (Z.abs (r_end r i - r_start r i)) with (r_start r i - r_end r i) by lia. cbn [r_tinit r_tstep r ray_of_points]. fold r.
      replace (Qeq_bool (e i - s i) 0) with false by (symmetry; apply not_true_iff_false; rewrite Qeq_bool_iff; lra).
      rewrite qsgn_neg by assumption. change (inject_Z (Z.max (-1) 0)) with 0%Q. change (inject_Z (-1)) with (-1)%Q.
      change (rnd (s i * (1 / w) - (1 # 2))%Q) with (r_start r i). change (rnd (e i * (1 / w) - (1 # 2))%Q) with (r_end r i).
      set (a := r_start r i) in *. set (b := r_end r i) in *. set (x := (s i - e i)%Q).
      assert (X : (e i - s i == - x)%Q) by (unfold x; ring). rewrite X. assert (0 < x)%Q by (unfold x; lra).
      setoid_replace ((0 * w - (s i - inject_Z a * w)) / - x + inject_Z (a - b) * (-1 * w / - x))%Q with ((s i - inject_Z b * w) * (1 / x))%Q.
      2:{ replace (a - b) with (a + - b) by lia. rewrite inject_Z_plus, inject_Z_opp. field. lra. }
      apply (scale_le_iff x); [assumption|]. unfold x. lra.
    + rewrite O. replace (r_start r i - r_start r i) with 0 by lia. cbn [r_tinit r_tstep r ray_of_points].
      replace (Qeq_bool (e i - s i) 0) with true by (symmetry; apply Qeq_bool_iff; assumption). vm_compute. discriminate.
Qed.
Theorem C33_ray_between_points_partial : forall rnd d s e w ei, nearest rnd -> (0 < d)%nat -> (0 < w)%Q ->
  (forall i, (i < d)%nat -> inside_cell w (ei i) (e i)) ->
  exists si, (forall i, (i < d)%nat -> in_cell w (si i) (s i)) /\ shortest_path d si ei (ray_visit d (ray_of_points rnd d s e w)).
Proof.
  intros rnd d s e w ei Hr Hd Hw He. destruct (points_times rnd d s e w ei Hr Hw He) as (Hs & Ee & _ & H1 & H2 & H3). set (r := ray_of_points rnd d s e w) in *.
  exists (r_start r). split; [intros; apply Hs|].
  assert (P : shortest_path d (r_start r) (r_end r) (ray_visit d r)) by (apply (ray_path d r); [assumption|reflexivity|exact H1|exact H2|exact H3]).
  destruct P as (P1 & P2 & P3 & P4 & P5).
  assert (EL : l1 d (r_start r) (r_end r) = l1 d (r_start r) ei) by (rewrite !l1_vsum; apply vsum_ext; intros i Hi; rewrite Ee by assumption; reflexivity).
  split; [rewrite <- EL; assumption|]. split; [assumption|]. split; [|split; [|assumption]].
  - intros x i Hi. rewrite <- Ee by assumption. apply P3. assumption.
  - intros k x Hk. destruct (P4 k x Hk) as (m & M1 & M2 & M3 & M4). exists m. rewrite <- Ee by assumption. auto.
Qed.

(** Concrete instances *)
Definition v3 {A} (x y z : A) : vec A := fun i => match i with O => x | S O => y | _ => z end.
Definition as_list3 (v : vec Z) : list Z := [v 0%nat; v 1%nat; v 2%nat].
Example C33_ex1 : map as_list3 (ray_visit 3 (ray_of_indices 3 (v3 0 0 0) (v3 2 (-1) 0))) = [[0; 0; 0]; [1; 0; 0]; [1; -1; 0]; [2; -1; 0]].
Proof. vm_compute. reflexivity. Qed.
Example C33_ex2 : (forall i, (i < 3)%nat -> inside_cell (1 # 2) (v3 3 (-1) 0 i) (v3 (8 # 5) (- (1 # 10)) (1 # 4) i)%Q) /\
  map as_list3 (ray_visit 3 (ray_of_points round_away 3 (v3 (1 # 2) (1 # 10) (1 # 5))%Q (v3 (8 # 5) (- (1 # 10)) (1 # 4))%Q (1 # 2))) =
    [[1; 0; 0]; [2; 0; 0]; [2; -1; 0]; [3; -1; 0]].
Proof.
  split; [|vm_compute; reflexivity]. intros i Hi. destruct i as [|[|[|i]]]; [| | |lia]; vm_compute; auto.
Qed.
(** An end point on a cell face: the loop ends in another cell than the one containing the end point that
    the length was computed for, and is not a path to it. *)
Theorem C33_end_on_face_refuted : exists s e : vec Q, let r := ray_of_points round_away 2 s e 1 in
  ~ shortest_path 2 (r_start r) (r_end r) (ray_visit 2 r).
Proof.
  exists (v3 (- (1 # 2)) (1 # 2) 0)%Q, (v3 0 1 0)%Q. cbv zeta. intros (_ & _ & H & _).
  specialize (H (fun _ => 0) 0%nat ltac:(lia)). vm_compute in H. discriminate.
Qed.
Print Assumptions C33_ray_between_indices.
Print Assumptions C33_ray_between_points_partial.
Print Assumptions C33_end_on_face_refuted.
