(** * C28: occupancy classes and masks *)
From Verif Require Import Base M_Occupancy.
From Coq Require Import QArith Qabs Lqa.
Close Scope Q_scope.
Open Scope Z_scope.

(** ** Specification *)
(** The three classes of a value. The constant 8589935 / 2^33 is the float 1e-3f. *)
Inductive oclass := CFree | COccupied | CUnobserved.
Definition class_of (thr v : Q) (c : oclass) : Prop :=
  match c with
  | CUnobserved => (- (8589935 # 8589934592) < v /\ v < 8589935 # 8589934592)%Q
  | CFree => ~ (- (8589935 # 8589934592) < v /\ v < 8589935 # 8589934592)%Q /\ (v < thr)%Q
  | COccupied => ~ (- (8589935 # 8589934592) < v /\ v < 8589935 # 8589934592)%Q /\ (thr <= v)%Q
  end.
(** The classes a type name stands for. *)
Definition id_means (i : occ_id) (c : oclass) : Prop :=
  match i with kFree => c = CFree | kOccupied => c = COccupied | kUnobserved => c = CUnobserved
             | kObserved => c = CFree \/ c = COccupied | kAny => True end.
(** A mask is a set of classes: bit 0 free, bit 1 occupied, bit 2 unobserved. *)
Definition in_mask (m : Z) (c : oclass) : Prop :=
  Z.testbit m (match c with CFree => 0 | COccupied => 1 | CUnobserved => 2 end) = true.

Lemma qlt_b_lt a b : qlt_b a b = true <-> (a < b)%Q.
Proof. unfold qlt_b. rewrite negb_true_iff. split.
  - intros H. apply Qnot_le_lt. intros C. apply Qle_bool_iff in C. congruence.
  - intros H. destruct (Qle_bool b a) eqn:E; [|reflexivity]. apply Qle_bool_iff in E. lra. Qed.
Lemma qlt_b_ge a b : qlt_b a b = false <-> (b <= a)%Q.
Proof. rewrite <- not_true_iff_false, qlt_b_lt. split; [apply Qnot_lt_le|intros ? ?; lra]. Qed.
Lemma unobs_iff v : oc_isUnobserved v = true <-> (- (8589935 # 8589934592) < v /\ v < 8589935 # 8589934592)%Q.
Proof. unfold oc_isUnobserved, unobserved_thr. rewrite qlt_b_lt, Qabs_Qlt_condition. tauto. Qed.

(** Every value has exactly one class, and classify returns it. *)
Theorem C28_partition : forall thr v,
  exists c, class_of thr v c /\ (forall c', class_of thr v c' -> c' = c) /\
    (oc_classify thr v = kFree <-> c = CFree) /\ (oc_classify thr v = kOccupied <-> c = COccupied) /\
    (oc_classify thr v = kUnobserved <-> c = CUnobserved) /\ (oc_isObserved v = true <-> c <> CUnobserved).
Proof.
  intros thr v. unfold oc_classify, oc_isObserved. destruct (oc_isUnobserved v) eqn:U.
  - pose proof (proj1 (unobs_iff v) U) as H. exists CUnobserved. split; [exact H|]. split; [intros [] X; cbn in X; tauto|].
    cbn [negb]. split; [split; discriminate|]. split; [split; discriminate|]. split; [split; reflexivity|]. split; [discriminate|intros X; contradiction X; reflexivity].
  - assert (H : ~ (- (8589935 # 8589934592) < v /\ v < 8589935 # 8589934592)%Q) by (rewrite <- unobs_iff; congruence).
    destruct (qlt_b v thr) eqn:F.
    + apply qlt_b_lt in F. exists CFree. split; [split; assumption|]. split; [intros [] X; cbn in X; try reflexivity; [destruct X; exfalso; lra|contradiction]|].
      cbn [negb]. repeat split; intros; discriminate || reflexivity.
    + apply qlt_b_ge in F. exists COccupied. split; [split; assumption|]. split; [intros [] X; cbn in X; try reflexivity; [destruct X; exfalso; lra|contradiction]|].
      cbn [negb]. repeat split; intros; discriminate || reflexivity.
Qed.

(** Masks made from a type name or from three flags contain the classes they name. *)
Theorem C28_toMask : forall i c, in_mask (occ_toMask i) c <-> id_means i c.
Proof. intros [] []; unfold in_mask, id_means; cbn; intuition congruence. Qed.
Theorem C28_toMask_flags : forall f o u c,
  in_mask (occ_toMask3 f o u) c <-> match c with CFree => f | COccupied => o | CUnobserved => u end = true.
Proof. intros [] [] [] []; unfold in_mask; cbn; intuition congruence. Qed.
Theorem C28_toMask_value : forall thr v c, in_mask (oc_toMask thr v) c <-> class_of thr v c.
Proof.
  intros thr v c. unfold oc_toMask. destruct (oc_isUnobserved v) eqn:U.
  - pose proof (proj1 (unobs_iff v) U) as H. rewrite C28_toMask. destruct c; cbn; intuition congruence.
  - assert (H : ~ (- (8589935 # 8589934592) < v /\ v < 8589935 # 8589934592)%Q) by (rewrite <- unobs_iff; congruence).
    destruct (qlt_b v thr) eqn:F; rewrite C28_toMask.
    + apply qlt_b_lt in F. destruct c; cbn; split; intros X; try discriminate; try tauto; try (destruct X; exfalso; lra). 
    + apply qlt_b_ge in F. destruct c; cbn; split; intros X; try discriminate; try tauto; try (destruct X; exfalso; lra).
Qed.

Lemma small_mask_bits m n : 0 <= m < 8 -> Z.testbit m n = true -> n = 0 \/ n = 1 \/ n = 2.
Proof.
  intros B H. destruct (Z_lt_le_dec n 0); [rewrite Z.testbit_neg_r in H; [discriminate|assumption]|].
  destruct (Z_lt_le_dec n 3); [lia|]. exfalso. rewrite <- (Z.mod_small m (2 ^ 3)) in H; [|lia]. rewrite Z.mod_pow2_bits_high in H by lia. discriminate.
Qed.
(** has: some class is in both masks (one of them using only the three class bits). *)
Theorem C28_has : forall r m, 0 <= r < 8 \/ 0 <= m < 8 ->
  (oc_has r m = true <-> exists c, in_mask r c /\ in_mask m c).
Proof.
  intros r m B. unfold oc_has. rewrite negb_true_iff, Z.eqb_neq. split.
  - intros H.
    assert (Q : exists n, Z.testbit (Z.land r m) n = true).
    { destruct (Z.testbit (Z.land r m) 0) eqn:E0; [exists 0; assumption|]. destruct (Z.testbit (Z.land r m) 1) eqn:E1; [exists 1; assumption|].
      destruct (Z.testbit (Z.land r m) 2) eqn:E2; [exists 2; assumption|]. exfalso. apply H. apply Z.bits_inj_0. intros n.
      destruct (Z.testbit (Z.land r m) n) eqn:En; [|reflexivity]. pose proof En as K. rewrite Z.land_spec in K. apply andb_true_iff in K as [K1 K2].
      assert (n = 0 \/ n = 1 \/ n = 2) as [E|[E|E]] by (destruct B; eapply small_mask_bits; eassumption); subst n; congruence. }
    destruct Q as (n & Hn). rewrite Z.land_spec in Hn. apply andb_true_iff in Hn as [K1 K2].
    assert (n = 0 \/ n = 1 \/ n = 2) as [E|[E|E]] by (destruct B; eapply small_mask_bits; eassumption); subst n;
      [exists CFree|exists COccupied|exists CUnobserved]; split; assumption.
  - intros (c & H1 & H2) E. assert (T : Z.testbit (Z.land r m) (match c with CFree => 0 | COccupied => 1 | CUnobserved => 2 end) = true) by (rewrite Z.land_spec; unfold in_mask in *; rewrite H1, H2; reflexivity).
    rewrite E, Z.bits_0 in T. discriminate.
Qed.
Theorem C28_has_id : forall r i, oc_has_id r i = true <-> exists c, in_mask r c /\ id_means i c.
Proof.
  intros r i. unfold oc_has_id. rewrite C28_has by (right; destruct i; cbn; lia).
  split; intros (c & H1 & H2); exists c; split; try assumption; apply C28_toMask; assumption.
Qed.
(** is: the class of the value is one of those asked for. *)
Theorem C28_is : forall thr v m, oc_is thr v m = true <-> exists c, class_of thr v c /\ in_mask m c.
Proof.
  intros thr v m. unfold oc_is. rewrite C28_has.
  - split; intros (c & H1 & H2); exists c; split; try assumption; apply C28_toMask_value; assumption.
  - left. unfold oc_toMask. destruct (oc_isUnobserved v); [cbn; lia|]. destruct (qlt_b v thr); cbn; lia.
Qed.
Theorem C28_is_id : forall thr v i, oc_is_id thr v i = true <-> exists c, class_of thr v c /\ id_means i c.
Proof.
  intros thr v i. unfold oc_is_id. rewrite C28_is. split; intros (c & H1 & H2); exists c; split; try assumption; apply C28_toMask; assumption.
Qed.
(** isFully: every class of the region is one of those asked for; stray bits of either mask are ignored. *)
Theorem C28_isFully : forall r m, oc_isFully r m = true <-> forall c, in_mask r c -> in_mask m c.
Proof.
  intros r m. unfold oc_isFully. rewrite Z.eqb_eq. split.
  - intros H c Hc. unfold in_mask in *. set (n := match c with CFree => 0 | COccupied => 1 | CUnobserved => 2 end) in *.
    assert (Hn : Z.testbit (Z.land (Z.land r 7) (Z.lnot m)) n = false) by (rewrite H; apply Z.bits_0).
    rewrite !Z.land_spec, Z.lnot_spec, Hc in Hn by (destruct c; cbn; lia). destruct (Z.testbit m n); [reflexivity|]. destruct c; discriminate.
  - intros H. apply Z.bits_inj_0. intros n. rewrite !Z.land_spec. destruct (Z.testbit 7 n) eqn:E7; [|rewrite andb_false_r; reflexivity].
    assert (D : n = 0 \/ n = 1 \/ n = 2) by (apply (small_mask_bits 7); [lia|assumption]).
    rewrite Z.lnot_spec by lia. destruct (Z.testbit r n) eqn:Er; [|reflexivity]. cbn [andb].
    assert (Z.testbit m n = true) as ->; [|reflexivity]. destruct D as [->|[->| ->]]; [apply (H CFree)|apply (H COccupied)|apply (H CUnobserved)]; assumption.
Qed.
Theorem C28_isFully_id : forall r i, oc_isFully_id r i = true <-> forall c, in_mask r c -> id_means i c.
Proof. intros r i. unfold oc_isFully_id. rewrite C28_isFully. split; intros H c Hc; apply C28_toMask, H, Hc. Qed.
(** [has] does not trim: with stray bits in both masks it can hold although no class is shared. *)
Theorem C28_has_stray_refuted : exists r m, oc_has r m = true /\ ~ exists c, in_mask r c /\ in_mask m c.
Proof. exists 8, 8. split; [reflexivity|]. intros ([] & H & _); discriminate. Qed.
Example C28_ex : oc_classify 0 (1 # 999) = kOccupied /\ oc_classify 0 (-1 # 999) = kFree /\ oc_classify 0 (1 # 2000) = kUnobserved /\
  oc_classify 1 (1 # 2) = kFree /\ oc_is_id 0 1 kObserved = true /\ oc_isFully_id 5 kObserved = false /\ oc_has_id 5 kObserved = true.
Proof. repeat split. Qed.

Print Assumptions C28_partition.
Print Assumptions C28_toMask.
Print Assumptions C28_toMask_flags.
Print Assumptions C28_toMask_value.
Print Assumptions C28_has.
Print Assumptions C28_has_id.
Print Assumptions C28_is.
Print Assumptions C28_is_id.
Print Assumptions C28_isFully.
Print Assumptions C28_isFully_id.
Print Assumptions C28_has_stray_refuted.
