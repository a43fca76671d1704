(** Property theorems C33, continued: the visited cells and the line segment. *)
From Verif Require Import Base M_IntMath M_NdtreeIndex M_Point M_Ray P_Point P_Ray.
From Coq Require Import QArith Qround Lqa Qabs.
Close Scope Q_scope.
Open Scope Z_scope.

(** ** Specification *)
(** The point at parameter [t] of the segment from [s] to [e] *)
Definition on_segment (s e : vec Q) (t : Q) : vec Q := fun i => (s i + t * (e i - s i))%Q.
(** The closed cell [x] contains the point [p]; the point is inside the open cell *)
Definition touches (d : nat) (w : Q) (x : vec Z) (p : vec Q) : Prop := forall i, (i < d)%nat -> in_cell w (x i) (p i).
Definition crosses (d : nat) (w : Q) (x : vec Z) (p : vec Q) : Prop := forall i, (i < d)%nat -> inside_cell w (x i) (p i).
(** A list of cells follows a segment: the segment meets all of them, in this order, and they contain every cell whose
    interior the segment meets. *)
Definition follows_segment (d : nat) (w : Q) (s e : vec Q) (l : list (vec Z)) : Prop :=
  (exists t : nat -> Q, (forall k, (k < length l)%nat -> (0 <= t k)%Q /\ (t k <= 1)%Q /\ forall x, touches d w (nth k l x) (on_segment s e (t k))) /\
     forall j k, (j <= k)%nat -> (k < length l)%nat -> (t j <= t k)%Q) /\
  (forall t x, (0 <= t)%Q -> (t <= 1)%Q -> crosses d w x (on_segment s e t) -> exists y, In y l /\ veq d x y).

Section GEOM.
  Context (d : nat) (r : ray) (w : Q) (s e : vec Q).
  Let n (i : nat) : Z := Z.abs (r_end r i - r_start r i).
  Context (Hd : (0 < d)%nat) (Hw : (0 < w)%Q).
  Context (Hlen : r_len r = vsum d n + 1).
  Context (Hsign : forall i, (i < d)%nat -> n i <> 0 -> r_signs r i = Z.sgn (r_end r i - r_start r i)).
  Context (Hbefore : forall i c, (i < d)%nat -> 0 <= c < n i -> (r_tinit r i + inject_Z c * r_tstep r i < 1)%Q).
  Context (Hafter : forall i, (i < d)%nat -> (1 <= r_tinit r i + inject_Z (n i) * r_tstep r i)%Q).
  Context (Hpos : forall i, (i < d)%nat -> (0 < e i - s i)%Q -> r_start r i <= r_end r i /\
    (r_tinit r i * (e i - s i) == (inject_Z (r_start r i) + 1) * w - s i)%Q /\ (r_tstep r i * (e i - s i) == w)%Q).
  Context (Hneg : forall i, (i < d)%nat -> (e i - s i < 0)%Q -> r_end r i <= r_start r i /\
    (r_tinit r i * (e i - s i) == inject_Z (r_start r i) * w - s i)%Q /\ (r_tstep r i * (e i - s i) == - w)%Q).
  Context (Hzero : forall i, (i < d)%nat -> (e i - s i == 0)%Q -> r_end r i = r_start r i /\ (r_tinit r i == 2)%Q /\ (r_tstep r i == 2)%Q).
  Context (Hstart : forall i, (i < d)%nat -> in_cell w (r_start r i) (s i)).

  (** The time at which the cell after [k] steps is entered *)
  Definition entry (k : nat) : Q :=
    match k with O => 0%Q | S k' => let t := snd (ray_after d r k') in t (min_coeff d t) end.
  Lemma tstep_pos i : (i < d)%nat -> (0 < r_tstep r i)%Q.
  Proof.
    intros Hi. destruct (Q_dec (e i - s i) 0) as [[C|C]|C].
    - destruct (Hneg i Hi C) as (_ & _ & H). set (x := (e i - s i)%Q) in *. set (y := r_tstep r i) in *.
      destruct (Qlt_le_dec 0 y) as [|L]; [assumption|]. exfalso. assert (X : (0 <= (- y) * (- x))%Q) by (apply Qmult_le_0_compat; lra).
      setoid_replace ((- y) * (- x))%Q with (y * x)%Q in X by ring. lra.
    - destruct (Hpos i Hi C) as (_ & _ & H). set (x := (e i - s i)%Q) in *. set (y := r_tstep r i) in *.
      destruct (Qlt_le_dec 0 y) as [|L]; [assumption|]. exfalso. assert (X : (0 <= (- y) * x)%Q) by (apply Qmult_le_0_compat; lra).
      setoid_replace ((- y) * x)%Q with (- (y * x))%Q in X by ring. lra.
    - destruct (Hzero i Hi C) as (_ & _ & H). lra.
  Qed.
  (** Invariant: the current slab of each axis is entered at [t - tstep] and left at [t] *)
  Lemma slab k i : Z.of_nat k <= vsum d n -> (i < d)%nat ->
    let t := snd (ray_after d r k) i in (t - r_tstep r i <= entry k)%Q /\ (entry k <= t)%Q.
  Proof.
    revert i. induction k as [|k IH]; intros i Hk Hi t.
    - subst t. cbn [ray_after ray_begin snd entry]. destruct (Hstart i Hi) as [S1 S2]. destruct (Q_dec (e i - s i) 0) as [[C|C]|C].
      + destruct (Hneg i Hi C) as (_ & H1 & H2). set (x := (e i - s i)%Q) in *. split.
        * destruct (Qlt_le_dec 0 (r_tinit r i - r_tstep r i)) as [L|]; [|assumption]. exfalso.
          assert (X : (0 < (r_tinit r i - r_tstep r i) * (- x))%Q) by (apply Qmult_lt_0_compat; lra).
          setoid_replace ((r_tinit r i - r_tstep r i) * - x)%Q with (r_tstep r i * x - r_tinit r i * x)%Q in X by ring. lra.
        * destruct (Qlt_le_dec (r_tinit r i) 0) as [L|]; [|assumption]. exfalso.
          assert (X : (0 < (- r_tinit r i) * (- x))%Q) by (apply Qmult_lt_0_compat; lra).
          setoid_replace ((- r_tinit r i) * - x)%Q with (r_tinit r i * x)%Q in X by ring. lra.
      + destruct (Hpos i Hi C) as (_ & H1 & H2). set (x := (e i - s i)%Q) in *. split.
        * destruct (Qlt_le_dec 0 (r_tinit r i - r_tstep r i)) as [L|]; [|assumption]. exfalso.
          assert (X : (0 < (r_tinit r i - r_tstep r i) * x)%Q) by (apply Qmult_lt_0_compat; lra).
          setoid_replace ((r_tinit r i - r_tstep r i) * x)%Q with (r_tinit r i * x - r_tstep r i * x)%Q in X by ring. lra.
        * destruct (Qlt_le_dec (r_tinit r i) 0) as [L|]; [|assumption]. exfalso.
          assert (X : (0 < (- r_tinit r i) * x)%Q) by (apply Qmult_lt_0_compat; lra).
          setoid_replace ((- r_tinit r i) * x)%Q with (- (r_tinit r i * x))%Q in X by ring. lra.
      + destruct (Hzero i Hi C) as (_ & H1 & H2). split; lra.
    - subst t. assert (Hk' : Z.of_nat k <= vsum d n) by lia. pose proof (fun i => IH i Hk') as IH'. clear IH. rename IH' into IH. cbn [ray_after entry]. destruct (ray_after d r k) as [cur t] eqn:E. cbn [snd ray_next] in *.
      destruct (min_coeff_spec d t Hd) as [Hm Hmin]. set (m := min_coeff d t) in *. unfold upd. destruct (Nat.eqb_spec i m) as [->|N].
      + pose proof (tstep_pos m Hm). split; lra.
      + destruct (IH i Hi) as [A1 A2]. destruct (IH m Hm) as [B1 B2]. specialize (Hmin i Hi). split; lra.
  Qed.
  Lemma entry_le k : Z.of_nat (S k) <= vsum d n -> (entry k <= entry (S k))%Q.
  Proof. intros H. cbn [entry]. destruct (min_coeff_spec d (snd (ray_after d r k)) Hd) as [Hm _]. apply (slab k); [lia|exact Hm]. Qed.
  Lemma entry_mono j k : (j <= k)%nat -> Z.of_nat k <= vsum d n -> (entry j <= entry k)%Q.
  Proof. intros H. induction H as [|k H IH]; intros L; [apply Qle_refl|]. apply Qle_trans with (entry k); [apply IH; lia|apply entry_le; exact L]. Qed.
  (** Before the end some axis is not finished, and its next boundary is before 1 *)
  Lemma entry_1 k : Z.of_nat k <= vsum d n -> (0 <= entry k)%Q /\ (entry k <= 1)%Q.
  Proof.
    intros H. split; [apply (entry_mono 0 k); [lia|exact H]|]. destruct k as [|k]; [cbn [entry]; lra|]. cbn [entry].
    assert (Hk0 : Z.of_nat k <= vsum d n) by lia. destruct (inv_after d r Hd Hsign Hbefore Hafter k Hk0) as (c & Hc & Hk). destruct (vsum_lt_some d c n) as (i & Hi & L); [lia|].
    destruct (Hc i Hi) as (A1 & _ & A3). specialize (Hbefore i (c i) Hi ltac:(lia)). destruct (min_coeff_spec d (snd (ray_after d r k)) Hd) as [_ Hmin]. specialize (Hmin i Hi). lra.
  Qed.
  (** Positions within the slabs *)
  Lemma slab_touch k i tau : Z.of_nat k <= vsum d n -> (i < d)%nat -> let t := snd (ray_after d r k) i in
    (t - r_tstep r i <= tau)%Q -> (tau <= t)%Q -> in_cell w (fst (ray_after d r k) i) (on_segment s e tau i).
  Proof.
    intros Hk Hi t L1 L2. destruct (inv_after d r Hd Hsign Hbefore Hafter k Hk) as (c & Hc & _). destruct (Hc i Hi) as (A1 & A2 & A3). fold t in A3.
    rewrite A2. unfold on_segment, in_cell. destruct (Hstart i Hi) as [S1 S2]. set (x := (e i - s i)%Q) in *. destruct (Q_dec x 0) as [[C|C]|C].
    - destruct (Hneg i Hi C) as (H0 & H1 & H2). fold x in H1, H2. assert (EN : (inject_Z (r_start r i + Z.sgn (r_end r i - r_start r i) * c i) == inject_Z (r_start r i) - inject_Z (c i))%Q).
      { destruct (Z.eq_dec (r_end r i) (r_start r i)) as [E|E].
        - assert (c i = 0) as -> by (unfold n in A1; lia). replace (r_start r i + _ * 0) with (r_start r i) by lia. change (inject_Z 0) with 0%Q. ring.
        - replace (r_start r i + _ * c i) with (r_start r i + - c i) by lia. rewrite inject_Z_plus, inject_Z_opp. ring. }
      rewrite EN. assert (T : (t * x == (inject_Z (r_start r i) - inject_Z (c i)) * w - s i)%Q).
      { rewrite A3. setoid_replace ((r_tinit r i + inject_Z (c i) * r_tstep r i) * x)%Q with (r_tinit r i * x + inject_Z (c i) * (r_tstep r i * x))%Q by ring. rewrite H1, H2. ring. }
      assert (M1 : (0 <= (t - tau) * (- x))%Q) by (apply Qmult_le_0_compat; lra).
      assert (M2 : (0 <= (tau - (t - r_tstep r i)) * (- x))%Q) by (apply Qmult_le_0_compat; lra).
      setoid_replace ((t - tau) * - x)%Q with (tau * x - t * x)%Q in M1 by ring.
      setoid_replace ((tau - (t - r_tstep r i)) * - x)%Q with (t * x - r_tstep r i * x - tau * x)%Q in M2 by ring. split; lra.
    - destruct (Hpos i Hi C) as (H0 & H1 & H2). fold x in H1, H2. assert (EN : (inject_Z (r_start r i + Z.sgn (r_end r i - r_start r i) * c i) == inject_Z (r_start r i) + inject_Z (c i))%Q).
      { destruct (Z.eq_dec (r_end r i) (r_start r i)) as [E|E].
        - assert (c i = 0) as -> by (unfold n in A1; lia). replace (r_start r i + _ * 0) with (r_start r i) by lia. change (inject_Z 0) with 0%Q. ring.
        - replace (r_start r i + _ * c i) with (r_start r i + c i) by lia. rewrite inject_Z_plus. ring. }
      rewrite EN. assert (T : (t * x == (inject_Z (r_start r i) + inject_Z (c i) + 1) * w - s i)%Q).
      { rewrite A3. setoid_replace ((r_tinit r i + inject_Z (c i) * r_tstep r i) * x)%Q with (r_tinit r i * x + inject_Z (c i) * (r_tstep r i * x))%Q by ring. rewrite H1, H2. ring. }
      assert (M1 : (0 <= (t - tau) * x)%Q) by (apply Qmult_le_0_compat; lra).
      assert (M2 : (0 <= (tau - (t - r_tstep r i)) * x)%Q) by (apply Qmult_le_0_compat; lra).
      setoid_replace ((t - tau) * x)%Q with (t * x - tau * x)%Q in M1 by ring.
      setoid_replace ((tau - (t - r_tstep r i)) * x)%Q with (tau * x - t * x + r_tstep r i * x)%Q in M2 by ring. split; lra.
    - destruct (Hzero i Hi C) as (H0 & _). rewrite H0. replace (r_start r i + Z.sgn (r_start r i - r_start r i) * c i) with (r_start r i) by lia.
      assert (X : (tau * x == 0)%Q) by (rewrite C; ring). split; lra.
  Qed.
  Lemma cell_unique x y p : in_cell w x p -> inside_cell w y p -> x = y.
  Proof.
    intros [A1 A2] [B1 B2]. assert (Sep : forall a b, (inject_Z a * w < (inject_Z b + 1) * w)%Q -> a <= b).
    { intros a b H. rewrite <- injZ_S in H. rewrite (Qmult_lt_r _ _ w Hw) in H. apply injZ_lt in H. lia. }
    assert (x <= y) by (apply Sep; lra). assert (y <= x) by (apply Sep; lra). lia.
  Qed.
  (** The last cell entered not later than [tau] *)
  Lemma last_entry N tau : (0 <= tau)%Q -> exists k, (k <= N)%nat /\ (entry k <= tau)%Q /\ (k = N \/ (tau < entry (S k))%Q).
  Proof.
    intros H0. induction N as [|N (k & K1 & K2 & K3)]; [exists 0%nat; split; [lia|]; split; [exact H0|left; reflexivity]|].
    destruct K3 as [->|K3]; [|exists k; split; [lia|]; split; [exact K2|right; exact K3]].
    destruct (Qlt_le_dec tau (entry (S N))) as [L|L]; [exists N; split; [lia|]; split; [exact K2|right; exact L]|].
    exists (S N). split; [lia|]. split; [exact L|left; reflexivity].
  Qed.
  Lemma ray_follows : follows_segment d w s e (ray_visit d r).
  Proof.
    assert (Hn : 0 <= vsum d n). { replace 0 with (vsum d (fun _ => 0)) by (clear; induction d; cbn; lia). apply vsum_le. intros. unfold n. lia. }
    assert (L : length (ray_visit d r) = Z.to_nat (r_len r)) by (unfold ray_visit; rewrite map_length, seq_length; reflexivity).
    split.
    - exists entry. rewrite L. split; [intros k Hk|intros j k Hjk Hk; apply entry_mono; [exact Hjk|lia]]. destruct (entry_1 k ltac:(lia)) as [E0 E1].
      split; [exact E0|]. split; [exact E1|]. intros x i Hi. rewrite (visit_nth d r) by exact Hk. destruct (slab k i ltac:(lia) Hi) as [S1 S2]. apply slab_touch; [lia|exact Hi|exact S1|exact S2].
    - intros tau x T0 T1 HX. destruct (last_entry (Z.to_nat (vsum d n)) tau T0) as (k & K1 & K2 & K3). exists (fst (ray_after d r k)). split.
      { unfold ray_visit. apply in_map_iff. exists k. split; [reflexivity|]. apply in_seq. lia. }
      intros i Hi. symmetry. apply (cell_unique _ _ (on_segment s e tau i)); [|apply HX; exact Hi].
      destruct (slab k i ltac:(lia) Hi) as [S1 S2]. apply slab_touch; [lia|exact Hi|lra|].
      destruct K3 as [K3|K3].
      + assert (Hk0 : Z.of_nat k <= vsum d n) by lia. destruct (inv_after d r Hd Hsign Hbefore Hafter k Hk0) as (c & Hc & Hk). destruct (Hc i Hi) as (A1 & _ & A3).
        assert (E : c i = n i). { apply (vsum_eq_all d); [intros j Hj; exact (proj2 (proj1 (Hc j Hj)))|rewrite Hk, K3; apply Z2Nat.id; exact Hn|exact Hi]. }
        rewrite E in A3. specialize (Hafter i Hi). lra.
      + cbn [entry] in K3. destruct (min_coeff_spec d (snd (ray_after d r k)) Hd) as [_ Hmin]. specialize (Hmin i Hi). lra.
  Qed.
End GEOM.

(** ** Theorems *)
(** The ray between two points, the second strictly inside a cell: the segment meets all visited cells, in the order of the
    visit, and every cell whose interior the segment meets is visited. *)
Theorem C33_points_follow_segment_partial : forall rnd d s e w ei, nearest rnd -> (0 < d)%nat -> (0 < w)%Q ->
  (forall i, (i < d)%nat -> inside_cell w (ei i) (e i)) ->
  follows_segment d w s e (ray_visit d (ray_of_points rnd d s e w)).
Proof.
  intros rnd d s e w ei Hr Hd Hw He. destruct (points_times rnd d s e w ei Hr Hw He) as (Hs & Ee & HB & H1 & H2 & H3).
  apply ray_follows; [exact Hd|exact Hw|reflexivity|exact H1|exact H2|exact H3| | | |intros i _; apply Hs].
  - intros i Hi C. split; [destruct (HB i Hi) as [(_ & O & _)|[(C' & _)|(C' & _)]]; [exact O|lra|lra]|]. cbn [r_tinit r_tstep r_start ray_of_points].
    replace (Qeq_bool (e i - s i) 0) with false by (symmetry; apply not_true_iff_false; rewrite Qeq_bool_iff; lra).
    rewrite qsgn_pos by exact C. change (inject_Z (Z.max 1 0)) with 1%Q. change (inject_Z 1) with 1%Q. split; field; lra.
  - intros i Hi C. split; [destruct (HB i Hi) as [(C' & _)|[(_ & O & _)|(C' & _)]]; [lra|exact O|lra]|]. cbn [r_tinit r_tstep r_start ray_of_points].
    replace (Qeq_bool (e i - s i) 0) with false by (symmetry; apply not_true_iff_false; rewrite Qeq_bool_iff; lra).
    rewrite qsgn_neg by exact C. change (inject_Z (Z.max (-1) 0)) with 0%Q. change (inject_Z (-1)) with (-1)%Q. split; field; lra.
  - intros i Hi C. split; [destruct (HB i Hi) as [(C' & _)|[(C' & _)|(_ & O)]]; [lra|lra|exact O]|]. cbn [r_tinit r_tstep ray_of_points].
    replace (Qeq_bool (e i - s i) 0) with true by (symmetry; apply Qeq_bool_iff; exact C). split; reflexivity.
Qed.
(** The ray between two cells follows the segment between their centres (cells of width 1). *)
Definition centre (x : vec Z) : vec Q := fun i => (inject_Z (x i) + (1 # 2))%Q.
Theorem C33_indices_follow_segment : forall d s e, (0 < d)%nat ->
  follows_segment d 1 (centre s) (centre e) (ray_visit d (ray_of_indices d s e)).
Proof.
  intros d s e Hd. destruct (indices_times d s e) as [H1 H2].
  assert (R : forall i, (centre e i - centre s i == inject_Z (e i - s i))%Q) by (intros i; unfold centre; unfold Z.sub; rewrite inject_Z_plus, inject_Z_opp; ring).
  apply ray_follows; [exact Hd|reflexivity|reflexivity|reflexivity|exact H1|exact H2| | | |].
  - intros i Hi C. rewrite R in *. assert (P : 0 < e i - s i) by (apply injZ_lt; exact C). cbn [r_start r_end r_tinit r_tstep ray_of_indices]. split; [lia|].
    replace (e i - s i =? 0) with false by (symmetry; apply Z.eqb_neq; lia). replace (Z.sgn (e i - s i)) with 1 by lia.
    change (inject_Z (Z.max 1 0)) with 1%Q. change (inject_Z 1) with 1%Q. unfold centre. split; field; lra.
  - intros i Hi C. rewrite R in *. assert (P : e i - s i < 0) by (apply injZ_lt; exact C). cbn [r_start r_end r_tinit r_tstep ray_of_indices]. split; [lia|].
    replace (e i - s i =? 0) with false by (symmetry; apply Z.eqb_neq; lia). replace (Z.sgn (e i - s i)) with (-1) by lia.
    change (inject_Z (Z.max (-1) 0)) with 0%Q. change (inject_Z (-1)) with (-1)%Q. unfold centre. split; field; lra.
  - intros i Hi C. rewrite R in C. assert (P : e i - s i = 0) by (apply inject_Z_injective; exact C). cbn [r_start r_end r_tinit r_tstep ray_of_indices]. split; [lia|].
    rewrite P. split; reflexivity.
  - intros i Hi. cbn [r_start ray_of_indices]. unfold in_cell, centre. split; lra.
Qed.
(** A segment through the corner of four cells: two of them are entered at the corner, one of which is only touched. *)
Example C33_follow_ex : map as_list3 (ray_visit 2 (ray_of_points round_away 2 (v3 (1 # 4) (1 # 4) (1 # 2))%Q (v3 (3 # 2) (3 # 2) (1 # 2))%Q 1)) = [[0; 0; 0]; [1; 0; 0]; [1; 1; 0]] /\
  (forall i, (i < 2)%nat -> inside_cell 1 (v3 1 1 0 i) (v3 (3 # 2) (3 # 2) (1 # 2) i)%Q) /\
  crosses 2 1 (v3 1 1 0) (on_segment (v3 (1 # 4) (1 # 4) (1 # 2))%Q (v3 (3 # 2) (3 # 2) (1 # 2))%Q (4 # 5)).
Proof.
  split; [vm_compute; reflexivity|]. split; intros i Hi; (destruct i as [|[|i]]; [| |lia]); vm_compute; auto.
Qed.
Print Assumptions C33_points_follow_segment_partial.
Print Assumptions C33_indices_follow_segment.
