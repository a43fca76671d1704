(** Property theorems C87: what repeated observations do to a cell. Histories of scans of the hashed and of the hashed
    chunked wavelet integrator with threshold() calls in between, in exact arithmetic. *)
From Verif Require Import Base M_IntMath F_IntMath M_NdtreeIndex M_Num F_Num M_Haar3 M_Ndtree S_Field S_Integrate F_Hash
  M_Wavelet F_Wavelet F_Wavelet2 F_Leaves F_WavTree F_WavMap F_WavHash M_WavHist F_WavHist M_Octree F_Octree
  M_Chunked F_Chunked F_ChunkedSim F_ChunkedWav M_ChunkedHist F_ChunkedMap
  M_Integrator F_Integrator F_Integrator2 F_Integrator3 F_IntegratorC F_IntegratorC2 P_Wavelet P_Integrator P_Integrator2 P_Integrator3.
From Verif Require Import M_RangeBounds.
From Coq Require Import QArith Qcanon Qcabs Lqa Permutation.
Close Scope Qc_scope.
Close Scope Q_scope.
Open Scope Z_scope.

(** * Specification *)
(** A scan sees cell [c] as free with updates of at least [d]: the cell is in its field of view, no node around the
    cell is unobserved, and the update of the cell, and of each node around it that the scan may update as a whole, is
    at most [- d]. *)
Definition seen_free (typ : oidx -> update_type) (sample : oidx -> Qc) (accept : oidx -> bool) (T k : Z) (fov : list oidx) (d : Qc) (c : idx3) : Prop :=
  In (node_of c (T + k)) fov /\ (forall h, 0 <= h <= T + k -> typ (node_of c h) <> kFullyUnobserved) /\
  (forall h, 0 <= h < T -> h = 0 \/ accept (node_of c h) = true -> (sample (node_of c h) <= - d)%Qc).
(** A scan sees cell [c] as occupied: every node around it may be occupied, and the updates are at least [d]. *)
Definition seen_occupied (typ : oidx -> update_type) (sample : oidx -> Qc) (accept : oidx -> bool) (T k : Z) (fov : list oidx) (d : Qc) (c : idx3) : Prop :=
  In (node_of c (T + k)) fov /\ (forall h, 0 <= h <= T + k -> typ (node_of c h) = kPossiblyOccupied) /\
  (forall h, 0 <= h < T -> h = 0 \/ accept (node_of c h) = true -> (d <= sample (node_of c h))%Qc).
(** No node around [c] looks like saturated free space (mean below [slo]) unless [c] is itself below [slo]. *)
Definition exposed (slo : Qc) (f : field) (T : Z) (c : idx3) : Prop :=
  forall h, 1 <= h <= T -> (node_mean f (node_of c h) < slo)%Qc -> (f c < slo)%Qc.
(** Nodes that the scan may update as a whole have stored children or cells that are all equal. *)
Definition settled (accept : oidx -> bool) (subdivided : oidx -> bool) (f : field) (T : Z) (c : idx3) : Prop :=
  forall h, 1 <= h < T -> accept (node_of c h) = true -> subdivided (node_of c h) = true \/ uniform f (node_of c h).

(** [hw_seq C K P n m m']: [n] scans, each with property [P] in the map it finds, and any number of threshold() calls
    lead from [m] to [m']. *)
Inductive hw_seq (C : wconfig) (K : iconst Qc) (P : hmap -> oracle Qc -> nat -> list oidx -> Prop) : nat -> hmap -> hmap -> Prop :=
| hseq_nil m : hw_seq C K P 0 m m
| hseq_scan n m m1 m2 W now k fov sched : P m W k fov -> fov_ok C k fov ->
    hw_updateMap qn K W (cT C) now k fov sched m = Some m1 -> hw_seq C K P n m1 m2 -> hw_seq C K P (S n) m m2
| hseq_threshold n m m2 : hw_seq C K P n (hw_threshold qn C m) m2 -> hw_seq C K P n m m2.
Inductive hc_seq (fuel : nat) (C : wconfig) (K : iconst Qc) (P : ccmap -> oracle Qc -> nat -> list oidx -> Prop) : nat -> ccmap -> ccmap -> Prop :=
| cseq_nil m : hc_seq fuel C K P 0 m m
| cseq_scan n m m2 W now k fov order : P m W k fov -> fov_ok C k fov -> NoDup fov ->
    Permutation order (hc_blocks qn K W m k fov) ->
    hc_seq fuel C K P n (hc_updateMap qn K W (cT C) now order (hc_blocks qn K W m k fov) m) m2 -> hc_seq fuel C K P (S n) m m2
| cseq_threshold n m m2 : hc_seq fuel C K P n (hc_threshold qn fuel C m) m2 -> hc_seq fuel C K P n m m2.

(** Constants of an integrator at full resolution: refinement ends at single cells, the clamping range contains the
    map's range, and [slo] lies above the range's lower end. *)
Definition sane (C : wconfig (V := Qc)) (K : iconst Qc) : Prop :=
  i_th K = 0 /\ (i_plo K <= clo C /\ clo C <= chi C /\ chi C <= i_phi K /\ clo C <= i_slo K)%Qc.

Definition hw_frees C K c d m (W : oracle Qc) (k : nat) fov : Prop :=
  seen_free (o_type W) (o_sample W) (o_accept W) (cT C) (Z.of_nat k) fov d c /\ hw_hasBlockAt C m (node_of c (cT C)) = true /\
  exposed (i_slo K) (hw_get qn C m) (cT C) c /\ settled (o_accept W) (hw_subdivided C m) (hw_get qn C m) (cT C) c.
Definition hw_raises C c d m (W : oracle Qc) (k : nat) fov : Prop :=
  seen_occupied (o_type W) (o_sample W) (o_accept W) (cT C) (Z.of_nat k) fov d c /\
  settled (o_accept W) (hw_subdivided C m) (hw_get qn C m) (cT C) c.
Definition hc_frees C K c d m (W : oracle Qc) (k : nat) fov : Prop :=
  seen_free (o_type W) (o_sample W) (o_accept W) (cT C) (Z.of_nat k) fov d c /\ hasBlock m (hw_blockIndex C (node_of c (cT C))) = true /\
  exposed (i_slo K) (hc_get qn C m) (cT C) c.
Definition hc_raises (C : wconfig (V := Qc)) (c : idx3) (d : Qc) (m : ccmap) (W : oracle Qc) (k : nat) fov : Prop :=
  seen_occupied (o_type W) (o_sample W) (o_accept W) (cT C) (Z.of_nat k) fov d c.

(** * Proofs *)
Lemma clamp_above lo hi s x : (lo <= hi)%Qc -> (lo <= s)%Qc -> (clampq lo hi x <= s \/ clampq lo hi x <= x)%Qc.
Proof.
  intros H1 H2. rewrite clampq_qclamp. destruct (qclamp_spec lo hi x H1) as [[A ->]|[[A ->]|[A [B ->]]]].
  - left. exact H2.
  - right. apply Qclt_le_weak. exact A.
  - right. apply Qcle_refl.
Qed.
Lemma clamp_below lo hi x : (lo <= hi)%Qc -> (hi <= clampq lo hi x \/ x <= clampq lo hi x)%Qc.
Proof.
  intros H1. rewrite clampq_qclamp. destruct (qclamp_spec lo hi x H1) as [[A ->]|[[A ->]|[A [B ->]]]].
  - right. apply Qclt_le_weak. exact A.
  - left. apply Qcle_refl.
  - right. apply Qcle_refl.
Qed.
Lemma scaled_nonneg n d : (0 <= d)%Qc -> (0 <= qz (Z.of_nat n) * d)%Qc.
Proof.
  intros H. assert (P : (0 <= qz (Z.of_nat n))%Qc) by (change 0%Qc with (qz 0); apply (proj1 (qz_le 0 (Z.of_nat n))), Nat2Z.is_nonneg).
  replace 0%Qc with (0 * d)%Qc by ring. apply Qcmult_le_compat_r; assumption.
Qed.
Lemma stops_how typ acc th slo g h c i b : stops typ acc th slo g h c i b ->
  (b = true /\ (oh i <= th \/ acc i = true)) \/ (b = false /\ th < oh i /\ skip typ slo g i).
Proof.
  induction 1 as [h c H|h c H S|h c H NS A|h c i b H NS A _ IH].
  - left. split; [reflexivity|left; exact H].
  - right. repeat split; assumption.
  - left. split; [reflexivity|right; exact A].
  - exact IH.
Qed.
Lemma node_of_0 c : node_of c 0 = OI 0 c.
Proof. unfold node_of. change (2 ^ 0) with 1. rewrite !Z.div_1_r. destruct c; reflexivity. Qed.
Lemma hw_threshold_value C m c : valid_config C -> hw_shape C m ->
  hw_get qn C (hw_threshold qn C m) c = hw_get qn C m c \/ hw_get qn C (hw_threshold qn C m) c = clampq (clo C) (chi C) (hw_get qn C m c).
Proof.
  intros [HT _] [_ Hs]. change (hw_get qn C) with (hw_field C). rewrite !hw_field_spec by lia. unfold tree_at, hw_threshold.
  rewrite getBlock_forEachBlock. destruct (getBlock m (block_of C c)) as [b|] eqn:E; cbn [option_map]; [|left; reflexivity].
  rewrite wb_threshold_tree. destruct (bthr b); [|left; reflexivity]. right. rewrite clampq_qclamp.
  apply wt_threshold_cell. apply (Hs _ _ E).
Qed.

Section STEP.
Context (C : wconfig (V := Qc)) (K : iconst Qc) (HC : valid_config C) (HK : sane C K).
Notation T := (cT C).
Let HT : 1 <= T <= 21 := proj1 HC.
Let Hth0 : i_th K = 0 := proj1 HK.
Lemma th_nonneg : 0 <= i_th K. Proof. rewrite Hth0. lia. Qed.
Lemma plo_phi : (i_plo K <= i_phi K)%Qc. Proof. destruct (proj2 HK) as (A & B & D & E). qlra. Qed.
Lemma plo_slo : (i_plo K <= i_slo K)%Qc. Proof. destruct (proj2 HK) as (A & B & D & E). qlra. Qed.

(** What the scan does to [c] when a sample is applied. *)
Lemma applied_cases m W c i : settled (o_accept W) (hw_subdivided C m) (hw_get qn C m) T c ->
  scan_stops C m K W (T - 1) c i true ->
  exists h, 0 <= h < T /\ i = node_of c h /\ (h = 0 \/ o_accept W (node_of c h) = true) /\
    (scan_applied C m K W i c = (hw_get qn C m c + o_sample W i)%Qc \/
     scan_applied C m K W i c = clampq (i_plo K) (i_phi K) (hw_get qn C m c + o_sample W i)%Qc).
Proof.
  intros Hse Hs. destruct (stops_in C K W th_nonneg m _ c i true Hs ltac:(lia)) as [Ii Hi].
  pose proof (node_of_unique c i ltac:(lia) Ii) as Ei.
  destruct (stops_how _ _ _ _ _ _ _ _ _ Hs) as [[_ Hb]|[X _]]; [|discriminate X]. rewrite Hth0 in Hb.
  exists (oh i). split; [lia|]. split; [exact Ei|]. rewrite <- Ei. split; [destruct Hb; [left; lia|right; assumption]|].
  unfold scan_applied, applied. rewrite Hth0.
  destruct (Z.eq_dec (oh i) 0) as [Hz|Hz].
  - right. replace (0 <? oh i) with false by (symmetry; apply Z.ltb_ge; lia). cbn [andb].
    assert (M : node_mean (hw_get qn C m) i = hw_get qn C m c) by (rewrite Ei, Hz, node_of_0; apply node_mean_cell). rewrite M. ring.
  - replace (0 <? oh i) with true by (symmetry; apply Z.ltb_lt; lia). cbn [andb].
    destruct (hw_subdivided C m i) eqn:Es; [left; reflexivity|]. right.
    assert (A : o_accept W i = true) by (destruct Hb; [lia|assumption]).
    assert (U : uniform (hw_get qn C m) i).
    { destruct (Hse (oh i) ltac:(lia)) as [X|X]; rewrite <- Ei in *; [exact A|congruence|exact X]. }
    rewrite (uniform_mean_gen _ i c ltac:(lia) Ii U). ring.
Qed.
Lemma free_step m m1 W now k fov sched c d : hw_state C m -> fov_ok C k fov -> hw_frees C K c d m W k fov ->
  hw_updateMap qn K W T now k fov sched m = Some m1 ->
  (hw_get qn C m1 c <= i_slo K \/ hw_get qn C m1 c <= hw_get qn C m c - d)%Qc.
Proof.
  intros Hm Hf ((Hin & Hob & Hsa) & Hb & Hex & Hse) E.
  destruct (C41_scan_effect C m K W now k fov sched m1 c HC Hm th_nonneg Hf E) as [U1 U2].
  assert (Dec : scan_updates C m K W k fov c \/ (node_mean (hw_get qn C m) (node_of c T) < i_slo K)%Qc /\ ~ scan_updates C m K W k fov c).
  { unfold scan_updates, block_updated. destruct (Qclt_le_dec (node_mean (hw_get qn C m) (node_of c T)) (i_slo K)) as [L|L].
    - assert (D : occupied (o_type W) (node_of c T) \/ ~ occupied (o_type W) (node_of c T))
        by (unfold occupied; destruct (o_type W (node_of c T)); ((left; reflexivity) || (right; discriminate))).
      destruct D as [D|D].
      + left. split; [exact Hin|]. split; [intros h Hh X; apply (Hob h ltac:(lia)); exact X|]. left. exact D.
      + right. split; [exact L|]. intros (_ & _ & [X|[_ X]]); [exact (D X)|]. apply (Qclt_not_le _ _ L X).
    - left. split; [exact Hin|]. split; [intros h Hh X; apply (Hob h ltac:(lia)); exact X|]. right. split; assumption. }
  destruct Dec as [Hu|[L Hu]].
  2:{ left. rewrite (U2 Hu). apply Qclt_le_weak. apply (Hex T ltac:(lia) L). }
  destruct (U1 Hu) as (i & b & S1 & S2). rewrite S2. destruct b.
  - destruct (applied_cases m W c i Hse S1) as (h & Hh & -> & Hacc & Ha). pose proof (Hsa h Hh Hacc) as Hd.
    destruct Ha as [-> | ->]; [right; qlra|].
    destruct (clamp_above (i_plo K) (i_phi K) (i_slo K) (hw_get qn C m c + o_sample W (node_of c h))%Qc plo_phi plo_slo); [left; assumption|right; qlra].
  - left. destruct (stops_in C K W th_nonneg m _ c i false S1 ltac:(lia)) as [Ii Hi].
    pose proof (node_of_unique c i ltac:(lia) Ii) as Ei.
    destruct (stops_how _ _ _ _ _ _ _ _ _ S1) as [[X _]|(_ & Ho & [X|[_ X]])]; [discriminate X| |].
    + exfalso. rewrite Ei in X. apply (Hob (oh i) ltac:(lia)). exact X.
    + apply Qclt_le_weak. rewrite Ei in X. apply (Hex (oh i)); [lia|exact X].
Qed.
Lemma raise_step m m1 W now k fov sched c d : hw_state C m -> fov_ok C k fov -> hw_raises C c d m W k fov ->
  hw_updateMap qn K W T now k fov sched m = Some m1 ->
  (i_phi K <= hw_get qn C m1 c \/ hw_get qn C m c + d <= hw_get qn C m1 c)%Qc.
Proof.
  intros Hm Hf ((Hin & Hob & Hsa) & Hse) E.
  destruct (C41_scan_effect C m K W now k fov sched m1 c HC Hm th_nonneg Hf E) as [U1 _].
  assert (Hu : scan_updates C m K W k fov c).
  { split; [exact Hin|]. split; [|left; apply Hob; lia]. intros h Hh X. unfold unobserved in X. rewrite Hob in X by lia. discriminate X. }
  destruct (U1 Hu) as (i & b & S1 & S2). rewrite S2. destruct b.
  - destruct (applied_cases m W c i Hse S1) as (h & Hh & -> & Hacc & Ha). pose proof (Hsa h Hh Hacc) as Hd.
    destruct Ha as [-> | ->]; [right; qlra|].
    destruct (clamp_below (i_plo K) (i_phi K) (hw_get qn C m c + o_sample W (node_of c h))%Qc plo_phi); [left; assumption|right; qlra].
  - exfalso. destruct (stops_in C K W th_nonneg m _ c i false S1 ltac:(lia)) as [Ii Hi].
    pose proof (node_of_unique c i ltac:(lia) Ii) as Ei.
    destruct (stops_how _ _ _ _ _ _ _ _ _ S1) as [[X _]|(_ & Ho & [X|[X _]])]; [discriminate X| |].
    + rewrite Ei in X. unfold unobserved in X. rewrite Hob in X by lia. discriminate X.
    + apply X. rewrite Ei. apply Hob. lia.
Qed.
End STEP.

(** * C87 *)
(** A cell that [n] scans see as free falls by at least [d] with each of them until it is below [slo], however
    threshold() calls are interleaved, provided that no surrounding node hides it. *)
Theorem C87_cleared_partial : forall C K c d n m m',
  valid_config C -> sane C K -> (0 <= d)%Qc -> hw_state C m -> hw_seq C K (hw_frees C K c d) n m m' ->
  (hw_get qn C m' c <= i_slo K \/ hw_get qn C m' c <= hw_get qn C m c - qz (Z.of_nat n) * d)%Qc.
Proof.
  intros C K c d n m m' HC HK Hd Hm H. induction H as [m|n m m1 m2 W now k fov sched HP Hf E _ IH|n m m2 _ IH].
  - right. change (qz (Z.of_nat 0)) with 0%Qc. qlra.
  - pose proof (free_step C K HC HK m m1 W now k fov sched c d Hm Hf HP E) as St.
    assert (Hm1 : hw_state C m1) by (eapply HS_scan; [exact Hm|apply (th_nonneg C K HK)|exact E]). specialize (IH Hm1).
    replace (qz (Z.of_nat (S n))) with (1 + qz (Z.of_nat n))%Qc by (rewrite Nat2Z.inj_succ, <- Z.add_1_l, qz_add; reflexivity).
    assert (Hn : (0 <= qz (Z.of_nat n) * d)%Qc) by (apply scaled_nonneg; exact Hd).
    replace ((1 + qz (Z.of_nat n)) * d)%Qc with (d + qz (Z.of_nat n) * d)%Qc by ring.
    generalize dependent (qz (Z.of_nat n) * d)%Qc. intros z IH Hn. destruct IH as [IH|IH]; [left; exact IH|].
    destruct St as [St|St]; [left; qlra|right; qlra].
  - assert (Hm1 : hw_state C (hw_threshold qn C m)) by exact (HS_call C m (0, HThreshold) Hm). specialize (IH Hm1).
    assert (Hn : (0 <= qz (Z.of_nat n) * d)%Qc) by (apply scaled_nonneg; exact Hd).
    generalize dependent (qz (Z.of_nat n) * d)%Qc. intros z IH Hn. destruct IH as [IH|IH]; [left; exact IH|].
    destruct (hw_threshold_value C m c HC (hw_state_shape C m (proj1 HC) Hm)) as [E|E]; rewrite E in IH; [right; exact IH|].
    destruct HK as (_ & A & B & D & F). destruct (clamp_above (clo C) (chi C) (i_slo K) (hw_get qn C m c) B F); [left; qlra|right; qlra].
Qed.
(** A cell that [n] scans see as occupied rises by at least [d] with each of them until it reaches the upper end of the
    range. *)
Theorem C87_raised : forall C K c d n m m',
  valid_config C -> sane C K -> (0 <= d)%Qc -> hw_state C m -> hw_seq C K (hw_raises C c d) n m m' ->
  (chi C <= hw_get qn C m' c \/ hw_get qn C m c + qz (Z.of_nat n) * d <= hw_get qn C m' c)%Qc.
Proof.
  intros C K c d n m m' HC HK Hd Hm H. induction H as [m|n m m1 m2 W now k fov sched HP Hf E _ IH|n m m2 _ IH].
  - right. change (qz (Z.of_nat 0)) with 0%Qc. qlra.
  - pose proof (raise_step C K HC HK m m1 W now k fov sched c d Hm Hf HP E) as St.
    assert (Hm1 : hw_state C m1) by (eapply HS_scan; [exact Hm|apply (th_nonneg C K HK)|exact E]). specialize (IH Hm1).
    replace (qz (Z.of_nat (S n))) with (1 + qz (Z.of_nat n))%Qc by (rewrite Nat2Z.inj_succ, <- Z.add_1_l, qz_add; reflexivity).
    assert (Hn : (0 <= qz (Z.of_nat n) * d)%Qc) by (apply scaled_nonneg; exact Hd).
    replace ((1 + qz (Z.of_nat n)) * d)%Qc with (d + qz (Z.of_nat n) * d)%Qc by ring.
    generalize dependent (qz (Z.of_nat n) * d)%Qc. intros z IH Hn. destruct IH as [IH|IH]; [left; exact IH|].
    destruct HK as (_ & A & B & D & F). destruct St as [St|St]; [left; qlra|right; qlra].
  - assert (Hm1 : hw_state C (hw_threshold qn C m)) by exact (HS_call C m (0, HThreshold) Hm). specialize (IH Hm1).
    assert (Hn : (0 <= qz (Z.of_nat n) * d)%Qc) by (apply scaled_nonneg; exact Hd).
    generalize dependent (qz (Z.of_nat n) * d)%Qc. intros z IH Hn. destruct IH as [IH|IH]; [left; exact IH|].
    destruct (hw_threshold_value C m c HC (hw_state_shape C m (proj1 HC) Hm)) as [E|E]; rewrite E in IH; [right; exact IH|].
    destruct HK as (_ & A & B & D & F). destruct (clamp_below (clo C) (chi C) (hw_get qn C m c) B); [left; qlra|right; qlra].
Qed.

(** ** The hashed chunked integrator *)
Lemma batch_how typ acc th slo g h c i b : 0 <= th -> 1 <= h -> batch_stops typ acc th slo g h c i b ->
  exists h', i = node_of c h' /\ h' <= h /\
    ((b = Keep /\ 1 <= h' /\ skip typ slo g i) \/ (b = AddSample /\ 1 <= h' /\ acc i = true) \/ (b = ClampAdded /\ 0 <= h' <= th)).
Proof.
  intros Hth Hh H. induction H as [h c H|h c H A|h c H A Hb|h c i b H A Hb _ IH].
  - exists h. split; [reflexivity|]. split; [lia|]. left. auto.
  - exists h. split; [reflexivity|]. split; [lia|]. right. left. auto.
  - exists (h - 1). split; [reflexivity|]. split; [lia|]. right. right. split; [reflexivity|lia].
  - destruct IH as (h' & E & L & X); [lia|]. exists h'. split; [exact E|]. split; [lia|exact X].
Qed.
Section CSTEP.
Context (fuel : nat) (C : wconfig (V := Qc)) (K : iconst Qc) (HC : valid_config C) (HT2 : 2 <= cT C)
  (Hfuel : (Z.to_nat (cT C) <= fuel)%nat) (HK : sane C K).
Notation T := (cT C).
Lemma c_free_step m W now k fov order c d : hc_state fuel C m -> fov_ok C k fov -> NoDup fov ->
  Permutation order (hc_blocks qn K W m k fov) -> hc_frees C K c d m W k fov ->
  let m1 := hc_updateMap qn K W T now order (hc_blocks qn K W m k fov) m in
  (hc_get qn C m1 c <= i_slo K \/ hc_get qn C m1 c <= hc_get qn C m c - d)%Qc.
Proof.
  intros Hm Hf Hnd Hp ((Hin & Hob & Hsa) & Hb & Hex) m1.
  destruct (C41_chunked_effect fuel C m K W now k fov order c HC HT2 Hfuel Hm (th_nonneg C K HK) (plo_phi C K HK) Hnd Hf Hp) as [U1 U2].
  fold m1 in U1, U2.
  assert (Dec : c_updates C m K W k fov c \/ (node_mean (hc_get qn C m) (node_of c T) < i_slo K)%Qc /\ ~ c_updates C m K W k fov c).
  { unfold c_updates, block_updated. destruct (Qclt_le_dec (node_mean (hc_get qn C m) (node_of c T)) (i_slo K)) as [L|L].
    - assert (D : occupied (o_type W) (node_of c T) \/ ~ occupied (o_type W) (node_of c T))
        by (unfold occupied; destruct (o_type W (node_of c T)); ((left; reflexivity) || (right; discriminate))).
      destruct D as [D|D].
      + left. split; [exact Hin|]. split; [intros h Hh X; apply (Hob h ltac:(lia)); exact X|]. left. exact D.
      + right. split; [exact L|]. intros (_ & _ & [X|[_ X]]); [exact (D X)|]. apply (Qclt_not_le _ _ L X).
    - left. split; [exact Hin|]. split; [intros h Hh X; apply (Hob h ltac:(lia)); exact X|]. right. split; assumption. }
  destruct Dec as [Hu|[L Hu]].
  2:{ left. rewrite (U2 Hu). apply Qclt_le_weak. apply (Hex T ltac:(lia) L). }
  destruct (U1 Hu) as (i & b & S1 & S2). rewrite S2. unfold c_applied, batch_applied.
  assert (H1 : 1 <= T - 1) by lia.
  destruct (batch_how _ _ _ _ _ _ _ _ _ (th_nonneg C K HK) H1 S1) as (h & -> & Lh & [(-> & Lo & [X|[_ X]])|[(-> & Lo & A)|(-> & Lo)]]).
  - exfalso. apply (Hob h ltac:(lia)). exact X.
  - left. apply Qclt_le_weak. apply (Hex h); [lia|exact X].
  - right. pose proof (Hsa h ltac:(lia) (or_intror A)). qlra.
  - rewrite (proj1 HK) in Lo. assert (h = 0) by lia. subst h. rewrite node_of_0, node_mean_cell.
    pose proof (Hsa 0 ltac:(lia) (or_introl eq_refl)) as Hd. rewrite node_of_0 in Hd.
    destruct (clamp_above (i_plo K) (i_phi K) (i_slo K) (hc_get qn C m c + o_sample W (OI 0 c))%Qc (plo_phi C K HK) (plo_slo C K HK)); [left; qlra|right; qlra].
Qed.
Lemma c_raise_step m W now k fov order c d : hc_state fuel C m -> fov_ok C k fov -> NoDup fov ->
  Permutation order (hc_blocks qn K W m k fov) -> hc_raises C c d m W k fov ->
  let m1 := hc_updateMap qn K W T now order (hc_blocks qn K W m k fov) m in
  (i_phi K <= hc_get qn C m1 c \/ hc_get qn C m c + d <= hc_get qn C m1 c)%Qc.
Proof.
  intros Hm Hf Hnd Hp (Hin & Hob & Hsa) m1.
  destruct (C41_chunked_effect fuel C m K W now k fov order c HC HT2 Hfuel Hm (th_nonneg C K HK) (plo_phi C K HK) Hnd Hf Hp) as [U1 _].
  fold m1 in U1.
  assert (Hu : c_updates C m K W k fov c).
  { split; [exact Hin|]. split; [|left; apply Hob; lia]. intros h Hh X. unfold unobserved in X. rewrite Hob in X by lia. discriminate X. }
  destruct (U1 Hu) as (i & b & S1 & S2). rewrite S2. unfold c_applied, batch_applied.
  assert (H1 : 1 <= T - 1) by lia.
  destruct (batch_how _ _ _ _ _ _ _ _ _ (th_nonneg C K HK) H1 S1) as (h & -> & Lh & [(-> & Lo & [X|[X _]])|[(-> & Lo & A)|(-> & Lo)]]).
  - exfalso. unfold unobserved in X. rewrite Hob in X by lia. discriminate X.
  - exfalso. apply X. apply Hob. lia.
  - right. pose proof (Hsa h ltac:(lia) (or_intror A)). qlra.
  - rewrite (proj1 HK) in Lo. assert (h = 0) by lia. subst h. rewrite node_of_0, node_mean_cell.
    pose proof (Hsa 0 ltac:(lia) (or_introl eq_refl)) as Hd. rewrite node_of_0 in Hd.
    destruct (clamp_below (i_plo K) (i_phi K) (hc_get qn C m c + o_sample W (OI 0 c))%Qc (plo_phi C K HK)); [left; qlra|right; qlra].
Qed.
Lemma hc_threshold_value m c : hc_state fuel C m ->
  hc_get qn C (hc_threshold qn fuel C m) c = hc_get qn C m c \/ hc_get qn C (hc_threshold qn fuel C m) c = clampq (clo C) (chi C) (hc_get qn C m c).
Proof.
  intros Hm. pose proof (proj1 HC) as HT. destruct (hc_state_sim fuel C HC HT2 Hfuel m Hm) as (h & R & Hw).
  assert (Hs : hw_shape C h) by (eapply mrel_shape; eassumption).
  assert (R' : mrel C (hc_threshold qn fuel C m) (hw_threshold qn C h)) by (apply (mrel_apply fuel C HT Hfuel m h (0, HThreshold) R)).
  rewrite (mrel_get fuel C HT Hfuel _ _ c R'), (mrel_get fuel C HT Hfuel _ _ c R). apply hw_threshold_value; assumption.
Qed.
End CSTEP.

Theorem C87_chunked_cleared_partial : forall fuel C K c d n m m',
  valid_config C -> 2 <= cT C -> (Z.to_nat (cT C) <= fuel)%nat -> sane C K -> (0 <= d)%Qc -> hc_state fuel C m ->
  hc_seq fuel C K (hc_frees C K c d) n m m' ->
  (hc_get qn C m' c <= i_slo K \/ hc_get qn C m' c <= hc_get qn C m c - qz (Z.of_nat n) * d)%Qc.
Proof.
  intros fuel C K c d n m m' HC HT2 Hfu HK Hd Hm H. induction H as [m|n m m2 W now k fov order HP Hf Hnd Hp _ IH|n m m2 _ IH].
  - right. change (qz (Z.of_nat 0)) with 0%Qc. qlra.
  - pose proof (c_free_step fuel C K HC HT2 Hfu HK m W now k fov order c d Hm Hf Hnd Hp HP) as St. cbv zeta in St.
    specialize (IH (CS_scan fuel C m K W now k fov order Hm (th_nonneg C K HK) Hnd Hf Hp)).
    replace (qz (Z.of_nat (S n))) with (1 + qz (Z.of_nat n))%Qc by (rewrite Nat2Z.inj_succ, <- Z.add_1_l, qz_add; reflexivity).
    assert (Hn : (0 <= qz (Z.of_nat n) * d)%Qc) by (apply scaled_nonneg; exact Hd).
    replace ((1 + qz (Z.of_nat n)) * d)%Qc with (d + qz (Z.of_nat n) * d)%Qc by ring.
    generalize dependent (qz (Z.of_nat n) * d)%Qc. intros z IH Hn. destruct IH as [IH|IH]; [left; exact IH|].
    destruct St as [St|St]; [left; qlra|right; qlra].
  - specialize (IH (CS_call fuel C m (0, HThreshold) Hm)).
    assert (Hn : (0 <= qz (Z.of_nat n) * d)%Qc) by (apply scaled_nonneg; exact Hd).
    generalize dependent (qz (Z.of_nat n) * d)%Qc. intros z IH Hn. destruct IH as [IH|IH]; [left; exact IH|].
    destruct (hc_threshold_value fuel C HC HT2 Hfu m c Hm) as [E|E]; rewrite E in IH; [right; exact IH|].
    destruct HK as (_ & A & B & D & F). destruct (clamp_above (clo C) (chi C) (i_slo K) (hc_get qn C m c) B F); [left; qlra|right; qlra].
Qed.
Theorem C87_chunked_raised : forall fuel C K c d n m m',
  valid_config C -> 2 <= cT C -> (Z.to_nat (cT C) <= fuel)%nat -> sane C K -> (0 <= d)%Qc -> hc_state fuel C m ->
  hc_seq fuel C K (hc_raises C c d) n m m' ->
  (chi C <= hc_get qn C m' c \/ hc_get qn C m c + qz (Z.of_nat n) * d <= hc_get qn C m' c)%Qc.
Proof.
  intros fuel C K c d n m m' HC HT2 Hfu HK Hd Hm H. induction H as [m|n m m2 W now k fov order HP Hf Hnd Hp _ IH|n m m2 _ IH].
  - right. change (qz (Z.of_nat 0)) with 0%Qc. qlra.
  - pose proof (c_raise_step fuel C K HC HT2 Hfu HK m W now k fov order c d Hm Hf Hnd Hp HP) as St. cbv zeta in St.
    specialize (IH (CS_scan fuel C m K W now k fov order Hm (th_nonneg C K HK) Hnd Hf Hp)).
    replace (qz (Z.of_nat (S n))) with (1 + qz (Z.of_nat n))%Qc by (rewrite Nat2Z.inj_succ, <- Z.add_1_l, qz_add; reflexivity).
    assert (Hn : (0 <= qz (Z.of_nat n) * d)%Qc) by (apply scaled_nonneg; exact Hd).
    replace ((1 + qz (Z.of_nat n)) * d)%Qc with (d + qz (Z.of_nat n) * d)%Qc by ring.
    generalize dependent (qz (Z.of_nat n) * d)%Qc. intros z IH Hn. destruct IH as [IH|IH]; [left; exact IH|].
    destruct HK as (_ & A & B & D & F). destruct St as [St|St]; [left; qlra|right; qlra].
  - specialize (IH (CS_call fuel C m (0, HThreshold) Hm)).
    assert (Hn : (0 <= qz (Z.of_nat n) * d)%Qc) by (apply scaled_nonneg; exact Hd).
    generalize dependent (qz (Z.of_nat n) * d)%Qc. intros z IH Hn. destruct IH as [IH|IH]; [left; exact IH|].
    destruct (hc_threshold_value fuel C HC HT2 Hfu m c Hm) as [E|E]; rewrite E in IH; [right; exact IH|].
    destruct HK as (_ & A & B & D & F). destruct (clamp_below (clo C) (chi C) (hc_get qn C m c) B); [left; qlra|right; qlra].
Qed.

(** ** What hides a cell *)
(** A scan that sees no possibly occupied space in a block leaves all cells of the block as they are if the mean of the
    block is below [slo]. *)
Lemma hidden_step fuel C K m W now k fov order c : valid_config C -> 2 <= cT C -> (Z.to_nat (cT C) <= fuel)%nat -> sane C K ->
  hc_state fuel C m -> fov_ok C k fov -> NoDup fov -> Permutation order (hc_blocks qn K W m k fov) ->
  (node_mean (hc_get qn C m) (node_of c (cT C)) < i_slo K)%Qc -> o_type W (node_of c (cT C)) <> kPossiblyOccupied ->
  hc_get qn C (hc_updateMap qn K W (cT C) now order (hc_blocks qn K W m k fov) m) c = hc_get qn C m c.
Proof.
  intros HC HT2 Hfu HK Hm Hf Hnd Hp L Ho.
  destruct (C41_chunked_effect fuel C m K W now k fov order c HC HT2 Hfu Hm (th_nonneg C K HK) (plo_phi C K HK) Hnd Hf Hp) as [_ U2].
  apply U2. intros (_ & _ & [X|[_ X]]); [exact (Ho X)|]. exact (Qclt_not_le _ _ L X).
Qed.
(** If a block's mean is below [slo] and its cells are in the map's range, then no sequence of scans that see the block
    as free, and of threshold() calls, changes any of its cells. *)
Theorem C87_hidden : forall fuel C K c n m m',
  valid_config C -> 2 <= cT C -> (Z.to_nat (cT C) <= fuel)%nat -> sane C K -> hc_state fuel C m ->
  (forall c', node_of c' (cT C) = node_of c (cT C) -> (clo C <= hc_get qn C m c' <= chi C)%Qc) ->
  (node_mean (hc_get qn C m) (node_of c (cT C)) < i_slo K)%Qc ->
  hc_seq fuel C K (fun _ W _ _ => o_type W (node_of c (cT C)) <> kPossiblyOccupied) n m m' ->
  hc_get qn C m' c = hc_get qn C m c.
Proof.
  intros fuel C K c n m m' HC HT2 Hfu HK Hm Hr Hmean H.
  assert (T0 : 0 <= cT C) by lia.
  assert (Mean : forall m1, (forall c', node_of c' (cT C) = node_of c (cT C) -> hc_get qn C m1 c' = hc_get qn C m c') ->
                 node_mean (hc_get qn C m1) (node_of c (cT C)) = node_mean (hc_get qn C m) (node_of c (cT C))).
  { intros m1 E. apply node_mean_ext; [exact T0|]. intros c' Hc'. apply E. symmetry. apply (node_of_unique c'); assumption. }
  assert (G : forall n m1 m', hc_seq fuel C K (fun _ W _ _ => o_type W (node_of c (cT C)) <> kPossiblyOccupied) n m1 m' ->
              hc_state fuel C m1 -> (forall c', node_of c' (cT C) = node_of c (cT C) -> hc_get qn C m1 c' = hc_get qn C m c') ->
              hc_get qn C m' c = hc_get qn C m c).
  { clear n m' H. intros n m1 m' H. induction H as [m1|n m1 m2 W now k fov order HP Hf Hnd Hp _ IH|n m1 m2 _ IH]; intros Hm1 E.
    - apply E. reflexivity.
    - apply IH; [exact (CS_scan fuel C m1 K W now k fov order Hm1 (th_nonneg C K HK) Hnd Hf Hp)|].
      intros c' Hc'. rewrite <- (E c' Hc'). apply (hidden_step fuel); try assumption; rewrite Hc'; [rewrite (Mean m1 E)|]; assumption.
    - apply IH; [exact (CS_call fuel C m1 (0, HThreshold) Hm1)|]. intros c' Hc'. rewrite <- (E c' Hc').
      destruct (hc_threshold_value fuel C HC HT2 Hfu m1 c' Hm1) as [X|X]; rewrite X; [reflexivity|].
      rewrite clampq_qclamp. apply qclamp_id; rewrite (E c' Hc'); apply Hr; exact Hc'. }
  apply (G n m m' H Hm). reflexivity.
Qed.

(** The default configuration of the chunked map (blocks of 64^3 cells, log-odds from -2 to 4) and the constants of its
    integrator (kNoiseThreshold = 1e-3). *)
Definition sixC : wconfig (V := Qc) := WC 6 (clo exC) (chi exC).
Definition sixK : iconst Qc := IC 0 (clo sixC - exe)%Qc (chi sixC + exe)%Qc (clo sixC + exe)%Qc.
Definition all_free_once : oracle Qc := Oracle (fun _ => kPossiblyOccupied) (fun _ => - Q2Qc 2)%Qc (fun _ => true).
Definition sixfov : list oidx := [OI 6 (I3 0 0 0)].
Definition six1 : ccmap := hc_updateMap qn sixK all_free_once 6 1 (hc_blocks qn sixK all_free_once [] 0 sixfov) (hc_blocks qn sixK all_free_once [] 0 sixfov) [].
Definition six2 : ccmap := hc_apply 6 sixC six1 (2, HAdd (I3 20 21 22) (Q2Qc 6)).
Lemma sixC_valid : valid_config sixC.
Proof. split; [cbn; lia|exact (proj2 exC_valid)]. Qed.
Lemma sixK_sane : sane sixC sixK.
Proof. split; [reflexivity|]. repeat split; vm_compute; discriminate. Qed.
Lemma six1_state : hc_state 6 sixC six1.
Proof.
  apply (CS_scan 6 sixC [] sixK all_free_once 1 0 sixfov); [constructor|cbn; lia|repeat constructor; intros []|intros i [<-|[]]; reflexivity|apply Permutation_refl].
Qed.
Lemma six1_cells c : node_of c 6 = OI 6 (I3 0 0 0) -> hc_get qn sixC six1 c = (- Q2Qc 2)%Qc.
Proof.
  intros Hc. assert (T2 : 2 <= cT sixC) by (cbn; lia). assert (Hfu : (Z.to_nat (cT sixC) <= 6)%nat) by apply le_n.
  assert (H0 : 0 <= i_th sixK) by (cbn; lia).
  assert (Hnd : NoDup sixfov) by (repeat constructor; intros []).
  assert (Hf : fov_ok sixC 0 sixfov) by (intros i [<-|[]]; reflexivity).
  destruct (C41_chunked_effect 6 sixC [] sixK all_free_once 1 0 sixfov _ c sixC_valid T2 Hfu (CS_new 6 sixC) H0 (plo_phi sixC sixK sixK_sane) Hnd Hf
    (Permutation_refl _)) as [U _]. cbv zeta in U. fold six1 in U. change (hc_get qn sixC (hc_updateMap qn sixK all_free_once (cT sixC) 1
    (hc_blocks qn sixK all_free_once [] 0 sixfov) (hc_blocks qn sixK all_free_once [] 0 sixfov) []) c) with (hc_get qn sixC six1 c) in U.
  destruct U as (i & b & S1 & ->).
  - split; [left; symmetry; exact Hc|]. split; [intros h _ X; discriminate X|left; reflexivity].
  - unfold c_applied, batch_applied.
    assert (S2 : c_stops sixC [] sixK all_free_once (cT sixC - 1) c (node_of c (cT sixC - 1)) AddSample).
    { apply bstop_accept; [|reflexivity]. intros [X|[X _]]; [discriminate X|apply X; reflexivity]. }
    destruct (C41_chunked_stop_unique sixC [] sixK all_free_once (cT sixC - 1) c _ _ _ _ H0 ltac:(cbn; lia) S1 S2) as (-> & -> & _).
    change (hc_get qn sixC [] c) with 0%Qc. cbn [o_sample all_free_once]. ring.
Qed.
Lemma six2_state : hc_state 6 sixC six2.
Proof. apply CS_call. exact six1_state. Qed.
Lemma six2_cells c : hc_get qn sixC six2 c = if in_node (OI 0 (I3 20 21 22)) c then (hc_get qn sixC six1 c + Q2Qc 6)%Qc else hc_get qn sixC six1 c.
Proof.
  assert (T2 : 2 <= cT sixC) by (cbn; lia). assert (Hfu : (Z.to_nat (cT sixC) <= 6)%nat) by apply le_n. pose proof (proj1 sixC_valid) as HT.
  destruct (hc_state_sim 6 sixC sixC_valid T2 Hfu six1 six1_state) as (h & R & _).
  pose proof (mrel_apply 6 sixC HT Hfu six1 h (2, HAdd (I3 20 21 22) (Q2Qc 6)) R) as R'.
  rewrite (mrel_get 6 sixC HT Hfu _ _ c R). change (hc_get qn sixC six2 c) with (hc_get qn sixC (hc_apply 6 sixC six1 (2, HAdd (I3 20 21 22) (Q2Qc 6))) c).
  rewrite (mrel_get 6 sixC HT Hfu _ _ c R'). cbn [hw_apply]. change (hw_get qn sixC) with (hw_field sixC). apply hw_add_field. exact HT.
Qed.
Definition free_scan : oracle Qc := Oracle (fun _ => kFullyFree) (fun _ => - Q2Qc 1)%Qc (fun _ => true).
Lemma six2_mean : (node_mean (hc_get qn sixC six2) (OI 6 (I3 0 0 0)) < i_slo sixK)%Qc.
Proof.
  assert (T2 : 2 <= cT sixC) by (cbn; lia). assert (Hfu : (Z.to_nat (cT sixC) <= 6)%nat) by apply le_n. pose proof (proj1 sixC_valid) as HT.
  destruct (Qclt_le_dec (node_mean (hc_get qn sixC six2) (OI 6 (I3 0 0 0))) (i_slo sixK)) as [L|L]; [exact L|exfalso].
  destruct (hc_state_sim 6 sixC sixC_valid T2 Hfu six2 six2_state) as (h & R & _).
  assert (Hf : fov_ok sixC 0 sixfov) by (intros i [<-|[]]; reflexivity).
  assert (X : In (I3 0 0 0) (um_blocks qn sixK free_scan h 0 sixfov)).
  { change (I3 0 0 0) with (block_of sixC (I3 20 21 22)) at 1. apply (um_blocks_spec sixC HT sixK free_scan h 0 sixfov (I3 20 21 22) Hf).
    split; [left; reflexivity|]. split; [intros h0 _ Y; discriminate Y|]. right. split.
    - unfold hw_hasBlockAt. rewrite <- (mrel_hasBlock sixC six2 h _ R). vm_compute. reflexivity.
    - change (node_of (I3 20 21 22) (cT sixC)) with (OI 6 (I3 0 0 0)).
      rewrite (node_mean_ext (hw_field sixC h) (hc_get qn sixC six2)); [exact L|cbn; lia|].
      intros c _. symmetry. apply (mrel_get 6 sixC HT Hfu). exact R. }
  rewrite <- (mrel_blocks sixC sixK free_scan six2 h 0 sixfov R) in X.
  replace (hc_blocks qn sixK free_scan six2 0 sixfov) with (@nil idx3) in X by (vm_compute; reflexivity). exact X.
Qed.
(** The cleared property fails: with blocks of 64^3 cells that are saturated free space, an occupied cell stays at the
    upper end of the range forever, although every scan sees the whole block as free with updates of -1, and threshold()
    is called as often as one likes. *)
Theorem C87_chunked_cleared_refuted : exists fuel C K c m,
  valid_config C /\ 2 <= cT C /\ (Z.to_nat (cT C) <= fuel)%nat /\ sane C K /\ hc_state fuel C m /\
  let all_free (W : oracle Qc) := forall i, o_type W i = kFullyFree /\ o_accept W i = true /\ o_sample W i = (- Q2Qc 1)%Qc in
  let scans := hc_seq fuel C K (fun _ W k fov => all_free W /\ In (node_of c (cT C + Z.of_nat k)) fov) in
  hc_get qn C m c = chi C /\ (forall n, exists m', scans n m m') /\ (forall n m', scans n m m' -> hc_get qn C m' c = chi C).
Proof.
  exists 6%nat, sixC, sixK, (I3 20 21 22), six2. assert (T2 : 2 <= cT sixC) by (cbn; lia).
  assert (Hfu : (Z.to_nat (cT sixC) <= 6)%nat) by apply le_n.
  assert (V : hc_get qn sixC six2 (I3 20 21 22) = chi sixC) by (apply Qc_is_canon; vm_compute; reflexivity).
  split; [exact sixC_valid|]. split; [exact T2|]. split; [exact Hfu|]. split; [exact sixK_sane|]. split; [exact six2_state|]. intros all_free scans.
  split; [exact V|]. split.
  - intros n. generalize six2. induction n as [|n IH]; intros m; [exists m; constructor|].
    destruct (IH (hc_updateMap qn sixK free_scan 6 3 (hc_blocks qn sixK free_scan m 0 sixfov) (hc_blocks qn sixK free_scan m 0 sixfov) m)) as (m' & H).
    exists m'. eapply cseq_scan with (W := free_scan) (k := O) (fov := sixfov); [|intros i [<-|[]]; reflexivity|repeat constructor; intros []|apply Permutation_refl|exact H].
    split; [intros i; repeat split|left; reflexivity].
  - intros n m' H. rewrite <- V. apply (C87_hidden 6 sixC sixK (I3 20 21 22) n six2 m' sixC_valid T2 Hfu sixK_sane six2_state).
    + intros c' Hc'. rewrite six2_cells, (six1_cells c' Hc').
      destruct (in_node _ _); split; vm_compute; discriminate.
    + exact six2_mean.
    + clear - H. unfold scans in H. induction H as [m|n m m2 W now k fov order [HP _] Hf Hnd Hp _ IH|n m m2 _ IH].
      * constructor.
      * eapply cseq_scan; try eassumption. destruct (HP (node_of (I3 20 21 22) (cT sixC))) as [-> _]. discriminate.
      * apply cseq_threshold. exact IH.
Qed.
(** ** The hypotheses are met *)
(** A free scan of a cell at 3, a threshold() call and another free scan; then an occupied scan. *)
Definition c1 : idx3 := I3 1 1 1.
Definition up : oracle Qc := Oracle (fun _ => kPossiblyOccupied) (fun i => Q2Qc (3 # 2)) (fun i => oh i =? 0).
Definition down : oracle Qc := Oracle (fun _ => kFullyFree) (fun _ => - Q2Qc 1)%Qc (fun i => oh i =? 0).
Definition blockfov : list oidx := [OI 3 (I3 0 0 0)].
Definition run1 (W : oracle Qc) (m : hmap) : hmap :=
  match hw_updateMap qn exK W 3 9 0 blockfov (repeat 0%nat 1024) m with Some m' => m' | None => [] end.
Lemma run1_some W m : (if hw_updateMap qn exK W 3 9 0 blockfov (repeat 0%nat 1024) m then true else false) = true ->
  hw_updateMap qn exK W (cT exC) 9 0 blockfov (repeat 0%nat 1024) m = Some (run1 W m).
Proof. unfold run1. change (cT exC) with 3. destruct (hw_updateMap qn exK W 3 9 0 blockfov (repeat 0%nat 1024) m); [reflexivity|discriminate]. Qed.
Definition e0 : hmap := hw_run exC [(1, HAdd c1 (Q2Qc 3))].
Notation e1 := (run1 down e0).
Notation e2 := (hw_threshold qn exC e1).
Notation e3 := (run1 down e2).
Notation e4 := (run1 up e3).
Lemma heights h : 1 <= h <= 3 -> h = 1 \/ h = 2 \/ h = 3.
Proof. lia. Qed.
Lemma down_free : seen_free (o_type down) (o_sample down) (o_accept down) (cT exC) 0 blockfov (Q2Qc 1) c1.
Proof. split; [left; reflexivity|]. split; [discriminate|]. intros h _ _. cbn [o_sample down]. apply Qcle_refl. Qed.
Lemma never_settled (W : oracle Qc) m : (forall h, 1 <= h -> o_accept W (node_of c1 h) = false) -> settled (o_accept W) (hw_subdivided exC m) (hw_get qn exC m) (cT exC) c1.
Proof. intros H h Hh X. rewrite H in X by lia. discriminate X. Qed.
Lemma exposed_by m : forallb (fun h => Qle_bool (this (i_slo exK)) (this (node_mean (hw_get qn exC m) (node_of c1 h)))) [1; 2; 3] = true ->
  exposed (i_slo exK) (hw_get qn exC m) (cT exC) c1.
Proof.
  intros H h Hh L. rewrite forallb_forall in H. specialize (H h). exfalso.
  assert (I : In h [1; 2; 3]) by (change (cT exC) with 3 in Hh; destruct (heights h Hh) as [->|[->| ->]]; cbn; tauto).
  apply H, Qle_bool_iff in I. exact (Qclt_not_le _ _ L I).
Qed.
Lemma low_accept (W : oracle Qc) : o_accept W = (fun i => oh i =? 0) -> forall h, 1 <= h -> o_accept W (node_of c1 h) = false.
Proof. intros -> h Hh. cbn [node_of oh]. apply Z.eqb_neq. lia. Qed.
Example C87_ex_frees : hw_frees exC exK c1 (Q2Qc 1) e0 down 0 blockfov /\ hw_frees exC exK c1 (Q2Qc 1) e2 down 0 blockfov.
Proof.
  split; (split; [exact down_free|]; split; [vm_compute; reflexivity|]; split; [apply exposed_by; vm_compute; reflexivity|];
    apply never_settled, low_accept; reflexivity).
Qed.
Example C87_ex : sane exC exK /\ hw_state exC e0 /\ hw_seq exC exK (hw_frees exC exK c1 (Q2Qc 1)) 2 e0 e3 /\
  hw_seq exC exK (hw_raises exC c1 (Q2Qc (3 # 2))) 1 e3 e4 /\
  map (fun m => this (hw_get qn exC m c1)) [e0; e1; e2; e3; e4] = [3; 2; 2; 1; 5 # 2]%Q.
Proof.
  assert (F : fov_ok exC 0 blockfov) by (intros i [<-|[]]; reflexivity).
  split; [split; [reflexivity|]; repeat split; vm_compute; discriminate|]. split; [apply hw_state_run|]. split; [|split].
  - apply (hseq_scan _ _ _ 1 e0 e1 e3 down 9 0 blockfov (repeat 0%nat 1024)); [apply C87_ex_frees|exact F|apply run1_some; vm_compute; reflexivity|].
    assert (H2 : hw_seq exC exK (hw_frees exC exK c1 (Q2Qc 1)) 1 e2 e3).
    { apply (hseq_scan _ _ _ 0 e2 e3 e3 down 9 0 blockfov (repeat 0%nat 1024)); [apply C87_ex_frees|exact F|apply run1_some; vm_compute; reflexivity|constructor]. }
    apply hseq_threshold. exact H2.
  - apply (hseq_scan _ _ _ 0 e3 e4 e4 up 9 0 blockfov (repeat 0%nat 1024)); [|exact F|apply run1_some; vm_compute; reflexivity|constructor].
    split; [|apply never_settled, low_accept; reflexivity]. split; [left; reflexivity|]. split; [reflexivity|]. intros h _ _. apply Qcle_refl.
  - vm_compute. reflexivity.
Qed.
(** The same for the chunked map. *)
Definition crun (W : oracle Qc) (m : ccmap) : ccmap := hc_updateMap qn exK W 3 9 (hc_blocks qn exK W m 0 blockfov) (hc_blocks qn exK W m 0 blockfov) m.
Definition k0 : ccmap := hc_run 3 exC [(1, HAdd c1 (Q2Qc 3))].
Definition k1 : ccmap := crun down k0.
Definition k2 : ccmap := crun up k1.
Example C87_chunked_ex : hc_state 3 exC k0 /\ hc_seq 3 exC exK (hc_frees exC exK c1 (Q2Qc 1)) 1 k0 k1 /\
  hc_seq 3 exC exK (hc_raises exC c1 (Q2Qc (3 # 2))) 1 k1 k2 /\ map (fun m => this (hc_get qn exC m c1)) [k0; k1; k2] = [3; 2; 7 # 2]%Q.
Proof.
  assert (F : fov_ok exC 0 blockfov) by (intros i [<-|[]]; reflexivity).
  assert (Nd : NoDup blockfov) by (repeat constructor; intros []).
  split; [apply hc_state_run|]. split; [|split; [|vm_compute; reflexivity]].
  - apply (cseq_scan 3 exC exK _ 0 k0 k1 down 9 0 blockfov (hc_blocks qn exK down k0 0 blockfov)); [|exact F|exact Nd|apply Permutation_refl|constructor].
    split; [exact down_free|]. split; [vm_compute; reflexivity|].
    intros h Hh L. exfalso. change (cT exC) with 3 in Hh.
    destruct (heights h Hh) as [->|[->| ->]]; apply (Qclt_not_le _ _ L); apply Qle_bool_iff; vm_compute; reflexivity.
  - apply (cseq_scan 3 exC exK _ 0 k1 k2 up 9 0 blockfov (hc_blocks qn exK up k1 0 blockfov)); [|exact F|exact Nd|apply Permutation_refl|constructor].
    split; [left; reflexivity|]. split; [reflexivity|]. intros h _ _. apply Qcle_refl.
Qed.
Print Assumptions C87_cleared_partial.
Print Assumptions C87_raised.
Print Assumptions C87_chunked_cleared_partial.
Print Assumptions C87_chunked_raised.
Print Assumptions C87_hidden.
Print Assumptions C87_chunked_cleared_refuted.
