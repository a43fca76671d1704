(** C42: lazy thresholding of HashedWaveletOctree under edits and integrated scans (exact arithmetic). *)
From Verif Require Import Base M_IntMath F_IntMath M_NdtreeIndex M_Num F_Num M_Haar3 M_Ndtree S_Field S_Integrate F_Hash
  M_Wavelet F_Wavelet F_Wavelet2 F_Leaves F_WavTree F_WavMap F_WavHash M_WavHist F_WavHist M_Octree F_Octree
  M_Integrator F_Integrator F_Integrator2 F_Integrator3 P_Wavelet P_Integrator.
From Coq Require Import QArith Qcanon Qcabs Lqa.
Close Scope Qc_scope.
Close Scope Q_scope.
Open Scope Z_scope.

(** All cells of node [i] have the same value. *)
Definition uniform (g : field) (i : oidx) : Prop := forall c c', in_node i c = true -> in_node i c' = true -> g c = g c'.
(** Histories of edits and scans in which no sample is applied to a node that stores unequal cell values without
    having stored children. [e] is the padding of the clamping range (kNoiseThreshold). *)
Inductive hw_careful (C : wconfig (V := Qc)) (e : Qc) : hmap -> Prop :=
| HC_new : hw_careful C e []
| HC_call m tc : hw_careful C e m -> hw_careful C e (hw_apply C m tc)
| HC_scan m m' slo W now k fov sched : hw_careful C e m -> fov_ok C k fov ->
    (forall i, 1 <= oh i < cT C -> o_accept W i = true -> hw_subdivided C m i = true \/ uniform (hw_get qn C m) i) ->
    hw_updateMap qn (IC 0 (clo C - e) (chi C + e) slo)%Qc W (cT C) now k fov sched m = Some m' -> hw_careful C e m'.
Lemma careful_state C e m : hw_careful C e m -> hw_state C m.
Proof.
  induction 1 as [|m tc _ IH|m m' slo W now k fov sched _ IH _ _ E]; [apply HS_new|apply HS_call; exact IH|].
  exact (HS_scan C m m' (IC 0 (clo C - e)%Qc (chi C + e)%Qc slo) W now k fov sched IH (Z.le_refl 0) E).
Qed.

Lemma uniform_mean_gen (g : field) i c : 0 <= oh i -> in_node i c = true -> uniform g i -> node_mean g i = g c.
Proof.
  intros Hh Hc Hu. unfold node_mean.
  assert (S1 : forall (h : Z -> Qc) v n a, (forall x, a <= x < a + Z.of_nat n -> h x = v) -> sum_range h a n = (qz (Z.of_nat n) * v)%Qc).
  { intros h v. induction n as [|n IH]; intros a H; cbn [sum_range].
    - change (qz (Z.of_nat 0)) with 0%Qc. ring.
    - rewrite (H a) by lia. rewrite IH by (intros; apply H; lia). replace (Z.of_nat (S n)) with (1 + Z.of_nat n) by lia.
      rewrite qz_add. change (qz 1) with 1%Qc. ring. }
  assert (P : 0 < 2 ^ oh i) by (apply pow2_pos; exact Hh).
  unfold cell_sum. set (n := Z.to_nat (2 ^ oh i)). assert (Hn : Z.of_nat n = 2 ^ oh i) by (unfold n; lia).
  rewrite (S1 _ (qz (Z.of_nat n) * (qz (Z.of_nat n) * g c))%Qc).
  2:{ intros x Hx. apply S1. intros y Hy. apply S1. intros z Hz. apply Hu; [|exact Hc].
      unfold in_node. cbn [px py pz]. rewrite !andb_true_iff, !Z.leb_le, !Z.ltb_lt. lia. }
  rewrite Hn. replace (qz (8 ^ oh i)) with (qz (2 ^ oh i) * qz (2 ^ oh i) * qz (2 ^ oh i))%Qc.
  2:{ rewrite <- !qz_mul. f_equal. change 8 with (2 ^ 3). rewrite <- Z.pow_mul_r, <- !Z.pow_add_r by lia. f_equal. lia. }
  field. change 0%Qc with (qz 0). intros H. apply qz_inj in H. lia.
Qed.

Lemma stops_accept typ acc th slo g h c i b : stops typ acc th slo g h c i b -> th < oh i -> b = true -> acc i = true.
Proof. induction 1 as [h c H|h c H|h c H NS A|h c i b H NS A _ IH]; intros Hi Hb; [cbn [node_of oh] in Hi; lia|discriminate|exact A|auto]. Qed.
Lemma imap_div_1 c : imap (fun x => x / 1) c = c.
Proof. destruct c as [x y z]. unfold imap. cbn [px py pz]. rewrite !Z.div_1_r. reflexivity. Qed.
(** Invariant: a block whose flag is not set has all cells in the padded range. *)
Section INV.
Context (C : wconfig (V := Qc)) (e : Qc) (HC : valid_config C) (He : (0 <= e)%Qc) (H0 : (clo C <= 0 <= chi C)%Qc).
Notation T := (cT C).
Notation lo := (clo C - e)%Qc.
Notation hi := (chi C + e)%Qc.
Definition lazy_ok (m : hmap) : Prop := hw_shape C m /\ forall b blk, getBlock m b = Some blk -> bthr blk = false -> cells_in lo hi T (btree blk).
Let HT : 1 <= T <= 21 := proj1 HC.
Lemma pad x : (clo C <= x)%Qc -> (x <= chi C)%Qc -> (lo <= x /\ x <= hi)%Qc.
Proof. intros A B. split; qlra. Qed.
Lemma lazy_threshold b : tree_ok T (btree b) -> (bthr b = false -> cells_in lo hi T (btree b)) ->
  cells_in lo hi T (btree (wb_threshold qn C b)).
Proof.
  intros Ht Hc. rewrite wb_threshold_tree. destruct (bthr b); [|apply Hc; reflexivity].
  intros c. rewrite wt_threshold_cell by assumption. destruct (qclamp_range (clo C) (chi C) (cellv T (btree b) c)) as [A B];
    [qlra|]. apply pad; assumption.
Qed.
Lemma lazy_prune b : tree_ok T (btree b) -> (bthr b = false -> cells_in lo hi T (btree b)) ->
  bthr (wb_prune qn C b) = false -> cells_in lo hi T (btree (wb_prune qn C b)).
Proof.
  intros Ht Hc. unfold wb_prune. destruct (bprn b); [|exact Hc]. cbv zeta. intros _.
  exact (cells_in_prune _ _ T (btree (wb_threshold qn C b)) HT (lazy_threshold b Ht Hc)).
Qed.
Lemma lazy_apply m tc : lazy_ok m -> lazy_ok (hw_apply C m tc).
Proof.
  intros [Hs H]. split; [apply hw_apply_shape; assumption|]. destruct Hs as [Hw Hs].
  destruct tc as [now c]. destruct c as [i v|i u| | |age| |b]; cbn [hw_apply]; intros b' blk E.
  - unfold hw_set in E. cbv zeta in E. rewrite getBlock_setBlock in E. destruct (ieqb _ _); [injection E as <-; discriminate|apply (H b' blk E)].
  - unfold hw_add in E. cbv zeta in E. rewrite getBlock_setBlock in E. destruct (ieqb _ _); [injection E as <-; discriminate|apply (H b' blk E)].
  - unfold hw_threshold in E. rewrite getBlock_forEachBlock in E. destruct (getBlock m b') as [blk0|] eqn:E0; [|discriminate]. injection E as <-.
    intros _. apply lazy_threshold; [apply (Hs b'); exact E0|apply (H b'); exact E0].
  - unfold hw_prune in E. rewrite getBlock_eraseBlockIf in E by assumption. destruct (getBlock m b') as [blk0|] eqn:E0; [|discriminate].
    cbn [fst snd] in E. destruct (wb_empty _ _); [discriminate|]. injection E as <-. apply lazy_prune; [apply (Hs b'); exact E0|apply (H b'); exact E0].
  - unfold hw_pruneSmart in E. rewrite getBlock_eraseBlockIf in E by assumption. destruct (getBlock m b') as [blk0|] eqn:E0; [|discriminate].
    cbn [fst snd] in E. destruct (wb_empty _ _); [discriminate|]. injection E as <-. destruct (age <? _); [|apply (H b'); exact E0].
    apply lazy_prune; [apply (Hs b'); exact E0|apply (H b'); exact E0].
  - discriminate E.
  - rewrite getBlock_eraseBlock in E. destruct (ieqb b b'); [discriminate|]. apply (H b' blk E).
Qed.
Lemma lazy_scan m m' slo W now k fov sched : lazy_ok m -> fov_ok C k fov ->
  (forall i, 1 <= oh i < T -> o_accept W i = true -> hw_subdivided C m i = true \/ uniform (hw_get qn C m) i) ->
  hw_updateMap qn (IC 0 lo hi slo) W T now k fov sched m = Some m' -> lazy_ok m'.
Proof.
  intros [Hs H] Hf Hacc E. set (K := IC 0 lo hi slo) in *. assert (Hth : 0 <= i_th K) by (cbn; lia).
  split; [eapply updateMap_shape; eassumption|].
  destruct (updateMap_spec K W Hth T now k fov sched m m' ltac:(lia) E) as [G _].
  intros b blk Eb Hthr cell0.
  (* the cell of block b with the same low bits *)
  set (c := imap (fun x => x) (I3 (px b * 2 ^ T + px cell0 mod 2 ^ T) (py b * 2 ^ T + py cell0 mod 2 ^ T) (pz b * 2 ^ T + pz cell0 mod 2 ^ T))).
  assert (P : 0 < 2 ^ T) by (apply pow2_pos; lia).
  assert (Bc : block_of C c = b).
  { destruct b as [x y z]. unfold block_of, c, imap. cbn [px py pz].
    rewrite !Z.div_add_l by lia. rewrite !Z.div_small by (apply Z.mod_pos_bound; exact P). f_equal; lia. }
  assert (Mc : imap (fun x => x mod 2 ^ T) c = imap (fun x => x mod 2 ^ T) cell0).
  { unfold c, imap. cbn [px py pz]. rewrite !(Z.add_comm (_ * 2 ^ T)), !Z.mod_add, !Z.mod_mod by lia. reflexivity. }
  assert (Cv : forall t, cellv T t cell0 = cellv T t c).
  { intros t. rewrite <- (cellv_mod C t cell0), <- Mc, cellv_mod by lia. reflexivity. }
  assert (Fc : cellv T (btree blk) cell0 = hw_field C m' c).
  { rewrite hw_field_spec by lia. rewrite Bc. unfold tree_at. rewrite Eb. apply Cv. }
  rewrite Fc.
  assert (Old : (lo <= hw_field C m c /\ hw_field C m c <= hi)%Qc).
  { rewrite hw_field_spec by lia. rewrite Bc. unfold tree_at. destruct (getBlock m b) as [blk0|] eqn:E0.
    - rewrite <- Cv. apply (H b blk0 E0). rewrite G in Eb. destruct (in_dec _ _ _).
      + injection Eb as <-. unfold block_after in Hthr. cbn [bthr] in Hthr. unfold block_result, blockOrNew in Hthr. rewrite E0 in Hthr.
        destruct (upd _ _ _ _ _ _) as [[n s] g]. cbn [snd] in Hthr. apply orb_false_iff in Hthr. apply Hthr.
      + rewrite E0 in Eb. injection Eb as <-. exact Hthr.
    - rewrite cellv_new by lia. apply pad; apply H0. }
  destruct (updateMap_field C HT K W Hth m now k fov sched m' c Hf E) as [U1 U2].
  destruct (in_dec idx3_eq_dec b (um_blocks qn K W m k fov)) as [Hin|Hin].
  2:{ rewrite U2; [exact Old|]. rewrite <- (um_blocks_spec C HT K W m k fov c Hf), Bc. exact Hin. }
  rewrite <- Bc, (um_blocks_spec C HT K W m k fov c Hf) in Hin.
  destruct (U1 Hin) as (i & s & S1 & S2 & S3). rewrite S2. destruct s; [|exact Old].
  destruct (stops_in C K W Hth m _ c i true S1 ltac:(lia)) as [Ii Hi].
  destruct (hw_subdivided C m i && (0 <? oh i)) eqn:Esub.
  { apply andb_true_iff in Esub as [Es1 Es2]. rewrite Es1 in S3. change (i_th K) with 0 in S3. rewrite Es2 in S3.
    destruct (S3 eq_refl) as (blk' & Eb' & Ht'). rewrite Bc, Eb in Eb'. injection Eb' as <-. congruence. }
  unfold applied. change (i_th K) with 0. rewrite andb_comm, Esub.
  assert (Mean : node_mean (hw_field C m) i = hw_field C m c).
  { destruct (Z.eq_dec (oh i) 0) as [Hz|Hz].
    - apply node_of_unique in Ii; [|lia]. rewrite Ii, Hz. rewrite node_of_anc. unfold anc. change (2 ^ 0) with 1. rewrite imap_div_1.
      apply node_mean_cell.
    - apply uniform_mean_gen; [lia|exact Ii|].
      assert (Acc : o_accept W i = true) by (apply (stops_accept _ _ _ _ _ _ _ _ _ S1); [change (i_th K) with 0; lia|reflexivity]).
      destruct (Hacc i ltac:(lia) Acc) as [X|X]; [|exact X]. rewrite X in Esub. cbn [andb] in Esub. apply Z.ltb_ge in Esub. lia. }
  rewrite Mean. assert (R : forall x y : Qc, (x + (y - x))%Qc = y) by (intros; ring). rewrite R.
  rewrite clampq_qclamp. apply qclamp_range. clear - He H0. change (lo <= hi)%Qc. qlra.
Qed.

Lemma careful_lazy m : hw_careful C e m -> lazy_ok m.
Proof.
  induction 1 as [|m tc _ IH|m m' slo W now k fov sched _ IH Hf Ha E].
  - split; [apply shape_nil|]. intros b blk X. discriminate X.
  - apply lazy_apply. exact IH.
  - eapply lazy_scan; eassumption.
Qed.
End INV.

(** * C42 *)
(** Sound for all histories of edits and scans at full resolution in which no sample is applied to a node that
    stores unequal cells without stored children: after threshold() every cell is in the configured range, up to the
    padding [e] that the integrator itself clamps to. *)
Theorem C42_hashed_partial : forall C e m c,
  valid_config C -> (0 <= e)%Qc -> (clo C <= 0 <= chi C)%Qc -> hw_careful C e m ->
  (clo C - e <= hw_get qn C (hw_threshold qn C m) c <= chi C + e)%Qc.
Proof.
  intros C e m c HC He H0 Hm. destruct (careful_lazy C e HC He H0 m Hm) as [[_ Hs] H].
  change (hw_get qn C (hw_threshold qn C m) c) with (hw_field C (hw_threshold qn C m) c). pose proof (proj1 HC) as HT.
  rewrite hw_field_spec by lia. unfold tree_at, hw_threshold. rewrite getBlock_forEachBlock.
  destruct (getBlock m (block_of C c)) as [b|] eqn:E; cbn [option_map].
  - apply lazy_threshold; try assumption; [apply (Hs _ _ E)|apply (H _ _ E)].
  - rewrite cellv_new by lia. apply pad; try assumption; apply H0.
Qed.
(** Edits alone never need the padding. *)
Theorem C42_edits_only : forall C m c,
  valid_config C -> (clo C <= 0 <= chi C)%Qc -> hashed_reachable C m ->
  (clo C <= hw_get qn C (hw_threshold qn C m) c <= chi C)%Qc.
Proof.
  intros C m c HC H0 Hr. pose proof (hw_threshold_cell C m c (proj1 HC) (proj1 H0) (proj2 H0) (hashed_ok C m HC Hr)) as E.
  change (hw_get qn C (hw_threshold qn C m) c) with (hw_field C (hw_threshold qn C m) c). rewrite E. unfold fclamp.
  rewrite clampq_qclamp. apply qclamp_range. apply Qclt_le_weak. apply HC.
Qed.
(** A careful history with edits, scans and a coarse sample on a subdivided node: exm and exW of P_Integrator.v. *)
Example C42_ex_careful : exists m', hw_careful exC (Q2Qc (13743895 # 137438953472)) m' /\
  hw_get qn exC m' (I3 1 1 1) = (Q2Qc 4 + Q2Qc (13743895 # 137438953472))%Qc.
Proof.
  assert (X : exists m', hw_updateMap qn (IC 0 (clo exC - Q2Qc (13743895 # 137438953472)) (chi exC + Q2Qc (13743895 # 137438953472)) (i_slo exK))%Qc
     (Oracle (o_type exW) (o_sample exW) (fun _ => false)) 3 9 1 exfov (repeat 0%nat 1000) exm = Some m' /\ hw_get qn exC m' (I3 1 1 1) = (Q2Qc 4 + Q2Qc (13743895 # 137438953472))%Qc).
  { match goal with |- exists m', ?u = Some m' /\ _ => assert (Y : match u with
                | Some m' => this (hw_get qn exC m' (I3 1 1 1)) | None => 0%Q end = this (Q2Qc 4 + Q2Qc (13743895 # 137438953472))%Qc) by (vm_compute; reflexivity) end.
    destruct (hw_updateMap _ _ _ _ _ _ _ _ _) as [m'|]; [|discriminate Y]. exists m'. split; [reflexivity|].
    apply Qc_is_canon. rewrite Y. reflexivity. }
  destruct X as (m' & E & V). exists m'. split; [|exact V].
  refine (HC_scan exC _ exm m' (i_slo exK) _ 9 1 exfov _ _ _ _ E).
  - assert (R : forall l m, hw_careful exC (Q2Qc (13743895 # 137438953472)) m -> hw_careful exC (Q2Qc (13743895 # 137438953472)) (fold_left (hw_apply exC) l m)).
    { induction l as [|a l IH]; intros m Hm; [exact Hm|]. cbn [fold_left]. apply IH. apply HC_call. exact Hm. }
    apply R. constructor.
  - apply C41_ex_hyps.
  - intros i Hi Ha. discriminate Ha.
Qed.
(** Refuted in general, even at full resolution: a coarse sample on a node of height 1 clamps only the mean of its
    cells and does not set the flag, so one of its cells leaves the range and threshold() does not bring it back. *)
Theorem C42_hashed_refuted : exists C m c,
  valid_config C /\ (clo C <= 0 <= chi C)%Qc /\ hw_state C m /\
  ~ (hw_get qn C (hw_threshold qn C m) c <= chi C + 1)%Qc.
Proof.
  (* one cell at the maximum 4, thresholded so that the flag is clear; then a sample of 2 for its height-1 node *)
  set (m0 := hw_run exC [(1, HAdd (I3 1 1 1) (Q2Qc 4)); (2, HThreshold)]).
  set (W := Oracle (fun _ => kPossiblyOccupied) (fun _ => Q2Qc 2) (fun i => oh i =? 1)).
  assert (X : exists m', hw_updateMap qn exK W 3 9 0 [OI 3 (I3 0 0 0)] (repeat 0%nat 1000) m0 = Some m' /\
     this (hw_get qn exC (hw_threshold qn exC m') (I3 1 1 1)) = 6%Q).
  { assert (Y : match hw_updateMap qn exK W 3 9 0 [OI 3 (I3 0 0 0)] (repeat 0%nat 1000) m0 with
                | Some m' => this (hw_get qn exC (hw_threshold qn exC m') (I3 1 1 1)) | None => 0%Q end = 6%Q) by (vm_compute; reflexivity).
    destruct (hw_updateMap _ _ _ _ _ _ _ _ _) as [m'|]; [|discriminate Y]. exists m'. split; [reflexivity|exact Y]. }
  destruct X as (m' & E & V). exists exC, m', (I3 1 1 1). split; [exact exC_valid|]. split; [split; vm_compute; discriminate|].
  split; [exact (HS_scan exC m0 m' exK W 9 0 _ _ (hw_state_run _ _) (Z.le_refl 0) E)|].
  intros H. unfold Qcle in H. rewrite V in H. vm_compute in H. apply H. reflexivity.
Qed.
Print Assumptions C42_hashed_partial.
Print Assumptions C42_edits_only.
Print Assumptions C42_hashed_refuted.
