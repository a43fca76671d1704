(** Property theorems C41 and C42 for HashedWaveletIntegrator and WaveletIntegrator, in exact arithmetic. The effect
    of a scan on the field of cell values is specified in S_Integrate.v; map states are those that API calls and
    earlier scans can produce (hw_state in M_Integrator.v). *)
From Verif Require Import Base M_IntMath F_IntMath M_NdtreeIndex M_Num F_Num M_Haar3 M_Ndtree S_Field S_Integrate F_Hash
  M_Wavelet F_Wavelet F_Wavelet2 F_Leaves F_WavTree F_WavMap F_WavHash M_WavHist F_WavHist M_Octree F_Octree
  M_Integrator F_Integrator F_Integrator2 F_Integrator3 P_Wavelet.
From Coq Require Import QArith Qcanon Qcabs Lqa.
Close Scope Qc_scope.
Close Scope Q_scope.
Open Scope Z_scope.

(** Abbreviations: the specification of S_Integrate.v for a map [m], the scan [W] and the constants [K]. *)
Definition scan_updates (C : wconfig) (m : hmap) (K : iconst Qc) (W : oracle Qc) (k : nat) (fov : list oidx) (c : idx3) : Prop :=
  block_updated (o_type W) (i_slo K) (hw_get qn C m) (hw_hasBlockAt C m) (cT C) (Z.of_nat k) fov c.
Definition scan_stops (C : wconfig) (m : hmap) (K : iconst Qc) (W : oracle Qc) : Z -> idx3 -> oidx -> bool -> Prop :=
  stops (o_type W) (o_accept W) (i_th K) (i_slo K) (hw_get qn C m).
Definition scan_applied (C : wconfig) (m : hmap) (K : iconst Qc) (W : oracle Qc) : oidx -> idx3 -> Qc :=
  applied (o_sample W) (i_th K) (i_plo K) (i_phi K) (hw_get qn C m) (hw_subdivided C m).
Definition fov_ok (C : wconfig (V := Qc)) (k : nat) (fov : list oidx) : Prop := forall i, In i fov -> oh i = cT C + Z.of_nat k.

Lemma node_mean_cell (g : field) c : node_mean g (OI 0 c) = g c.
Proof.
  unfold node_mean, cell_sum. cbn [oh opos]. change (2 ^ 0) with 1. change (Z.to_nat 1) with 1%nat. cbn [sum_range].
  rewrite !Z.mul_1_r. destruct c as [x y z]. cbn [px py pz]. change (8 ^ 0) with 1.
  change (qz 1) with 1%Qc. field. discriminate.
Qed.

(** * C41 *)
(** The scan changes every cell as specified: cells of blocks that are not selected keep their value; in a selected
    block, the first node on the way down to the cell at which the refinement stops decides: if it is skipped the
    cell keeps its value, otherwise the node's sample is applied to it. *)
Theorem C41_scan_effect : forall C m K W now k fov sched m' c,
  valid_config C -> hw_state C m -> 0 <= i_th K -> fov_ok C k fov ->
  hw_updateMap qn K W (cT C) now k fov sched m = Some m' ->
  (scan_updates C m K W k fov c ->
     exists i applies, scan_stops C m K W (cT C - 1) c i applies /\
       hw_get qn C m' c = if applies then scan_applied C m K W i c else hw_get qn C m c) /\
  (~ scan_updates C m K W k fov c -> hw_get qn C m' c = hw_get qn C m c).
Proof.
  intros C m K W now k fov sched m' c [HT _] _ Hth Hf E.
  destruct (updateMap_field C HT K W Hth m now k fov sched m' c Hf E) as [U1 U2]. split; [|exact U2].
  intros H. destruct (U1 H) as (i & b & S1 & S2 & _). exists i, b. split; assumption.
Qed.
(** The stopping node is unique and contains the cell, so the effect is a function of the scan and of the map. *)
Theorem C41_stop_unique : forall C m K W h c i b i' b', 0 <= i_th K -> 0 <= h ->
  scan_stops C m K W h c i b -> scan_stops C m K W h c i' b' -> i = i' /\ b = b' /\ in_node i c = true /\ 0 <= oh i <= h.
Proof.
  intros C m K W h c i b i' b' Hth Hh H H'. destruct (stops_unique C K W m h c i b H i' b' H') as [A B].
  destruct (stops_in C K W Hth m h c i b H Hh). repeat split; try assumption; lia.
Qed.
(** At the finest resolution the new value is exactly the clamped sum of the old value and the sample. *)
Theorem C41_finest_exact : forall C m K W now k fov sched m' c,
  valid_config C -> hw_state C m -> 0 <= i_th K -> fov_ok C k fov ->
  hw_updateMap qn K W (cT C) now k fov sched m = Some m' ->
  scan_updates C m K W k fov c -> scan_stops C m K W (cT C - 1) c (cell c) true ->
  hw_get qn C m' c = clampq (i_plo K) (i_phi K) (hw_get qn C m c + o_sample W (cell c))%Qc.
Proof.
  intros C m K W now k fov sched m' c HC Hm Hth Hf E Hu Hs.
  destruct (C41_scan_effect C m K W now k fov sched m' c HC Hm Hth Hf E) as [U _]. destruct (U Hu) as (i & b & S1 & S2).
  destruct (stops_unique C K W m _ c _ _ Hs _ _ S1) as [<- <-]. rewrite S2. unfold scan_applied, applied.
  replace (i_th K <? oh (cell c)) with false by (symmetry; apply Z.ltb_ge; exact Hth). cbn [andb].
  unfold cell. rewrite node_mean_cell. ring.
Qed.
(** All interleavings of the block tasks give the same map. *)
Theorem C41_schedule_independent : forall C m K W now k fov sched1 sched2 m1 m2,
  valid_config C -> hw_state C m -> 0 <= i_th K ->
  hw_updateMap qn K W (cT C) now k fov sched1 m = Some m1 -> hw_updateMap qn K W (cT C) now k fov sched2 m = Some m2 ->
  forall b, getBlock m1 b = getBlock m2 b.
Proof.
  intros C m K W now k fov s1 s2 m1 m2 [HT _] _ Hth E1 E2 b.
  apply updateMap_spec in E1 as [E1 _]; [|exact Hth|lia]. apply updateMap_spec in E2 as [E2 _]; [|exact Hth|lia].
  rewrite E1, E2. reflexivity.
Qed.
(** No two tasks work on the same block. *)
Theorem C41_tasks_disjoint : forall C m K W k fov,
  valid_config C -> hw_state C m -> NoDup fov -> fov_ok C k fov -> NoDup (um_blocks qn K W m k fov).
Proof. intros C m K W k fov [HT _] _ Hn Hf. apply um_blocks_nodup with (C := C); assumption. Qed.
(** Every task finishes within 2 * 8^tree_height iterations, so every fair schedule completes the scan. *)
Lemma cost_bound k : (cost k + 2 <= 2 * 8 ^ k)%nat.
Proof. induction k as [|k IH]; [reflexivity|]. cbn [cost]. rewrite Nat.pow_succ_r'. lia. Qed.
Theorem C41_terminates : forall C m K W now k fov sched,
  valid_config C -> hw_state C m -> 0 <= i_th K ->
  (forall j, (j < length (um_blocks qn K W m k fov))%nat -> (2 * 8 ^ Z.to_nat (cT C) <= count_occ Nat.eq_dec sched j)%nat) ->
  exists m', hw_updateMap qn K W (cT C) now k fov sched m = Some m'.
Proof.
  intros C m K W now k fov sched [HT _] _ Hth H. apply updateMap_total; [exact Hth|lia|].
  intros j Hj. specialize (H j Hj). pose proof (cost_bound (Z.to_nat (cT C))). lia.
Qed.
(** The effect on a cell depends only on the block that contains it. *)
Theorem C41_local : forall C m1 m2 K W now1 now2 k fov sched1 sched2 m1' m2' c,
  valid_config C -> hw_state C m1 -> hw_state C m2 -> 0 <= i_th K -> fov_ok C k fov ->
  getBlock m1 (indexToBlockIndex3 c (cT C)) = getBlock m2 (indexToBlockIndex3 c (cT C)) ->
  hw_updateMap qn K W (cT C) now1 k fov sched1 m1 = Some m1' -> hw_updateMap qn K W (cT C) now2 k fov sched2 m2 = Some m2' ->
  hw_get qn C m1' c = hw_get qn C m2' c.
Proof.
  intros C m1 m2 K W now1 now2 k fov s1 s2 m1' m2' c [HT _] _ _ Hth Hf Eb E1 E2.
  rewrite indexToBlockIndex3_spec in Eb by lia.
  apply updateMap_spec in E1 as [E1 _]; [|exact Hth|lia]. apply updateMap_spec in E2 as [E2 _]; [|exact Hth|lia].
  specialize (E1 (block_of C c)). specialize (E2 (block_of C c)).
  assert (T1 : tree_at m1 (block_of C c) = tree_at m2 (block_of C c)) by (unfold tree_at; rewrite Eb; reflexivity).
  assert (Sel : In (block_of C c) (um_blocks qn K W m1 k fov) <-> In (block_of C c) (um_blocks qn K W m2 k fov)).
  { rewrite !(um_blocks_spec C HT K W _ k fov c Hf). unfold block_updated. rewrite !node_of_anc.
    rewrite !anc_mean by lia. unfold hw_hasBlockAt. rewrite !block_anc by lia. unfold hasBlock. rewrite Eb, T1. reflexivity. }
  change (hw_field C m1' c = hw_field C m2' c). rewrite !hw_field_spec by lia. f_equal. unfold tree_at. rewrite E1, E2.
  destruct (in_dec _ _ _) as [H1|H1], (in_dec _ _ _) as [H2|H2]; [|exfalso; tauto|exfalso; tauto|exact T1].
  - unfold block_after, block_result. cbn [btree]. rewrite !blockOrNew_tree, T1.
    destruct (upd _ _ _ _ _ _) as [[n s] g]. reflexivity.
Qed.

(** ** A concrete scan *)
(** tree height 3, two blocks, one cell edited before; the scan sees a surface near cell (1,1,1) *)
Definition exK : iconst Qc := IC 0 (- Q2Qc 2 - Q2Qc (13743895 # 137438953472))%Qc (Q2Qc 4 + Q2Qc (13743895 # 137438953472))%Qc (- Q2Qc 2 + Q2Qc (13743895 # 1374389534720))%Qc.
Definition exW : oracle Qc := Oracle
  (fun i => if in_node i (I3 1 1 1) then kPossiblyOccupied else if in_node (OI 3 (I3 0 0 0)) (imap (fun x => x * 2 ^ oh i) (opos i)) then kFullyFree else kFullyUnobserved)
  (fun i => if in_node i (I3 1 1 1) then Q2Qc (3 # 2) else Q2Qc (- 1 # 2))
  (fun i => (1 <=? oh i) && negb (in_node i (I3 1 1 1))).
Definition exm : hmap := hw_run exC [(1, HAdd (I3 1 1 1) (Q2Qc 3)); (2, HAdd (I3 6 6 6) (Q2Qc 4)); (3, HAdd (I3 (-1) 0 0) (Q2Qc 1))].
Definition exfov : list oidx := [OI 4 (I3 (-1) 0 0); OI 4 (I3 0 0 0)].
Definition exsched : list nat := repeat 0%nat 40.
Lemma exm_state : hw_state exC exm.
Proof. apply hw_state_run. Qed.
Example C41_ex : exists m', hw_updateMap qn exK exW 3 9 1 exfov exsched exm = Some m' /\
  map (fun c => this (hw_get qn exC m' c)) [I3 1 1 1; I3 0 1 1; I3 3 3 3; I3 6 6 6; I3 (-1) 0 0] =
  [this (Q2Qc 4 + Q2Qc (13743895 # 137438953472))%Qc; (-1 # 2); (-1 # 2); (7 # 2); 1]%Q /\
  hw_subdivided exC exm (OI 2 (I3 1 1 1)) = true /\
  map (fun c => this (hw_get qn exC exm c)) [I3 1 1 1; I3 0 1 1; I3 3 3 3; I3 6 6 6; I3 (-1) 0 0] = [3; 0; 0; 4; 1]%Q /\
  map (@length _) [um_blocks qn exK exW exm 1 exfov] = [1%nat].
Proof. eexists. split; [vm_compute; reflexivity|]. vm_compute. repeat split; reflexivity. Qed.
Example C41_ex_hyps : valid_config exC /\ hw_state exC exm /\ 0 <= i_th exK /\ fov_ok exC 1 exfov /\ NoDup exfov.
Proof.
  split; [exact exC_valid|]. split; [exact exm_state|]. split; [cbn; lia|]. split.
  - intros i [<-|[<-|[]]]; reflexivity.
  - repeat constructor; cbn [In]; [intros [H|[]]; discriminate H|intros []].
Qed.
(** The hypotheses of C41_finest_exact are met at cell (1,1,1). *)
Example C41_ex_finest : scan_updates exC exm exK exW 1 exfov (I3 1 1 1) /\ scan_stops exC exm exK exW 2 (I3 1 1 1) (cell (I3 1 1 1)) true.
Proof.
  split.
  - split; [right; left; reflexivity|]. split; [|left; reflexivity]. intros h Hh H.
    assert (h = 3 \/ h = 4) as [-> | ->] by (change (cT exC) with 3 in Hh; lia); discriminate H.
  - assert (NS : forall h, 0 < h <= 2 -> ~ skip (o_type exW) (i_slo exK) (hw_get qn exC exm) (node_of (I3 1 1 1) h)).
    { intros h Hh. assert (h = 1 \/ h = 2) as [-> | ->] by lia; (intros [H|[H _]]; [discriminate H|apply H; reflexivity]). }
    apply stop_below; [cbn; lia|apply NS; lia|reflexivity|]. apply stop_below; [cbn; lia|apply NS; cbn; lia|reflexivity|].
    apply stop_bottom. cbn. lia.
Qed.

(** Observed free space is not recorded where no block exists yet: a scan that says "free" everywhere leaves an
    empty map empty. *)
Theorem C41_free_space_recorded_refuted : exists C K W now k fov sched m m' c,
  valid_config C /\ hw_state C m /\ 0 <= i_th K /\ fov_ok C k fov /\
  hw_updateMap qn K W (cT C) now k fov sched m = Some m' /\
  (forall i, o_type W i = kFullyFree) /\ (forall i, o_accept W i = true) /\ (forall i, o_sample W i = (- Q2Qc 1)%Qc) /\
  In (node_of c (cT C + Z.of_nat k)) fov /\ hw_get qn C m' c = 0%Qc.
Proof.
  exists exC, exK, (Oracle (fun _ => kFullyFree) (fun _ => (- Q2Qc 1)%Qc) (fun _ => true)), 9, 1%nat, exfov, [], [], [], (I3 1 1 1).
  split; [exact exC_valid|]. split; [constructor|]. split; [cbn; lia|]. split; [apply C41_ex_hyps|].
  split; [vm_compute; reflexivity|]. repeat (split; [intros; reflexivity|]). split; [right; left; reflexivity|reflexivity].
Qed.

(** * C41 for WaveletIntegrator: the clamp is computed from the root's mean instead of the node's value *)
(** A cell at the upper end of the range is moved beyond the padded range by a positive sample. *)
Theorem C41_plain_clamped_refuted : exists C t K W c,
  valid_config C /\ plain_reachable C t /\ i_th K = 0 /\ in_octree (cT C) (cell c) /\ (forall i, o_accept W i = false) /\
  (i_plo K <= wo_get qn C t (cell c) <= i_phi K)%Qc /\
  ~ (wo_get qn C (wo_updateMap qn K W (cT C) t) (cell c) <= i_phi K)%Qc.
Proof.
  exists exC, (wo_run exC [CAdd (OI 0 (I3 1 1 1)) (Q2Qc 4)]), exK, (Oracle (fun _ => kPossiblyOccupied) (fun _ => Q2Qc 1) (fun _ => false)), (I3 1 1 1).
  split; [exact exC_valid|]. split; [exists [CAdd (OI 0 (I3 1 1 1)) (Q2Qc 4)]; split; [fall|reflexivity]|].
  split; [reflexivity|]. split; [inoct|]. split; [reflexivity|]. split.
  - split; vm_compute; discriminate.
  - vm_compute. intros H. apply H. reflexivity.
Qed.
Print Assumptions C41_scan_effect.
Print Assumptions C41_stop_unique.
Print Assumptions C41_finest_exact.
Print Assumptions C41_schedule_independent.
Print Assumptions C41_tasks_disjoint.
Print Assumptions C41_terminates.
Print Assumptions C41_local.
Print Assumptions C41_free_space_recorded_refuted.
Print Assumptions C41_plain_clamped_refuted.
