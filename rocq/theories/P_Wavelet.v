(** Property theorems C10-C18, C20, C42, C49 for WaveletOctree (plain) and HashedWaveletOctree, in
    exact arithmetic. States are those reachable by running any history of API calls (M_WavHist.v);
    the specification vocabulary (fields, in_node, node_mean, ...) is in S_Field.v. *)
From Verif Require Import Base M_IntMath F_IntMath M_NdtreeIndex M_Num F_Num M_Haar3 M_Ndtree S_Field F_Hash M_Wavelet F_Wavelet
  F_Wavelet2 F_Leaves F_WavTree F_WavMap F_WavHash M_WavHist F_WavHist.
From Coq Require Import QArith Qcanon Qcabs Lqa.
Close Scope Qc_scope.
Close Scope Q_scope.
Open Scope Z_scope.

(** A configuration the code accepts, restricted to trees whose Morton codes fit 64 bits (T <= 21). *)
Definition valid_config (C : wconfig (V := Qc)) : Prop := 1 <= cT C <= 21 /\ (clo C < chi C)%Qc.
(** Calls that address nodes the plain octree can store. *)
Definition call_ok (C : wconfig (V := Qc)) (c : call) : Prop :=
  match c with CSet i _ | CAdd i _ => in_octree (cT C) i | _ => True end.
(** All plain octree states that API calls can produce. *)
Definition plain_reachable (C : wconfig) (t : wtree) : Prop :=
  exists l, Forall (call_ok C) l /\ t = wo_run C l.
Definition hashed_reachable (C : wconfig) (m : shash wblock) : Prop := exists l, m = hw_run C l.
Definition cell (c : idx3) : oidx := OI 0 c.

Lemma plain_ok C t : valid_config C -> plain_reachable C t -> tree_ok (cT C) t.
Proof.
  intros [HT _] (l & Hl & ->). apply wo_run_ok; [assumption|]. eapply Forall_impl; [|exact Hl].
  intros c Hc. destruct c; exact Hc || exact I.
Qed.
Lemma hashed_ok C m : valid_config C -> hashed_reachable C m -> hw_ok C m.
Proof. intros [HT Hlh] (l & ->). apply hw_run_ok; [assumption|]. apply Qclt_le_weak. assumption. Qed.

Ltac inoct := vm_compute; repeat (split || reflexivity || (intros; discriminate)).
Ltac fall := repeat first [apply Forall_nil | apply Forall_cons; [inoct|]].
(** A small concrete configuration and histories used by the examples. *)
Definition exC : wconfig (V := Qc) := WC 3 (- Q2Qc 2)%Qc (Q2Qc 4).
Definition exl : list call :=
  [CAdd (OI 0 (I3 1 (-2) 3)) (Q2Qc 8); CAdd (OI 1 (I3 0 (-1) 1)) (Q2Qc 1); CThreshold; CSet (OI 0 (I3 0 (-1) 2)) (Q2Qc (-3))].
Lemma exC_valid : valid_config exC.
Proof. split; [cbn; lia|reflexivity]. Qed.
Lemma exl_ok : Forall (call_ok exC) exl.
Proof. fall. Qed.
Definition exh : list (Z * hcall) :=
  [(1, HAdd (I3 1 (-2) 3) (Q2Qc 8)); (2, HAdd (I3 9 9 9) (Q2Qc (-7))); (3, HThreshold); (5, HSet (I3 0 (-1) 2) (Q2Qc (-3)))].

(** * C10: cell updates of the plain octree *)
(** addToCellValue(i,u) changes the cells of node i by exactly u and no other cell. *)
Theorem C10_add_exact : forall C t i u c,
  valid_config C -> plain_reachable C t -> in_octree (cT C) i -> in_octree (cT C) (cell c) ->
  wo_get qn C (wo_add qn C t i u) (cell c) =
  if in_node i c then (wo_get qn C t (cell c) + u)%Qc else wo_get qn C t (cell c).
Proof. intros C t i u c [HT _] _ Hi Hc. exact (wo_add_field C t i u c HT Hi Hc). Qed.
(** setCellValue(i,v) leaves every cell outside node i unchanged. *)
Theorem C10_set_frame : forall C t i v c,
  valid_config C -> plain_reachable C t -> in_octree (cT C) i -> in_octree (cT C) (cell c) -> in_node i c = false ->
  wo_get qn C (wo_set qn C t i v) (cell c) = wo_get qn C t (cell c).
Proof.
  intros C t i v c [HT _] _ Hi Hc Hn. pose proof (wo_update_cell C t i (fun cur => nsub qn v cur) c HT Hi Hc) as E.
  unfold fadd in E. rewrite Hn in E. exact E.
Qed.
(** What setCellValue does to the cells of the node: it adds v minus the mean of the PARENT node. *)
Theorem C10_set_effect : forall C t i v c,
  valid_config C -> plain_reachable C t -> in_octree (cT C) i -> oh i + 1 < cT C -> in_node i c = true ->
  wo_get qn C (wo_set qn C t i v) (cell c) =
  (wo_get qn C t (cell c) + (v - node_mean (fun c => wo_get qn C t (cell c)) (parent_node i)))%Qc.
Proof.
  intros C t i v c [HT _] _ Hi Hh Hc.
  pose proof (wo_set_field C t i v c HT Hi Hh (in_node_cell C i c Hi Hc)) as E.
  unfold fset_parent, fadd in E. rewrite Hc in E. exact E.
Qed.
(** Read-back therefore holds exactly when the node's mean equals its parent's (e.g. both unobserved). *)
Theorem C10_set_readback_partial : forall C t i v,
  valid_config C -> plain_reachable C t -> in_octree (cT C) i -> oh i + 1 < cT C ->
  (wo_get qn C (wo_set qn C t i v) i = v <-> wo_get qn C t i = wo_get qn C t (parent_node i)).
Proof.
  intros C t i v [HT Hlh] Hr Hi Hh. pose proof Hi as [Hi0 _].
  assert (E : wo_get qn C (wo_set qn C t i v) i = (wo_get qn C t i + (v - wo_get qn C t (parent_node i)))%Qc).
  { unfold wo_set, wt_set, wo_get. rewrite wt_update_self by (rewrite ?wo_toInternal_oh; lia). cbn [nsub qn].
    rewrite wo_ref_value by lia. rewrite <- (wo_node_mean C t (parent_node i)) by (cbn [parent_node oh]; lia). reflexivity. }
  rewrite E. split; intros H.
  - revert H. generalize (wo_get qn C t i), (wo_get qn C t (parent_node i)). intros a b H. transitivity (a + (v - b) - v + b)%Qc; [ring|rewrite H; ring].
  - rewrite H. ring.
Qed.
Theorem C10_set_readback_refuted : exists C t i v,
  valid_config C /\ plain_reachable C t /\ in_octree (cT C) i /\ oh i = 0 /\ wo_get qn C (wo_set qn C t i v) i <> v.
Proof.
  (* set a cell to 1 twice: the second call moves it to 1 + 7/8 *)
  exists exC, (wo_run exC [CSet (OI 0 (I3 1 (-2) 3)) (Q2Qc 1)]), (OI 0 (I3 1 (-2) 3)), (Q2Qc 1).
  split; [exact exC_valid|]. split; [|split; [inoct|split; [reflexivity|]]].
  - exists [CSet (OI 0 (I3 1 (-2) 3)) (Q2Qc 1)]. split; [|reflexivity]. fall.
  - intros H. apply (f_equal this) in H. vm_compute in H. discriminate H.
Qed.
Example C10_ex : let t := wo_run exC exl in
  map (fun c => this (wo_get qn exC t (cell c))) [I3 1 (-2) 3; I3 0 (-1) 2; I3 0 (-2) 2; I3 2 (-2) 2] =
  [4; (-27 # 8); 1; 0]%Q /\
  map (fun c => this (wo_get qn exC (wo_set qn exC t (OI 0 (I3 2 (-2) 2)) (Q2Qc 5)) (cell c))) [I3 1 (-2) 3; I3 2 (-2) 2] = [4; 5]%Q.
Proof. vm_compute. split; reflexivity. Qed.
Print Assumptions C10_add_exact.
Print Assumptions C10_set_frame.
Print Assumptions C10_set_effect.
Print Assumptions C10_set_readback_partial.
Print Assumptions C10_set_readback_refuted.

(** * C11: cell updates of the hashed map (any cell of the unbounded grid, blocks allocated lazily) *)
Theorem C11_add_exact : forall C m now i u c,
  valid_config C -> hashed_reachable C m ->
  hw_get qn C (hw_add qn C now m i u) c =
  if idx3_eq_dec c i then (hw_get qn C m c + u)%Qc else hw_get qn C m c.
Proof.
  intros C m now i u c [HT _] _. pose proof (hw_add_field C m now i u c HT) as E. unfold fadd in E.
  rewrite in_node_0 in E. destruct (ieqb_spec i c), (idx3_eq_dec c i); try congruence; exact E.
Qed.
Theorem C11_set_frame : forall C m now i v c,
  valid_config C -> hashed_reachable C m -> c <> i ->
  hw_get qn C (hw_set qn C now m i v) c = hw_get qn C m c.
Proof.
  intros C m now i v c [HT _] _ Hne. pose proof (hw_set_field C m now i v c HT) as E. unfold fset_parent, fadd in E.
  rewrite in_node_0 in E. destruct (ieqb_spec i c); [congruence|exact E].
Qed.
Theorem C11_set_effect : forall C m now i v,
  valid_config C -> hashed_reachable C m ->
  hw_get qn C (hw_set qn C now m i v) i =
  (hw_get qn C m i + (v - node_mean (hw_get qn C m) (parent_node (cell i))))%Qc.
Proof.
  intros C m now i v [HT _] _. pose proof (hw_set_field C m now i v i HT) as E. unfold fset_parent, fadd in E.
  rewrite in_node_0, ieqb_refl in E. exact E.
Qed.
Theorem C11_set_readback_partial : forall C m now i v,
  valid_config C -> hashed_reachable C m ->
  (hw_get qn C (hw_set qn C now m i v) i = v <->
   hw_get qn C m i = hw_get_node qn C m (parent_node (cell i))).
Proof.
  intros C m now i v HC Hr. rewrite (C11_set_effect C m now i v HC Hr). destruct HC as [HT _].
  rewrite (hw_node_mean C m (parent_node (cell i)) HT) by (cbn; lia). change (fun c => hw_get qn C m c) with (hw_field C m).
  change (hw_get qn C m) with (hw_field C m).
  split; intros H.
  - revert H. generalize (hw_field C m i), (node_mean (hw_field C m) (parent_node (cell i))). intros a b H. transitivity (a + (v - b) - v + b)%Qc; [ring|rewrite H; ring].
  - rewrite H. ring.
Qed.
Theorem C11_set_readback_refuted : exists C m now i v,
  valid_config C /\ hashed_reachable C m /\ hw_get qn C (hw_set qn C now m i v) i <> v.
Proof.
  exists exC, (hw_run exC [(1, HSet (I3 (-1) 7 12) (Q2Qc 1))]), 2, (I3 (-1) 7 12), (Q2Qc 1).
  split; [exact exC_valid|]. split; [eexists; reflexivity|].
  intros H. apply (f_equal this) in H. vm_compute in H. discriminate H.
Qed.
Example C11_ex : let m := hw_run exC exh in
  map (fun c => this (hw_get qn exC m c)) [I3 1 (-2) 3; I3 9 9 9; I3 0 (-1) 2; I3 0 0 0] = [4; -2; (-7 # 2); 0]%Q /\
  length m = 2%nat.
Proof. vm_compute. split; reflexivity. Qed.
Print Assumptions C11_add_exact.
Print Assumptions C11_set_frame.
Print Assumptions C11_set_effect.
Print Assumptions C11_set_readback_partial.
Print Assumptions C11_set_readback_refuted.

(** * C12: log-odds accumulate *)
Lemma frun_adds lo hi (l : list (oidx * Qc)) c :
  frun lo hi (map (fun iu => FAdd (fst iu) (snd iu)) l) c = increments_at l c.
Proof.
  unfold frun. assert (G : forall f, fold_left (fapply lo hi) (map (fun iu => FAdd (fst iu) (snd iu)) l) f c = (f c + increments_at l c)%Qc).
  { induction l as [|[i u] l IH]; intros f; cbn [map fold_left increments_at fst snd].
    - symmetry. apply Qcplus_0_r.
    - rewrite IH. cbn [fapply]. unfold fadd. destruct (in_node i c); ring. }
  rewrite G. unfold fzero. ring.
Qed.
Theorem C12_plain_accumulates : forall C (l : list (oidx * Qc)) c,
  valid_config C -> Forall (fun iu => in_octree (cT C) (fst iu)) l -> in_octree (cT C) (cell c) ->
  wo_get qn C (wo_run C (map (fun iu => CAdd (fst iu) (snd iu)) l)) (cell c) = increments_at l c.
Proof.
  intros C l c [HT _] Hl Hc. rewrite <- (frun_adds (clo C) (chi C)).
  rewrite <- (wo_run_field C) with (3 := Hc); [|assumption|].
  - rewrite map_map. reflexivity.
  - apply Forall_map. eapply Forall_impl; [|exact Hl]. intros [i u] Hi. split; [exact Hi|exact I].
Qed.
Theorem C12_hashed_accumulates : forall C (l : list (Z * idx3 * Qc)) c,
  valid_config C ->
  hw_get qn C (hw_run C (map (fun x => let '(now, i, u) := x in (now, HAdd i u)) l)) c =
  increments_at (map (fun x => let '(_, i, u) := x in (cell i, u)) l) c.
Proof.
  intros C l c [HT _]. rewrite <- (frun_adds (clo C) (chi C)). revert c.
  induction l as [|[[now i] u] l IH] using rev_ind; intros c.
  - unfold hw_run, frun. cbn [map fold_left]. reflexivity.
  - rewrite !map_app. rewrite hw_run_app. unfold frun. rewrite fold_left_app.
    fold (frun (clo C) (chi C) (map (fun iu => FAdd (fst iu) (snd iu)) (map (fun x => let '(_, i, u) := x in (cell i, u)) l))).
    cbn [map fold_left hw_apply fapply fst snd].
    etransitivity; [exact (hw_add_field C _ now i u c HT)|]. unfold fadd, cell in *. unfold hw_field at 1 2. rewrite IH. reflexivity.
Qed.
Example C12_ex : let l := [(cell (I3 1 1 1), Q2Qc 3); (OI 1 (I3 0 0 0), Q2Qc (-5)); (cell (I3 1 1 1), Q2Qc 4); (cell (I3 2 1 1), Q2Qc 9)] in
  Forall (fun iu => in_octree 3 (fst iu)) l /\ this (increments_at l (I3 1 1 1)) = 2%Q.
Proof. split; [fall|vm_compute; reflexivity]. Qed.
Print Assumptions C12_plain_accumulates.
Print Assumptions C12_hashed_accumulates.

(** * C13: coarse queries return averages; coarse updates shift all contained cells (C10_add_exact) *)
Theorem C13_plain_average : forall C t i,
  valid_config C -> plain_reachable C t -> 0 <= oh i < cT C ->
  wo_get qn C t i = node_mean (fun c => wo_get qn C t (cell c)) i.
Proof. intros C t i [HT _] _ Hi. exact (wo_node_mean C t i HT Hi). Qed.
Theorem C13_hashed_average : forall C m i,
  valid_config C -> hashed_reachable C m -> 0 <= oh i <= cT C ->
  hw_get_node qn C m i = node_mean (hw_get qn C m) i.
Proof. intros C m i [HT _] _ Hi. exact (hw_node_mean C m i HT Hi). Qed.
(** Both query overloads agree on cells. *)
Theorem C13_hashed_cell_query : forall C m c,
  valid_config C -> hashed_reachable C m -> hw_get_node qn C m (cell c) = hw_get qn C m c.
Proof. intros C m c [HT _] _. apply hw_get_node_cell. lia. Qed.
(** Adding at a node changes its own average, and that of each ancestor, accordingly. *)
Theorem C13_plain_add_shifts : forall C t i u,
  valid_config C -> plain_reachable C t -> in_octree (cT C) i ->
  (forall c, in_node i c = true -> wo_get qn C (wo_add qn C t i u) (cell c) = (wo_get qn C t (cell c) + u)%Qc) /\
  wo_get qn C (wo_add qn C t i u) i = (wo_get qn C t i + u)%Qc.
Proof.
  intros C t i u [HT Hlh] Hr Hi. split.
  - intros c Hc. rewrite C10_add_exact; [rewrite Hc; reflexivity|split; assumption|assumption|assumption|].
    exact (in_node_cell C i c Hi Hc).
  - unfold wo_add, wt_add, wo_get. destruct Hi as [Hi _]. apply wt_update_self; rewrite ?wo_toInternal_oh; lia.
Qed.
Example C13_ex : let t := wo_run exC exl in
  this (wo_get qn exC t (OI 1 (I3 0 (-1) 1))) = (53 # 64)%Q /\ this (wo_get qn exC t (OI 2 (I3 0 (-1) 0))) = (53 # 512)%Q.
Proof. vm_compute. split; reflexivity. Qed.
Print Assumptions C13_plain_average.
Print Assumptions C13_hashed_average.
Print Assumptions C13_hashed_cell_query.
Print Assumptions C13_plain_add_shifts.

(** * C14: threshold *)
Theorem C14_plain_threshold : forall C t c,
  valid_config C -> plain_reachable C t ->
  wo_get qn C (wo_threshold qn C t) (cell c) = clampq (clo C) (chi C) (wo_get qn C t (cell c)).
Proof. intros C t c HC Hr. exact (wo_threshold_cell C t c (plain_ok C t HC Hr)). Qed.
(** For the hashed map: cells of allocated blocks are clamped, cells elsewhere keep reading 0. *)
Theorem C14_hashed_threshold : forall C m c,
  valid_config C -> hashed_reachable C m ->
  hw_get qn C (hw_threshold qn C m) c =
  if hasBlock m (hw_blockIndex C (cell c)) then clampq (clo C) (chi C) (hw_get qn C m c) else 0%Qc.
Proof.
  intros C m c HC Hr. pose proof (hashed_ok C m HC Hr) as [W H]. destruct HC as [HT Hlh].
  change (hw_get qn C (hw_threshold qn C m) c) with (hw_field C (hw_threshold qn C m) c).
  change (hw_get qn C m c) with (hw_field C m c). rewrite !hw_field_spec by lia.
  unfold cell. rewrite hw_blockIndex_spec by lia. rewrite Z.sub_0_r. fold (block_of C c).
  unfold tree_at, hasBlock, hw_threshold. rewrite getBlock_forEachBlock.
  destruct (getBlock m (block_of C c)) as [b|] eqn:E; cbn [option_map].
  - destruct (wb_threshold_ok C b (Qclt_le_weak _ _ Hlh) (H _ _ E)) as (_ & _ & Hc). rewrite Hc. symmetry. apply clampq_qclamp.
  - apply cellv_new. lia.
Qed.
Lemma clampq_range lo hi v : (lo < hi)%Qc -> (lo <= clampq lo hi v /\ clampq lo hi v <= hi)%Qc.
Proof. intros H. rewrite clampq_qclamp. apply qclamp_range. apply Qclt_le_weak. assumption. Qed.
(** So every value (also of coarse nodes) is in range, and thresholding again changes nothing. *)
Theorem C14_plain_range_idempotent : forall C t i,
  valid_config C -> plain_reachable C t -> 0 <= oh i < cT C ->
  let t' := wo_threshold qn C t in
  (clo C <= wo_get qn C t' i /\ wo_get qn C t' i <= chi C)%Qc /\ wo_threshold qn C t' = t'.
Proof.
  intros C t i HC Hr Hi. cbv zeta. pose proof (plain_ok C t HC Hr) as Ht. destruct HC as [HT Hlh].
  rewrite !wo_threshold_eq.
  assert (Hc : cells_in (clo C) (chi C) (cT C) (wt_threshold (clo C) (chi C) t)).
  { intros c. rewrite wt_threshold_cell by assumption. apply qclamp_range. apply Qclt_le_weak. assumption. }
  split.
  - unfold wo_get. apply (cells_in_node _ _ _ _ HT Hc). rewrite wo_toInternal_oh. lia.
  - apply (wt_threshold_id _ _ (cT C)); [apply wt_threshold_ok; assumption|assumption].
Qed.
Theorem C14_hashed_range_idempotent : forall C m i,
  valid_config C -> hashed_reachable C m -> 0 <= oh i <= cT C ->
  let m' := hw_threshold qn C m in
  (hasBlock m (hw_blockIndex C i) = true -> clo C <= hw_get_node qn C m' i /\ hw_get_node qn C m' i <= chi C)%Qc /\
  hw_threshold qn C m' = m'.
Proof.
  intros C m i HC Hr Hi. cbv zeta. pose proof (hashed_ok C m HC Hr) as [W H]. destruct HC as [HT Hlh]. split.
  - intros Hb. destruct i as [h p]. cbn [oh] in Hi. rewrite hw_get_node_spec by lia. rewrite hw_blockIndex_spec in Hb by lia.
    unfold tree_at, hw_threshold. rewrite getBlock_forEachBlock. unfold hasBlock in Hb.
    destruct (getBlock m _) as [b|] eqn:E; [|discriminate]. cbn [option_map].
    destruct (wb_threshold_ok C b (Qclt_le_weak _ _ Hlh) (H _ _ E)) as (_ & Hc & _).
    apply (cells_in_node _ _ _ _ HT Hc). cbn [oh]. lia.
  - unfold hw_threshold, forEachBlock. rewrite map_map. apply map_ext. intros [k b]. cbn [fst snd]. f_equal.
    pose proof (wb_threshold_thr C b) as E. unfold wb_threshold at 1. rewrite E. reflexivity.
Qed.
(** When the range contains 0 (the default configuration) this is clamping of the whole field. *)
Theorem C14_hashed_threshold_field : forall C m c,
  valid_config C -> hashed_reachable C m -> (clo C <= 0)%Qc -> (0 <= chi C)%Qc ->
  hw_get qn C (hw_threshold qn C m) c = clampq (clo C) (chi C) (hw_get qn C m c).
Proof. intros C m c HC Hr H0 H1. exact (hw_threshold_cell C m c (proj1 HC) H0 H1 (hashed_ok C m HC Hr)). Qed.
(** If the configured range does not contain 0 (the code accepts that), unallocated cells read 0, which
    is out of range, also after threshold(). *)
Theorem C14_range_without_zero_refuted : exists C m c,
  valid_config C /\ hashed_reachable C m /\ ~ (clo C <= hw_get qn C (hw_threshold qn C m) c)%Qc.
Proof.
  exists (WC 3 (Q2Qc 1) (Q2Qc 2)), [], (I3 0 0 0). split; [split; [cbn; lia|reflexivity]|]. split; [exists []; reflexivity|].
  intros H. vm_compute in H. apply H. reflexivity.
Qed.
Example C14_ex : let t := wo_run exC [CAdd (OI 0 (I3 1 (-2) 3)) (Q2Qc 8); CAdd (OI 1 (I3 0 (-1) 1)) (Q2Qc (-3))] in
  map (fun c => this (wo_get qn exC (wo_threshold qn exC t) (cell c))) [I3 1 (-2) 3; I3 0 (-1) 2; I3 2 2 2] = [4; -2; 0]%Q.
Proof. vm_compute. reflexivity. Qed.
Print Assumptions C14_plain_threshold.
Print Assumptions C14_hashed_threshold.
Print Assumptions C14_plain_range_idempotent.
Print Assumptions C14_hashed_range_idempotent.
Print Assumptions C14_hashed_threshold_field.
Print Assumptions C14_range_without_zero_refuted.

(** * C15: prune *)
(** The noise bound: tree_height levels can each drop details of magnitude at most eps = 1e-3 (rounded
    to float), which moves a cell by at most 19/8 eps; the hashed map also drops whole blocks whose
    only value is below eps. *)
Definition plain_prune_bound (T : Z) : Qc := (qz (T - 1) * (Q2Qc (19 # 8) * qeps))%Qc.
Definition hashed_prune_bound (T : Z) : Qc := (plain_prune_bound T + qeps)%Qc.
Theorem C15_plain_prune : forall C t c,
  valid_config C -> plain_reachable C t ->
  (Qcabs (wo_get qn C (wo_prune qn C t) (cell c) - clampq (clo C) (chi C) (wo_get qn C t (cell c))) <= plain_prune_bound (cT C))%Qc.
Proof. intros C t c HC Hr. exact (wo_prune_cell C t c (plain_ok C t HC Hr)). Qed.
(** On a thresholded map prune() keeps every value within the bound and in range, and a second prune()
    is the identity. *)
Theorem C15_plain_prune_thresholded : forall C t c,
  valid_config C -> plain_reachable C t ->
  let t0 := wo_threshold qn C t in
  (Qcabs (wo_get qn C (wo_prune qn C t0) (cell c) - wo_get qn C t0 (cell c)) <= plain_prune_bound (cT C))%Qc /\
  (clo C <= wo_get qn C (wo_prune qn C t0) (cell c) /\ wo_get qn C (wo_prune qn C t0) (cell c) <= chi C)%Qc.
Proof.
  intros C t c HC Hr. cbv zeta.
  assert (Hr0 : plain_reachable C (wo_threshold qn C t)).
  { destruct Hr as (l & Hl & ->). exists (l ++ [CThreshold]). split; [apply Forall_app; split; [assumption|repeat constructor]|].
    rewrite wo_run_app. reflexivity. }
  split.
  - pose proof (C15_plain_prune C _ c HC Hr0) as B. rewrite C14_plain_threshold in B by assumption.
    rewrite C14_plain_threshold by assumption.
    replace (clampq (clo C) (chi C) (clampq (clo C) (chi C) (wo_get qn C t (cell c)))) with
       (clampq (clo C) (chi C) (wo_get qn C t (cell c))) in B; [exact B|].
    destruct (clampq_range (clo C) (chi C) (wo_get qn C t (cell c)) (proj2 HC)).
    symmetry. rewrite (clampq_qclamp _ _ (clampq _ _ _)). apply qclamp_id; assumption.
  - pose proof (plain_ok C t HC Hr) as Ht. destruct HC as [HT Hlh]. unfold wo_get. rewrite wo_prune_eq, wo_threshold_eq.
    apply (cells_in_node _ _ (cT C)); [assumption| |cbn; lia].
    apply cells_in_prune; [assumption|]. intros x. rewrite wt_threshold_cell by (apply wt_threshold_ok; assumption).
    apply qclamp_range. apply Qclt_le_weak. assumption.
Qed.
Theorem C15_plain_prune_twice : forall C t,
  valid_config C -> plain_reachable C t -> wo_prune qn C (wo_prune qn C t) = wo_prune qn C t.
Proof.
  intros C t HC Hr. pose proof (plain_ok C t HC Hr) as Ht. destruct HC as [HT Hlh]. rewrite !wo_prune_eq.
  rewrite (wt_threshold_id _ _ (cT C) (wt_prune _)).
  - apply wt_prune_idem.
  - apply wt_prune_ok, wt_threshold_ok. assumption.
  - apply cells_in_prune; [assumption|]. intros x. rewrite wt_threshold_cell by assumption.
    apply qclamp_range. apply Qclt_le_weak. assumption.
Qed.
(** Hashed map: every cell stays within the bound of its previous value or, if its block was edited
    since the last prune, of its clamped previous value. *)
Theorem C15_hashed_prune : forall C m c,
  valid_config C -> hashed_reachable C m -> (clo C <= 0)%Qc -> (0 <= chi C)%Qc ->
  let v := hw_get qn C m c in let v' := hw_get qn C (hw_prune qn C m) c in
  (Qcabs (v' - v) <= hashed_prune_bound (cT C))%Qc \/
  (Qcabs (v' - clampq (clo C) (chi C) v) <= hashed_prune_bound (cT C))%Qc.
Proof.
  intros C m c HC Hr H0 H1. cbv zeta. pose proof (hashed_ok C m HC Hr) as Hok. destruct HC as [HT Hlh].
  pose proof (eraseIf_cell C m (wb_prune qn C) (fun b x => if bprn b then qclamp (clo C) (chi C) x else x) c HT Hok) as E.
  specialize (E (fun b Hb => wb_prune_cell C b c (Qclt_le_weak _ _ Hlh) Hb)). cbv beta in E.
  rewrite clampq_qclamp. destruct (getBlock m (block_of C c)) as [b|] eqn:G.
  - destruct (bprn b); [right|left]; exact E.
  - left. assert (Z0 : hw_get qn C m c = 0%Qc).
    { change (hw_field C m c = 0%Qc). rewrite hw_field_spec by lia. unfold tree_at. rewrite G. apply cellv_new. lia. }
    rewrite Z0. exact E.
Qed.
(** On a thresholded map that is simply the previous value. *)
Theorem C15_hashed_prune_thresholded : forall C m c,
  valid_config C -> hashed_reachable C m -> (clo C <= 0)%Qc -> (0 <= chi C)%Qc ->
  let m0 := hw_threshold qn C m in
  (Qcabs (hw_get qn C (hw_prune qn C m0) c - hw_get qn C m0 c) <= hashed_prune_bound (cT C))%Qc.
Proof.
  intros C m c HC Hr H0 H1. cbv zeta.
  assert (Hr0 : hashed_reachable C (hw_threshold qn C m)).
  { destruct Hr as (l & ->). exists (l ++ [(0, HThreshold)]). rewrite hw_run_app. reflexivity. }
  destruct (C15_hashed_prune C _ c HC Hr0 H0 H1) as [B|B]; [exact B|].
  rewrite (C14_hashed_threshold_field C m c) in * by assumption.
  destruct (clampq_range (clo C) (chi C) (hw_get qn C m c) (proj2 HC)).
  rewrite (clampq_qclamp _ _ (clampq _ _ _)) in B. rewrite qclamp_id in B by assumption. exact B.
Qed.
Theorem C15_hashed_prune_twice : forall C m,
  valid_config C -> hashed_reachable C m -> hw_prune qn C (hw_prune qn C m) = hw_prune qn C m.
Proof. intros C m HC Hr. apply hw_prune_idem. apply (hashed_ok C m HC Hr). Qed.
(** prune() is documented as lossless; it is not: it can change a cell (by up to the noise bound). *)
Theorem C15_prune_lossless_refuted : exists C t c,
  valid_config C /\ plain_reachable C t /\
  (clo C <= wo_get qn C t (cell c) /\ wo_get qn C t (cell c) <= chi C)%Qc /\
  wo_get qn C (wo_prune qn C t) (cell c) <> wo_get qn C t (cell c).
Proof.
  exists exC, (wo_run exC [CAdd (cell (I3 0 0 0)) (Q2Qc (1 # 5000))]), (I3 0 0 0).
  split; [exact exC_valid|]. split; [|split].
  - exists [CAdd (cell (I3 0 0 0)) (Q2Qc (1 # 5000))]. split; [|reflexivity]. fall.
  - split; vm_compute; discriminate.
  - intros H. apply (f_equal this) in H. vm_compute in H. discriminate H.
Qed.
Example C15_ex : let t := wo_run exC [CAdd (cell (I3 0 0 0)) (Q2Qc 1); CAdd (OI 2 (I3 0 0 0)) (Q2Qc 9)] in
  (nsize (wroot t) = 3%nat) /\ nsize (wroot (wo_prune qn exC t)) = 1%nat /\
  this (wo_get qn exC (wo_prune qn exC t) (cell (I3 0 0 0))) = 4%Q.
Proof. vm_compute. repeat split; reflexivity. Qed.
Print Assumptions C15_plain_prune.
Print Assumptions C15_plain_prune_thresholded.
Print Assumptions C15_plain_prune_twice.
Print Assumptions C15_hashed_prune.
Print Assumptions C15_hashed_prune_thresholded.
Print Assumptions C15_hashed_prune_twice.
Print Assumptions C15_prune_lossless_refuted.

(** * C16: the plain and the hashed wavelet octree are interchangeable *)
(** Any common sequence of set/add (of single cells inside the plain octree's cube), threshold and
    clear; the two maps may have different tree heights. *)
Inductive common_call := KSet (c : idx3) (v : Qc) | KAdd (c : idx3) (u : Qc) | KThreshold | KClear.
Definition k_plain (k : common_call) : call :=
  match k with KSet c v => CSet (cell c) v | KAdd c u => CAdd (cell c) u | KThreshold => CThreshold | KClear => CClear end.
Definition k_hashed (k : common_call) : hcall :=
  match k with KSet c v => HSet c v | KAdd c u => HAdd c u | KThreshold => HThreshold | KClear => HClear end.
Definition k_field (k : common_call) : fcall :=
  match k with KSet c v => FSet (cell c) v | KAdd c u => FAdd (cell c) u | KThreshold => FThreshold | KClear => FClear end.
Definition k_in (T : Z) (k : common_call) : Prop := match k with KSet c _ | KAdd c _ => in_octree T (cell c) | _ => True end.
Lemma plain_common CP l c : valid_config CP -> 2 <= cT CP -> Forall (k_in (cT CP)) l -> in_octree (cT CP) (cell c) ->
  wo_get qn CP (wo_run CP (map k_plain l)) (cell c) = frun (clo CP) (chi CP) (map k_field l) c.
Proof.
  intros [HT _] H2 Hl Hc. rewrite <- (wo_run_field CP) with (3 := Hc); [|assumption|].
  - rewrite map_map. unfold wo_field, cell. do 2 f_equal. apply map_ext. intros []; reflexivity.
  - apply Forall_map. eapply Forall_impl; [|exact Hl]. intros k Hk. destruct k; cbn in *; (split; [exact Hk|]); try exact I; lia.
Qed.
Lemma hashed_common CH l times c : valid_config CH -> (clo CH <= 0)%Qc -> (0 <= chi CH)%Qc -> length times = length l ->
  hw_get qn CH (hw_run CH (combine times (map k_hashed l))) c = frun (clo CH) (chi CH) (map k_field l) c.
Proof.
  intros [HT _] H0 H1 Hl. apply (hw_run_field CH); try assumption.
  revert times Hl. induction l as [|k l IH]; intros [|t ts] Hl; try discriminate; cbn [map combine]; [constructor|].
  constructor; [destruct k; reflexivity|]. apply IH. injection Hl as Hl. exact Hl.
Qed.
Theorem C16_plain_hashed_same : forall CP CH l times,
  valid_config CP -> valid_config CH -> clo CP = clo CH -> chi CP = chi CH -> (clo CP <= 0)%Qc -> (0 <= chi CP)%Qc ->
  2 <= cT CP -> Forall (k_in (cT CP)) l -> length times = length l ->
  let t := wo_run CP (map k_plain l) in
  let m := hw_run CH (combine times (map k_hashed l)) in
  (forall c, in_octree (cT CP) (cell c) -> wo_get qn CP t (cell c) = hw_get qn CH m c) /\
  (forall i, in_octree (cT CP) i -> oh i <= cT CH -> wo_get qn CP t i = hw_get_node qn CH m i).
Proof.
  intros CP CH l times HP HH El Eh H0 H1 H2 Hl Ht. cbv zeta.
  assert (A : forall c, in_octree (cT CP) (cell c) -> wo_get qn CP (wo_run CP (map k_plain l)) (cell c) =
              hw_get qn CH (hw_run CH (combine times (map k_hashed l))) c).
  { intros c Hc. rewrite plain_common by assumption. rewrite hashed_common by (assumption || congruence).
    rewrite El, Eh. reflexivity. }
  split; [exact A|]. intros i Hi Hh. pose proof Hi as [Hi0 _].
  rewrite wo_node_mean by (try apply HP; lia). rewrite hw_node_mean by (try apply HH; lia).
  apply node_mean_ext; [lia|]. intros c Hc. apply A. exact (in_node_cell CP i c Hi Hc).
Qed.
Example C16_ex : let l := [KAdd (I3 1 (-2) 3) (Q2Qc 8); KThreshold; KSet (I3 0 (-1) 2) (Q2Qc (-3)); KSet (I3 0 (-1) 2) (Q2Qc 1)] in
  Forall (k_in 3) l /\
  this (wo_get qn exC (wo_run exC (map k_plain l)) (OI 1 (I3 0 (-1) 1))) = (23 # 128)%Q /\
  this (hw_get_node qn (WC 2 (- Q2Qc 2)%Qc (Q2Qc 4)) (hw_run (WC 2 (- Q2Qc 2)%Qc (Q2Qc 4)) (combine [1; 2; 3; 4] (map k_hashed l))) (OI 1 (I3 0 (-1) 1))) = (23 # 128)%Q.
Proof. split; [fall|vm_compute; split; reflexivity]. Qed.
Print Assumptions C16_plain_hashed_same.

(** * C17: leaf iteration *)
(** [fuel] only bounds the model's loop counter: enough fuel always gives a result (first part). *)
Theorem C17_plain_leaves : forall C t fuel,
  valid_config C -> plain_reachable C t -> (nsize (wroot t) <= fuel)%nat ->
  exists leaves, wo_forEachLeaf qn fuel C t = Some leaves /\
  (wt_empty qn t = true -> leaves = []) /\
  (wt_empty qn t = false -> forall c, in_octree (cT C) (cell c) -> exactly_one leaves c (wo_get qn C t (cell c))).
Proof.
  intros C t fuel HC Hr Hf. pose proof (plain_ok C t HC Hr) as Ht.
  assert (X : exists l, wo_forEachLeaf qn fuel C t = Some l).
  { unfold wo_forEachLeaf. destruct (wt_leaves_total (cT C) t 0 (I3 0 0 0) fuel Hf) as [l ->]. eexists. reflexivity. }
  destruct X as [l E]. exists l. split; [exact E|]. split.
  - intros He. unfold wo_forEachLeaf, wt_forEachLeaf in E. rewrite He in E. cbn in E. congruence.
  - intros He c Hc. destruct (wo_leaves C t fuel l Ht Hf He E) as [L1 L2].
    apply exactly_one_covered; [intros i u Hin; apply (L1 i u Hin)|]. apply L2. exact Hc.
Qed.
Theorem C17_hashed_leaves : forall C m fuel,
  valid_config C -> hashed_reachable C m -> (forall b, (nsize (wroot (btree b)) <= fuel b)%nat) ->
  exists leaves, hw_forEachLeaf qn fuel C m = Some leaves /\
  forall c, match getBlock m (hw_blockIndex C (cell c)) with
            | Some b => if wb_empty qn b then forall i u, In (i, u) leaves -> in_node i c = false
                        else exactly_one leaves c (hw_get qn C m c)
            | None => forall i u, In (i, u) leaves -> in_node i c = false
            end.
Proof.
  intros C m fuel HC Hr Hf. pose proof (hashed_ok C m HC Hr) as Hok. destruct HC as [HT _].
  destruct (hw_leaves_total C m fuel Hf) as [l E]. exists l. split; [exact E|].
  destruct (hw_leaves C m fuel l HT Hok Hf E) as [L1 L2]. intros c. specialize (L2 c).
  unfold cell. rewrite hw_blockIndex_spec by lia. rewrite Z.sub_0_r. fold (block_of C c).
  assert (U : uncovered l c -> forall i u, In (i, u) l -> in_node i c = false).
  { intros Hu i u Hin. destruct (in_node i c) eqn:En; [|reflexivity]. exfalso.
    apply in_node_covers in En; [|apply (L1 i u Hin)]. apply (Hu i); [|assumption].
    apply in_map_iff. exists (i, u). auto. }
  destruct (getBlock m (block_of C c)) as [b|]; [destruct (wb_empty qn b)|]; try (apply U; exact L2).
  apply exactly_one_covered; [intros i u Hin; apply (L1 i u Hin)|exact L2].
Qed.
Example C17_ex : let t := wo_run exC exl in
  wt_empty qn t = false /\ option_map (@length _) (wo_forEachLeaf qn (nsize (wroot t)) exC t) = Some 22%nat.
Proof. vm_compute. split; reflexivity. Qed.
Print Assumptions C17_plain_leaves.
Print Assumptions C17_hashed_leaves.

(** * C18: map bounds *)
(** Plain octree: all observed cells (|value| >= eps, the classifier's definition) lie within. *)
Theorem C18_plain_bounds : forall C t fuel mn mx c,
  valid_config C -> plain_reachable C t -> (nsize (wroot t) <= fuel)%nat ->
  wo_minIndex qn fuel C t = Some mn -> wo_maxIndex qn fuel C t = Some mx -> in_octree (cT C) (cell c) ->
  (qeps <= Qcabs (wo_get qn C t (cell c)))%Qc -> ileq mn c /\ ileq c mx.
Proof. intros C t fuel mn mx c HC Hr. exact (wo_bounds C t fuel mn mx c (plain_ok C t HC Hr)). Qed.
(** Hashed map: all cells with a value other than 0 lie within. *)
Theorem C18_hashed_bounds : forall C l c,
  valid_config C -> Forall (fun tc => match snd tc with HSet i _ | HAdd i _ => i32_index i | _ => True end) l ->
  let m := hw_run C l in
  hw_get qn C m c <> 0%Qc -> ileq (hw_min_index C m) c /\ ileq c (hw_max_index C m).
Proof.
  intros C l c HC Hl m Hc. assert (Hok := hashed_ok C m HC (ex_intro _ l eq_refl)). destruct HC as [HT _].
  apply (hw_bounds C m c HT Hok); [|exact Hc]. apply hw_run_keys; [assumption|].
  eapply Forall_impl; [|exact Hl]. intros [now k] Hk. cbn [snd] in *.
  destruct k; cbn [hcall_i32]; try exact I; unfold i32_index, in_i32, int_min, int_max in *; lia.
Qed.
(** The plain octree leaves out non-zero cells that classify as unobserved. *)
Theorem C18_plain_nonzero_refuted : exists C t fuel mn c,
  valid_config C /\ plain_reachable C t /\ wo_minIndex qn fuel C t = Some mn /\
  wt_empty qn t = false /\ in_octree (cT C) (cell c) /\ wo_get qn C t (cell c) <> 0%Qc /\ ~ ileq mn c.
Proof.
  exists exC, (wo_run exC [CAdd (cell (I3 0 0 0)) (Q2Qc (1 # 5000))]), 10%nat, (I3 3 3 3), (I3 0 0 0).
  split; [exact exC_valid|]. split; [|split; [vm_compute; reflexivity|split; [vm_compute; reflexivity|split; [inoct|split]]]].
  - exists [CAdd (cell (I3 0 0 0)) (Q2Qc (1 # 5000))]. split; [|reflexivity]. fall.
  - intros H. apply (f_equal this) in H. vm_compute in H. discriminate H.
  - unfold ileq. cbn. lia.
Qed.
Example C18_ex : let t := wo_run exC exl in
  wo_minIndex qn 10 exC t = Some (I3 0 (-2) 2) /\ wo_maxIndex qn 10 exC t = Some (I3 1 (-1) 3) /\
  hw_min_index exC (hw_run exC exh) = I3 0 (-8) 0 /\ hw_max_index exC (hw_run exC exh) = I3 15 15 15.
Proof. vm_compute. repeat split; reflexivity. Qed.
Print Assumptions C18_plain_bounds.
Print Assumptions C18_hashed_bounds.
Print Assumptions C18_plain_nonzero_refuted.

(** * C20: fresh, cleared and empty maps *)
Theorem C20_plain_fresh : forall C i, valid_config C -> 0 <= oh i < cT C ->
  wo_get qn C (wt_new qn) i = 0%Qc /\ forall t, plain_reachable C t -> wo_get qn C (wo_clear qn t) i = 0%Qc.
Proof.
  intros C i [HT _] Hi. assert (E : wo_get qn C (wt_new qn) i = 0%Qc).
  { unfold wo_get. destruct (wo_toInternal (cT C) i) as [h p] eqn:Ei. apply wt_get_new; [|lia].
    apply (f_equal oh) in Ei. rewrite wo_toInternal_oh in Ei. cbn in Ei. lia. }
  split; [exact E|]. intros t _. exact E.
Qed.
Theorem C20_hashed_fresh : forall C i m, valid_config C -> hashed_reachable C m ->
  hw_get_node qn C [] i = 0%Qc /\ hw_get_node qn C (hw_clear m) i = 0%Qc /\
  (hw_empty m = true -> hw_get_node qn C m i = 0%Qc /\ forall c, hw_get qn C m c = 0%Qc).
Proof.
  intros C i m _ _. split; [reflexivity|]. split; [reflexivity|]. destruct m; [|discriminate]. intros _. split; reflexivity.
Qed.
(** empty() on the plain octree: every query returns one and the same value, below the threshold. *)
Theorem C20_plain_empty : forall C t i, valid_config C -> plain_reachable C t -> 0 <= oh i < cT C ->
  wt_empty qn t = true -> (Qcabs (wo_get qn C t i) < qeps)%Qc.
Proof.
  intros C t i [HT _] _ Hi He. unfold wo_get. destruct (wo_toInternal (cT C) i) as [h p] eqn:Ei.
  apply (f_equal oh) in Ei. rewrite wo_toInternal_oh in Ei. cbn in Ei.
  destruct (wt_empty_get (cT C) t h p He ltac:(lia) ltac:(lia)) as [-> H]. exact H.
Qed.
Example C20_ex : wt_empty qn (wo_run exC (exl ++ [CClear])) = true /\ wt_empty qn (wo_run exC exl) = false /\
  hw_empty (hw_run exC exh) = false.
Proof. vm_compute. repeat split; reflexivity. Qed.
Print Assumptions C20_plain_fresh.
Print Assumptions C20_hashed_fresh.
Print Assumptions C20_plain_empty.

(** * C49: pruneSmart *)
(** Blocks updated within the last max_age are untouched unless they are empty; all other blocks end up
    exactly as prune() would leave them. *)
Theorem C49_prune_smart : forall C m max_age now b,
  valid_config C -> hashed_reachable C m ->
  getBlock (hw_pruneSmart qn C max_age now m) b =
  match getBlock m b with
  | None => None
  | Some blk => if max_age <? now - bstamp blk then getBlock (hw_prune qn C m) b
                else if wb_empty qn blk then None else Some blk
  end.
Proof.
  intros C m age now b HC Hr. destruct (hashed_ok C m HC Hr) as [W _]. unfold hw_pruneSmart, hw_prune.
  rewrite !getBlock_eraseBlockIf by assumption. destruct (getBlock m b) as [blk|]; [|reflexivity]. cbn [fst snd].
  destruct (age <? now - bstamp blk); reflexivity.
Qed.
(** In particular no recently updated block changes any value by eps or more. *)
Theorem C49_recent_values_kept : forall C m max_age now c blk,
  valid_config C -> hashed_reachable C m -> getBlock m (hw_blockIndex C (cell c)) = Some blk ->
  now - bstamp blk <= max_age ->
  hw_get qn C (hw_pruneSmart qn C max_age now m) c = hw_get qn C m c \/
  (hw_get qn C (hw_pruneSmart qn C max_age now m) c = 0%Qc /\ (Qcabs (hw_get qn C m c) < qeps)%Qc).
Proof.
  intros C m age now c blk HC Hr Hb Ha. pose proof (C49_prune_smart C m age now (block_of C c) HC Hr) as E.
  destruct HC as [HT _]. unfold cell in Hb. rewrite hw_blockIndex_spec, Z.sub_0_r in Hb by lia. fold (block_of C c) in Hb.
  rewrite Hb in E. replace (age <? now - bstamp blk) with false in E by (symmetry; apply Z.ltb_ge; lia).
  change (hw_get qn C m c) with (hw_field C m c). change (hw_get qn C (hw_pruneSmart qn C age now m) c) with (hw_field C (hw_pruneSmart qn C age now m) c).
  rewrite !hw_field_spec by lia. unfold tree_at. rewrite E, Hb.
  destruct (wb_empty qn blk) eqn:Ee; [right|left; reflexivity].
  split; [apply cellv_new; lia|apply (wb_empty_cell C); [lia|assumption]].
Qed.
(** Every edit stamps its block with the time of the call. *)
Theorem C49_edits_refresh_stamp : forall C m now i v,
  valid_config C ->
  option_map bstamp (getBlock (hw_set qn C now m i v) (hw_blockIndex C (cell i))) = Some now /\
  option_map bstamp (getBlock (hw_add qn C now m i v) (hw_blockIndex C (cell i))) = Some now.
Proof.
  intros C m now i v [HT _]. unfold hw_set, hw_add, cell. cbv zeta. rewrite hw_blockIndex_spec, Z.sub_0_r by lia.
  fold (block_of C i). rewrite indexToBlockIndex3_spec by lia. rewrite !getBlock_setBlock, ieqb_refl. split; reflexivity.
Qed.
Example C49_ex : let m := hw_run exC [(1, HAdd (I3 0 0 0) (Q2Qc 1)); (1, HAdd (I3 0 0 0) (Q2Qc (-1)));
                                      (9, HAdd (I3 9 9 9) (Q2Qc 1)); (9, HAdd (I3 9 9 9) (Q2Qc (-1)))] in
  map fst (hw_pruneSmart qn exC 5 10 m) = [I3 1 1 1] /\ map fst (hw_prune qn exC m) = [].
Proof. vm_compute. split; reflexivity. Qed.
Print Assumptions C49_prune_smart.
Print Assumptions C49_recent_values_kept.
Print Assumptions C49_edits_refresh_stamp.
