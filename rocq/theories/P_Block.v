(** C86: one block of the hashed wavelet maps, used on its own: nodes of every height, limits, pruning, clearing. *)
From Verif Require Import Base M_IntMath F_IntMath M_Morton M_NdtreeIndex M_Num F_Num M_Haar3 M_Ndtree S_Field F_Hash M_Wavelet F_Wavelet F_Wavelet2
  F_WavTree F_WavMap F_WavHash M_WavHist F_WavHist M_Octree M_Chunked F_Chunked F_ChunkedSim F_ChunkedWav M_ChunkedHist F_ChunkedMap P_Wavelet.
From Coq Require Import QArith Qcanon Qcabs Lqa.
Close Scope Qc_scope.
Close Scope Q_scope.
Open Scope Z_scope.

(** ** Specification *)
(** The calls on a block: time stamps are passed to the calls that set the last-updated stamp *)
Inductive bcall := BSet (now : Z) (i : oidx) (v : Qc) | BAdd (now : Z) (i : oidx) (u : Qc) | BThreshold | BPrune | BClear (now : Z).
(** A node of a block of height [T]: from single cells (height 0) to the whole block (height T) *)
Definition node_of_block (T : Z) (i : oidx) : Prop :=
  0 <= oh i <= T /\ 0 <= px (opos i) < 2 ^ (T - oh i) /\ 0 <= py (opos i) < 2 ^ (T - oh i) /\ 0 <= pz (opos i) < 2 ^ (T - oh i).
Definition cell_of_block (T : Z) (c : idx3) : Prop := node_of_block T (OI 0 c).
Definition bcall_ok (T : Z) (c : bcall) : Prop := match c with BSet _ i _ | BAdd _ i _ => node_of_block T i | _ => True end.
(** What a user can see of a block: the values of its nodes, the two flags and the stamp *)
Record bview := BV { bv_node : oidx -> Qc; bv_thr : bool; bv_prn : bool; bv_stamp : Z }.
Definition bv_cell (v : bview) (c : idx3) : Qc := bv_node v (OI 0 c).
(** The largest change of a value by pruning (19/8 of the tolerance [qeps] of 1e-3 per level) *)
Definition prune_error (T : Z) : Qc := (qz (T - 1) * (Q2Qc (19 # 8) * qeps))%Qc.
(** The effect of a call; [lo], [hi] are the map's limits *)
Definition effect (T : Z) (lo hi : Qc) (a : bview) (c : bcall) (b : bview) : Prop :=
  let cells (g : idx3 -> Qc) := forall p, cell_of_block T p -> bv_cell b p = g p in
  match c with
  | BAdd now i u => cells (fun p => if in_node i p then (bv_cell a p + u)%Qc else bv_cell a p) /\ bv_thr b = true /\ bv_prn b = true /\ bv_stamp b = now
  | BSet now i v =>
      let reference := node_mean (bv_cell a) (if oh i =? T then i else parent_node i) in
      cells (fun p => if in_node i p then (bv_cell a p + (v - reference))%Qc else bv_cell a p) /\ bv_thr b = true /\ bv_prn b = true /\ bv_stamp b = now
  | BThreshold => cells (fun p => if bv_thr a then clampq lo hi (bv_cell a p) else bv_cell a p) /\ bv_thr b = false /\ bv_prn b = bv_prn a /\ bv_stamp b = bv_stamp a
  | BPrune => (forall p, cell_of_block T p -> if bv_prn a then (Qcabs (bv_cell b p - if bv_thr a then clampq lo hi (bv_cell a p) else bv_cell a p) <= prune_error T)%Qc
                                              else bv_cell b p = bv_cell a p) /\
              bv_thr b = (if bv_prn a then false else bv_thr a) /\ bv_prn b = false /\ bv_stamp b = bv_stamp a
  | BClear now => cells (fun _ => Q2Qc 0) /\ bv_thr b = bv_thr a /\ bv_prn b = bv_prn a /\ bv_stamp b = now
  end.
(** The two kinds of blocks as the calls leave them *)
Definition wb_apply (C : wconfig (V := Qc)) (b : wblock) (c : bcall) : wblock :=
  match c with
  | BSet now i v => wb_set qn C now b i v | BAdd now i u => wb_add qn C now b i u
  | BThreshold => wb_threshold qn C b | BPrune => wb_prune qn C b | BClear now => wb_clear qn now b
  end.
Definition cb_apply (fuel : nat) (C : wconfig (V := Qc)) (b : cblock) (c : bcall) : cblock :=
  match c with
  | BSet now i v => cb_set qn C now b i v | BAdd now i u => cb_add qn C now b i u
  | BThreshold => cb_threshold qn fuel C b | BPrune => cb_prune qn fuel C b | BClear now => cb_clear qn now b
  end.
Definition wb_after C t0 l := fold_left (wb_apply C) l (wb_new qn t0).
Definition cb_after fuel C t0 l := fold_left (cb_apply fuel C) l (cb_new qn t0).
Definition wb_view (C : wconfig (V := Qc)) (b : wblock) : bview := BV (wb_get qn C b) (bthr b) (bprn b) (bstamp b).
Definition cb_view (C : wconfig (V := Qc)) (b : cblock) : bview := BV (cb_get qn (cT C) (cbtree b)) (cbthr b) (cbprn b) (cbstamp b).
(** Views that a user cannot tell apart *)
Definition same_view (T : Z) (a b : bview) : Prop :=
  (forall i, node_of_block T i -> bv_node a i = bv_node b i) /\ bv_thr a = bv_thr b /\ bv_prn a = bv_prn b /\ bv_stamp a = bv_stamp b.

(** ** Proofs *)
Lemma wb_apply_ok C b c : 1 <= cT C <= 21 -> bcall_ok (cT C) c -> tree_ok (cT C) (btree b) -> tree_ok (cT C) (btree (wb_apply C b c)).
Proof.
  intros HT Hc Hb. destruct c as [now i v|now i u| | |now]; cbn [wb_apply bcall_ok] in *.
  - apply wt_update_ok; [apply Hc|exact Hb].
  - apply wt_update_ok; [apply Hc|exact Hb].
  - unfold wb_threshold. destruct (bthr b); [|exact Hb]. pose proof (wt_threshold_ok (cT C) (clo C) (chi C) _ Hb) as X. unfold wt_threshold in X.
    destruct (threshold_rec qn (clo C) (chi C) (wroot (btree b)) (wscale (btree b))). exact X.
  - unfold wb_prune. destruct (bprn b); [|exact Hb]. apply (wt_prune_ok (cT C) (btree (wb_threshold qn C b))).
    unfold wb_threshold. destruct (bthr b); [|exact Hb]. pose proof (wt_threshold_ok (cT C) (clo C) (chi C) _ Hb) as X. unfold wt_threshold in X.
    destruct (threshold_rec qn (clo C) (chi C) (wroot (btree b)) (wscale (btree b))). exact X.
  - apply tree_ok_new. exact HT.
Qed.
Lemma wb_after_ok C t0 l : 1 <= cT C <= 21 -> Forall (bcall_ok (cT C)) l -> tree_ok (cT C) (btree (wb_after C t0 l)).
Proof.
  intros HT. unfold wb_after. assert (B : tree_ok (cT C) (btree (wb_new qn t0))) by (apply tree_ok_new; exact HT). revert B. generalize (wb_new qn t0).
  induction l as [|c l IH]; intros b Hb Hl; [exact Hb|]. inversion Hl; subst. cbn [fold_left]. apply IH; [|assumption]. apply wb_apply_ok; assumption.
Qed.
Lemma wb_threshold_tree C b : btree (wb_threshold qn C b) = if bthr b then wt_threshold (clo C) (chi C) (btree b) else btree b.
Proof.
  unfold wb_threshold, wt_threshold. destruct (bthr b); [|reflexivity]. destruct (threshold_rec qn (clo C) (chi C) (wroot (btree b)) (wscale (btree b))). reflexivity.
Qed.
Lemma wb_threshold_flags C b : bthr (wb_threshold qn C b) = false /\ bprn (wb_threshold qn C b) = bprn b /\ bstamp (wb_threshold qn C b) = bstamp b.
Proof.
  unfold wb_threshold. destruct (bthr b) eqn:E; [|auto]. destruct (threshold_rec qn (clo C) (chi C) (wroot (btree b)) (wscale (btree b))). auto.
Qed.
Lemma node_mean_value T t i : 1 <= T <= 21 -> 0 <= oh i <= T -> wt_get qn T t i = node_mean (cellv T t) i.
Proof. intros HT Hi. symmetry. apply mean_of_sum; [lia|]. destruct i as [h p]. apply wt_node_mean; cbn [oh] in *; lia. Qed.
Lemma reference_value T t i : 1 <= T <= 21 -> node_of_block T i -> ref_value T t i = node_mean (cellv T t) (if oh i =? T then i else parent_node i).
Proof.
  intros HT (Hh & Hx & Hy & Hz). unfold ref_value. destruct (Z.eqb_spec (oh i) T) as [E|E].
  - rewrite <- node_mean_value by assumption. destruct i as [h p]. cbn [oh] in *. rewrite wt_get_eval by lia. subst h. rewrite Z.sub_diag. reflexivity.
  - rewrite <- node_mean_value; [|assumption|cbn [parent_node oh]; lia]. reflexivity.
Qed.

(** ** The properties *)
(** What is read at a node is the mean of its cells, after any calls. *)
Theorem C86_node_value : forall C t0 l i, valid_config C -> Forall (bcall_ok (cT C)) l -> node_of_block (cT C) i ->
  let v := wb_view C (wb_after C t0 l) in bv_node v i = node_mean (bv_cell v) i.
Proof. intros C t0 l i [HT _] _ Hi. apply node_mean_value; [exact HT|apply Hi]. Qed.
(** Each call has its effect on every cell, on the flags and on the stamp. *)
Theorem C86_effect : forall C t0 l c, valid_config C -> Forall (bcall_ok (cT C)) l -> bcall_ok (cT C) c ->
  effect (cT C) (clo C) (chi C) (wb_view C (wb_after C t0 l)) c (wb_view C (wb_after C t0 (l ++ [c]))).
Proof.
  intros C t0 l c [HT HL] Hl Hc. pose proof (wb_after_ok C t0 l HT Hl) as Ok. unfold wb_after. rewrite fold_left_app. cbn [fold_left]. fold (wb_after C t0 l).
  set (b := wb_after C t0 l) in *. clearbody b. clear l Hl.
  assert (IB : forall p, cell_of_block (cT C) p -> in_box (cT C) p) by (intros p (_ & Hx & Hy & Hz); cbn [oh opos] in *; rewrite Z.sub_0_r in *; split; auto).
  assert (UPD : forall i inc p, node_of_block (cT C) i -> cell_of_block (cT C) p -> cellv (cT C) (wt_update qn (cT C) (btree b) i inc) p =
    if in_node i p then (cellv (cT C) (btree b) p + inc (node_mean (cellv (cT C) (btree b)) (if oh i =? cT C then i else parent_node i)))%Qc else cellv (cT C) (btree b) p).
  { intros i inc p Hi Hp. rewrite wt_update_cell by auto. rewrite reference_value by assumption. rewrite in_node_covers3b by apply Hi. destruct (covers3b i p); ring. }
  assert (THR : forall p, cellv (cT C) (btree (wb_threshold qn C b)) p = if bthr b then clampq (clo C) (chi C) (cellv (cT C) (btree b) p) else cellv (cT C) (btree b) p).
  { intros p. rewrite wb_threshold_tree. destruct (bthr b); [|reflexivity]. rewrite clampq_qclamp. apply wt_threshold_cell. exact Ok. }
  destruct (wb_threshold_flags C b) as (T1 & T2 & T3).
  destruct c as [now i v|now i u| | |now]; cbn [effect wb_apply bcall_ok] in *; cbv zeta.
  - split; [|auto]. intros p Hp. exact (UPD i _ p Hc Hp).
  - split; [|auto]. intros p Hp. exact (UPD i _ p Hc Hp).
  - split; [|auto]. intros p Hp. exact (THR p).
  - cbn [wb_view bv_prn bv_thr bv_stamp]. unfold bv_cell, wb_view. cbn [bv_node]. unfold wb_prune. destruct (bprn b) eqn:EP.
    + split; [|auto]. intros p Hp. cbn [btree]. change (if bthr b then clampq (clo C) (chi C) (wb_get qn C b (OI 0 p)) else wb_get qn C b (OI 0 p)) with
        (if bthr b then clampq (clo C) (chi C) (cellv (cT C) (btree b) p) else cellv (cT C) (btree b) p). rewrite <- THR.
      apply (wt_prune_node (cT C) (btree (wb_threshold qn C b)) 0 p); [|lia]. apply (wb_apply_ok C b BThreshold HT I Ok).
    + split; [reflexivity|]. rewrite EP. auto.
  - split; [|auto]. intros p Hp. apply wt_get_new; lia.
Qed.
(** A set of the whole block reads back. *)
Theorem C86_whole_block : forall C t0 l now i v, valid_config C -> Forall (bcall_ok (cT C)) l -> node_of_block (cT C) i -> oh i = cT C ->
  bv_node (wb_view C (wb_after C t0 (l ++ [BSet now i v]))) i = v.
Proof.
  intros C t0 l now i v [HT _] _ Hi E. unfold wb_after. rewrite fold_left_app. cbn [fold_left wb_apply]. unfold wb_view, wb_get, wb_set. cbn [bv_node btree].
  unfold wt_set. rewrite wt_update_self by (try assumption; apply Hi). unfold ref_value. rewrite E, Z.eqb_refl. destruct i as [h p]. cbn [oh] in E. subst h.
  rewrite wt_get_eval by lia. rewrite Z.sub_diag. cbn [Z.to_nat path eval nsub qn]. ring.
Qed.
(** The chunked block cannot be told apart from the other one. *)
Theorem C86_chunked : forall fuel C t0 l, valid_config C -> (Z.to_nat (cT C) <= fuel)%nat -> Forall (bcall_ok (cT C)) l ->
  same_view (cT C) (cb_view C (cb_after fuel C t0 l)) (wb_view C (wb_after C t0 l)) /\
  cb_empty qn (cb_after fuel C t0 l) = wb_empty qn (wb_after C t0 l).
Proof.
  intros fuel C t0 l [HT _] Hf Hl.
  assert (R : brel C (cb_after fuel C t0 l) (wb_after C t0 l)).
  { unfold cb_after, wb_after. assert (R0 : brel C (cb_new qn t0) (wb_new qn t0)) by (split; [apply trel_new|]; auto). revert R0. generalize (cb_new qn t0), (wb_new qn t0).
    induction Hl as [|c l Hc _ IH]; intros cb wb R; [exact R|]. cbn [fold_left]. apply IH. clear IH.
    assert (U : forall i inc, node_of_block (cT C) i -> trel C (cb_update qn (cT C) (cbtree cb) i inc) (wt_update qn (cT C) (btree wb) i inc)).
    { intros i inc Hi. destruct (Z.eq_dec (oh i) (cT C)) as [E|E]; [|apply (trel_update fuel C HT Hf); [apply R|destruct Hi; lia]].
      destruct R as ((S & E1 & Hn) & _). unfold cb_update, wt_update. rewrite E, Z.sub_diag. replace (Z.to_nat (cT C - (cT C + 1))) with 0%nat by lia.
      cbn [Z.to_nat cb_down]. rewrite Z.ltb_irrefl. split; [exact S|]. split; [cbn; rewrite E1; reflexivity|exact Hn]. }
    destruct c as [now i v|now i u| | |now]; cbn [cb_apply wb_apply bcall_ok] in *.
    - split; [apply U; exact Hc|]. auto.
    - split; [apply U; exact Hc|]. auto.
    - apply brel_threshold; assumption.
    - apply brel_prune; assumption.
    - destruct R as (_ & R1 & R2 & R3). split; [apply trel_new|]. auto. }
  pose proof R as (Rt & R1 & R2 & R3). split; [split; [|auto]|].
  - intros i Hi. apply (trel_get fuel C HT Hf); [exact Rt|apply Hi].
  - exact (trel_empty C _ _ Rt).
Qed.

Print Assumptions C86_node_value.
Print Assumptions C86_effect.
Print Assumptions C86_whole_block.
Print Assumptions C86_chunked.

(** ** Example: 4 x 4 x 4 cells between -2 and 4. The whole block is set to 3, one octant raised by 2, one cell by 1, then limits are applied. *)
Definition blkC : wconfig (V := Qc) := WC 2 (Q2Qc (-2)) (Q2Qc 4).
Definition blk_calls : list bcall := [BSet 1 (OI 2 (I3 0 0 0)) (Q2Qc 3); BAdd 2 (OI 1 (I3 1 0 0)) (Q2Qc 2); BAdd 3 (OI 0 (I3 0 3 3)) (Q2Qc (1 # 2)); BThreshold].
Definition blk_nodes : list oidx := [OI 2 (I3 0 0 0); OI 1 (I3 1 0 0); OI 1 (I3 0 1 1); OI 0 (I3 2 1 0); OI 0 (I3 0 3 3); OI 0 (I3 0 3 2)].
Example C86_ex : valid_config blkC /\ Forall (bcall_ok (cT blkC)) blk_calls /\
  map (fun i => this (wb_get qn blkC (wb_after blkC 0 blk_calls) i)) blk_nodes = [(401 # 128)%Q; 4%Q; (49 # 16)%Q; 4%Q; (7 # 2)%Q; 3%Q] /\
  map (fun i => this (cb_get qn 2 (cbtree (cb_after 5 blkC 0 blk_calls)) i)) blk_nodes = [(401 # 128)%Q; 4%Q; (49 # 16)%Q; 4%Q; (7 # 2)%Q; 3%Q] /\
  let b := wb_after blkC 0 blk_calls in bthr b = false /\ bprn b = true /\ bstamp b = 3.
Proof.
  split; [split; [cbn; lia|reflexivity]|]. split; [repeat constructor; cbn; lia|]. split; [vm_compute; reflexivity|]. split; [vm_compute; reflexivity|].
  vm_compute. auto.
Qed.
