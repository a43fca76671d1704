(** HashedWaveletOctree as a field of cell values (exact arithmetic). *)
From Verif Require Import Base M_IntMath F_IntMath M_Morton F_Morton M_NdtreeIndex F_NdtreeIndex
  M_Num F_Num M_Haar F_Haar M_Haar3 F_Haar3 M_Ndtree S_Field F_Hash M_Wavelet F_Wavelet F_Wavelet2 F_Leaves F_WavTree
  F_WavMap.
From Coq Require Import QArith Qcanon Qcabs Lqa.
Close Scope Qc_scope.
Close Scope Q_scope.
Open Scope Z_scope.

Section Hashed.
Context (C : wconfig (V := Qc)).
Notation T := (cT C).
Notation hmap := (shash (wblock (V := Qc))).

Definition block_of (c : idx3) : idx3 := imap (fun x => x / 2 ^ T) c.
Definition tree_at (m : hmap) (b : idx3) : wtree :=
  match getBlock m b with Some blk => btree blk | None => wt_new qn end.
Definition hw_field (m : hmap) : field := fun c => hw_get qn C m c.

Lemma pow_split h : 0 <= h <= T -> 2 ^ T = 2 ^ (T - h) * 2 ^ h.
Proof. intros H. rewrite <- Z.pow_add_r by lia. f_equal. lia. Qed.
Lemma hw_blockIndex_spec h p : 0 <= h <= T ->
  hw_blockIndex C (OI h p) = imap (fun c => c / 2 ^ (T - h)) p.
Proof.
  intros H. unfold hw_blockIndex, indexToBlockIndex3, imap. cbn [oh opos px py pz].
  assert (E : forall c, div_exp2_floor (mult_exp2 c h) T = c / 2 ^ (T - h)).
  { intros c. rewrite div_exp2_floor_spec by lia. unfold mult_exp2. rewrite exp2_pow by lia.
    rewrite (pow_split h) by lia. pose proof (pow2_pos h ltac:(lia)). pose proof (pow2_pos (T - h) ltac:(lia)).
    apply Z.div_mul_cancel_r; lia. }
  rewrite !E. reflexivity.
Qed.
Lemma hw_cellIndex_spec h p : 0 <= h <= T ->
  hw_cellIndex C (OI h p) = OI h (imap (fun c => c mod 2 ^ (T - h)) p).
Proof.
  intros H. unfold hw_cellIndex, imap. cbn [oh opos]. rewrite !div_exp2_floor_remainder_spec by lia. reflexivity.
Qed.
Lemma indexToBlockIndex3_spec i : 0 <= T -> indexToBlockIndex3 i T = block_of i.
Proof. intros H. unfold indexToBlockIndex3, block_of, imap. rewrite !div_exp2_floor_spec by lia. reflexivity. Qed.

Lemma wt_get_mod t h p : 0 <= h <= T -> T <= 21 ->
  wt_get qn T t (OI h (imap (fun c => c mod 2 ^ (T - h)) p)) = wt_get qn T t (OI h p).
Proof. intros Hh HT. rewrite !wt_get_eval by assumption. rewrite path_mod by lia. reflexivity. Qed.
Lemma hw_get_node_spec m h p : 0 <= h <= T -> T <= 21 ->
  hw_get_node qn C m (OI h p) = wt_get qn T (tree_at m (imap (fun c => c / 2 ^ (T - h)) p)) (OI h p).
Proof.
  intros Hh HT. unfold hw_get_node, tree_at. rewrite hw_blockIndex_spec, hw_cellIndex_spec by assumption.
  destruct (getBlock m _) as [b|].
  - unfold wb_get. apply wt_get_mod; assumption.
  - symmetry. apply wt_get_new; assumption.
Qed.
Lemma hw_field_spec m c : 0 <= T <= 21 -> hw_field m c = cellv T (tree_at m (block_of c)) c.
Proof.
  intros HT. unfold hw_field, hw_get, tree_at, cellv. rewrite indexToBlockIndex3_spec by lia.
  destruct (getBlock m _) as [b|].
  - unfold wb_get. rewrite hw_cellIndex_spec by lia. apply wt_get_mod; lia.
  - symmetry. apply wt_get_new; lia.
Qed.
Lemma hw_get_node_cell m c : 0 <= T <= 21 -> hw_get_node qn C m (OI 0 c) = hw_field m c.
Proof. intros H. rewrite hw_get_node_spec by lia. rewrite hw_field_spec by lia. rewrite Z.sub_0_r. reflexivity. Qed.

Lemma block_of_covers h p c : 0 <= h <= T -> covers3 (OI h p) c -> block_of c = imap (fun x => x / 2 ^ (T - h)) p.
Proof.
  intros Hh Hc. unfold covers3 in Hc. cbn [oh opos] in Hc. rewrite <- Hc. destruct c as [a b e].
  unfold block_of, imap. cbn [px py pz].
  pose proof (pow2_pos h ltac:(lia)). pose proof (pow2_pos (T - h) ltac:(lia)).
  rewrite !Z.div_div by lia. rewrite (Z.mul_comm (2 ^ h)), <- pow_split by lia. reflexivity.
Qed.
Lemma hw_node_mean m i : 1 <= T <= 21 -> 0 <= oh i <= T -> hw_get_node qn C m i = node_mean (hw_field m) i.
Proof.
  intros HT Hh. symmetry. apply mean_of_sum; [lia|]. destruct i as [h p]. cbn [oh opos] in *.
  rewrite hw_get_node_spec by lia. rewrite <- wt_node_mean by lia. apply cell_sum_ext; [lia|].
  intros c Hc. rewrite hw_field_spec by lia. rewrite (block_of_covers h p) by assumption. reflexivity.
Qed.

(** Writing one block *)
Lemma tree_at_set m b blk b' : tree_at (setBlock m b blk) b' = if ieqb b b' then btree blk else tree_at m b'.
Proof. unfold tree_at. rewrite getBlock_setBlock. destruct (ieqb b b'); reflexivity. Qed.
Lemma blockOrNew_tree now m b : btree (blockOrNew (wb_new qn now) m b) = tree_at m b.
Proof. unfold blockOrNew, tree_at. destruct (getBlock m b); reflexivity. Qed.

Lemma covers3b_0 i c : covers3b (OI 0 i) c = ieqb i c.
Proof.
  unfold covers3b. cbn [oh opos]. destruct c as [a b e]. unfold imap. cbn [px py pz]. rewrite !Z.div_1_r. apply ieqb_sym.
Qed.
Lemma in_node_0 i c : in_node (OI 0 i) c = ieqb i c.
Proof. rewrite in_node_covers3b by (cbn; lia). apply covers3b_0. Qed.
Lemma mod_box c : 0 <= T -> in_box T (imap (fun x => x mod 2 ^ T) c).
Proof.
  intros H. pose proof (pow2_pos T H). unfold in_box, imap. cbn [px py pz].
  repeat split; apply Z.mod_pos_bound; lia.
Qed.
Lemma cellv_mod t c : 0 <= T <= 21 -> cellv T t (imap (fun x => x mod 2 ^ T) c) = cellv T t c.
Proof. intros H. unfold cellv. rewrite <- (wt_get_mod t 0 c) by lia. rewrite Z.sub_0_r. reflexivity. Qed.
Lemma split_inj i c : 0 <= T -> block_of i = block_of c ->
  ieqb (imap (fun x => x mod 2 ^ T) i) (imap (fun x => x mod 2 ^ T) c) = ieqb i c.
Proof.
  intros HT E. pose proof (pow2_pos T HT) as P. destruct i as [a b e], c as [a' b' e'].
  unfold block_of, imap in *. cbn [px py pz] in *. injection E as E1 E2 E3.
  unfold ieqb. cbn [px py pz].
  assert (X : forall u v, u / 2 ^ T = v / 2 ^ T -> (u mod 2 ^ T =? v mod 2 ^ T) = (u =? v)).
  { intros u v H. pose proof (Z.div_mod u (2 ^ T) ltac:(lia)) as D1. pose proof (Z.div_mod v (2 ^ T) ltac:(lia)) as D2.
    rewrite H in D1. destruct (Z.eqb_spec (u mod 2 ^ T) (v mod 2 ^ T)), (Z.eqb_spec u v); congruence || lia. }
  rewrite !X by assumption. reflexivity.
Qed.

Lemma hw_update_cell m now i inc flags c (f : wblock -> wblock) : 1 <= T <= 21 ->
  (forall blk, f blk = WB (wt_update qn T (btree blk) (hw_cellIndex C (OI 0 i)) inc) (fst flags) (snd flags) now) ->
  hw_field (setBlock m (indexToBlockIndex3 i T) (f (blockOrNew (wb_new qn now) m (indexToBlockIndex3 i T)))) c =
  fadd (hw_field m) (OI 0 i) (inc (hw_get_node qn C m (parent_node (OI 0 i)))) c.
Proof.
  intros HT Hf. rewrite indexToBlockIndex3_spec by lia. unfold fadd. rewrite !hw_field_spec by lia.
  rewrite in_node_0. rewrite tree_at_set. rewrite Hf. cbn [btree]. rewrite blockOrNew_tree.
  destruct (ieqb_spec (block_of i) (block_of c)) as [E|E].
  - rewrite <- E. rewrite hw_cellIndex_spec by lia. rewrite Z.sub_0_r.
    rewrite <- (cellv_mod (wt_update _ _ _ _ _) c) by lia.
    rewrite wt_update_cell; [|assumption| |apply mod_box; lia].
    2:{ pose proof (mod_box i ltac:(lia)) as B. unfold inside. cbn [oh opos]. rewrite Z.sub_0_r. split; [lia|exact B]. }
    rewrite covers3b_0, split_inj by (assumption || lia). rewrite cellv_mod by lia.
    destruct (ieqb i c); [|apply Qcplus_0_r]. do 2 f_equal.
    unfold ref_value, parent_node, parent_index. cbn [oh opos]. replace (0 =? T) with false by (symmetry; apply Z.eqb_neq; lia).
    rewrite hw_get_node_spec by lia. cbn [Z.add]. 
    assert (B : block_of i = imap (fun c0 => c0 / 2 ^ (T - 1)) (I3 (px i / 2) (py i / 2) (pz i / 2))).
    { unfold block_of, imap. cbn [px py pz]. pose proof (pow2_pos (T - 1) ltac:(lia)). rewrite !Z.div_div by lia.
      replace (2 * 2 ^ (T - 1)) with (2 ^ T) by (rewrite <- Z.pow_succ_r by lia; f_equal; lia). reflexivity. }
    rewrite <- B. rewrite <- (wt_get_mod _ 1 (I3 _ _ _)) by lia. f_equal. f_equal. unfold imap. cbn [px py pz].
    assert (M : forall x, (x mod 2 ^ T) / 2 = (x / 2) mod 2 ^ (T - 1)).
    { intros x. replace (2 ^ T) with (2 * 2 ^ (T - 1)) by (rewrite <- Z.pow_succ_r by lia; f_equal; lia).
      pose proof (pow2_pos (T - 1) ltac:(lia)). rewrite Z.rem_mul_r by lia.
      rewrite Z.mul_comm, Z.div_add by lia. rewrite Z.div_small by (apply Z.mod_pos_bound; lia). lia. }
    rewrite !M. reflexivity.
  - destruct (ieqb_spec i c) as [->|]; [congruence|reflexivity].
Qed.

(** ** Invariant *)
Definition hw_ok (m : hmap) : Prop :=
  hwf m /\ forall b blk, getBlock m b = Some blk ->
    tree_ok T (btree blk) /\ (bthr blk = false -> cells_in (clo C) (chi C) T (btree blk)).
Lemma tree_at_ok m b : 1 <= T <= 21 -> hw_ok m -> tree_ok T (tree_at m b).
Proof.
  intros HT [_ H]. unfold tree_at. destruct (getBlock m b) as [blk|] eqn:E; [apply (H b blk E)|apply tree_ok_new; assumption].
Qed.
Lemma hw_ok_nil : hw_ok [].
Proof. split; [constructor|]. intros b blk H. discriminate H. Qed.
Lemma hw_ok_set m b blk : hw_ok m -> tree_ok T (btree blk) ->
  (bthr blk = false -> cells_in (clo C) (chi C) T (btree blk)) -> hw_ok (setBlock m b blk).
Proof.
  intros [W H] H1 H2. split; [apply setBlock_wf; assumption|]. intros b' blk' E. rewrite getBlock_setBlock in E.
  destruct (ieqb b b'); [injection E as <-; auto|apply (H b'); assumption].
Qed.
Lemma hw_set_ok m now i v : 1 <= T <= 21 -> hw_ok m -> hw_ok (hw_set qn C now m i v).
Proof.
  intros HT Hm. unfold hw_set. cbv zeta. apply hw_ok_set; [assumption| |cbn; discriminate].
  cbn [wb_set btree]. rewrite blockOrNew_tree. apply wt_update_ok; [|apply tree_at_ok; assumption].
  rewrite hw_cellIndex_spec by lia. cbn [oh]. lia.
Qed.
Lemma hw_add_ok m now i v : 1 <= T <= 21 -> hw_ok m -> hw_ok (hw_add qn C now m i v).
Proof.
  intros HT Hm. unfold hw_add. cbv zeta. apply hw_ok_set; [assumption| |cbn; discriminate].
  cbn [wb_add btree]. rewrite blockOrNew_tree. apply wt_update_ok; [|apply tree_at_ok; assumption].
  rewrite hw_cellIndex_spec by lia. cbn [oh]. lia.
Qed.

(** Threshold *)
Lemma wb_threshold_tree b : btree (wb_threshold qn C b) = if bthr b then wt_threshold (clo C) (chi C) (btree b) else btree b.
Proof.
  unfold wb_threshold, wt_threshold. destruct (bthr b); [|reflexivity].
  destruct (threshold_rec qn (clo C) (chi C) (wroot (btree b)) (wscale (btree b))). reflexivity.
Qed.
Lemma wb_threshold_thr b : bthr (wb_threshold qn C b) = false.
Proof.
  unfold wb_threshold. destruct (bthr b) eqn:E; [|exact E].
  destruct (threshold_rec qn (clo C) (chi C) (wroot (btree b)) (wscale (btree b))). reflexivity.
Qed.
Definition blk_ok (b : wblock) : Prop :=
  tree_ok T (btree b) /\ (bthr b = false -> cells_in (clo C) (chi C) T (btree b)).
Lemma wb_threshold_ok b : (clo C <= chi C)%Qc -> blk_ok b ->
  tree_ok T (btree (wb_threshold qn C b)) /\ cells_in (clo C) (chi C) T (btree (wb_threshold qn C b)) /\
  forall c, cellv T (btree (wb_threshold qn C b)) c = qclamp (clo C) (chi C) (cellv T (btree b) c).
Proof.
  intros Hlh [Ht Hc]. rewrite wb_threshold_tree. destruct (bthr b).
  - split; [apply wt_threshold_ok; assumption|]. split; intros c; rewrite wt_threshold_cell by assumption; [|reflexivity].
    apply qclamp_range. assumption.
  - split; [assumption|]. split; [apply Hc; reflexivity|]. intros c. destruct (Hc eq_refl c).
    symmetry. apply qclamp_id; assumption.
Qed.
Lemma hw_threshold_ok m : (clo C <= chi C)%Qc -> hw_ok m -> hw_ok (hw_threshold qn C m).
Proof.
  intros Hlh [W H]. split; [apply forEachBlock_wf; assumption|]. intros b blk E. unfold hw_threshold in E.
  rewrite getBlock_forEachBlock in E. destruct (getBlock m b) as [blk0|] eqn:E0; [|discriminate]. injection E as <-.
  destruct (wb_threshold_ok blk0 Hlh (H b blk0 E0)) as (H1 & H2 & _). auto.
Qed.
Lemma cellv_new c : 0 <= T <= 21 -> cellv T (wt_new qn) c = 0%Qc.
Proof. intros H. unfold cellv. apply wt_get_new; lia. Qed.
Lemma hw_threshold_cell m c : 1 <= T <= 21 -> (clo C <= 0)%Qc -> (0 <= chi C)%Qc -> hw_ok m ->
  hw_field (hw_threshold qn C m) c = fclamp (clo C) (chi C) (hw_field m) c.
Proof.
  intros HT H0 H1 [W H]. unfold fclamp. rewrite clampq_qclamp, !hw_field_spec by lia. unfold tree_at, hw_threshold.
  rewrite getBlock_forEachBlock. destruct (getBlock m (block_of c)) as [blk|] eqn:E; cbn [option_map].
  - destruct (wb_threshold_ok blk (Qcle_trans _ _ _ H0 H1) (H _ _ E)) as (_ & _ & Hc). apply Hc.
  - rewrite cellv_new by lia. symmetry. apply qclamp_id; assumption.
Qed.

(** Prune *)
Lemma wb_prune_ok b : (clo C <= chi C)%Qc -> blk_ok b -> blk_ok (wb_prune qn C b).
Proof.
  intros Hlh Hb. unfold wb_prune. destruct (bprn b); [|assumption]. cbv zeta.
  destruct (wb_threshold_ok b Hlh Hb) as (H1 & H2 & _). split.
  - exact (wt_prune_ok T _ H1).
  - intros _. exact (cells_in_prune _ _ T (btree (wb_threshold qn C b)) (proj1 H1) H2).
Qed.
(** After prune() every cell is within the bound of its previous value, clamped iff it was pruned. *)
Lemma wb_prune_cell b c : (clo C <= chi C)%Qc -> blk_ok b ->
  (Qcabs (cellv T (btree (wb_prune qn C b)) c -
          (if bprn b then qclamp (clo C) (chi C) (cellv T (btree b) c) else cellv T (btree b) c)) <= qz (T - 1) * prune_unit)%Qc.
Proof.
  intros Hlh Hb. assert (HT : 1 <= T <= 21) by (destruct Hb as [[? _] _]; assumption).
  unfold wb_prune. destruct (bprn b).
  - cbv zeta. destruct (wb_threshold_ok b Hlh Hb) as (H1 & _ & H3). rewrite <- H3.
    apply (wt_prune_node T (btree (wb_threshold qn C b)) 0 c H1). lia.
  - replace (_ - _)%Qc with 0%Qc by ring. replace (Qcabs 0) with 0%Qc by (apply Qc_is_canon; reflexivity).
    replace 0%Qc with (0 * prune_unit)%Qc by ring. apply Qcmult_le_compat_r; [|apply prune_unit_pos].
    assert (X := proj1 (qz_le 0 (T - 1)) ltac:(lia)). exact X.
Qed.
Lemma wb_empty_cell b c : 0 <= T <= 21 -> wb_empty qn b = true -> (Qcabs (cellv T (btree b) c) < qeps)%Qc.
Proof. intros HT H. unfold cellv. destruct (wt_empty_get T (btree b) 0 c H ltac:(lia) ltac:(lia)) as [-> H2]. exact H2. Qed.

Definition prune_bound : Qc := (qz (T - 1) * prune_unit + qeps)%Qc.
Lemma eraseIf_ok m (f : wblock -> wblock) : (forall b, blk_ok b -> blk_ok (f b)) -> hw_ok m ->
  hw_ok (eraseBlockIf (fun _ b => let b' := f b in (b', wb_empty qn b')) m).
Proof.
  intros Hf [W H]. split; [apply eraseBlockIf_wf; assumption|]. intros b blk E.
  rewrite getBlock_eraseBlockIf in E by assumption. destruct (getBlock m b) as [blk0|] eqn:E0; [|discriminate].
  cbn [fst snd] in E. destruct (wb_empty qn (f blk0)); [discriminate|]. injection E as <-. apply Hf. apply (H b). assumption.
Qed.
Lemma hw_prune_ok m : (clo C <= chi C)%Qc -> hw_ok m -> hw_ok (hw_prune qn C m).
Proof. intros Hlh. apply eraseIf_ok. intros b. apply wb_prune_ok. assumption. Qed.
Lemma hw_pruneSmart_ok m age now : (clo C <= chi C)%Qc -> hw_ok m -> hw_ok (hw_pruneSmart qn C age now m).
Proof.
  intros Hlh. apply (eraseIf_ok m (fun b => if age <? now - bstamp b then wb_prune qn C b else b)).
  intros b Hb. destruct (_ <? _); [apply wb_prune_ok|]; assumption.
Qed.
Lemma Qcabs_zero_sub x e : (Qcabs x < e)%Qc -> (Qcabs (0 - x) <= e)%Qc.
Proof. intros H. rewrite Qcabs_sym. replace (x - 0)%Qc with x by ring. apply Qclt_le_weak. assumption. Qed.
(** Field effect of a possibly-erasing per-block prune. *)
Lemma eraseIf_cell m (f : wblock -> wblock) (g : wblock -> Qc -> Qc) c :
  1 <= T <= 21 -> hw_ok m ->
  (forall b, blk_ok b -> (Qcabs (cellv T (btree (f b)) c - g b (cellv T (btree b) c)) <= qz (T - 1) * prune_unit)%Qc) ->
  (Qcabs (hw_field (eraseBlockIf (fun _ b => let b' := f b in (b', wb_empty qn b')) m) c -
          match getBlock m (block_of c) with Some b => g b (hw_field m c) | None => 0 end) <= prune_bound)%Qc.
Proof.
  intros HT [W H] Hg. rewrite !hw_field_spec by lia. unfold tree_at. rewrite getBlock_eraseBlockIf by assumption.
  destruct (getBlock m (block_of c)) as [b|] eqn:E; cbn [fst snd].
  - specialize (Hg b (H _ _ E)). destruct (wb_empty qn (f b)) eqn:Ee.
    + rewrite cellv_new by lia. unfold prune_bound. rewrite Qcplus_comm.
      eapply Qcabs_tri; [|exact Hg]. apply Qcabs_zero_sub. apply wb_empty_cell; [lia|assumption].
    + unfold prune_bound. assert (0 <= qeps)%Qc by discriminate. revert Hg H0.
      generalize (qz (T - 1) * prune_unit)%Qc, qeps. intros a e X Y. eapply Qcle_trans; [exact X|]. qlra.
  - rewrite cellv_new by lia. replace (0 - 0)%Qc with 0%Qc by ring.
    replace (Qcabs 0) with 0%Qc by (apply Qc_is_canon; reflexivity).
    assert (0 <= qeps)%Qc by discriminate. unfold prune_bound.
    assert (X := Qcmult_le_compat_r _ _ prune_unit (proj1 (qz_le 0 (T - 1)) ltac:(lia)) prune_unit_pos).
    replace (qz 0 * prune_unit)%Qc with 0%Qc in X by (change (qz 0) with 0%Qc; ring).
    revert X H0. generalize (qz (T - 1) * prune_unit)%Qc, qeps. intros a e X Y. qlra.
Qed.

(** Leaves *)
Lemma hw_leaves m fuel l : 1 <= T <= 21 -> hw_ok m -> (forall b, (nsize (wroot (btree b)) <= fuel b)%nat) ->
  hw_forEachLeaf qn fuel C m = Some l ->
  (forall i u, In (i, u) l -> 0 <= oh i < T) /\
  forall c, match getBlock m (block_of c) with
            | Some b => if wb_empty qn b then uncovered l c else covered_once l c (hw_field m c)
            | None => uncovered l c
            end.
Proof.
  intros HT Hok Hf. assert (Hok' := Hok). destruct Hok' as [W H].
  assert (X : forall m' l', (forall b blk, In (b, blk) m' -> tree_ok T (btree blk)) -> hwf m' ->
     hw_forEachLeaf qn fuel C m' = Some l' ->
     (forall i u, In (i, u) l' -> 0 <= oh i < T) /\
     forall c, match getBlock m' (block_of c) with
            | Some b => if wb_empty qn b then uncovered l' c else covered_once l' c (cellv T (btree b) c)
            | None => uncovered l' c
            end).
  { induction m' as [|[k blk] m' IH]; intros l' Hin Hw Hl; cbn [hw_forEachLeaf] in Hl.
    - injection Hl as <-. split; [intros i u []|]. intros c. cbn [getBlock]. apply uncovered_nil.
    - destruct (wt_forEachLeaf qn (fuel blk) 0 (OI T k) (btree blk)) as [l1|] eqn:E1; [|discriminate].
      destruct (hw_forEachLeaf qn fuel C m') as [l2|] eqn:E2; [|discriminate]. injection Hl as <-.
      inversion Hw; subst.
      destruct (IH l2 (fun b blk0 Hb => Hin b blk0 (or_intror Hb)) H3 eq_refl) as [IH1 IH2].
      assert (Ht : tree_ok T (btree blk)) by (apply (Hin k); left; reflexivity).
      split.
      + intros i u Hi. apply in_app_or in Hi as [Hi|Hi]; [|apply (IH1 i u Hi)].
        apply (wt_leaves_heights C (btree blk) 0 k (fuel blk) l1 i u ltac:(lia) ltac:(lia) (Hf blk) E1 Hi).
      + intros c. specialize (IH2 c). cbn [getBlock].
        assert (Cov : covers3 (OI T k) c <-> block_of c = k).
        { unfold covers3, block_of. cbn [oh opos]. reflexivity. }
        assert (L1 : if wb_empty qn blk then l1 = [] else
             (covers3 (OI T k) c -> covered_once l1 c (cellv T (btree blk) c)) /\ (~ covers3 (OI T k) c -> uncovered l1 c)).
        { unfold wb_empty. destruct (wt_empty qn (btree blk)) eqn:Ee.
          - unfold wt_forEachLeaf in E1. rewrite Ee in E1. congruence.
          - destruct (wt_leaves T (btree blk) 0 k (fuel blk) l1 Ht ltac:(lia) (Hf blk) Ee E1 c) as [A1 A2].
            split; [|assumption]. intros Hc. specialize (A1 Hc).
            replace (imap (fun c0 => c0 / 2 ^ 0) c) with c in A1; [exact A1|].
            destruct c as [x y z]. unfold imap. cbn [px py pz]. rewrite !Z.div_1_r. reflexivity. }
        destruct (ieqb_spec k (block_of c)) as [->|Hne].
        * assert (G : getBlock m' (block_of c) = None) by (apply getBlock_None; assumption).
          rewrite G in IH2. destruct (wb_empty qn blk).
          -- subst l1. exact IH2.
          -- destruct L1 as [L1 _]. apply covered_once_app_l; [|exact IH2]. apply L1. apply Cov. reflexivity.
        * assert (U : uncovered l1 c).
          { destruct (wb_empty qn blk); [subst; apply uncovered_nil|]. destruct L1 as [_ L1]. apply L1.
            rewrite Cov. congruence. }
          destruct (getBlock m' (block_of c)) as [b|].
          -- destruct (wb_empty qn b); [apply uncovered_app|apply covered_once_app_r]; assumption.
          -- apply uncovered_app; assumption. }
  intros Hl. destruct (X m l) as [X1 X2]; [|assumption|assumption|].
  - intros b blk Hb. apply (H b). apply In_getBlock; assumption.
  - split; [assumption|]. intros c. specialize (X2 c). rewrite hw_field_spec by lia. unfold tree_at.
    destruct (getBlock m (block_of c)); exact X2.
Qed.
Lemma hw_leaves_total m fuel : (forall b, (nsize (wroot (btree b)) <= fuel b)%nat) ->
  exists l, hw_forEachLeaf qn fuel C m = Some l.
Proof.
  intros Hf. induction m as [|[k b] m IH]; cbn [hw_forEachLeaf]; [eauto|].
  destruct (wt_leaves_total T (btree b) 0 k (fuel b) (Hf b)) as [l1 ->]. destruct IH as [l2 ->]. eauto.
Qed.

(** Bounds *)
Lemma hw_bounds m c : 1 <= T <= 21 -> hw_ok m -> (forall k, In k (keys m) -> in_i32 k) -> hw_field m c <> 0%Qc ->
  ile (hw_min_index C m) c /\ ile c (hw_max_index C m).
Proof.
  intros HT [W H] Hr Hc.
  assert (Hin : In (block_of c) (keys m)).
  { apply getBlock_keys. intros E. apply Hc. rewrite hw_field_spec by lia. unfold tree_at. rewrite E. apply cellv_new. lia. }
  assert (Hne : m <> []) by (intros ->; destruct Hin).
  destruct (getMinBlockIndex_spec m Hne Hr) as [Hmin _]. destruct (getMaxBlockIndex_spec m Hne Hr) as [Hmax _].
  specialize (Hmin _ Hin). specialize (Hmax _ Hin).
  unfold hw_min_index, hw_max_index, hw_empty. destruct m as [|kb m]; [congruence|].
  destruct (getMinBlockIndex (kb :: m)) as [a b e], (getMaxBlockIndex (kb :: m)) as [a' b' e'], c as [x y z].
  unfold ile, block_of, imap in *. cbn [px py pz] in *. rewrite !exp2_pow by lia.
  pose proof (pow2_pos T ltac:(lia)) as P.
  assert (D : forall u, 2 ^ T * (u / 2 ^ T) <= u < 2 ^ T * (u / 2 ^ T) + 2 ^ T).
  { intros u. pose proof (Z.div_mod u (2 ^ T) ltac:(lia)). pose proof (Z.mod_pos_bound u (2 ^ T) P). lia. }
  pose proof (D x). pose proof (D y). pose proof (D z). repeat split; nia.
Qed.
End Hashed.
