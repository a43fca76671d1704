(** Reachable states of the plain and hashed wavelet maps. *)
From Verif Require Import Base M_IntMath F_IntMath M_Morton F_Morton M_NdtreeIndex F_NdtreeIndex
  M_Num F_Num M_Haar F_Haar M_Haar3 F_Haar3 M_Ndtree S_Field F_Hash M_Wavelet F_Wavelet F_Wavelet2 F_Leaves F_WavTree
  F_WavMap F_WavHash M_WavHist.
From Coq Require Import QArith Qcanon Qcabs Lqa.
Close Scope Qc_scope.
Close Scope Q_scope.
Open Scope Z_scope.

(** Thresholding a tree that is already in range gives back the same tree. *)
Lemma thr_id lo hi k : forall n v, height_ok k n ->
  (forall q, valid_path q -> (length q <= k)%nat -> (lo <= eval v n q /\ eval v n q <= hi)%Qc) ->
  threshold_rec qn lo hi n v = (n, v).
Proof.
  induction k as [|k IH]; intros n v Hn Hr; [contradiction|].
  assert (X : forall c, 0 <= c < 8 -> thr_child lo hi n v c = (getChild n c, child_value v (ndata n) c)).
  { intros c Hc. unfold thr_child. specialize (Hn c Hc).
    destruct (getChild n c) as [ch|] eqn:E.
    - rewrite IH; [reflexivity|assumption|]. intros q Hq Hl. specialize (Hr (c :: q)). cbn [eval length] in Hr.
      rewrite E in Hr. apply Hr; [constructor; assumption|lia].
    - f_equal. specialize (Hr [c]). cbn [eval length] in Hr. rewrite E in Hr.
      destruct Hr; [constructor; [assumption|constructor]|lia|]. apply qclamp_id; assumption. }
  destruct n as [d kids]. cbn [threshold_rec]. destruct kids as [kk|].
  - set (res := omap2 _ kk (backward3 qn v d)).
    assert (E : forall c, 0 <= c < 8 -> oget res c = (oget kk c, oget (backward3 qn v d) c)).
    { intros c Hc. subst res. rewrite oget_omap2 by assumption. specialize (X c Hc). unfold thr_child, getChild in X.
      cbn [nkids ndata] in X. rewrite backward3_value by assumption.
      destruct (oget kk c) as [ch|].
      - rewrite (surjective_pairing (threshold_rec qn lo hi ch (child_value v d c))). injection X as X1 X2.
        rewrite X1, X2. reflexivity.
      - injection X as X. unfold qclamp in X. rewrite X. reflexivity. }
    assert (E1 : omap fst res = kk) by (apply oct_ext; intros c Hc; rewrite oget_omap by assumption; rewrite E by assumption; reflexivity).
    assert (E2 : omap snd res = backward3 qn v d) by (apply oct_ext; intros c Hc; rewrite oget_omap by assumption; rewrite E by assumption; reflexivity).
    rewrite E1, E2, forward_backward3. reflexivity.
  - assert (E : omap (nclamp qn lo hi) (backward3 qn v d) = backward3 qn v d).
    { apply oct_ext. intros c Hc. rewrite oget_omap by assumption. specialize (X c Hc). unfold thr_child, getChild in X.
      cbn [nkids ndata] in X. injection X as X. rewrite backward3_value by assumption. exact X. }
    rewrite E, forward_backward3. reflexivity.
Qed.
Lemma wt_threshold_id lo hi T t : tree_ok T t -> cells_in lo hi T t -> wt_threshold lo hi t = t.
Proof.
  intros [HT Ht] Hc. unfold wt_threshold. rewrite (thr_id lo hi (Z.to_nat T)).
  - destruct t; reflexivity.
  - assumption.
  - intros q Hq Hl. apply (cells_in_eval lo hi T); assumption.
Qed.
Lemma wt_prune_idem t : wt_prune (wt_prune t) = wt_prune t.
Proof. unfold wt_prune. cbn [wroot wscale]. rewrite prune_idem. reflexivity. Qed.

Lemma wt_update_self T t i inc : 0 <= oh i <= T -> 1 <= T <= 21 ->
  wt_get qn T (wt_update qn T t i inc) i = (wt_get qn T t i + inc (ref_value T t i))%Qc.
Proof.
  intros Hh HT. destruct (wt_update_eval T t i inc Hh HT) as [U _]. destruct i as [h p]. cbn [oh opos] in *.
  rewrite !wt_get_eval by lia. rewrite U by apply path_valid. rewrite contrib_prefix by lia.
  rewrite firstn_all. destruct (list_eq_dec Z.eq_dec _ _); [reflexivity|contradiction].
Qed.
Lemma node_mean_ext f g i : 0 <= oh i -> (forall c, in_node i c = true -> f c = g c) -> node_mean f i = node_mean g i.
Proof.
  intros Hh H. unfold node_mean. f_equal. apply cell_sum_ext; [assumption|]. intros c Hc. apply H.
  apply in_node_covers; [assumption|]. destruct i. exact Hc.
Qed.

(** ** Plain *)
Section PlainHist.
Context (C : wconfig (V := Qc)).
Notation T := (cT C).
Definition call_in (c : call) : Prop :=
  match c with CSet i _ | CAdd i _ => wo_inside C i | _ => True end.
Lemma wo_toInternal_oh i : oh (wo_toInternal T i) = oh i.
Proof. reflexivity. Qed.
Lemma wo_apply_ok t c : call_in c -> tree_ok T t -> tree_ok T (wo_apply C t c).
Proof.
  intros Hc Ht. destruct c as [i v|i u| | |]; cbn [wo_apply call_in] in *.
  - apply wt_update_ok; [|assumption]. destruct Hc. rewrite wo_toInternal_oh. lia.
  - apply wt_update_ok; [|assumption]. destruct Hc. rewrite wo_toInternal_oh. lia.
  - rewrite wo_threshold_eq. apply wt_threshold_ok. assumption.
  - rewrite wo_prune_eq. apply wt_prune_ok, wt_threshold_ok. assumption.
  - apply tree_ok_new. destruct Ht. assumption.
Qed.
Lemma wo_run_ok l : 1 <= T <= 21 -> Forall call_in l -> tree_ok T (wo_run C l).
Proof.
  intros HT. unfold wo_run. pose proof (tree_ok_new T HT) as H0. revert H0. generalize (wt_new qn).
  induction l as [|c l IH]; intros t Ht Hl; cbn [fold_left]; [assumption|]. inversion Hl; subst.
  apply IH; [|assumption]. apply wo_apply_ok; assumption.
Qed.
Lemma wo_run_app l l' : wo_run C (l ++ l') = fold_left (wo_apply C) l' (wo_run C l).
Proof. apply fold_left_app. Qed.

Lemma wo_set_field t i v c : 1 <= T <= 21 -> wo_inside C i -> oh i + 1 < T -> wo_cell C c ->
  wo_field C (wo_set qn C t i v) c = fset_parent (wo_field C t) i v c.
Proof.
  intros HT Hi Hh Hc. unfold wo_set, wt_set, fset_parent. rewrite (wo_update_cell C) by assumption.
  unfold fadd. rewrite wo_ref_value by (destruct Hi; lia). reflexivity.
Qed.
Lemma wo_add_field t i u c : 1 <= T <= 21 -> wo_inside C i -> wo_cell C c ->
  wo_field C (wo_add qn C t i u) c = fadd (wo_field C t) i u c.
Proof. intros HT Hi Hc. unfold wo_add, wt_add. apply (wo_update_cell C); assumption. Qed.

Lemma in_node_cell i c : wo_inside C i -> in_node i c = true -> wo_cell C c.
Proof.
  intros (Hh & H1 & H2 & H3) Hc. destruct i as [h [x y z]], c as [a b e]. unfold in_node in Hc. cbn [oh opos px py pz] in *.
  assert (E : 2 ^ (T - 1) = 2 ^ (T - 1 - h) * 2 ^ h) by (rewrite <- Z.pow_add_r by lia; f_equal; lia).
  assert (P := pow2_pos h ltac:(lia)).
  unfold wo_cell, wo_inside. cbn [oh opos px py pz]. rewrite Z.sub_0_r, E. split; [lia|].
  rewrite !andb_true_iff in Hc. repeat split; nia.
Qed.
Lemma parent_inside i : wo_inside C i -> oh i + 1 < T -> wo_inside C (parent_node i).
Proof.
  intros (Hh & H1 & H2 & H3) H. destruct i as [h [x y z]]. unfold wo_inside, parent_node. cbn [oh opos px py pz] in *.
  assert (E : 2 ^ (T - 1 - h) = 2 * 2 ^ (T - 1 - (h + 1))) by (rewrite <- Z.pow_succ_r by lia; f_equal; lia).
  rewrite E in *. repeat split; lia.
Qed.

(** Field calls within the plain octree's range; a set needs a parent below the root. *)
Definition fcall_of (c : call) : option fcall :=
  match c with
  | CSet i v => Some (FSet i v) | CAdd i u => Some (FAdd i u) | CThreshold => Some FThreshold
  | CClear => Some FClear | CPrune => None
  end.
Definition call_below_root (c : call) : Prop :=
  match c with CSet i _ => oh i + 1 < T | CPrune => False | _ => True end.
Definition to_call (c : fcall) : call :=
  match c with FSet i v => CSet i v | FAdd i u => CAdd i u | FThreshold => CThreshold | FClear => CClear end.
Lemma wo_run_field l : 1 <= T <= 21 -> Forall (fun c => call_in (to_call c) /\ call_below_root (to_call c)) l ->
  forall c, wo_cell C c -> wo_field C (wo_run C (map to_call l)) c = frun (clo C) (chi C) l c.
Proof.
  intros HT. induction l as [|x l IH] using rev_ind; intros Hl c Hc.
  - unfold wo_run, frun. cbn [map fold_left]. unfold fzero, wo_field, wo_get. cbv [wo_toInternal].
    apply wt_get_new; cbn [oh]; lia.
  - apply Forall_app in Hl as [Hl Hx]. inversion Hx as [|? ? [Hx1 Hx2] _]; subst. specialize (IH Hl).
    rewrite map_app. rewrite wo_run_app. unfold frun. rewrite fold_left_app. fold (frun (clo C) (chi C) l).
    cbn [map fold_left]. assert (Ht : tree_ok T (wo_run C (map to_call l))).
    { apply wo_run_ok; [assumption|]. apply Forall_map. eapply Forall_impl; [|exact Hl]. cbn. tauto. }
    destruct x as [i v|i u| |]; cbn [to_call wo_apply fapply call_in call_below_root] in *.
    + rewrite wo_set_field by assumption. unfold fset_parent, fadd. rewrite IH by assumption.
      destruct (in_node i c); [|reflexivity]. do 2 f_equal. apply node_mean_ext; [destruct Hx1; cbn; lia|].
      intros c' Hc'. apply IH. apply (in_node_cell (parent_node i)); [apply parent_inside; assumption|assumption].
    + rewrite wo_add_field by assumption. unfold fadd. rewrite IH by assumption. reflexivity.
    + rewrite wo_threshold_cell by assumption. unfold fclamp. rewrite IH by assumption. reflexivity.
    + unfold wo_field, wo_get, wo_clear, fzero. cbv [wo_toInternal]. apply wt_get_new; cbn [oh]; lia.
Qed.

(** Bounds *)
Lemma ile_trans a b c : ile a b -> ile b c -> ile a c.
Proof. unfold ile. lia. Qed.
Lemma fold_min_le (l : list (oidx * Qc)) : forall acc, ile (fold_left (fun acc iv => if isUnobserved qn (snd iv) then acc
      else imap2 Z.min acc (minCorner (fst iv))) l acc) acc.
Proof.
  induction l as [|[i v] l IH]; intros acc; cbn [fold_left]; [unfold ile; lia|]. specialize (IH (if isUnobserved qn (snd (i, v)) then acc
      else imap2 Z.min acc (minCorner (fst (i, v))))). unfold ile in *.
  destruct (isUnobserved qn (snd (i, v))); [assumption|]. cbn [imap2 px py pz] in *. lia.
Qed.
Lemma fold_min_in (l : list (oidx * Qc)) i v : forall acc, In (i, v) l -> isUnobserved qn v = false ->
  ile (fold_left (fun acc iv => if isUnobserved qn (snd iv) then acc
      else imap2 Z.min acc (minCorner (fst iv))) l acc) (minCorner i).
Proof.
  induction l as [|[j w] l IH]; intros acc Hin Hv; cbn [fold_left]; [destruct Hin|].
  destruct Hin as [E|Hin]; [|apply IH; assumption]. injection E as -> ->. cbn [fst snd]. rewrite Hv.
  pose proof (fold_min_le l (imap2 Z.min acc (minCorner i))) as L. unfold ile in *. cbn [imap2 px py pz] in L. lia.
Qed.
Lemma fold_max_le (l : list (oidx * Qc)) : forall acc, ile acc (fold_left (fun acc iv => if isUnobserved qn (snd iv) then acc
      else imap2 Z.max acc (maxCorner (fst iv))) l acc).
Proof.
  induction l as [|[i v] l IH]; intros acc; cbn [fold_left]; [unfold ile; lia|]. specialize (IH (if isUnobserved qn (snd (i, v)) then acc
      else imap2 Z.max acc (maxCorner (fst (i, v))))). unfold ile in *.
  destruct (isUnobserved qn (snd (i, v))); [assumption|]. cbn [imap2 px py pz] in *. lia.
Qed.
Lemma fold_max_in (l : list (oidx * Qc)) i v : forall acc, In (i, v) l -> isUnobserved qn v = false ->
  ile (maxCorner i) (fold_left (fun acc iv => if isUnobserved qn (snd iv) then acc
      else imap2 Z.max acc (maxCorner (fst iv))) l acc).
Proof.
  induction l as [|[j w] l IH]; intros acc Hin Hv; cbn [fold_left]; [destruct Hin|].
  destruct Hin as [E|Hin]; [|apply IH; assumption]. injection E as -> ->. cbn [fst snd]. rewrite Hv.
  pose proof (fold_max_le l (imap2 Z.max acc (maxCorner i))) as L. unfold ile in *. cbn [imap2 px py pz] in L. lia.
Qed.
Lemma corners_cover i c : 0 <= oh i -> covers3 i c -> ile (minCorner i) c /\ ile c (maxCorner i).
Proof.
  intros Hh Hc. unfold covers3 in Hc. destruct i as [h p], c as [a b e]. cbn [oh opos] in *. subst p.
  unfold minCorner, maxCorner, ile, imap, mult_exp2. cbn [oh opos px py pz]. rewrite !exp2_pow by assumption.
  pose proof (pow2_pos h Hh) as P. assert (D : forall u, u / 2 ^ h * 2 ^ h <= u <= u / 2 ^ h * 2 ^ h + (2 ^ h - 1)).
  { intros u. pose proof (Z.div_mod u (2 ^ h) ltac:(lia)). pose proof (Z.mod_pos_bound u (2 ^ h) P). lia. }
  pose proof (D a). pose proof (D b). pose proof (D e). lia.
Qed.
Lemma wo_bounds t fuel mn mx c : tree_ok T t -> (nsize (wroot t) <= fuel)%nat ->
  wo_minIndex qn fuel C t = Some mn -> wo_maxIndex qn fuel C t = Some mx -> wo_cell C c ->
  (qeps <= Qcabs (wo_field C t c))%Qc -> ile mn c /\ ile c mx.
Proof.
  intros Ht Hf Hmn Hmx Hc Hv.
  assert (Hu : isUnobserved qn (wo_field C t c) = false).
  { unfold isUnobserved. apply qltb_false. exact Hv. }
  assert (He : wt_empty qn t = false).
  { destruct (wt_empty qn t) eqn:E; [|reflexivity]. exfalso.
    rewrite wo_field_cellv in Hv by (destruct Ht; lia). unfold cellv in Hv.
    destruct (wt_empty_get T t 0 (shift (2 ^ (T - 1)) c) E ltac:(destruct Ht; lia) ltac:(destruct Ht; lia)) as [E1 E2].
    rewrite E1 in Hv. revert Hv E2. generalize (Qcabs (wscale t)). intros x Hx1 Hx2. apply (Qcle_not_lt _ _ Hx1 Hx2). }
  unfold wo_minIndex in Hmn. unfold wo_maxIndex in Hmx. destruct (wo_forEachLeaf qn fuel C t) as [l|] eqn:El; [|discriminate].
  injection Hmn as <-. injection Hmx as <-.
  destruct (wo_leaves C t fuel l Ht Hf He El) as [L1 L2]. destruct (L2 c Hc) as (l1 & i & l2 & -> & Hci & _).
  assert (Hin : In (i, wo_field C t c) (l1 ++ (i, wo_field C t c) :: l2)) by (apply in_or_app; right; left; reflexivity).
  destruct (corners_cover i c ltac:(apply (L1 _ _ Hin)) Hci) as [B1 B2]. split.
  - exact (ile_trans _ _ _ (fold_min_in _ i _ (wo_maxPossible C) Hin Hu) B1).
  - exact (ile_trans _ _ _ B2 (fold_max_in _ i _ (wo_minPossible C) Hin Hu)).
Qed.
End PlainHist.

(** ** Hashed *)
Section HashedHist.
Context (C : wconfig (V := Qc)).
Notation T := (cT C).
Lemma hw_apply_ok m tc : 1 <= T <= 21 -> (clo C <= chi C)%Qc -> hw_ok C m -> hw_ok C (hw_apply C m tc).
Proof.
  intros HT Hlh Hm. destruct tc as [now c]. destruct c as [i v|i u| | |age| |b]; cbn [hw_apply].
  - apply hw_set_ok; assumption.
  - apply hw_add_ok; assumption.
  - apply hw_threshold_ok; assumption.
  - apply hw_prune_ok; assumption.
  - apply hw_pruneSmart_ok; assumption.
  - apply hw_ok_nil.
  - destruct Hm as [W H]. split; [apply filter_wf; assumption|]. intros b' blk E.
    rewrite getBlock_eraseBlock in E. destruct (ieqb b b'); [discriminate|]. apply (H b'). assumption.
Qed.
Lemma hw_run_ok l : 1 <= T <= 21 -> (clo C <= chi C)%Qc -> hw_ok C (hw_run C l).
Proof.
  intros HT Hlh. unfold hw_run. pose proof (hw_ok_nil C) as H0. revert H0. generalize (@nil (idx3 * wblock (V := Qc))).
  induction l as [|c l IH]; intros m Hm; cbn [fold_left]; [assumption|].
  apply IH. apply hw_apply_ok; assumption.
Qed.
Lemma hw_run_app l l' : hw_run C (l ++ l') = fold_left (hw_apply C) l' (hw_run C l).
Proof. apply fold_left_app. Qed.

Lemma hw_set_field m now i v c : 1 <= T <= 21 ->
  hw_field C (hw_set qn C now m i v) c = fset_parent (hw_field C m) (OI 0 i) v c.
Proof.
  intros HT. unfold hw_set, fset_parent. cbv zeta.
  rewrite (hw_update_cell C m now i (fun cur => nsub qn v cur) (true, true) c
             (fun b => wb_set qn C now b (hw_cellIndex C (OI 0 i)) v)) by (assumption || (intros; reflexivity)).
  cbn [nsub qn]. rewrite hw_node_mean by (cbn [parent_node oh]; lia). reflexivity.
Qed.
Lemma hw_add_field m now i u c : 1 <= T <= 21 ->
  hw_field C (hw_add qn C now m i u) c = fadd (hw_field C m) (OI 0 i) u c.
Proof.
  intros HT. unfold hw_add. cbv zeta.
  apply (hw_update_cell C m now i (fun _ => u) (true, true) c
             (fun b => wb_add qn C now b (hw_cellIndex C (OI 0 i)) u)); [assumption|intros; reflexivity].
Qed.
(** Cell-level calls on the hashed map. *)
Definition to_hcall (c : fcall) : option hcall :=
  match c with
  | FSet (OI 0 i) v => Some (HSet i v) | FAdd (OI 0 i) u => Some (HAdd i u)
  | FThreshold => Some HThreshold | FClear => Some HClear | _ => None
  end.
Lemma to_hcall_set c i v : to_hcall c = Some (HSet i v) -> c = FSet (OI 0 i) v.
Proof.
  destruct c as [[h p] w|[h p] w| |]; cbn; try discriminate; destruct h; try discriminate; congruence.
Qed.
Lemma hw_run_field (lf : list fcall) (lh : list (Z * hcall)) : 1 <= T <= 21 -> (clo C <= 0)%Qc -> (0 <= chi C)%Qc ->
  Forall2 (fun f th => to_hcall f = Some (snd th)) lf lh ->
  forall c, hw_field C (hw_run C lh) c = frun (clo C) (chi C) lf c.
Proof.
  intros HT H0 H1. assert (Hlh : (clo C <= chi C)%Qc) by (eapply Qcle_trans; eassumption). revert lh.
  induction lf as [|x lf IH] using rev_ind; intros lh HF c.
  - inversion HF; subst. unfold hw_run, frun. cbn [fold_left]. rewrite hw_field_spec by lia. unfold tree_at. cbn [getBlock].
    rewrite cellv_new by lia. reflexivity.
  - apply Forall2_app_inv_l in HF as (l1 & l2 & HF & HF2 & ->). inversion HF2 as [|? th ? ? E HN]; subst. inversion HN; subst.
    specialize (IH l1 HF). rewrite hw_run_app. unfold frun. rewrite fold_left_app. fold (frun (clo C) (chi C) lf).
    cbn [fold_left]. destruct th as [now hc]. cbn [snd] in E.
    destruct x as [[h p] v|[h p] u| |]; cbn [to_hcall] in E.
    + destruct h; try discriminate. injection E as <-. cbn [hw_apply fapply]. rewrite hw_set_field by assumption.
      unfold fset_parent, fadd. rewrite IH. destruct (in_node (OI 0 p) c); [|reflexivity]. do 2 f_equal.
      apply node_mean_ext; [cbn; lia|]. intros c' _. apply IH.
    + destruct h; try discriminate. injection E as <-. cbn [hw_apply fapply]. rewrite hw_add_field by assumption.
      unfold fadd. rewrite IH. reflexivity.
    + injection E as <-. cbn [hw_apply fapply]. rewrite hw_threshold_cell by (assumption || apply hw_run_ok; assumption).
      unfold fclamp. rewrite IH. reflexivity.
    + injection E as <-. cbn [hw_apply fapply]. rewrite hw_field_spec by lia. unfold tree_at, hw_clear. cbn [getBlock].
      rewrite cellv_new by lia. reflexivity.
Qed.

Lemma hw_prune_flags m b blk : hwf m -> getBlock (hw_prune qn C m) b = Some blk -> bprn blk = false /\ wb_empty qn blk = false.
Proof.
  intros W. unfold hw_prune. rewrite getBlock_eraseBlockIf by assumption.
  destruct (getBlock m b) as [b0|]; [|discriminate]. cbn [fst snd]. destruct (wb_empty qn (wb_prune qn C b0)) eqn:E; [discriminate|].
  intros H. injection H as <-. split; [|assumption]. unfold wb_prune. destruct (bprn b0) eqn:Eb; [|exact Eb]. reflexivity.
Qed.
Lemma eraseBlockIf_id {B} (f : idx3 -> B -> B * bool) m : (forall k b, In (k, b) m -> f k b = (b, false)) -> eraseBlockIf f m = m.
Proof.
  induction m as [|[k b] m IH]; intros H; cbn [eraseBlockIf]; [reflexivity|]. rewrite (H k b) by (left; reflexivity).
  f_equal. apply IH. intros k' b' Hin. apply H. right. assumption.
Qed.
Lemma hw_prune_idem m : hwf m -> hw_prune qn C (hw_prune qn C m) = hw_prune qn C m.
Proof.
  intros W. apply (eraseBlockIf_id _ (hw_prune qn C m)). intros k b Hin.
  assert (W' : hwf (hw_prune qn C m)) by (apply eraseBlockIf_wf; assumption).
  destruct (hw_prune_flags m k b W (In_getBlock _ _ _ W' Hin)) as [E1 E2]. unfold wb_prune. rewrite E1. cbv zeta. rewrite E2. reflexivity.
Qed.

(** Keys stay inside the int32 range if all edited cells are. *)
Definition hcall_i32 (c : hcall) : Prop := match c with HSet i _ | HAdd i _ => in_i32 i | _ => True end.
Lemma block_of_i32 i : 0 <= T -> in_i32 i -> in_i32 (block_of C i).
Proof.
  intros HT. unfold in_i32, block_of, imap. destruct i as [x y z]. cbn [px py pz]. pose proof (pow2_pos T HT) as P.
  assert (D : forall u, int_min <= u <= int_max -> int_min <= u / 2 ^ T <= int_max).
  { intros u [A B]. unfold int_min, int_max in *. split.
    - apply Z.div_le_lower_bound; [assumption|]. nia.
    - apply Z.div_le_upper_bound; [assumption|]. nia. }
  intros (A & B & D'). repeat split; apply D; assumption.
Qed.
Lemma hw_run_keys l : 1 <= T <= 21 -> Forall (fun tc => hcall_i32 (snd tc)) l ->
  forall k, In k (keys (hw_run C l)) -> in_i32 k.
Proof.
  intros HT. induction l as [|[now c] l IH] using rev_ind; intros Hl k Hk; [destruct Hk|].
  apply Forall_app in Hl as [Hl Hc]. inversion Hc as [|? ? Hc1 _]; subst. cbn [snd] in Hc1. specialize (IH Hl).
  rewrite hw_run_app in Hk. cbn [fold_left] in Hk. destruct c as [i v|i u| | |age| |b]; cbn [hw_apply hcall_i32] in *.
  - unfold hw_set in Hk. apply setBlock_keys in Hk as [->|Hk]; [|apply IH; assumption].
    rewrite indexToBlockIndex3_spec by lia. apply block_of_i32; [lia|assumption].
  - unfold hw_add in Hk. apply setBlock_keys in Hk as [->|Hk]; [|apply IH; assumption].
    rewrite indexToBlockIndex3_spec by lia. apply block_of_i32; [lia|assumption].
  - unfold hw_threshold in Hk. rewrite forEachBlock_keys in Hk. apply IH; assumption.
  - apply eraseBlockIf_keys in Hk. apply IH; assumption.
  - apply eraseBlockIf_keys in Hk. apply IH; assumption.
  - destruct Hk.
  - apply filter_keys in Hk. apply IH; assumption.
Qed.
End HashedHist.
