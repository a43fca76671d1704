(** WaveletOctree and HashedWaveletOctree as fields of cell values (exact arithmetic). *)
From Verif Require Import Base M_IntMath F_IntMath M_Morton F_Morton M_NdtreeIndex F_NdtreeIndex
  M_Num F_Num M_Haar F_Haar M_Haar3 F_Haar3 M_Ndtree S_Field F_Hash M_Wavelet F_Wavelet F_Wavelet2 F_Leaves F_WavTree.
From Coq Require Import QArith Qcanon Qcabs Lqa.
Close Scope Qc_scope.
Close Scope Q_scope.
Open Scope Z_scope.

(** ** Bridges to the specification vocabulary *)
Lemma div_eq_iff x w p : 0 < w -> (x / w = p <-> p * w <= x < (p + 1) * w).
Proof.
  intros Hw. split.
  - intros <-. pose proof (Z.mul_div_le x w Hw). pose proof (Z.mul_succ_div_gt x w Hw). lia.
  - intros H. symmetry. apply (Z.div_unique x w p (x - p * w)); lia.
Qed.
Lemma in_node_covers i c : 0 <= oh i -> (in_node i c = true <-> covers3 i c).
Proof.
  intros Hh. destruct i as [h [x y z]], c as [a b e]. unfold in_node, covers3, imap. cbn [oh opos px py pz] in *.
  pose proof (pow2_pos h Hh) as P.
  rewrite !andb_true_iff, !Z.leb_le, !Z.ltb_lt.
  pose proof (div_eq_iff a (2 ^ h) x P). pose proof (div_eq_iff b (2 ^ h) y P). pose proof (div_eq_iff e (2 ^ h) z P).
  split.
  - intros (((((? & ?) & ?) & ?) & ?) & ?). f_equal; tauto.
  - intros E. injection E as E1 E2 E3. tauto.
Qed.
Lemma in_node_covers3b i c : 0 <= oh i -> in_node i c = covers3b i c.
Proof.
  intros Hh. pose proof (in_node_covers i c Hh) as H. rewrite <- covers3b_iff in H.
  destruct (in_node i c), (covers3b i c); try reflexivity; exfalso; destruct H; intuition congruence.
Qed.
Lemma clampq_qclamp lo hi v : clampq lo hi v = qclamp lo hi v.
Proof.
  unfold clampq, qclamp, nclamp. cbn [nltb qn]. unfold qltb.
  destruct (Qlt_le_dec (this v) (this lo)) as [L|L].
  - destruct (Qle_bool (this lo) (this v)) eqn:E; [|reflexivity]. apply Qle_bool_iff in E.
    exfalso. exact (Qlt_not_le _ _ L E).
  - apply Qle_bool_iff in L. rewrite L. cbn [negb].
    destruct (Qlt_le_dec (this hi) (this v)) as [M|M].
    + destruct (Qle_bool (this v) (this hi)) eqn:E; [|reflexivity]. apply Qle_bool_iff in E.
      exfalso. exact (Qlt_not_le _ _ M E).
    + apply Qle_bool_iff in M. rewrite M. reflexivity.
Qed.
Lemma q8pow_qz h : q8pow h = qz (8 ^ Z.of_nat h).
Proof.
  induction h as [|h IH]; [apply Qc_is_canon; reflexivity|].
  rewrite q8pow_S, IH. replace (8 ^ Z.of_nat (S h)) with (8 * 8 ^ Z.of_nat h)
    by (rewrite <- Z.pow_succ_r by lia; f_equal; lia).
  rewrite qz_mul. f_equal; try reflexivity.
Qed.
Lemma qz8_neq0 h : 0 <= h -> qz (8 ^ h) <> 0%Qc.
Proof. intros H. rewrite <- (Z2Nat.id h) by assumption. rewrite <- q8pow_qz. apply q8pow_neq0. Qed.
Lemma exactly_one_covered l c v : (forall i u, In (i, u) l -> 0 <= oh i) ->
  covered_once l c v -> exactly_one l c v.
Proof.
  intros Hh (l1 & i & l2 & -> & H1 & H2). exists l1, i, l2. split; [reflexivity|].
  split.
  - apply in_node_covers; [|assumption]. apply (Hh i v). apply in_or_app. right. left. reflexivity.
  - intros j u Hj. assert (Hj' : 0 <= oh j).
    { apply (Hh j u). apply in_app_or in Hj. apply in_or_app. destruct Hj; [left|right; right]; assumption. }
    destruct (in_node j c) eqn:E; [|reflexivity]. exfalso. apply in_node_covers in E; [|assumption].
    apply (H2 j); [|assumption]. apply in_map_iff. exists (j, u). split; [reflexivity|assumption].
Qed.

(** ** Averages stay in range; pruned values are averages *)
Lemma eval_range_up lo hi v n k : (forall q, valid_path q -> length q = k -> (lo <= eval v n q /\ eval v n q <= hi)%Qc) ->
  forall d q, valid_path q -> (length q + d = k)%nat -> (lo <= eval v n q /\ eval v n q <= hi)%Qc.
Proof.
  intros H. induction d as [|d IH]; intros q Hq Hd; [apply H; [assumption|lia]|].
  assert (M := eval_mean q v n Hq). unfold sum8 in M.
  assert (S : forall c, 0 <= c < 8 -> (lo <= eval v n (q ++ [c]) /\ eval v n (q ++ [c]) <= hi)%Qc).
  { intros c Hc. apply IH; [|rewrite app_length; cbn [length]; lia].
    apply Forall_app. split; [assumption|]. constructor; [assumption|constructor]. }
  assert (S0 := S 0 ltac:(lia)). assert (S1 := S 1 ltac:(lia)). assert (S2 := S 2 ltac:(lia)). assert (S3 := S 3 ltac:(lia)).
  assert (S4 := S 4 ltac:(lia)). assert (S5 := S 5 ltac:(lia)). assert (S6 := S 6 ltac:(lia)). assert (S7 := S 7 ltac:(lia)).
  clear S H IH. 
  destruct S0, S1, S2, S3, S4, S5, S6, S7.
  replace (Qcpower q2 3) with (Q2Qc 8) in M by (apply Qc_is_canon; reflexivity).
  split; qlra.
Qed.
Lemma prune_prefix n : forall v q, valid_path q -> exists j, (j <= length q)%nat /\
  eval v (prune_rec qn n) q = eval v n (firstn j q).
Proof.
  induction n as [n IH] using node_ind_child. intros v q Hq. destruct q as [|c q]; [exists O; auto|].
  inversion Hq; subst. cbn [eval length]. rewrite prune_data, prune_getChild by assumption.
  destruct (getChild n c) as [ch|] eqn:E.
  - destruct (prune_child qn (prune_rec qn ch)) as [m|] eqn:Em.
    + apply prune_child_some in Em. subst m.
      destruct (IH c ch E (child_value v (ndata n) c) q ltac:(assumption)) as (j & Hj & Ej).
      exists (S j). split; [lia|]. cbn [firstn eval]. rewrite E. exact Ej.
    + exists 1%nat. split; [lia|]. cbn [firstn eval]. rewrite E. reflexivity.
  - exists 1%nat. split; [lia|]. cbn [firstn eval]. rewrite E. reflexivity.
Qed.

Definition cells_in (lo hi : Qc) (T : Z) (t : wtree) : Prop :=
  forall cell, (lo <= cellv T t cell /\ cellv T t cell <= hi)%Qc.
Lemma path_surj k : forall q, valid_path q -> length q = k -> exists p, path k p = q.
Proof.
  intros q. revert k. induction q as [|c q IH] using rev_ind; intros k Hq Hl.
  - cbn in Hl. subst k. exists (I3 0 0 0). reflexivity.
  - apply Forall_app in Hq as [Hq Hc]. inversion Hc; subst. rewrite app_length in *. cbn [length] in *.
    destruct (IH (length q) Hq eq_refl) as [p Hp]. exists (child_pos p c).
    replace (length q + 1)%nat with (S (length q)) by lia. rewrite child_pos_path by assumption. rewrite Hp. reflexivity.
Qed.
Lemma cells_in_eval lo hi T t : 1 <= T <= 21 -> cells_in lo hi T t ->
  forall q, valid_path q -> (length q <= Z.to_nat T)%nat ->
  (lo <= eval (wscale t) (wroot t) q /\ eval (wscale t) (wroot t) q <= hi)%Qc.
Proof.
  intros HT H q Hq Hl. apply (eval_range_up lo hi _ _ (Z.to_nat T)) with (d := (Z.to_nat T - length q)%nat); [|assumption|lia].
  intros r Hr Hrl. destruct (path_surj (Z.to_nat T) r Hr Hrl) as [p <-].
  specialize (H p). unfold cellv in H. rewrite wt_get_eval in H by lia. rewrite Z.sub_0_r in H. exact H.
Qed.
Lemma cells_in_node lo hi T t : 1 <= T <= 21 -> cells_in lo hi T t ->
  forall i, 0 <= oh i <= T -> (lo <= wt_get qn T t i /\ wt_get qn T t i <= hi)%Qc.
Proof.
  intros HT H [h p] Hi. cbn [oh] in *. rewrite wt_get_eval by lia.
  apply (cells_in_eval lo hi T); [assumption|assumption|apply path_valid|rewrite path_length; lia].
Qed.
Lemma cells_in_prune lo hi T t : 1 <= T <= 21 -> cells_in lo hi T t -> cells_in lo hi T (wt_prune t).
Proof.
  intros HT H cell. unfold cellv. rewrite wt_get_eval by lia. cbn [wt_prune wscale wroot].
  destruct (prune_prefix (wroot t) (wscale t) (path (Z.to_nat (T - 0)) cell) (path_valid _ _)) as (j & Hj & E).
  rewrite E. apply (cells_in_eval lo hi T); [assumption|assumption| |].
  - apply Forall_forall. intros x Hx. apply (proj1 (Forall_forall _ _) (path_valid (Z.to_nat (T - 0)) cell)).
    rewrite <- (firstn_skipn j). apply in_or_app. left. assumption.
  - rewrite firstn_length, path_length. lia.
Qed.

(** ** WaveletOctree *)
Section Plain.
Context (C : wconfig (V := Qc)).
Notation T := (cT C).
(** Nodes the API accepts: height below tree_height (DCHECK in toInternal) and inside
    [-2^(T-1), 2^(T-1))^3. *)
Definition wo_inside (i : oidx) : Prop :=
  0 <= oh i < T /\
  (- 2 ^ (T - 1 - oh i) <= px (opos i) < 2 ^ (T - 1 - oh i)) /\
  (- 2 ^ (T - 1 - oh i) <= py (opos i) < 2 ^ (T - 1 - oh i)) /\
  (- 2 ^ (T - 1 - oh i) <= pz (opos i) < 2 ^ (T - 1 - oh i)).
Definition wo_cell (c : idx3) : Prop := wo_inside (OI 0 c).
Definition wo_field (t : wtree) : field := fun c => wo_get qn C t (OI 0 c).
Definition shift (d : Z) (c : idx3) : idx3 := imap (fun x => x + d) c.

Lemma wo_offset_spec h : 0 <= h < T -> wo_offset T h = 2 ^ (T - 1 - h).
Proof.
  intros H. unfold wo_offset. rewrite div_exp2_floor_spec by lia. unfold mult_exp2. rewrite exp2_pow by lia.
  assert (E : 2 ^ (T - 1) = 2 ^ (T - 1 - h) * 2 ^ h) by (rewrite <- Z.pow_add_r by lia; f_equal; lia).
  rewrite E, Z.mul_1_l. apply Z.div_mul. pose proof (pow2_pos h ltac:(lia)). lia.
Qed.
Lemma wo_toInternal_spec h p : 0 <= h < T -> wo_toInternal T (OI h p) = OI h (shift (2 ^ (T - 1 - h)) p).
Proof. intros H. unfold wo_toInternal. cbn [oh opos]. rewrite wo_offset_spec by assumption. reflexivity. Qed.
Lemma wo_inside_int i : wo_inside i -> inside T (wo_toInternal T i).
Proof.
  destruct i as [h p]. intros (Hh & H1 & H2 & H3). cbn [oh opos] in *. rewrite wo_toInternal_spec by assumption.
  unfold inside, shift, imap. cbn [oh opos px py pz].
  assert (E : 2 ^ (T - h) = 2 * 2 ^ (T - 1 - h)) by (rewrite <- Z.pow_succ_r by lia; f_equal; lia).
  lia.
Qed.
Lemma wo_cell_box c : wo_cell c -> in_box T (shift (2 ^ (T - 1)) c).
Proof.
  intros H. pose proof (wo_inside_int _ H) as I. destruct H as [Hh _]. cbn [oh] in Hh.
  rewrite wo_toInternal_spec in I by lia. rewrite Z.sub_0_r in I. destruct I as [_ I]. cbn [oh opos] in I.
  rewrite Z.sub_0_r in I. exact I.
Qed.
Lemma wo_field_cellv t c : 1 <= T -> wo_field t c = cellv T t (shift (2 ^ (T - 1)) c).
Proof. intros H. unfold wo_field, wo_get, cellv. rewrite wo_toInternal_spec by lia. rewrite Z.sub_0_r. reflexivity. Qed.
Lemma div_shift x h k : 0 <= h <= k -> (x + 2 ^ k) / 2 ^ h = x / 2 ^ h + 2 ^ (k - h).
Proof.
  intros H. assert (E : 2 ^ k = 2 ^ (k - h) * 2 ^ h) by (rewrite <- Z.pow_add_r by lia; f_equal; lia).
  rewrite E. apply Z.div_add.
  pose proof (pow2_pos h ltac:(lia)). lia.
Qed.
Lemma wo_covers i c : 0 <= oh i < T ->
  covers3b (wo_toInternal T i) (shift (2 ^ (T - 1)) c) = in_node i c.
Proof.
  intros H. rewrite in_node_covers3b by lia. destruct i as [h p]. cbn [oh] in H. rewrite wo_toInternal_spec by assumption.
  destruct p as [x y z], c as [a b e]. unfold covers3b, shift, imap. cbn [oh opos px py pz].
  rewrite !div_shift by lia. unfold ieqb. cbn [px py pz].
  assert (S : forall u v d, (u + d =? v + d) = (u =? v)) by (intros; lia).
  rewrite !S. reflexivity.
Qed.

Lemma wo_update_cell t i inc c : 1 <= T <= 21 -> wo_inside i -> wo_cell c ->
  wo_field (wt_update qn T t (wo_toInternal T i) inc) c =
  fadd (wo_field t) i (inc (ref_value T t (wo_toInternal T i))) c.
Proof.
  intros HT Hi Hc. unfold fadd. rewrite !wo_field_cellv by lia.
  rewrite wt_update_cell; [|assumption|apply wo_inside_int; assumption|apply wo_cell_box; assumption].
  rewrite wo_covers by (destruct Hi; assumption). destruct (in_node i c); [reflexivity|]. apply Qcplus_0_r.
Qed.

Lemma sum_range_shift f d n : forall a, sum_range f (a + d) n = sum_range (fun x => f (x + d)) a n.
Proof.
  induction n as [|n IH]; intros a; cbn [sum_range]; [reflexivity|].
  replace (a + d + 1) with (a + 1 + d) by lia. rewrite IH. reflexivity.
Qed.
Lemma sum_range_ext_all f g n a : (forall x, f x = g x) -> sum_range f a n = sum_range g a n.
Proof. intros H. apply sum_range_ext. intros; apply H. Qed.
Lemma cell_sum_shift f h p k : 0 <= h <= k ->
  cell_sum f h (shift (2 ^ (k - h)) p) = cell_sum (fun c => f (shift (2 ^ k) c)) h p.
Proof.
  intros H. unfold cell_sum, shift at 1 2 3, imap at 1 2 3. cbn [px py pz].
  assert (E : forall x, (x + 2 ^ (k - h)) * 2 ^ h = x * 2 ^ h + 2 ^ k).
  { intros x. rewrite Z.mul_add_distr_r, <- Z.pow_add_r by lia. do 2 f_equal. lia. }
  rewrite !E, sum_range_shift. apply sum_range_ext_all. intros x.
  rewrite sum_range_shift. apply sum_range_ext_all. intros y. rewrite sum_range_shift. reflexivity.
Qed.
Lemma mean_of_sum f i v : 0 <= oh i -> cell_sum f (oh i) (opos i) = (q8pow (Z.to_nat (oh i)) * v)%Qc ->
  node_mean f i = v.
Proof.
  intros H E. unfold node_mean. rewrite E, q8pow_qz, Z2Nat.id by assumption. field. apply qz8_neq0. assumption.
Qed.
Lemma wo_node_mean t i : 1 <= T <= 21 -> 0 <= oh i < T -> wo_get qn C t i = node_mean (wo_field t) i.
Proof.
  intros HT Hh. symmetry. apply mean_of_sum; [lia|]. destruct i as [h p]. cbn [oh opos] in *.
  unfold wo_get. rewrite wo_toInternal_spec by assumption. rewrite <- wt_node_mean by lia.
  rewrite cell_sum_shift by lia. apply cell_sum_ext; [lia|]. intros c _. apply wo_field_cellv. lia.
Qed.
(** The value setCellValue compares with, for nodes below the top two levels. *)
Lemma wo_ref_value t i : 1 <= T <= 21 -> 0 <= oh i -> oh i + 1 < T ->
  ref_value T t (wo_toInternal T i) = node_mean (wo_field t) (parent_node i).
Proof.
  intros HT H0 H. rewrite <- wo_node_mean by (cbn [parent_node oh]; lia).
  destruct i as [h p]. cbn [oh] in *. unfold ref_value. rewrite wo_toInternal_spec by lia. cbn [oh].
  replace (h =? T) with false by (symmetry; apply Z.eqb_neq; lia).
  unfold wo_get. f_equal. unfold parent_index, parent_node. cbn [oh opos]. rewrite wo_toInternal_spec by lia.
  f_equal. destruct p as [x y z]. unfold shift, imap. cbn [px py pz].
  assert (D : forall u, (u + 2 ^ (T - 1 - h)) / 2 = u / 2 + 2 ^ (T - 1 - (h + 1))).
  { intros u. pose proof (div_shift u 1 (T - 1 - h) ltac:(lia)) as D. rewrite Z.pow_1_r in D. rewrite D. do 2 f_equal. lia. }
  rewrite !D. reflexivity.
Qed.
Lemma wo_ref_value_top t i : 1 <= T <= 21 -> oh i + 1 = T -> wo_inside i ->
  ref_value T t (wo_toInternal T i) = wscale t.
Proof.
  intros HT H Hi. destruct i as [h p]. cbn [oh] in *. unfold ref_value. rewrite wo_toInternal_spec by lia. cbn [oh].
  replace (h =? T) with false by (symmetry; apply Z.eqb_neq; lia).
  unfold parent_index. cbn [oh opos]. rewrite wt_get_eval by lia. replace (T - (h + 1)) with 0 by lia. reflexivity.
Qed.

Lemma wo_threshold_eq t : wo_threshold qn C t = wt_threshold (clo C) (chi C) t.
Proof.
  unfold wo_threshold, wt_threshold. rewrite F_Wavelet2.wo_threshold_eq. f_equal. cbn [nsub qn]. ring.
Qed.
Lemma wo_prune_eq t : wo_prune qn C t = wt_prune (wt_threshold (clo C) (chi C) t).
Proof.
  unfold wo_prune, wt_threshold, wt_prune. rewrite F_Wavelet2.wo_prune_eq. cbn [wroot wscale]. f_equal. cbn [nsub qn]. ring.
Qed.
Lemma wo_threshold_cell t c : tree_ok T t -> wo_field (wo_threshold qn C t) c = fclamp (clo C) (chi C) (wo_field t) c.
Proof.
  intros H. unfold fclamp. rewrite wo_threshold_eq, !wo_field_cellv by (destruct H; lia).
  rewrite wt_threshold_cell by assumption. symmetry. apply clampq_qclamp.
Qed.
Lemma wo_prune_cell t c : tree_ok T t ->
  (Qcabs (wo_field (wo_prune qn C t) c - fclamp (clo C) (chi C) (wo_field t) c) <= qz (T - 1) * prune_unit)%Qc.
Proof.
  intros H. rewrite <- wo_threshold_cell by assumption. rewrite wo_prune_eq, <- wo_threshold_eq.
  rewrite !wo_field_cellv by (destruct H; lia). apply wt_prune_node; [|destruct H; lia].
  rewrite wo_threshold_eq. apply wt_threshold_ok. assumption.
Qed.

(** Leaves *)
Lemma leaves_heights th n : forall idx v i u, 0 <= th -> 1 <= oh idx -> In (i, u) (leaves qn th n idx v) ->
  0 <= oh i < oh idx /\ (th < oh idx -> th <= oh i).
Proof.
  induction n as [n IH] using node_ind_child. intros idx v i u Hth Hh Hin. rewrite leaves_eq in Hin.
  apply in_app_or in Hin. destruct Hin as [Hin|Hin]; apply in_flat_map in Hin as (c & Hc & Hin).
  - destruct (sub qn th n idx v c); [destruct Hin|]. destruct Hin as [E|[]]. injection E as <- _.
    cbn [ochild oh]. lia.
  - unfold sub in Hin. destruct (getChild n c) as [ch|] eqn:E; [|destruct Hin].
    destruct (Z.ltb_spec th (oh idx - 1)); [|destruct Hin].
    apply (IH c ch E) in Hin; [|assumption|cbn [ochild oh]; lia]. cbn [ochild oh] in Hin. lia.
Qed.
Lemma wt_leaves_heights t th b fuel l i u : 1 <= T -> 0 <= th < T -> (nsize (wroot t) <= fuel)%nat ->
  wt_forEachLeaf qn fuel th (OI T b) t = Some l -> In (i, u) l -> th <= oh i < T.
Proof.
  intros HT Hth Hf Hl Hin. unfold wt_forEachLeaf in Hl. destruct (wt_empty qn t).
  - injection Hl as <-. destruct Hin.
  - rewrite leaf_loop_leaves in Hl by (cbn [stack_size]; lia). injection Hl as <-.
    cbn [rev app flat_map fst snd] in Hin. rewrite app_nil_r in Hin. apply leaves_heights in Hin; cbn [oh] in *; lia.
Qed.

Lemma wo_toExternal_covers i c : 0 <= oh i < T ->
  (covers3 i (shift (2 ^ (T - 1)) c) <-> covers3 (wo_toExternal T i) c).
Proof.
  intros H. destruct i as [h [x y z]], c as [a b e]. cbn [oh] in H. unfold covers3, wo_toExternal, shift, imap.
  cbn [oh opos px py pz]. rewrite wo_offset_spec by assumption. rewrite !div_shift by lia.
  split; intros E; injection E as E1 E2 E3; f_equal; lia.
Qed.
Lemma wo_leaves t fuel l : tree_ok T t -> (nsize (wroot t) <= fuel)%nat -> wt_empty qn t = false ->
  wo_forEachLeaf qn fuel C t = Some l ->
  (forall i u, In (i, u) l -> 0 <= oh i < T) /\
  forall c, (wo_cell c -> covered_once l c (wo_field t c)).
Proof.
  intros Ht Hf He Hl. unfold wo_forEachLeaf in Hl.
  destruct (wt_forEachLeaf qn fuel 0 (OI T (I3 0 0 0)) t) as [l0|] eqn:E0; [|discriminate]. injection Hl as <-.
  assert (HT : 1 <= T) by (destruct Ht; lia).
  assert (HH : forall i u, In (i, u) l0 -> 0 <= oh i < T).
  { intros i u Hin. apply (wt_leaves_heights t 0 (I3 0 0 0) fuel l0 i u HT ltac:(lia) Hf E0 Hin). }
  split.
  - intros i u Hin. apply in_map_iff in Hin as ([j w] & E & Hin). injection E as <- <-.
    cbn [fst wo_toExternal oh]. eapply HH. eassumption.
  - intros c Hc. pose proof (wo_cell_box c Hc) as Hb.
    destruct (wt_leaves T t 0 (I3 0 0 0) fuel l0 Ht ltac:(lia) Hf He E0 (shift (2 ^ (T - 1)) c)) as [H _].
    specialize (H ltac:(destruct (shift (2 ^ (T - 1)) c) as [a b e]; unfold covers3, imap; cbn [oh opos px py pz];
      destruct Hb as (B1 & B2 & B3); cbn [px py pz] in *; rewrite !Z.div_small by assumption; reflexivity)).
    destruct H as (l1 & i & l2 & -> & Hci & Hu).
    exists (map (fun iv => (wo_toExternal T (fst iv), snd iv)) l1), (wo_toExternal T i),
           (map (fun iv => (wo_toExternal T (fst iv), snd iv)) l2).
    rewrite map_app. split; [|split].
    + cbn [map fst snd]. rewrite wo_field_cellv by assumption. do 3 f_equal. unfold cellv. do 2 f_equal.
      destruct (shift (2 ^ (T - 1)) c) as [a b e]. unfold imap. cbn [px py pz]. rewrite !Z.div_1_r. reflexivity.
    + apply wo_toExternal_covers; [|assumption]. eapply HH. apply in_or_app. right. left. reflexivity.
    + rewrite <- map_app. intros j Hj. rewrite map_map in Hj. apply in_map_iff in Hj as ([j0 u] & <- & Hin).
      cbn [fst]. rewrite <- wo_toExternal_covers.
      * apply Hu. apply in_map_iff. exists (j0, u). auto.
      * apply in_app_or in Hin. eapply (HH j0 u). apply in_or_app. destruct Hin; [left|right; right]; assumption.
Qed.
End Plain.
