(** * C21: the dense-block map *)
From Verif Require Import Base M_IntMath F_IntMath M_NdtreeIndex F_NdtreeIndex M_Num F_Num M_Ndtree F_Hash M_Queue P_Queue M_HashedBlocks.
From Coq Require Import QArith Qcanon.
Close Scope Qc_scope. Close Scope Q_scope.
Open Scope Z_scope.

Section HB_SPEC.
Context {V : Type} (N : M_Num.num V) (C : hbconfig V) (HK : 0 <= hK C).
(** ** Specification: a map is a function from indices to values. *)
(** In block b of side s: s*b <= i < s*(b+1) on each axis. *)
Definition in_block (b i : idx3) : bool :=
  let s := 2 ^ hK C in
  (s * px b <=? px i) && (px i <? s * (px b + 1)) && (s * py b <=? py i) && (py i <? s * (py b + 1)) &&
  (s * pz b <=? pz i) && (pz i <? s * (pz b + 1)).
Definition clamp_spec (v : V) : V := if nltb N v (hlo C) then hlo C else if nltb N (hhi C) v then hhi C else v.
Definition val_step (f : idx3 -> V) (c : hbcall V) : idx3 -> V :=
  match c with
  | HBSet i v => fun j => if idx3_eq_dec i j then v else f j
  | HBAdd i u => fun j => if idx3_eq_dec i j then clamp_spec (nadd N (f j) u) else f j
  | HBThreshold | HBPrune => f
  | HBClear => fun _ => hdef C
  | HBErase b => fun j => if in_block b j then hdef C else f j
  end.
Definition val_run (l : list (hbcall V)) : idx3 -> V := fold_left val_step l (fun _ => hdef C).

(** ** Facts *)
Let s := 2 ^ hK C.
Lemma s_pos : 0 < s. Proof. apply Z.pow_pos_nonneg; lia. Qed.
Lemma side_eq : hb_side C = s. Proof. unfold hb_side, exp2. rewrite Z.shiftl_1_l. reflexivity. Qed.
Lemma ncells_eq : hb_ncells C = s ^ 3.
Proof. unfold hb_ncells, exp2, s. rewrite Z.shiftl_1_l, <- Z.pow_mul_r by lia. f_equal. lia. Qed.
Lemma blockIndex_eq i : hb_blockIndex C i = imap (fun c => c / s) i.
Proof. unfold hb_blockIndex, imap, s. rewrite !div_exp2_floor_spec by assumption. reflexivity. Qed.
Lemma cellIndex_eq i : hb_cellIndex C i = imap (fun c => c mod s) i.
Proof. unfold hb_cellIndex, imap, s. rewrite !div_exp2_floor_remainder_spec by assumption. reflexivity. Qed.
Definition in_cell (c : idx3) := Forall (fun x => 0 <= x < s) (ilist c).
Lemma cellIndex_range i : in_cell (hb_cellIndex C i).
Proof. rewrite cellIndex_eq. unfold in_cell, ilist, imap. cbn [px py pz]. pose proof s_pos. repeat constructor; apply Z.mod_pos_bound; assumption. Qed.
Lemma lin_range c : in_cell c -> (hb_lin C c < Z.to_nat (hb_ncells C))%nat.
Proof. intros H. unfold hb_lin. rewrite side_eq, ncells_eq. pose proof (linear_range s (ilist c) s_pos H) as L. cbn [ilist length] in L. change (Z.of_nat 3) with 3 in L. lia. Qed.
Lemma lin_inj a b : in_cell a -> in_cell b -> hb_lin C a = hb_lin C b -> a = b.
Proof.
  intros Ha Hb E. unfold hb_lin in E. rewrite side_eq in E.
  pose proof (linear_range s (ilist a) s_pos Ha). pose proof (linear_range s (ilist b) s_pos Hb).
  assert (E' : indexToLinearIndex s (ilist a) = indexToLinearIndex s (ilist b)) by lia.
  pose proof (linear_roundtrip s (ilist a) s_pos Ha) as Ra. rewrite E' in Ra. change (length (ilist a)) with (length (ilist b)) in Ra. rewrite (linear_roundtrip s (ilist b) s_pos Hb) in Ra.
  destruct a as [a1 a2 a3], b as [b1 b2 b3]. unfold ilist in Ra. cbn [px py pz] in Ra. congruence.
Qed.
Lemma split_inj i j : hb_blockIndex C i = hb_blockIndex C j -> hb_cellIndex C i = hb_cellIndex C j -> i = j.
Proof.
  rewrite !blockIndex_eq, !cellIndex_eq. destruct i as [a b c], j as [a' b' c']. unfold imap. cbn [px py pz]. intros E F.
  injection E as E1 E2 E3. injection F as F1 F2 F3. pose proof s_pos.
  rewrite (Z.div_mod a s), (Z.div_mod b s), (Z.div_mod c s), (Z.div_mod a' s), (Z.div_mod b' s), (Z.div_mod c' s) by lia. congruence.
Qed.
Lemma in_block_iff b i : in_block b i = true <-> hb_blockIndex C i = b.
Proof.
  rewrite blockIndex_eq. unfold in_block. fold s. pose proof s_pos as P. destruct b as [b1 b2 b3], i as [x y z]. unfold imap. cbn [px py pz].
  assert (D : forall u w, s * u <= w < s * (u + 1) <-> w / s = u).
  { intros u w. split; [intros H; symmetry; apply (Z.div_unique w s u (w - s * u)); lia|intros <-; pose proof (Z.div_mod w s); pose proof (Z.mod_pos_bound w s P); lia]. }
  rewrite !andb_true_iff, !Z.leb_le, !Z.ltb_lt. split.
  - intros (((((A & B) & E) & F) & G) & H). f_equal; apply D; lia.
  - intros E. injection E as E1 E2 E3. apply D in E1, E2, E3. tauto.
Qed.
(** Blocks have the right size. *)
Definition bwf (m : hbmap (V := V)) := hwf m /\ forall k b, In (k, b) m -> length b = Z.to_nat (hb_ncells C).
Lemma bwf_get m k b : bwf m -> getBlock m k = Some b -> length b = Z.to_nat (hb_ncells C).
Proof. intros [_ H] E. eapply H. apply getBlock_In. eassumption. Qed.
Lemma new_length : length (hb_new C) = Z.to_nat (hb_ncells C). Proof. apply repeat_length. Qed.
Lemma at_new c : hb_at C (hb_new C) c = hdef C. Proof. unfold hb_at, hb_new. apply nth_repeat. Qed.
Lemma blockOrNew_length m k : bwf m -> length (blockOrNew (hb_new C) m k) = Z.to_nat (hb_ncells C).
Proof. intros W. unfold blockOrNew. destruct (getBlock m k) eqn:E; [eapply bwf_get; eassumption|apply new_length]. Qed.
Lemma at_put b a c v : length b = Z.to_nat (hb_ncells C) -> in_cell a -> in_cell c -> hb_at C (hb_put C b a v) c = if idx3_eq_dec a c then v else hb_at C b c.
Proof.
  intros L Ha Hc. unfold hb_at, hb_put. rewrite nth_update. rewrite L. pose proof (lin_range a Ha) as R. apply Nat.ltb_lt in R. rewrite R.
  destruct (Nat.eqb_spec (hb_lin C c) (hb_lin C a)) as [E|E], (idx3_eq_dec a c) as [F|F]; try reflexivity.
  - exfalso. apply F. apply lin_inj; auto.
  - subst. contradiction.
Qed.
Lemma get_modify m i f j : bwf m -> hb_get C (hb_modify C m i f) j = if idx3_eq_dec i j then f (hb_get C m j) else hb_get C m j.
Proof.
  intros W. unfold hb_get, hb_getValue, hb_modify. cbv zeta. rewrite getBlock_setBlock.
  destruct (ieqb_spec (hb_blockIndex C i) (hb_blockIndex C j)) as [E|E].
  - rewrite at_put by (apply blockOrNew_length || apply cellIndex_range; assumption).
    unfold blockOrNew. rewrite <- E. destruct (idx3_eq_dec (hb_cellIndex C i) (hb_cellIndex C j)) as [F|F].
    + assert (i = j) by (apply split_inj; assumption). subst j. destruct (idx3_eq_dec i i); [|contradiction]. destruct (getBlock m (hb_blockIndex C i)); [reflexivity|]. rewrite at_new. reflexivity.
    + destruct (idx3_eq_dec i j) as [->|]; [contradiction|]. destruct (getBlock m (hb_blockIndex C i)); [reflexivity|]. apply at_new.
  - destruct (idx3_eq_dec i j) as [->|]; [contradiction|reflexivity].
Qed.
Lemma modify_bwf m i f : bwf m -> bwf (hb_modify C m i f).
Proof.
  intros W. pose proof W as [W1 W2]. unfold hb_modify. cbv zeta. split; [apply setBlock_wf; assumption|]. intros k b Hin.
  apply (In_getBlock _ _ _ (setBlock_wf _ _ _ W1)) in Hin. rewrite getBlock_setBlock in Hin. destruct (ieqb _ _).
  - injection Hin as <-. unfold hb_put. rewrite update_length. apply blockOrNew_length. assumption.
  - eapply bwf_get; eassumption.
Qed.
Lemma prune_bwf m : bwf m -> bwf (hb_prune N C m).
Proof.
  intros [W1 W2]. split; [apply eraseBlockIf_wf; assumption|]. intros k b Hin. apply (In_getBlock _ _ _ (eraseBlockIf_wf _ _ W1)) in Hin.
  rewrite getBlock_eraseBlockIf in Hin by assumption. destruct (getBlock m k) as [b0|] eqn:E; [|discriminate]. cbn [fst snd] in Hin. destruct (forallb _ b0); [discriminate|].
  injection Hin as <-. eapply W2. apply getBlock_In. eassumption.
Qed.
Lemma run_bwf l : bwf (hb_run N C l).
Proof.
  unfold hb_run. induction l as [|c l IH] using rev_ind; [split; [constructor|intros ? ? []]|]. rewrite fold_left_app. cbn [fold_left].
  set (m := fold_left _ l _) in *. destruct c as [i v|i u| | | |b]; cbn [hb_apply].
  - apply modify_bwf; assumption.
  - apply modify_bwf; assumption.
  - assumption.
  - apply prune_bwf; assumption.
  - split; [constructor|intros ? ? []].
  - destruct IH as [W1 W2]. split; [apply filter_wf; assumption|]. intros k b0 Hin. apply filter_In in Hin as [Hin _]. eapply W2; eassumption.
Qed.
Lemma get_prune m j : (forall a b, neqb N a b = true -> a = b) -> bwf m -> hb_get C (hb_prune N C m) j = hb_get C m j.
Proof.
  intros He [W1 W2]. unfold hb_get, hb_getValue, hb_prune. rewrite getBlock_eraseBlockIf by assumption.
  destruct (getBlock m (hb_blockIndex C j)) as [b|]; [|reflexivity]. cbn [fst snd]. destruct (forallb _ b) eqn:E; [|reflexivity].
  rewrite forallb_forall in E. symmetry. unfold hb_at. destruct (nth_in_or_default (hb_lin C (hb_cellIndex C j)) b (hdef C)) as [H|H]; [|assumption]. apply He, E, H.
Qed.
End HB_SPEC.

(** The map reads as the value function after any history. [==] on values must be equality, which floats
    satisfy except for signed zeros (and NaN). *)
Theorem C21_reads_as_map : forall (V : Type) (N : M_Num.num V) (C : hbconfig V) (l : list (hbcall V)) i,
  0 <= hK C -> (forall a b, neqb N a b = true -> a = b) ->
  hb_get C (hb_run N C l) i = val_run N C l i.
Proof.
  intros V N C l i HK He. revert i. unfold hb_run, val_run. induction l as [|c l IH] using rev_ind; intros i; [reflexivity|].
  pose proof (run_bwf N C l) as W. unfold hb_run in W. rewrite !fold_left_app. cbn [fold_left]. set (m := fold_left (hb_apply N C) l []) in *. set (f := fold_left _ l (fun _ => hdef C)) in *.
  destruct c as [j v|j u| | | |b]; cbn [hb_apply val_step].
  - unfold hb_set. rewrite get_modify by assumption. destruct (idx3_eq_dec j i); [reflexivity|apply IH].
  - unfold hb_add. rewrite get_modify by assumption. rewrite IH. reflexivity.
  - apply IH.
  - rewrite get_prune by assumption. apply IH.
  - reflexivity.
  - unfold hb_get, hb_getValue. rewrite getBlock_eraseBlock. destruct (in_block C b i) eqn:E.
    + apply in_block_iff in E; [|assumption]. rewrite E, ieqb_refl. reflexivity.
    + destruct (ieqb_spec b (hb_blockIndex C i)) as [F|F]; [symmetry in F; apply in_block_iff in F; [congruence|assumption]|]. rewrite <- IH. reflexivity.
Qed.
(** Pruning is lossless. *)
Theorem C21_prune_lossless : forall (V : Type) (N : M_Num.num V) (C : hbconfig V) l i,
  0 <= hK C -> (forall a b, neqb N a b = true -> a = b) ->
  hb_get C (hb_prune N C (hb_run N C l)) i = hb_get C (hb_run N C l) i.
Proof. intros V N C l i HK He. apply get_prune; try assumption. apply run_bwf. Qed.
(** Leaf iteration visits exactly the cells of allocated blocks, each once, with the value a query returns;
    all other cells read the default value. *)
Theorem C21_leaves : forall (V : Type) (N : M_Num.num V) (C : hbconfig V) l, 0 <= hK C ->
  let m := hb_run N C l in
  NoDup (map fst (hb_forEachLeaf C m)) /\
  (forall o v, In (o, v) (hb_forEachLeaf C m) -> oh o = 0 /\ hb_hasValue C m (opos o) = true /\ hb_get C m (opos o) = v) /\
  (forall i, hb_hasValue C m i = true -> In (OI 0 i, hb_get C m i) (hb_forEachLeaf C m)) /\
  (forall i, hb_hasValue C m i = false -> hb_get C m i = hdef C) /\
  Z.of_nat (length (hb_forEachLeaf C m)) = hb_size C m.
Proof.
  intros V N C l HK. cbv zeta. pose proof (run_bwf N C l) as W. set (m := hb_run N C l) in *. pose proof W as [W1 W2].
  pose proof (s_pos C HK) as P. set (s := 2 ^ hK C) in *. set (n := Z.to_nat (hb_ncells C)).
  set (cellof := fun lin => list_idx (linearIndexToIndex (hb_side C) 3 (Z.of_nat lin))).
  assert (IL : forall L, length L = 3%nat -> ilist (list_idx L) = L) by (intros [|x [|y [|z [|w L]]]] HL; try discriminate HL; reflexivity).
  assert (CR : forall lin, in_cell C (cellof lin)).
  { intros lin. unfold in_cell, cellof. rewrite (side_eq C). fold s. destruct (linear_inverse_range s 3 (Z.of_nat lin) P) as [L1 L2]. rewrite IL by assumption. exact L2. }
  assert (CL : forall lin, (lin < n)%nat -> hb_lin C (cellof lin) = lin).
  { intros lin H. unfold hb_lin, cellof. rewrite (side_eq C). fold s. destruct (linear_inverse_range s 3 (Z.of_nat lin) P) as [L1 L2]. rewrite IL by assumption.
    rewrite linear_roundtrip2; [lia|assumption|]. unfold n in H. rewrite (ncells_eq C HK) in H. fold s in H. change (Z.of_nat 3) with 3. lia. }
  assert (LC : forall c, in_cell C c -> cellof (hb_lin C c) = c).
  { intros c H. apply (lin_inj C HK); [apply CR|assumption|]. apply CL. apply (lin_range C HK). assumption. }
  assert (SB : forall b c, in_cell C c -> hb_blockIndex C (hb_index C b c) = b /\ hb_cellIndex C (hb_index C b c) = c).
  { intros b c Hc. rewrite (blockIndex_eq C HK), (cellIndex_eq C HK). unfold hb_index, imap, imap2. cbn [px py pz]. rewrite (side_eq C). fold s.
    unfold in_cell, ilist in Hc. fold s in Hc. pose proof (Forall_inv Hc) as H1. apply Forall_inv_tail in Hc. pose proof (Forall_inv Hc) as H2. apply Forall_inv_tail in Hc. pose proof (Forall_inv Hc) as H3. cbn beta in *.
    assert (D : forall u v, 0 <= v < s -> (s * u + v) / s = u /\ (s * u + v) mod s = v).
    { intros u v Hv. rewrite (Z.mul_comm s u). split; [rewrite Z.div_add_l by lia; rewrite Z.div_small by assumption; lia|rewrite Z.add_comm, Z.mod_add by lia; apply Z.mod_small; assumption]. }
    destruct (D (px b) (px c) H1) as [-> ->]. destruct (D (py b) (py c) H2) as [-> ->]. destruct (D (pz b) (pz c) H3) as [-> ->]. destruct b, c; split; reflexivity. }
  assert (SI : forall i, hb_index C (hb_blockIndex C i) (hb_cellIndex C i) = i).
  { intros i. apply (split_inj C HK); apply SB; apply (cellIndex_range C HK). }
  assert (MEM : forall o v, In (o, v) (hb_forEachLeaf C m) <-> exists k b lin, In (k, b) m /\ (lin < n)%nat /\ o = OI 0 (hb_index C k (cellof lin)) /\ v = nth lin b (hdef C)).
  { intros o v. unfold hb_forEachLeaf. rewrite in_flat_map. split.
    - intros ([k b] & Hkb & Hin). apply in_map_iff in Hin as (lin & E & Hl). apply in_seq in Hl. injection E as <- <-. exists k, b, lin. cbn [fst snd]. split; [assumption|]. split; [unfold n; lia|]. split; reflexivity.
    - intros (k & b & lin & Hkb & Hl & -> & ->). exists (k, b). split; [assumption|]. apply in_map_iff. exists lin. split; [reflexivity|]. apply in_seq. unfold n in Hl. lia. }
  split; [|split; [|split; [|split]]].
  - unfold hb_forEachLeaf. clear MEM. assert (G : forall mm : hbmap, hwf mm -> NoDup (map fst (flat_map (fun kb : idx3 * list V => map (fun lin => (OI 0 (hb_index C (fst kb) (cellof lin)), nth lin (snd kb) (hdef C))) (seq 0 n)) mm))).
    { induction mm as [|[k b] mm IH]; intros Wm; [constructor|]. cbn [flat_map]. rewrite map_app, map_map. cbn [fst snd]. inversion Wm as [|? ? Hn Wm']; subst.
      assert (A : NoDup (map (fun lin => OI 0 (hb_index C k (cellof lin))) (seq 0 n))).
      { assert (GA : forall LL, NoDup LL -> (forall x, In x LL -> (x < n)%nat) -> NoDup (map (fun lin => OI 0 (hb_index C k (cellof lin))) LL)).
        { induction LL as [|x LL IHL]; intros ND HB; [constructor|]. inversion ND as [|? ? Hx ND']; subst. cbn [map]. constructor; [|apply IHL; [assumption|intros; apply HB; right; assumption]].
          intros Hin. apply in_map_iff in Hin as (y & E & Hy). apply (f_equal opos) in E. cbn [opos] in E. apply Hx.
          assert (F : cellof y = cellof x) by (destruct (SB k (cellof y) (CR y)) as [_ <-]; rewrite E; apply SB, CR).
          rewrite <- (CL x), <- F, CL; [assumption|apply HB; right; assumption|apply HB; left; reflexivity]. }
        apply GA; [apply seq_NoDup|]. intros x Hx. apply in_seq in Hx. lia. }
      specialize (IH Wm').
      assert (B : forall a, In a (map (fun lin => OI 0 (hb_index C k (cellof lin))) (seq 0 n)) -> ~ In a (map fst (flat_map (fun kb : idx3 * list V => map (fun lin => (OI 0 (hb_index C (fst kb) (cellof lin)), nth lin (snd kb) (hdef C))) (seq 0 n)) mm))).
      { intros a Ha Hb. apply in_map_iff in Ha as (x & <- & _). apply in_map_iff in Hb as ([o v] & E & Hb). cbn [fst] in E. subst o. apply in_flat_map in Hb as ([k' b'] & Hk' & Hb). apply in_map_iff in Hb as (y & E & _).
        cbn [fst snd] in E. apply (f_equal fst), (f_equal opos) in E. cbn [fst opos] in E.
        apply Hn. destruct (SB k (cellof x) (CR x)) as [<- _]. rewrite <- E. destruct (SB k' (cellof y) (CR y)) as [-> _]. apply (in_map fst) in Hk'. exact Hk'. }
      revert A B IH. generalize (map (fun lin => OI 0 (hb_index C k (cellof lin))) (seq 0 n)). intros LA A B IH. induction A as [|a LA Ha A IHA]; [exact IH|].
      cbn [app]. constructor; [|apply IHA; intros a' Ha'; apply B; right; assumption]. intros H. apply in_app_or in H as [H|H]; [contradiction|]. apply (B a); [left; reflexivity|assumption]. }
    apply G. assumption.
  - intros o v Hin. apply MEM in Hin as (k & b & lin & Hkb & Hl & -> & ->). cbn [oh opos]. split; [reflexivity|].
    unfold hb_hasValue, hb_get, hb_getValue. destruct (SB k (cellof lin) (CR lin)) as [-> ->]. rewrite (In_getBlock _ _ _ W1 Hkb). split; [reflexivity|]. unfold hb_at. rewrite CL by assumption. reflexivity.
  - intros i Hi. apply MEM. unfold hb_hasValue, hb_get, hb_getValue in *. destruct (getBlock m (hb_blockIndex C i)) as [b|] eqn:E; [|discriminate].
    exists (hb_blockIndex C i), b, (hb_lin C (hb_cellIndex C i)). split; [apply getBlock_In; assumption|]. split; [apply (lin_range C HK), (cellIndex_range C HK)|].
    rewrite LC by apply (cellIndex_range C HK). rewrite SI. split; reflexivity.
  - intros i Hi. unfold hb_hasValue, hb_get in *. destruct (hb_getValue C m i); [discriminate|reflexivity].
  - unfold hb_forEachLeaf, hb_size. fold n. assert (G : forall mm : list (idx3 * list V), Z.of_nat (length (flat_map (fun kb : idx3 * list V => map (fun lin => (OI 0 (hb_index C (fst kb) (cellof lin)), nth lin (snd kb) (hdef C))) (seq 0 n)) mm)) = hb_ncells C * Z.of_nat (length mm)).
    { induction mm as [|kb mm IH]; [cbn; lia|]. cbn [flat_map length]. rewrite app_length, map_length, seq_length, Nat2Z.inj_add, IH. unfold n. rewrite Z2Nat.id; [lia|]. unfold hb_ncells, exp2. rewrite Z.shiftl_1_l. apply Z.pow_nonneg. lia. }
    apply G.
Qed.
(** The reported bounds contain every allocated cell (for block indices in the int32 range). *)
Theorem C21_bounds : forall (V : Type) (N : M_Num.num V) (C : hbconfig V) l i, 0 <= hK C ->
  let m := hb_run N C l in
  (forall k, In k (map fst m) -> in_i32 k) -> hb_hasValue C m i = true ->
  (px (hb_minIndex C m) <= px i <= px (hb_maxIndex C m)) /\ (py (hb_minIndex C m) <= py i <= py (hb_maxIndex C m)) /\
  (pz (hb_minIndex C m) <= pz i <= pz (hb_maxIndex C m)).
Proof.
  intros V N C l i HK m Hr Hi. unfold hb_hasValue, hb_getValue in Hi. destruct (getBlock m (hb_blockIndex C i)) as [b|] eqn:E; [|discriminate]. clear Hi.
  assert (Hne : m <> []) by (intros ->; discriminate). assert (Hk : In (hb_blockIndex C i) (keys m)) by (apply getBlock_keys; congruence).
  destruct (getMinBlockIndex_spec m Hne Hr) as [A _]. destruct (getMaxBlockIndex_spec m Hne Hr) as [B _]. specialize (A _ Hk). specialize (B _ Hk).
  unfold hb_minIndex, hb_maxIndex. assert (Em : hb_empty m = false) by (destruct m; [contradiction|reflexivity]). rewrite Em. rewrite (blockIndex_eq C HK) in A, B.
  unfold ile, imap in *. cbn [px py pz] in *. rewrite (side_eq C). pose proof (s_pos C HK) as P. set (s := 2 ^ hK C) in *.
  assert (D : forall w, s * (w / s) <= w < s * (w / s + 1)) by (intros w; pose proof (Z.div_mod w s); pose proof (Z.mod_pos_bound w s P); lia).
  pose proof (D (px i)). pose proof (D (py i)). pose proof (D (pz i)). nia.
Qed.
(** An add leaves the cell inside the value range (when the range is not empty and < is a strict order on it). *)
Theorem C21_add_in_range : forall (V : Type) (N : M_Num.num V) (C : hbconfig V) l i u, 0 <= hK C -> (forall a b, neqb N a b = true -> a = b) ->
  nltb N (hlo C) (hlo C) = false -> nltb N (hhi C) (hhi C) = false -> nltb N (hhi C) (hlo C) = false ->
  let v := hb_get C (hb_run N C (l ++ [HBAdd i u])) i in
  nltb N v (hlo C) = false /\ nltb N (hhi C) v = false.
Proof.
  intros V N C l i u HK He H1 H2 H3. cbv zeta. rewrite C21_reads_as_map by assumption. unfold val_run. rewrite fold_left_app. cbn [fold_left val_step].
  destruct (idx3_eq_dec i i); [|contradiction]. unfold clamp_spec. set (w := nadd N _ u). destruct (nltb N w (hlo C)) eqn:E; [split; assumption|]. destruct (nltb N (hhi C) w) eqn:F; [split; assumption|split; assumption].
Qed.
(** threshold() does not bring values set with setCellValue into range: it does nothing. *)
Theorem C21_threshold_refuted : exists (C : hbconfig Qc) l i, (hlo C < hhi C)%Qc /\
  (hhi C < hb_get C (hb_run qn C (l ++ [HBThreshold])) i)%Qc.
Proof. exists (HBC (Q2Qc (-2)) (Q2Qc 4) 0%Qc 4), [HBSet (I3 1 2 3) (Q2Qc 9)], (I3 1 2 3). split; [reflexivity|]. rewrite C21_reads_as_map; [unfold val_run; cbn [app fold_left val_step]; destruct (idx3_eq_dec _ _); [reflexivity|contradiction]|cbn; lia|]. intros a b. cbn. unfold qeqb. intros H. apply Qc_is_canon. apply Qeq_bool_eq. exact H. Qed.
(** Partial: if nothing but adds wrote to a cell since it was default, the value is in range or default. *)
Theorem C21_adds_in_range_partial : forall (C : hbconfig Qc) l i, 0 <= hK C -> (hlo C <= hdef C <= hhi C)%Qc ->
  (forall c, In c l -> match c with HBSet j v => (hlo C <= v <= hhi C)%Qc | _ => True end) ->
  (hlo C <= hb_get C (hb_run qn C l) i <= hhi C)%Qc.
Proof.
  intros C l i HK Hd Hs. rewrite C21_reads_as_map by (try assumption; intros a b; cbn; unfold qeqb; intros H; apply Qc_is_canon, Qeq_bool_eq, H). revert i. unfold val_run.
  induction l as [|c l IH] using rev_ind; intros i; [assumption|]. rewrite fold_left_app. cbn [fold_left]. assert (IH' := IH (fun c h => Hs c (in_or_app _ _ _ (or_introl h)))). clear IH.
  set (f := fold_left _ l _) in *. destruct c as [j v|j u| | | |b]; cbn [val_step].
  - destruct (idx3_eq_dec j i); [|apply IH']. apply (Hs (HBSet j v)). apply in_or_app. right. left. reflexivity.
  - destruct (idx3_eq_dec j i); [|apply IH']. destruct Hd as [D1 D2]. assert (D : (hlo C <= hhi C)%Qc) by (eapply Qcle_trans; eassumption). unfold clamp_spec. cbn [nltb nadd qn].
    destruct (qltb (f i + u)%Qc (hlo C)) eqn:E; [split; [apply Qcle_refl|assumption]|]. destruct (qltb (hhi C) (f i + u)%Qc) eqn:F; [split; [assumption|apply Qcle_refl]|].
    apply qltb_false in E. apply qltb_false in F. split; assumption.
  - apply IH'.
  - apply IH'.
  - assumption.
  - destruct (in_block C b i); [assumption|apply IH'].
Qed.
Example C21_ex : let C := HBC (Q2Qc (-2)) (Q2Qc 4) 0%Qc 1 in let l := [HBAdd (I3 (-1) 0 5) (Q2Qc 3); HBAdd (I3 (-1) 0 5) (Q2Qc 3); HBSet (I3 0 0 5) (Q2Qc 9); HBPrune] in
  hb_get C (hb_run qn C l) (I3 (-1) 0 5) = Q2Qc 4 /\ hb_get C (hb_run qn C l) (I3 0 0 5) = (Q2Qc 9) /\ hb_get C (hb_run qn C l) (I3 7 7 7) = 0%Qc /\
  hb_minIndex C (hb_run qn C l) = I3 (-2) 0 4 /\ hb_maxIndex C (hb_run qn C l) = I3 1 1 5.
Proof. repeat split; vm_compute; (reflexivity || apply Qc_is_canon; reflexivity). Qed.

Print Assumptions C21_reads_as_map.
Print Assumptions C21_prune_lossless.
Print Assumptions C21_leaves.
Print Assumptions C21_bounds.
Print Assumptions C21_add_in_range.
Print Assumptions C21_threshold_refuted.
Print Assumptions C21_adds_in_range_partial.
