(** Field effect of HashedWaveletIntegrator::updateMap (exact arithmetic). *)
From Verif Require Import Base M_IntMath F_IntMath M_Morton F_Morton M_NdtreeIndex F_NdtreeIndex
  M_Num F_Num M_Haar F_Haar M_Haar3 F_Haar3 M_Ndtree S_Field S_Integrate F_Hash M_Wavelet F_Wavelet F_Wavelet2 F_Leaves F_WavTree
  F_WavMap F_WavHash M_WavHist F_WavHist M_Octree F_Octree M_Integrator F_Integrator.
From Coq Require Import QArith Qcanon Qcabs Lqa.
Close Scope Qc_scope.
Close Scope Q_scope.
Open Scope Z_scope.
Notation hmap := (shash (wblock (V := Qc))).

(** ** Shape invariant *)
Definition hw_shape (C : wconfig (V := Qc)) (m : hmap) : Prop :=
  hwf m /\ forall b blk, getBlock m b = Some blk -> tree_ok (cT C) (btree blk).
Section SHAPE.
Context (C : wconfig (V := Qc)) (HT : 1 <= cT C <= 21).
Notation T := (cT C).
Lemma shape_nil : hw_shape C [].
Proof. split; [constructor|]. intros b blk H. discriminate H. Qed.
Lemma shape_tree_at m b : hw_shape C m -> tree_ok T (tree_at m b).
Proof.
  intros [_ H]. unfold tree_at. destruct (getBlock m b) as [blk|] eqn:E; [apply (H b blk E)|apply tree_ok_new; assumption].
Qed.
Lemma shape_set m b blk : hw_shape C m -> tree_ok T (btree blk) -> hw_shape C (setBlock m b blk).
Proof.
  intros [W H] H1. split; [apply setBlock_wf; assumption|]. intros b' blk' E. rewrite getBlock_setBlock in E.
  destruct (ieqb b b'); [injection E as <-; auto|apply (H b'); assumption].
Qed.
Lemma wb_threshold_shape b : tree_ok T (btree b) -> tree_ok T (btree (wb_threshold qn C b)).
Proof. intros H. rewrite wb_threshold_tree. destruct (bthr b); [apply wt_threshold_ok|]; assumption. Qed.
Lemma wb_prune_shape b : tree_ok T (btree b) -> tree_ok T (btree (wb_prune qn C b)).
Proof.
  intros H. unfold wb_prune. destruct (bprn b); [|assumption]. cbv zeta.
  exact (wt_prune_ok T _ (wb_threshold_shape b H)).
Qed.
Lemma eraseIf_shape m (f : wblock -> wblock) : (forall b, tree_ok T (btree b) -> tree_ok T (btree (f b))) -> hw_shape C m ->
  hw_shape C (eraseBlockIf (fun _ b => let b' := f b in (b', wb_empty qn b')) m).
Proof.
  intros Hf [W H]. split; [apply eraseBlockIf_wf; assumption|]. intros b blk E.
  rewrite getBlock_eraseBlockIf in E by assumption. destruct (getBlock m b) as [blk0|] eqn:E0; [|discriminate].
  cbn [fst snd] in E. destruct (wb_empty qn (f blk0)); [discriminate|]. injection E as <-. apply Hf. apply (H b). assumption.
Qed.
Lemma hw_apply_shape m tc : hw_shape C m -> hw_shape C (hw_apply C m tc).
Proof.
  intros Hm. destruct tc as [now c]. destruct c as [i v|i u| | |age| |b]; cbn [hw_apply].
  - unfold hw_set. cbv zeta. apply shape_set; [assumption|]. cbn [wb_set btree]. rewrite blockOrNew_tree.
    apply wt_update_ok; [|apply shape_tree_at; assumption]. rewrite hw_cellIndex_spec by lia. cbn [oh]. lia.
  - unfold hw_add. cbv zeta. apply shape_set; [assumption|]. cbn [wb_add btree]. rewrite blockOrNew_tree.
    apply wt_update_ok; [|apply shape_tree_at; assumption]. rewrite hw_cellIndex_spec by lia. cbn [oh]. lia.
  - destruct Hm as [W H]. split; [apply forEachBlock_wf; assumption|]. intros b blk E. unfold hw_threshold in E.
    rewrite getBlock_forEachBlock in E. destruct (getBlock m b) as [blk0|] eqn:E0; [|discriminate]. injection E as <-.
    apply wb_threshold_shape. apply (H b). assumption.
  - apply eraseIf_shape; [|assumption]. apply wb_prune_shape.
  - apply (eraseIf_shape m (fun b => if age <? now - bstamp b then wb_prune qn C b else b)); [|assumption].
    intros b Hb. destruct (_ <? _); [apply wb_prune_shape|]; assumption.
  - apply shape_nil.
  - destruct Hm as [W H]. split; [apply filter_wf; assumption|]. intros b' blk E.
    rewrite getBlock_eraseBlock in E. destruct (ieqb b b'); [discriminate|]. apply (H b'). assumption.
Qed.
End SHAPE.

Lemma nth_error_eq {A} (l l' : list A) : (forall i, nth_error l i = nth_error l' i) -> l = l'.
Proof.
  revert l'. induction l as [|a l IH]; intros [|b l'] H; [reflexivity|specialize (H O); discriminate H|specialize (H O); discriminate H|].
  pose proof (H O) as H0. injection H0 as ->. f_equal. apply IH. intros i. exact (H (S i)).
Qed.
(** ** The tasks *)
Section TASKS.
Context (K : iconst Qc) (W : oracle Qc) (Hth : 0 <= i_th K).
Notation ub_step := (ub_step qn K W).
Notation task := (task (V := Qc)).
Lemma step_nth_spec ts : forall j i, nth_error (step_nth qn K W j ts) i =
  option_map (fun p => (fst p, Nat.iter (if Nat.eqb j i then 1 else 0) ub_step (snd p))) (nth_error ts i).
Proof.
  induction ts as [|[b s] ts IH]; intros j i.
  - destruct j, i; reflexivity.
  - destruct j as [|j], i as [|i]; cbn [step_nth nth_error option_map fst snd]; try reflexivity.
    + cbn [Nat.eqb]. destruct (nth_error ts i) as [[? ?]|]; reflexivity.
    + rewrite IH. reflexivity.
Qed.
Lemma um_sched_spec sched : forall ts i, nth_error (um_sched qn K W sched ts) i =
  option_map (fun p => (fst p, Nat.iter (count_occ Nat.eq_dec sched i) ub_step (snd p))) (nth_error ts i).
Proof.
  unfold um_sched. induction sched as [|j sched IH]; intros ts i; cbn [fold_left].
  - cbn [count_occ Nat.iter]. destruct (nth_error ts i) as [[? ?]|]; reflexivity.
  - rewrite IH, step_nth_spec. destruct (nth_error ts i) as [[b s]|]; [|reflexivity]. cbn [option_map fst snd].
    rewrite <- iter_add. do 3 f_equal. cbn [count_occ]. destruct (Nat.eq_dec j i) as [->|Hne].
    + rewrite Nat.eqb_refl. reflexivity.
    + rewrite (proj2 (Nat.eqb_neq j i) Hne). reflexivity.
Qed.
Lemma um_sched_length sched ts : length (um_sched qn K W sched ts) = length ts.
Proof.
  unfold um_sched. revert ts. induction sched as [|j sched IH]; intros ts; cbn [fold_left]; [reflexivity|].
  rewrite IH. revert j. induction ts as [|[b s] ts IHt]; intros j; [destruct j; reflexivity|]. destruct j; cbn [step_nth]; cbn [length]; [|rewrite IHt]; reflexivity.
Qed.

(** Allocation of the selected blocks *)
Lemma um_alloc_spec now l : forall (m : hmap) b,
  getBlock (um_alloc qn now m l) b =
  if in_dec idx3_eq_dec b l then Some (blockOrNew (wb_new qn now) m b) else getBlock m b.
Proof.
  unfold um_alloc. induction l as [|a l IH]; intros m b; cbn [fold_left].
  - destruct (in_dec idx3_eq_dec b []) as [[]|]; reflexivity.
  - rewrite IH. unfold blockOrNew at 1. rewrite getBlock_setBlock. destruct (ieqb_spec a b) as [->|Hne].
    + destruct (in_dec idx3_eq_dec b (b :: l)) as [_|X]; [|exfalso; apply X; left; reflexivity].
      destruct (in_dec idx3_eq_dec b l); reflexivity.
    + fold (blockOrNew (wb_new qn now) m b).
      destruct (in_dec idx3_eq_dec b l) as [Hi|Hi], (in_dec idx3_eq_dec b (a :: l)) as [Hj|Hj]; try reflexivity.
      * exfalso. apply Hj. right. exact Hi.
      * destruct Hj; [congruence|contradiction].
Qed.
Lemma um_alloc_wf now l : forall m : hmap, hwf m -> hwf (um_alloc qn now m l).
Proof.
  unfold um_alloc. induction l as [|a l IH]; intros m Hm; cbn [fold_left]; [assumption|]. apply IH. apply setBlock_wf. assumption.
Qed.
Lemma um_tasks_spec T (m : hmap) l : (forall b, In b l -> getBlock m b <> None) ->
  um_tasks qn T m l = map (fun b => (b, ub_start qn T b (blockOrNew (wb_new qn 0) m b))) l.
Proof.
  induction l as [|a l IH]; intros H; [reflexivity|]. unfold um_tasks in *. cbn [flat_map map]. rewrite IH by (intros b Hb; apply H; right; exact Hb).
  unfold blockOrNew. destruct (getBlock m a) eqn:E; [reflexivity|]. exfalso. apply (H a); [left; reflexivity|exact E].
Qed.

(** Writing the results back: [r b] is the result of every finished task of block [b]. *)
Lemma um_collect_spec now (r : idx3 -> wtree * bool) ts : forall (m m' : hmap),
  (forall b s, In (b, s) ts -> match s with Finished t thr => (t, thr) = r b | Running _ _ => True end) ->
  um_collect now m ts = Some m' ->
  (forall b, getBlock m' b = if in_dec idx3_eq_dec b (map fst ts) then Some (WB (fst (r b)) (snd (r b)) true now) else getBlock m b) /\
  (hwf m -> hwf m').
Proof.
  induction ts as [|[a s] ts IH]; intros m m' Hr E; cbn [um_collect] in E.
  - injection E as <-. split; [|auto]. intros b. destruct (in_dec idx3_eq_dec b (map fst [])) as [[]|]; reflexivity.
  - destruct s as [st thr|t thr]; cbn [ub_result] in E; [discriminate|].
    destruct (IH _ _ (fun b s H => Hr b s (or_intror H)) E) as [I1 I2]. split; [|intros Hw; apply I2, setBlock_wf; exact Hw].
    intros b. rewrite I1, getBlock_setBlock. cbn [map fst].
    destruct (ieqb_spec a b) as [->|Hne].
    + destruct (in_dec idx3_eq_dec b (b :: map fst ts)) as [_|X]; [|exfalso; apply X; left; reflexivity].
      destruct (in_dec idx3_eq_dec b (map fst ts)); [reflexivity|].
      specialize (Hr b (Finished t thr) (or_introl eq_refl)). cbn in Hr. rewrite <- Hr. reflexivity.
    + destruct (in_dec idx3_eq_dec b (map fst ts)) as [Hi|Hi], (in_dec idx3_eq_dec b (a :: map fst ts)) as [Hj|Hj]; try reflexivity.
      * exfalso. apply Hj. right. exact Hi.
      * destruct Hj; [congruence|contradiction].
Qed.
Lemma um_collect_total now ts : (forall b s, In (b, s) ts -> exists t thr, s = Finished t thr) -> forall m : hmap,
  exists m', um_collect now m ts = Some m'.
Proof.
  induction ts as [|[a s] ts IH]; intros H m; cbn [um_collect]; [eauto|].
  destruct (H a s (or_introl eq_refl)) as (t & thr & ->). cbn [ub_result]. apply IH. intros b s Hb. apply (H b). right. exact Hb.
Qed.

(** Result of updateMap, for every schedule *)
Definition block_after (T now : Z) (m : hmap) (b : idx3) : wblock :=
  let r := block_result K W T b (blockOrNew (wb_new qn now) m b) in WB (fst r) (snd r) true now.
Lemma updateMap_spec T now k fov sched (m m' : hmap) : 1 <= T ->
  hw_updateMap qn K W T now k fov sched m = Some m' ->
  (forall b, getBlock m' b = if in_dec idx3_eq_dec b (um_blocks qn K W m k fov) then Some (block_after T now m b) else getBlock m b) /\
  (hwf m -> hwf m').
Proof.
  intros HT. unfold hw_updateMap. cbv zeta. set (l := um_blocks qn K W m k fov). clearbody l.
  assert (A : forall b, In b l -> getBlock (um_alloc qn now m l) b <> None).
  { intros b Hb. rewrite um_alloc_spec. destruct (in_dec _ _ _); [discriminate|contradiction]. }
  rewrite um_tasks_spec by exact A. intros E.
  set (ts := map _ l) in E.
  assert (Len : length (um_sched qn K W sched ts) = length l) by (rewrite um_sched_length; apply map_length).
  assert (Tk : forall i b s, nth_error (um_sched qn K W sched ts) i = Some (b, s) ->
       nth_error l i = Some b /\ exists n, s = Nat.iter n ub_step (ub_start qn T b (blockOrNew (wb_new qn now) m b))).
  { intros i b s Hn. rewrite um_sched_spec in Hn. unfold ts in Hn. rewrite nth_error_map in Hn.
    destruct (nth_error l i) as [b0|] eqn:En; [|discriminate]. cbn [option_map fst snd] in Hn. injection Hn as <- <-.
    split; [reflexivity|]. eexists. do 2 f_equal. unfold blockOrNew at 1. rewrite um_alloc_spec.
    destruct (in_dec _ _ _) as [|X]; [reflexivity|]. exfalso. apply X. eapply nth_error_In. exact En. }
  assert (Fst : map fst (um_sched qn K W sched ts) = l).
  { apply nth_error_eq. intros i. rewrite nth_error_map.
    destruct (nth_error (um_sched qn K W sched ts) i) as [[b s]|] eqn:En.
    - symmetry. apply (Tk i b s En).
    - cbn [option_map]. symmetry. apply nth_error_None. rewrite <- Len. apply nth_error_None. exact En. }
  pose proof (fun Y => um_collect_spec now (fun b => block_result K W T b (blockOrNew (wb_new qn now) m b)) _ _ _ Y E) as X.
  destruct X as [I1 I2].
  { intros b s Hb. apply In_nth_error in Hb as [i Hi]. destruct (Tk i b s Hi) as (_ & n & ->).
    destruct (Nat.iter n _ _) eqn:En; [exact I|]. eapply task_result; [exact Hth|exact HT|exact En]. }
  split; [|intros Hw; apply I2, um_alloc_wf; exact Hw].
  intros b. rewrite I1, Fst. rewrite um_alloc_spec. unfold block_after. destruct (in_dec _ _ _); reflexivity.
Qed.
Lemma updateMap_total T now k fov sched (m : hmap) : 1 <= T ->
  (forall j, (j < length (um_blocks qn K W m k fov))%nat -> (cost (Z.to_nat T) <= count_occ Nat.eq_dec sched j)%nat) ->
  exists m', hw_updateMap qn K W T now k fov sched m = Some m'.
Proof.
  intros HT. unfold hw_updateMap. cbv zeta. set (l := um_blocks qn K W m k fov). clearbody l. intros Hs.
  rewrite um_tasks_spec. 2:{ intros b Hb. rewrite um_alloc_spec. destruct (in_dec _ _ _); [discriminate|contradiction]. }
  apply um_collect_total. intros b s Hb. apply In_nth_error in Hb as [i Hi]. rewrite um_sched_spec, nth_error_map in Hi.
  destruct (nth_error l i) as [b0|] eqn:En; [|discriminate]. cbn [option_map fst snd] in Hi. injection Hi as <- <-.
  rewrite task_finishes; [eauto|exact Hth|exact HT|]. apply Hs. apply nth_error_Some. rewrite En. discriminate.
Qed.

Lemma updateMap_shape C now k fov sched (m m' : hmap) : 1 <= cT C <= 21 -> hw_shape C m ->
  hw_updateMap qn K W (cT C) now k fov sched m = Some m' -> hw_shape C m'.
Proof.
  intros HT [Hw H] E. apply updateMap_spec in E as [E1 E2]; [|lia]. split; [apply E2; exact Hw|].
  intros b blk Eb. rewrite E1 in Eb. destruct (in_dec _ _ _) as [_|_]; [|apply (H b); exact Eb]. injection Eb as <-.
  split; [exact HT|]. unfold block_after, block_result. cbv zeta. rewrite blockOrNew_tree.
  pose proof (upd_height K W Hth (Z.to_nat (cT C)) (OI (cT C) b) (wroot (tree_at m b)) (wscale (tree_at m b)) ltac:(cbn [oh]; lia) ltac:(lia)) as U.
  destruct (upd _ _ _ _ _ _) as [[n s] f]. cbn [btree fst wroot] in *. apply U. apply (shape_tree_at C HT m b). split; assumption.
Qed.
End TASKS.
Lemma hw_state_shape C m : 1 <= cT C <= 21 -> hw_state C m -> hw_shape C m.
Proof.
  intros HT H. induction H as [|m tc _ IH|m m' K W now k fov sched _ IH Hth E].
  - apply shape_nil.
  - apply hw_apply_shape; assumption.
  - eapply updateMap_shape; eassumption.
Qed.
Lemma hw_state_run C l : hw_state C (hw_run C l).
Proof.
  unfold hw_run. assert (X : hw_state C []) by constructor. revert X. generalize (@nil (idx3 * wblock (V := Qc))).
  induction l as [|a l IH]; intros m Hm; cbn [fold_left]; [exact Hm|]. apply IH. constructor. exact Hm.
Qed.
