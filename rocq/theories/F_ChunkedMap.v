(** The hashed chunked wavelet octree simulates the hashed wavelet octree. *)
From Verif Require Import Base M_IntMath F_IntMath M_Morton F_Morton M_NdtreeIndex F_NdtreeIndex
  M_Num F_Num M_Haar F_Haar M_Haar3 F_Haar3 M_Ndtree S_Field F_Hash M_Wavelet F_Wavelet F_Wavelet2 F_Leaves F_WavTree
  F_WavMap F_WavHash M_WavHist F_WavHist M_Octree F_Octree M_Chunked F_Chunked F_ChunkedSim F_ChunkedWav M_ChunkedHist.
From Coq Require Import QArith Qcanon Qcabs Lqa.
Close Scope Qc_scope.
Close Scope Q_scope.
Open Scope Z_scope.

Section MAP.
Context (fuel : nat) (C : wconfig (V := Qc)).
Notation T := (cT C).
Context (HT : 1 <= T <= 21) (Hfuel : (Z.to_nat T <= fuel)%nat).

Definition trel (c : ctree (V := Qc)) (w : wtree (V := Qc)) : Prop :=
  csub (croot c) [] (Some (wroot w)) /\ cscale c = wscale w /\ nheight (Z.to_nat (T - 1)) (wroot w).
Definition brel (c : cblock) (w : wblock) : Prop :=
  trel (cbtree c) (btree w) /\ cbthr c = bthr w /\ cbprn c = bprn w /\ cbstamp c = bstamp w.
Definition erel (a : idx3 * cblock) (b : idx3 * wblock) : Prop := fst a = fst b /\ brel (snd a) (snd b).
Definition mrel (m : shash cblock) (h : shash wblock) : Prop := Forall2 erel m h.

Lemma trel_new : trel (ct_new qn) (wt_new qn).
Proof. split; [apply sub_fresh|]. split; [reflexivity|apply nheight_new]. Qed.
Lemma trel_get c w i : trel c w -> 0 <= oh i <= T -> cb_get qn T c i = wt_get qn T w i.
Proof.
  intros (S & E & _) Hi. destruct i as [h p]. cbn [oh] in Hi. unfold cb_get. cbn [oh].
  rewrite wt_get_eval by lia. rewrite <- E. apply (cb_get_sim _ (croot c) []); try assumption; try lia. constructor.
Qed.
Lemma morton_child_range m j : 0 <= relativeChildIndexFromMorton 3 m j < 8.
Proof.
  unfold relativeChildIndexFromMorton. change (Z.shiftl 1 3 - 1) with (Z.ones 3). rewrite Z.land_ones by lia. apply Z.mod_pos_bound. lia.
Qed.
Lemma trel_update c w i inc : trel c w -> 0 <= oh i < T -> trel (cb_update qn T c i inc) (wt_update qn T w i inc).
Proof.
  intros (S & E & Hn) Hi. destruct i as [h p]. cbn [oh] in Hi. unfold cb_update, wt_update. cbn [oh].
  destruct (Z.to_nat (T - h)) as [|k] eqn:Ek; [lia|]. replace (Z.to_nat (T - (h + 1))) with k by lia.
  replace (h <? T) with true by (symmetry; apply Z.ltb_lt; lia).
  destruct (cb_both_sim k (croot c) [] (wroot w) T (omorton (OI h p)) inc (wscale w) ltac:(constructor) S (morton_child_range _)) as (B1 & B2 & _).
  unfold cb_both in *. change (caddr []) with nr_root in *. rewrite <- E in *.
  destruct (cb_down qn k (croot c) T (omorton (OI h p)) (cscale c) [nr_root]) as [[root' anc] value].
  replace (T - Z.of_nat k) with (h + 1) in * by lia.
  destruct (cb_up qn anc root' (h + 1) _ (inc value)) as [root'' s].
  pose proof (update_loop_path k T h p inc (cscale c) (wroot w) ltac:(lia) ltac:(lia) ltac:(lia)) as U.
  pose proof (update_nheight (path k p) (Z.to_nat (T - 1)) (cidx p (Z.of_nat k)) inc (cscale c) (wroot w)
    (cidx_range _ _) (path_valid _ _) ltac:(rewrite path_length; lia) Hn) as Hu.
  rewrite <- U in Hu. destruct (update_loop qn k T _ inc (cscale c) (wroot w)) as [n' s']. cbn [fst snd] in *. subst s'.
  split; [exact B1|]. split; [reflexivity|exact Hu].
Qed.
Lemma brel_threshold c w : brel c w -> brel (cb_threshold qn fuel C c) (wb_threshold qn C w).
Proof.
  intros ((S & E & Hn) & E1 & E2 & E3). unfold cb_threshold, wb_threshold. rewrite E1. destruct (bthr w) eqn:Eb.
  - destruct (cb_threshold_sim (clo C) (chi C) (Z.to_nat (T - 1)) fuel (croot (cbtree c)) [] (wroot (btree w)) (cscale (cbtree c))
      ltac:(lia) ltac:(constructor) Hn S) as (B1 & B2 & _). cbv zeta in *. change (caddr []) with nr_root in *.
    pose proof (thr_nheight (clo C) (chi C) _ _ (cscale (cbtree c)) Hn) as Hu. rewrite E in *.
    destruct (cb_threshold_rec qn fuel (clo C) (chi C) (croot (cbtree c)) nr_root (wscale (btree w))) as [root s].
    destruct (threshold_rec qn (clo C) (chi C) (wroot (btree w)) (wscale (btree w))) as [n s']. cbn [fst snd] in *. subst s'.
    split; [split; [exact B1|split; [reflexivity|exact Hu]]|]. auto.
  - split; [split; [exact S|split; [exact E|exact Hn]]|]. split; [congruence|auto].
Qed.
Lemma brel_prune c w : brel c w -> brel (cb_prune qn fuel C c) (wb_prune qn C w).
Proof.
  intros B. pose proof (brel_threshold c w B) as ((S & E & Hn) & E1 & E2 & E3). unfold cb_prune, wb_prune.
  destruct B as (Ht & X1 & X2 & X3). rewrite X2. destruct (bprn w) eqn:Eb.
  - destruct (cb_prune_sim (Z.to_nat (T - 1)) fuel (croot (cbtree (cb_threshold qn fuel C c))) [] _ ltac:(lia) ltac:(constructor) Hn S) as (B1 & _).
    cbv zeta in *. change (caddr []) with nr_root in *.
    split; [split; [exact B1|split; [exact E|apply prune_nheight; exact Hn]]|]. auto.
  - split; [exact Ht|]. split; [exact X1|]. split; [congruence|exact X3].
Qed.
Lemma trel_empty c w : trel c w -> ct_empty qn c = wt_empty qn w.
Proof.
  intros (S & E & _). destruct (sub_root _ _ _ _ _ S) as (E1 & E2 & _). unfold ct_empty, wt_empty. rewrite <- E1, <- E2, E. reflexivity.
Qed.

Lemma mrel_keys m h : mrel m h -> keys m = keys h.
Proof. induction 1 as [|a b m h [E _] R IH]; [reflexivity|]. unfold keys in *. cbn [map]. f_equal; assumption. Qed.
Lemma mrel_getBlock m h i : mrel m h ->
  match getBlock m i, getBlock h i with Some c, Some w => brel c w | None, None => True | _, _ => False end.
Proof.
  induction 1 as [|[k b] [k' b'] m h [E B] R IH]; cbn [getBlock]; [exact I|]. cbn [fst snd] in *. subst k'.
  destruct (ieqb k i); [exact B|exact IH].
Qed.
Lemma mrel_setBlock m h i c w : mrel m h -> brel c w -> mrel (setBlock m i c) (setBlock h i w).
Proof.
  intros R B. induction R as [|[k b] [k' b'] m h [E B'] R IH]; cbn [setBlock].
  - constructor; [split; [reflexivity|exact B]|constructor].
  - cbn [fst snd] in *. subst k'. destruct (ieqb k i).
    + constructor; [split; [reflexivity|exact B]|exact R].
    + constructor; [split; [reflexivity|exact B']|exact IH].
Qed.
Lemma mrel_blockOrNew m h i now : mrel m h -> brel (blockOrNew (cb_new qn now) m i) (blockOrNew (wb_new qn now) h i).
Proof.
  intros R. pose proof (mrel_getBlock m h i R) as G. unfold blockOrNew.
  destruct (getBlock m i), (getBlock h i); try contradiction; [exact G|]. split; [apply trel_new|]. auto.
Qed.
Lemma mrel_eraseBlock m h i : mrel m h -> mrel (fst (eraseBlock m i)) (fst (eraseBlock h i)).
Proof.
  intros R. unfold eraseBlock. cbn [fst]. induction R as [|[k b] [k' b'] m h [E B] R IH]; cbn [filter fst]; [constructor|].
  cbn [fst snd] in *. subst k'. destruct (negb (ieqb k i)); [|exact IH]. constructor; [split; [reflexivity|exact B]|exact IH].
Qed.
Lemma mrel_forEach m h f g : mrel m h -> (forall c w, brel c w -> brel (f c) (g w)) ->
  mrel (forEachBlock (fun _ => f) m) (forEachBlock (fun _ => g) h).
Proof.
  intros R H. unfold forEachBlock. induction R as [|[k b] [k' b'] m h [E B] R IH]; cbn [map]; [constructor|].
  constructor; [|exact IH]. cbn [fst snd] in *. split; [exact E|apply H; exact B].
Qed.
Lemma mrel_eraseIf m h f g : mrel m h -> (forall c w, brel c w -> brel (f c) (g w)) ->
  mrel (eraseBlockIf (fun _ b => let b' := f b in (b', cb_empty qn b')) m)
       (eraseBlockIf (fun _ b => let b' := g b in (b', wb_empty qn b')) h).
Proof.
  intros R H. induction R as [|[k b] [k' b'] m h [E B] R IH]; cbn [eraseBlockIf]; cbv zeta; [constructor|].
  cbn [fst snd] in *. subst k'. pose proof (H _ _ B) as B2.
  assert (Ee : cb_empty qn (f b) = wb_empty qn (g b')) by (apply trel_empty; apply B2).
  rewrite Ee. destruct (wb_empty qn (g b')); [exact IH|]. constructor; [split; [reflexivity|exact B2]|exact IH].
Qed.
Lemma cellIndex_0 i : oh (hw_cellIndex C (OI 0 i)) = 0.
Proof. reflexivity. Qed.
Lemma mrel_apply m h tc : mrel m h -> mrel (hc_apply fuel C m tc) (hw_apply C h tc).
Proof.
  intros R. destruct tc as [now c]. destruct c as [i v|i u| | |age| |b]; cbn [hc_apply hw_apply].
  - apply mrel_setBlock; [exact R|]. destruct (mrel_blockOrNew m h (indexToBlockIndex3 i T) now R) as (Ht & _).
    split; [|auto]. apply trel_update; [exact Ht|]. rewrite cellIndex_0. lia.
  - apply mrel_setBlock; [exact R|]. destruct (mrel_blockOrNew m h (indexToBlockIndex3 i T) now R) as (Ht & _).
    split; [|auto]. apply trel_update; [exact Ht|]. rewrite cellIndex_0. lia.
  - apply mrel_forEach; [exact R|apply brel_threshold].
  - apply mrel_eraseIf; [exact R|apply brel_prune].
  - apply (mrel_eraseIf m h (fun b => if age <? now - cbstamp b then cb_prune qn fuel C b else b)
                            (fun b => if age <? now - bstamp b then wb_prune qn C b else b)); [exact R|].
    intros c w B. replace (cbstamp c) with (bstamp w) by (symmetry; apply B). destruct (age <? now - bstamp w); [apply brel_prune|]; exact B.
  - constructor.
  - apply mrel_eraseBlock. exact R.
Qed.
Lemma mrel_run l : mrel (hc_run fuel C l) (hw_run C l).
Proof.
  unfold hc_run, hw_run. assert (R : mrel [] []) by constructor. revert R. generalize (@nil (idx3 * cblock (V := Qc))), (@nil (idx3 * wblock (V := Qc))).
  induction l as [|tc l IH]; intros m h R; cbn [fold_left]; [exact R|]. apply IH. apply mrel_apply. exact R.
Qed.
Lemma mrel_get_node m h i : mrel m h -> 0 <= oh i <= T -> hc_get_node qn C m i = hw_get_node qn C h i.
Proof.
  intros R Hi. unfold hc_get_node, hw_get_node. pose proof (mrel_getBlock m h (hw_blockIndex C i) R) as G.
  destruct (getBlock m _), (getBlock h _); try contradiction; [|reflexivity]. apply trel_get; [apply G|exact Hi].
Qed.
Lemma mrel_get m h i : mrel m h -> hc_get qn C m i = hw_get qn C h i.
Proof.
  intros R. unfold hc_get, hw_get. pose proof (mrel_getBlock m h (indexToBlockIndex3 i T) R) as G.
  destruct (getBlock m _), (getBlock h _); try contradiction; [|reflexivity]. apply trel_get; [apply G|cbn; lia].
Qed.
Lemma mrel_hasBlock m h i : mrel m h -> hasBlock m i = hasBlock h i.
Proof.
  intros R. unfold hasBlock. pose proof (mrel_getBlock m h i R) as G. destruct (getBlock m i), (getBlock h i); try contradiction; reflexivity.
Qed.
Lemma fold_keys {B1 B2} (f : idx3 -> idx3 -> idx3) (m : list (idx3 * B1)) (h : list (idx3 * B2)) x : keys m = keys h ->
  fold_left (fun acc kb => f acc (fst kb)) m x = fold_left (fun acc kb => f acc (fst kb)) h x.
Proof.
  revert h x. induction m as [|a m IH]; intros [|b h] x E; try discriminate; cbn [fold_left]; [reflexivity|].
  cbn in E. injection E as E1 E2. rewrite E1. apply IH. exact E2.
Qed.
Lemma mrel_min m h : mrel m h -> getMinBlockIndex m = getMinBlockIndex h.
Proof.
  intros R. pose proof (mrel_keys m h R) as E. destruct R; [reflexivity|]. unfold getMinBlockIndex. apply (fold_keys (imap2 Z.min)). exact E.
Qed.
Lemma mrel_max m h : mrel m h -> getMaxBlockIndex m = getMaxBlockIndex h.
Proof.
  intros R. pose proof (mrel_keys m h R) as E. destruct R; [reflexivity|]. unfold getMaxBlockIndex. apply (fold_keys (imap2 Z.max)). exact E.
Qed.
Lemma mrel_bounds m h : mrel m h -> hc_min_index C m = hw_min_index C h /\ hc_max_index C m = hw_max_index C h /\ hc_empty m = hw_empty h.
Proof.
  intros R. unfold hc_min_index, hw_min_index, hc_max_index, hw_max_index. rewrite (mrel_min m h R), (mrel_max m h R).
  assert (E : hc_empty m = hw_empty h) by (destruct R; reflexivity). rewrite E. auto.
Qed.

(** ** Leaf iteration *)
(** The pointer-based map holding all nodes of the chunked map. *)
Definition mat_block (b : cblock) : wblock := WB (WT (mat (Z.to_nat (T - 1)) (croot (cbtree b)) []) (cscale (cbtree b))) true true 0.
Definition mat_map (m : shash cblock) : shash wblock := map (fun kb => (fst kb, mat_block (snd kb))) m.
Lemma getBlock_mat m i : getBlock (mat_map m) i = option_map mat_block (getBlock m i).
Proof. induction m as [|[k b] m IH]; cbn [mat_map map getBlock fst snd]; [reflexivity|]. destruct (ieqb k i); [reflexivity|exact IH]. Qed.
Lemma mat_keys m : keys (mat_map m) = keys m.
Proof. unfold keys, mat_map. rewrite map_map. reflexivity. Qed.
Lemma mat_tree_ok b : tree_ok T (btree (mat_block b)).
Proof. split; [exact HT|]. cbn [mat_block btree wroot]. replace (Z.to_nat T) with (S (Z.to_nat (T - 1))) by lia. apply mat_height. Qed.
Lemma mat_empty c w : brel c w -> wb_empty qn (mat_block c) = cb_empty qn c.
Proof.
  intros ((S & E & Hn) & _). destruct (sub_root _ _ _ _ _ S) as (E1 & E2 & _).
  unfold wb_empty, cb_empty, wt_empty, ct_empty. cbn [mat_block btree wroot wscale].
  assert (Ed : forall k, ndata (mat k (croot (cbtree c)) []) = cdat (croot (cbtree c)) []) by (intros []; reflexivity).
  rewrite Ed. change (nr_data cz (croot (cbtree c)) nr_root) with (cdat (croot (cbtree c)) []).
  change (nr_bit (croot (cbtree c)) nr_root) with (cbit (croot (cbtree c)) []).
  f_equal. f_equal. f_equal. destruct (Z.to_nat (T - 1)) as [|k]; unfold hasChildrenArray; cbn [mat nkids].
  - rewrite E2. unfold hasChildrenArray. cbn [nheight] in Hn. rewrite Hn. reflexivity.
  - destruct (cbit (croot (cbtree c)) []); reflexivity.
Qed.
Lemma mat_get m h i : mrel m h -> 0 <= oh i <= T -> hw_get_node qn C (mat_map m) i = hc_get_node qn C m i.
Proof.
  intros R Hi. rewrite (mrel_get_node m h i R Hi). unfold hw_get_node. rewrite getBlock_mat.
  pose proof (mrel_getBlock m h (hw_blockIndex C i) R) as G. destruct (getBlock m _) as [c|], (getBlock h _) as [w|]; try contradiction; [|reflexivity].
  cbn [option_map]. unfold wb_get. destruct G as ((S & E & Hn) & _). destruct i as [hh p]. cbn [oh] in Hi. unfold hw_cellIndex. cbn [oh opos].
  rewrite !wt_get_eval by lia. cbn [mat_block btree wroot wscale]. rewrite E.
  apply mat_eval; [constructor|apply path_valid|exact Hn|exact S].
Qed.
Lemma mat_get_cell m h i : mrel m h -> hw_get qn C (mat_map m) i = hc_get qn C m i.
Proof.
  intros R. transitivity (hw_get_node qn C (mat_map m) (OI 0 i)); [symmetry; apply (hw_get_node_cell C); lia|].
  rewrite (mat_get m h) by (try assumption; cbn; lia). rewrite (mrel_get_node m h) by (try assumption; cbn; lia).
  rewrite (mrel_get m h) by assumption. apply (hw_get_node_cell C). lia.
Qed.
Lemma mat_forEachLeaf m h F : mrel m h -> hc_forEachLeaf qn F C m = hw_forEachLeaf qn (fun _ => F) C (mat_map m).
Proof.
  intros R. induction R as [|[k c] [k' w] m h [E B] R IH]; [reflexivity|]. cbn [hc_forEachLeaf mat_map map hw_forEachLeaf fst snd].
  fold (mat_map m). rewrite <- IH. cbn [fst snd] in *. subst k'.
  assert (X : cb_forEachLeaf qn F 0 (OI T k) (cbtree c) = wt_forEachLeaf qn F 0 (OI T k) (btree (mat_block c))).
  { unfold cb_forEachLeaf, wt_forEachLeaf. pose proof (mat_empty c w B) as Ee. unfold wb_empty, cb_empty in Ee. rewrite Ee.
    destruct (ct_empty qn (cbtree c)); [reflexivity|]. apply cb_leaf_sim. constructor; [|constructor].
    cbn [mat_block btree wroot wscale]. destruct B as ((S & _ & Hn) & _). apply (MR _ _ _ [] (wroot (btree w))); [constructor|exact Hn|exact S]. }
  rewrite X. reflexivity.
Qed.
Lemma hw_leaves_mono (f g : wblock -> nat) m : (forall k b, In (k, b) m -> (nsize (wroot (btree b)) <= f b)%nat /\ (nsize (wroot (btree b)) <= g b)%nat) ->
  hw_forEachLeaf qn f C m = hw_forEachLeaf qn g C m.
Proof.
  induction m as [|[k b] m IH]; intros Hb; [reflexivity|]. cbn [hw_forEachLeaf].
  rewrite IH by (intros k' b' Hin; apply (Hb k'); right; assumption). destruct (Hb k b ltac:(left; reflexivity)) as [H1 H2].
  unfold wt_forEachLeaf. rewrite !leaf_loop_leaves by (cbn [stack_size]; lia). reflexivity.
Qed.
(** Number of loop iterations that always suffice. *)
Definition leaf_fuel (m : shash (cblock (V := Qc))) : nat := list_max (map (fun kb => nsize (wroot (btree (mat_block (snd kb))))) m).
Lemma hc_leaves m h F : mrel m h -> hwf m -> (leaf_fuel m <= F)%nat ->
  exists l, hc_forEachLeaf qn F C m = Some l /\
  (forall i u, In (i, u) l -> 0 <= oh i < T) /\
  forall c, match getBlock m (block_of C c) with
            | Some b => if cb_empty qn b then uncovered l c else covered_once l c (hc_get qn C m c)
            | None => uncovered l c
            end.
Proof.
  intros R W HF. rewrite (mat_forEachLeaf m h F R).
  set (g := fun b : wblock (V := Qc) => Nat.max F (nsize (wroot (btree b)))).
  rewrite (hw_leaves_mono (fun _ => F) g).
  2:{ intros k b Hin. split; [|unfold g; lia]. apply in_map_iff in Hin as ([k0 c0] & E & Hin). injection E as <- <-.
      unfold leaf_fuel in HF. assert (X := proj1 (list_max_le _ _) HF). rewrite Forall_forall in X. apply X.
      apply in_map_iff. exists (k0, c0). auto. }
  destruct (hw_leaves_total C (mat_map m) g ltac:(intros b; unfold g; lia)) as [l E]. exists l. split; [exact E|].
  assert (Hok : hw_ok C (mat_map m)).
  { split; [unfold hwf; rewrite mat_keys; exact W|]. intros b blk Eb. rewrite getBlock_mat in Eb.
    destruct (getBlock m b); [|discriminate]. cbn in Eb. injection Eb as <-. split; [apply mat_tree_ok|discriminate]. }
  destruct (hw_leaves C (mat_map m) g l HT Hok ltac:(intros b; unfold g; lia) E) as [L1 L2]. split; [exact L1|].
  intros c. specialize (L2 c). rewrite getBlock_mat in L2. pose proof (mrel_getBlock m h (block_of C c) R) as G.
  destruct (getBlock m (block_of C c)) as [b|]; cbn [option_map] in L2; [|exact L2].
  destruct (getBlock h (block_of C c)) as [w|]; [|contradiction]. rewrite (mat_empty b w G) in L2.
  destruct (cb_empty qn b); [exact L2|]. unfold hw_field in L2. rewrite (mat_get_cell m h) in L2 by assumption. exact L2.
Qed.
End MAP.
