(** The invariant of a publisher and its subscriber *)
From Verif Require Import Base M_IntMath F_IntMath M_NdtreeIndex M_Num F_Num M_Haar F_Haar M_Haar3 F_Haar3 M_Ndtree S_Field F_Hash M_Wavelet
  F_Wavelet F_Wavelet2 F_Leaves F_WavTree F_WavMap F_WavHash M_WavHist F_WavHist M_HashedBlocks M_Octree F_Octree M_Subtree P_Subtree
  M_Stream F_Stream F_Stream2 F_Stream4 M_Publish F_Publish F_Publish2.
From Coq Require Import QArith Qcanon Qcabs Lqa Permutation.
Close Scope Qc_scope. Close Scope Q_scope. Open Scope Z_scope.

Section INV.
Context (C : @wconfig Qc) (w : Qc).
Notation T := (cT C).
(** The block was sent when its content was [g], and has not been changed since, except by pruning it once *)
Definition in_sync (np : bool) (g : @wtree Qc) (sub : @hmap Qc) (i : idx3) (b : @wblock Qc) : Prop :=
  bthr b = false /\ (exists sb, getBlock sub i = Some sb /\ btree sb = as_saved C g) /\ tree_ok T g /\
  (btree b = g \/ np = false /\ bprn b = false /\ btree b = wt_prune g).
Definition inv (np : bool) (G : idx3 -> @wtree Qc) (s : psys Qc) : Prop :=
  hw_ok C (ps_map s) /\ sub_ok C w (ps_sub s) /\
  forall i b, getBlock (ps_map s) i = Some b -> ps_last s < bstamp b \/ in_sync np (G i) (submap (ps_sub s)) i b.
Lemma in_sync_weaken np g sub i b : in_sync np g sub i b -> in_sync false g sub i b.
Proof. intros (H1 & H2 & H3 & H4). repeat split; try assumption; try apply H3. destruct H4 as [H4|(_ & H4)]; [left; exact H4|right; split; [reflexivity|exact H4]]. Qed.
Lemma inv_init : inv true (fun _ => wt_new qn) (PSY [] 0 None).
Proof. split; [apply hw_ok_nil|]. split; [exact I|]. intros i b H. discriminate H. Qed.
Definition prunes (c : hcall) : bool := match c with HPrune | HPruneSmart _ => true | _ => false end.
Lemma thr_stamp b : bstamp (wb_threshold qn C b) = bstamp b.
Proof. unfold wb_threshold. destruct (bthr b); [|reflexivity]. destruct (threshold_rec _ _ _ _ _). reflexivity. Qed.
Lemma thr_id_block b : bthr b = false -> wb_threshold qn C b = b.
Proof. intros H. unfold wb_threshold. rewrite H. reflexivity. Qed.
Lemma prune_stamp b : bstamp (wb_prune qn C b) = bstamp b.
Proof. unfold wb_prune. destruct (bprn b); [|reflexivity]. cbn [bstamp]. apply thr_stamp. Qed.
Lemma prune_sync np g sub i b : in_sync np g sub i b -> in_sync false g sub i (wb_prune qn C b).
Proof.
  intros H. destruct (in_sync_weaken _ _ _ _ _ H) as (H1 & H2 & H3 & H4). unfold wb_prune. destruct (bprn b) eqn:E; [|exact (in_sync_weaken _ _ _ _ _ H)].
  cbv zeta. rewrite (thr_id_block b H1). split; [exact H1|]. split; [exact H2|]. split; [exact H3|]. right. split; [reflexivity|]. split; [reflexivity|].
  destruct H4 as [->|(_ & H4 & _)]; [reflexivity|congruence].
Qed.
Lemma erase_inv np G m last sub f : inv np G (PSY m last sub) -> (forall b, bstamp (f b) = bstamp b) ->
  (forall b, blk_ok C b -> blk_ok C (f b)) ->
  (forall g i b, in_sync np g (submap sub) i b -> in_sync false g (submap sub) i (f b)) ->
  inv false G (PSY (eraseBlockIf (fun _ b => let b' := f b in (b', wb_empty qn b')) m) last sub).
Proof.
  intros (H1 & H2 & H3) F1 F2 F3. cbn [ps_map ps_last ps_sub] in *. split; [apply eraseIf_ok; assumption|]. split; [exact H2|]. cbn [ps_map ps_last ps_sub].
  intros i b E. rewrite getBlock_eraseBlockIf in E by apply H1. destruct (getBlock m i) as [b0|] eqn:E0; [|discriminate]. cbn [fst snd] in E.
  destruct (wb_empty qn (f b0)); [discriminate|]. injection E as <-. destruct (H3 i b0 E0) as [K|K]; [left; rewrite F1; exact K|right; apply F3; exact K].
Qed.
Lemma set_inv np G m last sub i b : inv np G (PSY m last sub) -> blk_ok C b -> last < bstamp b -> inv np G (PSY (setBlock m i b) last sub).
Proof.
  intros (H1 & H2 & H3) Hb Hl. cbn [ps_map ps_last ps_sub] in *. split; [apply hw_ok_set; [exact H1|apply Hb|apply Hb]|]. split; [exact H2|]. cbn [ps_map ps_last ps_sub].
  intros j b' E. rewrite getBlock_setBlock in E. destruct (ieqb_spec i j) as [<-|]; [injection E as <-; left; exact Hl|apply H3; exact E].
Qed.
Lemma call_inv np G m last sub now c : 1 <= T <= 21 -> (clo C <= chi C)%Qc -> inv np G (PSY m last sub) -> last < now ->
  inv (np && negb (prunes c)) G (PSY (hw_apply C m (now, c)) last sub).
Proof.
  intros HT Hlh H Hn. pose proof H as (H1 & H2 & H3). cbn [ps_map ps_last ps_sub] in *.
  destruct c as [i v|i u| | |age| |b]; cbn [hw_apply prunes negb]; rewrite ?andb_true_r, ?andb_false_r.
  - unfold hw_set. apply set_inv; [exact H| |exact Hn]. split; [|discriminate]. cbn [wb_set btree]. rewrite blockOrNew_tree. apply wt_update_ok; [|apply tree_at_ok; assumption].
    rewrite hw_cellIndex_spec by lia. cbn [oh]. lia.
  - unfold hw_add. apply set_inv; [exact H| |exact Hn]. split; [|discriminate]. cbn [wb_add btree]. rewrite blockOrNew_tree. apply wt_update_ok; [|apply tree_at_ok; assumption].
    rewrite hw_cellIndex_spec by lia. cbn [oh]. lia.
  - split; [apply hw_threshold_ok; assumption|]. split; [exact H2|]. cbn [ps_map ps_last ps_sub]. intros i b E. unfold hw_threshold in E. rewrite getBlock_forEachBlock in E.
    destruct (getBlock m i) as [b0|] eqn:E0; [|discriminate]. injection E as <-. destruct (H3 i b0 E0) as [K|K]; [left; rewrite thr_stamp; exact K|right].
    rewrite thr_id_block by apply K. exact K.
  - unfold hw_prune. apply (erase_inv np); [exact H|exact prune_stamp|intros b; apply wb_prune_ok; exact Hlh|intros g i b; apply prune_sync].
  - unfold hw_pruneSmart. apply (erase_inv np G m last sub (fun b => if age <? now - bstamp b then wb_prune qn C b else b)).
    + exact H.
    + intros b. destruct (_ <? _); [apply prune_stamp|reflexivity].
    + intros b Hb. destruct (_ <? _); [apply wb_prune_ok; assumption|exact Hb].
    + intros g i b K. destruct (_ <? _); [exact (prune_sync _ _ _ _ _ K)|exact (in_sync_weaken _ _ _ _ _ K)].
  - split; [apply hw_ok_nil|]. split; [exact H2|]. intros i b E. discriminate E.
  - split; [|split; [exact H2|]].
    + destruct H1 as [W K]. split; [apply filter_wf; exact W|]. cbn [ps_map]. intros b' blk E.
      rewrite getBlock_eraseBlock in E. destruct (ieqb b b'); [discriminate|]. exact (K b' blk E).
    + cbn [ps_map ps_last ps_sub]. intros i b' E. rewrite getBlock_eraseBlock in E. destruct (ieqb b i); [discriminate|]. exact (H3 i b' E).
Qed.

Context (maxn : Z) (lf : @wblock Qc -> nat) (Hlf : forall b, (nsize (wroot (btree b)) <= lf b)%nat).
Lemma nodup_changed (f : idx3 * @wblock Qc -> bool) m : hwf m -> NoDup (map fst (filter f m)).
Proof. intros W. exact (filter_wf f m W). Qed.
Lemma changed_in f (m : @hmap Qc) i : hwf m -> (In i (map fst (filter f m)) <-> exists b, getBlock m i = Some b /\ f (i, b) = true).
Proof.
  intros W. rewrite in_map_iff. split.
  - intros ([k b] & <- & H). apply filter_In in H. destruct H as [H1 H2]. exists b. split; [apply In_getBlock; assumption|exact H2].
  - intros (b & H1 & H2). exists (i, b). split; [reflexivity|]. apply filter_In. split; [apply getBlock_In; exact H1|exact H2].
Qed.
Lemma publish_inv np G s now rnow whole ord : 1 <= T <= 21 -> (clo C <= chi C)%Qc -> (forall l, Permutation (ord l) l) -> inv np G s ->
  exists s' msgs G', sys_publish qn lf w C maxn now rnow whole ord s = Some (s', msgs) /\ inv np G' s' /\
    keys (ps_map s') = keys (ps_map s) /\
    (forall i, getBlock (ps_map s') i = option_map (wb_threshold qn C) (getBlock (ps_map s) i)) /\
    (forall i b, getBlock (ps_map s') i = Some b -> in_sync np (G' i) (submap (ps_sub s')) i b /\ (whole = true -> btree b = G' i)) /\
    (msgs = [] -> forall i b, getBlock (ps_map s) i = Some b -> whole = false /\ bstamp b <= ps_last s) /\
    (msgs <> [] -> forall i, getBlock (ps_map s') i = None -> getBlock (submap (ps_sub s')) i = None).
Proof.
  intros HT Hlh Ho (H1 & H2 & H3). unfold sys_publish. destruct s as [m last sub]. cbn [ps_map ps_last ps_sub] in *.
  destruct (hw_empty m) eqn:Em.
  { destruct m; [|discriminate]. exists (PSY [] last sub), [], G. split; [reflexivity|]. split; [split; [exact H1|split; [exact H2|exact H3]]|]. cbn [ps_map].
    split; [reflexivity|]. split; [reflexivity|]. split; [discriminate|]. split; [discriminate|]. congruence. }
  unfold publishHashedMap. set (f := fun kb : idx3 * wblock => whole || (last <? bstamp (snd kb))). set (ch := map fst (filter f m)).
  assert (W : hwf m) by apply H1. assert (Hin : forall i, In i (ord ch) <-> exists b, getBlock m i = Some b /\ f (i, b) = true).
  { intros i. rewrite <- (changed_in f m i W). fold ch. split; [apply (Permutation_in _ (Ho ch))|apply (Permutation_in _ (Permutation_sym (Ho ch)))]. }
  destruct (pub_loop_spec C w maxn lf ord Hlf Ho rnow (length ch) (ord ch) m sub) as (m' & msgs & s' & P1 & P2 & P3 & P4 & P5 & P6 & P7).
  { rewrite (Permutation_length (Ho ch)). apply le_n. }
  { apply (Permutation_NoDup (Permutation_sym (Ho ch))). apply nodup_changed. exact W. }
  { intros i Hi. apply Hin in Hi. destruct Hi as (b & Hi & _). unfold hasBlock. rewrite Hi. reflexivity. }
  { exact H2. }
  rewrite P1, P2.
  assert (OLD : forall i b, getBlock m i = Some b -> memb i (ord ch) = false -> whole = false /\ bstamp b <= last).
  { intros i b E M. apply memb_false in M. destruct (f (i, b)) eqn:F; [exfalso; apply M; apply Hin; exists b; auto|].
    unfold f in F. cbn [snd] in F. apply orb_false_iff in F. destruct F as [F1 F2]. apply Z.ltb_ge in F2. auto. }
  assert (GB : forall i, getBlock m' i = option_map (wb_threshold qn C) (getBlock m i)).
  { intros i. rewrite P5. destruct (memb i (ord ch)) eqn:M; [reflexivity|]. destruct (getBlock m i) as [b|] eqn:E; [|reflexivity]. cbn [option_map].
    destruct (OLD i b E M) as [_ L]. destruct (H3 i b E) as [K|K]; [lia|]. rewrite thr_id_block by apply K. reflexivity. }
  set (G' := fun i => if memb i (ord ch) then match getBlock m' i with Some b => btree b | None => wt_new qn end else G i).
  assert (KEEP : forall i b, getBlock m' i = Some b -> memb i (ord ch) = false -> getBlock (submap s') i = getBlock (submap sub) i).
  { intros i b E M. assert (D : ord ch = [] \/ ord ch <> []) by (destruct (ord ch); [left; reflexivity|right; discriminate]).
    destruct D as [D|D]; [destruct (P6 D) as [_ ->]; reflexivity|]. destruct (P7 D) as (_ & sm & -> & P8). specialize (P8 i). rewrite E, M in P8. exact P8. }
  assert (SY : forall i b, getBlock m' i = Some b -> in_sync np (G' i) (submap s') i b /\ (whole = true -> btree b = G' i)).
  { intros i b E. unfold G'. destruct (memb i (ord ch)) eqn:M.
    - rewrite E. split; [|reflexivity]. assert (D : ord ch <> []) by (apply memb_iff in M; destruct (ord ch); [destruct M|discriminate]).
      destruct (P7 D) as (_ & sm & -> & P8). specialize (P8 i). rewrite E, M in P8. cbn [submap].
      rewrite GB in E. destruct (getBlock m i) as [b0|] eqn:E0; [|discriminate]. injection E as <-. destruct (wb_threshold_ok C b0 Hlh (proj2 H1 i b0 E0)) as (T1 & _ & _).
      split; [apply wb_threshold_thr|]. split; [exact P8|]. split; [exact T1|]. left. reflexivity.
    - rewrite P5, M in E. destruct (OLD i b E M) as [-> L]. split; [|discriminate]. destruct (H3 i b E) as [K|K]; [lia|].
      destruct K as (K1 & K2 & K3 & K4). split; [exact K1|]. split; [|split; assumption]. rewrite (KEEP i b); [exact K2| |exact M]. rewrite P5, M. exact E. }
  exists (PSY m' now s'), msgs, G'. split; [reflexivity|]. cbn [ps_map ps_last ps_sub]. split; [|split; [exact P4|split; [exact GB|split; [exact SY|split]]]].
  - split; [|split; [exact P3|]].
    + cbn [ps_map]. split; [unfold hwf in *; fold (keys m'); rewrite P4; exact W|]. intros i b E. rewrite GB in E. destruct (getBlock m i) as [b0|] eqn:E0; [|discriminate].
      injection E as <-. destruct (wb_threshold_ok C b0 Hlh (proj2 H1 i b0 E0)) as (T1 & T2 & _). split; [exact T1|intros _; exact T2].
    + cbn [ps_map ps_last ps_sub]. intros i b E. right. apply SY. exact E.
  - intros EM i b E. apply (OLD i b E). destruct (ord ch) as [|x l] eqn:EO; [reflexivity|]. destruct P7 as [P7 _]; [discriminate|]. congruence.
  - intros NE i E. assert (D : ord ch <> []) by (intros D; apply NE; apply P6; exact D). destruct (P7 D) as (_ & sm & -> & P8). specialize (P8 i). rewrite E in P8. exact P8.
Qed.

(** ** What the subscriber reads *)
Definition ghost_map (G : idx3 -> @wtree Qc) (m : @hmap Qc) : @hmap Qc := map (fun kb => (fst kb, WB (G (fst kb)) false false 0)) m.
Lemma ghost_get G m i : getBlock (ghost_map G m) i = option_map (fun _ => WB (G i) false false 0) (getBlock m i).
Proof.
  unfold ghost_map. induction m as [|[k b] m IH]; [reflexivity|]. cbn [map getBlock fst]. destruct (ieqb_spec k i) as [->|]; [reflexivity|exact IH].
Qed.
Lemma as_saved_new : as_saved C (wt_new qn) = wt_new qn.
Proof. reflexivity. Qed.
Lemma sub_get G m sub c : 1 <= T <= 21 -> tree_at sub (block_of C c) = as_saved C (tree_at (ghost_map G m) (block_of C c)) ->
  hw_get qn C sub c = hw_get qn C (hw_reloaded C 0 (ghost_map G m)) c.
Proof.
  intros HT E. change (hw_field C sub c = hw_field C (hw_reloaded C 0 (ghost_map G m)) c). rewrite !hw_field_spec by lia. rewrite tree_reloaded, E. reflexivity.
Qed.
End INV.
