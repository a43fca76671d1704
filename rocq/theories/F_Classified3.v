(** Values, updates and leaf visits of ClassifiedMap (M_Classified.v). *)
From Verif Require Import Base M_IntMath F_IntMath M_Morton F_Morton M_NdtreeIndex F_NdtreeIndex M_Num F_Num M_Haar3 F_Haar3
  M_Ndtree S_Field F_Hash M_Wavelet F_Wavelet F_Wavelet2 F_Leaves F_WavTree F_WavMap F_WavHash M_Octree F_Octree M_Accel F_Accel
  M_Occupancy P_Occupancy M_Queue M_HashedBlocks M_Classified F_Classified F_Classified2.
From Coq Require Import QArith Qcanon Lqa Permutation.
Close Scope Qc_scope.
Close Scope Q_scope.
Open Scope Z_scope.

(** ** getValue *)
Section VALUE.
Context {V : Type} (C : wconfig (V := V)).
Notation T := (cT C).
Context (HT : 1 <= T < 20).
Context (P : oidx -> cnode -> Prop) (cm : shash cnode).
Lemma parent_anc i : cm_parent i = anc i (oh i + 1).
Proof.
  unfold cm_parent, anc, imap. rewrite !div_exp2_floor_spec by lia. replace (oh i + 1 - oh i) with 1 by lia. reflexivity.
Qed.
Lemma anc_anc i h h' : 0 <= oh i <= h -> h <= h' -> anc (anc i h) h' = anc i h'.
Proof.
  intros H H'. destruct i as [ih p]. unfold anc, imap. cbn [oh opos px py pz] in *.
  rewrite !Z.div_div by (try apply Z.pow_nonzero; try apply Z.pow_pos_nonneg; lia). rewrite <- Z.pow_add_r by lia.
  replace (h - ih + (h' - h)) with (h' - ih) by lia. reflexivity.
Qed.
Lemma block_anc i h : 0 <= oh i <= h -> h <= T -> block_at T (anc i h) = block_at T i.
Proof. intros H H'. pose proof (anc_anc i h T H H') as E. rewrite !anc_top in E. exact (f_equal opos E). Qed.
Lemma rel_anc i h h' : 0 <= oh i <= h -> h < h' -> h' <= 21 -> rel (omorton (anc i h)) h' = rel (omorton i) h'.
Proof.
  intros H H1 H2. destruct i as [ih p]. cbn [oh] in H. unfold anc. cbn [oh opos]. rewrite !rel_morton_cidx by lia.
  rewrite cidx_shift by lia. f_equal. lia.
Qed.
Definition value_index (i : oidx) : Prop := 0 <= oh i < T /\ block_at T i <> no_block.
Lemma value_spec (HR : roots_ok C P cm) (HC : closed_all P) f q i : P_summ P f true -> qinv C P cm q -> value_index i ->
  exists q' v h, qc_value C cm q i = Some (q', (v, h)) /\ qinv C P cm q' /\
  match getBlock cm (block_at T i) with
  | None => v = None
  | Some _ => exists mask, v = Some mask /\ 0 <= mask < 8 /\ forall cl, in_mask mask cl <-> exists x, covers3 i x /\ f x = cl
  end.
Proof.
  intros HS Hq [Hi Hne]. unfold qc_value. rewrite parent_anc.
  destruct (node_spec C HT P cm HR HC q (anc i (oh i + 1)) Hq) as (q' & n & h & -> & Hq' & Hn).
  { split; [cbn; lia|]. rewrite block_anc by lia. assumption. }
  rewrite block_anc in Hn by lia. destruct (getBlock cm (block_at T i)) as [r|].
  2:{ destruct Hn as [-> ->]. eexists _, _, _. split; [reflexivity|]. auto. }
  destruct Hn as (Hh & p & -> & HP & Hch). cbn [anc oh] in Hh.
  eexists _, _, _. split; [reflexivity|]. split; [assumption|]. eexists. split; [reflexivity|]. split; [apply toMask3_range|].
  rewrite anc_anc in HP by lia. assert (Hr : 0 <= rel (omorton i) h < 8) by (apply rel_range; lia).
  intros cl. rewrite (child_bits P f true (anc i h) p) by (try assumption; cbn; lia). rewrite anc_child by lia.
  destruct (Z.eq_dec h (oh i + 1)) as [->|Hgt].
  - replace (oh i + 1 - 1) with (oh i) by lia. rewrite anc_self. reflexivity.
  - specialize (HS _ _ HP). cbn [anc oh] in HS. destruct (Z.to_nat h) as [|k] eqn:Ek; [lia|]. destruct HS as [_ HS]. destruct (HS _ Hr) as [_ HN].
    cbn [anc oh] in Hch. change (OI (oh i + 1) _) with (anc i (oh i + 1)) in Hch. rewrite rel_anc in Hch by lia. rewrite Hch in HN by lia.
    destruct HN as (cl0 & Hcl). change (OI h _) with (anc i h) in Hcl. rewrite anc_child in Hcl by lia.
    assert (COV : forall x, covers3 i x -> covers3 (anc i (h - 1)) x) by (intros x Hx; apply anc_covers; [lia|assumption]).
    split; intros (x & Hx & Hf).
    + destruct (covers3_nonempty i) as (y & Hy); [lia|]. exists y. split; [assumption|]. rewrite (Hcl y) by (apply COV; assumption).
      rewrite <- (Hcl x) by assumption. assumption.
    + exists x. auto.
Qed.
Lemma value_ok (HR : roots_ok C P cm) (HC : closed_all P) q i : qinv C P cm q -> value_index i ->
  exists q' v h, qc_value C cm q i = Some (q', (v, h)) /\ qinv C P cm q'.
Proof.
  intros Hq [Hi Hne]. unfold qc_value. rewrite parent_anc.
  destruct (node_spec C HT P cm HR HC q (anc i (oh i + 1)) Hq) as (q' & n & h & -> & Hq' & Hn).
  { split; [cbn; lia|]. rewrite block_anc by lia. assumption. }
  destruct n; eexists _, _, _; (split; [reflexivity|assumption]).
Qed.
Lemma getBlock_ok (HR : roots_ok C P cm) q b : qinv C P cm q -> b <> no_block -> let q' := qc_getBlock C cm q b in
  qinv C P cm q' /\ qc_found q' = hasBlock cm b.
Proof.
  intros (Hh & Hm & Hc) Hb. unfold qc_getBlock, hasBlock. destruct (ieqb_spec b (qc_block q)) as [->|Hne].
  - split; [split; [assumption|split; assumption]|]. destruct (qc_found q).
    + destruct Hc as (r & -> & _). reflexivity.
    + destruct Hc as [Hc|Hc]; [contradiction|]. rewrite Hc. reflexivity.
  - destruct (getBlock cm b) as [r|] eqn:E.
    + split; [|reflexivity]. split; [cbn; lia|]. split; [assumption|]. cbn [qc_found qc_block qc_nodes qc_height]. exists r.
      split; [assumption|]. split; [apply aset_same|lia].
    + split; [|reflexivity]. split; [cbn; lia|]. split; [assumption|]. cbn [qc_found qc_block]. auto.
Qed.
End VALUE.

(** ** update *)
Lemma sync_spec {V} (f : idx3 -> wblock (V := V) -> cnode -> cnode) (m : hmap) cm : hwf m -> hwf cm ->
  hwf (cm_sync f m cm) /\
  forall b, getBlock (cm_sync f m cm) b = option_map (fun blk => f b blk (blockOrNew (Node cd0 None) cm b)) (getBlock m b).
Proof.
  intros Hm Hcm. unfold cm_sync. set (cm1 := eraseBlockIf _ cm).
  assert (H1 : hwf cm1) by (apply eraseBlockIf_wf; assumption).
  assert (E1 : forall b, getBlock cm1 b = if hasBlock m b then getBlock cm b else None).
  { intros b. unfold cm1. rewrite getBlock_eraseBlockIf by assumption. destruct (getBlock cm b); [|destruct (hasBlock m b); reflexivity].
    cbn. destruct (hasBlock m b); reflexivity. }
  clearbody cm1.
  assert (GEN : forall l acc, hwf l -> hwf acc ->
    let r := fold_left (fun acc kb => setBlock acc (fst kb) (f (fst kb) (snd kb) (blockOrNew (Node cd0 None) acc (fst kb)))) l acc in
    hwf r /\ forall b, getBlock r b = match getBlock l b with Some blk => Some (f b blk (blockOrNew (Node cd0 None) acc b)) | None => getBlock acc b end).
  { intros l. induction l as [|[k blk] l IH]; intros acc Hl Hacc; cbn [fold_left fst snd].
    - split; [assumption|reflexivity].
    - unfold hwf, keys in Hl. cbn [map fst] in Hl. inversion Hl as [|? ? Hk Hl']; subst.
      destruct (IH (setBlock acc k (f k blk (blockOrNew (Node cd0 None) acc k)))) as [I1 I2]; [assumption|apply setBlock_wf; assumption|].
      split; [assumption|]. intros b. rewrite I2. cbn [getBlock].
      assert (Hn : getBlock l k = None) by (apply getBlock_None; assumption).
      destruct (ieqb_spec k b) as [<-|Hne].
      + rewrite Hn, getBlock_setBlock, ieqb_refl. reflexivity.
      + destruct (getBlock l b); [|rewrite getBlock_setBlock; destruct (ieqb_spec k b); [contradiction|reflexivity]].
        unfold blockOrNew. rewrite getBlock_setBlock. destruct (ieqb_spec k b); [contradiction|reflexivity]. }
  destruct (GEN m cm1 Hm H1) as [G1 G2]. split; [assumption|]. intros b. rewrite G2. specialize (E1 b). unfold hasBlock in E1.
  unfold blockOrNew. rewrite E1. destruct (getBlock m b); reflexivity.
Qed.
Section UPDATE.
Context (C : wconfig (V := Qc)) (thr : Q).
Notation T := (cT C).
Context (HT : 1 <= T <= 21).
(** the class of a cell *)
Definition mcls (m : hmap) (x : idx3) : oclass := cls thr (hw_get qn C m x).
Definition mcls_esdf (m : hmap) (esdf : idx3 -> option Qc) (radius : Qc) (x : idx3) : oclass :=
  esdf_cls thr esdf radius x (hw_get qn C m x).
Definition summary (f : idx3 -> oclass) (strict : bool) (idx : oidx) (n : cnode) : Prop := summ f strict (Z.to_nat (oh idx)) idx n.
Lemma root_value m b blk x : getBlock m b = Some blk -> covers3 (OI T b) x ->
  hw_get qn C m x = eval (wscale (btree blk)) (wroot (btree blk)) (path (Z.to_nat T) x).
Proof.
  intros Hb Hx. change (hw_get qn C m x) with (hw_field C m x). rewrite hw_field_spec by lia.
  assert (E : block_of C x = b). { unfold covers3 in Hx. cbn [oh opos] in Hx. unfold block_of. exact Hx. }
  rewrite E. unfold tree_at. rewrite Hb. unfold cellv. rewrite wt_get_eval by lia. do 2 f_equal. lia.
Qed.
Definition strict_ok (strict : bool) (cm : shash cnode) : Prop := strict = true -> cm = [].
Lemma update_roots strict m cm : hw_ok C m -> hwf cm -> strict_ok strict cm ->
  hwf (cm_classify qn (qis thr) m cm) /\ roots_ok C (summary (mcls m) strict) (cm_classify qn (qis thr) m cm) /\
  forall b, hasBlock (cm_classify qn (qis thr) m cm) b = hasBlock m b.
Proof.
  intros [Hm Hok] Hcm Hs. unfold cm_classify.
  destruct (sync_spec (fun (_ : idx3) b n => classify qn (qis thr) (wroot (btree b)) (wscale (btree b)) n) m cm Hm Hcm) as [S1 S2].
  split; [assumption|]. split.
  - intros b r Hr. rewrite S2 in Hr. destruct (getBlock m b) as [blk|] eqn:Eb; [|discriminate]. cbn [option_map] in Hr. injection Hr as <-.
    unfold summary. cbn [oh]. destruct (Hok b blk Eb) as [[_ Hh] _]. apply classify_summ; [assumption|cbn; lia| |].
    + intros x Hx. unfold mcls. rewrite (root_value m b blk x Eb Hx). reflexivity.
    + intros E. rewrite (Hs E). apply childless_new.
  - intros b. unfold hasBlock. rewrite S2. destruct (getBlock m b); reflexivity.
Qed.
Lemma update_esdf_roots strict esdf radius m cm : hw_ok C m -> hwf cm -> strict_ok strict cm ->
  let cm' := cm_classify_esdf qn (qis thr) C esdf radius m cm in
  hwf cm' /\ roots_ok C (summary (mcls_esdf m esdf radius) strict) cm' /\ forall b, hasBlock cm' b = hasBlock m b.
Proof.
  intros [Hm Hok] Hcm Hs. cbv zeta. unfold cm_classify_esdf.
  destruct (sync_spec (fun i b n => classify_esdf qn (qis thr) (Z.to_nat T) esdf radius (OI T i) (Some (wroot (btree b))) (wscale (btree b)) n)
    m cm Hm Hcm) as [S1 S2].
  split; [assumption|]. split.
  - intros b r Hr. rewrite S2 in Hr. destruct (getBlock m b) as [blk|] eqn:Eb; [|discriminate]. cbn [option_map] in Hr. injection Hr as <-.
    unfold summary. cbn [oh]. destruct (Hok b blk Eb) as [[_ Hh] _]. apply classify_esdf_summ; [lia|assumption|cbn; lia| |].
    + intros x Hx. unfold mcls_esdf. rewrite (root_value m b blk x Eb Hx). reflexivity.
    + intros E. rewrite (Hs E). apply childless_new.
  - intros b. unfold hasBlock. rewrite S2. destruct (getBlock m b); reflexivity.
Qed.
End UPDATE.
(** what the queries need to know about [summary] *)
Lemma summary_summ f strict : P_summ (summary f strict) f strict.
Proof. intros idx p H. exact H. Qed.
Lemma summary_closed f : closed_all (summary f true).
Proof.
  intros idx p c ch HP Hh Hc Hch. unfold summary in *. destruct (Z.to_nat (oh idx)) as [|k] eqn:E; [lia|]. destruct HP as [_ HP].
  destruct (HP c Hc) as [_ H]. rewrite Hch in H. destruct H as [H|[H _]]; [|discriminate].
  cbn [ochild oh]. replace (Z.to_nat (oh idx - 1)) with k by lia. exact H.
Qed.
Lemma summary_mixed f strict : closed_mixed (summary f strict).
Proof.
  intros mask idx p c ch HP Hh Hc Hch HF HH. unfold summary in *. destruct (Z.to_nat (oh idx)) as [|k] eqn:E; [lia|]. destruct HP as [_ HP].
  destruct (HP c Hc) as [HB H]. rewrite Hch in H. cbn [ochild oh]. replace (Z.to_nat (oh idx - 1)) with k by lia. destruct H as [H|[_ H]]; [exact H|].
  exfalso. destruct H as (cl & Hcl). apply C28_has in HH; [|left; apply toMask3_range]. destruct HH as (c1 & M1 & M2).
  apply not_true_iff_false in HF. apply HF. apply C28_isFully. intros c2 M3. apply cd_child_mask in M1. apply cd_child_mask in M3.
  apply HB in M1. apply HB in M3. destruct M1 as (x & Hx & <-). destruct M3 as (y & Hy & <-). rewrite (Hcl y Hy), <- (Hcl x Hx). assumption.
Qed.

(** ** Leaf visits *)
Inductive act := Skip | Emit | Push (ch : cnode).
Section VISIT.
Context (visit : oidx -> cnode -> list (oidx * cnode) * list (oidx * Z) -> Z -> list (oidx * cnode) * list (oidx * Z))
  (action : oidx -> cnode -> Z -> act).
Context (Hvisit : forall idx n sa c, visit idx n sa c = match action idx n c with
  | Skip => sa
  | Emit => (fst sa, (ochild idx c, cd_child (ndata n) c) :: snd sa)
  | Push ch => ((ochild idx c, ch) :: fst sa, snd sa)
  end).
Context (Hpush : forall idx n c ch, action idx n c = Push ch -> getChild n c = Some ch).
Definition pushes (idx : oidx) (n : cnode) (cs : list Z) : list (oidx * cnode) :=
  flat_map (fun c => match action idx n c with Push ch => [(ochild idx c, ch)] | _ => [] end) cs.
Definition emits (idx : oidx) (n : cnode) (cs : list Z) : list (oidx * Z) :=
  flat_map (fun c => match action idx n c with Emit => [(ochild idx c, cd_child (ndata n) c)] | _ => [] end) cs.
Lemma visit_fold idx n cs : forall st ac, fold_left (visit idx n) cs (st, ac) = (rev (pushes idx n cs) ++ st, rev (emits idx n cs) ++ ac).
Proof.
  induction cs as [|c cs IH]; intros st ac; [reflexivity|]. cbn [fold_left]. rewrite Hvisit. cbn [fst snd].
  unfold pushes, emits. cbn [flat_map]. fold (pushes idx n cs). fold (emits idx n cs).
  destruct (action idx n c); rewrite IH; cbn [app rev]; rewrite <- ?app_assoc; reflexivity.
Qed.
Fixpoint lv (k : nat) (idx : oidx) (n : cnode) : list (oidx * Z) :=
  match k with
  | O => []
  | S k' => flat_map (fun c => match action idx n c with
                               | Skip => []
                               | Emit => [(ochild idx c, cd_child (ndata n) c)]
                               | Push ch => lv k' (ochild idx c) ch
                               end) child_ids
  end.
Definition lvs (e : oidx * cnode) : list (oidx * Z) := lv (Z.to_nat (oh (fst e))) (fst e) (snd e).
Lemma lv_split k idx n : oh idx = Z.of_nat (S k) -> Permutation (lv (S k) idx n) (emits idx n child_ids ++ flat_map lvs (pushes idx n child_ids)).
Proof.
  intros Hh. cbn [lv]. generalize child_ids. intros cs. induction cs as [|c cs IH]; [constructor|].
  cbn [flat_map]. unfold emits, pushes. cbn [flat_map]. fold (emits idx n cs). fold (pushes idx n cs).
  rewrite IH. destruct (action idx n c) as [| |ch]; cbn [app flat_map].
  - reflexivity.
  - reflexivity.
  - unfold lvs at 2. cbn [fst snd ochild oh]. replace (Z.to_nat (oh idx - 1)) with k by lia.
    rewrite !app_assoc. apply Permutation_app_tail. apply Permutation_app_comm.
Qed.
Context (ok : oidx -> cnode -> Prop).
Context (Hok : forall idx n c ch, ok idx n -> 0 <= c < 8 -> action idx n c = Push ch -> ok (ochild idx c) ch).
Context (Hok1 : forall idx n, ok idx n -> 1 <= oh idx).
Lemma pushes_ok idx n : ok idx n -> Forall (fun e => ok (fst e) (snd e)) (pushes idx n child_ids).
Proof.
  intros H. apply Forall_forall. intros e He. apply in_flat_map in He. destruct He as (c & Hc & He). apply in_child_ids in Hc.
  destruct (action idx n c) as [| |ch] eqn:E; try destruct He as []; [|contradiction]. subst e. cbn [fst snd]. apply (Hok idx n); assumption.
Qed.
Lemma loop_perm fuel : forall st ac l, Forall (fun e => ok (fst e) (snd e)) st -> cf_loop visit fuel st ac = Some l ->
  Permutation l (ac ++ flat_map lvs st).
Proof.
  induction fuel as [|fuel IH]; intros [|[idx n] st] ac l Hst; cbn [cf_loop]; intros H; try discriminate.
  - injection H as <-. cbn [flat_map]. rewrite app_nil_r. symmetry. apply Permutation_rev.
  - injection H as <-. cbn [flat_map]. rewrite app_nil_r. symmetry. apply Permutation_rev.
  - rewrite visit_fold in H. cbn [fst snd] in H. inversion Hst as [|? ? H1 H2]; subst. cbn [fst snd] in H1.
    apply IH in H.
    2:{ apply Forall_app. split; [|assumption]. apply Forall_rev. apply pushes_ok. assumption. }
    rewrite H. cbn [flat_map]. unfold lvs at 2. cbn [fst snd]. pose proof (Hok1 _ _ H1) as Hh.
    destruct (Z.to_nat (oh idx)) as [|k] eqn:Ek; [lia|]. rewrite (lv_split k idx n) by lia.
    rewrite flat_map_app.
    assert (E : Permutation (flat_map lvs (rev (pushes idx n child_ids))) (flat_map lvs (pushes idx n child_ids))).
    { apply Permutation_flat_map. symmetry. apply Permutation_rev. }
    etransitivity.
    { apply Permutation_app; [apply Permutation_app_tail; symmetry; apply Permutation_rev|]. apply Permutation_app_tail. exact E. }
    replace (ac ++ (emits idx n child_ids ++ flat_map lvs (pushes idx n child_ids)) ++ flat_map lvs st)
      with ((ac ++ emits idx n child_ids) ++ flat_map lvs (pushes idx n child_ids) ++ flat_map lvs st) by (rewrite <- !app_assoc; reflexivity).
    apply Permutation_app_tail. apply Permutation_app_comm.
Qed.
Fixpoint stack_size (st : list (oidx * cnode)) : nat := match st with [] => O | e :: st' => (nsize (snd e) + stack_size st')%nat end.
Lemma stack_size_app a b : stack_size (a ++ b) = (stack_size a + stack_size b)%nat.
Proof. induction a as [|x a IH]; cbn; [reflexivity|]. rewrite IH. lia. Qed.
Lemma stack_size_rev a : stack_size (rev a) = stack_size a.
Proof. induction a as [|x a IH]; cbn; [reflexivity|]. rewrite stack_size_app, IH. cbn. lia. Qed.
Lemma pushes_size idx n : (S (stack_size (pushes idx n child_ids)) <= nsize n)%nat.
Proof.
  assert (E : (list_sum (map (fun c => match getChild n c with None => O | Some ch => nsize ch end) child_ids) + 1 <= nsize n)%nat).
  { destruct n as [d [k|]]; [|cbn; lia]. destruct k. cbn. lia. }
  assert (L : (stack_size (pushes idx n child_ids) <= list_sum (map (fun c => match getChild n c with None => O | Some ch => nsize ch end) child_ids))%nat).
  { generalize child_ids. intros cs. induction cs as [|c cs IH]; [cbn; lia|]. unfold pushes. cbn [flat_map map]. fold (pushes idx n cs).
    rewrite stack_size_app. change (list_sum (?a :: ?b)) with (a + list_sum b)%nat.
    destruct (action idx n c) as [| |ch] eqn:Ea; cbn [stack_size]; [lia|lia|]. rewrite (Hpush _ _ _ _ Ea). cbn [snd]. lia. }
  lia.
Qed.
Lemma loop_total fuel : forall st ac, (stack_size st <= fuel)%nat -> exists l, cf_loop visit fuel st ac = Some l.
Proof.
  induction fuel as [|fuel IH]; intros [|[idx n] st] ac H; cbn [cf_loop]; try (eexists; reflexivity).
  - exfalso. cbn in H. pose proof (nsize_pos n). lia.
  - rewrite visit_fold. cbn [fst snd]. apply IH. rewrite stack_size_app, stack_size_rev. cbn [stack_size snd] in H. pose proof (pushes_size idx n). lia.
Qed.
End VISIT.
