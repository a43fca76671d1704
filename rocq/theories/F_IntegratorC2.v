(** Field effect of HashedChunkedWaveletIntegrator::updateMap against S_Integrate.v (exact arithmetic). *)
From Verif Require Import Base M_IntMath F_IntMath M_Morton F_Morton M_NdtreeIndex F_NdtreeIndex
  M_Num F_Num M_Haar F_Haar M_Haar3 F_Haar3 M_Ndtree S_Field S_Integrate F_Hash M_Wavelet F_Wavelet F_Wavelet2 F_Leaves F_WavTree
  F_WavMap F_WavHash M_WavHist F_WavHist M_Octree F_Octree M_Chunked F_Chunked F_ChunkedSim F_ChunkedWav M_ChunkedHist F_ChunkedMap
  M_Integrator F_Integrator F_Integrator2 F_Integrator3 F_IntegratorC.
From Coq Require Import QArith Qcanon Qcabs Lqa Permutation.
Close Scope Qc_scope.
Close Scope Q_scope.
Open Scope Z_scope.

Section FIELD.
Context (C : wconfig (V := Qc)) (HT : 2 <= cT C <= 21) (K : iconst Qc) (W : oracle Qc) (Hth : 0 <= i_th K)
  (Hcl : (i_plo K <= i_phi K)%Qc).
Notation T := (cT C).
Let HT1 : 1 <= T <= 21. Proof. clear - HT. lia. Qed.

(** ** The same scan on the pointer trees *)
Definition hx_block (now : Z) (b : idx3) (blk : wblock (V := Qc)) : wblock (V := Qc) :=
  let '(n, s, g) := cupd K W (Z.to_nat T) (OI T b) (wroot (btree blk)) (wscale (btree blk)) in
  WB (WT n s) (bthr blk || g) true now.
Definition hx_update (now : Z) (order : list idx3) (h : hmap) : hmap :=
  fold_left (fun m b => match getBlock m b with Some blk => setBlock m b (hx_block now b blk) | None => m end) order h.
Lemma brel_update now b c w : brel C c w -> brel C (cb_updateBlock qn K W T now b c) (hx_block now b w).
Proof.
  intros ((S & E & Hn) & E1 & E2 & E3). unfold cb_updateBlock, hx_block.
  pose proof (cu_sim K W (Z.to_nat T) (croot (cbtree c)) [] (wroot (btree w)) (OI T b) (cscale (cbtree c)) (cbthr c) ltac:(constructor) S) as G.
  replace (Z.to_nat T) with (Datatypes.S (Z.to_nat (T - 1))) in * by lia.
  pose proof (cupd_nheight K W Hth (Z.to_nat (T - 1)) (OI T b) (wroot (btree w)) (cscale (cbtree c)) ltac:(cbn [oh]; lia) ltac:(lia) Hn) as Hu.
  rewrite <- E. change (caddr []) with nr_root in G.
  destruct (cu_rec qn K W _ _ _ _ _ _) as [[root s] thr]. destruct (cupd K W _ _ _ _) as [[n s'] g].
  destruct G as (G1 & -> & -> & _). cbn [fst] in Hu. rewrite <- E1.
  split; [split; [exact G1|split; [reflexivity|exact Hu]]|]. auto.
Qed.
Lemma mrel_ctester m h k : mrel C m h -> forall idx, ctester qn K W m k idx = tester qn K W h k idx.
Proof.
  intros R. induction k as [|k IH]; intros idx; cbn [ctester tester].
  - destruct (is_unobserved _); [reflexivity|]. destruct (is_occupied _); [reflexivity|].
    pose proof (mrel_getBlock C m h (opos idx) R) as G. destruct (getBlock m _) as [c|], (getBlock h _) as [w|]; try contradiction; [|reflexivity].
    destruct G as ((_ & E & _) & _). rewrite E. reflexivity.
  - destruct (is_unobserved _); [reflexivity|]. apply flat_map_ext. intros c. apply IH.
Qed.
Lemma mrel_blocks m h k fov : mrel C m h -> hc_blocks qn K W m k fov = um_blocks qn K W h k fov.
Proof. intros R. unfold hc_blocks, um_blocks. apply flat_map_ext. intros i. apply mrel_ctester. exact R. Qed.
Lemma mrel_alloc now l : forall m h, mrel C m h -> mrel C (hc_alloc qn now m l) (um_alloc qn now h l).
Proof.
  unfold hc_alloc, um_alloc. induction l as [|b l IH]; intros m h R; cbn [fold_left]; [exact R|].
  apply IH. apply mrel_setBlock; [exact R|]. apply mrel_blockOrNew. exact R.
Qed.
Lemma mrel_updateMap now order l m h : mrel C m h ->
  mrel C (hc_updateMap qn K W T now order l m) (hx_update now order (um_alloc qn now h l)).
Proof.
  intros R. apply (mrel_alloc now l) in R. unfold hc_updateMap, hx_update. revert R.
  generalize (hc_alloc qn now m l), (um_alloc qn now h l). clear m h. induction order as [|b order IH]; intros m h R; cbn [fold_left]; [exact R|].
  apply IH. pose proof (mrel_getBlock C m h b R) as G. destruct (getBlock m b) as [c|], (getBlock h b) as [w|]; try contradiction; [|exact R].
  apply mrel_setBlock; [exact R|]. apply brel_update. exact G.
Qed.
Lemma hx_update_spec now order : NoDup order -> forall h b,
  getBlock (hx_update now order h) b = if in_dec idx3_eq_dec b order then option_map (hx_block now b) (getBlock h b) else getBlock h b.
Proof.
  unfold hx_update. induction order as [|a order IH]; intros Hn h b; cbn [fold_left].
  - destruct (in_dec _ _ _) as [[]|]; reflexivity.
  - inversion Hn as [|? ? Ha Hn']; subst. rewrite IH by exact Hn'.
    assert (X : getBlock (match getBlock h a with Some blk => setBlock h a (hx_block now a blk) | None => h end) b =
                if ieqb a b then option_map (hx_block now b) (getBlock h b) else getBlock h b).
    { destruct (ieqb_spec a b) as [->|Hne].
      - destruct (getBlock h b) as [blk|] eqn:E; [|exact E]. rewrite getBlock_setBlock. destruct (ieqb_spec b b); [reflexivity|contradiction].
      - destruct (getBlock h a) as [blk|]; [|reflexivity]. rewrite getBlock_setBlock. destruct (ieqb_spec a b); [contradiction|reflexivity]. }
    rewrite X. destruct (ieqb_spec a b) as [->|Hne].
    + destruct (in_dec _ b order) as [|_]; [contradiction|]. destruct (in_dec _ _ _) as [_|Y]; [reflexivity|]. exfalso. apply Y. left. reflexivity.
    + destruct (in_dec _ b order) as [Hi|Hi], (in_dec _ b (a :: order)) as [Hj|Hj]; try reflexivity.
      * exfalso. apply Hj. right. exact Hi.
      * destruct Hj; contradiction.
Qed.
Lemma hx_wf now order : forall h : hmap, hwf h -> hwf (hx_update now order h).
Proof.
  unfold hx_update. induction order as [|a order IH]; intros h Hh; cbn [fold_left]; [exact Hh|]. apply IH.
  destruct (getBlock h a); [apply setBlock_wf|]; exact Hh.
Qed.
(** All blocks after a scan *)
Lemma hx_spec now order l h : NoDup l -> Permutation order l -> forall b,
  getBlock (hx_update now order (um_alloc qn now h l)) b =
  if in_dec idx3_eq_dec b l then Some (hx_block now b (blockOrNew (wb_new qn now) h b)) else getBlock h b.
Proof.
  intros Hn Hp b. rewrite hx_update_spec by (apply (Permutation_NoDup (Permutation_sym Hp) Hn)). rewrite um_alloc_spec.
  destruct (in_dec _ b order) as [Hi|Hi], (in_dec _ b l) as [Hj|Hj]; try reflexivity.
  - exfalso. apply Hj. apply (Permutation_in _ Hp Hi).
  - exfalso. apply Hi. apply (Permutation_in _ (Permutation_sym Hp) Hj).
Qed.

(** ** The field *)
Context (m : hmap).
Notation f := (hw_field C m).
Notation skipped := (skip (o_type W) (i_slo K) f).
Notation stopping := (batch_stops (o_type W) (o_accept W) (i_th K) (i_slo K) f).
Notation apply_at := (batch_applied (o_sample W) (i_plo K) (i_phi K) f).
Notation root c := (wroot (tree_at m (block_of C c))).
Notation scale c := (wscale (tree_at m (block_of C c))).
Notation pathTo c h := (path (Z.to_nat (T - h)) (imap (fun x => x / 2 ^ h) c)).
Fixpoint cdflag (k : nat) (c : idx3) (n : wnode) (v : Qc) : bool :=
  match k with
  | O => false
  | S k' =>
      let j := cidx c (Z.of_nat k') in
      let x := child_value v (ndata n) j in
      match cact K W (anc c (Z.of_nat k')) x with
      | Done _ g => g
      | Refine => if Z.of_nat k' <=? i_th K + 1 then false else cdflag k' c (childOrNew (dzero qn) n j) x
      end
  end.
Lemma cupd_flag k : forall c n v, snd (cupd K W k (anc c (Z.of_nat k)) n v) = false -> cdflag k c n v = false.
Proof.
  induction k as [|k IH]; intros c n v H; [reflexivity|].
  pose proof (cupd_child K W k (anc c (Z.of_nat (S k))) n v (cidx c (Z.of_nat k)) (cidx_range _ _)) as U.
  destruct (cupd K W (S k) (anc c (Z.of_nat (S k))) n v) as [[n' v'] f']. cbv zeta in U. destruct U as (_ & _ & U). cbn [snd] in H.
  specialize (U H). unfold cres in U. rewrite ochild_anc in U. cbn [cdflag].
  destruct (cact K W (anc c (Z.of_nat k)) (child_value v (ndata n) (cidx c (Z.of_nat k)))) as [y g|]; [exact U|].
  unfold down in U. cbn [anc oh] in U. fold (anc c (Z.of_nat k)) in U. destruct (Z.of_nat k <=? i_th K + 1); [reflexivity|].
  apply IH. destruct (cupd K W k _ _ _) as [[ch y] g]. exact U.
Qed.
Lemma cdelta_spec k : forall c n v, (Z.of_nat k <= T)%Z -> (2 <= k)%nat ->
  (forall r, eval (scale c) (root c) (pathTo c (Z.of_nat k) ++ r) = eval v n r) ->
  exists i b, stopping (Z.of_nat k - 1) c i b /\ (f c + cdelta K W k c n v)%Qc = apply_at b i c /\
    cdflag k c n v = match b with AddSample => true | _ => false end.
Proof.
  induction k as [|k IH]; intros c n v Hk H1 HE; [lia|]. cbn [cdelta cdflag].
  replace (Z.of_nat (S k) - 1) with (Z.of_nat k) by lia.
  set (j := cidx c (Z.of_nat k)). set (x := child_value v (ndata n) j).
  assert (HE' : forall r, eval (scale c) (root c) (pathTo c (Z.of_nat k) ++ r) = eval x (childOrNew (dzero qn) n j) r).
  { intros r. rewrite (path_down C) by lia. fold j. rewrite <- app_assoc. cbn [app]. rewrite HE. cbn [eval]. fold x. apply eval_childOrNew. }
  assert (Mean : x = node_mean f (anc c (Z.of_nat k))).
  { rewrite (anc_mean C HT1) by lia. specialize (HE' []). rewrite app_nil_r in HE'. rewrite HE'. reflexivity. }
  unfold cact. destruct (is_unobserved (o_type W (anc c (Z.of_nat k)))) eqn:Eu.
  { exists (anc c (Z.of_nat k)), Keep. split; [apply bstop_skip; apply skip_spec; left; exact Eu|]. split; [cbn [batch_applied]; ring|reflexivity]. }
  destruct (negb (is_occupied (o_type W (anc c (Z.of_nat k)))) && qltb x (i_slo K)) eqn:Es.
  { exists (anc c (Z.of_nat k)), Keep. split; [apply bstop_skip; apply skip_spec; right; rewrite node_of_anc, <- Mean; exact Es|].
    split; [cbn [batch_applied]; ring|reflexivity]. }
  assert (NS : ~ skipped (node_of c (Z.of_nat k))).
  { rewrite skip_spec, node_of_anc, <- Mean, Eu, Es. intros [H|H]; discriminate. }
  destruct (o_accept W (anc c (Z.of_nat k))) eqn:Ea.
  { exists (anc c (Z.of_nat k)), AddSample. split; [apply bstop_accept; assumption|]. cbn [batch_applied]. split; [ring|reflexivity]. }
  destruct (Z.leb_spec (Z.of_nat k) (i_th K + 1)) as [Hb|Hb].
  - exists (anc c (Z.of_nat k - 1)), ClampAdded. split; [rewrite <- node_of_anc; apply bstop_batch; assumption|]. split; [|reflexivity].
    cbn [batch_applied]. rewrite clamp2_spec by exact Hcl.
    assert (Mean2 : child_value x (ndata (childOrNew (dzero qn) n j)) (cidx c (Z.of_nat k - 1)) = node_mean f (anc c (Z.of_nat k - 1))).
    { destruct k as [|k]; [lia|]. replace (Z.of_nat (S k) - 1) with (Z.of_nat k) in * by lia. rewrite (anc_mean C HT1) by lia.
      rewrite (path_down C) by lia. rewrite HE'. cbn [eval]. destruct (getChild _ _); reflexivity. }
    rewrite Mean2. rewrite (Qcplus_comm (o_sample W _)). reflexivity.
  - destruct (IH c (childOrNew (dzero qn) n j) x ltac:(lia) ltac:(lia) HE') as (i & b & S1 & S2).
    exists i, b. split; [|exact S2]. apply bstop_below; assumption.
Qed.

Lemma hx_field now k fov order c : NoDup fov -> (forall i, In i fov -> oh i = T + Z.of_nat k) ->
  let l := um_blocks qn K W m k fov in Permutation order l ->
  let m' := hx_update now order (um_alloc qn now m l) in
  (block_updated (o_type W) (i_slo K) f (hw_hasBlockAt C m) T (Z.of_nat k) fov c ->
     exists i b, stopping (T - 1) c i b /\ hw_field C m' c = apply_at b i c /\
       (b = AddSample -> exists blk, getBlock m' (block_of C c) = Some blk /\ bthr blk = true)) /\
  (~ block_updated (o_type W) (i_slo K) f (hw_hasBlockAt C m) T (Z.of_nat k) fov c -> hw_field C m' c = f c).
Proof.
  intros Hnd Hf l Hp m'. pose proof (hx_spec now order l m (um_blocks_nodup C HT1 K W m k fov Hnd Hf) Hp (block_of C c)) as E. fold m' in E.
  rewrite <- (um_blocks_spec C HT1 K W m k fov c Hf). fold l. destruct (in_dec _ _ _) as [Hin|Hin].
  - split; [intros _|intros X; contradiction].
    assert (Hc : hw_field C m' c = (f c + cdelta K W (Z.to_nat T) c (root c) (scale c))%Qc).
    { rewrite !hw_field_spec by lia. unfold tree_at at 1. rewrite E. unfold hx_block.
      rewrite blockOrNew_tree. unfold cellv. rewrite !wt_get_eval by lia. rewrite Z.sub_0_r.
      pose proof (cupd_eval K W Hth (Z.to_nat T) c (root c) (scale c) ltac:(lia)) as U.
      replace (OI T (block_of C c)) with (anc c (Z.of_nat (Z.to_nat T))) by (rewrite Z2Nat.id by lia; reflexivity).
      destruct (cupd _ _ _ _ _ _) as [[n s] g]. cbn [btree wscale wroot]. exact U. }
    rewrite Hc. replace (T - 1) with (Z.of_nat (Z.to_nat T) - 1) by lia.
    destruct (cdelta_spec (Z.to_nat T) c (root c) (scale c)) as (i & b & S1 & S2 & S3); [lia|lia| |].
    { replace (Z.to_nat (T - Z.of_nat (Z.to_nat T))) with O by lia; cbn [path app]; reflexivity. }
    exists i, b. split; [exact S1|]. split; [exact S2|]. intros ->. eexists. split; [exact E|].
    unfold hx_block. rewrite blockOrNew_tree.
    replace (OI T (block_of C c)) with (anc c (Z.of_nat (Z.to_nat T))) by (rewrite Z2Nat.id by lia; reflexivity).
    pose proof (cupd_flag (Z.to_nat T) c (root c) (scale c)) as U.
    destruct (cupd K W (Z.to_nat T) _ _ _) as [[n s] g]. cbn [snd bthr] in *. destruct g; [apply orb_true_r|].
    rewrite U in S3 by reflexivity. discriminate.
  - split; [intros X; contradiction|intros _]. rewrite !hw_field_spec by lia. unfold tree_at at 1 2. rewrite E. reflexivity.
Qed.
Lemma batch_unique h c i b : stopping h c i b -> forall i' b', stopping h c i' b' -> i = i' /\ b = b'.
Proof.
  induction 1; intros i' b' H'; inversion H'; subst; try lia; try contradiction; try congruence; try (split; reflexivity).
  auto.
Qed.
Lemma batch_in h c i b : stopping h c i b -> 1 <= h -> in_node i c = true /\ 0 <= oh i <= h.
Proof.
  induction 1 as [h c H|h c H|h c H NS Hb|h c i b H NS Ha _ IH]; intros Hh.
  1-3: split; [apply node_of_in; lia|cbn [node_of oh]; lia].
  assert (H1 : 1 <= h - 1) by lia. destruct (IH H1). split; [assumption|lia].
Qed.
End FIELD.
