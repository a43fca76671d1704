(** The publisher of a hashed chunked wavelet octree simulates the one of a hashed wavelet octree *)
From Verif Require Import Base M_IntMath F_IntMath M_NdtreeIndex M_Num F_Num M_Haar F_Haar M_Haar3 F_Haar3 M_Ndtree S_Field F_Hash M_Wavelet
  F_Wavelet F_Wavelet2 F_Leaves F_WavTree F_WavMap F_WavHash M_WavHist F_WavHist M_HashedBlocks M_Octree F_Octree M_Chunked F_Chunked F_ChunkedSim F_ChunkedWav
  M_ChunkedHist F_ChunkedMap M_Subtree P_Subtree M_Stream F_Stream F_Stream2 F_Stream3 F_Stream4 M_Publish F_Publish F_Publish2 F_Publish3 M_PublishChunked.
From Coq Require Import QArith Qcanon Qcabs Lqa Permutation.
Close Scope Qc_scope. Close Scope Q_scope. Open Scope Z_scope.

(** ** Blocks *)
Lemma cros_nodes_sim C root fuel : forall st st', Forall2 (save_rel root) st st' -> cros_nodes qn fuel C root st = ros_nodes qn fuel C st'.
Proof.
  induction fuel as [|fuel IH]; intros st st' R; destruct R as [|e e' st st' Re R]; try reflexivity; destruct Re as [k q n s Hq Hn S]; [reflexivity|].
  cbn [cros_nodes ros_nodes].
  replace (ndata (mat k root q)) with (cdat root q) by (destruct k; reflexivity). change (nr_data cz root (caddr q)) with (cdat root q).
  assert (EB : child_bits (fun c => negb (qsat C (oget (backward3 qn s (cdat root q)) c)) && match nr_getChild cH root (caddr q) c with Some _ => true | None => false end) =
          child_bits (fun c => negb (qsat C (oget (backward3 qn s (cdat root q)) c)) && match getChild (mat k root q) c with Some _ => true | None => false end)).
  { apply child_bits_ext. intros c Hc. f_equal. pose proof (mat_child k root q n c Hq Hc Hn S) as M. destruct (nr_getChild cH root (caddr q) c) as [r|].
    - destruct M as (_ & k' & _ & Eg & _). rewrite Eg. reflexivity.
    - destruct M as [-> _]. reflexivity. }
  rewrite EB. f_equal. apply IH. apply (fold_save_rel C root k q n (backward3 qn s (cdat root q)) Hq Hn S); [|exact R].
  intros c Hc. apply in_rev in Hc. apply in_child_ids. exact Hc.
Qed.
(** A tree of height k has less than 8^(k+1) nodes *)
Lemma mat_size k : forall root q, 7 * Z.of_nat (nsize (mat k root q)) + 1 <= 8 ^ (Z.of_nat k + 1).
Proof.
  induction k as [|k IH]; intros root q; cbn [mat nsize]; [cbn; lia|].
  replace (8 ^ (Z.of_nat (S k) + 1)) with (8 * 8 ^ (Z.of_nat k + 1)) by (rewrite <- Z.pow_succ_r by lia; f_equal; lia).
  pose proof (Z.pow_pos_nonneg 8 (Z.of_nat k + 1) ltac:(lia) ltac:(lia)) as P.
  destruct (cbit root q); [|lia].
  assert (X : forall c, 7 * Z.of_nat (match (if isSome (nr_getChild cH root (caddr q) c) then Some (mat k root (q ++ [c])) else None) with None => O | Some ch => nsize ch end) + 1 <= 8 ^ (Z.of_nat k + 1)).
  { intros c. destruct (isSome _); [apply IH|lia]. }
  unfold otab. cbn [omap olist list_sum fold_right].
  pose proof (X 0) as X0. pose proof (X 1) as X1. pose proof (X 2) as X2. pose proof (X 3) as X3. pose proof (X 4) as X4. pose proof (X 5) as X5. pose proof (X 6) as X6. pose proof (X 7) as X7.
  lia.
Qed.
Section SIM.
Context (C : wconfig (V := Qc)) (w : Qc) (maxn : Z) (tf nf : nat) (ord : list idx3 -> list idx3).
Notation T := (cT C).
Context (HT : 1 <= T <= 21) (Htf : (Z.to_nat T <= tf)%nat) (Hnf : 8 ^ T <= Z.of_nat nf) (Hord : forall l, Permutation (ord l) l).
Notation mrel := (mrel C).
Notation brel := (brel C).
Lemma mat_block_size c : (nsize (wroot (btree (mat_block C c))) <= nf)%nat.
Proof.
  cbn [mat_block btree wroot]. pose proof (mat_size (Z.to_nat (T - 1)) (croot (cbtree c)) []) as X.
  replace (Z.of_nat (Z.to_nat (T - 1)) + 1) with T in X by lia. lia.
Qed.
Lemma cblock_msg c b i : brel c b -> cblockToRosMsg qn nf C i c = Some (block_msg qn C i (mat_block C c)).
Proof.
  intros ((S & E & Hn) & _).
  assert (X : cblockToRosMsg qn nf C i c = blockToRosMsg qn (fun _ => nf) C i (mat_block C c)).
  { unfold cblockToRosMsg, blockToRosMsg. cbn [mat_block btree wroot wscale]. f_equal. apply cros_nodes_sim.
    constructor; [|constructor]. apply (SR (croot (cbtree c)) _ [] (wroot (btree b))); [constructor|exact Hn|exact S]. }
  rewrite X. unfold blockToRosMsg, block_msg. rewrite ros_nodes_eq.
  - cbn [flat_map fst snd option_map]. rewrite app_nil_r. reflexivity.
  - cbn [map list_sum fold_right]. unfold ksize. cbn [fst snd].
    pose proof (ksize_le qn (fun _ => 0) (fun _ => n0 qn) C (wroot (btree (mat_block C c))) (wscale (btree (mat_block C c)))).
    pose proof (mat_block_size c). lia.
Qed.
Lemma cmapToRosMsg_eq m h incl : mrel m h -> cmapToRosMsg qn nf ord w C m incl =
  Some (MM w C (keys (mat_map C m)) (map (bmsg_of qn C (mat_map C m)) (ord (filter (hasBlock m) incl)))).
Proof.
  intros R. unfold cmapToRosMsg. rewrite mat_keys. rewrite (map_opt_some _ (bmsg_of qn C (mat_map C m))); [reflexivity|]. intros i _. unfold bmsg_of.
  rewrite getBlock_mat. pose proof (mrel_getBlock C m h i R) as G. destruct (getBlock m i) as [c|]; cbn [option_map]; [|reflexivity].
  destruct (getBlock h i) as [b|]; [|contradiction]. apply (cblock_msg c b). exact G.
Qed.
Lemma cpub_select_sim changed : forall cnt m h, mrel m h -> exists m1 h1 sel,
  cpub_select qn tf C maxn cnt m changed = (m1, sel) /\ pub_select qn C maxn cnt h changed = (h1, sel) /\ mrel m1 h1.
Proof.
  induction changed as [|i l IH]; intros cnt m h R; cbn [cpub_select pub_select]; [exists m, h, []; auto|].
  pose proof (mrel_getBlock C m h i R) as G. destruct (getBlock m i) as [c|], (getBlock h i) as [b|]; try contradiction; [|apply IH; exact R].
  assert (R1 : mrel (setBlock m i (cb_threshold qn tf C c)) (setBlock h i (wb_threshold qn C b))) by (apply mrel_setBlock; [exact R|apply brel_threshold; assumption]).
  destruct (maxn <=? cnt + 1); [eexists _, _, _; split; [reflexivity|]; split; [reflexivity|exact R1]|].
  destruct (IH (cnt + 1) _ _ R1) as (m1 & h1 & sel & -> & -> & R2). exists m1, h1, (i :: sel). auto.
Qed.
(** ** The subscriber: same blocks, and the same values in their cells *)
Definition same_reads (x y : wtree (V := Qc)) : Prop := forall c, wt_get qn T x (OI 0 c) = wt_get qn T y (OI 0 c).
Definition srel_map (m m' : hmap (V := Qc)) : Prop :=
  forall i, match getBlock m i, getBlock m' i with Some x, Some y => same_reads (btree x) (btree y) | None, None => True | _, _ => False end.
Definition srel (s s' : subscriber Qc) : Prop :=
  sub_ok C w s /\ sub_ok C w s' /\ (s = None <-> s' = None) /\ srel_map (submap s) (submap s').
Lemma as_sent_same t t' : (forall h p, 0 <= h <= T -> wt_get qn T t (OI h p) = wt_get qn T t' (OI h p)) -> same_reads (as_sent qn C t) (as_sent qn C t').
Proof.
  intros E c. change (as_sent qn C) with (as_saved C).
  destruct (as_saved_get C t c HT) as (h & A1 & A2 & A3 & A4). destruct (as_saved_get C t' c HT) as (h' & B1 & B2 & B3 & B4).
  rewrite A2, B2. assert (h = h'); [|subst h'; apply E; lia].
  destruct (Z.lt_trichotomy h h') as [L|[L|L]]; [|exact L|]; exfalso.
  - destruct B3 as [B3|B3]; [lia|]. specialize (A4 h' ltac:(lia)). rewrite E in A4 by lia. congruence.
  - destruct A3 as [A3|A3]; [lia|]. specialize (B4 h ltac:(lia)). rewrite <- E in B4 by lia. congruence.
Qed.
Lemma mat_reads c b h p : brel c b -> 0 <= h <= T -> wt_get qn T (btree (mat_block C c)) (OI h p) = wt_get qn T (btree b) (OI h p).
Proof.
  intros ((S & E & Hn) & _) Hh. rewrite !wt_get_eval by lia. cbn [mat_block btree wroot wscale]. rewrite E.
  apply mat_eval; [constructor|apply path_valid|exact Hn|exact S].
Qed.
Lemma recv_sim now s s' m h l : srel s s' -> mrel m h -> (forall i, In i l -> hasBlock m i = true) ->
  exists z z', recv qn now s (MM w C (keys (mat_map C m)) (map (bmsg_of qn C (mat_map C m)) l)) = Some z /\
    recv qn now s' (MM w C (keys h) (map (bmsg_of qn C h) l)) = Some z' /\ srel z z'.
Proof.
  intros (S1 & S2 & S3 & S4) R Hl.
  destruct (recv_spec C w now s (mat_map C m) l S1) as (sm & E1 & W1 & G1).
  { intros i Hi. unfold hasBlock. rewrite getBlock_mat. specialize (Hl i Hi). unfold hasBlock in Hl. destruct (getBlock m i); [reflexivity|discriminate]. }
  destruct (recv_spec C w now s' h l S2) as (sh & E2 & W2 & G2).
  { intros i Hi. rewrite <- (mrel_hasBlock C m h i R). exact (Hl i Hi). }
  exists (Some (w, C, sm)), (Some (w, C, sh)). split; [exact E1|]. split; [exact E2|]. split; [repeat split; exact W1|]. split; [repeat split; exact W2|].
  split; [split; discriminate|]. intros i. cbn [submap]. specialize (G1 i). specialize (G2 i). rewrite getBlock_mat in G1.
  pose proof (mrel_getBlock C m h i R) as G. destruct (getBlock m i) as [c|], (getBlock h i) as [b|]; try contradiction; cbn [option_map] in G1.
  - destruct (memb i l).
    + destruct G1 as (x & -> & Ex). destruct G2 as (y & -> & Ey). rewrite Ex, Ey. apply as_sent_same. intros hh p Hh. apply mat_reads; assumption.
    + rewrite G1, G2. apply S4.
  - rewrite G1, G2. exact I.
Qed.
Lemma cpub_loop_sim lf now : (forall b, (nsize (wroot (btree b)) <= lf b)%nat) -> forall fuel changed m h s s', mrel m h -> srel s s' ->
  match pub_loop qn fuel lf ord w C maxn h changed with
  | None => True
  | Some (h1, msgs') => exists m1 msgs z z', cpub_loop qn fuel tf nf ord w C maxn m changed = Some (m1, msgs) /\ mrel m1 h1 /\ (msgs = [] <-> msgs' = []) /\
      recv_all qn now s msgs = Some z /\ recv_all qn now s' msgs' = Some z' /\ srel z z'
  end.
Proof.
  intros Hlf. induction fuel as [|fuel IH]; intros changed m h s s' R S; (destruct changed as [|i0 l0]; cbn [pub_loop cpub_loop]; [exists m, [], s, s'; repeat split; auto; apply S|]); [exact I|].
  remember (i0 :: l0) as ch eqn:Ech. clear Ech. destruct (cpub_select_sim ch 0 m h R) as (m1 & h1 & sel & E1 & E2 & R1). rewrite E1, E2.
  rewrite (mapToRosMsg_eq qn lf Hlf), (cmapToRosMsg_eq m1 h1 sel R1).
  assert (EF : filter (hasBlock h1) sel = filter (hasBlock m1) sel) by (apply filter_ext; intros i; symmetry; apply (mrel_hasBlock C m1 h1 i R1)). rewrite EF.
  destruct (recv_sim now s s' m1 h1 (ord (filter (hasBlock m1) sel)) S R1) as (z & z' & Z1 & Z2 & ZS).
  { intros i Hi. apply (Permutation_in _ (Hord _)) in Hi. apply filter_In in Hi. apply Hi. }
  specialize (IH (skipn (length sel) ch) m1 h1 z z' R1 ZS). destruct (pub_loop qn fuel lf ord w C maxn h1 _) as [[h2 msgs']|]; [|exact I]. cbn [option_map fst snd].
  destruct IH as (m2 & msgs & y & y' & P1 & P2 & P3 & P4 & P5 & P6). rewrite P1. cbn [option_map fst snd].
  eexists m2, _, y, y'. split; [reflexivity|]. split; [exact P2|]. split; [split; discriminate|]. cbn [recv_all]. rewrite Z1, Z2. auto.
Qed.
Definition sysrel (s : cpsys Qc) (s' : psys Qc) : Prop := mrel (cps_map s) (ps_map s') /\ cps_last s = ps_last s' /\ srel (cps_sub s) (ps_sub s').
Lemma changed_sim m h last whole : mrel m h ->
  map fst (filter (fun kb : idx3 * cblock => whole || (last <? cbstamp (snd kb))) m) = map fst (filter (fun kb : idx3 * wblock => whole || (last <? bstamp (snd kb))) h).
Proof.
  induction 1 as [|[k c] [k' b] m h [E B] R IH]; [reflexivity|]. cbn [filter fst snd] in *. subst k'.
  replace (cbstamp c) with (bstamp b) by (symmetry; apply B). destruct (whole || (last <? bstamp b)); cbn [map fst]; rewrite IH; reflexivity.
Qed.
Lemma csys_publish_sim lf now rnow whole s s' z' msgs' : (forall b, (nsize (wroot (btree b)) <= lf b)%nat) -> sysrel s s' ->
  sys_publish qn lf w C maxn now rnow whole ord s' = Some (z', msgs') ->
  exists z msgs, csys_publish qn tf nf w C maxn now rnow whole ord s = Some (z, msgs) /\ sysrel z z' /\ (msgs = [] <-> msgs' = []).
Proof.
  intros Hlf (R & L & S). unfold sys_publish, csys_publish. destruct (mrel_bounds C _ _ R) as (_ & _ & EE). rewrite EE.
  destruct (hw_empty (ps_map s')). { intros E. injection E as <- <-. exists s, []. split; [reflexivity|]. split; [split; [exact R|split; [exact L|exact S]]|split; reflexivity]. }
  unfold publishHashedMap, cpublishHashedMap. rewrite L, (changed_sim _ _ (ps_last s') whole R).
  set (ch := map fst (filter (fun kb : idx3 * wblock => whole || (ps_last s' <? bstamp (snd kb))) (ps_map s'))).
  pose proof (cpub_loop_sim lf rnow Hlf (length ch) (ord ch) _ _ _ _ R S) as X.
  destruct (pub_loop qn (length ch) lf ord w C maxn (ps_map s') (ord ch)) as [[h1 ms']|]; [|discriminate].
  destruct X as (m1 & msgs & z & y & P1 & P2 & P3 & P4 & P5 & P6). rewrite P1, P4, P5. intros E. injection E as <- <-.
  exists (CPS m1 now z), msgs. split; [reflexivity|]. split; [split; [exact P2|split; [reflexivity|exact P6]]|exact P3].
Qed.
End SIM.
