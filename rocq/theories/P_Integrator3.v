(** Property theorems C41 and C42 for HashedChunkedWaveletIntegrator, in exact arithmetic. The effect of a scan on the
    field of cell values is specified in S_Integrate.v; map states are those that API calls and earlier scans can
    produce (hc_state in M_Integrator.v). *)
From Verif Require Import Base M_IntMath F_IntMath M_NdtreeIndex M_Num F_Num M_Haar3 M_Ndtree S_Field S_Integrate F_Hash
  M_Wavelet F_Wavelet F_Wavelet2 F_Leaves F_WavTree F_WavMap F_WavHash M_WavHist F_WavHist M_Octree F_Octree
  M_Chunked F_Chunked F_ChunkedSim F_ChunkedWav M_ChunkedHist F_ChunkedMap
  M_Integrator F_Integrator F_Integrator2 F_Integrator3 F_IntegratorC F_IntegratorC2 P_Wavelet P_Integrator P_Integrator2.
From Coq Require Import QArith Qcanon Qcabs Lqa Permutation.
Close Scope Qc_scope.
Close Scope Q_scope.
Open Scope Z_scope.
Notation ccmap := (shash (cblock (V := Qc))).

(** Abbreviations: the specification of S_Integrate.v for a chunked map [m], the scan [W] and the constants [K]. *)
Definition c_updates (C : wconfig) (m : ccmap) (K : iconst Qc) (W : oracle Qc) (k : nat) (fov : list oidx) (c : idx3) : Prop :=
  block_updated (o_type W) (i_slo K) (hc_get qn C m) (fun i => hasBlock m (hw_blockIndex C i)) (cT C) (Z.of_nat k) fov c.
Definition c_stops (C : wconfig) (m : ccmap) (K : iconst Qc) (W : oracle Qc) : Z -> idx3 -> oidx -> how -> Prop :=
  batch_stops (o_type W) (o_accept W) (i_th K) (i_slo K) (hc_get qn C m).
Definition c_applied (C : wconfig) (m : ccmap) (K : iconst Qc) (W : oracle Qc) : how -> oidx -> idx3 -> Qc :=
  batch_applied (o_sample W) (i_plo K) (i_phi K) (hc_get qn C m).

(** ** Transport along equal fields *)
Section EXT.
Context (typ : oidx -> M_RangeBounds.update_type) (sample : oidx -> Qc) (acc : oidx -> bool) (th : Z) (plo phi slo : Qc).
Context (g1 g2 : field) (E : forall c, g1 c = g2 c).
Lemma mean_ext i : 0 <= oh i -> node_mean g1 i = node_mean g2 i.
Proof. intros Hi. apply node_mean_ext; [exact Hi|]. intros c _. apply E. Qed.
Lemma skip_ext i : 0 <= oh i -> skip typ slo g1 i -> skip typ slo g2 i.
Proof. intros Hi. unfold skip. rewrite mean_ext by exact Hi. auto. Qed.
End EXT.
Lemma batch_stops_ext typ acc th slo (g1 g2 : field) h c i b : (forall c, g1 c = g2 c) -> 0 <= th -> 0 <= h ->
  batch_stops typ acc th slo g1 h c i b -> batch_stops typ acc th slo g2 h c i b.
Proof.
  intros E Hth Hh S. revert Hh. induction S as [h c H|h c H A|h c H A B|h c i b H A B _ IH]; intros Hh.
  - apply bstop_skip. eapply skip_ext; eassumption.
  - apply bstop_accept; [|exact A]. intros X. apply H. apply (skip_ext typ slo g2 g1); [intros; symmetry; apply E|exact Hh|exact X].
  - apply bstop_batch; [|exact A|exact B]. intros X. apply H. apply (skip_ext typ slo g2 g1); [intros; symmetry; apply E|exact Hh|exact X].
  - apply bstop_below; [|exact A|exact B|apply IH; lia]. intros X. apply H. apply (skip_ext typ slo g2 g1); [intros; symmetry; apply E|exact Hh|exact X].
Qed.
Lemma batch_applied_ext sample plo phi (g1 g2 : field) b i c : (forall c, g1 c = g2 c) -> 0 <= oh i ->
  batch_applied sample plo phi g1 b i c = batch_applied sample plo phi g2 b i c.
Proof. intros E Hi. destruct b; cbn [batch_applied]; rewrite ?E; try reflexivity. rewrite (mean_ext g1 g2 E i Hi). reflexivity. Qed.
Lemma updated_ext typ slo (g1 g2 : field) (h1 h2 : oidx -> bool) T k fov c : 0 <= T -> (forall c, g1 c = g2 c) -> (forall i, h1 i = h2 i) ->
  block_updated typ slo g1 h1 T k fov c <-> block_updated typ slo g2 h2 T k fov c.
Proof. intros HT E Eh. unfold block_updated. rewrite Eh, (mean_ext g1 g2 E) by exact HT. reflexivity. Qed.

Section CHUNKED.
Context (fuel : nat) (C : wconfig (V := Qc)) (HC : valid_config C) (HT2 : 2 <= cT C) (Hfuel : (Z.to_nat (cT C) <= fuel)%nat).
Notation T := (cT C).
Let HT : 1 <= T <= 21 := proj1 HC.
Let HT' : 2 <= T <= 21. Proof. destruct HT. split; [exact HT2|assumption]. Qed.
Lemma hc_state_sim m : hc_state fuel C m -> exists h : hmap, mrel C m h /\ hwf h.
Proof.
  induction 1 as [|m tc _ IH|m K W now k fov order _ IH Hth Hn Hf Hp].
  - exists []. split; constructor.
  - destruct IH as (h & R & Hw). exists (hw_apply C h tc). split; [apply mrel_apply; assumption|].
    destruct tc as [now c]. destruct c as [i v|i u| | |age| |b]; cbn [hw_apply].
    + apply setBlock_wf. exact Hw.
    + apply setBlock_wf. exact Hw.
    + apply forEachBlock_wf. exact Hw.
    + apply eraseBlockIf_wf. exact Hw.
    + apply eraseBlockIf_wf. exact Hw.
    + constructor.
    + apply filter_wf. exact Hw.
  - destruct IH as (h & R & Hw). eexists. split; [apply (mrel_updateMap C HT' K W Hth); exact R|].
    apply hx_wf. apply um_alloc_wf. exact Hw.
Qed.
End CHUNKED.

(** * C41 *)
(** A scan changes every cell as specified: cells of blocks that are not selected keep their value; in a selected
    block, the first node on the way down to the cell at which the refinement stops decides. *)
Theorem C41_chunked_effect : forall fuel C m K W now k fov order c,
  valid_config C -> 2 <= cT C -> (Z.to_nat (cT C) <= fuel)%nat -> hc_state fuel C m ->
  0 <= i_th K -> (i_plo K <= i_phi K)%Qc -> NoDup fov -> fov_ok C k fov ->
  Permutation order (hc_blocks qn K W m k fov) ->
  let m' := hc_updateMap qn K W (cT C) now order (hc_blocks qn K W m k fov) m in
  (c_updates C m K W k fov c ->
     exists i b, c_stops C m K W (cT C - 1) c i b /\ hc_get qn C m' c = c_applied C m K W b i c) /\
  (~ c_updates C m K W k fov c -> hc_get qn C m' c = hc_get qn C m c).
Proof.
  intros fuel C m K W now k fov order c HC HT2 Hfuel Hm Hth Hcl Hnd Hf Hp m'. pose proof (proj1 HC) as HT.
  destruct (hc_state_sim fuel C HC HT2 Hfuel m Hm) as (h & R & _).
  assert (R' : mrel C m' (hx_update C K W now order (um_alloc qn now h (hc_blocks qn K W m k fov)))) by (apply mrel_updateMap; [lia|exact Hth|exact R]).
  rewrite (mrel_blocks C K W m h k fov R) in *.
  assert (HT' : 2 <= cT C <= 21) by lia.
  destruct (hx_field C HT' K W Hth Hcl h now k fov order c Hnd Hf Hp) as [U1 U2]. cbv zeta in U1, U2.
  assert (E : forall c, hw_field C h c = hc_get qn C m c) by (intros c'; symmetry; apply (mrel_get fuel C HT Hfuel); exact R).
  assert (E' : forall c, hc_get qn C m' c = hw_field C (hx_update C K W now order (um_alloc qn now h (um_blocks qn K W h k fov))) c)
    by (intros c'; apply (mrel_get fuel C HT Hfuel); exact R').
  assert (Eu : c_updates C m K W k fov c <-> block_updated (o_type W) (i_slo K) (hw_field C h) (hw_hasBlockAt C h) (cT C) (Z.of_nat k) fov c).
  { apply updated_ext; [lia|intros; symmetry; apply E|]. intros i. apply (mrel_hasBlock C). exact R. }
  rewrite Eu. split.
  - intros Hu. destruct (U1 Hu) as (i & b & S1 & S2 & _).
    assert (H1 : 0 <= cT C - 1) by lia. exists i, b. split; [apply (batch_stops_ext _ _ _ _ _ _ _ _ _ _ E Hth H1 S1)|].
    rewrite E', S2. apply batch_applied_ext; [exact E|]. apply (batch_in C K W Hth h _ _ _ _ S1). lia.
  - intros Hu. rewrite E', U2 by exact Hu. apply E.
Qed.
(** The stopping node and what is done there are unique, and the node contains the cell. *)
Theorem C41_chunked_stop_unique : forall C m K W h c i b i' b', 0 <= i_th K -> 1 <= h ->
  c_stops C m K W h c i b -> c_stops C m K W h c i' b' -> i = i' /\ b = b' /\ in_node i c = true /\ 0 <= oh i <= h.
Proof.
  assert (B : forall typ acc th slo (g : field) h c i b, batch_stops typ acc th slo g h c i b -> 0 <= th -> 1 <= h -> in_node i c = true /\ 0 <= oh i <= h).
  { induction 1 as [h c H|h c H|h c H NS Hb|h c i b H NS Ha _ IH]; intros Hth Hh.
    1-3: split; [apply node_of_in; lia|cbn [node_of oh]; lia].
    assert (H1 : 1 <= h - 1) by lia. destruct (IH Hth H1). split; [assumption|lia]. }
  assert (U : forall typ acc th slo (g : field) h c i b, batch_stops typ acc th slo g h c i b -> forall i' b', batch_stops typ acc th slo g h c i' b' -> i = i' /\ b = b').
  { induction 1; intros i' b' H'; inversion H'; subst; try lia; try contradiction; try congruence; try (split; reflexivity). auto. }
  intros C m K W h c i b i' b' Hth Hh H H'. destruct (U _ _ _ _ _ _ _ _ _ H _ _ H'). destruct (B _ _ _ _ _ _ _ _ _ H Hth Hh). auto.
Qed.
(** A cell that is updated at the finest resolution gets exactly the clamped sum of its old value and its sample. *)
Theorem C41_chunked_finest_exact : forall fuel C m K W now k fov order c,
  valid_config C -> 2 <= cT C -> (Z.to_nat (cT C) <= fuel)%nat -> hc_state fuel C m ->
  0 <= i_th K -> (i_plo K <= i_phi K)%Qc -> NoDup fov -> fov_ok C k fov ->
  Permutation order (hc_blocks qn K W m k fov) ->
  c_updates C m K W k fov c -> c_stops C m K W (cT C - 1) c (cell c) ClampAdded ->
  hc_get qn C (hc_updateMap qn K W (cT C) now order (hc_blocks qn K W m k fov) m) c =
  clampq (i_plo K) (i_phi K) (hc_get qn C m c + o_sample W (cell c))%Qc.
Proof.
  intros fuel C m K W now k fov order c HC HT2 Hfuel Hm Hth Hcl Hnd Hf Hp Hu Hs.
  destruct (C41_chunked_effect fuel C m K W now k fov order c HC HT2 Hfuel Hm Hth Hcl Hnd Hf Hp) as [U _]. cbv zeta in U.
  destruct (U Hu) as (i & b & S1 & S2).
  destruct (C41_chunked_stop_unique C m K W (cT C - 1) c _ _ _ _ Hth ltac:(lia) Hs S1) as (<- & <- & _). rewrite S2. unfold c_applied, batch_applied, cell.
  rewrite node_mean_cell. ring.
Qed.
(** The order in which the block tasks run does not matter, and no two tasks work on the same block. *)
Theorem C41_chunked_order_independent : forall fuel C m K W now k fov order1 order2 c,
  valid_config C -> 2 <= cT C -> (Z.to_nat (cT C) <= fuel)%nat -> hc_state fuel C m ->
  0 <= i_th K -> NoDup fov -> fov_ok C k fov ->
  let l := hc_blocks qn K W m k fov in Permutation order1 l -> Permutation order2 l ->
  NoDup l /\
  hc_get qn C (hc_updateMap qn K W (cT C) now order1 l m) c = hc_get qn C (hc_updateMap qn K W (cT C) now order2 l m) c.
Proof.
  intros fuel C m K W now k fov o1 o2 c HC HT2 Hfuel Hm Hth Hnd Hf l H1 H2. pose proof (proj1 HC) as HT. assert (HT' : 2 <= cT C <= 21) by lia.
  destruct (hc_state_sim fuel C HC HT2 Hfuel m Hm) as (h & R & _).
  assert (El : l = um_blocks qn K W h k fov) by (apply (mrel_blocks C); exact R).
  assert (Hl : NoDup l) by (rewrite El; apply (um_blocks_nodup C HT K W h k fov Hnd Hf)).
  split; [exact Hl|].
  rewrite (mrel_get fuel C HT Hfuel _ _ c (mrel_updateMap C HT' K W Hth now o1 l m h R)).
  rewrite (mrel_get fuel C HT Hfuel _ _ c (mrel_updateMap C HT' K W Hth now o2 l m h R)).
  match goal with |- hw_get qn C ?a c = hw_get qn C ?b c => change (hw_field C a c = hw_field C b c) end.
  rewrite !hw_field_spec by lia. unfold tree_at. rewrite !hx_spec by assumption. reflexivity.
Qed.

(** ** A concrete scan *)
Definition excm : ccmap := hc_run 3 exC [(1, HAdd (I3 1 1 1) (Q2Qc 3)); (2, HAdd (I3 6 6 6) (Q2Qc 4)); (3, HAdd (I3 (-1) 0 0) (Q2Qc 1))].
Lemma hc_state_run fuel C l : hc_state fuel C (hc_run fuel C l).
Proof.
  unfold hc_run. assert (H : hc_state fuel C []) by constructor. revert H. generalize (@nil (idx3 * cblock (V := Qc))).
  induction l as [|a l IH]; intros m H; cbn [fold_left]; [exact H|]. apply IH. constructor. exact H.
Qed.
Example C41_chunked_ex :
  hc_blocks qn exK exW excm 1 exfov = [I3 0 0 0] /\
  (let m' := hc_updateMap qn exK exW 3 9 [I3 0 0 0] [I3 0 0 0] excm in
   map (fun c => this (hc_get qn exC m' c)) [I3 1 1 1; I3 0 1 1; I3 3 3 3; I3 6 6 6; I3 (-1) 0 0] =
   [this (Q2Qc 4 + Q2Qc (13743895 # 137438953472))%Qc; (-1 # 2); (-1 # 2); (7 # 2); 1]%Q) /\
  map (fun c => this (hc_get qn exC excm c)) [I3 1 1 1; I3 0 1 1; I3 3 3 3; I3 6 6 6; I3 (-1) 0 0] = [3; 0; 0; 4; 1]%Q.
Proof. split; [vm_compute; reflexivity|]. split; vm_compute; reflexivity. Qed.
Example C41_chunked_ex_hyps : valid_config exC /\ 2 <= cT exC /\ (Z.to_nat (cT exC) <= 3)%nat /\ hc_state 3 exC excm /\
  0 <= i_th exK /\ (i_plo exK <= i_phi exK)%Qc /\ NoDup exfov /\ fov_ok exC 1 exfov.
Proof.
  split; [exact exC_valid|]. split; [cbn; lia|]. split; [apply le_n|]. split; [apply hc_state_run|]. split; [cbn; lia|].
  split; [vm_compute; discriminate|]. split; apply C41_ex_hyps.
Qed.
Example C41_chunked_ex_finest : c_updates exC excm exK exW 1 exfov (I3 1 1 1) /\
  c_stops exC excm exK exW 2 (I3 1 1 1) (cell (I3 1 1 1)) ClampAdded.
Proof.
  split.
  - split; [right; left; reflexivity|]. split; [|left; reflexivity]. intros h Hh H.
    assert (h = 3 \/ h = 4) as [-> | ->] by (change (cT exC) with 3 in Hh; lia); discriminate H.
  - assert (NS : forall h, 1 <= h <= 2 -> ~ skip (o_type exW) (i_slo exK) (hc_get qn exC excm) (node_of (I3 1 1 1) h)).
    { intros h Hh [H|[H _]]; assert (h = 1 \/ h = 2) as [-> | ->] by lia; try discriminate H; apply H; reflexivity. }
    apply bstop_below; [apply NS; lia|reflexivity|reflexivity|]. apply (bstop_batch _ _ 0 _ _ 1); [apply NS; lia|reflexivity|lia].
Qed.
(** With a tree height of 1 the batch update is applied one level too deep: it samples nodes of height -1, so scans
    that agree on all nodes of the map give different results. *)
Theorem C41_chunked_height_one_refuted : exists C m K W1 W2 now fov c,
  valid_config C /\ cT C = 1 /\ m = [] /\ i_th K = 0 /\ fov_ok C 0 fov /\ NoDup fov /\
  (forall i, 0 <= oh i -> o_type W1 i = o_type W2 i /\ o_accept W1 i = o_accept W2 i /\ o_sample W1 i = o_sample W2 i) /\
  let go W := hc_updateMap qn K W (cT C) now (hc_blocks qn K W m 0 fov) (hc_blocks qn K W m 0 fov) m in
  hc_get qn C (go W1) c <> hc_get qn C (go W2) c.
Proof.
  set (W := fun v => Oracle (fun _ => M_RangeBounds.kPossiblyOccupied) (fun i => if oh i <? 0 then v else 0%Qc) (fun i => false)).
  exists (WC 1 (clo exC) (chi exC)), [], exK, (W (Q2Qc 1)), (W (Q2Qc 2)), 9, [OI 1 (I3 0 0 0)], (I3 0 0 0).
  split; [split; [cbn; lia|exact (proj2 exC_valid)]|]. split; [reflexivity|]. split; [reflexivity|]. split; [reflexivity|].
  split; [intros i [<-|[]]; reflexivity|]. split; [repeat constructor; intros []|]. split.
  - intros i Hi. cbn [o_type o_accept o_sample W]. replace (oh i <? 0) with false by (symmetry; apply Z.ltb_ge; exact Hi). auto.
  - cbv zeta. intros H. apply (f_equal (fun x : Qc => Qeq_bool x 1)) in H. vm_compute in H. discriminate H.
Qed.

(** * C42 *)
(** Histories of edits and scans at full resolution; [e] is the padding of the clamping range (kNoiseThreshold). *)
Inductive hc_full (fuel : nat) (C : wconfig (V := Qc)) (e : Qc) : ccmap -> Prop :=
| CF_new : hc_full fuel C e []
| CF_call m tc : hc_full fuel C e m -> hc_full fuel C e (hc_apply fuel C m tc)
| CF_scan m slo W now k fov order : hc_full fuel C e m -> fov_ok C k fov -> NoDup fov ->
    let K := IC 0 (clo C - e)%Qc (chi C + e)%Qc slo in
    Permutation order (hc_blocks qn K W m k fov) ->
    hc_full fuel C e (hc_updateMap qn K W (cT C) now order (hc_blocks qn K W m k fov) m).
Lemma nheight_height_ok k : forall n, nheight k n -> height_ok (S k) n.
Proof.
  induction k as [|k IH]; intros n H c Hc.
  - unfold getChild. cbn [nheight] in H. rewrite H. exact I.
  - specialize (H c Hc). destruct (getChild n c); [|exact I]. apply IH. exact H.
Qed.
Lemma batch_bottom typ acc slo (g : field) h c i b : batch_stops typ acc 0 slo g h c i b -> 1 <= h -> b = ClampAdded -> oh i = 0.
Proof.
  induction 1 as [x y|x y|x y A B D|x y i b A B D S IH]; intros Hx Hb; try discriminate Hb.
  - cbn [node_of oh]. lia.
  - apply IH; [lia|exact Hb].
Qed.
Section LAZY.
Context (fuel : nat) (C : wconfig (V := Qc)) (e : Qc) (HC : valid_config C) (HT2 : 2 <= cT C) (Hfuel : (Z.to_nat (cT C) <= fuel)%nat)
  (He : (0 <= e)%Qc) (H0 : (clo C <= 0 <= chi C)%Qc).
Notation T := (cT C).
Notation lo := (clo C - e)%Qc.
Notation hi := (chi C + e)%Qc.
Let HT : 1 <= T <= 21 := proj1 HC.
Lemma mrel_shape m (h : hmap) : mrel C m h -> hwf h -> hw_shape C h.
Proof.
  intros R Hw. split; [exact Hw|]. intros b blk E. split; [exact HT|].
  pose proof (mrel_getBlock C m h b R) as G. rewrite E in G. destruct (getBlock m b) as [cb|]; [|contradiction].
  destruct G as ((_ & _ & Hn) & _). apply nheight_height_ok in Hn. replace (S (Z.to_nat (T - 1))) with (Z.to_nat T) in Hn by lia. exact Hn.
Qed.
Lemma lazy_scan_chunked m h slo W now k fov order : mrel C m h -> lazy_ok C e h -> fov_ok C k fov -> NoDup fov ->
  let K := IC 0 lo hi slo in let l := um_blocks qn K W h k fov in Permutation order l ->
  let h' := hx_update C K W now order (um_alloc qn now h l) in
  forall b blk, getBlock h' b = Some blk -> bthr blk = false -> cells_in lo hi T (btree blk).
Proof.
  intros R [Hs H] Hf Hnd K l Hp h' b blk Eb Hthr cell0.
  assert (Hth : 0 <= i_th K) by (cbn; lia). assert (HT' : 2 <= T <= 21) by (clear - HT HT2; lia).
  assert (Hlh : (lo <= hi)%Qc) by (clear - He H0; qlra).
  pose proof (hx_spec C K W now order l h (um_blocks_nodup C HT K W h k fov Hnd Hf) Hp) as G. fold h' in G.
  set (c := I3 (px b * 2 ^ T + px cell0 mod 2 ^ T) (py b * 2 ^ T + py cell0 mod 2 ^ T) (pz b * 2 ^ T + pz cell0 mod 2 ^ T)).
  assert (P : 0 < 2 ^ T) by (apply pow2_pos; lia).
  assert (Bc : block_of C c = b).
  { clear - P. destruct b as [x y z]. unfold block_of, c, imap. cbn [px py pz].
    rewrite !Z.div_add_l by lia. rewrite !Z.div_small by (apply Z.mod_pos_bound; exact P). f_equal; lia. }
  assert (Mc : imap (fun x => x mod 2 ^ T) c = imap (fun x => x mod 2 ^ T) cell0).
  { clear - P. unfold c, imap. cbn [px py pz]. rewrite !(Z.add_comm (_ * 2 ^ T)), !Z.mod_add, !Z.mod_mod by lia. reflexivity. }
  assert (Cv : forall t, cellv T t cell0 = cellv T t c).
  { intros t. rewrite <- (cellv_mod C t cell0), <- Mc, cellv_mod by (clear - HT'; lia). reflexivity. }
  assert (Fc : cellv T (btree blk) cell0 = hw_field C h' c).
  { rewrite hw_field_spec by (clear - HT'; lia). rewrite Bc. unfold tree_at. rewrite Eb. apply Cv. }
  rewrite Fc.
  assert (Old : (lo <= hw_field C h c /\ hw_field C h c <= hi)%Qc).
  { rewrite hw_field_spec by (clear - HT'; lia). rewrite Bc. unfold tree_at. destruct (getBlock h b) as [blk0|] eqn:E0.
    - rewrite <- Cv. apply (H b blk0 E0). rewrite G in Eb. destruct (in_dec _ _ _).
      + injection Eb as <-. unfold hx_block, blockOrNew in Hthr. rewrite E0 in Hthr.
        destruct (cupd _ _ _ _ _ _) as [[n s] g]. cbn [bthr] in Hthr. apply orb_false_iff in Hthr. apply Hthr.
      + rewrite E0 in Eb. injection Eb as <-. exact Hthr.
    - rewrite cellv_new by (clear - HT'; lia). apply pad; assumption || apply H0. }
  destruct (hx_field C HT' K W Hth Hlh h now k fov order c Hnd Hf Hp) as [U1 U2]. cbv zeta in U1, U2. fold l h' in U1, U2.
  destruct (in_dec idx3_eq_dec b l) as [Hin|Hin].
  2:{ rewrite U2; [exact Old|]. rewrite <- (um_blocks_spec C HT K W h k fov c Hf), Bc. exact Hin. }
  rewrite <- Bc in Hin. unfold l in Hin. rewrite (um_blocks_spec C HT K W h k fov c Hf) in Hin.
  destruct (U1 Hin) as (i & s & S1 & S2 & S3). rewrite S2. destruct s; cbn [batch_applied].
  - exact Old.
  - exfalso. destruct (S3 eq_refl) as (blk' & Eb' & Ht'). rewrite Bc, Eb in Eb'. injection Eb' as <-. congruence.
  - assert (Hi : i = cell c).
    { pose proof (batch_bottom _ _ _ _ _ _ _ _ S1 ltac:(clear - HT'; lia) eq_refl) as Z0.
      destruct (batch_in C K W Hth h _ _ _ _ S1 ltac:(clear - HT'; lia)) as [Ii _].
      apply node_of_unique in Ii; [|lia]. rewrite Ii, Z0. rewrite node_of_anc. unfold anc. change (2 ^ 0) with 1. rewrite imap_div_1. reflexivity. }
    rewrite Hi. unfold cell. rewrite node_mean_cell.
    assert (R2 : forall x y : Qc, (x + (y - x))%Qc = y) by (intros; ring). rewrite R2.
    rewrite clampq_qclamp. apply qclamp_range. exact Hlh.
Qed.
Lemma full_lazy m : hc_full fuel C e m -> exists h : hmap, mrel C m h /\ lazy_ok C e h.
Proof.
  induction 1 as [|m tc _ IH|m slo W now k fov order _ IH Hf Hnd K Hp].
  - exists []. split; [constructor|]. split; [apply shape_nil|]. intros b blk X. discriminate X.
  - destruct IH as (h & R & L). exists (hw_apply C h tc). split; [apply mrel_apply; assumption|]. apply lazy_apply; assumption.
  - destruct IH as (h & R & L). assert (Hth : 0 <= i_th K) by (cbn; lia). assert (HT' : 2 <= T <= 21) by (clear - HT HT2; lia).
    pose proof (mrel_updateMap C HT' K W Hth now order (hc_blocks qn K W m k fov) m h R) as R'. rewrite (mrel_blocks C K W m h k fov R) in *.
    eexists. split; [exact R'|]. split.
    + eapply mrel_shape; [exact R'|]. apply hx_wf, um_alloc_wf. apply L.
    + eapply lazy_scan_chunked; eassumption.
Qed.
End LAZY.
(** After threshold() every cell is in the configured range up to the padding that the integrator itself clamps to,
    for every history of edits and full-resolution scans. *)
Theorem C42_chunked : forall fuel C e m c,
  valid_config C -> 2 <= cT C -> (Z.to_nat (cT C) <= fuel)%nat -> (0 <= e)%Qc -> (clo C <= 0 <= chi C)%Qc ->
  hc_full fuel C e m ->
  (clo C - e <= hc_get qn C (hc_threshold qn fuel C m) c <= chi C + e)%Qc.
Proof.
  intros fuel C e m c HC HT2 Hfuel He H0 Hm. destruct (full_lazy fuel C e HC HT2 Hfuel He H0 m Hm) as (h & R & [_ Hs] & H).
  pose proof (proj1 HC) as HT.
  assert (R' : mrel C (hc_threshold qn fuel C m) (hw_threshold qn C h)) by (apply (mrel_apply fuel C HT Hfuel m h (0, HThreshold) R)).
  rewrite (mrel_get fuel C HT Hfuel _ _ c R').
  change (hw_get qn C (hw_threshold qn C h) c) with (hw_field C (hw_threshold qn C h) c).
  rewrite hw_field_spec by lia. unfold tree_at, hw_threshold. rewrite getBlock_forEachBlock.
  destruct (getBlock h (block_of C c)) as [b|] eqn:E; cbn [option_map].
  - apply lazy_threshold; try assumption; [apply (Hs _ _ E)|apply (H _ _ E)].
  - rewrite cellv_new by lia. apply pad; try assumption; apply H0.
Qed.
(** A full-resolution history with a coarse sample that pushes a cell out of the range until threshold() is called. *)
Definition exe : Qc := Q2Qc (8589935 # 8589934592).
Definition exWc : oracle Qc := Oracle (fun _ => M_RangeBounds.kPossiblyOccupied) (fun _ => Q2Qc 2) (fun i => oh i =? 1).
Example C42_chunked_ex : exists m, hc_full 3 exC exe m /\
  this (hc_get qn exC m (I3 1 1 1)) = 6%Q /\ this (hc_get qn exC (hc_threshold qn 3 exC m) (I3 1 1 1)) = 4%Q.
Proof.
  set (m0 := hc_run 3 exC [(1, HAdd (I3 1 1 1) (Q2Qc 4)); (2, HThreshold)]).
  set (K := IC 0 (clo exC - exe)%Qc (chi exC + exe)%Qc (i_slo exK)).
  exists (hc_updateMap qn K exWc 3 9 (hc_blocks qn K exWc m0 0 [OI 3 (I3 0 0 0)]) (hc_blocks qn K exWc m0 0 [OI 3 (I3 0 0 0)]) m0).
  split; [|split; vm_compute; reflexivity].
  apply (CF_scan 3 exC exe m0 (i_slo exK) exWc 9 0 [OI 3 (I3 0 0 0)]).
  - apply CF_call, CF_call, CF_new.
  - intros i [<-|[]]; reflexivity.
  - repeat constructor; intros [].
  - apply Permutation_refl.
Qed.
(** Refuted when the integrator stops above the finest resolution: the mean of an unevenly filled node is clamped, its
    cells are not, and the flag is not set. *)
Theorem C42_chunked_coarse_refuted : exists fuel C m c,
  valid_config C /\ 2 <= cT C /\ (Z.to_nat (cT C) <= fuel)%nat /\ (clo C <= 0 <= chi C)%Qc /\ hc_state fuel C m /\
  ~ (hc_get qn C (hc_threshold qn fuel C m) c <= chi C + 1)%Qc.
Proof.
  set (m0 := hc_run 3 exC [(1, HAdd (I3 1 1 1) (Q2Qc 4)); (2, HThreshold)]).
  set (K := IC 1 (clo exC - exe)%Qc (chi exC + exe)%Qc (i_slo exK)).
  set (W := Oracle (fun _ => M_RangeBounds.kPossiblyOccupied) (fun _ => Q2Qc 2) (fun i => false)).
  exists 3%nat, exC, (hc_updateMap qn K W 3 9 (hc_blocks qn K W m0 0 [OI 3 (I3 0 0 0)]) (hc_blocks qn K W m0 0 [OI 3 (I3 0 0 0)]) m0), (I3 1 1 1).
  split; [exact exC_valid|]. split; [cbn; lia|]. split; [apply le_n|]. split; [split; vm_compute; discriminate|]. split.
  - apply (CS_scan 3 exC m0 K W 9 0 [OI 3 (I3 0 0 0)]); [apply hc_state_run|cbn; lia|repeat constructor; intros []|intros i [<-|[]]; reflexivity|apply Permutation_refl].
  - intros H. vm_compute in H. apply H. reflexivity.
Qed.
Print Assumptions C41_chunked_effect.
Print Assumptions C41_chunked_stop_unique.
Print Assumptions C41_chunked_finest_exact.
Print Assumptions C41_chunked_order_independent.
Print Assumptions C41_chunked_height_one_refuted.
Print Assumptions C42_chunked.
Print Assumptions C42_chunked_coarse_refuted.
