(** Facts about the query accelerators: the cached stacks always describe the path of the last query. *)
From Verif Require Import Base M_IntMath M_Morton M_NdtreeIndex M_Num M_Haar M_Haar3 M_Ndtree M_Wavelet M_Chunked M_Octree M_Accel
  F_IntMath F_Morton F_NdtreeIndex F_Haar3 F_Wavelet F_Hash S_Field.

(** ** Morton codes *)
Notation rel := (relativeChildIndexFromMorton 3).
Lemma rel_shift m1 m2 L h : 0 <= L -> L <= h - 1 -> Z.shiftr m1 (L * 3) = Z.shiftr m2 (L * 3) -> rel m1 h = rel m2 h.
Proof.
  intros H0 H E. unfold relativeChildIndexFromMorton. f_equal.
  replace ((h - 1) * 3) with (L * 3 + (h - 1 - L) * 3) by ring.
  rewrite <- !Z.shiftr_shiftr by lia. rewrite E. reflexivity.
Qed.
Lemma omorton_range i : 0 <= omorton i < 2 ^ 64.
Proof. unfold omorton. exact (nodeIndexToMorton_range 3 _). Qed.
Lemma omorton_bits h p j : 0 <= h -> 3 * h <= j ->
  Z.testbit (omorton (OI h p)) j = (j <? 64) && Z.testbit (nth (Z.to_nat (j mod 3)) (ilist p) 0) (j / 3 - h).
Proof.
  intros Hh Hj. unfold omorton, nodeIndexToMorton, oni. cbn [oh opos height position].
  rewrite u64_testbit by lia. rewrite Z.shiftl_spec by lia.
  rewrite (encode_bmi2_spec 3 (ilist p)) by (reflexivity || lia).
  replace (j - h * 3) with (j + (- h) * 3) by ring. rewrite Z.mod_add, Z.div_add by lia.
  destruct (Z.ltb_spec j 64); [|reflexivity]. replace (j + - h * 3 <? 64) with true by lia. cbn [andb].
  f_equal.
Qed.
Definition block_at (T : Z) (i : oidx) : idx3 := imap (fun c => c / 2 ^ (T - oh i)) (opos i).
Lemma block_code T i j : 0 <= oh i <= T -> 0 <= oh j <= T -> block_at T i = block_at T j ->
  Z.shiftr (omorton i) (T * 3) = Z.shiftr (omorton j) (T * 3).
Proof.
  intros Hi Hj E. destruct i as [hi pi], j as [hj pj]. cbn [oh opos] in *. unfold block_at in E. cbn [oh opos] in E.
  destruct pi as [xi yi zi], pj as [xj yj zj]. unfold imap in E. cbn [px py pz] in E.
  pose proof (f_equal px E) as E1. pose proof (f_equal py E) as E2. pose proof (f_equal pz E) as E3. cbn [px py pz] in E1, E2, E3. clear E.
  apply Z.bits_inj'. intros b Hb. rewrite !Z.shiftr_spec by lia.
  assert (B1 : 3 * hi <= b + T * 3 /\ 3 * hj <= b + T * 3 /\ 0 <= hi /\ 0 <= hj) by (clear - Hi Hj Hb; lia).
  destruct B1 as (B1 & B2 & B3 & B4).
  rewrite (omorton_bits hi (I3 xi yi zi) _ B3 B1).
  rewrite (omorton_bits hj (I3 xj yj zj) _ B4 B2). f_equal. cbn [ilist px py pz].
  assert (X : forall a c, a / 2 ^ (T - hi) = c / 2 ^ (T - hj) ->
              Z.testbit a ((b + T * 3) / 3 - hi) = Z.testbit c ((b + T * 3) / 3 - hj)).
  { intros a c X. rewrite Z.div_add by discriminate. apply (f_equal (fun z => Z.testbit z (b / 3))) in X.
    assert (D0 : 0 <= b / 3) by (apply Z.div_pos; [exact Hb|reflexivity]).
    rewrite !Z.div_pow2_bits in X by (first [exact D0 | clear - Hi Hj; lia]).
    replace (b / 3 + T - hi) with (b / 3 + (T - hi)) by ring. replace (b / 3 + T - hj) with (b / 3 + (T - hj)) by ring.
    exact X. }
  pose proof (Z.mod_pos_bound (b + T * 3) 3 eq_refl) as B.
  assert (K : (b + T * 3) mod 3 = 0 \/ (b + T * 3) mod 3 = 1 \/ (b + T * 3) mod 3 = 2) by (clear - B; lia).
  destruct K as [-> |[-> | ->]]; cbn [Z.to_nat nth Pos.to_nat Pos.iter_op Nat.add]; apply X; assumption.
Qed.

(** ** The wavelet accelerators *)
Section WAVELET.
Context {P D V : Type} (pdata : P -> D) (pchild : P -> Z -> option P) (bsc : V -> D -> Z -> V) (zero : V).
Context (T : Z) (block_root : idx3 -> option (P * V)) (block_index : oidx -> idx3).
Context (HT : 1 <= T < 20).
Context (Hbi : forall i, 0 <= oh i <= T -> block_index i = block_at T i).
Notation acc := (@acc P V).

(** The direct query *)
Fixpoint dir_loop (k : nat) (ph morton : Z) (v : V) (p : P) : V :=
  match k with
  | O => v
  | S k' =>
      let c := rel morton ph in
      let v' := bsc v (pdata p) c in
      match pchild p c with None => v' | Some p' => dir_loop k' (ph - 1) morton v' p' end
  end.
Definition direct (i : oidx) : V :=
  match block_root (block_index i) with
  | None => zero
  | Some (r, s) => dir_loop (Z.to_nat (T - oh i)) T (omorton i) s r
  end.

(** The stacks describe the path [morton] from the root down to height [lo]. *)
Definition chain (nodes : Z -> option P) (vals : Z -> V) (morton lo : Z) : Prop :=
  forall h, lo <= h < T -> exists p, nodes (h + 1) = Some p /\ nodes h = pchild p (rel morton (h + 1)) /\
                                     vals h = bsc (vals (h + 1)) (pdata p) (rel morton (h + 1)).
Lemma chain_weaken nodes vals mo lo lo' : chain nodes vals mo lo -> lo <= lo' -> chain nodes vals mo lo'.
Proof. intros H L h Hh. apply H. lia. Qed.
Lemma chain_code nodes vals mo mo' L lo : 0 <= L <= lo -> Z.shiftr mo (L * 3) = Z.shiftr mo' (L * 3) ->
  chain nodes vals mo lo -> chain nodes vals mo' lo.
Proof.
  intros HL E H h Hh. destruct (H h Hh) as (p & A & B & C). rewrite (rel_shift mo mo' L (h + 1)) in B, C by (assumption || lia).
  exists p. auto.
Qed.
Definition at_h (nodes : Z -> option P) (vals : Z -> V) (k : nat) (h mo : Z) : V :=
  match nodes h with Some p => dir_loop k h mo (vals h) p | None => vals h end.
Lemma chain_value nodes vals mo lo ih (j : nat) : chain nodes vals mo lo -> 0 <= ih -> ih <= lo -> lo <= T - Z.of_nat j ->
  at_h nodes vals (Z.to_nat (T - ih)) T mo = at_h nodes vals (Z.to_nat (T - Z.of_nat j - ih)) (T - Z.of_nat j) mo.
Proof.
  intros Hc H0 Hl. induction j as [|j IH]; intros Hj.
  - replace (T - Z.of_nat 0) with T by lia. reflexivity.
  - rewrite IH by lia. clear IH.
    destruct (Hc (T - Z.of_nat (S j)) ltac:(lia)) as (p & A & B & C).
    replace (T - Z.of_nat (S j) + 1) with (T - Z.of_nat j) in * by lia.
    unfold at_h. rewrite A.
    replace (Z.to_nat (T - Z.of_nat j - ih)) with (S (Z.to_nat (T - Z.of_nat (S j) - ih))) by lia.
    cbn [dir_loop]. rewrite <- C, <- B.
    replace (T - Z.of_nat j - 1) with (T - Z.of_nat (S j)) by lia. reflexivity.
Qed.
Lemma chain_value' nodes vals mo h ih : chain nodes vals mo h -> 0 <= ih <= h -> h <= T ->
  at_h nodes vals (Z.to_nat (T - ih)) T mo = at_h nodes vals (Z.to_nat (h - ih)) h mo.
Proof.
  intros Hc H0 Hh. rewrite (chain_value nodes vals mo h ih (Z.to_nat (T - h)) Hc) by lia.
  replace (T - Z.of_nat (Z.to_nat (T - h))) with h by lia. reflexivity.
Qed.
Lemma aset_same {A} (f : Z -> A) h a : aset f h a h = a.
Proof. unfold aset. rewrite Z.eqb_refl. reflexivity. Qed.
Lemma aset_other {A} (f : Z -> A) h a j : j <> h -> aset f h a j = f j.
Proof. intros H. unfold aset. destruct (Z.eqb_spec j h); [contradiction|reflexivity]. Qed.
Lemma walk_spec k : forall nodes vals mo h ih, h - ih = Z.of_nat k -> 0 <= ih -> h <= T -> chain nodes vals mo h ->
  let '(nodes', vals', h') := acc_walk pdata pchild bsc k nodes vals mo h in
  ih <= h' <= h /\ chain nodes' vals' mo h' /\ (forall j, h <= j -> nodes' j = nodes j /\ vals' j = vals j) /\
  vals' h' = at_h nodes vals k h mo.
Proof.
  induction k as [|k IH]; intros nodes vals mo h ih Hk H0 Hh Hc; cbn [acc_walk].
  - split; [lia|]. split; [assumption|]. split; [auto|]. unfold at_h. cbn [dir_loop]. destruct (nodes h); reflexivity.
  - destruct (nodes h) as [p|] eqn:Ep.
    2:{ split; [lia|]. split; [assumption|]. split; [auto|]. unfold at_h. rewrite Ep. reflexivity. }
    set (c := rel mo h). set (n1 := aset nodes (h - 1) (pchild p c)). set (v1 := aset vals (h - 1) (bsc (vals h) (pdata p) c)).
    assert (E1 : forall j, h <= j -> n1 j = nodes j /\ v1 j = vals j).
    { intros j Hj. unfold n1, v1. rewrite !aset_other by lia. auto. }
    assert (Hc1 : chain n1 v1 mo (h - 1)).
    { intros j Hj. destruct (Z.eq_dec j (h - 1)) as [Ej|Nj].
      - exists p. subst j. replace (h - 1 + 1) with h by lia. destruct (E1 h ltac:(lia)) as [-> ->].
        unfold n1, v1. rewrite !aset_same. auto.
      - destruct (E1 j ltac:(lia)) as [-> ->]. destruct (E1 (j + 1) ltac:(lia)) as [-> ->]. apply Hc. lia. }
    specialize (IH n1 v1 mo (h - 1) ih ltac:(lia) H0 ltac:(lia) Hc1).
    destruct (acc_walk pdata pchild bsc k n1 v1 mo (h - 1)) as [[n' v'] h'].
    destruct IH as (I1 & I2 & I3 & I4). split; [lia|]. split; [assumption|]. split.
    + intros j Hj. destruct (I3 j ltac:(lia)) as [-> ->]. apply E1. assumption.
    + rewrite I4. unfold at_h. rewrite Ep. cbn [dir_loop]. fold c. unfold n1, v1. rewrite !aset_same. reflexivity.
Qed.

Definition inv (a : acc) : Prop :=
  0 <= a_height a <= T /\ 0 <= a_morton a < 2 ^ 64 /\
  ((a_nodes a T = None /\ a_height a = T /\ (a_block a = no_block \/ block_root (a_block a) = None)) \/
   exists r s, block_root (a_block a) = Some (r, s) /\ a_nodes a T = Some r /\ a_vals a T = s /\
     chain (a_nodes a) (a_vals a) (a_morton a) (a_height a) /\
     exists j, 0 <= oh j <= T /\ a_block a = block_at T j /\ a_morton a = omorton j).
Lemma inv_new : inv (acc_new zero T).
Proof. unfold inv, acc_new. cbn. split; [lia|]. split; [lia|]. left. auto. Qed.

Lemma finish_spec nodes vals i r s h prev :
  0 <= oh i <= h -> h <= T -> block_root (block_at T i) = Some (r, s) -> nodes T = Some r -> vals T = s ->
  chain nodes vals (omorton i) h -> (prev = h -> prev <> T -> exists p, nodes (h + 1) = Some p /\ nodes h = pchild p (rel (omorton i) (h + 1))) ->
  exists a v, acc_finish pdata pchild bsc T nodes vals (block_at T i) (omorton i) prev h (oh i) = Some (a, v) /\
    inv a /\ v = dir_loop (Z.to_nat (T - oh i)) T (omorton i) s r.
Proof.
  intros Hi Hh Hr Hn Hv Hc Hp. unfold acc_finish.
  assert (Hd : dir_loop (Z.to_nat (T - oh i)) T (omorton i) s r = at_h nodes vals (Z.to_nat (h - oh i)) h (omorton i)).
  { rewrite <- (chain_value' nodes vals (omorton i) h (oh i) Hc Hi Hh). unfold at_h. rewrite Hn, Hv. reflexivity. }
  destruct (Z.eqb_spec h (oh i)) as [Eh|Nh].
  - do 2 eexists. split; [reflexivity|]. split.
    + split; [cbn; lia|]. split; [apply omorton_range|]. right. exists r, s. cbn. split; [assumption|].
      split; [assumption|]. split; [assumption|]. split; [assumption|]. exists i. split; [lia|]. auto.
    + rewrite Hd. rewrite Eh, Z.sub_diag. unfold at_h. cbn [Z.to_nat dir_loop]. rewrite <- Eh. destruct (nodes h); reflexivity.
  - assert (S1 : exists n1, (if negb (prev =? T) && (h =? prev)
         then match nodes (h + 1) with
              | None => None
              | Some p => Some (aset nodes h (pchild p (rel (omorton i) (h + 1))))
              end
         else Some nodes) = Some n1 /\ (forall j, n1 j = nodes j)).
    { destruct (Z.eqb_spec prev T) as [|Np]; cbn [negb andb]; [exists nodes; auto|].
      destruct (Z.eqb_spec h prev) as [Ep|]; [|exists nodes; auto].
      destruct (Hp (eq_sym Ep) Np) as (p & A & B). rewrite A. eexists. split; [reflexivity|].
      intros j. unfold aset. destruct (Z.eqb_spec j h) as [->|]; [symmetry; exact B|reflexivity]. }
    destruct S1 as (n1 & -> & En).
    assert (Hc1 : chain n1 vals (omorton i) h) by (intros j Hj; rewrite !En; apply Hc; assumption).
    pose proof (walk_spec (Z.to_nat (h - oh i)) n1 vals (omorton i) h (oh i) ltac:(lia) ltac:(lia) Hh Hc1) as W.
    destruct (acc_walk pdata pchild bsc (Z.to_nat (h - oh i)) n1 vals (omorton i) h) as [[n' v'] h'].
    destruct W as (W1 & W2 & W3 & W4). do 2 eexists. split; [reflexivity|]. split.
    + split; [cbn; lia|]. split; [apply omorton_range|]. right. exists r, s. cbn. split; [assumption|].
      destruct (W3 T Hh) as [-> ->]. rewrite En. split; [assumption|]. split; [assumption|]. split; [assumption|].
      exists i. split; [lia|]. auto.
    + rewrite Hd, W4. unfold at_h. rewrite En. reflexivity.
Qed.
Lemma get_spec a i : inv a -> 0 <= oh i <= T -> block_at T i <> no_block ->
  exists a', acc_get pdata pchild bsc zero T block_root block_index a i = Some (a', direct i) /\ inv a'.
Proof.
  intros (Hh & Hm & Hcase) Hi Hne. unfold acc_get. replace (kMaxTreeHeight3 <=? T) with false by (unfold kMaxTreeHeight3; cbn; lia).
  unfold direct. rewrite Hbi by assumption. destruct (ieqb (block_at T i) (a_block a)) eqn:Eb.
  - apply ieqb_iff in Eb. destruct Hcase as [(Hn & HhT & Hb)|(r & s & Hr & Hn & Hv & Hc & j & Hj & Ej & Em)].
    + rewrite Hn. destruct Hb as [Hb|Hb]; [congruence|]. rewrite Eb, Hb. eexists. split; [reflexivity|].
      split; [cbn; lia|]. split; [apply omorton_range|]. left. cbn. auto.
    + rewrite Hn. rewrite Eb, Hr.
      destruct (lca_spec 3 (omorton i) (oh i) (a_morton a) (a_height a) ltac:(lia) (omorton_range i) Hm ltac:(lia) ltac:(lia))
        as (L1 & L2 & L3 & L4).
      set (L := computeLastCommonAncestorHeight 3 (omorton i) (oh i) (a_morton a) (a_height a)) in *.
      assert (L5 : L <= T).
      { apply L4; [lia|lia|]. rewrite Em. apply block_code; [assumption|assumption|congruence]. }
      destruct (finish_spec (a_nodes a) (a_vals a) i r s L (a_height a)) as (a' & v & F1 & F2 & F3).
      * lia.
      * exact L5.
      * rewrite Eb. exact Hr.
      * exact Hn.
      * exact Hv.
      * apply (chain_code _ _ (a_morton a) _ L); [lia|symmetry; exact L3|]. eapply chain_weaken; [exact Hc|exact L2].
      * intros E1 E2. destruct (Hc L ltac:(lia)) as (p & A & B & _). exists p. split; [exact A|]. rewrite B. f_equal.
        apply (rel_shift _ _ L); [lia|lia|symmetry; exact L3].
      * rewrite <- Eb. rewrite F1, F3. exists a'. split; [reflexivity|exact F2].
  - destruct (block_root (block_at T i)) as [[r s]|] eqn:Er.
    + destruct (finish_spec (aset (a_nodes a) T (Some r)) (aset (a_vals a) T s) i r s T (a_height a)) as (a' & v & F1 & F2 & F3).
      * lia.
      * lia.
      * exact Er.
      * apply aset_same.
      * apply aset_same.
      * intros h Hh'. lia.
      * intros E1 E2. congruence.
      * rewrite F1, F3. exists a'. split; [reflexivity|exact F2].
    + eexists. split; [reflexivity|]. split; [cbn; lia|]. split; [apply omorton_range|]. left. cbn. rewrite aset_same. auto.
Qed.
Lemma queries_spec l : forall a, inv a -> Forall (fun i => 0 <= oh i <= T /\ block_at T i <> no_block) l ->
  acc_queries pdata pchild bsc zero T block_root block_index a l = Some (map direct l).
Proof.
  induction l as [|i l IH]; intros a Ha Hl; [reflexivity|]. inversion Hl as [|x y [H1 H2] H3]; subst. cbn [acc_queries map].
  destruct (get_spec a i Ha H1 H2) as (a' & -> & Ha'). rewrite (IH a' Ha' H3). reflexivity.
Qed.
End WAVELET.

(** ** Queries through the cell index of the block and through the global index follow the same path. *)
Lemma rel_mod T h p ph : 0 <= h < ph -> ph <= T -> T <= 21 ->
  rel (omorton (OI h (imap (fun c => c mod 2 ^ (T - h)) p))) ph = rel (omorton (OI h p)) ph.
Proof.
  intros Hh Hp HT. rewrite !rel_morton_cidx by lia. unfold cidx, imap. cbn [px py pz].
  rewrite !Z.mod_pow2_bits_low by lia. reflexivity.
Qed.
Lemma block_of_node T h p : 0 <= h <= T ->
  imap (fun c => div_exp2_floor (mult_exp2 c h) T) p = block_at T (OI h p).
Proof.
  intros H. unfold block_at, imap. cbn [oh opos].
  assert (E : forall c, div_exp2_floor (mult_exp2 c h) T = c / 2 ^ (T - h)).
  { intros c. rewrite div_exp2_floor_spec by lia. unfold mult_exp2. rewrite exp2_pow by lia.
    replace (2 ^ T) with (2 ^ (T - h) * 2 ^ h) by (rewrite <- Z.pow_add_r by lia; f_equal; lia).
    pose proof (Z.pow_pos_nonneg 2 h ltac:(lia) ltac:(lia)). pose proof (Z.pow_pos_nonneg 2 (T - h) ltac:(lia) ltac:(lia)).
    apply Z.div_mul_cancel_r; lia. }
  rewrite !E. reflexivity.
Qed.
Section INST.
Context {V : Type} (N : M_Num.num V) (C : wconfig (V := V)).
Lemma hw_block_at i : 0 <= oh i <= cT C -> hw_blockIndex C i = block_at (cT C) i.
Proof. intros H. destruct i as [h p]. exact (block_of_node (cT C) h p H). Qed.
Lemma hw_cell_at h p : 0 <= h <= cT C -> hw_cellIndex C (OI h p) = OI h (imap (fun c => c mod 2 ^ (cT C - h)) p).
Proof. intros H. unfold hw_cellIndex, imap. cbn [oh opos]. rewrite !div_exp2_floor_remainder_spec by lia. reflexivity. Qed.
Lemma hw_loop k : forall ph h p v n, ph = h + Z.of_nat k -> 0 <= h -> ph <= cT C -> cT C <= 21 ->
  dir_loop ndata getChild (backwardSingleChild3 N) k ph (omorton (OI h p)) v n =
  get_loop N k ph (omorton (OI h (imap (fun c => c mod 2 ^ (cT C - h)) p))) v n.
Proof.
  induction k as [|k IH]; intros ph h p v n E H0 Hp HT; cbn [dir_loop get_loop]; [reflexivity|].
  rewrite rel_mod by lia. destruct (getChild n _); [|reflexivity]. apply IH; lia.
Qed.
Lemma hw_direct m i : 0 <= oh i <= cT C -> cT C <= 21 ->
  direct ndata getChild (backwardSingleChild3 N) (n0 N) (cT C) (hw_root m) (hw_blockIndex C) i = hw_get_node N C m i.
Proof.
  intros Hi HT. unfold direct, hw_get_node, hw_root. destruct (getBlock m (hw_blockIndex C i)) as [b|]; [|reflexivity].
  cbn [option_map]. destruct i as [h p]. cbn [oh] in *. rewrite hw_cell_at by assumption. unfold wb_get, wt_get. cbn [oh].
  apply hw_loop; lia.
Qed.
Notation cpdata := (fun p : chunk (det V) * nref => nr_data (dzero N) (fst p) (snd p)).
Notation cpchild := (fun (p : chunk (det V) * nref) c => option_map (pair (fst p)) (nr_getChild kChunkHeight (fst p) (snd p) c)).
Lemma hc_loop k root : forall ph h p v r, ph = h + Z.of_nat k -> 0 <= h -> ph <= cT C -> cT C <= 21 ->
  dir_loop cpdata cpchild (backwardSingleChild3 N) k ph (omorton (OI h p)) v (root, r) =
  cb_get_loop N k root ph (omorton (OI h (imap (fun c => c mod 2 ^ (cT C - h)) p))) v r.
Proof.
  induction k as [|k IH]; intros ph h p v r E H0 Hp HT; cbn [dir_loop cb_get_loop fst snd]; [reflexivity|].
  rewrite rel_mod by lia. destruct (nr_getChild _ _ _ _); cbn [option_map]; [|reflexivity]. apply IH; lia.
Qed.
Lemma hc_direct m i : 0 <= oh i <= cT C -> cT C <= 21 ->
  direct cpdata cpchild (backwardSingleChild3 N) (n0 N) (cT C) (hc_root m) (hw_blockIndex C) i = hc_get_node N C m i.
Proof.
  intros Hi HT. unfold direct, hc_get_node, hc_root. destruct (getBlock m (hw_blockIndex C i)) as [b|]; [|reflexivity].
  cbn [option_map]. destruct i as [h p]. cbn [oh] in *. rewrite hw_cell_at by assumption. unfold cb_get. cbn [oh].
  apply hc_loop; lia.
Qed.
End INST.
Lemma block_not_sentinel T i : 1 <= T -> 0 <= oh i <= T -> Forall (fun c => - 2 ^ 31 <= c * 2 ^ oh i < 2 ^ 31) (ilist (opos i)) ->
  block_at T i <> no_block.
Proof.
  intros HT Hi H E. destruct i as [h [x y z]]. cbn [oh opos ilist px py pz] in *.
  unfold block_at, no_block, imap in E. cbn [oh opos px py pz] in E.
  pose proof (f_equal px E) as E1. cbn [px] in E1. clear E. inversion H as [|a l Hx _]; subst. clear H.
  assert (P1 : 1 <= 2 ^ h) by (pose proof (Z.pow_pos_nonneg 2 h ltac:(lia) ltac:(lia)); lia).
  assert (P2 : 1 <= 2 ^ (T - h)) by (pose proof (Z.pow_pos_nonneg 2 (T - h) ltac:(lia) ltac:(lia)); lia).
  pose proof (Z.mul_div_le x (2 ^ (T - h)) ltac:(lia)) as M. rewrite E1 in M.
  change (2 ^ 31) with 2147483648 in *.
  assert (P3 : 2 <= 2 ^ (T - h) * 2 ^ h).
  { rewrite <- Z.pow_add_r by lia. replace (T - h + h) with T by lia. change 2 with (2 ^ 1) at 1. apply Z.pow_le_mono_r; lia. }
  assert (2147483647 * 2 <= x * 2 ^ h) by nia. lia.
Qed.

(** ** Block caches *)
Section BLOCKS.
Context {B : Type} (dflt : B).
Definition binv (m : shash B) (a : bacc) : Prop :=
  match bc_block a with
  | Some k => k = bc_index a /\ hasBlock m k = true
  | None => bc_index a = no_block \/ getBlock m (bc_index a) = None
  end.
Lemma setBlock_same (m : shash B) b x : getBlock m b = Some x -> setBlock m b x = m.
Proof.
  induction m as [|[k y] m IH]; cbn [getBlock setBlock]; [discriminate|]. destruct (ieqb k b).
  - intros H. injection H as ->. reflexivity.
  - intros H. rewrite IH by assumption. reflexivity.
Qed.
Lemma bget_spec m a b : binv m a -> b <> no_block ->
  snd (bacc_get m a b) = getBlock m b /\ binv m (fst (bacc_get m a b)).
Proof.
  intros Ha Hb. unfold bacc_get. cbn [fst snd]. destruct (ieqb_spec b (bc_index a)) as [Eb|Eb].
  - unfold binv in Ha. destruct (bc_block a) as [k|] eqn:Ek.
    + destruct Ha as [-> Hk]. rewrite Eb. split; [reflexivity|]. unfold binv. rewrite Ek. auto.
    + destruct Ha as [Ha|Ha]; [congruence|]. rewrite Eb, Ha. split; [reflexivity|]. unfold binv. rewrite Ek. auto.
  - unfold binv. cbn [bc_block bc_index]. destruct (hasBlock m b) eqn:Hh; [auto|].
    unfold hasBlock in Hh. destruct (getBlock m b); [discriminate|]. auto.
Qed.
Lemma balloc_spec m a b : binv m a -> b <> no_block ->
  let m' := setBlock m b (blockOrNew dflt m b) in
  exists a', bacc_alloc dflt m a b = (a', m', getBlock m' b) /\ binv m' a'.
Proof.
  intros Ha Hb. cbv zeta. unfold bacc_alloc.
  assert (N : exists a', (BACC b (Some b), setBlock m b (blockOrNew dflt m b), getBlock (setBlock m b (blockOrNew dflt m b)) b) =
     (a', setBlock m b (blockOrNew dflt m b), getBlock (setBlock m b (blockOrNew dflt m b)) b) /\
     binv (setBlock m b (blockOrNew dflt m b)) a').
  { eexists. split; [reflexivity|]. unfold binv. cbn [bc_block bc_index]. split; [reflexivity|]. unfold hasBlock.
    rewrite getBlock_setBlock. rewrite ieqb_refl. reflexivity. }
  destruct (ieqb_spec b (bc_index a)) as [Eb|Eb]; cbn [negb orb]; [|exact N].
  destruct (bc_block a) as [k|] eqn:Ek; [|exact N]. unfold binv in Ha. rewrite Ek in Ha. destruct Ha as [Hk Hh].
  subst k. rewrite <- Eb in Hh. exists a. unfold hasBlock in Hh. destruct (getBlock m b) as [x|] eqn:Ex; [|discriminate].
  assert (Es : setBlock m b (blockOrNew dflt m b) = m) by (unfold blockOrNew; rewrite Ex; apply setBlock_same; exact Ex).
  rewrite Es. rewrite <- Eb. split; [reflexivity|]. unfold binv. rewrite Ek. rewrite <- Eb. split; [reflexivity|].
  unfold hasBlock. rewrite Ex. reflexivity.
Qed.
End BLOCKS.

(** ** The tree accelerator *)
Section NDTREE.
Context {A : Type} (T : Z) (HT : 1 <= T < 20).
Notation bmap := (shash (node A)).
Definition nchain (nodes : Z -> option (node A)) (morton lo : Z) : Prop :=
  forall h, lo <= h < T -> exists p, nodes (h + 1) = Some p /\ nodes h = getChild p (rel morton (h + 1)) /\ nodes h <> None.
Definition ninv (m : bmap) (a : @nacc A) : Prop :=
  0 <= n_height a <= T /\ 0 <= n_morton a < 2 ^ 64 /\
  if n_exists a
  then exists r, getBlock m (n_block a) = Some r /\ n_nodes a T = Some r /\ nchain (n_nodes a) (n_morton a) (n_height a) /\
       exists j, 0 <= oh j <= T /\ n_block a = block_at T j /\ n_morton a = omorton j
  else n_block a = no_block \/ getBlock m (n_block a) = None.
Lemma nchain_value nodes mo ih r (j : nat) : nodes T = Some r -> nchain nodes mo (T - Z.of_nat j) -> 0 <= ih <= T - Z.of_nat j ->
  exists p, nodes (T - Z.of_nat j) = Some p /\
  nd_anc_loop (Z.to_nat (T - ih)) T mo r = nd_anc_loop (Z.to_nat (T - Z.of_nat j - ih)) (T - Z.of_nat j) mo p.
Proof.
  intros Hr. induction j as [|j IH]; intros Hc Hih.
  - exists r. replace (T - Z.of_nat 0) with T by lia. auto.
  - destruct IH as (p & Hp & E); [intros h Hh; apply Hc; lia|lia|].
    destruct (Hc (T - Z.of_nat (S j)) ltac:(lia)) as (p' & A1 & A2 & A3).
    replace (T - Z.of_nat (S j) + 1) with (T - Z.of_nat j) in * by lia. rewrite Hp in A1. injection A1 as <-.
    destruct (nodes (T - Z.of_nat (S j))) as [q|]; [|congruence]. exists q. split; [reflexivity|]. rewrite E.
    replace (Z.to_nat (T - Z.of_nat j - ih)) with (S (Z.to_nat (T - Z.of_nat (S j) - ih))) by lia.
    cbn [nd_anc_loop]. rewrite <- A2. f_equal. lia.
Qed.
Lemma nwalk_spec k : forall nodes mo h ih p, h - ih = Z.of_nat k -> 0 <= ih -> h <= T -> nodes h = Some p -> nchain nodes mo h ->
  exists nodes' h', nacc_walk k nodes mo h = Some (nodes', h', fst (nd_anc_loop k h mo p)) /\
  ih <= h' <= h /\ nchain nodes' mo h' /\ forall j, h <= j -> nodes' j = nodes j.
Proof.
  induction k as [|k IH]; intros nodes mo h ih p Hk H0 Hh Hp Hc; cbn [nacc_walk nd_anc_loop]; rewrite Hp.
  - exists nodes, h. split; [reflexivity|]. split; [lia|]. auto.
  - destruct (getChild p (rel mo h)) as [q|] eqn:Eq.
    2:{ exists nodes, h. split; [reflexivity|]. split; [lia|]. auto. }
    assert (E1 : forall j, h <= j -> aset nodes (h - 1) (Some q) j = nodes j) by (intros j Hj; apply aset_other; lia).
    destruct (IH (aset nodes (h - 1) (Some q)) mo (h - 1) ih q) as (n' & h' & I1 & I2 & I3 & I4); try lia.
    + apply aset_same.
    + intros j Hj. destruct (Z.eq_dec j (h - 1)) as [Ej|Nj].
      * exists p. subst j. replace (h - 1 + 1) with h by lia. rewrite E1, aset_same, Eq by lia.
        split; [exact Hp|]. split; [reflexivity|discriminate].
      * rewrite !E1 by lia. apply Hc. lia.
    + exists n', h'. split; [exact I1|]. split; [lia|]. split; [exact I3|].
      intros j Hj. rewrite I4 by lia. apply E1. exact Hj.
Qed.
Definition ndirect (m : bmap) (i : oidx) : option (node A) :=
  option_map (fun r => fst (nd_anc_loop (Z.to_nat (T - oh i)) T (omorton i) r)) (getBlock m (block_at T i)).
Lemma bh_block_at i : 0 <= oh i <= T -> bh_blockIndex T i = block_at T i.
Proof. intros H. unfold bh_blockIndex, block_at, imap. rewrite !div_exp2_floor_spec by lia. reflexivity. Qed.
Lemma nget_spec m a i : ninv m a -> 0 <= oh i <= T -> block_at T i <> no_block ->
  exists a', nacc_get T m a i = Some (a', ndirect m i) /\ ninv m a'.
Proof.
  intros (Hh & Hm & Hcase) Hi Hne. unfold nacc_get, ndirect. rewrite bh_block_at by assumption.
  replace (kMaxTreeHeight3 <=? T) with false by (unfold kMaxTreeHeight3; cbn; lia).
  assert (FIN : forall nodes r h, getBlock m (block_at T i) = Some r -> nodes T = Some r -> oh i <= h <= T ->
    nchain nodes (omorton i) h ->
    exists a', match nacc_walk (Z.to_nat (h - oh i)) nodes (omorton i) h with
    | None => None
    | Some (nodes', h', p) => Some (NACC nodes' (block_at T i) true (omorton i) h', Some p)
    end = Some (a', option_map (fun r => fst (nd_anc_loop (Z.to_nat (T - oh i)) T (omorton i) r)) (getBlock m (block_at T i)))
    /\ ninv m a').
  { intros nodes r h Hb Hr Hih Hc. rewrite Hb. cbn [option_map].
    destruct (nchain_value nodes (omorton i) (oh i) r (Z.to_nat (T - h)) Hr) as (p & Hp & E).
    - replace (T - Z.of_nat (Z.to_nat (T - h))) with h by lia. exact Hc.
    - lia.
    - replace (T - Z.of_nat (Z.to_nat (T - h))) with h in * by lia. rewrite E.
      destruct (nwalk_spec (Z.to_nat (h - oh i)) nodes (omorton i) h (oh i) p) as (n' & h' & -> & W1 & W2 & W3); try lia; try assumption.
      eexists. split; [reflexivity|]. split; [cbn; lia|]. split; [apply omorton_range|]. cbn. exists r.
      split; [exact Hb|]. split; [rewrite W3 by lia; exact Hr|]. split; [exact W2|]. exists i. auto. }
  destruct (ieqb_spec (block_at T i) (n_block a)) as [Eb|Eb].
  - destruct (n_exists a).
    + destruct Hcase as (r & Hr & Hn & Hc & j & Hj & Ej & Em).
      rewrite <- Eb in Hr.
      destruct (Z.eqb_spec (n_height a) T) as [Et|Nt].
      * apply (FIN (n_nodes a) r T Hr Hn); [lia|]. intros h Hh'. lia.
      * destruct (lca_spec 3 (omorton i) (oh i) (n_morton a) (n_height a) ltac:(lia) (omorton_range i) Hm ltac:(lia) ltac:(lia))
          as (L1 & L2 & L3 & L4).
        set (L := computeLastCommonAncestorHeight 3 (omorton i) (oh i) (n_morton a) (n_height a)) in *.
        assert (L5 : L <= T).
        { apply L4; [lia|lia|]. rewrite Em. apply block_code; [assumption|assumption|congruence]. }
        apply (FIN (n_nodes a) r L Hr Hn); [lia|]. intros h Hh'. destruct (Hc h ltac:(lia)) as (p & A1 & A2 & A3).
        exists p. split; [exact A1|]. split; [|exact A3]. rewrite A2. f_equal. apply (rel_shift _ _ L); [lia|lia|symmetry; exact L3].
    + destruct Hcase as [Hx|Hx]; [congruence|]. rewrite <- Eb in Hx. rewrite Hx. cbn [option_map].
      eexists. split; [reflexivity|]. split; [exact Hh|]. split; [apply omorton_range|]. cbn. auto.
  - destruct (getBlock m (block_at T i)) as [r|] eqn:Er.
    + rewrite Z.eqb_refl. apply (FIN _ r T eq_refl); [apply aset_same|lia|]. intros h Hh'. lia.
    + cbn [option_map]. eexists. split; [reflexivity|]. split; [cbn; lia|]. split; [apply omorton_range|]. cbn. auto.
Qed.
Lemma ninv_new m : ninv m (nacc_new T).
Proof. split; [cbn; lia|]. split; [cbn; lia|]. cbn. auto. Qed.
Lemma nqueries_spec m l : forall a, ninv m a -> Forall (fun i => 0 <= oh i <= T /\ block_at T i <> no_block) l ->
  nacc_queries T m a l = Some (map (ndirect m) l).
Proof.
  induction l as [|i l IH]; intros a Ha Hl; [reflexivity|]. inversion Hl as [|x y [H1 H2] H3]; subst. cbn [nacc_queries map].
  destruct (nget_spec m a i Ha H1 H2) as (a' & -> & Ha'). rewrite (IH a' Ha' H3). reflexivity.
Qed.
Lemma anc_loop_mod k : forall ph h p (n : node A), ph = h + Z.of_nat k -> 0 <= h -> ph <= T ->
  nd_anc_loop k ph (omorton (OI h (imap (fun c => c mod 2 ^ (T - h)) p))) n = nd_anc_loop k ph (omorton (OI h p)) n.
Proof.
  induction k as [|k IH]; intros ph h p n E H0 Hp; cbn [nd_anc_loop]; [reflexivity|].
  rewrite rel_mod by lia. destruct (getChild n _); [|reflexivity]. apply IH; lia.
Qed.
Lemma ndirect_anc m i : 0 <= oh i <= T ->
  ndirect m i = match getBlock m (bh_blockIndex T i) with
                | None => None
                | Some b => Some (fst (nd_getNodeOrAncestor T b (bh_cellIndex T i)))
                end.
Proof.
  intros Hi. unfold ndirect. rewrite bh_block_at by assumption. destruct (getBlock m (block_at T i)) as [b|]; [|reflexivity].
  cbn [option_map]. unfold nd_getNodeOrAncestor. destruct i as [h p]. unfold bh_cellIndex. cbn [oh opos] in *.
  replace (imap (fun c => div_exp2_floor_remainder c (T - h)) p) with (imap (fun c => c mod 2 ^ (T - h)) p)
    by (unfold imap; rewrite !div_exp2_floor_remainder_spec by lia; reflexivity).
  rewrite anc_loop_mod by lia. reflexivity.
Qed.
Lemma anc_of_node k : forall ph mo (n x : node A), nd_get_loop k ph mo n = Some x -> fst (nd_anc_loop k ph mo n) = x.
Proof.
  induction k as [|k IH]; intros ph mo n x; cbn [nd_get_loop nd_anc_loop].
  - intros H. injection H as ->. reflexivity.
  - destruct (getChild n _) as [q|]; [|discriminate]. apply IH.
Qed.
End NDTREE.
