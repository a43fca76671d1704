(** Queries and updates of ClassifiedMap (M_Classified.v). *)
From Verif Require Import Base M_IntMath F_IntMath M_Morton F_Morton M_NdtreeIndex F_NdtreeIndex M_Num F_Num M_Haar3 F_Haar3
  M_Ndtree S_Field F_Hash M_Wavelet F_Wavelet F_Wavelet2 F_Leaves F_WavTree F_WavMap F_WavHash M_Octree F_Octree M_Accel F_Accel
  M_Occupancy P_Occupancy M_Queue M_HashedBlocks M_Classified F_Classified.
From Coq Require Import QArith Qcanon Lqa.
Close Scope Qc_scope.
Close Scope Q_scope.
Open Scope Z_scope.

(** ** Ancestors *)
Definition anc (i : oidx) (h : Z) : oidx := OI h (imap (fun c => c / 2 ^ (h - oh i)) (opos i)).
Lemma anc_self i : anc i (oh i) = i.
Proof. destruct i as [h [x y z]]. unfold anc, imap. cbn [oh opos px py pz]. rewrite Z.sub_diag, !Z.div_1_r. reflexivity. Qed.
Lemma anc_top T i : anc i T = OI T (block_at T i).
Proof. reflexivity. Qed.
Lemma ochild_bits idx (p : idx3) j : ochild idx (cidx p j) = OI (oh idx - 1)
  (I3 (px (opos idx) * 2 + Z.b2z (Z.testbit (px p) j)) (py (opos idx) * 2 + Z.b2z (Z.testbit (py p) j)) (pz (opos idx) * 2 + Z.b2z (Z.testbit (pz p) j))).
Proof.
  unfold ochild, cidx. destruct (Z.testbit (px p) j), (Z.testbit (py p) j), (Z.testbit (pz p) j); reflexivity.
Qed.
Lemma div_bit x j : 0 <= j -> x / 2 ^ (j + 1) * 2 + Z.b2z (Z.testbit x j) = x / 2 ^ j.
Proof.
  intros H. rewrite Z.testbit_spec' by assumption. rewrite Z.pow_add_r by lia. rewrite <- Z.div_div by (try apply Z.pow_nonzero; lia).
  change (2 ^ 1) with 2. pose proof (Z.div_mod (x / 2 ^ j) 2). lia.
Qed.
Lemma anc_child i h : 0 <= oh i < h -> h <= 21 -> ochild (anc i h) (rel (omorton i) h) = anc i (h - 1).
Proof.
  intros H Hh. destruct i as [ih p]. cbn [oh] in H. rewrite rel_morton_cidx by lia. rewrite ochild_bits. unfold anc, imap. cbn [oh opos px py pz].
  replace (h - ih) with (h - 1 - ih + 1) by lia. rewrite !div_bit by lia. reflexivity.
Qed.
Lemma anc_covers i h x : 0 <= oh i <= h -> covers3 i x -> covers3 (anc i h) x.
Proof.
  intros H Hx. unfold covers3 in *. destruct i as [ih p]. cbn [oh opos anc] in *. rewrite <- Hx. destruct x as [a b e]. unfold imap. cbn [px py pz].
  rewrite !Z.div_div by (try apply Z.pow_nonzero; try apply Z.pow_pos_nonneg; lia). rewrite <- Z.pow_add_r by lia.
  replace (ih + (h - ih)) with h by lia. reflexivity.
Qed.
Lemma rel_range i h : 0 <= oh i < h -> h <= 21 -> 0 <= rel (omorton i) h < 8.
Proof. intros H Hh. destruct i as [ih p]. cbn [oh] in H. rewrite rel_morton_cidx by lia. apply cidx_range. Qed.
Lemma anc_same T i j L : T <= 21 -> 0 <= oh i <= L -> 0 <= oh j <= L -> block_at T i = block_at T j ->
  Z.shiftr (omorton i) (L * 3) = Z.shiftr (omorton j) (L * 3) -> forall h, L <= h <= T -> anc i h = anc j h.
Proof.
  intros HT Hi Hj Hb Hm h Hh. replace h with (T - Z.of_nat (Z.to_nat (T - h))) by lia.
  assert (Hk : Z.of_nat (Z.to_nat (T - h)) <= T - L) by lia. generalize dependent (Z.to_nat (T - h)). intros k. clear h Hh.
  induction k as [|k IH]; intros Hk.
  - replace (T - Z.of_nat 0) with T by lia. rewrite !anc_top, Hb. reflexivity.
  - replace (T - Z.of_nat (S k)) with (T - Z.of_nat k - 1) by lia. rewrite <- !anc_child by lia. rewrite IH by lia.
    rewrite (rel_shift (omorton i) (omorton j) L) by (lia || assumption). reflexivity.
Qed.

(** ** The query cache. [P idx n]: what is known about a node [n] found at index [idx]. *)
Section CACHE.
Context {V : Type} (C : wconfig (V := V)).
Notation T := (cT C).
Context (HT : 1 <= T < 20).
Notation bmap := (shash cnode).
Context (P : oidx -> cnode -> Prop) (cm : bmap).
Definition chain_ok (i : oidx) (nodes : Z -> option cnode) (lo : Z) : Prop :=
  forall h, lo <= h <= T -> exists p, nodes h = Some p /\ P (anc i h) p.
Definition qinv (q : qcache) : Prop :=
  0 <= qc_height q <= T /\ 0 <= qc_morton q < 2 ^ 64 /\
  if qc_found q
  then exists r, getBlock cm (qc_block q) = Some r /\ qc_nodes q T = Some r /\
       (qc_height q < T -> exists j, 0 <= oh j <= qc_height q /\ block_at T j = qc_block q /\ qc_morton q = omorton j /\
          chain_ok j (qc_nodes q) (qc_height q))
  else qc_block q = no_block \/ getBlock cm (qc_block q) = None.
Definition roots_ok : Prop := forall b r, getBlock cm b = Some r -> P (OI T b) r.
Context (HR : roots_ok).
Lemma qinv_new : qinv (qc_new C).
Proof. split; [cbn; lia|]. split; [cbn; lia|]. cbn. auto. Qed.
Definition good_index (i : oidx) : Prop := 0 <= oh i <= T /\ block_at T i <> no_block.
Lemma enter_spec q i : qinv q -> good_index i ->
  match getBlock cm (block_at T i) with
  | None => exists q', qc_enter C cm q i = Some (q', false) /\ qinv q'
  | Some r => exists q', qc_enter C cm q i = Some (q', true) /\ qc_found q' = true /\ qc_morton q' = omorton i /\ qc_block q' = block_at T i /\
      qc_nodes q' T = Some r /\ oh i <= qc_height q' <= T /\ chain_ok i (qc_nodes q') (qc_height q')
  end.
Proof.
  intros (Hh & Hm & Hcase) [Hi Hne]. unfold qc_enter, qc_getBlock. rewrite bh_block_at by assumption. cbn [qc_block qc_height qc_found qc_nodes qc_morton].
  replace (kMaxTreeHeight3 <=? T) with false by (unfold kMaxTreeHeight3; cbn; lia).
  assert (TOP : forall nodes r, getBlock cm (block_at T i) = Some r -> nodes T = Some r -> chain_ok i nodes T).
  { intros nodes r Hb Hn h Hh'. assert (h = T) by lia. subst h. exists r. split; [assumption|]. rewrite anc_top. apply HR. assumption. }
  destruct (ieqb_spec (block_at T i) (qc_block q)) as [Eb|Eb].
  - cbn [qc_found qc_height qc_block qc_nodes]. rewrite Eb. destruct (qc_found q) eqn:Ef.
    + destruct Hcase as (r & Hb & Hn & Hc). rewrite Hb. destruct (Z.eqb_spec (qc_height q) T) as [Et|Et].
      * eexists. split; [reflexivity|]. cbn [qc_morton qc_block qc_nodes qc_height qc_found]. split; [reflexivity|]. split; [reflexivity|]. split; [reflexivity|]. split; [assumption|].
        split; [lia|]. apply (TOP _ r); [rewrite Eb|]; assumption.
      * destruct Hc as (j & Hj & Ej & Em & Hc); [lia|].
        destruct (lca_spec 3 (omorton i) (oh i) (qc_morton q) (qc_height q) ltac:(lia) (omorton_range i) Hm ltac:(lia) ltac:(lia))
          as (L1 & L2 & L3 & L4).
        set (L := computeLastCommonAncestorHeight 3 (omorton i) (oh i) (qc_morton q) (qc_height q)) in *.
        assert (L5 : L <= T).
        { apply L4; [lia|lia|]. rewrite Em. apply block_code; [assumption|lia|congruence]. }
        eexists. split; [reflexivity|]. cbn [qc_morton qc_block qc_nodes qc_height qc_found]. split; [reflexivity|]. split; [reflexivity|]. split; [reflexivity|]. split; [assumption|].
        split; [lia|]. intros h Hh'. rewrite (anc_same T i j L); try lia; try congruence. apply Hc. lia.
    + destruct Hcase as [Hx|Hx]; [congruence|]. rewrite Hx. eexists. split; [reflexivity|]. split; [cbn; lia|]. split; [apply omorton_range|].
      cbn [qc_found]. right. assumption.
  - destruct (getBlock cm (block_at T i)) as [r|] eqn:Er; cbn [qc_found qc_height qc_block qc_nodes].
    + rewrite Z.eqb_refl. eexists. split; [reflexivity|]. cbn [qc_morton qc_block qc_nodes qc_height qc_found]. split; [reflexivity|]. split; [reflexivity|]. split; [reflexivity|].
      split; [apply aset_same|]. split; [lia|]. apply (TOP _ r eq_refl). apply aset_same.
    + eexists. split; [reflexivity|]. split; [cbn; lia|]. split; [apply omorton_range|]. cbn [qc_found]. right. assumption.
Qed.
Lemma qinv_intro i r nodes h : good_index i -> getBlock cm (block_at T i) = Some r -> nodes T = Some r -> oh i <= h <= T -> chain_ok i nodes h ->
  qinv (QC (block_at T i) h (omorton i) true nodes).
Proof.
  intros [Hi _] Hb Hn Hh Hc. split; [cbn; lia|]. split; [apply omorton_range|]. cbn [qc_found qc_block qc_nodes qc_height qc_morton]. exists r.
  split; [assumption|]. split; [assumption|]. intros _. exists i. split; [lia|]. auto.
Qed.
(** pushing a child *)
Lemma chain_push i nodes h ch : 0 <= oh i < h -> h <= T -> chain_ok i nodes h -> P (anc i (h - 1)) ch ->
  chain_ok i (aset nodes (h - 1) (Some ch)) (h - 1).
Proof.
  intros Hi Hh Hc Hp j Hj. destruct (Z.eq_dec j (h - 1)) as [->|Hne].
  - exists ch. split; [apply aset_same|assumption].
  - rewrite aset_other by assumption. apply Hc. lia.
Qed.

Definition closed_all : Prop := forall idx p c ch, P idx p -> 1 <= oh idx -> 0 <= c < 8 -> getChild p c = Some ch -> P (ochild idx c) ch.
Lemma walk_ok (HC : closed_all) i k : forall nodes h, h - oh i = Z.of_nat k -> 0 <= oh i -> h <= T -> chain_ok i nodes h ->
  exists nodes' h' p, qc_walk k nodes (omorton i) h = Some (nodes', h', p) /\ oh i <= h' <= h /\ chain_ok i nodes' h' /\
  (forall j, h <= j -> nodes' j = nodes j) /\ nodes' h' = Some p /\ (oh i < h' -> getChild p (rel (omorton i) h') = None).
Proof.
  induction k as [|k IH]; intros nodes h Hk H0 Hh Hc; cbn [qc_walk]; destruct (Hc h ltac:(lia)) as (p & Hp & HP); rewrite Hp.
  - exists nodes, h, p. split; [reflexivity|]. split; [lia|]. split; [assumption|]. split; [reflexivity|]. split; [assumption|lia].
  - destruct (getChild p (rel (omorton i) h)) as [ch|] eqn:E.
    + destruct (IH (aset nodes (h - 1) (Some ch)) (h - 1)) as (n' & h' & p' & I1 & I2 & I3 & I4 & I5 & I6); try lia.
      * apply chain_push; try lia; [assumption|]. rewrite <- anc_child by lia. apply (HC _ p); [assumption|cbn; lia|apply rel_range; lia|assumption].
      * exists n', h', p'. split; [exact I1|]. split; [lia|]. split; [exact I3|]. split; [|auto].
        intros j Hj. rewrite I4 by lia. apply aset_other. lia.
    + exists nodes, h, p. split; [reflexivity|]. split; [lia|]. split; [assumption|]. split; [reflexivity|]. auto.
Qed.
Lemma node_spec (HC : closed_all) q i : qinv q -> good_index i ->
  exists q' n h, qc_node C cm q i = Some (q', (n, h)) /\ qinv q' /\
  match getBlock cm (block_at T i) with
  | None => n = None /\ h = T
  | Some _ => oh i <= h <= T /\ exists p, n = Some p /\ P (anc i h) p /\ (oh i < h -> getChild p (rel (omorton i) h) = None)
  end.
Proof.
  intros Hq Hi. pose proof (enter_spec q i Hq Hi) as HE. unfold qc_node. destruct (getBlock cm (block_at T i)) as [r|] eqn:Er.
  - destruct HE as (q' & -> & E0 & E1 & E2 & E3 & E4 & E5). destruct Hi as [Hi Hne]. rewrite E1.
    destruct (walk_ok HC i (Z.to_nat (qc_height q' - oh i)) (qc_nodes q') (qc_height q')) as (n' & h' & p & -> & W1 & W2 & W3 & W4 & W5); try lia; [assumption|].
    eexists _, _, _. split; [reflexivity|]. split.
    + rewrite E2. apply (qinv_intro i r); try assumption; try (split; assumption); try lia. rewrite W3 by lia. assumption.
    + split; [lia|]. exists p. split; [reflexivity|]. split; [|assumption]. destruct (W2 h' ltac:(lia)) as (p' & X1 & X2). congruence.
  - destruct HE as (q' & -> & Hq'). eexists _, _, _. split; [reflexivity|]. auto.
Qed.

(** has and isFully *)
Definition closed_mixed : Prop := forall mask idx p c ch, P idx p -> 1 <= oh idx -> 0 <= c < 8 -> getChild p c = Some ch ->
  oc_isFully (cd_child (ndata p) c) mask = false -> oc_has (cd_child (ndata p) c) mask = true -> P (ochild idx c) ch.
Context (f : idx3 -> oclass) (strict : bool).
Definition P_summ : Prop := forall idx p, P idx p -> summ f strict (Z.to_nat (oh idx)) idx p.
Definition right_answer (full : bool) (i : oidx) (mask : Z) (b : bool) : Prop :=
  b = true <-> if full then forall x, covers3 i x -> in_mask mask (f x) else exists x, covers3 i x /\ in_mask mask (f x).
Lemma child_bits idx p c cl : P_summ -> P idx p -> 1 <= oh idx -> 0 <= c < 8 ->
  (in_mask (cd_child (ndata p) c) cl <-> exists x, covers3 (ochild idx c) x /\ f x = cl).
Proof.
  intros HS HP Hh Hc. apply HS in HP. destruct (Z.to_nat (oh idx)) as [|k] eqn:E; [lia|]. destruct HP as [_ HP].
  rewrite cd_child_mask. apply (HP c Hc).
Qed.
Lemma region_range d c : 0 <= cd_child d c < 8.
Proof. apply toMask3_range. Qed.
Lemma descend_ok (HC : closed_mixed) (full : bool) mask i k : forall nodes h, h - oh i = Z.of_nat k -> 0 <= oh i < h -> h <= T -> chain_ok i nodes h ->
  exists nodes' h' b, qc_descend k (negb full) mask (oh i) nodes (omorton i) h = Some (nodes', h', b) /\ oh i <= h' <= h /\ chain_ok i nodes' h' /\
  (forall j, h <= j -> nodes' j = nodes j) /\ (P_summ -> right_answer full i mask b).
Proof.
  induction k as [|k IH]; intros nodes h Hk H0 Hh Hc; [lia|].
  cbn [qc_descend]; destruct (Hc h ltac:(lia)) as (p & Hp & HP); rewrite Hp.
  assert (Hr : 0 <= rel (omorton i) h < 8) by (apply rel_range; lia).
  assert (BITS : P_summ -> forall cl, in_mask (cd_child (ndata p) (rel (omorton i) h)) cl <-> exists x, covers3 (anc i (h - 1)) x /\ f x = cl).
  { intros HS cl. rewrite <- anc_child by lia. apply child_bits; [assumption|assumption|cbn; lia|assumption]. }
  assert (COV : forall x, covers3 i x -> covers3 (anc i (h - 1)) x) by (intros x Hx; apply anc_covers; [lia|assumption]).
  destruct (covers3_nonempty i) as (x0 & Hx0); [lia|].
  assert (STOP : forall b, (P_summ -> right_answer full i mask b) -> exists nodes' h' b', Some (nodes, h, b) = Some (nodes', h', b') /\
    oh i <= h' <= h /\ chain_ok i nodes' h' /\ (forall j, h <= j -> nodes' j = nodes j) /\ (P_summ -> right_answer full i mask b')).
  { intros b Hb. exists nodes, h, b. split; [reflexivity|]. split; [lia|]. auto. }
  destruct (oc_isFully _ mask) eqn:EF.
  { apply STOP. intros HS. split; [intros _|reflexivity].
    assert (A : forall x, covers3 i x -> in_mask mask (f x)).
    { intros x Hx. apply (proj1 (C28_isFully _ _) EF). apply BITS; [assumption|]. exists x. auto. }
    destruct full; [exact A|]. exists x0. auto. }
  destruct (oc_has _ mask) eqn:EH; cbn [negb].
  2:{ apply STOP. intros HS. split; [discriminate|]. intros X. exfalso.
      assert (Y : exists x, covers3 i x /\ in_mask mask (f x)) by (destruct full; [exists x0; auto|exact X]).
      destruct Y as (x & Hx & Hxm). apply not_true_iff_false in EH. apply EH. apply C28_has; [left; apply region_range|].
      exists (f x). split; [|assumption]. apply BITS; [assumption|]. exists x. auto. }
  pose proof (proj1 (C28_has _ _ (or_introl (region_range _ _))) EH) as (cl1 & M1 & M2).
  assert (EF' : ~ forall c, in_mask (cd_child (ndata p) (rel (omorton i) h)) c -> in_mask mask c).
  { intros X. apply C28_isFully in X. congruence. }
  destruct (Z.eqb_spec (h - 1) (oh i)) as [E1|E1].
  - apply STOP. intros HS. specialize (BITS HS). rewrite E1 in BITS. rewrite anc_self in BITS.
    split; destruct full; cbn [negb]; intros X; try discriminate; try reflexivity.
    + apply BITS in M1. destruct M1 as (x & Hx & <-). exists x. auto.
    + exfalso. apply EF'. intros c Hc'. apply BITS in Hc'. destruct Hc' as (x & Hx & <-). apply X. assumption.
  - destruct (getChild p (rel (omorton i) h)) as [ch|] eqn:Ech.
    + destruct (IH (aset nodes (h - 1) (Some ch)) (h - 1)) as (n' & h' & b & I1 & I2 & I3 & I4 & I5); try lia.
      * apply chain_push; try lia; [assumption|]. rewrite <- anc_child by lia.
        apply (HC mask _ p); [assumption|cbn; lia|assumption|assumption|assumption|assumption].
      * exists n', h', b. split; [exact I1|]. split; [lia|]. split; [exact I3|]. split; [|exact I5].
        intros j Hj. rewrite I4 by lia. apply aset_other. lia.
    + apply STOP. intros HS. exfalso. pose proof (HS _ _ HP) as HN. cbn [anc oh] in HN.
      destruct (Z.to_nat h) as [|k'] eqn:Ek; [lia|]. destruct HN as [_ HN]. destruct (HN _ Hr) as [_ HN2]. rewrite Ech in HN2.
      destruct HN2 as (cl & Hcl). change (OI h _) with (anc i h) in Hcl. rewrite anc_child in Hcl by lia. apply EF'.
      specialize (BITS HS). intros c Hc'. apply BITS in Hc'. destruct Hc' as (x & Hx & <-). apply BITS in M1. destruct M1 as (y & Hy & <-).
      rewrite (Hcl x Hx). rewrite <- (Hcl y Hy). assumption.
Qed.
Lemma test_spec (HC : closed_mixed) full q i mask : qinv q -> good_index i ->
  exists q' b, qc_test C full cm q i mask = Some (q', b) /\ qinv q' /\
  (P_summ -> match getBlock cm (block_at T i) with None => b = false | Some _ => right_answer full i mask b end).
Proof.
  intros Hq Hi. pose proof (enter_spec q i Hq Hi) as HE. unfold qc_test. destruct (getBlock cm (block_at T i)) as [r|] eqn:Er.
  2:{ destruct HE as (q' & -> & Hq'). eexists _, _. split; [reflexivity|]. auto. }
  destruct HE as (q' & -> & E0 & E1 & E2 & E3 & E4 & E5). rewrite E1. destruct (Z.eqb_spec (qc_height q') (oh i)) as [Eh|Eh].
  - destruct (E5 (qc_height q') ltac:(lia)) as (p & Hp & HP). rewrite Hp. eexists _, _. split; [reflexivity|]. split.
    + split; [destruct Hi; lia|]. split; [rewrite E1; apply omorton_range|].
      rewrite E0. exists r. rewrite E2. split; [assumption|]. split; [assumption|]. intros Hlt. exists i. destruct Hi. split; [lia|]. auto.
    + intros HS. specialize (HS _ _ HP). rewrite Eh, anc_self in HS. destruct Hi as [Hi _].
      assert (MK : forall cl, in_mask (cd_mask (ndata p)) cl <-> exists x, covers3 i x /\ f x = cl).
      { intros cl. apply (summ_mask f strict (Z.to_nat (oh i))); [lia|assumption]. }
      unfold right_answer. destruct full.
      * rewrite C28_isFully. split; intros X.
        -- intros x Hx. apply X, MK. exists x. auto.
        -- intros cl Hcl. apply MK in Hcl. destruct Hcl as (x & Hx & <-). apply X. assumption.
      * rewrite C28_has by (left; apply toMask3_range). split.
        -- intros (cl & Hcl & Hm). apply MK in Hcl. destruct Hcl as (x & Hx & <-). exists x. auto.
        -- intros (x & Hx & Hm). exists (f x). split; [apply MK; exists x; auto|assumption].
  - destruct Hi as [Hi Hne]. destruct (descend_ok HC full mask i (Z.to_nat (qc_height q' - oh i)) (qc_nodes q') (qc_height q'))
      as (n' & h' & b & -> & W1 & W2 & W3 & W4); try lia; [assumption|].
    eexists _, _. split; [reflexivity|]. split; [|assumption].
    rewrite E2. apply (qinv_intro i r); try assumption; try (split; assumption); try lia. rewrite W3 by lia. assumption.
Qed.
End CACHE.
