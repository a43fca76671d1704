(** * C29, C30: ClassifiedMap (M_Classified.v) *)
From Verif Require Import Base M_IntMath F_IntMath M_Morton F_Morton M_NdtreeIndex F_NdtreeIndex M_Num F_Num M_Haar3 F_Haar3
  M_Ndtree S_Field F_Hash M_Wavelet F_Wavelet F_Wavelet2 F_Leaves F_WavTree F_WavMap F_WavHash M_WavHist F_WavHist P_Wavelet M_Octree F_Octree M_Accel F_Accel
  P_Accel M_Occupancy P_Occupancy M_Queue M_HashedBlocks M_Classified F_Classified F_Classified2 F_Classified3 F_Classified4.
From Coq Require Import QArith Qcanon Lqa Permutation.
Close Scope Qc_scope.
Close Scope Q_scope.
Open Scope Z_scope.

(** ** Specification *)
Notation call := (cmcall (V := Qc)).
(** The class of a smallest cell of an occupancy map: the class of its value (class_of: P_Occupancy.v). *)
Definition occ_class (C : wconfig) (thr : Q) (m : shash (wblock (V := Qc))) (x : idx3) (cl : oclass) : Prop :=
  class_of thr (this (hw_get qn C m x)) cl.
(** With a distance field, free cells closer to an obstacle than the robot radius count as occupied. *)
Definition inflated_class (C : wconfig) (thr : Q) (m : shash (wblock (V := Qc))) (E : hbconfig Qc) (e : hbmap (V := Qc)) (radius : Qc) (x : idx3) (cl : oclass) : Prop :=
  match cl with
  | CFree => occ_class C thr m x CFree /\ ~ (hb_get E e x < radius)%Qc
  | COccupied => occ_class C thr m x COccupied \/ (occ_class C thr m x CFree /\ (hb_get E e x < radius)%Qc)
  | CUnobserved => occ_class C thr m x CUnobserved
  end.
(** [u] updates the classified map from [m], after which cell [x] has class [cl] iff [K x cl]. *)
Inductive update_call (C : wconfig) (thr : Q) : call -> shash wblock -> (idx3 -> oclass -> Prop) -> Prop :=
| Upd m : hashed_reachable C m -> update_call C thr (KUpdate m) m (occ_class C thr m)
| UpdEsdf m E e radius : hashed_reachable C m -> (radius <= hdef E)%Qc -> (radius <= hhi E)%Qc ->
    update_call C thr (KUpdateEsdf m E e radius) m (inflated_class C thr m E e radius).
(** has, isFully and hasBlock *)
Inductive test_call (T : Z) : call -> Prop :=
| QHas i mask : node_query T i -> test_call T (KHas i mask)
| QFully i mask : node_query T i -> test_call T (KFully i mask)
| QBlock b : node_query T (OI T b) -> test_call T (KBlock b).
(** getNode, getValue *)
Inductive value_call (T : Z) : call -> Prop :=
| QNode i : node_query T i -> value_call T (KNode i)
| QValue i : node_query T i -> oh i < T -> value_call T (KValue i).
Definition query_call (T : Z) (c : call) : Prop := test_call T c \/ value_call T c.
Definition good_call (C : wconfig) (thr : Q) (c : call) : Prop := (exists m K, update_call C thr c m K) \/ query_call (cT C) c.
(** The block containing a node *)
Definition block_containing (T : Z) (i : oidx) : idx3 := imap (fun c => c / 2 ^ (T - oh i)) (opos i).
(** The node of height [h] containing a node *)
Definition node_above (i : oidx) (h : Z) : oidx := OI h (imap (fun c => c / 2 ^ (h - oh i)) (opos i)).
(** [mask] lists the classes occurring in node [i]. *)
Definition lists_classes (K : idx3 -> oclass -> Prop) (mask : Z) (i : oidx) : Prop :=
  forall cl, in_mask mask cl <-> exists x, in_node i x = true /\ K x cl.
(** The answers expected for cell classes [K] and allocated blocks [m] *)
Definition answer_ok (T : Z) (m : shash (wblock (V := Qc))) (K : idx3 -> oclass -> Prop) (c : call) (a : cmanswer) : Prop :=
  let allocated i := hasBlock m (block_containing T i) in
  match c, a with
  | KHas i mask, ABool b =>
      if allocated i then b = true <-> exists x cl, in_node i x = true /\ K x cl /\ in_mask mask cl else b = false
  | KFully i mask, ABool b =>
      if allocated i then b = true <-> forall x cl, in_node i x = true -> K x cl -> in_mask mask cl else b = false
  | KBlock b, ABool r => r = hasBlock m b
  | KValue i, AValue v _ => if allocated i then exists mask, v = Some mask /\ lists_classes K mask i else v = None
  | KNode i, ANode n h =>
      if allocated i then oh i <= h <= T /\
        (exists p, n = Some p /\ forall c, 0 <= c < 8 -> lists_classes K (cd_child (ndata p) c) (ochild (node_above i h) c)) /\
        (oh i < h -> exists cl, forall x, in_node i x = true -> K x cl)
      else n = None
  | _, _ => False
  end.

(** ** Proofs *)
Lemma good_of (C : wconfig (V := Qc)) i : 1 <= cT C -> node_query (cT C) i -> good_index C i.
Proof. intros HT H. split; [apply H|]. pose proof (node_queries (cT C) [i] HT (Forall_cons _ H (Forall_nil _))) as X. inversion X; subst. tauto. Qed.
Lemma value_of (C : wconfig (V := Qc)) i : 1 <= cT C -> node_query (cT C) i -> oh i < cT C -> value_index C i.
Proof. intros HT H Hl. destruct (good_of C i HT H) as [H1 H2]. split; [lia|assumption]. Qed.
Lemma block_self T b : block_at T (OI T b) = b.
Proof. unfold block_at, imap. cbn [oh opos]. rewrite Z.sub_diag, !Z.div_1_r. destruct b; reflexivity. Qed.
Lemma block_of_query (C : wconfig (V := Qc)) b : 1 <= cT C -> node_query (cT C) (OI (cT C) b) -> b <> no_block.
Proof. intros HT H. destruct (good_of C _ HT H) as [_ H2]. rewrite block_self in H2. assumption. Qed.

(** nodes found by walking down from the block roots *)
Section REACH.
Context {V : Type} (C : wconfig (V := V)) (cm : shash cnode).
Notation T := (cT C).
Inductive reach : oidx -> cnode -> Prop :=
| reach_root b r : getBlock cm b = Some r -> reach (OI T b) r
| reach_child idx p c ch : reach idx p -> 1 <= oh idx -> 0 <= c < 8 -> getChild p c = Some ch -> reach (ochild idx c) ch.
Lemma reach_roots : roots_ok C reach cm.
Proof. intros b r H. constructor. assumption. Qed.
Lemma reach_closed : closed_all reach.
Proof. intros idx p c ch H1 H2 H3 H4. econstructor; eassumption. Qed.
Lemma reach_height i p : reach i p -> oh i <= T.
Proof. induction 1; cbn; lia. Qed.
Lemma ochild_inj i j c d : 0 <= c < 8 -> 0 <= d < 8 -> ochild i c = ochild j d -> i = j /\ c = d.
Proof.
  intros Hc Hd E. destruct i as [hi [xi yi zi]], j as [hj [xj yj zj]].
  pose proof (f_equal oh E) as E1. pose proof (f_equal (fun o => px (opos o)) E) as E2. pose proof (f_equal (fun o => py (opos o)) E) as E3.
  pose proof (f_equal (fun o => pz (opos o)) E) as E4. unfold ochild in *. cbn [oh opos px py pz] in *.
  clear E. repeat match goal with H : context [Z.testbit ?a ?b] |- _ => idtac end.
  assert (c = 0 \/ c = 1 \/ c = 2 \/ c = 3 \/ c = 4 \/ c = 5 \/ c = 6 \/ c = 7) as Hc' by lia.
  assert (d = 0 \/ d = 1 \/ d = 2 \/ d = 3 \/ d = 4 \/ d = 5 \/ d = 6 \/ d = 7) as Hd' by lia.
  clear Hc Hd. destruct Hc' as [->|[->|[->|[->|[->|[->|[->| ->]]]]]]], Hd' as [->|[->|[->|[->|[->|[->|[->| ->]]]]]]];
    cbn in *; first [exfalso; lia|split; [repeat f_equal; lia|reflexivity]].
Qed.
Lemma reach_inv i p : reach i p -> (exists b, i = OI T b /\ getBlock cm b = Some p) \/
  (exists j q c, i = ochild j c /\ reach j q /\ 1 <= oh j /\ 0 <= c < 8 /\ getChild q c = Some p).
Proof. intros [b r H|j q c ch H1 H2 H3 H4]; [left; eauto|right; exists j, q, c; auto]. Qed.
Lemma reach_unique i p : reach i p -> forall p', reach i p' -> p = p'.
Proof.
  induction 1 as [b r H|idx p c ch H IH H1 H2 H3]; intros p' Hp'; apply reach_inv in Hp'; destruct Hp' as [(b' & E & H')|(j & q & d & E & Hj & H4 & H5 & H6)].
  - injection E as E. congruence.
  - pose proof (f_equal oh E) as X. cbn in X. apply reach_height in Hj. lia.
  - pose proof (f_equal oh E) as X. cbn in X. apply reach_height in H. lia.
  - apply ochild_inj in E; [|assumption|assumption]. destruct E as [-> ->]. rewrite (IH _ Hj) in H3. congruence.
Qed.
Context (HT : 1 <= T < 20).
Lemma reach_up i h p : 0 <= oh i <= h -> h < T -> reach (anc i h) p ->
  exists p', reach (anc i (h + 1)) p' /\ getChild p' (rel (omorton i) (h + 1)) = Some p.
Proof.
  intros H Hh HP. apply reach_inv in HP. destruct HP as [(b & E & _)|(j & q & c & E & Hj & H1 & H2 & H3)].
  - pose proof (f_equal oh E) as X. cbn in X. lia.
  - rewrite <- (Z.add_simpl_r h 1), <- anc_child in E by lia. apply ochild_inj in E; [|apply rel_range; lia|assumption].
    destruct E as [<- <-]. exists q. auto.
Qed.
(** all ancestors of a reached node are reached *)
Lemma reach_above i p k : forall h, 0 <= oh i <= h -> h + Z.of_nat k <= T -> reach (anc i h) p -> exists p', reach (anc i (h + Z.of_nat k)) p'.
Proof.
  revert p. induction k as [|k IH]; intros p h H Hh HP; [exists p; rewrite Z.add_0_r; assumption|].
  destruct (reach_up i h p H ltac:(lia) HP) as (p' & HP' & _). replace (h + Z.of_nat (Datatypes.S k)) with (h + 1 + Z.of_nat k) by lia.
  apply (IH p'); [lia|lia|assumption].
Qed.
Definition stops (i : oidx) (h : Z) (p : cnode) : Prop :=
  oh i <= h <= T /\ reach (anc i h) p /\ (oh i < h -> getChild p (rel (omorton i) h) = None).
Lemma stops_le i h1 p1 h2 p2 : 0 <= oh i -> stops i h1 p1 -> stops i h2 p2 -> h2 <= h1.
Proof.
  intros H0 (A1 & A2 & _) (B1 & B2 & B3). destruct (Z_le_gt_dec h2 h1) as [L|G]; [assumption|exfalso].
  destruct (reach_above i p1 (Z.to_nat (h2 - 1 - h1)) h1 ltac:(lia) ltac:(lia) A2) as (p & Hp).
  replace (h1 + Z.of_nat (Z.to_nat (h2 - 1 - h1))) with (h2 - 1) in Hp by lia.
  destruct (reach_up i (h2 - 1) p ltac:(lia) ltac:(lia) Hp) as (p' & Hp' & Hc). replace (h2 - 1 + 1) with h2 in * by lia.
  rewrite (reach_unique _ _ Hp' _ B2) in Hc. rewrite B3 in Hc by lia. discriminate.
Qed.
Lemma stops_unique i h1 p1 h2 p2 : 0 <= oh i -> stops i h1 p1 -> stops i h2 p2 -> h1 = h2 /\ p1 = p2.
Proof.
  intros H0 S1 S2. pose proof (stops_le _ _ _ _ _ H0 S1 S2). pose proof (stops_le _ _ _ _ _ H0 S2 S1). assert (h1 = h2) by lia. subst h2.
  split; [reflexivity|]. apply (reach_unique (anc i h1)); [apply S1|apply S2].
Qed.
End REACH.

(** answers of tests are determined by the specification *)
Lemma test_unique T (m : shash (wblock (V := Qc))) K c a a' : test_call T c -> answer_ok T m K c a -> answer_ok T m K c a' -> a = a'.
Proof.
  intros [i mask Hi|i mask Hi|b Hb]; destruct a as [|b1| |], a' as [|b2| |]; cbn [answer_ok]; cbv zeta; try contradiction.
  - destruct (hasBlock m _); [|congruence]. intros H1 H2. f_equal. destruct b1, b2; intuition congruence.
  - destruct (hasBlock m _); [|congruence]. intros H1 H2. f_equal. destruct b1, b2; intuition congruence.
  - congruence.
Qed.

Section QUERIES.
Context (thr : Q) (C : wconfig (V := Qc)) (HT : 1 <= cT C < 20) (cm : shash cnode).
Notation T := (cT C).
Notation qcall q c := (cm_call qn (qis thr) C (CM cm q) c).
Context (P : oidx -> cnode -> Prop) (HR : roots_ok C P cm).
(** one query keeps the cache usable *)
Lemma test_step (HC : closed_mixed P) q c : qinv C P cm q -> test_call T c ->
  exists q' a, qcall q c = Some (CM cm q', a) /\ qinv C P cm q'.
Proof.
  intros Hq [i mask Hi|i mask Hi|b Hb]; cbn [cm_call cm_map cm_cache].
  - destruct (test_spec C HT P cm HR (fun _ => CFree) false HC false q i mask Hq (good_of C i ltac:(lia) Hi)) as (q' & b & -> & Hq' & _). eauto.
  - destruct (test_spec C HT P cm HR (fun _ => CFree) false HC true q i mask Hq (good_of C i ltac:(lia) Hi)) as (q' & b & -> & Hq' & _). eauto.
  - eexists _, _. split; [reflexivity|]. apply (getBlock_ok C HT P cm HR q b Hq). apply (block_of_query C); [lia|assumption].
Qed.
Lemma value_step (HC : closed_all P) q c : qinv C P cm q -> value_call T c ->
  exists q' a, qcall q c = Some (CM cm q', a) /\ qinv C P cm q'.
Proof.
  intros Hq [i Hi|i Hi Hl]; cbn [cm_call cm_map cm_cache].
  - destruct (node_spec C HT P cm HR HC q i Hq (good_of C i ltac:(lia) Hi)) as (q' & n & h & -> & Hq' & _). eauto.
  - destruct (value_ok C HT P cm HR HC q i Hq (value_of C i ltac:(lia) Hi Hl)) as (q' & v & h & -> & Hq'). eauto.
Qed.
(** correct answers *)
Context (m : shash (wblock (V := Qc))) (K : idx3 -> oclass -> Prop) (f : idx3 -> oclass).
Context (HK : forall x cl, K x cl <-> f x = cl) (HB : forall b, hasBlock cm b = hasBlock m b).
Lemma alloc_block i : hasBlock m (block_containing T i) = match getBlock cm (block_at T i) with Some _ => true | None => false end.
Proof. rewrite <- HB. reflexivity. Qed.
Lemma cov i x : 0 <= oh i -> (in_node i x = true <-> covers3 i x).
Proof. apply in_node_covers3. Qed.
Lemma has_ok i mask b : 0 <= oh i -> right_answer f false i mask b -> (b = true <-> exists x cl, in_node i x = true /\ K x cl /\ in_mask mask cl).
Proof.
  intros Hi Hb. unfold right_answer in Hb. rewrite Hb. cbv iota. split.
  - intros (x & Hx & Hm). exists x, (f x). rewrite cov, HK by assumption. auto.
  - intros (x & cl & Hx & Hk & Hm). apply cov in Hx; [|assumption]. apply HK in Hk. subst cl. eauto.
Qed.
Lemma fully_ok i mask b : 0 <= oh i -> right_answer f true i mask b -> (b = true <-> forall x cl, in_node i x = true -> K x cl -> in_mask mask cl).
Proof.
  intros Hi Hb. unfold right_answer in Hb. rewrite Hb. cbv iota. split.
  - intros H x cl Hx Hk. apply cov in Hx; [|assumption]. apply HK in Hk. subst cl. auto.
  - intros H x Hx. apply (H x); [apply cov; assumption|apply HK; reflexivity].
Qed.
Lemma lists_ok mask i : 0 <= oh i -> (forall cl, in_mask mask cl <-> exists x, covers3 i x /\ f x = cl) -> lists_classes K mask i.
Proof.
  intros Hi H cl. rewrite H. split; intros (x & H1 & H2); exists x; rewrite cov, HK in * by assumption; auto.
Qed.
Lemma test_correct strict (HC : closed_mixed P) (HS : P_summ P f strict) q c : qinv C P cm q -> test_call T c ->
  exists q' a, qcall q c = Some (CM cm q', a) /\ qinv C P cm q' /\ answer_ok T m K c a.
Proof.
  intros Hq [i mask Hi|i mask Hi|b Hb]; cbn [cm_call cm_map cm_cache]; assert (HT1 : 1 <= T) by lia.
  - destruct (test_spec C HT P cm HR f strict HC false q i mask Hq (good_of C i HT1 Hi)) as (q' & b & -> & Hq' & H). specialize (H HS).
    eexists _, _. split; [reflexivity|]. split; [assumption|]. cbn [answer_ok]. cbv zeta. rewrite alloc_block.
    destruct (getBlock cm _); [|assumption]. apply has_ok; [apply Hi|assumption].
  - destruct (test_spec C HT P cm HR f strict HC true q i mask Hq (good_of C i HT1 Hi)) as (q' & b & -> & Hq' & H). specialize (H HS).
    eexists _, _. split; [reflexivity|]. split; [assumption|]. cbn [answer_ok]. cbv zeta. rewrite alloc_block.
    destruct (getBlock cm _); [|assumption]. apply fully_ok; [apply Hi|assumption].
  - destruct (getBlock_ok C HT P cm HR q b Hq (block_of_query C b HT1 Hb)) as [H1 H2].
    eexists _, _. split; [reflexivity|]. split; [assumption|]. cbn [answer_ok]. rewrite H2. apply HB.
Qed.
Lemma value_correct (HC : closed_all P) (HS : P_summ P f true) q c : qinv C P cm q -> value_call T c ->
  exists q' a, qcall q c = Some (CM cm q', a) /\ qinv C P cm q' /\ answer_ok T m K c a.
Proof.
  intros Hq [i Hi|i Hi Hl]; cbn [cm_call cm_map cm_cache]; assert (HT1 : 1 <= T) by lia; assert (Hi0 : 0 <= oh i <= T) by apply Hi.
  - destruct (node_spec C HT P cm HR HC q i Hq (good_of C i HT1 Hi)) as (q' & n & h & -> & Hq' & H).
    eexists _, _. split; [reflexivity|]. split; [assumption|]. cbn [answer_ok fst snd]. cbv zeta. rewrite alloc_block.
    destruct (getBlock cm _); [|apply H]. destruct H as (Hh & p & -> & HP & Hch). split; [assumption|].
    assert (HSp : summary f true (anc i h) p) by (apply HS; assumption). pose proof (summary_pos _ _ _ _ HSp) as Hh1. cbn [anc oh] in Hh1.
    split.
    + exists p. split; [reflexivity|]. intros d Hd. change (node_above i h) with (anc i h). apply lists_ok; [cbn; lia|].
      intros cl. apply (summary_bits f true (anc i h) p d cl); assumption.
    + intros L. specialize (Hch L). destruct (summary_no_child f true (anc i h) p (rel (omorton i) h) HSp) as (cl & Hcl);
        [apply rel_range; lia|assumption|]. exists cl. intros x Hx. apply HK. apply Hcl. rewrite anc_child by lia. apply anc_covers; [lia|].
      apply cov in Hx; [assumption|lia].
  - destruct (value_spec C HT P cm HR HC f q i HS Hq (value_of C i HT1 Hi Hl)) as (q' & v & h & -> & Hq' & H).
    eexists _, _. split; [reflexivity|]. split; [assumption|]. cbn [answer_ok fst snd]. cbv zeta. rewrite alloc_block.
    destruct (getBlock cm _); [|assumption]. destruct H as (mask & -> & _ & H). exists mask. split; [reflexivity|]. apply lists_ok; [lia|assumption].
Qed.
Lemma query_correct (HC : closed_all P) (HS : P_summ P f true) q c : qinv C P cm q -> query_call T c ->
  exists q' a, qcall q c = Some (CM cm q', a) /\ qinv C P cm q' /\ answer_ok T m K c a.
Proof.
  intros Hq [H|H]; [|apply value_correct; assumption]. apply (test_correct true); [|assumption|assumption|assumption].
  intros mask idx p c' ch H1 H2 H3 H4 _ _. apply (HC idx p); assumption.
Qed.
(** answers of the other queries are determined by the nodes of the map *)
Context (HPR : forall i p, P i p -> reach C cm i p).
Lemma node_stops (HC : closed_all P) q i : qinv C P cm q -> node_query T i ->
  exists q' n h, qc_node C cm q i = Some (q', (n, h)) /\
  match getBlock cm (block_at T i) with Some _ => exists p, n = Some p /\ stops C cm i h p | None => n = None /\ h = T end.
Proof.
  intros Hq Hi. destruct (node_spec C HT P cm HR HC q i Hq (good_of C i ltac:(lia) Hi)) as (q' & n & h & E & _ & H).
  exists q', n, h. split; [assumption|]. destruct (getBlock cm _); [|assumption]. destruct H as (Hh & p & -> & HP & Hc).
  exists p. split; [reflexivity|]. split; [assumption|]. split; [apply HPR; assumption|assumption].
Qed.
Lemma node_same (HC : closed_all P) q1 q2 i : qinv C P cm q1 -> qinv C P cm q2 -> node_query T i ->
  exists q1' q2' r, qc_node C cm q1 i = Some (q1', r) /\ qc_node C cm q2 i = Some (q2', r).
Proof.
  intros H1 H2 Hi. destruct (node_stops HC q1 i H1 Hi) as (q1' & n1 & h1 & E1 & A1). destruct (node_stops HC q2 i H2 Hi) as (q2' & n2 & h2 & E2 & A2).
  exists q1', q2', (n1, h1). split; [assumption|]. rewrite E2. f_equal. f_equal. f_equal.
  - destruct (getBlock cm _); [|destruct A1, A2; congruence]. destruct A1 as (p1 & -> & S1), A2 as (p2 & -> & S2).
    destruct (stops_unique C cm HT i _ _ _ _ (proj1 (proj1 Hi)) S1 S2) as [_ ->]. reflexivity.
  - destruct (getBlock cm _); [|destruct A1, A2; congruence]. destruct A1 as (p1 & -> & S1), A2 as (p2 & -> & S2).
    destruct (stops_unique C cm HT i _ _ _ _ (proj1 (proj1 Hi)) S1 S2) as [-> _]. reflexivity.
Qed.
Lemma parent_query i : node_query T i -> oh i < T -> node_query T (cm_parent i).
Proof.
  intros [H1 H2] Hl. split; [cbn; lia|]. unfold cm_parent. cbn [oh opos]. destruct i as [h [x y z]]. cbn [oh opos] in *.
  assert (X : forall c, - 2 ^ 31 <= c * 2 ^ h < 2 ^ 31 -> - 2 ^ 31 <= div_exp2_floor c 1 * 2 ^ (h + 1) < 2 ^ 31).
  { intros c Hc. rewrite div_exp2_floor_spec by lia. change (2 ^ 1) with 2. rewrite Z.pow_add_r by lia. change (2 ^ 1) with 2.
    pose proof (Z.div_mod c 2 ltac:(lia)) as D. pose proof (Z.mod_pos_bound c 2 ltac:(lia)) as M. pose proof (Z.pow_pos_nonneg 2 h ltac:(lia) ltac:(lia)).
    split; [|nia]. assert (E : 2 ^ 31 = 2 ^ (31 - (h + 1)) * (2 ^ h * 2)).
    { change 2 with (2 ^ 1) at 4. rewrite <- !Z.pow_add_r by lia. f_equal. lia. }
    assert (L : - 2 ^ (31 - (h + 1)) * 2 <= c).
    { apply (Z.mul_le_mono_pos_r _ _ (2 ^ h)); [lia|]. lia. }
    assert (L2 : - 2 ^ (31 - (h + 1)) <= c / 2) by (apply Z.div_le_lower_bound; lia). rewrite E. nia. }
  inversion H2 as [|? ? X1 H3]; subst. inversion H3 as [|? ? X2 H4]; subst. inversion H4 as [|? ? X3 _]; subst.
  cbn [imap ilist px py pz]. repeat (constructor; [apply X; assumption|]). constructor.
Qed.
Lemma value_same (HC : closed_all P) q1 q2 c : qinv C P cm q1 -> qinv C P cm q2 -> value_call T c ->
  exists q1' q2' a, qcall q1 c = Some (CM cm q1', a) /\ qcall q2 c = Some (CM cm q2', a).
Proof.
  intros H1 H2 [i Hi|i Hi Hl]; cbn [cm_call cm_map cm_cache].
  - destruct (node_same HC q1 q2 i H1 H2 Hi) as (q1' & q2' & r & -> & ->). eauto.
  - destruct (node_same HC q1 q2 (cm_parent i) H1 H2 (parent_query i Hi Hl)) as (q1' & q2' & [n h] & E1 & E2).
    unfold qc_value. rewrite E1, E2. destruct n; eauto.
Qed.
End QUERIES.

(** sequences of queries *)
Lemma run_queries thr (C : wconfig (V := Qc)) cm (I : qcache -> Prop) (G : call -> Prop) (R : call -> cmanswer -> Prop) :
  (forall q c, I q -> G c -> exists q' a, cm_call qn (qis thr) C (CM cm q) c = Some (CM cm q', a) /\ I q' /\ R c a) ->
  forall qs q, Forall G qs -> I q -> exists q' l, cm_run qn (qis thr) C (CM cm q) qs = Some (CM cm q', l) /\ I q' /\ Forall2 R qs l.
Proof.
  intros H. induction qs as [|c qs IH]; intros q HG Hq; cbn [cm_run]; [exists q, []; auto|].
  inversion HG; subst. destruct (H q c Hq) as (q' & a & -> & Hq' & Ha); [assumption|]. destruct (IH q') as (q'' & l & -> & Hq'' & Hl); [assumption|assumption|].
  exists q'', (a :: l). auto.
Qed.
Lemma run_app thr (C : wconfig (V := Qc)) l1 l2 s : cm_run qn (qis thr) C s (l1 ++ l2) =
  match cm_run qn (qis thr) C s l1 with
  | None => None
  | Some (s', a) => match cm_run qn (qis thr) C s' l2 with None => None | Some (s'', b) => Some (s'', a ++ b) end
  end.
Proof.
  revert s. induction l1 as [|c l1 IH]; intros s; cbn [app cm_run]; [destruct (cm_run qn (qis thr) C s l2) as [[]|]; reflexivity|].
  destruct (cm_call qn (qis thr) C s c) as [[s' a]|]; [|reflexivity]. rewrite IH. destruct (cm_run qn (qis thr) C s' l1) as [[s'' b]|]; [|reflexivity].
  destruct (cm_run qn (qis thr) C s'' l2) as [[]|]; reflexivity.
Qed.
Lemma qcle_esdf E (r : Qc) : (r <= hdef E)%Qc -> (r <= hhi E)%Qc -> esdf_ok qn E r = true.
Proof.
  intros H1 H2. unfold esdf_ok. change (nltb qn) with qltb. rewrite (proj2 (qltb_false (hdef E) r)), (proj2 (qltb_false (hhi E) r)) by assumption. reflexivity.
Qed.
Lemma update_spec C thr u m K : valid_config C -> cT C < 20 -> update_call C thr u m K -> exists f, (forall x cl, K x cl <-> f x = cl) /\
  forall s, hwf (cm_map s) -> exists cm', cm_call qn (qis thr) C s u = Some (CM cm' (qc_new C), ADone) /\ hwf cm' /\
  (forall b, hasBlock cm' b = hasBlock m b) /\ (forall strict, strict_ok strict (cm_map s) -> roots_ok C (summary f strict) cm').
Proof.
  intros HC HT HU. assert (HT' : 1 <= cT C <= 21) by (destruct HC; lia). destruct HU as [m Hm|m E e r Hm Hr1 Hr2].
  - exists (mcls C thr m). split; [intros x cl; apply cls_iff|]. intros s Hs. eexists. split; [reflexivity|].
    pose proof (hashed_ok C m HC Hm) as Hok. split; [|split].
    + apply (update_roots C thr HT' false m (cm_map s) Hok Hs). discriminate.
    + apply (update_roots C thr HT' false m (cm_map s) Hok Hs). discriminate.
    + intros strict Hst. apply (update_roots C thr HT' strict m (cm_map s) Hok Hs Hst).
  - exists (mcls_esdf C thr m (hb_getValue E e) r). split.
    + intros x cl. unfold mcls_esdf, esdf_cls, inflated_class, occ_class.
      pose proof (fun cl => cls_iff thr (hw_get qn C m x) cl) as I. pose proof (I CFree). pose proof (I COccupied). pose proof (I CUnobserved). clear I.
      assert (HH : esdf_hit (hb_getValue E e) r x = true <-> (hb_get E e x < r)%Qc).
      { unfold esdf_hit, hb_get. destruct (hb_getValue E e x) as [d|]; [apply qltb_iff|]. split; [discriminate|].
        intros X. exfalso. apply (Qclt_not_le _ _ X). assumption. }
      destruct (cls thr (hw_get qn C m x)), (esdf_hit (hb_getValue E e) r x), cl; intuition congruence.
    + intros s Hs. cbn [cm_call]. rewrite (qcle_esdf E r Hr1 Hr2). eexists. split; [reflexivity|].
      pose proof (hashed_ok C m HC Hm) as Hok. split; [|split].
      * apply (update_esdf_roots C thr HT' false (hb_getValue E e) r m (cm_map s) Hok Hs). discriminate.
      * apply (update_esdf_roots C thr HT' false (hb_getValue E e) r m (cm_map s) Hok Hs). discriminate.
      * intros strict Hst. apply (update_esdf_roots C thr HT' strict (hb_getValue E e) r m (cm_map s) Hok Hs Hst).
Qed.
Lemma closed_mixed_all P : closed_all P -> closed_mixed P.
Proof. intros HC mask idx p c ch H1 H2 H3 H4 _ _. apply (HC idx p); assumption. Qed.
(** histories never fail *)
Definition st_ok (C : wconfig (V := Qc)) (s : cmstate) : Prop := hwf (cm_map s) /\ qinv C (reach C (cm_map s)) (cm_map s) (cm_cache s).
Lemma new_ok C : 1 <= cT C < 20 -> st_ok C (cm_new C).
Proof. intros HT. split; [constructor|]. apply qinv_new. assumption. Qed.
Lemma history_ok C thr l : valid_config C -> cT C < 20 -> Forall (good_call C thr) l -> forall s, st_ok C s ->
  exists s' a, cm_run qn (qis thr) C s l = Some (s', a) /\ length a = length l /\ st_ok C s'.
Proof.
  intros HC HT. assert (HT' : 1 <= cT C < 20) by (destruct HC; lia).
  induction 1 as [|c l Hc Hl IH]; intros s Hs; cbn [cm_run]; [exists s, []; auto|].
  assert (STEP : exists s' a, cm_call qn (qis thr) C s c = Some (s', a) /\ st_ok C s').
  { destruct s as [cm q]. destruct Hs as [Hwf Hq]. cbn [cm_map cm_cache] in *. destruct Hc as [(m & K & HU)|Hc].
    - destruct (update_spec C thr c m K HC HT HU) as (f & _ & H). destruct (H (CM cm q) Hwf) as (cm' & -> & Hwf' & _).
      eexists _, _. split; [reflexivity|]. split; [assumption|]. apply qinv_new. assumption.
    - destruct Hc as [Hc|Hc].
      + destruct (test_step thr C HT' cm _ (reach_roots C cm) (closed_mixed_all _ (reach_closed C cm)) q c Hq Hc) as (q' & a & -> & Hq').
        eexists _, _. split; [reflexivity|]. split; assumption.
      + destruct (value_step thr C HT' cm _ (reach_roots C cm) (reach_closed C cm) q c Hq Hc) as (q' & a & -> & Hq').
        eexists _, _. split; [reflexivity|]. split; assumption. }
  destruct STEP as (s' & a & -> & Hs'). destruct (IH s' Hs') as (s'' & b & -> & Hb & Hs''). exists s'', (a :: b). cbn [length]. auto.
Qed.

(** a freshly built map *)
Lemma fresh_queries C thr u m K : valid_config C -> cT C < 20 -> update_call C thr u m K -> exists cm,
  cm_call qn (qis thr) C (cm_new C) u = Some (CM cm (qc_new C), ADone) /\ hwf cm /\
  exists f, (forall x cl, K x cl <-> f x = cl) /\ (forall b, hasBlock cm b = hasBlock m b) /\
  roots_ok C (fun i p => reach C cm i p /\ summary f true i p) cm /\ closed_all (fun i p => reach C cm i p /\ summary f true i p).
Proof.
  intros HC HT HU. destruct (update_spec C thr u m K HC HT HU) as (f & HK & H). destruct (H (cm_new C)) as (cm & E & Hwf & HB & HR); [constructor|].
  exists cm. split; [assumption|]. split; [assumption|]. exists f. split; [assumption|]. split; [assumption|]. split.
  - intros b r Hb. split; [constructor; assumption|]. apply HR; [intros _; reflexivity|assumption].
  - intros idx p c ch [H1 H2] H3 H4 H5. split; [apply (reach_closed C cm idx p); assumption|]. apply (summary_closed f idx p); assumption.
Qed.

(** ** C29 *)
(** A freshly built classified map gives the expected answers to every sequence of queries. *)
Theorem C29_answers : forall C thr u m K queries, valid_config C -> cT C < 20 -> update_call C thr u m K -> Forall (query_call (cT C)) queries ->
  exists s answers, cm_run qn (qis thr) C (cm_new C) (u :: queries) = Some (s, ADone :: answers) /\
    Forall2 (answer_ok (cT C) m K) queries answers.
Proof.
  intros C thr u m K qs HC HT HU Hqs. assert (HT' : 1 <= cT C < 20) by (destruct HC; lia).
  destruct (fresh_queries C thr u m K HC HT HU) as (cm & E & Hwf & f & HK & HB & HR & HA).
  destruct (run_queries thr C cm (qinv C _ cm) (query_call (cT C)) (answer_ok (cT C) m K)
    (query_correct thr C HT' cm _ HR m K f HK HB HA (fun i p H => summary_summ f true i p (proj2 H))) qs (qc_new C) Hqs) as (q' & l & Hrun & _ & Hl).
  { apply qinv_new. assumption. }
  exists (CM cm q'), l. split; [|assumption]. cbn [cm_run]. rewrite E, Hrun. reflexivity.
Qed.
(** The overloads taking a class name instead of a mask *)
Theorem C29_has_id : forall C thr u m K i id, valid_config C -> cT C < 20 -> update_call C thr u m K -> node_query (cT C) i ->
  hasBlock m (block_containing (cT C) i) = true ->
  exists s b, cm_run qn (qis thr) C (cm_new C) [u; KHas i (occ_toMask id)] = Some (s, [ADone; ABool b]) /\
    (b = true <-> exists x cl, in_node i x = true /\ K x cl /\ id_means id cl).
Proof.
  intros C thr u m K i id HC HT HU Hi Hb. destruct (C29_answers C thr u m K [KHas i (occ_toMask id)] HC HT HU) as (s & l & E & Hl).
  { constructor; [left; constructor; assumption|constructor]. }
  inversion Hl as [|? a ? ? Ha Hn]; subst. inversion Hn; subst. destruct a as [|b| |]; try contradiction. exists s, b. split; [assumption|].
  cbn [answer_ok] in Ha. cbv zeta in Ha. rewrite Hb in Ha. rewrite Ha. split; intros (x & cl & H1 & H2 & H3); exists x, cl; [apply C28_toMask in H3|rewrite C28_toMask]; auto.
Qed.
Theorem C29_isFully_id : forall C thr u m K i id, valid_config C -> cT C < 20 -> update_call C thr u m K -> node_query (cT C) i ->
  hasBlock m (block_containing (cT C) i) = true ->
  exists s b, cm_run qn (qis thr) C (cm_new C) [u; KFully i (occ_toMask id)] = Some (s, [ADone; ABool b]) /\
    (b = true <-> forall x cl, in_node i x = true -> K x cl -> id_means id cl).
Proof.
  intros C thr u m K i id HC HT HU Hi Hb. destruct (C29_answers C thr u m K [KFully i (occ_toMask id)] HC HT HU) as (s & l & E & Hl).
  { constructor; [left; constructor; assumption|constructor]. }
  inversion Hl as [|? a ? ? Ha Hn]; subst. inversion Hn; subst. destruct a as [|b| |]; try contradiction. exists s, b. split; [assumption|].
  cbn [answer_ok] in Ha. cbv zeta in Ha. rewrite Hb in Ha. rewrite Ha. split; intros H x cl H1 H2; apply C28_toMask; apply (H x cl); assumption.
Qed.
(** forEachLeaf of a freshly built map visits every cell of the allocated blocks exactly once; each leaf is given the
    classes occurring in it, and leaves above the termination height contain one class only. [fuel] bounds the loop. *)
Theorem C29_leaves : forall C thr u m K th, valid_config C -> cT C < 20 -> update_call C thr u m K ->
  exists s, cm_run qn (qis thr) C (cm_new C) [u] = Some (s, [ADone]) /\ exists fuel0, forall fuel, (fuel0 <= fuel)%nat ->
  exists leaves, cm_forEachLeaf C fuel th (cm_map s) = Some leaves /\
    Forall (fun io => lists_classes K (snd io) (fst io) /\ (th < oh (fst io) -> exists cl, forall x, in_node (fst io) x = true -> K x cl)) leaves /\
    (forall x, length (filter (fun io => in_node (fst io) x) leaves) =
       if hasBlock m (block_containing (cT C) (OI 0 x)) then 1%nat else 0%nat).
Proof.
  intros C thr u m K th HC HT HU. assert (HT' : 1 <= cT C < 20) by (destruct HC; lia).
  destruct (fresh_queries C thr u m K HC HT HU) as (cm & E & Hwf & f & HK & HB & HR & HA).
  exists (CM cm (qc_new C)). split; [cbn [cm_run]; rewrite E; reflexivity|]. cbn [cm_map].
  exists (list_sum (map (fun kb => nsize (snd kb)) cm)). intros fuel Hfuel.
  destruct (visit_map_total (act_leaf th) (act_leaf_push th) C cm (cf_child th) (cf_child_act th) fuel) as (l & Hl).
  { intros b r Hin. etransitivity; [|exact Hfuel]. clear - Hin. induction cm as [|kb cm IH]; [destruct Hin|]. cbn [map list_sum fold_right].
    destruct Hin as [->|Hin]; [cbn [snd]; lia|]. specialize (IH Hin). unfold list_sum in IH. lia. }
  exists l. split; [exact Hl|].
  assert (HSK : forall idx n c x, summary f true idx n -> 0 <= c < 8 -> act_leaf th idx n c = Skip -> covers3 (ochild idx c) x -> ~ True).
  { intros idx n c x _ _ Ha. unfold act_leaf in Ha. destruct (_ <? _); [destruct (getChild n c)|]; discriminate. }
  destruct (visit_map_spec f true (act_leaf th) (act_leaf_push th)
    (fun idx n c ch H1 H2 H3 H4 => summary_closed f idx n c ch H1 H2 H3 (act_leaf_push th idx n c ch H4))
    (leaf_leaf f th) (fun _ => True) (leaf_emit f th) HSK C cm ltac:(lia) Hwf (fun b r Hb => proj2 (HR b r Hb)) (cf_child th) (cf_child_act th) fuel l Hl)
    as (L1 & L2 & L3).
  split.
    + eapply Forall_impl; [|exact L1]. intros [i o] ([M0 M1] & M2). cbn [fst snd] in *. split; [apply (lists_ok K f HK); assumption|].
      intros Ht. destruct (M2 Ht) as (cl & Hcl). exists cl. intros x Hx. apply HK. apply Hcl. apply in_node_covers3; assumption.
    + intros x. change (block_containing (cT C) (OI 0 x)) with (imap (fun c => c / 2 ^ (cT C - 0)) x). rewrite Z.sub_0_r. rewrite <- HB.
      change (length (filter (fun io => in_node (fst io) x) l)) with (times l x).
      destruct (hasBlock cm _) eqn:Eb; [apply L3; [assumption|exact I]|apply L2; assumption].
Qed.

(** ** C30 *)
(** No history of updates and queries fails. *)
Theorem C30_never_fails : forall C thr calls, valid_config C -> cT C < 20 -> Forall (good_call C thr) calls ->
  exists s answers, cm_run qn (qis thr) C (cm_new C) calls = Some (s, answers) /\ length answers = length calls.
Proof.
  intros C thr l HC HT Hl. destruct (history_ok C thr l HC HT Hl (cm_new C)) as (s & a & H1 & H2 & _); [apply new_ok; destruct HC; lia|]. eauto.
Qed.
Lemma tests_equal (C : wconfig (V := Qc)) (m : shash (wblock (V := Qc))) K qs l l' : Forall (test_call (cT C)) qs ->
  Forall2 (answer_ok (cT C) m K) qs l -> Forall2 (answer_ok (cT C) m K) qs l' -> l = l'.
Proof.
  intros H. revert l l'. induction H as [|c qs Hc Hqs IH]; intros l l' H1 H2; inversion H1; subst; inversion H2; subst; [reflexivity|].
  f_equal; [apply (test_unique (cT C) m K c); assumption|apply IH; assumption].
Qed.
(** After any history of updates and queries, an update makes has, isFully and hasBlock answer as a freshly built map. *)
Theorem C30_history_partial : forall C thr history u m K tests, valid_config C -> cT C < 20 -> Forall (good_call C thr) history ->
  update_call C thr u m K -> Forall (test_call (cT C)) tests ->
  exists s earlier s' answers,
    cm_run qn (qis thr) C (cm_new C) (history ++ u :: tests) = Some (s, earlier ++ ADone :: answers) /\ length earlier = length history /\
    cm_run qn (qis thr) C (cm_new C) (u :: tests) = Some (s', ADone :: answers) /\
    Forall2 (answer_ok (cT C) m K) tests answers.
Proof.
  intros C thr l u m K qs HC HT Hl HU Hqs. assert (HT' : 1 <= cT C < 20) by (destruct HC; lia).
  destruct (history_ok C thr l HC HT Hl (cm_new C) (new_ok C HT')) as (s & a & H1 & H2 & [Hwf _]).
  destruct (update_spec C thr u m K HC HT HU) as (f & HK & H). destruct (H s Hwf) as (cm & E & Hwf' & HB & HR).
  specialize (HR false ltac:(discriminate)).
  destruct (run_queries thr C cm (qinv C _ cm) (test_call (cT C)) (answer_ok (cT C) m K)
    (test_correct thr C HT' cm _ HR m K f HK HB false (summary_mixed f false) (summary_summ f false)) qs (qc_new C) Hqs) as (q' & b & Hrun & _ & Hb).
  { apply qinv_new. assumption. }
  destruct (C29_answers C thr u m K qs HC HT HU) as (s' & b' & Hf & Hb').
  { eapply Forall_impl; [|exact Hqs]. intros c Hc. left. assumption. }
  exists (CM cm q'), a, s', b. split; [|split; [assumption|]].
  - rewrite run_app, H1. cbn [cm_run]. rewrite E, Hrun. reflexivity.
  - rewrite (tests_equal C m K qs b b' Hqs Hb Hb') at 1. auto.
Qed.
(** After any history and an update, forEachLeafMatching visits exactly once each cell of the allocated blocks whose class
    is in the mask; each leaf is given the classes occurring in it, contains a matching cell, and only matching cells if
    it is above the termination height. *)
Theorem C30_matching_leaves : forall C thr history u m K mask th, valid_config C -> cT C < 20 -> Forall (good_call C thr) history ->
  update_call C thr u m K ->
  exists s answers, cm_run qn (qis thr) C (cm_new C) (history ++ [u]) = Some (s, answers) /\ exists fuel0, forall fuel, (fuel0 <= fuel)%nat ->
  exists leaves, cm_forEachLeafMatching C fuel mask th (cm_map s) = Some leaves /\
    Forall (fun io => lists_classes K (snd io) (fst io) /\ (exists x cl, in_node (fst io) x = true /\ K x cl /\ in_mask mask cl) /\
      (th < oh (fst io) -> forall x cl, in_node (fst io) x = true -> K x cl -> in_mask mask cl)) leaves /\
    (forall x cl, K x cl -> in_mask mask cl -> length (filter (fun io => in_node (fst io) x) leaves) =
       if hasBlock m (block_containing (cT C) (OI 0 x)) then 1%nat else 0%nat) /\
    (forall x, (length (filter (fun io => in_node (fst io) x) leaves) <= 1)%nat).
Proof.
  intros C thr l u m K mask th HC HT Hl HU. assert (HT' : 1 <= cT C < 20) by (destruct HC; lia).
  destruct (history_ok C thr l HC HT Hl (cm_new C) (new_ok C HT')) as (s & a & H1 & H2 & [Hwf _]).
  destruct (update_spec C thr u m K HC HT HU) as (f & HK & H). destruct (H s Hwf) as (cm & E & Hwf' & HB & HR).
  specialize (HR false ltac:(discriminate)). exists (CM cm (qc_new C)), (a ++ [ADone]). split; [rewrite run_app, H1; cbn [cm_run]; rewrite E; reflexivity|].
  cbn [cm_map]. exists (list_sum (map (fun kb => nsize (snd kb)) cm)). intros fuel Hfuel.
  destruct (visit_map_total (act_match mask th) (act_match_push mask th) C cm (cfm_child mask th) (cfm_child_act mask th) fuel) as (v & Hv).
  { intros b r Hin. etransitivity; [|exact Hfuel]. clear - Hin. induction cm as [|kb cm IH]; [destruct Hin|]. cbn [map list_sum fold_right].
    destruct Hin as [->|Hin]; [cbn [snd]; lia|]. specialize (IH Hin). unfold list_sum in IH. lia. }
  exists v. split; [exact Hv|].
  destruct (visit_map_spec f false (act_match mask th) (act_match_push mask th) (match_ok f false mask th)
    (leaf_match f mask th) (fun x => in_mask mask (f x)) (match_emit f false mask th)
    (match_skip f false mask th) C cm ltac:(lia) Hwf' HR (cfm_child mask th) (cfm_child_act mask th) fuel v Hv) as (L1 & L2 & L3).
  split; [|split].
  - eapply Forall_impl; [|exact L1]. intros [i o] ([M0 M1] & (x & Hx & Hm) & M2). cbn [fst snd] in *. split; [apply (lists_ok K f HK); assumption|]. split.
    + exists x, (f x). rewrite in_node_covers3, HK by assumption. auto.
    + intros Ht y cl Hy Hk. apply HK in Hk. subst cl. apply M2; [assumption|]. apply in_node_covers3; assumption.
  - intros x cl Hk Hm. apply HK in Hk. subst cl. change (block_containing (cT C) (OI 0 x)) with (imap (fun c => c / 2 ^ (cT C - 0)) x).
    rewrite Z.sub_0_r, <- HB. change (length (filter (fun io => in_node (fst io) x) v)) with (times v x).
    destruct (hasBlock cm _) eqn:Eb; [apply L3; assumption|apply L2; assumption].
  - intros x. change (length (filter (fun io => in_node (fst io) x) v)) with (times v x).
    destruct (hasBlock cm (imap (fun c => c / 2 ^ cT C) x)) eqn:Eb; [apply L3; assumption|rewrite L2 by assumption; lia].
Qed.
(** On a freshly built map, every query of any sequence is answered as with an empty cache. *)
Theorem C30_cache : forall C thr u m K queries, valid_config C -> cT C < 20 -> update_call C thr u m K -> Forall (query_call (cT C)) queries ->
  exists s answers, cm_run qn (qis thr) C (cm_new C) (u :: queries) = Some (s, ADone :: answers) /\
    Forall2 (fun q a => exists s', cm_call qn (qis thr) C (CM (cm_map s) (qc_new C)) q = Some (s', a)) queries answers.
Proof.
  intros C thr u m K qs HC HT HU Hqs. assert (HT' : 1 <= cT C < 20) by (destruct HC; lia).
  destruct (fresh_queries C thr u m K HC HT HU) as (cm & E & Hwf & f & HK & HB & HR & HA).
  set (P := fun i p => reach C cm i p /\ summary f true i p) in *.
  pose proof (fun i p (H : P i p) => summary_summ f true i p (proj2 H)) as HS.
  assert (HN : qinv C P cm (qc_new C)) by (apply qinv_new; assumption).
  destruct (run_queries thr C cm (qinv C P cm) (query_call (cT C)) (fun q a => exists s', cm_call qn (qis thr) C (CM cm (qc_new C)) q = Some (s', a)))
    with (qs := qs) (q := qc_new C) as (q' & l & Hrun & _ & Hl); [|assumption|assumption|].
  - intros q c Hq [Hc|Hc].
    + destruct (test_correct thr C HT' cm P HR m K f HK HB true (closed_mixed_all P HA) HS q c Hq Hc) as (q1 & a1 & E1 & Q1 & A1).
      destruct (test_correct thr C HT' cm P HR m K f HK HB true (closed_mixed_all P HA) HS (qc_new C) c HN Hc) as (q2 & a2 & E2 & Q2 & A2).
      exists q1, a1. split; [assumption|]. split; [assumption|]. rewrite (test_unique (cT C) m K c a1 a2 Hc A1 A2). eauto.
    + destruct (value_same thr C HT' cm P HR (fun i p H => proj1 H) HA q (qc_new C) c Hq HN Hc) as (q1 & q2 & a & E1 & E2).
      destruct (value_step thr C HT' cm P HR HA q c Hq Hc) as (q3 & a3 & E3 & Q3). rewrite E1 in E3.
      assert (q3 = q1) by congruence. subst q3. exists q1, a. split; [assumption|]. split; [assumption|]. eauto.
  - exists (CM cm q'), l. split; [cbn [cm_run]; rewrite E, Hrun; reflexivity|assumption].
Qed.
(** getNode and getValue ignore the cache even on a map with leftovers of earlier updates. *)
Theorem C30_value_cache : forall C thr history queries, valid_config C -> cT C < 20 -> Forall (good_call C thr) history ->
  Forall (fun q => value_call (cT C) q) queries ->
  exists s earlier answers, cm_run qn (qis thr) C (cm_new C) (history ++ queries) = Some (s, earlier ++ answers) /\ length earlier = length history /\
    Forall2 (fun q a => exists s', cm_call qn (qis thr) C (CM (cm_map s) (qc_new C)) q = Some (s', a)) queries answers.
Proof.
  intros C thr l qs HC HT Hl Hqs. assert (HT' : 1 <= cT C < 20) by (destruct HC; lia).
  destruct (history_ok C thr l HC HT Hl (cm_new C) (new_ok C HT')) as ([cm q0] & a & H1 & H2 & [Hwf Hq0]). cbn [cm_map cm_cache] in *.
  destruct (run_queries thr C cm (qinv C (reach C cm) cm) (value_call (cT C)) (fun q a => exists s', cm_call qn (qis thr) C (CM cm (qc_new C)) q = Some (s', a)))
    with (qs := qs) (q := q0) as (q' & b & Hrun & _ & Hb); [|assumption|assumption|].
  - intros q c Hq Hc.
    destruct (value_same thr C HT' cm _ (reach_roots C cm) (fun i p H => H) (reach_closed C cm) q (qc_new C) c Hq (qinv_new C HT' _ _) Hc) as (q1 & q2 & a1 & E1 & E2).
    destruct (value_step thr C HT' cm _ (reach_roots C cm) (reach_closed C cm) q c Hq Hc) as (q3 & a3 & E3 & Q3). rewrite E1 in E3.
    assert (q3 = q1) by congruence. subst q3. exists q1, a1. split; [assumption|]. split; [assumption|]. eauto.
  - exists (CM cm q'), a, b. split; [rewrite run_app, H1, Hrun; reflexivity|]. split; assumption.
Qed.

(** ** Examples and refutations *)
Definition cxC : wconfig (V := Qc) := WC 2 (- Q2Qc 8)%Qc (Q2Qc 8).
(** two occupied cells and a free one; later one occupied cell is emptied again and the map is pruned *)
Definition cx1 : list (Z * hcall) := [(1, HAdd (I3 0 0 0) (Q2Qc 4)); (2, HAdd (I3 3 3 3) (Q2Qc 4)); (3, HAdd (I3 2 0 0) (Q2Qc (-4)))].
Definition cx2 : list (Z * hcall) := cx1 ++ [(4, HAdd (I3 0 0 0) (Q2Qc (-4))); (5, HPrune)].
Definition cxm1 : shash wblock := hw_run cxC cx1.
Definition cxm2 : shash wblock := hw_run cxC cx2.
Lemma cxC_valid : valid_config cxC.
Proof. split; [cbn; lia|reflexivity]. Qed.
Lemma cx_upd1 : update_call cxC 0 (KUpdate cxm1) cxm1 (occ_class cxC 0 cxm1).
Proof. constructor. exists cx1. reflexivity. Qed.
Lemma cx_upd2 : update_call cxC 0 (KUpdate cxm2) cxm2 (occ_class cxC 0 cxm2).
Proof. constructor. exists cx2. reflexivity. Qed.
Ltac nodeq := split; [cbn; lia|repeat (constructor; [cbn; lia|]); constructor].
Definition cxq : list call :=
  [KHas (OI 0 (I3 0 0 0)) (occ_toMask kOccupied); KHas (OI 2 (I3 0 0 0)) (occ_toMask kFree); KFully (OI 1 (I3 0 0 0)) (occ_toMask kFree);
   KValue (OI 1 (I3 0 0 0)); KFully (OI 1 (I3 0 1 0)) (occ_toMask kUnobserved); KBlock (I3 0 0 0); KHas (OI 0 (I3 9 9 9)) (occ_toMask kUnobserved)].
Lemma cxq_ok : Forall (query_call (cT cxC)) cxq.
Proof. repeat (constructor; [first [left; constructor; nodeq|right; constructor; [nodeq|cbn; lia]]|]). constructor. Qed.
(** A distance field marking the cell (2,0,0), free in the map, as too close *)
Definition cxE : hbconfig Qc := HBC (Q2Qc 0) (Q2Qc 5) (Q2Qc 5) 1.
Definition cxe : hbmap := hb_set cxE [] (I3 2 0 0) (Q2Qc 1).
Example C29_ex : option_map snd (cm_run qn (qis 0) cxC (cm_new cxC) (KUpdate cxm1 :: cxq)) =
    Some [ADone; ABool true; ABool true; ABool false; AValue (Some 6) 1; ABool true; ABool true; ABool false] /\
  option_map snd (cm_run qn (qis 0) cxC (cm_new cxC) [KUpdateEsdf cxm1 cxE cxe (Q2Qc 2); KValue (OI 0 (I3 2 0 0)); KValue (OI 0 (I3 2 0 1))]) =
    Some [ADone; AValue (Some 2) 0; AValue (Some 4) 0] /\
  (let t := cm_map (match cm_run qn (qis 0) cxC (cm_new cxC) [KUpdate cxm1] with Some (s, _) => s | None => cm_new cxC end) in
   option_map (map (fun io => snd io)) (cm_forEachLeafMatching cxC 100 (occ_toMask kObserved) 0 t) = Some [2; 1; 2] /\
   option_map (fun l => length l) (cm_forEachLeaf cxC 100 0 t) = Some 29%nat).
Proof. vm_compute. split; [reflexivity|]. split; [reflexivity|]. split; reflexivity. Qed.
Example C29_esdf_ex : exists K, update_call cxC 0 (KUpdateEsdf cxm1 cxE cxe (Q2Qc 2)) cxm1 K /\ K (I3 2 0 0) COccupied /\ occ_class cxC 0 cxm1 (I3 2 0 0) CFree.
Proof.
  assert (F : occ_class cxC 0 cxm1 (I3 2 0 0) CFree) by (apply cls_iff; vm_compute; reflexivity).
  exists (inflated_class cxC 0 cxm1 cxE cxe (Q2Qc 2)). split; [|split; [|exact F]].
  - constructor; [exists cx1; reflexivity|vm_compute; discriminate|vm_compute; discriminate].
  - right. split; [exact F|]. vm_compute. reflexivity.
Qed.
Print Assumptions C29_answers.
Print Assumptions C29_has_id.
Print Assumptions C29_isFully_id.
Print Assumptions C29_leaves.
(** Nodes in unallocated blocks are unobserved, but has and isFully deny it. *)
Theorem C29_unallocated_refuted : exists C thr u m K i, valid_config C /\ cT C < 20 /\ update_call C thr u m K /\ node_query (cT C) i /\
  (forall x cl, in_node i x = true -> K x cl -> cl = CUnobserved) /\
  exists s, cm_run qn (qis thr) C (cm_new C) [u; KHas i (occ_toMask kUnobserved); KFully i (occ_toMask kUnobserved)] =
    Some (s, [ADone; ABool false; ABool false]).
Proof.
  exists cxC, 0%Q, (KUpdate cxm1), cxm1, (occ_class cxC 0 cxm1), (OI 0 (I3 9 9 9)).
  split; [exact cxC_valid|]. split; [cbn; lia|]. split; [exact cx_upd1|]. split; [nodeq|]. split.
  - intros x cl Hx Hk. apply in_node_covers3 in Hx; [|cbn; lia]. apply covers3_0 in Hx; [|reflexivity]. cbn [opos] in Hx. subst x.
    apply cls_iff in Hk. rewrite <- Hk. vm_compute. reflexivity.
  - eexists. vm_compute. reflexivity.
Qed.
Print Assumptions C29_unallocated_refuted.

Definition cxh : list call := [KUpdate cxm1].
Lemma cxh_ok : Forall (good_call cxC 0) cxh.
Proof. constructor; [left; exists cxm1, (occ_class cxC 0 cxm1); exact cx_upd1|constructor]. Qed.
Example C30_ex : option_map snd (cm_run qn (qis 0) cxC (cm_new cxC)
    (cxh ++ KUpdate cxm2 :: [KHas (OI 0 (I3 0 0 0)) (occ_toMask kOccupied); KFully (OI 1 (I3 0 0 0)) (occ_toMask kUnobserved)])) =
  Some [ADone; ADone; ABool false; ABool true].
Proof. vm_compute. reflexivity. Qed.
Print Assumptions C30_never_fails.
Print Assumptions C30_history_partial.
Print Assumptions C30_matching_leaves.
Print Assumptions C30_cache.
Print Assumptions C30_value_cache.
(** Updates keep children that the occupancy map no longer has: getValue then returns outdated classes. *)
Theorem C30_getValue_refuted : exists C thr history u m K q s s' a b c, valid_config C /\ cT C < 20 /\ Forall (good_call C thr) history /\
  update_call C thr u m K /\ query_call (cT C) q /\
  cm_run qn (qis thr) C (cm_new C) (history ++ [u; q]) = Some (s, a ++ [ADone; b]) /\
  cm_run qn (qis thr) C (cm_new C) [u; q] = Some (s', [ADone; c]) /\ b <> c /\ ~ answer_ok (cT C) m K q b.
Proof.
  exists cxC, 0%Q, cxh, (KUpdate cxm2), cxm2, (occ_class cxC 0 cxm2), (KValue (OI 0 (I3 0 0 0))).
  eexists _, _, [ADone], (AValue (Some 2) 0), (AValue (Some 4) 1).
  split; [exact cxC_valid|]. split; [cbn; lia|]. split; [exact cxh_ok|]. split; [exact cx_upd2|]. split; [right; constructor; [nodeq|cbn; lia]|].
  split; [vm_compute; reflexivity|]. split; [vm_compute; reflexivity|]. split; [discriminate|].
  cbn [answer_ok]. cbv zeta. assert (B : hasBlock cxm2 (block_containing (cT cxC) (OI 0 (I3 0 0 0))) = true) by (vm_compute; reflexivity). rewrite B.
  intros (mask & E & H). injection E as <-. destruct (proj1 (H COccupied) eq_refl) as (x & Hx & Hk).
  apply in_node_covers3 in Hx; [|cbn; lia]. apply covers3_0 in Hx; [|reflexivity]. cbn [opos] in Hx. subst x. unfold occ_class in Hk; apply cls_iff in Hk. vm_compute in Hk. discriminate.
Qed.
(** getNode puts the outdated nodes into the cache, after which has and isFully answer from them. *)
Theorem C30_has_after_getNode_refuted : exists C thr history u m K i mask s s' a b c d, valid_config C /\ cT C < 20 /\ Forall (good_call C thr) history /\
  update_call C thr u m K /\ node_query (cT C) i /\
  cm_run qn (qis thr) C (cm_new C) (history ++ [u; KHas i mask; KNode i; KHas i mask]) = Some (s, a ++ [ADone; ABool false; b; ABool true]) /\
  cm_run qn (qis thr) C (cm_new C) [u; KHas i mask; KNode i; KHas i mask] = Some (s', [ADone; ABool false; c; ABool d]) /\ d = false.
Proof.
  exists cxC, 0%Q, cxh, (KUpdate cxm2), cxm2, (occ_class cxC 0 cxm2), (OI 0 (I3 0 0 0)), 2.
  eexists _, _, [ADone], _, _, _.
  split; [exact cxC_valid|]. split; [cbn; lia|]. split; [exact cxh_ok|]. split; [exact cx_upd2|]. split; [nodeq|].
  split; [vm_compute; reflexivity|]. split; [vm_compute; reflexivity|]. reflexivity.
Qed.
(** forEachLeaf visits the outdated nodes too. *)
Theorem C30_forEachLeaf_refuted : exists C thr history u m K fuel s a s' leaves leaves', valid_config C /\ cT C < 20 /\ Forall (good_call C thr) history /\
  update_call C thr u m K /\
  cm_run qn (qis thr) C (cm_new C) (history ++ [u]) = Some (s, a) /\ cm_forEachLeaf C fuel 0 (cm_map s) = Some leaves /\
  cm_run qn (qis thr) C (cm_new C) [u] = Some (s', [ADone]) /\ cm_forEachLeaf C fuel 0 (cm_map s') = Some leaves' /\
  In (OI 0 (I3 0 0 0), 2) leaves /\ occ_class C thr m (I3 0 0 0) CUnobserved /\ length leaves <> length leaves'.
Proof.
  exists cxC, 0%Q, cxh, (KUpdate cxm2), cxm2, (occ_class cxC 0 cxm2), 100%nat. do 5 eexists.
  split; [exact cxC_valid|]. split; [cbn; lia|]. split; [exact cxh_ok|]. split; [exact cx_upd2|].
  split; [vm_compute; reflexivity|]. split; [vm_compute; reflexivity|]. split; [vm_compute; reflexivity|]. split; [vm_compute; reflexivity|].
  split; [|split; [apply cls_iff; vm_compute; reflexivity|vm_compute; discriminate]].
  match goal with |- In ?e ?l => assert (X : existsb (fun io => (oh (fst io) =? 0) && ieqb (opos (fst io)) (I3 0 0 0) && (snd io =? 2)) l = true) by (vm_compute; reflexivity) end.
  apply existsb_exists in X. destruct X as ([[h p] o] & Hin & X). cbn [fst snd oh opos] in X. apply andb_prop in X. destruct X as [X X3]. apply andb_prop in X. destruct X as [X1 X2].
  apply Z.eqb_eq in X1, X3. apply ieqb_iff in X2. subst. exact Hin.
Qed.
Print Assumptions C30_getValue_refuted.
Print Assumptions C30_has_after_getNode_refuted.
Print Assumptions C30_forEachLeaf_refuted.
