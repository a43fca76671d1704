(** Facts about ClassifiedMap (M_Classified.v): trees of classified nodes summarise the classes of the cells. *)
From Verif Require Import Base M_IntMath F_IntMath M_Morton F_Morton M_NdtreeIndex F_NdtreeIndex M_Num F_Num M_Haar3 F_Haar3
  M_Ndtree S_Field F_Hash M_Wavelet F_Wavelet F_Wavelet2 F_Leaves F_WavTree F_WavMap F_WavHash M_Octree F_Octree M_Accel F_Accel
  M_Occupancy P_Occupancy M_Queue M_HashedBlocks M_Classified.
From Coq Require Import QArith Qcanon Lqa.
Close Scope Qc_scope.
Close Scope Q_scope.
Open Scope Z_scope.

(** ** Bitsets *)
Lemma cb_get_testbit b c : 0 <= c -> cb_get b c = Z.testbit b c.
Proof.
  intros H. unfold cb_get. change 1 with (Z.ones 1). rewrite Z.land_ones by lia. rewrite Z.shiftr_div_pow2 by assumption.
  rewrite <- Z.testbit_spec' by assumption. destruct (Z.testbit b c); reflexivity.
Qed.
Lemma cb_get_set b c v c' : 0 <= c < 8 -> 0 <= c' < 8 -> cb_get (cb_set b c v) c' = if c' =? c then v else cb_get b c'.
Proof.
  intros H H'. rewrite !cb_get_testbit by lia. unfold cb_set. rewrite Z.mod_pow2_bits_low by lia.
  rewrite Z.lor_spec, Z.land_spec, Z.lnot_spec, !Z.shiftl_spec by lia.
  destruct (Z.eqb_spec c' c) as [->|Hne].
  - rewrite Z.sub_diag. cbn [negb]. rewrite andb_false_r. destruct v; reflexivity.
  - assert (E : forall x, (x = 0 \/ x = 1) -> Z.testbit x (c' - c) = false).
    { intros x Hx. destruct (Z.lt_ge_cases (c' - c) 0) as [L|L]; [apply Z.testbit_neg_r; lia|].
      destruct Hx as [-> | ->]; [apply Z.bits_0|]. change 1 with (2 ^ 0). apply Z.pow2_bits_false. lia. }
    rewrite !E by (destruct v; cbn; auto). cbn. rewrite andb_true_r, orb_false_r. reflexivity.
Qed.
Lemma cb_set_range b c v : 0 <= cb_set b c v < 256.
Proof. apply Z.mod_pos_bound. reflexivity. Qed.
Lemma cb_any_iff b : 0 <= b < 256 -> (cb_any b = true <-> exists c, 0 <= c < 8 /\ cb_get b c = true).
Proof.
  intros Hb. unfold cb_any. rewrite negb_true_iff, Z.eqb_neq. split.
  - intros Hn. exists (Z.log2 b). assert (0 < b) by lia. pose proof (Z.log2_nonneg b).
    assert (Z.log2 b < 8) by (apply Z.log2_lt_pow2; lia). split; [lia|]. rewrite cb_get_testbit by assumption. apply Z.bit_log2. assumption.
  - intros (c & Hc & H) ->. rewrite cb_get_testbit, Z.bits_0 in H by lia. discriminate.
Qed.

(** ** Classes *)
Definition cd_bits (d : cdata) (cl : oclass) : Z := match cl with CFree => cd_free d | COccupied => cd_occ d | CUnobserved => cd_unobs d end.
Definition cbit (d : cdata) (cl : oclass) (c : Z) : bool := cb_get (cd_bits d cl) c.
Definition byte_data (d : cdata) : Prop := forall cl, 0 <= cd_bits d cl < 256.
Lemma cd_child_mask d c cl : in_mask (cd_child d c) cl <-> cbit d cl c = true.
Proof. unfold cd_child. rewrite C28_toMask_flags. destruct cl; reflexivity. Qed.
Lemma cd_mask_mask d cl : byte_data d -> (in_mask (cd_mask d) cl <-> exists c, 0 <= c < 8 /\ cbit d cl c = true).
Proof.
  intros B. unfold cd_mask. rewrite C28_toMask_flags. specialize (B cl).
  destruct cl; apply cb_any_iff; assumption.
Qed.
Lemma toMask3_range f o u : 0 <= occ_toMask3 f o u < 8.
Proof. destruct f, o, u; cbn; lia. Qed.
Definition cls (thr : Q) (v : Qc) : oclass :=
  match oc_classify thr (this v) with kFree => CFree | kOccupied => COccupied | _ => CUnobserved end.
Lemma cls_iff thr v cl : class_of thr (this v) cl <-> cls thr v = cl.
Proof.
  destruct (C28_partition thr (this v)) as (c & H1 & H2 & HF & HO & HU & _). unfold cls.
  assert (E : cls thr v = c).
  { unfold cls. destruct (oc_classify thr (this v)) eqn:E; [symmetry; apply HF; reflexivity|symmetry; apply HO; reflexivity|symmetry; apply HU; reflexivity| |];
      unfold oc_classify in E; destruct (oc_isUnobserved _); try discriminate; destruct (qlt_b _ _); discriminate. }
  fold (cls thr v). rewrite E. split; [intros H; symmetry; apply H2, H|intros <-; exact H1].
Qed.
Definition qis (thr : Q) (v : Qc) (i : occ_id) : bool := oc_is_id thr (this v) i.
Lemma qis_iff thr v : (qis thr v kFree = true <-> cls thr v = CFree) /\ (qis thr v kOccupied = true <-> cls thr v = COccupied) /\
  (qis thr v kUnobserved = true <-> cls thr v = CUnobserved).
Proof.
  unfold qis. rewrite !C28_is_id.
  repeat split; try (intros (c & H & Hc); cbn [id_means] in Hc; subst c; apply cls_iff; assumption);
    intros H; eexists; (split; [apply cls_iff; exact H|reflexivity]).
Qed.

(** ** Nodes that summarise a classification [f] of the cells *)
Lemma covers3_nonempty i : 0 <= oh i -> exists x, covers3 i x.
Proof.
  intros H. exists (imap (fun c => c * 2 ^ oh i) (opos i)). unfold covers3. destruct i as [h [x y z]]. unfold imap. cbn [oh opos px py pz] in *.
  rewrite !Z.div_mul by (apply Z.pow_nonzero; lia). reflexivity.
Qed.
Section SUMMARY.
Context (f : idx3 -> oclass).
Definition homog (idx : oidx) : Prop := exists cl, forall x, covers3 idx x -> f x = cl.
Definition bits_at (idx : oidx) (n : cnode) (c : Z) : Prop :=
  forall cl, cbit (ndata n) cl c = true <-> exists x, covers3 (ochild idx c) x /\ f x = cl.
(** [strict]: no stale children *)
Fixpoint summ (strict : bool) (k : nat) (idx : oidx) (n : cnode) : Prop :=
  match k with
  | O => False
  | S k' =>
      byte_data (ndata n) /\ forall c, 0 <= c < 8 -> bits_at idx n c /\
        match getChild n c with
        | None => homog (ochild idx c)
        | Some ch => summ strict k' (ochild idx c) ch \/ (strict = false /\ homog (ochild idx c))
        end
  end.
Lemma summ_mask strict k idx n cl : oh idx = Z.of_nat k -> summ strict k idx n ->
  (in_mask (cd_mask (ndata n)) cl <-> exists x, covers3 idx x /\ f x = cl).
Proof.
  destruct k as [|k]; intros Hh H; [destruct H|]. destruct H as [B H]. rewrite cd_mask_mask by assumption. split.
  - intros (c & Hc & Hb). apply (H c Hc) in Hb. destruct Hb as (x & Hx & Hf). exists x. split; [|assumption].
    apply covers3_child in Hx; [tauto|lia|assumption].
  - intros (x & Hx & Hf). pose proof (cidx_range x (oh idx - 1)) as Hc. exists (cidx x (oh idx - 1)). split; [assumption|].
    apply (H _ Hc). exists x. split; [|assumption]. apply covers3_child; [lia|assumption|auto].
Qed.

(** ** One step of the loops over the children *)
Definition same_at (c : Z) (n n' : cnode) : Prop :=
  (forall cl, cbit (ndata n) cl c = cbit (ndata n') cl c) /\ getChild n c = getChild n' c.
Lemma same_at_trans c n1 n2 n3 : same_at c n1 n2 -> same_at c n2 n3 -> same_at c n1 n3.
Proof. intros [A1 A2] [B1 B2]. split; [intros cl; rewrite A1; apply B1|congruence]. Qed.
Lemma fold_children (st : cnode -> Z -> cnode) (Q : Z -> cnode -> Prop) n0 :
  (forall n c c', 0 <= c < 8 -> 0 <= c' < 8 -> c' <> c -> same_at c' (st n c) n) ->
  (forall n c, 0 <= c < 8 -> same_at c n n0 -> Q c (st n c)) ->
  (forall c n n', same_at c n n' -> Q c n' -> Q c n) ->
  forall l, NoDup l -> (forall c, In c l -> 0 <= c < 8) ->
  (forall c, In c l -> Q c (fold_left st l n0)) /\ (forall c, 0 <= c < 8 -> ~ In c l -> same_at c (fold_left st l n0) n0).
Proof.
  intros H1 H2 H3 l. rewrite <- (rev_involutive l). generalize (rev l). clear l. intros l.
  induction l as [|a l IH]; intros ND Hl.
  - cbn. split; [contradiction|]. intros c Hc _. split; reflexivity.
  - cbn [rev] in *. rewrite fold_left_app. cbn [fold_left].
    apply NoDup_remove in ND. rewrite app_nil_r in ND. destruct ND as [ND Na].
    assert (Ha : 0 <= a < 8) by (apply Hl, in_or_app; right; left; reflexivity).
    destruct IH as [I1 I2]; [assumption|intros c Hc; apply Hl, in_or_app; auto|]. split.
    + intros c Hc. apply in_app_or in Hc. destruct Hc as [Hc|[<-|[]]].
      * apply (H3 c _ (fold_left st (rev l) n0)); [|apply I1; assumption].
        apply H1; [assumption|apply Hl, in_or_app; auto|intros ->; contradiction].
      * apply H2; [assumption|]. apply I2; assumption.
    + intros c Hc Hn. apply (same_at_trans _ _ (fold_left st (rev l) n0)).
      * apply H1; [assumption|assumption|]. intros ->. apply Hn, in_or_app. right. left. reflexivity.
      * apply I2; [assumption|]. intros Hin. apply Hn, in_or_app. auto.
Qed.
Lemma child_ids_nodup : NoDup child_ids.
Proof. repeat constructor; cbn; intuition discriminate. Qed.
Lemma in_child_ids c : 0 <= c < 8 <-> In c child_ids.
Proof. cbn. lia. Qed.

Lemma cn_set_bit n c a b u c' cl : 0 <= c < 8 -> 0 <= c' < 8 -> cbit (ndata (cn_set n c a b u)) cl c' =
  if c' =? c then match cl with CFree => a | COccupied => b | CUnobserved => u end else cbit (ndata n) cl c'.
Proof. intros H H'. destruct cl; unfold cbit; cbn [cn_set ndata cd_bits cd_free cd_occ cd_unobs]; apply cb_get_set; assumption. Qed.
Lemma cn_set_child n c a b u c' : getChild (cn_set n c a b u) c' = getChild n c'.
Proof. reflexivity. Qed.
Lemma cn_set_byte n c a b u : byte_data (ndata (cn_set n c a b u)).
Proof. intros []; cbn; apply cb_set_range. Qed.
Lemma cn_set_same n c a b u c' : 0 <= c < 8 -> 0 <= c' < 8 -> c' <> c -> same_at c' (cn_set n c a b u) n.
Proof.
  intros H H' Hne. split; [|reflexivity]. intros cl. rewrite cn_set_bit by assumption. destruct (Z.eqb_spec c' c); [contradiction|reflexivity].
Qed.
Lemma collect_byte n c ch : byte_data (ndata (cn_collect n c ch)).
Proof.
  unfold cn_collect. destruct (_ =? 1); [rewrite ndata_erase|]; apply cn_set_byte.
Qed.
Lemma collect_same n c ch c' : 0 <= c < 8 -> 0 <= c' < 8 -> c' <> c -> same_at c' (cn_collect n c ch) n.
Proof.
  intros H H' Hne. unfold cn_collect. set (n' := cn_set _ _ _ _ _).
  assert (E : same_at c' n' n).
  { apply (same_at_trans _ _ (setChild n c ch)); [apply cn_set_same; assumption|]. split; [intros; rewrite ndata_set; reflexivity|].
    rewrite gChild_set by assumption. destruct (Z.eqb_spec c' c); [contradiction|reflexivity]. }
  destruct (_ =? 1); [|exact E]. destruct E as [E1 E2]. split; [intros cl; rewrite ndata_erase; apply E1|].
  rewrite gChild_erase by assumption. destruct (Z.eqb_spec c' c); [contradiction|exact E2].
Qed.
Definition q_at (strict : bool) (k : nat) (idx : oidx) (c : Z) (n : cnode) : Prop :=
  bits_at idx n c /\
  match getChild n c with
  | None => homog (ochild idx c)
  | Some ch => summ strict k (ochild idx c) ch \/ (strict = false /\ homog (ochild idx c))
  end.
Lemma q_at_same strict k idx c n n' : same_at c n n' -> q_at strict k idx c n' -> q_at strict k idx c n.
Proof. intros [H1 H2] [A B]. split; [intros cl; rewrite H1; apply A|rewrite H2; exact B]. Qed.
(** a homogeneous child whose bits are set directly *)
Lemma leaf_q strict k idx c n cl a b u : 0 <= c < 8 -> 1 <= oh idx -> (forall x, covers3 (ochild idx c) x -> f x = cl) ->
  (a = true <-> cl = CFree) -> (b = true <-> cl = COccupied) -> (u = true <-> cl = CUnobserved) ->
  (strict = true -> getChild n c = None) -> q_at strict k idx c (cn_set n c a b u).
Proof.
  intros Hc Hh Hf Ha Hb Hu Hs. split.
  - intros cl'. rewrite cn_set_bit, Z.eqb_refl by assumption.
    assert (E : (exists x, covers3 (ochild idx c) x /\ f x = cl') <-> cl = cl').
    { split; [intros (x & Hx & <-); symmetry; apply Hf; assumption|]. intros <-. destruct (covers3_nonempty (ochild idx c)) as (x & Hx); [cbn; lia|].
      exists x. split; [assumption|apply Hf; assumption]. }
    rewrite E. destruct cl'; assumption.
  - rewrite cn_set_child. destruct (getChild n c); [|exists cl; assumption].
    destruct strict; [discriminate (Hs eq_refl)|]. right. split; [reflexivity|exists cl; assumption].
Qed.
(** a child that was classified recursively *)
Lemma collect_q strict k idx c n ch : 0 <= c < 8 -> oh idx = Z.of_nat (S k) -> summ strict k (ochild idx c) ch ->
  q_at strict k idx c (cn_collect n c ch).
Proof.
  intros Hc Hh H.
  assert (M : forall cl, cb_any (cd_bits (ndata ch) cl) = true <-> exists x, covers3 (ochild idx c) x /\ f x = cl).
  { intros cl. rewrite <- (summ_mask strict k (ochild idx c) ch cl); [|cbn; lia|assumption]. unfold cd_mask. rewrite C28_toMask_flags. destruct cl; reflexivity. }
  unfold cn_collect. set (a := cb_any (cd_free _)). set (b := cb_any (cd_occ _)). set (u := cb_any (cd_unobs _)). cbv zeta.
  assert (A := M CFree). assert (B := M COccupied). assert (U := M CUnobserved). cbn [cd_bits] in A, B, U. fold a in A. fold b in B. fold u in U.
  assert (BITS : forall cl, cbit (ndata (cn_set (setChild n c ch) c a b u)) cl c = true <-> exists x, covers3 (ochild idx c) x /\ f x = cl).
  { intros cl. rewrite cn_set_bit, Z.eqb_refl by assumption. destruct cl; assumption. }
  destruct (Z.eqb_spec (Z.b2z a + Z.b2z b + Z.b2z u) 1) as [E|E].
  - split; [intros cl; rewrite ndata_erase; apply BITS|]. rewrite gChild_erase, Z.eqb_refl by assumption.
    assert (X : forall cl x, covers3 (ochild idx c) x -> f x = cl -> match cl with CFree => a | COccupied => b | CUnobserved => u end = true).
    { intros cl x Hx Hf. destruct cl; [apply A|apply B|apply U]; exists x; auto. }
    exists (if a then CFree else if b then COccupied else CUnobserved). intros x Hx. specialize (X (f x) x Hx eq_refl).
    destruct a, b, u; cbn in E; try lia; destruct (f x); congruence.
  - split; [exact BITS|]. rewrite cn_set_child, gChild_set, Z.eqb_refl by assumption. left. assumption.
Qed.
Definition childless (n : cnode) : Prop := forall c, 0 <= c < 8 -> getChild n c = None.
Lemma summ_fold strict k idx st n0 : 1 <= oh idx ->
  (forall n c, 0 <= c < 8 -> byte_data (ndata (st n c))) ->
  (forall n c c', 0 <= c < 8 -> 0 <= c' < 8 -> c' <> c -> same_at c' (st n c) n) ->
  (forall n c, 0 <= c < 8 -> getChild n c = getChild n0 c -> q_at strict k idx c (st n c)) ->
  summ strict (S k) idx (fold_left st child_ids n0).
Proof.
  intros Hh Hb Hs Hq. split.
  - change child_ids with ([0; 1; 2; 3; 4; 5; 6] ++ [7]). rewrite fold_left_app. cbn [fold_left]. apply Hb. lia.
  - intros c Hc. change (q_at strict k idx c (fold_left st child_ids n0)).
    apply (fold_children st (q_at strict k idx)); [exact Hs| | |apply child_ids_nodup|intros; apply in_child_ids; assumption|apply in_child_ids; assumption].
    + intros n d Hd [_ E]. apply Hq; assumption.
    + intros d n n' H. apply q_at_same. assumption.
Qed.
End SUMMARY.

(** ** recursiveClassifier *)
Section CLASSIFY.
Context (thr : Q).
Notation is := (qis thr).
Lemma path_head idx (x : idx3) k c : oh idx = Z.of_nat (S k) -> 0 <= c < 8 -> covers3 (ochild idx c) x ->
  path (S k) x = c :: path k x /\ covers3 idx x.
Proof.
  intros Hh Hc Hx. apply covers3_child in Hx; [|lia|assumption]. destruct Hx as [Hx E]. split; [|assumption].
  cbn [path]. rewrite <- E. do 2 f_equal. lia.
Qed.
Lemma childless_new : childless (Node cd0 None).
Proof. intros c _. reflexivity. Qed.
Lemma childOrNew_childless n c : getChild n c = None -> childless (childOrNew cd0 n c).
Proof. intros H. unfold childOrNew. rewrite H. apply childless_new. Qed.
Lemma classify_step_byte values recs n c : 0 <= c < 8 -> byte_data (ndata (cl_child is values recs n c)).
Proof. intros H. unfold cl_child. destruct (oget recs c); [apply collect_byte|apply cn_set_byte]. Qed.
Lemma classify_step_same values recs n c c' : 0 <= c < 8 -> 0 <= c' < 8 -> c' <> c -> same_at c' (cl_child is values recs n c) n.
Proof. intros H H' Hne. unfold cl_child. destruct (oget recs c); [apply collect_same|apply cn_set_same]; assumption. Qed.
Lemma classify_summ f strict k : forall on v n idx, height_ok k on -> oh idx = Z.of_nat k ->
  (forall x, covers3 idx x -> f x = cls thr (eval v on (path k x))) -> (strict = true -> childless n) ->
  summ f strict k idx (classify qn is on v n).
Proof.
  induction k as [|k IH]; intros on v n0 idx Hok Hh Hf Hs; [destruct Hok|].
  destruct on as [d kids]. cbn [classify].
  set (recs := match kids with None => _ | Some _ => _ end).
  assert (ER : forall c, 0 <= c < 8 -> oget recs c = option_map (classify qn is) (getChild (Node d kids) c)).
  { intros c Hc. unfold recs, getChild. cbn [nkids]. destruct kids as [o|]; [|rewrite oget_otab by assumption; reflexivity].
    rewrite oget_omap by assumption. destruct (oget o c); reflexivity. }
  apply summ_fold; [lia|intros; apply classify_step_byte; assumption|intros; apply classify_step_same; assumption|].
  intros n c Hc Hch. unfold cl_child. rewrite ER by assumption. rewrite backward3_value by assumption.
  specialize (Hok c Hc).
  assert (Hfc : forall x, covers3 (ochild idx c) x -> f x =
    cls thr (let v' := child_value v d c in match getChild (Node d kids) c with None => v' | Some ch => eval v' ch (path k x) end)).
  { intros x Hx. destruct (path_head idx x k c Hh Hc Hx) as [E Hx']. rewrite (Hf x Hx'), E. reflexivity. }
  destruct (getChild (Node d kids) c) as [ch|]; cbn [option_map].
  - apply collect_q; [assumption|assumption|]. apply IH; [assumption|cbn; lia|assumption|].
    intros E. apply childOrNew_childless. rewrite Hch. apply (Hs E); assumption.
  - destruct (qis_iff thr (child_value v d c)) as (A & B & U).
    apply (leaf_q f _ _ _ _ _ (cls thr (child_value v d c))); try assumption; try lia.
    intros E. rewrite Hch. apply (Hs E); assumption.
Qed.

(** with an ESDF *)
Definition esdf_hit (esdf : idx3 -> option Qc) (radius : Qc) (x : idx3) : bool :=
  match esdf x with Some d => qltb d radius | None => false end.
Definition esdf_cls (esdf : idx3 -> option Qc) (radius : Qc) (x : idx3) (v : Qc) : oclass :=
  match cls thr v with CFree => if esdf_hit esdf radius x then COccupied else CFree | c => c end.
Lemma covers3_0 i x : oh i = 0 -> covers3 i x -> opos i = x.
Proof.
  destruct i as [h p], x as [a b e]. unfold covers3, imap. cbn [oh opos px py pz]. intros -> <-. rewrite !Z.div_1_r. reflexivity.
Qed.
Lemma classify_esdf_summ f strict esdf radius k : forall on v n idx, (1 <= k)%nat ->
  (match on with Some w => height_ok k w | None => True end) -> oh idx = Z.of_nat k ->
  (forall x, covers3 idx x -> f x = esdf_cls esdf radius x (match on with Some w => eval v w (path k x) | None => v end)) ->
  (strict = true -> childless n) ->
  summ f strict k idx (classify_esdf qn is k esdf radius idx on v n).
Proof.
  induction k as [|k IH]; intros on v n0 idx Hk Hok Hh Hf Hs; [lia|]. cbn [classify_esdf].
  apply summ_fold; [lia| | |].
  - intros n c Hc. unfold cle_child. cbv zeta. destruct (_ || _); [|apply collect_byte]. destruct (_ && _); apply cn_set_byte.
  - intros n c c' Hc Hc' Hne. unfold cle_child. cbv zeta. destruct (_ || _); [|apply collect_same; assumption].
    destruct (_ && _); apply cn_set_same; assumption.
  - intros n c Hc Hch. unfold cle_child. cbv zeta.
    set (child := match on with None => None | Some w => getChild w c end).
    set (val := match on with None => v | Some _ => _ end).
    assert (Hfc : forall x, covers3 (ochild idx c) x -> f x =
      esdf_cls esdf radius x (match child with None => val | Some ch => eval val ch (path k x) end)).
    { intros x Hx. destruct (path_head idx x k c Hh Hc Hx) as [E Hx']. rewrite (Hf x Hx'). unfold child, val. destruct on as [w|]; [|reflexivity].
      rewrite E. cbn [eval]. rewrite backward3_value by assumption. reflexivity. }
    assert (Hokc : match child with Some w => height_ok k w | None => True end).
    { unfold child. destruct on as [w|]; [|exact I]. apply (Hok c Hc). }
    clearbody child val. destruct (qis_iff thr val) as (A & B & U).
    change (oh (ochild idx c)) with (oh idx - 1).
    destruct (Z.eqb_spec (oh idx - 1) 0) as [E0|E0]; cbn [orb].
    + assert (k = O) by lia. subst k. destruct child; [destruct Hokc|].
      assert (Hx : forall x, covers3 (ochild idx c) x -> f x = esdf_cls esdf radius (opos (ochild idx c)) val).
      { intros x Hx. rewrite (Hfc x Hx). rewrite (covers3_0 (ochild idx c) x); [reflexivity|cbn; lia|assumption]. }
      assert (Hs' : strict = true -> getChild n c = None) by (intros E; rewrite Hch; apply (Hs E); assumption).
      unfold esdf_cls in Hx. fold (esdf_hit esdf radius (opos (ochild idx c))). change (nltb qn) with qltb.
      change (match esdf (opos (ochild idx c)) with Some d => qltb d radius | None => false end) with (esdf_hit esdf radius (opos (ochild idx c))).
      destruct (esdf_hit esdf radius (opos (ochild idx c))).
      * destruct (is val kFree) eqn:Ef; cbn [andb].
        -- rewrite (proj1 A eq_refl) in Hx. apply (leaf_q f _ _ _ _ _ COccupied); try assumption; try lia; intuition congruence.
        -- apply (leaf_q f _ _ _ _ _ (cls thr val)); try assumption; try lia; [|rewrite Ef; assumption].
           intros x Hxx. rewrite (Hx x Hxx). destruct (cls thr val); [exfalso; intuition congruence|reflexivity|reflexivity].
      * rewrite andb_false_r. apply (leaf_q f _ _ _ _ _ (cls thr val)); try assumption; try lia.
        intros x Hxx. rewrite (Hx x Hxx). destruct (cls thr val); reflexivity.
    + destruct (is val kFree) eqn:Ef; cbn [negb andb].
      * apply collect_q; [assumption|assumption|]. apply IH; [lia|assumption|cbn; lia|assumption|].
        intros E. apply childOrNew_childless. rewrite Hch. apply (Hs E); assumption.
      * destruct child as [w|].
        -- apply collect_q; [assumption|assumption|]. apply IH; [lia|assumption|cbn; lia|assumption|].
           intros E. apply childOrNew_childless. rewrite Hch. apply (Hs E); assumption.
        -- apply (leaf_q f _ _ _ _ _ (cls thr val)); try assumption; try lia.
           ++ intros x Hx. rewrite (Hfc x Hx). unfold esdf_cls. destruct (cls thr val); [exfalso; intuition congruence|reflexivity|reflexivity].
           ++ rewrite Ef. assumption.
           ++ intros E. rewrite Hch. apply (Hs E); assumption.
Qed.
End CLASSIFY.
