(** C88: the index range of the octree maps of bounded size (WaveletOctree, VolumetricOctree), and what happens to indices outside it. *)
From Verif Require Import Base M_IntMath F_IntMath M_NdtreeIndex F_NdtreeIndex M_Num F_Num M_Haar3 M_Ndtree S_Field F_Hash M_Wavelet M_WavHist P_Wavelet M_Octree M_VolOctree P_VolOctree.
From Coq Require Import QArith Qcanon Qcabs.
Close Scope Qc_scope.
Close Scope Q_scope.
Open Scope Z_scope.

(** ** Specification *)
(** The index that [i] is taken for in an octree of height [T]: each coordinate modulo the number of nodes along the octree's
    edge, shifted into the octree's range. *)
Definition wrapped (T : Z) (i : oidx) : oidx :=
  let b := 2 ^ (T - 1 - oh i) in OI (oh i) (imap (fun c => (c + b) mod (2 * b) - b) (opos i)).
Definition node_height_ok (T : Z) (i : oidx) : Prop := 0 <= oh i < T.

(** ** Proofs *)
Section LOOPS.
Context {V : Type} (N : M_Num.num V).
Definition same_path (lo hi m1 m2 : Z) : Prop := forall p, lo < p <= hi -> relativeChildIndexFromMorton 3 m1 p = relativeChildIndexFromMorton 3 m2 p.
Lemma get_same k : forall h m1 m2 v n, same_path (h - Z.of_nat k) h m1 m2 -> get_loop N k h m1 v n = get_loop N k h m2 v n.
Proof.
  induction k as [|k IH]; intros h m1 m2 v n H; [reflexivity|]. cbn [get_loop]. rewrite (H h) by lia. destruct (getChild n _); [|reflexivity]. apply IH. intros p P. apply H. lia.
Qed.
Lemma update_same k : forall h m1 m2 inc v n, same_path (h - Z.of_nat k - 1) h m1 m2 -> update_loop N k h m1 inc v n = update_loop N k h m2 inc v n.
Proof.
  induction k as [|k IH]; intros h m1 m2 inc v n H; cbn [update_loop]; rewrite (H h) by lia; [reflexivity|]. rewrite (IH (h - 1) m1 m2); [reflexivity|]. intros p P. apply H. lia.
Qed.
Lemma anc_same k : forall h m1 m2 (n : node V), same_path (h - Z.of_nat k) h m1 m2 -> nd_anc_loop k h m1 n = nd_anc_loop k h m2 n.
Proof.
  induction k as [|k IH]; intros h m1 m2 n H; [reflexivity|]. cbn [nd_anc_loop]. rewrite (H h) by lia. destruct (getChild n _); [|reflexivity]. apply IH. intros p P. apply H. lia.
Qed.
Lemma alloc_same k : forall h m1 m2 d f (n : node V), same_path (h - Z.of_nat k) h m1 m2 -> nd_alloc_loop k h m1 d f n = nd_alloc_loop k h m2 d f n.
Proof.
  induction k as [|k IH]; intros h m1 m2 d f n H; [reflexivity|]. cbn [nd_alloc_loop]. rewrite (H h) by lia. rewrite (IH (h - 1) m1 m2); [reflexivity|]. intros p P. apply H. lia.
Qed.
End LOOPS.
Lemma offset_pow T h : 0 <= h < T -> wo_offset T h = 2 ^ (T - 1 - h).
Proof.
  intros H. unfold wo_offset, mult_exp2. rewrite exp2_pow by lia. rewrite div_exp2_floor_spec by lia. rewrite Z.mul_1_l.
  replace (T - 1) with ((T - 1 - h) + h) at 1 by ring. rewrite Z.pow_add_r by lia. apply Z.div_mul. pose proof (Z.pow_pos_nonneg 2 h). lia.
Qed.
(** The bit of a coordinate at which a path branches is the same for congruent coordinates. *)
Lemma bit_mod x m s : 0 <= s < m -> (x mod 2 ^ m) / 2 ^ s mod 2 = x / 2 ^ s mod 2.
Proof.
  intros H. rewrite <- !Z.testbit_spec' by lia. f_equal. apply Z.mod_pow2_bits_low. lia.
Qed.
Lemma wrapped_path T i : 1 <= T <= 21 -> node_height_ok T i -> same_path (oh i) T (omorton (wo_toInternal T (wrapped T i))) (omorton (wo_toInternal T i)).
Proof.
  intros HT Hh p P. destruct i as [h [a b c]]. unfold node_height_ok in Hh. cbn [oh] in *.
  unfold omorton, oni, wo_toInternal, wrapped. cbn [oh opos imap px py pz ilist]. rewrite offset_pow by lia.
  unfold imap, ilist. cbn [px py pz]. rewrite !relative_child_morton by (cbn [length]; lia). unfold computeRelativeChildIndex. cbn [position]. rewrite !relative_child_from_rel0 by lia. cbn [map rel0].
  set (q := 2 ^ (T - 1 - h)). assert (E : 2 * q = 2 ^ (T - h)) by (unfold q; rewrite <- Z.pow_succ_r by lia; f_equal; lia). rewrite E.
  rewrite !div_exp2_floor_spec by lia.
  assert (B : forall x, ((x + q) mod 2 ^ (T - h) - q + q) / 2 ^ (p - 1 - h) mod 2 = (x + q) / 2 ^ (p - 1 - h) mod 2).
  { intros x. replace ((x + q) mod 2 ^ (T - h) - q + q) with ((x + q) mod 2 ^ (T - h)) by ring. apply bit_mod. lia. }
  rewrite !B. reflexivity.
Qed.

(** ** Theorems *)
(** getMinPossibleIndex and getMaxPossibleIndex delimit the cells that are not taken for another one. *)
Theorem C88_possible_range : forall V (C : wconfig (V := V)) c, 1 <= cT C <= 21 ->
  (ileq (wo_minPossible C) c /\ ileq c (wo_maxPossible C) <-> in_octree (cT C) (OI 0 c)) /\
  (in_octree (cT C) (OI 0 c) <-> wrapped (cT C) (OI 0 c) = OI 0 c).
Proof.
  intros V C [x y z] HT. unfold ileq, wo_minPossible, wo_maxPossible, in_octree, wrapped, mult_exp2, imap. cbv zeta. cbn [oh opos px py pz].
  rewrite !exp2_pow, Z.sub_0_r by lia. set (b := 2 ^ (cT C - 1)). assert (E : 2 ^ cT C = 2 * b) by (unfold b; rewrite <- Z.pow_succ_r by lia; f_equal; lia).
  assert (B : 0 < b) by (apply Z.pow_pos_nonneg; lia). split; [rewrite E; lia|].
  assert (M : forall u, - b <= u < b <-> (u + b) mod (2 * b) - b = u).
  { intros u. split; [intros U; rewrite Z.mod_small by lia; ring|]. intros U. pose proof (Z.mod_pos_bound (u + b) (2 * b) ltac:(lia)). lia. }
  split; [intros (_ & A1 & A2 & A3); f_equal; f_equal; apply M; assumption|]. intros H. injection H as H1 H2 H3. split; [lia|]. repeat split; apply M; assumption.
Qed.
(** Reads and writes of any index are reads and writes of the wrapped index, which lies in the octree: nothing is rejected. For any number type, so also in single precision. *)
Theorem C88_wavelet_octree : forall V (N : M_Num.num V) C t i, 1 <= cT C <= 21 -> node_height_ok (cT C) i ->
  let j := wrapped (cT C) i in in_octree (cT C) j /\
  wo_get N C t i = wo_get N C t j /\ (forall v, wo_set N C t i v = wo_set N C t j v) /\ (forall u, wo_add N C t i u = wo_add N C t j u).
Proof.
  intros V N C t i HT Hh j. pose proof (wrapped_path _ _ HT Hh) as P. fold j in P. split.
  { destruct i as [h [a b c]]. unfold node_height_ok in Hh. unfold j, wrapped, in_octree, imap. cbn [oh opos px py pz] in *. set (q := 2 ^ (cT C - 1 - h)).
    assert (Q : 0 < q) by (apply Z.pow_pos_nonneg; lia). pose proof (Z.mod_pos_bound (a + q) (2 * q) ltac:(lia)). pose proof (Z.mod_pos_bound (b + q) (2 * q) ltac:(lia)). pose proof (Z.mod_pos_bound (c + q) (2 * q) ltac:(lia)). lia. }
  unfold node_height_ok in Hh.
  assert (G : forall inc, wt_update N (cT C) t (wo_toInternal (cT C) i) inc = wt_update N (cT C) t (wo_toInternal (cT C) j) inc).
  { intros inc. unfold wt_update. change (oh (wo_toInternal (cT C) j)) with (oh i). change (oh (wo_toInternal (cT C) i)) with (oh i).
    destruct (Z.to_nat (cT C - oh i)) as [|k] eqn:K; [lia|]. rewrite (update_same N k (cT C) (omorton (wo_toInternal (cT C) j)) (omorton (wo_toInternal (cT C) i))); [reflexivity|].
    intros p Hp. apply P. lia. }
  split; [|split; intros; apply G].
  unfold wo_get, wt_get. change (oh (wo_toInternal (cT C) j)) with (oh i). change (oh (wo_toInternal (cT C) i)) with (oh i).
  symmetry. apply get_same. intros p Hp. apply P. lia.
Qed.
Theorem C88_volumetric_octree : forall V (N : M_Num.num V) C t, 1 <= cT C <= 21 ->
  (forall c, vo_get C t c = vo_get C t (opos (wrapped (cT C) (OI 0 c)))) /\
  forall i, node_height_ok (cT C) i -> let j := wrapped (cT C) i in (forall v, vo_set N C t i v = vo_set N C t j v) /\ (forall u, vo_add N C t i u = vo_add N C t j u).
Proof.
  intros V N C t HT. split.
  - intros c. pose proof (wrapped_path (cT C) (OI 0 c) HT ltac:(unfold node_height_ok; cbn; lia)) as P. cbn [oh] in P. unfold vo_get, nd_getNodeOrAncestor, vo_internal.
    rewrite <- (anc_same _ _ (omorton (wo_toInternal (cT C) (wrapped (cT C) (OI 0 c))))); [reflexivity|]. intros p Hp. apply P. cbn [oh wo_toInternal] in Hp. lia.
  - intros i Hh j. pose proof (wrapped_path _ _ HT Hh) as P. fold j in P. unfold node_height_ok in Hh. split; intros w; unfold vo_set, vo_add, nd_alloc_data, vo_internal;
      change (oh (wo_toInternal (cT C) j)) with (oh i); change (oh (wo_toInternal (cT C) i)) with (oh i); symmetry; apply alloc_same; intros p Hp; apply P; lia.
Qed.
(** Histories with arbitrary indices leave the same map as the histories with the wrapped ones, to which the theorems on C10-C18 apply. *)
Definition wrap_call (T : Z) (c : call) : call := match c with CSet i v => CSet (wrapped T i) v | CAdd i u => CAdd (wrapped T i) u | c => c end.
Definition call_height_ok (T : Z) (c : call) : Prop := match c with CSet i _ | CAdd i _ => node_height_ok T i | _ => True end.
Theorem C88_histories : forall C l, valid_config C -> Forall (call_height_ok (cT C)) l ->
  wo_run C l = wo_run C (map (wrap_call (cT C)) l) /\ plain_reachable C (wo_run C l).
Proof.
  intros C l [HT HC] Hl. assert (E : wo_run C l = wo_run C (map (wrap_call (cT C)) l)).
  { unfold wo_run. generalize (wt_new qn). induction Hl as [|c l Hc Hl IH]; intros t; [reflexivity|]. cbn [map fold_left]. rewrite IH. f_equal.
    destruct c; try reflexivity; cbn [wrap_call wo_apply call_height_ok] in *; apply (C88_wavelet_octree Qc qn C t i HT Hc). }
  split; [exact E|]. exists (map (wrap_call (cT C)) l). split; [|exact E]. apply Forall_forall. intros c I. apply in_map_iff in I as (c' & <- & I).
  rewrite Forall_forall in Hl. specialize (Hl _ I). destruct c'; cbn [wrap_call call_ok call_height_ok] in *; try exact Logic.I; apply (C88_wavelet_octree Qc qn C (wt_new qn) i HT Hl).
Qed.
(** So a write outside the range changes a cell inside it: the claim that each call only affects the cells of its index fails. *)
Theorem C88_no_disturbance_refuted : exists C t c d v, valid_config C /\ plain_reachable C t /\ ~ in_octree (cT C) (OI 0 c) /\ in_octree (cT C) (OI 0 d) /\
  wo_get qn C (wo_add qn C t (OI 0 c) v) (OI 0 d) <> wo_get qn C t (OI 0 d) /\
  vo_get C (vo_set qn C (vo_new qn) (OI 0 c) v) d = v /\ vo_get C (vo_new qn) d <> v.
Proof.
  exists (WC 3 (Q2Qc (- 4)) (Q2Qc 4)), (wo_run (WC 3 (Q2Qc (- 4)) (Q2Qc 4)) [CAdd (OI 0 (I3 (-4) 0 1)) (Q2Qc 2)]), (I3 4 0 1), (I3 (-4) 0 1), 1%Qc.
  split; [split; [cbn; lia|reflexivity]|]. split.
  { exists [CAdd (OI 0 (I3 (-4) 0 1)) (Q2Qc 2)]. split; [|reflexivity]. constructor; [|constructor]. cbn [call_ok]. unfold in_octree. cbn [oh opos px py pz cT]. change (2 ^ (3 - 1 - 0)) with 4. lia. }
  unfold in_octree. cbn [oh opos px py pz cT]. change (2 ^ (3 - 1 - 0)) with 4. split; [lia|]. split; [lia|].
  split; [intros H; apply (f_equal this) in H; vm_compute in H; discriminate H|].
  split; [apply Qc_is_canon; vm_compute; reflexivity|intros H; apply (f_equal this) in H; vm_compute in H; discriminate H].
Qed.
Example C88_ex : wrapped 3 (OI 0 (I3 4 0 1)) = OI 0 (I3 (-4) 0 1) /\ wrapped 3 (OI 1 (I3 (-3) 2 1)) = OI 1 (I3 1 (-2) 1) /\
  wo_minPossible (WC 3 0%Qc 1%Qc) = I3 (-4) (-4) (-4) /\ wo_maxPossible (WC 3 0%Qc 1%Qc) = I3 3 3 3.
Proof. vm_compute. auto. Qed.
Print Assumptions C88_possible_range.
Print Assumptions C88_wavelet_octree.
Print Assumptions C88_volumetric_octree.
Print Assumptions C88_histories.
Print Assumptions C88_no_disturbance_refuted.
