(** Property theorems C87, continued: what repeated observations do to a cell of an octree. Histories of scans of the CoarseToFineIntegrator with threshold() and prune() calls in between, in exact arithmetic. *)
From Verif Require Import Base M_IntMath F_IntMath M_NdtreeIndex M_Num F_Num M_Haar3 F_Haar3 M_Ndtree S_Field S_Integrate F_Hash
  M_Wavelet F_Wavelet F_Wavelet2 F_Leaves F_WavTree F_WavMap F_WavHist M_Octree F_Octree M_VolOctree P_VolOctree
  M_Integrator F_Integrator F_Integrator3 M_CoarseToFine P_CoarseToFine.
From Coq Require Import QArith Qcanon Qcabs Lqa.
Close Scope Qc_scope.
Close Scope Q_scope.
Open Scope Z_scope.

(** * Specification *)
(** A scan changes cell [c] by at least [d], or by at most [- d]. *)
Definition scan_raises (C : wconfig (V := Qc)) (c : idx3) (d : Qc) (W : oracle Qc) : Prop := exists i u, ends_at W (cT C - 1) c i /\ contributes W i u /\ (d <= u)%Qc.
Definition scan_lowers (C : wconfig (V := Qc)) (c : idx3) (d : Qc) (W : oracle Qc) : Prop := exists i u, ends_at W (cT C - 1) c i /\ contributes W i u /\ (u <= - d)%Qc.
(** [n] scans that meet [P], with [p] calls of threshold() or prune() in between *)
Inductive vo_seq (C : wconfig (V := Qc)) (P : oracle Qc -> Prop) : nat -> nat -> node Qc -> node Qc -> Prop :=
  | vseq_nil t : vo_seq C P 0 0 t t
  | vseq_scan n p t t1 t' W : P W -> (exists k, forall fuel, (k <= fuel)%nat -> ctf_updateMap qn keps W fuel C t = Some t1) -> vo_seq C P n p t1 t' -> vo_seq C P (S n) p t t'
  | vseq_prune n p t t' : vo_seq C P n p (vo_prune qn keps C t) t' -> vo_seq C P n (S p) t t'
  | vseq_threshold n p t t' : vo_seq C P n p (vo_threshold qn keps C t) t' -> vo_seq C P n (S p) t t'.
(** The error of one prune() call *)
Definition prune_error (C : wconfig (V := Qc)) : Qc := (qz (cT C + 1) * keps)%Qc.

(** * Facts *)
Lemma scan_step C t t1 f W c i u : vo_valid C -> vo_reachable C t -> map_values C t f -> (exists k, forall fuel, (k <= fuel)%nat -> ctf_updateMap qn keps W fuel C t = Some t1) ->
  in_octree (cT C) (cell c) -> ends_at W (cT C - 1) c i -> contributes W i u -> vo_reachable C t1 /\ exists f1, map_values C t1 f1 /\ f1 c = (f c + u)%Qc.
Proof.
  intros HC Hr Hf (k & E) Hc Hi Hu. destruct (C61_scan_effect C t f W HC Hr Hf) as (n & t' & f' & E' & R & V & S).
  specialize (E (Nat.max k n) ltac:(lia)). specialize (E' (Nat.max k n) ltac:(lia)). rewrite E in E'. injection E' as ->.
  split; [exact R|]. exists f'. split; [exact V|]. apply (S c i u Hc Hi Hu).
Qed.
Lemma prune_reach C t : vo_reachable C t -> vo_reachable C (vo_prune qn keps C t).
Proof.
  intros (l & Hl & ->). exists (l ++ [VPrune]). split; [apply Forall_app; split; [exact Hl|constructor; [exact I|constructor]]|]. unfold vo_run. rewrite fold_left_app. reflexivity.
Qed.
Lemma prune_step C t f c : vo_valid C -> (clo C <= 0)%Qc -> (0 <= chi C)%Qc -> vo_reachable C t -> map_values C t f -> in_octree (cT C) (cell c) ->
  exists f1, map_values C (vo_prune qn keps C t) f1 /\ (Qcabs (f1 c - clampq (clo C) (chi C) (f c)) <= prune_error C)%Qc.
Proof.
  intros [HT _] Hlo Hhi Hr Hf Hc. set (t' := vo_prune qn keps C t). pose proof (prune_reach C t Hr) as Hr'. fold t' in Hr'. assert (Hn := reach_height C t HT Hr).
  destruct (prune_izero C _ t 0%Qc Hn) as [Hz Hn']. exists (vo_get C t'). split.
  - apply vfield_values; [exact HT|exact Hr'|]. intros c' Hc'. unfold vfield. rewrite izero_sum by (apply path_valid || exact Hz). rewrite vo_get_path by assumption. ring.
  - rewrite (values_vfield C HT t f c Hr Hf Hc). rewrite vo_get_path by assumption. rewrite clampq_qclamp.
    destruct (prune_spec C Hlo Hhi _ t 0%Qc (cpath C c) Hn (path_valid _ _) (path_length _ _)) as [P1 P2].
    unfold kbound in P1. rewrite Z2Nat.id in P1 by lia. exact P1.
Qed.
Lemma clamp_abs lo hi x y e : (Qcabs (x - clampq lo hi y) <= e)%Qc -> (hi - e <= x \/ y - e <= x)%Qc /\ (x <= lo + e \/ x <= y + e)%Qc.
Proof.
  intros H. assert (B : (x - clampq lo hi y <= e /\ - (x - clampq lo hi y) <= e)%Qc).
  { split; (eapply Qcle_trans; [|exact H]); [|rewrite <- Qcabs_opp]; apply Qcle_Qcabs. }
  destruct B as [B1 B2]. unfold clampq in *. destruct (Qlt_le_dec (this y) (this lo)) as [L|L]; [|destruct (Qlt_le_dec (this hi) (this y)) as [U|U]].
  - assert (L' : (y < lo)%Qc) by exact L. split; [right|left]; qlra.
  - assert (U' : (hi < y)%Qc) by exact U. split; [left|right]; qlra.
  - split; right; qlra.
Qed.
Lemma count_succ n (d : Qc) : (qz (Z.of_nat (S n)) * d = d + qz (Z.of_nat n) * d)%Qc.
Proof. replace (qz (Z.of_nat (S n))) with (1 + qz (Z.of_nat n))%Qc by (rewrite Nat2Z.inj_succ, <- Z.add_1_l, qz_add; reflexivity). ring. Qed.
Lemma count_nonneg n (d : Qc) : (0 <= d)%Qc -> (0 <= qz (Z.of_nat n) * d)%Qc.
Proof.
  intros H. induction n as [|n IH]; [change (qz (Z.of_nat 0)) with 0%Qc; qlra|]. rewrite count_succ. generalize dependent (qz (Z.of_nat n) * d)%Qc. intros z Hz. qlra.
Qed.
Lemma prune_error_nonneg C : 1 <= cT C -> (0 <= prune_error C)%Qc.
Proof.
  intros H. unfold prune_error. replace (cT C + 1) with (Z.of_nat (Z.to_nat (cT C + 1))) by lia. apply count_nonneg. vm_compute. discriminate.
Qed.

(** * Theorems *)
(** Observed as occupied [n] times, the value of a cell rises by [n d], or to the upper threshold, whatever the surrounding cells are; each call of threshold() or prune() takes away at most its error. *)
Theorem C87_octree_raised : forall C c d n p t t' f,
  vo_valid C -> (clo C <= 0)%Qc -> (0 <= chi C)%Qc -> (0 <= d)%Qc -> vo_reachable C t -> map_values C t f -> in_octree (cT C) (cell c) -> vo_seq C (scan_raises C c d) n p t t' ->
  vo_reachable C t' /\ exists f', map_values C t' f' /\
  (chi C - qz (Z.of_nat p) * prune_error C <= f' c \/ f c + qz (Z.of_nat n) * d - qz (Z.of_nat p) * prune_error C <= f' c)%Qc.
Proof.
  intros C c d n p t t' f HC Hlo Hhi Hd Hr Hf Hc H. assert (He : (0 <= prune_error C)%Qc) by (apply prune_error_nonneg; destruct HC; lia). revert f Hr Hf.
  assert (PR : forall n p t t', (forall f, vo_reachable C (vo_prune qn keps C t) -> map_values C (vo_prune qn keps C t) f -> vo_reachable C t' /\ exists f', map_values C t' f' /\
      (chi C - qz (Z.of_nat p) * prune_error C <= f' c \/ f c + qz (Z.of_nat n) * d - qz (Z.of_nat p) * prune_error C <= f' c)%Qc) ->
    forall f, vo_reachable C t -> map_values C t f -> vo_reachable C t' /\ exists f', map_values C t' f' /\
      (chi C - qz (Z.of_nat (S p)) * prune_error C <= f' c \/ f c + qz (Z.of_nat n) * d - qz (Z.of_nat (S p)) * prune_error C <= f' c)%Qc).
  { clear - HC Hlo Hhi Hd Hc He. intros n p t t' IH f Hr Hf. destruct (prune_step C t f c HC Hlo Hhi Hr Hf Hc) as (f1 & V1 & B). destruct (clamp_abs _ _ _ _ _ B) as [B1 _].
    destruct (IH f1 (prune_reach C t Hr) V1) as (R & f' & V & S). split; [exact R|]. exists f'. split; [exact V|]. rewrite count_succ.
    pose proof (count_nonneg n d Hd) as Hn. clear IH. generalize dependent (qz (Z.of_nat p) * prune_error C)%Qc. generalize dependent (qz (Z.of_nat n) * d)%Qc. intros z Hz y S.
    destruct S as [S|S]; [left; qlra|]. destruct B1 as [B1|B1]; [left; qlra|right; qlra]. }
  induction H as [t|n p t t1 t' W HP E _ IH|n p t t' _ IH|n p t t' _ IH]; intros f Hr Hf.
  - split; [exact Hr|]. exists f. split; [exact Hf|]. right. change (qz (Z.of_nat 0)) with 0%Qc. qlra.
  - destruct HP as (i & u & Hi & Hu & Hdu). destruct (scan_step C t t1 f W c i u HC Hr Hf E Hc Hi Hu) as (R1 & f1 & V1 & E1). destruct (IH f1 R1 V1) as (R & f' & V & S).
    split; [exact R|]. exists f'. split; [exact V|]. rewrite count_succ. rewrite E1 in S. clear IH. generalize dependent (qz (Z.of_nat p) * prune_error C)%Qc. generalize dependent (qz (Z.of_nat n) * d)%Qc. intros z y S.
    destruct S as [S|S]; [left; exact S|right; qlra].
  - apply (PR n p t t' IH f Hr Hf).
  - apply (PR n p t t' IH f Hr Hf).
Qed.
(** Observed as free [n] times, it falls by [n d], or to the lower threshold. *)
Theorem C87_octree_cleared : forall C c d n p t t' f,
  vo_valid C -> (clo C <= 0)%Qc -> (0 <= chi C)%Qc -> (0 <= d)%Qc -> vo_reachable C t -> map_values C t f -> in_octree (cT C) (cell c) -> vo_seq C (scan_lowers C c d) n p t t' ->
  vo_reachable C t' /\ exists f', map_values C t' f' /\
  (f' c <= clo C + qz (Z.of_nat p) * prune_error C \/ f' c <= f c - qz (Z.of_nat n) * d + qz (Z.of_nat p) * prune_error C)%Qc.
Proof.
  intros C c d n p t t' f HC Hlo Hhi Hd Hr Hf Hc H. assert (He : (0 <= prune_error C)%Qc) by (apply prune_error_nonneg; destruct HC; lia). revert f Hr Hf.
  assert (PR : forall n p t t', (forall f, vo_reachable C (vo_prune qn keps C t) -> map_values C (vo_prune qn keps C t) f -> vo_reachable C t' /\ exists f', map_values C t' f' /\
      (f' c <= clo C + qz (Z.of_nat p) * prune_error C \/ f' c <= f c - qz (Z.of_nat n) * d + qz (Z.of_nat p) * prune_error C)%Qc) ->
    forall f, vo_reachable C t -> map_values C t f -> vo_reachable C t' /\ exists f', map_values C t' f' /\
      (f' c <= clo C + qz (Z.of_nat (S p)) * prune_error C \/ f' c <= f c - qz (Z.of_nat n) * d + qz (Z.of_nat (S p)) * prune_error C)%Qc).
  { clear - HC Hlo Hhi Hd Hc He. intros n p t t' IH f Hr Hf. destruct (prune_step C t f c HC Hlo Hhi Hr Hf Hc) as (f1 & V1 & B). destruct (clamp_abs _ _ _ _ _ B) as [_ B1].
    destruct (IH f1 (prune_reach C t Hr) V1) as (R & f' & V & S). split; [exact R|]. exists f'. split; [exact V|]. rewrite count_succ.
    pose proof (count_nonneg n d Hd) as Hn. clear IH. generalize dependent (qz (Z.of_nat p) * prune_error C)%Qc. generalize dependent (qz (Z.of_nat n) * d)%Qc. intros z Hz y S.
    destruct S as [S|S]; [left; qlra|]. destruct B1 as [B1|B1]; [left; qlra|right; qlra]. }
  induction H as [t|n p t t1 t' W HP E _ IH|n p t t' _ IH|n p t t' _ IH]; intros f Hr Hf.
  - split; [exact Hr|]. exists f. split; [exact Hf|]. right. change (qz (Z.of_nat 0)) with 0%Qc. qlra.
  - destruct HP as (i & u & Hi & Hu & Hdu). destruct (scan_step C t t1 f W c i u HC Hr Hf E Hc Hi Hu) as (R1 & f1 & V1 & E1). destruct (IH f1 R1 V1) as (R & f' & V & S).
    split; [exact R|]. exists f'. split; [exact V|]. rewrite count_succ. rewrite E1 in S. clear IH. generalize dependent (qz (Z.of_nat p) * prune_error C)%Qc. generalize dependent (qz (Z.of_nat n) * d)%Qc. intros z y S.
    destruct S as [S|S]; [left; exact S|right; qlra].
  - apply (PR n p t t' IH f Hr Hf).
  - apply (PR n p t t' IH f Hr Hf).
Qed.
Print Assumptions C87_octree_raised.
Print Assumptions C87_octree_cleared.

(** Such histories exist for any number of scans and calls: here from the empty map, with scans that see everything as free. *)
Example C87_octree_ex : vo_valid ex_ctf /\ (clo ex_ctf <= 0 /\ 0 <= chi ex_ctf)%Qc /\ vo_reachable ex_ctf (vo_new qn) /\ map_values ex_ctf (vo_new qn) fzero /\ in_octree (cT ex_ctf) (cell (I3 0 0 0)) /\
  forall n p, exists t', vo_seq ex_ctf (scan_lowers ex_ctf (I3 0 0 0) (Q2Qc (1 # 2))) n p (vo_new qn) t'.
Proof.
  destruct C61_ex as (HV & HR & HM & _). split; [exact HV|]. split; [split; vm_compute; discriminate|]. split; [exact HR|]. split; [exact HM|]. split; [unfold in_octree; cbn; lia|].
  assert (L : scan_lowers ex_ctf (I3 0 0 0) (Q2Qc (1 # 2)) ex_scan2).
  { exists (node_of (I3 0 0 0) 1), (Q2Qc (- (1 # 2))). split; [|split].
    - exists 1. split; [cbn; lia|]. split; [reflexivity|]. split; [cbn; intros; lia|]. right. right. reflexivity.
    - right. left. split; [right; intros H; discriminate H|]. split; reflexivity.
    - vm_compute. discriminate. }
  enough (G : forall n p t f, vo_reachable ex_ctf t -> map_values ex_ctf t f -> exists t', vo_seq ex_ctf (scan_lowers ex_ctf (I3 0 0 0) (Q2Qc (1 # 2))) n p t t') by (intros n p; exact (G n p _ _ HR HM)).
  induction n as [|n IHn].
  - induction p as [|p IHp]; intros t f Hr Hf; [exists t; constructor|].
    destruct (prune_step ex_ctf t f (I3 0 0 0) HV ltac:(vm_compute; discriminate) ltac:(vm_compute; discriminate) Hr Hf ltac:(unfold in_octree; cbn; lia)) as (f1 & V1 & _).
    destruct (IHp _ f1 (prune_reach _ _ Hr) V1) as (t' & H). exists t'. apply vseq_prune. exact H.
  - intros p t f Hr Hf. destruct (C61_scan_effect ex_ctf t f ex_scan2 HV Hr Hf) as (k & t1 & f1 & E & R & V & _). destruct (IHn p t1 f1 R V) as (t' & H).
    exists t'. apply (vseq_scan _ _ n p t t1 t' ex_scan2); [exact L|exists k; exact E|exact H].
Qed.
