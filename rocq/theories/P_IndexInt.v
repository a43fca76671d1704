(** C88, with the range of int: for which indices the calls on WaveletOctree and VolumetricOctree are defined. *)
From Verif Require Import Base M_IntMath F_IntMath M_NdtreeIndex M_Num M_Haar3 M_Ndtree S_Field M_Wavelet M_WavHist P_Wavelet M_Octree M_VolOctree P_IndexRange M_IndexInt.
From Coq Require Import QArith Qcanon.
Close Scope Qc_scope.
Close Scope Q_scope.
Open Scope Z_scope.

(** ** Specification *)
(** The coordinates of [i] are at least half an octree below the end of the range of int. *)
Definition below_end (T : Z) (i : oidx) : Prop :=
  let e := 2 ^ 31 - 2 ^ (T - 1 - oh i) in px (opos i) < e /\ py (opos i) < e /\ pz (opos i) < e.

(** ** Proofs *)
Lemma int_result_some z : - 2 ^ 31 <= z < 2 ^ 31 -> int_result z = Some z.
Proof.
  intros H. unfold int_result, int_min, int_max. destruct (Z.leb_spec (- 2 ^ 31) z) as [_|A]; [|lia]. destruct (Z.leb_spec z (2 ^ 31 - 1)) as [_|B]; [reflexivity|lia].
Qed.
Lemma int_result_none z : 2 ^ 31 <= z -> int_result z = None.
Proof. intros H. unfold int_result, int_max. destruct (Z.leb_spec z (2 ^ 31 - 1)) as [A|_]; [lia|]. rewrite andb_false_r. reflexivity. Qed.
Lemma half_pos T h : 0 <= h < T -> T <= 21 -> 0 < 2 ^ (T - 1 - h) <= 2 ^ 20.
Proof. intros H B. split; [apply Z.pow_pos_nonneg; lia|apply Z.pow_le_mono_r; lia]. Qed.
Lemma internal_some T i : 1 <= T <= 21 -> node_height_ok T i -> i32_index (opos i) -> below_end T i -> toInternal_int T i = Some (wo_toInternal T i).
Proof.
  intros HT Hh (A1 & A2 & A3) (B1 & B2 & B3). unfold node_height_ok in Hh. pose proof (half_pos T (oh i) Hh ltac:(lia)) as P.
  unfold toInternal_int, wo_toInternal, index_result, imap. rewrite !offset_pow by lia. rewrite !int_result_some by lia. reflexivity.
Qed.
Lemma internal_none T i : 1 <= T <= 21 -> node_height_ok T i -> ~ below_end T i -> toInternal_int T i = None.
Proof.
  intros HT Hh B. unfold node_height_ok in Hh. unfold toInternal_int, index_result. rewrite !offset_pow by lia. unfold below_end in B. cbv zeta in B.
  set (q := 2 ^ (T - 1 - oh i)) in *. destruct (Z.lt_ge_cases (px (opos i)) (2 ^ 31 - q)) as [X|X].
  - destruct (Z.lt_ge_cases (py (opos i)) (2 ^ 31 - q)) as [Y|Y].
    + destruct (Z.lt_ge_cases (pz (opos i)) (2 ^ 31 - q)) as [W|W]; [exfalso; tauto|]. rewrite (int_result_none (pz (opos i) + q)) by lia.
      destruct (int_result (px (opos i) + q)), (int_result (py (opos i) + q)); reflexivity.
    + rewrite (int_result_none (py (opos i) + q)) by lia. destruct (int_result (px (opos i) + q)); reflexivity.
  - rewrite (int_result_none (px (opos i) + q)) by lia. reflexivity.
Qed.

(** ** Theorems *)
(** Calls on a WaveletOctree are defined exactly for the indices below the end of the int range, and then act on the wrapped index. *)
Theorem C88_int_wavelet : forall V (N : M_Num.num V) C t i, 1 <= cT C <= 21 -> node_height_ok (cT C) i -> i32_index (opos i) ->
  let j := wrapped (cT C) i in
  (below_end (cT C) i -> wo_get_int N C t i = Some (wo_get N C t j) /\ (forall v, wo_set_int N C t i v = Some (wo_set N C t j v)) /\
    (forall u, wo_add_int N C t i u = Some (wo_add N C t j u))) /\
  (~ below_end (cT C) i -> wo_get_int N C t i = None /\ (forall v, wo_set_int N C t i v = None) /\ (forall u, wo_add_int N C t i u = None)).
Proof.
  intros V N C t i HT Hh Hi j. destruct (C88_wavelet_octree V N C t i HT Hh) as (_ & G & S & A). fold j in G, S, A.
  unfold wo_get_int, wo_set_int, wo_add_int. split; intros B.
  - rewrite (internal_some _ _ HT Hh Hi B). cbn [option_map]. rewrite <- G. split; [reflexivity|]. split; [intros v; rewrite <- S; reflexivity|intros u; rewrite <- A; reflexivity].
  - rewrite (internal_none _ _ HT Hh B). cbn [option_map]. auto.
Qed.
(** The same for VolumetricOctree. *)
Theorem C88_int_volumetric : forall V (N : M_Num.num V) C t i, 1 <= cT C <= 21 -> node_height_ok (cT C) i -> i32_index (opos i) ->
  let j := wrapped (cT C) i in
  (below_end (cT C) i -> (oh i = 0 -> vo_get_int C t (opos i) = Some (vo_get C t (opos j))) /\ (forall v, vo_set_int N C t i v = Some (vo_set N C t j v)) /\
    (forall u, vo_add_int N C t i u = Some (vo_add N C t j u))) /\
  (~ below_end (cT C) i -> (oh i = 0 -> vo_get_int C t (opos i) = None) /\ (forall v, vo_set_int N C t i v = None) /\ (forall u, vo_add_int N C t i u = None)).
Proof.
  intros V N C t i HT Hh Hi j. destruct (C88_volumetric_octree V N C t HT) as (G & W). destruct (W i Hh) as (S & A). fold j in S, A.
  assert (Z0 : oh i = 0 -> OI 0 (opos i) = i) by (destruct i as [h p]; cbn; intros ->; reflexivity).
  unfold vo_get_int, vo_set_int, vo_add_int. split; intros B.
  - rewrite (internal_some _ _ HT Hh Hi B). cbn [option_map]. split; [|split; [intros v; rewrite <- S; reflexivity|intros u; rewrite <- A; reflexivity]].
    intros E. specialize (G (opos i)). rewrite (Z0 E) in *. fold j in G. rewrite (internal_some _ _ HT Hh Hi B). cbn [option_map]. rewrite <- G. unfold vo_get, vo_internal. rewrite (Z0 E). reflexivity.
  - rewrite (internal_none _ _ HT Hh B). cbn [option_map]. split; [|auto]. intros E. rewrite (Z0 E), (internal_none _ _ HT Hh B). reflexivity.
Qed.
(** All nodes of the octree are among them, and the way back is defined for all nodes inside. *)
Theorem C88_int_inside : forall T i, 1 <= T <= 21 -> in_octree T i ->
  i32_index (opos i) /\ below_end T i /\ exists j, toInternal_int T i = Some j /\ toExternal_int T j = Some i.
Proof.
  intros T i HT H. pose proof H as (Hh & A1 & A2 & A3). pose proof (half_pos T (oh i) Hh ltac:(lia)) as P.
  assert (I : i32_index (opos i)) by (unfold i32_index; lia). assert (B : below_end T i) by (unfold below_end; cbv zeta; lia).
  split; [exact I|]. split; [exact B|]. exists (wo_toInternal T i). split; [apply internal_some; assumption|].
  unfold toExternal_int, wo_toInternal, index_result, imap. cbn [oh opos px py pz]. rewrite !Z.add_simpl_r. rewrite !int_result_some by lia.
  destruct i as [h [x y z]]. reflexivity.
Qed.
(** Not every index that can be passed is: reading the last cell along an axis is undefined, whatever the height of the octree. *)
Theorem C88_int_every_index_refuted : forall T, 1 <= T <= 21 -> exists i, node_height_ok T i /\ i32_index (opos i) /\ forall V (N : M_Num.num V) lo hi t, wo_get_int N (WC T lo hi) t i = None.
Proof.
  intros T HT. exists (OI 0 (I3 (2 ^ 31 - 1) 0 0)). assert (Hh : node_height_ok T (OI 0 (I3 (2 ^ 31 - 1) 0 0))) by (unfold node_height_ok; cbn; lia).
  split; [exact Hh|]. split; [unfold i32_index; cbn [opos px py pz]; lia|]. intros V N lo hi t. unfold wo_get_int. cbn [cT]. rewrite internal_none; [reflexivity|exact HT|exact Hh|].
  unfold below_end. cbv zeta. cbn [oh opos px py pz]. pose proof (half_pos T 0 ltac:(lia) ltac:(lia)). lia.
Qed.
Example C88_int_ex : toInternal_int 3 (OI 0 (I3 (2 ^ 31 - 5) (- 2 ^ 31) 0)) = Some (OI 0 (I3 (2 ^ 31 - 1) (4 - 2 ^ 31) 4)) /\
  toInternal_int 3 (OI 0 (I3 (2 ^ 31 - 4) (- 2 ^ 31) 0)) = None /\ below_end 3 (OI 0 (I3 (2 ^ 31 - 5) (- 2 ^ 31) 0)) /\ ~ in_octree 3 (OI 0 (I3 (2 ^ 31 - 5) (- 2 ^ 31) 0)).
Proof. split; [reflexivity|]. split; [reflexivity|]. unfold below_end, in_octree. cbv zeta. cbn [oh opos px py pz]. change (2 ^ (3 - 1 - 0)) with 4. lia. Qed.
Print Assumptions C88_int_wavelet.
Print Assumptions C88_int_volumetric.
Print Assumptions C88_int_inside.
Print Assumptions C88_int_every_index_refuted.
