(** * C63, VolumetricOctree *)
From Verif Require Import Base M_IntMath F_IntMath M_NdtreeIndex M_Num F_Num M_Haar3 F_Haar3 M_Ndtree S_Field F_Hash M_Wavelet
  F_Wavelet F_Wavelet2 F_Leaves F_WavTree F_WavMap F_WavHist M_Octree F_Octree M_VolOctree P_PublishCloud P_VolOctree M_PublishCloud.
From Coq Require Import QArith Qcanon Qcabs Lqa.
Close Scope Qc_scope. Close Scope Q_scope. Open Scope Z_scope.

Notation gl := (gleaves hasChildrenArray addv).
Notation vtree := (node Qc).
Lemma vol_outside (C : wconfig (V := Qc)) (t : vtree) c : 1 <= cT C <= 21 -> nheight (Z.to_nat (cT C)) t -> hasChildrenArray t = true ->
  let l := map (fun iv => (wo_toExternal (cT C) (fst iv), snd iv)) (gl t (OI (cT C) (I3 0 0 0)) 0%Qc) in
  (forall i u, In (i, u) l -> 0 <= oh i) /\ (in_octree (cT C) (cell c) \/ forall i u, In (i, u) l -> in_node i c = false).
Proof.
  intros HT Hn Ha l.
  assert (HH : forall j u, In (j, u) (gl t (OI (cT C) (I3 0 0 0)) 0%Qc) -> 0 <= oh j < cT C).
  { intros j u Hj. split; [exact (gleaves_height _ _ hca_none hca_kids _ t (OI (cT C) (I3 0 0 0)) _ Hn ltac:(cbn [oh]; lia) j u Hj)|].
    pose proof (gl_root t _ _ j u Ha Hj) as G. cbn [oh] in G. lia. }
  split. { intros i u Hi. apply in_map_iff in Hi as ([j v] & X & Hin). injection X as <- <-. cbn [fst oh wo_toExternal]. apply (HH j v Hin). }
  set (a := 2 ^ (cT C - 1)) in *. assert (EA : 2 ^ cT C = 2 * a) by (unfold a; rewrite <- Z.pow_succ_r by lia; f_equal; lia). assert (PA : 0 < a) by (apply Z.pow_pos_nonneg; lia).
  destruct (idx3_eq_dec (imap (fun x => x / 2 ^ cT C) (shift a c)) (I3 0 0 0)) as [D|D].
  - left. destruct c as [x y z]. unfold shift, imap in D. cbn [px py pz] in D. injection D as D1 D2 D3. rewrite EA in *.
    unfold in_octree, cell. cbn [oh opos px py pz]. rewrite Z.sub_0_r. fold a. assert (X : forall u, (u + a) / (2 * a) = 0 -> - a <= u < a) by (intros u; apply half_range; exact PA).
    split; [lia|]. split; [exact (X x D1)|]. split; [exact (X y D2)|exact (X z D3)].
  - right. intros i u Hin. destruct (in_node i c) eqn:En; [|reflexivity]. exfalso.
    apply in_map_iff in Hin as ([j v] & E & Hin). injection E as <- <-. cbn [fst] in *. pose proof (HH j v Hin) as Hj.
    apply in_node_covers in En; [|cbn [oh wo_toExternal]; lia]. apply wo_toExternal_covers in En; [|exact Hj].
    assert (U : uncovered (gl t (OI (cT C) (I3 0 0 0)) 0%Qc) (shift a c)).
    { apply (gleaves_uncovered hasChildrenArray addv hca_none hca_kids (Z.to_nat (cT C))); [exact Hn|cbn [oh]; lia|exact D]. }
    apply (U j); [apply in_map_iff; exists (j, v); auto|exact En].
Qed.

(** For every history of calls on a VolumetricOctree: a message lists the cells whose value reported by the leaf iteration ([f], as in C22) is above
    the threshold. The root must have been split: C22_root_leaf_refuted shows what happens otherwise. *)
Theorem C63_volumetric_octree_message : forall w C thr fuel t f, vo_valid C -> vo_reachable C t -> (nsize t <= fuel)%nat -> (1 < nsize t)%nat -> vo_empty qn t = false ->
  iter_field C t f ->
  exists msg, pc_vol qn w thr fuel C t = Some (Some msg) /\ lists_cells w (fun c => in_octree (cT C) (cell c) /\ (thr < f c)%Qc) msg.
Proof.
  intros w C thr fuel t f [HT _] Hr Hf Hs He (l & El & Hl). pose proof (size_array t Hs) as Ha. pose proof (reach_height C t HT Hr) as Hn.
  rewrite (leaf_list C t (nsize t)) in El by lia. injection El as El. unfold pc_vol. rewrite He, (leaf_list C t fuel Hf), El.
  assert (OUT : forall c, in_octree (cT C) (cell c) \/ forall i u, In (i, u) l -> in_node i c = false) by (intros c; rewrite <- El; apply (vol_outside C t c HT Hn Ha)).
  assert (HH : forall i u, In (i, u) l -> 0 <= oh i) by (rewrite <- El; apply (vol_outside C t (I3 0 0 0) HT Hn Ha)).
  destruct (leaves_field w thr l (fun c => in_octree (cT C) (cell c)) f HH Hl OUT) as (cells & E & ND & I).
  exists (map (centre w) cells). rewrite E. split; [reflexivity|]. exists cells. split; [reflexivity|]. split; [exact ND|]. intros c. rewrite I. split; [tauto|].
  intros [H1 H2]. split; [|auto]. destruct (Hl c H1) as (l1 & i & l2 & -> & Hi & _). exists i, (f c). split; [apply in_or_app; right; left; reflexivity|exact Hi].
Qed.
(** For histories of writes to cells (without thresholding and pruning): the cells whose getCellValue is above the threshold. *)
Theorem C63_volumetric_octree_cells : forall w C thr fuel l, vo_valid C -> Forall (cell_call_ok (cT C)) l ->
  let t := vo_run qn keps C (map to_vcall l) in (nsize t <= fuel)%nat -> (1 < nsize t)%nat -> vo_empty qn t = false ->
  exists msg, pc_vol qn w thr fuel C t = Some (Some msg) /\ lists_cells w (fun c => in_octree (cT C) (cell c) /\ (thr < vo_get C t c)%Qc) msg.
Proof.
  intros w C thr fuel l HC Hl t Hf Hs He. destruct (C22_cell_histories_partial C l HC Hl) as [G I]. fold t in G, I. specialize (I Hs).
  assert (Hr : vo_reachable C t).
  { exists (map to_vcall l). split; [|reflexivity]. apply Forall_map. eapply Forall_impl; [|exact Hl]. intros [i v|i u|] Hc; exact Hc. }
  destruct (C63_volumetric_octree_message w C thr fuel t _ HC Hr Hf Hs He I) as (msg & E & cells & E1 & ND & X). exists msg. split; [exact E|].
  exists cells. split; [exact E1|]. split; [exact ND|]. intros c. rewrite X. split; intros [H1 H2]; (split; [exact H1|]); rewrite (G c H1) in *; exact H2.
Qed.

Example C63_vol_ex : exists C l fuel msg, vo_valid C /\ Forall (cell_call_ok (cT C)) l /\
  let t := vo_run qn keps C (map to_vcall l) in (nsize t <= fuel)%nat /\ (1 < nsize t)%nat /\ vo_empty qn t = false /\
  pc_vol qn (1 # 2)%Q (Q2Qc 1) fuel C t = Some (Some msg) /\ msg = [centre (1 # 2) (I3 1 (-2) 1)].
Proof.
  exists (WC 3 (Q2Qc (-2)) (Q2Qc 4)), [CellSet (I3 1 (-2) 1) (Q2Qc 3); CellAdd (I3 0 0 0) (Q2Qc (1 # 2))], 50%nat, [centre (1 # 2) (I3 1 (-2) 1)].
  split; [split; [cbn; lia|reflexivity]|]. split; [repeat constructor; cbn; lia|]. cbv zeta.
  split; [vm_compute; lia|]. split; [vm_compute; lia|]. split; [vm_compute; reflexivity|]. split; [vm_compute; reflexivity|reflexivity].
Qed.
Print Assumptions C63_volumetric_octree_message.
Print Assumptions C63_volumetric_octree_cells.
