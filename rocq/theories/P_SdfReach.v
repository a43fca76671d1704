(** C89, continued: upper bounds on the distances that the quasi-Euclidean generator gives to free cells. *)
From Verif Require Import Base M_IntMath F_IntMath M_Num F_Num M_Ndtree S_Field F_Hash M_Wavelet M_WavHist F_WavHash P_Wavelet
  M_Queue P_Queue M_Occupancy P_Occupancy M_Sdf F_Sdf F_Sdf2 F_Sdf3 P_Sdf P_Sdf2 M_SdfAccuracy P_SdfAccuracy F_SdfReach.
From Coq Require Import QArith Qround Qcanon Qcabs Qabs Lqa.
Close Scope Qc_scope.
Close Scope Q_scope.
Open Scope Z_scope.

(** ** Specification *)
(** [free_steps is c n]: [n] steps between touching free cells lead from [c] to a free cell that touches an occupied one. *)
Inductive free_steps (is : idx3 -> oclass -> Prop) : idx3 -> nat -> Prop :=
| fs_surface a b : is a CFree -> is b COccupied -> touching a b -> free_steps is a 0
| fs_step a c n : free_steps is a n -> is c CFree -> touching a c -> free_steps is c (S n).
(** Half a diagonal of a cell, plus one diagonal and a bit more than one cell width per step *)
Definition reach_bound (w maxd : Q) (rt : Q -> Q) (n : nat) : Q :=
  (w * ((1 # 2) * rt 3 + inject_Z (Z.of_nat n) * (rt 3 + maxd / (maxd - w))))%Q.
(** the largest difference of a coordinate *)
Definition apart (a b : idx3) (n : Z) : Prop :=
  Z.abs (px a - px b) <= n /\ Z.abs (py a - py b) <= n /\ Z.abs (pz a - pz b) <= n /\
  (Z.abs (px a - px b) = n \/ Z.abs (py a - py b) = n \/ Z.abs (pz a - pz b) = n).
Definition within (a b : idx3) (n : Z) : Prop := Z.abs (px a - px b) <= n /\ Z.abs (py a - py b) <= n /\ Z.abs (pz a - pz b) <= n.

(** ** Proofs *)
Lemma touching_offset a b : touching a b -> exists o, In o sdf_offsets /\ b = iadd a o.
Proof.
  intros (N & T). exists (isub b a). destruct a as [x y z], b as [x' y' z']. unfold isub, iadd, imap2. cbn [px py pz] in *. split.
  - apply offsets_in. cbn [px py pz]. split; [lia|]. split; [lia|]. split; [lia|]. intros [= E1 E2 E3]. apply N. f_equal; lia.
  - f_equal; lia.
Qed.
Lemma steps_path (is : idx3 -> oclass -> Prop) c n : free_steps is c n -> exists a, a n = c /\ (forall k, (k <= n)%nat -> is (a k) CFree) /\
  (forall k, (k < n)%nat -> exists o, In o sdf_offsets /\ a (S k) = iadd (a k) o) /\ (exists o, In o sdf_offsets /\ is (iadd (a 0%nat) o) COccupied).
Proof.
  induction 1 as [a b Ha Hb T|p c n _ (a & En & A & S & Z) Hc T].
  - exists (fun _ => a). split; [reflexivity|]. split; [auto|]. split; [lia|]. destruct (touching_offset a b T) as (o & Ho & ->). eauto.
  - exists (fun k => if (k <=? n)%nat then a k else c). split; [|split; [|split]].
    + destruct (Nat.leb_spec (Datatypes.S n) n); [lia|reflexivity].
    + intros k Hk. destruct (Nat.leb_spec k n); [apply A; lia|exact Hc].
    + intros k Hk. destruct (Nat.leb_spec k n); [|lia]. destruct (Nat.leb_spec (Datatypes.S k) n); [apply S; lia|].
      replace k with n by lia. rewrite En. apply touching_offset, T.
    + exact Z.
Qed.
Lemma bound_eq w maxd rt n : (reach_bound w maxd rt n == bound w maxd rt n)%Q.
Proof. unfold reach_bound, bound, bin_width. ring. Qed.
Lemma reach_mono w maxd rt j k : sqrt_like rt -> (0 < w)%Q -> (w < maxd)%Q -> (j <= k)%nat -> (reach_bound w maxd rt j <= reach_bound w maxd rt k)%Q.
Proof.
  intros Hrt Hw Hm H. rewrite !bound_eq. apply (B_mono w rt Hw (rt_pos rt Hrt) (bound w maxd rt) (bin_width w maxd) (bound_S w maxd rt)); [apply bins; assumption|exact H].
Qed.
(** The straight way to an occupied cell leads along free cells up to an occupied one. *)
Definition toward (a b : idx3) : idx3 := I3 (px a + Z.sgn (px b - px a)) (py a + Z.sgn (py b - py a)) (pz a + Z.sgn (pz b - pz a)).
Lemma sgn_step x y n : Z.abs (x - y) <= n + 1 -> 0 <= n -> Z.abs (x + Z.sgn (y - x) - y) <= n /\ Z.abs (x - (x + Z.sgn (y - x))) <= 1.
Proof. intros. destruct (Z.sgn_spec (y - x)) as [[? ->]|[[? ->]|[? ->]]]; lia. Qed.
Lemma within_trans a b c m k : within a b m -> within b c k -> within a c (m + k).
Proof. intros (A1 & A2 & A3) (B1 & B2 & B3). unfold within. split; [clear - A1 B1; lia|]. split; [clear - A2 B2; lia|clear - A3 B3; lia]. Qed.
Lemma within_le a b m k : within a b m -> m <= k -> within a b k.
Proof. intros (A1 & A2 & A3) H. unfold within. lia. Qed.
Lemma within_sym a b m : within a b m -> within b a m.
Proof. intros (A1 & A2 & A3). unfold within. split; [clear - A1; lia|]. split; [clear - A2; lia|clear - A3; lia]. Qed.
Lemma straight_steps (is : idx3 -> oclass -> Prop) o : is o COccupied -> (forall c, is c CFree -> ~ is c COccupied) -> forall n c, is c CFree -> within c o (Z.of_nat n + 1) ->
  (forall x, within c x (Z.of_nat n + 1) -> is x CFree \/ is x COccupied) -> exists k, (k <= n)%nat /\ free_steps is c k.
Proof.
  intros Ho Hx. assert (Base : forall c, is c CFree -> within c o 1 -> free_steps is c 0).
  { intros c Hc W. apply (fs_surface is c o Hc Ho). split; [intros ->; exact (Hx o Hc Ho)|exact W]. }
  induction n as [|n IH]; intros c Hc W Obs; [exists 0%nat; split; [lia|apply Base; assumption]|].
  rewrite Nat2Z.inj_succ in *. set (c' := toward c o).
  destruct W as (W1 & W2 & W3). destruct (sgn_step (px c) (px o) (Z.of_nat n + 1) ltac:(lia) ltac:(lia)) as [A1 B1].
  destruct (sgn_step (py c) (py o) (Z.of_nat n + 1) ltac:(lia) ltac:(lia)) as [A2 B2].
  destruct (sgn_step (pz c) (pz o) (Z.of_nat n + 1) ltac:(lia) ltac:(lia)) as [A3 B3].
  assert (Wc : within c' o (Z.of_nat n + 1)) by (unfold within, c', toward; cbn [px py pz]; auto).
  assert (Tc : within c c' 1) by (unfold within, c', toward; cbn [px py pz]; auto). clearbody c'. clear A1 A2 A3 B1 B2 B3 W1 W2 W3.
  assert (Obs' : forall x, within c' x (Z.of_nat n + 1) -> is x CFree \/ is x COccupied).
  { intros x X. apply Obs. apply within_le with (1 + (Z.of_nat n + 1)); [apply (within_trans c c' x); assumption|lia]. }
  destruct (ieqb_spec c' c) as [->|N].
  - destruct (IH c Hc Wc Obs') as (k & Hk & F). exists k. split; [lia|exact F].
  - destruct (Obs c') as [Hf|Hoc]; [apply within_le with 1; [exact Tc|lia]| |].
    + destruct (IH c' Hf Wc Obs') as (k & Hk & F). exists (S k). split; [lia|]. apply (fs_step is c' c k F Hc). split; [exact N|]. exact (within_sym _ _ _ Tc).
    + exists 0%nat. split; [lia|]. apply (fs_surface is c c' Hc Hoc). split; [congruence|exact Tc].
Qed.

(** ** Theorems *)
(** A free cell from which [n] steps through free space reach the surface of an obstacle has a value of at most [reach_bound n], provided that this is below the maximum distance. *)
Theorem C89_quasi_reached : forall w maxd thr rt lf C m fuel f c n, valid_config C -> hashed_reachable C m -> enough lf -> sqrt_like rt -> (0 < w)%Q -> (w < maxd)%Q ->
  quasi_sdf w maxd thr rt lf fuel C m = Some f -> free_steps (cell_is thr C m) c n -> (reach_bound w maxd rt n < maxd)%Q -> (0 < f c /\ f c <= reach_bound w maxd rt n)%Q.
Proof.
  intros w maxd thr rt lf C m fuel f c n HC Hr Hlf Hrt Hw Hm Hf Hs Hb. assert (Hm0 : (0 < maxd)%Q) by lra.
  destruct (map_leaves_ok thr lf C m HC Hr Hlf) as (l & E & L). unfold quasi_sdf in Hf. rewrite E in Hf.
  destruct (steps_path _ c n Hs) as (a & <- & A & S & Z). rewrite bound_eq in Hb |- *.
  pose proof (quasi_bound w maxd thr rt (map_occ C m) l Hw Hm (rt_pos rt Hrt) L a n fuel f A S Z Hb Hf) as U. split; [|exact U].
  destruct (quasi_result w maxd thr rt (map_occ C m) l Hw Hm0 (rt_pos rt Hrt) L) as (n0 & f' & G & Fi & _).
  assert (Ef : f = f').
  { specialize (G (Nat.max n0 fuel) ltac:(lia)). unfold quasi_generate in G, Hf. set (s0 := quasi_seed _ _ _ _ _ _ _) in *.
    destruct (quasi_propagate w maxd thr rt (map_occ C m) fuel s0) as [s'|] eqn:Ep; [|discriminate]. injection Hf as <-.
    rewrite (quasi_propagate_mono w maxd thr rt (map_occ C m) _ _ _ Ep (Nat.max n0 fuel) ltac:(lia)) in G. cbn [option_map] in G. congruence. }
  subst f'. destruct (Fi (a n)) as (V & _). pose proof (A n ltac:(lia)) as Hfr. destruct V as [V|[(_ & V & _)|(V & _)]]; [lra|exact V|].
  exfalso. destruct (class_excl thr (map_occ C m (a n))). tauto.
Qed.
(** If all cells within [n + 1] cells of a free cell are observed and one of them is occupied, then the value is at most [reach_bound n]. *)
Theorem C89_quasi_observed : forall w maxd thr rt lf C m fuel f c o n, valid_config C -> hashed_reachable C m -> enough lf -> sqrt_like rt -> (0 < w)%Q -> (w < maxd)%Q ->
  quasi_sdf w maxd thr rt lf fuel C m = Some f -> cell_is thr C m c CFree -> cell_is thr C m o COccupied -> within c o (Z.of_nat n + 1) ->
  (forall x, within c x (Z.of_nat n + 1) -> ~ cell_is thr C m x CUnobserved) -> (reach_bound w maxd rt n < maxd)%Q -> (0 < f c /\ f c <= reach_bound w maxd rt n)%Q.
Proof.
  intros w maxd thr rt lf C m fuel f c o n HC Hr Hlf Hrt Hw Hm Hf Hc Ho W Obs Hb.
  destruct (straight_steps (cell_is thr C m) o Ho) with (n := n) (c := c) as (k & Hk & F); try assumption.
  - intros x. apply (class_excl thr).
  - intros x X. specialize (Obs x X). unfold cell_is in *. destruct (class_excl thr (this (hw_get qn C m x))) as (_ & _ & _ & [?|[?|?]]); tauto.
  - pose proof (reach_mono w maxd rt k n Hrt Hw Hm Hk). destruct (C89_quasi_reached w maxd thr rt lf C m fuel f c k HC Hr Hlf Hrt Hw Hm Hf F ltac:(lra)) as [A B]. split; [exact A|lra].
Qed.
(** So the straight distance to the closest obstacle is over-estimated by a factor of at most [rt 3 + maxd / (maxd - w)]. *)
Theorem C89_quasi_over_factor : forall w maxd thr rt lf C m fuel f c o y n, valid_config C -> hashed_reachable C m -> enough lf -> sqrt_like rt -> (0 < w)%Q -> (w < maxd)%Q ->
  quasi_sdf w maxd thr rt lf fuel C m = Some f -> cell_is thr C m c CFree -> cell_is thr C m o COccupied -> in_cube w o y -> apart c o (Z.of_nat n + 1) ->
  (forall x, within c x (Z.of_nat n + 1) -> ~ cell_is thr C m x CUnobserved) -> (reach_bound w maxd rt n < maxd)%Q ->
  (f c * f c <= (rt 3 + maxd / (maxd - w)) * (rt 3 + maxd / (maxd - w)) * sqd (center w c) y)%Q.
Proof.
  intros w maxd thr rt lf C m fuel f c o y n HC Hr Hlf Hrt Hw Hm Hf Hc Ho Hy (W1 & W2 & W3 & W4) Obs Hb.
  destruct (C89_quasi_observed w maxd thr rt lf C m fuel f c o n HC Hr Hlf Hrt Hw Hm Hf Hc Ho (conj W1 (conj W2 W3)) Obs Hb) as [F0 F1].
  assert (R3 : (0 < rt 3)%Q) by (apply (rt_pos rt Hrt 3 3); [reflexivity|lra]). assert (G : (0 < maxd / (maxd - w))%Q) by (apply Qlt_shift_div_l; lra).
  set (g := (maxd / (maxd - w))%Q) in *. set (N := inject_Z (Z.of_nat n)). assert (N0 : (0 <= N)%Q) by (unfold N; change 0%Q with (inject_Z 0); rewrite <- Zle_Qle; lia).
  assert (D : ((N + (1 # 2)) * w * ((N + (1 # 2)) * w) <= sqd (center w c) y)%Q).
  { destruct y as [[y1 y2] y3], c as [c1 c2 c3], o as [o1 o2 o3]. unfold in_cube, sqd, center in *. cbn [px py pz] in *.
    assert (Ax : forall a b v, Z.abs (a - b) = Z.of_nat n + 1 -> (inject_Z b * w <= v -> v <= (inject_Z b + 1) * w ->
      (N + (1 # 2)) * w * ((N + (1 # 2)) * w) <= ((inject_Z a + (1 # 2)) * w - v) * ((inject_Z a + (1 # 2)) * w - v))%Q).
    { intros a b v E V1 V2. assert (E' : a = b + (Z.of_nat n + 1) \/ a = b - (Z.of_nat n + 1)) by lia. destruct E' as [-> | ->]; unfold Z.sub; rewrite ?inject_Z_opp, ?inject_Z_plus, ?inject_Z_opp, ?inject_Z_plus; fold N; change (inject_Z 1) with 1%Q.
      - assert (Q1 : ((N + (1 # 2)) * w <= (inject_Z b + (N + 1) + (1 # 2)) * w - v)%Q) by lra. assert (0 <= (N + (1 # 2)) * w)%Q by nra. nra.
      - assert (Q1 : ((N + (1 # 2)) * w <= v - (inject_Z b + - (N + 1) + (1 # 2)) * w)%Q) by lra. assert (0 <= (N + (1 # 2)) * w)%Q by nra. nra. }
    destruct Hy as (Y1 & Y2 & Y3 & Y4 & Y5 & Y6). pose proof (sqpos ((inject_Z c1 + (1 # 2)) * w - y1)). pose proof (sqpos ((inject_Z c2 + (1 # 2)) * w - y2)). pose proof (sqpos ((inject_Z c3 + (1 # 2)) * w - y3)).
    destruct W4 as [W4|[W4|W4]]; [pose proof (Ax _ _ _ W4 Y1 Y2)|pose proof (Ax _ _ _ W4 Y3 Y4)|pose proof (Ax _ _ _ W4 Y5 Y6)]; lra. }
  assert (L : (f c <= (rt 3 + g) * ((N + (1 # 2)) * w))%Q).
  { eapply Qle_trans; [exact F1|]. unfold reach_bound. fold g N. assert (0 <= w * g)%Q by nra. apply Qle_trans with ((rt 3 + g) * ((N + (1 # 2)) * w) - (1 # 2) * (w * g))%Q; [|lra].
    apply Qle_lteq. right. ring. }
  assert (P0 : (0 <= (N + (1 # 2)) * w)%Q) by nra. assert (S1 : (f c * f c <= (rt 3 + g) * ((N + (1 # 2)) * w) * ((rt 3 + g) * ((N + (1 # 2)) * w)))%Q) by nra.
  eapply Qle_trans; [exact S1|]. setoid_replace ((rt 3 + g) * ((N + (1 # 2)) * w) * ((rt 3 + g) * ((N + (1 # 2)) * w)))%Q with ((N + (1 # 2)) * w * ((N + (1 # 2)) * w) * ((rt 3 + g) * (rt 3 + g)))%Q by ring.
  assert (K0 : (0 <= (rt 3 + g) * (rt 3 + g))%Q) by apply sqpos. eapply Qle_trans; [apply Qmult_le_compat_r; [exact D|exact K0]|]. apply Qle_lteq. right. apply Qmult_comm.
Qed.
(** The hypotheses are met: with a maximum distance of 8, cell (3,1,1) of the map of [C44_ex] is one step away from a cell that touches (1,1,1). *)
Example C89_reach_ex : exists f, quasi_sdf 1 8 0 newton exlf 200 exC exm44 = Some f /\ valid_config exC /\ hashed_reachable exC exm44 /\ enough exlf /\ sqrt_like newton /\
  free_steps (cell_is 0 exC exm44) (I3 3 1 1) 1 /\ (reach_bound 1 8 newton 1 < 4)%Q /\ (1 < f (I3 3 1 1) /\ f (I3 3 1 1) < 4)%Q.
Proof.
  pose proof C44_hyps as (H1 & H2 & _ & _ & _ & _ & H5 & H6 & H7 & _).
  assert (S : match quasi_sdf 1 8 0 newton exlf 200 exC exm44 with Some f => Qle_bool (11 # 10) (f (I3 3 1 1)) && Qle_bool (f (I3 3 1 1)) 2 | None => false end = true) by (vm_compute; reflexivity).
  destruct (quasi_sdf 1 8 0 newton exlf 200 exC exm44) as [f|]; [|discriminate]. apply andb_true_iff in S as [A B]. apply Qle_bool_iff in A, B. exists f.
  split; [reflexivity|]. split; [exact H1|]. split; [exact H2|]. split; [exact C44_enough|]. split; [exact (proj1 C89_newton)|]. split; [|split; [vm_compute; reflexivity|split; lra]].
  apply (fs_step _ (I3 2 1 1)); [apply (fs_surface _ (I3 2 1 1) (I3 1 1 1)); assumption| |].
  - apply free_le. vm_compute. reflexivity.
  - split; [discriminate|cbn; lia].
Qed.
(** An observed neighbourhood: the cells of a block around (2,2,2), of which (1,1,1) is occupied. *)
Definition exfull : list (Z * hcall) :=
  map (fun c => (0, HAdd c (Q2Qc (if px c + py c + pz c =? 3 then 2 else -1)))) (flat_map (fun x => flat_map (fun y => map (fun z => I3 x y z) [1; 2; 3]) [1; 2; 3]) [1; 2; 3]).
Example C89_observed_ex : hashed_reachable exC (hw_run exC exfull) /\ cell_is 0 exC (hw_run exC exfull) (I3 2 2 2) CFree /\ cell_is 0 exC (hw_run exC exfull) (I3 1 1 1) COccupied /\
  apart (I3 2 2 2) (I3 1 1 1) (Z.of_nat 0 + 1) /\ (forall x, within (I3 2 2 2) x (Z.of_nat 0 + 1) -> ~ cell_is 0 exC (hw_run exC exfull) x CUnobserved) /\
  (reach_bound 1 4 newton 0 < 4)%Q.
Proof.
  split; [exists exfull; reflexivity|]. split; [apply free_le; vm_compute; reflexivity|]. split; [apply occ_ge; vm_compute; reflexivity|].
  split; [unfold apart; cbn; lia|]. split; [|vm_compute; reflexivity].
  intros n (T1 & T2 & T3). destruct n as [x y z]. cbn [px py pz Z.of_nat] in *.
  assert (K : forall v, Z.abs (2 - v) <= 0 + 1 -> v = 1 \/ v = 2 \/ v = 3) by (intros; lia). apply K in T1, T2, T3.
  destruct T1 as [->|[->| ->]], T2 as [->|[->| ->]], T3 as [->|[->| ->]]; intros U; unfold cell_is in U; cbn [class_of] in U; revert U; vm_compute; intros [U1 U2]; first [discriminate U1|discriminate U2|exact (U1 eq_refl)|exact (U2 eq_refl)].
Qed.
Print Assumptions C89_quasi_reached.
Print Assumptions C89_quasi_observed.
Print Assumptions C89_quasi_over_factor.
