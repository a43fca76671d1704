(** Full Euclidean distance fields. *)
From Verif Require Import Base M_IntMath M_Grid P_Grid M_Adjacency M_Num M_Ndtree F_Hash M_Wavelet M_Queue P_Queue M_Occupancy P_Occupancy M_Sdf F_Sdf F_Sdf2.
From Coq Require Import QArith Qround Qabs Lqa.
Close Scope Q_scope.
Open Scope Z_scope.

(** ** Distances *)
Lemma cheb_pos c p : c <> p -> 1 <= cheb c p.
Proof.
  intros H. destruct c as [x y z], p as [x' y' z']. unfold cheb. cbn [px py pz]. assert (~ (x = x' /\ y = y' /\ z = z')) by (intros (-> & -> & ->); apply H; reflexivity). lia.
Qed.
Lemma cheb_sym a b : cheb a b = cheb b a.
Proof. unfold cheb. lia. Qed.
Lemma cheb_offset p o : In o sdf_offsets -> cheb (iadd p o) p = 1.
Proof.
  intros Ho. apply offsets_in in Ho as (O1 & O2 & O3 & O4). unfold cheb, iadd, imap2. cbn [px py pz].
  destruct o as [x y z]; cbn [px py pz] in *. assert (~ (x = 0 /\ y = 0 /\ z = 0)) by (intros (-> & -> & ->); apply O4; reflexivity). lia.
Qed.
Lemma cheb_le a b k : cheb a b <= k <-> Z.abs (px a - px b) <= k /\ Z.abs (py a - py b) <= k /\ Z.abs (pz a - pz b) <= k.
Proof. unfold cheb. rewrite !Z.max_lub_iff. reflexivity. Qed.
Lemma cheb_tri a b c : cheb a c <= cheb a b + cheb b c.
Proof.
  destruct (proj1 (cheb_le a b (cheb a b)) (Z.le_refl _)) as (A1 & A2 & A3). destruct (proj1 (cheb_le b c (cheb b c)) (Z.le_refl _)) as (B1 & B2 & B3).
  set (u := cheb a b) in *. set (v := cheb b c) in *. clearbody u v. apply cheb_le. split; [clear A2 A3 B2 B3; lia|]. split; [clear A1 A3 B1 B3; lia|clear A1 A2 B1 B2; lia].
Qed.
Section DIST.
Context (w : Q) (rt : Q -> Q) (Hw : (0 < w)%Q).
Context (Hmono : forall x y, (0 <= x)%Q -> (x <= y)%Q -> (rt x <= rt y)%Q) (Hpos : forall x, (0 < x)%Q -> (0 < rt x)%Q).
(** half-cell gap along an axis for an index difference [k] >= 0 *)
Definition gapq (k : Z) : Q := if k <=? 0 then 0%Q else ((inject_Z k - (1 # 2)) * w)%Q.
Lemma axis_gap_abs c p : (axis_gap w c p == gapq (Z.abs (c - p)) \/ axis_gap w c p == - gapq (Z.abs (c - p)))%Q.
Proof.
  unfold axis_gap, gapq. set (C := inject_Z c). set (P := inject_Z p).
  destruct (Z_lt_le_dec c p) as [L|L].
  - assert (A : (C + 1 <= P)%Q) by (unfold C, P; change 1%Q with (inject_Z 1); rewrite <- inject_Z_plus, <- Zle_Qle; lia).
    assert (A' : ((C + 1) * w <= P * w)%Q) by (apply Qmult_le_compat_r; lra).
    replace (qlt_b ((C + (1 # 2)) * w) (P * w)) with true by (symmetry; apply qlt_b_lt; lra).
    replace (qlt_b (P * w + w) (P * w)) with false by (symmetry; apply qlt_b_ge; lra).
    replace (Z.abs (c - p) <=? 0) with false by (symmetry; apply Z.leb_gt; lia). right.
    replace (Z.abs (c - p)) with (p - c) by lia. unfold Z.sub. rewrite inject_Z_plus, inject_Z_opp. fold C P. ring.
  - assert (A : (P <= C)%Q) by (unfold C, P; rewrite <- Zle_Qle; lia). assert (A' : (P * w <= C * w)%Q) by (apply Qmult_le_compat_r; lra).
    replace (qlt_b ((C + (1 # 2)) * w) (P * w)) with false by (symmetry; apply qlt_b_ge; lra).
    destruct (Z.eq_dec c p) as [E|E].
    + assert (E' : (C == P)%Q) by (unfold C, P; rewrite E; reflexivity). assert (E'' : (C * w == P * w)%Q) by (rewrite E'; reflexivity).
      replace (qlt_b (P * w + w) ((C + (1 # 2)) * w)) with false by (symmetry; apply qlt_b_ge; lra).
      replace (Z.abs (c - p) <=? 0) with true by (symmetry; apply Z.leb_le; lia). left. ring.
    + assert (B : (P + 1 <= C)%Q) by (unfold C, P; change 1%Q with (inject_Z 1); rewrite <- inject_Z_plus, <- Zle_Qle; lia).
      assert (B' : ((P + 1) * w <= C * w)%Q) by (apply Qmult_le_compat_r; lra).
      replace (qlt_b (P * w + w) ((C + (1 # 2)) * w)) with true by (symmetry; apply qlt_b_lt; lra).
      replace (Z.abs (c - p) <=? 0) with false by (symmetry; apply Z.leb_gt; lia). left.
      replace (Z.abs (c - p)) with (c - p) by lia. unfold Z.sub. rewrite inject_Z_plus, inject_Z_opp. fold C P. ring.
Qed.
Lemma axis_gap_sq c p : (axis_gap w c p * axis_gap w c p == gapq (Z.abs (c - p)) * gapq (Z.abs (c - p)))%Q.
Proof. destruct (axis_gap_abs c p) as [-> | ->]; ring. Qed.
Lemma gapq_nonneg k : (0 <= gapq k)%Q.
Proof.
  unfold gapq. destruct (Z.leb_spec k 0); [lra|]. apply Qmult_le_0_compat; [|lra].
  assert (1 <= inject_Z k)%Q by (change 1%Q with (inject_Z 1); rewrite <- Zle_Qle; lia). lra.
Qed.
Lemma gapq_mono a b : a <= b -> (gapq a <= gapq b)%Q.
Proof.
  intros H. unfold gapq. destruct (Z.leb_spec a 0).
  - pose proof (gapq_nonneg b) as N. unfold gapq in N. exact N.
  - replace (b <=? 0) with false by (symmetry; apply Z.leb_gt; lia). apply Qmult_le_compat_r; [|lra].
    assert (inject_Z a <= inject_Z b)%Q by (rewrite <- Zle_Qle; lia). lra.
Qed.
Lemma sq_mono a b : (0 <= a -> a <= b -> a * a <= b * b)%Q.
Proof. intros. apply Qle_trans with (a * b)%Q; [rewrite (Qmult_comm a b); apply Qmult_le_compat_r; lra|apply Qmult_le_compat_r; lra]. Qed.
Definition D2 (c p : idx3) : Q :=
  let gx := gapq (Z.abs (px c - px p)) in let gy := gapq (Z.abs (py c - py p)) in let gz := gapq (Z.abs (pz c - pz p)) in
  (gx * gx + gy * gy + gz * gz)%Q.
Lemma D2_nonneg c p : (0 <= D2 c p)%Q.
Proof.
  unfold D2. pose proof (fun k => Qmult_le_0_compat _ _ (gapq_nonneg k) (gapq_nonneg k)) as N.
  pose proof (N (Z.abs (px c - px p))). pose proof (N (Z.abs (py c - py p))). pose proof (N (Z.abs (pz c - pz p))). lra.
Qed.
Lemma rt_eq x y : (0 <= x)%Q -> (x == y)%Q -> (rt x == rt y)%Q.
Proof. intros H E. apply Qle_antisym; apply Hmono; lra. Qed.
Lemma minD_eq c p : (minDistanceTo w rt c p == rt (D2 c p))%Q.
Proof.
  unfold minDistanceTo. symmetry. apply rt_eq; [apply D2_nonneg|]. unfold D2. rewrite !axis_gap_sq. reflexivity.
Qed.
Lemma D2_mono c p c' p' : Z.abs (px c - px p) <= Z.abs (px c' - px p') -> Z.abs (py c - py p) <= Z.abs (py c' - py p') -> Z.abs (pz c - pz p) <= Z.abs (pz c' - pz p') ->
  (D2 c p <= D2 c' p')%Q.
Proof.
  intros A B C. unfold D2. pose proof (fun a b H => sq_mono _ _ (gapq_nonneg a) (gapq_mono a b H)) as M.
  pose proof (M _ _ A). pose proof (M _ _ B). pose proof (M _ _ C). lra.
Qed.
Lemma minD_mono c p c' p' : Z.abs (px c - px p) <= Z.abs (px c' - px p') -> Z.abs (py c - py p) <= Z.abs (py c' - py p') -> Z.abs (pz c - pz p) <= Z.abs (pz c' - pz p') ->
  (minDistanceTo w rt c p <= minDistanceTo w rt c' p')%Q.
Proof. intros. rewrite !minD_eq. apply Hmono; [apply D2_nonneg|apply D2_mono; assumption]. Qed.
(** a lower bound by the Chebyshev distance, an upper bound *)
Lemma D2_cheb c p : 1 <= cheb c p -> ((inject_Z (cheb c p) - (1 # 2)) * w * ((inject_Z (cheb c p) - (1 # 2)) * w) <= D2 c p)%Q.
Proof.
  intros H. pose proof (fun k => Qmult_le_0_compat _ _ (gapq_nonneg k) (gapq_nonneg k)) as N. unfold D2.
  pose proof (N (Z.abs (px c - px p))). pose proof (N (Z.abs (py c - py p))). pose proof (N (Z.abs (pz c - pz p))).
  assert (E : forall k, cheb c p = k -> ((inject_Z (cheb c p) - (1 # 2)) * w * ((inject_Z (cheb c p) - (1 # 2)) * w) == gapq k * gapq k)%Q).
  { intros k <-. unfold gapq. replace (cheb c p <=? 0) with false by (symmetry; apply Z.leb_gt; lia). reflexivity. }
  assert (X : cheb c p = Z.abs (px c - px p) \/ cheb c p = Z.abs (py c - py p) \/ cheb c p = Z.abs (pz c - pz p)) by (unfold cheb; lia).
  destruct X as [X|[X|X]]; rewrite (E _ X); lra.
Qed.
Lemma D2_upper c p k : 1 <= k -> cheb c p <= k -> (D2 c p <= 3 * ((inject_Z k - (1 # 2)) * w * ((inject_Z k - (1 # 2)) * w)))%Q.
Proof.
  intros Hk H. pose proof (fun a b H => sq_mono _ _ (gapq_nonneg a) (gapq_mono a b H)) as M. unfold D2. unfold cheb in H.
  pose proof (M (Z.abs (px c - px p)) k ltac:(lia)). pose proof (M (Z.abs (py c - py p)) k ltac:(lia)). pose proof (M (Z.abs (pz c - pz p)) k ltac:(lia)).
  assert (E : (gapq k == (inject_Z k - (1 # 2)) * w)%Q) by (unfold gapq; replace (k <=? 0) with false by (symmetry; apply Z.leb_gt; lia); reflexivity).
  assert (E2 : (gapq k * gapq k == (inject_Z k - (1 # 2)) * w * ((inject_Z k - (1 # 2)) * w))%Q) by (rewrite E; reflexivity). lra.
Qed.
Lemma minD_pos c p : c <> p -> (0 < minDistanceTo w rt c p)%Q.
Proof.
  intros H. rewrite minD_eq. apply Hpos. apply cheb_pos in H. pose proof (D2_cheb c p H) as K. eapply Qlt_le_trans; [|exact K].
  assert (1 <= inject_Z (cheb c p))%Q by (change 1%Q with (inject_Z 1); rewrite <- Zle_Qle; lia).
  assert (0 < (inject_Z (cheb c p) - (1 # 2)) * w)%Q by (apply Qmult_lt_0_compat; lra). apply Qmult_lt_0_compat; assumption.
Qed.
Lemma minD_upper1 c p : cheb c p <= 1 -> (minDistanceTo w rt c p <= rt ((3 # 4) * (w * w)))%Q.
Proof.
  intros H. rewrite minD_eq. apply Hmono; [apply D2_nonneg|]. pose proof (D2_upper c p 1 ltac:(lia) H) as K. eapply Qle_trans; [exact K|].
  change (inject_Z 1) with 1%Q. assert (0 <= w * w)%Q by (apply Qmult_le_0_compat; lra). nra.
Qed.
Lemma minD_upper2 c p : cheb c p <= 2 -> (minDistanceTo w rt c p <= rt ((27 # 4) * (w * w)))%Q.
Proof.
  intros H. rewrite minD_eq. apply Hmono; [apply D2_nonneg|]. pose proof (D2_upper c p 2 ltac:(lia) H) as K. eapply Qle_trans; [exact K|].
  change (inject_Z 2) with 2%Q. assert (0 <= w * w)%Q by (apply Qmult_le_0_compat; lra). nra.
Qed.
Lemma minD_lower2 c p : 2 <= cheb c p -> (rt ((9 # 4) * (w * w)) <= minDistanceTo w rt c p)%Q.
Proof.
  intros H. rewrite minD_eq. assert (W : (0 <= w * w)%Q) by (apply Qmult_le_0_compat; lra). apply Hmono; [lra|].
  pose proof (D2_cheb c p ltac:(lia)) as K. eapply Qle_trans; [|exact K].
  assert (2 <= inject_Z (cheb c p))%Q by (change 2%Q with (inject_Z 2); rewrite <- Zle_Qle; lia).
  set (k := inject_Z (cheb c p)) in *. assert (M : ((3 # 2) * w <= (k - (1 # 2)) * w)%Q) by (apply Qmult_le_compat_r; lra).
  assert (S0 := sq_mono ((3 # 2) * w) ((k - (1 # 2)) * w) ltac:(lra) M). lra.
Qed.
(** bounded distance, bounded index difference *)
Lemma minD_bound c p B d : (0 <= B)%Q -> (d <= rt B)%Q -> (minDistanceTo w rt c p < d)%Q -> cheb c p <= Qceiling (2 * B / (w * w)) + 1.
Proof.
  intros HB0 HB H. rewrite minD_eq in H. assert (W : (0 < w * w)%Q) by (apply Qmult_lt_0_compat; lra).
  assert (L : (D2 c p < B)%Q) by (apply Qnot_le_lt; intros X; pose proof (Hmono _ _ HB0 X); lra).
  assert (K0 : 0 <= Qceiling (2 * B / (w * w))) by (change 0 with (Qceiling 0); apply Qceiling_resp_le; apply Qle_shift_div_l; lra).
  destruct (Z_le_gt_dec (cheb c p) 1); [lia|]. pose proof (D2_cheb c p ltac:(lia)) as K.
  enough (cheb c p - 1 <= Qceiling (2 * B / (w * w))) by lia. rewrite Zle_Qle.
  apply Qle_trans with (2 * B / (w * w))%Q; [|apply Qle_ceiling]. apply Qle_shift_div_l; [assumption|].
  assert (E : (inject_Z (cheb c p - 1) == inject_Z (cheb c p) - 1)%Q) by (unfold Z.sub; rewrite inject_Z_plus; reflexivity). rewrite E.
  assert (2 <= inject_Z (cheb c p))%Q by (change 2%Q with (inject_Z 2); rewrite <- Zle_Qle; lia). set (k := inject_Z (cheb c p)) in *.
  assert (M : ((k - (1 # 2)) * 1 <= (k - (1 # 2)) * (k - (1 # 2)))%Q) by (rewrite !(Qmult_comm (k - (1 # 2))); apply Qmult_le_compat_r; lra).
  assert (M2 : ((k - (1 # 2)) * 1 * (w * w) <= (k - (1 # 2)) * (k - (1 # 2)) * (w * w))%Q) by (apply Qmult_le_compat_r; lra).
  assert (M3 : ((k - (1 # 2)) * w * ((k - (1 # 2)) * w) == (k - (1 # 2)) * (k - (1 # 2)) * (w * w))%Q) by ring.
  rewrite M3 in K. lra.
Qed.
(** the clamped index of a node's box is closest to [p] *)
Lemma minD_clamp mn mx p n : inb mn mx n -> (minDistanceTo w rt p (clampi mn mx p) <= minDistanceTo w rt p n)%Q.
Proof. intros H. unfold inb in H. apply minD_mono; unfold clampi, imap2; cbn [px py pz]; lia. Qed.
End DIST.

(** ** Propagation and seeding *)
Section FULL.
Context (w maxd thr : Q) (rt : Q -> Q) (occ : idx3 -> Q) (leaves : list (oidx * Q)) (B : Q).
Context (Hw : (0 < w)%Q) (Hm : (0 < maxd)%Q).
Context (Hmono : forall x y, (0 <= x)%Q -> (x <= y)%Q -> (rt x <= rt y)%Q) (Hpos : forall x, (0 < x)%Q -> (0 < rt x)%Q).
Context (HB0 : (0 <= B)%Q) (HB : (maxd <= rt B)%Q) (Hbig : (rt ((3 # 4) * (w * w)) < maxd)%Q).
Context (HL : leaves_ok thr occ leaves).
Notation fr c := (class_of thr (occ c) CFree).
Notation oc c := (class_of thr (occ c) COccupied).
Notation un c := (class_of thr (occ c) CUnobserved).
Notation sd := (seeds thr leaves).
Notation TS := (tasks thr leaves).
Notation md := (minDistanceTo w rt).

Definition vset (c p : idx3) (d : Q) : Prop :=
  In p sd /\ (0 < md c p)%Q /\ (md c p < maxd)%Q /\
  (fr c /\ oc p /\ (d == md c p)%Q \/ oc c /\ fr p /\ (d == - md c p)%Q).
Definition fok (c : idx3) (v : vdist) : Prop := match vd_parent v with None => (vd_dist v == maxd)%Q | Some p => vset c p (vd_dist v) end.
Definition fborder (c : idx3) (v : vdist) : Prop := forall o, In o sdf_offsets -> fr c -> oc (iadd c o) -> (vd_dist v <= md c (iadd c o))%Q.
Definition uns (f : idx3 -> vdist) (c : idx3) : bool := is_none (vd_parent (f c)).
Definition ffinv (f : idx3 -> vdist) : Prop := forall c, fok c (f c) /\ fborder c (f c).

Lemma md_adj p o : In o sdf_offsets -> (md (iadd p o) p < maxd)%Q /\ (md p (iadd p o) < maxd)%Q.
Proof.
  intros Ho. pose proof (cheb_offset p o Ho) as K. split; eapply Qle_lt_trans; try exact Hbig; apply (minD_upper1 w rt Hw Hmono Hpos).
  - lia.
  - rewrite cheb_sym. lia.
Qed.
Lemma free_occ_neq a b : fr a -> oc b -> a <> b.
Proof. intros A C ->. destruct (class_excl thr (occ b)). tauto. Qed.

Lemma fnb_cases p v s o : In o sdf_offsets -> fok p v -> fborder p v -> fok (iadd p o) (f_fld s (iadd p o)) ->
  let n := iadd p o in let s' := full_neighbor w maxd thr rt occ p v s o in
  (f_q s' = f_q s /\ (forall c, f_fld s' c = f_fld s c) /\
     (vd_parent v = None \/ (exists pp, vd_parent v = Some pp /\ (maxd <= md n pp)%Q) \/ un n \/ (fr n /\ oc p))) \/
  exists x, f_fld s' = fput (f_fld s) n x /\ fok n x /\ vd_parent x <> None /\
    (fr n -> (vd_dist x <= vd_dist (f_fld s n))%Q) /\
    exists k, f_q s' = (if uns (f_fld s) n then bq_push (f_q s) k n else f_q s).
Proof.
  intros Ho Vp Vb Nv n. cbv zeta. unfold full_neighbor. fold n. fold n in Nv. unfold uns. destruct (f_fld s n) as [np dn] eqn:Efn.
  destruct v as [[pp|] dv]; cbn [vd_parent vd_dist] in *; [|left; auto].
  destruct (Qle_bool maxd (md n pp)) eqn:Ec; [left; apply Qle_bool_iff in Ec; split; [reflexivity|]; split; [reflexivity|]; right; left; eauto|].
  assert (Lc : (md n pp < maxd)%Q) by (apply Qnot_le_lt; intros X; apply Qle_bool_iff in X; congruence). clear Ec.
  destruct (class_excl thr (occ n)) as (X1 & X2 & X3 & X4).
  unfold fok in Vp. cbn [vd_parent vd_dist] in Vp. destruct Vp as (Vs & Vm1 & Vm2 & Vp).
  assert (Sv : signbit dv = true /\ oc p /\ fr pp \/ signbit dv = false /\ fr p /\ oc pp).
  { destruct Vp as [(A1 & A2 & A3)|(A1 & A2 & A3)]; [right; split; [apply qlt_b_ge; lra|auto]|left; split; [apply qlt_b_lt; lra|auto]]. }
  cbn [vd_parent vd_dist]. destruct np as [np|]; cbn [is_none andb].
  2:{ (* unset neighbor *)
    unfold fok in Nv. cbn [vd_parent vd_dist] in Nv.
    destruct (oc_is_id thr (occ n) kUnobserved) eqn:Eu; [apply (is_class _ _ _ CUnobserved) in Eu; [|tauto]; left; auto 10|apply (is_class_false _ _ _ CUnobserved) in Eu; [|tauto]].
    destruct (oc_is_id thr (occ n) kOccupied) eqn:Eo; [apply (is_class _ _ _ COccupied) in Eo; [|tauto]|apply (is_class_false _ _ _ COccupied) in Eo; [|tauto]].
    + assert (S1 : signbit (- maxd) = true) by (apply qlt_b_lt; lra). change (qlt_b (- maxd) 0) with (signbit (- maxd)). rewrite S1. cbn [negb]. rewrite andb_false_r.
      assert (Am : (Qabs (- maxd) == maxd)%Q) by (rewrite Qabs_opp; apply abs_pos; lra).
      right. unfold copysign. rewrite S1.
      destruct Sv as [(-> & S2 & S3)|(-> & S2 & S3)]; cbn [xorb negb].
      * assert (Ln : (0 < md n pp)%Q) by (apply (minD_pos w rt Hw Hmono Hpos); intros E; apply (free_occ_neq pp n S3 Eo); symmetry; exact E).
        replace (qlt_b (md n pp) (Qabs (- maxd))) with true by (symmetry; apply qlt_b_lt; lra).
        eexists. split; [reflexivity|]. cbn [vd_parent vd_dist]. split; [|split; [discriminate|split; [tauto|eexists; reflexivity]]].
        unfold fok. cbn [vd_parent vd_dist]. split; [assumption|]. split; [assumption|]. split; [assumption|]. right. split; [assumption|]. split; [assumption|]. rewrite abs_pos by lra. reflexivity.
      * pose proof (md_adj p o Ho) as [Ma _]. fold n in Ma.
        assert (Ln : (0 < md n p)%Q) by (apply (minD_pos w rt Hw Hmono Hpos); intros E; apply (free_occ_neq p n S2 Eo); symmetry; exact E).
        replace (qlt_b (md n p) (Qabs (- maxd))) with true by (symmetry; apply qlt_b_lt; lra).
        eexists. split; [reflexivity|]. cbn [vd_parent vd_dist]. split; [|split; [discriminate|split; [tauto|eexists; reflexivity]]].
        unfold fok. cbn [vd_parent vd_dist]. split; [apply (seeds_next thr occ leaves HL p o Ho Eo); destruct (class_excl thr (occ p)); tauto|]. split; [assumption|]. split; [assumption|]. right. split; [assumption|]. split; [assumption|]. rewrite abs_pos by lra. reflexivity.
    + assert (Hf : fr n) by tauto. assert (S1 : signbit dn = false) by (apply qlt_b_ge; lra). change (qlt_b dn 0) with (signbit dn). rewrite S1. cbn [negb]. rewrite andb_true_r.
      destruct Sv as [(-> & S2 & S3)|(-> & S2 & S3)]; cbn [xorb negb].
      * left. split; [reflexivity|]. split; [|right; right; right; auto]. intros c. cbn [f_fld]. unfold fput. destruct (ieqb_spec n c) as [<-|]; [|reflexivity]. symmetry; exact Efn.
      * right. assert (Am : (Qabs dn == maxd)%Q) by (rewrite Nv; apply abs_pos; lra).
        assert (Ln : (0 < md n pp)%Q) by (apply (minD_pos w rt Hw Hmono Hpos); exact (free_occ_neq n pp Hf S3)).
        replace (qlt_b (md n pp) (Qabs dn)) with true by (symmetry; apply qlt_b_lt; lra).
        eexists. split; [reflexivity|]. unfold copysign. rewrite S1. cbn [vd_parent vd_dist]. split; [|split; [discriminate|split; [intros _; rewrite abs_pos; lra|eexists; reflexivity]]].
        unfold fok. cbn [vd_parent vd_dist]. split; [assumption|]. split; [assumption|]. split; [assumption|]. left. split; [assumption|]. split; [assumption|]. apply abs_pos; lra.
  }
  - (* set neighbor *)
    unfold fok in Nv. cbn [vd_parent vd_dist] in Nv.
    assert (Nv0 := Nv). destruct Nv as (Ns & Nm1 & Nm2 & Nv).
    destruct Nv as [(N1 & N2 & N3)|(N1 & N2 & N3)].
    + assert (S1 : signbit dn = false) by (apply qlt_b_ge; lra). change (qlt_b dn 0) with (signbit dn). rewrite S1. cbn [negb]. rewrite andb_true_r.
      destruct Sv as [(-> & S2 & S3)|(-> & S2 & S3)]; cbn [xorb negb].
      * left. split; [reflexivity|]. split; [|right; right; right; auto]. intros c. cbn [f_fld]. unfold fput. destruct (ieqb_spec n c) as [<-|]; [|reflexivity]. symmetry; exact Efn.
      * right. assert (Ln : (0 < md n pp)%Q) by (apply (minD_pos w rt Hw Hmono Hpos); exact (free_occ_neq n pp N1 S3)).
        destruct (qlt_b (md n pp) (Qabs dn)) eqn:El; [apply qlt_b_lt in El|]; (eexists; split; [reflexivity|]); cbn [vd_parent vd_dist].
        -- unfold copysign. rewrite S1. rewrite (abs_pos dn) in El by lra. split; [|split; [discriminate|split; [intros _; rewrite abs_pos; lra|exists 0%Q; reflexivity]]].
           unfold fok. cbn [vd_parent vd_dist]. split; [assumption|]. split; [assumption|]. split; [assumption|]. left. split; [assumption|]. split; [assumption|]. apply abs_pos; lra.
        -- split; [exact Nv0|]. split; [discriminate|]. split; [intros; lra|exists 0%Q; reflexivity].
    + assert (S1 : signbit dn = true) by (apply qlt_b_lt; lra). change (qlt_b dn 0) with (signbit dn). rewrite S1. cbn [negb]. rewrite andb_false_r.
      right. unfold copysign. rewrite S1. destruct Sv as [(-> & S2 & S3)|(-> & S2 & S3)]; cbn [xorb negb].
      * assert (Ln : (0 < md n pp)%Q) by (apply (minD_pos w rt Hw Hmono Hpos); intros E; apply (free_occ_neq pp n S3 N1); symmetry; exact E).
        destruct (qlt_b (md n pp) (Qabs dn)) eqn:El; (eexists; split; [reflexivity|]); cbn [vd_parent vd_dist].
        -- split; [|split; [discriminate|split; [tauto|exists 0%Q; reflexivity]]].
           unfold fok. cbn [vd_parent vd_dist]. split; [assumption|]. split; [assumption|]. split; [assumption|]. right. split; [assumption|]. split; [assumption|]. rewrite abs_pos by lra. reflexivity.
        -- split; [exact Nv0|]. split; [discriminate|]. split; [intros; lra|exists 0%Q; reflexivity].
      * pose proof (md_adj p o Ho) as [Ma _]. fold n in Ma.
        assert (Ln : (0 < md n p)%Q) by (apply (minD_pos w rt Hw Hmono Hpos); intros E; apply (free_occ_neq p n S2 N1); symmetry; exact E).
        destruct (qlt_b (md n p) (Qabs dn)) eqn:El; (eexists; split; [reflexivity|]); cbn [vd_parent vd_dist].
        -- split; [|split; [discriminate|split; [tauto|exists 0%Q; reflexivity]]].
           unfold fok. cbn [vd_parent vd_dist]. split; [apply (seeds_next thr occ leaves HL p o Ho N1); destruct (class_excl thr (occ p)); tauto|]. split; [assumption|]. split; [assumption|]. right. split; [assumption|]. split; [assumption|]. rewrite abs_pos by lra. reflexivity.
        -- split; [exact Nv0|]. split; [discriminate|]. split; [intros; lra|exists 0%Q; reflexivity].
Qed.

Definition cnt (F : list idx3) (u : idx3 -> bool) : nat := length (filter u F).
Lemma cnt_le F f g : (forall c, g c = true -> f c = true) -> (cnt F g <= cnt F f)%nat.
Proof.
  intros H. unfold cnt. induction F as [|c F IH]; cbn; [auto|]. destruct (g c) eqn:E.
  - rewrite (H c E). cbn. apply le_n_S. assumption.
  - destruct (f c); cbn; auto.
Qed.
Lemma cnt_lt F f g n : (forall c, g c = true -> f c = true) -> In n F -> f n = true -> g n = false -> (cnt F g < cnt F f)%nat.
Proof.
  intros H. unfold cnt. induction F as [|c F IH]; [intros []|]. intros [-> | Hn] E1 E2; cbn.
  - rewrite E1, E2. cbn. pose proof (cnt_le F f g H) as X. unfold cnt in X. unfold lt. apply le_n_S. assumption.
  - specialize (IH Hn E1 E2). unfold lt in *. destruct (g c) eqn:E; [rewrite (H c E)|destruct (f c)]; cbn; auto. apply le_n_S. assumption.
Qed.

Definition fregion : list idx3 :=
  let K := Qceiling (2 * B / (w * w)) + 1 in
  flat_map (fun s => grid3 (imap (fun c => c - K) s) (imap (fun c => c + K) s)) sd.
Lemma fregion_in c x : fok c x -> vd_parent x <> None -> In c fregion.
Proof.
  intros V Hx. unfold fok in V. destruct (vd_parent x) as [p|]; [|congruence]. destruct V as (Hs & _ & Hd & _).
  pose proof (minD_bound w rt Hw Hmono Hpos c p B maxd HB0 HB Hd) as K.
  assert (W : (0 < w * w)%Q) by (apply Qmult_lt_0_compat; lra).
  assert (K0 : 0 <= Qceiling (2 * B / (w * w))) by (change 0 with (Qceiling 0); apply Qceiling_resp_le; apply Qle_shift_div_l; lra).
  unfold fregion. apply in_flat_map. exists p. split; [assumption|]. set (k := Qceiling (2 * B / (w * w))) in *. clearbody k.
  unfold cheb in K. apply grid3_in; cbn [imap px py pz]; clear - K K0; lia.
Qed.

Definition big2 : Prop := (rt ((27 # 4) * (w * w)) < maxd)%Q /\ (rt ((3 # 4) * (w * w)) < rt ((9 # 4) * (w * w)))%Q.
Record flst (m : nat) (s : fst_) (l : list idx3) : Prop := FLst {
  fl_q : holds (f_q s) l; fl_f : ffinv (f_fld s); fl_m : (cnt fregion (uns (f_fld s)) + length l <= m)%nat }.
Lemma uns_not f c : uns f c = false <-> vd_parent (f c) <> None.
Proof. unfold uns. destruct (vd_parent (f c)); cbn; split; congruence. Qed.

Lemma fnb_step p v m s l o : In o sdf_offsets -> fok p v -> fborder p v -> flst m s l ->
  let s' := full_neighbor w maxd thr rt occ p v s o in
  exists l', flst m s' l' /\ (forall c, In c l -> In c l') /\ (forall c, uns (f_fld s') c = true -> uns (f_fld s) c = true) /\
    (big2 -> fr p -> vd_parent v <> None -> oc (iadd p o) -> uns (f_fld s') (iadd p o) = false).
Proof.
  intros Ho Vp Vb [Lq Lf Lm]. cbv zeta. pose proof (fnb_cases p v s o Ho Vp Vb) as NC. cbv zeta in NC.
  set (s' := full_neighbor w maxd thr rt occ p v s o) in *. set (n := iadd p o) in *. destruct (Lf n) as (A1 & A2).
  destruct (NC A1) as [(C1 & C2 & C3)|(x & C1 & C2 & C3 & C4 & k & C5)].
  - exists l. split; [|split; [auto|split]].
    + constructor; [rewrite C1; assumption| |].
      * intros c. rewrite C2. apply Lf.
      * assert (E : (cnt fregion (uns (f_fld s')) <= cnt fregion (uns (f_fld s)))%nat) by (apply cnt_le; intros c; unfold uns; rewrite C2; auto). eapply Nat.le_trans; [|exact Lm]. apply Nat.add_le_mono_r. assumption.
    + intros c. unfold uns. rewrite C2. auto.
    + intros [Hb1 Hb2] Hf Hv Hoc. exfalso. destruct (class_excl thr (occ n)) as (X1 & X2 & X3 & _). destruct (class_excl thr (occ p)) as (Y1 & _).
      destruct C3 as [C3|[(pp & C3 & C3')|[C3|[C3 C4]]]]; [exact (Hv C3)| |exact (X3 Hoc C3)|exact (X1 C3 Hoc)].
      pose proof (Vb o Ho Hf Hoc) as Bd. fold n in Bd. unfold fok in Vp. rewrite C3 in Vp. destruct Vp as (_ & _ & _ & [(_ & _ & E)|(E & _)]); [|exact (Y1 Hf E)].
      pose proof (minD_upper1 w rt Hw Hmono Hpos p n) as U. rewrite cheb_sym in U. unfold n in U at 1. rewrite (cheb_offset p o Ho) in U. specialize (U (Z.le_refl 1)).
      assert (K : cheb p pp <= 1).
      { destruct (Z_le_gt_dec (cheb p pp) 1) as [K|K]; [exact K|]. exfalso. assert (K' : 2 <= cheb p pp) by (clear - K; lia). pose proof (minD_lower2 w rt Hw Hmono Hpos p pp K') as L2. clear - L2 U E Bd Hb2. lra. }
      assert (K2 : cheb n pp <= 2). { pose proof (cheb_tri n p pp) as T. unfold n in T at 2. rewrite (cheb_offset p o Ho) in T. clear - T K. lia. }
      pose proof (minD_upper2 w rt Hw Hmono Hpos n pp K2) as U2. clear - U2 Hb1 C3'. lra.
  - assert (Mono : forall c, uns (f_fld s') c = true -> uns (f_fld s) c = true).
    { intros c. rewrite C1. unfold uns, fput. destruct (ieqb_spec n c) as [<-|]; [|auto]. destruct (vd_parent x); [discriminate|congruence]. }
    assert (Sn : uns (f_fld s') n = false) by (apply uns_not; rewrite C1, fput_same; assumption).
    assert (Fi : ffinv (f_fld s')).
    { intros c. rewrite C1. unfold fput. destruct (ieqb_spec n c) as [<-|]; [|apply Lf]. split; [assumption|].
      intros o' Ho' Hf Hoc. specialize (A2 o' Ho' Hf Hoc). specialize (C4 Hf). clear - A2 C4. lra. }
    pose proof (fregion_in n x C2 C3) as Hin.
    exists (if uns (f_fld s) n then l ++ [n] else l). split; [|split; [|split; [assumption|]]].
    + constructor; [|assumption|].
      * rewrite C5. destruct (uns (f_fld s) n); [apply holds_push|]; assumption.
      * destruct (uns (f_fld s) n) eqn:E.
        -- rewrite app_length. cbn [length]. pose proof (cnt_lt fregion _ _ n Mono Hin E Sn) as X. clear - X Lm. lia.
        -- pose proof (cnt_le fregion _ _ Mono) as X. clear - X Lm. lia.
    + intros c Hc. destruct (uns (f_fld s) n); [apply in_or_app; left|]; assumption.
    + intros _ _ _ _. assumption.
Qed.
Lemma fnb_fold p v m os : (forall o, In o os -> In o sdf_offsets) -> fok p v -> fborder p v -> forall s l, flst m s l ->
  let s' := fold_left (full_neighbor w maxd thr rt occ p v) os s in
  exists l', flst m s' l' /\ (forall c, In c l -> In c l') /\ (forall c, uns (f_fld s') c = true -> uns (f_fld s) c = true) /\
    (big2 -> fr p -> vd_parent v <> None -> forall o, In o os -> oc (iadd p o) -> uns (f_fld s') (iadd p o) = false).
Proof.
  intros Hos Vp Vb. induction os as [|o os IH]; intros s l L; cbv zeta; cbn [fold_left].
  - exists l. split; [assumption|]. split; [auto|]. split; [auto|]. intros _ _ _ o [].
  - destruct (fnb_step p v m s l o (Hos o (or_introl eq_refl)) Vp Vb L) as (l1 & L1 & A1 & B1 & D1).
    destruct (IH (fun o' H => Hos o' (or_intror H)) _ _ L1) as (l2 & L2 & A2 & B2 & D2).
    set (s1 := full_neighbor w maxd thr rt occ p v s o) in *. set (s2 := fold_left _ os s1) in *.
    exists l2. split; [assumption|]. split; [auto|]. split; [auto|].
    intros Hb Hf Hv o' [<-|Ho'] Hoc; [|apply D2; assumption]. specialize (D1 Hb Hf Hv Hoc). destruct (uns (f_fld s2) (iadd p o)) eqn:E; [|reflexivity]. apply B2 in E. congruence.
Qed.

Record fpinv (s : fst_) (l : list idx3) : Prop := FPinv {
  fp_q : holds (f_q s) l; fp_f : ffinv (f_fld s);
  fp_e : big2 -> forall p o, border_pair thr occ p o -> uns (f_fld s) p = false /\ (In p l \/ uns (f_fld s) (iadd p o) = false) }.
Lemma full_step_ok s l : fpinv s l -> l <> [] -> exists s' l', full_step w maxd thr rt occ s = Some s' /\ fpinv s' l' /\
    (cnt fregion (uns (f_fld s')) + length l' < cnt fregion (uns (f_fld s)) + length l)%nat.
Proof.
  intros [Pq Pf Pe] Hne. unfold full_step. destruct (holds_next _ _ Pq Hne) as (p & l1 & l2 & Ef & El & Hp).
  destruct (bq_front (f_q s)) as [q1 fr0] eqn:Eq. cbn [fst snd] in *. rewrite Ef.
  destruct (Pf p) as (V1 & V2). set (s0 := FS (f_fld s) (bq_pop q1)).
  assert (L0 : flst (cnt fregion (uns (f_fld s)) + length (l1 ++ l2)) s0 (l1 ++ l2)) by (constructor; [exact Hp|exact Pf|apply le_n]).
  destruct (fnb_fold p (f_fld s p) _ sdf_offsets (fun o H => H) V1 V2 s0 _ L0) as (l' & [Lq Lf Lm] & A & B0 & D).
  set (s' := fold_left _ _ s0) in *. exists s', l'. split; [reflexivity|]. split.
  - constructor; [assumption|assumption|]. intros Hb c o Hbp. destruct (Pe Hb c o Hbp) as [U P].
    assert (Keep : forall x, uns (f_fld s) x = false -> uns (f_fld s') x = false) by (intros x Hx; destruct (uns (f_fld s') x) eqn:E1; [apply B0 in E1; cbn [s0 f_fld] in E1; congruence|reflexivity]).
    split; [apply Keep; assumption|]. destruct P as [P|P]; [|right; apply Keep; assumption].
    rewrite El in P. apply in_app_or in P as [P|[<-|P]]; [left; apply A, in_or_app; auto| |left; apply A, in_or_app; auto].
    right. destruct Hbp as (Ho & Hf & Hoc). apply D; try assumption. apply uns_not. assumption.
  - rewrite app_length in Lm. rewrite El, app_length. cbn [length] in *. clear - Lm. lia.
Qed.
Lemma full_propagate_ok : forall fuel s l, fpinv s l -> (cnt fregion (uns (f_fld s)) + length l <= fuel)%nat ->
  exists s', full_propagate w maxd thr rt occ fuel s = Some s' /\ fpinv s' [].
Proof.
  induction fuel as [|fuel IH]; intros s l P Hf; cbn [full_propagate].
  - destruct l; [|cbn in Hf; clear - Hf; lia]. replace (bq_empty (f_q s)) with true by (symmetry; apply (holds_empty _ _ (fp_q _ _ P)); reflexivity). eauto.
  - destruct (bq_empty (f_q s)) eqn:E.
    + apply (holds_empty _ _ (fp_q _ _ P)) in E. subst l. eauto.
    + assert (Hne : l <> []) by (intros ->; rewrite (proj2 (holds_empty _ _ (fp_q _ _ P)) eq_refl) in E; discriminate).
      destruct (full_step_ok s l P Hne) as (s' & l' & -> & P' & M). apply (IH s' l' P'). clear - M Hf. lia.
Qed.
Lemma full_propagate_mono : forall fuel s s', full_propagate w maxd thr rt occ fuel s = Some s' ->
  forall fuel', (fuel <= fuel')%nat -> full_propagate w maxd thr rt occ fuel' s = Some s'.
Proof.
  clear. induction fuel as [|fuel IH]; intros s s' H fuel' Hf; destruct fuel' as [|fuel']; cbn [full_propagate] in *; destruct (bq_empty (f_q s)); try assumption; try discriminate; try lia.
  destruct (full_step w maxd thr rt occ s); [|discriminate]. apply IH; [assumption|lia].
Qed.

(** Seeding *)
Record fsinv (s : fst_) (l : list idx3) : Prop := FSinv {
  fsi_q : holds (f_q s) l; fsi_f : forall c, fok c (f_fld s c); fsi_l : forall c, uns (f_fld s) c = false -> In c l }.
Definition fdone (t : oidx * idx3) (s : fst_) : Prop :=
  let near := clampi (minCorner (fst t)) (maxCorner (fst t)) (snd t) in
  fr (snd t) -> snd t <> near -> (vd_dist (f_fld s (snd t)) <= md (snd t) near)%Q.
Lemma near_occ i c : In (i, c) TS -> oc (clampi (minCorner i) (maxCorner i) c).
Proof. intros H. destruct (task_corners thr occ leaves HL i c H) as (B1 & B2 & B3). apply (task_occ thr occ leaves HL i c _ H). apply clampi_inb; assumption. Qed.
Lemma near_seed i c : In (i, c) TS -> In (clampi (minCorner i) (maxCorner i) c) sd /\ cheb c (clampi (minCorner i) (maxCorner i) c) <= 1.
Proof.
  intros H. destruct (task_in thr leaves i c H) as (u & Hu & Ho & Hp). destruct (lo_box _ _ _ HL i u Hu) as (B1 & B2 & B3).
  pose proof (clampi_inb (minCorner i) (maxCorner i) c B1 B2 B3) as I. unfold inb in I.
  assert (P0 : forall x, In x (pad (i, u)) <-> px (minCorner i) - 1 <= px x <= px (maxCorner i) + 1 /\ py (minCorner i) - 1 <= py x <= py (maxCorner i) + 1 /\ pz (minCorner i) - 1 <= pz x <= pz (maxCorner i) + 1).
  { intros x. unfold pad. cbn [fst]. rewrite grid3_in; cbn [imap px py pz]; clear - B1 B2 B3; [reflexivity|lia|lia|lia]. }
  split.
  - apply (task_seed thr leaves i). unfold tasks. apply in_flat_map. exists (i, u). split; [assumption|]. cbn [fst snd].
    rewrite (proj2 (is_class thr u kOccupied COccupied (or_intror (or_introl (conj eq_refl eq_refl)))) Ho). apply in_map. apply P0. set (n := clampi _ _ _) in *. clear - I. lia.
  - apply P0 in Hp. unfold cheb, clampi, imap2 in *. cbn [px py pz] in *. clear - Hp B1 B2 B3. lia.
Qed.
Lemma fseed_step t s l : In t TS -> fsinv s l ->
  let s' := full_seed_cell w thr rt occ (minCorner (fst t)) (maxCorner (fst t)) s (snd t) in
  (exists l', fsinv s' l') /\ fdone t s' /\ (forall c, (vd_dist (f_fld s' c) <= vd_dist (f_fld s c))%Q).
Proof.
  intros Ht [Sq Sf Sl]. destruct t as [i p]. cbn [fst snd]. cbv zeta. unfold full_seed_cell. fold (clampi (minCorner i) (maxCorner i) p).
  pose proof (near_occ i p Ht) as No. pose proof (near_seed i p Ht) as [Ns Nc].
  unfold fdone. cbn [fst snd]. set (near := clampi (minCorner i) (maxCorner i) p) in *. clearbody near.
  destruct (ieqb_spec p near) as [E|E].
  { split; [exists l; constructor; assumption|]. split; [intros _ X; exfalso; exact (X E)|intros c; apply Qle_refl]. }
  destruct (oc_is_id thr (occ p) kFree) eqn:Ef; cbn [negb].
  2:{ split; [exists l; constructor; assumption|]. split; [|intros c; apply Qle_refl]. intros X. exfalso. apply (is_class thr (occ p) kFree CFree (or_introl (conj eq_refl eq_refl))) in X. congruence. }
  apply (is_class thr (occ p) kFree CFree (or_introl (conj eq_refl eq_refl))) in Ef.
  pose proof (minD_pos w rt Hw Hmono Hpos p near E) as Dp. pose proof (minD_upper1 w rt Hw Hmono Hpos p near Nc) as Du.
  assert (Dm : (md p near < maxd)%Q) by (clear - Du Hbig; lra).
  set (d := md p near) in *.
  assert (New : fok p (VD (Some near) d)).
  { unfold fok. cbn [vd_parent vd_dist]. split; [assumption|]. split; [assumption|]. split; [assumption|]. left. split; [assumption|]. split; [assumption|]. reflexivity. }
  pose proof (Sf p) as Vp. destruct (f_fld s p) as [pp dv] eqn:Efp. cbn [vd_parent vd_dist].
  destruct (qlt_b d dv) eqn:El; [apply qlt_b_lt in El|apply qlt_b_ge in El].
  - split; [|split].
    + exists (if is_none pp then l ++ [p] else l). constructor.
      * cbn [f_q]. destruct (is_none pp); [apply holds_push|]; assumption.
      * intros c. cbn [f_fld]. unfold fput. destruct (ieqb_spec p c) as [<-|]; [exact New|apply Sf].
      * intros c Hc. cbn [f_fld] in Hc. unfold uns, fput in Hc. destruct (ieqb_spec p c) as [E0|].
        -- subst c. destruct pp; cbn [is_none]; [apply Sl; unfold uns; rewrite Efp; reflexivity|apply in_or_app; right; left; reflexivity].
        -- destruct (is_none pp); [apply in_or_app; left|]; apply Sl; exact Hc.
    + intros _ _. cbn [f_fld]. rewrite fput_same. cbn [vd_dist]. apply Qle_refl.
    + intros c. cbn [f_fld]. unfold fput. destruct (ieqb_spec p c) as [E0|]; [|apply Qle_refl]. subst c. rewrite Efp. cbn [vd_dist]. clear - El. lra.
  - split; [|split].
    + exists (if is_none pp then l ++ [p] else l). constructor.
      * cbn [f_q]. destruct (is_none pp); [apply holds_push|]; assumption.
      * exact Sf.
      * intros c Hc. cbn [f_fld] in Hc. destruct (is_none pp); [apply in_or_app; left|]; apply Sl; exact Hc.
    + intros _ _. cbn [f_fld]. rewrite Efp. exact El.
    + intros c. apply Qle_refl.
Qed.
Lemma fseed_all : exists l, fpinv (full_seed w thr rt occ leaves (FS (fun _ => VD None maxd) (bq_new (sdf_num_bins w maxd) maxd))) l.
Proof.
  set (s0 := FS _ _).
  assert (S0 : exists l, fsinv s0 l).
  { exists []. constructor.
    - apply holds_new; [|assumption]. unfold sdf_num_bins. assert (A : (0 < maxd / w)%Q) by (apply Qlt_shift_div_l; [assumption|clear - Hm; lra]).
      assert (B1 : (0 < inject_Z (Qceiling (maxd / w)))%Q) by (apply Qlt_le_trans with (maxd / w)%Q; [assumption|apply Qle_ceiling]).
      change 0%Q with (inject_Z 0) in B1. rewrite <- Zlt_Qlt in B1. assumption.
    - intros c. reflexivity.
    - intros c H. discriminate H. }
  unfold full_seed. rewrite (seed_tasks (full_seed_cell w thr rt occ) (full_seed_leaf w thr rt occ) thr leaves s0 (fun _ _ => eq_refl)).
  destruct (fold_each (fun s t => full_seed_cell w thr rt occ (minCorner (fst t)) (maxCorner (fst t)) s (snd t)) (fun s => exists l, fsinv s l) fdone TS) with (s := s0) as [[l SI] D].
  - intros s t Ht [l SI]. destruct (fseed_step t s l Ht SI) as (A & B1 & _). auto.
  - intros s t t' Ht Ht' [l SI] D. destruct (fseed_step t s l Ht SI) as (_ & _ & C). intros Hf Hn. specialize (D Hf Hn). specialize (C (snd t')). cbv zeta in D. eapply Qle_trans; [exact C|exact D].
  - exact S0.
  - set (s := fold_left _ TS s0) in *. destruct SI as [Sq Sf Sl].
    assert (VB : forall p o, In o sdf_offsets -> fr p -> oc (iadd p o) -> (vd_dist (f_fld s p) <= md p (iadd p o))%Q).
    { intros p o Ho Hf Hoc. destruct (task_next thr occ leaves HL p o Ho Hoc) as (i & Hi & Hb).
      assert (Hne : p <> clampi (minCorner i) (maxCorner i) p) by (apply free_occ_neq; [assumption|apply near_occ; assumption]).
      pose proof (D (i, p) Hi Hf Hne) as L. cbn [fst snd] in L. pose proof (minD_clamp w rt Hw Hmono Hpos _ _ p _ Hb) as K. eapply Qle_trans; [exact L|exact K]. }
    exists l. constructor; [assumption| |].
    + intros c. split; [apply Sf|]. intros o Ho Hf Hoc. apply VB; assumption.
    + intros _ p o (Ho & Hf & Hoc). assert (U : uns (f_fld s) p = false).
      { pose proof (VB p o Ho Hf Hoc) as L. pose proof (proj2 (md_adj p o Ho)) as M. specialize (Sf p). unfold fok, uns in *. destruct (vd_parent (f_fld s p)); [reflexivity|]. exfalso. clear - L M Sf. lra. }
      split; [assumption|]. left. apply Sl. assumption.
Qed.
Lemma full_result : exists n f, (forall fuel, (n <= fuel)%nat -> full_generate w maxd thr rt occ fuel leaves = Some (fun c => vd_dist (f c))) /\
  ffinv f /\ (big2 -> forall p o, border_pair thr occ p o -> uns f (iadd p o) = false).
Proof.
  destruct fseed_all as [l P]. set (s0 := full_seed _ _ _ _ _ _) in *.
  destruct (full_propagate_ok (cnt fregion (uns (f_fld s0)) + length l)%nat s0 l P (le_n _)) as (s' & E & P').
  exists (cnt fregion (uns (f_fld s0)) + length l)%nat, (f_fld s'). split; [|split].
  - intros fuel Hf. unfold full_generate. fold s0. rewrite (full_propagate_mono _ _ _ E fuel Hf). reflexivity.
  - apply P'.
  - intros Hb p o Hbp. destruct (fp_e _ _ P' Hb p o Hbp) as [_ [[]|X]]. exact X.
Qed.
End FULL.
