(** Full Euclidean distance fields: upper bounds on the values of free cells, as in F_SdfReach.v. *)
From Verif Require Import Base M_IntMath M_Grid P_Grid M_Adjacency M_Num M_Ndtree F_Hash M_Wavelet M_Queue P_Queue M_Occupancy P_Occupancy M_Sdf F_Sdf F_Sdf2 F_Sdf3 F_SdfReach.
From Coq Require Import QArith Qround Qabs Lqa.
Close Scope Q_scope.
Open Scope Z_scope.

Section REACH.
Context (w maxd thr : Q) (rt : Q -> Q) (occ : idx3 -> Q) (leaves : list (oidx * Q)).
Context (Hw : (0 < w)%Q) (Hm : (w < maxd)%Q).
Context (Hmono : forall x y, (0 <= x)%Q -> (x <= y)%Q -> (rt x <= rt y)%Q) (Hpos : forall x, (0 < x)%Q -> (0 < rt x)%Q).
Context (Hbig : (rt ((3 # 4) * (w * w)) < maxd)%Q) (HL : leaves_ok thr occ leaves).
Notation fr c := (class_of thr (occ c) CFree).
Notation oc c := (class_of thr (occ c) COccupied).
Notation num := (sdf_num_bins w maxd).
Notation md := (minDistanceTo w rt).
Notation fok := (fok w maxd thr rt occ leaves).
Notation fborder := (fborder w thr rt occ).
Notation ffinv := (ffinv w maxd thr rt occ leaves).
Lemma maxd_pos2 : (0 < maxd)%Q. Proof using Hw Hm. clear - Hw Hm. lra. Qed.
Lemma fok_abs c v : fok c v -> uns (fun _ => v) c = true -> (Qabs (vd_dist v) == maxd)%Q.
Proof using Hw Hm. pose proof maxd_pos2 as M. unfold F_Sdf3.fok, uns. destruct (vd_parent v); [discriminate|]. intros E _. rewrite E. apply Qabs_pos. clear - M. lra. Qed.

(** the value and the key given to a neighbor *)
Lemma fnb_more p v s o : let n := iadd p o in let s' := full_neighbor w maxd thr rt occ p v s o in fok n (f_fld s n) -> (forall pp, vd_parent v = Some pp -> (0 <= md n pp)%Q) -> (0 <= md n p)%Q ->
  (f_q s' = f_q s /\ (forall c, f_fld s' c = f_fld s c)) \/
  exists k x pp, vd_parent v = Some pp /\ f_fld s' = fput (f_fld s) n x /\ f_q s' = (if uns (f_fld s) n then bq_push (f_q s) k n else f_q s) /\ (Qabs (vd_dist x) <= Qabs k)%Q /\
    (Qabs (vd_dist x) <= Qabs (vd_dist (f_fld s n)))%Q /\ (fr n -> (vd_dist x <= md n pp)%Q /\ k = md n pp).
Proof using Hw Hm.
  intros n s' Nv P1 P2. unfold s', full_neighbor. fold n. pose proof maxd_pos2 as M. unfold uns. set (nv := f_fld s n) in *.
  destruct (vd_parent v) as [pp|] eqn:Ev; [|left; auto]. specialize (P1 pp eq_refl).
  destruct (Qle_bool maxd (md n pp)); [left; auto|]. destruct (is_none (vd_parent nv) && oc_is_id thr (occ n) kUnobserved); [left; auto|].
  set (d1 := if is_none (vd_parent nv) && oc_is_id thr (occ n) kOccupied then (- maxd)%Q else vd_dist nv).
  assert (A1 : (Qabs d1 == Qabs (vd_dist nv))%Q).
  { unfold d1. destruct (is_none (vd_parent nv)) eqn:Eu; cbn [andb]; [|reflexivity]. destruct (oc_is_id thr (occ n) kOccupied); [|reflexivity].
    rewrite Qabs_opp. pose proof (fok_abs n nv Nv Eu) as E. rewrite E. apply Qabs_pos. clear - M. lra. }
  destruct (xorb (signbit d1) (signbit (vd_dist v)) && negb (qlt_b d1 0)) eqn:Ex.
  - left. split; [reflexivity|]. cbn [f_fld]. intros c. unfold fput. destruct (ieqb_spec n c) as [<-|]; [|reflexivity]. fold nv.
    unfold d1 in *. destruct (is_none (vd_parent nv) && oc_is_id thr (occ n) kOccupied); [|destruct nv; reflexivity].
    exfalso. apply andb_true_iff in Ex as [_ Ex]. replace (qlt_b (- maxd) 0) with true in Ex by (symmetry; apply qlt_b_lt; clear - M; lra). discriminate.
  - right. set (cr := xorb (signbit d1) (signbit (vd_dist v))) in *. set (cand1 := if cr then md n p else md n pp) in *.
    assert (C0 : (0 <= cand1)%Q) by (unfold cand1; destruct cr; assumption).
    exists cand1. eexists. exists pp. split; [reflexivity|]. split; [reflexivity|]. split; [reflexivity|].
    assert (Dx : forall x, x = (if qlt_b cand1 (Qabs d1) then VD (if cr then Some p else Some pp) (copysign cand1 d1) else VD (vd_parent nv) d1) ->
      (Qabs (vd_dist x) <= Qabs cand1)%Q /\ (Qabs (vd_dist x) <= Qabs d1)%Q).
    { intros x ->. pose proof (Qabs_pos cand1 C0) as AC. destruct (qlt_b cand1 (Qabs d1)) eqn:E; cbn [vd_dist]; [apply qlt_b_lt in E|apply qlt_b_ge in E].
      - rewrite copysign_abs, AC. clear - E. split; lra.
      - rewrite AC. clear - E. split; lra. }
    destruct (Dx _ eq_refl) as [D1 D2]. split; [exact D1|]. split; [rewrite <- A1; exact D2|].
    intros Hf. destruct (class_excl thr (occ n)) as (X1 & X2 & _).
    assert (E1 : d1 = vd_dist nv). { unfold d1. replace (oc_is_id thr (occ n) kOccupied) with false; [rewrite andb_false_r; reflexivity|]. symmetry. apply (is_class_false _ _ _ COccupied); [right; left; split; reflexivity|exact (X1 Hf)]. }
    assert (E2 : qlt_b d1 0 = false).
    { rewrite E1. apply qlt_b_ge. unfold F_Sdf3.fok in Nv. destruct (vd_parent nv) as [np|].
      - destruct Nv as (_ & N1 & _ & [(_ & _ & N2)|(N2 & _)]); [clear - N1 N2; lra|exfalso; exact (X1 Hf N2)].
      - clear - Nv M. lra. }
    rewrite E2 in Ex. rewrite andb_true_r in Ex. unfold cand1 in *. rewrite Ex in *. split; [|reflexivity].
    eapply Qle_trans; [apply Qle_Qabs|]. eapply Qle_trans; [exact D1|]. apply Qle_lteq. right. apply Qabs_pos, C0.
Qed.

(** A path of free cells that starts next to an occupied one *)
Context (a : nat -> idx3) (n : nat) (B : nat -> Q) (g lip e : Q).
Context (Hfr : forall k, (k <= n)%nat -> fr (a k)) (Hadj : forall k, (k < n)%nat -> exists o, In o sdf_offsets /\ a (S k) = iadd (a k) o).
Context (HB0 : (rt ((3 # 4) * (w * w)) <= B 0%nat)%Q) (HBs : forall k, (lip * (B k + g) + e <= B (S k))%Q) (HBn : (B n < maxd)%Q).
Context (Hg : (0 <= g)%Q) (He : (0 <= e)%Q) (Hlip : (1 <= lip)%Q) (Hgn : (maxd <= g * inject_Z (num - 1))%Q) (Hnum : 2 <= num).
Context (Htri : forall p pp o, In o sdf_offsets -> (md (iadd p o) pp <= lip * md p pp + e)%Q).
Lemma B0_pos : (0 < B 0%nat)%Q.
Proof using Hw HB0 Hpos. clear - Hw HB0 Hpos. assert ((0 < (3 # 4) * (w * w))%Q) by nra. pose proof (Hpos _ H). lra. Qed.
Lemma B_pos2 k : (0 < B k)%Q.
Proof using Hw HB0 Hpos HBs Hg He Hlip. induction k as [|k IH]; [exact B0_pos|]. pose proof (HBs k). clear - IH H Hg He Hlip. nra. Qed.
Lemma B_mono2 j k : (j <= k)%nat -> (B j <= B k)%Q.
Proof using Hw HB0 Hpos HBs Hg He Hlip. induction 1 as [|k H IH]; [apply Qle_refl|]. pose proof (HBs k) as S. pose proof (B_pos2 k) as P. clear - S IH P Hg He Hlip. nra. Qed.
Lemma B_step2 j k : (j < k)%nat -> (lip * (B j + g) + e <= B k)%Q.
Proof using Hw HB0 Hpos HBs Hg He Hlip. intros H. pose proof (B_mono2 (S j) k H) as M. pose proof (HBs j) as S. clear - M S. lra. Qed.
Lemma B_max2 k : (k <= n)%nat -> (B k < maxd)%Q.
Proof using Hw HB0 Hpos HBs Hg He Hlip HBn. intros H. pose proof (B_mono2 k n H) as M. clear - M HBn. lra. Qed.
Context (Hnn : forall x, (0 <= x)%Q -> (0 <= rt x)%Q).
Lemma md_nonneg c p : (0 <= md c p)%Q.
Proof using Hw Hmono Hpos Hnn. clear - Hw Hmono Hpos Hnn. rewrite (minD_eq w rt Hw Hmono Hpos). apply Hnn, (D2_nonneg w rt Hw Hmono Hpos). Qed.

Notation fd s c := (vd_dist (f_fld s c)).
Record fcore (s : fst_) (l : list (Z * idx3)) : Prop := FCore {
  fc_q : kq num maxd (f_q s) l; fc_f : ffinv (f_fld s);
  fc_a : forall k, (k <= n)%nat -> uns (f_fld s) (a k) = false -> (fd s (a k) <= B k)%Q;
  fc_v : forall i c, In (i, c) l -> exists x, bucket_of_key num maxd x i /\ (Qabs (fd s c) <= Qabs x)%Q;
  fc_k : forall i k, (k <= n)%nat -> In (i, a k) l -> exists x, bucket_of_key num maxd x i /\ (Qabs x <= B k)%Q }.
Definition fahead (s : fst_) (l : list (Z * idx3)) (k : nat) : Prop := uns (f_fld s) (a k) = false -> ~ inq (a k) l -> uns (f_fld s) (a (S k)) = false.

Lemma freach_step p v s l o : In o sdf_offsets -> fok p v -> fborder p v -> fcore s l ->
  (forall k, (k <= n)%nat -> uns (f_fld s) (a k) = true -> vd_parent v <> None -> (lip * Qabs (vd_dist v) + e <= B k)%Q) ->
  let s' := full_neighbor w maxd thr rt occ p v s o in
  exists l', fcore s' l' /\ (forall c, uns (f_fld s') c = true -> uns (f_fld s) c = true) /\ f_fld s' p = f_fld s p /\
    (forall k, (k < n)%nat -> fahead s l k -> fahead s' l' k) /\
    (fr (iadd p o) -> fr p -> vd_parent v <> None -> (lip * Qabs (vd_dist v) + e < maxd)%Q -> uns (f_fld s') (iadd p o) = false).
Proof using Hw Hm Hmono Hpos Hbig HL Hfr Htri Hnn Hadj HB0 HBs HBn Hg He Hlip Hgn Hnum.
  intros Ho Vp Vb Co Hs. cbv zeta. pose proof Co as [Cq Cf Ca Cv Ck]. set (m := iadd p o). destruct (Cf m) as (N1 & N2). pose proof maxd_pos2 as Hm0.
  pose proof (fnb_cases w maxd thr rt occ leaves 0%Q Hw Hm0 Hmono Hpos (Qle_refl 0) Hbig HL p v s o Ho Vp Vb N1) as NC.
  pose proof (fnb_more p v s o N1 (fun pp _ => md_nonneg _ pp) (md_nonneg _ p)) as NM. cbv zeta in NC, NM. fold m in NC, NM.
  set (s' := full_neighbor w maxd thr rt occ p v s o) in *.
  assert (MD : forall pp, vd_parent v = Some pp -> (md m pp <= lip * Qabs (vd_dist v) + e)%Q).
  { intros pp Ep. unfold F_Sdf3.fok in Vp. rewrite Ep in Vp. destruct Vp as (_ & V1 & _ & V2). eapply Qle_trans; [apply Htri, Ho|].
    assert (E : (Qabs (vd_dist v) == md p pp)%Q); [|rewrite E; apply Qle_refl].
    destruct V2 as [(_ & _ & ->)|(_ & _ & ->)]; rewrite ?Qabs_opp; apply Qabs_pos, Qlt_le_weak, V1. }
  assert (Unch : f_q s' = f_q s -> (forall c, f_fld s' c = f_fld s c) -> exists l', fcore s' l' /\ (forall c, uns (f_fld s') c = true -> uns (f_fld s) c = true) /\
    f_fld s' p = f_fld s p /\ (forall k, (k < n)%nat -> fahead s l k -> fahead s' l' k)).
  { intros Eq Ef. assert (Eu : forall c, uns (f_fld s') c = uns (f_fld s) c) by (intros c; unfold uns; rewrite Ef; reflexivity). exists l. split; [|split; [|split]].
    - constructor.
      + rewrite Eq. exact Cq.
      + intros c. rewrite Ef. apply Cf.
      + intros k Hk. rewrite Eu, Ef. apply Ca, Hk.
      + intros i c. rewrite Ef. apply Cv.
      + exact Ck.
    - intros c. rewrite Eu. auto.
    - apply Ef.
    - intros k _. unfold fahead. rewrite !Eu. auto. }
  destruct NC as [(D1 & D2 & D3)|(x & D1 & D2 & D4 & D5 & k0 & D7)].
  { destruct (Unch D1 D2) as (l' & A1 & A2 & A3 & A4). exists l'. split; [exact A1|]. split; [exact A2|]. split; [exact A3|]. split; [exact A4|].
    intros Hf Hfp Hv Hl. exfalso. destruct (class_excl thr (occ m)) as (X1 & X2 & _). destruct (class_excl thr (occ p)) as (Y1 & _). destruct D3 as [D3|[(pp & D3 & D4)|[D3|[_ D4]]]]; [exact (Hv D3)| |exact (X2 Hf D3)|exact (Y1 Hfp D4)].
    pose proof (MD pp D3) as L. clear - L D4 Hl. lra. }
  assert (Sm : uns (f_fld s') m = false) by (unfold uns; rewrite D1, fput_same; destruct (vd_parent x); [reflexivity|congruence]).
  destruct NM as [(E1 & E2)|(k & x' & pp & Epp & E1 & E2 & E3 & E3' & E4)].
  { destruct (Unch E1 E2) as (l' & A1 & A2 & A3 & A4). exists l'. split; [exact A1|]. split; [exact A2|]. split; [exact A3|]. split; [exact A4|]. intros _ _ _ _. exact Sm. }
  assert (Ex : x' = x). { assert (X : fput (f_fld s) m x' m = fput (f_fld s) m x m) by congruence. rewrite !fput_same in X. exact X. } subst x'. clear D7 k0 E1.
  assert (Vpn : vd_parent v <> None) by congruence. pose proof (MD pp Epp) as MD'. clear MD.
  assert (Mono : forall c, uns (f_fld s') c = true -> uns (f_fld s) c = true).
  { intros c. destruct (ieqb_spec m c) as [<-|N]; [congruence|]. unfold uns. rewrite D1, fput_other by exact N. auto. }
  assert (Lq : exists l', kq num maxd (f_q s') l' /\ (forall e, In e l -> In e l') /\ (uns (f_fld s) m = true -> inq m l') /\
    (forall e, In e l' -> In e l \/ uns (f_fld s) m = true /\ snd e = m /\ bucket_of_key num maxd k (fst e))).
  { rewrite E2. destruct (uns (f_fld s) m).
    - destruct (kq_push num maxd _ l k m Cq) as (b & Hb & Hq). exists (l ++ [(b, m)]). split; [exact Hq|]. split; [intros; apply in_or_app; auto|].
      split; [intros _; exists b; apply in_or_app; right; left; reflexivity|]. intros e' He'. apply in_app_or in He' as [He'|[<-|[]]]; [auto|]. right. cbn. auto.
    - exists l. split; [exact Cq|]. split; [auto|]. split; [discriminate|auto]. }
  destruct Lq as (l' & Lq & L1 & L2 & L3). exists l'. split; [constructor|split; [|split; [|split]]].
  - exact Lq.
  - intros c. rewrite D1. unfold fput. destruct (ieqb_spec m c) as [<-|]; [|apply Cf]. split; [exact D2|].
    intros o' Ho' Hf Hoc. specialize (N2 o' Ho' Hf Hoc). specialize (D5 Hf). eapply Qle_trans; [exact D5|exact N2].
  - intros j Hj. destruct (ieqb_spec m (a j)) as [E|N].
    + intros _. rewrite <- E, D1, fput_same. assert (Hf : fr m) by (rewrite E; apply Hfr, Hj). destruct (uns (f_fld s) (a j)) eqn:Eu.
      * specialize (Hs j Hj Eu Vpn). destruct (E4 Hf) as [E5 _]. clear - Hs E5 MD'. lra.
      * specialize (Ca j Hj Eu). specialize (D5 Hf). rewrite E in D5. clear - Ca D5. lra.
    + unfold uns. rewrite D1, fput_other by exact N. apply Ca, Hj.
  - intros i c Hi. destruct (L3 _ Hi) as [H|(H1 & H2 & H3)].
    + destruct (Cv i c H) as (y & Y1 & Y2). exists y. split; [exact Y1|]. rewrite D1. unfold fput. destruct (ieqb_spec m c) as [<-|]; [|exact Y2]. apply Qle_trans with (Qabs (fd s m)); assumption.
    + cbn [fst snd] in H2, H3. subst c. exists k. split; [exact H3|]. rewrite D1, fput_same. exact E3.
  - intros i j Hj Hi. destruct (L3 _ Hi) as [H|(H1 & H2 & H3)]; [apply Ck; assumption|]. cbn [fst snd] in H2, H3. exists k. split; [exact H3|].
    assert (Hf : fr m) by (rewrite <- H2; apply Hfr, Hj). destruct (E4 Hf) as [_ ->]. rewrite <- H2 in H1. specialize (Hs j Hj H1 Vpn). rewrite Qabs_pos by apply md_nonneg. clear - Hs MD'. lra.
  - exact Mono.
  - rewrite D1. apply fput_other. intros E. apply offsets_in in Ho as (_ & _ & _ & No). apply No. unfold m in E. destruct p as [pa pb pc], o as [ox oy oz]. unfold iadd in E. cbn in E. injection E as F1 F2 F3. f_equal; lia.
  - intros j Hj Hah U NI. destruct (uns (f_fld s) (a j)) eqn:Eu.
    + exfalso. destruct (ieqb_spec m (a j)) as [E|N]; [apply NI; rewrite <- E in Eu; rewrite <- E; exact (L2 Eu)|]. unfold uns in U, Eu. rewrite D1, fput_other in U by exact N. congruence.
    + assert (X : uns (f_fld s) (a (S j)) = false) by (apply Hah; [exact Eu|intros [i Hi]; apply NI; exists i; apply L1, Hi]).
      destruct (uns (f_fld s') (a (S j))) eqn:E; [apply Mono in E; congruence|reflexivity].
  - intros _ _ _ _. exact Sm.
Qed.

Lemma freach_fold p v os : (forall o, In o os -> In o sdf_offsets) -> fok p v -> fborder p v -> forall s l, fcore s l ->
  (forall k, (k <= n)%nat -> uns (f_fld s) (a k) = true -> vd_parent v <> None -> (lip * Qabs (vd_dist v) + e <= B k)%Q) ->
  let s' := fold_left (full_neighbor w maxd thr rt occ p v) os s in
  exists l', fcore s' l' /\ (forall c, uns (f_fld s') c = true -> uns (f_fld s) c = true) /\ f_fld s' p = f_fld s p /\
    (forall k, (k < n)%nat -> fahead s l k -> fahead s' l' k) /\
    (forall o, In o os -> fr (iadd p o) -> fr p -> vd_parent v <> None -> (lip * Qabs (vd_dist v) + e < maxd)%Q -> uns (f_fld s') (iadd p o) = false).
Proof using Hw Hm Hmono Hpos Hbig HL Hfr Htri Hnn Hadj HB0 HBs HBn Hg He Hlip Hgn Hnum.
  intros Hos Vp Vb. induction os as [|o os IH]; intros s l Co Hs; cbv zeta; cbn [fold_left].
  - exists l. split; [exact Co|]. split; [auto|]. split; [reflexivity|]. split; [auto|intros o []].
  - destruct (freach_step p v s l o (Hos o (or_introl eq_refl)) Vp Vb Co Hs) as (l1 & C1 & M1 & P1 & A1 & R1).
    set (s1 := full_neighbor w maxd thr rt occ p v s o) in *.
    destruct (IH (fun o' H => Hos o' (or_intror H)) s1 l1 C1 (fun k Hk U => Hs k Hk (M1 _ U))) as (l2 & C2 & M2 & P2 & A2 & R2).
    exists l2. split; [exact C2|]. split; [auto|]. split; [congruence|]. split; [auto|].
    intros o' [<-|Ho'] Hf Hp Hv Hl; [|apply R2; assumption]. destruct (uns _ (iadd p o)) eqn:E in |- *; [|reflexivity]. apply M2 in E. rewrite (R1 Hf Hp Hv Hl) in E. discriminate.
Qed.

Record frinv (s : fst_) (l : list (Z * idx3)) : Prop := FRinv {
  fr_c : fcore s l; fr_0 : uns (f_fld s) (a 0%nat) = false; fr_s : forall k, (k < n)%nat -> fahead s l k }.
Lemma fwaiting s l k : frinv s l -> (k <= n)%nat -> uns (f_fld s) (a k) = true -> exists j, (j < k)%nat /\ inq (a j) l.
Proof using.
  clear - a n. intros [_ R0 Rs]. induction k as [|k IH]; intros Hk U; [congruence|].
  destruct (uns (f_fld s) (a k)) eqn:E; [destruct (IH ltac:(lia) eq_refl) as (j & Hj & H); exists j; split; [lia|exact H]|].
  exists k. split; [lia|]. assert (D : inq (a k) l \/ ~ inq (a k) l).
  { clear - l. unfold inq. induction l as [|[i c] l IH]; [right; intros [i []]|]. destruct (ieqb_spec c (a k)) as [->|N]; [left; exists i; left; reflexivity|].
    destruct IH as [[i' H]|H]; [left; exists i'; right; exact H|right; intros [i' [[= -> ->]|Hi]]; [congruence|apply H; exists i'; exact Hi]]. }
  destruct D as [D|D]; [exact D|]. specialize (Rs k ltac:(lia) E D). congruence.
Qed.
Lemma uns_at (f f' : idx3 -> vdist) c : f c = f' c -> uns f c = uns f' c.
Proof using. clear. unfold uns. intros ->. reflexivity. Qed.
Lemma freach_pop s l : frinv s l -> l <> [] -> exists s' l', full_step w maxd thr rt occ s = Some s' /\ frinv s' l'.
Proof using Hw Hm Hmono Hpos Hbig HL Hfr Htri Hnn Hadj HB0 HBs HBn Hg He Hlip Hgn Hnum.
  intros R Hne. pose proof R as [Co R0 Rs]. pose proof Co as [Cq Cf Ca Cv Ck]. unfold full_step. pose proof maxd_pos2 as Hm0.
  destruct (kq_next num maxd _ l Cq Hne) as (b & p & l1 & l2 & Ef & El & Hp & Hmin).
  destruct (bq_front (f_q s)) as [q1 fr0] eqn:Eq. cbn [fst snd] in *. rewrite Ef. set (s0 := FS (f_fld s) (bq_pop q1)). set (v := f_fld s p).
  destruct (Cf p) as (V1 & V3). fold v in V1, V3.
  assert (Sub : forall e, In e (l1 ++ l2) -> In e l) by (intros e' He'; rewrite El; apply in_app_or in He' as [He'|He']; apply in_or_app; cbn; auto).
  assert (C0 : fcore s0 (l1 ++ l2)).
  { constructor; [exact Hp|exact Cf|exact Ca| |].
    - intros i c Hi. apply Cv, Sub, Hi.
    - intros i k Hk Hi. apply Ck; [exact Hk|apply Sub, Hi]. }
  assert (Hs : forall k, (k <= n)%nat -> uns (f_fld s0) (a k) = true -> vd_parent v <> None -> (lip * Qabs (vd_dist v) + e <= B k)%Q).
  { intros k Hk U _. destruct (fwaiting s l k R Hk U) as (j & Hj & i & Hi). destruct (Cv b p) as (x & X1 & X2); [rewrite El; apply in_or_app; right; left; reflexivity|]. fold v in X2.
    destruct (Ck i j ltac:(clear - Hj Hk; lia) Hi) as (y & Y1 & Y2). pose proof (B_max2 j ltac:(clear - Hj Hk; lia)) as BM. pose proof (Hmin _ Hi) as Hbi. cbn [fst] in Hbi.
    pose proof (bucket_le num maxd x b y i g Hnum Hm0 X1 Y1 Hbi ltac:(clear - BM Y2; lra) Hgn) as BL. pose proof (B_step2 j k Hj) as BS.
    assert (L : (Qabs (vd_dist v) <= B j + g)%Q) by (clear - X2 BL Y2; lra). clear - L BS Hlip. nra. }
  destruct (freach_fold p v sdf_offsets ltac:(auto) V1 V3 s0 (l1 ++ l2) C0 Hs) as (l' & C' & M' & P' & A' & R').
  set (s' := fold_left (full_neighbor w maxd thr rt occ p v) sdf_offsets s0) in *. exists s', l'. split; [reflexivity|].
  change (forall c, uns (f_fld s') c = true -> uns (f_fld s) c = true) in M'. change (f_fld s' p = f_fld s p) in P'.
  change (forall k, (k < n)%nat -> fahead s (l1 ++ l2) k -> fahead s' l' k) in A'. clearbody s'. clear C0 Hs. assert (Ev : f_fld s p = v) by reflexivity. clearbody v. clear s0. constructor.
  - exact C'.
  - destruct (uns (f_fld s') (a 0%nat)) eqn:E; [apply M' in E; congruence|reflexivity].
  - intros k Hk. destruct (ieqb_spec p (a k)) as [E|N].
    + intros U _. destruct (Hadj k Hk) as (o & Ho & Eo). assert (Hf : fr p) by (rewrite E; apply Hfr; clear - Hk; lia).
      assert (Hf' : fr (iadd p o)) by (rewrite E, <- Eo; apply Hfr; clear - Hk; lia).
      assert (Uv : uns (f_fld s) p = false) by (rewrite <- (uns_at _ _ p P'), E; exact U).
      assert (Vn : vd_parent v <> None) by (rewrite <- Ev; apply uns_not, Uv).
      assert (Hv : (vd_dist v <= B k)%Q) by (rewrite <- Ev, E; apply Ca; [clear - Hk; lia|rewrite <- E; exact Uv]).
      assert (V0 : (0 <= vd_dist v)%Q).
      { destruct (class_excl thr (occ p)) as (X1 & _). clear - V1 Vn Hf X1. unfold F_Sdf3.fok in V1. destruct (vd_parent v); [|congruence]. destruct V1 as (_ & N1 & _ & [(_ & _ & N2)|(N2 & _)]); [lra|exfalso; exact (X1 Hf N2)]. }
      assert (Lv : (lip * Qabs (vd_dist v) + e < maxd)%Q).
      { rewrite Qabs_pos by exact V0. pose proof (HBs k) as BS. pose proof (B_max2 (S k) ltac:(clear - Hk; lia)) as BM. clear - Hv V0 BS BM Hlip Hg. nra. }
      pose proof (R' o Ho Hf' Hf Vn Lv) as Z. rewrite Eo, <- E. exact Z.
    + apply A'; [exact Hk|]. intros U NI. apply (Rs k Hk U). intros [i Hi]. apply NI. exists i. rewrite El in Hi. apply in_app_or in Hi as [Hi|[[= _ Hi]|Hi]]; [apply in_or_app; auto|congruence|apply in_or_app; auto].
Qed.
Lemma freach_propagate fuel : forall s l s', frinv s l -> full_propagate w maxd thr rt occ fuel s = Some s' -> frinv s' [].
Proof using Hw Hm Hmono Hpos Hbig HL Hfr Htri Hnn Hadj HB0 HBs HBn Hg He Hlip Hgn Hnum.
  assert (Em : forall s l, frinv s l -> bq_empty (f_q s) = true -> l = []).
  { intros s l R E. apply (holds_empty _ _ (kq_holds _ _ _ _ (fc_q _ _ (fr_c _ _ R)))) in E. destruct l; [reflexivity|discriminate]. }
  assert (Ne : forall s l, frinv s l -> bq_empty (f_q s) = false -> l <> []).
  { intros s l R E ->. rewrite (proj2 (holds_empty _ _ (kq_holds _ _ _ _ (fc_q _ _ (fr_c _ _ R)))) eq_refl) in E. discriminate. }
  induction fuel as [|fuel IH]; intros s l s' R E; cbn [full_propagate] in E; destruct (bq_empty (f_q s)) eqn:Eb; [injection E as <-; rewrite <- (Em s l R Eb); exact R|discriminate|injection E as <-; rewrite <- (Em s l R Eb); exact R|].
  destruct (freach_pop s l R (Ne s l R Eb)) as (s1 & l1 & E1 & R1). rewrite E1 in E. apply (IH s1 l1 s' R1 E).
Qed.
Lemma freach_end s : frinv s [] -> forall k, (k <= n)%nat -> (fd s (a k) <= B k)%Q.
Proof using.
  clear - a. intros R k Hk. apply (fc_a _ _ (fr_c _ _ R) k Hk). destruct (uns (f_fld s) (a k)) eqn:E; [|reflexivity]. destruct (fwaiting s [] k R Hk E) as (j & _ & i & []).
Qed.

(** *** Seeding and the whole generator *)
Notation TS := (tasks thr leaves).
Notation b0 := (rt ((3 # 4) * (w * w)))%Q.
Record fskey (s : fst_) (l : list (Z * idx3)) : Prop := FSkey {
  fk_q : kq num maxd (f_q s) l; fk_s : exists l0, fsinv w maxd thr rt occ leaves s l0;
  fk_l : forall i c, In (i, c) l -> exists x, bucket_of_key num maxd x i /\ (Qabs (fd s c) <= Qabs x)%Q /\ (Qabs x <= b0)%Q;
  fk_u : forall c, uns (f_fld s) c = false -> inq c l /\ (fd s c <= b0)%Q }.
Lemma fseed_key_step t s l : In t TS -> fskey s l -> exists l', fskey (full_seed_cell w thr rt occ (minCorner (fst t)) (maxCorner (fst t)) s (snd t)) l'.
Proof using Hw Hm Hmono Hpos Hbig HL Hnn.
  intros Ht K. pose proof K as [Kq [l0 Ks] Kl Ku]. pose proof maxd_pos2 as Hm0.
  destruct (fseed_step w maxd thr rt occ leaves Hw Hmono Hpos Hbig HL t s l0 Ht Ks) as (Ks' & _ & Dec). destruct t as [i p]. cbn [fst snd] in *.
  destruct (near_seed thr occ leaves HL i p Ht) as [_ Nc]. pose proof (near_occ thr occ leaves HL i p Ht) as No.
  unfold full_seed_cell in *. fold (clampi (minCorner i) (maxCorner i) p) in *. set (near := clampi (minCorner i) (maxCorner i) p) in *.
  destruct (ieqb_spec p near) as [E|E]; [exists l; exact K|]. destruct (oc_is_id thr (occ p) kFree) eqn:Ef; cbn [negb] in *; [|exists l; exact K].
  apply (is_class thr (occ p) kFree CFree (or_introl (conj eq_refl eq_refl))) in Ef.
  pose proof (minD_pos w rt Hw Hmono Hpos p near E) as Dp. pose proof (minD_upper1 w rt Hw Hmono Hpos p near Nc) as Du. set (d := md p near) in *.
  pose proof (fsi_f _ _ _ _ _ _ _ _ Ks p) as Vp.
  assert (P0 : (0 < fd s p)%Q).
  { destruct (class_excl thr (occ p)) as (X1 & _). unfold F_Sdf3.fok in Vp. destruct (vd_parent (f_fld s p)); [|clear - Vp Hm0; lra]. destruct Vp as (_ & N1 & _ & [(_ & _ & N2)|(N2 & _)]); [clear - N1 N2; lra|exfalso; exact (X1 Ef N2)]. }
  set (f' := if qlt_b d (vd_dist (f_fld s p)) then fput (f_fld s) p (VD (Some near) d) else f_fld s) in *.
  assert (Fo : forall c, p <> c -> f' c = f_fld s c) by (intros c N; unfold f'; destruct (qlt_b d _); [apply fput_other, N|reflexivity]).
  assert (Fp : (0 < vd_dist (f' p))%Q /\ (vd_dist (f' p) <= d)%Q /\ (vd_dist (f' p) <= fd s p)%Q).
  { unfold f'. destruct (qlt_b d (vd_dist (f_fld s p))) eqn:El; [apply qlt_b_lt in El; rewrite fput_same; cbn [vd_dist]|apply qlt_b_ge in El]; clear - Dp El P0; repeat split; lra. }
  destruct Fp as (F0 & F1 & F2).
  assert (Lq : exists l', kq num maxd (f_q (FS f' (if is_none (vd_parent (f_fld s p)) then bq_push (f_q s) d p else f_q s))) l' /\ (forall e, In e l -> In e l') /\ (uns (f_fld s) p = true -> inq p l') /\
    (forall e, In e l' -> In e l \/ snd e = p /\ bucket_of_key num maxd d (fst e))).
  { cbn [f_q]. unfold uns. destruct (is_none (vd_parent (f_fld s p))).
    - destruct (kq_push num maxd _ l d p Kq) as (b & Hb & Hq). exists (l ++ [(b, p)]). split; [exact Hq|]. split; [intros; apply in_or_app; auto|].
      split; [intros _; exists b; apply in_or_app; right; left; reflexivity|]. intros e' He'. apply in_app_or in He' as [He'|[<-|[]]]; [auto|]. right. cbn. auto.
    - exists l. split; [exact Kq|]. split; [auto|]. split; [discriminate|auto]. }
  destruct Lq as (l' & Lq & L1 & L2 & L3). exists l'. constructor; [exact Lq|exact Ks'| |]; cbn [f_fld].
  - intros j c Hj. destruct (L3 _ Hj) as [H|[H1 H2]].
    + destruct (Kl j c H) as (y & Y1 & Y2 & Y3). exists y. split; [exact Y1|]. split; [|exact Y3]. destruct (ieqb_spec p c) as [<-|N]; [|rewrite (Fo c N); exact Y2].
      rewrite Qabs_pos in Y2 |- * by (clear - F0 P0; lra). clear - Y2 F2. lra.
    + cbn [fst snd] in *. subst c. exists d. split; [exact H2|]. rewrite !Qabs_pos by (clear - F0 Dp; lra). split; assumption.
  - intros c U. destruct (ieqb_spec p c) as [<-|N].
    + split; [|clear - F1 Du; lra]. destruct (uns (f_fld s) p) eqn:Eu; [exact (L2 eq_refl)|]. destruct (Ku p Eu) as [[j Hj] _]. exists j. apply L1, Hj.
    + unfold uns in U. rewrite (Fo c N) in U |- *. destruct (Ku c U) as [[j Hj] H]. split; [exists j; apply L1, Hj|exact H].
Qed.
Lemma full_reach fuel f : (exists o, In o sdf_offsets /\ oc (iadd (a 0%nat) o)) -> full_generate w maxd thr rt occ fuel leaves = Some f -> (0 < f (a n) /\ f (a n) <= B n)%Q.
Proof using Hw Hm Hmono Hpos Hbig HL Hfr Htri Hnn Hadj HB0 HBs HBn Hg He Hlip Hgn Hnum.
  intros (o & Ho & Hoc) E. pose proof maxd_pos2 as Hm0. assert (Bm : forall k, (b0 <= B k)%Q) by (intros k; eapply Qle_trans; [exact HB0|apply B_mono2; lia]).
  unfold full_generate in E. destruct (fseed_all w maxd thr rt occ leaves 0%Q Hw Hm0 Hmono Hpos (Qle_refl 0) Hbig HL) as [l0 P].
  set (s0 := full_seed _ _ _ _ _ _) in *.
  assert (K : exists l, fskey s0 l).
  { unfold s0, full_seed. set (s00 := FS _ _). rewrite (seed_tasks (full_seed_cell w thr rt occ) (full_seed_leaf w thr rt occ) thr leaves s00 (fun _ _ => eq_refl)).
    apply (fold_inv _ (fun s => exists l, fskey s l)); [intros s t Ht [l Hs]; exact (fseed_key_step t s l Ht Hs)|].
    exists []. constructor.
    - apply refines_fresh; [clear - Hnum; lia|exact Hm0|lia].
    - exists []. constructor.
      + apply holds_new; [clear - Hnum; lia|exact Hm0].
      + intros c. reflexivity.
      + intros c H'. discriminate H'.
    - intros i c [].
    - intros c H'. discriminate H'. }
  destruct K as [l [Kq _ Kl Ku]]. pose proof (fp_f _ _ _ _ _ _ _ _ P) as Pf.
  assert (R : frinv s0 l).
  { constructor.
    - constructor; [exact Kq|exact Pf| | |].
      + intros k Hk U. destruct (Ku _ U) as [_ L]. pose proof (Bm k) as Bk. clear - L Bk. lra.
      + intros i c Hi. destruct (Kl i c Hi) as (x & X1 & X2 & _). eauto.
      + intros i k Hk Hi. destruct (Kl i _ Hi) as (x & X1 & _ & X3). exists x. split; [exact X1|]. pose proof (Bm k) as Bk. clear - X3 Bk. lra.
    - destruct (Pf (a 0%nat)) as (V & Vb). pose proof (Vb o Ho (Hfr 0%nat ltac:(lia)) Hoc) as L. pose proof (proj2 (md_adj w maxd rt 0%Q Hw Hmono Hpos (Qle_refl 0) Hbig (a 0%nat) o Ho)) as M.
      unfold F_Sdf3.fok, uns in *. destruct (vd_parent (f_fld s0 (a 0%nat))); [reflexivity|]. exfalso. clear - V L M. lra.
    - intros k Hk U NI. exfalso. apply NI. apply Ku, U. }
  destruct (full_propagate w maxd thr rt occ fuel s0) as [s'|] eqn:Ep; [|discriminate]. cbn [option_map] in E. injection E as <-.
  pose proof (freach_propagate fuel s0 l s' R Ep) as R'. split; [|exact (freach_end s' R' n ltac:(lia))].
  destruct (fc_f _ _ (fr_c _ _ R') (a n)) as (V & _). pose proof (Hfr n (le_n n)) as Hf. destruct (class_excl thr (occ (a n))) as (X1 & _). clear - V Hf X1 Hm0. cbn beta.
  unfold F_Sdf3.fok in V. destruct (vd_parent (f_fld s' (a n))); [|lra]. destruct V as (_ & N1 & _ & [(_ & _ & N2)|(N2 & _)]); [lra|exfalso; exact (X1 Hf N2)].
Qed.
End REACH.
