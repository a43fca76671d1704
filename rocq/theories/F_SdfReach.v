(** Quasi-Euclidean distance fields: upper bounds on the values of free cells. *)
From Verif Require Import Base M_IntMath M_Grid P_Grid M_Adjacency M_Num M_Ndtree F_Hash M_Wavelet M_Queue P_Queue M_Occupancy P_Occupancy M_Sdf F_Sdf F_Sdf2.
From Coq Require Import QArith Qround Qabs Lqa.
Close Scope Q_scope.
Open Scope Z_scope.

(** ** The queue, as the list of its elements with their buckets *)
Section QUEUE.
Context {V : Type} (num : Z) (mx : Q).
Definition kq (q : bqueue V) (l : list (Z * V)) : Prop := refines q (SQ num mx l).
Lemma kq_push q l k v : kq q l -> exists b, bucket_of_key num mx k b /\ kq (bq_push q k v) (l ++ [(b, v)]).
Proof.
  intros R. destruct (refine_call q _ (BPush k v) R I) as (s' & C & R'). cbn [bq_apply fst] in R'. inversion C; subst. exists b. auto.
Qed.
Lemma kq_holds q l : kq q l -> holds q (map snd l).
Proof. intros R. exists (SQ num mx l). auto. Qed.
Lemma kq_next q l : kq q l -> l <> [] -> exists b v l1 l2, snd (bq_front q) = Some v /\ l = l1 ++ (b, v) :: l2 /\
  kq (bq_pop (fst (bq_front q))) (l1 ++ l2) /\ (forall x, In x l -> b <= fst x).
Proof.
  intros R Hne. destruct (refine_call q _ BFront R Hne) as (s1 & C1 & R1). cbn [bq_apply] in C1, R1.
  destruct (refine_call _ s1 BPop R1 I) as (s2 & C2 & R2). cbn [bq_apply fst] in R2.
  remember (snd (bq_front q)) as fr eqn:Ef. remember (fst (bq_front q)) as q1 eqn:E1. clear E1.
  inversion C1 as [| | |n' mx' l' b v r N1 X1 X2 X3| |]; subst. inversion C2 as [|n' mx' X1|n' mx' l' b' v' r' N2 X1| | |]; subst.
  - exfalso. apply Hne. reflexivity.
  - destruct (C37_next_unique _ _ _ _ _ _ _ _ N1 N2) as (<- & <- & <-). destruct N1 as (l1 & l2 & -> & -> & F1 & F2).
    exists b, v, l1, l2. split; [congruence|]. split; [reflexivity|]. split; [assumption|].
    rewrite Forall_forall in F1, F2. intros x Hx. apply in_app_or in Hx as [Hx|[<-|Hx]]; [apply F1 in Hx; lia|cbn; lia|apply F2, Hx].
Qed.
(** a key of an earlier or the same bucket exceeds another one by less than the width of a bucket *)
Lemma bucket_le k1 b1 k2 b2 g : 2 <= num -> (0 < mx)%Q -> bucket_of_key num mx k1 b1 -> bucket_of_key num mx k2 b2 -> b1 <= b2 ->
  (Qabs k2 < mx)%Q -> (mx <= g * inject_Z (num - 1))%Q -> (Qabs k1 <= Qabs k2 + g)%Q.
Proof.
  intros Hn Hm (A1 & A2 & A3) (B1 & B2 & B3) Hb H2 Hg.
  assert (Hn1 : (0 < inject_Z (num - 1))%Q) by (change 0%Q with (inject_Z 0); rewrite <- Zlt_Qlt; lia).
  destruct (Z.eq_dec b1 (num - 1)) as [E|E].
  - exfalso. assert (b2 = num - 1) by lia. subst b2. rewrite (Qmult_comm _ mx) in B3. rewrite Qmult_le_r in B3 by exact Hn1. lra.
  - specialize (A2 ltac:(lia)). rewrite <- (Qmult_le_r _ _ (inject_Z (num - 1)) Hn1).
    assert (L : (inject_Z (b1 + 1) * mx <= inject_Z b2 * mx + mx)%Q).
    { setoid_replace (inject_Z b2 * mx + mx)%Q with (inject_Z (b2 + 1) * mx)%Q by (rewrite inject_Z_plus; ring). apply Qmult_le_compat_r; [rewrite <- Zle_Qle; lia|lra]. }
    setoid_replace ((Qabs k2 + g) * inject_Z (num - 1))%Q with (Qabs k2 * inject_Z (num - 1) + g * inject_Z (num - 1))%Q by ring. lra.
Qed.
End QUEUE.

Lemma copysign_abs a s : (Qabs (copysign a s) == Qabs a)%Q.
Proof. unfold copysign. destruct (signbit s); rewrite ?Qabs_opp; apply Qabs_pos, Qabs_nonneg. Qed.
Lemma qminb_abs a b : (Qabs (qminb (Qabs a) b) <= Qabs b)%Q.
Proof.
  destruct (qminb_spec (Qabs a) b) as [[E H]|[E H]]; rewrite E; [|apply Qle_refl].
  rewrite (Qabs_pos (Qabs a)) by apply Qabs_nonneg. apply Qle_trans with b; [exact H|apply Qle_Qabs].
Qed.

Section REACH.
Context (w maxd thr : Q) (rt : Q -> Q) (occ : idx3 -> Q).
Context (Hw : (0 < w)%Q) (Hm : (w < maxd)%Q) (Hrt : forall x y, (0 < x)%Q -> (x <= y)%Q -> (0 < rt x)%Q /\ (rt x <= rt y)%Q).
Notation fr c := (class_of thr (occ c) CFree).
Notation oc c := (class_of thr (occ c) COccupied).
Notation len o := (w * inorm rt o)%Q.
Notation unset := (unset maxd).
Notation num := (sdf_num_bins w maxd).
Context (seeds : list idx3) (Hseeds : forall p o, In o sdf_offsets -> oc (iadd p o) -> ~ oc p -> In p seeds).
Notation finv := (finv w maxd thr rt occ seeds).
Lemma maxd_pos : (0 < maxd)%Q. Proof using Hw Hm. lra. Qed.

(** the value and the key given to a neighbor *)
Lemma nb_more p v s o : let n := iadd p o in let s' := quasi_neighbor w maxd thr rt occ p v s o in In o sdf_offsets -> vok maxd thr occ n (s_fld s n) ->
  (s_q s' = s_q s /\ (forall c, s_fld s' c = s_fld s c)) \/
  exists k x, s_fld s' = fput (s_fld s) n x /\ s_q s' = (if unset (s_fld s) n then bq_push (s_q s) k n else s_q s) /\ (Qabs x <= Qabs k)%Q /\
    (fr n -> (x <= Qabs v + len o)%Q /\ k = (Qabs v + len o)%Q).
Proof using Hw Hm Hrt.
  intros n s' Ho Nv. unfold s', quasi_neighbor. fold n. unfold F_Sdf.unset. set (nv := s_fld s n) in *. pose proof maxd_pos as Hm0.
  assert (Same : forall y, y = nv -> forall c, fput (s_fld s) n y c = s_fld s c) by (intros y -> c; unfold fput; destruct (ieqb_spec n c) as [<-|]; reflexivity).
  destruct (Qle_bool maxd (Qabs v + len o)); [left; auto|]. destruct (Qeq_bool maxd nv && oc_is_id thr (occ n) kUnobserved); [left; auto|].
  set (nv1 := if Qeq_bool maxd nv && oc_is_id thr (occ n) kOccupied then (- maxd)%Q else nv).
  destruct (xorb (signbit nv1) (signbit v) && negb (qlt_b nv1 0)) eqn:Ex.
  - left. split; [reflexivity|]. cbn [s_fld]. apply Same. unfold nv1 in *. destruct (Qeq_bool maxd nv && oc_is_id thr (occ n) kOccupied); [|reflexivity].
    exfalso. apply andb_true_iff in Ex as [_ Ex]. replace (qlt_b (- maxd) 0) with true in Ex by (symmetry; apply qlt_b_lt; lra). discriminate.
  - right. set (cand1 := if xorb (signbit nv1) (signbit v) then (len o - Qabs v)%Q else (Qabs v + len o)%Q) in *.
    exists cand1, (copysign (qminb (Qabs nv1) cand1) nv1). split; [reflexivity|]. split; [reflexivity|]. split; [rewrite copysign_abs; apply qminb_abs|].
    intros Hf. destruct (class_excl thr (occ n)) as (X1 & X2 & _).
    assert (E1 : nv1 = nv). { unfold nv1. replace (oc_is_id thr (occ n) kOccupied) with false; [rewrite andb_false_r; reflexivity|]. symmetry. apply (is_class_false _ _ _ COccupied); tauto. }
    assert (E2 : qlt_b nv1 0 = false). { rewrite E1. apply qlt_b_ge. destruct Nv as [Nv|[(_ & Nv)|(Nv & _)]]; [lra|lra|tauto]. }
    rewrite E2 in Ex. rewrite andb_true_r in Ex. unfold cand1. rewrite Ex. split; [|reflexivity].
    unfold copysign. unfold signbit in *. rewrite E2. eapply Qle_trans; [apply qminb_abs|]. apply Qle_lteq. right. apply Qabs_pos.
    pose proof (Qabs_nonneg v). destruct (len_pos rt Hrt o Ho) as (L0 & _). pose proof (Qmult_lt_0_compat _ _ Hw L0). lra.
Qed.

(** A path of free cells that starts next to an occupied one *)
Context (a : nat -> idx3) (n : nat) (B : nat -> Q) (g : Q).
Context (Hfr : forall k, (k <= n)%nat -> fr (a k)) (Hadj : forall k, (k < n)%nat -> exists o, In o sdf_offsets /\ a (S k) = iadd (a k) o).
Context (HB0 : ((1 # 2) * (w * rt 3) <= B 0%nat)%Q) (HBs : forall k, (B k + g + w * rt 3 <= B (S k))%Q) (HBn : (B n < maxd)%Q).
Context (Hg : (0 <= g)%Q) (Hgn : (maxd <= g * inject_Z (num - 1))%Q) (Hnum : 2 <= num).
Lemma r3_pos : (0 < w * rt 3)%Q.
Proof using Hw Hrt. apply Qmult_lt_0_compat; [exact Hw|]. apply (Hrt 3 3); [reflexivity|lra]. Qed.
Lemma len_le o : In o sdf_offsets -> (0 < len o)%Q /\ (len o <= w * rt 3)%Q.
Proof using Hw Hrt.
  intros Ho. destruct (len_pos rt Hrt o Ho) as (L0 & L1 & L2 & L3). split; [apply Qmult_lt_0_compat; assumption|].
  rewrite (Qmult_comm w), (Qmult_comm w (rt 3)). apply Qmult_le_compat_r; lra.
Qed.
Lemma B_mono j k : (j <= k)%nat -> (B j <= B k)%Q.
Proof using Hw Hrt HBs Hg. induction 1 as [|k H IH]; [apply Qle_refl|]. pose proof (HBs k). pose proof r3_pos. lra. Qed.
Lemma B_step j k : (j < k)%nat -> (B j + g + w * rt 3 <= B k)%Q.
Proof using Hw Hrt HBs Hg. intros H. pose proof (B_mono (S j) k H). pose proof (HBs j). lra. Qed.
Lemma B_max k : (k <= n)%nat -> (B k < maxd)%Q.
Proof using Hw Hrt HBs Hg HBn. intros H. pose proof (B_mono k n H). lra. Qed.

Definition inq (c : idx3) (l : list (Z * idx3)) : Prop := exists i, In (i, c) l.
(** every element's key is at least its value, and small on the path; set cells of the path have small values *)
Record core (s : sst) (l : list (Z * idx3)) : Prop := Core {
  c_q : kq num maxd (s_q s) l; c_f : finv (s_fld s);
  c_a : forall k, (k <= n)%nat -> unset (s_fld s) (a k) = false -> (s_fld s (a k) <= B k)%Q;
  c_v : forall i c, In (i, c) l -> exists x, bucket_of_key num maxd x i /\ (Qabs (s_fld s c) <= Qabs x)%Q;
  c_k : forall i k, (k <= n)%nat -> In (i, a k) l -> exists x, bucket_of_key num maxd x i /\ (Qabs x <= B k)%Q }.
Definition ahead (s : sst) (l : list (Z * idx3)) (k : nat) : Prop := unset (s_fld s) (a k) = false -> ~ inq (a k) l -> unset (s_fld s) (a (S k)) = false.

Lemma reach_step p v s l o : In o sdf_offsets -> vok maxd thr occ p v -> vnear w maxd rt seeds p v -> vborder w thr rt occ p v -> core s l ->
  (forall k, (k <= n)%nat -> unset (s_fld s) (a k) = true -> (Qabs v + w * rt 3 <= B k)%Q) ->
  let s' := quasi_neighbor w maxd thr rt occ p v s o in
  exists l', core s' l' /\ (forall c, unset (s_fld s') c = true -> unset (s_fld s) c = true) /\ s_fld s' p = s_fld s p /\
    (forall k, (k < n)%nat -> ahead s l k -> ahead s' l' k) /\
    (fr (iadd p o) -> (0 < v)%Q -> (Qabs v + len o < maxd)%Q -> unset (s_fld s') (iadd p o) = false).
Proof using Hw Hm Hrt Hseeds Hfr HBs Hg HBn.
  intros Ho Vp Vn Vb Co Hs. cbv zeta. pose proof Co as [Cq Cf Ca Cv Ck]. set (m := iadd p o). destruct (Cf m) as (N1 & N2 & N3). pose proof maxd_pos as Hm0.
  pose proof (nb_cases w maxd thr rt occ Hw Hm0 Hrt seeds Hseeds p v s o Ho Vp Vn Vb N1 N2) as NC. pose proof (nb_more p v s o Ho N1) as NM. cbv zeta in NC, NM. fold m in NC, NM.
  set (s' := quasi_neighbor w maxd thr rt occ p v s o) in *.
  assert (Unch : s_q s' = s_q s -> (forall c, s_fld s' c = s_fld s c) -> exists l', core s' l' /\ (forall c, unset (s_fld s') c = true -> unset (s_fld s) c = true) /\
    s_fld s' p = s_fld s p /\ (forall k, (k < n)%nat -> ahead s l k -> ahead s' l' k)).
  { intros Eq Ef. assert (Eu : forall c, unset (s_fld s') c = unset (s_fld s) c) by (intros c; unfold F_Sdf.unset; rewrite Ef; reflexivity). exists l. split; [|split; [|split]].
    - constructor.
      + rewrite Eq. exact Cq.
      + intros c. rewrite Ef. apply Cf.
      + intros k Hk. rewrite Eu, Ef. apply Ca, Hk.
      + intros i c. rewrite Ef. apply Cv.
      + exact Ck.
    - intros c. rewrite Eu. auto.
    - apply Ef.
    - intros k _. unfold ahead. rewrite !Eu. auto. }
  destruct NC as [(D1 & D2 & D3)|(x & D1 & D2 & D3 & D4 & D5 & D6 & k0 & D7)].
  { destruct (Unch D1 D2) as (l' & A1 & A2 & A3 & A4). exists l'. split; [exact A1|]. split; [exact A2|]. split; [exact A3|]. split; [exact A4|].
    intros Hf Hv Hl. exfalso. destruct (class_excl thr (occ m)) as (X1 & X2 & _). destruct D3 as [D3|[D3|[D3|[D3 D4]]]]; [|lra|tauto|lra].
    pose proof (len_le o Ho). rewrite D3, Qabs_pos in Hl by lra. lra. }
  assert (Sm : unset (s_fld s') m = false) by (apply unset_not; rewrite D1, fput_same; exact D4).
  destruct NM as [(E1 & E2)|(k & x' & E1 & E2 & E3 & E4)].
  { destruct (Unch E1 E2) as (l' & A1 & A2 & A3 & A4). exists l'. split; [exact A1|]. split; [exact A2|]. split; [exact A3|]. split; [exact A4|]. intros _ _ _. exact Sm. }
  assert (Ex : x' = x). { assert (X : fput (s_fld s) m x' m = fput (s_fld s) m x m) by congruence. rewrite !fput_same in X. exact X. } subst x'. clear D7 k0 E1.
  assert (Mono : forall c, unset (s_fld s') c = true -> unset (s_fld s) c = true).
  { intros c. destruct (ieqb_spec m c) as [<-|N]; [congruence|]. unfold F_Sdf.unset. rewrite D1, fput_other by exact N. auto. }
  assert (Lq : exists l', kq num maxd (s_q s') l' /\ (forall e, In e l -> In e l') /\ (unset (s_fld s) m = true -> inq m l') /\
    (forall e, In e l' -> In e l \/ unset (s_fld s) m = true /\ snd e = m /\ bucket_of_key num maxd k (fst e))).
  { rewrite E2. destruct (unset (s_fld s) m).
    - destruct (kq_push num maxd _ l k m Cq) as (b & Hb & Hq). exists (l ++ [(b, m)]). split; [exact Hq|]. split; [intros; apply in_or_app; auto|].
      split; [intros _; exists b; apply in_or_app; right; left; reflexivity|]. intros e He. apply in_app_or in He as [He|[<-|[]]]; [auto|]. right. cbn. auto.
    - exists l. split; [exact Cq|]. split; [auto|]. split; [discriminate|auto]. }
  destruct Lq as (l' & Lq & L1 & L2 & L3). exists l'. split; [constructor|split; [|split; [|split]]].
  - exact Lq.
  - intros c. rewrite D1. unfold fput. destruct (ieqb_spec m c) as [<-|]; [|apply Cf]. split; [exact D2|]. split; [exact D3|].
    intros o' Ho' Hf Hoc. specialize (N3 o' Ho' Hf Hoc). specialize (D5 Hf). lra.
  - intros j Hj. destruct (ieqb_spec m (a j)) as [E|N].
    + intros _. rewrite <- E, D1, fput_same. assert (Hf : fr m) by (rewrite E; apply Hfr, Hj). destruct (unset (s_fld s) (a j)) eqn:Eu.
      * specialize (Hs j Hj Eu). destruct (E4 Hf) as [E5 _]. pose proof (len_le o Ho). lra.
      * specialize (Ca j Hj Eu). specialize (D5 Hf). rewrite E in D5. lra.
    + unfold F_Sdf.unset. rewrite D1, fput_other by exact N. apply Ca, Hj.
  - intros i c Hi. destruct (L3 _ Hi) as [H|(H1 & H2 & H3)].
    + destruct (Cv i c H) as (y & Y1 & Y2). exists y. split; [exact Y1|]. rewrite D1. unfold fput. destruct (ieqb_spec m c) as [<-|]; [|exact Y2]. apply Qle_trans with (Qabs (s_fld s m)); assumption.
    + cbn [fst snd] in H2, H3. subst c. exists k. split; [exact H3|]. rewrite D1, fput_same. exact E3.
  - intros i j Hj Hi. destruct (L3 _ Hi) as [H|(H1 & H2 & H3)]; [apply Ck; assumption|]. cbn [fst snd] in H2, H3. exists k. split; [exact H3|].
    assert (Hf : fr m) by (rewrite <- H2; apply Hfr, Hj). destruct (E4 Hf) as [_ ->]. rewrite <- H2 in H1. specialize (Hs j Hj H1). pose proof (len_le o Ho). pose proof (Qabs_nonneg v). rewrite Qabs_pos by lra. lra.
  - exact Mono.
  - rewrite D1. apply fput_other. apply (iadd_neq w rt Hrt), Ho.
  - intros j Hj Hah U NI. destruct (unset (s_fld s) (a j)) eqn:Eu.
    + exfalso. destruct (ieqb_spec m (a j)) as [E|N]; [apply NI; rewrite <- E in Eu; rewrite <- E; exact (L2 Eu)|]. unfold F_Sdf.unset in U, Eu. rewrite D1, fput_other in U by exact N. congruence.
    + assert (X : unset (s_fld s) (a (S j)) = false) by (apply Hah; [exact Eu|intros [i Hi]; apply NI; exists i; apply L1, Hi]).
      destruct (unset (s_fld s') (a (S j))) eqn:E; [apply Mono in E; congruence|reflexivity].
  - intros _ _ _. exact Sm.
Qed.

Lemma reach_fold p v os : (forall o, In o os -> In o sdf_offsets) -> vok maxd thr occ p v -> vnear w maxd rt seeds p v -> vborder w thr rt occ p v -> forall s l, core s l ->
  (forall k, (k <= n)%nat -> unset (s_fld s) (a k) = true -> (Qabs v + w * rt 3 <= B k)%Q) ->
  let s' := fold_left (quasi_neighbor w maxd thr rt occ p v) os s in
  exists l', core s' l' /\ (forall c, unset (s_fld s') c = true -> unset (s_fld s) c = true) /\ s_fld s' p = s_fld s p /\
    (forall k, (k < n)%nat -> ahead s l k -> ahead s' l' k) /\
    (forall o, In o os -> fr (iadd p o) -> (0 < v)%Q -> (Qabs v + len o < maxd)%Q -> unset (s_fld s') (iadd p o) = false).
Proof using Hw Hm Hrt Hseeds Hfr HBs Hg HBn.
  intros Hos Vp Vn Vb. induction os as [|o os IH]; intros s l Co Hs; cbv zeta; cbn [fold_left].
  - exists l. split; [exact Co|]. split; [auto|]. split; [reflexivity|]. split; [auto|intros o []].
  - destruct (reach_step p v s l o (Hos o (or_introl eq_refl)) Vp Vn Vb Co Hs) as (l1 & C1 & M1 & P1 & A1 & R1).
    set (s1 := quasi_neighbor w maxd thr rt occ p v s o) in *.
    destruct (IH (fun o' H => Hos o' (or_intror H)) s1 l1 C1 (fun k Hk U => Hs k Hk (M1 _ U))) as (l2 & C2 & M2 & P2 & A2 & R2).
    exists l2. split; [exact C2|]. split; [auto|]. split; [congruence|]. split; [auto|].
    intros o' [<-|Ho'] Hf Hv Hl; [|apply R2; assumption]. destruct (unset _ (iadd p o)) eqn:E in |- *; [|reflexivity]. apply M2 in E. rewrite (R1 Hf Hv Hl) in E. discriminate.
Qed.

(** The invariant of the propagation *)
Record rinv (s : sst) (l : list (Z * idx3)) : Prop := Rinv {
  r_c : core s l; r_0 : unset (s_fld s) (a 0%nat) = false; r_s : forall k, (k < n)%nat -> ahead s l k }.
(** before an unset cell of the path there is one in the queue *)
Lemma waiting s l k : rinv s l -> (k <= n)%nat -> unset (s_fld s) (a k) = true -> exists j, (j < k)%nat /\ inq (a j) l.
Proof using.
  clear - a n. intros [_ R0 Rs]. induction k as [|k IH]; intros Hk U; [congruence|].
  destruct (unset (s_fld s) (a k)) eqn:E; [destruct (IH ltac:(lia) eq_refl) as (j & Hj & H); exists j; split; [lia|exact H]|].
  exists k. split; [lia|]. assert (D : inq (a k) l \/ ~ inq (a k) l).
  { clear - l. unfold inq. induction l as [|[i c] l IH]; [right; intros [i []]|]. destruct (ieqb_spec c (a k)) as [->|N]; [left; exists i; left; reflexivity|].
    destruct IH as [[i' H]|H]; [left; exists i'; right; exact H|right; intros [i' [[= -> ->]|Hi]]; [congruence|apply H; exists i'; exact Hi]]. }
  destruct D as [D|D]; [exact D|]. specialize (Rs k ltac:(lia) E D). congruence.
Qed.
Lemma reach_pop s l : rinv s l -> l <> [] -> exists s' l', quasi_step w maxd thr rt occ s = Some s' /\ rinv s' l'.
Proof using Hw Hm Hrt Hseeds Hfr HBs Hg HBn Hadj Hgn Hnum.
  intros R Hne. pose proof R as [Co R0 Rs]. pose proof Co as [Cq Cf Ca Cv Ck]. unfold quasi_step. pose proof maxd_pos as Hm0.
  destruct (kq_next num maxd _ l Cq Hne) as (b & p & l1 & l2 & Ef & El & Hp & Hmin).
  destruct (bq_front (s_q s)) as [q1 fr0] eqn:Eq. cbn [fst snd] in *. rewrite Ef. set (s0 := SS (s_fld s) (bq_pop q1)). set (v := s_fld s p).
  destruct (Cf p) as (V1 & V2 & V3). fold v in V1, V2, V3.
  assert (Sub : forall e, In e (l1 ++ l2) -> In e l) by (intros e He; rewrite El; apply in_app_or in He as [He|He]; apply in_or_app; cbn; auto).
  assert (C0 : core s0 (l1 ++ l2)).
  { constructor; [exact Hp|exact Cf|exact Ca| |].
    - intros i c Hi. apply Cv, Sub, Hi.
    - intros i k Hk Hi. apply Ck; [exact Hk|apply Sub, Hi]. }
  assert (Hs : forall k, (k <= n)%nat -> unset (s_fld s0) (a k) = true -> (Qabs v + w * rt 3 <= B k)%Q).
  { intros k Hk U. destruct (waiting s l k R Hk U) as (j & Hj & i & Hi). destruct (Cv b p) as (x & X1 & X2); [rewrite El; apply in_or_app; right; left; reflexivity|]. fold v in X2.
    destruct (Ck i j ltac:(lia) Hi) as (y & Y1 & Y2). pose proof (B_max j ltac:(lia)). pose proof (Hmin _ Hi) as Hbi. cbn [fst] in Hbi.
    pose proof (bucket_le num maxd x b y i g Hnum Hm0 X1 Y1 Hbi ltac:(lra) Hgn). pose proof (B_step j k Hj). lra. }
  destruct (reach_fold p v sdf_offsets ltac:(auto) V1 V2 V3 s0 (l1 ++ l2) C0 Hs) as (l' & C' & M' & P' & A' & R').
  set (s' := fold_left _ _ s0) in *. exists s', l'. split; [reflexivity|]. constructor.
  - exact C'.
  - destruct (unset (s_fld s') (a 0%nat)) eqn:E; [apply M' in E; cbn [s0 s_fld] in E; congruence|reflexivity].
  - intros k Hk. destruct (ieqb_spec p (a k)) as [E|N].
    + intros U _. destruct (Hadj k Hk) as (o & Ho & Eo). rewrite Eo, <- E. apply R'; [exact Ho|rewrite E, <- Eo; apply Hfr; lia| |].
      * assert (Hf : fr p) by (rewrite E; apply Hfr; lia). destruct (class_excl thr (occ p)). destruct V1 as [V1|[(_ & V1 & _)|(V1 & _)]]; [lra|lra|tauto].
      * assert (Hf : fr p) by (rewrite E; apply Hfr; lia). destruct (class_excl thr (occ p)). assert (0 < v)%Q by (destruct V1 as [V1|[(_ & V1 & _)|(V1 & _)]]; [lra|lra|tauto]).
        assert (Hv : (v <= B k)%Q). { unfold v. rewrite E. apply Ca; [lia|]. unfold F_Sdf.unset in U |- *. rewrite <- E in U |- *. rewrite P' in U. exact U. }
        rewrite Qabs_pos by lra. pose proof (len_le o Ho). pose proof (HBs k). pose proof (B_max (S k) ltac:(lia)). lra.
    + apply A'; [exact Hk|]. intros U NI. apply (Rs k Hk U). intros [i Hi]. apply NI. exists i. rewrite El in Hi. apply in_app_or in Hi as [Hi|[[= _ Hi]|Hi]]; [apply in_or_app; auto|congruence|apply in_or_app; auto].
Qed.
Lemma reach_propagate fuel : forall s l s', rinv s l -> quasi_propagate w maxd thr rt occ fuel s = Some s' -> exists l', rinv s' l' /\ l' = [].
Proof using Hw Hm Hrt Hseeds Hfr HBs Hg HBn Hadj Hgn Hnum.
  assert (Em : forall s l, rinv s l -> bq_empty (s_q s) = true -> l = []).
  { intros s l R E. apply (holds_empty _ _ (kq_holds _ _ _ _ (c_q _ _ (r_c _ _ R)))) in E. destruct l; [reflexivity|discriminate]. }
  assert (Ne : forall s l, rinv s l -> bq_empty (s_q s) = false -> l <> []).
  { intros s l R E ->. rewrite (proj2 (holds_empty _ _ (kq_holds _ _ _ _ (c_q _ _ (r_c _ _ R)))) eq_refl) in E. discriminate. }
  induction fuel as [|fuel IH]; intros s l s' R E; cbn [quasi_propagate] in E; destruct (bq_empty (s_q s)) eqn:Eb; [injection E as <-; eauto|discriminate|injection E as <-; eauto|].
  destruct (reach_pop s l R (Ne s l R Eb)) as (s1 & l1 & E1 & R1). rewrite E1 in E. apply (IH s1 l1 s' R1 E).
Qed.
Lemma reach_end s : rinv s [] -> forall k, (k <= n)%nat -> (s_fld s (a k) <= B k)%Q.
Proof using.
  clear - a. intros R k Hk. apply (c_a _ _ (r_c _ _ R) k Hk). destruct (unset (s_fld s) (a k)) eqn:E; [|reflexivity]. destruct (waiting s [] k R Hk E) as (j & _ & i & []).
Qed.
End REACH.

(** ** Seeding and the whole generator *)
Section GEN.
Context (w maxd thr : Q) (rt : Q -> Q) (occ : idx3 -> Q) (leaves : list (oidx * Q)).
Context (Hw : (0 < w)%Q) (Hm : (w < maxd)%Q) (Hrt : forall x y, (0 < x)%Q -> (x <= y)%Q -> (0 < rt x)%Q /\ (rt x <= rt y)%Q).
Context (HL : leaves_ok thr occ leaves).
Notation fr c := (class_of thr (occ c) CFree).
Notation oc c := (class_of thr (occ c) COccupied).
Notation unset := (unset maxd).
Notation num := (sdf_num_bins w maxd).
Notation TS := (tasks thr leaves).
Notation sd := (seeds thr leaves).
Notation b0 := ((1 # 2) * (w * rt 3))%Q.
Record skey (s : sst) (l : list (Z * idx3)) : Prop := Skey {
  k_q : kq num maxd (s_q s) l; k_s : exists l0, sinv w maxd thr rt occ leaves s l0;
  k_l : forall i c, In (i, c) l -> exists x, bucket_of_key num maxd x i /\ (Qabs (s_fld s c) <= Qabs x)%Q /\ (Qabs x <= b0)%Q;
  k_u : forall c, unset (s_fld s) c = false -> inq c l /\ (s_fld s c <= b0)%Q }.
Lemma seed_key t : In t TS -> let near := clampi (minCorner (fst t)) (maxCorner (fst t)) (snd t) in snd t <> near ->
  ((1 # 2) * w * inorm rt (isub (snd t) near) <= b0)%Q.
Proof using Hw Hrt HL.
  intros Ht near N. destruct t as [i c]. cbn [fst snd] in *. destruct (task_in thr leaves i c Ht) as (u & Hu & _ & Hp).
  destruct (lo_box _ _ _ HL i u Hu) as (B1 & B2 & B3). unfold pad in Hp. cbn [fst] in Hp. apply grid3_in in Hp; cbn [imap px py pz] in *; [|lia..].
  assert (Q1 : 1 <= isq (isub c near)) by (apply isq_pos, N). assert (Q3 : isq (isub c near) <= 3).
  { unfold near, isq, isub, clampi. cbn [imap2 px py pz].
    assert (A : forall x lo hi, lo <= hi -> lo - 1 <= x <= hi + 1 -> (x - Z.min (Z.max x lo) hi) * (x - Z.min (Z.max x lo) hi) <= 1).
    { intros x lo hi H1 H2. assert (-1 <= x - Z.min (Z.max x lo) hi <= 1) by lia. nia. }
    pose proof (A _ _ _ B1 (proj1 Hp)). pose proof (A _ _ _ B2 (proj1 (proj2 Hp))). pose proof (A _ _ _ B3 (proj2 (proj2 Hp))). lia. }
  assert (L : (inorm rt (isub c near) <= rt 3)%Q).
  { unfold inorm. apply Hrt; [change 0%Q with (inject_Z 0); rewrite <- Zlt_Qlt; lia|]. change 3%Q with (inject_Z 3). rewrite <- Zle_Qle. exact Q3. }
  assert (L2 : (inorm rt (isub c near) * w <= rt 3 * w)%Q) by (apply Qmult_le_compat_r; lra). lra.
Qed.
Lemma seed_key_step t s l : In t TS -> skey s l -> exists l', skey (quasi_seed_cell w maxd thr rt occ (minCorner (fst t)) (maxCorner (fst t)) s (snd t)) l'.
Proof using Hw Hm Hrt HL.
  intros Ht [Kq [l0 Ks] Kl Ku]. assert (Hm0 : (0 < maxd)%Q) by lra.
  destruct (seed_step w maxd thr rt occ leaves Hw Hm0 Hrt t s l0 Ht Ks) as (Ks' & _ & _). pose proof (seed_cell_cases w maxd thr rt occ leaves Hw Hrt t s Ht) as SC. pose proof (seed_key t Ht) as SK. cbv zeta in *.
  set (s' := quasi_seed_cell _ _ _ _ _ _ _ _ _) in *. destruct t as [i p]. cbn [fst snd] in *. destruct SC as [[E _]|(Hf & d & x & Ed & Hd & Es & Hx)].
  - rewrite E in *. exists l. constructor; [exact Kq|exact Ks'|exact Kl|exact Ku].
  - assert (N : p <> clampi (minCorner i) (maxCorner i) p).
    { intros E. destruct (task_corners thr occ leaves HL i p Ht) as (B1 & B2 & B3). pose proof (clampi_inb _ _ p B1 B2 B3) as I. rewrite <- E in I. pose proof (task_occ thr occ leaves HL i p p Ht I). destruct (class_excl thr (occ p)). tauto. }
    specialize (SK N). rewrite <- Ed in SK. destruct (si_f _ _ _ _ _ _ _ _ Ks p) as [Vp _].
    assert (Hp : (0 < s_fld s p)%Q) by (destruct (class_excl thr (occ p)); destruct Vp as [V|[(_ & V1 & V2)|(V & _)]]; [lra|lra|tauto]).
    assert (X0 : (0 < x)%Q /\ (x <= d)%Q /\ (x <= s_fld s p)%Q) by (destruct Hx as [[Hx ?]|[Hx ?]]; repeat split; lra). destruct X0 as (X0 & X1 & X2).
    assert (Lq : exists l', kq num maxd (s_q s') l' /\ (forall e, In e l -> In e l') /\ (unset (s_fld s) p = true -> inq p l') /\
      (forall e, In e l' -> In e l \/ snd e = p /\ bucket_of_key num maxd d (fst e))).
    { rewrite Es. cbn [s_q]. destruct (unset (s_fld s) p).
      - destruct (kq_push num maxd _ l d p Kq) as (b & Hb & Hq). exists (l ++ [(b, p)]). split; [exact Hq|]. split; [intros; apply in_or_app; auto|].
        split; [intros _; exists b; apply in_or_app; right; left; reflexivity|]. intros e He. apply in_app_or in He as [He|[<-|[]]]; [auto|]. right. cbn. auto.
      - exists l. split; [exact Kq|]. split; [auto|]. split; [discriminate|auto]. }
    destruct Lq as (l' & Lq & L1 & L2 & L3). exists l'. constructor; [exact Lq|exact Ks'| |].
    + intros j c Hj. rewrite Es. cbn [s_fld]. destruct (L3 _ Hj) as [H|[H1 H2]].
      * destruct (Kl j c H) as (y & Y1 & Y2 & Y3). exists y. split; [exact Y1|]. split; [|exact Y3]. unfold fput. destruct (ieqb_spec p c) as [<-|]; [|exact Y2]. rewrite Qabs_pos in Y2 |- * by lra. lra.
      * cbn [fst snd] in *. subst c. exists d. split; [exact H2|]. rewrite fput_same, !Qabs_pos by lra. split; lra.
    + intros c U. rewrite Es in U |- *. cbn [s_fld] in *. destruct (ieqb_spec p c) as [<-|Npc].
      * rewrite fput_same. unfold F_Sdf.unset in U. rewrite fput_same in U. split; [|lra]. destruct (unset (s_fld s) p) eqn:E; [exact (L2 eq_refl)|].
        destruct (Ku p E) as [[j Hj] _]. exists j. apply L1, Hj.
      * rewrite fput_other by exact Npc. unfold F_Sdf.unset in U. rewrite fput_other in U by exact Npc. destruct (Ku c U) as [[j Hj] H]. split; [exists j; apply L1, Hj|exact H].
Qed.
Lemma num_ge : 2 <= num.
Proof using Hw Hm.
  clear - Hw Hm.
  unfold sdf_num_bins. assert (A : (1 < maxd / w)%Q) by (apply Qlt_shift_div_l; lra). pose proof (Qle_ceiling (maxd / w)).
  assert (Bc : (inject_Z 1 < inject_Z (Qceiling (maxd / w)))%Q) by (change (inject_Z 1) with 1%Q; lra). rewrite <- Zlt_Qlt in Bc. lia.
Qed.
Definition bin_width : Q := (w * (maxd / (maxd - w)))%Q.
Lemma bins : (0 <= bin_width)%Q /\ (maxd <= bin_width * inject_Z (num - 1))%Q.
Proof using Hw Hm.
  clear - Hw Hm.
  assert (P : (0 < maxd / (maxd - w))%Q) by (apply Qlt_shift_div_l; lra). unfold bin_width. split; [nra|].
  assert (A : ((maxd - w) / w <= inject_Z (num - 1))%Q).
  { unfold Z.sub. rewrite inject_Z_plus. pose proof (Qle_ceiling (maxd / w)) as C. fold (sdf_num_bins w maxd) in C. change (inject_Z (- (1))) with (- (1))%Q.
    setoid_replace ((maxd - w) / w)%Q with (maxd / w - 1)%Q by (field; lra). lra. }
  assert (E : (maxd == (maxd - w) / w * (w * (maxd / (maxd - w))))%Q) by (field; lra).
  rewrite E at 1. rewrite (Qmult_comm (w * _) (inject_Z _)). apply Qmult_le_compat_r; [exact A|nra].
Qed.
Definition bound (k : nat) : Q := (b0 + inject_Z (Z.of_nat k) * (w * rt 3 + bin_width))%Q.
Lemma bound_S k : (bound k + bin_width + w * rt 3 <= bound (S k))%Q.
Proof using. clear. unfold bound. rewrite Nat2Z.inj_succ. unfold Z.succ. rewrite inject_Z_plus. change (inject_Z 1) with 1%Q. lra. Qed.
Lemma quasi_bound a n fuel f : (forall k, (k <= n)%nat -> fr (a k)) -> (forall k, (k < n)%nat -> exists o, In o sdf_offsets /\ a (S k) = iadd (a k) o) ->
  (exists o, In o sdf_offsets /\ oc (iadd (a 0%nat) o)) -> (bound n < maxd)%Q ->
  quasi_generate w maxd thr rt occ fuel leaves = Some f -> (f (a n) <= bound n)%Q.
Proof using Hw Hm Hrt HL.
  intros Hfr Hadj (o & Ho & Hoc) Hn E. assert (Hm0 : (0 < maxd)%Q) by lra. destruct bins as [G0 G1].
  assert (B00 : (b0 <= bound 0)%Q) by (unfold bound; change (inject_Z (Z.of_nat 0)) with 0%Q; lra).
  assert (Bm : forall k, (b0 <= bound k)%Q).
  { intros k. apply Qle_trans with (bound 0); [exact B00|]. apply (B_mono w rt Hw Hrt bound bin_width bound_S G0). lia. }
  unfold quasi_generate in E. destruct (seed_all w maxd thr rt occ leaves Hw Hm0 Hrt HL) as [l0 P].
  set (s0 := quasi_seed _ _ _ _ _ _ _) in *.
  assert (K : exists l, skey s0 l).
  { unfold s0, quasi_seed. set (s00 := SS _ _).
    rewrite (seed_tasks (quasi_seed_cell w maxd thr rt occ) (quasi_seed_leaf w maxd thr rt occ) thr leaves s00 ltac:(reflexivity)).
    apply (fold_inv _ (fun s => exists l, skey s l)); [intros s t Ht [l Hs]; exact (seed_key_step t s l Ht Hs)|].
    pose proof num_ge. exists []. constructor.
    - apply refines_fresh; (assumption || lia).
    - exists []. constructor.
      + apply holds_new; [lia|assumption].
      + intros c. split; [left; cbn; lra|]. intros H'. exfalso. apply H'. reflexivity.
      + intros c H'. exfalso. apply unset_not in H'. apply H'. reflexivity.
    - intros i c [].
    - intros c H'. exfalso. apply unset_not in H'. apply H'. reflexivity. }
  destruct K as [l [Kq _ Kl Ku]]. pose proof (p_f _ _ _ _ _ _ _ _ P) as Pf.
  assert (R : rinv w maxd thr rt occ sd a n bound s0 l).
  { constructor.
    - constructor; [exact Kq|exact Pf| | |].
      + intros k Hk U. destruct (Ku _ U) as [_ L]. pose proof (Bm k). lra.
      + intros i c Hi. destruct (Kl i c Hi) as (x & X1 & X2 & _). eauto.
      + intros i k Hk Hi. destruct (Kl i _ Hi) as (x & X1 & _ & X3). exists x. split; [exact X1|]. pose proof (Bm k). lra.
    - apply unset_not. intros X. destruct (Pf (a 0%nat)) as (_ & _ & Vb). pose proof (Vb o Ho (Hfr 0%nat ltac:(lia)) Hoc) as L. pose proof (len_le w rt Hw Hrt o Ho).
      pose proof (Bm n). rewrite X in L. pose proof (r3_pos w rt Hw Hrt). lra.
    - intros k Hk U NI. exfalso. apply NI. apply Ku, U. }
  destruct (quasi_propagate w maxd thr rt occ fuel s0) as [s'|] eqn:Ep; [|discriminate]. cbn [option_map] in E. injection E as <-.
  destruct (reach_propagate w maxd thr rt occ Hw Hm Hrt sd (seeds_next thr occ leaves HL) a n bound bin_width Hfr Hadj bound_S Hn G0 G1 num_ge fuel s0 l s' R Ep) as (l' & R' & ->).
  exact (reach_end w maxd thr rt occ sd a n bound s' R' n ltac:(lia)).
Qed.
End GEN.
