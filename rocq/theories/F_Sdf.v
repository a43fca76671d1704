(** Lemmas for the distance field generators (M_Sdf.v). *)
From Verif Require Import Base M_IntMath M_Grid P_Grid M_Adjacency M_Num M_Ndtree F_Hash M_Wavelet M_Queue P_Queue M_Occupancy P_Occupancy M_Sdf.
From Coq Require Import QArith Qround Qabs Lqa.
Close Scope Q_scope.
Open Scope Z_scope.

(** ** The padded grid and the neighbor offsets *)
Lemma grid3_in mn mx i : px mn <= px mx -> py mn <= py mx -> pz mn <= pz mx ->
  (In i (grid3 mn mx) <-> px mn <= px i <= px mx /\ py mn <= py i <= py mx /\ pz mn <= pz i <= pz mx).
Proof.
  intros H1 H2 H3. unfold grid3.
  destruct (C32_grid_visits_box (l_of mn) (l_of mx) (Z.to_nat ((px mx - px mn + 1) * (py mx - py mn + 1) * (pz mx - pz mn + 1)))) as (l & -> & L & _).
  - discriminate.
  - cbn. auto.
  - cbn. nia.
  - rewrite in_map_iff. split.
    + intros (x & <- & Hx). apply L in Hx. destruct x as [|a [|b [|c [|d x]]]]; cbn in Hx; try (exfalso; tauto). unfold i3_of; cbn [nth px py pz]. tauto.
    + intros H. exists (l_of i). split; [destruct i; reflexivity|]. apply L. cbn. tauto.
Qed.
Lemma offsets_in o : In o sdf_offsets <-> (-1 <= px o <= 1 /\ -1 <= py o <= 1 /\ -1 <= pz o <= 1 /\ o <> I3 0 0 0).
Proof.
  destruct o as [x y z]. cbn [px py pz]. split.
  - intros H. vm_compute in H. repeat (destruct H as [H|H]; [injection H as <- <- <-; repeat split; (lia || (intros E; discriminate E))|]). destruct H.
  - intros (Hx & Hy & Hz & Hn).
    assert (Ex : x = -1 \/ x = 0 \/ x = 1) by lia. assert (Ey : y = -1 \/ y = 0 \/ y = 1) by lia. assert (Ez : z = -1 \/ z = 0 \/ z = 1) by lia.
    destruct Ex as [-> | [-> | ->]], Ey as [-> | [-> | ->]], Ez as [-> | [-> | ->]]; try (exfalso; apply Hn; reflexivity);
      vm_compute; repeat (first [left; reflexivity | right]).
Qed.
Lemma offset_sq o : In o sdf_offsets -> 1 <= isq o <= 3.
Proof.
  intros H. apply offsets_in in H as (Hx & Hy & Hz & Hn). destruct o as [x y z]. unfold isq. cbn [px py pz] in *.
  assert (~ (x = 0 /\ y = 0 /\ z = 0)) by (intros (-> & -> & ->); apply Hn; reflexivity). nia.
Qed.

(** ** Folds *)
Lemma fold_inv {A B} (f : A -> B -> A) (P : A -> Prop) l : (forall s x, In x l -> P s -> P (f s x)) -> forall s, P s -> P (fold_left f l s).
Proof. induction l as [|x l IH]; intros H s Hs; cbn; [assumption|]. apply IH; [intros; apply H; [right|]; assumption|]. apply H; [left; reflexivity|assumption]. Qed.
(** every element establishes its own property, all steps preserve the invariant and the other properties *)
Lemma fold_each {A B} (f : A -> B -> A) (P : A -> Prop) (R : B -> A -> Prop) l :
  (forall s x, In x l -> P s -> P (f s x) /\ R x (f s x)) ->
  (forall s x y, In x l -> In y l -> P s -> R y s -> R y (f s x)) ->
  forall s, P s -> P (fold_left f l s) /\ forall x, In x l -> R x (fold_left f l s).
Proof.
  intros H1 H2.
  assert (G : forall l', (forall x, In x l' -> In x l) -> forall s, P s -> P (fold_left f l' s) /\ (forall x, In x l' -> R x (fold_left f l' s)) /\
    (forall y, In y l -> R y s -> R y (fold_left f l' s))).
  { induction l' as [|x l' IH]; intros Hl s Hs; cbn.
    - split; [assumption|]. split; [intros x []|]. auto.
    - assert (Hx : In x l) by (apply Hl; left; reflexivity). destruct (H1 s x Hx Hs) as [P1 R1].
      destruct (IH ltac:(intros; apply Hl; right; assumption) (f s x) P1) as (Q1 & Q2 & Q3). split; [assumption|]. split.
      + intros y [<-|Hy]; [apply Q3; assumption|apply Q2; assumption].
      + intros y Hy Ry. apply Q3; [assumption|]. apply H2; assumption. }
  intros s Hs. destruct (G l ltac:(auto) s Hs) as (Q1 & Q2 & _). split; assumption.
Qed.
Lemma fold_flat {A B C} (f : A -> C -> A) (g : B -> list C) l : forall s, fold_left (fun s b => fold_left f (g b) s) l s = fold_left f (flat_map g l) s.
Proof. induction l as [|x l IH]; intros s; cbn; [reflexivity|]. rewrite fold_left_app. apply IH. Qed.
Lemma fold_ext {A B} (f g : A -> B -> A) l : (forall s x, In x l -> f s x = g s x) -> forall s, fold_left f l s = fold_left g l s.
Proof. induction l as [|x l IH]; intros H s; cbn; [reflexivity|]. rewrite H by (left; reflexivity). apply IH. intros; apply H; right; assumption. Qed.

(** ** The queue, as the list of its elements *)
Section QUEUE.
Context {V : Type}.
Definition holds (q : bqueue V) (l : list V) : Prop := exists s, refines q s /\ l = map snd (s_items s).
Lemma holds_new n mx : 0 < n -> (0 < mx)%Q -> holds (bq_new n mx) [].
Proof. intros. exists (SQ n mx []). split; [apply refines_fresh; (assumption || lia)|reflexivity]. Qed.
Lemma holds_push q l k v : holds q l -> holds (bq_push q k v) (l ++ [v]).
Proof.
  intros (s & R & ->). destruct (refine_call q s (BPush k v) R I) as (s' & C & R'). cbn [bq_apply fst] in R'. exists s'. split; [assumption|].
  inversion C; subst. cbn [s_items]. rewrite map_app. reflexivity.
Qed.
Lemma holds_empty q l : holds q l -> (bq_empty q = true <-> l = []).
Proof.
  intros (s & R & ->). pose proof R as (_ & _ & _ & _ & _ & _ & _ & R8 & _). unfold bq_empty. rewrite R8, Z.eqb_eq.
  destruct (s_items s); cbn; split; intros H; (reflexivity || discriminate || lia).
Qed.
Lemma holds_next q l : holds q l -> l <> [] -> exists v l1 l2, snd (bq_front q) = Some v /\ l = l1 ++ v :: l2 /\ holds (bq_pop (fst (bq_front q))) (l1 ++ l2).
Proof.
  intros (s & R & ->) Hne. assert (Hs : s_items s <> []) by (intros E; apply Hne; rewrite E; reflexivity).
  destruct (refine_call q s BFront R Hs) as (s1 & C1 & R1). cbn [bq_apply] in C1, R1.
  destruct (refine_call _ s1 BPop R1 I) as (s2 & C2 & R2). cbn [bq_apply fst] in R2.
  remember (snd (bq_front q)) as fr eqn:Ef. remember (fst (bq_front q)) as q1 eqn:E1. clear E1.
  inversion C1 as [| | |n mx l b v r N1 X1 X2 X3| |]; subst. inversion C2 as [|n' mx' X1|n' mx' l' b' v' r' N2 X1| | |]; subst.
  - destruct N1 as (l1 & l2 & E & _). destruct l1; discriminate.
  - destruct (C37_next_unique _ _ _ _ _ _ _ _ N1 N2) as (<- & <- & <-). destruct N1 as (l1 & l2 & -> & -> & _).
    exists v, (map snd l1), (map snd l2). split; [congruence|]. cbn [s_items]. split; [rewrite map_app; reflexivity|].
    exists (SQ n mx (l1 ++ l2)). split; [assumption|]. cbn [s_items]. symmetry. apply map_app.
Qed.
End QUEUE.

(** ** Quasi-Euclidean generator *)
Lemma is_class thr v i c : (i = kFree /\ c = CFree \/ i = kOccupied /\ c = COccupied \/ i = kUnobserved /\ c = CUnobserved) ->
  (oc_is_id thr v i = true <-> class_of thr v c).
Proof.
  intros H. rewrite C28_is_id. destruct H as [[-> ->]|[[-> ->]|[-> ->]]]; cbn [id_means]; (split; [intros (c & Hc & ->); exact Hc|intros Hc; eexists; split; [exact Hc|reflexivity]]).
Qed.
Lemma is_class_false thr v i c : (i = kFree /\ c = CFree \/ i = kOccupied /\ c = COccupied \/ i = kUnobserved /\ c = CUnobserved) ->
  (oc_is_id thr v i = false <-> ~ class_of thr v c).
Proof. intros H. rewrite <- (is_class thr v i c H). destruct (oc_is_id thr v i); split; congruence. Qed.
Lemma class_excl thr v : (class_of thr v CFree -> ~ class_of thr v COccupied) /\ (class_of thr v CFree -> ~ class_of thr v CUnobserved) /\
  (class_of thr v COccupied -> ~ class_of thr v CUnobserved) /\ (class_of thr v CFree \/ class_of thr v COccupied \/ class_of thr v CUnobserved).
Proof.
  cbn [class_of]. split; [intros [_ A] [_ B]; lra|]. split; [tauto|]. split; [tauto|].
  destruct (Qlt_le_dec v thr); destruct (Qlt_le_dec (- (8589935 # 8589934592)) v); destruct (Qlt_le_dec v (8589935 # 8589934592));
    try (right; right; split; assumption); try (left; split; [intros [A B]; lra|assumption]); right; left; split; try assumption; intros [A B]; lra.
Qed.

(** Chebyshev distance of two cells *)
Definition cheb (a b : idx3) : Z := Z.max (Z.abs (px a - px b)) (Z.max (Z.abs (py a - py b)) (Z.abs (pz a - pz b))).
Lemma fput_same {A} (f : idx3 -> A) i v : fput f i v i = v.
Proof. unfold fput. rewrite ieqb_refl. reflexivity. Qed.
Lemma fput_other {A} (f : idx3 -> A) i v j : i <> j -> fput f i v j = f j.
Proof. unfold fput. destruct (ieqb_spec i j); congruence. Qed.
Lemma qminb_spec a b : (qminb a b == a /\ a <= b \/ qminb a b == b /\ b <= a)%Q.
Proof.
  unfold qminb. destruct (qlt_b b a) eqn:E; [apply qlt_b_lt in E|apply qlt_b_ge in E]; [right|left]; split; lra.
Qed.
Lemma abs_pos v : (0 <= v -> Qabs v == v)%Q. Proof. intros; apply Qabs_pos; assumption. Qed.
Lemma abs_neg v : (v <= 0 -> Qabs v == - v)%Q. Proof. intros; apply Qabs_neg; assumption. Qed.

Lemma len_pos rt (Hrt : forall x y, (0 < x)%Q -> (x <= y)%Q -> (0 < rt x)%Q /\ (rt x <= rt y)%Q) o : In o sdf_offsets -> (0 < inorm rt o)%Q /\ (rt 1 <= inorm rt o)%Q /\ (inorm rt o <= rt 3)%Q /\ (0 < rt 1)%Q.
Proof.
  intros H. apply offset_sq in H. unfold inorm.
  assert (A : (1 <= inject_Z (isq o))%Q) by (change 1%Q with (inject_Z 1); rewrite <- Zle_Qle; lia).
  assert (B : (inject_Z (isq o) <= 3)%Q) by (change 3%Q with (inject_Z 3); rewrite <- Zle_Qle; lia).
  destruct (Hrt 1%Q _ ltac:(reflexivity) A). destruct (Hrt (inject_Z (isq o)) 3%Q ltac:(lra) B). repeat split; assumption.
Qed.
Section QUASI.
Context (w maxd thr : Q) (rt : Q -> Q) (occ : idx3 -> Q).
Context (Hw : (0 < w)%Q) (Hm : (0 < maxd)%Q) (Hrt : forall x y, (0 < x)%Q -> (x <= y)%Q -> (0 < rt x)%Q /\ (rt x <= rt y)%Q).
Notation fr c := (class_of thr (occ c) CFree).
Notation oc c := (class_of thr (occ c) COccupied).
Notation un c := (class_of thr (occ c) CUnobserved).
(** the cells of the padded grids; contains every cell next to an occupied one *)
Context (seeds : list idx3).
Context (Hseeds : forall p o, In o sdf_offsets -> oc (iadd p o) -> ~ oc p -> In p seeds).

Notation len o := (w * inorm rt o)%Q.

(** what a value says about its cell *)
Definition vok (c : idx3) (v : Q) : Prop :=
  (v == maxd \/ (fr c /\ 0 < v /\ v < maxd) \/ (oc c /\ - maxd < v /\ v < 0))%Q.
Definition vnear (c : idx3) (v : Q) : Prop :=
  ~ (v == maxd)%Q -> exists s, In s seeds /\ (w * rt 1 * inject_Z (cheb c s - 1) <= Qabs v)%Q.
Definition vborder (c : idx3) (v : Q) : Prop := forall o, In o sdf_offsets -> fr c -> oc (iadd c o) -> (v <= (1 # 2) * len o)%Q.

Lemma cheb_step p o s : In o sdf_offsets -> cheb (iadd p o) s <= cheb p s + 1.
Proof. intros H. apply offsets_in in H. unfold cheb, iadd. cbn [imap2 px py pz]. lia. Qed.
Lemma iadd_neq p o : In o sdf_offsets -> iadd p o <> p.
Proof.
  intros H E. apply offsets_in in H as (_ & _ & _ & N). apply N. destruct p as [a b c], o as [x y z]. unfold iadd in E. cbn in E. injection E as E1 E2 E3. f_equal; lia.
Qed.

Lemma lower_spec n nv nv1 cand : (Qabs nv1 == Qabs nv)%Q -> (0 < Qabs nv1)%Q -> (0 < cand)%Q -> (cand < maxd)%Q -> vnear n nv ->
  (exists s, In s seeds /\ (w * rt 1 * inject_Z (cheb n s - 1) <= cand)%Q) ->
  exists y, (copysign (qminb (Qabs nv1) cand) nv1 == if signbit nv1 then - y else y)%Q /\ (0 < y)%Q /\ (y < maxd)%Q /\ (y <= Qabs nv)%Q /\ vnear n (copysign (qminb (Qabs nv1) cand) nv1).
Proof.
  intros E P C1 C2 Vn (sd & Hs & Hd). set (y := qminb (Qabs nv1) cand).
  assert (Y : (0 < y)%Q /\ (y <= cand)%Q /\ (y <= Qabs nv1)%Q /\ ((y == Qabs nv1)%Q \/ (y == cand)%Q)).
  { unfold y. destruct (qminb_spec (Qabs nv1) cand) as [[E0 L]|[E0 L]]; (split; [|split; [|split]]); lra. }
  destruct Y as (Y1 & Y2 & Y3 & Y4). exists y.
  assert (A : (Qabs y == y)%Q) by (apply abs_pos; lra).
  assert (E1 : (copysign y nv1 == if signbit nv1 then - y else y)%Q) by (unfold copysign; destruct (signbit nv1); rewrite A; reflexivity).
  assert (A2 : (Qabs (copysign y nv1) == y)%Q) by (rewrite E1; destruct (signbit nv1); [rewrite Qabs_opp|]; assumption).
  split; [exact E1|]. split; [assumption|]. split; [lra|]. split; [lra|].
  intros _. destruct Y4 as [Y4|Y4].
  - assert (Hn : ~ (nv == maxd)%Q) by (intros X; rewrite X, (abs_pos maxd) in E by lra; lra).
    destruct (Vn Hn) as (sd' & Hs' & Hd'). exists sd'. split; [assumption|]. rewrite A2. lra.
  - exists sd. split; [assumption|]. rewrite A2. lra.
Qed.
(** One neighbor: nothing changes, or its value is lowered to [x] *)
Lemma nb_cases p v s o : In o sdf_offsets -> vok p v -> vnear p v -> vborder p v -> vok (iadd p o) (s_fld s (iadd p o)) -> vnear (iadd p o) (s_fld s (iadd p o)) ->
  let n := iadd p o in let s' := quasi_neighbor w maxd thr rt occ p v s o in
  (s_q s' = s_q s /\ (forall c, s_fld s' c = s_fld s c) /\
     ((v == maxd)%Q \/ (maxd <= Qabs v + len o)%Q \/ un n \/ (fr n /\ (v < 0)%Q))) \/
  exists x, s_fld s' = fput (s_fld s) n x /\ vok n x /\ vnear n x /\ ~ (x == maxd)%Q /\
    (fr n -> (x <= s_fld s n)%Q) /\ (Qabs x <= Qabs (s_fld s n))%Q /\
    exists k, s_q s' = (if Qeq_bool maxd (s_fld s n) then bq_push (s_q s) k n else s_q s).
Proof.
  intros Ho Vp Vn Vb Nv Nn n. destruct (len_pos rt Hrt o Ho) as (L0 & L1 & L2 & L3). pose proof (Qmult_lt_0_compat _ _ Hw L0) as L4.
  cbv zeta. unfold quasi_neighbor. fold n. fold n in Nv, Nn. set (nv := s_fld s n) in *.
  destruct (Qle_bool maxd (Qabs v + w * inorm rt o)) eqn:Ec; [left; apply Qle_bool_iff in Ec; auto|].
  assert (Lc : (Qabs v + w * inorm rt o < maxd)%Q) by (apply Qnot_le_lt; intros X; apply Qle_bool_iff in X; congruence). clear Ec.
  destruct Vp as [Vp|Vp].
  { exfalso. assert (Qabs v == v)%Q by (apply abs_pos; lra). lra. }
  destruct (class_excl thr (occ n)) as (X1 & X2 & X3 & _).
  assert (Near : forall x, (w * rt 1 + Qabs v <= x)%Q -> exists s, In s seeds /\ (w * rt 1 * inject_Z (cheb n s - 1) <= x)%Q).
  { intros x Hx. assert (Hv : ~ (v == maxd)%Q) by (intros E; destruct Vp as [(_ & _ & Vp)|(_ & _ & Vp)]; lra). destruct (Vn Hv) as (sd & Hs & Hd). exists sd. split; [assumption|].
    pose proof (cheb_step p o sd Ho) as K. fold n in K. assert (K' : (inject_Z (cheb n sd - 1) <= inject_Z (cheb p sd - 1) + 1)%Q).
    { change 1%Q with (inject_Z 1). rewrite <- inject_Z_plus, <- Zle_Qle. lia. }
    pose proof (Qmult_lt_0_compat _ _ Hw L3) as L5. assert (M : (w * rt 1 * inject_Z (cheb n sd - 1) <= w * rt 1 * (inject_Z (cheb p sd - 1) + 1))%Q) by (rewrite (Qmult_comm (w * rt 1)), (Qmult_comm (w * rt 1) (inject_Z (cheb p sd - 1) + 1)); apply Qmult_le_compat_r; lra). lra. }
  assert (Lr : (w * rt 1 <= w * inorm rt o)%Q) by (rewrite (Qmult_comm w), (Qmult_comm w (inorm rt o)); apply Qmult_le_compat_r; lra).
  destruct (oc_is_id thr (occ n) kUnobserved) eqn:Eu; [apply (is_class _ _ _ CUnobserved) in Eu; [|tauto]|apply (is_class_false _ _ _ CUnobserved) in Eu; [|tauto]].
  { destruct (Qeq_bool maxd nv) eqn:En.
    - left. cbn [andb]. split; [reflexivity|]. split; [reflexivity|]. right; right; left; exact Eu.
    - exfalso. apply Qeq_bool_neq in En. destruct Nv as [Nv|[(Nv & _)|(Nv & _)]]; [apply En; symmetry; assumption| |]; tauto. }
  rewrite andb_false_r.
  assert (Sv : signbit v = true /\ oc p /\ (- maxd < v)%Q /\ (v < 0)%Q \/ signbit v = false /\ fr p /\ (0 < v)%Q /\ (v < maxd)%Q).
  { destruct Vp as [(Vp1 & Vp2 & Vp3)|(Vp1 & Vp2 & Vp3)]; [right; split; [apply qlt_b_ge; lra|auto]|left; split; [apply qlt_b_lt; lra|auto]]. }
  assert (Cn : oc n \/ fr n) by (destruct (class_excl thr (occ n)) as (_ & _ & _ & [?|[?|?]]); tauto).
  assert (N1 : let nv1 := if Qeq_bool maxd nv && oc_is_id thr (occ n) kOccupied then (- maxd)%Q else nv in
    (oc n /\ (- maxd <= nv1)%Q /\ (nv1 < 0)%Q /\ (Qabs nv1 == Qabs nv)%Q /\ (nv1 <= nv)%Q \/ fr n /\ nv1 = nv /\ (0 < nv)%Q /\ (nv <= maxd)%Q)).
  { cbv zeta. destruct (oc_is_id thr (occ n) kOccupied) eqn:Eo; [apply (is_class _ _ _ COccupied) in Eo; [|tauto]|apply (is_class_false _ _ _ COccupied) in Eo; [|tauto]].
    - left. split; [assumption|]. destruct (Qeq_bool maxd nv) eqn:En; cbn [andb].
      + apply Qeq_bool_iff in En. split; [lra|]. split; [lra|]. split; [|lra]. rewrite Qabs_opp, En. reflexivity.
      + apply Qeq_bool_neq in En. destruct Nv as [Nv|[(Nv & _)|(Nv & N1 & N2)]]; [exfalso; apply En; symmetry; assumption|tauto|]. repeat split; lra.
    - right. rewrite andb_false_r. destruct Cn as [Cn|Cn]; [tauto|]. split; [assumption|]. split; [reflexivity|]. destruct Nv as [Nv|[(Nv & N1 & N2)|(Nv & N1 & N2)]]; [|split; lra|tauto]. split; lra. }
  cbv zeta in N1. set (nv1 := if Qeq_bool maxd nv && _ then _ else nv) in *. clearbody nv1.
  assert (Snv : signbit nv1 = qlt_b nv1 0) by reflexivity.
  destruct N1 as [(N0 & N1 & N2 & N3 & N4)|(N0 & -> & N2 & N3)].
  - (* occupied neighbor *)
    assert (E1 : qlt_b nv1 0 = true) by (apply qlt_b_lt; assumption). rewrite Snv, E1. cbn [negb]. rewrite andb_false_r.
    assert (An : (Qabs nv1 == - nv1)%Q) by (apply abs_neg; lra).
    set (cand1 := if xorb true (signbit v) then (w * inorm rt o - Qabs v)%Q else (Qabs v + w * inorm rt o)%Q).
    assert (Hc : (0 < cand1)%Q /\ (cand1 < maxd)%Q /\ exists s, In s seeds /\ (w * rt 1 * inject_Z (cheb n s - 1) <= cand1)%Q).
    { unfold cand1. destruct Sv as [(-> & Sv)|(-> & S1 & S2 & S3)]; cbn [xorb negb].
      - pose proof (Qabs_nonneg v). split; [lra|]. split; [lra|]. apply Near. lra.
      - assert (Av : (Qabs v == v)%Q) by (apply abs_pos; lra). pose proof (Vb o Ho S1 N0) as B. split; [lra|]. split; [lra|].
        exists p. split; [apply (Hseeds p o Ho N0); destruct (class_excl thr (occ p)); tauto|].
        assert (E : cheb n p - 1 = 0). { unfold n. apply offsets_in in Ho as (O1 & O2 & O3 & O4). unfold cheb, iadd. cbn [imap2 px py pz].
          destruct o as [x y z]; cbn [px py pz] in *. assert (~ (x = 0 /\ y = 0 /\ z = 0)) by (intros (-> & -> & ->); apply O4; reflexivity). lia. }
        rewrite E. rewrite Qmult_0_r. lra. }
    clearbody cand1. destruct Hc as (Hc1 & Hc2 & Hc3). right.
    destruct (lower_spec n nv nv1 cand1 N3 ltac:(lra) Hc1 Hc2 Nn Hc3) as (y & Y1 & Y2 & Y3 & Y4 & Y5).
    exists (copysign (qminb (Qabs nv1) cand1) nv1). split; [reflexivity|]. set (x := copysign _ _) in *. clearbody x. rewrite Snv, E1 in Y1.
    assert (Ax : (Qabs x == y)%Q) by (rewrite Y1, Qabs_opp; apply abs_pos; lra). pose proof (Qle_Qabs (- nv)) as K. rewrite Qabs_opp in K.
    split; [right; right; split; [assumption|]; split; lra|]. split; [assumption|]. split; [lra|]. split; [|split; [lra|exists cand1; reflexivity]].
    intros Hf. exfalso. exact (X1 Hf N0).
  - (* free neighbor *)
    assert (E1 : qlt_b nv 0 = false) by (apply qlt_b_ge; lra). rewrite Snv, E1. cbn [negb]. rewrite andb_true_r.
    destruct Sv as [(-> & S1 & S2 & S3)|(-> & S1 & S2 & S3)]; cbn [xorb negb].
    + left. split; [reflexivity|]. split; [|right; right; right; split; [assumption|lra]]. intros c. cbn [s_fld]. unfold fput. destruct (ieqb_spec n c) as [<-|]; reflexivity.
    + right. assert (An : (Qabs nv == nv)%Q) by (apply abs_pos; lra). assert (Av : (Qabs v == v)%Q) by (apply abs_pos; lra).
      destruct (lower_spec n nv nv (Qabs v + w * inorm rt o) ltac:(reflexivity) ltac:(lra) ltac:(lra) Lc Nn (Near (Qabs v + w * inorm rt o)%Q ltac:(lra))) as (y & Y1 & Y2 & Y3 & Y4 & Y5).
      exists (copysign (qminb (Qabs nv) (Qabs v + w * inorm rt o)) nv). split; [reflexivity|]. set (x := copysign _ _) in *. clearbody x. rewrite Snv, E1 in Y1.
      assert (Ax : (Qabs x == y)%Q) by (rewrite Y1; apply abs_pos; lra).
      split; [right; left; split; [assumption|]; split; lra|]. split; [assumption|]. split; [lra|]. split; [intros _; rewrite An in Y4; lra|]. split; [lra|].
      exists (Qabs v + w * inorm rt o)%Q. reflexivity.
Qed.

(** *** Propagation *)
Definition unset (f : idx3 -> Q) (c : idx3) : bool := Qeq_bool maxd (f c).
Lemma unset_iff f c : unset f c = true <-> (f c == maxd)%Q.
Proof. unfold unset. rewrite Qeq_bool_iff. split; symmetry; assumption. Qed.
Lemma unset_not f c : unset f c = false <-> ~ (f c == maxd)%Q.
Proof. rewrite <- unset_iff. destruct (unset f c); split; congruence. Qed.
Definition finv (f : idx3 -> Q) : Prop := forall c, vok c (f c) /\ vnear c (f c) /\ vborder c (f c).
(** free cells next to occupied ones are waiting, or the occupied ones are set *)
Definition pend (f : idx3 -> Q) (l : list idx3) (p o : idx3) : Prop := In p l \/ unset f (iadd p o) = false.
Definition border_pair (p o : idx3) : Prop := In o sdf_offsets /\ fr p /\ oc (iadd p o).

Lemma vok_bounds c v : vok c v -> (- maxd < v /\ v <= maxd)%Q.
Proof. intros [H|[(_ & H)|(_ & H)]]; lra. Qed.

(** number of unset cells of a region *)
Definition nunset (F : list idx3) (f : idx3 -> Q) : nat := length (filter (unset f) F).
Lemma nunset_le F f g : (forall c, unset g c = true -> unset f c = true) -> (nunset F g <= nunset F f)%nat.
Proof.
  intros H. unfold nunset. induction F as [|c F IH]; cbn; [lia|]. destruct (unset g c) eqn:E.
  - rewrite (H c E). cbn. lia.
  - destruct (unset f c); cbn; lia.
Qed.
Lemma nunset_lt F f g n : (forall c, unset g c = true -> unset f c = true) -> In n F -> unset f n = true -> unset g n = false -> (nunset F g < nunset F f)%nat.
Proof.
  intros H. unfold nunset. induction F as [|c F IH]; [intros []|]. intros [-> | Hn] E1 E2; cbn.
  - rewrite E1, E2. cbn. pose proof (nunset_le F f g H) as X. unfold nunset in X. lia.
  - specialize (IH Hn E1 E2). destruct (unset g c) eqn:E; [rewrite (H c E)|destruct (unset f c)]; cbn; lia.
Qed.

(** Invariant of the neighbor loop for the popped cell [p] of value [v] *)
Record lst (F : list idx3) (p : idx3) (v : Q) (m : nat) (s : sst) (l : list idx3) : Prop := Lst {
  l_q : holds (s_q s) l; l_f : finv (s_fld s);
  l_m : (nunset F (s_fld s) + length l <= m)%nat }.

Lemma nb_step F p v m s l o : (forall c x, vok c x -> vnear c x -> ~ (x == maxd)%Q -> In c F) ->
  In o sdf_offsets -> vok p v -> vnear p v -> vborder p v -> lst F p v m s l ->
  let s' := quasi_neighbor w maxd thr rt occ p v s o in
  exists l', lst F p v m s' l' /\ (forall c, In c l -> In c l') /\ (forall c, unset (s_fld s') c = true -> unset (s_fld s) c = true) /\
    ((3 # 2) * (w * rt 3) < maxd -> fr p -> ~ (v == maxd) -> oc (iadd p o) -> unset (s_fld s') (iadd p o) = false)%Q /\
    (forall c, unset (s_fld s) c = true -> unset (s_fld s') c = false -> In c l').
Proof.
  intros HF Ho Vp Vn Vb [Lq Lf Lm]. cbv zeta. pose proof (nb_cases p v s o Ho Vp Vn Vb) as NC. cbv zeta in NC.
  set (s' := quasi_neighbor w maxd thr rt occ p v s o) in *. set (n := iadd p o) in *. destruct (Lf n) as (A1 & A2 & A3).
  destruct (NC A1 A2) as [(C1 & C2 & C3)|(x & C1 & C2 & C3 & C4 & C5 & C6 & k & C7)].
  - exists l. split; [|split; [auto|split; [|split]]].
    + constructor; [rewrite C1; assumption| |].
      * intros c. rewrite C2. apply Lf.
      * assert (E : (nunset F (s_fld s') <= nunset F (s_fld s))%nat) by (apply nunset_le; intros c; unfold unset; rewrite C2; auto). lia.
    + intros c. unfold unset. rewrite C2. auto.
    + intros Hbig Hf Hv Hoc. exfalso. destruct (len_pos rt Hrt o Ho) as (L0 & L1 & L2 & L3).
      destruct (class_excl thr (occ n)) as (X1 & X2 & X3 & _).
      destruct C3 as [C3|[C3|[C3|[C3 C4]]]]; [tauto| |tauto|tauto].
      pose proof (Vb o Ho Hf Hoc) as B. assert (Vv : (0 < v)%Q) by (destruct (class_excl thr (occ p)); destruct Vp as [Vp|[(_ & Vp)|(Vp & _)]]; [tauto|lra|tauto]).
      rewrite (abs_pos v) in C3 by lra. assert (M : (w * inorm rt o <= w * rt 3)%Q) by (rewrite (Qmult_comm w), (Qmult_comm w (rt 3)); apply Qmult_le_compat_r; lra). lra.
    + intros c. unfold unset. rewrite C2. congruence.
  - assert (Mono : forall c, unset (s_fld s') c = true -> unset (s_fld s) c = true).
    { intros c. rewrite C1. unfold unset, fput. destruct (ieqb_spec n c) as [<-|]; [|auto]. intros E. apply Qeq_bool_iff in E. exfalso. apply C4. symmetry. exact E. }
    assert (Sn : unset (s_fld s') n = false) by (apply unset_not; rewrite C1, fput_same; assumption).
    assert (Fi : finv (s_fld s')).
    { intros c. rewrite C1. unfold fput. destruct (ieqb_spec n c) as [<-|]; [|apply Lf]. split; [assumption|]. split; [assumption|].
      intros o' Ho' Hf Hoc. specialize (A3 o' Ho' Hf Hoc). specialize (C5 Hf). lra. }
    assert (Hin : In n F) by (apply (HF n x); assumption).
    exists (if Qeq_bool maxd (s_fld s n) then l ++ [n] else l). split; [|split; [|split; [assumption|split]]].
    + constructor; [|assumption|].
      * rewrite C7. destruct (Qeq_bool maxd (s_fld s n)); [apply holds_push|]; assumption.
      * destruct (Qeq_bool maxd (s_fld s n)) eqn:E.
        -- rewrite app_length. cbn [length]. pose proof (nunset_lt F _ _ n Mono Hin E Sn). lia.
        -- pose proof (nunset_le F _ _ Mono). lia.
    + intros c Hc. destruct (Qeq_bool maxd (s_fld s n)); [apply in_or_app; left|]; assumption.
    + intros _ _ _ _. assumption.
    + intros c Hu Hs. rewrite C1 in Hs. unfold unset, fput in Hs. destruct (ieqb_spec n c) as [<-|]; [|unfold unset in Hu; congruence].
      unfold unset in Hu. rewrite Hu. apply in_or_app. right. left. reflexivity.
Qed.

Lemma nb_fold F p v m os : (forall c x, vok c x -> vnear c x -> ~ (x == maxd)%Q -> In c F) ->
  (forall o, In o os -> In o sdf_offsets) -> vok p v -> vnear p v -> vborder p v -> forall s l, lst F p v m s l ->
  let s' := fold_left (quasi_neighbor w maxd thr rt occ p v) os s in
  exists l', lst F p v m s' l' /\ (forall c, In c l -> In c l') /\ (forall c, unset (s_fld s') c = true -> unset (s_fld s) c = true) /\
    ((3 # 2) * (w * rt 3) < maxd -> fr p -> ~ (v == maxd) -> forall o, In o os -> oc (iadd p o) -> unset (s_fld s') (iadd p o) = false)%Q /\
    (forall c, unset (s_fld s) c = true -> unset (s_fld s') c = false -> In c l').
Proof.
  intros HF Hos Vp Vn Vb. induction os as [|o os IH]; intros s l L; cbv zeta; cbn [fold_left].
  - exists l. split; [assumption|]. split; [auto|]. split; [auto|]. split; [intros _ _ _ o []|congruence].
  - destruct (nb_step F p v m s l o HF (Hos o (or_introl eq_refl)) Vp Vn Vb L) as (l1 & L1 & A1 & B1 & D1 & E1).
    destruct (IH (fun o' H => Hos o' (or_intror H)) _ _ L1) as (l2 & L2 & A2 & B2 & D2 & E2).
    set (s1 := quasi_neighbor w maxd thr rt occ p v s o) in *. set (s2 := fold_left _ os s1) in *.
    exists l2. split; [assumption|]. split; [auto|]. split; [auto|]. split.
    + intros Hb Hf Hv o' [<-|Ho'] Hoc; [|apply D2; assumption]. specialize (D1 Hb Hf Hv Hoc). destruct (unset (s_fld s2) (iadd p o)) eqn:E; [|reflexivity]. apply B2 in E. congruence.
    + intros c Hu Hs. destruct (unset (s_fld s1) c) eqn:E; [apply E2; assumption|]. apply A2, E1; assumption.
Qed.

(** ** The whole propagation *)
Record pinv (s : sst) (l : list idx3) : Prop := Pinv {
  p_q : holds (s_q s) l; p_f : finv (s_fld s);
  p_e : ((3 # 2) * (w * rt 3) < maxd)%Q -> forall p o, border_pair p o -> unset (s_fld s) p = false /\ pend (s_fld s) l p o }.

Lemma quasi_step_ok F s l : (forall c x, vok c x -> vnear c x -> ~ (x == maxd)%Q -> In c F) ->
  pinv s l -> l <> [] -> exists s' l', quasi_step w maxd thr rt occ s = Some s' /\ pinv s' l' /\
    (nunset F (s_fld s') + length l' < nunset F (s_fld s) + length l)%nat.
Proof.
  intros HF [Pq Pf Pe] Hne. unfold quasi_step. destruct (holds_next _ _ Pq Hne) as (p & l1 & l2 & Ef & El & Hp).
  destruct (bq_front (s_q s)) as [q1 fr0] eqn:Eq. cbn [fst snd] in *. rewrite Ef.
  destruct (Pf p) as (V1 & V2 & V3). set (s0 := SS (s_fld s) (bq_pop q1)).
  assert (L0 : lst F p (s_fld s p) (nunset F (s_fld s) + length (l1 ++ l2)) s0 (l1 ++ l2)) by (constructor; [exact Hp|exact Pf|cbn [s_fld s0]; lia]).
  destruct (nb_fold F p (s_fld s p) _ sdf_offsets HF ltac:(auto) V1 V2 V3 s0 _ L0) as (l' & [Lq Lf Lm] & A & B & D & E).
  set (s' := fold_left _ _ s0) in *. exists s', l'. split; [reflexivity|]. split.
  - constructor; [assumption|assumption|]. intros Hb c o Hbp. destruct (Pe Hb c o Hbp) as [U [P|P]].
    + split; [destruct (unset (s_fld s') c) eqn:E1; [apply B in E1; cbn [s0 s_fld] in E1; congruence|reflexivity]|].
      rewrite El in P. apply in_app_or in P as [P|[<-|P]]; [left; apply A, in_or_app; auto| |left; apply A, in_or_app; auto].
      right. destruct Hbp as (Ho & Hf & Hoc). apply D; try assumption. apply unset_not. assumption.
    + split; [destruct (unset (s_fld s') c) eqn:E1; [apply B in E1; cbn [s0 s_fld] in E1; congruence|reflexivity]|].
      right. destruct (unset (s_fld s') (iadd c o)) eqn:E1; [apply B in E1; cbn [s0 s_fld] in E1; congruence|reflexivity].
  - rewrite app_length in Lm. rewrite El, app_length. cbn [length] in *. lia.
Qed.
Lemma quasi_propagate_ok F : (forall c x, vok c x -> vnear c x -> ~ (x == maxd)%Q -> In c F) ->
  forall fuel s l, pinv s l -> (nunset F (s_fld s) + length l <= fuel)%nat ->
  exists s', quasi_propagate w maxd thr rt occ fuel s = Some s' /\ pinv s' [].
Proof.
  intros HF. induction fuel as [|fuel IH]; intros s l P Hf; cbn [quasi_propagate].
  - destruct l; [|cbn in Hf; lia]. replace (bq_empty (s_q s)) with true by (symmetry; apply (holds_empty _ _ (p_q _ _ P)); reflexivity). eauto.
  - destruct (bq_empty (s_q s)) eqn:E.
    + apply (holds_empty _ _ (p_q _ _ P)) in E. subst l. eauto.
    + assert (Hne : l <> []) by (intros ->; rewrite (proj2 (holds_empty _ _ (p_q _ _ P)) eq_refl) in E; discriminate).
      destruct (quasi_step_ok F s l HF P Hne) as (s' & l' & -> & P' & M). apply (IH s' l' P'). lia.
Qed.
Lemma quasi_propagate_mono : forall fuel s s', quasi_propagate w maxd thr rt occ fuel s = Some s' ->
  forall fuel', (fuel <= fuel')%nat -> quasi_propagate w maxd thr rt occ fuel' s = Some s'.
Proof using.
  clear Hrt Hseeds Hw Hm. induction fuel as [|fuel IH]; intros s s' H fuel' Hf; destruct fuel' as [|fuel']; cbn [quasi_propagate] in *; destruct (bq_empty (s_q s)); try assumption; try discriminate; try lia.
  destruct (quasi_step w maxd thr rt occ s); [|discriminate]. apply IH; [assumption|lia].
Qed.
End QUASI.
