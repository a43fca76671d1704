(** Quasi-Euclidean distance fields: the seeding stage and the whole generator. *)
From Verif Require Import Base M_IntMath M_Grid P_Grid M_Adjacency M_Num M_Ndtree F_Hash M_Wavelet M_Queue P_Queue M_Occupancy P_Occupancy M_Sdf F_Sdf.
From Coq Require Import QArith Qround Qabs Lqa.
Close Scope Q_scope.
Open Scope Z_scope.

Definition inb (mn mx c : idx3) : Prop := px mn <= px c <= px mx /\ py mn <= py c <= py mx /\ pz mn <= pz c <= pz mx.
Definition clampi (mn mx c : idx3) : idx3 := imap2 Z.min (imap2 Z.max c mn) mx.
Lemma clampi_inb mn mx c : px mn <= px mx -> py mn <= py mx -> pz mn <= pz mx -> inb mn mx (clampi mn mx c).
Proof. unfold inb, clampi. cbn [imap2 px py pz]. lia. Qed.
Lemma clampi_id mn mx c : inb mn mx c -> clampi mn mx c = c.
Proof. unfold inb, clampi, imap2. destruct c as [x y z]; cbn [px py pz]. intros (A & B & D). f_equal; lia. Qed.
(** the clamped index is at most as far as any cell of the node *)
Lemma clampi_nearest mn mx p n : inb mn mx n -> isq (isub p (clampi mn mx p)) <= isq (isub n p).
Proof.
  intros H. unfold inb in H. unfold isq, isub, clampi. cbn [imap2 px py pz].
  assert (A : forall a b lo hi, lo <= b <= hi -> (a - Z.min (Z.max a lo) hi) * (a - Z.min (Z.max a lo) hi) <= (b - a) * (b - a)).
  { intros a b lo hi Hb. rewrite <- (Z.abs_square (a - _)), <- (Z.abs_square (b - a)). apply Z.mul_le_mono_nonneg; lia. }
  pose proof (A (px p) (px n) (px mn) (px mx) ltac:(lia)). pose proof (A (py p) (py n) (py mn) (py mx) ltac:(lia)). pose proof (A (pz p) (pz n) (pz mn) (pz mx) ltac:(lia)). lia.
Qed.
Lemma isq_pos a b : a <> b -> 1 <= isq (isub a b).
Proof.
  intros H. destruct a as [x y z], b as [x' y' z']. unfold isq, isub. cbn [imap2 px py pz].
  assert (~ (x - x' = 0 /\ y - y' = 0 /\ z - z' = 0)) by (intros (? & ? & ?); apply H; f_equal; lia).
  assert (P : forall u, 0 <= u * u /\ (u <> 0 -> 1 <= u * u)) by (intros u; nia). generalize (P (x - x')), (P (y - y')), (P (z - z')). clear P. lia.
Qed.
(** squares of neighbor offsets *)
Lemma clampi_offset mn mx p o : inb mn mx (iadd p o) -> isq (isub p (clampi mn mx p)) <= isq o.
Proof.
  intros H. pose proof (clampi_nearest mn mx p _ H) as K. replace (isub (iadd p o) p) with o in K; [exact K|].
  destruct p as [a b c], o as [x y z]; unfold isub, iadd, imap2; cbn [px py pz]. f_equal; lia.
Qed.

(** The tasks of the seeding stage: (node, cell) for the cells of the padded grids of the occupied leaves *)
Definition pad (leaf : oidx * Q) : list idx3 := grid3 (imap (fun c => c - 1) (minCorner (fst leaf))) (imap (fun c => c + 1) (maxCorner (fst leaf))).
Definition tasks (thr : Q) (leaves : list (oidx * Q)) : list (oidx * idx3) :=
  flat_map (fun leaf => if oc_is_id thr (snd leaf) kOccupied then map (fun c => (fst leaf, c)) (pad leaf) else []) leaves.
Lemma fold_map {A B C} (f : A -> C -> A) (g : B -> C) l : forall s, fold_left f (map g l) s = fold_left (fun s b => f s (g b)) l s.
Proof. induction l; intros s; cbn; auto. Qed.
Lemma seed_tasks {St} (cell : idx3 -> idx3 -> St -> idx3 -> St) (leafstep : St -> oidx * Q -> St) thr leaves s :
  (forall s leaf, leafstep s leaf = if negb (oc_is_id thr (snd leaf) kOccupied) then s else fold_left (cell (minCorner (fst leaf)) (maxCorner (fst leaf))) (pad leaf) s) ->
  fold_left leafstep leaves s = fold_left (fun s t => cell (minCorner (fst t)) (maxCorner (fst t)) s (snd t)) (tasks thr leaves) s.
Proof.
  intros H. unfold tasks. rewrite <- fold_flat. apply fold_ext. intros s' leaf _. rewrite H. destruct (oc_is_id thr (snd leaf) kOccupied); cbn [negb]; [|reflexivity].
  rewrite fold_map. reflexivity.
Qed.

(** Facts about the leaves of the occupancy map *)
Record leaves_ok (thr : Q) (occ : idx3 -> Q) (leaves : list (oidx * Q)) : Prop := LOK {
  lo_box : forall i u, In (i, u) leaves -> px (minCorner i) <= px (maxCorner i) /\ py (minCorner i) <= py (maxCorner i) /\ pz (minCorner i) <= pz (maxCorner i);
  lo_val : forall i u c, In (i, u) leaves -> inb (minCorner i) (maxCorner i) c -> occ c = u;
  lo_cov : forall c, class_of thr (occ c) COccupied -> exists i u, In (i, u) leaves /\ inb (minCorner i) (maxCorner i) c }.

Section SEEDS.
Context (thr : Q) (occ : idx3 -> Q) (leaves : list (oidx * Q)) (HL : leaves_ok thr occ leaves).
Notation oc c := (class_of thr (occ c) COccupied).
Lemma task_in i c : In (i, c) (tasks thr leaves) -> exists u, In (i, u) leaves /\ class_of thr u COccupied /\ In c (pad (i, u)).
Proof.
  intros H. unfold tasks in H. apply in_flat_map in H as ([j u] & Hj & H). cbn [fst snd] in H. destruct (oc_is_id thr u kOccupied) eqn:E; [|destruct H].
  apply in_map_iff in H as (c' & [= -> ->] & H). exists u. split; [assumption|]. split; [apply (is_class thr u kOccupied); [tauto|assumption]|assumption].
Qed.
(** every cell next to an occupied one is a task, for a node that contains the occupied one *)
Lemma task_next p o : In o sdf_offsets -> oc (iadd p o) -> exists i, In (i, p) (tasks thr leaves) /\ inb (minCorner i) (maxCorner i) (iadd p o).
Proof.
  intros Ho Hoc. destruct (lo_cov _ _ _ HL _ Hoc) as (i & u & Hi & Hb). exists i. split; [|assumption].
  unfold tasks. apply in_flat_map. exists (i, u). split; [assumption|]. cbn [fst snd].
  rewrite (lo_val _ _ _ HL i u _ Hi Hb) in Hoc. rewrite (proj2 (is_class thr u kOccupied COccupied ltac:(tauto)) Hoc).
  apply in_map. destruct (lo_box _ _ _ HL i u Hi) as (B1 & B2 & B3). unfold pad. cbn [fst]. apply grid3_in; cbn [imap px py pz]; try lia.
  unfold inb, iadd in Hb. cbn [imap2 px py pz] in Hb. apply offsets_in in Ho. lia.
Qed.
Lemma task_occ i c n : In (i, c) (tasks thr leaves) -> inb (minCorner i) (maxCorner i) n -> oc n.
Proof. intros H Hn. destruct (task_in i c H) as (u & Hu & Ho & _). rewrite (lo_val _ _ _ HL i u n Hu Hn). assumption. Qed.
Lemma task_corners i c : In (i, c) (tasks thr leaves) -> px (minCorner i) <= px (maxCorner i) /\ py (minCorner i) <= py (maxCorner i) /\ pz (minCorner i) <= pz (maxCorner i).
Proof. intros H. destruct (task_in i c H) as (u & Hu & _). apply (lo_box _ _ _ HL i u Hu). Qed.
Definition seeds : list idx3 := map snd (tasks thr leaves).
Lemma seeds_next p o : In o sdf_offsets -> oc (iadd p o) -> ~ oc p -> In p seeds.
Proof. intros Ho Hoc _. destruct (task_next p o Ho Hoc) as (i & Hi & _). apply in_map_iff. exists (i, p). auto. Qed.
Lemma task_seed i c : In (i, c) (tasks thr leaves) -> In c seeds.
Proof. intros H. apply in_map_iff. exists (i, c). auto. Qed.
End SEEDS.

Section GEN.
Context (w maxd thr : Q) (rt : Q -> Q) (occ : idx3 -> Q) (leaves : list (oidx * Q)).
Context (Hw : (0 < w)%Q) (Hm : (0 < maxd)%Q) (Hrt : forall x y, (0 < x)%Q -> (x <= y)%Q -> (0 < rt x)%Q /\ (rt x <= rt y)%Q).
Context (HL : leaves_ok thr occ leaves).
Notation fr c := (class_of thr (occ c) CFree).
Notation oc c := (class_of thr (occ c) COccupied).
Notation sd := (seeds thr leaves).
Notation TS := (tasks thr leaves).
Notation vok := (vok maxd thr occ).
Notation vnear := (vnear w maxd rt sd).
Notation unset := (unset maxd).
Notation pinv := (pinv w maxd thr rt occ sd).

(** All cells that can get a value *)
Definition region : list idx3 :=
  let K := Qceiling (maxd / (w * rt 1)) + 1 in
  flat_map (fun s => grid3 (imap (fun c => c - K) s) (imap (fun c => c + K) s)) sd.
Lemma region_in c x : vok c x -> vnear c x -> ~ (x == maxd)%Q -> In c region.
Proof.
  intros V Nr Hx. destruct (Nr Hx) as (s & Hs & Hd). assert (L3 : (0 < rt 1)%Q) by (apply (Hrt 1 1); [reflexivity|lra]).
  pose proof (Qmult_lt_0_compat _ _ Hw L3) as L5.
  assert (Lx : (Qabs x < maxd)%Q). { destruct V as [V|[(_ & V1 & V2)|(_ & V1 & V2)]]; [tauto|rewrite abs_pos; lra|rewrite abs_neg; lra]. }
  assert (Hc : cheb c s - 1 <= Qceiling (maxd / (w * rt 1))).
  { rewrite Zle_Qle. apply Qle_trans with (maxd / (w * rt 1))%Q; [|apply Qle_ceiling]. apply Qle_shift_div_l; [assumption|]. rewrite Qmult_comm. lra. }
  unfold region. apply in_flat_map. exists s. split; [assumption|]. set (K := Qceiling (maxd / (w * rt 1))) in *.
  assert (0 <= K) by (change 0 with (Qceiling 0); apply Qceiling_resp_le; apply Qle_shift_div_l; lra).
  unfold cheb in Hc. apply grid3_in; cbn [imap px py pz]; try lia.
Qed.

Record sinv (s : sst) (l : list idx3) : Prop := Sinv {
  si_q : holds (s_q s) l; si_f : forall c, vok c (s_fld s c) /\ vnear c (s_fld s c);
  si_l : forall c, unset (s_fld s) c = false -> In c l }.
Definition done (t : oidx * idx3) (s : sst) : Prop :=
  let near := clampi (minCorner (fst t)) (maxCorner (fst t)) (snd t) in
  fr (snd t) -> snd t <> near -> (s_fld s (snd t) <= (1 # 2) * w * inorm rt (isub (snd t) near))%Q.
Lemma seed_cell_cases t s : In t TS ->
  let s' := quasi_seed_cell w maxd thr rt occ (minCorner (fst t)) (maxCorner (fst t)) s (snd t) in
  let near := clampi (minCorner (fst t)) (maxCorner (fst t)) (snd t) in
  s' = s /\ ~ (fr (snd t) /\ snd t <> near) \/
  (fr (snd t) /\ exists d x, (d == (1 # 2) * w * inorm rt (isub (snd t) near))%Q /\ (0 < d)%Q /\
    s' = SS (fput (s_fld s) (snd t) x) (if unset (s_fld s) (snd t) then bq_push (s_q s) d (snd t) else s_q s) /\
    ((x == s_fld s (snd t) /\ s_fld s (snd t) <= d \/ x == d /\ d <= s_fld s (snd t))%Q)).
Proof.
  intros Ht. cbv zeta. unfold quasi_seed_cell. fold (clampi (minCorner (fst t)) (maxCorner (fst t)) (snd t)). set (near := clampi _ _ _).
  destruct (ieqb_spec (snd t) near) as [E|E]; [left; split; [reflexivity|tauto]|].
  destruct (oc_is_id thr (occ (snd t)) kFree) eqn:Ef; cbn [negb]; [apply (is_class _ _ _ CFree) in Ef; [|tauto]|apply (is_class_false _ _ _ CFree) in Ef; [|tauto]; left; split; [reflexivity|tauto]].
  right. split; [assumption|]. exists ((1 # 2) * w * inorm rt (isub (snd t) near))%Q. eexists. split; [reflexivity|]. split; [|split; [reflexivity|apply qminb_spec]].
  assert (A : (0 < inorm rt (isub (snd t) near))%Q). { unfold inorm. apply (Hrt _ (inject_Z (isq (isub (snd t) near)))); [|lra]. change 0%Q with (inject_Z 0). rewrite <- Zlt_Qlt. pose proof (isq_pos _ _ E). lia. }
  apply Qmult_lt_0_compat; [lra|assumption].
Qed.
Lemma seed_step t s l : In t TS -> sinv s l ->
  let s' := quasi_seed_cell w maxd thr rt occ (minCorner (fst t)) (maxCorner (fst t)) s (snd t) in
  (exists l', sinv s' l') /\ done t s' /\ (forall c, (s_fld s' c <= s_fld s c)%Q).
Proof.
  intros Ht [Sq Sf Sl]. pose proof (seed_cell_cases t s Ht) as SC. cbv zeta in *. set (s' := quasi_seed_cell _ _ _ _ _ _ _ _ _) in *. destruct t as [i p]. cbn [fst snd] in *.
  destruct SC as [[-> N]|(Hf & d & x & Ed & Hd & -> & Hx)].
  - split; [exists l; constructor; assumption|]. split; [|intros; lra]. intros A B. exfalso. apply N. auto.
  - destruct (Sf p) as [Vp Np].
    assert (Hle : (s_fld s p <= maxd)%Q /\ (0 < s_fld s p)%Q). { destruct (class_excl thr (occ p)). destruct Vp as [V|[(_ & V1 & V2)|(V & _)]]; [lra|lra|tauto]. }
    split; [|split].
    + exists (if unset (s_fld s) p then l ++ [p] else l). constructor.
      * cbn [s_q]. destruct (unset (s_fld s) p); [apply holds_push|]; assumption.
      * intros c. cbn [s_fld]. unfold fput. destruct (ieqb_spec p c) as [<-|]; [|apply Sf]. split.
        -- destruct Hx as [[Hx _]|[Hx Hy]].
           ++ destruct Vp as [V|[(V0 & V1 & V2)|(V0 & V1 & V2)]]; [left; lra|right; left; split; [assumption|lra]|right; right; split; [assumption|lra]].
           ++ destruct (Qlt_le_dec d maxd); [right; left; split; [assumption|lra]|left; lra].
        -- intros _. exists p. split; [apply (task_seed _ _ i _ Ht)|]. assert (L3 : (0 < rt 1)%Q) by (apply (Hrt 1 1); [reflexivity|lra]).
           pose proof (Qmult_lt_0_compat _ _ Hw L3) as L5. pose proof (Qabs_nonneg x). replace (cheb p p - 1) with (-1) by (unfold cheb; lia).
           change (inject_Z (-1)) with (- (1))%Q. lra.
      * intros c Hc. cbn [s_fld] in Hc. unfold F_Sdf.unset, fput in Hc. destruct (ieqb_spec p c) as [E0|]; [subst c|].
        -- destruct (unset (s_fld s) p) eqn:E; [apply in_or_app; right; left; reflexivity|apply Sl; assumption].
        -- destruct (unset (s_fld s) p); [apply in_or_app; left|]; apply Sl; exact Hc.
    + intros _ _. cbn [fst snd s_fld]. rewrite fput_same, <- Ed. destruct Hx as [[Hx ?]|[Hx ?]]; lra.
    + intros c. cbn [s_fld]. unfold fput. destruct (ieqb_spec p c) as [<-|]; [destruct Hx as [[Hx ?]|[Hx ?]]; lra|lra].
Qed.
Lemma seed_all : exists l, pinv (quasi_seed w maxd thr rt occ leaves (SS (fun _ => maxd) (bq_new (sdf_num_bins w maxd) maxd))) l.
Proof.
  set (s0 := SS _ _).
  assert (S0 : exists l, sinv s0 l).
  { exists []. constructor.
    - apply holds_new; [|assumption]. unfold sdf_num_bins. assert (A : (0 < maxd / w)%Q) by (apply Qlt_shift_div_l; lra).
      assert (B : (0 < inject_Z (Qceiling (maxd / w)))%Q) by (apply Qlt_le_trans with (maxd / w)%Q; [assumption|apply Qle_ceiling]).
      change 0%Q with (inject_Z 0) in B. rewrite <- Zlt_Qlt in B. assumption.
    - intros c. split; [left; cbn; lra|]. intros H. exfalso. apply H. reflexivity.
    - intros c H. exfalso. apply unset_not in H. apply H. reflexivity. }
  unfold quasi_seed. rewrite (seed_tasks (quasi_seed_cell w maxd thr rt occ) (quasi_seed_leaf w maxd thr rt occ) thr leaves s0 ltac:(reflexivity)).
  destruct (fold_each (fun s t => quasi_seed_cell w maxd thr rt occ (minCorner (fst t)) (maxCorner (fst t)) s (snd t)) (fun s => exists l, sinv s l) done TS) with (s := s0) as [[l SI] D].
  - intros s t Ht [l SI]. destruct (seed_step t s l Ht SI) as (A & B & _). auto.
  - intros s t t' Ht Ht' [l SI] D. destruct (seed_step t s l Ht SI) as (_ & _ & C). intros Hf Hn. specialize (D Hf Hn). specialize (C (snd t')). lra.
  - exact S0.
  - set (s := fold_left _ TS s0) in *. destruct SI as [Sq Sf Sl].
    assert (VB : forall p o, In o sdf_offsets -> fr p -> oc (iadd p o) -> (s_fld s p <= (1 # 2) * (w * inorm rt o))%Q).
    { intros p o Ho Hf Hoc. destruct (task_next thr occ leaves HL p o Ho Hoc) as (i & Hi & Hb).
      assert (Hne : p <> clampi (minCorner i) (maxCorner i) p).
      { intros E. destruct (task_corners thr occ leaves HL i p Hi) as (B1 & B2 & B3). pose proof (clampi_inb _ _ p B1 B2 B3) as I. rewrite <- E in I.
        pose proof (task_occ thr occ leaves HL i p p Hi I). destruct (class_excl thr (occ p)). tauto. }
      pose proof (D (i, p) Hi Hf Hne) as L. cbn [fst snd] in L.
      assert (M : (inorm rt (isub p (clampi (minCorner i) (maxCorner i) p)) <= inorm rt o)%Q).
      { unfold inorm. apply Hrt; [change 0%Q with (inject_Z 0); rewrite <- Zlt_Qlt; pose proof (isq_pos _ _ Hne); lia|]. rewrite <- Zle_Qle. apply clampi_offset. assumption. }
      assert (M2 : (inorm rt (isub p (clampi (minCorner i) (maxCorner i) p)) * w <= inorm rt o * w)%Q) by (apply Qmult_le_compat_r; lra). lra. }
    exists l. constructor; [assumption| |].
    + intros c. destruct (Sf c) as [A B]. split; [assumption|]. split; [assumption|]. intros o Ho Hf Hoc. apply VB; assumption.
    + intros Hbig p o (Ho & Hf & Hoc). pose proof (VB p o Ho Hf Hoc) as L. destruct (len_pos rt Hrt o Ho) as (L0 & L1 & L2 & L3).
      assert (M : (inorm rt o * w <= rt 3 * w)%Q) by (apply Qmult_le_compat_r; lra). pose proof (Qmult_lt_0_compat _ _ Hw L0).
      assert (U : unset (s_fld s) p = false) by (apply unset_not; lra). split; [assumption|]. left. apply Sl. assumption.
Qed.

(** The field that results, for every large enough number of iterations *)
Lemma quasi_result : exists n f, (forall fuel, (n <= fuel)%nat -> quasi_generate w maxd thr rt occ fuel leaves = Some f) /\
  finv w maxd thr rt occ sd f /\ (((3 # 2) * (w * rt 3) < maxd)%Q -> forall p o, border_pair thr occ p o -> ~ (f (iadd p o) == maxd)%Q).
Proof.
  destruct seed_all as [l P]. set (s0 := quasi_seed _ _ _ _ _ _ _) in *.
  destruct (quasi_propagate_ok w maxd thr rt occ Hw Hm Hrt sd (seeds_next thr occ leaves HL) region region_in (nunset maxd region (s_fld s0) + length l)%nat s0 l P ltac:(lia)) as (s' & E & P').
  exists (nunset maxd region (s_fld s0) + length l)%nat, (s_fld s'). split; [|split].
  - intros fuel Hf. unfold quasi_generate. fold s0. rewrite (quasi_propagate_mono w maxd thr rt occ _ _ _ E fuel Hf). reflexivity.
  - apply P'.
  - intros Hb p o Hbp. destruct (p_e _ _ _ _ _ _ _ _ P' Hb p o Hbp) as [_ [[]|X]]. apply unset_not. exact X.
Qed.
End GEN.
