(** Property theorems C44, continued: the quasi-Euclidean distance field against lengths of walks to the surface. *)
From Verif Require Import Base M_IntMath F_IntMath M_Num F_Num M_Ndtree S_Field F_Hash M_Wavelet M_WavHist F_WavHash P_Wavelet
  M_Queue P_Queue M_Occupancy P_Occupancy M_Sdf F_Sdf F_Sdf2 F_Sdf3 P_Sdf.
From Coq Require Import QArith Qround Qcanon Qcabs Qabs Lqa.
Close Scope Qc_scope.
Close Scope Q_scope.
Open Scope Z_scope.

(** ** Specification *)
(** [walk w rt is k c L]: from cell [c] one can walk from cell centre to cell centre, each cell touching the one before
    and being of class [k], to a cell that touches a cell of the other class; [L] is the length of the walk plus half the
    distance between the centres of the last two cells. *)
Definition other (k : oclass) : oclass := match k with CFree => COccupied | COccupied => CFree | CUnobserved => CUnobserved end.
Inductive walk (w : Q) (rt : Q -> Q) (is : idx3 -> oclass -> Prop) (k : oclass) : idx3 -> Q -> Prop :=
| walk_surface a b : k <> CUnobserved -> is a k -> is b (other k) -> touching a b ->
    walk w rt is k a ((1 # 2) * (w * rt (inject_Z (len2 a b))))%Q
| walk_step a c L : walk w rt is k a L -> is c k -> touching a c -> walk w rt is k c (L + w * rt (inject_Z (len2 a c)))%Q.

(** ** Proofs *)
Lemma some_inj {A} (x y : A) : Some x = Some y -> x = y.
Proof. intros [=]. assumption. Qed.
Lemma isq_len2 a b : isq (isub a b) = len2 a b.
Proof. reflexivity. Qed.
Lemma len2_sym a b : len2 a b = len2 b a.
Proof. unfold len2. ring. Qed.
Lemma offset_touching p o : In o sdf_offsets -> touching p (iadd p o) /\ isq o = len2 p (iadd p o).
Proof.
  intros H. apply offsets_in in H as (Hx & Hy & Hz & N). destruct p as [a b c], o as [x y z]. cbn [px py pz] in *. unfold touching, len2, isq.
  unfold iadd, imap2. cbn [px py pz]. split; [|ring]. split; [|lia]. intros [=]. apply N. f_equal; lia.
Qed.
Lemma touching_sym a b : touching a b -> touching b a.
Proof. unfold touching. intros (N & H). split; [congruence|lia]. Qed.
Section WALK.
Context (w maxd thr : Q) (rt : Q -> Q) (occ : idx3 -> Q).
Context (Hw : (0 < w)%Q) (Hm : (0 < maxd)%Q) (Hrt : forall x y, (0 < x)%Q -> (x <= y)%Q -> (0 < rt x)%Q /\ (rt x <= rt y)%Q).
Notation is := (fun c k => class_of thr (occ c) k).
Notation fr c := (class_of thr (occ c) CFree).
Notation oc c := (class_of thr (occ c) COccupied).
Definition vpath (c : idx3) (v : Q) : Prop := ~ (v == maxd)%Q -> exists k L, walk w rt is k c L /\ is c k /\ (L <= Qabs v)%Q.
Lemma vpath_le c v L k : walk w rt is k c L -> is c k -> (L <= Qabs v)%Q -> vpath c v.
Proof. intros W I H _. exists k, L. auto. Qed.
Lemma nb_path p v s o c : In o sdf_offsets -> vok maxd thr occ p v -> vborder w thr rt occ p v -> vpath p v ->
  vok maxd thr occ (iadd p o) (s_fld s (iadd p o)) -> (forall c, vpath c (s_fld s c)) ->
  vpath c (s_fld (quasi_neighbor w maxd thr rt occ p v s o) c).
Proof.
  intros Ho Vp Vb Pp Nv Pa. unfold quasi_neighbor. set (n := iadd p o) in *. set (nv := s_fld s n) in *. set (len := (w * inorm rt o)%Q).
  destruct (offset_touching p o Ho) as [Tp El]. fold n in Tp, El.
  assert (Elen : len = (w * rt (inject_Z (len2 p n)))%Q) by (unfold len, inorm; rewrite El; reflexivity).
  destruct (Qle_bool maxd (Qabs v + len)) eqn:Ec; [apply Pa|].
  assert (Lc : (Qabs v + len < maxd)%Q) by (apply Qnot_le_lt; intros X; apply Qle_bool_iff in X; congruence).
  assert (L4 : (0 < len)%Q) by (apply Qmult_lt_0_compat; [exact Hw|apply (len_pos rt Hrt o Ho)]).
  assert (Hv : ~ (v == maxd)%Q) by (intros E; rewrite E, (abs_pos maxd) in Lc by lra; lra).
  destruct (Pp Hv) as (k & L & Wk & Ik & Lk).
  destruct (Qeq_bool maxd nv && oc_is_id thr (occ n) kUnobserved) eqn:Eu; [apply Pa|].
  set (nv1 := if Qeq_bool maxd nv && oc_is_id thr (occ n) kOccupied then (- maxd)%Q else nv).
  (* classes and signs *)
  assert (N1 : (oc n /\ signbit nv1 = true /\ (Qabs nv1 == Qabs nv)%Q) \/ (fr n /\ signbit nv1 = false /\ nv1 = nv)).
  { unfold nv1. destruct (Qeq_bool maxd nv) eqn:En.
    - apply Qeq_bool_iff in En. cbn [andb] in *. destruct (oc_is_id thr (occ n) kOccupied) eqn:Eo.
      + left. apply (is_class _ _ _ COccupied) in Eo; [|tauto]. split; [exact Eo|]. split; [apply qlt_b_lt; lra|]. rewrite Qabs_opp, En. reflexivity.
      + right. apply (is_class_false _ _ _ COccupied) in Eo; [|tauto]. apply (is_class_false _ _ _ CUnobserved) in Eu; [|tauto].
        split; [destruct (class_excl thr (occ n)) as (_ & _ & _ & [?|[?|?]]); tauto|]. split; [apply qlt_b_ge; lra|reflexivity].
    - cbn [andb]. apply Qeq_bool_neq in En. destruct Nv as [Nv|[(Nv & N1 & N2)|(Nv & N1 & N2)]].
      + exfalso. apply En. symmetry. exact Nv.
      + right. split; [exact Nv|]. split; [apply qlt_b_ge; lra|reflexivity].
      + left. split; [exact Nv|]. split; [apply qlt_b_lt; lra|reflexivity]. }
  assert (Sv : (signbit v = true /\ oc p) \/ (signbit v = false /\ fr p)).
  { destruct Vp as [Vp|[(Vp & V1 & V2)|(Vp & V1 & V2)]]; [tauto|right; split; [apply qlt_b_ge; lra|exact Vp]|left; split; [apply qlt_b_lt; lra|exact Vp]]. }
  assert (Sn : qlt_b nv1 0 = signbit nv1) by reflexivity. rewrite Sn. clearbody nv1.
  (* storing min(|nv1|, x) for the length x of a walk *)
  assert (St : forall x K, (Qabs nv1 == Qabs nv)%Q -> (exists L, walk w rt is K n L /\ (L <= x)%Q) -> (0 <= x)%Q -> (x < maxd)%Q -> is n K ->
    vpath c (fput (s_fld s) n (copysign (qminb (Qabs nv1) x) nv1) c)).
  { intros x K E (L' & W' & LL) X0 X1 I. unfold fput. destruct (ieqb_spec n c) as [<-|]; [|apply Pa].
    assert (A : (Qabs (copysign (qminb (Qabs nv1) x) nv1) == qminb (Qabs nv1) x)%Q).
    { assert (P : (0 <= qminb (Qabs nv1) x)%Q) by (pose proof (Qabs_nonneg nv1); destruct (qminb_spec (Qabs nv1) x) as [[-> _]|[-> _]]; lra).
      unfold copysign. destruct (signbit nv1); rewrite ?Qabs_opp, !(abs_pos (qminb _ _)) by (rewrite ?(abs_pos (qminb _ _)) by exact P; exact P); reflexivity. }
    destruct (qminb_spec (Qabs nv1) x) as [[B1 B2]|[B1 B2]].
    - assert (Hn : ~ (nv == maxd)%Q) by (intros X; rewrite X, (abs_pos maxd) in E by lra; lra).
      destruct (Pa n Hn) as (k2 & L2 & W2 & I2 & H2). fold nv in H2. apply (vpath_le n _ L2 k2 W2 I2). rewrite A, B1, E. exact H2.
    - apply (vpath_le n _ L' K W' I). rewrite A, B1. exact LL. }
  destruct N1 as [(N0 & N1 & N2)|(N0 & N1 & ->)]; rewrite N1; cbn [negb andb].
  - (* occupied neighbor *)
    rewrite andb_false_r. cbn [s_fld]. destruct Sv as [(S0 & S1)|(S0 & S1)]; rewrite S0; cbn [xorb negb].
    + assert (k = COccupied) as -> by (destruct (class_excl thr (occ p)) as (X1 & X2 & X3 & _); destruct k; tauto).
      apply (St (Qabs v + len)%Q COccupied N2); [|pose proof (Qabs_nonneg v); lra|exact Lc|exact N0].
      exists (L + len)%Q. split; [|lra]. rewrite Elen. apply walk_step; assumption.
    + pose proof (Vb o Ho S1 N0) as B. fold len in B. assert (V0 : (0 < v)%Q).
      { destruct (class_excl thr (occ p)) as (X1 & _). destruct Vp as [Vp|[(_ & V1 & _)|(Vp & _)]]; [tauto|exact V1|tauto]. }
      assert (Av : (Qabs v == v)%Q) by (apply abs_pos; lra).
      apply (St (len - Qabs v)%Q COccupied N2); [|lra|lra|exact N0].
      exists ((1 # 2) * len)%Q. split; [|lra]. rewrite Elen, len2_sym. apply walk_surface; [discriminate|exact N0|exact S1|apply touching_sym; exact Tp].
  - (* free neighbor *)
    rewrite andb_true_r. destruct Sv as [(S0 & S1)|(S0 & S1)]; rewrite S0; cbn [xorb negb s_fld].
    + unfold fput. destruct (ieqb_spec n c) as [<-|]; apply Pa.
    + assert (k = CFree) as -> by (destruct (class_excl thr (occ p)) as (X1 & X2 & X3 & _); destruct k; tauto).
      apply (St (Qabs v + len)%Q CFree ltac:(reflexivity)); [|pose proof (Qabs_nonneg v); lra|exact Lc|exact N0].
      exists (L + len)%Q. split; [|lra]. rewrite Elen. apply walk_step; assumption.
Qed.

(** the loop over the neighbors and the whole propagation *)
Context (seeds : list idx3) (Hseeds : forall p o, In o sdf_offsets -> oc (iadd p o) -> ~ oc p -> In p seeds).
Context (F : list idx3) (HF : forall c x, vok maxd thr occ c x -> vnear w maxd rt seeds c x -> ~ (x == maxd)%Q -> In c F).
Lemma nb_fold_path p v m os : (forall o, In o os -> In o sdf_offsets) -> vok maxd thr occ p v -> vnear w maxd rt seeds p v -> vborder w thr rt occ p v -> vpath p v ->
  forall s l, lst w maxd thr rt occ seeds F p v m s l -> (forall c, vpath c (s_fld s c)) ->
  forall c, vpath c (s_fld (fold_left (quasi_neighbor w maxd thr rt occ p v) os s) c).
Proof.
  intros Hos Vp Vn Vb Pp. induction os as [|o os IH]; intros s l L Pa; cbn [fold_left]; [exact Pa|].
  pose proof (Hos o (or_introl eq_refl)) as Ho.
  destruct (nb_step w maxd thr rt occ Hw Hm Hrt seeds Hseeds F p v m s l o HF Ho Vp Vn Vb L) as (l1 & L1 & _).
  apply (IH (fun o' H => Hos o' (or_intror H)) _ l1 L1). intros c. apply nb_path; try assumption. apply L.
Qed.
Lemma step_path s l s' : pinv w maxd thr rt occ seeds s l -> l <> [] -> (forall c, vpath c (s_fld s c)) ->
  quasi_step w maxd thr rt occ s = Some s' -> forall c, vpath c (s_fld s' c).
Proof.
  intros [Pq Pf Pe] Hne Pa E. unfold quasi_step in E. destruct (holds_next _ _ Pq Hne) as (p & l1 & l2 & Ef & El & Hp).
  destruct (bq_front (s_q s)) as [q1 fr0] eqn:Eq. cbn [fst snd] in *. rewrite Ef in E. apply some_inj in E. rewrite <- E. clear E s'.
  destruct (Pf p) as (V1 & V2 & V3). set (s0 := SS (s_fld s) (bq_pop q1)).
  assert (L0 : lst w maxd thr rt occ seeds F p (s_fld s p) (nunset maxd F (s_fld s) + length (l1 ++ l2)) s0 (l1 ++ l2)) by (constructor; [exact Hp|exact Pf|cbn [s_fld s0]; lia]).
  apply (nb_fold_path p (s_fld s p) _ sdf_offsets ltac:(auto) V1 V2 V3 (Pa p) s0 _ L0). exact Pa.
Qed.
Lemma propagate_path fuel : forall s l s', pinv w maxd thr rt occ seeds s l -> (forall c, vpath c (s_fld s c)) ->
  quasi_propagate w maxd thr rt occ fuel s = Some s' -> forall c, vpath c (s_fld s' c).
Proof.
  induction fuel as [|fuel IH]; intros s l s' P Pa E; cbn [quasi_propagate] in E.
  - destruct (bq_empty (s_q s)); [injection E as <-; exact Pa|discriminate].
  - destruct (bq_empty (s_q s)) eqn:Eb; [injection E as <-; exact Pa|].
    assert (Hne : l <> []) by (intros ->; rewrite (proj2 (holds_empty _ _ (p_q _ _ _ _ _ _ _ _ P)) eq_refl) in Eb; discriminate).
    destruct (quasi_step_ok w maxd thr rt occ Hw Hm Hrt seeds Hseeds F s l HF P Hne) as (s1 & l1 & E1 & P1 & _). rewrite E1 in E.
    apply (IH s1 l1 s' P1); [|exact E]. apply (step_path s l s1 P Hne Pa E1).
Qed.
End WALK.

Section GENERATE.
Context (w maxd thr : Q) (rt : Q -> Q) (occ : idx3 -> Q) (leaves : list (oidx * Q)).
Context (Hw : (0 < w)%Q) (Hm : (0 < maxd)%Q) (Hrt : forall x y, (0 < x)%Q -> (x <= y)%Q -> (0 < rt x)%Q /\ (rt x <= rt y)%Q).
Context (HL : leaves_ok thr occ leaves).
Notation vpath := (vpath w maxd thr rt occ).
Lemma task_near i c : In (i, c) (tasks thr leaves) -> c <> clampi (minCorner i) (maxCorner i) c -> touching c (clampi (minCorner i) (maxCorner i) c).
Proof.
  intros H N. split; [exact N|]. destruct (task_corners thr occ leaves HL i c H) as (B1 & B2 & B3). destruct (task_in thr leaves i c H) as (u & _ & _ & G).
  unfold pad in G. cbn [fst] in G. apply grid3_in in G; cbn [imap px py pz] in *; [|lia..]. unfold clampi. cbn [imap2 px py pz]. lia.
Qed.
Lemma seed_path : forall c, vpath c (s_fld (quasi_seed w maxd thr rt occ leaves (SS (fun _ => maxd) (bq_new (sdf_num_bins w maxd) maxd))) c).
Proof.
  unfold quasi_seed. rewrite (seed_tasks (quasi_seed_cell w maxd thr rt occ) (quasi_seed_leaf w maxd thr rt occ) thr leaves _ ltac:(reflexivity)).
  apply (fold_inv (fun s t => quasi_seed_cell w maxd thr rt occ (minCorner (fst t)) (maxCorner (fst t)) s (snd t)) (fun s => forall c, vpath c (s_fld s c))).
  - intros s [i p] Ht Pa c. cbn [fst snd]. unfold quasi_seed_cell. fold (clampi (minCorner i) (maxCorner i) p). set (near := clampi _ _ p).
    destruct (ieqb_spec p near) as [E|E]; [apply Pa|].
    destruct (oc_is_id thr (occ p) kFree) eqn:Ef; cbn [negb]; [|apply Pa]. apply (is_class _ _ _ CFree) in Ef; [|tauto].
    cbn [s_fld]. unfold fput. destruct (ieqb_spec p c) as [<-|]; [|apply Pa].
    assert (On : class_of thr (occ near) COccupied).
    { destruct (task_corners thr occ leaves HL i p Ht) as (B1 & B2 & B3). apply (task_occ thr occ leaves HL i p near Ht). apply clampi_inb; assumption. }
    set (d := ((1 # 2) * w * inorm rt (isub p near))%Q).
    assert (Wd : walk w rt (fun c k => class_of thr (occ c) k) CFree p ((1 # 2) * (w * rt (inject_Z (len2 p near))))%Q).
    { apply walk_surface; [discriminate|exact Ef|exact On|apply (task_near i p Ht E)]. }
    assert (Ed : (d == (1 # 2) * (w * rt (inject_Z (len2 p near))))%Q) by (unfold d, inorm; rewrite isq_len2; ring).
    destruct (qminb_spec (s_fld s p) d) as [[B1 B2]|[B1 B2]].
    + intros Hv. rewrite B1 in Hv. destruct (Pa p Hv) as (k & L & A1 & A2 & A3). exists k, L. split; [exact A1|]. split; [exact A2|]. rewrite B1. exact A3.
    + apply (vpath_le w maxd thr rt occ p _ _ CFree Wd Ef). rewrite B1, <- Ed. apply Qle_Qabs.
  - intros c H. exfalso. apply H. reflexivity.
Qed.
Lemma generate_path fuel f : quasi_generate w maxd thr rt occ fuel leaves = Some f -> forall c, vpath c (f c).
Proof.
  unfold quasi_generate. intros H. destruct (seed_all w maxd thr rt occ leaves Hw Hm Hrt HL) as [l P]. set (s0 := quasi_seed _ _ _ _ _ _ _) in *.
  destruct (quasi_propagate w maxd thr rt occ fuel s0) as [s'|] eqn:E; [|discriminate]. injection H as <-.
  apply (propagate_path w maxd thr rt occ Hw Hm Hrt (seeds thr leaves) (seeds_next thr occ leaves HL) (region w maxd thr rt leaves) (region_in w maxd thr rt occ leaves Hw Hm Hrt) fuel s0 l s' P seed_path E).
Qed.
End GENERATE.

(** ** Theorem: no cell is closer to the surface in the field than along some walk inside its own class *)
Theorem C44_quasi_walk w maxd thr rt lf C m fuel f c : valid_config C -> hashed_reachable C m -> enough lf -> sqrt_like rt -> (0 < w)%Q -> (0 < maxd)%Q ->
  quasi_sdf w maxd thr rt lf fuel C m = Some f -> ~ (f c == maxd)%Q ->
  exists k L, cell_is thr C m c k /\ walk w rt (cell_is thr C m) k c L /\ (L <= Qabs (f c))%Q.
Proof.
  intros HC Hr Hlf Hrt Hw Hm Hf Hc. destruct (map_leaves_ok thr lf C m HC Hr Hlf) as (l & E & L). unfold quasi_sdf in Hf. rewrite E in Hf.
  destruct (generate_path w maxd thr rt (map_occ C m) l Hw Hm (rt_pos rt Hrt) L fuel f Hf c Hc) as (k & L' & A & B & D). exists k, L'. auto.
Qed.
Print Assumptions C44_quasi_walk.

Lemma free_le v : Qle_bool v (-1 # 2) = true -> class_of 0 v CFree.
Proof. intros A. apply Qle_bool_iff in A. cbn [class_of]. split; [intros [X Y]|]; lra. Qed.
Lemma occ_ge v : Qle_bool 1 v = true -> class_of 0 v COccupied.
Proof. intros A. apply Qle_bool_iff in A. cbn [class_of]. split; [intros [X Y]|]; lra. Qed.
(** The hypotheses are met: cell (3,1,1) of the map of [C44_ex] has the value 3/2, and the walk is to (2,1,1), which touches (1,1,1). *)
Example C44_walk_ex : exists f, quasi_sdf 1 4 0 exrt exlf 100 exC exm44 = Some f /\ (f (I3 3 1 1) == 3 # 2)%Q /\ ~ (f (I3 3 1 1) == 4)%Q /\
  walk 1 exrt (cell_is 0 exC exm44) CFree (I3 3 1 1) ((1 # 2) * (1 * exrt (inject_Z 1)) + 1 * exrt (inject_Z 1))%Q /\
  ((1 # 2) * (1 * exrt (inject_Z 1)) + 1 * exrt (inject_Z 1) == 3 # 2)%Q.
Proof.
  assert (S1 : sample quasi_sdf 4 exm44 [I3 3 1 1] = Some [3 # 2]%Q) by (vm_compute; reflexivity).
  destruct (sample_value _ _ _ _ _ S1) as (f & F & V). exists f. split; [exact F|]. split; [exact V|]. split; [rewrite V; discriminate|].
  destruct C44_hyps as (_ & _ & _ & _ & _ & _ & T & A & B & _). split; [|reflexivity].
  apply (walk_step 1 exrt (cell_is 0 exC exm44) CFree (I3 2 1 1) (I3 3 1 1)).
  - apply (walk_surface 1 exrt (cell_is 0 exC exm44) CFree (I3 2 1 1) (I3 1 1 1)); [discriminate|exact A|exact B|exact T].
  - apply free_le. vm_compute. reflexivity.
  - split; [discriminate|]. cbn. lia.
Qed.

(** Walks are not straight lines: the value of a free cell can exceed the distance to an occupied cell, here by more than
    one part in twenty. [fine_sqrt] rounds up to a multiple of 2^-20; [near_sqrt]: it is a good square root. *)
Definition fine_sqrt (x : Q) : Q := ((Z.sqrt (Qfloor (x * inject_Z (2 ^ 40))) + 1) # 2 ^ 20)%Q.
Definition near_sqrt (rt : Q -> Q) : Prop := forall x, (1 <= x)%Q -> (0 < rt x /\ x <= rt x * rt x /\ rt x * rt x <= x * (1 + (1 # 2 ^ 18)))%Q.
Lemma fine_sqrt_near : near_sqrt fine_sqrt.
Proof.
  intros x Hx. unfold fine_sqrt. set (n := Qfloor (x * inject_Z (2 ^ 40))).
  pose proof (Qfloor_le (x * inject_Z (2 ^ 40))) as F1. pose proof (Qlt_floor (x * inject_Z (2 ^ 40))) as F2. fold n in F1, F2.
  assert (N : 2 ^ 40 <= n). { replace (2 ^ 40) with (Qfloor (1099511627776 # 1)) by reflexivity. unfold n. apply Qfloor_resp_le. change (inject_Z (2 ^ 40)) with (1099511627776 # 1)%Q. lra. }
  pose proof (Z.sqrt_spec n ltac:(lia)) as [S1 S2]. set (r := Z.sqrt n) in *. pose proof (Z.sqrt_nonneg n) as S0. fold r in S0.
  assert (R : 2 ^ 20 <= r) by nia.
  rewrite inject_Z_plus in F2. change (inject_Z (2 ^ 40)) with (1099511627776 # 1)%Q in *. change (inject_Z 1) with 1%Q in F2.
  assert (E : ((r + 1 # 2 ^ 20) * (r + 1 # 2 ^ 20) == inject_Z ((r + 1) * (r + 1)) * (1 # 1099511627776))%Q) by (unfold Qeq; cbn [Qmult Qnum Qden inject_Z]; ring_simplify; reflexivity).
  assert (I1 : (inject_Z n + 1 <= inject_Z ((r + 1) * (r + 1)))%Q) by (change 1%Q with (inject_Z 1); rewrite <- inject_Z_plus, <- Zle_Qle; nia).
  assert (I2 : (inject_Z ((r + 1) * (r + 1)) <= inject_Z n * (1 + (1 # 2 ^ 18)))%Q).
  { assert (K : ((r + 1) * (r + 1) * 2 ^ 18 <= n * (2 ^ 18 + 1))%Z) by nia. rewrite Zle_Qle in K. rewrite !inject_Z_mult in *. rewrite inject_Z_plus in *. change (inject_Z (2 ^ 18)) with (262144 # 1)%Q in K.
    change (1 # 2 ^ 18)%Q with (1 # 262144)%Q. rewrite ?inject_Z_plus in K. change (inject_Z 1) with 1%Q in *. change (inject_Z (2 ^ 18)) with (262144 # 1)%Q in K. lra. }
  split; [unfold Qlt; cbn [Qnum Qden]; lia|]. rewrite E. change (1 # 2 ^ 18)%Q with (1 # 262144)%Q in *. split; lra.
Qed.
Definition exknight : list (Z * hcall) :=
  (0, HSet (I3 1 1 1) (Q2Qc 2)) :: map (fun c => (0, HSet c (Q2Qc (-1)))) [I3 2 1 1; I3 3 1 1; I3 2 2 1; I3 3 2 1].
Theorem C44_quasi_straight_refuted : exists C l w maxd thr rt fuel f c o y, valid_config C /\ near_sqrt rt /\ (0 < w)%Q /\ ((3 # 2) * (w * rt 3) < maxd)%Q /\
  quasi_sdf w maxd thr rt exlf fuel C (hw_run C l) = Some f /\ cell_is thr C (hw_run C l) c CFree /\ cell_is thr C (hw_run C l) o COccupied /\
  in_cube w o y /\ (f c < maxd /\ 0 < f c /\ (21 # 20) * (21 # 20) * sqd (center w c) y < f c * f c)%Q.
Proof.
  assert (S1 : match quasi_sdf 1 4 0 fine_sqrt exlf 100 exC (hw_run exC exknight) with
    | Some f => Qle_bool (17 # 10) (f (I3 3 2 1)) && Qle_bool (f (I3 3 2 1)) (171 # 100) | None => false end = true) by (vm_compute; reflexivity).
  destruct (quasi_sdf 1 4 0 fine_sqrt exlf 100 exC (hw_run exC exknight)) as [f|] eqn:F; [|discriminate].
  apply andb_true_iff in S1 as [A B]. apply Qle_bool_iff in A. apply Qle_bool_iff in B.
  exists exC, exknight, 1%Q, 4%Q, 0%Q, fine_sqrt, 100%nat, f, (I3 3 2 1), (I3 1 1 1), (2, 2, 3 # 2)%Q.
  split; [exact exC_valid|]. split; [exact fine_sqrt_near|]. split; [reflexivity|]. split; [reflexivity|]. split; [exact F|].
  split; [|split; [|split]].
  - apply free_le. vm_compute. reflexivity.
  - apply occ_ge. vm_compute. reflexivity.
  - unfold in_cube. repeat split; apply Qle_bool_iff; reflexivity.
  - split; [lra|]. split; [lra|]. apply Qlt_le_trans with ((17 # 10) * (17 # 10))%Q; [reflexivity|]. clear F. generalize dependent (f (I3 3 2 1)). intros v A B. nra.
Qed.
Print Assumptions C44_quasi_straight_refuted.
