(** * C69: random points (PointSampler) *)
From Verif Require Import Base M_IntMath F_IntMath M_Morton F_Morton M_NdtreeIndex F_NdtreeIndex M_Num F_Num M_Haar3 F_Haar3
  M_Ndtree S_Field F_Hash M_Wavelet F_Wavelet F_Wavelet2 F_Leaves F_WavTree F_WavMap F_WavHash M_WavHist F_WavHist P_Wavelet M_Octree F_Octree M_Accel F_Accel
  P_Accel M_Occupancy P_Occupancy M_Queue M_HashedBlocks M_Classified F_Classified F_Classified2 F_Classified3 F_Classified4 P_Classified M_Point P_Point M_Sampler.
From Coq Require Import QArith Qcanon Lqa Permutation.
Close Scope Qc_scope.
Close Scope Q_scope.
Open Scope Z_scope.

(** ** Specification *)
(** The contract of the standard library's distributions. A real number may be equal to the upper bound, because of rounding. *)
Definition int_contract {G} (rint : G -> Z -> Z -> Z * G) : Prop := forall g lo hi, lo <= hi -> lo <= fst (rint g lo hi) <= hi.
Definition real_contract {G} (rreal : G -> Q -> Q -> Q * G) : Prop := forall g lo hi, (lo <= hi)%Q -> (lo <= fst (rreal g lo hi) /\ fst (rreal g lo hi) <= hi)%Q.
(** A point in a box *)
Definition point_in_box (b : aabb) (p : list Q) : Prop := Forall2 Qle (bmin b) p /\ Forall2 Qle p (bmax b).
(** A box to sample from: three axes, not inverted, and its cells have 32 bit coordinates *)
Definition box_ok (w : Q) (b : aabb) : Prop :=
  length (bmin b) = 3%nat /\ Forall2 Qle (bmin b) (bmax b) /\
  Forall (fun x => w * inject_Z (- 2 ^ 31 + 1) <= x)%Q (bmin b) /\ Forall (fun x => x <= w * inject_Z (2 ^ 31 - 1))%Q (bmax b).
(** The blocks of the map, if points are sampled from them *)
Definition block_box (C : wconfig (V := Qc)) (w : Q) (k : idx3) : aabb :=
  let side := (w * inject_Z (2 ^ cT C)%Z)%Q in
  AABB (map (fun c => (inject_Z c * side)%Q) (ilist k)) (map (fun c => ((inject_Z c + 1) * side)%Q) (ilist k)).
Definition source_ok (C : wconfig (V := Qc)) (w : Q) (m : shash (wblock (V := Qc))) (box : option aabb) : Prop :=
  match box with
  | Some b => box_ok w b
  | None => forall k, getBlock m k <> None -> box_ok w (block_box C w k)
  end.
Definition in_source (C : wconfig (V := Qc)) (w : Q) (m : shash (wblock (V := Qc))) (box : option aabb) (p : list Q) : Prop :=
  match box with
  | Some b => point_in_box b p
  | None => exists k, getBlock m k <> None /\ point_in_box (block_box C w k) p
  end.
(** The cell is known to the map and has a class of the mask. *)
Definition matches (C : wconfig (V := Qc)) (m : shash (wblock (V := Qc))) (K : idx3 -> oclass -> Prop) (mask : Z) (c : idx3) : Prop :=
  hasBlock m (block_containing (cT C) (OI 0 c)) = true /\ forall cl, K c cl -> in_mask mask cl.
(** The points drawn in [n] attempts, if none of them is accepted *)
Fixpoint drawn_points {G} (rint : G -> Z -> Z -> Z * G) rreal (C : wconfig (V := Qc)) w (blocks : list idx3) (box : option aabb) (n : nat) (g : G) : list (list Q) :=
  match n with
  | O => []
  | S n' => match attempt C w rint rreal g blocks box with
            | (Some p, g') => p :: drawn_points rint rreal C w blocks box n' g'
            | (None, g') => drawn_points rint rreal C w blocks box n' g'
            end
  end.

(** ** Facts *)
Section SAMPLE.
Context {G : Type} (rint : G -> Z -> Z -> Z * G) (rreal : G -> Q -> Q -> Q * G) (HI : int_contract rint) (HR : real_contract rreal).
Context (C : wconfig (V := Qc)) (HT : 1 <= cT C < 20) (w : Q) (Hw : (0 < w)%Q).
Lemma random_in_box g b : length (bmin b) = 3%nat -> Forall2 Qle (bmin b) (bmax b) -> point_in_box b (fst (randomInAABB rreal g b)) /\ length (fst (randomInAABB rreal g b)) = 3%nat.
Proof.
  destruct b as [mn mx]. cbn [bmin bmax]. intros HL H. destruct mn as [|a1 [|a2 [|a3 [|? ?]]]]; try discriminate HL.
  inversion H as [|? b1 ? l1 H1 X1]; subst. inversion X1 as [|? b2 ? l2 H2 X2]; subst. inversion X2 as [|? b3 ? l3 H3 X3]; subst. inversion X3; subst.
  unfold randomInAABB. cbn [bmin bmax nth].
  pose proof (HR g a1 b1 H1) as R1. destruct (rreal g a1 b1) as [x g1]. pose proof (HR g1 a2 b2 H2) as R2. destruct (rreal g1 a2 b2) as [y g2].
  pose proof (HR g2 a3 b3 H3) as R3. destruct (rreal g2 a3 b3) as [z g3]. cbn [fst] in *. split; [|reflexivity].
  split; cbn [bmin bmax]; repeat (constructor; [tauto|]); constructor.
Qed.
Lemma node_box k : nodeAABB w (OI (cT C) k) = block_box C w k.
Proof.
  unfold nodeAABB, block_box, nodeIndexToMinCorner, nodeIndexToMaxCorner, indexToMinCorner, indexToMaxCorner, heightToCellWidth, oni. cbn [oh opos height position].
  rewrite (exp2_pow (cT C)) by lia. reflexivity.
Qed.
Lemma attempt_in m blocks box g p g' : (forall k, In k blocks -> getBlock m k <> None) -> source_ok C w m box -> attempt C w rint rreal g blocks box = (Some p, g') ->
  in_source C w m box p /\ length p = 3%nat /\ exists b, box_ok w b /\ point_in_box b p.
Proof.
  intros HB HS E. unfold attempt in E. destruct box as [b|].
  - destruct HS as (H1 & H2 & H3). pose proof (random_in_box g b H1 H2) as [R L]. destruct (randomInAABB rreal g b) as [p0 g0]. injection E as <- <-. cbn [fst] in *.
    split; [exact R|]. split; [exact L|]. exists b. split; [split; auto|exact R].
  - unfold randomBlock in E. destruct blocks as [|k0 bl]; [discriminate|]. destruct (rint _ _ _) as [n g1]. destruct (nth_error _ _) as [k|] eqn:En; [|discriminate].
    apply nth_error_In in En. specialize (HB k En). specialize (HS k HB). pose proof HS as (H1 & H2 & H3). unfold randomInBlock in E. rewrite node_box in E.
    pose proof (random_in_box g1 _ H1 H2) as [R L]. destruct (randomInAABB rreal g1 (block_box C w k)) as [p0 g0]. injection E as <- <-. cbn [fst] in *.
    split; [exists k; auto|]. split; [exact L|]. exists (block_box C w k). split; [split; auto|exact R].
Qed.
Lemma attempt_some blocks box g g' : blocks <> [] -> attempt C w rint rreal g blocks box = (None, g') -> False.
Proof.
  intros HN E. unfold attempt in E. destruct box as [b|]; [destruct (randomInAABB _ _ _); discriminate|].
  unfold randomBlock in E. destruct blocks as [|k0 bl]; [congruence|]. set (l := k0 :: bl) in *.
  assert (L : 0 <= Z.of_nat (length l) - 1) by (unfold l; cbn [length]; lia).
  pose proof (HI g 0 (Z.of_nat (length l) - 1) L) as R. destruct (rint g 0 _) as [n g1]. cbn [fst] in R.
  destruct (nth_error l (Z.to_nat n)) as [k|] eqn:En; [destruct (randomInBlock _ _ _ _ _); discriminate|]. apply nth_error_None in En. lia.
Qed.
Lemma cell_query b p : box_ok w b -> point_in_box b p -> length p = 3%nat ->
  let c := idx_of (pointToNearestIndex round_away p (1 / w)) in
  node_query (cT C) (OI 0 c) /\ point_in_cell w (ilist c) p.
Proof.
  intros (_ & _ & B1 & B2) [P1 P2] L. pose proof (C09_cell_contains_point round_away w p round_away_nearest Hw) as HC. cbv zeta.
  set (l := pointToNearestIndex round_away p (1 / w)) in *. clearbody l. destruct p as [|x [|y [|z [|? ?]]]]; try discriminate L.
  inversion HC as [|a1 ? ? ? C1 HC1]; subst. inversion HC1 as [|a2 ? ? ? C2 HC2]; subst. inversion HC2 as [|a3 ? ? ? C3 HC3]; subst. inversion HC3; subst.
  cbn [idx_of]. split; [|exact HC]. split; [cbn; lia|]. cbn [oh opos]. change (ilist (I3 a1 a2 a3)) with [a1; a2; a3].
  inversion P1 as [|m1 ? ? ? Q1 P1a]; subst. inversion P1a as [|m2 ? ? ? Q2 P1b]; subst. inversion P1b as [|m3 ? ? ? Q3 P1c]; subst. inversion P1c; subst.
  inversion P2 as [|? n1 ? ? R1 P2a]; subst. inversion P2a as [|? n2 ? ? R2 P2b]; subst. inversion P2b as [|? n3 ? ? R3 P2c]; subst. inversion P2c; subst.
  repeat match goal with X : bmin b = _ |- _ => rewrite X in B1; clear X | X : _ = bmin b |- _ => rewrite <- X in B1; clear X
                    | X : bmax b = _ |- _ => rewrite X in B2; clear X | X : _ = bmax b |- _ => rewrite <- X in B2; clear X end.
  apply Forall_cons_iff in B1; destruct B1 as [E1 B1]. apply Forall_cons_iff in B1; destruct B1 as [E2 B1]. apply Forall_cons_iff in B1; destruct B1 as [E3 B1].
  apply Forall_cons_iff in B2; destruct B2 as [F1 B2]. apply Forall_cons_iff in B2; destruct B2 as [F2 B2]. apply Forall_cons_iff in B2; destruct B2 as [F3 B2].
  assert (X : forall a v mn mx, in_cell w a v -> (mn <= v)%Q -> (v <= mx)%Q -> (w * inject_Z (- 2 ^ 31 + 1) <= mn)%Q -> (mx <= w * inject_Z (2 ^ 31 - 1))%Q -> - 2 ^ 31 <= a * 2 ^ 0 < 2 ^ 31).
  { clear - Hw. intros a v mn mx [A1 A2] H1 H2 H3 H4. change (2 ^ 0) with 1.
    assert (inject_Z a * w <= inject_Z (2 ^ 31 - 1) * w)%Q as Y1 by (rewrite (Qmult_comm (inject_Z (2 ^ 31 - 1))); lra).
    assert (inject_Z (- 2 ^ 31 + 1) * w <= (inject_Z a + 1) * w)%Q as Y2 by (rewrite (Qmult_comm (inject_Z (- 2 ^ 31 + 1))); lra).
    apply Qmult_le_r in Y1; [|exact Hw]. apply Qmult_le_r in Y2; [|exact Hw]. rewrite <- injZ_S in Y2. rewrite <- Zle_Qle in Y1, Y2. lia. }
  constructor; [eapply X; eassumption|]. constructor; [eapply X; eassumption|]. constructor; [eapply X; eassumption|constructor].
Qed.

Context (thr : Q) (m : shash (wblock (V := Qc))) (K : idx3 -> oclass -> Prop) (cm : shash cnode) (Inv : qcache -> Prop) (mask : Z) (box : option aabb).
Context (STEP : forall q c, Inv q -> test_call (cT C) c -> exists q' a, cm_call qn (qis thr) C (CM cm q) c = Some (CM cm q', a) /\ Inv q' /\ answer_ok (cT C) m K c a).
Context (HB : forall b, hasBlock cm b = hasBlock m b) (HS : source_ok C w m box) (HN : cm <> []).
Notation bl := (map fst cm).
Lemma blocks_in k : In k bl -> getBlock m k <> None.
Proof. intros H. specialize (HB k). unfold hasBlock in HB. apply getBlock_keys in H. destruct (getBlock cm k); [|congruence]. destruct (getBlock m k); congruence. Qed.
Lemma in_node0 c x : in_node (OI 0 c) x = true <-> x = c.
Proof.
  rewrite in_node_covers3 by (cbn; lia). split; intros H.
  - apply covers3_0 in H; [|reflexivity]. symmetry. exact H.
  - subst x. destruct c as [a b d]. unfold covers3, imap. cbn [oh opos px py pz]. rewrite !Z.div_1_r. reflexivity.
Qed.
Definition rejected (p : list Q) : Prop := forall c, point_inside_cell w (ilist c) p -> ~ matches C m K mask c.
Lemma attempts_ok : forall n g q, Inv q -> exists r q' g' tests ans,
  attempts qn (qis thr) C w rint rreal n mask box (CM cm q) g = Some (r, CM cm q', g') /\ Inv q' /\
  Forall (test_call (cT C)) tests /\ cm_run qn (qis thr) C (CM cm q) tests = Some (CM cm q', ans) /\
  match r with
  | Some p => in_source C w m box p /\ (exists c, point_in_cell w (ilist c) p /\ matches C m K mask c) /\
              exists l1 l2, drawn_points rint rreal C w bl box n g = l1 ++ p :: l2 /\ Forall rejected l1
  | None => length (drawn_points rint rreal C w bl box n g) = n /\ Forall rejected (drawn_points rint rreal C w bl box n g)
  end.
Proof.
  induction n as [|n IH]; intros g q Hq; cbn [attempts drawn_points].
  - exists None, q, g, [], []. repeat split; try assumption; constructor.
  - cbn [cm_map]. destruct (attempt C w rint rreal g bl box) as [[p|] g1] eqn:E.
    2:{ exfalso. apply (attempt_some bl box g g1); [destruct cm; [congruence|discriminate]|exact E]. }
    destruct (attempt_in m bl box g p g1 blocks_in HS E) as (A1 & A2 & b & A3 & A4). destruct (cell_query b p A3 A4 A2) as [Hc Hp].
    set (c := idx_of _) in *. destruct (STEP q (KFully (OI 0 c) mask) Hq (QFully _ _ _ Hc)) as (q1 & a & E1 & I1 & Ha). rewrite E1.
    destruct a as [|b1| |]; try contradiction. cbn [answer_ok] in Ha. cbv zeta in Ha.
    assert (Hm : b1 = true <-> matches C m K mask c).
    { unfold matches. destruct (hasBlock m _); [|split; [congruence|intros [X _]; discriminate]]. rewrite Ha. split.
      - intros H. split; [reflexivity|]. intros cl. apply H. apply in_node0. reflexivity.
      - intros [_ H] x cl Hx. apply in_node0 in Hx. subst x. apply H. }
    destruct b1.
    + exists (Some p), q1, g1, [KFully (OI 0 c) mask], [ABool true]. split; [reflexivity|]. split; [exact I1|]. split; [constructor; [constructor; exact Hc|constructor]|].
      split; [cbn [cm_run]; rewrite E1; reflexivity|]. split; [exact A1|]. split; [exists c; split; [exact Hp|apply Hm; reflexivity]|].
      exists [], (drawn_points rint rreal C w bl box n g1). split; [reflexivity|constructor].
    + assert (HJ : rejected p).
      { intros d Hd X. apply Bool.diff_false_true. apply Hm. replace c with d; [exact X|]. unfold c.
        rewrite (C09_interior_point round_away w (ilist d) p round_away_nearest Hw Hd). destruct d; reflexivity. }
      destruct (IH g1 q1 I1) as (r & q' & g' & ts & an & B1 & B2 & B3 & B4 & B5).
      exists r, q', g', (KFully (OI 0 c) mask :: ts), (ABool false :: an). split; [exact B1|]. split; [exact B2|]. split; [constructor; [constructor; exact Hc|exact B3]|].
      split; [cbn [cm_run]; rewrite E1, B4; reflexivity|]. destruct r as [p'|].
      * destruct B5 as (D1 & D2 & l1 & l2 & D3 & D4). split; [exact D1|]. split; [exact D2|]. exists (p :: l1), l2. split; [rewrite D3; reflexivity|constructor; assumption].
      * destruct B5 as [D1 D2]. split; [cbn; lia|constructor; assumption].
Qed.
End SAMPLE.

(** ** C69 *)
(** After any history, an update and any tests, a sampler returns a point of the box (or of one of the blocks) that lies in a cell with
    a class of the mask: the first such point that it draws. It gives up after exactly [n] points that lie in no such cell, or if the map
    has no blocks. It uses the classified map only through tests, so that later answers are not affected (C30). *)
Theorem C69_random_point : forall G (rint : G -> Z -> Z -> Z * G) rreal C thr w history u m K tests n mask box g,
  int_contract rint -> real_contract rreal -> valid_config C -> cT C < 20 -> (0 < w)%Q -> Forall (good_call C thr) history ->
  update_call C thr u m K -> Forall (test_call (cT C)) tests -> source_ok C w m box ->
  exists s a, cm_run qn (qis thr) C (cm_new C) (history ++ u :: tests) = Some (s, a) /\
  exists r s' g' tests' a', getRandomPoint qn (qis thr) C w rint rreal n mask box s g = Some (r, s', g') /\
    Forall (test_call (cT C)) tests' /\ cm_run qn (qis thr) C s tests' = Some (s', a') /\
    exists blocks, Permutation blocks (map fst m) /\
    let drawn := drawn_points rint rreal C w blocks box n g in
    let rejected p := forall c, point_inside_cell w (ilist c) p -> ~ matches C m K mask c in
    match r with
    | Some p => in_source C w m box p /\ (exists c, point_in_cell w (ilist c) p /\ matches C m K mask c) /\
                exists l1 l2, drawn = l1 ++ p :: l2 /\ Forall rejected l1
    | None => m = [] \/ (length drawn = n /\ Forall rejected drawn)
    end.
Proof.
  intros G rint rreal C thr w l u m K qs n mask box g HI HR HC HT Hw Hl HU Hqs HS. assert (HT' : 1 <= cT C < 20) by (destruct HC; lia).
  destruct (history_ok C thr l HC HT Hl (cm_new C) (new_ok C HT')) as (s & a & H1 & H2 & [Hwf _]).
  destruct (update_spec C thr u m K HC HT HU) as (f & HK & H). destruct (H s Hwf) as (cm & E & Hwf' & HB & HRt).
  specialize (HRt false ltac:(discriminate)).
  pose proof (test_correct thr C HT' cm _ HRt m K f HK HB false (summary_mixed f false) (summary_summ f false)) as STEP.
  destruct (run_queries thr C cm (qinv C _ cm) (test_call (cT C)) (answer_ok (cT C) m K) STEP qs (qc_new C) Hqs) as (q' & b & Hrun & Hq' & Hb); [apply qinv_new; assumption|].
  exists (CM cm q'), (a ++ ADone :: b). split; [rewrite run_app, H1; cbn [cm_run]; rewrite E, Hrun; reflexivity|].
  assert (PM : Permutation (map fst cm) (map fst m)).
  { apply NoDup_Permutation; [exact Hwf'| |].
    - destruct HU as [m Hm|m Es e r Hm Hr1 Hr2]; apply (hashed_ok C m HC Hm).
    - intros k. change (In k (keys cm) <-> In k (keys m)). rewrite <- !getBlock_keys. specialize (HB k). unfold hasBlock in HB. destruct (getBlock cm k), (getBlock m k); try discriminate HB; tauto || (split; congruence). }
  unfold getRandomPoint. cbn [cm_map]. destruct cm as [|kb cm'] eqn:Ecm.
  - exists None, (CM [] q'), g, [], []. split; [reflexivity|]. split; [constructor|]. split; [reflexivity|]. exists (map fst m). split; [apply Permutation_refl|]. left.
    apply Permutation_nil in PM. destruct m; [reflexivity|discriminate].
  - rewrite <- Ecm in *.
    destruct (attempts_ok rint rreal HI HR C HT' w Hw thr m K cm _ mask box STEP HB HS ltac:(subst; discriminate) n g q' Hq') as (r & q2 & g' & ts & an & B1 & B2 & B3 & B4 & B5).
    exists r, (CM cm q2), g', ts, an. split; [exact B1|]. split; [exact B3|]. split; [exact B4|]. exists (map fst cm). split; [exact PM|].
    cbv zeta. destruct r; [exact B5|right; exact B5].
Qed.
Print Assumptions C69_random_point.

(** A generator that counts *)
Definition ex_int (g lo hi : Z) : Z * Z := (lo + g mod (hi - lo + 1), g + 1).
Definition ex_real (g : Z) (lo hi : Q) : Q * Z := ((lo + (hi - lo) * (inject_Z (g / 4 mod 9) / 8))%Q, g + 1).
Lemma ex_int_ok : int_contract ex_int.
Proof. intros g lo hi H. unfold ex_int. cbn [fst]. pose proof (Z.mod_pos_bound g (hi - lo + 1) ltac:(lia)). lia. Qed.
Lemma ex_real_ok : real_contract ex_real.
Proof.
  intros g lo hi H. unfold ex_real. cbn [fst]. pose proof (Z.mod_pos_bound (g / 4) 9 ltac:(lia)) as B. set (r := g / 4 mod 9) in *. clearbody r.
  assert (0 <= inject_Z r)%Q by (change 0%Q with (inject_Z 0); rewrite <- Zle_Qle; lia). assert (inject_Z r <= 8)%Q by (change 8%Q with (inject_Z 8); rewrite <- Zle_Qle; lia).
  assert (E : (inject_Z r / 8 == inject_Z r * (1 # 8))%Q) by field. rewrite E. split; nra.
Qed.
(** In the map of C29_ex, sampled from its block: after a candidate on the border a point in the occupied cell (0,0,0) is found. A box
    around another cell gives nothing. *)
Example C69_ex : source_ok cxC 1 cxm1 None /\ source_ok cxC 1 cxm1 (Some (AABB [1; 1; 1]%Q [5 # 2; 5 # 2; 5 # 2]%Q)) /\
  update_call cxC 0 (KUpdate cxm1) cxm1 (occ_class cxC 0 cxm1) /\
  exists s, cm_run qn (qis 0) cxC (cm_new cxC) [KUpdate cxm1] = Some (s, [ADone]) /\
    (exists p s' g', getRandomPointId qn (qis 0) cxC 1 ex_int ex_real 50 kOccupied None s 0 = Some (Some p, s', g') /\ (4 < g') /\
       pointToNearestIndex round_away p (1 / 1) = [0; 0; 0]) /\
    (exists s' g', getRandomPointId qn (qis 0) cxC 1 ex_int ex_real 50 kOccupied (Some (AABB [1; 1; 1]%Q [5 # 2; 5 # 2; 5 # 2]%Q)) s 0 = Some (None, s', g')).
Proof.
  split; [|split; [|split]].
  - intros k Hk. assert (k = I3 0 0 0) as ->.
    { apply getBlock_keys in Hk. assert (E : keys cxm1 = [I3 0 0 0]) by (vm_compute; reflexivity). rewrite E in Hk. destruct Hk as [<-|[]]; reflexivity. }
    unfold box_ok, block_box. cbn. split; [reflexivity|]. split; [repeat (constructor; [vm_compute; discriminate|]); constructor|].
    split; repeat (constructor; [vm_compute; discriminate|]); constructor.
  - unfold source_ok, box_ok. cbn [bmin bmax]. split; [reflexivity|]. split; [repeat (constructor; [vm_compute; discriminate|]); constructor|].
    split; repeat (constructor; [vm_compute; discriminate|]); constructor.
  - exact cx_upd1.
  - eexists. split; [vm_compute; reflexivity|]. split.
    + eexists _, _, _. split; [vm_compute; reflexivity|]. split; [lia|vm_compute; reflexivity].
    + eexists _, _. vm_compute. reflexivity.
Qed.

Lemma Forall2_cons_inv2 {A B} (P : A -> B -> Prop) x y l l' : Forall2 P (x :: l) (y :: l') -> P x y /\ Forall2 P l l'.
Proof. intros H. inversion H; subst; auto. Qed.
(** Points in unallocated space are unobserved, but are not returned if unobserved points are asked for. *)
Theorem C69_unobserved_refuted : exists C thr u m K b,
  valid_config C /\ cT C < 20 /\ update_call C thr u m K /\ box_ok 1 b /\
  (forall p c, point_in_box b p -> point_in_cell 1 (ilist c) p -> K c CUnobserved) /\
  forall G (rint : G -> Z -> Z -> Z * G) rreal n g, int_contract rint -> real_contract rreal ->
  exists s, cm_run qn (qis thr) C (cm_new C) [u] = Some (s, [ADone]) /\
  exists s' g', getRandomPointId qn (qis thr) C 1 rint rreal n kUnobserved (Some b) s g = Some (None, s', g').
Proof.
  exists cxC, 0%Q, (KUpdate cxm1), cxm1, (occ_class cxC 0 cxm1), (AABB [9; 9; 9]%Q [10; 10; 10]%Q).
  assert (HB : box_ok 1 (AABB [9; 9; 9]%Q [10; 10; 10]%Q)).
  { unfold box_ok. cbn [bmin bmax]. split; [reflexivity|]. split; [repeat (constructor; [vm_compute; discriminate|]); constructor|].
    split; repeat (constructor; [vm_compute; discriminate|]); constructor. }
  assert (A : forall p c, point_in_box (AABB [9; 9; 9]%Q [10; 10; 10]%Q) p -> point_in_cell 1 (ilist c) p -> 8 <= px c <= 10 /\ 8 <= py c <= 10 /\ 8 <= pz c <= 10).
  { intros p [x y z] [P1 P2] H. unfold point_in_cell in H. change (ilist (I3 x y z)) with [x; y; z] in H. inversion H as [|? a1 ? l1 [C1 C1'] H1]; subst. inversion H1 as [|? a2 ? l2 [C2 C2'] H2]; subst.
    inversion H2 as [|? a3 ? l3 [C3 C3'] H3]; subst. inversion H3; subst. cbn [bmin bmax] in *.
    apply Forall2_cons_inv2 in P1, P2. destruct P1 as [P1 Q1], P2 as [P2 Q2]. apply Forall2_cons_inv2 in Q1, Q2. destruct Q1 as [P3 Q1], Q2 as [P4 Q2].
    apply Forall2_cons_inv2 in Q1, Q2. destruct Q1 as [P5 Q1], Q2 as [P6 Q2]. cbn [px py pz].
    assert (X : forall c v, (inject_Z c * 1 <= v)%Q -> (v <= (inject_Z c + 1) * 1)%Q -> (9 <= v)%Q -> (v <= 10)%Q -> 8 <= c <= 10).
    { clear. intros c v H1 H2 H3 H4. split.
      - apply injZ_le. change (inject_Z 8) with 8%Q. lra.
      - apply injZ_le. change (inject_Z 10) with 10%Q. lra. }
    repeat split; eapply X; eassumption. }
  split; [exact cxC_valid|]. split; [cbn; lia|]. split; [exact cx_upd1|]. split; [exact HB|]. split.
  - intros p c Hp Hc. destruct (A p c Hp Hc) as (A1 & A2 & A3). destruct c as [x y z]. cbn [px py pz] in *. apply cls_iff.
    assert (X : x = 8 \/ x = 9 \/ x = 10) by lia. assert (Y : y = 8 \/ y = 9 \/ y = 10) by lia. assert (Z' : z = 8 \/ z = 9 \/ z = 10) by lia.
    destruct X as [-> | [-> | ->]], Y as [-> | [-> | ->]], Z' as [-> | [-> | ->]]; vm_compute; reflexivity.
  - intros G rint rreal n g HI HR.
    destruct (C69_random_point G rint rreal cxC 0%Q 1%Q [] (KUpdate cxm1) cxm1 _ [] n (occ_toMask kUnobserved) (Some (AABB [9; 9; 9]%Q [10; 10; 10]%Q)) g
      HI HR cxC_valid ltac:(cbn; lia) ltac:(reflexivity) ltac:(constructor) cx_upd1 ltac:(constructor) HB) as (s & a & E & r & s' & g' & ts & an & E1 & _ & _ & bl & _ & R).
    exists s. split; [cbn [app cm_run cm_call] in E |- *; injection E as <- _; reflexivity|]. exists s', g'. unfold getRandomPointId. rewrite E1. cbv zeta in R. destruct r as [p|]; [exfalso|reflexivity].
    destruct R as (R1 & (c & R2 & R3 & _) & _). destruct (A p c R1 R2) as (A1 & A2 & A3). destruct c as [x y z]. cbn [px py pz] in *.
    assert (X : x = 8 \/ x = 9 \/ x = 10) by lia. assert (Y : y = 8 \/ y = 9 \/ y = 10) by lia. assert (Z' : z = 8 \/ z = 9 \/ z = 10) by lia. clear - R3 X Y Z'.
    destruct X as [-> | [-> | ->]], Y as [-> | [-> | ->]], Z' as [-> | [-> | ->]]; vm_compute in R3; discriminate R3.
Qed.
Print Assumptions C69_unobserved_refuted.
