(** * C64: cropping a map around the robot *)
From Verif Require Import Base M_IntMath F_IntMath M_NdtreeIndex M_Num F_Num M_Ndtree S_Field F_Hash M_Wavelet F_WavMap F_WavHash M_WavHist F_WavHist
  M_HashedBlocks M_Chunked M_ChunkedHist F_ChunkedMap P_Chunked P_Wavelet M_Point P_Point M_Crop.
From Coq Require Import QArith Qcanon Qround Lqa.
Close Scope Qc_scope. Close Scope Q_scope. Open Scope Z_scope.

(** ** Specification vocabulary *)
(** The block, a cube of 2^T cells per axis, in which a cell lies *)
Definition block_at (T : Z) (c : idx3) : idx3 := I3 (px c / 2 ^ T) (py c / 2 ^ T) (pz c / 2 ^ T).
(** A point in a cell of width [w] or on its boundary *)
Definition cell_point (w : Q) (c : idx3) (x y z : Q) : Prop :=
  (inject_Z (px c) * w <= x <= (inject_Z (px c) + 1) * w)%Q /\ (inject_Z (py c) * w <= y <= (inject_Z (py c) + 1) * w)%Q /\
  (inject_Z (pz c) * w <= z <= (inject_Z (pz c) + 1) * w)%Q.
(** Some point of the cell has at most the distance [d] from (bx, by, bz). *)
Definition cell_within (w d bx by_ bz : Q) (c : idx3) : Prop :=
  exists x y z, cell_point w c x y z /\ ((x - bx) * (x - bx) + (y - by_) * (y - by_) + (z - bz) * (z - bz) <= d * d)%Q.
(** ... some cell of the block *)
Definition block_within (T : Z) (w d bx by_ bz : Q) (k : idx3) : Prop := exists c, block_at T c = k /\ cell_within w d bx by_ bz c.
(** Map calls, and runs of the cropping operation with whatever parameters and positions *)
Inductive crop_event := ECall (now : Z) (c : hcall) | ECrop (force : bool) (now : Z) (lookup : Z -> option (list Q)).
Definition hw_step (C : wconfig) (w d : Q) (every : Z) (s : Z * shash wblock) (e : crop_event) : Z * shash wblock :=
  match e with
  | ECall now c => (fst s, hw_apply C (snd s) (now, c))
  | ECrop force now lookup => crop_run (cT C) w d every force now lookup (fst s) (snd s)
  end.
Definition hc_step (fuel : nat) (C : wconfig) (w d : Q) (every : Z) (s : Z * shash cblock) (e : crop_event) : Z * shash cblock :=
  match e with
  | ECall now c => (fst s, hc_apply fuel C (snd s) (now, c))
  | ECrop force now lookup => crop_run (cT C) w d every force now lookup (fst s) (snd s)
  end.

(** ** Facts *)
Lemma coord_cell w T k x : (0 < w)%Q -> 0 <= T ->
  (inject_Z k * (w * inject_Z (2 ^ T)) <= x)%Q -> (x <= (inject_Z k + 1) * (w * inject_Z (2 ^ T)))%Q ->
  exists c, c / 2 ^ T = k /\ (inject_Z c * w <= x <= (inject_Z c + 1) * w)%Q.
Proof.
  intros Hw HT H1 H2. assert (P : 0 < 2 ^ T) by (apply Z.pow_pos_nonneg; lia). set (a := 2 ^ T) in *.
  set (y := (x / w)%Q). assert (EY : (x == y * w)%Q) by (unfold y; field; lra).
  assert (Y1 : (inject_Z (k * a) <= y)%Q).
  { rewrite EY in H1. rewrite inject_Z_mult. apply (Qmult_le_r _ _ w Hw). rewrite <- Qmult_assoc, (Qmult_comm (inject_Z a) w). exact H1. }
  assert (Y2 : (y <= inject_Z ((k + 1) * a))%Q).
  { rewrite EY in H2. rewrite inject_Z_mult, inject_Z_plus. apply (Qmult_le_r _ _ w Hw). rewrite <- Qmult_assoc, (Qmult_comm (inject_Z a) w). exact H2. }
  pose proof (Qfloor_le y) as F1. pose proof (Qlt_floor y) as F2. rewrite inject_Z_plus in F2. set (f := Qfloor y) in *.
  assert (F3 : k * a <= f). { assert (inject_Z (k * a) < inject_Z (f + 1))%Q by (rewrite inject_Z_plus; lra). rewrite <- Zlt_Qlt in H. lia. }
  exists (Z.min f ((k + 1) * a - 1)). split.
  - symmetry. apply Z.div_unique_pos with (r := Z.min f ((k + 1) * a - 1) - k * a); lia.
  - rewrite EY. destruct (Z.min_spec f ((k + 1) * a - 1)) as [[L ->]|[L ->]].
    + split; apply Qmult_le_r; try exact Hw; [exact F1|]. apply Qlt_le_weak. exact F2.
    + assert (inject_Z ((k + 1) * a - 1) <= inject_Z f)%Q by (rewrite <- Zle_Qle; exact L).
      split; apply Qmult_le_r; try exact Hw; [lra|]. eapply Qle_trans; [exact Y2|]. replace ((k + 1) * a) with ((k + 1) * a - 1 + 1) at 1 by lia. rewrite inject_Z_plus. apply Qle_refl.
Qed.
Lemma cell_coord w T c x : (0 < w)%Q -> 0 <= T -> (inject_Z c * w <= x <= (inject_Z c + 1) * w)%Q ->
  (inject_Z (c / 2 ^ T) * (w * inject_Z (2 ^ T)) <= x /\ x <= (inject_Z (c / 2 ^ T) + 1) * (w * inject_Z (2 ^ T)))%Q.
Proof.
  intros Hw HT [H1 H2]. assert (P : 0 < 2 ^ T) by (apply Z.pow_pos_nonneg; lia). set (a := 2 ^ T) in *.
  pose proof (Z.div_mod c a ltac:(lia)) as E. pose proof (Z.mod_pos_bound c a P) as B. set (k := c / a) in *.
  assert (L1 : (inject_Z (k * a) <= inject_Z c)%Q) by (rewrite <- Zle_Qle; lia).
  assert (L2 : (inject_Z (c + 1) <= inject_Z ((k + 1) * a))%Q) by (rewrite <- Zle_Qle; lia).
  rewrite inject_Z_mult in L1. rewrite inject_Z_mult, !inject_Z_plus in L2. apply (Qmult_le_r _ _ w Hw) in L1. apply (Qmult_le_r _ _ w Hw) in L2. change (inject_Z 1) with 1%Q in *.
  split; [eapply Qle_trans; [|exact H1]|eapply Qle_trans; [exact H2|]]; rewrite (Qmult_comm w), Qmult_assoc; assumption.
Qed.
Lemma list3 (P : list Q) : length P = 3%nat -> exists x y z, P = [x; y; z].
Proof. destruct P as [|x [|y [|z [|? ?]]]]; try discriminate. eauto. Qed.

Lemma indicator_spec T w d bx by_ bz k : (0 < w)%Q -> (0 <= d)%Q -> 0 <= T ->
  (crop_indicator T w d [bx; by_; bz] k = false <-> block_within T w d bx by_ bz k).
Proof.
  intros Hw Hd HT. unfold crop_indicator, beyond. set (b := nodeIndexToAABB _ w).
  assert (PW : (0 < w * inject_Z (2 ^ T))%Q). { apply Qmult_lt_0_compat; [exact Hw|]. change 0%Q with (inject_Z 0). rewrite <- Zlt_Qlt. apply Z.pow_pos_nonneg; lia. }
  assert (EB : b = AABB (map (fun c => (inject_Z c * (w * inject_Z (2 ^ T)))%Q) [px k; py k; pz k]) (map (fun c => ((inject_Z c + 1) * (w * inject_Z (2 ^ T)))%Q) [px k; py k; pz k])).
  { unfold b, nodeIndexToAABB, heightToCellWidth, indexToMinCorner, indexToMaxCorner. cbn [position height]. rewrite exp2_pow by lia. reflexivity. }
  set (W := (w * inject_Z (2 ^ T))%Q) in *.
  assert (BL : box_le (bmin b) (bmax b)). { rewrite EB. cbn [bmin bmax map box_le]. repeat split; apply Qmult_le_r; try exact PW; lra. }
  destruct (C46_closest_point b [bx; by_; bz] BL) as (I & M & E); [rewrite EB; reflexivity|].
  assert (D0 : Qle_bool 0 d = true) by (apply Qle_bool_iff; exact Hd). rewrite D0. cbn [negb orb]. rewrite negb_false_iff, Qle_bool_iff, E.
  assert (D : forall x y z, (dist2 [bx; by_; bz] [x; y; z] == (x - bx) * (x - bx) + (y - by_) * (y - by_) + (z - bz) * (z - bz))%Q) by (intros; unfold dist2; cbn [zip fold_right]; ring).
  split.
  - intros H. set (q := closestPointTo b [bx; by_; bz]) in *. destruct (list3 q) as (x & y & z & Eq).
    { destruct I as [I _]. rewrite EB in I. cbn [bmin map] in I. inversion I as [|? ? ? ? _ I1]; subst. inversion I1 as [|? ? ? ? _ I2]; subst. inversion I2 as [|? ? ? ? _ I3]; subst. inversion I3; subst. reflexivity. }
    rewrite Eq in *. rewrite D in H. rewrite EB in I. cbn [bmin bmax map] in I. rewrite !inside_cons in I. destruct I as ([X1 X2] & [Y1 Y2] & [Z1 Z2] & _).
    destruct (coord_cell w T _ x Hw HT X1 X2) as (cx & Ex & Cx). destruct (coord_cell w T _ y Hw HT Y1 Y2) as (cy & Ey & Cy). destruct (coord_cell w T _ z Hw HT Z1 Z2) as (cz & Ez & Cz).
    exists (I3 cx cy cz). split; [unfold block_at; cbn [px py pz]; rewrite Ex, Ey, Ez; destruct k; reflexivity|]. exists x, y, z. split; [|exact H].
    unfold cell_point. cbn [px py pz]. auto.
  - intros (c & Ek & x & y & z & (Cx & Cy & Cz) & H). rewrite <- D in H. eapply Qle_trans; [|exact H]. apply M. rewrite EB. cbn [bmin bmax map]. subst k. cbn [px py pz block_at].
    rewrite !inside_cons. split; [apply cell_coord; assumption|]. split; [apply cell_coord; assumption|]. split; [apply cell_coord; assumption|]. split; constructor.
Qed.

Section GENERIC.
Context {B : Type}.
Implicit Types m : shash B.
Lemma crop_filter T w d p m : crop_map T w d p m = filter (fun kb => negb (crop_indicator T w d p (fst kb))) m.
Proof. unfold crop_map. induction m as [|[k b] m IH]; cbn [eraseBlockIf filter fst]; [reflexivity|]. rewrite IH. destruct (crop_indicator T w d p k); reflexivity. Qed.
Lemma crop_wf T w d p m : hwf m -> hwf (crop_map T w d p m).
Proof. intros H. apply eraseBlockIf_wf. exact H. Qed.
Lemma crop_getBlock T w d p m k : hwf m -> getBlock (crop_map T w d p m) k = if crop_indicator T w d p k then None else getBlock m k.
Proof. intros H. unfold crop_map. rewrite getBlock_eraseBlockIf by exact H. cbn [fst snd]. destruct (getBlock m k), (crop_indicator T w d p k); reflexivity. Qed.
(** Cropping is a sequence of eraseBlock calls. *)
Lemma erase_all ks : forall m, fold_left (fun m k => fst (eraseBlock m k)) ks m = filter (fun kb => negb (existsb (ieqb (fst kb)) ks)) m.
Proof.
  induction ks as [|k ks IH]; intros m; cbn [fold_left existsb].
  - induction m as [|kb m IHm]; cbn [filter]; [reflexivity|]. cbn [negb]. f_equal. exact IHm.
  - rewrite IH. unfold eraseBlock. cbn [fst]. induction m as [|[j b] m IHm]; cbn [filter fst]; [reflexivity|].
    destruct (ieqb j k); cbn [negb orb filter fst]; [exact IHm|]. rewrite IHm. reflexivity.
Qed.
Lemma crop_erases T w d p m : crop_map T w d p m = fold_left (fun m k => fst (eraseBlock m k)) (filter (crop_indicator T w d p) (keys m)) m.
Proof.
  rewrite erase_all, crop_filter. apply filter_ext_in. intros [k b] Hin. cbn [fst]. f_equal. apply eq_true_iff_eq. rewrite existsb_exists. split.
  - intros H. exists k. split; [|apply ieqb_refl]. apply filter_In. split; [apply in_map_iff; exists (k, b); auto|exact H].
  - intros (j & Hj & E). apply filter_In in Hj as [_ Hj]. destruct (ieqb_spec k j) as [->|]; [exact Hj|discriminate].
Qed.
End GENERIC.
Lemma block_at_spec T c : 0 <= T -> indexToBlockIndex3 c T = block_at T c.
Proof. intros H. unfold indexToBlockIndex3, block_at, imap. rewrite !div_exp2_floor_spec by lia. reflexivity. Qed.
Lemma crop_run_due {B} T w d every force now lookup last (m : shash B) p : (force = true \/ every < now - last) -> lookup now = Some p ->
  crop_run T w d every force now lookup last m = (now, crop_map T w d p m).
Proof.
  intros H E. unfold crop_run, crop_shouldRun. replace (negb force && negb (every <? now - last)) with false.
  - destruct m; [reflexivity|]. rewrite E. reflexivity.
  - destruct H as [->|H]; [reflexivity|]. apply Z.ltb_lt in H. rewrite H. destruct force; reflexivity.
Qed.

(** ** C64 *)
(** A run that is due and knows the position keeps exactly the blocks of which some cell is within the distance, unchanged; every cell within the distance keeps
    its value, cells of blocks without a cell within the distance read 0 (unknown). *)
Definition cropped {B} (T : Z) (w d bx by_ bz : Q) (get : shash B -> idx3 -> Qc) (m m' : shash B) : Prop :=
  (forall k b, getBlock m' k = Some b <-> getBlock m k = Some b /\ block_within T w d bx by_ bz k) /\
  (forall c, block_within T w d bx by_ bz (block_at T c) -> get m' c = get m c) /\
  (forall c, cell_within w d bx by_ bz c -> get m' c = get m c) /\
  (forall c, ~ block_within T w d bx by_ bz (block_at T c) -> get m' c = 0%Qc).
Lemma cropped_intro {B} (getb : option B -> idx3 -> Qc) T w d bx by_ bz get (m : shash B) : (0 < w)%Q -> (0 < d)%Q -> 0 <= T -> hwf m ->
  (forall m c, get m c = getb (getBlock m (block_at T c)) c) -> (forall c, getb None c = 0%Qc) ->
  cropped T w d bx by_ bz get m (crop_map T w d [bx; by_; bz] m).
Proof.
  intros Hw Hd HT W HG H0. pose proof (fun k => indicator_spec T w d bx by_ bz k Hw ltac:(lra) HT) as S.
  assert (K : forall c, block_within T w d bx by_ bz (block_at T c) -> get (crop_map T w d [bx; by_; bz] m) c = get m c).
  { intros c H. rewrite !HG, crop_getBlock by exact W. rewrite (proj2 (S _) H). reflexivity. }
  split; [|split; [exact K|split]].
  - intros k b. rewrite crop_getBlock by exact W. specialize (S k). destruct (crop_indicator T w d [bx; by_; bz] k).
    + split; [discriminate|]. intros [_ H]. apply S in H. discriminate.
    + split; [intros H; split; [exact H|apply S; reflexivity]|tauto].
  - intros c H. apply K. exists c. split; [reflexivity|exact H].
  - intros c H. rewrite HG, crop_getBlock by exact W. destruct (crop_indicator T w d [bx; by_; bz] (block_at T c)) eqn:E; [apply H0|]. destruct H. apply S. exact E.
Qed.
Theorem C64_hashed_crop : forall C w d bx by_ bz every force now lookup last m, valid_config C -> (0 < w)%Q -> (0 < d)%Q -> hashed_reachable C m ->
  (force = true \/ every < now - last) -> lookup now = Some [bx; by_; bz] ->
  exists m', crop_run (cT C) w d every force now lookup last m = (now, m') /\ cropped (cT C) w d bx by_ bz (hw_get qn C) m m' /\ hashed_reachable C m'.
Proof.
  intros C w d bx by_ bz every force now lookup last m HC Hw Hd Hr Hdue Hl. pose proof HC as [HT _]. pose proof (hashed_ok C m HC Hr) as [W _].
  eexists. split; [apply (crop_run_due _ _ _ _ _ _ _ _ _ _ Hdue Hl)|]. split.
  - apply (cropped_intro (fun ob c => match ob with None => n0 qn | Some b => wb_get qn C b (hw_cellIndex C (OI 0 c)) end)); try assumption; try lia; [|reflexivity].
    intros m0 c. unfold hw_get. rewrite block_at_spec by lia. reflexivity.
  - destruct Hr as (l & ->). rewrite crop_erases. set (ks := filter _ _). exists (l ++ map (fun k => (0, HEraseBlock k)) ks). unfold hw_run. rewrite fold_left_app.
    generalize (fold_left (hw_apply C) l []). clear. induction ks as [|k ks IH]; intros m; cbn [map fold_left]; [reflexivity|]. rewrite IH. reflexivity.
Qed.
Theorem C64_chunked_crop : forall fuel C w d bx by_ bz every force now lookup last m, valid_config C -> (Z.to_nat (cT C) <= fuel)%nat -> (0 < w)%Q -> (0 < d)%Q ->
  chunked_reachable fuel C m -> (force = true \/ every < now - last) -> lookup now = Some [bx; by_; bz] ->
  exists m', crop_run (cT C) w d every force now lookup last m = (now, m') /\ cropped (cT C) w d bx by_ bz (hc_get qn C) m m' /\ chunked_reachable fuel C m'.
Proof.
  intros fuel C w d bx by_ bz every force now lookup last m HC Hf Hw Hd Hr Hdue Hl. pose proof HC as [HT _].
  destruct (chunked_sim fuel C m HC Hf Hr) as (h & Hh & M). pose proof (hashed_ok C h HC Hh) as [W _].
  assert (Wm : hwf m) by (unfold hwf in *; rewrite (mrel_keys _ _ _ M); exact W).
  eexists. split; [apply (crop_run_due _ _ _ _ _ _ _ _ _ _ Hdue Hl)|]. split.
  - apply (cropped_intro (fun ob c => match ob with None => n0 qn | Some b => cb_get qn (cT C) (cbtree b) (hw_cellIndex C (OI 0 c)) end)); try assumption; try lia; [|reflexivity].
    intros m0 c. unfold hc_get. rewrite block_at_spec by lia. reflexivity.
  - destruct Hr as (l & ->). rewrite crop_erases. set (ks := filter _ _). exists (l ++ map (fun k => (0, HEraseBlock k)) ks). unfold hc_run. rewrite fold_left_app.
    generalize (fold_left (hc_apply fuel C) l []). clear. induction ks as [|k ks IH]; intros m; cbn [map fold_left]; [reflexivity|]. rewrite IH. reflexivity.
Qed.

(** A run that is not due, or does not know the position, leaves the map as it is; one that is not due does not count as a run. *)
Theorem C64_no_crop : forall B T w d every force now lookup last m,
  (force = false /\ now - last <= every -> crop_run (B := B) T w d every force now lookup last m = (last, m)) /\
  (lookup now = None -> snd (crop_run (B := B) T w d every force now lookup last m) = m).
Proof.
  intros B T w d every force now lookup last m. unfold crop_run, crop_shouldRun. split.
  - intros [-> H]. apply Z.ltb_ge in H. rewrite H. reflexivity.
  - intros H. rewrite H. destruct (negb force && negb (every <? now - last)); [reflexivity|]. destruct m; reflexivity.
Qed.
(** Whatever calls and cropping runs are made, the map is one that calls alone can produce: all theorems about reachable maps hold for cropped maps, too. *)
Lemma hw_step_reachable C w d every s e : hashed_reachable C (snd s) -> hashed_reachable C (snd (hw_step C w d every s e)).
Proof.
  intros (l & E). destruct s as [last m]. cbn [snd] in *. subst m. destruct e as [now c|force now lookup]; cbn [hw_step fst snd].
  - exists (l ++ [(now, c)]). unfold hw_run. rewrite fold_left_app. reflexivity.
  - unfold crop_run. destruct (negb force && _); [exists l; reflexivity|]. destruct (match hw_run C l with [] => true | _ => false end); [exists l; reflexivity|].
    destruct (lookup now) as [p|]; [|exists l; reflexivity]. cbn [snd]. rewrite crop_erases. set (ks := filter _ _). exists (l ++ map (fun k => (0, HEraseBlock k)) ks).
    unfold hw_run. rewrite fold_left_app. generalize (fold_left (hw_apply C) l []). clear. induction ks as [|k ks IH]; intros m; cbn [map fold_left]; [reflexivity|]. rewrite IH. reflexivity.
Qed.
Lemma hc_step_reachable fuel C w d every s e : chunked_reachable fuel C (snd s) -> chunked_reachable fuel C (snd (hc_step fuel C w d every s e)).
Proof.
  intros (l & E). destruct s as [last m]. cbn [snd] in *. subst m. destruct e as [now c|force now lookup]; cbn [hc_step fst snd].
  - exists (l ++ [(now, c)]). unfold hc_run. rewrite fold_left_app. reflexivity.
  - unfold crop_run. destruct (negb force && _); [exists l; reflexivity|]. destruct (match hc_run fuel C l with [] => true | _ => false end); [exists l; reflexivity|].
    destruct (lookup now) as [p|]; [|exists l; reflexivity]. cbn [snd]. rewrite crop_erases. set (ks := filter _ _). exists (l ++ map (fun k => (0, HEraseBlock k)) ks).
    unfold hc_run. rewrite fold_left_app. generalize (fold_left (hc_apply fuel C) l []). clear. induction ks as [|k ks IH]; intros m; cbn [map fold_left]; [reflexivity|]. rewrite IH. reflexivity.
Qed.
Theorem C64_histories : forall fuel C w d every l,
  hashed_reachable C (snd (fold_left (hw_step C w d every) l (0, []))) /\ chunked_reachable fuel C (snd (fold_left (hc_step fuel C w d every) l (0, []))).
Proof.
  intros fuel C w d every l. split.
  - assert (X : forall l s, hashed_reachable C (snd s) -> hashed_reachable C (snd (fold_left (hw_step C w d every) l s))).
    { clear l. induction l as [|e l IH]; intros s H; [exact H|]. cbn [fold_left]. apply IH. apply hw_step_reachable. exact H. }
    apply X. exists []. reflexivity.
  - assert (X : forall l s, chunked_reachable fuel C (snd s) -> chunked_reachable fuel C (snd (fold_left (hc_step fuel C w d every) l s))).
    { clear l. induction l as [|e l IH]; intros s H; [exact H|]. cbn [fold_left]. apply IH. apply hc_step_reachable. exact H. }
    apply X. exists []. reflexivity.
Qed.
(** A failed lookup counts as a run: at the next attempt, with the position known and more than the period since the last time the map was cropped (here: never),
    the map is not cropped. *)
Definition ex_lookup (t : Z) : option (list Q) := if t <? 15 then None else Some [0%Q; 0%Q; 0%Q].
Theorem C64_failed_lookup_refuted : exists C w d (every : Z) m (t1 t2 : Z) c, valid_config C /\ (0 < w)%Q /\ (0 < d)%Q /\ hashed_reachable C m /\
  let s1 := crop_run (cT C) w d every false t1 ex_lookup 0 m in let s2 := crop_run (cT C) w d every false t2 ex_lookup (fst s1) (snd s1) in
  every < t1 - 0 /\ every < t2 - 0 /\ snd s1 = m /\ ex_lookup t2 = Some [0%Q; 0%Q; 0%Q] /\ (hw_get qn C (snd s2) c <> 0)%Qc /\ ~ block_within (cT C) w d 0 0 0 (block_at (cT C) c).
Proof.
  exists exC, (1 # 2)%Q, 2%Q, 10, (hw_run exC [(1, HAdd (I3 100 0 0) (Q2Qc 1))]), 11, 20, (I3 100 0 0).
  split; [exact exC_valid|]. split; [reflexivity|]. split; [reflexivity|]. split; [eexists; reflexivity|]. cbv zeta.
  split; [lia|]. split; [lia|]. split; [reflexivity|]. split; [reflexivity|]. split; [vm_compute; intros X; discriminate X|].
  intros H. apply indicator_spec in H; [|reflexivity|discriminate|cbn; lia]. vm_compute in H. discriminate.
Qed.
(** Non-vacuity: a map with a near and a far obstacle; the far one is removed, the near one stays. *)
Example C64_ex : exists C w d m m', valid_config C /\ (0 < w)%Q /\ (0 < d)%Q /\ hashed_reachable C m /\
  crop_run (cT C) w d 10 false 20 ex_lookup 0 m = (20, m') /\ cropped (cT C) w d 0 0 0 (hw_get qn C) m m' /\
  cell_within w d 0 0 0 (I3 1 1 1) /\ hw_get qn C m' (I3 1 1 1) = Q2Qc 1 /\ hw_get qn C m (I3 100 0 0) = Q2Qc 1 /\ hw_get qn C m' (I3 100 0 0) = 0%Qc.
Proof.
  set (m := hw_run exC [(1, HAdd (I3 100 0 0) (Q2Qc 1)); (2, HAdd (I3 1 1 1) (Q2Qc 1))]).
  assert (Hr : hashed_reachable exC m) by (eexists; reflexivity).
  destruct (C64_hashed_crop exC (1 # 2)%Q 2%Q 0 0 0 10 false 20 ex_lookup 0 m exC_valid ltac:(reflexivity) ltac:(reflexivity) Hr ltac:(right; lia) ltac:(reflexivity)) as (m' & E & K & _).
  exists exC, (1 # 2)%Q, 2%Q, m, m'. split; [exact exC_valid|]. split; [reflexivity|]. split; [reflexivity|]. split; [exact Hr|]. split; [exact E|]. split; [exact K|].
  assert (Wn : cell_within (1 # 2) 2 0 0 0 (I3 1 1 1)). { exists (1 # 2)%Q, (1 # 2)%Q, (1 # 2)%Q. split; [unfold cell_point; repeat split; vm_compute; discriminate|vm_compute; discriminate]. }
  split; [exact Wn|]. destruct K as (_ & _ & K3 & K4). split; [rewrite (K3 _ Wn); apply Qc_is_canon; vm_compute; reflexivity|]. split; [apply Qc_is_canon; vm_compute; reflexivity|].
  apply K4. intros H. apply indicator_spec in H; [|reflexivity|discriminate|cbn; lia]. vm_compute in H. discriminate.
Qed.
Example C64_chunked_ex : exists C m m', valid_config C /\ chunked_reachable 10 C m /\ crop_run (cT C) (1 # 2)%Q 2%Q 10 false 20 ex_lookup 0 m = (20, m') /\
  hc_get qn C m (I3 100 0 0) = Q2Qc 1 /\ hc_get qn C m' (I3 100 0 0) = 0%Qc /\ hc_get qn C m' (I3 1 1 1) = Q2Qc 1.
Proof.
  set (m := hc_run 10 exC [(1, HAdd (I3 100 0 0) (Q2Qc 1)); (2, HAdd (I3 1 1 1) (Q2Qc 1))]).
  exists exC, m, (crop_map (cT exC) (1 # 2)%Q 2%Q [0%Q; 0%Q; 0%Q] m). split; [exact exC_valid|]. split; [eexists; reflexivity|]. split; [apply crop_run_due; [right; lia|reflexivity]|].
  repeat split; apply Qc_is_canon; vm_compute; reflexivity.
Qed.
Print Assumptions C64_hashed_crop.
Print Assumptions C64_chunked_crop.
Print Assumptions C64_no_crop.
Print Assumptions C64_histories.
Print Assumptions C64_failed_lookup_refuted.
