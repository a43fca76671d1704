(** * C76: map values in single precision stay close to the ideal ones *)
From Verif Require Import Base M_IntMath F_IntMath M_Num M_NdtreeIndex M_Haar M_Haar3 F_Haar3 M_Ndtree M_Wavelet F_Wavelet F_WavTree F_WavMap F_Hash
  M_HashedBlocks P_HashedBlocks M_ApproxFloat M_FloatIndex M_FloatNum F_Float F_FloatHaar F_FloatTree.
From Coq Require Import Reals Lra Psatz.
From Flocq Require Import Core IEEE754.BinarySingleNaN.
Close Scope Z_scope.
Open Scope R_scope.

(** ** Specification: what the map should hold, over the real numbers. [B2R x] is the real number that the float [x] denotes. *)
Definition limit (lo hi x : R) : R := Rmax lo (Rmin hi x).
Definition ideal_step (lo hi : R) (f : idx3 -> R) (call : fcall) : idx3 -> R :=
  match call with
  | FAdd i u => fun c => if ieqb i c then f c + B2R u else f c
  | FThreshold | FPrune => fun c => limit lo hi (f c)
  | FClear => fun _ => 0
  end.
Definition ideal (lo hi : R) (l : list (Z * fcall)) : idx3 -> R := fold_left (fun f tc => ideal_step lo hi f (snd tc)) l (fun _ => 0).
(** Error allowed per call, for a map of height [T] whose values stay within [-K, K]: a few units of relative precision 6.25e-8 per level, and
    for prune the details it drops on purpose (at most 0.0024 per level, and 0.0011 for erased blocks) *)
Definition unit (K : R) : R := (K + 1) / 16000000.
Definition cost (T : Z) (K : R) (call : fcall) : R :=
  match call with
  | FAdd _ _ => (9 * IZR T + 2) * unit K
  | FThreshold => 50 * IZR T * unit K
  | FPrune => 50 * IZR T * unit K + (24 / 10000 * IZR T + 11 / 10000)
  | FClear => 0
  end.
Definition total_cost (T : Z) (K : R) (l : list (Z * fcall)) : R := fold_right (fun tc a => cost T K (snd tc) + a) 0 l.
Definition finite_updates (l : list (Z * fcall)) : Prop :=
  forall now i u, In (now, FAdd i u) l -> is_finite u = true.


(** The same for HashedBlocks, which clamps when adding; here the error of a cell only depends on the additions to that cell. *)
Definition ideal_blocks_step (C : hbconfig float32) (f : idx3 -> R) (call : hbcall float32) : idx3 -> R :=
  match call with
  | HBSet i v => fun c => if ieqb i c then B2R v else f c
  | HBAdd i u => fun c => if ieqb i c then limit (B2R (hlo C)) (B2R (hhi C)) (f c + B2R u) else f c
  | HBThreshold | HBPrune => f
  | HBClear => fun _ => B2R (hdef C)
  | HBErase b => fun c => if in_block C b c then B2R (hdef C) else f c
  end.
Definition ideal_blocks (C : hbconfig float32) (l : list (hbcall float32)) : idx3 -> R := fold_left (ideal_blocks_step C) l (fun _ => B2R (hdef C)).
Definition adds_to (c : idx3) (l : list (hbcall float32)) : nat :=
  List.length (filter (fun call => match call with HBAdd i _ => ieqb i c | _ => false end) l).
Definition small_values (K : R) (l : list (hbcall float32)) : Prop :=
  forall i v, In (HBSet i v) l \/ In (HBAdd i v) l -> is_finite v = true /\ Rabs (B2R v) <= K.

(** ** Proof *)
Lemma limit_clamp lo hi x : lo <= hi -> limit lo hi x = clampR lo hi x.
Proof. intros H. unfold limit, clampR, Rmax, Rmin. repeat destruct (Rle_dec _ _); repeat destruct (Rlt_dec _ _); lra. Qed.
Definition blk (T : Z) (c : idx3) : idx3 := imap (fun x => (x / 2 ^ T)%Z) c.
(** Every path in every block is the path of a cell. *)
Lemma path_cell T b q : (0 <= T)%Z -> valid_path q -> List.length q = Z.to_nat T -> exists c, blk T c = b /\ path (Z.to_nat T) c = q.
Proof.
  intros HT Vq Lq. destruct (path_surj _ q Vq Lq) as [p Hp]. pose proof (pow2_pos T HT) as P.
  exists (imap2 (fun b x => (b * 2 ^ T + x mod 2 ^ T)%Z) b p). split.
  - destruct b as [a b e]. unfold blk, imap, imap2. cbn [px py pz].
    assert (E : forall a x, ((a * 2 ^ T + x mod 2 ^ T) / 2 ^ T = a)%Z).
    { intros a' x. rewrite Z.div_add_l by lia. rewrite Z.div_small by (apply Z.mod_pos_bound; lia). lia. }
    rewrite !E. reflexivity.
  - rewrite <- Hp. rewrite <- (path_mod (Z.to_nat T) p T) by lia. rewrite <- (path_mod (Z.to_nat T) (imap2 _ b p) T) by lia. f_equal.
    destruct b as [a b e]. unfold imap, imap2. cbn [px py pz].
    assert (E : forall a x, ((a * 2 ^ T + x mod 2 ^ T) mod 2 ^ T = x mod 2 ^ T)%Z).
    { intros a' x. rewrite Z.add_comm, Z.mod_add by lia. apply Z.mod_mod. lia. }
    rewrite !E. reflexivity.
Qed.
Lemma path_same T i c : (0 <= T)%Z -> blk T i = blk T c -> path (Z.to_nat T) c = path (Z.to_nat T) i -> i = c.
Proof.
  intros HT Hb Hp. pose proof (pow2_pos T HT) as P.
  rewrite <- (path_mod (Z.to_nat T) c T), <- (path_mod (Z.to_nat T) i T) in Hp by lia.
  apply path_inj in Hp.
  - destruct i as [a b e], c as [a' b' e']. unfold blk, imap in *. cbn [px py pz] in *. injection Hp as P1 P2 P3. injection Hb as B1 B2 B3.
    assert (X : forall u v, (u / 2 ^ T = v / 2 ^ T -> v mod 2 ^ T = u mod 2 ^ T -> u = v)%Z).
    { intros u v Q1 Q2. rewrite (Z.div_mod u (2 ^ T)), (Z.div_mod v (2 ^ T)) by lia. congruence. }
    f_equal; apply X; assumption.
  - unfold in_box, imap. cbn [px py pz]. rewrite Z2Nat.id by lia. repeat split; apply Z.mod_pos_bound; lia.
  - unfold in_box, imap. cbn [px py pz]. rewrite Z2Nat.id by lia. repeat split; apply Z.mod_pos_bound; lia.
Qed.

Section Drift.
Context (C : wconfig (V := float32)) (K : R).
Notation T := (cT C).
Notation tn := (Z.to_nat (cT C)).
Notation hmap := (shash (wblock (V := float32))).
Notation lo := (B2R (clo C)).
Notation hi := (B2R (chi C)).
Context (HT : (1 <= T <= 21)%Z) (HK : 0 <= K <= 10000) (Flo : is_finite (clo C) = true) (Fhi : is_finite (chi C) = true)
  (Hlo : - K <= lo <= 0) (Hhi : 0 <= hi <= K).

Lemma tn_R : INR tn = IZR T.
Proof. rewrite INR_IZR_INZ, Z2Nat.id by lia. reflexivity. Qed.
Lemma T_R : 1 <= IZR T <= 21.
Proof. split; apply IZR_le; lia. Qed.
Definition tval (t : wtree (V := float32)) (c : idx3) : R := evalR (B2R (wscale t)) (wroot t) (path tn c).
Definition hfield (m : hmap) (c : idx3) : R := match getBlock m (blk T c) with None => 0 | Some b => tval (btree b) c end.
Definition tok (t : wtree (V := float32)) : Prop := okf tn (wroot t) /\ is_finite (wscale t) = true.
Definition inv (m : hmap) (f : idx3 -> R) (E : R) : Prop :=
  hwf m /\
  (forall b bl, getBlock m b = Some bl ->
     tok (btree bl) /\ (bthr bl = false -> forall c, blk T c = b -> lo <= f c <= hi) /\ (bprn bl = false -> bthr bl = false)) /\
  (forall c, Rabs (hfield m c - f c) <= E).

Lemma block_field m f E b bl : inv m f E -> (forall c, Rabs (f c) + E <= K) -> getBlock m b = Some bl ->
  fieldB K tn (B2R (wscale (btree bl))) (wroot (btree bl)).
Proof.
  intros (_ & _ & H) HB Eb q Vq Lq. destruct (path_cell T b q ltac:(lia) Vq Lq) as (c & Hc & <-).
  specialize (H c). unfold hfield in H. rewrite Hc, Eb in H. unfold tval in H. specialize (HB c).
  apply rabs_split in H. pose proof (Rle_abs (f c)). pose proof (Rle_abs (- f c)) as Q. rewrite Rabs_Ropp in Q. apply Rabs_le. lra.
Qed.
Lemma fieldB_weak B B' k v n : fieldB B k v n -> B <= B' -> fieldB B' k v n.
Proof. intros H L q Vq Lq. specialize (H q Vq Lq). lra. Qed.
Lemma blockIndex_blk i : indexToBlockIndex3 i T = blk T i.
Proof. unfold indexToBlockIndex3, blk, imap. rewrite !div_exp2_floor_spec by lia. reflexivity. Qed.
Lemma cellIndex_0 i : hw_cellIndex C (OI 0 i) = OI 0 (imap (fun c => (c mod 2 ^ T)%Z) i).
Proof. unfold hw_cellIndex, imap. cbn [oh opos]. rewrite Z.sub_0_r. rewrite !div_exp2_floor_remainder_spec by lia. reflexivity. Qed.

(** Reading *)
Lemma read_ap m f E c : inv m f E -> (forall c, Rabs (f c) + E <= K) ->
  ap (E + 12 * IZR T * unit K) (hw_get f32n C m c) (f c).
Proof.
  intros Hi HB. pose proof T_R as TR. pose proof (om_pos K HK) as Po. change (om K) with (unit K) in Po.
  assert (PT : 0 <= IZR T * unit K) by nra.
  pose proof (proj2 (proj2 Hi) c) as Hc. unfold hfield in Hc. unfold hw_get. rewrite blockIndex_blk.
  destruct (getBlock m (blk T c)) as [bl|] eqn:Eb.
  - destruct (proj1 (proj2 Hi) _ _ Eb) as ((Ok & Fs) & _). pose proof (block_field m f E _ bl Hi HB Eb) as Hf.
    unfold wb_get, wt_get. rewrite cellIndex_0. cbn [oh]. rewrite Z.sub_0_r.
    assert (A : ap (0 + 12 * INR tn * om K) (get_loop f32n tn T (omorton (OI 0 (imap (fun c => (c mod 2 ^ T)%Z) c))) (wscale (btree bl)) (wroot (btree bl)))
                 (evalR (B2R (wscale (btree bl))) (wroot (btree bl)) (path tn (imap (fun c => (c mod 2 ^ T)%Z) c)))).
    { apply get_loop_ap; try lia; [exact HK|left; exact Ok|apply (fieldB_weak K); [exact Hf|lra]|apply ap_exact; exact Fs|].
      rewrite tn_R. unfold om. nra. }
    rewrite path_mod in A by lia. destruct A as [F A]. split; [exact F|]. rewrite tn_R in A. change (om K) with (unit K) in A.
    unfold tval in Hc. apply rabs_split in A, Hc. apply Rabs_le. lra.
  - split; [reflexivity|]. cbn [n0 f32n B2R]. apply rabs_split in Hc. apply Rabs_le. lra.
Qed.

(** Adding *)
Lemma tok_new now : tok (btree (wb_new f32n now)).
Proof. split; [apply okf_new; lia|reflexivity]. Qed.
Lemma block_or_new m f E now i : inv m f E -> (forall c, Rabs (f c) + E <= K) ->
  tok (btree (blockOrNew (wb_new f32n now) m (blk T i))) /\
  fieldB K tn (B2R (wscale (btree (blockOrNew (wb_new f32n now) m (blk T i))))) (wroot (btree (blockOrNew (wb_new f32n now) m (blk T i)))) /\
  forall c, blk T c = blk T i -> tval (btree (blockOrNew (wb_new f32n now) m (blk T i))) c = hfield m c.
Proof.
  intros Hi HB. unfold blockOrNew, hfield. destruct (getBlock m (blk T i)) as [bl|] eqn:Eb.
  - split; [apply (proj1 (proj2 Hi) _ _ Eb)|]. split; [apply (block_field m f E _ bl Hi HB Eb)|]. intros c ->. rewrite Eb. reflexivity.
  - split; [apply tok_new|]. cbn [wb_new btree wt_new wscale wroot]. split.
    + intros q _ _. rewrite evalR_new. cbn [n0 f32n B2R]. rewrite Rabs_R0. lra.
    + intros c ->. rewrite Eb. unfold tval. cbn [wscale wroot]. rewrite evalR_new. reflexivity.
Qed.
Lemma tree_add t i u : tok t -> fieldB K tn (B2R (wscale t)) (wroot t) -> is_finite u = true -> Rabs (B2R u) <= 2 * K ->
  tok (wt_add f32n T t (hw_cellIndex C (OI 0 i)) u) /\
  forall c, blk T c = blk T i -> Rabs (tval (wt_add f32n T t (hw_cellIndex C (OI 0 i)) u) c - (tval t c + (if ieqb i c then B2R u else 0))) <= (9 * IZR T + 2) * unit K.
Proof.
  intros (Ok & Fs) Hf Fu Bu. pose proof (om_pos K HK) as Po. pose proof tiny32_small as Ti. pose proof T_R as TR.
  unfold wt_add, wt_update. rewrite cellIndex_0. cbn [oh]. rewrite Z.sub_0_r. destruct tn as [|k] eqn:Ek; [lia|].
  rewrite update_loop_fpath by lia. set (p := imap (fun c => (c mod 2 ^ T)%Z) i).
  pose proof (path_length k p) as Lk.
  assert (Hf1 : fieldB (K + 1) (S (List.length (path k p))) (B2R (wscale t)) (wroot t)) by (rewrite Lk; apply (fieldB_weak K); [exact Hf|lra]).
  assert (Ok1 : okf (S (List.length (path k p))) (wroot t)) by (rewrite Lk; exact Ok).
  destruct (fupd_spec K HK (path k p) (cidx p (Z.of_nat k)) u (B2R (wscale t)) (wroot t) (cidx_range _ _) (path_valid _ _) Ok1 Fu ltac:(lra) Hf1)
    as (F & _ & Bs & Ok' & Hr).
  destruct (fupd_path (path k p) (cidx p (Z.of_nat k)) u (wroot t)) as [n' s]. cbn [fst snd] in *. rewrite Lk in *.
  assert (Bsc : Rabs (B2R (wscale t)) <= K) by exact (field_scale _ _ _ _ Hf).
  assert (A : ap (0 + 0 + 2 * om K) (fadd (wscale t) s) (B2R (wscale t) + B2R s)).
  { apply ap_add; [exact HK|apply ap_exact; exact Fs|apply ap_exact; exact F| |lra|lra].
    apply rabs_split in Bsc, Bs. apply Rabs_le. pose proof (Rabs_pos (B2R u)). lra. }
  destruct A as [Fa A]. split.
  - split; cbn [wroot wscale]; [rewrite Ek; exact Ok'|exact Fa].
  - intros c Hc. unfold tval. cbn [wroot wscale]. rewrite Ek.
    specialize (Hr (path (S k) c) (path_valid _ _) (path_length _ _)).
    assert (X : (if list_eq_dec Z.eq_dec (path (S k) c) (cidx p (Z.of_nat k) :: path k p) then B2R u else 0) = if ieqb i c then B2R u else 0).
    { change (cidx p (Z.of_nat k) :: path k p) with (path (S k) p). subst p. rewrite (path_mod (S k) i T) by lia. rewrite <- Ek.
      destruct (list_eq_dec Z.eq_dec (path tn c) (path tn i)) as [G|G]; destruct (ieqb_spec i c) as [G'|G']; try reflexivity.
      - exfalso. apply G'. apply (path_same T); [lia|congruence|exact G].
      - exfalso. apply G. congruence. }
    rewrite X in Hr. rewrite (evalR_diff (path (S k) c) (B2R (wscale t) + B2R s)).
    assert (Ek2 : INR (S k) = IZR T) by (rewrite <- Ek; exact tn_R). rewrite Ek2 in Hr. cbn [nadd f32n]. change (om K) with (unit K) in *.
    apply rabs_split in Hr, A. apply Rabs_le. lra.
Qed.
Lemma inv_add m f E now i u : inv m f E -> (forall c, Rabs (f c) + E <= K) -> is_finite u = true -> Rabs (f i + B2R u) <= K ->
  inv (hw_add f32n C now m i u) (ideal_step lo hi f (FAdd i u)) (E + cost T K (FAdd i u)).
Proof.
  intros Hi HB Fu Ba. pose proof (om_pos K HK) as Po. change (om K) with (unit K) in Po. pose proof T_R as TR.
  destruct (block_or_new m f E now i Hi HB) as (Tk & Hf & Hv).
  assert (E0 : 0 <= E) by (pose proof (proj2 (proj2 Hi) i) as X; pose proof (Rabs_pos (hfield m i - f i)); lra).
  assert (Bu : Rabs (B2R u) <= 2 * K).
  { specialize (HB i). apply rabs_split in Ba. assert (Bf : Rabs (f i) <= K) by lra. apply rabs_split in Bf. apply Rabs_le. lra. }
  destruct (tree_add _ i u Tk Hf Fu Bu) as (Tk' & Hadd).
  unfold hw_add. rewrite blockIndex_blk. unfold wb_add. set (t' := wt_add _ _ _ _ _) in *.
  assert (PC : 0 <= cost T K (FAdd i u)) by (cbn [cost]; nra).
  split; [apply setBlock_wf; apply Hi|]. split.
  - intros b bl Eb. rewrite getBlock_setBlock in Eb. destruct (ieqb_spec (blk T i) b) as [Hib|Hib].
    + injection Eb as <-. cbn [btree bthr bprn]. split; [exact Tk'|]. split; discriminate.
    + destruct (proj1 (proj2 Hi) _ _ Eb) as (Q1 & Q2 & Q3). split; [exact Q1|]. split; [|exact Q3].
      intros Hth c Hc. cbn [ideal_step]. destruct (ieqb_spec i c) as [G|G]; [congruence|]. exact (Q2 Hth c Hc).
  - intros c. unfold hfield. rewrite getBlock_setBlock. cbn [ideal_step]. pose proof (proj2 (proj2 Hi) c) as Q.
    destruct (ieqb_spec (blk T i) (blk T c)) as [Hib|Hib].
    + cbn [btree]. specialize (Hadd c ltac:(congruence)). rewrite Hv in Hadd by congruence. cbn [cost].
      apply rabs_split in Hadd, Q. apply Rabs_le. destruct (ieqb i c); lra.
    + destruct (ieqb_spec i c) as [G|G]; [congruence|]. unfold hfield in Q. lra.
Qed.

(** Thresholding *)
Lemma block_threshold m f E b bl : inv m f E -> (forall c, Rabs (f c) + E <= K) -> getBlock m b = Some bl ->
  tok (btree (wb_threshold f32n C bl)) /\ bthr (wb_threshold f32n C bl) = false /\ bprn (wb_threshold f32n C bl) = bprn bl /\
  forall c, blk T c = b -> Rabs (tval (btree (wb_threshold f32n C bl)) c - clampR lo hi (f c)) <= E + 50 * IZR T * unit K.
Proof.
  intros Hi HB Eb. pose proof (om_pos K HK) as Po. change (om K) with (unit K) in Po. pose proof T_R as TR.
  assert (PT : 0 <= IZR T * unit K) by nra.
  destruct (proj1 (proj2 Hi) _ _ Eb) as ((Ok & Fs) & Hth & _). unfold wb_threshold.
  assert (HE : forall c, blk T c = b -> Rabs (tval (btree bl) c - f c) <= E).
  { intros c Hc. pose proof (proj2 (proj2 Hi) c) as Q. unfold hfield in Q. rewrite Hc, Eb in Q. exact Q. }
  destruct (bthr bl) eqn:Et.
  - destruct (thr_ap K HK (clo C) (chi C) Flo Fhi ltac:(lra) ltac:(lra) ltac:(lra) tn (wroot (btree bl)) (wscale (btree bl)) K Ok Fs ltac:(lia)) as (F & Ok' & Hq).
    + rewrite tn_R. pose proof (om_small K HK). nra.
    + apply (block_field m f E _ bl Hi HB Eb).
    + destruct (threshold_rec f32n (clo C) (chi C) (wroot (btree bl)) (wscale (btree bl))) as [n s]. cbn [fst snd btree bthr bprn] in *.
      split; [split; assumption|]. split; [reflexivity|]. split; [reflexivity|]. intros c Hc.
      specialize (Hq (path tn c) (path_valid _ _) (path_length _ _)). specialize (HE c Hc). unfold tval in *. cbn [wroot wscale].
      apply (clampR_lip lo hi _ _ _ ltac:(lra)) in HE. rewrite tn_R in Hq. change (om K) with (unit K) in Hq. apply rabs_split in HE, Hq. apply Rabs_le. lra.
  - split; [split; assumption|]. split; [exact Et|]. split; [reflexivity|]. intros c Hc. rewrite clampR_id by exact (Hth eq_refl c Hc). specialize (HE c Hc). lra.
Qed.
Lemma inv_threshold m f E : inv m f E -> (forall c, Rabs (f c) + E <= K) ->
  inv (hw_threshold f32n C m) (ideal_step lo hi f FThreshold) (E + cost T K FThreshold).
Proof.
  intros Hi HB. pose proof (om_pos K HK) as Po. change (om K) with (unit K) in Po. pose proof T_R as TR.
  assert (PT : 0 <= IZR T * unit K) by nra.
  split; [apply forEachBlock_wf; apply Hi|]. split.
  - intros b bl Eb. unfold hw_threshold in Eb. rewrite getBlock_forEachBlock in Eb. destruct (getBlock m b) as [bl0|] eqn:E0; [|discriminate Eb].
    injection Eb as <-. destruct (block_threshold m f E b bl0 Hi HB E0) as (Q1 & Q2 & _). split; [exact Q1|]. split; [|intros _; exact Q2].
    intros _ c Hc. cbn [ideal_step]. rewrite limit_clamp by lra. apply clampR_range. lra.
  - intros c. unfold hfield, hw_threshold. rewrite getBlock_forEachBlock. cbn [ideal_step cost]. rewrite limit_clamp by lra.
    destruct (getBlock m (blk T c)) as [bl|] eqn:Eb; cbn [option_map].
    + apply (block_threshold m f E _ bl Hi HB Eb). reflexivity.
    + pose proof (proj2 (proj2 Hi) c) as Q. unfold hfield in Q. rewrite Eb in Q. apply (clampR_lip lo hi _ _ _ ltac:(lra)) in Q.
      rewrite (clampR_id lo hi 0) in Q by lra. lra.
Qed.

(** Pruning *)
Lemma empty_small t c : tok t -> wt_empty f32n t = true -> Rabs (tval t c) <= 11 / 10000.
Proof.
  intros (Ok & Fs) He. unfold wt_empty in He. apply andb_true_iff in He as [He Hs]. apply andb_true_iff in He as [Hk Hd].
  apply negb_true_iff in Hk, Hd. unfold isUnobserved in Hs. cbn [nltb nabs neps f32n] in Hs. destruct f32eps_R as [Ve Fe].
  rewrite Bltb_R in Hs; [|rewrite is_finite_Babs; exact Fs|exact Fe]. rewrite B2R_Babs, Ve in Hs.
  destruct (Rlt_dec _ _) as [Hs'|]; [|discriminate Hs]. unfold tval. destruct tn as [|k] eqn:Ek; [lia|]. destruct Ok as [Fd _].
  cbn [path evalR]. assert (G : getChild (wroot t) (cidx c (Z.of_nat k)) = None).
  { unfold getChild. unfold hasChildrenArray in Hk. destruct (nkids (wroot t)); [discriminate Hk|reflexivity]. }
  rewrite G. assert (Z : forall x, In x (dlist (ndata (wroot t))) -> B2R x = 0).
  { intros x Hx. assert (Fx : is_finite x = true) by (unfold dfin in Fd; rewrite Forall_forall in Fd; auto).
    assert (L : neqb f32n x (n0 f32n) = true).
    { destruct (neqb f32n x (n0 f32n)) eqn:Eq; [reflexivity|]. rewrite <- Hd. apply existsb_exists. exists x. rewrite Eq. auto. }
    cbn [neqb n0 f32n] in L. rewrite (Beqb_correct fprec femax x (B754_zero false) Fx eq_refl) in L. cbn [B2R] in L.
    unfold Req_bool in L. destruct (Rcompare_spec (B2R x) 0); try discriminate L. assumption. }
  assert (V : cvR (B2R (wscale t)) (ndata (wroot t)) (cidx c (Z.of_nat k)) = B2R (wscale t)).
  { destruct (ndata (wroot t)) as [d1 d2 d3 d4 d5 d6 d7]. cbn [dlist In] in Z. unfold cvR, sgnR.
    rewrite (Z d1), (Z d2), (Z d3), (Z d4), (Z d5), (Z d6), (Z d7) by auto 9.
    repeat match goal with |- context [if ?b then _ else _] => destruct b end; lra. }
  rewrite V. lra.
Qed.
Lemma inv_prune m f E : inv m f E -> (forall c, Rabs (f c) + E <= K) ->
  inv (hw_prune f32n C m) (ideal_step lo hi f FPrune) (E + cost T K FPrune).
Proof.
  intros Hi HB. pose proof (om_pos K HK) as Po. change (om K) with (unit K) in Po. pose proof T_R as TR.
  assert (PT : 0 <= IZR T * unit K) by nra.
  assert (Q : forall b bl, getBlock m b = Some bl -> tok (btree (wb_prune f32n C bl)) /\ bthr (wb_prune f32n C bl) = false /\
     forall c, blk T c = b -> Rabs (tval (btree (wb_prune f32n C bl)) c - clampR lo hi (f c)) <= E + 50 * IZR T * unit K + 24 / 10000 * IZR T).
  { intros b bl Eb. destruct (block_threshold m f E b bl Hi HB Eb) as ((Ok & Fs) & Q2 & _ & Q4). destruct (proj1 (proj2 Hi) _ _ Eb) as (Tk & Hth & Hpt).
    unfold wb_prune. destruct (bprn bl) eqn:Ep; cbv zeta; cbn [btree bthr].
    - split; [split; cbn [wroot wscale]; [apply fprune_ok; exact Ok|exact Fs]|]. split; [exact Q2|]. intros c Hc. specialize (Q4 c Hc). unfold tval in *. cbn [wroot wscale].
      pose proof (fprune_eval tn _ (B2R (wscale (btree (wb_threshold f32n C bl)))) (path tn c) Ok (path_valid _ _) (path_length _ _)) as P.
      rewrite tn_R in P. apply rabs_split in P, Q4. apply Rabs_le. lra.
    - specialize (Hpt eq_refl). split; [exact Tk|]. split; [exact Hpt|]. intros c Hc. rewrite clampR_id by exact (Hth Hpt c Hc).
      pose proof (proj2 (proj2 Hi) c) as P. unfold hfield in P. rewrite Hc, Eb in P. lra. }
  unfold hw_prune. split; [apply eraseBlockIf_wf; apply Hi|]. split.
  - intros b bl Eb. rewrite getBlock_eraseBlockIf in Eb by apply Hi. destruct (getBlock m b) as [bl0|] eqn:E0; [|discriminate Eb].
    cbn [fst snd] in Eb. destruct (wb_empty f32n (wb_prune f32n C bl0)); [discriminate Eb|]. injection Eb as <-.
    destruct (Q b bl0 E0) as (Q1 & Q2 & _). split; [exact Q1|]. split; [|intros _; exact Q2].
    intros _ c Hc. cbn [ideal_step]. rewrite limit_clamp by lra. apply clampR_range. lra.
  - intros c. unfold hfield. rewrite getBlock_eraseBlockIf by apply Hi. cbn [ideal_step cost]. rewrite limit_clamp by lra.
    destruct (getBlock m (blk T c)) as [bl|] eqn:Eb; cbn [fst snd].
    + destruct (Q _ bl Eb) as (Q1 & _ & Q3). specialize (Q3 c eq_refl). destruct (wb_empty f32n (wb_prune f32n C bl)) eqn:Ee.
      * pose proof (empty_small _ c Q1 Ee) as S. apply rabs_split in S, Q3. apply Rabs_le. lra.
      * apply rabs_split in Q3. apply Rabs_le. lra.
    + pose proof (proj2 (proj2 Hi) c) as P. unfold hfield in P. rewrite Eb in P. apply (clampR_lip lo hi _ _ _ ltac:(lra)) in P.
      rewrite (clampR_id lo hi 0) in P by lra. lra.
Qed.

(** Histories *)
Lemma cost_pos call : 0 <= cost T K call.
Proof.
  pose proof (om_pos K HK) as Po. change (om K) with (unit K) in Po. pose proof T_R as TR. assert (0 <= IZR T * unit K) by nra.
  destruct call; cbn [cost]; lra.
Qed.
Lemma total_pos l : 0 <= total_cost T K l.
Proof. induction l as [|tc l IH]; cbn [total_cost fold_right]; [lra|]. pose proof (cost_pos (snd tc)). unfold total_cost in IH. lra. Qed.
Lemma total_snoc l tc : total_cost T K (l ++ [tc]) = total_cost T K l + cost T K (snd tc).
Proof. induction l as [|x l IH]; cbn [total_cost fold_right app] in *; [lra|]. unfold total_cost in IH. lra. Qed.
Lemma run_inv l : finite_updates l ->
  (forall l1 l2 c, l = l1 ++ l2 -> Rabs (ideal lo hi l1 c) + total_cost T K l <= K) ->
  inv (fhw_run C l) (ideal lo hi l) (total_cost T K l).
Proof.
  induction l as [|[now call] l IH] using rev_ind; intros Fu HB.
  - split; [constructor|]. split; [intros b bl H; discriminate H|]. intros c. unfold hfield. cbn. rewrite Rminus_diag_eq by reflexivity. rewrite Rabs_R0. lra.
  - assert (I0 : inv (fhw_run C l) (ideal lo hi l) (total_cost T K l)).
    { apply IH.
      - intros n i u H. apply (Fu n i u). apply in_or_app. left. exact H.
      - intros l1 l2 c ->. specialize (HB l1 (l2 ++ [(now, call)]) c). rewrite <- app_assoc in HB. specialize (HB eq_refl).
        rewrite app_assoc, total_snoc in HB. pose proof (cost_pos (snd (now, call))). lra. }
    assert (B0 : forall c, Rabs (ideal lo hi l c) + total_cost T K l <= K).
    { intros c. specialize (HB l [(now, call)] c eq_refl). rewrite total_snoc in HB. pose proof (cost_pos (snd (now, call))). lra. }
    rewrite total_snoc. unfold fhw_run, ideal in *. rewrite !fold_left_app. cbn [fold_left fhw_apply snd].
    destruct call as [i u| | |].
    + apply inv_add; [exact I0|exact B0|apply (Fu now i u); apply in_or_app; right; left; reflexivity|].
      specialize (HB (l ++ [(now, FAdd i u)]) [] i). rewrite app_nil_r in HB. specialize (HB eq_refl). rewrite fold_left_app in HB. cbn [fold_left snd ideal_step] in HB.
      rewrite ieqb_refl in HB. pose proof (total_pos (l ++ [(now, FAdd i u)])). lra.
    + apply inv_threshold; assumption.
    + apply inv_prune; assumption.
    + cbn [ideal_step cost]. split; [constructor|]. split; [intros b bl H; discriminate H|]. intros c. unfold hfield, hw_clear. cbn [getBlock].
      rewrite Rminus_diag_eq by reflexivity. rewrite Rabs_R0. pose proof (total_pos l). lra.
Qed.
End Drift.

(** ** Theorem *)
Theorem C76_drift C K l c : (1 <= cT C <= 21)%Z -> 0 <= K <= 10000 ->
  is_finite (clo C) = true -> is_finite (chi C) = true -> - K <= B2R (clo C) <= 0 -> 0 <= B2R (chi C) <= K ->
  finite_updates l ->
  (forall l1 l2 c, l = l1 ++ l2 -> Rabs (ideal (B2R (clo C)) (B2R (chi C)) l1 c) + total_cost (cT C) K l <= K) ->
  is_finite (hw_get f32n C (fhw_run C l) c) = true /\
  Rabs (B2R (hw_get f32n C (fhw_run C l) c) - ideal (B2R (clo C)) (B2R (chi C)) l c) <= total_cost (cT C) K l + 12 * IZR (cT C) * unit K.
Proof.
  intros HT HK Fl Fh Hl Hh Fu HB. assert (I : inv C (fhw_run C l) (ideal (B2R (clo C)) (B2R (chi C)) l) (total_cost (cT C) K l)) by (apply run_inv; assumption).
  eapply read_ap; try eassumption. intros c'. apply (HB l []). symmetry. apply app_nil_r.
Qed.

Theorem C76_blocks (C : hbconfig float32) K l c : (0 <= hK C)%Z -> 0 <= K <= 10000 ->
  is_finite (hlo C) = true -> is_finite (hhi C) = true -> is_finite (hdef C) = true ->
  - K <= B2R (hlo C) -> B2R (hlo C) <= B2R (hhi C) -> B2R (hhi C) <= K -> Rabs (B2R (hdef C)) <= K -> small_values K l ->
  is_finite (hb_get C (hb_run f32n C l) c) = true /\
  Rabs (B2R (hb_get C (hb_run f32n C l) c) - ideal_blocks C l c) <= INR (adds_to c l) * (2 * unit K).
Proof.
  intros HhK HK Fl Fh Fd Bl Hlh Bh Bd HB. pose proof (om_pos K HK) as Po.
  assert (I : is_finite (hb_get C (hb_run f32n C l) c) = true /\ Rabs (B2R (hb_get C (hb_run f32n C l) c)) <= K /\
    Rabs (B2R (hb_get C (hb_run f32n C l) c) - ideal_blocks C l c) <= INR (adds_to c l) * (2 * unit K)); [|tauto].
  induction l as [|call l IH] using rev_ind.
  - unfold hb_run, ideal_blocks, adds_to. cbn [fold_left filter List.length INR]. change (hb_get C [] c) with (hdef C).
    rewrite Rminus_diag_eq by reflexivity. rewrite Rabs_R0. repeat split; [exact Fd|exact Bd|lra].
  - destruct IH as (F & B & E). { intros i v H. apply (HB i v). rewrite !in_app_iff. tauto. }
    pose proof (run_bwf f32n C l) as W. unfold hb_run, ideal_blocks in *. rewrite !fold_left_app. cbn [fold_left].
    set (m := fold_left (hb_apply f32n C) l []) in *. set (f := fold_left (ideal_blocks_step C) l (fun _ => B2R (hdef C))) in *.
    assert (A : adds_to c (l ++ [call]) = (adds_to c l + match call with HBAdd i _ => if ieqb i c then 1 else 0 | _ => 0 end)%nat).
    { unfold adds_to. rewrite filter_app, app_length. cbn [filter]. destruct call; try reflexivity. destruct (ieqb i c); reflexivity. }
    rewrite A, plus_INR. set (n := adds_to c l) in *. clearbody n. pose proof (pos_INR n) as Pn. change (om K) with (unit K) in Po.
    assert (PN : 0 <= INR n * (2 * unit K)) by nra.
    assert (D0 : is_finite (hdef C) = true /\ Rabs (B2R (hdef C)) <= K /\ Rabs (B2R (hdef C) - B2R (hdef C)) <= (INR n + 0) * (2 * unit K)).
    { rewrite Rminus_diag_eq by reflexivity. rewrite Rabs_R0. repeat split; [exact Fd|exact Bd|lra]. }
    destruct call as [i v|i u| | | |b]; cbn [hb_apply ideal_blocks_step INR].
    + unfold hb_set. rewrite get_modify by assumption. destruct (HB i v ltac:(left; apply in_or_app; right; left; reflexivity)) as [Fv Bv].
      destruct (idx3_eq_dec i c) as [->|Ne].
      * rewrite ieqb_refl. rewrite Rminus_diag_eq by reflexivity. rewrite Rabs_R0. repeat split; [exact Fv|exact Bv|lra].
      * destruct (ieqb_spec i c) as [|_]; [contradiction|]. repeat split; [exact F|exact B|lra].
    + unfold hb_add. rewrite get_modify by assumption. destruct (HB i u ltac:(right; apply in_or_app; right; left; reflexivity)) as [Fu Bu].
      destruct (idx3_eq_dec i c) as [->|Ne].
      * rewrite ieqb_refl. rewrite limit_clamp by exact Hlh. cbv beta. change (nadd f32n (hb_get C m c) u) with (fadd (hb_get C m c) u).
        destruct (ap_add K HK 2 0 0 _ _ u _ (ap_exact _ F) (ap_exact _ Fu)) as [Fa Ha]; [apply rabs_split in B, Bu; apply Rabs_le; lra|lra|lra|].
        destruct (nclamp_R (hlo C) (hhi C) _ Fl Fh Fa) as [Fc Vc]. split; [exact Fc|]. rewrite Vc.
        split; [pose proof (clampR_range (B2R (hlo C)) (B2R (hhi C)) (B2R (fadd (hb_get C m c) u)) Hlh); apply Rabs_le; lra|].
        apply clampR_lip; [exact Hlh|]. change (om K) with (unit K) in Ha. cbn [INR]. apply rabs_split in Ha, E. apply Rabs_le. lra.
      * destruct (ieqb_spec i c) as [|_]; [contradiction|]. cbn [INR]. repeat split; [exact F|exact B|lra].
    + repeat split; [exact F|exact B|unfold hb_threshold; lra].
    + (* prune erases blocks whose cells all equal the default value *)
      assert (X : hb_get C (hb_prune f32n C m) c = hb_get C m c \/ hb_get C (hb_prune f32n C m) c = hdef C /\ B2R (hb_get C m c) = B2R (hdef C)).
      { destruct W as [W1 W2]. revert F. unfold hb_get, hb_getValue, hb_prune. rewrite getBlock_eraseBlockIf by exact W1.
        destruct (getBlock m (hb_blockIndex C c)) as [b|]; [|auto]. intros F. cbn [fst snd]. destruct (forallb _ b) eqn:Eb; [|auto]. right. split; [reflexivity|].
        unfold hb_at in *. destruct (nth_in_or_default (hb_lin C (hb_cellIndex C c)) b (hdef C)) as [H|H]; [|rewrite H; reflexivity].
        rewrite forallb_forall in Eb. specialize (Eb _ H). cbn [neqb f32n] in Eb. rewrite (Beqb_correct fprec femax _ _ F Fd) in Eb.
        unfold Req_bool in Eb. destruct (Rcompare_spec (B2R (nth (hb_lin C (hb_cellIndex C c)) b (hdef C))) (B2R (hdef C))); try discriminate Eb. assumption. }
      destruct X as [->|[-> X]]; [repeat split; [exact F|exact B|lra]|]. rewrite X in E. repeat split; [exact Fd|exact Bd|lra].
    + change (hb_get C (hb_clear m) c) with (hdef C). exact D0.
    + unfold hb_get, hb_getValue. rewrite getBlock_eraseBlock. destruct (in_block C b c) eqn:Eb.
      * apply (in_block_iff C HhK) in Eb. rewrite Eb, ieqb_refl. exact D0.
      * destruct (ieqb_spec b (hb_blockIndex C c)) as [G|G].
        { exfalso. symmetry in G. apply (in_block_iff C HhK) in G. congruence. }
        unfold hb_get, hb_getValue in F, B, E. repeat split; [exact F|exact B|lra].
Qed.

(** Small updates can be absorbed entirely: a cell at 1.0 to which 2^-26 is added 3 * 2^26 times still reads 1.0, although the updates sum to 4. *)
Definition u26 : float32 := @B754_finite fprec femax false 8388608 (-49) (eq_refl true).
Definition absorbC : hbconfig float32 := HBC (f_of_int (-2)) (f_of_int 4) (B754_zero false) 4.
Definition absorbL (n : nat) : list (hbcall float32) := HBAdd (I3 1 2 3) fone :: repeat (HBAdd (I3 1 2 3) u26) n.
Lemma repeat_snoc {A} (x : A) n : repeat x (S n) = repeat x n ++ [x].
Proof. induction n as [|n IH]; [reflexivity|]. cbn [repeat app] in *. rewrite <- IH. reflexivity. Qed.
Lemma absorb_stored n : hb_get absorbC (hb_run f32n absorbC (absorbL n)) (I3 1 2 3) = fone.
Proof.
  induction n as [|n IH].
  - unfold absorbL, hb_run. cbn [repeat fold_left hb_apply]. unfold hb_add. rewrite get_modify; [|cbn; lia|split; [constructor|intros ? ? []]].
    destruct (idx3_eq_dec _ _) as [_|G]; [|contradiction G; reflexivity]. apply B2SF_inj. vm_compute. reflexivity.
  - pose proof (run_bwf f32n absorbC (absorbL n)) as W. unfold absorbL, hb_run in *. rewrite repeat_snoc, app_comm_cons, fold_left_app. cbn [fold_left] in W, IH |- *.
    set (m := fold_left _ _ _) in *. cbn [hb_apply]. unfold hb_add. rewrite get_modify; [|cbn; lia|exact W]. rewrite IH.
    destruct (idx3_eq_dec _ _) as [_|G]; [|contradiction G; reflexivity]. apply B2SF_inj. vm_compute. reflexivity.
Qed.
Lemma u26_R : B2R u26 = / 67108864.
Proof. unfold u26, B2R, F2R. cbn -[IZR]. lra. Qed.
Lemma int_R i : (Z.abs i <= 100)%Z -> B2R (f_of_int i) = IZR i /\ is_finite (f_of_int i) = true.
Proof. intros H. destruct (f_of_int_ok i ltac:(lia)) as (F & V & _). auto. Qed.
Lemma absorb_ideal n : ideal_blocks absorbC (absorbL n) (I3 1 2 3) = Rmin 4 (1 + INR n / 67108864).
Proof.
  assert (L : B2R (hlo absorbC) = -2) by (apply (int_R (-2)); lia). assert (H : B2R (hhi absorbC) = 4) by (apply (int_R 4); lia).
  destruct fone_R as (V1 & _). induction n as [|n IH].
  - unfold ideal_blocks, absorbL. cbn [repeat fold_left ideal_blocks_step]. rewrite ieqb_refl, L, H, V1. cbn [hdef absorbC B2R INR]. unfold limit, Rmax, Rmin.
    repeat destruct (Rle_dec _ _); lra.
  - unfold ideal_blocks, absorbL in *. rewrite repeat_snoc, app_comm_cons, fold_left_app. cbn [fold_left] in IH |- *. cbn [ideal_blocks_step] in IH |- *. rewrite ieqb_refl. cbn beta in IH |- *.
    rewrite IH, L, H, u26_R, S_INR. pose proof (pos_INR n). unfold limit, Rmax, Rmin. repeat destruct (Rle_dec _ _); lra.
Qed.
Lemma absorb_values K n : 1 <= K -> small_values K (absorbL n).
Proof.
  intros HK i v Hv. assert (v = fone \/ v = u26) as [-> | ->].
  { unfold absorbL in Hv. cbn [In] in Hv. destruct Hv as [[Hv|Hv]|[Hv|Hv]]; try (injection Hv as _ <-; auto); try discriminate Hv;
      apply repeat_spec in Hv; [discriminate Hv|injection Hv as _ <-; auto]. }
  - destruct fone_R as (V & F & _). rewrite V. split; [exact F|]. rewrite Rabs_R1. lra.
  - rewrite u26_R. split; [reflexivity|]. apply Rabs_le. lra.
Qed.
Theorem C76_absorbed_refuted : exists (C : hbconfig float32) l c, small_values 1 l /\
  B2R (hb_get C (hb_run f32n C l) c) = 1 /\ ideal_blocks C l c = 4.
Proof.
  exists absorbC, (absorbL (Z.to_nat 201326592)), (I3 1 2 3). split; [|split].
  - apply absorb_values. lra.
  - rewrite absorb_stored. apply fone_R.
  - rewrite absorb_ideal. rewrite INR_IZR_INZ, Z2Nat.id by lia. apply Rmin_left. lra.
Qed.

(** ** The theorems are not vacuous. *)
Definition exFC : wconfig (V := float32) := WC 8 (f_of_int (-2)) (f_of_int 4).
Definition exU2 : float32 := f_of_int 2.
Definition exFL : list (Z * fcall) :=
  [(0%Z, FAdd (I3 5 (-3) 300) fone); (1%Z, FThreshold); (2%Z, FPrune); (3%Z, FAdd (I3 5 (-3) 300) exU2)].
Example C76_drift_example :
  Rabs (B2R (hw_get f32n exFC (fhw_run exFC exFL) (I3 5 (-3) 300)) - 3) <= 3 / 100 /\
  Rabs (B2R (hw_get f32n exFC (fhw_run exFC exFL) (I3 5 (-3) 299))) <= 3 / 100.
Proof.
  assert (L : B2R (clo exFC) = -2) by (apply (int_R (-2)); lia). assert (H : B2R (chi exFC) = 4) by (apply (int_R 4); lia).
  destruct fone_R as (V1 & F1 & _). destruct (int_R 2 ltac:(lia)) as [V2 F2]. fold exU2 in V2, F2.
  assert (Tc : total_cost (cT exFC) 6 exFL <= 21 / 1000) by (unfold exFL, total_cost; cbn [fold_right cost snd cT exFC]; unfold unit; lra).
  assert (ID : forall l1 l2 c, exFL = l1 ++ l2 -> -2 <= ideal (-2) 4 l1 c <= 4).
  { intros l1 l2 c E. unfold exFL in E.
    destruct l1 as [|a l1]; [cbn; lra|]. injection E as <- E. destruct l1 as [|b l1].
    { unfold ideal. cbn [fold_left snd ideal_step]. rewrite V1. destruct (ieqb _ _); lra. }
    injection E as <- E. destruct l1 as [|d l1].
    { unfold ideal. cbn [fold_left snd ideal_step]. rewrite limit_clamp by lra. apply clampR_range. lra. }
    injection E as <- E. destruct l1 as [|e l1].
    { unfold ideal. cbn [fold_left snd ideal_step]. rewrite limit_clamp by lra. apply clampR_range. lra. }
    injection E as <- E. destruct l1; [|discriminate E].
    unfold ideal. cbn [fold_left snd ideal_step]. rewrite V1, V2. unfold limit, Rmax, Rmin. destruct (ieqb _ _); repeat destruct (Rle_dec _ _); lra. }
  assert (G : forall c, Rabs (B2R (hw_get f32n exFC (fhw_run exFC exFL) c) - ideal (-2) 4 exFL c) <= 3 / 100).
  { intros c. pose proof (C76_drift exFC 6 exFL c) as D.
    match type of D with context [Rabs (_ - ideal ?a ?b exFL c)] => replace a with (-2) in D by (symmetry; exact L); replace b with 4 in D by (symmetry; exact H) end. destruct D as [_ D].
    - cbn; lia.
    - lra.
    - apply (int_R (-2)). lia.
    - apply (int_R 4). lia.
    - lra.
    - lra.
    - intros now i u I. unfold exFL in I. cbn [In] in I. destruct I as [I|[I|[I|[I|[]]]]]; try discriminate I; injection I as _ _ <-; assumption.
    - intros l1 l2 c' E. specialize (ID l1 l2 c' E). assert (Rabs (ideal (-2) 4 l1 c') <= 4) by (apply Rabs_le; lra).
      eapply Rle_trans; [apply Rplus_le_compat; [eassumption|exact Tc]|lra].
    - unfold unit in D. cbn [cT exFC] in D, Tc. lra. }
  split.
  - specialize (G (I3 5 (-3) 300)). replace (ideal (-2) 4 exFL (I3 5 (-3) 300)) with 3 in G; [exact G|].
    unfold ideal, exFL. cbn [fold_left snd ideal_step]. rewrite ieqb_refl, V1, V2. unfold limit, Rmax, Rmin. repeat destruct (Rle_dec _ _); lra.
  - specialize (G (I3 5 (-3) 299)). replace (ideal (-2) 4 exFL (I3 5 (-3) 299)) with 0 in G; [rewrite Rminus_0_r in G; exact G|].
    unfold ideal, exFL. cbn [fold_left snd ideal_step]. change (ieqb (I3 5 (-3) 300) (I3 5 (-3) 299)) with false. unfold limit, Rmax, Rmin. repeat destruct (Rle_dec _ _); lra.
Qed.
Example C76_blocks_example : Rabs (B2R (hb_get absorbC (hb_run f32n absorbC (absorbL 1000)) (I3 1 2 3)) - (1 + 1000 / 67108864)) <= 1 / 1000.
Proof.
  destruct (int_R (-2) ltac:(lia)) as [L FL]. destruct (int_R 4 ltac:(lia)) as [H FH]. destruct fone_R as (V & F & _).
  pose proof (C76_blocks absorbC 4 (absorbL 1000) (I3 1 2 3)) as D. cbn [hlo hhi hdef hK absorbC] in D. rewrite L, H, absorb_ideal in D. rewrite Rmin_right in D.
  2:{ rewrite (INR_IZR_INZ 1000). change (Z.of_nat 1000) with 1000%Z. lra. }
  assert (N : INR (adds_to (I3 1 2 3) (absorbL 1000)) <= 1001).
  { replace (adds_to (I3 1 2 3) (absorbL 1000)) with 1001%nat by reflexivity. rewrite INR_IZR_INZ. change (Z.of_nat 1001) with 1001%Z. lra. }
  assert (N2 : INR 1000 = 1000) by (rewrite INR_IZR_INZ; reflexivity). rewrite N2 in D.
  destruct D as [_ D]; try lia; try lra; try assumption; try reflexivity.
  - cbn [B2R]. rewrite Rabs_R0. lra.
  - apply absorb_values. lra.
  - eapply Rle_trans; [exact D|]. unfold unit. lra.
Qed.
Print Assumptions C76_drift. Print Assumptions C76_blocks. Print Assumptions C76_absorbed_refuted.
