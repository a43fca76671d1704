(** Rounding errors of one wavelet tree in single precision. *)
From Verif Require Import Base M_Num M_NdtreeIndex M_Haar M_Haar3 F_Haar3 M_Ndtree M_Wavelet F_Wavelet F_Wavelet2 M_ApproxFloat M_FloatIndex M_FloatNum F_Float F_FloatHaar.
From Coq Require Import Reals Lra Psatz.
From Flocq Require Import Core IEEE754.BinarySingleNaN.
Close Scope Z_scope.
Open Scope R_scope.

Notation fnode := (node (det float32)).

(** The exact value of the cell reached by a path of child indices, from the stored single precision coefficients *)
Fixpoint evalR (v : R) (n : fnode) (q : list Z) : R :=
  match q with
  | [] => v
  | c :: q' => match getChild n c with None => cvR v (ndata n) c | Some ch => evalR (cvR v (ndata n) c) ch q' end
  end.
(** All coefficients finite, and at most [k] levels of nodes *)
Fixpoint okf (k : nat) (n : fnode) : Prop :=
  match k with
  | O => False
  | S k' => dfin (ndata n) /\ forall c, (0 <= c < 8)%Z -> match getChild n c with None => True | Some ch => okf k' ch end
  end.
Definition fieldB (B : R) (k : nat) (v : R) (n : fnode) : Prop :=
  forall q, valid_path q -> List.length q = k -> Rabs (evalR v n q) <= B.

Lemma cvR_shift v d c x : cvR (v + x) d c = cvR v d c + x.
Proof. destruct d. unfold cvR. ring. Qed.
Lemma evalR_shift q : forall v n x, evalR (v + x) n q = evalR v n q + x.
Proof.
  induction q as [|c q IH]; intros v n x; cbn [evalR]; [reflexivity|].
  rewrite cvR_shift. destruct (getChild n c); [apply IH|reflexivity].
Qed.
Lemma evalR_diff q v v' n : evalR v' n q = evalR v n q + (v' - v).
Proof. rewrite <- evalR_shift. f_equal. ring. Qed.
Lemma cvR_zero v c : cvR v (dzero f32n) c = v.
Proof. unfold cvR, dzero, dtab. cbn [n0 f32n B2R]. unfold sgnR. destruct (Z.testbit c 0), (Z.testbit c 1), (Z.testbit c 2); cbn [eqb]; lra. Qed.
Lemma evalR_new q v : evalR v (Node (dzero f32n) None) q = v.
Proof. destruct q as [|c q]; cbn [evalR]; [reflexivity|]. cbn [ndata getChild nkids]. apply cvR_zero. Qed.
Lemma evalR_childOrNew q v n c :
  match getChild n c with None => v | Some ch => evalR v ch q end = evalR v (childOrNew (dzero f32n) n c) q.
Proof. unfold childOrNew. destruct (getChild n c); [reflexivity|]. symmetry. apply evalR_new. Qed.
Lemma getChild_setChild' {A} (n : node A) c ch c' : (0 <= c' < 8)%Z ->
  getChild (setChild n c ch) c' = if (c' =? c)%Z then Some ch else getChild n c'.
Proof.
  intros H. unfold getChild, setChild. cbn [nkids]. rewrite oget_oset by assumption.
  destruct (c' =? c)%Z; [reflexivity|]. destruct (nkids n); [reflexivity|].
  rewrite oget_otab by assumption. reflexivity.
Qed.
Lemma dfin_zero : dfin (dzero f32n).
Proof. unfold dfin. cbn. repeat constructor. Qed.
Lemma okf_new k : (1 <= k)%nat -> okf k (Node (dzero f32n) None).
Proof. intros H. destruct k; [lia|]. split; [exact dfin_zero|]. intros c Hc. exact I. Qed.

(** A bound on all cells is a bound on all node values. *)
Lemma zeros_valid k : valid_path (repeat 0%Z k) /\ List.length (repeat 0%Z k) = k.
Proof. split; [|apply repeat_length]. apply Forall_forall. intros x H. apply repeat_spec in H. lia. Qed.
Lemma field_scale B k : forall v n, fieldB B k v n -> Rabs v <= B.
Proof.
  induction k as [|k IH]; intros v n H; [exact (H [] (Forall_nil _) eq_refl)|].
  refine (proj1 (coeff_bound B v (ndata n) _)).
  intros c Hc. destruct (zeros_valid k) as [Vz Lz]. destruct (getChild n c) as [ch|] eqn:E.
  - apply (IH _ ch). intros q Vq Lq. specialize (H (c :: q)). cbn [evalR List.length] in H. rewrite E in H. apply H; [constructor; assumption|lia].
  - specialize (H (c :: repeat 0%Z k)). cbn [evalR List.length] in H. rewrite E in H. apply H; [constructor; assumption|lia].
Qed.
Lemma field_child B k v n c : (0 <= c < 8)%Z -> fieldB B (S k) v n -> fieldB B k (cvR v (ndata n) c) (childOrNew (dzero f32n) n c).
Proof.
  intros Hc H q Vq Lq. specialize (H (c :: q)). cbn [evalR List.length] in H. rewrite evalR_childOrNew in H. apply H; [constructor; assumption|lia].
Qed.
Lemma field_cv B k v n c : (0 <= c < 8)%Z -> fieldB B (S k) v n -> Rabs (cvR v (ndata n) c) <= B.
Proof. intros Hc H. exact (field_scale B k _ _ (field_child B k v n c Hc H)). Qed.

Section Tree.
Context (K : R) (HK : 0 <= K <= 10000).
Notation om := (om K).

(** ** Reading *)
Lemma get_loop_ap k : forall ph h p s v n e, (0 <= h)%Z -> (ph - h = Z.of_nat k)%Z -> (ph <= 21)%Z -> okf k n \/ k = O ->
  fieldB (K + 1) k v n -> ap e s v -> e + 12 * INR k * om <= (K + 1) / 1000 ->
  ap (e + 12 * INR k * om) (get_loop f32n k ph (omorton (OI h p)) s n) (evalR v n (path k p)).
Proof.
  pose proof (om_pos K HK) as Po.
  induction k as [|k IH]; intros ph h p s v n e Hh Hk Hp Ho HB Ha He; cbn [get_loop path evalR].
  - eapply ap_weak; [exact Ha|]. cbn [INR]. lra.
  - destruct Ho as [[Fd Hch]|Ho]; [|discriminate Ho]. rewrite rel_morton_cidx by lia. replace (ph - 1 - h)%Z with (Z.of_nat k) by lia.
    set (c := cidx p (Z.of_nat k)). assert (Hc : (0 <= c < 8)%Z) by apply cidx_range.
    rewrite S_INR in He |- *. pose proof (pos_INR k) as Pk.
    assert (Pm : 0 <= INR k * om) by nra.
    assert (A : ap (e + 12 * om) (backwardSingleChild3 f32n s (ndata n) c) (cvR v (ndata n) c)).
    { apply bsc_ap; [exact HK|exact Ha|exact Fd|intros c' Hc'; exact (field_cv _ k v n c' Hc' HB)|lra|exact Hc]. }
    destruct (getChild n c) as [ch|] eqn:E.
    + eapply ap_weak.
      * apply (IH (ph - 1)%Z h p _ (cvR v (ndata n) c) ch (e + 12 * om)); try lia; [|pose proof (field_child _ _ v n c Hc HB) as X; unfold childOrNew in X; rewrite E in X; exact X|exact A|lra].
        left. specialize (Hch c Hc). rewrite E in Hch. exact Hch.
      * lra.
    + eapply ap_weak; [exact A|lra].
Qed.

(** ** Adding to one cell *)
Fixpoint fupd_path (q : list Z) (c : Z) (u : float32) (n : fnode) : fnode * float32 :=
  match q with
  | [] => let '(s, d) := forwardSingleChild3 f32n u c in (Node (dadd f32n (ndata n) d) (nkids n), s)
  | c' :: q' =>
      let '(ch', x) := fupd_path q' c' u (childOrNew (dzero f32n) n c) in
      let '(s, d) := forwardSingleChild3 f32n x c in
      (Node (dadd f32n (ndata n) d) (nkids (setChild n c ch')), s)
  end.
Lemma update_loop_fpath k : forall ph h p u v n, (0 <= h)%Z -> (ph - h = Z.of_nat (S k))%Z -> (ph <= 21)%Z ->
  update_loop f32n k ph (omorton (OI h p)) (fun _ => u) v n = fupd_path (path k p) (cidx p (Z.of_nat k)) u n.
Proof.
  induction k as [|k IH]; intros ph h p u v n Hh Hk Hp; cbn [update_loop path fupd_path]; rewrite rel_morton_cidx by lia.
  - replace (ph - 1 - h)%Z with (Z.of_nat 0) by lia. reflexivity.
  - replace (ph - 1 - h)%Z with (Z.of_nat (S k)) by lia. rewrite IH by lia.
    destruct (fupd_path _ _ _ _) as [ch x]. destruct (forwardSingleChild3 f32n x _). reflexivity.
Qed.
Lemma fupd_spec q : forall c u v n, (0 <= c < 8)%Z -> valid_path q -> okf (S (List.length q)) n ->
  is_finite u = true -> Rabs (B2R u) <= 2 * (K + 1) -> fieldB (K + 1) (S (List.length q)) v n ->
  is_finite (snd (fupd_path q c u n)) = true /\ Rabs (B2R (snd (fupd_path q c u n))) <= 2 * (K + 1) /\
  Rabs (B2R (snd (fupd_path q c u n))) <= Rabs (B2R u) / 8 + 4 * tiny32 /\
  okf (S (List.length q)) (fst (fupd_path q c u n)) /\
  forall r, valid_path r -> List.length r = S (List.length q) ->
    Rabs (evalR (v + B2R (snd (fupd_path q c u n))) (fst (fupd_path q c u n)) r -
          (evalR v n r + (if list_eq_dec Z.eq_dec r (c :: q) then B2R u else 0))) <= 9 * INR (S (List.length q)) * om.
Proof.
  pose proof (om_pos K HK) as Po. pose proof tiny32_small as Ti.
  induction q as [|c1 q IH]; intros c u v n Hc Vq Hn Fu Bu HB; cbn [fupd_path].
  - destruct Hn as [Fd Hch].
    assert (Bd : dbound (K + 1) (ndata n)) by (apply (coeff_bound (K + 1) v); intros c' Hc'; exact (field_cv _ _ v n c' Hc' HB)).
    destruct (fsc_node K HK v (ndata n) u c Fu Bu Fd Bd Hc) as (F & V & Fd' & E).
    destruct (forwardSingleChild3 f32n u c) as [s d]. cbn [fst snd] in *.
    assert (Bs : Rabs (B2R s) <= Rabs (B2R u) / 8 + 4 * tiny32).
    { apply rabs_split in V. apply Rabs_le. pose proof (Rle_abs (B2R u)). pose proof (Rle_abs (- B2R u)) as Q. rewrite Rabs_Ropp in Q. lra. }
    split; [exact F|]. split; [lra|]. split; [exact Bs|]. split.
    + split; [exact Fd'|exact Hch].
    + intros r Vr Lr. destruct r as [|c' [|? ?]]; cbn [List.length] in Lr; try lia. inversion Vr; subst. specialize (E c' ltac:(assumption)).
      cbn [evalR ndata]. change (getChild (Node (dadd f32n (ndata n) d) (nkids n)) c') with (getChild n c').
      assert (X : (if (c' =? c)%Z then B2R u else 0) = if list_eq_dec Z.eq_dec [c'] [c] then B2R u else 0).
      { destruct (Z.eqb_spec c' c) as [Eq|N]; destruct (list_eq_dec Z.eq_dec _ _) as [G|G]; try reflexivity; congruence. }
      rewrite <- X. cbn [INR List.length]. destruct (getChild n c'); cbn [evalR]; lra.
  - destruct Hn as [Fd Hch]. inversion Vq as [|? ? Hc1 Vq']; subst.
    assert (Bd : dbound (K + 1) (ndata n)) by (apply (coeff_bound (K + 1) v); intros c' Hc'; exact (field_cv _ _ v n c' Hc' HB)).
    assert (Hchild : okf (S (List.length q)) (childOrNew (dzero f32n) n c)).
    { unfold childOrNew. specialize (Hch c Hc). destruct (getChild n c); [exact Hch|apply okf_new; lia]. }
    pose proof (field_child _ _ v n c Hc HB) as HBc. cbn [List.length] in HBc.
    destruct (IH c1 u (cvR v (ndata n) c) _ Hc1 Vq' Hchild Fu Bu HBc) as (Fx & Bx & Bx8 & Okc & E1). clear IH.
    destruct (fupd_path q c1 u (childOrNew (dzero f32n) n c)) as [ch' x]. cbn [fst snd] in *.
    destruct (fsc_node K HK v (ndata n) x c Fx Bx Fd Bd Hc) as (F & V & Fd' & E).
    destruct (forwardSingleChild3 f32n x c) as [s d]. cbn [fst snd] in *.
    assert (Bs : Rabs (B2R s) <= Rabs (B2R u) / 8 + 4 * tiny32).
    { apply rabs_split in V. apply Rabs_le. pose proof (Rle_abs (B2R x)). pose proof (Rle_abs (- B2R x)) as Q. rewrite Rabs_Ropp in Q. pose proof (Rabs_pos (B2R u)). lra. }
    split; [exact F|]. split; [lra|]. split; [exact Bs|].
    assert (GC : forall c', (0 <= c' < 8)%Z -> getChild (Node (dadd f32n (ndata n) d) (nkids (setChild n c ch'))) c' = if (c' =? c)%Z then Some ch' else getChild n c').
    { intros c' Hc'. rewrite <- (getChild_setChild' n c ch' c' Hc'). reflexivity. }
    split.
    + split; [exact Fd'|]. intros c' Hc'. rewrite GC by exact Hc'. destruct (c' =? c)%Z; [exact Okc|apply Hch; exact Hc'].
    + intros r Vr Lr. destruct r as [|c' r]; [discriminate Lr|]. inversion Vr as [|? ? Hc' Vr']; subst. specialize (E c' Hc').
      cbn [evalR ndata]. rewrite GC by exact Hc'. cbn [List.length] in Lr. rewrite S_INR.
      set (N1 := INR (S (List.length q))) in *.
      assert (N1p : 0 <= N1) by apply pos_INR. assert (NP : 0 <= N1 * om) by nra. cbn [List.length].
      destruct (Z.eqb_spec c' c) as [Eq|Ne].
      * subst c'. specialize (E1 r Vr' ltac:(lia)). rewrite evalR_childOrNew.
        rewrite (evalR_diff r (cvR v (ndata n) c + B2R x)).
        assert (X : (if list_eq_dec Z.eq_dec r (c1 :: q) then B2R u else 0) = if list_eq_dec Z.eq_dec (c :: r) (c :: c1 :: q) then B2R u else 0).
        { destruct (list_eq_dec Z.eq_dec r (c1 :: q)) as [G|G]; destruct (list_eq_dec Z.eq_dec (c :: r) _) as [G'|G']; try reflexivity; congruence. }
        rewrite <- X. apply rabs_split in E, E1. apply Rabs_le. fold N1. lra.
      * destruct (list_eq_dec Z.eq_dec (c' :: r) (c :: c1 :: q)) as [G|_]; [congruence|].
        fold N1. apply rabs_split in E. apply Rabs_le. destruct (getChild n c') as [ch|]; [|lra].
        rewrite (evalR_diff r (cvR v (ndata n) c')). lra.
Qed.

(** ** Clamping *)
Definition clampR (lo hi x : R) : R := if Rlt_dec x lo then lo else if Rlt_dec hi x then hi else x.
Lemma clampR_range lo hi x : lo <= hi -> lo <= clampR lo hi x <= hi.
Proof. intros H. unfold clampR. destruct (Rlt_dec x lo); [lra|]. destruct (Rlt_dec hi x); lra. Qed.
Lemma clampR_id lo hi x : lo <= x <= hi -> clampR lo hi x = x.
Proof. intros H. unfold clampR. destruct (Rlt_dec x lo); [lra|]. destruct (Rlt_dec hi x); lra. Qed.
Lemma clampR_lip lo hi x y e : lo <= hi -> Rabs (x - y) <= e -> Rabs (clampR lo hi x - clampR lo hi y) <= e.
Proof.
  intros H E. apply rabs_split in E. apply Rabs_le. unfold clampR.
  destruct (Rlt_dec x lo), (Rlt_dec y lo), (Rlt_dec hi x), (Rlt_dec hi y); lra.
Qed.
Lemma Bltb_R (x y : float32) : is_finite x = true -> is_finite y = true -> Bltb x y = if Rlt_dec (B2R x) (B2R y) then true else false.
Proof.
  intros Fx Fy. pose proof (Bltb_correct fprec femax x y Fx Fy) as E. rewrite E. unfold Rlt_bool.
  destruct (Rcompare_spec (B2R x) (B2R y)); destruct (Rlt_dec (B2R x) (B2R y)); try reflexivity; lra.
Qed.
Lemma nclamp_R lo hi x : is_finite lo = true -> is_finite hi = true -> is_finite x = true ->
  is_finite (nclamp f32n lo hi x) = true /\ B2R (nclamp f32n lo hi x) = clampR (B2R lo) (B2R hi) (B2R x).
Proof.
  intros Fl Fh Fx. unfold nclamp, clampR. cbn [nltb f32n]. rewrite !Bltb_R by assumption.
  destruct (Rlt_dec (B2R x) (B2R lo)); [auto|]. destruct (Rlt_dec (B2R hi) (B2R x)); auto.
Qed.

(** ** Thresholding *)
Section Thr.
Context (lo hi : float32) (Flo : is_finite lo = true) (Fhi : is_finite hi = true) (Hlh : B2R lo <= B2R hi)
  (Blo : - K <= B2R lo) (Bhi : B2R hi <= K).
Notation thr := (threshold_rec f32n lo hi).
Definition fthr_child (n : fnode) (v : float32) (c : Z) : option fnode * float32 :=
  match getChild n c with
  | Some ch => (Some (fst (thr ch v)), snd (thr ch v))
  | None => (None, nclamp f32n lo hi v)
  end.
(** The children and their values after thresholding, as given to the forward transform *)
Definition fthr_values (n : fnode) (s : float32) : oct float32 :=
  otab (fun c => snd (fthr_child n (oget (backward3 f32n s (ndata n)) c) c)).
Lemma fthr_spec n s :
  snd (thr n s) = fst (forward3 f32n (fthr_values n s)) /\ ndata (fst (thr n s)) = snd (forward3 f32n (fthr_values n s)) /\
  forall c, (0 <= c < 8)%Z -> getChild (fst (thr n s)) c = fst (fthr_child n (oget (backward3 f32n s (ndata n)) c) c).
Proof.
  destruct n as [d kids]. cbn [threshold_rec ndata].
  destruct kids as [k|].
  - set (res := omap2 _ k (backward3 f32n s d)).
    assert (E : omap snd res = fthr_values (Node d (Some k)) s).
    { apply oct_ext. intros c Hc. unfold fthr_values. rewrite oget_omap, oget_otab by assumption. subst res. rewrite oget_omap2 by assumption.
      unfold fthr_child, getChild. cbn [nkids ndata]. destruct (oget k c) as [ch|]; [|reflexivity].
      destruct (thr ch (oget (backward3 f32n s d) c)). reflexivity. }
    rewrite E. destruct (forward3 f32n (fthr_values _ s)) as [s' d']. cbn [fst snd ndata].
    split; [reflexivity|]. split; [reflexivity|]. intros c Hc. unfold getChild at 1. cbn [nkids]. rewrite oget_omap by assumption.
    subst res. rewrite oget_omap2 by assumption. unfold fthr_child, getChild. cbn [nkids]. destruct (oget k c) as [ch|]; [|reflexivity].
    destruct (thr ch (oget (backward3 f32n s d) c)). reflexivity.
  - assert (E : omap (nclamp f32n lo hi) (backward3 f32n s d) = fthr_values (Node d None) s).
    { apply oct_ext. intros c Hc. unfold fthr_values. rewrite oget_omap, oget_otab by assumption. reflexivity. }
    rewrite E. destruct (forward3 f32n (fthr_values _ s)) as [s' d']. cbn [fst snd ndata]. split; [reflexivity|]. split; [reflexivity|].
    intros c Hc. reflexivity.
Qed.
Lemma thr_ap k : forall n s B, okf k n -> is_finite s = true -> (k <= 21)%nat -> B + 14 * INR k * om <= K + 1 -> fieldB B k (B2R s) n ->
  is_finite (snd (thr n s)) = true /\ okf k (fst (thr n s)) /\
  forall q, valid_path q -> List.length q = k ->
    Rabs (evalR (B2R (snd (thr n s))) (fst (thr n s)) q - clampR (B2R lo) (B2R hi) (evalR (B2R s) n q)) <= 50 * INR k * om.
Proof.
  pose proof (om_pos K HK) as Po. pose proof (om_small K HK) as Ps.
  induction k as [|k IH]; intros n s B Hn Fs Hk HB Hf; [contradiction|].
  destruct Hn as [Fd Hch]. rewrite S_INR in *. pose proof (pos_INR k) as Pk.
  assert (Pm : 0 <= INR k * om) by nra.
  assert (K21 : INR k * om <= / 70). { assert (INR k <= 20) by (apply Rle_trans with (INR 20); [apply le_INR; lia|cbn; lra]). nra. }
  assert (Bcv : forall c, (0 <= c < 8)%Z -> Rabs (cvR (B2R s) (ndata n) c) <= B) by (intros c Hc; exact (field_cv B k _ n c Hc Hf)).
  assert (Bcv' : forall c, (0 <= c < 8)%Z -> Rabs (cvR (B2R s) (ndata n) c) <= K + 1) by (intros c Hc; specialize (Bcv c Hc); lra).
  pose proof (backward3_ap K HK s (ndata n) Fs Fd Bcv') as Hb.
  destruct (fthr_spec n s) as (E1 & E2 & E3).
  set (val := fun c => oget (backward3 f32n s (ndata n)) c) in *.
  (* one child *)
  assert (Q : forall c, (0 <= c < 8)%Z ->
    is_finite (snd (fthr_child n (val c) c)) = true /\ Rabs (B2R (snd (fthr_child n (val c) c))) <= K + 1 /\
    match fst (fthr_child n (val c) c) with None => True | Some ch => okf k ch end /\
    forall q, valid_path q -> List.length q = k ->
      Rabs (match fst (fthr_child n (val c) c) with None => B2R (snd (fthr_child n (val c) c)) | Some ch => evalR (B2R (snd (fthr_child n (val c) c))) ch q end -
            clampR (B2R lo) (B2R hi) (match getChild n c with None => cvR (B2R s) (ndata n) c | Some ch => evalR (cvR (B2R s) (ndata n) c) ch q end)) <= 50 * INR k * om + 14 * om).
  { intros c Hc. specialize (Hb c Hc). change (oget (backward3 f32n s (ndata n)) c) with (val c) in Hb. destruct Hb as [Fv Hv].
    unfold fthr_child. destruct (getChild n c) as [ch|] eqn:Ec; cbn [fst snd].
    - specialize (Hch c Hc). rewrite Ec in Hch. pose proof (field_child B k _ n c Hc Hf) as Hfc. unfold childOrNew in Hfc. rewrite Ec in Hfc.
      assert (Hfv : fieldB (B + 14 * om) k (B2R (val c)) ch).
      { intros q Vq Lq. specialize (Hfc q Vq Lq). rewrite (evalR_diff q (cvR (B2R s) (ndata n) c)). apply rabs_split in Hfc, Hv. apply Rabs_le. lra. }
      destruct (IH ch (val c) (B + 14 * om) Hch Fv ltac:(lia) ltac:(lra) Hfv) as (F' & Ok' & Hq).
      split; [exact F'|]. split; [|split; [exact Ok'|]].
      + assert (Hb1 : fieldB (K + 1) k (B2R (snd (thr ch (val c)))) (fst (thr ch (val c)))).
        { intros q Vq Lq. specialize (Hq q Vq Lq). pose proof (clampR_range (B2R lo) (B2R hi) (evalR (B2R (val c)) ch q) Hlh).
          apply rabs_split in Hq. apply Rabs_le. lra. }
        exact (field_scale _ _ _ _ Hb1).
      + intros q Vq Lq. specialize (Hq q Vq Lq).
        assert (X : Rabs (evalR (B2R (val c)) ch q - evalR (cvR (B2R s) (ndata n) c) ch q) <= 14 * om).
        { rewrite (evalR_diff q (cvR (B2R s) (ndata n) c)). apply rabs_split in Hv. apply Rabs_le. lra. }
        apply (clampR_lip (B2R lo) (B2R hi) _ _ _ Hlh) in X. apply rabs_split in X, Hq. apply Rabs_le. lra.
    - destruct (nclamp_R lo hi (val c) Flo Fhi Fv) as [F' V']. split; [exact F'|]. rewrite V'.
      split; [pose proof (clampR_range (B2R lo) (B2R hi) (B2R (val c)) Hlh); apply Rabs_le; lra|]. split; [exact I|].
      intros q Vq Lq. apply (clampR_lip (B2R lo) (B2R hi) _ _ _ Hlh) in Hv. apply rabs_split in Hv. apply Rabs_le. lra. }
  assert (OV : forall c, (0 <= c < 8)%Z -> oget (fthr_values n s) c = snd (fthr_child n (val c) c)).
  { intros c Hc. unfold fthr_values. rewrite oget_otab by exact Hc. reflexivity. }
  destruct (forward3_ap K HK (fthr_values n s)) as (Ff & Fdf & Hcv).
  { intros c Hc. rewrite OV by exact Hc. destruct (Q c Hc) as (A1 & A2 & _). auto. }
  rewrite E1. split; [exact Ff|]. split.
  - split; [rewrite E2; exact Fdf|]. intros c Hc. rewrite E3 by exact Hc. apply (Q c Hc).
  - intros q Vq Lq. destruct q as [|c q]; [discriminate Lq|]. inversion Vq as [|? ? Hc Vq']; subst. cbn [List.length] in Lq. injection Lq as Lq.
    cbn [evalR]. rewrite E3 by exact Hc. rewrite E2.
    destruct (Q c Hc) as (_ & _ & _ & Hq). specialize (Hq q Vq' Lq). specialize (Hcv c Hc). rewrite OV in Hcv by exact Hc.
    change (oget (backward3 f32n s (ndata n)) c) with (val c).
    destruct (fst (fthr_child n (val c) c)) as [ch'|].
    + rewrite (evalR_diff q (B2R (snd (fthr_child n (val c) c)))). apply rabs_split in Hcv, Hq. apply Rabs_le. lra.
    + apply rabs_split in Hcv, Hq. apply Rabs_le. lra.
Qed.
End Thr.
End Tree.

(** ** Pruning *)
Lemma f32eps_R : B2R f32eps = 8589935 / 8589934592 /\ is_finite f32eps = true.
Proof. split; [|reflexivity]. unfold f32eps, B2R, F2R. cbn -[IZR]. lra. Qed.
Lemma some_child_false' (k : oct (option fnode)) c : some_child k = false -> oget k c = None.
Proof.
  intros H. destruct (oget k c) as [ch|] eqn:E; [|reflexivity].
  assert (some_child k = true); [|congruence].
  apply existsb_exists. exists (Some ch). split; [|reflexivity]. rewrite <- E. apply oget_In.
Qed.
Lemma fprune_data (n : fnode) : ndata (prune_rec f32n n) = ndata n.
Proof. destruct n as [d [k|]]; cbn [prune_rec]; [|reflexivity]. destruct (some_child _); reflexivity. Qed.
Lemma fprune_getChild (n : fnode) c : (0 <= c < 8)%Z ->
  getChild (prune_rec f32n n) c = match getChild n c with None => None | Some ch => prune_child f32n (prune_rec f32n ch) end.
Proof.
  intros Hc. destruct n as [d [k|]]; [|reflexivity]. cbn [prune_rec].
  set (k' := omap _ k).
  assert (E : oget k' c = match oget k c with None => None | Some ch => prune_child f32n (prune_rec f32n ch) end).
  { subst k'. rewrite oget_omap by assumption. destruct (oget k c); reflexivity. }
  unfold getChild. cbn [nkids]. destruct (some_child k') eqn:Es; cbn [nkids].
  - exact E.
  - rewrite <- E. symmetry. apply some_child_false'. assumption.
Qed.
(** Children of a node with small details are close to the node's value. *)
Lemma small_details d v c : dfin d -> det_nonzero_tol f32n d = false -> (0 <= c < 8)%Z -> Rabs (cvR v d c - v) <= 24 / 10000.
Proof.
  intros Fd H Hc. unfold det_nonzero_tol in H. destruct f32eps_R as [Ve Fe].
  assert (S : forall x, In x (dlist d) -> - (1001 / 1000000) <= B2R x <= 1001 / 1000000).
  { intros x Hx. assert (L : nltb f32n (neps f32n) (nabs f32n x) = false).
    { destruct (nltb f32n (neps f32n) (nabs f32n x)) eqn:E; [|reflexivity]. rewrite <- H. symmetry. apply existsb_exists. exists x. auto. }
    cbn [nltb neps nabs f32n] in L. assert (Fx : is_finite x = true) by (unfold dfin in Fd; rewrite Forall_forall in Fd; auto).
    rewrite Bltb_R in L; [|exact Fe|rewrite is_finite_Babs; exact Fx]. rewrite B2R_Babs, Ve in L.
    destruct (Rlt_dec _ _) as [|N]; [discriminate L|]. apply rabs_split. lra. }
  destruct d as [d1 d2 d3 d4 d5 d6 d7]. cbn [dlist In] in S.
  pose proof (S d1 ltac:(auto)). pose proof (S d2 ltac:(auto)). pose proof (S d3 ltac:(auto)). pose proof (S d4 ltac:(auto)). pose proof (S d5 ltac:(auto 6)).
  pose proof (S d6 ltac:(auto 7)). pose proof (S d7 ltac:(auto 8)).
  cbn [cvR]. apply Rabs_le. unfold sgnR. child8 c Hc; cbn [Z.testbit Z.odd Pos.testbit Pos.pred_N Pos.pred_double eqb]; lra.
Qed.
Lemma fprune_ok k : forall n, okf k n -> okf k (prune_rec f32n n).
Proof.
  induction k as [|k IH]; intros n H; [contradiction|]. destruct H as [Fd Hch]. split; [rewrite fprune_data; exact Fd|].
  intros c Hc. rewrite fprune_getChild by exact Hc. specialize (Hch c Hc). destruct (getChild n c) as [ch|]; [|exact I].
  unfold prune_child. destruct (_ && _); [exact I|]. apply IH. exact Hch.
Qed.
Lemma fprune_eval k : forall n v q, okf k n -> valid_path q -> List.length q = k ->
  Rabs (evalR v (prune_rec f32n n) q - evalR v n q) <= INR k * (24 / 10000).
Proof.
  induction k as [|k IH]; intros n v q Hn Vq Lq; [contradiction|]. destruct q as [|c q]; [discriminate Lq|].
  inversion Vq as [|? ? Hc Vq']; subst. injection Lq as Lq. destruct Hn as [Fd Hch]. cbn [evalR]. rewrite fprune_data, fprune_getChild by exact Hc.
  specialize (Hch c Hc). rewrite S_INR. pose proof (pos_INR k) as Pk. destruct (getChild n c) as [ch|]; [|rewrite Rminus_diag_eq by reflexivity; rewrite Rabs_R0; lra].
  specialize (IH ch (cvR v (ndata n) c) q Hch Vq' Lq). unfold prune_child. destruct (negb (hasChildrenArray (prune_rec f32n ch)) && _) eqn:E.
  - apply andb_true_iff in E as [E1 E2]. apply negb_true_iff in E1, E2.
    pose proof (fprune_ok k ch Hch) as Okp. destruct k as [|k]; [contradiction|]. destruct q as [|c2 q]; [discriminate Lq|].
    inversion Vq' as [|? ? Hc2 _]; subst. destruct Okp as [Fp _].
    assert (G : getChild (prune_rec f32n ch) c2 = None).
    { unfold getChild. unfold hasChildrenArray in E1. destruct (nkids (prune_rec f32n ch)); [discriminate E1|reflexivity]. }
    cbn [evalR] in IH |- *. rewrite G in IH. pose proof (small_details _ (cvR v (ndata n) c) c2 Fp E2 Hc2) as S.
    apply rabs_split in S, IH. apply Rabs_le. lra.
  - apply rabs_split in IH. apply Rabs_le. lra.
Qed.
