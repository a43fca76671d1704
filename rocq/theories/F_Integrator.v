(** Facts about the hashed wavelet integrator (exact arithmetic). *)
From Verif Require Import Base M_IntMath F_IntMath M_Morton F_Morton M_NdtreeIndex F_NdtreeIndex
  M_Num F_Num M_Haar F_Haar M_Haar3 F_Haar3 M_Ndtree S_Field F_Hash M_Wavelet F_Wavelet F_Wavelet2 F_Leaves F_WavTree
  F_WavMap F_WavHash M_Octree F_Octree M_Integrator.
From Coq Require Import QArith Qcanon Qcabs Lqa.
Close Scope Qc_scope.
Close Scope Q_scope.
Open Scope Z_scope.

(** ** Arrays and children *)
Lemma oset_oset {A} (o : oct A) i a b : oset (oset o i a) i b = oset o i b.
Proof.
  apply oct_ext. intros c Hc. rewrite !oget_oset by assumption. destruct (c =? i); reflexivity.
Qed.
Lemma setChild_setChild (n : wnode) c x y : setChild (setChild n c x) c y = setChild n c y.
Proof. unfold setChild. cbn [nkids ndata]. rewrite oset_oset. reflexivity. Qed.

Section UPD.
Context (K : iconst Qc) (W : oracle Qc) (Hth : 0 <= i_th K).
Notation ub_child := (ub_child qn K W).
Notation ub_step := (ub_step qn K W).

(** The recursion that the explicit stack implements. *)
Definition child_step (rec : oidx -> wnode -> Qc -> wnode * Qc * bool) (idx : oidx)
    (s : wnode * oct Qc * bool) (c : Z) : wnode * oct Qc * bool :=
  let '(n, vals, f) := s in
  match ub_child (ochild idx c) (getChild n c) (oget vals c) with
  | Done v g => (n, oset vals c v, f || g)
  | Refine => let '(ch, v, g) := rec (ochild idx c) (childOrNew (dzero qn) n c) (oget vals c) in
              (setChild n c ch, oset vals c v, f || g)
  end.
Definition compress (s : wnode * oct Qc * bool) : wnode * Qc * bool :=
  let '(n, vals, f) := s in (Node (snd (forward3 qn vals)) (nkids n), fst (forward3 qn vals), f).
Fixpoint upd (k : nat) (idx : oidx) (n : wnode) (v : Qc) : wnode * Qc * bool :=
  match k with
  | O => (n, v, false)
  | S k' => compress (fold_left (child_step (upd k') idx) [0; 1; 2; 3; 4; 5; 6; 7] (n, backward3 qn v (ndata n), false))
  end.

(** ** The loop computes the recursion *)
Definition finish (r : wnode * Qc * bool) (st : list (frame (V := Qc))) (thr : bool) : task (V := Qc) :=
  let '(n, s, f) := r in
  match st with
  | [] => Finished (WT n s) (thr || f)
  | FR pn pidx pnext pvals :: st' =>
      Running (FR (setChild pn (pnext - 1) n) pidx pnext (oset pvals (pnext - 1) s) :: st') (thr || f)
  end.
Fixpoint cost (k : nat) : nat := match k with O => 0 | S k' => 9 + 8 * cost k' end.
Lemma iter_add {A} (f : A -> A) a b x : Nat.iter (a + b) f x = Nat.iter b f (Nat.iter a f x).
Proof.
  rewrite Nat.add_comm. induction b as [|b IH]; cbn [Nat.iter Nat.add]; [reflexivity|].
  change (f (Nat.iter (b + a) f x) = f (Nat.iter b f (Nat.iter a f x))). rewrite IH. reflexivity.
Qed.
Lemma iter_1 {A} (f : A -> A) x : Nat.iter 1 f x = f x.
Proof. reflexivity. Qed.

Definition run_ok (k : nat) : Prop := forall idx n v st thr, oh idx = Z.of_nat k -> (1 <= k)%nat ->
  exists m, (m <= cost k)%nat /\
    Nat.iter m ub_step (Running (FR n idx 0 (backward3 qn v (ndata n)) :: st) thr) = finish (upd k idx n v) st thr.

Lemma refine_height idx n v : ub_child idx n v = Refine -> 0 < oh idx.
Proof.
  unfold M_Integrator.ub_child. destruct (Z.leb_spec (oh idx) (i_th K)); [discriminate|]. intros _. lia.
Qed.
Lemma children_run k idx cs : run_ok k -> oh idx = Z.of_nat (S k) ->
  forall next n vals f st thr, 0 <= next -> next + Z.of_nat (length cs) = 8 ->
  cs = map (fun j => next + Z.of_nat j) (seq 0 (length cs)) ->
  exists m, (m <= length cs * (1 + cost k))%nat /\
    Nat.iter m ub_step (Running (FR n idx next vals :: st) (thr || f)) =
    (let '(n', vals', f') := fold_left (child_step (upd k) idx) cs (n, vals, f) in
     Running (FR n' idx 8 vals' :: st) (thr || f')).
Proof.
  intros IHk Hidx. induction cs as [|c cs IH]; intros next n vals f st thr H0 Hl Hcs.
  - cbn [length] in Hl. exists O. split; [lia|]. cbn [fold_left]. replace next with 8 by lia. reflexivity.
  - cbn [length] in *. cbn [seq map] in Hcs. injection Hcs as -> Hcs. rewrite Z.add_0_r.
    assert (Hcs' : cs = map (fun j => next + 1 + Z.of_nat j) (seq 0 (length cs))).
    { rewrite Hcs at 1. rewrite <- seq_shift, map_map. apply map_ext. intros j. lia. }
    cbn [fold_left].
    assert (H1 : exists m, (m <= 1 + cost k)%nat /\
        Nat.iter m ub_step (Running (FR n idx next vals :: st) (thr || f)) =
        (let '(n', vals', f') := child_step (upd k) idx (n, vals, f) next in
         Running (FR n' idx (next + 1) vals' :: st) (thr || f'))).
    { cbn [child_step]. destruct (ub_child (ochild idx next) (getChild n next) (oget vals next)) as [v g|] eqn:E.
      - exists 1%nat. split; [lia|]. rewrite iter_1. cbn [M_Integrator.ub_step].
        replace (8 <=? next) with false by (symmetry; apply Z.leb_gt; lia). rewrite E, orb_assoc. reflexivity.
      - pose proof (refine_height _ _ _ E) as Hh. cbn [ochild oh] in Hh.
        destruct (IHk (ochild idx next) (childOrNew (dzero qn) n next) (oget vals next)
                    (FR (setChild n next (childOrNew (dzero qn) n next)) idx (next + 1) vals :: st) (thr || f)) as (m & Hm & Em);
          [cbn [ochild oh]; lia|lia|].
        exists (S m). split; [lia|]. change (S m) with (1 + m)%nat. rewrite iter_add, iter_1. cbn [M_Integrator.ub_step].
        replace (8 <=? next) with false by (symmetry; apply Z.leb_gt; lia). rewrite E, Em.
        destruct (upd k (ochild idx next) (childOrNew (dzero qn) n next) (oget vals next)) as [[ch v] g].
        cbn [finish]. replace (next + 1 - 1) with next by lia. rewrite setChild_setChild, orb_assoc. reflexivity. }
    destruct H1 as (m1 & Hm1 & E1).
    destruct (child_step (upd k) idx (n, vals, f) next) as [[n1 vals1] f1].
    destruct (IH (next + 1) n1 vals1 f1 st thr ltac:(lia) ltac:(lia) Hcs') as (m2 & Hm2 & E2).
    exists (m1 + m2)%nat. split; [lia|]. rewrite iter_add, E1. exact E2.
Qed.
Lemma upd_run k : run_ok k.
Proof.
  induction k as [|k IH]; intros idx n v st thr Hidx Hk; [lia|].
  destruct (children_run k idx [0; 1; 2; 3; 4; 5; 6; 7] IH Hidx 0 n (backward3 qn v (ndata n)) false st thr
              ltac:(lia) ltac:(reflexivity) ltac:(reflexivity)) as (m & Hm & E).
  rewrite orb_false_r in E. exists (m + 1)%nat. split; [cbn [length cost] in *; lia|].
  rewrite iter_add, E, iter_1. cbn [upd].
  destruct (fold_left _ _ _) as [[n' vals'] f']. cbn [M_Integrator.ub_step compress finish].
  replace (8 <=? 8) with true by reflexivity. destruct (forward3 qn vals') as [s d]. cbn [fst snd].
  destruct st as [|[pn pidx pnext pvals] st]; reflexivity.
Qed.

(** Finished tasks stay finished; so the result does not depend on the number of iterations. *)
Lemma iter_finished m t thr : Nat.iter m ub_step (Finished t thr) = Finished t thr.
Proof. induction m as [|m IH]; [reflexivity|]. cbn [Nat.iter]. change (ub_step (Nat.iter m ub_step (Finished t thr)) = Finished t thr). rewrite IH. reflexivity. Qed.
Definition block_result (T : Z) (bi : idx3) (b : wblock (V := Qc)) : wtree * bool :=
  let '(n, s, f) := upd (Z.to_nat T) (OI T bi) (wroot (btree b)) (wscale (btree b)) in (WT n s, bthr b || f).
Lemma task_result T bi b m t thr : 1 <= T ->
  Nat.iter m ub_step (ub_start qn T bi b) = Finished t thr -> (t, thr) = block_result T bi b.
Proof.
  intros HT E. unfold ub_start in E.
  destruct (upd_run (Z.to_nat T) (OI T bi) (wroot (btree b)) (wscale (btree b)) [] (bthr b)) as (m' & _ & E');
    [cbn [oh]; lia|lia|].
  unfold block_result. destruct (upd _ _ _ _) as [[n s] f]. cbn [finish] in E'.
  set (s0 := Running _ _) in *.
  assert (X : Nat.iter (m + m') ub_step s0 = Finished t thr) by (rewrite iter_add, E; apply iter_finished).
  rewrite Nat.add_comm, iter_add, E', iter_finished in X. injection X as <- <-. reflexivity.
Qed.
Lemma task_finishes T bi b m : 1 <= T -> (cost (Z.to_nat T) <= m)%nat ->
  Nat.iter m ub_step (ub_start qn T bi b) = Finished (fst (block_result T bi b)) (snd (block_result T bi b)).
Proof.
  intros HT Hm. unfold ub_start.
  destruct (upd_run (Z.to_nat T) (OI T bi) (wroot (btree b)) (wscale (btree b)) [] (bthr b)) as (m' & Hm' & E');
    [cbn [oh]; lia|lia|].
  unfold block_result. destruct (upd _ _ _ _) as [[n s] f]. cbn [finish fst snd] in *.
  replace m with (m' + (m - m'))%nat by lia. rewrite iter_add, E'. apply iter_finished.
Qed.

(** ** Effect on each child *)
Definition child_res (k : nat) (idx : oidx) (n : wnode) (x : Qc) (c : Z) : option wnode * Qc * bool :=
  match ub_child (ochild idx c) (getChild n c) x with
  | Done v g => (getChild n c, v, g)
  | Refine => let '(ch, v, g) := upd k (ochild idx c) (childOrNew (dzero qn) n c) x in (Some ch, v, g)
  end.
Lemma child_step_eq k idx n vals f c : 0 <= c < 8 ->
  let '(n', vals', f') := child_step (upd k) idx (n, vals, f) c in
  let '(o, v, g) := child_res k idx n (oget vals c) c in
  (forall c', 0 <= c' < 8 -> getChild n' c' = (if c' =? c then o else getChild n c') /\
                            oget vals' c' = (if c' =? c then v else oget vals c')) /\ f' = f || g.
Proof.
  intros Hc. unfold child_step, child_res. destruct (ub_child (ochild idx c) (getChild n c) (oget vals c)) as [v g|].
  - split; [|reflexivity]. intros c' Hc'. rewrite oget_oset by assumption.
    destruct (Z.eqb_spec c' c) as [->|]; split; reflexivity.
  - destruct (upd k _ _ _) as [[ch v] g]. split; [|reflexivity]. intros c' Hc'.
    rewrite oget_oset, getChild_setChild by assumption. split; reflexivity.
Qed.
Lemma fold_children k idx cs : Forall (fun c => 0 <= c < 8) cs -> NoDup cs -> forall n vals f,
  let '(n', vals', f') := fold_left (child_step (upd k) idx) cs (n, vals, f) in
  (forall c, 0 <= c < 8 ->
    if in_dec Z.eq_dec c cs
    then getChild n' c = fst (fst (child_res k idx n (oget vals c) c)) /\ oget vals' c = snd (fst (child_res k idx n (oget vals c) c))
    else getChild n' c = getChild n c /\ oget vals' c = oget vals c) /\
  f' = f || existsb (fun c => snd (child_res k idx n (oget vals c) c)) cs.
Proof.
  induction cs as [|c0 cs IH]; intros Hr Hnd n vals f; cbn [fold_left].
  - split; [|cbn; rewrite orb_false_r; reflexivity]. intros c Hc. destruct (in_dec Z.eq_dec c []) as [[]|]. split; reflexivity.
  - inversion Hr as [|? ? Hc0 Hr']; inversion Hnd as [|? ? Hni Hnd']; subst.
    pose proof (child_step_eq k idx n vals f c0 Hc0) as S0.
    destruct (child_step (upd k) idx (n, vals, f) c0) as [[n1 v1] f1].
    specialize (IH Hr' Hnd' n1 v1 f1). destruct (fold_left _ _ _) as [[n2 v2] f2].
    destruct (child_res k idx n (oget vals c0) c0) as [[o v] g] eqn:E0. destruct S0 as [S1 S2]. destruct IH as [I1 I2].
    assert (Same : forall c, 0 <= c < 8 -> c <> c0 -> child_res k idx n1 (oget v1 c) c = child_res k idx n (oget vals c) c).
    { intros c Hc Hne. destruct (S1 c Hc) as [A B]. rewrite (proj2 (Z.eqb_neq c c0) Hne) in A, B.
      unfold child_res, childOrNew. rewrite A, B. reflexivity. }
    split.
    + intros c Hc. specialize (I1 c Hc). destruct (S1 c Hc) as [A B]. destruct (Z.eqb_spec c c0) as [->|Hne].
      * destruct (in_dec Z.eq_dec c0 cs); [contradiction|]. destruct (in_dec Z.eq_dec c0 (c0 :: cs)) as [_|X]; [|exfalso; apply X; left; reflexivity].
        rewrite E0. cbn [fst snd]. destruct I1 as [-> ->]. split; assumption.
      * rewrite Same in I1 by assumption.
        destruct (in_dec Z.eq_dec c cs) as [Hin|Hin], (in_dec Z.eq_dec c (c0 :: cs)) as [Hin2|Hin2].
        -- exact I1.
        -- exfalso. apply Hin2. right. exact Hin.
        -- destruct Hin2; [congruence|contradiction].
        -- rewrite A, B in I1. exact I1.
    + rewrite I2, S2. cbn [existsb]. rewrite E0. cbn [snd]. rewrite <- orb_assoc. do 2 f_equal.
      clear - Same Hni Hr'. induction cs as [|c cs IH]; [reflexivity|]. inversion Hr'; subst. cbn [existsb].
      rewrite Same; [|assumption|intros ->; apply Hni; left; reflexivity]. f_equal. apply IH; [assumption|].
      intros Hin. apply Hni. right. assumption.
Qed.
Lemma upd_child k idx n v c : 0 <= c < 8 ->
  let '(n', v', f') := upd (S k) idx n v in
  let r := child_res k idx n (child_value v (ndata n) c) c in
  getChild n' c = fst (fst r) /\ child_value v' (ndata n') c = snd (fst r) /\
  (f' = false -> snd r = false).
Proof.
  intros Hc. cbn [upd].
  pose proof (fold_children k idx [0; 1; 2; 3; 4; 5; 6; 7] ltac:(repeat constructor; lia) NoDup_up n (backward3 qn v (ndata n)) false) as F.
  destruct (fold_left _ _ _) as [[n' vals'] f']. cbn [compress]. destruct F as [F1 F2]. specialize (F1 c Hc).
  destruct (in_dec Z.eq_dec c [0; 1; 2; 3; 4; 5; 6; 7]) as [Hin|X]; [|exfalso; apply X; apply in_up; exact Hc].
  rewrite backward3_value in F1 by assumption. destruct F1 as [G1 G2]. cbn zeta. split; [exact G1|]. split.
  - cbn [ndata]. rewrite <- backward3_value by assumption. rewrite backward_forward3. exact G2.
  - intros ->. symmetry in F2. rewrite orb_false_l in F2.
    destruct (snd (child_res k idx n (child_value v (ndata n) c) c)) eqn:E; [|reflexivity].
    rewrite <- F2. symmetry. apply existsb_exists. exists c. split; [assumption|].
    rewrite backward3_value by assumption. exact E.
Qed.

(** ** Cells *)
Definition anc (c : idx3) (h : Z) : oidx := OI h (imap (fun x => x / 2 ^ h) c).
Lemma ochild_anc c k : ochild (anc c (Z.of_nat (S k))) (cidx c (Z.of_nat k)) = anc c (Z.of_nat k).
Proof.
  unfold ochild, anc. cbn [oh opos]. replace (Z.of_nat (S k) - 1) with (Z.of_nat k) by lia. f_equal.
  destruct c as [x y z]. unfold imap. cbn [px py pz].
  assert (D : forall u b, b = Z.b2z (Z.testbit u (Z.of_nat k)) -> u / 2 ^ Z.of_nat (S k) * 2 + b = u / 2 ^ Z.of_nat k).
  { intros u b ->. replace (Z.of_nat (S k)) with (Z.of_nat k + 1) by lia.
    rewrite Z.pow_add_r by lia. change (2 ^ 1) with 2. pose proof (pow2_pos (Z.of_nat k) ltac:(lia)).
    rewrite <- Z.div_div by lia. rewrite Z.testbit_spec' by lia. pose proof (Z.div_mod (u / 2 ^ Z.of_nat k) 2 ltac:(lia)). lia. }
  f_equal; apply D; unfold cidx; cbn [px py pz];
    destruct (Z.testbit x (Z.of_nat k)), (Z.testbit y (Z.of_nat k)), (Z.testbit z (Z.of_nat k)); reflexivity.
Qed.

(** Change of the value at cell [c] below the node of height [k] that contains it. *)
Fixpoint delta (k : nat) (c : idx3) (n : wnode) (v : Qc) : Qc :=
  match k with
  | O => 0%Qc
  | S k' =>
      let j := cidx c (Z.of_nat k') in
      let x := child_value v (ndata n) j in
      match ub_child (anc c (Z.of_nat k')) (getChild n j) x with
      | Done y _ => (y - x)%Qc
      | Refine => delta k' c (childOrNew (dzero qn) n j) x
      end
  end.
Lemma upd_eval k : forall c n v,
  let '(n', v', _) := upd k (anc c (Z.of_nat k)) n v in
  eval v' n' (path k c) = (eval v n (path k c) + delta k c n v)%Qc.
Proof.
  induction k as [|k IH]; intros c n v.
  - cbn [upd path eval delta]. ring.
  - pose proof (upd_child k (anc c (Z.of_nat (S k))) n v (cidx c (Z.of_nat k)) (cidx_range _ _)) as U.
    destruct (upd (S k) (anc c (Z.of_nat (S k))) n v) as [[n' v'] f']. cbv zeta in U. destruct U as (U1 & U2 & _).
    cbn [path eval delta]. rewrite U1, U2. unfold child_res. rewrite ochild_anc.
    set (x := child_value v (ndata n) (cidx c (Z.of_nat k))) in *. set (j := cidx c (Z.of_nat k)) in *.
    destruct (ub_child (anc c (Z.of_nat k)) (getChild n j) x) as [y g|] eqn:E.
    + cbn [fst snd]. destruct (getChild n j); [|ring].
      rewrite <- eval_shift. f_equal. ring.
    + specialize (IH c (childOrNew (dzero qn) n j) x). destruct (upd k _ _ x) as [[ch y] g]. cbn [fst snd].
      rewrite IH. rewrite <- (eval_childOrNew (path k c) x n j). reflexivity.
Qed.

(** ** Heights *)
Lemma upd_height k : forall idx n v, oh idx = Z.of_nat k -> (1 <= k)%nat -> height_ok k n ->
  height_ok k (fst (fst (upd k idx n v))).
Proof.
  induction k as [|k IH]; intros idx n v Hi Hk Hn; [lia|]. intros c Hc.
  pose proof (upd_child k idx n v c Hc) as U.
  destruct (upd (S k) idx n v) as [[n' v'] f']. cbv zeta in U. destruct U as (U1 & _ & _). cbn [fst]. rewrite U1.
  unfold child_res. destruct (ub_child (ochild idx c) (getChild n c) (child_value v (ndata n) c)) as [y g|] eqn:E.
  - apply Hn. assumption.
  - pose proof (refine_height _ _ _ E) as Hh. cbn [ochild oh] in Hh.
    specialize (IH (ochild idx c) (childOrNew (dzero qn) n c) (child_value v (ndata n) c)).
    destruct (upd k _ _ _) as [[ch y] g]. cbn [fst] in *. destruct k as [|k]; [lia|].
    apply IH; [cbn [ochild oh]; lia|lia|]. apply height_ok_childOrNew; assumption.
Qed.
End UPD.
