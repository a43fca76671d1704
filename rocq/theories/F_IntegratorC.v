(** Facts about the chunked wavelet integrator (exact arithmetic). *)
From Verif Require Import Base M_IntMath F_IntMath M_Morton F_Morton M_NdtreeIndex F_NdtreeIndex
  M_Num F_Num M_Haar F_Haar M_Haar3 F_Haar3 M_Ndtree S_Field S_Integrate F_Hash M_Wavelet F_Wavelet F_Wavelet2 F_Leaves F_WavTree
  F_WavMap F_WavHash M_WavHist F_WavHist M_Octree F_Octree M_Chunked F_Chunked F_ChunkedSim F_ChunkedWav M_ChunkedHist F_ChunkedMap
  M_Integrator F_Integrator F_Integrator2 F_Integrator3.
From Coq Require Import QArith Qcanon Qcabs Lqa Permutation.
Close Scope Qc_scope.
Close Scope Q_scope.
Open Scope Z_scope.

Section CUPD.
Context (K : iconst Qc) (W : oracle Qc) (Hth : 0 <= i_th K).

(** ** The recursion on pointer trees *)
Definition cact (idx : oidx) (x : Qc) : action (V := Qc) :=
  if is_unobserved (o_type W idx) then Done x false
  else if negb (is_occupied (o_type W idx)) && qltb x (i_slo K) then Done x false
  else if o_accept W idx then Done (x + o_sample W idx)%Qc true
  else Refine.
Definition cstep (rec : oidx -> wnode -> Qc -> wnode * Qc * bool) (idx : oidx)
    (s : wnode * oct Qc * bool) (c : Z) : wnode * oct Qc * bool :=
  let '(n, vals, f) := s in
  match cact (ochild idx c) (oget vals c) with
  | Done v g => (n, oset vals c v, f || g)
  | Refine => let '(ch, v, g) := rec (ochild idx c) (childOrNew (dzero qn) n c) (oget vals c) in
              (setChild n c ch, oset vals c v, f || g)
  end.
Definition down (rec : oidx -> wnode -> Qc -> wnode * Qc * bool) (idx : oidx) (n : wnode) (x : Qc) : wnode * Qc * bool :=
  if oh idx <=? i_th K + 1
  then let '(v, d) := leaves_batch qn K W idx x (ndata n) in (Node d (nkids n), v, false)
  else rec idx n x.
Fixpoint cupd (k : nat) (idx : oidx) (n : wnode) (v : Qc) : wnode * Qc * bool :=
  match k with
  | O => (n, v, false)
  | S k' => compress (fold_left (cstep (down (cupd k')) idx) [0; 1; 2; 3; 4; 5; 6; 7] (n, backward3 qn v (ndata n), false))
  end.
Definition cstep' (k : nat) (q : list Z) (idx : oidx) (s : chunk (det Qc) * oct Qc * bool) (c : Z) :=
  let '(root1, vals, thr1) := s in
  let ci := ochild idx c in
  if is_unobserved (o_type W ci) then s
  else if negb (is_occupied (o_type W ci)) && nltb qn (oget vals c) (i_slo K) then s
  else if o_accept W ci then (root1, oset vals c (nadd qn (oget vals c) (o_sample W ci)), true)
  else
    let '(root2, r2) := nr_allocChild cz cH root1 (caddr q) c in
    if oh ci <=? i_th K + 1 then
      let '(v, d) := leaves_batch qn K W ci (oget vals c) (nr_data cz root2 r2) in
      (nr_setData root2 r2 d, oset vals c v, thr1)
    else
      let '(root3, v, thr3) := cu_rec qn K W k root2 r2 ci (oget vals c) thr1 in
      (root3, oset vals c v, thr3).
Lemma cu_rec_S k root q idx v thr : cu_rec qn K W (S k) root (caddr q) idx v thr =
  let '(root', vals', thr') := fold_left (cstep' k q idx) [0; 1; 2; 3; 4; 5; 6; 7] (root, backward3 qn v (cdat root q), thr) in
  let '(s, d) := forward3 qn vals' in (nr_setData root' (caddr q) d, s, thr').
Proof. reflexivity. Qed.

Definition sim_ok (k : nat) : Prop := forall root q n idx v thr, valid_path q -> csub root q (Some n) ->
  let '(root', v', thr') := cu_rec qn K W k root (caddr q) idx v thr in
  let '(n', w, f) := cupd k idx n v in
  csub root' q (Some n') /\ v' = w /\ thr' = thr || f /\ cframe q root root'.
Lemma oset_same {A} (o : oct A) c : 0 <= c < 8 -> oset o c (oget o c) = o.
Proof. intros Hc. apply oct_ext. intros j Hj. rewrite oget_oset by assumption. destruct (Z.eqb_spec j c) as [->|]; reflexivity. Qed.
Lemma sim_descend root q n c root2 root3 ch : valid_path q -> 0 <= c < 8 -> csub root q (Some n) ->
  root2 = fst (nr_allocChild cz cH root (caddr q) c) ->
  csub root3 (q ++ [c]) (Some ch) -> cframe (q ++ [c]) root2 root3 ->
  csub root3 q (Some (setChild n c ch)) /\ cframe q root root3.
Proof.
  intros Hq Hc S -> Hch F. pose proof (sim_alloc cz cH cH_ok root q n c Hq Hc S) as A. cbv zeta in A.
  destruct A as (A1 & A2 & A3 & A4 & A5 & A6 & A7). split; [|eapply frame_trans; [exact A7|apply frame_wide with (s := [c]); exact F]].
  destruct (F q Hq) as (F1 & F2 & F3); [apply is_prefix_long; rewrite app_length; cbn; lia|].
  apply sub_intro.
  - rewrite F1. exact A2.
  - rewrite F2. exact A3.
  - apply F3. exact A4.
  - intros c' Hc'. rewrite getChild_setChild by assumption. destruct (Z.eqb_spec c' c) as [->|Hne]; [exact Hch|].
    eapply frame_sub; [exact F|apply valid_snoc; assumption|intros r; apply sibling_ne; congruence|apply A6; assumption].
Qed.
Lemma cstep_sim k q idx : sim_ok k -> valid_path q -> forall root n vals thr f c, 0 <= c < 8 -> csub root q (Some n) ->
  let '(root', vals', thr') := cstep' k q idx (root, vals, thr || f) c in
  let '(n', w, f') := cstep (down (cupd k)) idx (n, vals, f) c in
  csub root' q (Some n') /\ vals' = w /\ thr' = thr || f' /\ cframe q root root'.
Proof.
  intros IH Hq root n vals thr f c Hc S. unfold cstep', cstep, cact. set (ci := ochild idx c). set (x := oget vals c).
  destruct (is_unobserved (o_type W ci)).
  { rewrite orb_false_r. unfold x. rewrite oset_same by assumption. split; [exact S|]. split; [reflexivity|]. split; [reflexivity|apply frame_refl]. }
  change (nltb qn x (i_slo K)) with (qltb x (i_slo K)).
  destruct (negb (is_occupied (o_type W ci)) && qltb x (i_slo K)).
  { rewrite orb_false_r. unfold x. rewrite oset_same by assumption. split; [exact S|]. split; [reflexivity|]. split; [reflexivity|apply frame_refl]. }
  destruct (o_accept W ci).
  { rewrite !orb_true_r. split; [exact S|]. split; [reflexivity|]. split; [reflexivity|apply frame_refl]. }
  pose proof (sim_alloc cz cH cH_ok root q n c Hq Hc S) as A. cbv zeta in A.
  destruct A as (A1 & A2 & A3 & A4 & A5 & A6 & A7).
  destruct (nr_allocChild cz cH root (caddr q) c) as [root2 r2] eqn:Ea. cbn [fst snd] in *. subst r2.
  unfold down. destruct (oh ci <=? i_th K + 1).
  - destruct (sub_root _ _ _ _ _ A5) as (E1 & E2 & E3). change (nr_data cz root2 (caddr (q ++ [c]))) with (cdat root2 (q ++ [c])). rewrite E1.
    destruct (leaves_batch qn K W ci x (ndata (childOrNew cz n c))) as [v d].
    destruct (sim_setData cz cH cH_ok root2 (q ++ [c]) d (getChild (childOrNew cz n c)) (valid_snoc q c Hq Hc) E3) as (D1 & D2 & D3 & D4 & D5). cbv zeta in *.
    destruct (sim_descend root q n c root2 (nr_setData root2 (caddr (q ++ [c])) d) (Node d (nkids (childOrNew cz n c))) Hq Hc S) as [G1 G2].
    + rewrite Ea. reflexivity.
    + apply sub_intro; [exact D1|rewrite D2, E2; reflexivity|exact D3|]. intros c' Hc'. apply D5; [exact Hc'|].
      apply sub_child; assumption.
    + exact D4.
    + split; [exact G1|]. split; [reflexivity|]. split; [rewrite orb_false_r; reflexivity|exact G2].
  - specialize (IH root2 (q ++ [c]) (childOrNew cz n c) ci x (thr || f) (valid_snoc q c Hq Hc) A5).
    destruct (cu_rec qn K W k root2 (caddr (q ++ [c])) ci x (thr || f)) as [[root3 v] thr3].
    destruct (cupd k ci (childOrNew cz n c) x) as [[ch w] g]. destruct IH as (I1 & -> & -> & I4).
    destruct (sim_descend root q n c root2 root3 ch Hq Hc S) as [G1 G2]; [rewrite Ea; reflexivity|exact I1|exact I4|].
    split; [exact G1|]. split; [reflexivity|]. split; [rewrite orb_assoc; reflexivity|exact G2].
Qed.
Lemma cu_sim k : sim_ok k.
Proof.
  induction k as [|k IH]; intros root q n idx v thr Hq S.
  - cbn. split; [exact S|]. split; [reflexivity|]. split; [rewrite orb_false_r; reflexivity|apply frame_refl].
  - rewrite cu_rec_S. cbn [cupd]. destruct (sub_root _ _ _ _ _ S) as (E1 & _). rewrite E1.
    assert (L : forall cs root n vals f, (forall c, In c cs -> 0 <= c < 8) -> csub root q (Some n) ->
      let '(root', vals', thr') := fold_left (cstep' k q idx) cs (root, vals, thr || f) in
      let '(n', w, f') := fold_left (cstep (down (cupd k)) idx) cs (n, vals, f) in
      csub root' q (Some n') /\ vals' = w /\ thr' = thr || f' /\ cframe q root root').
    { induction cs as [|c cs IHc]; intros root0 n0 vals f Hr S0; cbn [fold_left].
      - split; [exact S0|]. split; [reflexivity|]. split; [reflexivity|apply frame_refl].
      - pose proof (cstep_sim k q idx IH Hq root0 n0 vals thr f c (Hr c (or_introl eq_refl)) S0) as G.
        destruct (cstep' k q idx (root0, vals, thr || f) c) as [[root1 vals1] thr1].
        destruct (cstep (down (cupd k)) idx (n0, vals, f) c) as [[n1 w1] f1]. destruct G as (G1 & -> & -> & G4).
        specialize (IHc root1 n1 w1 f1 (fun c' H => Hr c' (or_intror H)) G1).
        destruct (fold_left (cstep' k q idx) cs _) as [[root2 vals2] thr2].
        destruct (fold_left (cstep _ idx) cs _) as [[n2 w2] f2]. destruct IHc as (C1 & C2 & C3 & C4).
        split; [exact C1|]. split; [exact C2|]. split; [exact C3|eapply frame_trans; eassumption]. }
    specialize (L [0; 1; 2; 3; 4; 5; 6; 7] root n (backward3 qn v (ndata n)) false (fun c => proj1 (range8 c)) S).
    rewrite orb_false_r in L.
    destruct (fold_left (cstep' k q idx) _ _) as [[root1 vals1] thr1].
    destruct (fold_left (cstep _ idx) _ _) as [[n1 w1] f1]. destruct L as (L1 & -> & -> & L4).
    cbn [compress]. destruct (forward3 qn w1) as [s d]. cbn [fst snd].
    destruct (sub_root _ _ _ _ _ L1) as (F1 & F2 & F3).
    destruct (sim_setData cz cH cH_ok root1 q d (getChild n1) Hq F3) as (D1 & D2 & D3 & D4 & D5). cbv zeta in *.
    split; [|split; [reflexivity|split; [reflexivity|eapply frame_trans; eassumption]]].
    apply sub_intro; [exact D1|rewrite D2, F2; reflexivity|exact D3|]. intros c' Hc'. apply D5; [exact Hc'|].
    apply sub_child; assumption.
Qed.

(** ** Effect on each child *)
Definition cres (k : nat) (idx : oidx) (n : wnode) (x : Qc) (c : Z) : option wnode * Qc * bool :=
  match cact (ochild idx c) x with
  | Done v g => (getChild n c, v, g)
  | Refine => let '(ch, v, g) := down (cupd k) (ochild idx c) (childOrNew (dzero qn) n c) x in (Some ch, v, g)
  end.
Lemma cstep_eq k idx n vals f c : 0 <= c < 8 ->
  let '(n', vals', f') := cstep (down (cupd k)) idx (n, vals, f) c in
  let '(o, v, g) := cres k idx n (oget vals c) c in
  (forall c', 0 <= c' < 8 -> getChild n' c' = (if c' =? c then o else getChild n c') /\
                            oget vals' c' = (if c' =? c then v else oget vals c')) /\ f' = f || g.
Proof.
  intros Hc. unfold cstep, cres. destruct (cact (ochild idx c) (oget vals c)) as [v g|].
  - split; [|reflexivity]. intros c' Hc'. rewrite oget_oset by assumption.
    destruct (Z.eqb_spec c' c) as [->|]; split; reflexivity.
  - destruct (down _ _ _ _) as [[ch v] g]. split; [|reflexivity]. intros c' Hc'.
    rewrite oget_oset, getChild_setChild by assumption. split; reflexivity.
Qed.
Lemma fold_cstep k idx cs : Forall (fun c => 0 <= c < 8) cs -> NoDup cs -> forall n vals f,
  let '(n', vals', f') := fold_left (cstep (down (cupd k)) idx) cs (n, vals, f) in
  (forall c, 0 <= c < 8 ->
    if in_dec Z.eq_dec c cs
    then getChild n' c = fst (fst (cres k idx n (oget vals c) c)) /\ oget vals' c = snd (fst (cres k idx n (oget vals c) c))
    else getChild n' c = getChild n c /\ oget vals' c = oget vals c) /\
  f' = f || existsb (fun c => snd (cres k idx n (oget vals c) c)) cs.
Proof.
  induction cs as [|c0 cs IH]; intros Hr Hnd n vals f; cbn [fold_left].
  - split; [|cbn; rewrite orb_false_r; reflexivity]. intros c Hc. destruct (in_dec Z.eq_dec c []) as [[]|]. split; reflexivity.
  - inversion Hr as [|? ? Hc0 Hr']; inversion Hnd as [|? ? Hni Hnd']; subst.
    pose proof (cstep_eq k idx n vals f c0 Hc0) as S0.
    destruct (cstep (down (cupd k)) idx (n, vals, f) c0) as [[n1 v1] f1].
    specialize (IH Hr' Hnd' n1 v1 f1). destruct (fold_left _ _ _) as [[n2 v2] f2].
    destruct (cres k idx n (oget vals c0) c0) as [[o v] g] eqn:E0. destruct S0 as [S1 S2]. destruct IH as [I1 I2].
    assert (Same : forall c, 0 <= c < 8 -> c <> c0 -> cres k idx n1 (oget v1 c) c = cres k idx n (oget vals c) c).
    { intros c Hc Hne. destruct (S1 c Hc) as [A B]. rewrite (proj2 (Z.eqb_neq c c0) Hne) in A, B.
      unfold cres, childOrNew. rewrite A, B. reflexivity. }
    split.
    + intros c Hc. specialize (I1 c Hc). destruct (S1 c Hc) as [A B]. destruct (Z.eqb_spec c c0) as [->|Hne].
      * destruct (in_dec Z.eq_dec c0 cs); [contradiction|]. destruct (in_dec Z.eq_dec c0 (c0 :: cs)) as [_|X]; [|exfalso; apply X; left; reflexivity].
        rewrite E0. cbn [fst snd]. destruct I1 as [-> ->]. split; assumption.
      * rewrite Same in I1 by assumption.
        destruct (in_dec Z.eq_dec c cs) as [Hin|Hin], (in_dec Z.eq_dec c (c0 :: cs)) as [Hin2|Hin2].
        -- exact I1.
        -- exfalso. apply Hin2. right. exact Hin.
        -- destruct Hin2; [congruence|contradiction].
        -- rewrite A, B in I1. exact I1.
    + rewrite I2, S2. cbn [existsb]. rewrite E0. cbn [snd]. rewrite <- orb_assoc. do 2 f_equal.
      clear - Same Hni Hr'. induction cs as [|c cs IH]; [reflexivity|]. inversion Hr'; subst. cbn [existsb].
      rewrite Same; [|assumption|intros ->; apply Hni; left; reflexivity]. f_equal. apply IH; [assumption|].
      intros Hin. apply Hni. right. assumption.
Qed.
Lemma cupd_child k idx n v c : 0 <= c < 8 ->
  let '(n', v', f') := cupd (S k) idx n v in
  let r := cres k idx n (child_value v (ndata n) c) c in
  getChild n' c = fst (fst r) /\ child_value v' (ndata n') c = snd (fst r) /\
  (f' = false -> snd r = false).
Proof.
  intros Hc. cbn [cupd].
  pose proof (fold_cstep k idx [0; 1; 2; 3; 4; 5; 6; 7] ltac:(repeat constructor; lia) NoDup_up n (backward3 qn v (ndata n)) false) as F.
  destruct (fold_left _ _ _) as [[n' vals'] f']. cbn [compress]. destruct F as [F1 F2]. specialize (F1 c Hc).
  destruct (in_dec Z.eq_dec c [0; 1; 2; 3; 4; 5; 6; 7]) as [Hin|X]; [|exfalso; apply X; apply in_up; exact Hc].
  rewrite backward3_value in F1 by assumption. destruct F1 as [G1 G2]. cbn zeta. split; [exact G1|]. split.
  - cbn [ndata]. rewrite <- backward3_value by assumption. rewrite backward_forward3. exact G2.
  - intros ->. symmetry in F2. rewrite orb_false_l in F2.
    destruct (snd (cres k idx n (child_value v (ndata n) c) c)) eqn:E; [|reflexivity].
    rewrite <- F2. symmetry. apply existsb_exists. exists c. split; [assumption|].
    rewrite backward3_value by assumption. exact E.
Qed.

(** ** Cells *)
Lemma clamp2_spec x : (i_plo K <= i_phi K)%Qc -> clamp2 qn K x = clampq (i_plo K) (i_phi K) x.
Proof.
  intros Hle. rewrite clampq_qclamp. unfold clamp2, qclamp, nclamp. cbn [nltb qn].
  destruct (qltb x (i_plo K)) eqn:E1; [|reflexivity].
  destruct (qltb (i_phi K) (i_plo K)) eqn:E2; [|reflexivity]. apply qltb_iff in E2. exfalso. revert Hle E2. generalize (i_plo K), (i_phi K). intros a b A B. qlra.
Qed.
(** Change below a node that is not skipped and not accepted *)
Fixpoint cdelta (k : nat) (c : idx3) (n : wnode) (v : Qc) : Qc :=
  match k with
  | O => 0%Qc
  | S k' =>
      let j := cidx c (Z.of_nat k') in
      let x := child_value v (ndata n) j in
      match cact (anc c (Z.of_nat k')) x with
      | Done y _ => (y - x)%Qc
      | Refine =>
          let ch := childOrNew (dzero qn) n j in
          if Z.of_nat k' <=? i_th K + 1 then
            let x2 := child_value x (ndata ch) (cidx c (Z.of_nat k' - 1)) in
            (clamp2 qn K (o_sample W (anc c (Z.of_nat k' - 1)) + x2) - x2)%Qc
          else cdelta k' c ch x
      end
  end.
Lemma cupd_eval k : forall c n v, (2 <= k)%nat ->
  let '(n', v', _) := cupd k (anc c (Z.of_nat k)) n v in
  eval v' n' (path k c) = (eval v n (path k c) + cdelta k c n v)%Qc.
Proof.
  induction k as [|k IH]; intros c n v Hk; [lia|].
  pose proof (cupd_child k (anc c (Z.of_nat (S k))) n v (cidx c (Z.of_nat k)) (cidx_range _ _)) as U.
  destruct (cupd (S k) (anc c (Z.of_nat (S k))) n v) as [[n' v'] f']. cbv zeta in U. destruct U as (U1 & U2 & _).
  cbn [path eval cdelta]. rewrite U1, U2. unfold cres. rewrite ochild_anc.
  set (x := child_value v (ndata n) (cidx c (Z.of_nat k))) in *. set (j := cidx c (Z.of_nat k)) in *.
  destruct (cact (anc c (Z.of_nat k)) x) as [y g|] eqn:E.
  - cbn [fst snd]. destruct (getChild n j); [|ring]. rewrite <- eval_shift. f_equal. ring.
  - unfold down. cbn [anc oh]. fold (anc c (Z.of_nat k)). destruct (Z.leb_spec (Z.of_nat k) (i_th K + 1)) as [Hb|Hb].
    + unfold leaves_batch. rewrite (eval_childOrNew (path k c) x n j). set (ch := childOrNew (dzero qn) n j).
      destruct k as [|k]; [lia|]. cbn [path]. replace (Z.of_nat (S k) - 1) with (Z.of_nat k) by lia.
      set (vals := otab _). destruct (forward3 qn vals) as [s d] eqn:Ef. cbn [fst snd eval ndata].
      set (i := cidx c (Z.of_nat k)). pose proof (cidx_range c (Z.of_nat k)) as Hi. fold i in Hi.
      assert (Cv : child_value s d i = oget vals i).
      { rewrite <- backward3_value by assumption. replace s with (fst (forward3 qn vals)) by (rewrite Ef; reflexivity).
        replace d with (snd (forward3 qn vals)) by (rewrite Ef; reflexivity). rewrite backward_forward3. reflexivity. }
      rewrite Cv. unfold vals. rewrite oget_otab by assumption. rewrite backward3_value by assumption.
      unfold i. rewrite ochild_anc. fold i. cbn [nadd qn].
      change (getChild (Node d (nkids ch)) i) with (getChild ch i).
      set (x2 := child_value x (ndata ch) i). destruct (getChild ch i); [|ring].
      rewrite <- eval_shift. f_equal. ring.
    + specialize (IH c (childOrNew (dzero qn) n j) x ltac:(lia)).
      destruct (cupd k _ _ x) as [[ch y] g]. cbn [fst snd]. rewrite IH. rewrite <- (eval_childOrNew (path k c) x n j). reflexivity.
Qed.

(** ** Heights *)
Lemma nheight_kids {A} k (n : node A) d : nheight k n -> nheight k (Node d (nkids n)).
Proof. destruct k as [|k]; intros H; [exact H|]. intros c Hc. exact (H c Hc). Qed.
Lemma cupd_nheight k : forall idx n v, oh idx = Z.of_nat (S k) -> (1 <= k)%nat -> nheight k n ->
  nheight k (fst (fst (cupd (S k) idx n v))).
Proof.
  induction k as [|k IH]; intros idx n v Hi Hk Hn; [lia|]. intros c Hc.
  pose proof (cupd_child (S k) idx n v c Hc) as U.
  destruct (cupd (S (S k)) idx n v) as [[n' v'] f']. cbv zeta in U. destruct U as (U1 & _ & _). cbn [fst]. rewrite U1.
  unfold cres. destruct (cact (ochild idx c) (child_value v (ndata n) c)) as [y g|].
  - apply Hn. assumption.
  - unfold down. cbn [ochild oh]. fold (ochild idx c). pose proof (nheight_child k n c (dzero qn) Hn Hc) as Hch.
    destruct (Z.leb_spec (oh idx - 1) (i_th K + 1)).
    + destruct (leaves_batch _ _ _ _ _ _) as [s d]. cbn [fst]. apply nheight_kids. exact Hch.
    + specialize (IH (ochild idx c) (childOrNew (dzero qn) n c) (child_value v (ndata n) c) ltac:(cbn [ochild oh]; lia) ltac:(lia) Hch).
      destruct (cupd (S k) _ _ _) as [[ch y] g]. exact IH.
Qed.
End CUPD.
