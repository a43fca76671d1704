(** The operations of the chunked wavelet octree block simulate those of the pointer-based block. *)
From Verif Require Import Base M_IntMath F_IntMath M_Morton F_Morton M_NdtreeIndex F_NdtreeIndex
  M_Num F_Num M_Haar F_Haar M_Haar3 F_Haar3 M_Ndtree F_Hash M_Wavelet F_Wavelet F_Wavelet2 F_Leaves F_WavTree
  M_Octree F_Octree M_Chunked F_Chunked F_ChunkedSim.
From Coq Require Import QArith Qcanon Qcabs Lqa.
Close Scope Qc_scope.
Close Scope Q_scope.
Open Scope Z_scope.

Notation cz := (dzero qn).
Notation cH := kChunkHeight.
Notation csub := (F_ChunkedSim.sub cz cH).
Notation cframe := (F_ChunkedSim.frame cz cH).
Notation caddr := (addr cH).
Notation cdat := (dat cz cH).
Notation cbit := (bit cH).
Notation cpresent := (present cH).
Lemma cH_ok : 1 <= cH <= 20. Proof. unfold kChunkHeight. lia. Qed.
Lemma valid_snoc q c : valid_path q -> 0 <= c < 8 -> valid_path (q ++ [c]).
Proof. intros Hq Hc. apply valid_app. split; [assumption|apply valid_one; assumption]. Qed.
Lemma nheight_child {A} k (n : node A) c d : nheight (S k) n -> 0 <= c < 8 -> nheight k (childOrNew d n c).
Proof. intros Hn Hc. specialize (Hn c Hc). unfold childOrNew. destruct (getChild n c); [assumption|apply nheight_new]. Qed.

(** ** Reading *)
Lemma cb_get_sim k : forall root q n ph h p v, valid_path q -> csub root q (Some n) -> 0 <= h -> ph - h = Z.of_nat k -> ph <= 21 ->
  cb_get_loop qn k root ph (omorton (OI h p)) v (caddr q) = eval v n (path k p).
Proof.
  induction k as [|k IH]; intros root q n ph h p v Hq S Hh Hk Hp; cbn [cb_get_loop path eval]; [reflexivity|].
  rewrite rel_morton_cidx by lia. replace (ph - 1 - h) with (Z.of_nat k) by lia.
  pose proof (cidx_range p (Z.of_nat k)) as Hc. set (c := cidx p (Z.of_nat k)) in *.
  destruct (sub_root _ _ _ _ _ S) as (E1 & _). change (nr_data cz root (caddr q)) with (cdat root q). rewrite E1.
  rewrite bsc_value by assumption.
  pose proof (sim_getChild cz cH root q n c Hq Hc S) as G. destruct (nr_getChild cH root (caddr q) c) as [r|].
  - destruct G as (-> & _ & G). rewrite (IH root (q ++ [c]) (childOrNew cz n c)); try lia; try assumption; [|apply valid_snoc; assumption].
    symmetry. apply eval_childOrNew.
  - rewrite G. reflexivity.
Qed.

(** ** Updating *)
Lemma cb_down_app k : forall root ph m v r anc,
  cb_down qn k root ph m v (r :: anc) =
  let '(root', a, v') := cb_down qn k root ph m v [r] in (root', a ++ anc, v').
Proof.
  induction k as [|k IH]; intros root ph m v r anc; cbn [cb_down]; [reflexivity|].
  destruct (nr_allocChild cz cH root r _) as [root' r'].
  rewrite (IH _ _ _ _ r' (r :: anc)), (IH _ _ _ _ r' [r]).
  destruct (cb_down qn k root' (ph - 1) m _ [r']) as [[root2 a] v2]. rewrite <- app_assoc. reflexivity.
Qed.
Lemma cb_down_length k : forall root ph m v r, length (snd (fst (cb_down qn k root ph m v [r]))) = S k.
Proof.
  induction k as [|k IH]; intros root ph m v r; cbn [cb_down]; [reflexivity|].
  destruct (nr_allocChild cz cH root r _) as [root' r']. rewrite cb_down_app.
  specialize (IH root' (ph - 1) m (backwardSingleChild3 qn v (nr_data cz root r) (relativeChildIndexFromMorton 3 m ph)) r').
  destruct (cb_down qn k root' (ph - 1) m _ [r']) as [[root2 a] v2]. cbn [fst snd] in *. rewrite app_length. cbn. lia.
Qed.
Lemma cb_up_app a : forall b root ph m s,
  cb_up qn (a ++ b) root ph m s = let '(root', s') := cb_up qn a root ph m s in cb_up qn b root' (ph + Z.of_nat (length a)) m s'.
Proof.
  induction a as [|r a IH]; intros b root ph m s; cbn [app cb_up].
  - f_equal. cbn. lia.
  - destruct (forwardSingleChild3 qn s _) as [s1 d]. rewrite IH.
    destruct (cb_up qn a _ (ph + 1) m s1) as [root' s']. f_equal. cbn [length]. lia.
Qed.
(** Both loops for the nodes from [r] down. *)
Definition cb_both (k : nat) (root : chunk (det Qc)) (ph m : Z) (inc : Qc -> Qc) (v : Qc) (r : nref) : chunk (det Qc) * Qc :=
  let '(root1, a, val) := cb_down qn k root ph m v [r] in cb_up qn a root1 (ph - Z.of_nat k) m (inc val).
Lemma cb_both_S k root ph m inc v r :
  cb_both (S k) root ph m inc v r =
  let c := relativeChildIndexFromMorton 3 m ph in
  let '(root', r') := nr_allocChild cz cH root r c in
  let '(root2, x) := cb_both k root' (ph - 1) m inc (backwardSingleChild3 qn v (nr_data cz root r) c) r' in
  let '(s, d) := forwardSingleChild3 qn x c in
  (nr_setData root2 r (dadd qn (nr_data cz root2 r) d), s).
Proof.
  cbv zeta. unfold cb_both. cbn [cb_down]. destruct (nr_allocChild cz cH root r _) as [root' r'].
  rewrite cb_down_app.
  pose proof (cb_down_length k root' (ph - 1) m (backwardSingleChild3 qn v (nr_data cz root r) (relativeChildIndexFromMorton 3 m ph)) r') as L.
  destruct (cb_down qn k root' (ph - 1) m _ [r']) as [[root1 a] val]. cbn [fst snd] in L.
  rewrite cb_up_app. replace (ph - 1 - Z.of_nat k) with (ph - Z.of_nat (S k)) by lia.
  destruct (cb_up qn a root1 _ m (inc val)) as [root2 x]. cbn [cb_up]. rewrite L.
  replace (ph - Z.of_nat (S k) + Z.of_nat (S k)) with ph by lia.
  destruct (forwardSingleChild3 qn x _) as [s d]. reflexivity.
Qed.
Lemma cb_both_sim k : forall root q n ph m inc v, valid_path q -> csub root q (Some n) ->
  (forall j, 0 <= relativeChildIndexFromMorton 3 m j < 8) ->
  csub (fst (cb_both k root ph m inc v (caddr q))) q (Some (fst (update_loop qn k ph m inc v n))) /\
  snd (cb_both k root ph m inc v (caddr q)) = snd (update_loop qn k ph m inc v n) /\
  cframe q root (fst (cb_both k root ph m inc v (caddr q))).
Proof.
  induction k as [|k IH]; intros root q n ph m inc v Hq S Hm; destruct (sub_root _ _ _ _ _ S) as (E1 & E2 & E3).
  - unfold cb_both. cbn [cb_down cb_up update_loop]. rewrite Z.sub_0_r.
    destruct (forwardSingleChild3 qn (inc v) _) as [s d]. cbn [fst snd].
    change (nr_data cz root (caddr q)) with (cdat root q). rewrite E1.
    destruct (sim_setData cz cH cH_ok root q (dadd qn (ndata n) d) (getChild n) Hq E3) as (D1 & D2 & D3 & D4 & D5). cbv zeta in *.
    split; [|split; [reflexivity|exact D4]].
    apply sub_intro; [exact D1|rewrite D2; exact E2|exact D3|].
    intros c Hc. apply D5; [assumption|]. apply sub_child; assumption.
  - rewrite cb_both_S. cbn [update_loop]. cbv zeta. pose proof (Hm ph) as Hc.
    set (c := relativeChildIndexFromMorton 3 m ph) in *.
    change (nr_data cz root (caddr q)) with (cdat root q). rewrite E1.
    destruct (sim_alloc cz cH cH_ok root q n c Hq Hc S) as (A0 & A1 & A2 & A3 & A4 & A5 & A6). cbv zeta in *.
    destruct (nr_allocChild cz cH root (caddr q) c) as [root1 r1]. cbn [fst snd] in *. subst r1.
    specialize (IH root1 (q ++ [c]) (childOrNew cz n c) (ph - 1) m inc (backwardSingleChild3 qn v (ndata n) c)
      (valid_snoc q c Hq Hc) A4 Hm). destruct IH as (I1 & I2 & I3).
    destruct (cb_both k root1 (ph - 1) m inc _ (caddr (q ++ [c]))) as [root2 x].
    destruct (update_loop qn k (ph - 1) m inc _ (childOrNew cz n c)) as [ch' x']. cbn [fst snd] in *. subst x'.
    destruct (forwardSingleChild3 qn x c) as [s d]. cbn [fst snd].
    assert (Hn : is_prefix (q ++ [c]) q = false) by (destruct (prefix_self_snoc q [c]); [assumption|discriminate]).
    destruct (I3 q Hq Hn) as (K1 & K2 & K3). pose proof (K3 A3) as P2.
    change (nr_data cz root2 (caddr q)) with (cdat root2 q). rewrite K1, A1.
    change (ndata (setChild n c ch')) with (ndata n).
    destruct (sim_setData cz cH cH_ok root2 q (dadd qn (ndata n) d) (getChild (setChild n c ch')) Hq P2) as (D1 & D2 & D3 & D4 & D5).
    cbv zeta in *. split; [|split; [reflexivity|]].
    + apply sub_intro; [exact D1|rewrite D2, K2, A2; reflexivity|exact D3|].
      intros c' Hc'. apply D5; [assumption|].
      change (getChild (Node (dadd qn (ndata n) d) (nkids (setChild n c ch'))) c') with (getChild (setChild n c ch') c').
      rewrite gChild_set by assumption. destruct (Z.eqb_spec c' c) as [->|Hne]; [exact I1|].
      apply (frame_sub cz cH (q ++ [c]) (q ++ [c']) root1); [exact I3|apply valid_snoc; assumption| |apply A5; assumption].
      intros r. apply sibling_ne. auto.
    + eapply frame_trans; [exact A6|]. eapply frame_trans; [apply frame_wide with (s := [c]); exact I3|exact D4].
Qed.
Lemma update_nheight q : forall k c inc v (n : wnode), 0 <= c < 8 -> valid_path q -> (length q <= k)%nat ->
  nheight k n -> nheight k (fst (upd_path q c inc v n)).
Proof.
  induction q as [|c' q IH]; intros k c inc v n Hc Hq Hk Hn; cbn [upd_path].
  - destruct (forwardSingleChild3 qn (inc v) c). cbn [fst]. apply nheight_data. exact Hn.
  - inversion Hq; subst. cbn [length] in Hk. destruct k as [|k]; [lia|].
    specialize (IH k c' inc (child_value v (ndata n) c) (childOrNew cz n c)
      ltac:(assumption) ltac:(assumption) ltac:(lia) (nheight_child k n c cz Hn Hc)).
    destruct (upd_path q c' inc _ _) as [ch y]. destruct (forwardSingleChild3 qn y c). cbn [fst] in *.
    intros c2 Hc2.
    change (getChild (Node (dadd qn (ndata n) d) (nkids (setChild n c ch))) c2) with (getChild (setChild n c ch) c2).
    rewrite getChild_setChild by assumption. destruct (c2 =? c); [assumption|]. apply Hn; assumption.
Qed.

(** ** Thresholding *)
Lemma thr_new lo hi v : threshold_rec qn lo hi (Node cz None) v = (Node cz None, nclamp qn lo hi v).
Proof.
  cbn [threshold_rec].
  replace (omap (nclamp qn lo hi) (backward3 qn v cz)) with (backward3 qn (nclamp qn lo hi v) cz).
  - rewrite forward_backward3. reflexivity.
  - apply oct_ext. intros c Hc. rewrite oget_omap, !backward3_value, !child_value_zero by assumption. reflexivity.
Qed.
Lemma thr_kids lo hi n v : hasChildrenArray (fst (threshold_rec qn lo hi n v)) = hasChildrenArray n.
Proof.
  destruct n as [d [k|]]; cbn [threshold_rec]; [set (o := omap snd _)|set (o := omap _ _)]; destruct (forward3 qn o); reflexivity.
Qed.
Lemma thr_nheight lo hi k : forall n v, nheight k n -> nheight k (fst (threshold_rec qn lo hi n v)).
Proof.
  induction k as [|k IH]; intros n v Hn.
  - pose proof (thr_kids lo hi n v) as E. unfold nheight, hasChildrenArray in *. rewrite Hn in E.
    destruct (nkids (fst _)); [discriminate|reflexivity].
  - intros c Hc. destruct (thr_spec lo hi n v c Hc) as [E1 _]. rewrite E1. unfold thr_child.
    specialize (Hn c Hc). destruct (getChild n c) as [ch|]; cbn [fst]; [apply IH; assumption|exact I].
Qed.
(** forward3 of the thresholded child values gives the new node *)
Lemma thr_forward lo hi n v (vs : oct Qc) : (forall c, 0 <= c < 8 -> oget vs c = snd (thr_child lo hi n v c)) ->
  forward3 qn vs = (snd (threshold_rec qn lo hi n v), ndata (fst (threshold_rec qn lo hi n v))).
Proof.
  intros Hv. set (x := threshold_rec qn lo hi n v).
  replace vs with (backward3 qn (snd x) (ndata (fst x))) by
    (apply oct_ext; intros c Hc; rewrite Hv, backward3_value by assumption; apply (thr_spec lo hi n v c Hc)).
  rewrite forward_backward3. reflexivity.
Qed.

Definition thr_step (fuel : nat) (lo hi : Qc) (r : nref) (rv : chunk (det Qc) * oct Qc) (c : Z) : chunk (det Qc) * oct Qc :=
  let '(root1, vs) := rv in
  match nr_getChild cH root1 r c with
  | Some r' => let '(root2, s) := cb_threshold_rec qn fuel lo hi root1 r' (oget vs c) in (root2, oset vs c s)
  | None => (root1, oset vs c (nclamp qn lo hi (oget vs c)))
  end.
Section ThrLoop.
Context (fuel : nat) (lo hi : Qc) (q : list Z) (n : wnode) (v : Qc) (Hq : valid_path q).
Context (IH : forall root c (m : wnode) w, 0 <= c < 8 -> m = childOrNew cz n c -> csub root (q ++ [c]) (Some m) ->
  let x := cb_threshold_rec qn fuel lo hi root (caddr (q ++ [c])) w in
  csub (fst x) (q ++ [c]) (Some (fst (threshold_rec qn lo hi m w))) /\ snd x = snd (threshold_rec qn lo hi m w) /\
  cframe (q ++ [c]) root (fst x)).
Lemma thr_loop cs : forall root vs, NoDup cs -> (forall c, In c cs -> 0 <= c < 8) ->
  cpresent root q -> cbit root q = hasChildrenArray n -> cdat root q = ndata n ->
  (forall c, In c cs -> csub root (q ++ [c]) (getChild n c) /\ oget vs c = child_value v (ndata n) c) ->
  let x := fold_left (thr_step fuel lo hi (caddr q)) cs (root, vs) in
  cpresent (fst x) q /\ cbit (fst x) q = hasChildrenArray n /\ cdat (fst x) q = ndata n /\
  (forall c, In c cs -> csub (fst x) (q ++ [c]) (fst (thr_child lo hi n v c)) /\ oget (snd x) c = snd (thr_child lo hi n v c)) /\
  (forall c, 0 <= c < 8 -> ~ In c cs -> oget (snd x) c = oget vs c /\
     forall o, csub root (q ++ [c]) o -> csub (fst x) (q ++ [c]) o) /\
  cframe q root (fst x).
Proof.
  induction cs as [|c cs IHc]; intros root vs Hnd Hr Hp Hb Hd Hs; cbn [fold_left].
  - cbn [fst snd]. split; [exact Hp|]. split; [exact Hb|]. split; [exact Hd|].
    split; [intros c []|]. split; [|apply frame_refl]. intros c _ _. split; [reflexivity|auto].
  - inversion Hnd as [|? ? Hni Hnd']; subst. pose proof (Hr c ltac:(left; reflexivity)) as Hc.
    destruct (Hs c ltac:(left; reflexivity)) as [Sc Vc].
    (* one step *)
    assert (X : exists root1 s, thr_step fuel lo hi (caddr q) (root, vs) c = (root1, oset vs c s) /\
        csub root1 (q ++ [c]) (fst (thr_child lo hi n v c)) /\ s = snd (thr_child lo hi n v c) /\ cframe (q ++ [c]) root root1).
    { unfold thr_step. pose proof (getChild_spec cH root q c Hq Hc Hp) as G. unfold thr_child.
      destruct (nr_getChild cH root (caddr q) c) as [r|].
      - destruct G as (-> & G1 & G2).
        assert (Sn : csub root (q ++ [c]) (Some (childOrNew cz n c))).
        { unfold childOrNew. destruct (getChild n c); [exact Sc|apply sub_none_new; assumption]. }
        destruct (IH root c (childOrNew cz n c) (oget vs c) Hc eq_refl Sn) as (I1 & I2 & I3). cbv zeta in *.
        destruct (cb_threshold_rec qn fuel lo hi root (caddr (q ++ [c])) (oget vs c)) as [root2 s]. cbn [fst snd] in *.
        exists root2, s. split; [reflexivity|]. rewrite Vc in I1, I2. unfold childOrNew in I1, I2.
        destruct (getChild n c) as [ch|]; cbn [fst snd].
        + auto.
        + rewrite thr_new in I1, I2. split; [apply sub_new_none; exact I1|]. split; [exact I2|exact I3].
      - exists root, (nclamp qn lo hi (oget vs c)). split; [reflexivity|].
        destruct (getChild n c) as [ch|] eqn:Ec.
        + exfalso. destruct G as [G|G].
          * rewrite Hb in G. unfold hasChildrenArray in G. unfold getChild in Ec. destruct (nkids n); discriminate.
          * apply G. apply (sub_root _ _ _ _ _ Sc).
        + cbn [fst snd]. rewrite Vc. split; [exact Sc|]. split; [reflexivity|apply frame_refl]. }
    destruct X as (root1 & s & -> & S1 & -> & F1).
    assert (Hn : is_prefix (q ++ [c]) q = false) by (destruct (prefix_self_snoc q [c]); [assumption|discriminate]).
    destruct (F1 q Hq Hn) as (K1 & K2 & K3).
    assert (Hsib : forall c' o, 0 <= c' < 8 -> c' <> c -> csub root (q ++ [c']) o -> csub root1 (q ++ [c']) o).
    { intros c' o Hc' Hne So. apply (frame_sub cz cH (q ++ [c]) (q ++ [c']) root); [exact F1|apply valid_snoc; assumption| |exact So].
      intros r. apply sibling_ne. auto. }
    destruct (IHc root1 (oset vs c (snd (thr_child lo hi n v c))) Hnd') as (J1 & J2 & J3 & J4 & J5 & J6).
    + intros c' Hc'. apply Hr. right; assumption.
    + auto.
    + congruence.
    + congruence.
    + intros c' Hc'. pose proof (Hr c' ltac:(right; assumption)) as Hc'8.
      assert (c' <> c) by (intros ->; contradiction).
      destruct (Hs c' ltac:(right; assumption)) as [Sc' Vc']. split; [apply Hsib; assumption|].
      rewrite oget_oset by assumption. destruct (Z.eqb_spec c' c); [contradiction|assumption].
    + cbv zeta in *. set (x := fold_left _ cs _) in *.
      split; [exact J1|]. split; [exact J2|]. split; [exact J3|]. split; [|split].
      * intros c' [<-|Hc']; [|apply J4; assumption].
        destruct (J5 c Hc Hni) as [E Es]. split; [apply Es; exact S1|].
        rewrite E, oget_oset by assumption. rewrite Z.eqb_refl. reflexivity.
      * intros c' Hc' Hnin. assert (c' <> c) by (intros ->; apply Hnin; left; reflexivity).
        destruct (J5 c' Hc') as [E Es]; [intros Y; apply Hnin; right; assumption|]. split.
        -- rewrite E, oget_oset by assumption. destruct (Z.eqb_spec c' c); [contradiction|reflexivity].
        -- intros o So. apply Es. apply Hsib; assumption.
      * eapply frame_trans; [apply frame_wide with (s := [c]); exact F1|exact J6].
Qed.
End ThrLoop.
Lemma range8 c : In c [0; 1; 2; 3; 4; 5; 6; 7] <-> 0 <= c < 8.
Proof. cbn [In]. lia. Qed.
Lemma nodup8 : NoDup [0; 1; 2; 3; 4; 5; 6; 7].
Proof. repeat constructor; cbn [In]; lia. Qed.
Lemma cb_threshold_sim lo hi k : forall fuel root q n v, (k < fuel)%nat -> valid_path q -> nheight k n -> csub root q (Some n) ->
  let x := cb_threshold_rec qn fuel lo hi root (caddr q) v in
  csub (fst x) q (Some (fst (threshold_rec qn lo hi n v))) /\ snd x = snd (threshold_rec qn lo hi n v) /\ cframe q root (fst x).
Proof.
  induction k as [|k IH]; intros fuel root q n v Hf Hq Hn S; (destruct fuel as [|fuel]; [lia|]);
    destruct (sub_root _ _ _ _ _ S) as (E1 & E2 & E3); cbv zeta; cbn [cb_threshold_rec];
    change (nr_data cz root (caddr q)) with (cdat root q); rewrite E1; fold (thr_step fuel lo hi (caddr q)).
  - (* no children at all: every getChild returns null *)
    assert (Hb : cbit root q = false) by (rewrite E2; unfold hasChildrenArray; cbn in Hn; rewrite Hn; reflexivity).
    assert (L : forall cs vs, (forall c, In c cs -> 0 <= c < 8) -> fold_left (thr_step fuel lo hi (caddr q)) cs (root, vs) =
        (root, fold_left (fun vs c => oset vs c (nclamp qn lo hi (oget vs c))) cs vs)).
    { induction cs as [|c cs IHc]; intros vs Hr; cbn [fold_left]; [reflexivity|].
      assert (Eg : nr_getChild cH root (caddr q) c = None).
      { pose proof (getChild_spec cH root q c Hq (Hr c ltac:(left; reflexivity)) E3) as G. destruct (nr_getChild cH root (caddr q) c); [|reflexivity].
        destruct G as (_ & G & _). congruence. }
      unfold thr_step at 2. rewrite Eg. apply IHc. intros c' Hc'. apply Hr. right; assumption. }
    rewrite L by (intros c; apply range8).
    assert (Hg : forall c, getChild n c = None) by (intros c; unfold getChild; cbn in Hn; rewrite Hn; reflexivity).
    rewrite (thr_forward lo hi n v).
    2:{ intros c Hc. unfold thr_child. rewrite Hg. cbn [snd]. rewrite <- backward3_value by assumption.
        destruct (backward3 qn v (ndata n)). child8 c Hc; reflexivity. }
    cbn [fst snd].
    set (n' := fst (threshold_rec qn lo hi n v)).
    destruct (sim_setData cz cH cH_ok root q (ndata n') (getChild n') Hq E3) as (D1 & D2 & D3 & D4 & D5). cbv zeta in *.
    split; [|split; [reflexivity|exact D4]].
    apply sub_intro; [exact D1|rewrite D2, E2; symmetry; apply thr_kids|exact D3|].
    intros c Hc. apply D5; [assumption|]. destruct (thr_spec lo hi n v c Hc) as [Eq _]. unfold n'. rewrite Eq. unfold thr_child. rewrite Hg. cbn [fst].
    rewrite <- (Hg c). apply sub_child; assumption.
  - pose proof (thr_loop fuel lo hi q n v Hq) as L.
    specialize (L ltac:(intros root0 c m w Hc Em Sm; subst m; apply IH; [lia|apply valid_snoc; assumption|apply nheight_child; assumption|exact Sm])).
    specialize (L [0; 1; 2; 3; 4; 5; 6; 7] root (backward3 qn v (ndata n)) nodup8 (fun c => proj1 (range8 c)) E3 E2 E1).
    destruct L as (J1 & J2 & J3 & J4 & _ & J6).
    { intros c Hc. apply range8 in Hc. split; [apply sub_child; assumption|apply backward3_value; assumption]. }
    cbv zeta in *. destruct (fold_left (thr_step fuel lo hi (caddr q)) _ (root, backward3 qn v (ndata n))) as [root' vs'] eqn:Ef. cbn [fst snd] in *.
    assert (Ef' : fold_left (fun rv c => let '(root1, vs) := rv in
          match nr_getChild cH root1 (caddr q) c with
          | Some r' => let '(root2, s) := cb_threshold_rec qn fuel lo hi root1 r' (oget vs c) in (root2, oset vs c s)
          | None => (root1, oset vs c (nclamp qn lo hi (oget vs c)))
          end) [0; 1; 2; 3; 4; 5; 6; 7] (root, backward3 qn v (ndata n)) = (root', vs')) by exact Ef.
    rewrite ?Ef. rewrite (thr_forward lo hi n v) by (intros c Hc; apply J4; apply range8; assumption).
    cbn [fst snd]. set (n' := fst (threshold_rec qn lo hi n v)).
    destruct (sim_setData cz cH cH_ok root' q (ndata n') (getChild n') Hq J1) as (D1 & D2 & D3 & D4 & D5). cbv zeta in *.
    split; [|split; [reflexivity|eapply frame_trans; eassumption]].
    apply sub_intro; [exact D1|rewrite D2, J2; symmetry; apply thr_kids|exact D3|].
    intros c Hc. apply D5; [assumption|]. destruct (thr_spec lo hi n v c Hc) as [Eq _]. unfold n'. rewrite Eq. apply J4. apply range8. assumption.
Qed.

(** ** Pruning *)
Definition prune_kid (n : wnode) (c : Z) : option wnode :=
  match getChild n c with None => None | Some ch => prune_child qn (prune_rec qn ch) end.
Definition prune_step (fuel : nat) (r : nref) (rf : chunk (det Qc) * bool) (c : Z) : chunk (det Qc) * bool :=
  let '(root1, flag) := rf in
  match nr_getChild cH root1 r c with
  | Some r' =>
      let root2 := cb_prune_rec qn fuel root1 r' in
      if negb (nr_bit root2 r') && negb (det_nonzero_tol qn (nr_data cz root2 r'))
      then (nr_eraseChild cz cH root2 r c, flag)
      else (root2, true)
  | None => (root1, flag)
  end.
Definition isSome {A} (o : option A) : bool := match o with Some _ => true | None => false end.
Lemma prune_child_new : prune_child qn (prune_rec qn (Node cz None)) = None.
Proof. vm_compute. reflexivity. Qed.
Lemma prune_bit n : hasChildrenArray (prune_rec qn n) = existsb (fun c => isSome (prune_kid n c)) [0; 1; 2; 3; 4; 5; 6; 7].
Proof.
  destruct n as [d [k|]]; cbn [prune_rec]; [|reflexivity].
  set (k' := omap _ k).
  assert (E : existsb (fun c => isSome (prune_kid (Node d (Some k)) c)) [0; 1; 2; 3; 4; 5; 6; 7] = some_child k').
  { unfold prune_kid, getChild. cbn [nkids]. subst k'. destruct k. reflexivity. }
  rewrite E. destruct (some_child k'); reflexivity.
Qed.
Lemma prune_nheight k : forall n, nheight k n -> nheight k (prune_rec qn n).
Proof.
  induction k as [|k IH]; intros n Hn.
  - destruct n as [d kids]. cbn in Hn. rewrite Hn. reflexivity.
  - intros c Hc. rewrite prune_getChild by assumption. specialize (Hn c Hc). destruct (getChild n c) as [ch|]; [|exact I].
    unfold prune_child. destruct (negb _ && negb _); [exact I|]. apply IH. exact Hn.
Qed.
Section PruneLoop.
Context (fuel : nat) (q : list Z) (n : wnode) (Hq : valid_path q).
Context (IH : forall root c (m : wnode), 0 <= c < 8 -> m = childOrNew cz n c -> csub root (q ++ [c]) (Some m) ->
  let x := cb_prune_rec qn fuel root (caddr (q ++ [c])) in
  csub x (q ++ [c]) (Some (prune_rec qn m)) /\ cframe (q ++ [c]) root x).
Lemma prune_loop cs : forall root flag, NoDup cs -> (forall c, In c cs -> 0 <= c < 8) ->
  cpresent root q -> cbit root q = hasChildrenArray n -> cdat root q = ndata n ->
  (forall c, In c cs -> csub root (q ++ [c]) (getChild n c)) ->
  let x := fold_left (prune_step fuel (caddr q)) cs (root, flag) in
  cpresent (fst x) q /\ cdat (fst x) q = ndata n /\
  (forall c, In c cs -> csub (fst x) (q ++ [c]) (prune_kid n c)) /\
  snd x = flag || existsb (fun c => isSome (prune_kid n c)) cs /\
  (forall c, 0 <= c < 8 -> ~ In c cs -> forall o, csub root (q ++ [c]) o -> csub (fst x) (q ++ [c]) o) /\
  cframe q root (fst x).
Proof.
  induction cs as [|c cs IHc]; intros root flag Hnd Hr Hp Hb Hd Hs; cbn [fold_left].
  - cbn [fst snd existsb]. rewrite orb_false_r. split; [exact Hp|]. split; [exact Hd|].
    split; [intros c []|]. split; [reflexivity|]. split; [auto|apply frame_refl].
  - inversion Hnd as [|? ? Hni Hnd']; subst. pose proof (Hr c ltac:(left; reflexivity)) as Hc.
    pose proof (Hs c ltac:(left; reflexivity)) as Sc.
    assert (X : exists root1, prune_step fuel (caddr q) (root, flag) c = (root1, flag || isSome (prune_kid n c)) /\
        csub root1 (q ++ [c]) (prune_kid n c) /\ cframe (q ++ [c]) root root1).
    { unfold prune_step. pose proof (getChild_spec cH root q c Hq Hc Hp) as G. unfold prune_kid.
      destruct (nr_getChild cH root (caddr q) c) as [r|].
      - destruct G as (-> & G1 & G2).
        assert (Sn : csub root (q ++ [c]) (Some (childOrNew cz n c))).
        { unfold childOrNew. destruct (getChild n c); [exact Sc|apply sub_none_new; assumption]. }
        destruct (IH root c (childOrNew cz n c) Hc eq_refl Sn) as (I1 & I3). cbv zeta in *.
        set (root2 := cb_prune_rec qn fuel root (caddr (q ++ [c]))) in *.
        destruct (sub_root _ _ _ _ _ I1) as (D1 & D2 & D3).
        change (nr_bit root2 (caddr (q ++ [c]))) with (cbit root2 (q ++ [c])).
        change (nr_data cz root2 (caddr (q ++ [c]))) with (cdat root2 (q ++ [c])). rewrite D1, D2.
        assert (Hn : is_prefix (q ++ [c]) q = false) by (destruct (prefix_self_snoc q [c]); [assumption|discriminate]).
        destruct (I3 q Hq Hn) as (K1 & K2 & K3).
        assert (Ek : (match getChild n c with None => None | Some ch => prune_child qn (prune_rec qn ch) end) =
                     prune_child qn (prune_rec qn (childOrNew cz n c))).
        { unfold childOrNew. destruct (getChild n c); [reflexivity|]. symmetry. exact prune_child_new. }
        rewrite Ek. unfold prune_child. destruct (negb _ && negb _) eqn:Et; cbn [isSome].
        + rewrite orb_false_r. eexists. split; [reflexivity|].
          destruct (sim_erase cz cH cH_ok root2 q c Hq Hc (K3 Hp) (eq_trans K2 G1)) as [X1 X2]. cbv zeta in *.
          split; [exact X1|]. eapply frame_trans; eassumption.
        + rewrite orb_true_r. eexists. split; [reflexivity|]. split; [exact I1|exact I3].
      - exists root. destruct (getChild n c) as [ch|] eqn:Ec.
        + exfalso. destruct G as [G|G].
          * rewrite Hb in G. unfold hasChildrenArray in G. unfold getChild in Ec. destruct (nkids n); discriminate.
          * apply G. apply (sub_root _ _ _ _ _ Sc).
        + cbn [isSome]. rewrite orb_false_r. split; [reflexivity|]. split; [exact Sc|apply frame_refl]. }
    destruct X as (root1 & -> & S1 & F1).
    assert (Hn : is_prefix (q ++ [c]) q = false) by (destruct (prefix_self_snoc q [c]); [assumption|discriminate]).
    destruct (F1 q Hq Hn) as (K1 & K2 & K3).
    assert (Hsib : forall c' o, 0 <= c' < 8 -> c' <> c -> csub root (q ++ [c']) o -> csub root1 (q ++ [c']) o).
    { intros c' o Hc' Hne So. apply (frame_sub cz cH (q ++ [c]) (q ++ [c']) root); [exact F1|apply valid_snoc; assumption| |exact So].
      intros r. apply sibling_ne. auto. }
    destruct (IHc root1 (flag || isSome (prune_kid n c)) Hnd') as (J1 & J3 & J4 & Jf & J5 & J6).
    + intros c' Hc'. apply Hr. right; assumption.
    + auto.
    + congruence.
    + congruence.
    + intros c' Hc'. pose proof (Hr c' ltac:(right; assumption)) as Hc'8.
      assert (c' <> c) by (intros ->; contradiction). apply Hsib; try assumption. apply Hs. right; assumption.
    + cbv zeta in *. set (x := fold_left _ cs _) in *.
      split; [exact J1|]. split; [exact J3|]. split; [|split; [|split]].
      * intros c' [<-|Hc']; [|apply J4; assumption]. apply (J5 c Hc Hni). exact S1.
      * rewrite Jf. cbn [existsb]. rewrite orb_assoc. reflexivity.
      * intros c' Hc' Hnin o So. assert (c' <> c) by (intros ->; apply Hnin; left; reflexivity).
        apply J5; [assumption|intros Y; apply Hnin; right; assumption|]. apply Hsib; assumption.
      * eapply frame_trans; [apply frame_wide with (s := [c]); exact F1|exact J6].
Qed.
End PruneLoop.
Lemma cb_prune_sim k : forall fuel root q n, (k < fuel)%nat -> valid_path q -> nheight k n -> csub root q (Some n) ->
  let x := cb_prune_rec qn fuel root (caddr q) in csub x q (Some (prune_rec qn n)) /\ cframe q root x.
Proof.
  induction k as [|k IH]; intros fuel root q n Hf Hq Hn S; (destruct fuel as [|fuel]; [lia|]);
    destruct (sub_root _ _ _ _ _ S) as (E1 & E2 & E3); cbv zeta; cbn [cb_prune_rec]; fold (prune_step fuel (caddr q)).
  - assert (Hb : cbit root q = false) by (rewrite E2; unfold hasChildrenArray; cbn in Hn; rewrite Hn; reflexivity).
    assert (L : forall cs, (forall c, In c cs -> 0 <= c < 8) -> fold_left (prune_step fuel (caddr q)) cs (root, false) = (root, false)).
    { induction cs as [|c cs IHc]; intros Hr; cbn [fold_left]; [reflexivity|].
      assert (Eg : nr_getChild cH root (caddr q) c = None).
      { pose proof (getChild_spec cH root q c Hq (Hr c ltac:(left; reflexivity)) E3) as G. destruct (nr_getChild cH root (caddr q) c); [|reflexivity].
        destruct G as (_ & G & _). congruence. }
      unfold prune_step at 2. rewrite Eg. apply IHc. intros c' Hc'. apply Hr. right; assumption. }
    rewrite L by (intros c; apply range8).
    assert (En : prune_rec qn n = n) by (destruct n as [d kids]; cbn in Hn; rewrite Hn; reflexivity). rewrite En.
    destruct (sim_setBit cz cH cH_ok root q false (getChild n) Hq E3) as (D1 & D2 & D3 & D4 & D5). cbv zeta in *.
    split; [|exact D4]. apply sub_intro; [congruence|congruence|exact D3|].
    intros c Hc. apply D5; [assumption|]. apply sub_child; assumption.
  - pose proof (prune_loop fuel q n Hq) as L.
    specialize (L ltac:(intros root0 c m Hc Em Sm; subst m; apply IH; [lia|apply valid_snoc; assumption|apply nheight_child; assumption|exact Sm])).
    specialize (L [0; 1; 2; 3; 4; 5; 6; 7] root false nodup8 (fun c => proj1 (range8 c)) E3 E2 E1).
    destruct L as (J1 & J3 & J4 & Jf & _ & J6).
    { intros c Hc. apply range8 in Hc. apply sub_child; assumption. }
    cbv zeta in *. destruct (fold_left (prune_step fuel (caddr q)) _ (root, false)) as [root' flag] eqn:Ef. cbn [fst snd] in *.
    rewrite ?Ef. cbn [orb] in Jf. rewrite <- prune_bit in Jf.
    destruct (sim_setBit cz cH cH_ok root' q flag (prune_kid n) Hq J1) as (D1 & D2 & D3 & D4 & D5). cbv zeta in *.
    split; [|eapply frame_trans; eassumption].
    apply sub_intro; [rewrite D1, J3; symmetry; apply prune_data|congruence|exact D3|].
    intros c Hc. rewrite prune_getChild by assumption. apply (D5 c Hc). apply J4. apply range8. assumption.
Qed.

(** ** Leaves: the chunked tree visits like the pointer tree that stores all its nodes *)
Fixpoint mat (k : nat) (root : chunk (det Qc)) (q : list Z) : wnode :=
  Node (cdat root q)
    (match k with
     | O => None
     | S k' => if cbit root q
               then Some (otab (fun c => if isSome (nr_getChild cH root (caddr q) c) then Some (mat k' root (q ++ [c])) else None))
               else None
     end).
Lemma mat_child k root q n c : valid_path q -> 0 <= c < 8 -> nheight k n -> csub root q (Some n) ->
  match nr_getChild cH root (caddr q) c with
  | Some r => r = caddr (q ++ [c]) /\ exists k', k = S k' /\ getChild (mat k root q) c = Some (mat k' root (q ++ [c])) /\
              nheight k' (childOrNew cz n c) /\ csub root (q ++ [c]) (Some (childOrNew cz n c))
  | None => getChild (mat k root q) c = None /\ getChild n c = None
  end.
Proof.
  intros Hq Hc Hn S. pose proof (sim_getChild cz cH root q n c Hq Hc S) as G. destruct (sub_root _ _ _ _ _ S) as (E1 & E2 & E3).
  destruct (nr_getChild cH root (caddr q) c) as [r|] eqn:Er.
  - destruct G as (-> & Gb & G). split; [reflexivity|]. destruct k as [|k].
    + cbn in Hn. rewrite E2 in Gb. unfold hasChildrenArray in Gb. rewrite Hn in Gb. discriminate.
    + exists k. split; [reflexivity|]. split; [|split; [apply nheight_child; assumption|exact G]].
      unfold getChild. cbn [mat nkids]. rewrite Gb, oget_otab by assumption. rewrite Er. reflexivity.
  - split; [|exact G]. unfold getChild. destruct k as [|k]; cbn [mat nkids]; [reflexivity|].
    destruct (cbit root q); [|reflexivity]. rewrite oget_otab by assumption. rewrite Er. reflexivity.
Qed.
Lemma mat_eval k : forall root q n v p, valid_path q -> valid_path p -> nheight k n -> csub root q (Some n) ->
  eval v (mat k root q) p = eval v n p.
Proof.
  induction k as [|k IH]; intros root q n v p Hq Hp Hn S; destruct p as [|c p]; try reflexivity;
    inversion Hp as [|? ? Hc Hp']; subst; cbn [eval]; destruct (sub_root _ _ _ _ _ S) as (E1 & E2 & E3).
  - pose proof (mat_child 0 root q n c Hq Hc Hn S) as M. cbn [mat ndata]. rewrite E1.
    destruct (nr_getChild cH root (caddr q) c).
    + destruct M as (_ & k' & Ek & _). discriminate.
    + destruct M as [_ M]. rewrite M. reflexivity.
  - pose proof (mat_child (Datatypes.S k) root q n c Hq Hc Hn S) as M.
    replace (ndata (mat (Datatypes.S k) root q)) with (ndata n) by (cbn [mat ndata]; auto).
    destruct (nr_getChild cH root (caddr q) c).
    + destruct M as (_ & k' & Ek & Eg & Hn' & S'). injection Ek as <-. rewrite Eg.
      rewrite (IH root (q ++ [c]) (childOrNew cz n c)); [|apply valid_snoc; assumption|assumption|assumption|assumption].
      symmetry. apply eval_childOrNew.
    + destruct M as [M1 M2]. rewrite M1, M2. reflexivity.
Qed.
Lemma mat_height k : forall root q, height_ok (S k) (mat k root q).
Proof.
  induction k as [|k IH]; intros root q c Hc.
  - exact I.
  - unfold getChild. cbn [mat nkids]. destruct (cbit root q); [|exact I].
    rewrite oget_otab by assumption. destruct (isSome _); [apply IH|exact I].
Qed.
Inductive mat_rel (root : chunk (det Qc)) : oidx * nref * Qc -> oidx * wnode * Qc -> Prop :=
| MR k idx q n s : valid_path q -> nheight k n -> csub root q (Some n) ->
    mat_rel root (idx, caddr q, s) (idx, mat k root q, s).
Lemma cb_leaf_sim fuel : forall th root st st' acc, Forall2 (mat_rel root) st st' ->
  cb_leaf_loop qn fuel th root st acc = leaf_loop qn fuel th st' acc.
Proof.
  induction fuel as [|fuel IH]; intros th root st st' acc R; destruct R as [|e e' st st' Re R]; try reflexivity;
    destruct Re as [k idx q n s Hq Hn S]; cbn [cb_leaf_loop leaf_loop]; [reflexivity|].
  destruct (sub_root _ _ _ _ _ S) as (E1 & E2 & E3).
  replace (ndata (mat k root q)) with (cdat root q) by (destruct k; reflexivity).
  change (nr_data cz root (caddr q)) with (cdat root q).
  set (values := backward3 qn s (cdat root q)).
  assert (L : forall cs st st' acc, (forall c, In c cs -> 0 <= c < 8) -> Forall2 (mat_rel root) st st' ->
     Forall2 (mat_rel root) (fst (fold_left (cb_visit th root idx (caddr q) values) cs (st, acc)))
        (fst (fold_left (fun sa c => leaf_visit th (fst sa) (snd sa) idx (mat k root q) values c) cs (st', acc))) /\
     snd (fold_left (cb_visit th root idx (caddr q) values) cs (st, acc)) =
     snd (fold_left (fun sa c => leaf_visit th (fst sa) (snd sa) idx (mat k root q) values c) cs (st', acc))).
  { clear - Hq Hn S. induction cs as [|c cs IHc]; intros st st' acc Hr R; cbn [fold_left]; [split; [exact R|reflexivity]|].
    pose proof (mat_child k root q n c Hq (Hr c ltac:(left; reflexivity)) Hn S) as M.
    unfold cb_visit at 2 4. unfold leaf_visit at 2 4. cbn [fst snd].
    destruct (nr_getChild cH root (caddr q) c) as [r|].
    - destruct M as (-> & k' & -> & Eg & Hn' & S'). rewrite Eg.
      destruct (th <? oh (ochild idx c)); (apply IHc; [intros c' Hc'; apply Hr; right; assumption|]); [|exact R].
      constructor; [|exact R]. apply (MR root k' (ochild idx c) (q ++ [c]) (childOrNew cz n c)); try assumption.
      apply valid_snoc; [assumption|apply Hr; left; reflexivity].
    - destruct M as [-> _]. apply IHc; [intros c' Hc'; apply Hr; right; assumption|exact R]. }
  specialize (L [0; 1; 2; 3; 4; 5; 6; 7] st st' acc (fun c => proj1 (range8 c)) R). destruct L as [L1 L2].
  destruct (fold_left (cb_visit th root idx (caddr q) values) _ (st, acc)) as [s1 a1].
  destruct (fold_left _ _ (st', acc)) as [s2 a2]. cbn [fst snd] in *. subst a2. apply IH. exact L1.
Qed.
