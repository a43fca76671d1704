(** The invariant of the voxel display *)
From Verif Require Import Base M_IntMath F_IntMath M_NdtreeIndex M_Num F_Num M_Haar F_Haar M_Haar3 F_Haar3 M_Ndtree S_Field F_Hash M_Wavelet
  F_Wavelet F_Wavelet2 F_Leaves F_WavTree F_WavMap F_WavHash M_Point M_Adjacency M_Sdf M_Viz S_Viz F_Viz.
From Coq Require Import QArith Qcanon Qcabs Lqa Permutation.
Close Scope Qc_scope. Close Scope Q_scope. Open Scope Z_scope.

Section CFG.
Context (C : wconfig (V := Qc)) (w : Q) (HT : 1 <= cT C).
Notation T := (cT C).
Notation exp := (expected C w).

Record base (z : viz (V := Qc)) : Prop := {
  b_wfq : hwf (z_queue z);
  b_q : forall k h, getBlock (z_queue z) k = Some h -> 0 <= h < T;
  b_term : 0 <= z_term z < T;
  b_dr : forall k ls, getBlock (z_drawn z) k = Some ls -> widths_ok C w ls /\ exists h, 0 <= h < T /\ length ls = Z.to_nat (T + 1 - h) }.
Definition block_ok (z : viz) (m : hmap) (k : idx3) (b : wblock) : Prop :=
  getBlock (z_queue z) k <> None \/ z_last z < bstamp b \/
  exists h, 0 <= h < T /\ getBlock (z_drawn z) k = Some (exp m (z_sel z) h k b).
Definition map_ok (t : Z) (om : option (dmap (V := Qc))) : Prop :=
  forall d, om = Some d -> d_conf d = C /\ d_width d = w /\ well_formed C (d_blocks d) /\
    forall k b, getBlock (d_blocks d) k = Some b -> bstamp b <= t.
Definition tr_ok (tr : bool) (om : option (dmap (V := Qc))) (z : viz) : Prop :=
  tr = true -> z_visible z = true -> forall d k b, om = Some d -> getBlock (d_blocks d) k = Some b -> block_ok z (d_blocks d) k b.
Definition sy_ok (sy : bool) (om : option (dmap (V := Qc))) (z : viz (V := Qc)) : Prop :=
  sy = true -> z_visible z = true -> forall d, om = Some d ->
  (forall k, getBlock (z_drawn z) k <> None \/ getBlock (z_queue z) k <> None -> getBlock (d_blocks d) k <> None) /\
  (forall k b, getBlock (d_blocks d) k = Some b -> bstamp b <= z_last z).
Record vinv (tr sy : bool) (t : Z) (om : option (dmap (V := Qc))) (z : viz) : Prop := {
  i_base : base z; i_last : z_last z <= t; i_map : map_ok t om; i_tr : tr_ok tr om z; i_sy : sy_ok sy om z }.

Lemma expected_band m m' s h k b : s_surface_mode s = false -> exp m s h k b = exp m' s h k b.
Proof.
  intros E. unfold expected. apply map_ext. intros d. f_equal. unfold cells_at. f_equal. apply filter_ext. intros iv.
  unfold drawn_leaf, shouldBeDrawn. rewrite E. reflexivity.
Qed.

(** ** updateMap *)
Lemma due_in (r : bool) (last : Z) (m : qmap) k : hwf m ->
  existsb (ieqb k) (map fst (filter (fun kb => r || (last <? bstamp (snd kb))) m)) = true <->
  exists b, getBlock m k = Some b /\ (r = true \/ last < bstamp b).
Proof.
  intros W. rewrite existsb_ieqb, in_map_iff. split.
  - intros ([k' b] & E & Hin). cbn [fst] in E. subst k'. apply filter_In in Hin as [Hin Hf]. exists b. split; [apply In_getBlock; assumption|].
    cbn [snd] in Hf. apply orb_true_iff in Hf as [Hf|Hf]; [left; exact Hf|right; apply Z.ltb_lt; exact Hf].
  - intros (b & E & H). exists (k, b). split; [reflexivity|]. apply filter_In. split; [apply getBlock_In; exact E|]. cbn [snd].
    apply orb_true_iff. destruct H as [H|H]; [left; exact H|right; apply Z.ltb_lt; exact H].
Qed.
Lemma updateMap_inv r now z d tr sy : z_last z <= now -> vinv tr sy now (Some d) z ->
  vinv (tr || r) true now (Some d) (updateMap r now z (Some d)).
Proof.
  intros Hl [B L M Tr Sy]. unfold updateMap. destruct (z_visible z) eqn:Ev.
  2:{ split; try assumption; intros _ X; congruence. }
  destruct (M d eq_refl) as (Ec & Ew & [W Wt] & St). set (m := d_blocks d) in *.
  assert (G : forall k, getBlock (fold_left (fun q kb => setBlock q (fst kb) (z_term z)) (filter (fun kb => r || (z_last z <? bstamp (snd kb))) m)
      (filter (fun kb => hasBlock m (fst kb)) (z_queue z))) k =
      if existsb (ieqb k) (map fst (filter (fun kb => r || (z_last z <? bstamp (snd kb))) m)) then Some (z_term z)
      else if hasBlock m k then getBlock (z_queue z) k else None).
  { intros k. rewrite fold_setBlock. rewrite getBlock_filter_key. reflexivity. }
  destruct B as [B1 B2 B3 B4].
  split; cbn [z_drawn z_queue z_last z_force z_visible z_term z_sel].
  - split; cbn [z_drawn z_queue z_last z_force z_visible z_term z_sel].
    + apply fold_setBlock_wf. apply filter_wf. exact B1.
    + intros k h. rewrite G. destruct (existsb _ _); [intros E; injection E as <-; exact B3|]. destruct (hasBlock m k); [apply B2|discriminate].
    + exact B3.
    + intros k ls. rewrite getBlock_filter_key. destruct (hasBlock m k); [apply B4|discriminate].
  - lia.
  - exact M.
  - intros Ht _ d' k b Ed Hb. injection Ed as <-. fold m in Hb |- *. unfold block_ok. cbn [z_drawn z_queue z_last z_force z_visible z_term z_sel].
    rewrite G, getBlock_filter_key. assert (Hh : hasBlock m k = true) by (unfold hasBlock; rewrite Hb; reflexivity). rewrite Hh.
    destruct (existsb _ _) eqn:Ee; [left; discriminate|].
    assert (Hn : ~ (r = true \/ z_last z < bstamp b)).
    { intros X. assert (Y : existsb (ieqb k) (map fst (filter (fun kb => r || (z_last z <? bstamp (snd kb))) m)) = true) by (apply due_in; [exact W|]; exists b; auto). congruence. }
    destruct r; [exfalso; apply Hn; left; reflexivity|]. rewrite orb_false_r in Ht.
    destruct (Tr Ht Ev d k b eq_refl Hb) as [H|[H|H]]; [left; exact H|exfalso; apply Hn; right; exact H|right; right; exact H].
  - intros _ _ d' Ed. injection Ed as <-. fold m. cbn [z_drawn z_queue z_last z_force z_visible z_term z_sel]. split; [|exact St].
    intros k. rewrite G, getBlock_filter_key. unfold hasBlock.
    destruct (existsb _ _) eqn:Ee.
    + intros _. apply due_in in Ee; [|exact W]. destruct Ee as (b & E & _). rewrite E. discriminate.
    + destruct (getBlock m k); [discriminate|]. tauto.
Qed.
Lemma updateMap_none r now (z : viz (V := Qc)) : updateMap r now z None = z.
Proof. reflexivity. Qed.

(** ** updateLOD *)
Lemma recommended_range raw lo : 0 <= lo < T -> lo <= recommended raw lo (T - 1) <= T - 1.
Proof. intros H. unfold recommended. destruct raw as [r|]; [|lia]. destruct (Z.ltb_spec r lo); [lia|]. destruct (Z.ltb_spec (T - 1) r); lia. Qed.
Lemma lodBlock_same raw (z : viz (V := Qc)) k : let z' := lodBlock C raw z k in
  z_drawn z' = z_drawn z /\ z_last z' = z_last z /\ z_force z' = z_force z /\ z_visible z' = z_visible z /\ z_term z' = z_term z /\ z_sel z' = z_sel z.
Proof. cbv zeta. unfold lodBlock. destruct (hasBlock _ _); [repeat split|]. destruct (currentLod C z k); [|repeat split]. destruct (_ || _); repeat split. Qed.
Lemma lodBlock_queue raw (z : viz (V := Qc)) k j :
  getBlock (z_queue (lodBlock C raw z k)) j = getBlock (z_queue z) j \/
  (j = k /\ getBlock (z_queue (lodBlock C raw z k)) j = Some (recommended (raw k) (z_term z) (T - 1))).
Proof.
  unfold lodBlock. set (r := recommended _ _ _).
  assert (X : getBlock (setBlock (z_queue z) k r) j = getBlock (z_queue z) j \/ (j = k /\ getBlock (setBlock (z_queue z) k r) j = Some r)).
  { rewrite getBlock_setBlock. destruct (ieqb_spec k j) as [->|]; [right|left]; auto. }
  destruct (hasBlock _ _); [exact X|]. destruct (currentLod C z k) as [cur|]; [|left; reflexivity]. destruct (_ || _); [exact X|left; reflexivity].
Qed.
Lemma lodBlock_base raw z k : base z -> base (lodBlock C raw z k).
Proof.
  intros [B1 B2 B3 B4]. destruct (lodBlock_same raw z k) as (E1 & E2 & E3 & E4 & E5 & E6). split.
  - unfold lodBlock. destruct (hasBlock _ _); [apply setBlock_wf; exact B1|]. destruct (currentLod C z k); [|exact B1].
    destruct (_ || _); [apply setBlock_wf; exact B1|exact B1].
  - intros j h Hj. destruct (lodBlock_queue raw z k j) as [E|[-> E]]; [rewrite E in Hj; apply (B2 j h Hj)|].
    rewrite E in Hj. injection Hj as <-. pose proof (recommended_range (raw k) (z_term z) B3). lia.
  - rewrite E5. exact B3.
  - rewrite E1. exact B4.
Qed.
Lemma lodBlock_grows raw (z : viz (V := Qc)) k j : getBlock (z_queue z) j <> None -> getBlock (z_queue (lodBlock C raw z k)) j <> None.
Proof. intros H. destruct (lodBlock_queue raw z k j) as [->|[_ ->]]; [exact H|discriminate]. Qed.
Lemma lodBlock_inv raw z k tr sy t om : (forall d, om = Some d -> getBlock (d_blocks d) k <> None) ->
  vinv tr sy t om z -> vinv tr sy t om (lodBlock C raw z k).
Proof.
  intros Hk [B L M Tr Sy]. destruct (lodBlock_same raw z k) as (E1 & E2 & E3 & E4 & E5 & E6). split.
  - apply lodBlock_base. exact B.
  - rewrite E2. exact L.
  - exact M.
  - intros Ht Hv d j b Ed Hb. rewrite E4 in Hv. specialize (Tr Ht Hv d j b Ed Hb). unfold block_ok in *. rewrite E1, E2, E6.
    destruct Tr as [H|H]; [left; apply lodBlock_grows; exact H|right; exact H].
  - intros Hs Hv d Ed. rewrite E4 in Hv. destruct (Sy Hs Hv d Ed) as [S1 S2]. rewrite E1, E2. split; [|exact S2].
    intros j [H|H]; [apply S1; left; exact H|]. destruct (lodBlock_queue raw z k j) as [E|[-> E]]; [rewrite E in H; apply S1; right; exact H|apply Hk; exact Ed].
Qed.
Lemma updateLOD_inv raw z tr sy t om : vinv tr sy t om z -> vinv tr sy t om (updateLOD raw z om).
Proof.
  intros I. unfold updateLOD. destruct om as [d|]; [|exact I]. destruct (z_visible z); [|exact I].
  destruct (i_map _ _ _ _ _ I d eq_refl) as (-> & _).
  assert (X : forall l z, (forall k, In k l -> getBlock (d_blocks d) k <> None) -> vinv tr sy t (Some d) z -> vinv tr sy t (Some d) (fold_left (lodBlock C raw) l z)).
  { induction l as [|k l IH]; intros z' Hl I'; cbn [fold_left]; [exact I'|]. apply IH; [intros j Hj; apply Hl; right; exact Hj|].
    apply lodBlock_inv; [|exact I']. intros d' Ed. injection Ed as <-. apply Hl. left; reflexivity. }
  apply X; [|exact I]. intros k Hk. apply getBlock_keys. exact Hk.
Qed.

(** ** Drawing *)
Definition memk (k : idx3) (S : list idx3) : bool := existsb (ieqb k) S.
Definition effect (m : hmap) (S : list idx3) (z z' : viz) : Prop :=
  (forall k, getBlock (z_queue z') k = if memk k S then None else getBlock (z_queue z) k) /\
  (forall k, if memk k S then exists b h, getBlock m k = Some b /\ getBlock (z_queue z) k = Some h /\ getBlock (z_drawn z') k = Some (exp m (z_sel z) h k b)
             else getBlock (z_drawn z') k = getBlock (z_drawn z) k) /\
  z_last z' = z_last z /\ z_force z' = z_force z /\ z_visible z' = z_visible z /\ z_term z' = z_term z /\ z_sel z' = z_sel z.
Lemma effect_base m S z z' : base z -> hwf (z_queue z') -> effect m S z z' -> base z'.
Proof.
  intros [B1 B2 B3 B4] W (E1 & E2 & E3 & E4 & E5 & E6 & E7). split; [exact W| | |].
  - intros k h. rewrite E1. destruct (memk k S); [discriminate|]. apply B2.
  - rewrite E6. exact B3.
  - intros k ls Hk. specialize (E2 k). destruct (memk k S); [|rewrite E2 in Hk; apply (B4 k ls Hk)].
    destruct E2 as (b & h & Eb & Eh & Ed). rewrite Ed in Hk. injection Hk as <-. split; [apply expected_widths|].
    exists h. split; [apply (B2 k h Eh)|apply expected_length].
Qed.
Lemma drawBlocks_effect m : forall l n z, base z -> NoDup l -> (forall k, In k l -> getBlock (z_queue z) k <> None) ->
  exists z' S, drawBlocks qn (DM C w m) n l z = Some z' /\ incl S l /\ effect m S z z' /\ hwf (z_queue z') /\
    ((exists k, In k l /\ getBlock m k <> None) -> S <> []).
Proof.
  induction l as [|k l IH]; intros n z B ND Hq; cbn [drawBlocks].
  - exists z, []. split; [reflexivity|]. split; [intros x []|]. split; [|split; [apply B|intros (x & [] & _)]]. repeat split.
  - cbn [d_blocks]. inversion ND as [|x y N1 N2]; subst.
    destruct (getBlock m k) as [b|] eqn:Eb.
    2:{ destruct (IH n z B N2 (fun j Hj => Hq j (or_intror Hj))) as (z' & S & E & Hi & He & W & Hne). exists z', S. split; [exact E|].
        split; [intros x Hx; right; apply Hi; exact Hx|]. split; [exact He|]. split; [exact W|]. intros (j & [<-|Hj] & Hb); [congruence|]. apply Hne. exists j. auto. }
    assert (Hk := Hq k (or_introl eq_refl)). destruct (getBlock (z_queue z) k) as [h|] eqn:Eh; [|congruence]. clear Hk.
    rewrite (drawBlock_spec C w m k b z h HT Eh (b_q z B k h Eh) (fun ls E => proj1 (b_dr z B k ls E))).
    set (z1 := Viz _ _ _ _ _ _ _).
    assert (Ef1 : effect m [k] z z1).
    { unfold effect, memk. cbn [existsb z1 z_drawn z_queue z_last z_force z_visible z_term z_sel]. split; [|split; [|repeat split]].
      - intros j. rewrite getBlock_eraseBlock. rewrite (ieqb_sym j k), orb_false_r. reflexivity.
      - intros j. rewrite getBlock_setBlock, (ieqb_sym j k), orb_false_r. destruct (ieqb_spec k j) as [->|]; [|reflexivity]. exists b, h. auto. }
    assert (W1 : hwf (z_queue z1)) by (apply eraseBlock_wf; apply B).
    destruct n as [|n].
    { exists z1, [k]. split; [reflexivity|]. split; [intros x [<-|[]]; left; reflexivity|]. split; [exact Ef1|]. split; [exact W1|]. discriminate. }
    destruct (IH n z1 (effect_base m [k] z z1 B W1 Ef1) N2) as (z' & S & E & Hi & He & W & Hne).
    { intros j Hj. destruct Ef1 as [E1 _]. rewrite E1. unfold memk. cbn [existsb]. destruct (ieqb_spec j k) as [->|]; [contradiction|]. apply Hq. right; exact Hj. }
    exists z', (k :: S). split; [exact E|]. split; [intros x [<-|Hx]; [left; reflexivity|right; apply Hi; exact Hx]|].
    split; [|split; [exact W|discriminate]].
    destruct Ef1 as (F1 & F2 & F3 & F4 & F5 & F6 & F7), He as (G1 & G2 & G3 & G4 & G5 & G6 & G7).
    assert (HkS : memk k S = false).
    { destruct (memk k S) eqn:X; [|reflexivity]. exfalso. apply N1. apply Hi. apply existsb_ieqb. exact X. }
    split; [|split; [|rewrite G3, G4, G5, G6, G7; repeat split]].
    + intros j. rewrite G1, F1. unfold memk. cbn [existsb]. rewrite orb_false_r. fold (memk j S). destruct (memk j S), (ieqb j k); reflexivity.
    + intros j. specialize (G2 j). specialize (F2 j). unfold memk in F2. cbn [existsb] in F2. rewrite orb_false_r in F2.
      unfold memk. cbn [existsb]. fold (memk j S). destruct (ieqb j k) eqn:Ej.
      * cbn [orb]. apply ieqb_iff in Ej. subst j. rewrite HkS in G2. rewrite G2. exact F2.
      * cbn [orb]. destruct (memk j S) eqn:X; [|rewrite G2; exact F2].
        destruct G2 as (b' & h' & Y1 & Y2 & Y3). exists b', h'. split; [exact Y1|]. rewrite F1 in Y2. unfold memk in Y2. cbn [existsb] in Y2.
        rewrite Ej in Y2. split; [exact Y2|]. rewrite F7 in Y3. exact Y3.
Qed.
Lemma effect_inv m S z z' tr sy t : vinv tr sy t (Some (DM C w m)) z -> hwf (z_queue z') -> effect m S z z' -> vinv tr sy t (Some (DM C w m)) z'.
Proof.
  intros [B L M Tr Sy] W Ef. assert (B' := effect_base m S z z' B W Ef). destruct Ef as (E1 & E2 & E3 & E4 & E5 & E6 & E7). split; [exact B'| |exact M| |].
  - rewrite E3. exact L.
  - intros Ht Hv d k b Ed Hb. injection Ed as <-. cbn [d_blocks] in *. rewrite E5 in Hv. specialize (Tr Ht Hv _ k b eq_refl Hb). unfold block_ok in *.
    rewrite E3, E1, E7. specialize (E2 k). destruct (memk k S).
    + destruct E2 as (b' & h & X1 & X2 & X3). right. right. exists h. split; [apply (b_q z B k h X2)|]. cbn [d_blocks] in X1. congruence.
    + rewrite E2. exact Tr.
  - intros Hs Hv d Ed. injection Ed as <-. cbn [d_blocks]. rewrite E5 in Hv. destruct (Sy Hs Hv _ eq_refl) as [S1 S2]. cbn [d_blocks] in *. rewrite E3. split; [|exact S2].
    intros k Hk. specialize (E2 k). rewrite E1 in Hk. destruct (memk k S); [destruct E2 as (b & h & X1 & _); rewrite X1; discriminate|].
    rewrite E2 in Hk. apply S1. exact Hk.
Qed.
Lemma dm_eta (d : dmap (V := Qc)) : d_conf d = C -> d_width d = w -> d = DM C w (d_blocks d).
Proof. destruct d. cbn. intros -> ->. reflexivity. Qed.
Lemma processQueue_effect ord n z tr sy t om : (forall q, Permutation (ord q) q) -> vinv tr sy t om z ->
  exists z', processQueue qn ord n z om = Some z' /\ vinv tr sy t om z' /\
    (forall d, om = Some d -> z_visible z = true -> exists S, incl S (map fst (z_queue z)) /\ effect (d_blocks d) S z z' /\
       ((exists k, getBlock (z_queue z) k <> None /\ getBlock (d_blocks d) k <> None) -> S <> [])).
Proof.
  intros Hp I. unfold processQueue. destruct om as [d|].
  2:{ exists z. split; [reflexivity|]. split; [exact I|]. discriminate. }
  destruct (i_map _ _ _ _ _ I d eq_refl) as (Ec & Ew & Wf & _). destruct (z_visible z) eqn:Ev.
  2:{ exists z. split; [reflexivity|]. split; [exact I|]. discriminate. }
  assert (Ed := dm_eta d Ec Ew). rewrite Ed in I |- *. set (m := d_blocks d) in *. clearbody m. clear Ed.
  destruct (drawBlocks_effect m (ord (map fst (z_queue z))) n z (i_base _ _ _ _ _ I)) as (z' & S & E & Hi & He & W & Hne).
  - eapply Permutation_NoDup; [apply Permutation_sym; apply Hp|]. apply (i_base _ _ _ _ _ I).
  - intros k Hk. apply getBlock_keys. eapply Permutation_in; [apply Hp|exact Hk].
  - exists z'. split; [exact E|]. split; [exact (effect_inv m S z z' tr sy t I W He)|]. intros d' Ed' _. injection Ed' as <-. cbn [d_blocks]. exists S.
    split; [intros x Hx; eapply Permutation_in; [apply Hp|apply Hi; exact Hx]|]. split; [exact He|]. intros (k & H1 & H2). apply Hne. exists k. split; [|exact H2].
    eapply Permutation_in; [apply Permutation_sym; apply Hp|]. apply getBlock_keys. exact H1.
Qed.
Lemma force_inv z b tr sy t om : vinv tr sy t om z ->
  vinv tr sy t om (Viz (z_drawn z) (z_queue z) (z_last z) b (z_visible z) (z_term z) (z_sel z)).
Proof. intros [[B1 B2 B3 B4] L M Tr Sy]. split; [split; assumption|exact L|exact M|exact Tr|exact Sy]. Qed.
Lemma prerender_inv f z tr sy t om : (forall q, Permutation (f_order f q) q) -> vinv tr sy t om z ->
  exists z', prerender qn f (z, om) = Some (z', om) /\ vinv tr sy t om z'.
Proof.
  intros Hp I. unfold prerender. match goal with |- context [processQueue _ _ _ ?x _] => set (z1 := x) end.
  assert (I1 : vinv tr sy t om z1).
  { unfold z1. destruct (_ || _); [|exact I]. apply force_inv. apply updateLOD_inv. exact I. }
  destruct (processQueue_effect (f_order f) (f_more f) z1 tr sy t om Hp I1) as (z' & E & I' & _). exists z'. rewrite E. split; [reflexivity|exact I'].
Qed.

(** ** Histories *)
Definition om_blocks (om : option (dmap (V := Qc))) : option hmap := option_map d_blocks om.
Lemma history_inv : forall l z om tr sy t, vinv tr sy t om z -> history C w (om_blocks om) t l ->
  exists z' om' t', vrun qn (z, om) l = Some (z', om') /\
    vinv (tracked (s_surface_mode (z_sel z)) tr l) (notified sy l) t' om' z'.
Proof.
  induction l as [|e l IH]; intros z om tr sy t I H; cbn [vrun].
  - exists z, om, t. split; [reflexivity|exact I].
  - destruct e as [d r sh now|f|b now|h|s now|]; cbn [history] in H; cbn [vstep tracked notified].
    + destruct H as (H1 & Ec & Ew & Wf & Hb & H).
      assert (I0 : vinv (tr && negb (s_surface_mode (z_sel z))) false now (Some d) z).
      { destruct I as [B L M Tr Sy]. split; [exact B|lia| | |intros X; discriminate].
        - intros d' Ed. injection Ed as <-. repeat split; try assumption; [apply Wf|apply Wf|]. intros k b Hk.
          destruct (Hb k b Hk) as [X|(m & Em & X)]; [lia|]. destruct om as [d0|]; [|discriminate]. cbn in Em. injection Em as <-.
          destruct (M d0 eq_refl) as (_ & _ & _ & St). specialize (St k b X). lia.
        - intros Ht Hv d' k b Ed Hk. injection Ed as <-. apply andb_true_iff in Ht as [Ht Hs]. apply negb_true_iff in Hs.
          destruct (Hb k b Hk) as [X|(m & Em & X)]; [right; left; lia|]. destruct om as [d0|]; [|discriminate]. cbn in Em. injection Em as <-.
          destruct (Tr Ht Hv d0 k b eq_refl X) as [Y|[Y|(h & Y1 & Y2)]]; [left; exact Y|right; left; exact Y|]. right. right. exists h. split; [exact Y1|].
          rewrite Y2. f_equal. apply expected_band. exact Hs. }
      destruct sh.
      * rewrite andb_true_r. assert (I1 := updateMap_inv r now z d _ _ (i_last _ _ _ _ _ I0) I0).
        rewrite orb_comm in I1. destruct (IH _ _ _ _ _ I1 H) as (z' & om' & t' & E & I').
        exists z', om', t'. split; [exact E|]. replace (s_surface_mode (z_sel (updateMap r now z (Some d)))) with (s_surface_mode (z_sel z)) in I'; [exact I'|].
        unfold updateMap. destruct (z_visible z); reflexivity.
      * rewrite andb_false_r. cbn [orb]. destruct (IH _ _ _ _ _ I0 H) as (z' & om' & t' & E & I'). exists z', om', t'. split; [exact E|exact I'].
    + destruct H as [Hp H]. destruct (prerender_inv f z tr sy t om Hp I) as (z1 & E1 & I1). rewrite E1.
      destruct (IH _ _ _ _ _ I1 H) as (z' & om' & t' & E & I'). exists z', om', t'. split; [exact E|].
      replace (s_surface_mode (z_sel z1)) with (s_surface_mode (z_sel z)) in I'; [exact I'|].
      revert E1. unfold prerender. match goal with |- context [processQueue _ _ _ ?x _] => set (z2 := x) end. intros E1. assert (Ez : z_sel z2 = z_sel z).
      { unfold z2. destruct (_ || _); [|reflexivity]. cbn [z_sel]. unfold updateLOD. destruct om as [d|]; [|reflexivity]. destruct (z_visible z); [|reflexivity].
        generalize (map fst (d_blocks d)). intros l0. clear. revert z. induction l0 as [|k l0 IH]; intros z; cbn [fold_left]; [reflexivity|]. rewrite IH.
        unfold lodBlock. destruct (hasBlock _ _); [reflexivity|]. destruct (currentLod _ z k); [|reflexivity]. destruct (_ || _); reflexivity. }
      assert (I2 : vinv tr sy t om z2).
      { unfold z2. destruct (_ || _); [|exact I]. apply force_inv. apply updateLOD_inv. exact I. }
      destruct (processQueue_effect (f_order f) (f_more f) z2 tr sy t om Hp I2) as (z3 & E3 & I3 & Ef). rewrite E3 in E1. cbn in E1. injection E1 as <-.
      rewrite <- Ez. destruct om as [d|]; [|cbn in E3; congruence]. destruct (z_visible z2) eqn:Ev; [|unfold processQueue in E3; rewrite Ev in E3; congruence].
      destruct (Ef d eq_refl eq_refl) as (S & _ & (_ & _ & _ & _ & _ & _ & E7) & _). rewrite E7. reflexivity.
    + destruct H as [H1 H]. assert (I0 : vinv (if b then false else tr) (if b then false else sy) now om
         (if b then Viz (z_drawn z) (z_queue z) (z_last z) (z_force z) b (z_term z) (z_sel z) else Viz [] (z_queue z) (z_last z) (z_force z) b (z_term z) (z_sel z))).
      { destruct I as [[B1 B2 B3 B4] L M Tr Sy]. assert (M' : map_ok now om) by (intros d Ed; destruct (M d Ed) as (X1 & X2 & X3 & X4); repeat split; try assumption; try apply X3; intros k b' Hk; specialize (X4 k b' Hk); lia).
        destruct b.
        - split; [split; assumption|cbn [z_last]; lia|exact M'|intros X; discriminate|intros X; discriminate].
        - split; [|cbn [z_last]; lia|exact M'|intros _ X; discriminate|intros _ X; discriminate].
          split; cbn [z_drawn z_queue z_last z_force z_visible z_term z_sel]; try assumption. intros k ls X. discriminate. }
      destruct b.
      * cbn [z_drawn z_queue z_last z_force z_visible z_term z_sel] in *. destruct om as [d|].
        -- assert (I1 := updateMap_inv true now _ d _ _ (i_last _ _ _ _ _ I0) I0). cbn [orb] in I1.
           destruct (IH _ _ _ _ _ I1 H) as (z' & om' & t' & E & I'). exists z', om', t'. split; [exact E|exact I'].
        -- rewrite updateMap_none. assert (I1 : vinv true true now None (Viz (z_drawn z) (z_queue z) (z_last z) (z_force z) true (z_term z) (z_sel z))).
           { destruct I0 as [B L M _ _]. split; [exact B|exact L|exact M| |]; intros X Y; [intros d k b Ed; discriminate|intros d Ed; discriminate]. }
           destruct (IH _ _ _ _ _ I1 H) as (z' & om' & t' & E & I'). exists z', om', t'. split; [exact E|exact I'].
      * cbn [z_drawn z_queue z_last z_force z_visible z_term z_sel] in *. destruct (IH _ _ _ _ _ I0 H) as (z' & om' & t' & E & I'). exists z', om', t'. split; [exact E|exact I'].
    + destruct H as [H1 H].
      assert (I0 : vinv tr sy t om (Viz (z_drawn z) (z_queue z) (z_last z) true (z_visible z) h (z_sel z))).
      { destruct I as [[B1 B2 B3 B4] L M Tr Sy]. split; [split; cbn [z_drawn z_queue z_last z_force z_visible z_term z_sel]; assumption|exact L|exact M|exact Tr|exact Sy]. }
      destruct (IH _ _ _ _ _ I0 H) as (z' & om' & t' & E & I'). exists z', om', t'. split; [exact E|exact I'].
    + destruct H as [H1 H].
      assert (I0 : vinv false false now om (Viz (z_drawn z) (z_queue z) (z_last z) (z_force z) (z_visible z) (z_term z) s)).
      { destruct I as [[B1 B2 B3 B4] L M Tr Sy]. assert (M' : map_ok now om) by (intros d Ed; destruct (M d Ed) as (X1 & X2 & X3 & X4); repeat split; try assumption; try apply X3; intros k b' Hk; specialize (X4 k b' Hk); lia).
        split; [split; cbn [z_drawn z_queue z_last z_force z_visible z_term z_sel]; assumption|cbn [z_last]; lia|exact M'| |]; intros X; discriminate. }
      destruct om as [d|].
      * assert (I1 := updateMap_inv true now _ d _ _ (i_last _ _ _ _ _ I0) I0). cbn [orb] in I1.
        destruct (IH _ _ _ _ _ I1 H) as (z' & om' & t' & E & I'). exists z', om', t'. split; [exact E|].
        match type of I' with vinv (tracked ?a _ _) _ _ _ _ => replace a with (s_surface_mode s) in I'; [exact I'|] end.
        unfold updateMap. destruct (z_visible _); reflexivity.
      * rewrite updateMap_none. assert (I1 : vinv true true now None (Viz (z_drawn z) (z_queue z) (z_last z) (z_force z) (z_visible z) (z_term z) s)).
        { destruct I0 as [B L M _ _]. split; [exact B|exact L|exact M| |]; intros X Y; [intros d k b Ed; discriminate|intros d Ed; discriminate]. }
        destruct (IH _ _ _ _ _ I1 H) as (z' & om' & t' & E & I'). exists z', om', t'. split; [exact E|exact I'].
    + assert (I0 : vinv false sy t om (Viz [] (z_queue z) (z_last z) (z_force z) (z_visible z) (z_term z) (z_sel z))).
      { destruct I as [[B1 B2 B3 B4] L M Tr Sy]. split; cbn [z_drawn z_queue z_last z_force z_visible z_term z_sel].
        - split; cbn [z_drawn z_queue z_last z_force z_visible z_term z_sel]; try assumption. intros k ls X. discriminate.
        - exact L.
        - exact M.
        - intros X. discriminate.
        - intros Hs Hv d Ed. destruct (Sy Hs Hv d Ed) as [S1 S2]. split; [|exact S2]. intros k [X|X]; [exfalso; apply X; reflexivity|]. apply S1. right. exact X. }
      destruct (IH _ _ _ _ _ I0 H) as (z' & om' & t' & E & I'). exists z', om', t'. split; [exact E|exact I'].
Qed.
Lemma vinit_inv s : vinv true true 0 None (fst (vinit s)).
Proof.
  split; cbn.
  - split; cbn; [constructor|discriminate|lia|discriminate].
  - lia.
  - intros d X. discriminate.
  - intros _ _ d k b X. discriminate.
  - intros _ _ d X. discriminate.
Qed.
End CFG.
