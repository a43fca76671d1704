(** The display settles *)
From Verif Require Import Base M_IntMath F_IntMath M_NdtreeIndex M_Num F_Num M_Haar F_Haar M_Haar3 F_Haar3 M_Ndtree S_Field F_Hash M_Wavelet
  F_Wavelet F_Wavelet2 F_Leaves F_WavTree F_WavMap F_WavHash M_Octree F_Octree M_Point M_Adjacency M_Sdf F_Sdf M_Viz S_Viz F_Viz F_Viz2 F_Viz3.
From Coq Require Import QArith Qcanon Qcabs Lqa Permutation.
Close Scope Qc_scope. Close Scope Q_scope. Open Scope Z_scope.

Section CFG.
Context (C : wconfig (V := Qc)) (w : Q) (HT : 1 <= cT C) (m : qmap) (raw : idx3 -> option Z).
Notation T := (cT C).
Notation exp := (expected C w).
Definition target (z : viz (V := Qc)) (k : idx3) : Z := recommended (raw k) (z_term z) (T - 1).
Definition settled (z : viz) : Prop := forall k,
  (forall h, getBlock (z_queue z) k = Some h -> h = target z k) /\
  (getBlock (z_queue z) k = None -> forall b, getBlock m k = Some b -> exists h, 0 <= h < T /\ z_term z <= h /\ target z k - 1 <= h <= target z k /\
     getBlock (z_drawn z) k = Some (exp m (z_sel z) h k b)).
Definition lod_at (z : viz (V := Qc)) (k : idx3) : option Z :=
  if hasBlock (z_queue z) k then Some (target z k)
  else match currentLod C z k with
       | Some cur => if (cur <? z_term z) || (cur <? target z k - 1) || (target z k <? cur) then Some (target z k) else None
       | None => None
       end.
Lemma lodBlock_at z k j : getBlock (z_queue (lodBlock C raw z k)) j = if ieqb k j then lod_at z k else getBlock (z_queue z) j.
Proof.
  unfold lodBlock, lod_at, target. destruct (hasBlock (z_queue z) k) eqn:Eh; cbn [z_queue]; [apply getBlock_setBlock|].
  assert (N : getBlock (z_queue z) k = None) by (unfold hasBlock in Eh; destruct (getBlock (z_queue z) k); congruence).
  destruct (currentLod C z k) as [cur|].
  - destruct (_ || _); cbn [z_queue]; [apply getBlock_setBlock|]. destruct (ieqb_spec k j) as [<-|]; [exact N|reflexivity].
  - destruct (ieqb_spec k j) as [<-|]; [exact N|reflexivity].
Qed.
Lemma lod_at_ext z z' k : getBlock (z_queue z) k = getBlock (z_queue z') k -> z_drawn z = z_drawn z' -> z_term z = z_term z' -> lod_at z k = lod_at z' k.
Proof. intros E1 E2 E3. unfold lod_at, currentLod, target, hasBlock. rewrite E1, E2, E3. reflexivity. Qed.
Lemma fold_lod : forall l z, NoDup l -> let z' := fold_left (lodBlock C raw) l z in
  (forall j, getBlock (z_queue z') j = if memk j l then lod_at z j else getBlock (z_queue z) j) /\
  z_drawn z' = z_drawn z /\ z_last z' = z_last z /\ z_visible z' = z_visible z /\ z_term z' = z_term z /\ z_sel z' = z_sel z.
Proof.
  induction l as [|k l IH]; intros z ND; cbv zeta; cbn [fold_left]; [repeat split|].
  inversion ND as [|x y N1 N2]; subst. destruct (IH (lodBlock C raw z k) N2) as (I1 & I2 & I3 & I4 & I5 & I6).
  destruct (lodBlock_same C raw z k) as (E1 & E2 & E3 & E4 & E5 & E6).
  split; [|rewrite I2, I3, I4, I5, I6; repeat split; assumption].
  intros j. rewrite I1. unfold memk. cbn [existsb]. fold (memk j l). rewrite lodBlock_at.
  destruct (memk j l) eqn:Em.
  - rewrite orb_true_r. apply lod_at_ext; [|exact E1|exact E5]. rewrite lodBlock_at. destruct (ieqb_spec k j) as [<-|]; [|reflexivity].
    exfalso. apply N1. apply existsb_ieqb. exact Em.
  - rewrite orb_false_r, (ieqb_sym j k). destruct (ieqb_spec k j) as [<-|]; reflexivity.
Qed.
Notation OM := (Some (DM C w m)).
Lemma current_of z k b h : 0 <= h < T -> getBlock (z_drawn z) k = Some (exp m (z_sel z) h k b) -> currentLod C z k = Some h.
Proof. intros Hh E. unfold currentLod. rewrite E. cbn [option_map]. rewrite expected_length. f_equal. lia. Qed.
Lemma drawn_of z t k b : vinv C w true true t OM z -> z_visible z = true -> getBlock m k = Some b -> getBlock (z_queue z) k = None ->
  exists h, 0 <= h < T /\ getBlock (z_drawn z) k = Some (exp m (z_sel z) h k b).
Proof.
  intros I Hv Hb Hq. destruct (i_tr _ _ _ _ _ _ _ I eq_refl Hv (DM C w m) k b eq_refl Hb) as [X|[X|X]]; [contradiction| |exact X].
  destruct (i_sy _ _ _ _ _ _ _ I eq_refl Hv (DM C w m) eq_refl) as [_ S2]. cbn [d_blocks] in S2. specialize (S2 k b Hb). lia.
Qed.
Lemma lod_settles z t : vinv C w true true t OM z -> z_visible z = true -> settled (updateLOD raw z OM).
Proof.
  intros I Hv k. unfold updateLOD. rewrite Hv. cbn [d_conf d_blocks].
  destruct (i_map _ _ _ _ _ _ _ I _ eq_refl) as (_ & _ & [ND _] & _). cbn [d_blocks] in ND.
  destruct (fold_lod (map fst m) z ND) as (F1 & F2 & F3 & F4 & F5 & F6). set (z' := fold_left _ _ z) in *.
  assert (Et : forall j, target z' j = target z j) by (intros j; unfold target; rewrite F5; reflexivity).
  rewrite F1, Et, F2, F5, F6. destruct (memk k (map fst m)) eqn:Em.
  - unfold lod_at. destruct (hasBlock (z_queue z) k) eqn:Eh.
    + split; [intros h X; congruence|discriminate].
    + assert (N : getBlock (z_queue z) k = None) by (unfold hasBlock in Eh; destruct (getBlock (z_queue z) k); congruence).
      split.
      * intros h. destruct (currentLod C z k); [|discriminate]. destruct (_ || _); [congruence|discriminate].
      * intros X b Hb. destruct (drawn_of z t k b I Hv Hb N) as (h & Hh & E). exists h. rewrite (current_of z k b h Hh E) in X.
        destruct (_ || _) eqn:Eo; [discriminate|]. rewrite !orb_false_iff, !Z.ltb_ge in Eo. repeat split; try lia. exact E.
  - assert (N : getBlock m k = None) by (apply getBlock_None; intros X; apply existsb_ieqb in X; unfold memk, keys in *; congruence).
    assert (Nq : getBlock (z_queue z) k = None).
    { destruct (getBlock (z_queue z) k) eqn:E; [|reflexivity]. exfalso.
      apply (proj1 (i_sy _ _ _ _ _ _ _ I eq_refl Hv _ eq_refl) k); [right; congruence|exact N]. }
    split; [congruence|]. intros _ b Hb. congruence.
Qed.
Lemma lod_keeps z t : vinv C w true true t OM z -> z_visible z = true -> settled z -> forall k, getBlock (z_queue (updateLOD raw z OM)) k = getBlock (z_queue z) k.
Proof.
  intros I Hv J k. unfold updateLOD. rewrite Hv. cbn [d_conf d_blocks].
  destruct (i_map _ _ _ _ _ _ _ I _ eq_refl) as (_ & _ & [ND _] & _). cbn [d_blocks] in ND.
  destruct (fold_lod (map fst m) z ND) as (F1 & _). rewrite F1. destruct (memk k (map fst m)) eqn:Em; [|reflexivity].
  destruct (J k) as [J1 J2]. unfold lod_at, hasBlock. destruct (getBlock (z_queue z) k) as [h|] eqn:Eq; [rewrite (J1 h eq_refl); reflexivity|].
  assert (Hm : getBlock m k <> None) by (apply getBlock_keys; apply existsb_ieqb; exact Em). destruct (getBlock m k) as [b|] eqn:Eb; [|congruence].
  destruct (J2 eq_refl b eq_refl) as (h & Hh & H1 & H2 & E). rewrite (current_of z k b h Hh E).
  destruct (Z.ltb_spec h (z_term z)); [lia|]. destruct (Z.ltb_spec h (target z k - 1)); [lia|]. destruct (Z.ltb_spec (target z k) h); [lia|]. reflexivity.
Qed.
Lemma wf_len {B D} (q : shash B) (q' : shash D) : hwf q -> (forall k, getBlock q k <> None -> getBlock q' k <> None) -> (length q <= length q')%nat.
Proof.
  intros W H. rewrite <- (map_length fst q), <- (map_length fst q'). apply NoDup_incl_length; [exact W|].
  intros k Hk. apply getBlock_keys. apply H. apply getBlock_keys. exact Hk.
Qed.
Lemma effect_settled S z z' : base C w z -> settled z -> effect C w m S z z' -> settled z'.
Proof.
  intros B J (E1 & E2 & E3 & E4 & E5 & E6 & E7) k. unfold settled, target in *. rewrite E6, E7. specialize (E2 k). rewrite E1. destruct (J k) as [J1 J2]. destruct (memk k S).
  - split; [discriminate|]. intros _ b Hb. destruct E2 as (b' & h & X1 & X2 & X3). assert (b' = b) as -> by congruence.
    specialize (J1 h X2). pose proof (recommended_range C (raw k) (z_term z) (b_term _ _ _ B)) as R. pose proof (b_term _ _ _ B). exists h. rewrite J1 in *.
    repeat split; try lia. exact X3.
  - rewrite E2. split; assumption.
Qed.
Lemma prerender_settles f z t : vinv C w true true t OM z -> z_visible z = true -> f_raw f = raw -> (forall q, Permutation (f_order f q) q) ->
  settled z \/ z_force z = true \/ f_moved f = true ->
  exists z', prerender qn f (z, OM) = Some (z', OM) /\ vinv C w true true t OM z' /\ z_visible z' = true /\ z_term z' = z_term z /\ z_sel z' = z_sel z /\
    settled z' /\ (length (z_queue z') <= Nat.pred (length m))%nat /\ (settled z -> length (z_queue z') <= Nat.pred (length (z_queue z)))%nat.
Proof.
  intros I Hv Hr Hp HJ. unfold prerender. rewrite Hr. match goal with |- context [processQueue _ _ _ ?x _] => set (z1 := x) end.
  assert (X : vinv C w true true t OM z1 /\ z_visible z1 = true /\ z_term z1 = z_term z /\ z_sel z1 = z_sel z /\ settled z1 /\
              (settled z -> forall k, getBlock (z_queue z1) k = getBlock (z_queue z) k)).
  { unfold z1. destruct (z_force z || f_moved f) eqn:E.
    - destruct (i_map _ _ _ _ _ _ _ I _ eq_refl) as (_ & _ & [ND _] & _). cbn [d_blocks] in ND.
      destruct (fold_lod (map fst m) z ND) as (F1 & F2 & F3 & F4 & F5 & F6).
      split; [apply force_inv; apply updateLOD_inv; exact I|]. cbn [z_visible z_term z_sel z_queue].
      assert (Eu : updateLOD raw z OM = fold_left (lodBlock C raw) (map fst m) z) by (unfold updateLOD; rewrite Hv; reflexivity).
      split; [rewrite Eu, F4; exact Hv|]. split; [rewrite Eu, F5; reflexivity|]. split; [rewrite Eu, F6; reflexivity|].
      split; [exact (lod_settles z t I Hv)|]. intros J. exact (lod_keeps z t I Hv J).
    - apply orb_false_iff in E as [E1 E2]. destruct HJ as [HJ|[HJ|HJ]]; [|congruence|congruence]. split; [exact I|]. repeat (split; [assumption || reflexivity|]). reflexivity. }
  clearbody z1. destruct X as (I1 & V1 & T1 & S1 & J1 & K1).
  destruct (processQueue_effect C w HT (f_order f) (f_more f) z1 true true t OM Hp I1) as (z' & E & I' & Ef). exists z'. rewrite E. split; [reflexivity|]. split; [exact I'|].
  destruct (Ef (DM C w m) eq_refl V1) as (S & HS & He & Hne). cbn [d_blocks] in *.
  assert (J' := effect_settled S z1 z' (i_base _ _ _ _ _ _ _ I1) J1 He). destruct He as (G1 & G2 & G3 & G4 & G5 & G6 & G7).
  split; [rewrite G5; exact V1|]. split; [rewrite G6; exact T1|]. split; [rewrite G7; exact S1|]. split; [exact J'|].
  assert (Dec : (length (z_queue z') <= Nat.pred (length (z_queue z1)))%nat).
  { destruct (z_queue z1) as [|[k0 h0] q1] eqn:Eq.
    - cbn. assert (Y : (length (z_queue z') <= length (@nil (idx3 * Z)))%nat); [|cbn in Y; exact Y]. apply wf_len; [apply (i_base _ _ _ _ _ _ _ I')|].
      intros k. rewrite G1. destruct (memk k S); congruence.
    - assert (HSne : S <> []).
      { apply Hne. exists k0. cbn [getBlock]. rewrite ieqb_refl. split; [discriminate|].
        apply (proj1 (i_sy _ _ _ _ _ _ _ I1 eq_refl V1 _ eq_refl) k0). right. rewrite Eq. cbn [getBlock]. rewrite ieqb_refl. discriminate. }
      destruct S as [|k S]; [congruence|]. rewrite <- Eq in *.
      assert (Y : (length (k :: map fst (z_queue z')) <= length (map fst (z_queue z1)))%nat).
      { apply NoDup_incl_length.
        - constructor; [|apply (i_base _ _ _ _ _ _ _ I')]. intros Hin. apply getBlock_keys in Hin. apply Hin. rewrite G1. unfold memk. cbn [existsb]. rewrite ieqb_refl. reflexivity.
        - intros j [<-|Hj]; [apply HS; left; reflexivity|]. apply getBlock_keys in Hj. apply getBlock_keys. rewrite G1 in Hj. destruct (memk j (k :: S)); congruence. }
      cbn [length] in Y. rewrite !map_length in Y. lia. }
  split.
  - assert (Y : (length (z_queue z1) <= length m)%nat); [|lia]. apply wf_len; [apply (i_base _ _ _ _ _ _ _ I1)|].
    intros k Hk. apply (proj1 (i_sy _ _ _ _ _ _ _ I1 eq_refl V1 _ eq_refl) k). right. exact Hk.
  - intros J. assert (Y : (length (z_queue z1) <= length (z_queue z))%nat); [|lia]. apply wf_len; [apply (i_base _ _ _ _ _ _ _ I1)|].
    intros k Hk. rewrite (K1 J) in Hk. exact Hk.
Qed.
Lemma frames_settle : forall fs z t, vinv C w true true t OM z -> z_visible z = true -> settled z ->
  Forall (fun f => f_raw f = raw /\ forall q, Permutation (f_order f q) q) fs ->
  exists z', vrun qn (z, OM) (map EFrame fs) = Some (z', OM) /\ vinv C w true true t OM z' /\ z_visible z' = true /\ z_term z' = z_term z /\ z_sel z' = z_sel z /\
    settled z' /\ (length (z_queue z') <= length (z_queue z) - length fs)%nat.
Proof.
  induction fs as [|f fs IH]; intros z t I Hv J F; cbn [map vrun vstep].
  - exists z. repeat (split; [assumption || reflexivity|]). cbn. lia.
  - inversion F as [|x y [F1 F2] F3]; subst. destruct (prerender_settles f z t I Hv F1 F2 (or_introl J)) as (z1 & E & I1 & V1 & T1 & S1 & J1 & _ & L1).
    rewrite E. destruct (IH z1 t I1 V1 J1 F3) as (z' & E' & I' & V' & T' & S' & J' & L'). exists z'. split; [exact E'|]. split; [exact I'|]. split; [exact V'|].
    split; [congruence|]. split; [congruence|]. split; [exact J'|]. specialize (L1 J). cbn [length]. lia.
Qed.
End CFG.
