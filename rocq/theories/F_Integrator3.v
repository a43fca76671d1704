(** Field effect of HashedWaveletIntegrator::updateMap against S_Integrate.v (exact arithmetic). *)
From Verif Require Import Base M_IntMath F_IntMath M_Morton F_Morton M_NdtreeIndex F_NdtreeIndex
  M_Num F_Num M_Haar F_Haar M_Haar3 F_Haar3 M_Ndtree S_Field S_Integrate F_Hash M_Wavelet F_Wavelet F_Wavelet2 F_Leaves F_WavTree
  F_WavMap F_WavHash M_WavHist F_WavHist M_Octree F_Octree M_Integrator F_Integrator F_Integrator2.
From Coq Require Import QArith Qcanon Qcabs Lqa.
Close Scope Qc_scope.
Close Scope Q_scope.
Open Scope Z_scope.

Lemma node_of_anc c h : node_of c h = anc c h.
Proof. reflexivity. Qed.
Lemma node_of_in c h : 0 <= h -> in_node (node_of c h) c = true.
Proof.
  intros Hh. unfold in_node, node_of. cbn [oh opos px py pz]. pose proof (pow2_pos h Hh) as P.
  repeat rewrite andb_true_iff; repeat split; try apply Z.leb_le; try apply Z.ltb_lt;
    match goal with |- context [?x / 2 ^ h] => pose proof (Z.div_mod x (2 ^ h) ltac:(lia)); pose proof (Z.mod_pos_bound x (2 ^ h) P) end; lia.
Qed.
(** It is the only node of that height that contains the cell. *)
Lemma node_of_unique c i : 0 <= oh i -> in_node i c = true -> i = node_of c (oh i).
Proof.
  intros Hh. destruct i as [h [x y z]], c as [a b e]. unfold in_node, node_of. cbn [oh opos px py pz] in *. pose proof (pow2_pos h Hh) as P.
  rewrite !andb_true_iff, !Z.leb_le, !Z.ltb_lt. intros (((((A1 & A2) & B1) & B2) & C1) & C2).
  f_equal. f_equal; match goal with |- ?q = ?u / _ => apply Z.div_unique with (r := u - q * 2 ^ h); [left|]; lia end.
Qed.

(** Nodes of the map that have a stored child: getBlock, HashedWaveletOctreeBlock::getNode and hasAtLeastOneChild. *)
Definition hw_subdivided (C : wconfig (V := Qc)) (m : hmap) (i : oidx) : bool :=
  match getBlock m (hw_blockIndex C i) with
  | None => false
  | Some b => match nd_getNode (cT C) (wroot (btree b)) (hw_cellIndex C i) with
              | None => false
              | Some n => hasAtLeastOneChild n
              end
  end.
Definition hw_hasBlockAt (C : wconfig (V := Qc)) (m : hmap) (i : oidx) : bool := hasBlock m (hw_blockIndex C i).

Section FIELD.
Context (C : wconfig (V := Qc)) (HT : 1 <= cT C <= 21) (K : iconst Qc) (W : oracle Qc) (Hth : 0 <= i_th K).
Context (m : hmap).
Notation T := (cT C).
Notation f := (hw_field C m).
Notation skipped := (skip (o_type W) (i_slo K) f).
Notation stopping := (stops (o_type W) (o_accept W) (i_th K) (i_slo K) f).
Notation apply_at := (applied (o_sample W) (i_th K) (i_plo K) (i_phi K) f (hw_subdivided C m)).

Lemma div_div_pow x a b : 0 <= a -> 0 <= b -> x / 2 ^ a / 2 ^ b = x / 2 ^ (a + b).
Proof. intros Ha Hb. pose proof (pow2_pos a Ha). pose proof (pow2_pos b Hb). rewrite Z.div_div by lia. rewrite <- Z.pow_add_r by lia. reflexivity. Qed.
Lemma block_anc c h : 0 <= h <= T -> hw_blockIndex C (anc c h) = block_of C c.
Proof.
  intros Hh. unfold anc. rewrite hw_blockIndex_spec by lia. unfold block_of, imap. cbn [px py pz].
  rewrite !div_div_pow by lia. replace (h + (T - h)) with T by lia. reflexivity.
Qed.
Lemma anc_mean c h : 0 <= h <= T ->
  node_mean f (anc c h) = eval (wscale (tree_at m (block_of C c))) (wroot (tree_at m (block_of C c)))
                            (path (Z.to_nat (T - h)) (imap (fun x => x / 2 ^ h) c)).
Proof.
  intros Hh. rewrite <- hw_node_mean by (cbn [anc oh]; lia). unfold anc. rewrite hw_get_node_spec by lia.
  rewrite wt_get_eval by lia. do 3 f_equal; unfold block_of, imap; cbn [px py pz];
  rewrite !div_div_pow by lia; replace (h + (T - h)) with T by lia; reflexivity.
Qed.
Lemma anc_subdivided c h : 0 <= h <= T ->
  hw_subdivided C m (anc c h) =
  match nlook (path (Z.to_nat (T - h)) (imap (fun x => x / 2 ^ h) c)) (wroot (tree_at m (block_of C c))) with
  | None => false | Some n => hasAtLeastOneChild n end.
Proof.
  intros Hh. unfold hw_subdivided. rewrite block_anc by lia. unfold tree_at.
  unfold anc. rewrite hw_cellIndex_spec by lia. destruct (getBlock m (block_of C c)) as [b|].
  - rewrite nd_getNode_path by lia. rewrite path_mod by lia. reflexivity.
  - destruct (path _ _) eqn:E; cbn [wt_new wroot nlook]; [reflexivity|].
    unfold getChild. cbn [nkids]. reflexivity.
Qed.

(** Going down one level *)
Lemma path_down c k : (Z.of_nat (S k) <= T)%Z ->
  path (Z.to_nat (T - Z.of_nat k)) (imap (fun x => x / 2 ^ Z.of_nat k) c) =
  path (Z.to_nat (T - Z.of_nat (S k))) (imap (fun x => x / 2 ^ Z.of_nat (S k)) c) ++ [cidx c (Z.of_nat k)].
Proof.
  intros H. replace (Z.to_nat (T - Z.of_nat k)) with (S (Z.to_nat (T - Z.of_nat (S k)))) by lia.
  rewrite path_snoc. f_equal.
  - f_equal. unfold imap. cbn [px py pz]. change 2 with (2 ^ 1) at 2 4 6. rewrite !div_div_pow by lia.
    replace (Z.of_nat k + 1) with (Z.of_nat (S k)) by lia. reflexivity.
  - rewrite cidx_shift by lia. reflexivity.
Qed.
Notation root c := (wroot (tree_at m (block_of C c))).
Notation scale c := (wscale (tree_at m (block_of C c))).
Notation pathTo c h := (path (Z.to_nat (T - h)) (imap (fun x => x / 2 ^ h) c)).

Lemma applied_clamp x y : nclamp qn (i_plo K) (i_phi K) (nadd qn x y) = clampq (i_plo K) (i_phi K) (y + x)%Qc.
Proof. rewrite clampq_qclamp. unfold qclamp. cbn [nadd qn]. rewrite Qcplus_comm. reflexivity. Qed.
Lemma skip_spec i : skipped i <-> is_unobserved (o_type W i) = true \/
  (negb (is_occupied (o_type W i)) && qltb (node_mean f i) (i_slo K) = true).
Proof.
  unfold skip, unobserved, occupied, is_unobserved, is_occupied. rewrite andb_true_iff, qltb_iff.
  destruct (o_type W i); cbn [negb]; split; intros [H|[H1 H2]]; try discriminate; auto; right; split; auto; discriminate.
Qed.
(** Whether the block's flag is raised on the way to the cell *)
Fixpoint dflag (k : nat) (c : idx3) (n : wnode) (v : Qc) : bool :=
  match k with
  | O => false
  | S k' =>
      let j := cidx c (Z.of_nat k') in
      let x := child_value v (ndata n) j in
      match ub_child qn K W (anc c (Z.of_nat k')) (getChild n j) x with
      | Done _ g => g
      | Refine => dflag k' c (childOrNew (dzero qn) n j) x
      end
  end.
Lemma upd_flag k : forall c n v, snd (upd K W k (anc c (Z.of_nat k)) n v) = false -> dflag k c n v = false.
Proof.
  induction k as [|k IH]; intros c n v H; [reflexivity|].
  pose proof (upd_child K W k (anc c (Z.of_nat (S k))) n v (cidx c (Z.of_nat k)) (cidx_range _ _)) as U.
  destruct (upd K W (S k) (anc c (Z.of_nat (S k))) n v) as [[n' v'] f']. cbv zeta in U. destruct U as (_ & _ & U). cbn [snd] in H.
  specialize (U H). unfold child_res in U. rewrite ochild_anc in U. cbn [dflag].
  destruct (ub_child qn K W (anc c (Z.of_nat k)) (getChild n (cidx c (Z.of_nat k))) (child_value v (ndata n) (cidx c (Z.of_nat k)))) as [y g|]; [exact U|].
  apply IH. destruct (upd K W k _ _ _) as [[ch y] g]. exact U.
Qed.
(** The stopping node and the change at the cell *)
Lemma delta_spec k : forall c n v, (Z.of_nat k <= T)%Z -> (1 <= k)%nat ->
  (forall r, eval (scale c) (root c) (pathTo c (Z.of_nat k) ++ r) = eval v n r) ->
  (forall r, r <> [] -> nlook (pathTo c (Z.of_nat k) ++ r) (root c) = nlook r n) ->
  exists i b, stopping (Z.of_nat k - 1) c i b /\
    (f c + delta K W k c n v)%Qc = (if b then apply_at i c else f c) /\
    dflag k c n v = b && ((i_th K <? oh i) && hw_subdivided C m i).
Proof.
  induction k as [|k IH]; intros c n v Hk H1 HE HL; [lia|]. cbn [delta dflag].
  replace (Z.of_nat (S k) - 1) with (Z.of_nat k) by lia.
  set (j := cidx c (Z.of_nat k)). set (x := child_value v (ndata n) j).
  assert (HE' : forall r, eval (scale c) (root c) (pathTo c (Z.of_nat k) ++ r) = eval x (childOrNew (dzero qn) n j) r).
  { intros r. rewrite path_down by lia. fold j. rewrite <- app_assoc. cbn [app]. rewrite HE. cbn [eval]. fold x. apply eval_childOrNew. }
  assert (HL0 : nlook (pathTo c (Z.of_nat k)) (root c) = getChild n j).
  { rewrite path_down by lia. fold j. rewrite HL by discriminate. cbn [nlook]. destruct (getChild n j); reflexivity. }
  assert (HL' : forall r, r <> [] -> nlook (pathTo c (Z.of_nat k) ++ r) (root c) = nlook r (childOrNew (dzero qn) n j)).
  { intros r Hr. rewrite path_down by lia. fold j. rewrite <- app_assoc. cbn [app]. rewrite HL by discriminate. cbn [nlook].
    unfold childOrNew. destruct (getChild n j) as [ch|]; [reflexivity|]. destruct r; [contradiction|]. reflexivity. }
  assert (Mean : x = node_mean f (anc c (Z.of_nat k))).
  { rewrite anc_mean by lia. specialize (HE' []). rewrite app_nil_r in HE'. rewrite HE'. reflexivity. }
  assert (Sub : no_children (getChild n j) = negb (hw_subdivided C m (anc c (Z.of_nat k)))).
  { rewrite anc_subdivided by lia. rewrite HL0. destruct (getChild n j); reflexivity. }
  unfold ub_child. rewrite Sub. cbn [anc oh]. fold (anc c (Z.of_nat k)).
  destruct (Z.leb_spec (Z.of_nat k) (i_th K)) as [Hb|Hb].
  { exists (anc c (Z.of_nat k)), true. split; [apply stop_bottom; assumption|]. unfold applied. cbn [anc oh].
    replace (i_th K <? Z.of_nat k) with false by (symmetry; apply Z.ltb_ge; lia). cbn [andb]. fold (anc c (Z.of_nat k)).
    unfold clampAdd. rewrite applied_clamp, <- Mean. split; reflexivity. }
  destruct (is_unobserved (o_type W (anc c (Z.of_nat k)))) eqn:Eu.
  { exists (anc c (Z.of_nat k)), false. split; [apply stop_skip; [assumption|]; apply skip_spec; left; exact Eu|]. split; [ring|reflexivity]. }
  cbn [nltb qn]. destruct (negb (is_occupied (o_type W (anc c (Z.of_nat k)))) && qltb x (i_slo K)) eqn:Es.
  { exists (anc c (Z.of_nat k)), false. split; [apply stop_skip; [assumption|]; apply skip_spec; right; rewrite node_of_anc, <- Mean; exact Es|]. split; [ring|reflexivity]. }
  assert (NS : ~ skipped (node_of c (Z.of_nat k))).
  { rewrite skip_spec, node_of_anc, <- Mean, Eu, Es. intros [H|H]; discriminate. }
  destruct (o_accept W (anc c (Z.of_nat k))) eqn:Ea.
  { exists (anc c (Z.of_nat k)), true. split; [apply stop_accept; assumption|]. unfold applied. cbn [anc oh].
    replace (i_th K <? Z.of_nat k) with true by (symmetry; apply Z.ltb_lt; lia). cbn [andb]. fold (anc c (Z.of_nat k)).
    destruct (hw_subdivided C m (anc c (Z.of_nat k))); cbn [negb].
    - split; [cbn [nadd qn]; ring|reflexivity].
    - unfold clampAdd. rewrite applied_clamp, <- Mean. split; reflexivity. }
  destruct (IH c (childOrNew (dzero qn) n j) x ltac:(lia) ltac:(lia) HE' HL') as (i & b & S1 & S2).
  exists i, b. split; [|exact S2]. apply stop_below; assumption.
Qed.

(** ** Selection of blocks *)
Notation hasB := (hw_hasBlockAt C m).
Definition wanted (c : idx3) : Prop :=
  occupied (o_type W) (node_of c T) \/ (hasB (node_of c T) = true /\ (i_slo K <= node_mean f (node_of c T))%Qc).
Lemma covers3_node_of i c : covers3 i c <-> i = node_of c (oh i).
Proof.
  unfold covers3. destruct i as [h p]. cbn [oh opos]. rewrite node_of_anc. unfold anc. split; [intros <-; reflexivity|].
  intros E. injection E as E. symmetry. exact E.
Qed.
Lemma unobserved_spec i : is_unobserved (o_type W i) = false <-> ~ unobserved (o_type W) i.
Proof. unfold unobserved, is_unobserved. destruct (o_type W i); split; intros H; try reflexivity; try discriminate; exfalso; apply H; reflexivity. Qed.
Lemma tester_spec k : forall idx c, oh idx = T + Z.of_nat k ->
  (In (block_of C c) (tester qn K W m k idx) <->
   idx = node_of c (T + Z.of_nat k) /\ (forall h, T <= h <= T + Z.of_nat k -> ~ unobserved (o_type W) (node_of c h)) /\ wanted c).
Proof.
  induction k as [|k IH]; intros idx c Hi.
  - cbn [tester]. rewrite Z.add_0_r in *.
    destruct (is_unobserved (o_type W idx)) eqn:Eu.
    { split; [intros []|]. intros (-> & H & _). exfalso. specialize (H T ltac:(lia)). apply unobserved_spec in H. congruence. }
    assert (Pos : idx = node_of c T <-> opos idx = block_of C c).
    { destruct idx as [h p]. cbn [oh opos] in *. subst h. rewrite node_of_anc. unfold anc. split; [intros E; injection E as E; exact E|intros ->; reflexivity]. }
    assert (Obs : idx = node_of c T -> forall h, T <= h <= T -> ~ unobserved (o_type W) (node_of c h)).
    { intros -> h Hh. replace h with T by lia. apply unobserved_spec. exact Eu. }
    assert (Want : idx = node_of c T -> (wanted c <->
        (is_occupied (o_type W idx) || match getBlock m (opos idx) with Some b => negb (qltb (wscale (btree b)) (i_slo K)) | None => false end = true))).
    { intros E. unfold wanted, occupied, hw_hasBlockAt, hasBlock. rewrite <- E. rewrite orb_true_iff.
      assert (Oc : o_type W idx = M_RangeBounds.kPossiblyOccupied <-> is_occupied (o_type W idx) = true).
      { unfold is_occupied. destruct (o_type W idx); split; intros; congruence. }
      rewrite Oc. replace (hw_blockIndex C idx) with (opos idx).
      2:{ rewrite (proj1 Pos E). rewrite E, node_of_anc, block_anc by lia. reflexivity. }
      assert (Mean : node_mean f idx = wscale (tree_at m (opos idx))).
      { rewrite E. rewrite node_of_anc at 1. rewrite anc_mean by lia. rewrite Z.sub_diag. cbn [path eval Z.to_nat].
        rewrite <- E, (proj1 Pos E). reflexivity. }
      rewrite Mean. unfold tree_at. destruct (getBlock m (opos idx)) as [b|].
      - rewrite negb_true_iff, qltb_false. tauto.
      - split; intros [H|H]; auto; [destruct H; discriminate|discriminate]. }
    split.
    + intros Hin. assert (E : idx = node_of c T).
      { apply Pos. destruct (is_occupied (o_type W idx)); [destruct Hin as [H|[]]; exact H|].
        destruct (getBlock m (opos idx)) as [b|]; [|destruct Hin]. destruct (nltb qn _ _); [destruct Hin|].
        destruct Hin as [H|[]]; exact H. }
      split; [exact E|]. split; [apply Obs; exact E|]. apply Want; [exact E|].
      destruct (is_occupied (o_type W idx)); [reflexivity|]. cbn [orb]. destruct (getBlock m (opos idx)) as [b|]; [|destruct Hin].
      cbn [nltb qn] in Hin. destruct (qltb _ _); [destruct Hin|reflexivity].
    + intros (E & _ & Hw). apply Want in Hw; [|exact E]. pose proof (proj1 Pos E) as Ep.
      destruct (is_occupied (o_type W idx)); [left; exact Ep|]. cbn [orb] in Hw. destruct (getBlock m (opos idx)) as [b|]; [|discriminate].
      cbn [nltb qn]. destruct (qltb _ _); [discriminate|left; exact Ep].
  - cbn [tester]. destruct (is_unobserved (o_type W idx)) eqn:Eu.
    { split; [intros []|]. intros (-> & H & _). exfalso. specialize (H (T + Z.of_nat (S k)) ltac:(lia)). apply unobserved_spec in H. congruence. }
    rewrite in_flat_map. split.
    + intros (j & Hj & Hin). assert (Hj8 : 0 <= j < 8) by (cbn [In] in Hj; lia).
      apply IH in Hin; [|cbn [ochild oh]; lia]. destruct Hin as (E & H & Hw).
      assert (Ec : covers3 (ochild idx j) c) by (apply covers3_node_of; rewrite E at 1; f_equal; cbn [ochild oh]; lia).
      apply covers3_child in Ec as [Ec _]; [|lia|assumption]. apply covers3_node_of in Ec. rewrite Hi in Ec.
      split; [exact Ec|]. split; [|exact Hw]. intros h Hh. destruct (Z.eq_dec h (T + Z.of_nat (S k))) as [->|Hne].
      * rewrite <- Ec. apply unobserved_spec. exact Eu.
      * apply H. lia.
    + intros (E & H & Hw). exists (cidx c (oh idx - 1)). split; [apply in_up; apply cidx_range|].
      apply IH; [cbn [ochild oh]; lia|]. split; [|split; [|exact Hw]].
      * assert (Ec : covers3 (ochild idx (cidx c (oh idx - 1))) c).
        { apply covers3_child; [lia|apply cidx_range|]. split; [|reflexivity]. apply covers3_node_of. rewrite Hi. exact E. }
        apply covers3_node_of in Ec. rewrite Ec at 1. f_equal. cbn [ochild oh]. lia.
      * intros h Hh. apply H. lia.
Qed.
Lemma um_blocks_spec k fov c : (forall i, In i fov -> oh i = T + Z.of_nat k) ->
  (In (block_of C c) (um_blocks qn K W m k fov) <-> block_updated (o_type W) (i_slo K) f hasB T (Z.of_nat k) fov c).
Proof.
  intros Hf. unfold um_blocks, block_updated. rewrite in_flat_map. split.
  - intros (i & Hi & Hin). apply tester_spec in Hin; [|apply Hf; exact Hi]. destruct Hin as (E & H & Hw). subst i. auto.
  - intros (Hi & H & Hw). exists (node_of c (T + Z.of_nat k)). split; [exact Hi|]. apply tester_spec; [reflexivity|]. auto.
Qed.
(** Corner cell of a block *)
Definition corner (b : idx3) : idx3 := imap (fun x => x * 2 ^ T) b.
Lemma block_corner b : block_of C (corner b) = b.
Proof. destruct b as [x y z]. unfold block_of, corner, imap. cbn [px py pz]. pose proof (pow2_pos T ltac:(lia)). rewrite !Z.div_mul by lia. reflexivity. Qed.
Lemma nodup_app {A} (a b : list A) : NoDup a -> NoDup b -> (forall x, In x a -> ~ In x b) -> NoDup (a ++ b).
Proof.
  induction a as [|x a IH]; intros Ha Hb Hd; cbn [app]; [exact Hb|]. inversion Ha; subst. constructor.
  - intros Hi. apply in_app_or in Hi as [Hi|Hi]; [contradiction|]. apply (Hd x (or_introl eq_refl) Hi).
  - apply IH; [assumption|assumption|]. intros y Hy. apply Hd. right. exact Hy.
Qed.
Lemma NoDup_flat_map {A B} (g : A -> list B) l : NoDup l -> (forall a, In a l -> NoDup (g a)) ->
  (forall a a' x, In a l -> In a' l -> In x (g a) -> In x (g a') -> a = a') -> NoDup (flat_map g l).
Proof.
  induction l as [|a l IH]; intros Hl Hg Hd; cbn [flat_map]; [constructor|]. inversion Hl as [|? ? Hn Hl']; subst.
  apply nodup_app; [apply Hg; left; reflexivity|apply IH; [assumption|intros; apply Hg; right; assumption|]|].
  - intros x y z Hx Hy. apply Hd; right; assumption.
  - intros x Hx Hx'. apply in_flat_map in Hx' as (a' & Ha' & Hx'). apply Hn.
    rewrite (Hd a a' x (or_introl eq_refl) (or_intror Ha') Hx Hx'). exact Ha'.
Qed.
Lemma tester_nodup k : forall idx, oh idx = T + Z.of_nat k -> NoDup (tester qn K W m k idx).
Proof.
  induction k as [|k IH]; intros idx Hi; cbn [tester].
  - destruct (is_unobserved _); [constructor|]. assert (N1 : NoDup [opos idx]) by (repeat constructor; intros []).
    destruct (is_occupied _); [exact N1|]. destruct (getBlock _ _); [|constructor]. destruct (nltb _ _ _); [constructor|exact N1].
  - destruct (is_unobserved _); [constructor|]. apply NoDup_flat_map; [exact NoDup_up| |].
    + intros j Hj. apply IH. cbn [ochild oh]. lia.
    + intros j j' b Hj Hj' Hb Hb'. rewrite <- (block_corner b) in Hb, Hb'.
      apply tester_spec in Hb; [|cbn [ochild oh]; lia]. apply tester_spec in Hb'; [|cbn [ochild oh]; lia].
      destruct Hb as (E & _), Hb' as (E' & _).
      assert (X : forall a, In a [0; 1; 2; 3; 4; 5; 6; 7] -> ochild idx a = node_of (corner b) (T + Z.of_nat k) -> cidx (corner b) (oh idx - 1) = a).
      { intros a Ha Ea. apply (covers3_child idx a (corner b)); [lia|cbn [In] in Ha; lia|]. apply covers3_node_of. rewrite Ea at 1. f_equal. cbn [ochild oh]. lia. }
      rewrite <- (X j Hj E), <- (X j' Hj' E'). reflexivity.
Qed.
Lemma um_blocks_nodup k fov : NoDup fov -> (forall i, In i fov -> oh i = T + Z.of_nat k) -> NoDup (um_blocks qn K W m k fov).
Proof.
  intros Hn Hf. unfold um_blocks. apply NoDup_flat_map; [exact Hn|intros; apply tester_nodup; auto|].
  intros i i' b Hi Hi' Hb Hb'. rewrite <- (block_corner b) in Hb, Hb'.
  apply tester_spec in Hb; [|auto]. apply tester_spec in Hb'; [|auto]. destruct Hb as (-> & _), Hb' as (-> & _). reflexivity.
Qed.

(** ** The field after updateMap *)
Lemma updateMap_field now k fov sched m' c : (forall i, In i fov -> oh i = T + Z.of_nat k) ->
  hw_updateMap qn K W T now k fov sched m = Some m' ->
  (block_updated (o_type W) (i_slo K) f hasB T (Z.of_nat k) fov c ->
     exists i b, stopping (T - 1) c i b /\ hw_field C m' c = (if b then apply_at i c else f c) /\
       (b && ((i_th K <? oh i) && hw_subdivided C m i) = true -> exists blk, getBlock m' (block_of C c) = Some blk /\ bthr blk = true)) /\
  (~ block_updated (o_type W) (i_slo K) f hasB T (Z.of_nat k) fov c -> hw_field C m' c = f c).
Proof.
  intros Hf E. apply updateMap_spec in E as [E _]; [|exact Hth|lia]. specialize (E (block_of C c)).
  rewrite <- (um_blocks_spec k fov c Hf). destruct (in_dec _ _ _) as [Hin|Hin].
  - split; [intros _|intros X; contradiction].
    assert (Hc : hw_field C m' c = (f c + delta K W (Z.to_nat T) c (root c) (scale c))%Qc).
    { rewrite !hw_field_spec by lia. unfold tree_at at 1. rewrite E. unfold block_after. cbn [btree]. unfold block_result.
      rewrite blockOrNew_tree. unfold cellv. rewrite !wt_get_eval by lia. rewrite Z.sub_0_r.
      pose proof (upd_eval K W (Z.to_nat T) c (root c) (scale c)) as U.
      replace (OI T (block_of C c)) with (anc c (Z.of_nat (Z.to_nat T))) by (rewrite Z2Nat.id by lia; reflexivity).
      destruct (upd _ _ _ _ _ _) as [[n s] g]. cbn [fst wscale wroot]. exact U. }
    rewrite Hc. replace (T - 1) with (Z.of_nat (Z.to_nat T) - 1) by lia.
    destruct (delta_spec (Z.to_nat T) c (root c) (scale c)) as (i & b & S1 & S2 & S3); [lia|lia| | |].
    1, 2: replace (Z.to_nat (T - Z.of_nat (Z.to_nat T))) with O by lia; cbn [path app]; reflexivity.
    exists i, b. split; [exact S1|]. split; [exact S2|]. rewrite <- S3. intros Hd. eexists. split; [exact E|].
    unfold block_after, block_result. rewrite blockOrNew_tree.
    replace (OI T (block_of C c)) with (anc c (Z.of_nat (Z.to_nat T))) by (rewrite Z2Nat.id by lia; reflexivity).
    pose proof (upd_flag (Z.to_nat T) c (root c) (scale c)) as U.
    destruct (upd K W (Z.to_nat T) _ _ _) as [[n s] g]. cbn [fst snd bthr] in *. destruct g; [apply orb_true_r|].
    rewrite U in Hd by reflexivity. discriminate.
  - split; [intros X; contradiction|intros _]. rewrite !hw_field_spec by lia. unfold tree_at at 1 2. rewrite E. reflexivity.
Qed.
(** Where the refinement stops is unique. *)
Lemma stops_unique h c i b : stopping h c i b -> forall i' b', stopping h c i' b' -> i = i' /\ b = b'.
Proof.
  induction 1; intros i' b' H'; inversion H'; subst; try lia; try contradiction; try congruence; try (split; reflexivity).
  auto.
Qed.
Lemma stops_in h c i b : stopping h c i b -> 0 <= h -> in_node i c = true /\ 0 <= oh i <= h.
Proof.
  induction 1 as [h c H|h c H|h c H|h c i b H NS Ha _ IH]; intros Hh.
  1-3: split; [apply node_of_in; lia|cbn [node_of oh]; lia].
  assert (0 <= h - 1) by lia. destruct (IH H0). split; [assumption|lia].
Qed.
End FIELD.
