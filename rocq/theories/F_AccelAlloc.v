(** Facts about the tree accelerator with allocation: the cached addresses always describe the path of the last call. *)
From Verif Require Import Base M_IntMath M_Morton M_NdtreeIndex M_Num M_Haar M_Haar3 M_Ndtree M_Wavelet M_Octree M_Accel M_AccelAlloc
  F_IntMath F_Morton F_NdtreeIndex F_Haar3 F_Wavelet F_Hash S_Field F_Octree F_Accel.

Lemma child_rng m j : 0 <= rel m j < 8.
Proof.
  unfold relativeChildIndexFromMorton. change (Z.shiftl 1 3 - 1) with (Z.ones 3). rewrite Z.land_ones by lia. apply Z.mod_pos_bound. lia.
Qed.
Section F.
Context {A : Type}.
Notation tree := (node A).
Notation bmap := (shash tree).

Lemma setChild_twice (n : tree) c x y : setChild (setChild n c x) c y = setChild n c y.
Proof.
  unfold setChild. cbn [nkids ndata]. do 2 f_equal. apply oct_ext. intros j Hj. rewrite !oget_oset by assumption.
  destruct (j =? c); reflexivity.
Qed.
Lemma setBlock_twice (m : bmap) b x y : setBlock (setBlock m b x) b y = setBlock m b y.
Proof.
  induction m as [|[k z] m IH]; cbn [setBlock].
  - rewrite ieqb_refl. reflexivity.
  - destruct (ieqb k b) eqn:E; cbn [setBlock]; rewrite E; [reflexivity|]. rewrite IH. reflexivity.
Qed.

(** ** Paths *)
(** The child indices on the way down from height [h] to height [h - k]. *)
Fixpoint way (k : nat) (mo h : Z) : list Z := match k with O => [] | S k' => rel mo h :: way k' mo (h - 1) end.
Lemma way_snoc k : forall mo h, way (S k) mo h = way k mo h ++ [rel mo (h - Z.of_nat k)].
Proof.
  induction k as [|k IH]; intros mo h.
  - cbn. do 2 f_equal. lia.
  - change (way (S (S k)) mo h) with (rel mo h :: way (S k) mo (h - 1)). rewrite IH. cbn [way app]. do 4 f_equal. lia.
Qed.
Lemma way_eq k : forall m1 m2 L h, 0 <= L -> L <= h - Z.of_nat k -> Z.shiftr m1 (L * 3) = Z.shiftr m2 (L * 3) -> way k m1 h = way k m2 h.
Proof.
  induction k as [|k IH]; intros m1 m2 L h H0 HL E; [reflexivity|]. cbn [way]. f_equal.
  - apply (rel_shift _ _ L); [lia|lia|exact E].
  - apply (IH _ _ L); [lia|lia|exact E].
Qed.
Lemma node_at_app q : forall r (n : tree), node_at (q ++ r) n = match node_at q n with None => None | Some x => node_at r x end.
Proof.
  induction q as [|c q IH]; intros r n; cbn [app node_at]; [reflexivity|]. destruct (getChild n c); [apply IH|reflexivity].
Qed.
Lemma mod_at_app q : forall r f (n : tree), mod_at (q ++ r) f n = mod_at q (mod_at r f) n.
Proof.
  induction q as [|c q IH]; intros r f n; cbn [app mod_at]; [reflexivity|]. destruct (getChild n c); [rewrite IH|]; reflexivity.
Qed.
Lemma mod_at_ext q : forall f g (n x : tree), node_at q n = Some x -> f x = g x -> mod_at q f n = mod_at q g n.
Proof.
  induction q as [|c q IH]; intros f g n x H E; cbn [mod_at node_at] in *; [congruence|].
  destruct (getChild n c); [|reflexivity]. rewrite (IH f g _ x H E). reflexivity.
Qed.
Definition cok (c : Z) : Prop := 0 <= c < 8.
Lemma node_at_mod q : forall f (n x : tree), Forall cok q -> node_at q n = Some x -> node_at q (mod_at q f n) = Some (f x).
Proof.
  induction q as [|c q IH]; intros f n x Hq H; cbn [mod_at node_at] in *; [congruence|]. inversion Hq; subst.
  destruct (getChild n c) as [ch|]; [|discriminate]. rewrite gChild_set, Z.eqb_refl by assumption. apply IH; assumption.
Qed.
Lemma mod_at_mod q : forall f g (n x : tree), Forall cok q -> node_at q n = Some x ->
  mod_at q f (mod_at q g n) = mod_at q (fun y => f (g y)) n.
Proof.
  induction q as [|c q IH]; intros f g n x Hq H; cbn [mod_at node_at] in *; [reflexivity|]. inversion Hq; subst.
  destruct (getChild n c) as [ch|] eqn:E; [|discriminate]. rewrite gChild_set, Z.eqb_refl by assumption.
  rewrite setChild_twice. f_equal. apply (IH f g ch x); assumption.
Qed.
Lemma way_ok k : forall mo h, Forall cok (way k mo h).
Proof. induction k as [|k IH]; intros mo h; constructor; [apply child_rng|apply IH]. Qed.

(** ** Direct traversals, in terms of paths *)
Lemma anc_from k : forall j mo h (r x : tree), node_at (way k mo h) r = Some x ->
  nd_anc_loop (k + j) h mo r = nd_anc_loop j (h - Z.of_nat k) mo x.
Proof.
  induction k as [|k IH]; intros j mo h r x H; cbn [way node_at] in H.
  - injection H as ->. cbn [Nat.add]. f_equal. lia.
  - cbn [Nat.add nd_anc_loop]. destruct (getChild r (rel mo h)) as [ch|]; [|discriminate]. rewrite (IH j mo (h - 1) ch x H).
    f_equal. lia.
Qed.
Lemma alloc_from k : forall j mo h d f (r x : tree), node_at (way k mo h) r = Some x ->
  nd_alloc_loop (k + j) h mo d f r = mod_at (way k mo h) (nd_alloc_loop j (h - Z.of_nat k) mo d f) r.
Proof.
  induction k as [|k IH]; intros j mo h d f r x H; cbn [way node_at] in H.
  - cbn [Nat.add way mod_at]. f_equal. lia.
  - cbn [Nat.add nd_alloc_loop way mod_at]. unfold childOrNew. destruct (getChild r (rel mo h)) as [ch|]; [|discriminate].
    rewrite (IH j mo (h - 1) d f ch x H). do 3 f_equal. lia.
Qed.
Lemma alloc_exists k : forall j mo h d f (r : tree), exists x, node_at (way k mo h) (nd_alloc_loop (k + j) h mo d f r) = Some x.
Proof.
  induction k as [|k IH]; intros j mo h d f r; cbn [way node_at Nat.add]; [eauto|]. cbn [nd_alloc_loop].
  rewrite gChild_set, Z.eqb_refl by apply child_rng. apply IH.
Qed.
Lemma alloc_loop_mod (T : Z) k : forall ph h p d f (n : tree), ph = h + Z.of_nat k -> 0 <= h -> ph <= T -> T <= 21 ->
  nd_alloc_loop k ph (omorton (OI h (imap (fun c => c mod 2 ^ (T - h)) p))) d f n = nd_alloc_loop k ph (omorton (OI h p)) d f n.
Proof.
  induction k as [|k IH]; intros ph h p d f n E H0 Hp HT; cbn [nd_alloc_loop]; [reflexivity|].
  rewrite rel_mod by lia. rewrite IH by lia. reflexivity.
Qed.

(** ** The walks *)
Lemma get_walk_spec b mo r m : getBlock m b = Some r ->
  forall k j st h (x : tree), st h = Some (b, way j mo (h + Z.of_nat j)) -> node_at (way j mo (h + Z.of_nat j)) r = Some x ->
  exists st' h' (y : tree), get_walk k m st mo h = Some (st', h', (b, way (j + Z.to_nat (h - h')) mo (h + Z.of_nat j))) /\
  h - Z.of_nat k <= h' <= h /\ fst (nd_anc_loop k h mo x) = y /\
  node_at (way (j + Z.to_nat (h - h')) mo (h + Z.of_nat j)) r = Some y /\
  (forall l, h < l -> st' l = st l) /\
  (forall l, h' <= l <= h -> st' l = Some (b, way (j + Z.to_nat (h - l)) mo (h + Z.of_nat j)) /\
     exists z : tree, node_at (way (j + Z.to_nat (h - l)) mo (h + Z.of_nat j)) r = Some z).
Proof.
  intros Hb. induction k as [|k IH]; intros j st h x Hst Hx; cbn [get_walk]; rewrite Hst.
  - exists st, h, x. replace (Z.to_nat (h - h)) with O by lia. rewrite Nat.add_0_r. split; [reflexivity|]. split; [lia|].
    split; [reflexivity|]. split; [exact Hx|]. split; [reflexivity|]. intros l Hl. replace l with h by lia.
    replace (Z.to_nat (h - h)) with O by lia. rewrite Nat.add_0_r. eauto.
  - unfold deref. cbn [fst snd]. rewrite Hb, Hx. cbn [nd_anc_loop]. destruct (getChild x (rel mo h)) as [ch|] eqn:Ec.
    + destruct (IH (S j) (aset st (h - 1) (Some (b, way j mo (h + Z.of_nat j) ++ [rel mo h]))) (h - 1) ch)
        as (st' & h' & y & I1 & I2 & I3 & I4 & I5 & I6).
      * rewrite aset_same. replace (h - 1 + Z.of_nat (S j)) with (h + Z.of_nat j) by lia. rewrite way_snoc.
        do 3 f_equal. f_equal. f_equal. lia.
      * replace (h - 1 + Z.of_nat (S j)) with (h + Z.of_nat j) by lia. rewrite way_snoc, node_at_app, Hx. cbn [node_at].
        replace (h + Z.of_nat j - Z.of_nat j) with h by lia. rewrite Ec. reflexivity.
      * replace (h - 1 + Z.of_nat (S j)) with (h + Z.of_nat j) in * by lia.
        replace (S j + Z.to_nat (h - 1 - h'))%nat with (j + Z.to_nat (h - h'))%nat in * by lia.
        exists st', h', y. split; [exact I1|]. split; [lia|]. split; [exact I3|]. split; [exact I4|].
        split; [intros l Hl; rewrite I5 by lia; apply aset_other; lia|].
        intros l Hl. destruct (Z.eq_dec l h) as [->|Nl].
        -- replace (Z.to_nat (h - h)) with O by lia. rewrite Nat.add_0_r. rewrite I5, aset_other by lia. eauto.
        -- specialize (I6 l ltac:(lia)). replace (S j + Z.to_nat (h - 1 - l))%nat with (j + Z.to_nat (h - l))%nat in I6 by lia. exact I6.
    + exists st, h, x. replace (Z.to_nat (h - h)) with O by lia. rewrite Nat.add_0_r. split; [reflexivity|]. split; [lia|].
      split; [reflexivity|]. split; [exact Hx|]. split; [reflexivity|]. intros l Hl. replace l with h by lia.
      replace (Z.to_nat (h - h)) with O by lia. rewrite Nat.add_0_r. eauto.
Qed.
Lemma alloc_walk_spec b mo d f : forall k j st h m r (x : tree), getBlock m b = Some r ->
  st h = Some (b, way j mo (h + Z.of_nat j)) -> node_at (way j mo (h + Z.of_nat j)) r = Some x ->
  exists st' m' r' y, alloc_walk d k m st mo h = Some (st', h - Z.of_nat k, m', (b, way (j + k) mo (h + Z.of_nat j))) /\
  getBlock m' b = Some r' /\ node_at (way (j + k) mo (h + Z.of_nat j)) r' = Some y /\
  write m' (b, way (j + k) mo (h + Z.of_nat j)) f =
    setBlock m b (mod_at (way j mo (h + Z.of_nat j)) (nd_alloc_loop k h mo d f) r) /\
  (forall l, h < l -> st' l = st l) /\
  (forall l, h - Z.of_nat k <= l <= h -> st' l = Some (b, way (j + Z.to_nat (h - l)) mo (h + Z.of_nat j))).
Proof.
  induction k as [|k IH]; intros j st h m r x Hb Hst Hx; cbn [alloc_walk]; rewrite Hst.
  - exists st, m, r, x. rewrite Nat.add_0_r. split; [do 4 f_equal; lia|]. split; [exact Hb|]. split; [exact Hx|].
    split; [unfold write; cbn [fst snd nd_alloc_loop]; rewrite Hb; reflexivity|]. split; [reflexivity|].
    intros l Hl. replace l with h by lia. replace (Z.to_nat (h - h)) with O by lia. rewrite Nat.add_0_r. exact Hst.
  - unfold deref. cbn [fst snd]. rewrite Hb, Hx.
    set (c := rel mo h). set (q := way j mo (h + Z.of_nat j)) in *.
    set (F := fun n : tree => setChild n c (childOrNew d n c)).
    assert (Hc : cok c) by apply child_rng. assert (Hq : Forall cok q) by apply way_ok.
    assert (Hw : way (S j) mo (h + Z.of_nat j) = q ++ [c]).
    { rewrite way_snoc. unfold q, c. do 3 f_equal. lia. }
    assert (Hn : node_at (q ++ [c]) (mod_at q F r) = Some (childOrNew d x c)).
    { rewrite node_at_app, (node_at_mod q F r x Hq Hx). cbn [node_at]. unfold F.
      rewrite gChild_set, Z.eqb_refl by assumption. reflexivity. }
    destruct (IH (S j) (aset st (h - 1) (Some (b, q ++ [c]))) (h - 1) (setBlock m b (mod_at q F r)) (mod_at q F r) (childOrNew d x c))
      as (st' & m' & r' & y & I1 & I2 & I3 & I4 & I5 & I6).
    + rewrite getBlock_setBlock, ieqb_refl. reflexivity.
    + rewrite aset_same. replace (h - 1 + Z.of_nat (S j)) with (h + Z.of_nat j) by lia. rewrite Hw. reflexivity.
    + replace (h - 1 + Z.of_nat (S j)) with (h + Z.of_nat j) by lia. rewrite Hw. exact Hn.
    + replace (h - 1 + Z.of_nat (S j)) with (h + Z.of_nat j) in * by lia.
      replace (S j + k)%nat with (j + S k)%nat in * by lia. replace (h - 1 - Z.of_nat k) with (h - Z.of_nat (S k)) in * by lia.
      exists st', m', r', y. split.
      { rewrite <- I1. unfold write. cbn [fst snd]. rewrite Hb. reflexivity. }
      split; [exact I2|]. split; [exact I3|]. split.
      { rewrite I4, setBlock_twice. f_equal. rewrite Hw, mod_at_app.
        rewrite (mod_at_mod q _ F r x Hq Hx). apply (mod_at_ext q _ _ r x Hx). cbn [nd_alloc_loop mod_at]. unfold F. fold c.
        rewrite gChild_set, Z.eqb_refl by assumption. apply setChild_twice. }
      split; [intros l Hl; rewrite I5 by lia; apply aset_other; lia|].
      intros l Hl. destruct (Z.eq_dec l h) as [->|Nl].
      * replace (Z.to_nat (h - h)) with O by lia. rewrite Nat.add_0_r. rewrite I5, aset_other by lia. exact Hst.
      * specialize (I6 l ltac:(lia)). replace (S j + Z.to_nat (h - 1 - l))%nat with (j + Z.to_nat (h - l))%nat in I6 by lia. exact I6.
Qed.

(** ** The invariant *)
Context (T : Z) (HT : 1 <= T < 20).
Definition cached (m : bmap) (b : idx3) (st : Z -> option nptr) (mo lo : Z) : Prop :=
  exists r, getBlock m b = Some r /\
  forall l, lo <= l <= T -> st l = Some (b, way (Z.to_nat (T - l)) mo T) /\
    exists x : tree, node_at (way (Z.to_nat (T - l)) mo T) r = Some x.
Definition pinv (m : bmap) (a : @pacc) : Prop :=
  0 <= p_height a <= T /\ 0 <= p_morton a < 2 ^ 64 /\
  if p_exists a
  then cached m (p_block a) (p_stack a) (p_morton a) (p_height a) /\
       exists j, 0 <= oh j <= T /\ p_block a = block_at T j /\ p_morton a = omorton j
  else p_block a = no_block \/ getBlock m (p_block a) = None.
Lemma pinv_new m : pinv m (pacc_new T).
Proof. split; [cbn; lia|]. split; [cbn; lia|]. cbn. auto. Qed.
(** The node from which the walk starts is cached and is an ancestor of the called node. *)
Lemma start_ok m a i : pinv m a -> 0 <= oh i <= T -> block_at T i = p_block a -> p_exists a = true ->
  oh i <= start_height T a i (p_height a) <= T /\
  cached m (block_at T i) (p_stack a) (omorton i) (start_height T a i (p_height a)).
Proof.
  intros (Hh & Hm & Hcase) Hi Eb Ex. rewrite Ex in Hcase. destruct Hcase as ((r & Hr & Hc) & j & Hj & Ej & Em).
  unfold start_height. destruct (Z.eqb_spec (p_height a) T) as [Et|Nt].
  - split; [lia|]. exists r. rewrite Eb. split; [exact Hr|]. intros l Hl. replace l with T by lia.
    destruct (Hc T ltac:(lia)) as [H1 H2]. replace (Z.to_nat (T - T)) with O in * by lia. cbn [way] in *. auto.
  - destruct (lca_spec 3 (omorton i) (oh i) (p_morton a) (p_height a) ltac:(lia) (omorton_range i) Hm ltac:(lia) ltac:(lia))
      as (L1 & L2 & L3 & L4).
    set (L := computeLastCommonAncestorHeight 3 (omorton i) (oh i) (p_morton a) (p_height a)) in *.
    assert (L5 : L <= T).
    { apply L4; [lia|lia|]. rewrite Em. apply block_code; [assumption|assumption|congruence]. }
    split; [lia|]. exists r. rewrite Eb. split; [exact Hr|]. intros l Hl. destruct (Hc l ltac:(lia)) as [H1 H2].
    rewrite (way_eq (Z.to_nat (T - l)) (omorton i) (p_morton a) L T) by (first [lia | exact L3]). auto.
Qed.
Lemma cached_fresh (m : bmap) b st mo r : getBlock m b = Some r -> cached m b (aset st T (Some (b, []))) mo T.
Proof.
  intros Hr. exists r. split; [exact Hr|]. intros l Hl. replace l with T by lia. replace (Z.to_nat (T - T)) with O by lia.
  rewrite aset_same. cbn. eauto.
Qed.
Lemma start_fresh a i : start_height T a i T = T.
Proof. unfold start_height. rewrite Z.eqb_refl. reflexivity. Qed.

Lemma get_fin (m : bmap) b st i h : b = block_at T i -> 0 <= oh i <= h -> h <= T -> cached m b st (omorton i) h ->
  exists st' h' p x, get_walk (Z.to_nat (h - oh i)) m st (omorton i) h = Some (st', h', p) /\
  deref m p = Some x /\ ndirect T m i = Some x /\ pinv m (PACC st' b true (omorton i) h').
Proof.
  intros Eb Hi Hh (r & Hr & Hc). destruct (Hc h ltac:(lia)) as [H1 [x H2]].
  destruct (get_walk_spec b (omorton i) r m Hr (Z.to_nat (h - oh i)) (Z.to_nat (T - h)) st h x) as (st' & h' & y & I1 & I2 & I3 & I4 & I5 & I6).
  - rewrite H1. do 3 f_equal. lia.
  - rewrite <- H2. do 2 f_equal. lia.
  - replace (h + Z.of_nat (Z.to_nat (T - h))) with T in * by lia.
    do 4 eexists. split; [exact I1|]. split; [unfold deref; cbn [fst snd]; rewrite Hr; exact I4|]. split.
    { unfold ndirect. rewrite <- Eb, Hr. cbn [option_map]. f_equal. rewrite <- I3.
      replace (Z.to_nat (T - oh i)) with (Z.to_nat (T - h) + Z.to_nat (h - oh i))%nat by lia.
      rewrite (anc_from _ _ _ _ _ _ H2). do 2 f_equal. lia. }
    split; [cbn [p_height]; lia|]. split; [apply omorton_range|]. cbn [p_exists p_block p_stack p_morton p_height]. split.
    + exists r. split; [exact Hr|]. intros l Hl. destruct (Z_le_gt_dec l h).
      * specialize (I6 l ltac:(lia)). replace (Z.to_nat (T - h) + Z.to_nat (h - l))%nat with (Z.to_nat (T - l)) in I6 by lia. exact I6.
      * rewrite I5 by lia. apply Hc. lia.
    + exists i. split; [lia|]. auto.
Qed.
Lemma pget_spec m a i : pinv m a -> 0 <= oh i <= T -> block_at T i <> no_block ->
  exists a' p, pacc_get T m a i = Some (a', p) /\ pinv m a' /\
  match p with
  | None => ndirect T m i = None
  | Some q => exists x, deref m q = Some x /\ ndirect T m i = Some x
  end.
Proof.
  intros Ha Hi Hne. unfold pacc_get. rewrite bh_block_at by assumption.
  replace (kMaxTreeHeight3 <=? T) with false by (unfold kMaxTreeHeight3; cbn; lia).
  destruct (ieqb_spec (block_at T i) (p_block a)) as [Eb|Eb].
  - destruct (p_exists a) eqn:Ex.
    + destruct (start_ok m a i Ha Hi Eb Ex) as [S1 S2].
      destruct (get_fin m _ (p_stack a) i (start_height T a i (p_height a)) eq_refl ltac:(lia) ltac:(lia) S2) as (st' & h' & p & x & -> & G2 & G3 & G4).
      do 2 eexists. split; [reflexivity|]. split; [exact G4|]. eauto.
    + destruct Ha as (Hh & Hm & Hcase). rewrite Ex in Hcase. destruct Hcase as [Hx|Hx]; [congruence|]. rewrite <- Eb in Hx.
      do 2 eexists. split; [reflexivity|]. split; [split; [exact Hh|]; split; [apply omorton_range|]; cbn; auto|].
      unfold ndirect. rewrite Hx. reflexivity.
  - unfold hasBlock. destruct (getBlock m (block_at T i)) as [r|] eqn:Er.
    + cbv beta iota zeta. rewrite start_fresh.
      match goal with |- context [get_walk _ _ ?st _ _] =>
        destruct (get_fin m _ st i T eq_refl ltac:(lia) ltac:(lia) (cached_fresh m _ (p_stack a) (omorton i) r Er))
          as (st' & h' & p & x & -> & G2 & G3 & G4) end.
      do 2 eexists. split; [reflexivity|]. split; [exact G4|]. eauto.
    + do 2 eexists. split; [reflexivity|]. split; [split; [cbn; lia|]; split; [apply omorton_range|]; cbn; auto|].
      unfold ndirect. rewrite Er. reflexivity.
Qed.

Definition aupdate (dflt d : A) (m : bmap) (i : oidx) (f : tree -> tree) : bmap :=
  setBlock m (block_at T i) (nd_alloc_loop (Z.to_nat (T - oh i)) T (omorton i) d f (blockOrNew (Node dflt None) m (block_at T i))).
Lemma alloc_fin d f (m : bmap) b st i h r : b = block_at T i -> 0 <= oh i <= h -> h <= T -> cached m b st (omorton i) h ->
  getBlock m b = Some r ->
  exists st' h' m' p x, alloc_walk d (Z.to_nat (h - oh i)) m st (omorton i) h = Some (st', h', m', p) /\
  deref m' p = Some x /\
  write m' p f = setBlock m b (nd_alloc_loop (Z.to_nat (T - oh i)) T (omorton i) d f r) /\
  pinv (write m' p f) (PACC st' b true (omorton i) h').
Proof.
  intros Eb Hi Hh (r0 & Hr0 & Hc) Hr. rewrite Hr in Hr0. injection Hr0 as <-. destruct (Hc h ltac:(lia)) as [H1 [x H2]].
  destruct (alloc_walk_spec b (omorton i) d f (Z.to_nat (h - oh i)) (Z.to_nat (T - h)) st h m r x Hr) as (st' & m' & r' & y & I1 & I2 & I3 & I4 & I5 & I6).
  - rewrite H1. do 3 f_equal. lia.
  - rewrite <- H2. do 2 f_equal. lia.
  - replace (h + Z.of_nat (Z.to_nat (T - h))) with T in * by lia.
    replace (h - Z.of_nat (Z.to_nat (h - oh i))) with (oh i) in * by lia.
    assert (W : write m' (b, way (Z.to_nat (T - h) + Z.to_nat (h - oh i)) (omorton i) T) f =
      setBlock m b (nd_alloc_loop (Z.to_nat (T - oh i)) T (omorton i) d f r)).
    { rewrite I4. f_equal. replace (Z.to_nat (T - oh i)) with (Z.to_nat (T - h) + Z.to_nat (h - oh i))%nat by lia.
      rewrite (alloc_from _ _ _ _ d f _ _ H2). f_equal. f_equal. lia. }
    do 5 eexists. split; [exact I1|]. split; [unfold deref; cbn [fst snd]; rewrite I2; exact I3|]. split; [exact W|].
    rewrite W. split; [cbn [p_height]; lia|]. split; [apply omorton_range|]. cbn [p_exists p_block p_stack p_morton p_height]. split.
    + eexists. split; [rewrite getBlock_setBlock, ieqb_refl; reflexivity|]. intros l Hl. split.
      * destruct (Z_le_gt_dec l h).
        -- specialize (I6 l ltac:(lia)). replace (Z.to_nat (T - h) + Z.to_nat (h - l))%nat with (Z.to_nat (T - l)) in I6 by lia. exact I6.
        -- rewrite I5 by lia. apply Hc. lia.
      * replace (Z.to_nat (T - oh i)) with (Z.to_nat (T - l) + Z.to_nat (l - oh i))%nat by lia. apply alloc_exists.
    + exists i. split; [lia|]. auto.
Qed.
Lemma palloc_spec dflt d f m a i : pinv m a -> 0 <= oh i <= T -> block_at T i <> no_block ->
  exists a' m' p x, pacc_alloc T dflt d m a i = Some (a', m', p) /\ deref m' p = Some x /\
  write m' p f = aupdate dflt d m i f /\ pinv (write m' p f) a'.
Proof.
  intros Ha Hi Hne. unfold pacc_alloc, aupdate. rewrite bh_block_at by assumption.
  replace (kMaxTreeHeight3 <=? T) with false by (unfold kMaxTreeHeight3; cbn; lia).
  destruct (ieqb_spec (block_at T i) (p_block a)) as [Eb|Eb]; [destruct (p_exists a) eqn:Ex|]; cbn [negb orb].
  - destruct (start_ok m a i Ha Hi Eb Ex) as [S1 S2]. pose proof S2 as (r & Hr & _).
    destruct (alloc_fin d f m _ (p_stack a) i (start_height T a i (p_height a)) r eq_refl ltac:(lia) ltac:(lia) S2 Hr) as (st' & h' & m' & p & x & -> & G2 & G3 & G4).
    do 4 eexists. split; [reflexivity|]. split; [exact G2|]. split; [|exact G4]. rewrite G3. unfold blockOrNew. rewrite Hr. reflexivity.
  - cbv beta iota zeta. rewrite start_fresh. set (r := blockOrNew (Node dflt None) m (block_at T i)).
    assert (Hr : getBlock (setBlock m (block_at T i) r) (block_at T i) = Some r) by (rewrite getBlock_setBlock, ieqb_refl; reflexivity).
    match goal with |- context [alloc_walk _ _ _ ?st _ _] =>
      destruct (alloc_fin d f _ _ st i T r eq_refl ltac:(lia) ltac:(lia) (cached_fresh _ _ (p_stack a) (omorton i) r Hr) Hr)
        as (st' & h' & m' & p & x & -> & G2 & G3 & G4) end.
    do 4 eexists. split; [reflexivity|]. split; [exact G2|]. split; [|exact G4]. rewrite G3. apply setBlock_twice.
  - cbv beta iota zeta. rewrite start_fresh. set (r := blockOrNew (Node dflt None) m (block_at T i)).
    assert (Hr : getBlock (setBlock m (block_at T i) r) (block_at T i) = Some r) by (rewrite getBlock_setBlock, ieqb_refl; reflexivity).
    match goal with |- context [alloc_walk _ _ _ ?st _ _] =>
      destruct (alloc_fin d f _ _ st i T r eq_refl ltac:(lia) ltac:(lia) (cached_fresh _ _ (p_stack a) (omorton i) r Hr) Hr)
        as (st' & h' & m' & p & x & -> & G2 & G3 & G4) end.
    do 4 eexists. split; [reflexivity|]. split; [exact G2|]. split; [|exact G4]. rewrite G3. apply setBlock_twice.
Qed.
Lemma aupdate_direct dflt m i g : 0 <= oh i <= T -> aupdate dflt dflt m i (data_fn g) = bh_update T dflt m i g.
Proof.
  intros Hi. unfold aupdate, bh_update. rewrite bh_block_at by assumption. cbv zeta. f_equal. unfold nd_alloc_data, bh_cellIndex.
  destruct i as [h p]. cbn [oh opos] in *.
  replace (imap (fun c => div_exp2_floor_remainder c (T - h)) p) with (imap (fun c => c mod 2 ^ (T - h)) p)
    by (unfold imap; rewrite !div_exp2_floor_remainder_spec by lia; reflexivity).
  rewrite alloc_loop_mod by lia. reflexivity.
Qed.
End F.
