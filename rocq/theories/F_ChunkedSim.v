(** Chunked octrees refine pointer octrees: the simulation relation and the operations of the wavelet map. *)
From Verif Require Import Base M_IntMath F_IntMath M_Morton F_Morton M_NdtreeIndex F_NdtreeIndex
  M_Num F_Num M_Haar F_Haar M_Haar3 F_Haar3 M_Ndtree F_Hash M_Wavelet F_Wavelet F_Wavelet2 F_Leaves F_WavTree
  M_Octree F_Octree M_Chunked F_Chunked.
From Coq Require Import QArith Qcanon Qcabs Lqa.
Close Scope Qc_scope.
Close Scope Q_scope.
Open Scope Z_scope.

Section SIM.
Context {A : Type} (zero : A) (H : Z) (HH : 1 <= H <= 20).
Notation chunkA := (chunk A).
Notation tree := (node A).
Notation addr := (addr H).
Notation dat := (dat zero H).
Notation bit := (bit H).
Notation present := (present H).
Notation new := (Node zero None).

Definition olook (r : list Z) (o : option tree) : option tree := match o with Some n => nlook r n | None => None end.
Definition odat (o : option tree) : A := match o with Some n => ndata n | None => zero end.
Definition obit (o : option tree) : bool := match o with Some n => hasChildrenArray n | None => false end.
(** The nodes of the chunked tree at and below [q] hold the same data as the pointer tree [o] at [q]; nodes that
    only exist in the chunked tree hold zero. *)
Definition sub (root : chunkA) (q : list Z) (o : option tree) : Prop :=
  forall r, valid_path r ->
    dat root (q ++ r) = odat (olook r o) /\ bit root (q ++ r) = obit (olook r o) /\
    (olook r o <> None -> present root (q ++ r)).
(** Nothing outside the subtree at [q] changed. *)
Definition frame (q : list Z) (root root' : chunkA) : Prop :=
  forall r, valid_path r -> is_prefix q r = false ->
    dat root' r = dat root r /\ bit root' r = bit root r /\ (present root r -> present root' r).
Lemma valid_app a b : valid_path (a ++ b) <-> valid_path a /\ valid_path b.
Proof. apply Forall_app. Qed.
Lemma valid_one c : 0 <= c < 8 -> valid_path [c].
Proof. repeat constructor; lia. Qed.
Lemma is_prefix_app q : forall r s, is_prefix (q ++ r) (q ++ s) = is_prefix r s.
Proof. induction q as [|x q IH]; intros r s; cbn [app is_prefix]; [reflexivity|]. rewrite Z.eqb_refl. apply IH. Qed.
Lemma is_prefix_long q : forall r, (length r < length q)%nat -> is_prefix q r = false.
Proof.
  intros r Hl. apply not_true_iff_false. rewrite is_prefix_firstn. intros [L _]. lia.
Qed.
Lemma is_prefix_ext a : forall b r, is_prefix a b = true -> is_prefix a (b ++ r) = true.
Proof.
  induction a as [|x a IH]; intros b r; [reflexivity|]. destruct b as [|y b]; cbn [is_prefix app]; [discriminate|].
  intros E. apply andb_true_iff in E as [-> E]. apply IH. exact E.
Qed.
Lemma is_prefix_split a b : is_prefix a b = true <-> exists r, b = a ++ r.
Proof.
  split.
  - intros E. apply is_prefix_firstn in E as [L E]. exists (skipn (length a) b). rewrite E at 1. rewrite firstn_skipn. reflexivity.
  - intros [r ->]. apply is_prefix_ext, is_prefix_refl.
Qed.
Lemma is_prefix_shorter a r b : is_prefix (a ++ r) b = true -> is_prefix a b = true.
Proof. rewrite !is_prefix_split. intros [s ->]. exists (r ++ s). rewrite app_assoc. reflexivity. Qed.
Lemma frame_refl q root : frame q root root.
Proof. intros r Hr _. auto. Qed.
Lemma frame_trans q a b c : frame q a b -> frame q b c -> frame q a c.
Proof.
  intros F1 F2 r Hr Hp. destruct (F1 r Hr Hp) as (a1 & a2 & a3), (F2 r Hr Hp) as (b1 & b2 & b3).
  split; [congruence|]. split; [congruence|auto].
Qed.
Lemma frame_wide q s a b : frame (q ++ s) a b -> frame q a b.
Proof.
  intros F r Hr Hp. apply F; [assumption|]. apply not_true_iff_false. intros E. apply is_prefix_shorter in E. congruence.
Qed.
Lemma frame_sub q q' root root' o : frame q root root' -> valid_path q' ->
  (forall r, is_prefix q (q' ++ r) = false) -> sub root q' o -> sub root' q' o.
Proof.
  intros F Hq' Hn S r Hr. destruct (F (q' ++ r) (proj2 (valid_app _ _) (conj Hq' Hr)) (Hn r)) as (F1 & F2 & F3).
  destruct (S r Hr) as (S1 & S2 & S3). rewrite F1, F2. auto.
Qed.
Lemma sibling_ne q c c' r : c <> c' -> is_prefix (q ++ [c]) ((q ++ [c']) ++ r) = false.
Proof.
  intros Hne. rewrite <- app_assoc, is_prefix_app. cbn [app is_prefix].
  destruct (Z.eqb_spec c c'); [contradiction|reflexivity].
Qed.
Lemma olook_cons c r n : olook (c :: r) (Some n) = olook r (getChild n c).
Proof. reflexivity. Qed.
Lemma olook_none r : olook r None = None.
Proof. reflexivity. Qed.
Lemma olook_new r : olook r (Some new) = match r with [] => Some new | _ => None end.
Proof. destruct r; reflexivity. Qed.
Lemma sub_none_new root q : sub root q None -> present root q -> sub root q (Some new).
Proof.
  intros S Hp r Hr. destruct (S r Hr) as (S1 & S2 & _). rewrite olook_new. destruct r as [|c r].
  - split; [exact S1|]. split; [exact S2|]. intros _. rewrite app_nil_r. exact Hp.
  - split; [exact S1|]. split; [exact S2|]. intros X. contradiction X. reflexivity.
Qed.
Lemma sub_new_none root q : sub root q (Some new) -> sub root q None.
Proof.
  intros S r Hr. destruct (S r Hr) as (S1 & S2 & _). rewrite olook_new in *.
  destruct r as [|c r]; (split; [exact S1|]; split; [exact S2|]; intros X; contradiction X; reflexivity).
Qed.
Lemma sub_root root q n : sub root q (Some n) -> dat root q = ndata n /\ bit root q = hasChildrenArray n /\ present root q.
Proof.
  intros S. destruct (S [] ltac:(constructor)) as (S1 & S2 & S3). rewrite app_nil_r in *. cbn in *.
  split; [assumption|]. split; [assumption|]. apply S3. discriminate.
Qed.
Lemma sub_child root q n c : sub root q (Some n) -> 0 <= c < 8 -> sub root (q ++ [c]) (getChild n c).
Proof.
  intros S Hc r Hr. destruct (S (c :: r) ltac:(constructor; assumption)) as (S1 & S2 & S3).
  rewrite <- app_assoc. exact (conj S1 (conj S2 S3)).
Qed.
Lemma sub_intro root q n : dat root q = ndata n -> bit root q = hasChildrenArray n -> present root q ->
  (forall c, 0 <= c < 8 -> sub root (q ++ [c]) (getChild n c)) -> sub root q (Some n).
Proof.
  intros E1 E2 E3 S r Hr. destruct r as [|c r].
  - rewrite app_nil_r. cbn. auto.
  - inversion Hr; subst. destruct (S c ltac:(assumption) r ltac:(assumption)) as (S1 & S2 & S3).
    rewrite <- app_assoc in *. cbn [app] in *. auto.
Qed.
Lemma sub_new q : valid_path q -> sub (chunk_new zero) q None.
Proof.
  intros Hq r Hr. destruct (dat_new zero H (q ++ r)) as [E1 E2]; [apply valid_app; auto|].
  split; [exact E1|]. split; [exact E2|]. intros X. contradiction X. reflexivity.
Qed.
Lemma sub_fresh : sub (chunk_new zero) [] (Some new).
Proof. apply sub_none_new; [apply sub_new; constructor|apply present_root]. Qed.

(** getChild: exactly the pointer tree's child, or a node that only exists in the chunked tree *)
Lemma sim_getChild root q n c : valid_path q -> 0 <= c < 8 -> sub root q (Some n) ->
  match nr_getChild H root (addr q) c with
  | Some r => r = addr (q ++ [c]) /\ bit root q = true /\ sub root (q ++ [c]) (Some (childOrNew zero n c))
  | None => getChild n c = None
  end.
Proof.
  intros Hq Hc S. destruct (sub_root _ _ _ S) as (E1 & E2 & E3). pose proof (getChild_spec H root q c Hq Hc E3) as G.
  pose proof (sub_child _ _ _ c S Hc) as Sc.
  destruct (nr_getChild H root (addr q) c) as [r|].
  - destruct G as (-> & G1 & G2). split; [reflexivity|]. split; [exact G1|]. unfold childOrNew.
    destruct (getChild n c); [exact Sc|apply sub_none_new; assumption].
  - destruct (getChild n c) as [ch|] eqn:E; [|reflexivity]. exfalso. destruct G as [G|G].
    + rewrite E2 in G. unfold hasChildrenArray in G. unfold getChild in E. destruct (nkids n); discriminate.
    + apply G. apply (sub_root _ _ _ Sc).
Qed.
Lemma prefix_self_snoc q r : is_prefix (q ++ r) q = false \/ r = [].
Proof.
  destruct r as [|x r]; [right; reflexivity|left]. apply is_prefix_long. rewrite app_length. cbn. lia.
Qed.
(** getOrAllocateChild *)
Lemma sim_alloc root q n c : valid_path q -> 0 <= c < 8 -> sub root q (Some n) ->
  let root' := fst (nr_allocChild zero H root (addr q) c) in
  snd (nr_allocChild zero H root (addr q) c) = addr (q ++ [c]) /\
  dat root' q = ndata n /\ bit root' q = true /\ present root' q /\
  sub root' (q ++ [c]) (Some (childOrNew zero n c)) /\
  (forall c', 0 <= c' < 8 -> c' <> c -> sub root' (q ++ [c']) (getChild n c')) /\ frame q root root'.
Proof.
  intros Hq Hc S. destruct (sub_root _ _ _ S) as (E1 & E2 & E3).
  pose proof (alloc_spec zero H HH root q c Hq Hc E3) as X. destruct (nr_allocChild zero H root (addr q) c) as [root' r'].
  cbn [fst snd]. destruct X as (X1 & X2 & X3). split; [exact X1|].
  destruct (X3 q Hq) as (Y1 & Y2 & Y3). destruct (list_eq_dec Z.eq_dec q q) as [_|Z0]; [|contradiction].
  split; [congruence|]. split; [exact Y2|]. split; [auto|].
  assert (K : forall c', 0 <= c' < 8 -> sub root' (q ++ [c']) (getChild n c')).
  { intros c' Hc' r Hr. destruct (sub_child _ _ _ c' S Hc' r Hr) as (S1 & S2 & S3).
    assert (V : valid_path ((q ++ [c']) ++ r)) by (apply valid_app; split; [apply valid_app; split; [assumption|apply valid_one; assumption]|assumption]).
    destruct (X3 _ V) as (W1 & W2 & W3). rewrite W1, W2. destruct (list_eq_dec Z.eq_dec ((q ++ [c']) ++ r) q) as [Z0|_]; [|auto].
    apply (f_equal (@length Z)) in Z0. rewrite !app_length in Z0. cbn in Z0. lia. }
  split; [|split].
  - unfold childOrNew. destruct (getChild n c) as [ch|] eqn:E; [rewrite <- E; apply K; assumption|].
    apply sub_none_new; [rewrite <- E; apply K; assumption|exact X2].
  - intros c' Hc' _. apply K. assumption.
  - intros r Hr Hp. destruct (X3 r Hr) as (W1 & W2 & W3). destruct (list_eq_dec Z.eq_dec r q) as [Z0|_]; [|auto].
    subst r. rewrite is_prefix_refl in Hp. discriminate.
Qed.
(** assignment to data() and to the child bit *)
Lemma sim_setData root q d o : valid_path q -> present root q -> 
  let root' := nr_setData root (addr q) d in
  dat root' q = d /\ bit root' q = bit root q /\ present root' q /\ frame q root root' /\
  (forall c, 0 <= c < 8 -> sub root (q ++ [c]) (o c) -> sub root' (q ++ [c]) (o c)).
Proof.
  intros Hq Hp. cbv zeta. pose proof (fun q' Hq' => dat_setData zero H HH root q d q' Hq Hq' Hp) as X.
  destruct (X q Hq) as (Y1 & Y2 & Y3). destruct (list_eq_dec Z.eq_dec q q) as [_|Z0]; [|contradiction].
  split; [exact Y1|]. split; [exact Y2|]. split; [apply Y3; exact Hp|]. split.
  - intros r Hr Hpr. destruct (X r Hr) as (W1 & W2 & W3). destruct (list_eq_dec Z.eq_dec r q) as [->|_].
    + rewrite is_prefix_refl in Hpr. discriminate.
    + split; [exact W1|]. split; [exact W2|apply W3].
  - intros c Hc S r Hr. destruct (S r Hr) as (S1 & S2 & S3).
    assert (V : valid_path ((q ++ [c]) ++ r)) by (apply valid_app; split; [apply valid_app; split; [assumption|apply valid_one; assumption]|assumption]).
    destruct (X _ V) as (W1 & W2 & W3). rewrite W1, W2, W3. destruct (list_eq_dec Z.eq_dec ((q ++ [c]) ++ r) q) as [Z0|_]; [|auto].
    apply (f_equal (@length Z)) in Z0. rewrite !app_length in Z0. cbn in Z0. lia.
Qed.
Lemma sim_setBit root q b o : valid_path q -> present root q ->
  let root' := nr_setBit root (addr q) b in
  dat root' q = dat root q /\ bit root' q = b /\ present root' q /\ frame q root root' /\
  (forall c, 0 <= c < 8 -> sub root (q ++ [c]) (o c) -> sub root' (q ++ [c]) (o c)).
Proof.
  intros Hq Hp. cbv zeta. pose proof (fun q' Hq' => dat_setBit zero H HH root q b q' Hq Hq' Hp) as X.
  destruct (X q Hq) as (Y1 & Y2 & Y3). destruct (list_eq_dec Z.eq_dec q q) as [_|Z0]; [|contradiction].
  split; [exact Y1|]. split; [exact Y2|]. split; [apply Y3; exact Hp|]. split.
  - intros r Hr Hpr. destruct (X r Hr) as (W1 & W2 & W3). destruct (list_eq_dec Z.eq_dec r q) as [->|_].
    + rewrite is_prefix_refl in Hpr. discriminate.
    + split; [exact W1|]. split; [exact W2|apply W3].
  - intros c Hc S r Hr. destruct (S r Hr) as (S1 & S2 & S3).
    assert (V : valid_path ((q ++ [c]) ++ r)) by (apply valid_app; split; [apply valid_app; split; [assumption|apply valid_one; assumption]|assumption]).
    destruct (X _ V) as (W1 & W2 & W3). rewrite W1, W2, W3. destruct (list_eq_dec Z.eq_dec ((q ++ [c]) ++ r) q) as [Z0|_]; [|auto].
    apply (f_equal (@length Z)) in Z0. rewrite !app_length in Z0. cbn in Z0. lia.
Qed.
(** eraseChild *)
Lemma sim_erase root q c : valid_path q -> 0 <= c < 8 -> present root q -> bit root q = true ->
  let root' := nr_eraseChild zero H root (addr q) c in sub root' (q ++ [c]) None /\ frame (q ++ [c]) root root'.
Proof.
  intros Hq Hc Hp Hb. pose proof (erase_spec zero H HH root q c Hq Hc Hp Hb) as X. cbv zeta in *. split.
  - intros r Hr. destruct (X ((q ++ [c]) ++ r)) as (X1 & X2 & _); [apply valid_app; split; [apply valid_app; split; [assumption|apply valid_one; assumption]|assumption]|].
    rewrite is_prefix_ext in * by apply is_prefix_refl. split; [exact X1|]. split; [exact X2|]. intros Z0. contradiction Z0. reflexivity.
  - intros r Hr Hpr. destruct (X r Hr) as (X1 & X2 & X3). rewrite Hpr in *. auto.
Qed.
Lemma erase_noop root q c : bit root q = false -> nr_eraseChild zero H root (addr q) c = root.
Proof. intros E. unfold nr_eraseChild. unfold F_Chunked.bit in E. rewrite E. reflexivity. Qed.

(** ** Node lookup and allocation *)
Lemma ct_get_path k : forall root q n ph h p, valid_path q -> sub root q (Some n) -> 0 <= h -> ph - h = Z.of_nat k -> ph <= 21 ->
  match ct_get_loop H k root ph (omorton (OI h p)) (addr q) with
  | Some r => r = addr (q ++ path k p) /\ present root (q ++ path k p)
  | None => nlook (path k p) n = None
  end.
Proof.
  induction k as [|k IH]; intros root q n ph h p Hq S Hh Hk Hp; cbn [ct_get_loop path nlook].
  - rewrite app_nil_r. split; [reflexivity|apply (sub_root _ _ _ S)].
  - rewrite rel_morton_cidx by lia. replace (ph - 1 - h) with (Z.of_nat k) by lia.
    pose proof (cidx_range p (Z.of_nat k)) as Hc. set (c := cidx p (Z.of_nat k)) in *.
    pose proof (sim_getChild root q n c Hq Hc S) as G. destruct (nr_getChild H root (addr q) c) as [r|].
    + destruct G as (-> & _ & G).
      specialize (IH root (q ++ [c]) (childOrNew zero n c) (ph - 1) h p ltac:(apply valid_app; split; [assumption|apply valid_one; assumption]) G Hh ltac:(lia) ltac:(lia)).
      rewrite <- app_assoc in IH. cbn [app] in IH. destruct (ct_get_loop _ _ _ _ _ _); [exact IH|].
      unfold childOrNew in IH. destruct (getChild n c); [exact IH|reflexivity].
    + rewrite G. reflexivity.
Qed.
Lemma ct_alloc_path k : forall root q n ph h p, valid_path q -> sub root q (Some n) -> 0 <= h -> ph - h = Z.of_nat k -> ph <= 21 ->
  let x := ct_alloc_loop zero H k root ph (omorton (OI h p)) (addr q) in
  snd x = addr (q ++ path k p) /\ frame q root (fst x) /\
  forall g, let root' := nr_setData (fst x) (snd x) (g (nr_data zero (fst x) (snd x))) in
    sub root' q (Some (nalloc (path k p) zero (fun y => Node (g (ndata y)) (nkids y)) n)) /\ frame q root root'.
Proof.
  induction k as [|k IH]; intros root q n ph h p Hq S Hh Hk Hp; cbn [ct_alloc_loop path nalloc]; cbv zeta.
  - cbn [fst snd]. rewrite app_nil_r. split; [reflexivity|]. split; [apply frame_refl|]. intros g.
    destruct (sub_root _ _ _ S) as (E1 & E2 & E3). change (nr_data zero root (addr q)) with (dat root q). rewrite E1.
    destruct (sim_setData root q (g (ndata n)) (getChild n) Hq E3) as (D1 & D2 & D3 & D4 & D5). cbv zeta in *.
    split; [|exact D4]. apply sub_intro; [exact D1|rewrite D2; exact E2|exact D3|].
    intros c Hc. apply D5; [assumption|]. apply sub_child; assumption.
  - rewrite rel_morton_cidx by lia. replace (ph - 1 - h) with (Z.of_nat k) by lia.
    pose proof (cidx_range p (Z.of_nat k)) as Hc. set (c := cidx p (Z.of_nat k)) in *.
    destruct (sim_alloc root q n c Hq Hc S) as (A0 & A1 & A2 & A3 & A4 & A5 & A6). cbv zeta in *.
    destruct (nr_allocChild zero H root (addr q) c) as [root1 r1]. cbn [fst snd] in *. subst r1.
    assert (Hq1 : valid_path (q ++ [c])) by (apply valid_app; split; [assumption|apply valid_one; assumption]).
    destruct (IH root1 (q ++ [c]) (childOrNew zero n c) (ph - 1) h p Hq1 A4 Hh ltac:(lia) ltac:(lia)) as (I1 & I2 & I3). cbv zeta in *.
    set (x := ct_alloc_loop zero H k root1 (ph - 1) (omorton (OI h p)) (addr (q ++ [c]))) in *.
    split; [rewrite I1, <- app_assoc; reflexivity|]. split; [eapply frame_trans; [exact A6|apply frame_wide with (s := [c]); exact I2]|].
    intros g. destruct (I3 g) as [J1 J2]. set (root2 := nr_setData (fst x) (snd x) _) in *.
    assert (Hn : is_prefix (q ++ [c]) q = false) by (destruct (prefix_self_snoc q [c]); [assumption|discriminate]).
    destruct (J2 q Hq Hn) as (K1 & K2 & K3).
    split; [|eapply frame_trans; [exact A6|apply frame_wide with (s := [c]); exact J2]].
    apply sub_intro.
    + rewrite K1, A1. reflexivity.
    + rewrite K2, A2. reflexivity.
    + apply K3. exact A3.
    + intros c' Hc'. rewrite gChild_set by assumption. destruct (Z.eqb_spec c' c) as [->|Hne]; [exact J1|].
      apply (frame_sub (q ++ [c]) (q ++ [c']) root1); [exact J2|apply valid_app; split; [assumption|apply valid_one; assumption]| |apply A5; assumption].
      intros r. apply sibling_ne. auto.
Qed.
Lemma ct_anc_path k : forall root q n ph h p, valid_path q -> sub root q (Some n) -> 0 <= h -> ph - h = Z.of_nat k -> ph <= 21 ->
  exists j, (j <= k)%nat /\ ct_anc_loop H k root ph (omorton (OI h p)) (addr q) = (addr (q ++ firstn j (path k p)), h + Z.of_nat (k - j)) /\
    present root (q ++ firstn j (path k p)) /\
    (forall i, (j < i <= k)%nat -> nlook (firstn i (path k p)) n = None).
Proof.
  induction k as [|k IH]; intros root q n ph h p Hq S Hh Hk Hp; cbn [ct_anc_loop path].
  - exists O. cbn [firstn]. rewrite app_nil_r. split; [lia|]. split; [f_equal; lia|]. split; [apply (sub_root _ _ _ S)|intros; lia].
  - rewrite rel_morton_cidx by lia. replace (ph - 1 - h) with (Z.of_nat k) by lia.
    pose proof (cidx_range p (Z.of_nat k)) as Hc. set (c := cidx p (Z.of_nat k)) in *.
    pose proof (sim_getChild root q n c Hq Hc S) as G. destruct (nr_getChild H root (addr q) c) as [r|].
    + destruct G as (-> & _ & G).
      destruct (IH root (q ++ [c]) (childOrNew zero n c) (ph - 1) h p ltac:(apply valid_app; split; [assumption|apply valid_one; assumption]) G Hh ltac:(lia) ltac:(lia))
        as (j & J1 & J2 & J3 & J4).
      rewrite <- app_assoc in J2, J3. cbn [app] in J2, J3.
      exists (Datatypes.S j). cbn [firstn]. split; [lia|]. split; [exact J2|]. split; [exact J3|].
      intros i Hi. destruct i as [|i]; [lia|]. cbn [firstn nlook]. specialize (J4 i ltac:(lia)). unfold childOrNew in J4.
      destruct (getChild n c); [exact J4|reflexivity].
    + exists O. cbn [firstn]. rewrite app_nil_r. split; [lia|]. split; [f_equal; lia|]. split; [apply (sub_root _ _ _ S)|].
      intros i Hi. destruct i as [|i]; [lia|]. cbn [firstn nlook]. rewrite G. reflexivity.
Qed.
(** erasing through the parent *)
Lemma nlook_modify q f : forall (n x : tree), valid_path q -> nlook q n = Some x -> nlook q (nmodify q f n) = Some (f x).
Proof.
  induction q as [|c q IH]; intros n x Hq; cbn [nlook nmodify]; [intros [= ->]; reflexivity|].
  inversion Hq; subst. destruct (getChild n c) as [ch|] eqn:E; [|discriminate]. intros El.
  rewrite gChild_set by assumption. rewrite Z.eqb_refl. apply IH; assumption.
Qed.
Lemma nmodify_none q f : forall n : tree, nlook q n = None -> nmodify q f n = n.
Proof.
  induction q as [|c q IH]; intros n; cbn [nlook nmodify]; [discriminate|].
  destruct (getChild n c) as [ch|] eqn:E; [|reflexivity]. intros El. rewrite IH by assumption.
  unfold setChild. unfold getChild in E. destruct n as [d [k|]]; [|discriminate]. cbn [nkids ndata] in *. f_equal. f_equal.
  apply oct_ext. intros j Hj. rewrite oget_oset by assumption. destruct (Z.eqb_spec j c); congruence.
Qed.
Lemma sub_modify q1 f : forall root root' q (n : tree), valid_path q -> valid_path q1 -> sub root q (Some n) ->
  frame (q ++ q1) root root' ->
  match nlook q1 n with None => sub root' (q ++ q1) None | Some x => sub root' (q ++ q1) (Some (f x)) end ->
  nlook q1 n <> None -> sub root' q (Some (nmodify q1 f n)).
Proof.
  induction q1 as [|c q1 IH]; intros root root' q n Hq Hq1 S F X Hn; cbn [nlook nmodify] in *.
  - rewrite app_nil_r in *. exact X.
  - inversion Hq1; subst. destruct (getChild n c) as [ch|] eqn:E; [|contradiction].
    destruct (sub_root _ _ _ S) as (E1 & E2 & E3). pose proof (sub_child _ _ _ c S ltac:(assumption)) as Sc. rewrite E in Sc.
    assert (Hpf : is_prefix (q ++ c :: q1) q = false) by (apply is_prefix_long; rewrite app_length; cbn; lia).
    destruct (F q Hq Hpf) as (F1 & F2 & F3). apply sub_intro.
    + rewrite F1, E1. reflexivity.
    + rewrite F2, E2. unfold hasChildrenArray, getChild in *. destruct (nkids n); [reflexivity|discriminate].
    + auto.
    + intros c' Hc'. rewrite gChild_set by assumption. destruct (Z.eqb_spec c' c) as [->|Hne].
      * apply (IH root root' (q ++ [c])); try assumption; rewrite <- ?app_assoc; try assumption.
        apply valid_app. split; [assumption|apply valid_one; assumption].
      * apply (frame_sub (q ++ c :: q1) (q ++ [c']) root); [assumption|apply valid_app; split; [assumption|apply valid_one; assumption]| |apply sub_child; assumption].
        intros r. rewrite <- app_assoc, is_prefix_app. cbn [app is_prefix]. destruct (Z.eqb_spec c c'); [congruence|reflexivity].
Qed.
Lemma sim_erase_path root q c (n : tree) : valid_path q -> 0 <= c < 8 -> sub root [] (Some n) ->
  present root q ->
  sub (nr_eraseChild zero H root (addr q) c) [] (Some (nmodify q (fun x => fst (eraseChild x c)) n)).
Proof.
  intros Hq Hc S Hp. destruct (S q Hq) as (S1 & S2 & S3). cbn [app olook] in *.
  destruct (nlook q n) as [x|] eqn:E.
  - destruct (bit root q) eqn:Eb.
    + destruct (sim_erase root q c Hq Hc Hp Eb) as [X1 X2]. cbv zeta in *.
      apply (sub_modify q _ root); [constructor|assumption|assumption|apply frame_wide with (s := [c]); exact X2| |rewrite E; discriminate].
      rewrite E. cbn [app].
      assert (Sx : sub root q (Some x)).
      { intros r Hr. destruct (S (q ++ r)) as (Y1 & Y2 & Y3); [apply valid_app; auto|]. cbn [app olook] in *. rewrite nlook_app, E in *. auto. }
      assert (Hn : is_prefix (q ++ [c]) q = false) by (apply is_prefix_long; rewrite app_length; cbn; lia).
      destruct (X2 q Hq Hn) as (F1 & F2 & F3). destruct (sub_root _ _ _ Sx) as (E1 & E2 & E3).
      apply sub_intro.
      * rewrite F1, ndata_erase. exact E1.
      * rewrite F2, E2. unfold eraseChild, hasChildrenArray. destruct (nkids x) eqn:Ek; cbn [fst nkids]; [reflexivity|rewrite Ek; reflexivity].
      * auto.
      * intros c' Hc'. rewrite gChild_erase by assumption. destruct (Z.eqb_spec c' c) as [->|Hne]; [exact X1|].
        apply (frame_sub (q ++ [c]) (q ++ [c']) root); [exact X2|apply valid_app; split; [assumption|apply valid_one; assumption]| |apply sub_child; assumption].
        intros r. apply sibling_ne. auto.
    + rewrite erase_noop by assumption. cbn in S2.
      replace (nmodify q (fun x0 => fst (eraseChild x0 c)) n) with n; [exact S|].
      clear - E S2 Hq. revert n E. induction q as [|c0 q IH]; intros n; cbn [nlook nmodify].
      * intros [= ->]. unfold eraseChild. unfold hasChildrenArray in S2. destruct (nkids x); [discriminate|reflexivity].
      * inversion Hq; subst. destruct (getChild n c0) as [ch|] eqn:E; [|discriminate]. intros El. rewrite <- (IH ltac:(assumption) ch El).
        unfold setChild. unfold getChild in E. destruct n as [d [k|]]; [|discriminate]. cbn [nkids ndata] in *. f_equal. f_equal.
        apply oct_ext. intros j Hj. rewrite oget_oset by assumption. destruct (Z.eqb_spec j c0); congruence.
  - cbn in S2. rewrite erase_noop by assumption. rewrite nmodify_none by assumption. exact S.
Qed.
End SIM.
