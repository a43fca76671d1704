(** Facts about octree containers with arbitrary node data, along paths of child indices. *)
From Verif Require Import Base M_IntMath F_IntMath M_Morton F_Morton M_NdtreeIndex F_NdtreeIndex
  M_Haar3 F_Haar3 M_Ndtree F_Hash M_Num M_Wavelet F_Wavelet F_Wavelet2 F_Leaves F_WavTree M_Octree.

Section OCT.
Context {A : Type}.
Notation tree := (node A).

(** Node and data found by following a path. *)
Fixpoint nlook (q : list Z) (n : tree) : option tree :=
  match q with
  | [] => Some n
  | c :: q' => match getChild n c with None => None | Some ch => nlook q' ch end
  end.
Definition dlook (q : list Z) (n : tree) : option A := option_map ndata (nlook q n).

Lemma nd_get_path k : forall ph h p n, 0 <= h -> ph - h = Z.of_nat k -> ph <= 21 ->
  nd_get_loop k ph (omorton (OI h p)) n = nlook (path k p) n.
Proof.
  induction k as [|k IH]; intros ph h p n Hh Hk Hp; cbn [nd_get_loop path nlook]; [reflexivity|].
  rewrite rel_morton_cidx by lia. replace (ph - 1 - h) with (Z.of_nat k) by lia.
  destruct (getChild n _); [|reflexivity]. apply IH; lia.
Qed.
Lemma nd_getNode_path T n h p : 0 <= h <= T -> T <= 21 -> nd_getNode T n (OI h p) = nlook (path (Z.to_nat (T - h)) p) n.
Proof. intros Hh HT. unfold nd_getNode. cbn [oh]. apply nd_get_path; lia. Qed.

Fixpoint nalloc (q : list Z) (dflt : A) (f : tree -> tree) (n : tree) : tree :=
  match q with
  | [] => f n
  | c :: q' => setChild n c (nalloc q' dflt f (childOrNew dflt n c))
  end.
Lemma nd_alloc_path k : forall ph h p d f n, 0 <= h -> ph - h = Z.of_nat k -> ph <= 21 ->
  nd_alloc_loop k ph (omorton (OI h p)) d f n = nalloc (path k p) d f n.
Proof.
  induction k as [|k IH]; intros ph h p d f n Hh Hk Hp; cbn [nd_alloc_loop path nalloc]; [reflexivity|].
  rewrite rel_morton_cidx by lia. replace (ph - 1 - h) with (Z.of_nat k) by lia. rewrite IH by lia. reflexivity.
Qed.
Fixpoint nanc (q : list Z) (n : tree) : tree * nat :=
  match q with
  | [] => (n, O)
  | c :: q' => match getChild n c with None => (n, length q) | Some ch => nanc q' ch end
  end.
Lemma nd_anc_path k : forall ph h p n, 0 <= h -> ph - h = Z.of_nat k -> ph <= 21 ->
  nd_anc_loop k ph (omorton (OI h p)) n = (fst (nanc (path k p) n), h + Z.of_nat (snd (nanc (path k p) n))).
Proof.
  induction k as [|k IH]; intros ph h p n Hh Hk Hp; cbn [nd_anc_loop path nanc]; [cbn; f_equal; lia|].
  rewrite rel_morton_cidx by lia. replace (ph - 1 - h) with (Z.of_nat k) by lia.
  destruct (getChild n _) as [ch|]; [apply IH; lia|]. cbn [fst snd length]. rewrite path_length. f_equal. lia.
Qed.
Fixpoint nmodify (q : list Z) (f : tree -> tree) (n : tree) : tree :=
  match q with
  | [] => f n
  | c :: q' => match getChild n c with None => n | Some ch => setChild n c (nmodify q' f ch) end
  end.
Lemma nd_modify_path k : forall ph h p f n, 0 <= h -> ph - h = Z.of_nat k -> ph <= 21 ->
  nd_modify_loop k ph (omorton (OI h p)) f n = nmodify (path k p) f n.
Proof.
  induction k as [|k IH]; intros ph h p f n Hh Hk Hp; cbn [nd_modify_loop path nmodify]; [reflexivity|].
  rewrite rel_morton_cidx by lia. replace (ph - 1 - h) with (Z.of_nat k) by lia.
  destruct (getChild n _); [|reflexivity]. rewrite IH by lia. reflexivity.
Qed.

(** ** Children *)
Lemma gChild_set (n : tree) c ch c' : 0 <= c' < 8 ->
  getChild (setChild n c ch) c' = if c' =? c then Some ch else getChild n c'.
Proof.
  intros H. unfold getChild, setChild. cbn [nkids]. rewrite oget_oset by assumption.
  destruct (c' =? c); [reflexivity|]. destruct (nkids n); [reflexivity|].
  rewrite oget_otab by assumption. reflexivity.
Qed.
Lemma gChild_erase (n : tree) c c' : 0 <= c' < 8 ->
  getChild (fst (eraseChild n c)) c' = if c' =? c then None else getChild n c'.
Proof.
  intros H. unfold eraseChild, getChild. destruct (nkids n) as [k|] eqn:E; cbn [fst nkids].
  - rewrite oget_oset by assumption. reflexivity.
  - rewrite E. destruct (c' =? c); reflexivity.
Qed.
Lemma ndata_set (n : tree) c ch : ndata (setChild n c ch) = ndata n.
Proof. reflexivity. Qed.
Lemma ndata_erase (n : tree) c : ndata (fst (eraseChild n c)) = ndata n.
Proof. unfold eraseChild. destruct (nkids n); [reflexivity|]. destruct n; reflexivity. Qed.
Lemma dlook_new q d : dlook q (Node d None) = match q with [] => Some d | _ => None end.
Proof. destruct q; reflexivity. Qed.

(** ** Prefix tests on paths *)
Fixpoint is_prefix (a b : list Z) : bool :=
  match a, b with
  | [], _ => true
  | x :: a', y :: b' => (x =? y) && is_prefix a' b'
  | _ :: _, [] => false
  end.
Lemma is_prefix_firstn a : forall b, is_prefix a b = true <-> (length a <= length b)%nat /\ a = firstn (length a) b.
Proof.
  induction a as [|x a IH]; intros [|y b]; cbn [is_prefix length firstn].
  - split; auto.
  - split; [intros _; split; [lia|reflexivity]|auto].
  - split; [discriminate|intros [H _]; lia].
  - rewrite andb_true_iff, Z.eqb_eq, IH. split.
    + intros (-> & H & E). split; [lia|]. f_equal. exact E.
    + intros (H & E). injection E as E1 E2. repeat split; [assumption|lia|assumption].
Qed.
Lemma is_prefix_refl a : is_prefix a a = true.
Proof. induction a; cbn; [reflexivity|]. rewrite Z.eqb_refl. assumption. Qed.
Lemma is_prefix_len a b : is_prefix a b = true -> length a = length b -> a = b.
Proof. intros H E. apply is_prefix_firstn in H as [_ H]. rewrite H, E. apply firstn_all. Qed.

(** Data after getOrAllocateNode and an update of the node's data. *)
Lemma dlook_nalloc q : forall dflt g n r, valid_path q -> valid_path r ->
  dlook r (nalloc q dflt (fun x => Node (g (ndata x)) (nkids x)) n) =
  if is_prefix r q then
    let old := match dlook r n with Some x => x | None => dflt end in
    Some (if is_prefix q r then g old else old)
  else dlook r n.
Proof.
  induction q as [|c q IH]; intros dflt g n r Hq Hr; cbn [nalloc].
  - destruct r as [|c' r]; cbn [is_prefix]; reflexivity.
  - inversion Hq as [|? ? Hc Hq']; subst. destruct r as [|c' r]; [reflexivity|].
    inversion Hr as [|? ? Hc' Hr']; subst. cbn [is_prefix]. unfold dlook at 1. cbn [nlook]. rewrite gChild_set by assumption.
    rewrite (Z.eqb_sym c c'). destruct (Z.eqb_spec c' c) as [->|Hne]; cbn [andb].
    2:{ unfold dlook. cbn [nlook]. reflexivity. }
    fold (dlook r (nalloc q dflt (fun x => Node (g (ndata x)) (nkids x)) (childOrNew dflt n c))).
    rewrite IH by assumption. unfold childOrNew. unfold dlook. cbn [nlook].
    destruct (getChild n c) as [ch|]; [reflexivity|].
    destruct r; reflexivity.
Qed.

(** Data after erasing the node at path q ++ [c]. *)
Lemma dlook_erase q : forall c n r, 0 <= c < 8 -> valid_path q -> valid_path r ->
  dlook r (nmodify q (fun x => fst (eraseChild x c)) n) =
  if is_prefix (q ++ [c]) r then None else dlook r n.
Proof.
  induction q as [|c0 q IH]; intros c n r Hc Hq Hr; cbn [nmodify app].
  - destruct r as [|c' r]; cbn [is_prefix]; [unfold dlook; cbn; rewrite ndata_erase; reflexivity|].
    inversion Hr; subst. unfold dlook. cbn [nlook]. rewrite gChild_erase by assumption.
    rewrite andb_true_r, (Z.eqb_sym c c'). destruct (c' =? c); reflexivity.
  - inversion Hq as [|? ? Hc0 Hq']; subst. destruct (getChild n c0) as [ch|] eqn:E.
    + destruct r as [|c' r]; [reflexivity|]. inversion Hr as [|? ? Hc' Hr']; subst. cbn [is_prefix].
      unfold dlook. cbn [nlook]. rewrite gChild_set by assumption. rewrite (Z.eqb_sym c0 c').
      destruct (Z.eqb_spec c' c0) as [->|Hne]; cbn [andb]; [|reflexivity].
      fold (dlook r (nmodify q (fun x => fst (eraseChild x c)) ch)). rewrite E. fold (dlook r ch). apply IH; assumption.
    + destruct (is_prefix (c0 :: q ++ [c]) r) eqn:P; [|reflexivity].
      destruct r as [|c' r]; cbn [is_prefix] in P; [discriminate|].
      apply andb_true_iff in P as [P _]. apply Z.eqb_eq in P. subst c'. unfold dlook. cbn [nlook]. rewrite E. reflexivity.
Qed.

(** Ancestor lookup. *)
Lemma nanc_spec q : forall n,
  let r := nanc q n in
  (snd r <= length q)%nat /\ nlook (firstn (length q - snd r) q) n = Some (fst r) /\
  forall j, (length q - snd r < j <= length q)%nat -> nlook (firstn j q) n = None.
Proof.
  induction q as [|c q IH]; intros n; cbn [nanc].
  - cbn. repeat split; try lia. 
  - destruct (getChild n c) as [ch|] eqn:E.
    + destruct (IH ch) as (H1 & H2 & H3). cbv zeta in *. set (r := nanc q ch) in *. clearbody r. cbn [length]. repeat split; [lia| |].
      * replace (S (length q) - snd r)%nat with (S (length q - snd r)) by lia. cbn [firstn nlook]. rewrite E. exact H2.
      * intros j Hj. destruct j as [|j]; [lia|]. cbn [firstn nlook]. rewrite E. apply H3. lia.
    + cbn [fst snd length]. repeat split; [lia| |].
      * rewrite Nat.sub_diag. reflexivity.
      * intros j Hj. destruct j as [|j]; [lia|]. cbn [firstn nlook]. rewrite E. reflexivity.
Qed.
Lemma nlook_app q : forall r n, nlook (q ++ r) n = match nlook q n with None => None | Some x => nlook r x end.
Proof. induction q as [|c q IH]; intros r n; cbn [nlook app]; [reflexivity|]. destruct (getChild n c); [apply IH|reflexivity]. Qed.

(** ** Heights: nodes of height 0 have no children array. *)
Fixpoint nheight (k : nat) (n : tree) : Prop :=
  match k with
  | O => nkids n = None
  | S k' => forall c, 0 <= c < 8 -> match getChild n c with None => True | Some ch => nheight k' ch end
  end.
Lemma nheight_new k d : nheight k (Node d None).
Proof. destruct k; [reflexivity|]. intros c Hc. exact I. Qed.
Lemma nheight_data k n d : nheight k n -> nheight k (Node d (nkids n)).
Proof. destruct k; intros H; exact H. Qed.
Lemma nheight_nalloc q : forall k dflt g n, valid_path q -> (length q <= k)%nat -> nheight k n ->
  nheight k (nalloc q dflt (fun x => Node (g (ndata x)) (nkids x)) n).
Proof.
  induction q as [|c q IH]; intros k dflt g n Hq Hk Hn; cbn [nalloc]; [apply nheight_data; assumption|].
  inversion Hq as [|? ? Hc Hq']; subst. cbn [length] in Hk. destruct k as [|k]; [lia|].
  intros c' Hc'. rewrite gChild_set by assumption. destruct (Z.eqb_spec c' c) as [->|]; [|apply Hn; assumption].
  apply IH; [assumption|lia|]. specialize (Hn c Hc). unfold childOrNew. destruct (getChild n c); [assumption|apply nheight_new].
Qed.

(** ** Prune *)
Section PRUNE.
Context (nonzero : A -> bool).
Notation pr := (nd_prune_rec nonzero).
Lemma pr_data n : ndata (pr n) = ndata n.
Proof. destruct n as [d [k|]]; cbn [nd_prune_rec]; [|reflexivity]. destruct (existsb _ _); reflexivity. Qed.
Lemma existsb_none (k : oct (option tree)) c : 0 <= c < 8 ->
  existsb (fun o => match o with Some _ => true | None => false end) (olist k) = false -> oget k c = None.
Proof.
  intros Hc H. assert (X := oget_In k c). destruct (oget k c) as [x|]; [|reflexivity].
  assert (existsb (fun o : option tree => match o with Some _ => true | None => false end) (olist k) = true) as Y.
  { apply existsb_exists. exists (Some x). split; [exact X|reflexivity]. }
  congruence.
Qed.
Lemma pr_child n c : 0 <= c < 8 -> getChild (pr n) c =
  match getChild n c with None => None | Some ch => if nd_empty nonzero (pr ch) then None else Some (pr ch) end.
Proof.
  intros Hc. destruct n as [d [k|]]; cbn [nd_prune_rec]; [|reflexivity].
  set (k' := omap _ k).
  assert (E : oget k' c = match oget k c with None => None | Some ch => if nd_empty nonzero (pr ch) then None else Some (pr ch) end).
  { subst k'. rewrite oget_omap by assumption. reflexivity. }
  unfold getChild at 2. cbn [nkids]. rewrite <- E.
  destruct (existsb _ (olist k')) eqn:X; [reflexivity|]. cbn. symmetry. exact (existsb_none k' c Hc X).
Qed.
(** A non-zero node somewhere in the subtree. *)
Definition useful (n : tree) : Prop := exists s x, valid_path s /\ dlook s n = Some x /\ nonzero x = true.
Lemma existsb_get (k : oct (option tree)) : existsb (fun o => match o with Some _ => true | None => false end) (olist k) = true ->
  exists c x, 0 <= c < 8 /\ oget k c = Some x.
Proof.
  intros H. destruct k as [a0 a1 a2 a3 a4 a5 a6 a7]. cbn [olist existsb] in H.
  destruct a0 as [x|]; [exists 0, x; split; [lia|reflexivity]|].
  destruct a1 as [x|]; [exists 1, x; split; [lia|reflexivity]|].
  destruct a2 as [x|]; [exists 2, x; split; [lia|reflexivity]|].
  destruct a3 as [x|]; [exists 3, x; split; [lia|reflexivity]|].
  destruct a4 as [x|]; [exists 4, x; split; [lia|reflexivity]|].
  destruct a5 as [x|]; [exists 5, x; split; [lia|reflexivity]|].
  destruct a6 as [x|]; [exists 6, x; split; [lia|reflexivity]|].
  destruct a7 as [x|]; [exists 7, x; split; [lia|reflexivity]|]. discriminate H.
Qed.
Lemma pr_useful n : nd_empty nonzero (pr n) = false <-> useful n.
Proof.
  induction n as [n IH] using node_ind_child. split.
  - unfold nd_empty. rewrite andb_false_iff, !negb_false_iff, pr_data. intros [H|H].
    + destruct n as [d [k|]]; cbn [nd_prune_rec] in H; [|discriminate H]. set (k' := omap _ k) in H.
      destruct (existsb _ (olist k')) eqn:X; [|discriminate H]. destruct (existsb_get k' X) as (c & x & Hc & E).
      subst k'. rewrite oget_omap in E by assumption. destruct (oget k c) as [ch|] eqn:Eo; [|discriminate E].
      destruct (nd_empty nonzero (pr ch)) eqn:Ee; [discriminate E|].
      apply (IH c ch Eo) in Ee. destruct Ee as (s & y & Hs & Hy & Hn). exists (c :: s), y.
      split; [constructor; assumption|]. split; [|assumption]. unfold dlook. cbn [nlook]. unfold getChild. cbn [nkids]. rewrite Eo. exact Hy.
    + exists [], (ndata n). split; [constructor|]. split; [reflexivity|assumption].
  - intros (s & x & Hs & Hx & Hn). unfold nd_empty. rewrite pr_data. destruct s as [|c s].
    + cbn in Hx. injection Hx as ->. rewrite Hn. apply andb_false_r.
    + inversion Hs as [|? ? Hc Hs']; subst. unfold dlook in Hx. cbn [nlook] in Hx. destruct (getChild n c) as [ch|] eqn:E; [|discriminate Hx].
      assert (U : useful ch) by (exists s, x; auto). apply (IH c ch E) in U.
      assert (G := pr_child n c Hc). rewrite E, U in G. apply andb_false_iff. left. apply negb_false_iff.
      unfold hasChildrenArray. unfold getChild in G. destruct (nkids (pr n)); [reflexivity|discriminate G].
Qed.
Lemma dlook_prune r : forall n, valid_path r ->
  forall x, dlook r (pr n) = Some x <->
    dlook r n = Some x /\ (r = [] \/ exists s y, valid_path s /\ dlook (r ++ s) n = Some y /\ nonzero y = true).
Proof.
  induction r as [|c r IH]; intros n Hr x.
  - unfold dlook. cbn [nlook option_map]. rewrite pr_data. tauto.
  - inversion Hr as [|? ? Hc Hr']; subst. unfold dlook. cbn [nlook app]. rewrite pr_child by assumption.
    destruct (getChild n c) as [ch|] eqn:E; [|split; [discriminate|intros [H _]; discriminate H]].
    destruct (nd_empty nonzero (pr ch)) eqn:Ee.
    + split; [discriminate|]. intros [H [X|(s & y & Hs & Hy & Hn)]]; [discriminate X|].
      assert (U : useful ch). { exists (r ++ s), y. split; [apply Forall_app; auto|]. split; assumption. }
      apply pr_useful in U. congruence.
    + fold (dlook r (pr ch)). rewrite (IH ch Hr' x). fold (dlook r ch). apply pr_useful in Ee.
      split; intros [H K]; (split; [exact H|]).
      * right. destruct K as [->|K]; [|exact K]. destruct Ee as (s & y & Hs & Hy & Hn). exists s, y. auto.
      * right. destruct K as [K|K]; [discriminate K|exact K].
Qed.
Lemma nheight_prune k : forall n, nheight k n -> nheight k (pr n).
Proof.
  induction k as [|k IH]; intros n Hn.
  - destruct n as [d kids]. cbn in Hn. subst kids. reflexivity.
  - intros c Hc. rewrite pr_child by assumption. specialize (Hn c Hc). destruct (getChild n c); [|exact I].
    destruct (nd_empty _ _); [exact I|]. apply IH. assumption.
Qed.
End PRUNE.

(** No empty arrays: kept by allocation and by prune. *)
Lemma nea_iff (n : tree) : no_empty_arrays n = true <->
  (hasChildrenArray n = true -> hasAtLeastOneChild n = true) /\ forall c ch, 0 <= c < 8 -> getChild n c = Some ch -> no_empty_arrays (ch : tree) = true.
Proof.
  destruct n as [d [k|]]; cbn [no_empty_arrays hasChildrenArray nkids].
  2:{ split; [intros _; split; [discriminate|discriminate]|reflexivity]. }
  rewrite andb_true_iff, forallb_forall. split.
  - intros [H1 H2]. split; [auto|]. intros c ch Hc E. apply H2. unfold getChild in E. cbn [nkids] in E.
    assert (X := oget_In (omap (fun o : option tree => match o with None => true | Some ch => no_empty_arrays ch end) k) c).
    rewrite oget_omap in X by assumption. rewrite E in X. exact X.
  - intros [H1 H2]. split; [auto|]. intros b Hb.
    assert (exists c, 0 <= c < 8 /\ b = match oget k c with None => true | Some ch => no_empty_arrays ch end) as (c & Hc & ->).
    { destruct k as [a0 a1 a2 a3 a4 a5 a6 a7]. cbn [olist omap In] in Hb.
      destruct Hb as [<-|[<-|[<-|[<-|[<-|[<-|[<-|[<-|[]]]]]]]]];
      [exists 0|exists 1|exists 2|exists 3|exists 4|exists 5|exists 6|exists 7]; (split; [lia|reflexivity]). }
    destruct (oget k c) as [ch|] eqn:E; [|reflexivity]. exact (H2 c ch Hc E).
Qed.
Lemma hac_iff (n : tree) : hasAtLeastOneChild n = true <-> exists c ch, 0 <= c < 8 /\ getChild n c = Some ch.
Proof.
  unfold hasAtLeastOneChild, getChild. destruct (nkids n) as [k|].
  - split; [apply existsb_get|]. intros (c & ch & Hc & E). apply existsb_exists. exists (Some ch). split; [|reflexivity].
    rewrite <- E. apply oget_In.
  - split; [discriminate|]. intros (c & ch & _ & E). discriminate E.
Qed.
Lemma nea_nalloc q : forall dflt g (n : tree), valid_path q -> no_empty_arrays n = true ->
  no_empty_arrays (nalloc q dflt (fun x => Node (g (ndata x)) (nkids x)) n) = true.
Proof.
  induction q as [|c q IH]; intros dflt g n Hq Hn; cbn [nalloc].
  - apply nea_iff in Hn. apply nea_iff. exact Hn.
  - inversion Hq as [|? ? Hc Hq']; subst. apply nea_iff. split.
    + intros _. apply hac_iff. eexists c, _. split; [assumption|]. rewrite gChild_set by assumption. rewrite Z.eqb_refl. reflexivity.
    + intros c' ch Hc'. rewrite gChild_set by assumption. apply nea_iff in Hn as [_ Hn]. destruct (c' =? c); [|apply Hn; assumption].
      intros E. injection E as <-. apply IH; [assumption|]. unfold childOrNew. destruct (getChild n c) eqn:E; [exact (Hn c _ Hc E)|reflexivity].
Qed.
Lemma nea_prune nonzero : forall n : tree, no_empty_arrays (nd_prune_rec nonzero n) = true.
Proof.
  induction n as [n IH] using node_ind_child. apply nea_iff. split.
  - destruct n as [d [k|]]; cbn [nd_prune_rec]; [|discriminate]. set (k' := omap _ k).
    destruct (existsb _ (olist k')) eqn:E; [intros _; exact E|discriminate].
  - intros c ch Hc. rewrite pr_child by assumption. destruct (getChild n c) as [x|] eqn:E; [|discriminate].
    destruct (nd_empty _ _); [discriminate|]. intros X. injection X as <-. exact (IH c x E).
Qed.

(** ** Leaf visits *)
Section LEAVES.
Context {V : Type} (expand : tree -> bool) (val : V -> tree -> V).
Context (expand_none : forall n c, expand n = false -> getChild n c = None) (expand_kids : forall n, expand n = true -> nkids n <> None).
Fixpoint gleaves (n : tree) (idx : oidx) (pv : V) : list (oidx * V) :=
  match n with Node d kids =>
    let v := val pv n in
    if expand n then
      let subs :=
        match kids with
        | None => otab (fun _ => None)
        | Some k => omap2 (fun kid c => match kid with Some ch => Some (gleaves ch (ochild idx c) v) | None => None end) k (otab (fun c => c))
        end in
      flat_map (fun c => match oget subs c with None => [(ochild idx c, v)] | Some _ => [] end) [0; 1; 2; 3; 4; 5; 6; 7] ++
      flat_map (fun c => match oget subs c with None => [] | Some l => l end) [7; 6; 5; 4; 3; 2; 1; 0]
    else [(idx, v)]
  end.
Lemma gleaves_eq n idx pv : gleaves n idx pv =
  if expand n then
    flat_map (fun c => match getChild n c with None => [(ochild idx c, val pv n)] | Some _ => [] end) [0; 1; 2; 3; 4; 5; 6; 7] ++
    flat_map (fun c => match getChild n c with None => [] | Some ch => gleaves ch (ochild idx c) (val pv n) end) [7; 6; 5; 4; 3; 2; 1; 0]
  else [(idx, val pv n)].
Proof.
  destruct n as [d kids]. cbn [gleaves]. destruct (expand (Node d kids)); [|reflexivity].
  f_equal; apply flat_map_ext_in; intros c Hc; assert (Hr : 0 <= c < 8) by (cbn [In] in Hc; lia);
    unfold getChild; cbn [nkids]; (destruct kids as [k|]; [|rewrite oget_otab by assumption; reflexivity]);
    rewrite oget_omap2, oget_otab by assumption; destruct (oget k c); reflexivity.
Qed.
Definition gpush (n : tree) (idx : oidx) (v : V) (c : Z) : list (oidx * tree * V) :=
  match getChild n c with Some ch => [(ochild idx c, ch, v)] | None => [] end.
Lemma gleaf_fold idx n v cs : forall st ac,
  fold_left (nd_visit_child idx n v) cs (st, ac) =
  (rev (flat_map (gpush n idx v) cs) ++ st,
   rev (flat_map (fun c => match getChild n c with None => [(ochild idx c, v)] | Some _ => [] end) cs) ++ ac).
Proof.
  induction cs as [|c cs IH]; intros st ac; [reflexivity|]. cbn [fold_left flat_map].
  rewrite !rev_app_distr, <- !app_assoc. unfold nd_visit_child at 2. cbn [fst snd].
  unfold gpush at 2. destruct (getChild n c) as [ch|]; rewrite IH; reflexivity.
Qed.
Fixpoint gstack_size (st : list (oidx * tree * V)) : nat :=
  match st with [] => O | (_, n, _) :: st' => (nsize n + gstack_size st')%nat end.
Lemma gstack_size_app a b : gstack_size (a ++ b) = (gstack_size a + gstack_size b)%nat.
Proof. induction a as [|[[i n] v] a IH]; cbn [gstack_size app]; lia. Qed.
Lemma gstack_size_rev a : gstack_size (rev a) = gstack_size a.
Proof. induction a as [|[[i n] v] a IH]; cbn [gstack_size rev]; [reflexivity|]. rewrite gstack_size_app. cbn. lia. Qed.
Lemma gpush_size n idx v :
  (S (gstack_size (flat_map (gpush n idx v) [0; 1; 2; 3; 4; 5; 6; 7]%Z)) <= nsize n)%nat.
Proof.
  destruct n as [d [[k0 k1 k2 k3 k4 k5 k6 k7]|]].
  2:{ cbn. lia. }
  cbn [flat_map]. rewrite !gstack_size_app. unfold gpush, getChild. cbn [nkids oget].
  assert (X : forall (o : option tree) (c : Z), gstack_size (match o with Some ch => [(ochild idx c, ch, v)] | None => [] end)
     = match o with Some ch => nsize ch | None => O end).
  { intros o c. destruct o; [cbn [gstack_size]; lia|reflexivity]. }
  rewrite !X. cbn [nsize olist omap list_sum fold_right gstack_size]. lia.
Qed.
Lemma nsize_pos (n : tree) : (1 <= nsize n)%nat.
Proof. destruct n as [d [k|]]; cbn; lia. Qed.
Lemma gflat_map_rev_push n idx v (g : oidx * tree * V -> list (oidx * V)) :
  flat_map g (rev (flat_map (gpush n idx v) [0; 1; 2; 3; 4; 5; 6; 7])) =
  flat_map (fun c => flat_map g (gpush n idx v c)) [7; 6; 5; 4; 3; 2; 1; 0].
Proof.
  assert (S : forall c, rev (gpush n idx v c) = gpush n idx v c).
  { intros c. unfold gpush. destruct (getChild n c); reflexivity. }
  cbn [flat_map]. rewrite !rev_app_distr, !S. rewrite !flat_map_app. cbn [rev app flat_map].
  rewrite !app_nil_r, <- ?app_assoc. reflexivity.
Qed.
Lemma gleaf_loop fuel : forall st ac, (gstack_size st <= fuel)%nat ->
  nd_leaf_loop expand val fuel st ac = Some (rev ac ++ flat_map (fun inv => gleaves (snd (fst inv)) (fst (fst inv)) (snd inv)) st).
Proof.
  induction fuel as [|fuel IH]; intros st ac Hf.
  - destruct st as [|[[i n] v] st]; cbn [nd_leaf_loop flat_map]; [rewrite app_nil_r; reflexivity|].
    cbn [gstack_size] in Hf. pose proof (nsize_pos n). lia.
  - destruct st as [|[[i n] v] st]; cbn [nd_leaf_loop]; [cbn [flat_map]; rewrite app_nil_r; reflexivity|].
    cbn [gstack_size] in Hf. pose proof (gpush_size n i (val v n)) as Hp. pose proof (nsize_pos n).
    change (flat_map ?f ((i, n, v) :: st)) with (gleaves n i v ++ flat_map f st). rewrite gleaves_eq.
    destruct (expand n).
    + rewrite gleaf_fold. cbn [fst snd]. rewrite IH by (rewrite gstack_size_app, gstack_size_rev; lia).
      f_equal. rewrite rev_app_distr, rev_involutive. rewrite flat_map_app, <- !app_assoc. f_equal. f_equal.
      rewrite gflat_map_rev_push. f_equal.
      apply flat_map_ext_in. intros c _. unfold gpush. destruct (getChild n c); [|reflexivity].
      cbn [flat_map fst snd]. rewrite app_nil_r. reflexivity.
    + rewrite IH by lia. cbn [rev]. rewrite <- !app_assoc. reflexivity.
Qed.

(** Value reported for the cells below a path. *)
Fixpoint geval (pv : V) (n : tree) (q : list Z) : V :=
  match q with
  | [] => val pv n
  | c :: q' => match getChild n c with None => val pv n | Some ch => geval (val pv n) ch q' end
  end.
Lemma gleaves_uncovered k : forall n idx v cell, nheight k n -> oh idx = Z.of_nat k -> ~ covers3 idx cell ->
  uncovered (gleaves n idx v) cell.
Proof.
  induction k as [|k IH]; intros n idx v cell Hn Hh Hc; rewrite gleaves_eq.
  - destruct (expand n) eqn:E; [exfalso; exact (expand_kids n E Hn)|]. intros j [<-|[]]. exact Hc.
  - destruct (expand n); [|intros j [<-|[]]; exact Hc].
    apply uncovered_app; apply uncovered_flat_map; intros c Hin;
      assert (Hr : 0 <= c < 8) by (cbn [In] in Hin; lia); specialize (Hn c Hr).
    + destruct (getChild n c); [apply uncovered_nil|]. intros j [<-|[]]. cbn [fst].
      rewrite covers3_child by (assumption || lia). tauto.
    + destruct (getChild n c) as [ch|]; [|apply uncovered_nil].
      apply IH; [assumption|cbn; lia|]. rewrite covers3_child by (assumption || lia). tauto.
Qed.
Lemma gleaves_cover k : forall n idx v cell, nheight k n -> oh idx = Z.of_nat k -> covers3 idx cell ->
  covered_once (gleaves n idx v) cell (geval v n (path k cell)).
Proof.
  induction k as [|k IH]; intros n idx v cell Hn Hh Hc; rewrite gleaves_eq.
  - destruct (expand n) eqn:E; [exfalso; exact (expand_kids n E Hn)|]. apply covered_once_one. assumption.
  - rewrite (cidx_path_head idx cell k Hh). cbn [geval].
    set (c := cidx cell (oh idx - 1)). assert (Hr : 0 <= c < 8) by apply cidx_range.
    destruct (expand n) eqn:Ex.
    2:{ rewrite expand_none by assumption. apply covered_once_one. assumption. }
    assert (Hcc : covers3 (ochild idx c) cell) by (rewrite covers3_child by (try assumption; lia); split; [assumption|reflexivity]).
    assert (Hoc : forall a, 0 <= a < 8 -> a <> c -> ~ covers3 (ochild idx a) cell).
    { intros a Ha Hne. rewrite covers3_child by (try assumption; lia). intros [_ E]. fold c in E. congruence. }
    assert (Hsub : forall a, 0 <= a < 8 -> a <> c ->
      uncovered (match getChild n a with None => [] | Some ch => gleaves ch (ochild idx a) (val v n) end) cell).
    { intros a Ha Hne. specialize (Hn a Ha). destruct (getChild n a); [|apply uncovered_nil].
      apply (gleaves_uncovered k); [assumption|cbn; lia|apply Hoc; assumption]. }
    specialize (Hn c Hr). destruct (getChild n c) as [ch|] eqn:Ec.
    + apply covered_once_app_r.
      * apply uncovered_flat_map. intros a Ha. assert (0 <= a < 8) as Ha' by (cbn [In] in Ha; lia).
        destruct (Z.eq_dec a c) as [->|Hne]; [rewrite Ec; apply uncovered_nil|].
        destruct (getChild n a); [apply uncovered_nil|]. intros j [<-|[]]. apply Hoc; assumption.
      * apply (covered_once_flat_map _ _ c); [exact NoDup_down|apply in_down; assumption| |].
        -- rewrite Ec. apply IH; [assumption|cbn; lia|assumption].
        -- intros a Ha Hne. apply Hsub; [cbn [In] in Ha; lia|assumption].
    + apply covered_once_app_l.
      * apply (covered_once_flat_map _ _ c); [exact NoDup_up|apply in_up; assumption| |].
        -- rewrite Ec. apply covered_once_one. assumption.
        -- intros a Ha Hne. assert (0 <= a < 8) by (cbn [In] in Ha; lia).
           destruct (getChild n a); [apply uncovered_nil|]. intros j [<-|[]]. apply Hoc; assumption.
      * apply uncovered_flat_map. intros a Ha. assert (0 <= a < 8) by (cbn [In] in Ha; lia).
        destruct (Z.eq_dec a c) as [->|Hne]; [rewrite Ec; apply uncovered_nil|apply Hsub; assumption].
Qed.
Lemma gleaves_height k : forall n idx v, nheight k n -> oh idx = Z.of_nat k ->
  forall j u, In (j, u) (gleaves n idx v) -> 0 <= oh j.
Proof.
  induction k as [|k IH]; intros n idx v Hn Hh j u; rewrite gleaves_eq.
  - destruct (expand n) eqn:E; [exfalso; exact (expand_kids n E Hn)|]. intros [X|[]]. injection X as <- <-. lia.
  - destruct (expand n); [|intros [X|[]]; injection X as <- <-; lia].
    rewrite in_app_iff, !in_flat_map. intros [(c & Hin & X)|(c & Hin & X)];
      assert (Hr : 0 <= c < 8) by (cbn [In] in Hin; lia); specialize (Hn c Hr); destruct (getChild n c) as [ch|].
    + destruct X.
    + destruct X as [X|[]]. injection X as <- <-. cbn. lia.
    + revert X. apply (IH ch (ochild idx c)); [assumption|cbn; lia].
    + destruct X.
Qed.
End LEAVES.
End OCT.
