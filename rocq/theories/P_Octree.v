(** Property C54: octree containers (Ndtree, NdtreeBlockHash) behave as finite maps from node indices to data that
    are closed under taking ancestors. *)
From Verif Require Import Base M_IntMath F_IntMath M_Morton F_Morton M_NdtreeIndex F_NdtreeIndex
  M_Haar3 F_Haar3 M_Ndtree F_Hash M_Num M_Wavelet F_Wavelet F_Wavelet2 F_Leaves F_WavTree M_Octree F_Octree.

(** ** Specification *)
(** Node [j] is node [i] or one of its ancestors. *)
Definition ancestor (j i : oidx) : Prop :=
  oh i <= oh j /\ opos j = imap (fun c => c / 2 ^ (oh j - oh i)) (opos i).
(** Nodes of a tree with root at height [T] and position 0. *)
Definition in_tree (T : Z) (i : oidx) : Prop :=
  0 <= oh i <= T /\ 0 <= px (opos i) < 2 ^ (T - oh i) /\ 0 <= py (opos i) < 2 ^ (T - oh i) /\ 0 <= pz (opos i) < 2 ^ (T - oh i).
(** The data stored for a node; [None] if there is no such node. *)
Definition stored {A} (T : Z) (n : node A) (i : oidx) : option A := option_map ndata (nd_getNode T n i).
Definition or_default {A} (d : A) (o : option A) : A := match o with Some x => x | None => d end.
(** Trees a user can build: any sequence of node allocations with data updates, node removals and prunes. *)
Inductive built {A} (T : Z) (d : A) (nonzero : A -> bool) : node A -> Prop :=
| built_new : built T d nonzero (Node d None)
| built_alloc n i g : built T d nonzero n -> in_tree T i -> built T d nonzero (nd_alloc_data T d n i g)
| built_erase n i : built T d nonzero n -> in_tree T i -> oh i < T -> built T d nonzero (fst (nd_eraseNode T n i))
| built_prune n n' : built T d nonzero n -> nd_prune nonzero n = Some n' -> built T d nonzero n'.
(** The same without node removals. *)
Inductive grown {A} (T : Z) (d : A) (nonzero : A -> bool) : node A -> Prop :=
| grown_new : grown T d nonzero (Node d None)
| grown_alloc n i g : grown T d nonzero n -> in_tree T i -> grown T d nonzero (nd_alloc_data T d n i g)
| grown_prune n n' : grown T d nonzero n -> nd_prune nonzero n = Some n' -> grown T d nonzero n'.
(** A cell is covered by exactly one entry of the list, and this entry carries the value [v]. *)
Definition reported_once {V} (l : list (oidx * V)) (c : idx3) (v : V) : Prop :=
  exists l1 i l2, l = l1 ++ (i, v) :: l2 /\ ancestor i (OI 0 c) /\
    forall j u, In (j, u) (l1 ++ l2) -> ~ ancestor j (OI 0 c).

(** ** Paths and ancestors *)
Definition ipath (T : Z) (i : oidx) : list Z := path (Z.to_nat (T - oh i)) (opos i).
Lemma ipath_valid T i : valid_path (ipath T i). Proof. apply path_valid. Qed.
Lemma stored_path {A} T (n : node A) i : 0 <= oh i <= T -> T <= 21 -> stored T n i = dlook (ipath T i) n.
Proof. intros H HT. destruct i as [h p]. unfold stored, dlook. rewrite nd_getNode_path by assumption. reflexivity. Qed.
Lemma prefix_ancestor T j i : in_tree T j -> in_tree T i -> (is_prefix (ipath T j) (ipath T i) = true <-> ancestor j i).
Proof.
  intros Hj Hi. rewrite is_prefix_firstn. destruct i as [hi pi], j as [hj pj]. unfold ipath, ancestor, in_tree in *. cbn [oh opos] in *.
  rewrite !path_length. destruct (Z.le_gt_cases hi hj) as [L|L].
  - pose proof (path_prefix_covers (T - hi) (hj - hi) pj pi ltac:(lia)) as P. cbn [oh opos] in P.
    replace (T - hi - (hj - hi)) with (T - hj) in P by lia.
    unfold inside, in_box, covers3 in P. cbn [oh opos] in P. replace (T - hi - (hj - hi)) with (T - hj) in P by lia.
    specialize (P ltac:(split; [lia|tauto]) ltac:(tauto)). split.
    + intros [_ H]. apply P in H. split; [assumption|]. symmetry. exact H.
    + intros [_ H]. split; [lia|]. apply P. symmetry. exact H.
  - split; [intros [H _]; lia|intros [H _]; lia].
Qed.
Lemma prefix_eq T j i : in_tree T j -> in_tree T i ->
  is_prefix (ipath T j) (ipath T i) = true -> is_prefix (ipath T i) (ipath T j) = true -> i = j.
Proof.
  intros Hj Hi H1 H2. apply (prefix_ancestor T j i Hj Hi) in H1. apply (prefix_ancestor T i j Hi Hj) in H2.
  destruct H1 as [A1 B1], H2 as [A2 B2]. destruct i as [hi pi], j as [hj pj]. cbn [oh opos] in *.
  assert (hi = hj) by lia. subst hj. f_equal. rewrite Z.sub_diag in *. rewrite B1. change (2 ^ 0) with 1.
  destruct pi as [x y z]. unfold imap. cbn [px py pz]. rewrite !Z.div_1_r. reflexivity.
Qed.
Lemma ancestor_refl i : ancestor i i.
Proof.
  split; [lia|]. rewrite Z.sub_diag. change (2 ^ 0) with 1. destruct (opos i) as [x y z]. unfold imap. cbn. rewrite !Z.div_1_r. reflexivity.
Qed.

Lemma nheight_erase {A} q : forall k c (n : node A), valid_path q -> 0 <= c < 8 -> (length q < k)%nat -> nheight k n ->
  nheight k (nmodify q (fun x => fst (eraseChild x c)) n).
Proof.
  induction q as [|c0 q IH]; intros k c n Hq Hc Hk Hn; cbn [nmodify]; destruct k as [|k]; cbn [length] in Hk; try lia.
  - intros c' Hc'. rewrite gChild_erase by assumption. destruct (c' =? c); [exact I|apply Hn; assumption].
  - inversion Hq as [|? ? Hc0 Hq']; subst. destruct (getChild n c0) as [ch|] eqn:E; [|assumption].
    intros c' Hc'. rewrite gChild_set by assumption. destruct (Z.eqb_spec c' c0) as [->|]; [|apply Hn; assumption].
    apply IH; [assumption|assumption|lia|]. specialize (Hn c0 Hc0). rewrite E in Hn. exact Hn.
Qed.
Lemma rel_child_cidx h p : computeRelativeChildIndex (oni (OI h p)) = cidx p 0.
Proof.
  unfold computeRelativeChildIndex, oni, ilist, cidx. cbn [oh opos position relative_child_from]. rewrite !land1_mod.
  rewrite !Z.shiftl_mul_pow2 by lia. rewrite !Z.testbit_spec' by lia. rewrite !Z.div_1_r. change (2 ^ 0) with 1. change (2 ^ (0 + 1)) with 2. change (2 ^ (0 + 1 + 1)) with 4. lia.
Qed.
Lemma built_height {A} T (d : A) nonzero n : 0 <= T <= 21 -> built T d nonzero n -> nheight (Z.to_nat T) n.
Proof.
  intros HT. induction 1 as [|n i g B IH Hi|n i B IH Hi Hl|n n' B IH P].
  - apply nheight_new.
  - destruct i as [h p]. destruct Hi as [Hh _]. cbn [oh] in *. unfold nd_alloc_data. rewrite nd_alloc_path by (cbn [oh]; lia).
    apply nheight_nalloc; [apply path_valid|rewrite path_length; cbn [oh]; lia|assumption].
  - destruct i as [h p]. destruct Hi as [Hh _]. cbn [oh] in *. unfold nd_eraseNode. cbn [oh opos]. rewrite rel_child_cidx.
    destruct (nd_getNode _ _ _); [|assumption]. cbn [fst]. rewrite nd_modify_path by lia.
    apply nheight_erase; [apply path_valid|apply cidx_range|rewrite path_length; lia|assumption].
  - unfold nd_prune in P. destruct (no_empty_arrays n); [|discriminate P]. injection P as <-. apply nheight_prune. assumption.
Qed.
Lemma grown_nea {A} T (d : A) nonzero n : 0 <= T <= 21 -> grown T d nonzero n -> no_empty_arrays n = true.
Proof.
  intros HT. induction 1 as [|n i g B IH Hi|n n' B IH P].
  - reflexivity.
  - destruct i as [h p]. destruct Hi as [Hh _]. cbn [oh] in *. unfold nd_alloc_data. rewrite nd_alloc_path by (cbn [oh]; lia).
    apply nea_nalloc; [apply path_valid|assumption].
  - unfold nd_prune in P. rewrite IH in P. injection P as <-. apply nea_prune.
Qed.

(** ** Ndtree *)
Section TREE.
Context {A : Type} (T : Z).
Implicit Types (n : node A) (i j : oidx).

(** A newly constructed (or cleared) tree holds the root only. *)
Theorem C54_new : forall (d : A) i, 0 <= T <= 21 -> in_tree T i ->
  stored T (Node d None) i = if oh i =? T then Some d else None.
Proof.
  intros d i HT Hi. rewrite stored_path by (destruct Hi; lia). rewrite dlook_new. unfold ipath.
  destruct Hi as [Hh _]. destruct (Z.eqb_spec (oh i) T) as [E|E].
  - rewrite E, Z.sub_diag. reflexivity.
  - destruct (Z.to_nat (T - oh i)) eqn:K; [lia|]. reflexivity.
Qed.

(** getOrAllocateNode and writing the data: the node gets the new data, missing ancestors get the default, every
    other node is unchanged. *)
Theorem C54_allocate : forall (d : A) n i g j, 0 <= T <= 21 -> in_tree T i -> in_tree T j ->
  let n' := nd_alloc_data T d n i g in
  (j = i -> stored T n' j = Some (g (or_default d (stored T n j)))) /\
  (ancestor j i -> j <> i -> stored T n' j = Some (or_default d (stored T n j))) /\
  (~ ancestor j i -> stored T n' j = stored T n j).
Proof.
  intros d n i g j HT Hi Hj n'.
  assert (E : stored T n' j = if is_prefix (ipath T j) (ipath T i) then
      Some (if is_prefix (ipath T i) (ipath T j) then g (or_default d (stored T n j)) else or_default d (stored T n j)) else stored T n j).
  { rewrite !stored_path by (destruct Hj; lia). unfold n', nd_alloc_data. destruct i as [h p].
    rewrite nd_alloc_path by (destruct Hi; cbn [oh] in *; lia).
    rewrite dlook_nalloc by apply path_valid. reflexivity. }
  rewrite E. repeat split.
  - intros ->. rewrite is_prefix_refl. reflexivity.
  - intros H Hne. apply (prefix_ancestor T j i Hj Hi) in H. rewrite H.
    destruct (is_prefix (ipath T i) (ipath T j)) eqn:P; [|reflexivity].
    exfalso. apply Hne. symmetry. apply (prefix_eq T); assumption.
  - intros H. destruct (is_prefix (ipath T j) (ipath T i)) eqn:P; [|reflexivity].
    exfalso. apply H. apply (prefix_ancestor T j i Hj Hi). exact P.
Qed.

(** Every ancestor of an existing node exists. *)
Theorem C54_ancestors_exist : forall n i j, 0 <= T <= 21 -> in_tree T i -> in_tree T j -> ancestor j i ->
  stored T n i <> None -> stored T n j <> None.
Proof.
  intros n i j HT Hi Hj Ha. rewrite !stored_path by (destruct Hi, Hj; lia).
  apply (prefix_ancestor T j i Hj Hi) in Ha. apply is_prefix_firstn in Ha as [_ E].
  rewrite <- (firstn_skipn (length (ipath T j)) (ipath T i)). rewrite <- E. unfold dlook. rewrite nlook_app.
  destruct (nlook (ipath T j) n); [discriminate|auto].
Qed.

(** eraseNode below the root: exactly the node and its descendants disappear. The flag is true if the node existed. *)
Theorem C54_erase : forall n i j, 0 <= T <= 21 -> in_tree T i -> oh i < T -> in_tree T j ->
  let n' := fst (nd_eraseNode T n i) in
  (ancestor i j -> stored T n' j = None) /\
  (~ ancestor i j -> stored T n' j = stored T n j) /\
  (stored T n i <> None -> snd (nd_eraseNode T n i) = true).
Proof.
  intros n i j HT Hi Hlt Hj. destruct i as [h p]. destruct Hi as [Hh Hp]. cbn [oh opos] in *.
  assert (Hi : in_tree T (OI h p)) by (split; assumption).
  set (q := path (Z.to_nat (T - (h + 1))) (imap (fun c => c / 2) p)). set (c := cidx p 0).
  assert (Ep : ipath T (OI h p) = q ++ [c]).
  { unfold ipath, q, c. cbn [oh opos]. replace (Z.to_nat (T - h)) with (S (Z.to_nat (T - (h + 1)))) by lia. apply path_snoc. }
  assert (Er : computeRelativeChildIndex (oni (OI h p)) = c) by apply rel_child_cidx.
  assert (Eg : nd_getNode T n (OI (h + 1) (imap (fun c => div_exp2_floor c 1) p)) = nlook q n).
  { rewrite nd_getNode_path by lia. unfold q. do 2 f_equal. unfold imap. rewrite !div_exp2_floor_spec by lia. reflexivity. }
  assert (E : stored T (fst (nd_eraseNode T n (OI h p))) j = if is_prefix (ipath T (OI h p)) (ipath T j) then None else stored T n j).
  { rewrite !stored_path by (destruct Hj; lia). unfold nd_eraseNode. cbn [oh opos]. rewrite Er, Eg, Ep.
    destruct (nlook q n) as [x|] eqn:EN; cbn [fst].
    - rewrite nd_modify_path by lia.
      replace (path (Z.to_nat (T - (h + 1))) (imap (fun c0 => div_exp2_floor c0 1) p)) with q
        by (unfold q; f_equal; unfold imap; rewrite !div_exp2_floor_spec by lia; reflexivity).
      apply dlook_erase; [apply cidx_range|apply path_valid|apply path_valid].
    - destruct (is_prefix (q ++ [c]) (ipath T j)) eqn:P; [|reflexivity].
      apply is_prefix_firstn in P as [_ P]. rewrite <- (firstn_skipn (length (q ++ [c])) (ipath T j)), <- P.
      unfold dlook. rewrite <- app_assoc, nlook_app, EN. reflexivity. }
  cbv zeta. rewrite E. repeat split.
  - intros H. apply (prefix_ancestor T (OI h p) j Hi Hj) in H. rewrite H. reflexivity.
  - intros H. destruct (is_prefix (ipath T (OI h p)) (ipath T j)) eqn:P; [|reflexivity].
    exfalso. apply H. apply (prefix_ancestor T _ _ Hi Hj). exact P.
  - rewrite stored_path by (cbn [oh]; lia). rewrite Ep. unfold dlook. rewrite nlook_app. unfold nd_eraseNode. cbn [oh opos]. rewrite Er, Eg.
    destruct (nlook q n) as [x|]; [|intros H; exfalso; apply H; reflexivity]. cbn [snd nlook]. unfold eraseChild, getChild.
    destruct (nkids x); [reflexivity|intros H; exfalso; apply H; reflexivity].
Qed.

(** getNodeOrAncestor: the deepest existing node among the node and its ancestors. *)
Theorem C54_node_or_ancestor : forall n i, 0 <= T <= 21 -> in_tree T i ->
  let r := nd_getNodeOrAncestor T n i in
  let up h := OI h (imap (fun c => c / 2 ^ (h - oh i)) (opos i)) in
  oh i <= snd r <= T /\ stored T n (up (snd r)) = Some (ndata (fst r)) /\
  forall h, oh i <= h < snd r -> stored T n (up h) = None.
Proof.
  intros n i HT Hi r up. destruct i as [h0 p]. destruct Hi as [Hh _]. cbn [oh opos] in *.
  assert (Er : r = (fst (nanc (path (Z.to_nat (T - h0)) p) n), h0 + Z.of_nat (snd (nanc (path (Z.to_nat (T - h0)) p) n)))).
  { unfold r, nd_getNodeOrAncestor. cbn [oh]. apply nd_anc_path; lia. }
  pose proof (nanc_spec (path (Z.to_nat (T - h0)) p) n) as (H1 & H2 & H3). cbv zeta in *.
  set (w := nanc (path (Z.to_nat (T - h0)) p) n) in *. clearbody w. rewrite path_length in *. rewrite Er. cbn [fst snd].
  assert (U : forall h, h0 <= h <= T -> stored T n (up h) = dlook (firstn (Z.to_nat (T - h)) (path (Z.to_nat (T - h0)) p)) n).
  { intros h Hhh. rewrite stored_path by (cbn [oh up]; lia). unfold ipath, up. cbn [oh opos].
    replace (Z.to_nat (T - h0)) with (Z.to_nat (T - h) + Z.to_nat (h - h0))%nat by lia. rewrite firstn_path.
    rewrite Z2Nat.id by lia. reflexivity. }
  repeat split; [lia|lia| |].
  - rewrite U by lia. replace (Z.to_nat (T - (h0 + Z.of_nat (snd w)))) with (Z.to_nat (T - h0) - snd w)%nat by lia.
    unfold dlook. rewrite H2. reflexivity.
  - intros h Hhh. rewrite U by lia. unfold dlook. rewrite H3 by lia. reflexivity.
Qed.

(** prune: exactly the nodes without a non-zero node below them (or equal to them) are removed; the root stays. *)
Theorem C54_prune : forall d nonzero n n' i x, 0 <= T <= 21 -> in_tree T i -> built T d nonzero n ->
  nd_prune nonzero n = Some n' ->
  (stored T n' i = Some x <->
   stored T n i = Some x /\
   (oh i = T \/ exists j y, in_tree T j /\ ancestor i j /\ stored T n j = Some y /\ nonzero y = true)).
Proof.
  intros d nonzero n n' i x HT Hi Hn Hp. apply built_height in Hn; [|assumption]. unfold nd_prune in Hp. destruct (no_empty_arrays n); [|discriminate Hp]. injection Hp as <-.
  rewrite !stored_path by (destruct Hi; lia). rewrite dlook_prune by apply ipath_valid.
  assert (R : ipath T i = [] <-> oh i = T).
  { unfold ipath. destruct Hi as [Hh _]. destruct (Z.to_nat (T - oh i)) eqn:E; cbn [path]; split; (discriminate || lia || reflexivity). }
  rewrite R. apply and_iff_compat_l. apply or_iff_compat_l. split.
  - intros (s & y & Hs & Hy & Hz).
    assert (Hlen : (length (ipath T i ++ s) <= Z.to_nat T)%nat).
    { clear - Hn Hy Hs. revert Hy. generalize (ipath_valid T i). generalize (ipath T i). intros q Hq Hy.
      assert (V : valid_path (q ++ s)) by (apply Forall_app; auto). revert Hy V. generalize (q ++ s). clear - Hn.
      revert n Hn. induction (Z.to_nat T) as [|k IH]; intros n Hn r Hy V.
      - destruct r as [|c r]; [cbn; lia|]. unfold dlook in Hy. cbn [nlook] in Hy. unfold getChild in Hy. cbn in Hn. rewrite Hn in Hy. discriminate Hy.
      - destruct r as [|c r]; [cbn; lia|]. inversion V as [|? ? Vc V']; subst. specialize (Hn c Vc). unfold dlook in Hy. cbn [nlook] in Hy.
        destruct (getChild n c) as [ch|]; [|discriminate Hy]. specialize (IH ch Hn r Hy V'). cbn [length]. lia. }
    assert (P : exists j, in_tree T j /\ ipath T j = ipath T i ++ s).
    { assert (V : valid_path (ipath T i ++ s)) by (apply Forall_app; split; [apply ipath_valid|assumption]).
      revert V Hlen. generalize (ipath T i ++ s). intros q V L. clear - HT V L.
      induction q as [|c q IH] using rev_ind.
      - exists (OI T (I3 0 0 0)). unfold in_tree, ipath. cbn [oh opos px py pz]. rewrite Z.sub_diag. cbn. split; [lia|reflexivity].
      - apply Forall_app in V as [V Vc]. inversion Vc as [|? ? Hc _]; subst. rewrite app_length in L. cbn [length] in L.
        destruct (IH V ltac:(lia)) as (j & Hj & Ej). destruct j as [h p]. unfold in_tree in *. cbn [oh opos] in *.
        assert (El : length (ipath T (OI h p)) = length q) by (rewrite Ej; reflexivity). unfold ipath in El, Ej. cbn [oh opos] in *. rewrite path_length in El.
        exists (OI (h - 1) (child_pos p c)). split.
        + unfold in_tree, child_pos. cbn [oh opos px py pz]. replace (T - (h - 1)) with (Z.succ (T - h)) by lia. rewrite Z.pow_succ_r by lia.
          assert (forall b, 0 <= Z.b2z b <= 1) as B by (intros []; cbn; lia).
          pose proof (B (Z.testbit c 0)). pose proof (B (Z.testbit c 1)). pose proof (B (Z.testbit c 2)). lia.
        + unfold ipath. cbn [oh opos]. replace (Z.to_nat (T - (h - 1))) with (S (Z.to_nat (T - h))) by lia.
          rewrite child_pos_path by assumption. rewrite Ej. reflexivity. }
    destruct P as (j & Hj & Ej). exists j, y. split; [assumption|]. split; [|split; [|assumption]].
    + apply (prefix_ancestor T i j Hi Hj). rewrite Ej. apply is_prefix_firstn. rewrite app_length. split; [lia|].
      rewrite firstn_app, Nat.sub_diag, firstn_all, firstn_O, app_nil_r. reflexivity.
    + rewrite stored_path by (destruct Hj; lia). rewrite Ej. exact Hy.
  - intros (j & y & Hj & Ha & Hy & Hz). apply (prefix_ancestor T i j Hi Hj) in Ha. apply is_prefix_firstn in Ha as [_ E].
    exists (skipn (length (ipath T i)) (ipath T j)), y. rewrite E at 2. rewrite firstn_skipn. rewrite stored_path in Hy by (destruct Hj; lia).
    repeat split; try assumption. apply Forall_forall. intros z Hzz. apply (proj1 (Forall_forall _ _) (ipath_valid T j)).
    rewrite <- (firstn_skipn (length (ipath T i))). apply in_or_app. right. assumption.
Qed.
(** prune never fails if eraseNode was not used. *)
Theorem C54_prune_defined : forall d nonzero n, 0 <= T <= 21 -> grown T d nonzero n -> exists n', nd_prune nonzero n = Some n'.
Proof. intros d nonzero n HT Hg. unfold nd_prune. rewrite (grown_nea T d nonzero n HT Hg). eauto. Qed.
End TREE.
Print Assumptions C54_new.
Print Assumptions C54_allocate.
Print Assumptions C54_ancestors_exist.
Print Assumptions C54_erase.
Print Assumptions C54_node_or_ancestor.
Print Assumptions C54_prune.
Print Assumptions C54_prune_defined.

(** A tree of height 3 with two written nodes; i1 is below i2. *)
Definition ex_i1 := OI 0 (I3 5 2 7).
Definition ex_i2 := OI 1 (I3 2 1 3).
Definition ex_t : node Z := nd_alloc_data 3 0 (nd_alloc_data 3 0 (Node 0 None) ex_i1 (fun v => v + 4)) ex_i2 (fun _ => 9).
Example C54_ex_tree : grown 3 0 (fun x => negb (x =? 0)) ex_t /\ ancestor ex_i2 ex_i1 /\ in_tree 3 ex_i1 /\ in_tree 3 ex_i2 /\
  map (stored 3 ex_t) [ex_i1; ex_i2; OI 2 (I3 1 0 1); OI 0 (I3 5 2 6)] = [Some 4; Some 9; Some 0; None] /\
  snd (nd_getNodeOrAncestor 3 ex_t (OI 0 (I3 5 2 6))) = 1 /\
  map (stored 3 (fst (nd_eraseNode 3 ex_t ex_i2))) [ex_i1; ex_i2; OI 2 (I3 1 0 1)] = [None; None; Some 0] /\
  option_map (fun n => map (stored 3 n) [ex_i1; ex_i2; OI 2 (I3 1 0 1)])
    (nd_prune (fun x => negb (x =? 0)) (nd_alloc_data 3 0 ex_t ex_i1 (fun _ => 0))) = Some [None; Some 9; Some 0].
Proof.
  assert (I1 : in_tree 3 ex_i1) by (unfold in_tree, ex_i1; cbn; lia). assert (I2 : in_tree 3 ex_i2) by (unfold in_tree, ex_i2; cbn; lia).
  split; [apply grown_alloc; [apply grown_alloc; [apply grown_new|]|]; assumption|].
  split; [split; [cbn; lia|reflexivity]|]. split; [assumption|]. split; [assumption|]. vm_compute. auto.
Qed.

(** eraseNode reports success for a node that does not exist, as soon as its parent has some child. *)
Theorem C54_erase_flag_refuted : exists (n : node Z) i, grown 3 0 (fun x => negb (x =? 0)) n /\ in_tree 3 i /\ oh i < 3 /\
  stored 3 n i = None /\ snd (nd_eraseNode 3 n i) = true.
Proof.
  exists ex_t, (OI 0 (I3 5 2 6)). split; [apply C54_ex_tree|]. split; [unfold in_tree; cbn; lia|]. split; [cbn; lia|]. vm_compute. auto.
Qed.
(** eraseNode at the root does not erase the root but one of its children, with everything below it. *)
Theorem C54_erase_root_refuted : exists (n : node Z), grown 3 0 (fun x => negb (x =? 0)) n /\
  let n' := fst (nd_eraseNode 3 n (OI 3 (I3 0 0 0))) in
  snd (nd_eraseNode 3 n (OI 3 (I3 0 0 0))) = true /\ stored 3 n' (OI 3 (I3 0 0 0)) <> None /\
  stored 3 n (OI 0 (I3 1 2 3)) = Some 8 /\ stored 3 n' (OI 0 (I3 1 2 3)) = None.
Proof.
  exists (nd_alloc_data 3 0 (Node 0 None) (OI 0 (I3 1 2 3)) (fun _ => 8)).
  split; [apply grown_alloc; [apply grown_new|unfold in_tree; cbn; lia]|]. vm_compute. repeat split; discriminate.
Qed.
Print Assumptions C54_erase_flag_refuted.
Print Assumptions C54_erase_root_refuted.

(** ** NdtreeBlockHash *)
Section HASH.
Context {A : Type} (T : Z) (d : A).
Notation bmap := (shash (node A)).
Lemma bh_block_spec i : 0 <= oh i <= T -> bh_blockIndex T i = imap (fun c => c / 2 ^ (T - oh i)) (opos i).
Proof. intros H. unfold bh_blockIndex, imap. rewrite !div_exp2_floor_spec by lia. reflexivity. Qed.
Lemma bh_cell_spec i : 0 <= oh i <= T -> bh_cellIndex T i = OI (oh i) (imap (fun c => c mod 2 ^ (T - oh i)) (opos i)).
Proof. intros H. unfold bh_cellIndex, imap. rewrite !div_exp2_floor_remainder_spec by lia. reflexivity. Qed.
Lemma bh_cell_in i : 0 <= oh i <= T -> in_tree T (bh_cellIndex T i).
Proof.
  intros H. rewrite bh_cell_spec by assumption. unfold in_tree, imap. cbn [oh opos px py pz].
  split; [assumption|]. repeat split; apply Z.mod_pos_bound, pow2_pos; lia.
Qed.
Lemma split1 x y a e : 0 < a -> 0 < e -> (y / a = x / (a * e) /\ y mod a = (x mod (a * e)) / e) <-> y = x / e.
Proof.
  intros Ha He. rewrite (Z.mul_comm a e).
  replace ((x mod (e * a)) / e) with ((x / e) mod a).
  2:{ rewrite Z.rem_mul_r by lia. rewrite (Z.mul_comm e ((x / e) mod a)), Z.div_add by lia. rewrite (Z.div_small (x mod e)); [reflexivity|apply Z.mod_pos_bound; assumption]. }
  rewrite <- Z.div_div by lia. split; [|intros ->; split; reflexivity].
  intros [E1 E2]. rewrite (Z.div_mod y a), (Z.div_mod (x / e) a) by lia. rewrite E1, E2. reflexivity.
Qed.
Lemma bh_ancestor j i : 0 <= oh j <= T -> 0 <= oh i <= T ->
  (ancestor j i <-> bh_blockIndex T j = bh_blockIndex T i /\ ancestor (bh_cellIndex T j) (bh_cellIndex T i)).
Proof.
  intros Hj Hi. rewrite !bh_block_spec, !bh_cell_spec by assumption. unfold ancestor. cbn [oh opos].
  destruct (Z.le_gt_cases (oh i) (oh j)) as [L|L]; [|split; [intros [X _]|intros (_ & X & _)]; lia].
  set (a := 2 ^ (T - oh j)). set (e := 2 ^ (oh j - oh i)).
  assert (Ha : 0 < a) by (apply pow2_pos; lia). assert (He : 0 < e) by (apply pow2_pos; lia).
  replace (2 ^ (T - oh i)) with (a * e) by (unfold a, e; rewrite <- Z.pow_add_r by lia; f_equal; lia).
  destruct (opos j) as [j1 j2 j3], (opos i) as [i1 i2 i3]. unfold imap. cbn [px py pz].
  pose proof (split1 i1 j1 a e Ha He) as S1. pose proof (split1 i2 j2 a e Ha He) as S2. pose proof (split1 i3 j3 a e Ha He) as S3.
  split.
  - intros [_ E]. injection E as E1 E2 E3. apply S1 in E1. apply S2 in E2. apply S3 in E3.
    destruct E1 as [A1 B1], E2 as [A2 B2], E3 as [A3 B3]. rewrite A1, A2, A3, B1, B2, B3. auto.
  - intros (E & _ & F). injection E as A1 A2 A3. injection F as B1 B2 B3. split; [assumption|]. f_equal; [apply S1|apply S2|apply S3]; auto.
Qed.
Lemma bh_value_eq (m : bmap) i : 0 <= oh i <= T ->
  bh_getValue T m i = match getBlock m (bh_blockIndex T i) with None => None | Some b => stored T b (bh_cellIndex T i) end.
Proof. intros H. unfold bh_getValue, bh_getNode, stored. destruct (getBlock m _); reflexivity. Qed.
Lemma bh_eq j i : 0 <= oh j <= T -> 0 <= oh i <= T -> bh_blockIndex T j = bh_blockIndex T i -> bh_cellIndex T j = bh_cellIndex T i -> j = i.
Proof.
  intros Hj Hi E1 E2. assert (A1 : ancestor j i) by (apply bh_ancestor; try assumption; split; [assumption|rewrite E2; apply ancestor_refl]).
  rewrite bh_cell_spec, bh_cell_spec in E2 by assumption. injection E2 as Eh _.
  destruct A1 as [_ A1]. destruct j as [hj pj], i as [hi pi]. cbn [oh opos] in *. subst hj. f_equal. rewrite A1, Z.sub_diag.
  change (2 ^ 0) with 1. destruct pi as [x y z]. unfold imap. cbn. rewrite !Z.div_1_r. reflexivity.
Qed.

(** indexToBlockIndex and indexToCellIndex split an index, cellAndBlockIndexToIndex puts it together again: the two are
    inverse to each other. *)
Theorem C54_hash_index :
  (forall i, 0 <= oh i <= T -> bh_index T (bh_blockIndex T i) (bh_cellIndex T i) = i /\ in_tree T (bh_cellIndex T i)) /\
  (forall b c, in_tree T c -> bh_blockIndex T (bh_index T b c) = b /\ bh_cellIndex T (bh_index T b c) = c).
Proof.
  split.
  - intros i Hi. split; [|apply bh_cell_in; assumption]. rewrite bh_block_spec, bh_cell_spec by assumption.
    unfold bh_index. cbn [oh opos]. rewrite exp2_pow by lia. destruct i as [h [x y z]]. cbn [oh opos] in *.
    assert (P : 0 < 2 ^ (T - h)) by (apply pow2_pos; lia).
    unfold imap, imap2. cbn [px py pz]. f_equal. f_equal; rewrite Z.add_comm; symmetry; apply Z.div_mod; lia.
  - intros b c (Hc & Bc). rewrite bh_block_spec, bh_cell_spec by exact Hc. unfold bh_index. cbn [oh opos].
    rewrite exp2_pow by lia. destruct c as [h [x y z]], b as [u v w]. cbn [oh opos px py pz imap imap2] in *.
    assert (P : 0 < 2 ^ (T - h)) by (apply pow2_pos; lia). unfold imap, imap2. cbn [px py pz].
    rewrite !(Z.mul_comm (2 ^ (T - h))), !Z.div_add, !Z.mod_add by lia.
    rewrite !Z.div_small, !Z.mod_small by lia. split; reflexivity.
Qed.

(** getOrAllocateValue and writing through the result. An allocated block always has its root node. *)
Theorem C54_hash_update : forall (m : bmap) i g j, 0 <= T <= 21 -> 0 <= oh i <= T -> 0 <= oh j <= T ->
  let m' := bh_update T d m i g in
  (j = i -> bh_getValue T m' j = Some (g (bh_getValueOrDefault T d m j))) /\
  (ancestor j i -> j <> i -> bh_getValue T m' j = Some (bh_getValueOrDefault T d m j)) /\
  (~ ancestor j i -> bh_getValue T m' j = bh_getValue T m j).
Proof.
  intros m i g j HT Hi Hj m'. unfold m', bh_update, bh_getValueOrDefault. rewrite !bh_value_eq by assumption. rewrite getBlock_setBlock.
  pose proof (bh_ancestor j i Hj Hi) as BA.
  destruct (ieqb_spec (bh_blockIndex T i) (bh_blockIndex T j)) as [E|E].
  2:{ split; [intros ->; congruence|]. split; [intros X; apply BA in X as [X _]; congruence|]. reflexivity. }
  unfold blockOrNew. rewrite E.
  set (n := match getBlock m (bh_blockIndex T j) with Some b => b | None => Node d None end).
  destruct (C54_allocate T d n (bh_cellIndex T i) g (bh_cellIndex T j) HT (bh_cell_in i Hi) (bh_cell_in j Hj)) as (P1 & P2 & P3).
  assert (O : or_default d (stored T n (bh_cellIndex T j)) =
     match (match getBlock m (bh_blockIndex T j) with Some b => stored T b (bh_cellIndex T j) | None => None end) with Some v => v | None => d end).
  { unfold n. destruct (getBlock m _) as [b|]; [reflexivity|]. rewrite C54_new by (assumption || apply bh_cell_in; assumption).
    destruct (_ =? _); reflexivity. }
  rewrite O in P1, P2. split; [|split].
  - intros ->. apply P1. reflexivity.
  - intros X Hne. apply P2; [apply BA; assumption|]. intros Q. apply Hne. apply bh_eq; auto.
  - intros X. assert (X' : ~ ancestor (bh_cellIndex T j) (bh_cellIndex T i)) by (intros Q; apply X, BA; auto).
    rewrite P3 by assumption. unfold n. destruct (getBlock m _) as [b|]; [reflexivity|].
    rewrite C54_new by (assumption || apply bh_cell_in; assumption).
    destruct (Z.eqb_spec (oh (bh_cellIndex T j)) T) as [R|R]; [|reflexivity].
    exfalso. apply X'. pose proof (bh_cell_in j Hj) as Bj. pose proof (bh_cell_in i Hi) as Bi.
    rewrite !bh_cell_spec in * by assumption. unfold in_tree, ancestor in *. cbn [oh opos] in *. split; [lia|].
    destruct (opos j) as [j1 j2 j3], (opos i) as [i1 i2 i3]. unfold imap in *. cbn [px py pz] in *. rewrite R in *.
    rewrite Z.sub_diag in *. change (2 ^ 0) with 1 in *. rewrite !Z.mod_1_r. rewrite !Z.div_small by lia. reflexivity.
Qed.

(** Every ancestor (up to the block root) of an existing node exists. *)
Theorem C54_hash_ancestors_exist : forall (m : bmap) i j, 0 <= T <= 21 -> 0 <= oh i -> oh j <= T -> ancestor j i ->
  bh_getValue T m i <> None -> bh_getValue T m j <> None.
Proof.
  intros m i j HT Hi Hj Ha. assert (oh i <= oh j) by (destruct Ha; assumption).
  rewrite !bh_value_eq by lia. apply bh_ancestor in Ha as [E Ha]; [|lia|lia]. rewrite E.
  destruct (getBlock m _) as [b|]; [|auto]. apply C54_ancestors_exist; try assumption; apply bh_cell_in; lia.
Qed.

(** getValueOrAncestor: the value and height of the deepest existing node among the node and its ancestors. *)
Theorem C54_hash_value_or_ancestor : forall (m : bmap) i, 0 <= T <= 21 -> 0 <= oh i <= T ->
  let up h := OI h (imap (fun c => c / 2 ^ (h - oh i)) (opos i)) in
  match bh_getValueOrAncestor T m i with
  | (Some v, h) => oh i <= h <= T /\ bh_getValue T m (up h) = Some v /\ forall h', oh i <= h' < h -> bh_getValue T m (up h') = None
  | (None, h) => forall h', oh i <= h' <= T -> bh_getValue T m (up h') = None
  end.
Proof.
  intros m i HT Hi up.
  assert (U : forall h, oh i <= h <= T -> bh_blockIndex T (up h) = bh_blockIndex T i /\
     bh_cellIndex T (up h) = OI h (imap (fun c => c / 2 ^ (h - oh i)) (opos (bh_cellIndex T i)))).
  { intros h Hh. assert (Ha : ancestor (up h) i) by (split; [cbn; lia|reflexivity]).
    apply bh_ancestor in Ha as [E [_ Ha]]; [|cbn; lia|lia]. split; [assumption|].
    rewrite bh_cell_spec in Ha |- * by (cbn; lia). cbn [oh opos up] in *. rewrite Ha. rewrite bh_cell_spec by lia. reflexivity. }
  unfold bh_getValueOrAncestor. destruct (getBlock m (bh_blockIndex T i)) as [b|] eqn:E.
  - pose proof (C54_node_or_ancestor T b (bh_cellIndex T i) HT (bh_cell_in i Hi)) as (P1 & P2 & P3).
    assert (Eh : oh (bh_cellIndex T i) = oh i) by reflexivity. rewrite Eh in *.
    split; [assumption|]. split.
    + rewrite bh_value_eq by (cbn [oh up]; lia). destruct (U _ P1) as [-> ->]. rewrite E. exact P2.
    + intros h' Hh'. rewrite bh_value_eq by (cbn [oh up]; lia). destruct (U h' ltac:(lia)) as [-> ->]. rewrite E. apply P3. assumption.
  - intros h' Hh'. rewrite bh_value_eq by (cbn [oh up]; lia). destruct (U h' Hh') as [-> _]. rewrite E. reflexivity.
Qed.

(** Maps built from writes at any nodes. *)
Inductive bh_built : bmap -> Prop :=
| bhb_nil : bh_built []
| bhb_update m i g : bh_built m -> 0 <= oh i <= T -> bh_built (bh_update T d m i g).
Lemma bh_built_inv m : 0 <= T <= 21 -> bh_built m -> hwf m /\ forall k b, In (k, b) m -> nheight (Z.to_nat T) b.
Proof.
  intros HT. induction 1 as [|m i g B [W IH] Hi]; [split; [constructor|intros k b []]|].
  unfold bh_update. split; [apply setBlock_wf; assumption|]. intros k b Hin.
  apply In_getBlock in Hin; [|apply setBlock_wf; assumption]. rewrite getBlock_setBlock in Hin.
  destruct (ieqb _ _) in Hin.
  - injection Hin as <-. unfold nd_alloc_data. unfold bh_cellIndex at 2. rewrite nd_alloc_path by (cbn [oh bh_cellIndex]; lia).
    apply nheight_nalloc; [apply path_valid|rewrite path_length; cbn [oh bh_cellIndex]; lia|].
    unfold blockOrNew. destruct (getBlock m (bh_blockIndex T i)) as [b0|] eqn:E; [|apply nheight_new].
    apply getBlock_In in E. exact (IH _ _ E).
  - apply getBlock_In in Hin. exact (IH _ _ Hin).
Qed.
Lemma geval_anc q : forall (n : node A) v, geval (fun _ x => ndata x) v n q = ndata (fst (nanc q n)).
Proof. induction q as [|c q IH]; intros n v; cbn [geval nanc]; [reflexivity|]. destruct (getChild n c); [apply IH|reflexivity]. Qed.
Lemma covers3_ancestor j c : 0 <= oh j -> (covers3 j c <-> ancestor j (OI 0 c)).
Proof.
  intros H. unfold covers3, ancestor. cbn [oh opos]. rewrite Z.sub_0_r. split; [intros E; split; [assumption|symmetry; exact E]|intros [_ E]; symmetry; exact E].
Qed.
Lemma hac_none (n : node A) c : hasAtLeastOneChild n = false -> getChild n c = None.
Proof.
  intros H. destruct (getChild n c) as [x|] eqn:E; [|reflexivity]. exfalso. revert H. unfold hasAtLeastOneChild, getChild in *.
  destruct (nkids n) as [k|]; [|discriminate]. intros H. rewrite <- not_true_iff_false in H. apply H. apply existsb_exists.
  exists (Some x). split; [|reflexivity]. rewrite <- E. apply oget_In.
Qed.
Lemma hac_kids (n : node A) : hasAtLeastOneChild n = true -> nkids n <> None.
Proof. intros E0 E1. unfold hasAtLeastOneChild in E0. rewrite E1 in E0. discriminate. Qed.
Lemma bh_leaves_blocks (m : bmap) fuel l : 0 <= T <= 21 -> hwf m -> (forall k b, In (k, b) m -> nheight (Z.to_nat T) b) ->
  (forall b : node A, (nsize b <= fuel b)%nat) -> bh_forEachLeaf T d fuel m = Some l ->
  (forall i u, In (i, u) l -> 0 <= oh i) /\
  forall c, match getBlock m (imap (fun x => x / 2 ^ T) c) with
            | Some b => covered_once l c (ndata (fst (nanc (path (Z.to_nat T) c) b)))
            | None => uncovered l c
            end.
Proof.
  intros HT. revert l. induction m as [|[k b] m IH]; intros l W Hn Hf Hl; cbn [bh_forEachLeaf] in Hl.
  - injection Hl as <-. split; [intros i u []|]. intros c. cbn [getBlock]. apply uncovered_nil.
  - rewrite gleaf_loop in Hl; [|apply hac_none|apply hac_kids|cbn [gstack_size]; specialize (Hf b); lia].
    destruct (bh_forEachLeaf T d fuel m) as [l2|] eqn:E2; [|discriminate]. injection Hl as <-. cbn [flat_map fst snd]. rewrite app_nil_r. cbn [rev app].
    set (l1 := gleaves _ _ b (OI T k) d).
    inversion W as [|? ? Wk W']; subst.
    destruct (IH l2 W' (fun k0 b0 H0 => Hn k0 b0 (or_intror H0)) Hf eq_refl) as [IH1 IH2].
    pose proof (Hn k b (or_introl eq_refl)) as Hb.
    split.
    + intros i u Hi. apply in_app_or in Hi as [Hi|Hi]; [|apply (IH1 i u Hi)].
      revert Hi. unfold l1. apply (gleaves_height _ _ hac_none hac_kids (Z.to_nat T)); [assumption|cbn [oh]; lia].
    + intros c. specialize (IH2 c). cbn [getBlock].
      assert (Cov : covers3 (OI T k) c <-> imap (fun x => x / 2 ^ T) c = k) by reflexivity.
      destruct (ieqb_spec k (imap (fun x => x / 2 ^ T) c)) as [E|E].
      * assert (G : getBlock m (imap (fun x => x / 2 ^ T) c) = None) by (apply getBlock_None; rewrite <- E; assumption).
        rewrite G in IH2. apply covered_once_app_l; [|assumption]. rewrite <- (geval_anc _ b d).
        apply (gleaves_cover _ _ hac_none hac_kids (Z.to_nat T)); [assumption|cbn [oh]; lia|]. apply Cov. symmetry. exact E.
      * assert (U : uncovered l1 c) by (apply (gleaves_uncovered _ _ hac_none hac_kids (Z.to_nat T)); [assumption|cbn [oh]; lia|rewrite Cov; congruence]).
        destruct (getBlock m _); [apply covered_once_app_r|apply uncovered_app]; assumption.
Qed.

(** forEachLeaf always terminates; it covers each cell of an allocated block by exactly one reported index, with the
    value getValueOrAncestor returns for the cell, and no cell outside the allocated blocks. *)
Theorem C54_hash_leaves : forall (m : bmap) fuel, 0 <= T <= 21 -> bh_built m -> (forall b, (nsize b <= fuel b)%nat) ->
  exists l, bh_forEachLeaf T d fuel m = Some l /\
  forall c, match fst (bh_getValueOrAncestor T m (OI 0 c)) with
            | Some v => reported_once l c v
            | None => forall i u, In (i, u) l -> ~ ancestor i (OI 0 c)
            end.
Proof.
  intros m fuel HT Hm Hf. destruct (bh_built_inv m HT Hm) as [W Hn].
  assert (X : exists l, bh_forEachLeaf T d fuel m = Some l).
  { clear - Hf. induction m as [|[k b] m [l2 IH]]; cbn [bh_forEachLeaf]; [eauto|]. rewrite IH.
    rewrite gleaf_loop; [eauto|apply hac_none|apply hac_kids|cbn [gstack_size]; specialize (Hf b); lia]. }
  destruct X as [l Hl]. exists l. split; [assumption|]. destruct (bh_leaves_blocks m fuel l HT W Hn Hf Hl) as [Hh Hc].
  intros c. specialize (Hc c). unfold bh_getValueOrAncestor.
  rewrite bh_block_spec by (cbn [oh]; lia). cbn [oh opos]. rewrite Z.sub_0_r.
  destruct (getBlock m _) as [b|]; cbn [fst].
  - assert (E : nd_getNodeOrAncestor T b (bh_cellIndex T (OI 0 c)) =
      (fst (nanc (path (Z.to_nat T) c) b), 0 + Z.of_nat (snd (nanc (path (Z.to_nat T) c) b)))).
    { unfold nd_getNodeOrAncestor. rewrite bh_cell_spec by (cbn [oh]; lia). cbn [oh opos]. rewrite nd_anc_path by lia. rewrite Z.sub_0_r.
      rewrite !path_mod by lia. reflexivity. }
    rewrite E. cbn [fst]. destruct Hc as (l1 & i & l2 & -> & C1 & C2). exists l1, i, l2. split; [reflexivity|]. split.
    + apply covers3_ancestor; [|assumption]. apply (Hh i _ (in_elt _ _ _)).
    + intros j u Hj Ha. apply (C2 j); [apply in_map_iff; exists (j, u); auto|]. apply covers3_ancestor; [|assumption].
      apply (Hh j u). apply in_app_or in Hj. apply in_or_app. destruct Hj; [left|right; right]; assumption.
  - intros i u Hi Ha. apply (Hc i); [apply in_map_iff; exists (i, u); auto|]. apply covers3_ancestor; [exact (Hh i u Hi)|assumption].
Qed.
End HASH.
Print Assumptions C54_hash_index.
Print Assumptions C54_hash_update.
Print Assumptions C54_hash_ancestors_exist.
Print Assumptions C54_hash_value_or_ancestor.
Print Assumptions C54_hash_leaves.

(** Blocks with negative indices; the second write is to an ancestor of the first cell. *)
Definition ex_m : shash (node Z) :=
  bh_update 2 0 (bh_update 2 0 [] (OI 0 (I3 (-3) 6 1)) (fun v => v + 4)) (OI 1 (I3 (-2) 3 0)) (fun _ => 9).
Example C54_ex_hash : bh_built 2 0 ex_m /\ map (bh_getValue 2 ex_m) [OI 0 (I3 (-3) 6 1); OI 1 (I3 (-2) 3 0); OI 2 (I3 (-1) 1 0); OI 0 (I3 (-4) 6 1); OI 0 (I3 1 6 1)] =
    [Some 4; Some 9; Some 0; None; None] /\
  bh_getValueOrAncestor 2 ex_m (OI 0 (I3 (-4) 6 1)) = (Some 9, 1) /\
  option_map (@length _) (bh_forEachLeaf 2 0 nsize ex_m) = Some 15%nat.
Proof.
  split; [apply bhb_update; [apply bhb_update; [apply bhb_nil|]|]; cbn; lia|]. vm_compute. auto.
Qed.
Example C54_ex_index : bh_blockIndex 2 (OI 1 (I3 (-3) 6 1)) = I3 (-2) 3 0 /\ bh_cellIndex 2 (OI 1 (I3 (-3) 6 1)) = OI 1 (I3 1 0 1) /\
  bh_index 2 (I3 (-2) 3 0) (OI 1 (I3 1 0 1)) = OI 1 (I3 (-3) 6 1) /\ in_tree 2 (OI 1 (I3 1 0 1)).
Proof. unfold in_tree. cbn. repeat split; try reflexivity; lia. Qed.
