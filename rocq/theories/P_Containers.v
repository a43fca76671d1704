(** Further theorems about the containers: sizes and membership tests (C54), the bounds of a classified map (C29), the median
    time of a stamped point cloud (C56), node counts (C06) and the height of chunked octrees (C53). *)
From Verif Require Import Base M_IntMath F_IntMath M_NdtreeIndex M_Haar3 F_Haar3 M_Ndtree F_Hash M_Num M_Wavelet F_Wavelet F_Wavelet2 F_Leaves F_WavTree F_WavMap
  M_Octree F_Octree P_Octree P_Subtree P_Hash M_Classified M_Undistort P_Undistort M_Chunked P_PublishCloud S_Field.
From Coq Require Import Permutation Sorting.Sorted.

(** ** C54: size and membership *)
(** [l] lists the nodes that satisfy [p], each of them once. *)
Definition lists {I} (l : list I) (p : I -> Prop) : Prop := NoDup l /\ forall i, In i l <-> p i.

(** The position of the node at the end of a path from the root *)
Definition pos_of (q : list Z) : idx3 := fold_left child_pos q (I3 0 0 0).
Lemma pos_of_snoc q c : pos_of (q ++ [c]) = child_pos (pos_of q) c.
Proof. unfold pos_of. rewrite fold_left_app. reflexivity. Qed.
Lemma pos_of_path q : valid_path q -> path (length q) (pos_of q) = q /\ in_box (Z.of_nat (length q)) (pos_of q).
Proof.
  induction q as [|c q IH] using rev_ind; intros V; [split; [reflexivity|repeat split; cbn; lia]|].
  apply Forall_app in V as [V Hc]. inversion Hc; subst. destruct (IH V) as (E & B). rewrite pos_of_snoc, app_length. cbn [length].
  replace (length q + 1)%nat with (S (length q)) by lia. split; [rewrite child_pos_path, E by assumption; reflexivity|].
  unfold in_box, child_pos in *. rewrite Nat2Z.inj_succ, Z.pow_succ_r by lia. cbn [px py pz].
  destruct (Z.testbit c 0), (Z.testbit c 1), (Z.testbit c 2); cbn [Z.b2z]; lia.
Qed.
Lemma node_at_valid {A} q : forall (n m : node A), P_Subtree.node_at n q = Some m -> valid_path q /\ nlook q n = Some m.
Proof.
  induction q as [|c q IH]; intros n m E; cbn [P_Subtree.node_at nlook] in *; [split; [constructor|exact E]|].
  destruct ((0 <=? c) && (c <? 8)) eqn:B; [|discriminate]. destruct (getChild n c) as [ch|]; [|discriminate].
  apply IH in E as (V & E). split; [|exact E]. constructor; [lia|exact V].
Qed.
Lemma nlook_node_at {A} q : forall (n m : node A), valid_path q -> nlook q n = Some m -> P_Subtree.node_at n q = Some m.
Proof.
  induction q as [|c q IH]; intros n m V E; cbn [P_Subtree.node_at nlook] in *; [exact E|]. inversion V as [|? ? Hc V']; subst.
  replace ((0 <=? c) && (c <? 8)) with true by lia. destruct (getChild n c) as [ch|]; [|discriminate]. apply IH; assumption.
Qed.
Lemma nlook_length {A} q : forall k (n m : node A), valid_path q -> nheight k n -> nlook q n = Some m -> (length q <= k)%nat.
Proof.
  induction q as [|c q IH]; intros k n m V H E; cbn [length nlook] in *; [lia|]. inversion V as [|? ? Hc V']; subst.
  destruct k as [|k].
  - exfalso. unfold getChild in E. cbn [nheight] in H. rewrite H in E. discriminate.
  - specialize (H c Hc). destruct (getChild n c) as [ch|]; [|discriminate]. specialize (IH k ch m V' H E). lia.
Qed.

Section SIZE.
Context {A : Type} (T : Z).
Definition node_of (q : list Z) : oidx := OI (T - Z.of_nat (length q)) (pos_of q).
Lemma node_of_in q : 0 <= T -> valid_path q -> (length q <= Z.to_nat T)%nat -> in_tree T (node_of q) /\ ipath T (node_of q) = q.
Proof.
  intros HT V L. destruct (pos_of_path q V) as (E & B). unfold in_tree, ipath, node_of, in_box in *. cbn [oh opos].
  replace (T - (T - Z.of_nat (length q))) with (Z.of_nat (length q)) by lia. rewrite Nat2Z.id. split; [split; [lia|tauto]|exact E].
Qed.
Lemma node_of_ipath i : in_tree T i -> node_of (ipath T i) = i.
Proof.
  destruct i as [h p]. intros [Hh Hp]. unfold ipath, node_of. cbn [oh opos] in *. rewrite path_length.
  pose proof (pos_of_path (path (Z.to_nat (T - h)) p) (path_valid _ _)) as (E & B). rewrite path_length in E, B.
  f_equal; [lia|]. apply (path_inj (Z.to_nat (T - h))); [exact B| |exact E]. unfold in_box. rewrite Z2Nat.id by lia. exact Hp.
Qed.

(** The size of an octree is the number of node indices for which it stores something. *)
Lemma size_nodes (n : node A) : 0 <= T <= 21 -> nheight (Z.to_nat T) n ->
  exists l, length l = nsize n /\ lists l (fun i => in_tree T i /\ stored T n i <> None).
Proof.
  intros HT H. destruct (C34_preorder A n (nsize n) ltac:(lia)) as (l & E & (ND & M) & _).
  exists (map (fun x => node_of (fst x)) l). split; [rewrite map_length; exact (C34_size A n l _ E)|].
  assert (K : forall q m, In (q, m) l -> valid_path q /\ nlook q n = Some m /\ (length q <= Z.to_nat T)%nat).
  { intros q m I. apply M in I. apply node_at_valid in I as (V & I). split; [exact V|]. split; [exact I|]. exact (nlook_length _ _ _ _ V H I). }
  split.
  - rewrite <- (map_map fst node_of). 
    assert (forall q, In q (map fst l) -> ipath T (node_of q) = q) as Inv.
    { intros q I. apply in_map_iff in I as ((q', m) & <- & I). cbn [fst]. destruct (K _ _ I) as (V & _ & L). apply node_of_in; (lia || assumption). }
    clear - ND Inv. induction (map fst l) as [|q qs IH]; [constructor|]. inversion ND as [|? ? N ND']; subst. cbn [map]. constructor.
    + intros I. apply in_map_iff in I as (q' & Eq & I). apply N. rewrite <- (Inv q), <- Eq, Inv; [exact I|right; exact I|left; reflexivity].
    + apply IH; [exact ND'|]. intros q' I. apply Inv. right. exact I.
  - intros i. rewrite in_map_iff. split.
    + intros ((q, m) & <- & I). cbn [fst]. destruct (K _ _ I) as (V & Lk & L). destruct (node_of_in q ltac:(lia) V L) as (In_ & Pq).
      split; [exact In_|]. destruct In_ as [Hh _]. rewrite stored_path by lia. rewrite Pq. unfold dlook. rewrite Lk. discriminate.
    + intros (Hi & S). pose proof Hi as [Hh _]. rewrite stored_path in S by lia. unfold dlook in S.
      destruct (nlook (ipath T i) n) as [m|] eqn:Lk; [|contradiction]. exists (ipath T i, m). cbn [fst]. split; [apply node_of_ipath; exact Hi|].
      apply M. apply nlook_node_at; [apply ipath_valid|exact Lk].
Qed.
End SIZE.

(** C54: size() of an octree counts its nodes, and hasNode says whether there is one. *)
Theorem C54_size : forall (A : Type) T (d : A) nonzero n, 0 <= T <= 21 -> built T d nonzero n ->
  exists l, nsize n = length l /\ lists l (fun i => in_tree T i /\ stored T n i <> None).
Proof.
  intros A T d nonzero n HT B. destruct (size_nodes T n HT (built_height T d nonzero n HT B)) as (l & E & L). exists l. split; [symmetry; exact E|exact L].
Qed.
Theorem C54_has_node : forall (A : Type) T (n : node A) i, nd_hasNode T n i = true <-> stored T n i <> None.
Proof. intros A T n i. unfold nd_hasNode, stored. destruct (nd_getNode T n i); cbn [option_map]; split; intros H; congruence || discriminate. Qed.

(** C54: the same for the hashed octree. Its indices range over the whole of space. *)
Theorem C54_hash_size : forall (A : Type) T (d : A) m, 0 <= T <= 21 -> bh_built T d m ->
  exists l, bh_size m = length l /\ lists l (fun i => 0 <= oh i <= T /\ bh_getValue T m i <> None).
Proof.
  intros A T d m HT B. destruct (bh_built_inv T d m HT B) as (W & Hn). clear B.
  destruct (C54_hash_index T) as (I1 & I2).
  assert (forall m' : shash (node A), NoDup (keys m') -> (forall k b, In (k, b) m' -> nheight (Z.to_nat T) b) ->
    exists l, bh_size m' = length l /\ lists l (fun i => 0 <= oh i <= T /\ exists k b, In (k, b) m' /\ bh_blockIndex T i = k /\ stored T b (bh_cellIndex T i) <> None)) as G.
  { clear m W Hn. intros m. induction m as [|(k, b) m IH]; intros W Hn.
    - exists []. split; [reflexivity|]. split; [constructor|]. intros i. split; [intros []|]. intros (_ & k & b & [] & _).
    - inversion W as [|? ? Nk W']; subst. destruct (IH W') as (l & E & ND & M); [intros; eapply Hn; right; eassumption|].
      destruct (size_nodes T b HT (Hn k b (or_introl eq_refl))) as (lb & Eb & NDb & Mb).
      exists (map (bh_index T k) lb ++ l). split; [unfold bh_size in *; cbn [map list_sum fold_right snd]; rewrite app_length, map_length; unfold list_sum in *; lia|].
      assert (forall c, In c lb -> in_tree T c) as Tb by (intros c Hc; apply Mb in Hc; tauto).
      split.
      + apply NoDup_app_disj; [|exact ND|].
        * clear - NDb Tb I2. induction NDb as [|c cs N _ IHc]; [constructor|]. cbn [map]. constructor.
          -- intros X. apply in_map_iff in X as (c' & Ec & X). apply N.
             destruct (I2 k c (Tb c (or_introl eq_refl))) as (_ & E1). destruct (I2 k c' (Tb c' (or_intror X))) as (_ & E2).
             rewrite <- E1, <- Ec, E2. exact X.
          -- apply IHc. intros c' Hc'. apply Tb. right. exact Hc'.
        * intros x X Y. apply in_map_iff in X as (c & <- & X). apply M in Y as (_ & k' & b' & Ik & Ek & _).
          destruct (I2 k c (Tb c X)) as (E1 & _). apply Nk. rewrite <- E1, Ek. apply (in_map fst) in Ik. exact Ik.
      + intros i. rewrite in_app_iff, in_map_iff. split.
        * intros [(c & <- & X)|X].
          -- pose proof (Tb c X) as Tc. destruct (I2 k c Tc) as (E1 & E2). apply Mb in X as (_ & X). split; [destruct Tc; assumption|].
             exists k, b. rewrite E1, E2. split; [left; reflexivity|]. split; [reflexivity|exact X].
          -- apply M in X as (Hi & k' & b' & X & Y). split; [exact Hi|]. exists k', b'. split; [right; exact X|exact Y].
        * intros (Hi & k' & b' & [X|X] & Ek & S).
          -- injection X as <- <-. left. exists (bh_cellIndex T i). destruct (I1 i Hi) as (E1 & Ti). rewrite Ek in E1. split; [exact E1|]. apply Mb. split; assumption.
          -- right. apply M. split; [exact Hi|]. exists k', b'. split; [exact X|]. split; assumption. }
  destruct (G m W Hn) as (l & E & ND & M). exists l. split; [exact E|]. split; [exact ND|]. intros i. rewrite M. split.
  - intros (Hi & k & b & X & Ek & S). split; [exact Hi|]. rewrite bh_value_eq by exact Hi. rewrite Ek.
    rewrite (In_getBlock m k b W X). exact S.
  - intros (Hi & S). split; [exact Hi|]. rewrite bh_value_eq in S by exact Hi.
    destruct (getBlock m (bh_blockIndex T i)) as [b|] eqn:E'; [|contradiction]. exists (bh_blockIndex T i), b.
    split; [apply getBlock_In; exact E'|]. split; [reflexivity|exact S].
Qed.
Theorem C54_hash_has : forall (A : Type) T (m : shash (node A)) i, bh_hasValue T m i = true <-> bh_getValue T m i <> None.
Proof. intros A T m i. unfold bh_hasValue, bh_getValue. destruct (bh_getNode T m i); cbn [option_map]; split; intros H; congruence || discriminate. Qed.

Example C54_size_ex : nsize ex_t = 4%nat /\ bh_size ex_m = 3%nat /\ map (nd_hasNode 3 ex_t) [ex_i1; OI 0 (I3 5 2 6)] = [true; false] /\
  map (bh_hasValue 2 ex_m) [OI 0 (I3 (-3) 6 1); OI 0 (I3 1 6 1)] = [true; false].
Proof. vm_compute. auto. Qed.
Print Assumptions C54_size.
Print Assumptions C54_has_node.
Print Assumptions C54_hash_size.
Print Assumptions C54_hash_has.

(** ** C29: the bounds of a classified map *)
(** The cell range given by getMinIndex and getMaxIndex contains the cells of all allocated blocks, and no smaller range does. *)
Theorem C29_bounds : forall (V : Type) (C : wconfig (V := V)) cm, 0 <= cT C -> cm <> [] -> (forall i, In i (map fst cm) -> i32_index i) ->
  let allocated x := hasBlock cm (imap (fun c => c / 2 ^ cT C) x) = true in
  forall ax, In ax [px; py; pz] ->
  (forall x, allocated x -> ax (cm_minIndex C cm) <= ax x <= ax (cm_maxIndex C cm)) /\
  (exists x y, allocated x /\ allocated y /\ ax x = ax (cm_minIndex C cm) /\ ax y = ax (cm_maxIndex C cm)).
Proof.
  intros V C cm HT Hne Hk allocated ax Hax. destruct (C52_block_bounds _ cm Hne Hk) as (B & A).
  assert (P : 0 < 2 ^ cT C) by (apply Z.pow_pos_nonneg; lia). set (e := 2 ^ cT C) in *.
  assert (Emin : forall ax, In ax [px; py; pz] -> ax (cm_minIndex C cm) = e * ax (getMinBlockIndex cm)).
  { intros a Ha. unfold cm_minIndex. rewrite exp2_pow by lia. fold e. destruct Ha as [<-|[<-|[<-|[]]]]; reflexivity. }
  assert (Emax : forall ax, In ax [px; py; pz] -> ax (cm_maxIndex C cm) = e * (ax (getMaxBlockIndex cm) + 1) - 1).
  { intros a Ha. unfold cm_maxIndex. destruct cm as [|kb cm]; [congruence|]. rewrite exp2_pow by lia. fold e. destruct Ha as [<-|[<-|[<-|[]]]]; reflexivity. }
  assert (Ein : forall x, allocated x -> forall ax, In ax [px; py; pz] -> ax (getMinBlockIndex cm) <= ax x / e <= ax (getMaxBlockIndex cm)).
  { intros x Hx a Ha. apply hasBlock_keys in Hx. apply B in Hx. fold e in Hx. unfold imap in Hx. cbn [px py pz] in Hx.
    destruct Ha as [<-|[<-|[<-|[]]]]; lia. }
  rewrite Emin, Emax by exact Hax. split.
  - intros x Hx. specialize (Ein x Hx ax Hax). pose proof (Z.div_mod (ax x) e ltac:(lia)). pose proof (Z.mod_pos_bound (ax x) e P). nia.
  - destruct (A ax Hax) as (i & j & Ii & Ij & Ei & Ej).
    exists (imap (fun c => e * c) i), (imap (fun c => e * (c + 1) - 1) j).
    assert (forall c, e * c / e = c) as D1 by (intros c; rewrite Z.mul_comm; apply Z.div_mul; lia).
    assert (forall c, (e * (c + 1) - 1) / e = c) as D2.
    { intros c. replace (e * (c + 1) - 1) with ((e - 1) + c * e) by lia. rewrite Z.div_add by lia. rewrite Z.div_small by lia. reflexivity. }
    unfold allocated. fold e. rewrite !hasBlock_keys. unfold keys. destruct i as [i1 i2 i3], j as [j1 j2 j3]. unfold imap. cbn [px py pz]. rewrite !D1, !D2.
    split; [exact Ii|]. split; [exact Ij|]. rewrite <- Ei, <- Ej. destruct Hax as [<-|[<-|[<-|[]]]]; cbn [px py pz]; split; reflexivity.
Qed.
Example C29_bounds_ex : let C := WC (V := Z) 3 0 10 in let n := Node cd0 None in
  cm_minIndex C [(I3 0 5 (-7), n); (I3 (-3) 9 2, n)] = I3 (-24) 40 (-56) /\ cm_maxIndex C [(I3 0 5 (-7), n); (I3 (-3) 9 2, n)] = I3 7 79 23.
Proof. vm_compute. auto. Qed.
Print Assumptions C29_bounds.

(** ** C56: the times of a point cloud *)
(** The times are those of the earliest point, of a middle point and of the latest point: at most half of the points are earlier than the
    median time and at most half of them are later. *)
Definition points_that {P} (p : spoint P -> bool) (c : scloud P) : Z := Z.of_nat (length (filter p (sc_points c))).
Lemma sorted_nth {P} (l : list (spoint P)) k p : in_time_order l -> nth_error l k = Some p ->
  Forall (fun x => sp_off x <= sp_off p) (firstn k l) /\ Forall (fun x => sp_off p <= sp_off x) (skipn k l).
Proof.
  intros S. revert k. induction S as [|a l S IH F]; intros [|k] E; cbn [nth_error firstn skipn] in *; try discriminate.
  - injection E as <-. split; [constructor|]. constructor; [lia|exact F].
  - destruct (IH k E) as (L & R). split; [|exact R]. constructor; [|exact L]. rewrite Forall_forall in F. apply F. eapply nth_error_In; exact E.
Qed.
Lemma filter_none {X} (f : X -> bool) l : Forall (fun x => f x = false) l -> filter f l = [].
Proof. induction 1 as [|x l H _ IH]; [reflexivity|]. cbn [filter]. rewrite H. exact IH. Qed.
Lemma filter_le {X} (f : X -> bool) l : (length (filter f l) <= length l)%nat.
Proof. induction l as [|x l IH]; cbn [filter length]; [lia|]. destruct (f x); cbn [length]; lia. Qed.
Lemma filter_perm {X} (f : X -> bool) (l l' : list X) : Permutation l l' -> length (filter f l) = length (filter f l').
Proof. induction 1 as [|x l l' _ IH|x y l|l l1 l2 _ IH1 _ IH2]; cbn [filter]; [reflexivity|destruct (f x)|destruct (f x), (f y)|]; cbn [length]; lia. Qed.
Theorem C56_times : forall (P : Type) srt (c : scloud P), sorts srt -> cloud_ok c ->
  let earlier p := points_that (fun q => sp_off q <? sp_off p) c in
  let later p := points_that (fun q => sp_off p <? sp_off q) c in
  let n := Z.of_nat (length (sc_points c)) in
  exists first mid last, (In first (sc_points c) /\ In mid (sc_points c) /\ In last (sc_points c)) /\
    getStartTime srt c = Some (point_time c first) /\ earlier first = 0 /\
    getMedianTime srt c = Some (point_time c mid) /\ 2 * earlier mid <= n /\ 2 * later mid <= n /\
    getEndTime srt c = Some (point_time c last) /\ later last = 0.
Proof.
  intros P srt c Hs (Hne & Hb & Ho & Hr & Hsd) earlier later n.
  assert (exists l, sc_points (sc_sort srt c) = l /\ Permutation (sc_points c) l /\ in_time_order l) as (l & El & Pl & Sl).
  { unfold sc_sort. destruct (sc_sorted c) eqn:E; [exists (sc_points c)|exists (srt (sc_points c))]; (split; [reflexivity|]); [split; [reflexivity|apply Hsd; reflexivity]|apply Hs]. }
  assert (Lb : sc_base (sc_sort srt c) = sc_base c) by (unfold sc_sort; destruct (sc_sorted c); reflexivity).
  pose proof (Permutation_length Pl) as Ln.
  assert (G : forall k, (k < length l)%nat -> exists p, In p (sc_points c) /\ time_at (sc_sort srt c) k = Some (point_time c p) /\
    earlier p <= Z.of_nat k /\ later p <= n - 1 - Z.of_nat k).
  { intros k Hk. destruct (nth_error l k) as [p|] eqn:E; [|apply nth_error_None in E; lia]. exists p.
    assert (Ip : In p (sc_points c)) by (apply (Permutation_in p (Permutation_sym Pl)); eapply nth_error_In; exact E).
    split; [exact Ip|]. split; [unfold time_at; rewrite El, E, Lb; cbn [option_map]; unfold point_time; rewrite u64_id; [reflexivity|specialize (Ho p Ip); lia]|].
    destruct (sorted_nth l k p Sl E) as (F1 & F2).
    unfold earlier, later, points_that, n. rewrite !(filter_perm _ _ _ Pl), Ln.
    assert (D : l = firstn k l ++ skipn k l) by (symmetry; apply firstn_skipn).
    assert (D2 : exists r, skipn k l = p :: r).
    { clear - E. revert l E. induction k as [|k IH]; intros [|a l] E; cbn in *; try discriminate; [injection E as ->; eexists; reflexivity|apply IH; exact E]. }
    destruct D2 as (r & D2). pose proof (firstn_length k l) as FL. pose proof (skipn_length k l) as SL. rewrite D2 in SL, F2, D. cbn [length] in SL.
    split.
    - rewrite D, filter_app. rewrite (filter_none _ (p :: r)) by (eapply Forall_impl; [|exact F2]; intros a Ha; cbn beta in *; lia).
      rewrite app_nil_r. pose proof (filter_le (fun q => sp_off q <? sp_off p) (firstn k l)). lia.
    - rewrite D at 1. rewrite filter_app. rewrite (filter_none _ (firstn k l)) by (eapply Forall_impl; [|exact F1]; intros a Ha; cbn beta in *; lia).
      cbn [app filter]. rewrite Z.ltb_irrefl. pose proof (filter_le (fun q => sp_off p <? sp_off q) r). lia. }
  assert (Hl : (0 < length l)%nat) by (rewrite <- Ln; destruct (sc_points c); [congruence|cbn [length]; lia]).
  destruct (G 0%nat Hl) as (a & Ia & Ta & Ea & _). destruct (G (length (sc_points c) / 2)%nat) as (m & Im & Tm & Em & Lm); [rewrite Ln; apply Nat.div_lt; lia|].
  destruct (G (length (sc_points c) - 1)%nat) as (z & Iz & Tz & _ & Lz); [lia|].
  exists a, m, z. split; [auto|]. split; [exact Ta|]. split; [unfold earlier, points_that in *; lia|]. split; [exact Tm|].
  rewrite Nat2Z.inj_div in Em, Lm. fold n in Em, Lm. change (Z.of_nat 2) with 2 in *.
  pose proof (Z.div_mod n 2 ltac:(lia)). pose proof (Z.mod_pos_bound n 2 ltac:(lia)).
  split; [lia|]. split; [lia|]. split; [exact Tz|]. unfold later, points_that, n in *. lia.
Qed.
Example C56_times_ex : let c := SC 1000 [SP 7 30; SP 8 10; SP 9 20; SP 10 20; SP 11 50] false in
  cloud_ok c /\ getStartTime isort c = Some 1010 /\ getMedianTime isort c = Some 1020 /\ getEndTime isort c = Some 1050.
Proof.
  split; [|vm_compute; auto]. unfold cloud_ok. cbn [sc_points sc_base sc_sorted]. split; [discriminate|]. split; [lia|].
  split; [|split; [lia|discriminate]]. intros p [<-|[<-|[<-|[<-|[<-|[]]]]]]; cbn [sp_off]; lia.
Qed.
Print Assumptions C56_times.

(** ** C06: inner nodes and leaves of a perfect tree *)
Theorem C06_inner_and_leaves : forall dim h, 1 <= dim -> 0 <= h -> dim * (h + 1) <= 63 ->
  num_inner_nodes dim (h + 1) + num_leaf_nodes dim (h + 1) = num_total_nodes dim (h + 1) /\
  num_leaf_nodes dim (h + 1) = (2 ^ dim) ^ h.
Proof.
  intros dim h Hd Hh Hb. unfold num_inner_nodes, num_leaf_nodes. replace (h + 1 - 1) with h by lia.
  rewrite <- (Z2Nat.id h) by lia. replace (Z.of_nat (Z.to_nat h) + 1) with (Z.of_nat (S (Z.to_nat h))) by lia.
  rewrite !num_total_nodes_geo by nia. rewrite exp2_pow by nia. rewrite Z.pow_mul_r by lia. split; [|reflexivity].
  clear. generalize (2 ^ dim) (Z.to_nat h). intros b k. induction k as [|k IH]; [cbn [geo]; change (b ^ Z.of_nat 0) with 1; lia|].
  rewrite Nat2Z.inj_succ, Z.pow_succ_r by lia. change (geo b (S (S k))) with (1 + b * geo b (S k)). change (geo b (S k)) with (1 + b * geo b k) at 1. nia.
Qed.
Example C06_inner_ex : num_inner_nodes 3 4 = 73 /\ num_leaf_nodes 3 4 = 512.
Proof. split; reflexivity. Qed.
Print Assumptions C06_inner_and_leaves.

(** ** C53: the height of a chunked octree *)
(** The constructor rounds the height up to the next multiple of the chunk height. *)
Theorem C53_height : forall H max_height, 0 < H -> 0 <= max_height ->
  (H | ct_max_height H max_height) /\ max_height <= ct_max_height H max_height /\
  forall T, (H | T) -> max_height <= T -> ct_max_height H max_height <= T.
Proof.
  intros H mh HH Hm. unfold ct_max_height. destruct (div_round_up_spec mh H Hm HH) as (A & B). split; [exists (div_round_up mh H); lia|].
  split; [exact B|]. intros T (k & ->) Hk. assert (H * (div_round_up mh H - 1) < H * k) as L by lia. apply Z.mul_lt_mono_pos_l in L; [|exact HH].
  rewrite (Z.mul_comm k H). apply Z.mul_le_mono_nonneg_l; lia.
Qed.
Example C53_height_ex : map (ct_max_height 3) [0; 1; 3; 7; 14] = [0; 3; 3; 9; 15].
Proof. reflexivity. Qed.
Print Assumptions C53_height.
