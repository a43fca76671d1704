(** Facts about chunked octrees, along paths of child indices. *)
From Verif Require Import Base M_IntMath F_IntMath M_Morton F_Morton M_NdtreeIndex F_NdtreeIndex
  M_Num F_Num M_Haar F_Haar M_Haar3 F_Haar3 M_Ndtree M_Wavelet F_Wavelet M_Octree F_Octree M_Chunked.
Open Scope Z_scope.

(** ** Indices within a chunk *)
Definition nodes (d : Z) : Z := (8 ^ d - 1) / 7.
Lemma nodes_7 d : 0 <= d -> 7 * nodes d = 8 ^ d - 1.
Proof.
  intros Hd. unfold nodes. assert (E : exists k, 8 ^ d - 1 = k * 7).
  { pattern d. apply natlike_ind; [exists 0; reflexivity| |assumption]. intros x Hx [k Hk]. exists (8 * k + 1).
    rewrite Z.pow_succ_r by assumption. lia. }
  destruct E as [k ->]. rewrite Z.div_mul by lia. lia.
Qed.
Lemma nodes_succ d : 0 <= d -> nodes (d + 1) = nodes d + 8 ^ d.
Proof.
  intros Hd. pose proof (nodes_7 d Hd). pose proof (nodes_7 (d + 1) ltac:(lia)).
  rewrite Z.pow_add_r in * by lia. lia.
Qed.
Lemma nodes_mono a b : 0 <= a -> a + 1 <= b -> nodes a + 8 ^ a <= nodes b.
Proof.
  intros Ha Hab. rewrite <- nodes_succ by assumption.
  pose proof (nodes_7 (a + 1) ltac:(lia)). pose proof (nodes_7 b ltac:(lia)).
  pose proof (Z.pow_le_mono_r 8 (a + 1) b ltac:(lia) ltac:(lia)). lia.
Qed.
(** The shift of num_total_nodes_fast gives the number of nodes above depth [d]. *)
Lemma fast_nodes d : 0 <= d <= 20 -> level_offset d = nodes d.
Proof.
  intros Hd. assert (E : forall n, (n <= 20)%nat -> level_offset (Z.of_nat n) = nodes (Z.of_nat n)).
  { intros n Hn. do 21 (destruct n as [|n]; [vm_compute; reflexivity|]). lia. }
  rewrite <- (Z2Nat.id d) by lia. apply E. lia.
Qed.
Lemma total_nodes_spec d : 0 <= d <= 20 -> num_total_nodes 3 d = nodes d.
Proof.
  intros Hd. assert (E : forall n, (n <= 20)%nat -> num_total_nodes 3 (Z.of_nat n) = nodes (Z.of_nat n)).
  { intros n Hn. do 21 (destruct n as [|n]; [vm_compute; reflexivity|]). lia. }
  rewrite <- (Z2Nat.id d) by lia. apply E. lia.
Qed.
Lemma leaf_nodes_spec d : 1 <= d -> num_leaf_nodes 3 d = 8 ^ (d - 1).
Proof. intros Hd. unfold num_leaf_nodes. rewrite exp2_pow by lia. rewrite Z.pow_mul_r by lia. reflexivity. Qed.
Lemma childDist_spec l c : 0 <= l -> 0 <= c < 8 -> nr_childDist l c = 8 * l + c.
Proof.
  intros Hl Hc. unfold nr_childDist. rewrite Z.shiftl_mul_pow2 by lia. change (2 ^ 3) with 8.
  rewrite Z.add_nocarry_lxor.
  2:{ apply Z.bits_inj'. intros j Hj. rewrite Z.land_spec, Z.bits_0. replace (8 * l) with (Z.shiftl l 3) by (rewrite Z.shiftl_mul_pow2 by lia; lia).
      rewrite Z.shiftl_spec by assumption. destruct (Z_lt_le_dec j 3).
      - rewrite Z.testbit_neg_r by lia. reflexivity.
      - rewrite <- (Z.mod_small c (2 ^ 3)) by (change (2 ^ 3) with 8; lia). rewrite Z.mod_pow2_bits_high by lia. apply andb_false_r. }
  rewrite Z.lxor_lor.
  - f_equal. lia.
  - apply Z.bits_inj'. intros j Hj. rewrite Z.land_spec, Z.bits_0. replace (8 * l) with (Z.shiftl l 3) by (rewrite Z.shiftl_mul_pow2 by lia; lia).
    rewrite Z.shiftl_spec by assumption. destruct (Z_lt_le_dec j 3).
    + rewrite Z.testbit_neg_r by lia. reflexivity.
    + rewrite <- (Z.mod_small c (2 ^ 3)) by (change (2 ^ 3) with 8; lia). rewrite Z.mod_pow2_bits_high by lia. apply andb_false_r.
Qed.

(** Base-8 digits, most significant first *)
Fixpoint digits (k : nat) (l : Z) : list Z :=
  match k with O => [] | S k' => (l / 8 ^ Z.of_nat k') mod 8 :: digits k' l end.
Lemma digits_length k l : length (digits k l) = k.
Proof. induction k; cbn [digits length]; congruence. Qed.
Lemma digits_snoc k : forall l c, 0 <= c < 8 -> digits (S k) (8 * l + c) = digits k l ++ [c].
Proof.
  induction k as [|k IH]; intros l c Hc.
  - cbn [digits app Z.of_nat]. change (8 ^ 0) with 1. rewrite Z.div_1_r. f_equal. Z.div_mod_to_equations. lia.
  - change (digits (S (S k)) (8 * l + c)) with (((8 * l + c) / 8 ^ Z.of_nat (S k)) mod 8 :: digits (S k) (8 * l + c)).
    rewrite IH by assumption. cbn [digits app]. f_equal. f_equal.
    rewrite Nat2Z.inj_succ, Z.pow_succ_r by lia. rewrite <- Z.div_div by (try lia; apply Z.pow_pos_nonneg; lia).
    f_equal. Z.div_mod_to_equations. lia.
Qed.
Lemma firstn_digits j : forall k l, firstn j (digits (j + k) l) = digits j (l / 8 ^ Z.of_nat k).
Proof.
  induction j as [|j IH]; intros k l; [reflexivity|].
  cbn [Nat.add digits firstn]. rewrite IH. f_equal. f_equal.
  rewrite Z.div_div by (try apply Z.pow_nonzero; try lia; apply Z.pow_pos_nonneg; lia).
  rewrite <- Z.pow_add_r by lia. f_equal. f_equal. lia.
Qed.
Lemma digits_valid k l : valid_path (digits k l).
Proof. induction k; constructor; [apply Z.mod_pos_bound; lia|assumption]. Qed.

Section CHUNKED.
Context {A : Type} (zero : A) (H : Z) (HH : 1 <= H <= 20).
Notation chunkA := (chunk A).
Notation step := (nr_step H).
Definition addr (q : list Z) : nref := fold_left step q nr_root.
Lemma addr_snoc q c : addr (q ++ [c]) = step (addr q) c.
Proof. unfold addr. rewrite fold_left_app. reflexivity. Qed.
Definition ref_ok (r : nref) : Prop :=
  Forall (fun i => 0 <= i < 8 ^ H) (nchunk r) /\ 0 <= ndepth r < H /\ 0 <= ndist r < 8 ^ ndepth r.
Lemma pow8_pos d : 0 <= d -> 0 < 8 ^ d.
Proof. intros. apply Z.pow_pos_nonneg; lia. Qed.
Lemma step_ok r c : ref_ok r -> 0 <= c < 8 -> ref_ok (step r c).
Proof.
  intros (HP & Hd & Hl) Hc. unfold nr_step. rewrite childDist_spec by lia.
  assert (B : 0 <= 8 * ndist r + c < 8 ^ (ndepth r + 1)) by (rewrite Z.pow_add_r by lia; lia).
  destruct (Z.eqb_spec (ndepth r + 1) H) as [E|E]; unfold ref_ok; cbn [nchunk ndepth ndist].
  - split; [|split; [lia|cbn; lia]]. apply Forall_app. split; [assumption|]. constructor; [|constructor]. rewrite <- E. exact B.
  - split; [assumption|]. split; [lia|exact B].
Qed.
Lemma root_ok : ref_ok nr_root.
Proof. split; [constructor|]. cbn. lia. Qed.
Lemma addr_ok q : valid_path q -> ref_ok (addr q).
Proof.
  induction q as [|c q IH] using rev_ind; intros Hq; [apply root_ok|].
  apply Forall_app in Hq as [Hq Hc]. inversion Hc; subst. rewrite addr_snoc. apply step_ok; auto.
Qed.

(** The path a reference stands for *)
Definition decode (r : nref) : list Z :=
  concat (map (digits (Z.to_nat H)) (nchunk r)) ++ digits (Z.to_nat (ndepth r)) (ndist r).
Lemma decode_step r c : ref_ok r -> 0 <= c < 8 -> decode (step r c) = decode r ++ [c].
Proof.
  intros (HP & Hd & Hl) Hc. unfold nr_step, decode. rewrite childDist_spec by lia.
  assert (E1 : Z.to_nat (ndepth r + 1) = S (Z.to_nat (ndepth r))) by lia.
  destruct (Z.eqb_spec (ndepth r + 1) H) as [E|E]; cbn [nchunk ndepth ndist].
  - rewrite map_app, concat_app. cbn [map concat]. rewrite app_nil_r. cbn [Z.to_nat digits]. rewrite app_nil_r.
    rewrite <- E, E1, digits_snoc by assumption. rewrite app_assoc. reflexivity.
  - rewrite E1, digits_snoc by assumption. rewrite app_assoc. reflexivity.
Qed.
Lemma decode_addr q : valid_path q -> decode (addr q) = q.
Proof.
  induction q as [|c q IH] using rev_ind; intros Hq; [reflexivity|].
  apply Forall_app in Hq as [Hq Hc]. inversion Hc; subst. rewrite addr_snoc, decode_step by (try apply addr_ok; assumption).
  rewrite IH by assumption. reflexivity.
Qed.
Lemma addr_inj q q' : valid_path q -> valid_path q' -> addr q = addr q' -> q = q'.
Proof. intros H1 H2 E. rewrite <- (decode_addr q), <- (decode_addr q'), E by assumption. reflexivity. Qed.

Lemma index_inj d l d' l' : 0 <= d < H -> 0 <= l < 8 ^ d -> 0 <= d' < H -> 0 <= l' < 8 ^ d' ->
  nr_index d l = nr_index d' l' -> d = d' /\ l = l'.
Proof.
  intros Hd Hl Hd' Hl' E. unfold nr_index in E. rewrite !fast_nodes in E by lia.
  destruct (Z.lt_trichotomy d d') as [L|[L|L]].
  - pose proof (nodes_mono d d' ltac:(lia) ltac:(lia)). lia.
  - subst d'. lia.
  - pose proof (nodes_mono d' d ltac:(lia) ltac:(lia)). lia.
Qed.
Lemma index_range d l : 0 <= d < H -> 0 <= l < 8 ^ d -> 0 <= nr_index d l < num_total_nodes 3 H.
Proof.
  intros Hd Hl. unfold nr_index. rewrite fast_nodes, total_nodes_spec by lia.
  pose proof (nodes_mono d H ltac:(lia) ltac:(lia)). pose proof (nodes_7 d ltac:(lia)). pose proof (pow8_pos d). lia.
Qed.

(** References below child [c] of [r] *)
Definition under (r : nref) (c : Z) (r' : nref) : Prop :=
  (nchunk r' = nchunk r /\ ndepth r + 1 <= ndepth r' /\ ndist r' / 8 ^ (ndepth r' - (ndepth r + 1)) = 8 * ndist r + c) \/
  (exists k R, nchunk r' = nchunk r ++ k :: R /\ k / 8 ^ (H - (ndepth r + 1)) = 8 * ndist r + c).
Lemma under_step r c r' e : ref_ok r -> ref_ok r' -> 0 <= e < 8 -> under r c r' -> under r c (step r' e).
Proof.
  intros (_ & Hd & Hl) (_ & Hd' & Hl') He [(EP & L & E)|(k & R & EP & E)]; unfold nr_step; rewrite childDist_spec by lia.
  - assert (E' : (8 * ndist r' + e) / 8 ^ (ndepth r' + 1 - (ndepth r + 1)) = 8 * ndist r + c).
    { replace (ndepth r' + 1 - (ndepth r + 1)) with (Z.succ (ndepth r' - (ndepth r + 1))) by lia.
      rewrite Z.pow_succ_r by lia. rewrite <- Z.div_div by (try lia; apply pow8_pos; lia).
      replace ((8 * ndist r' + e) / 8) with (ndist r') by (Z.div_mod_to_equations; lia). exact E. }
    destruct (Z.eqb_spec (ndepth r' + 1) H) as [EH|EH]; [right|left]; cbn [nchunk ndepth ndist].
    + exists (8 * ndist r' + e), []. rewrite EP. split; [reflexivity|]. rewrite <- EH. exact E'.
    + split; [assumption|]. split; [lia|exact E'].
  - right. destruct (ndepth r' + 1 =? H); cbn [nchunk].
    + exists k, (R ++ [8 * ndist r' + e]). rewrite EP, <- app_assoc. split; [reflexivity|exact E].
    + exists k, R. split; [exact EP|exact E].
Qed.
Lemma under_child r c : ref_ok r -> 0 <= c < 8 -> under r c (step r c).
Proof.
  intros (_ & Hd & Hl) Hc. unfold nr_step. rewrite childDist_spec by lia.
  destruct (Z.eqb_spec (ndepth r + 1) H) as [EH|EH]; [right|left]; cbn [nchunk ndepth ndist].
  - exists (8 * ndist r + c), []. split; [reflexivity|]. rewrite <- EH, Z.sub_diag. change (8 ^ 0) with 1. apply Z.div_1_r.
  - split; [reflexivity|]. split; [lia|]. rewrite Z.sub_diag. change (8 ^ 0) with 1. apply Z.div_1_r.
Qed.
Lemma firstn_concat r : decode (NR (nchunk r) 0 0) = concat (map (digits (Z.to_nat H)) (nchunk r)).
Proof. unfold decode. cbn [nchunk ndepth ndist Z.to_nat digits]. apply app_nil_r. Qed.
Lemma under_prefix q c q' : valid_path q -> 0 <= c < 8 -> valid_path q' ->
  (under (addr q) c (addr q') <-> exists s, q' = q ++ c :: s).
Proof.
  intros Hq Hc Hq'. split.
  - intros U. pose proof (addr_ok q Hq) as (_ & Hd & Hl). pose proof (addr_ok q' Hq') as (_ & Hd' & Hl').
    pose proof (decode_addr q Hq) as Dq. rewrite <- (decode_addr q' Hq').
    set (r := addr q) in *. set (r' := addr q') in *.
    assert (Dd : digits (S (Z.to_nat (ndepth r))) (8 * ndist r + c) = digits (Z.to_nat (ndepth r)) (ndist r) ++ [c])
      by (apply digits_snoc; assumption).
    destruct U as [(EP & L & E)|(k & R & EP & E)].
    + unfold decode. rewrite EP.
      replace (Z.to_nat (ndepth r')) with (S (Z.to_nat (ndepth r)) + Z.to_nat (ndepth r' - (ndepth r + 1)))%nat by lia.
      set (dd := digits (S (Z.to_nat (ndepth r)) + Z.to_nat (ndepth r' - (ndepth r + 1))) (ndist r')).
      exists (skipn (S (Z.to_nat (ndepth r))) dd). rewrite <- (firstn_skipn (S (Z.to_nat (ndepth r))) dd) at 1.
      unfold dd at 1. rewrite firstn_digits, Z2Nat.id by lia. rewrite E, Dd, <- Dq. unfold decode. rewrite <- !app_assoc. reflexivity.
    + assert (Ek : digits (Z.to_nat H) k = (digits (Z.to_nat (ndepth r)) (ndist r) ++ [c]) ++ skipn (S (Z.to_nat (ndepth r))) (digits (Z.to_nat H) k)).
      { rewrite <- Dd, <- E. rewrite <- (firstn_skipn (S (Z.to_nat (ndepth r))) (digits (Z.to_nat H) k)) at 1. f_equal.
        replace (Z.to_nat H) with (S (Z.to_nat (ndepth r)) + Z.to_nat (H - (ndepth r + 1)))%nat by lia.
        rewrite firstn_digits, Z2Nat.id by lia. reflexivity. }
      exists (skipn (S (Z.to_nat (ndepth r))) (digits (Z.to_nat H) k) ++ concat (map (digits (Z.to_nat H)) R) ++ digits (Z.to_nat (ndepth r')) (ndist r')).
      rewrite <- Dq. unfold decode. rewrite EP, map_app, concat_app. cbn [map concat]. rewrite Ek at 1. rewrite <- !app_assoc. reflexivity.
  - intros [s ->]. induction s as [|e s IH] using rev_ind.
    + rewrite addr_snoc. apply under_child; [apply addr_ok; assumption|assumption].
    + replace (q ++ c :: s ++ [e]) with ((q ++ c :: s) ++ [e]) in * by (rewrite <- app_assoc; reflexivity).
      apply Forall_app in Hq' as [Hq' He]. inversion He; subst. rewrite addr_snoc.
      apply under_step; try assumption; [apply addr_ok; assumption|apply addr_ok; assumption|apply IH; assumption].
Qed.

(** ** Contents of a chunk tree *)
Definition cell_at (i : Z) (ch : chunkA) : A * bool := (cdata ch i, cbits ch i).
Definition view (root : chunkA) (r : nref) : option (A * bool) :=
  option_map (cell_at (nr_index (ndepth r) (ndist r))) (chunk_at (nchunk r) root).
Definition dat (root : chunkA) (q : list Z) : A := nr_data zero root (addr q).
Definition bit (root : chunkA) (q : list Z) : bool := nr_bit root (addr q).
Definition present (root : chunkA) (q : list Z) : Prop := exists ch, chunk_at (nchunk (addr q)) root = Some ch.
Lemma view_data root r : nr_data zero root r = match view root r with Some x => fst x | None => zero end.
Proof. unfold nr_data, view. destruct (chunk_at _ _); reflexivity. Qed.
Lemma view_bit root r : nr_bit root r = match view root r with Some x => snd x | None => false end.
Proof. unfold nr_bit, view. destruct (chunk_at _ _); reflexivity. Qed.

Lemma chunk_at_app P : forall Q (ch : chunkA), chunk_at (P ++ Q) ch = match chunk_at P ch with None => None | Some c => chunk_at Q c end.
Proof.
  induction P as [|i P IH]; intros Q ch; cbn [app chunk_at]; [reflexivity|].
  destruct (chunk_getChild ch i); [apply IH|reflexivity].
Qed.
Lemma getChild_setChild' (ch : chunkA) i c j k : ckids ch = Some k ->
  chunk_getChild (chunk_setChild ch i c) j = if j =? i then c else k j.
Proof. intros E. unfold chunk_setChild, chunk_getChild. rewrite E. cbn [ckids]. unfold fset. reflexivity. Qed.
Lemma chunk_at_upd_same P : forall Q f (ch c : chunkA), chunk_at P ch = Some c ->
  chunk_at (P ++ Q) (chunk_upd P f ch) = chunk_at Q (f c).
Proof.
  induction P as [|i P IH]; intros Q f ch c; cbn [app chunk_at chunk_upd]; [intros [= ->]; reflexivity|].
  destruct (chunk_getChild ch i) as [c1|] eqn:E; [|discriminate]. intros E1.
  unfold chunk_getChild in E. destruct (ckids ch) as [k|] eqn:Ek; [|discriminate].
  rewrite (getChild_setChild' _ _ _ _ k Ek). rewrite Z.eqb_refl. apply IH. exact E1.
Qed.
Definition same_cells (a b : option chunkA) : Prop :=
  match a, b with Some x, Some y => cdata x = cdata y /\ cbits x = cbits y | None, None => True | _, _ => False end.
Lemma same_cells_refl a : same_cells a a.
Proof. destruct a; cbn; auto. Qed.
Lemma chunk_at_upd_other P : forall P' f (ch : chunkA), (forall Q, P' <> P ++ Q) ->
  same_cells (chunk_at P' (chunk_upd P f ch)) (chunk_at P' ch).
Proof.
  induction P as [|i P IH]; intros P' f ch Hne; [contradiction (Hne P'); reflexivity|].
  cbn [chunk_upd]. destruct (chunk_getChild ch i) as [c1|] eqn:E; [|apply same_cells_refl].
  unfold chunk_getChild in E. destruct (ckids ch) as [k|] eqn:Ek; [|discriminate].
  destruct P' as [|j P']; cbn [chunk_at].
  - unfold chunk_setChild. rewrite Ek. cbn [same_cells cdata cbits]. auto.
  - rewrite (getChild_setChild' _ _ _ _ k Ek). unfold chunk_getChild at 1. rewrite Ek.
    destruct (Z.eqb_spec j i) as [->|]; [|apply same_cells_refl]. rewrite E. apply IH.
    intros Q EQ. apply (Hne Q). cbn [app]. rewrite EQ. reflexivity.
Qed.
Lemma list_ext_dec (P : list Z) : forall P', {Q | P' = P ++ Q} + {forall Q, P' <> P ++ Q}.
Proof.
  induction P as [|i P IH]; intros P'; [left; exists P'; reflexivity|].
  destruct P' as [|j P']; [right; discriminate|]. destruct (Z.eq_dec j i) as [->|Hne].
  - destruct (IH P') as [[Q ->]|Hn]; [left; exists Q; reflexivity|right; intros Q [= E]; exact (Hn Q E)].
  - right. intros Q [= E _]. contradiction.
Qed.
(** What an update of one chunk does to all nodes *)
Lemma view_upd P f ch c : chunk_at P ch = Some c -> forall r',
  (exists Q, nchunk r' = P ++ Q /\
     view (chunk_upd P f ch) r' = option_map (cell_at (nr_index (ndepth r') (ndist r'))) (chunk_at Q (f c)) /\
     view ch r' = option_map (cell_at (nr_index (ndepth r') (ndist r'))) (chunk_at Q c)) \/
  ((forall Q, nchunk r' <> P ++ Q) /\ view (chunk_upd P f ch) r' = view ch r').
Proof.
  intros E r'. destruct (list_ext_dec P (nchunk r')) as [[Q EQ]|Hn]; [left|right].
  - exists Q. split; [exact EQ|]. unfold view. rewrite EQ. split.
    + rewrite (chunk_at_upd_same P Q f ch c E). reflexivity.
    + rewrite chunk_at_app, E. reflexivity.
  - split; [exact Hn|]. unfold view. pose proof (chunk_at_upd_other P (nchunk r') f ch Hn) as S.
    destruct (chunk_at (nchunk r') (chunk_upd P f ch)) as [x|], (chunk_at (nchunk r') ch) as [y|]; cbn in S; [|contradiction|contradiction|reflexivity].
    destruct S as [S1 S2]. cbn [option_map]. unfold cell_at. rewrite S1, S2. reflexivity.
Qed.
(** Updates that keep the child chunks only change the cells of one chunk. *)
Lemma view_upd_cells P f ch c : chunk_at P ch = Some c -> ckids (f c) = ckids c -> forall r',
  view (chunk_upd P f ch) r' = if list_eq_dec Z.eq_dec (nchunk r') P then Some (cell_at (nr_index (ndepth r') (ndist r')) (f c)) else view ch r'.
Proof.
  intros E Ek r'. destruct (view_upd P f ch c E r') as [(Q & EQ & V1 & V2)|[Hn V1]].
  - rewrite V1. destruct (list_eq_dec Z.eq_dec (nchunk r') P) as [EP|NP].
    + rewrite EP in EQ. rewrite <- (app_nil_r P) in EQ at 1. apply app_inv_head in EQ. subst Q. reflexivity.
    + rewrite V2. destruct Q as [|j Q]; [rewrite app_nil_r in EQ; contradiction|]. cbn [chunk_at].
      unfold chunk_getChild. rewrite Ek. reflexivity.
  - rewrite V1. destruct (list_eq_dec Z.eq_dec (nchunk r') P) as [EP|NP]; [|reflexivity].
    exfalso. apply (Hn []). rewrite app_nil_r. exact EP.
Qed.
Lemma nref_eta r r' : nchunk r = nchunk r' -> ndepth r = ndepth r' -> ndist r = ndist r' -> r = r'.
Proof. destruct r, r'. cbn. intros -> -> ->. reflexivity. Qed.
Lemma nref_eq_dec (r r' : nref) : {r = r'} + {r <> r'}.
Proof. decide equality; [apply Z.eq_dec|apply Z.eq_dec|apply (list_eq_dec Z.eq_dec)]. Qed.
Lemma ref_index r r' : ref_ok r -> ref_ok r' -> nchunk r = nchunk r' ->
  nr_index (ndepth r) (ndist r) = nr_index (ndepth r') (ndist r') -> r = r'.
Proof.
  intros (_ & Hd & Hl) (_ & Hd' & Hl') EP E. destruct (index_inj _ _ _ _ Hd Hl Hd' Hl' E). apply nref_eta; assumption.
Qed.
Lemma view_setData root r d c r' : ref_ok r -> ref_ok r' -> chunk_at (nchunk r) root = Some c ->
  view (nr_setData root r d) r' = if nref_eq_dec r' r then Some (d, nr_bit root r) else view root r'.
Proof.
  intros Hr Hr' E. unfold nr_setData. rewrite (view_upd_cells _ _ _ c E) by reflexivity.
  destruct (nref_eq_dec r' r) as [->|Hne].
  - destruct (list_eq_dec Z.eq_dec (nchunk r) (nchunk r)) as [_|X]; [|contradiction].
    unfold cell_at, chunk_setData, fset. cbn [cdata cbits]. rewrite Z.eqb_refl. unfold nr_bit. rewrite E. reflexivity.
  - destruct (list_eq_dec Z.eq_dec (nchunk r') (nchunk r)) as [EP|_]; [|reflexivity].
    unfold cell_at, chunk_setData, fset. cbn [cdata cbits].
    destruct (Z.eqb_spec (nr_index (ndepth r') (ndist r')) (nr_index (ndepth r) (ndist r))) as [Ei|_].
    + contradiction Hne. apply ref_index; assumption.
    + unfold view. rewrite EP, E. reflexivity.
Qed.
Lemma view_setBit root r b c r' : ref_ok r -> ref_ok r' -> chunk_at (nchunk r) root = Some c ->
  view (nr_setBit root r b) r' = if nref_eq_dec r' r then Some (nr_data zero root r, b) else view root r'.
Proof.
  intros Hr Hr' E. unfold nr_setBit. rewrite (view_upd_cells _ _ _ c E) by reflexivity.
  destruct (nref_eq_dec r' r) as [->|Hne].
  - destruct (list_eq_dec Z.eq_dec (nchunk r) (nchunk r)) as [_|X]; [|contradiction].
    unfold cell_at, chunk_setBit, fset. cbn [cdata cbits]. rewrite Z.eqb_refl. unfold nr_data. rewrite E. reflexivity.
  - destruct (list_eq_dec Z.eq_dec (nchunk r') (nchunk r)) as [EP|_]; [|reflexivity].
    unfold cell_at, chunk_setBit, fset. cbn [cdata cbits].
    destruct (Z.eqb_spec (nr_index (ndepth r') (ndist r')) (nr_index (ndepth r) (ndist r))) as [Ei|_].
    + contradiction Hne. apply ref_index; assumption.
    + unfold view. rewrite EP, E. reflexivity.
Qed.
Lemma view_present root r : view root r <> None <-> exists ch, chunk_at (nchunk r) root = Some ch.
Proof. unfold view. destruct (chunk_at _ _) as [ch|]; cbn; split; try tauto; [eauto|discriminate|]. intros [ch [=]]. Qed.

(** *** Path-level effects *)
Lemma dat_setData root q d q' : valid_path q -> valid_path q' -> present root q ->
  dat (nr_setData root (addr q) d) q' = (if list_eq_dec Z.eq_dec q' q then d else dat root q') /\
  bit (nr_setData root (addr q) d) q' = bit root q' /\
  (present (nr_setData root (addr q) d) q' <-> present root q').
Proof.
  intros Hq Hq' [c E]. unfold dat, bit, present. rewrite <- !view_present, !view_data, !view_bit.
  rewrite (view_setData root (addr q) d c) by (try apply addr_ok; assumption).
  destruct (nref_eq_dec (addr q') (addr q)) as [EA|NA], (list_eq_dec Z.eq_dec q' q) as [EQ|NQ]; cbn [fst snd].
  - split; [reflexivity|]. rewrite EA. unfold nr_bit, view. rewrite E. cbn. split; [reflexivity|]. split; discriminate.
  - contradiction NQ. apply addr_inj; assumption.
  - subst. contradiction.
  - repeat split; auto.
Qed.
Lemma dat_setBit root q b q' : valid_path q -> valid_path q' -> present root q ->
  dat (nr_setBit root (addr q) b) q' = dat root q' /\
  bit (nr_setBit root (addr q) b) q' = (if list_eq_dec Z.eq_dec q' q then b else bit root q') /\
  (present (nr_setBit root (addr q) b) q' <-> present root q').
Proof.
  intros Hq Hq' [c E]. unfold dat, bit, present. rewrite <- !view_present, !view_data, !view_bit.
  rewrite (view_setBit root (addr q) b c) by (try apply addr_ok; assumption).
  destruct (nref_eq_dec (addr q') (addr q)) as [EA|NA], (list_eq_dec Z.eq_dec q' q) as [EQ|NQ]; cbn [fst snd].
  - rewrite EA. unfold nr_data, view. rewrite E. cbn. split; [reflexivity|]. split; [reflexivity|]. split; discriminate.
  - contradiction NQ. apply addr_inj; assumption.
  - subst. contradiction.
  - repeat split; auto.
Qed.
Lemma present_root root : present root [].
Proof. exists root. reflexivity. Qed.
Lemma ndepth_step q : valid_path q -> (ndepth (addr q) + 1 =? H) = false -> forall c, nchunk (addr (q ++ [c])) = nchunk (addr q).
Proof. intros Hq E c. rewrite addr_snoc. unfold nr_step. rewrite E. reflexivity. Qed.
(** getChild *)
Lemma getChild_spec root q c : valid_path q -> 0 <= c < 8 -> present root q ->
  match nr_getChild H root (addr q) c with
  | Some r => r = addr (q ++ [c]) /\ bit root q = true /\ present root (q ++ [c])
  | None => bit root q = false \/ ~ present root (q ++ [c])
  end.
Proof.
  intros Hq Hc Hp. unfold nr_getChild. fold (bit root q). destruct (bit root q) eqn:Eb; [|left; reflexivity].
  rewrite addr_snoc. unfold present. rewrite addr_snoc.
  destruct (ndepth (addr q) + 1 =? H) eqn:Ed.
  - destruct (chunk_at _ root) as [ch|] eqn:E.
    + split; [reflexivity|]. split; [reflexivity|]. exists ch. unfold nr_step. rewrite Ed. cbn [nchunk]. exact E.
    + right. intros [ch E']. unfold nr_step in E'. rewrite Ed in E'. cbn [nchunk] in E'. congruence.
  - split; [reflexivity|]. split; [reflexivity|]. unfold nr_step. rewrite Ed. exact Hp.
Qed.
(** getOrAllocateChild *)
Lemma alloc_kids (ch : chunkA) k j : chunk_getChild (chunk_allocChild zero ch k) j =
  if j =? k then Some (match chunk_getChild ch k with Some c => c | None => chunk_new zero end) else chunk_getChild ch j.
Proof.
  unfold chunk_allocChild, chunk_getChild. destruct (ckids ch) as [kk|]; cbn [ckids].
  - destruct (kk k) as [c|] eqn:E; cbn [ckids]; unfold fset; destruct (Z.eqb_spec j k) as [->|]; congruence.
  - unfold fset. destruct (Z.eqb_spec j k); reflexivity.
Qed.
Lemma alloc_cells ch k i : cell_at i (chunk_allocChild zero ch k) = cell_at i ch.
Proof. unfold chunk_allocChild. destruct (match ckids ch with None => _ | Some k0 => k0 end k); reflexivity. Qed.
Definition deft (x : option (A * bool)) : A * bool := match x with Some y => y | None => (zero, false) end.
Lemma dat_deft root q : dat root q = fst (deft (view root (addr q))).
Proof. unfold dat. rewrite view_data. destruct (view _ _); reflexivity. Qed.
Lemma bit_deft root q : bit root q = snd (deft (view root (addr q))).
Proof. unfold bit. rewrite view_bit. destruct (view _ _); reflexivity. Qed.
Lemma view_allocChunk root P k c r' : chunk_at P root = Some c ->
  deft (view (chunk_upd P (fun ch => chunk_allocChild zero ch k) root) r') = deft (view root r') /\
  (view root r' <> None -> view (chunk_upd P (fun ch => chunk_allocChild zero ch k) root) r' <> None).
Proof.
  intros E. destruct (view_upd P (fun ch => chunk_allocChild zero ch k) root c E r') as [(Q & EQ & V1 & V2)|[_ V1]].
  - rewrite V1, V2. destruct Q as [|j Q]; cbn [chunk_at option_map deft].
    + rewrite alloc_cells. split; [reflexivity|discriminate].
    + rewrite alloc_kids. destruct (Z.eqb_spec j k) as [->|]; [|auto].
      destruct (chunk_getChild c k) as [c1|]; [auto|]. cbn [option_map deft].
      split; [|intros X; contradiction X; reflexivity].
      destruct Q as [|j' Q]; cbn [chunk_at option_map deft]; [reflexivity|]. unfold chunk_new, chunk_getChild. cbn [ckids]. reflexivity.
  - rewrite V1. auto.
Qed.
Lemma alloc_spec root q c : valid_path q -> 0 <= c < 8 -> present root q ->
  let '(root', r') := nr_allocChild zero H root (addr q) c in
  r' = addr (q ++ [c]) /\ present root' (q ++ [c]) /\
  forall q', valid_path q' ->
    dat root' q' = dat root q' /\ bit root' q' = (if list_eq_dec Z.eq_dec q' q then true else bit root q') /\
    (present root q' -> present root' q').
Proof.
  intros Hq Hc Hp. unfold nr_allocChild. split; [symmetry; apply addr_snoc|].
  pose proof (fun q' Hq' => dat_setBit root q true q' Hq Hq' Hp) as B.
  set (root1 := nr_setBit root (addr q) true) in *.
  assert (Hp1 : present root1 q) by (apply (B q Hq); assumption).
  destruct (ndepth (addr q) + 1 =? H) eqn:Ed.
  - destruct Hp1 as [ch1 E1]. set (k := nr_childDist (ndist (addr q)) c).
    pose proof (fun r' => view_allocChunk root1 _ k ch1 r' E1) as V.
    set (root2 := chunk_upd (nchunk (addr q)) (fun ch => chunk_allocChild zero ch k) root1) in *. split.
    + exists (match chunk_getChild ch1 k with Some c => c | None => chunk_new zero end).
      rewrite addr_snoc. unfold nr_step. rewrite Ed. cbn [nchunk]. fold k. unfold root2.
      rewrite (chunk_at_upd_same _ [k] _ _ _ E1). cbn [chunk_at]. rewrite alloc_kids, Z.eqb_refl. reflexivity.
    + intros q' Hq'. destruct (B q' Hq') as (B1 & B2 & B3). destruct (V (addr q')) as [V1 V2].
      rewrite dat_deft, bit_deft, V1, <- dat_deft, <- bit_deft. split; [exact B1|]. split; [exact B2|].
      intros Hp'. apply B3 in Hp'. unfold present in *. rewrite <- view_present in *. auto.
  - split.
    + unfold present. rewrite ndepth_step by assumption. exact Hp1.
    + intros q' Hq'. destruct (B q' Hq') as (B1 & B2 & B3). split; [exact B1|]. split; [exact B2|]. apply B3.
Qed.

(** eraseChild *)
Lemma zrange_In a b x : In x (zrange a b) <-> a <= x < b.
Proof.
  unfold zrange. rewrite in_map_iff. split.
  - intros (j & <- & Hj). apply in_seq in Hj. lia.
  - intros Hx. exists (Z.to_nat (x - a)). split; [lia|]. apply in_seq. lia.
Qed.
Definition inr (a b x : Z) : bool := (a <=? x) && (x <? b).
Lemma inr_In a b x : inr a b x = true <-> In x (zrange a b).
Proof. unfold inr. rewrite zrange_In, andb_true_iff, Z.leb_le, Z.ltb_lt. reflexivity. Qed.
Lemma erase_kid_list L : forall (ch : chunkA),
  let ch' := fold_left (fun ch i => chunk_eraseChild ch i) L ch in
  (forall i, cell_at i ch' = cell_at i ch) /\
  forall j, chunk_getChild ch' j = if existsb (Z.eqb j) L then None else chunk_getChild ch j.
Proof.
  induction L as [|i L IH]; intros ch; cbn [fold_left existsb]; [split; reflexivity|].
  destruct (IH (chunk_eraseChild ch i)) as [I1 I2].
  assert (E1 : forall x, cell_at x (chunk_eraseChild ch i) = cell_at x ch).
  { intros x. unfold chunk_eraseChild, chunk_setChild. destruct (chunk_getChild ch i); [|reflexivity]. destruct (ckids ch); reflexivity. }
  assert (E2 : forall j, chunk_getChild (chunk_eraseChild ch i) j = if j =? i then None else chunk_getChild ch j).
  { intros j. unfold chunk_eraseChild. destruct (chunk_getChild ch i) as [c|] eqn:E.
    - unfold chunk_getChild in E. destruct (ckids ch) as [k|] eqn:Ek; [|discriminate].
      rewrite (getChild_setChild' _ _ _ _ k Ek). unfold chunk_getChild. rewrite Ek. reflexivity.
    - destruct (Z.eqb_spec j i) as [->|]; [exact E|reflexivity]. }
  split.
  - intros x. rewrite I1. apply E1.
  - intros j. rewrite I2, E2. destruct (Z.eqb_spec j i), (existsb (Z.eqb j) L); reflexivity.
Qed.
Lemma erase_cell_list off L : forall (ch : chunkA),
  let ch' := fold_left (fun ch i => chunk_setBit (chunk_setData ch (off + i) zero) (off + i) false) L ch in
  (forall j, cell_at j ch' = if existsb (Z.eqb (j - off)) L then (zero, false) else cell_at j ch) /\
  ckids ch' = ckids ch.
Proof.
  induction L as [|i L IH]; intros ch; cbn [fold_left existsb]; [split; reflexivity|].
  destruct (IH (chunk_setBit (chunk_setData ch (off + i) zero) (off + i) false)) as [I1 I2].
  split; [|rewrite I2; reflexivity].
  intros j. rewrite I1. destruct (existsb (Z.eqb (j - off)) L); [rewrite orb_true_r; reflexivity|]. rewrite orb_false_r.
  unfold cell_at, chunk_setBit, chunk_setData, fset. cbn [cdata cbits].
  destruct (Z.eqb_spec j (off + i)), (Z.eqb_spec (j - off) i); try lia; reflexivity.
Qed.
Lemma existsb_range a b x : existsb (Z.eqb x) (zrange a b) = inr a b x.
Proof.
  destruct (inr a b x) eqn:E.
  - apply existsb_exists. exists x. split; [apply inr_In; exact E|apply Z.eqb_refl].
  - apply not_true_iff_false. rewrite existsb_exists. intros (y & Hy & Ey). apply Z.eqb_eq in Ey. subst y.
    apply inr_In in Hy. congruence.
Qed.
(** One level of the erasure, for nodes (depth, distance) and child chunks *)
Lemma erase_level_spec d a b (ch : chunkA) : 1 <= d <= H -> 0 <= a -> b <= 8 ^ d ->
  let ch' := erase_level zero H d a b ch in
  (forall d' l', 0 <= d' < H -> 0 <= l' < 8 ^ d' ->
     cell_at (nr_index d' l') ch' = if (d' =? d) && inr a b l' then (zero, false) else cell_at (nr_index d' l') ch) /\
  (forall j, chunk_getChild ch' j = if (d =? H) && inr a b j then None else chunk_getChild ch j).
Proof.
  intros Hd Ha Hb. unfold erase_level. destruct (Z.eqb_spec d H) as [->|HnH]; cbn [andb].
  - destruct (erase_kid_list (zrange a b) ch) as [E1 E2]. split.
    + intros d' l' Hd' Hl'. rewrite E1. destruct (Z.eqb_spec d' H); [lia|reflexivity].
    + intros j. rewrite E2, existsb_range. reflexivity.
  - destruct (erase_cell_list (level_offset d) (zrange a b) ch) as [E1 E2]. split.
    + intros d' l' Hd' Hl'. rewrite E1, existsb_range.
      destruct (Z.eqb_spec d' d) as [->|Hne]; cbn [andb].
      * unfold nr_index. replace (level_offset d + l' - level_offset d) with l' by lia. reflexivity.
      * destruct (inr a b (nr_index d' l' - level_offset d)) eqn:Ei; [|reflexivity]. exfalso. apply Hne.
        unfold inr in Ei. apply andb_prop in Ei as [L1 L2]. apply Z.leb_le in L1. apply Z.ltb_lt in L2.
        apply (index_inj d' l' d (nr_index d' l' - level_offset d)); try lia. unfold nr_index. lia.
    + intros j. unfold chunk_getChild. rewrite E2. reflexivity.
Qed.
Lemma inr_scale a b e x : 0 <= e -> inr (a * 8 ^ e) (b * 8 ^ e) x = inr a b (x / 8 ^ e).
Proof.
  intros He. pose proof (pow8_pos e He). unfold inr. apply eq_true_iff_eq.
  rewrite !andb_true_iff, !Z.leb_le, !Z.ltb_lt. Z.div_mod_to_equations. nia.
Qed.
Lemma erase_loop_spec k : forall d a b (ch : chunkA), d + Z.of_nat k = H + 1 -> 1 <= d -> 0 <= a -> b <= 8 ^ d ->
  let ch' := erase_loop zero H k d a b ch in
  (forall d' l', 0 <= d' < H -> 0 <= l' < 8 ^ d' ->
     cell_at (nr_index d' l') ch' =
     if (d <=? d') && inr a b (l' / 8 ^ (d' - d)) then (zero, false) else cell_at (nr_index d' l') ch) /\
  (forall j, chunk_getChild ch' j = if (d <=? H) && inr a b (j / 8 ^ (H - d)) then None else chunk_getChild ch j).
Proof.
  induction k as [|k IH]; intros d a b ch Hk Hd Ha Hb; cbn [erase_loop].
  - split.
    + intros d' l' Hd' Hl'. destruct (Z.leb_spec d d'); [lia|reflexivity].
    + intros j. destruct (Z.leb_spec d H); [lia|reflexivity].
  - destruct (erase_level_spec d a b ch ltac:(lia) Ha Hb) as [L1 L2].
    rewrite !Z.shiftl_mul_pow2 by lia. change (2 ^ 3) with (8 ^ 1).
    destruct (IH (d + 1) (a * 8 ^ 1) (b * 8 ^ 1) (erase_level zero H d a b ch)) as [I1 I2];
      [lia|lia|change (8 ^ 1) with 8; lia|rewrite Z.pow_add_r by lia; apply Z.mul_le_mono_nonneg_r; [lia|exact Hb]|].
    assert (Sc : forall x e, 0 <= e -> inr (a * 8 ^ 1) (b * 8 ^ 1) (x / 8 ^ e) = inr a b (x / 8 ^ (e + 1))).
    { intros x e He. rewrite inr_scale by lia. rewrite Z.div_div by (try apply pow8_pos; try lia; apply Z.pow_nonzero; lia).
      rewrite <- Z.pow_add_r by lia. reflexivity. }
    split.
    + intros d' l' Hd' Hl'. rewrite I1, L1 by assumption.
      destruct (Z.leb_spec (d + 1) d').
      * destruct (Z.leb_spec d d'); [|lia]. rewrite Sc by lia. replace (d' - (d + 1) + 1) with (d' - d) by lia.
        destruct (Z.eqb_spec d' d); [lia|]. reflexivity.
      * cbn [andb]. destruct (Z.eqb_spec d' d) as [Ed|Ed], (Z.leb_spec d d'); try lia; cbn [andb]; [|reflexivity].
        rewrite Ed, Z.sub_diag. change (8 ^ 0) with 1. rewrite Z.div_1_r. reflexivity.
    + intros j. rewrite I2, L2. destruct (Z.leb_spec (d + 1) H).
      * destruct (Z.leb_spec d H); [|lia]. rewrite Sc by lia. replace (H - (d + 1) + 1) with (H - d) by lia.
        destruct (Z.eqb_spec d H); [lia|]. reflexivity.
      * cbn [andb]. assert (d = H) by lia. subst d. rewrite Z.eqb_refl, Z.leb_refl, Z.sub_diag. change (8 ^ 0) with 1.
        rewrite Z.div_1_r. reflexivity.
Qed.
Lemma inr_one a x : inr a (a + 1) x = (x =? a).
Proof. unfold inr. apply eq_true_iff_eq. rewrite andb_true_iff, Z.leb_le, Z.ltb_lt, Z.eqb_eq. lia. Qed.
Lemma erase_spec root q c : valid_path q -> 0 <= c < 8 -> present root q -> bit root q = true ->
  let root' := nr_eraseChild zero H root (addr q) c in
  forall q', valid_path q' ->
    dat root' q' = (if is_prefix (q ++ [c]) q' then zero else dat root q') /\
    bit root' q' = (if is_prefix (q ++ [c]) q' then false else bit root q') /\
    (is_prefix (q ++ [c]) q' = false -> present root q' -> present root' q').
Proof.
  intros Hq Hc [ch E] Hb root' q' Hq'. unfold root', nr_eraseChild. fold (bit root q). rewrite Hb. clear root'.
  pose proof (addr_ok q Hq) as Hok. pose proof Hok as (_ & Hd & Hl). pose proof (addr_ok q' Hq') as (_ & Hd' & Hl').
  rewrite childDist_spec by lia. set (r := addr q) in *. set (r' := addr q') in *.
  set (lc := 8 * ndist r + c).
  assert (Blc : 0 <= lc /\ lc + 1 <= 8 ^ (ndepth r + 1)) by (unfold lc; rewrite Z.pow_add_r by lia; lia).
  destruct (erase_loop_spec (Z.to_nat (H - ndepth r)) (ndepth r + 1) lc (lc + 1) ch ltac:(lia) ltac:(lia) ltac:(lia) ltac:(lia)) as [L1 L2].
  assert (U : is_prefix (q ++ [c]) q' = true <-> under r c r').
  { unfold r, r'. rewrite under_prefix by assumption. rewrite is_prefix_firstn. split.
    - intros [Hlen Ef]. exists (skipn (length (q ++ [c])) q'). rewrite <- (firstn_skipn (length (q ++ [c])) q') at 1.
      rewrite <- Ef, <- app_assoc. reflexivity.
    - intros [s ->]. replace (q ++ c :: s) with ((q ++ [c]) ++ s) by (rewrite <- app_assoc; reflexivity).
      split; [rewrite (app_length (q ++ [c]) s); lia|]. rewrite firstn_app, Nat.sub_diag, firstn_O, app_nil_r, firstn_all. reflexivity. }
  assert (M : deft (view (chunk_upd (nchunk r) (erase_loop zero H (Z.to_nat (H - ndepth r)) (ndepth r + 1) lc (lc + 1)) root) r') =
              (if is_prefix (q ++ [c]) q' then (zero, false) else deft (view root r')) /\
              (is_prefix (q ++ [c]) q' = false -> view root r' <> None ->
               view (chunk_upd (nchunk r) (erase_loop zero H (Z.to_nat (H - ndepth r)) (ndepth r + 1) lc (lc + 1)) root) r' <> None)).
  { destruct (view_upd (nchunk r) (erase_loop zero H (Z.to_nat (H - ndepth r)) (ndepth r + 1) lc (lc + 1)) root ch E r')
      as [(Q & EQ & V1 & V2)|[Hn V1]].
    - rewrite V1, V2. destruct Q as [|j Q]; cbn [chunk_at option_map deft].
      + rewrite L1 by assumption. rewrite inr_one.
        assert (X : (ndepth r + 1 <=? ndepth r') && (ndist r' / 8 ^ (ndepth r' - (ndepth r + 1)) =? lc) = is_prefix (q ++ [c]) q').
        { apply eq_true_iff_eq. rewrite U, andb_true_iff, Z.leb_le, Z.eqb_eq. rewrite app_nil_r in EQ. split.
          - intros [X1 X2]. left. auto.
          - intros [(_ & X1 & X2)|(k & R & X1 & _)]; [auto|]. rewrite EQ in X1.
            rewrite <- (app_nil_r (nchunk r)) in X1 at 1. apply app_inv_head in X1. discriminate X1. }
        rewrite X. split; [reflexivity|discriminate].
      + rewrite L2, inr_one. destruct (Z.leb_spec (ndepth r + 1) H); [|lia]. cbn [andb].
        assert (X : (j / 8 ^ (H - (ndepth r + 1)) =? lc) = is_prefix (q ++ [c]) q').
        { apply eq_true_iff_eq. rewrite U, Z.eqb_eq. split.
          - intros X. right. exists j, Q. auto.
          - intros [(X1 & _)|(k & R & X1 & X2)]; rewrite EQ in X1.
            + rewrite <- (app_nil_r (nchunk r)) in X1 at 2. apply app_inv_head in X1. discriminate X1.
            + apply app_inv_head in X1. injection X1 as -> _. exact X2. }
        rewrite X. destruct (is_prefix (q ++ [c]) q'); [split; [reflexivity|discriminate]|auto].
    - rewrite V1. assert (X : is_prefix (q ++ [c]) q' = false).
      { apply not_true_iff_false. rewrite U. intros [(X & _)|(k & R & X & _)]; [apply (Hn []); rewrite app_nil_r|apply (Hn (k :: R))]; exact X. }
      rewrite X. auto. }
  destruct M as [M1 M2]. rewrite !dat_deft, !bit_deft. fold r'. rewrite M1.
  split; [destruct (is_prefix _ _); reflexivity|]. split; [destruct (is_prefix _ _); reflexivity|].
  unfold present. fold r'. rewrite <- !view_present. exact M2.
Qed.
Lemma dat_new q : valid_path q -> dat (chunk_new zero) q = zero /\ bit (chunk_new zero) q = false.
Proof.
  intros Hq. unfold dat, bit. rewrite view_data, view_bit. unfold view. destruct (nchunk (addr q)) as [|i P]; cbn; auto.
Qed.
End CHUNKED.
