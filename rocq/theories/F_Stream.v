(** Facts about the byte streams of M_Stream.v *)
From Verif Require Import Base M_IntMath F_IntMath M_NdtreeIndex M_Num M_Haar M_Haar3 F_Haar3 M_Ndtree F_Hash M_Wavelet
  M_HashedBlocks M_Chunked M_Subtree F_Wavelet F_Wavelet2 M_Octree F_Octree M_Stream.

(** ** Integers *)
Lemma le_bytes_S n x : le_bytes (S n) x = x mod 256 :: le_bytes n (x / 256).
Proof.
  unfold le_bytes. cbn [seq map]. f_equal.
  - cbn. rewrite Z.div_1_r. reflexivity.
  - rewrite <- seq_shift, map_map. apply map_ext. intros k. f_equal. rewrite Z.div_div by lia.
    f_equal. change 256 with (2 ^ 8). rewrite <- Z.pow_add_r by lia. f_equal. lia.
Qed.
Lemma le_bytes_length n x : length (le_bytes n x) = n.
Proof. unfold le_bytes. rewrite map_length, seq_length. reflexivity. Qed.
Lemma le_value_bytes n : forall x, le_value (le_bytes n x) = x mod 2 ^ (8 * Z.of_nat n).
Proof.
  induction n as [|n IH]; intros x; [cbn; rewrite Z.mod_1_r; reflexivity|]. rewrite le_bytes_S. cbn [le_value]. rewrite IH.
  replace (8 * Z.of_nat (S n)) with (8 + 8 * Z.of_nat n) by lia. rewrite Z.pow_add_r by lia. change (2 ^ 8) with 256.
  rewrite (Z.rem_mul_r x 256) by lia. lia.
Qed.
Lemma le_bytes_range n x b : In b (le_bytes n x) -> 0 <= b < 256.
Proof. unfold le_bytes. rewrite in_map_iff. intros (k & <- & _). apply Z.mod_pos_bound. lia. Qed.

(** ** Reading what was written *)
Lemma iread_app n init b r : length b = n -> iread n init (IS (b ++ r) true) = (b, IS r true).
Proof.
  intros H. unfold iread. cbn [igood irest]. rewrite (app_length b r). replace (n <=? length b + length r)%nat with true by (symmetry; apply Nat.leb_le; lia).
  subst n. rewrite firstn_app, Nat.sub_diag, firstn_all, firstn_O, app_nil_r. rewrite skipn_app, Nat.sub_diag, skipn_all. reflexivity.
Qed.
Lemma i32_mod x : - 2 ^ 31 <= x < 2 ^ 31 -> i32 (x mod 2 ^ 32) = x.
Proof.
  intros H. unfold i32. rewrite Zplus_mod_idemp_l. rewrite Z.mod_small; lia.
Qed.
Lemma r_format_app x r : - 2 ^ 31 <= x < 2 ^ 31 -> r_format (IS (le_bytes 4 x ++ r) true) = (x, IS r true).
Proof. intros H. unfold r_format. rewrite iread_app by apply le_bytes_length. rewrite le_value_bytes. change (8 * Z.of_nat 4) with 32. rewrite (i32_mod x H). reflexivity. Qed.
Lemma r_i32_app x r : - 2 ^ 31 <= x < 2 ^ 31 -> r_i32 (IS (le_bytes 4 x ++ r) true) = (x, IS r true).
Proof. intros H. unfold r_i32. rewrite iread_app by apply le_bytes_length. rewrite le_value_bytes. change (8 * Z.of_nat 4) with 32. rewrite (i32_mod x H). reflexivity. Qed.
Lemma r_u64_app x r : 0 <= x < 2 ^ 64 -> r_u64 (IS (le_bytes 8 x ++ r) true) = (x, IS r true).
Proof. intros H. unfold r_u64. rewrite iread_app by apply le_bytes_length. rewrite le_value_bytes, Z.mod_small by exact H. reflexivity. Qed.
Lemma r_u8_app x r : 0 <= x < 256 -> r_u8 (IS (le_bytes 1 x ++ r) true) = (x, IS r true).
Proof. intros H. unfold r_u8. rewrite iread_app by apply le_bytes_length. rewrite le_value_bytes, Z.mod_small by exact H. reflexivity. Qed.
Definition i32_idx (i : idx3) : Prop := - 2 ^ 31 <= px i < 2 ^ 31 /\ - 2 ^ 31 <= py i < 2 ^ 31 /\ - 2 ^ 31 <= pz i < 2 ^ 31.
Lemma r_index_app i r : i32_idx i -> r_index (IS (w_index i ++ r) true) = (i, IS r true).
Proof.
  intros (H1 & H2 & H3). unfold r_index, w_index. rewrite <- !app_assoc.
  rewrite r_i32_app by exact H1. rewrite r_i32_app by exact H2. rewrite r_i32_app by exact H3. destruct i; reflexivity.
Qed.

(** ** Readers only depend on the bytes they consume, and failures are permanent *)
Definition local {A} (f : istream -> A * istream) : Prop :=
  (forall s, igood s = false -> igood (snd (f s)) = false) /\
  forall b a r, f (IS b true) = (a, IS r true) -> (exists p, b = p ++ r) /\ forall c, f (IS (b ++ c) true) = (a, IS (r ++ c) true).
Lemma local_iread n init : local (iread n init).
Proof.
  split.
  - intros s H. unfold iread. rewrite H. exact H.
  - intros b a r. unfold iread. cbn [igood irest]. destruct (Nat.leb_spec n (length b)) as [L|L]; [|discriminate].
    intros E. injection E as <- <-. split; [exists (firstn n b); symmetry; apply firstn_skipn|]. intros c.
    rewrite (app_length b c). replace (n <=? length b + length c)%nat with true by (symmetry; apply Nat.leb_le; lia).
    rewrite firstn_app, skipn_app. replace (n - length b)%nat with O by lia. rewrite firstn_O, app_nil_r. reflexivity.
Qed.
Lemma local_ret {A} (a : A) : local (fun s => (a, s)).
Proof. split; [auto|]. intros b a' r E. injection E as <- <-. split; [exists []; reflexivity|reflexivity]. Qed.
Lemma local_bind {A B} (f : istream -> A * istream) (g : A -> istream -> B * istream) : local f -> (forall a, local (g a)) ->
  local (fun s => let '(a, s1) := f s in g a s1).
Proof.
  intros [F1 F2] G. split.
  - intros s H. specialize (F1 s H). destruct (f s) as [a s1]. apply (G a). exact F1.
  - intros b x r. destruct (f (IS b true)) as [a [r1 g1]] eqn:E. destruct g1.
    + intros E2. destruct (F2 b a r1 E) as [[p Hp] F3]. destruct (proj2 (G a) r1 x r E2) as [[p2 Hp2] G3]. split.
      * exists (p ++ p2). rewrite <- app_assoc, <- Hp2. exact Hp.
      * intros c. rewrite F3. apply G3.
    + intros E2. pose proof (proj1 (G a) (IS r1 false) eq_refl) as K. rewrite E2 in K. discriminate.
Qed.
Lemma local_map {A B} (f : istream -> A * istream) (g : A -> B) : local f -> local (fun s => let '(a, s1) := f s in (g a, s1)).
Proof. intros F. apply (local_bind f (fun a s => (g a, s)) F). intros a. apply local_ret. Qed.
Lemma local_i32 : local r_i32. Proof. apply (local_map (iread 4 _) (fun b => i32 (le_value b))). apply local_iread. Qed.
Lemma local_u64 : local r_u64. Proof. apply (local_map (iread 8 _) le_value). apply local_iread. Qed.
Lemma local_u8 : local r_u8. Proof. apply (local_map (iread 1 _) le_value). apply local_iread. Qed.
Lemma local_format : local r_format. Proof. apply (local_map (iread 4 _) (fun b => i32 (le_value b))). apply local_iread. Qed.
Lemma local_index : local r_index.
Proof.
  apply (local_bind r_i32 (fun x s1 => let '(y, s2) := r_i32 s1 in let '(z, s3) := r_i32 s2 in (I3 x y z, s3)) local_i32). intros x.
  apply (local_bind r_i32 (fun y s2 => let '(z, s3) := r_i32 s2 in (I3 x y z, s3)) local_i32). intros y.
  apply (local_map r_i32 (fun z => I3 x y z)). exact local_i32.
Qed.

Lemma in_child_ids c : In c child_ids <-> 0 <= c < 8.
Proof. unfold child_ids. cbn [In]. lia. Qed.
Lemma nodup_child_ids : NoDup child_ids.
Proof. unfold child_ids. repeat constructor; cbn [In]; lia. Qed.

Section FS.
Context {V : Type} (N : num V) (enc : V -> Z) (dec : Z -> V).
Notation wnode := (node (det V)).
Notation r_f32 := (r_f32 dec). Notation w_f32 := (w_f32 enc).
Notation r_node := (r_node dec). Notation w_node := (w_node enc).
Definition faithful (v : V) : Prop := 0 <= enc v < 2 ^ 32 /\ dec (enc v) = v.

Lemma r_f32_app v r : faithful v -> r_f32 (IS (w_f32 v ++ r) true) = (v, IS r true).
Proof.
  intros [H1 H2]. unfold M_Stream.r_f32, M_Stream.w_f32. rewrite iread_app by apply le_bytes_length. rewrite le_value_bytes, Z.mod_small by exact H1.
  rewrite H2. reflexivity.
Qed.
Lemma local_f32 : local r_f32. Proof. apply (local_map (iread 4 _) (fun b => dec (le_value b))). apply local_iread. Qed.
Lemma r_node_app d bits r : Forall faithful (dlist d) -> 0 <= bits < 256 -> r_node (IS (w_node d bits ++ r) true) = (d, bits, IS r true).
Proof.
  intros F Hb. destruct d as [d1 d2 d3 d4 d5 d6 d7]. unfold M_Stream.w_node, M_Stream.r_node. cbn [dlist flat_map] in *.
  repeat match goal with H : Forall _ (_ :: _) |- _ => apply Forall_cons_iff in H; destruct H end.
  rewrite <- !app_assoc. rewrite !r_f32_app by assumption. rewrite app_nil_l. rewrite r_u8_app by exact Hb. reflexivity.
Qed.
Lemma local_node : local r_node.
Proof.
  unfold M_Stream.r_node. apply (local_bind r_f32); [exact local_f32|intros d1]. apply (local_bind r_f32); [exact local_f32|intros d2].
  apply (local_bind r_f32); [exact local_f32|intros d3]. apply (local_bind r_f32); [exact local_f32|intros d4].
  apply (local_bind r_f32); [exact local_f32|intros d5]. apply (local_bind r_f32); [exact local_f32|intros d6].
  apply (local_bind r_f32); [exact local_f32|intros d7]. apply (local_map r_u8 (fun b => (Det d1 d2 d3 d4 d5 d6 d7, b))). exact local_u8.
Qed.

(** ** Trees *)
Notation fresh := (Node (dzero N) None : wnode).
Definition has (n : wnode) (c : Z) : bool := match getChild n c with Some _ => true | None => false end.
Definition kidlist (n : wnode) : list (Z * wnode) :=
  flat_map (fun c => match getChild n c with Some ch => [(c, ch)] | None => [] end) child_ids.
(** The bytes of a tree *)
Fixpoint ser (n : wnode) : list Z :=
  match n with Node d kids =>
    w_node d (child_bits (has n)) ++
    match kids with
    | None => []
    | Some k => concat (olist (omap (fun o => match o with None => [] | Some ch => ser ch end) k))
    end
  end.
(** A tree without empty children arrays *)
Fixpoint norm (n : wnode) : wnode :=
  match n with Node d kids =>
    Node d (match kids with
            | None => None
            | Some k => if existsb (fun o : option wnode => match o with Some _ => true | None => false end) (olist k)
                        then Some (omap (option_map norm) k) else None
            end)
  end.
Lemma ser_eq n : ser n = w_node (ndata n) (child_bits (has n)) ++ flat_map (fun x => ser (snd x)) (kidlist n).
Proof.
  destruct n as [d [k|]]; cbn [ser ndata]; f_equal.
  - unfold kidlist, getChild. cbn [nkids]. destruct k as [a0 a1 a2 a3 a4 a5 a6 a7]. cbn [omap olist concat child_ids flat_map oget].
    rewrite !flat_map_app.
    destruct a0, a1, a2, a3, a4, a5, a6, a7; cbn [flat_map snd]; rewrite ?app_nil_r; reflexivity.
Qed.
Lemma norm_data n : ndata (norm n) = ndata n.
Proof. destruct n as [d [k|]]; reflexivity. Qed.
Lemma norm_child n c : 0 <= c < 8 -> getChild (norm n) c = option_map norm (getChild n c).
Proof.
  intros Hc. destruct n as [d [k|]]; [|reflexivity]. cbn [norm]. unfold getChild at 2. cbn [nkids].
  destruct (existsb _ (olist k)) eqn:E.
  - unfold getChild. cbn [nkids]. destruct k. child8 c Hc; reflexivity.
  - unfold getChild. cbn [nkids]. assert (K : oget k c = None); [|rewrite K; reflexivity].
    destruct (oget k c) as [ch|] eqn:K; [|reflexivity]. exfalso. rewrite <- Bool.not_true_iff_false in E. apply E. apply existsb_exists.
    exists (Some ch). split; [|reflexivity]. rewrite <- K. apply oget_In.
Qed.
Lemma norm_array n : hasChildrenArray (norm n) = existsb (has n) child_ids.
Proof.
  destruct n as [d [k|]]; [|reflexivity]. cbn [norm]. unfold hasChildrenArray. cbn [nkids].
  unfold has, getChild. cbn [nkids]. destruct k as [a0 a1 a2 a3 a4 a5 a6 a7]. cbn [child_ids existsb oget olist].
  destruct (_ || _); reflexivity.
Qed.
Lemma node_ext (a b : wnode) : ndata a = ndata b -> hasChildrenArray a = hasChildrenArray b ->
  (forall c, 0 <= c < 8 -> getChild a c = getChild b c) -> a = b.
Proof.
  destruct a as [d [k|]], b as [d' [k'|]]; unfold hasChildrenArray, getChild; cbn [ndata nkids]; intros -> H K; try discriminate; [|reflexivity].
  f_equal. f_equal. apply oct_ext. exact K.
Qed.
Lemma child_bits_spec f c : 0 <= c < 8 -> Z.testbit (child_bits f) c = f c.
Proof.
  intros Hc. unfold child_bits. cbn [child_ids fold_left].
  destruct (f 0) eqn:E0, (f 1) eqn:E1, (f 2) eqn:E2, (f 3) eqn:E3, (f 4) eqn:E4, (f 5) eqn:E5, (f 6) eqn:E6, (f 7) eqn:E7;
    child8 c Hc; rewrite ?E0, ?E1, ?E2, ?E3, ?E4, ?E5, ?E6, ?E7; reflexivity.
Qed.
Lemma child_bits_range f : 0 <= child_bits f < 256.
Proof.
  unfold child_bits. cbn [child_ids fold_left].
  destruct (f 0), (f 1), (f 2), (f 3), (f 4), (f 5), (f 6), (f 7); cbn; lia.
Qed.
Lemma child_bits_ext f g : (forall c, 0 <= c < 8 -> f c = g c) -> child_bits f = child_bits g.
Proof.
  intros H. unfold child_bits. cbn [child_ids fold_left].
  rewrite (H 0), (H 1), (H 2), (H 3), (H 4), (H 5), (H 6), (H 7) by lia. reflexivity.
Qed.
Lemma getChild_set (n : wnode) c ch c' : 0 <= c' < 8 -> getChild (setChild n c ch) c' = if c' =? c then Some ch else getChild n c'.
Proof.
  intros H. unfold getChild, setChild. cbn [nkids]. rewrite oget_oset by assumption.
  destruct (c' =? c); [reflexivity|]. destruct (nkids n); [reflexivity|]. rewrite oget_otab by assumption. reflexivity.
Qed.
Lemma setChild_set (n : wnode) c a b : setChild (setChild n c a) c b = setChild n c b.
Proof.
  apply node_ext; [reflexivity|reflexivity|]. intros c' H. rewrite !getChild_set by exact H. destruct (c' =? c); reflexivity.
Qed.
Lemma filter_rev {A} (f : A -> bool) l : filter f (rev l) = rev (filter f l).
Proof. induction l as [|a l IH]; [reflexivity|]. cbn [rev filter]. rewrite filter_app, IH. cbn [filter]. destruct (f a); [reflexivity|]. rewrite app_nil_r. reflexivity. Qed.
Lemma push_rev {A B} (f : A -> B) l : forall st, fold_left (fun st c => f c :: st) (rev l) st = map f l ++ st.
Proof.
  induction l as [|a l IH]; intros st; [reflexivity|]. cbn [rev map]. rewrite fold_left_app, IH. reflexivity.
Qed.

(** Assignments through pointers *)
Lemma look_at_path q f : forall (n x : wnode), valid_path q -> nlook q n = Some x -> nlook q (at_path q f n) = Some (f x).
Proof.
  induction q as [|c q IH]; intros n x Hq H; cbn [nlook at_path] in *; [injection H as <-; reflexivity|].
  apply Forall_cons_iff in Hq. destruct Hq as [Hc Hq]. destruct (getChild n c) as [ch|]; [|discriminate].
  rewrite getChild_set by exact Hc. rewrite Z.eqb_refl. apply IH; assumption.
Qed.
Lemma at_path_comp q f g : forall n : wnode, valid_path q -> at_path q f (at_path q g n) = at_path q (fun x => f (g x)) n.
Proof.
  induction q as [|c q IH]; intros n Hq; cbn [at_path]; [reflexivity|]. apply Forall_cons_iff in Hq. destruct Hq as [Hc Hq].
  destruct (getChild n c) as [ch|] eqn:E; [|rewrite E; reflexivity].
  rewrite getChild_set by exact Hc. rewrite Z.eqb_refl, setChild_set, IH by exact Hq. reflexivity.
Qed.
Lemma at_path_ext q f g : forall n x : wnode, nlook q n = Some x -> f x = g x -> at_path q f n = at_path q g n.
Proof.
  induction q as [|c q IH]; intros n x H E; cbn [nlook at_path] in *; [injection H as <-; exact E|].
  destruct (getChild n c) as [ch|]; [|discriminate]. f_equal. eapply IH; eassumption.
Qed.
Lemma at_path_snoc q c f : forall n : wnode, at_path (q ++ [c]) f n = at_path q (fun x => match getChild x c with Some y => setChild x c (f y) | None => x end) n.
Proof.
  induction q as [|c' q IH]; intros n; cbn [at_path app]; [reflexivity|]. destruct (getChild n c') as [ch|]; [|reflexivity]. rewrite IH. reflexivity.
Qed.
Lemma at_path_fold {A} q (f : A -> wnode -> wnode) l : forall n g, valid_path q ->
  fold_left (fun r c => at_path q (f c) r) l (at_path q g n) = at_path q (fun x => fold_left (fun x c => f c x) l (g x)) n.
Proof.
  induction l as [|a l IH]; intros n g Hq; cbn [fold_left]; [reflexivity|]. rewrite at_path_comp by exact Hq. apply IH. exact Hq.
Qed.
Lemma look_snoc q c : forall (n x : wnode), nlook q n = Some x -> nlook (q ++ [c]) n = getChild x c.
Proof.
  induction q as [|c' q IH]; intros n x H; cbn [nlook app] in *; [injection H as ->; destruct (getChild x c); reflexivity|].
  destruct (getChild n c'); [|discriminate]. apply IH. exact H.
Qed.

(** A children list set one by one *)
Definition setkids (L : list (Z * wnode)) (x : wnode) : wnode := fold_left (fun x cc => setChild x (fst cc) (snd cc)) L x.
Lemma setkids_data L : forall x, ndata (setkids L x) = ndata x.
Proof. induction L as [|a L IH]; intros x; [reflexivity|]. unfold setkids in *. cbn [fold_left]. rewrite IH. reflexivity. Qed.
Lemma setkids_array L : forall x, hasChildrenArray (setkids L x) = hasChildrenArray x || negb (match L with [] => true | _ => false end).
Proof.
  induction L as [|a L IH]; intros x; [cbn; rewrite Bool.orb_false_r; reflexivity|]. unfold setkids in *. cbn [fold_left]. rewrite IH.
  cbn. rewrite Bool.orb_true_r. reflexivity.
Qed.
Fixpoint assoc (L : list (Z * wnode)) (c : Z) : option wnode :=
  match L with [] => None | (c', ch) :: L' => if c =? c' then Some ch else assoc L' c end.
Lemma assoc_none L c : ~ In c (map fst L) -> assoc L c = None.
Proof.
  induction L as [|[c' ch] L IH]; intros H; [reflexivity|]. cbn [assoc map fst In] in *. destruct (Z.eqb_spec c c') as [->|]; [exfalso; apply H; left; reflexivity|].
  apply IH. intros K. apply H. right. exact K.
Qed.
Lemma setkids_child L : forall x c, NoDup (map fst L) -> 0 <= c < 8 ->
  getChild (setkids L x) c = match assoc L c with Some ch => Some ch | None => getChild x c end.
Proof.
  induction L as [|[c' ch] L IH]; intros x c Hn Hc; [reflexivity|]. unfold setkids in *. cbn [fold_left fst snd assoc map] in *.
  apply NoDup_cons_iff in Hn. destruct Hn as [Hn1 Hn2]. rewrite IH by assumption. rewrite getChild_set by exact Hc.
  destruct (Z.eqb_spec c c') as [->|]; [|reflexivity]. rewrite assoc_none by exact Hn1. reflexivity.
Qed.
Lemma kid_fst n : map fst (kidlist n) = filter (has n) child_ids.
Proof.
  unfold kidlist, has. induction child_ids as [|c l IH]; [reflexivity|]. cbn [flat_map filter]. rewrite map_app, IH.
  destruct (getChild n c); reflexivity.
Qed.
Lemma kid_nodup n : NoDup (map fst (kidlist n)).
Proof. rewrite kid_fst. apply NoDup_filter. exact nodup_child_ids. Qed.
Lemma kid_in n c ch : In (c, ch) (kidlist n) <-> 0 <= c < 8 /\ getChild n c = Some ch.
Proof.
  unfold kidlist. rewrite in_flat_map. split.
  - intros (c' & H & K). apply in_child_ids in H. destruct (getChild n c') as [x|] eqn:E; [|destruct K].
    destruct K as [K|[]]. injection K as <- <-. auto.
  - intros [H E]. exists c. split; [apply in_child_ids; exact H|]. rewrite E. left. reflexivity.
Qed.
Lemma assoc_in L c ch : NoDup (map fst L) -> In (c, ch) L -> assoc L c = Some ch.
Proof.
  induction L as [|[c' ch'] L IH]; intros Hn Hi; [destruct Hi|]. cbn [assoc map fst] in *. apply NoDup_cons_iff in Hn. destruct Hn as [H1 H2].
  destruct Hi as [E|Hi].
  - injection E as -> ->. rewrite Z.eqb_refl. reflexivity.
  - destruct (Z.eqb_spec c c') as [->|]; [|apply IH; assumption]. exfalso. apply H1. apply in_map_iff. exists (c', ch). auto.
Qed.
Lemma assoc_some L c ch : assoc L c = Some ch -> In (c, ch) L.
Proof.
  induction L as [|[c' ch'] L IH]; [discriminate|]. cbn [assoc]. destruct (Z.eqb_spec c c') as [->|]; [intros E; injection E as ->; left; reflexivity|].
  intros E. right. apply IH. exact E.
Qed.
Lemma assoc_kids n c : 0 <= c < 8 -> assoc (kidlist n) c = getChild n c.
Proof.
  intros Hc. destruct (getChild n c) as [ch|] eqn:E.
  - apply assoc_in; [apply kid_nodup|]. apply kid_in. auto.
  - destruct (assoc (kidlist n) c) as [x|] eqn:A; [|reflexivity]. apply assoc_some, kid_in in A. destruct A as [_ A]. congruence.
Qed.
Lemma assoc_map f L c : assoc (map (fun x => (fst x, f (snd x))) L) c = option_map f (assoc L c).
Proof. induction L as [|[c' ch] L IH]; [reflexivity|]. cbn [map assoc fst snd]. destruct (c =? c'); [reflexivity|exact IH]. Qed.

(** Allocating the children of a fresh node *)
Definition alloc_kids (l : list Z) (x : wnode) : wnode := fold_left (fun x c => setChild x c (childOrNew (dzero N) x c)) l x.
Lemma alloc_kids_spec l : forall x, (forall c, In c l -> 0 <= c < 8) -> 
  ndata (alloc_kids l x) = ndata x /\
  hasChildrenArray (alloc_kids l x) = hasChildrenArray x || negb (match l with [] => true | _ => false end) /\
  forall c, 0 <= c < 8 -> getChild (alloc_kids l x) c = match getChild x c with Some y => Some y | None => if existsb (Z.eqb c) l then Some fresh else None end.
Proof.
  induction l as [|a l IH]; intros x Hl.
  - cbn. split; [reflexivity|]. split; [rewrite Bool.orb_false_r; reflexivity|]. intros c _. destruct (getChild x c); reflexivity.
  - unfold alloc_kids in *. cbn [fold_left].
    destruct (IH (setChild x a (childOrNew (dzero N) x a)) (fun c H => Hl c (or_intror H))) as (I1 & I2 & I3).
    rewrite I1, I2. split; [reflexivity|]. split; [cbn; rewrite Bool.orb_true_r; reflexivity|]. intros c Hc. rewrite I3 by exact Hc.
    rewrite getChild_set by exact Hc. cbn [existsb]. destruct (Z.eqb_spec c a) as [->|Hn]; cbn [orb].
    + unfold childOrNew. destruct (getChild x a); reflexivity.
    + reflexivity.
Qed.

Definition rest_size (L : list (Z * wnode)) : nat := list_sum (map (fun x => nsize (snd x)) L).
Lemma nsize_eq n : nsize n = S (rest_size (kidlist n)).
Proof.
  destruct n as [d [k|]]; [|reflexivity]. cbn [nsize]. f_equal. unfold rest_size, kidlist, getChild. cbn [nkids].
  destruct k as [a0 a1 a2 a3 a4 a5 a6 a7]. cbn [omap olist child_ids flat_map oget].
  rewrite !map_app, !list_sum_app.
  destruct a0, a1, a2, a3, a4, a5, a6, a7; cbn [map snd list_sum fold_right]; lia.
Qed.
Definition nfaith (n : wnode) : Prop := forall q x, valid_path q -> nlook q n = Some x -> Forall (faithful) (dlist (ndata x)).
Lemma nfaith_child n c ch : nfaith n -> 0 <= c < 8 -> getChild n c = Some ch -> nfaith ch.
Proof. intros F Hc E q x Hq H. apply (F (c :: q) x); [constructor; assumption|]. cbn [nlook]. rewrite E. exact H. Qed.

Notation r_tree := (r_tree N dec).
(** Reading the bytes of a tree into a fresh node *)
Definition reads (n : wnode) : Prop := forall fuel q st root rest, valid_path q -> nlook q root = Some fresh -> (nsize n <= fuel)%nat ->
  r_tree fuel (q :: st) root (IS (ser n ++ rest) true) = r_tree (fuel - nsize n) st (at_path q (fun _ => norm n) root) (IS rest true).
Lemma reads_seq q st L : forall fuel root x rest, valid_path q -> NoDup (map fst L) -> (forall c ch, In (c, ch) L -> 0 <= c < 8 /\ reads ch) ->
  nlook q root = Some x -> (forall c ch, In (c, ch) L -> getChild x c = Some fresh) -> (rest_size L <= fuel)%nat ->
  r_tree fuel (map (fun c => q ++ [c]) (map fst L) ++ st) root (IS (flat_map (fun x => ser (snd x)) L ++ rest) true) =
  r_tree (fuel - rest_size L) st (at_path q (setkids (map (fun x => (fst x, norm (snd x))) L)) root) (IS rest true).
Proof.
  induction L as [|[c ch] L IH]; intros fuel root x rest Hq Hn HL Hx Hk Hf.
  - cbn [map app flat_map]. replace (fuel - rest_size [])%nat with fuel by (unfold rest_size; cbn; lia). f_equal.
    clear - Hx. assert (K : forall q root x, nlook q root = Some x -> at_path q (setkids []) root = root).
    { clear. induction q as [|c q IH]; intros root x H; cbn [at_path nlook] in *; [reflexivity|]. destruct (getChild root c) as [ch|] eqn:E; [|reflexivity].
      rewrite (IH ch x H). apply node_ext; [reflexivity| |].
      - unfold hasChildrenArray, setChild. cbn [nkids]. unfold getChild in E. destruct (nkids root); [reflexivity|discriminate].
      - intros c' Hc. rewrite getChild_set by exact Hc. destruct (Z.eqb_spec c' c) as [->|]; [symmetry; exact E|reflexivity]. }
    symmetry. exact (K q root x Hx).
  - cbn [map fst app flat_map snd]. rewrite <- app_assoc. destruct (HL c ch (or_introl eq_refl)) as [Hc R].
    unfold rest_size in Hf. cbn [map snd list_sum fold_right] in Hf. fold (list_sum (map (fun x => nsize (snd x)) L)) in Hf. fold (rest_size L) in Hf.
    apply NoDup_cons_iff in Hn. destruct Hn as [Hn1 Hn2].
    rewrite R; [|apply Forall_app; split; [exact Hq|repeat constructor; lia]|rewrite (look_snoc q c root x Hx); apply (Hk c ch); left; reflexivity|lia].
    rewrite at_path_snoc.
    rewrite (at_path_ext q (fun x => match getChild x c with Some y => setChild x c ((fun _ => norm ch) y) | None => x end) (fun x => setChild x c (norm ch)) root x Hx) by (cbv beta; rewrite (Hk c ch (or_introl eq_refl)); reflexivity).
    rewrite (IH (fuel - nsize ch)%nat _ (setChild x c (norm ch)) rest Hq Hn2); [| | | |lia].
    + rewrite at_path_comp by exact Hq. unfold rest_size. cbn [map snd list_sum fold_right]. fold (list_sum (map (fun x => nsize (snd x)) L)).
      replace (fuel - nsize ch - list_sum (map (fun x0 => nsize (snd x0)) L))%nat with (fuel - (nsize ch + list_sum (map (fun x0 => nsize (snd x0)) L)))%nat by lia.
      reflexivity.
    + intros c' ch' Hi. apply HL. right. exact Hi.
    + exact (look_at_path q (fun x => setChild x c (norm ch)) root x Hq Hx).
    + intros c' ch' Hi. rewrite getChild_set by (apply (HL c' ch'); right; exact Hi). destruct (Z.eqb_spec c' c) as [->|].
      * exfalso. apply Hn1. apply in_map_iff. exists (c, ch'). auto.
      * apply (Hk c' ch'). right. exact Hi.
Qed.
Lemma reads_tree n : nfaith n -> reads n.
Proof.
  induction n as [n IH] using node_ind_child. intros F fuel q st root rest Hq Hx Hf.
  rewrite nsize_eq in *. destruct fuel as [|fuel]; [lia|]. rewrite ser_eq, <- app_assoc. cbn [M_Stream.r_tree].
  rewrite r_node_app; [|apply (F [] n); [constructor|reflexivity]|apply child_bits_range].
  assert (EF : filter (fun c => Z.testbit (child_bits (has n)) c) (rev child_ids) = rev (map fst (kidlist n))).
  { rewrite filter_rev, kid_fst. f_equal. apply filter_ext_in. intros c Hc. apply child_bits_spec. apply in_child_ids. exact Hc. }
  rewrite EF. rewrite (push_rev (fun c => q ++ [c])).
  rewrite (at_path_fold q (fun c n => setChild n c (childOrNew (dzero N) n c)) (rev (map fst (kidlist n))) root (fun n0 => Node (ndata n) (nkids n0)) Hq).
  set (A := alloc_kids (rev (map fst (kidlist n))) (Node (ndata n) None)).
  match goal with |- context [at_path q ?f root] => rewrite (at_path_ext q f (fun _ => A) root fresh Hx eq_refl) end.
  assert (RG : forall c, In c (rev (map fst (kidlist n))) -> 0 <= c < 8).
  { intros c Hc. apply in_rev in Hc. apply in_map_iff in Hc. destruct Hc as ([c' ch] & <- & Hi). apply kid_in in Hi. tauto. }
  destruct (alloc_kids_spec _ (Node (ndata n) None) RG) as (A1 & A2 & A3). fold A in A1, A2, A3.
  rewrite (reads_seq q st (kidlist n) fuel _ A rest Hq (kid_nodup n)); [| | | |lia].
  - rewrite at_path_comp by exact Hq. replace (S fuel - S (rest_size (kidlist n)))%nat with (fuel - rest_size (kidlist n))%nat by lia. f_equal.
    apply (at_path_ext q _ _ root fresh Hx). apply node_ext.
    + rewrite setkids_data, A1, norm_data. reflexivity.
    + rewrite setkids_array, A2, norm_array. cbn [hasChildrenArray nkids orb].
      assert (E1 : existsb (has n) child_ids = negb (match kidlist n with [] => true | _ => false end)).
      { pose proof (kid_fst n) as KF. destruct (kidlist n) as [|[c ch] l] eqn:EK; cbn [negb].
        - apply Bool.not_true_iff_false. intros E. apply existsb_exists in E. destruct E as (c & H1 & H2).
          assert (K : In c (filter (has n) child_ids)) by (apply filter_In; auto). rewrite <- KF in K. exact K.
        - apply existsb_exists. exists c. apply filter_In. rewrite <- KF. left. reflexivity. }
      rewrite E1. destruct (kidlist n) as [|[c ch] l]; [reflexivity|]. cbn [map fst rev]. cbn [negb].
      destruct (rev (map fst l) ++ [c]) eqn:X; [destruct (rev (map fst l)); discriminate|reflexivity].
    + intros c Hc. rewrite setkids_child; [|rewrite map_map; cbn [fst]; exact (kid_nodup n)|exact Hc].
      rewrite assoc_map, assoc_kids, norm_child, A3 by exact Hc. destruct (getChild n c) eqn:E; [reflexivity|].
      cbn [option_map getChild nkids]. destruct (existsb (Z.eqb c) _) eqn:X; [|reflexivity]. exfalso.
      apply existsb_exists in X. destruct X as (c' & Hi & Ec). apply Z.eqb_eq in Ec. subst c'. apply in_rev in Hi. apply in_map_iff in Hi.
      destruct Hi as ([c' ch] & E2 & Hi). cbn in E2. subst c'. apply kid_in in Hi. destruct Hi as [_ Hi]. congruence.
  - intros c ch Hi. apply kid_in in Hi. destruct Hi as [Hc E]. split; [exact Hc|]. apply (IH c ch E). exact (nfaith_child n c ch F Hc E).
  - apply (look_at_path q (fun _ => A) root fresh Hq Hx).
  - intros c ch Hi. assert (Hc : 0 <= c < 8) by (apply kid_in in Hi; tauto). rewrite A3 by exact Hc. cbn [getChild nkids].
    replace (existsb (Z.eqb c) _) with true; [reflexivity|]. symmetry. apply existsb_exists. exists c. split; [|apply Z.eqb_refl].
    apply -> in_rev. apply in_map_iff. exists (c, ch). auto.
Qed.
Corollary read_tree n fuel rest : nfaith n -> (nsize n <= fuel)%nat -> r_tree fuel [[]] fresh (IS (ser n ++ rest) true) = Some (norm n, IS rest true).
Proof.
  intros F Hf. rewrite (reads_tree n F fuel [] [] fresh rest); [|constructor|reflexivity|exact Hf]. cbn [at_path].
  destruct (fuel - nsize n)%nat; reflexivity.
Qed.
End FS.
