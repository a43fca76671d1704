(** Facts about the writers and the loading loops of M_Stream.v *)
From Verif Require Import Base M_IntMath F_IntMath M_NdtreeIndex M_Num M_Haar M_Haar3 F_Haar3 M_Ndtree F_Hash M_Wavelet
  M_HashedBlocks M_Chunked M_Subtree F_Wavelet F_Wavelet2 M_Octree F_Octree P_Subtree M_Stream F_Stream.

Lemma prepend_rev {A B} (g : A -> list B) (f : list B -> A -> list B) l : (forall st c, f st c = g c ++ st) ->
  forall st, fold_left f (rev l) st = flat_map g l ++ st.
Proof.
  intros H. induction l as [|a l IH]; intros st; [reflexivity|]. cbn [rev flat_map]. rewrite fold_left_app, IH. cbn [fold_left]. rewrite H, app_assoc. reflexivity.
Qed.

Section FS2.
Context {V : Type} (N : num V) (enc : V -> Z) (dec : Z -> V).
Notation wnode := (node (det V)).
Notation r_f32 := (r_f32 dec). Notation w_f32 := (w_f32 enc).
Notation r_node := (r_node dec). Notation w_node := (w_node enc).
Notation faithful := (faithful enc dec). Notation nfaith := (nfaith enc dec).
Notation ser := (ser enc).
Notation wconf := (wconfig (V := V)).
Notation fresh := (Node (dzero N) None : wnode).

(** ** Writing trees *)
Lemma iterate_ser fuel : forall D l, iterate pre_next fuel D = Some l ->
  flat_map (fun x => w_node (ndata (snd x)) (child_bits (has (snd x)))) l = flat_map (fun x : ptr => ser (snd x)) D.
Proof.
  induction fuel as [|fuel IH]; intros [|x D] l H; cbn [iterate] in H; try discriminate; try (injection H as <-; reflexivity).
  destruct (iterate pre_next fuel (pre_next (x :: D))) as [l'|] eqn:E; [|discriminate]. cbn in H. injection H as <-.
  apply IH in E. cbn [pre_next] in E. rewrite pre_enqueue_eq, flat_map_app in E. cbn [flat_map]. rewrite E, ser_eq, <- !app_assoc. f_equal. f_equal.
  unfold pkids, kids_of, kidlist. clear. induction child_ids as [|c l IH]; [reflexivity|]. cbn [flat_map]. rewrite !flat_map_app, IH. f_equal.
  unfold pchild. destruct (getChild (snd x) c); reflexivity.
Qed.

(** The tree without the children whose average is saturated *)
Definition kidval (s : V) (n : wnode) (c : Z) : V := oget (backward3 N s (ndata n)) c.
Fixpoint keep (C : wconf) (s : V) (n : wnode) : wnode :=
  match n with Node d kids =>
    Node d (match kids with
            | None => None
            | Some k => Some (otab (fun c => if saturated N C (oget (backward3 N s d) c) then None
                                             else option_map (keep C (oget (backward3 N s d) c)) (oget k c)))
            end)
  end.
Lemma keep_data C s n : ndata (keep C s n) = ndata n.
Proof. destruct n; reflexivity. Qed.
Lemma keep_child C s n c : 0 <= c < 8 -> getChild (keep C s n) c =
  if saturated N C (kidval s n c) then None else option_map (keep C (kidval s n c)) (getChild n c).
Proof.
  intros Hc. unfold kidval. destruct n as [d [k|]]; unfold getChild; cbn [keep nkids ndata].
  - rewrite oget_otab by exact Hc. reflexivity.
  - destruct (saturated _ _ _); reflexivity.
Qed.
Definition keptlist (C : wconf) (s : V) (n : wnode) : list (V * wnode) :=
  flat_map (fun c => if saturated N C (kidval s n c) then [] else match getChild n c with Some ch => [(kidval s n c, ch)] | None => [] end) child_ids.
Lemma keep_kids C s n : map snd (kidlist (keep C s n)) = map (fun x => keep C (fst x) (snd x)) (keptlist C s n).
Proof.
  unfold kidlist, keptlist. assert (H : forall c, In c child_ids -> 0 <= c < 8) by (intros c Hc; apply in_child_ids; exact Hc).
  induction child_ids as [|c l IH]; [reflexivity|]. cbn [flat_map]. rewrite !map_app, IH by (intros; apply H; right; assumption). f_equal.
  rewrite keep_child by (apply H; left; reflexivity). destruct (saturated N C (kidval s n c)); [reflexivity|]. destruct (getChild n c); reflexivity.
Qed.
Lemma flat_map_snd {A B D} (f : B -> list D) (l : list (A * B)) : flat_map (fun x => f (snd x)) l = flat_map f (map snd l).
Proof. induction l as [|a l IH]; [reflexivity|]. cbn [flat_map map]. rewrite IH. reflexivity. Qed.
Lemma ser_keep C s n : ser (keep C s n) =
  w_node (ndata n) (child_bits (fun c => negb (saturated N C (kidval s n c)) && has n c)) ++
  flat_map (fun x => ser (keep C (fst x) (snd x))) (keptlist C s n).
Proof.
  rewrite ser_eq, keep_data, flat_map_snd, keep_kids. f_equal.
  - f_equal. apply child_bits_ext. intros c Hc. unfold has. rewrite keep_child by exact Hc.
    destruct (saturated N C (kidval s n c)); [reflexivity|]. destruct (getChild n c); reflexivity.
  - induction (keptlist C s n) as [|a l IH]; [reflexivity|]. cbn [map flat_map]. rewrite IH. reflexivity.
Qed.
Definition ksize (C : wconf) (x : V * wnode) : nat := nsize (keep C (fst x) (snd x)).
Lemma nsize_keep C s n : nsize (keep C s n) = S (list_sum (map (ksize C) (keptlist C s n))).
Proof.
  rewrite nsize_eq. f_equal. unfold rest_size. rewrite <- (map_map snd nsize), keep_kids, map_map. reflexivity.
Qed.
Notation hw_save_loop := (hw_save_loop N enc).
Lemma save_loop_eq C : forall fuel st, (list_sum (map (ksize C) st) <= fuel)%nat ->
  hw_save_loop fuel C st = Some (flat_map (fun x => ser (keep C (fst x) (snd x))) st).
Proof.
  induction fuel as [|fuel IH]; intros [|[s n] st] H; try reflexivity; cbn [map list_sum fold_right] in H; fold (list_sum (map (ksize C) st)) in H;
    unfold ksize at 1 in H; cbn [fst snd] in H; rewrite nsize_keep in H; [lia|].
  cbn [M_Stream.hw_save_loop flat_map fst snd].
  rewrite (prepend_rev (fun c => if saturated N C (kidval s n c) then [] else match getChild n c with Some ch => [(kidval s n c, ch)] | None => [] end)).
  2:{ intros st' c. unfold kidval. destruct (saturated _ _ _); [reflexivity|]. destruct (getChild n c); reflexivity. }
  change (flat_map _ child_ids) with (keptlist C s n). rewrite IH by (rewrite map_app, list_sum_app; lia).
  cbn [option_map]. rewrite ser_keep, flat_map_app, <- !app_assoc. reflexivity.
Qed.
Lemma save_loop_mono C fuel : forall st l, hw_save_loop fuel C st = Some l -> forall fuel', (fuel <= fuel')%nat -> hw_save_loop fuel' C st = Some l.
Proof.
  induction fuel as [|fuel IH]; intros [|[s n] st] l H fuel' Hf; cbn [M_Stream.hw_save_loop] in H; try discriminate.
  - destruct fuel'; exact H.
  - destruct fuel'; exact H.
  - destruct fuel' as [|fuel']; [lia|]. cbn [M_Stream.hw_save_loop]. cbv zeta in *.
    match type of H with option_map _ ?e = _ => destruct e as [l'|] eqn:E; [|discriminate] end.
    rewrite (IH _ _ E fuel') by lia. exact H.
Qed.
Lemma save_loop_result C fuel st l : hw_save_loop fuel C st = Some l -> l = flat_map (fun x => ser (keep C (fst x) (snd x))) st.
Proof.
  intros H. pose proof (save_loop_mono C fuel st l H (max fuel (list_sum (map (ksize C) st))) ltac:(lia)) as K.
  rewrite save_loop_eq in K by lia. injection K as <-. reflexivity.
Qed.
Lemma ksize_le C : forall n s, (nsize (keep C s n) <= nsize n)%nat.
Proof.
  induction n as [n IH] using node_ind_child. intros s. rewrite nsize_keep, (nsize_eq n). apply le_n_S. unfold keptlist, rest_size, kidlist.
  assert (H : forall c, In c child_ids -> 0 <= c < 8) by (intros c Hc; apply in_child_ids; exact Hc).
  induction child_ids as [|c l IHl]; [reflexivity|]. cbn [flat_map]. rewrite !map_app, !list_sum_app.
  specialize (IHl (fun c H' => H c (or_intror H'))).
  assert (K : (list_sum (map (ksize C) (if saturated N C (kidval s n c) then [] else match getChild n c with Some ch => [(kidval s n c, ch)] | None => [] end)) <=
            list_sum (map (fun x : Z * wnode => nsize (snd x)) match getChild n c with Some ch => [(c, ch)] | None => [] end))%nat).
  { destruct (getChild n c) as [ch|] eqn:E; destruct (saturated _ _ _); cbn [map list_sum fold_right]; try lia.
    unfold ksize. cbn [fst snd]. specialize (IH c ch E (kidval s n c)). lia. }
  lia.
Qed.
Lemma ser_length n : (29 * nsize n <= length (ser n))%nat.
Proof.
  induction n as [n IH] using node_ind_child. rewrite ser_eq, app_length, nsize_eq.
  replace (length (w_node (ndata n) (child_bits (has n)))) with 29%nat.
  2:{ unfold M_Stream.w_node, M_Stream.w_f32. destruct (ndata n). reflexivity. }
  assert (K : (29 * rest_size (kidlist n) <= length (flat_map (fun x => ser (snd x)) (kidlist n)))%nat); [|lia].
  assert (H : forall c ch, In (c, ch) (kidlist n) -> (29 * nsize ch <= length (ser ch))%nat).
  { intros c ch Hi. apply kid_in in Hi. destruct Hi as [_ E]. exact (IH c ch E). }
  unfold rest_size. induction (kidlist n) as [|[c ch] l IHl]; [cbn; lia|]. cbn [map snd list_sum fold_right flat_map]. rewrite app_length.
  specialize (H c ch (or_introl eq_refl)) as H0. specialize (IHl (fun c' ch' Hi => H c' ch' (or_intror Hi))).
  fold (list_sum (map (fun x : Z * wnode => nsize (snd x)) l)). lia.
Qed.
Lemma keep_faith C : forall n s, nfaith n -> nfaith (keep C s n).
Proof.
  induction n as [n IH] using node_ind_child. intros s F q x Hq H. destruct q as [|c q]; cbn [nlook] in H.
  - injection H as <-. rewrite keep_data. apply (F [] n); [constructor|reflexivity].
  - apply Forall_cons_iff in Hq. destruct Hq as [Hc Hq]. rewrite keep_child in H by exact Hc.
    destruct (saturated _ _ _); [discriminate|]. destruct (getChild n c) as [ch|] eqn:E; [|discriminate]. cbn [option_map] in H.
    refine (IH c ch E (kidval s n c) (nfaith_child enc dec n c ch F Hc E) q x Hq H).
Qed.

(** ** Loops with fuel *)
Definition olocal {A} (f : istream -> option (A * istream)) : Prop :=
  (forall s a s', f s = Some (a, s') -> igood s = false -> igood s' = false) /\
  forall b a r, f (IS b true) = Some (a, IS r true) -> (exists p, b = p ++ r) /\ forall c, f (IS (b ++ c) true) = Some (a, IS (r ++ c) true).
Lemma olocal_ret {A} (a : A) : olocal (fun s => Some (a, s)).
Proof.
  split; [intros s a' s' E; injection E as _ <-; auto|]. intros b a' r E. injection E as <- <-. split; [exists []; reflexivity|reflexivity].
Qed.
Lemma olocal_none {A} : olocal (fun _ => @None (A * istream)).
Proof. split; discriminate. Qed.
Lemma olocal_bind {A B} (f : istream -> A * istream) (g : A -> istream -> option (B * istream)) : local f -> (forall a, olocal (g a)) ->
  olocal (fun s => let '(a, s1) := f s in g a s1).
Proof.
  intros [F1 F2] G. split.
  - intros s b s' E H. specialize (F1 s H). destruct (f s) as [a s1]. exact (proj1 (G a) s1 b s' E F1).
  - intros b x r. destruct (f (IS b true)) as [a [r1 g1]] eqn:E. destruct g1.
    + intros E2. destruct (F2 b a r1 E) as [[p Hp] F3]. destruct (proj2 (G a) r1 x r E2) as [[p2 Hp2] G3]. split.
      * exists (p ++ p2). rewrite <- app_assoc, <- Hp2. exact Hp.
      * intros c. rewrite F3. apply G3.
    + intros E2. pose proof (proj1 (G a) (IS r1 false) _ _ E2 eq_refl) as K. discriminate.
Qed.
Lemma olocal_obind {A B} (f : istream -> option (A * istream)) (g : A -> istream -> option (B * istream)) : olocal f -> (forall a, olocal (g a)) ->
  olocal (fun s => match f s with None => None | Some (a, s1) => g a s1 end).
Proof.
  intros [F1 F2] G. split.
  - intros s b s' E H. destruct (f s) as [[a s1]|] eqn:Ef; [|discriminate]. exact (proj1 (G a) s1 b s' E (F1 s a s1 Ef H)).
  - intros b x r. destruct (f (IS b true)) as [[a [r1 g1]]|] eqn:E; [|discriminate]. destruct g1.
    + intros E2. destruct (F2 b a r1 E) as [[p Hp] F3]. destruct (proj2 (G a) r1 x r E2) as [[p2 Hp2] G3]. split.
      * exists (p ++ p2). rewrite <- app_assoc, <- Hp2. exact Hp.
      * intros c. rewrite F3. apply G3.
    + intros E2. pose proof (proj1 (G a) (IS r1 false) _ _ E2 eq_refl) as K. discriminate.
Qed.
(** Leaving the loop when the stream is not good *)
Lemma olocal_guard {A} (a : A) (f : istream -> option (A * istream)) : olocal f -> olocal (fun s => if negb (igood s) then Some (a, s) else f s).
Proof.
  intros [F1 F2]. split.
  - intros s x s' E H. rewrite H in E. cbn in E. injection E as _ <-. exact H.
  - intros b x r E. exact (F2 b x r E).
Qed.
Lemma olocal_ext {A} (f g : istream -> option (A * istream)) : (forall s, f s = g s) -> olocal f -> olocal g.
Proof.
  intros H [F1 F2]. split.
  - intros s a s' E. rewrite <- H in E. exact (F1 s a s' E).
  - intros b a r E. rewrite <- H in E. destruct (F2 b a r E) as [P Q]. split; [exact P|]. intros c. rewrite <- H. apply Q.
Qed.
Definition r_kids (bits : Z) : list Z := filter (fun c => Z.testbit bits c) (rev child_ids).
Definition r_root (q : list Z) (d : det V) (bits : Z) (root : wnode) : wnode :=
  fold_left (fun r c => at_path q (fun n => setChild n c (childOrNew (dzero N) n c)) r) (r_kids bits) (at_path q (fun n => Node d (nkids n)) root).
Definition r_stack (q : list Z) (bits : Z) (st : list (list Z)) : list (list Z) := fold_left (fun st c => (q ++ [c]) :: st) (r_kids bits) st.
Lemma r_tree_S fuel q st root s : r_tree N dec (S fuel) (q :: st) root s =
  let '(db, s1) := r_node s in r_tree N dec fuel (r_stack q (snd db) st) (r_root q (fst db) (snd db) root) s1.
Proof. unfold r_root, r_stack, r_kids. cbn [r_tree]. destruct (r_node s) as [[d bits] s1]. reflexivity. Qed.
Lemma olocal_tree fuel : forall st root, olocal (r_tree N dec fuel st root).
Proof.
  induction fuel as [|fuel IH]; intros [|q st] root; try apply olocal_ret; [apply olocal_none|].
  refine (olocal_ext _ _ (fun s => eq_sym (r_tree_S fuel q st root s)) _).
  apply (olocal_bind r_node); [exact (local_node dec)|]. intros db. apply IH.
Qed.
Lemma local_cells n : local (r_cells dec n).
Proof.
  induction n as [|n IH]; cbn [r_cells]; [apply local_ret|]. apply (local_bind r_f32); [exact (local_f32 dec)|intros v].
  apply (local_map (r_cells dec n) (fun l => v :: l)). exact IH.
Qed.
Lemma olocal_hb_blocks C fuel : forall num m, olocal (hb_load_blocks dec fuel C num m).
Proof.
  induction fuel as [|fuel IH]; intros num m; cbn [hb_load_blocks]; destruct (num <=? 0); try apply olocal_ret; [apply olocal_none|].
  apply olocal_guard. apply (olocal_bind r_index); [exact local_index|intros i]. apply (olocal_bind (r_cells dec _)); [apply local_cells|intros cells]. apply IH.
Qed.
Lemma olocal_hw_blocks now fuel : forall num m, olocal (hw_load_blocks N dec fuel now num m).
Proof.
  induction fuel as [|fuel IH]; intros num m; cbn [hw_load_blocks]; destruct (num <=? 0); try apply olocal_ret; [apply olocal_none|].
  apply olocal_guard. apply (olocal_bind r_index); [exact local_index|intros i]. apply (olocal_bind r_f32); [exact (local_f32 dec)|intros scale].
  apply olocal_obind; [apply olocal_tree|]. intros root. apply IH.
Qed.
End FS2.
