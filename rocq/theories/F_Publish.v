(** Facts about messages: what is sent is what is received *)
From Verif Require Import Base M_IntMath F_IntMath M_NdtreeIndex M_Num M_Haar M_Haar3 F_Haar3 M_Ndtree F_Hash M_Wavelet
  M_HashedBlocks M_Chunked M_Subtree F_Wavelet F_Wavelet2 M_Octree F_Octree P_Subtree M_Stream F_Stream F_Stream2 M_Publish.

Section FP.
Context {V : Type} (N : num V).
Notation wnode := (node (det V)).
Notation fresh := (Node (dzero N) None : wnode).
Notation wconf := (wconfig (V := V)).
(** The node messages of a tree *)
Fixpoint mser (n : wnode) : list (nmsg V) :=
  match n with Node d kids =>
    (d, child_bits (has n)) ::
    match kids with
    | None => []
    | Some k => concat (olist (omap (fun o => match o with None => [] | Some ch => mser ch end) k))
    end
  end.
Lemma mser_eq n : mser n = (ndata n, child_bits (has n)) :: flat_map (fun x => mser (snd x)) (kidlist n).
Proof.
  destruct n as [d [k|]]; cbn [mser ndata]; f_equal.
  unfold kidlist, getChild. cbn [nkids]. destruct k as [a0 a1 a2 a3 a4 a5 a6 a7]. cbn [omap olist concat child_ids flat_map oget].
  rewrite !flat_map_app.
  destruct a0, a1, a2, a3, a4, a5, a6, a7; cbn [flat_map snd]; rewrite ?app_nil_r; reflexivity.
Qed.
Lemma mser_keep C s n : mser (keep N C s n) =
  (ndata n, child_bits (fun c => negb (saturated N C (kidval N s n c)) && has n c)) ::
  flat_map (fun x => mser (keep N C (fst x) (snd x))) (keptlist N C s n).
Proof.
  rewrite mser_eq, keep_data, flat_map_snd, keep_kids. f_equal.
  - f_equal. apply child_bits_ext. intros c Hc. unfold has. rewrite keep_child by exact Hc.
    destruct (saturated N C (kidval N s n c)); [reflexivity|]. destruct (getChild n c); reflexivity.
  - induction (keptlist N C s n) as [|a l IH]; [reflexivity|]. cbn [map flat_map]. rewrite IH. reflexivity.
Qed.
Lemma ros_nodes_eq C : forall fuel st, (list_sum (map (ksize N C) st) <= fuel)%nat ->
  ros_nodes N fuel C st = Some (flat_map (fun x => mser (keep N C (fst x) (snd x))) st).
Proof.
  induction fuel as [|fuel IH]; intros [|[s n] st] H; try reflexivity; cbn [map list_sum fold_right] in H; fold (list_sum (map (ksize N C) st)) in H;
    unfold ksize at 1 in H; cbn [fst snd] in H; rewrite nsize_keep in H; [lia|].
  cbn [ros_nodes flat_map fst snd].
  rewrite (prepend_rev (fun c => if saturated N C (kidval N s n c) then [] else match getChild n c with Some ch => [(kidval N s n c, ch)] | None => [] end)).
  2:{ intros st' c. unfold kidval. destruct (saturated _ _ _); [reflexivity|]. destruct (getChild n c); reflexivity. }
  change (flat_map _ child_ids) with (keptlist N C s n). rewrite IH by (rewrite map_app, list_sum_app; lia).
  cbn [option_map]. rewrite mser_keep, flat_map_app. reflexivity.
Qed.
Lemma iterate_mser fuel : forall D l, iterate pre_next fuel D = Some l ->
  map (fun x => (ndata (snd x), child_bits (has (snd x)))) l = flat_map (fun x : ptr => mser (snd x)) D.
Proof.
  induction fuel as [|fuel IH]; intros [|x D] l H; cbn [iterate] in H; try discriminate; try (injection H as <-; reflexivity).
  destruct (iterate pre_next fuel (pre_next (x :: D))) as [l'|] eqn:E; [|discriminate]. cbn in H. injection H as <-.
  apply IH in E. cbn [pre_next] in E. rewrite pre_enqueue_eq, flat_map_app in E. cbn [flat_map map]. rewrite E, mser_eq. cbn [app]. f_equal. f_equal.
  unfold pkids, kids_of, kidlist. clear. induction child_ids as [|c l IH]; [reflexivity|]. cbn [flat_map]. rewrite !flat_map_app, IH. f_equal.
  unfold pchild. destruct (getChild (snd x) c); reflexivity.
Qed.

(** Receiving a tree into a fresh node *)
Definition mreads (n : wnode) : Prop := forall q st root rest, valid_path q -> nlook q root = Some fresh ->
  ros_tree N (mser n ++ rest) (q :: st) root = ros_tree N rest st (at_path q (fun _ => norm n) root).
Lemma mreads_seq q st L : forall root x rest, valid_path q -> NoDup (map fst L) -> (forall c ch, In (c, ch) L -> 0 <= c < 8 /\ mreads ch) ->
  nlook q root = Some x -> (forall c ch, In (c, ch) L -> getChild x c = Some fresh) ->
  ros_tree N (flat_map (fun x => mser (snd x)) L ++ rest) (map (fun c => q ++ [c]) (map fst L) ++ st) root =
  ros_tree N rest st (at_path q (setkids (map (fun x => (fst x, norm (snd x))) L)) root).
Proof.
  induction L as [|[c ch] L IH]; intros root x rest Hq Hn HL Hx Hk.
  - cbn [map app flat_map]. f_equal.
    clear - Hx. assert (K : forall q (root x : wnode), nlook q root = Some x -> at_path q (setkids []) root = root).
    { clear. induction q as [|c q IH]; intros root x H; cbn [at_path nlook] in *; [reflexivity|]. destruct (getChild root c) as [ch|] eqn:E; [|reflexivity].
      rewrite (IH ch x H). apply node_ext; [reflexivity| |].
      - unfold hasChildrenArray, setChild. cbn [nkids]. unfold getChild in E. destruct (nkids root); [reflexivity|discriminate].
      - intros c' Hc. rewrite getChild_set by exact Hc. destruct (Z.eqb_spec c' c) as [->|]; [symmetry; exact E|reflexivity]. }
    symmetry. exact (K q root x Hx).
  - cbn [map fst app flat_map snd]. rewrite <- app_assoc. destruct (HL c ch (or_introl eq_refl)) as [Hc R].
    apply NoDup_cons_iff in Hn. destruct Hn as [Hn1 Hn2].
    rewrite R; [|apply Forall_app; split; [exact Hq|repeat constructor; lia]|rewrite (look_snoc q c root x Hx); apply (Hk c ch); left; reflexivity].
    rewrite at_path_snoc.
    rewrite (at_path_ext q (fun x => match getChild x c with Some y => setChild x c ((fun _ => norm ch) y) | None => x end) (fun x => setChild x c (norm ch)) root x Hx) by (cbv beta; rewrite (Hk c ch (or_introl eq_refl)); reflexivity).
    rewrite (IH _ (setChild x c (norm ch)) rest Hq Hn2).
    + rewrite at_path_comp by exact Hq. reflexivity.
    + intros c' ch' Hi. apply HL. right. exact Hi.
    + exact (look_at_path q (fun x => setChild x c (norm ch)) root x Hq Hx).
    + intros c' ch' Hi. rewrite getChild_set by (apply (HL c' ch'); right; exact Hi). destruct (Z.eqb_spec c' c) as [->|].
      * exfalso. apply Hn1. apply in_map_iff. exists (c, ch'). auto.
      * apply (Hk c' ch'). right. exact Hi.
Qed.
Lemma mreads_tree n : mreads n.
Proof.
  induction n as [n IH] using node_ind_child. intros q st root rest Hq Hx.
  rewrite mser_eq. cbn [app ros_tree].
  assert (EF : filter (fun c => Z.testbit (child_bits (has n)) c) (rev child_ids) = rev (map fst (kidlist n))).
  { rewrite filter_rev, kid_fst. f_equal. apply filter_ext_in. intros c Hc. apply child_bits_spec. apply in_child_ids. exact Hc. }
  rewrite EF. rewrite (push_rev (fun c => q ++ [c])).
  rewrite (at_path_fold q (fun c n => setChild n c (childOrNew (dzero N) n c)) (rev (map fst (kidlist n))) root (fun n0 => Node (ndata n) (nkids n0)) Hq).
  set (A := alloc_kids N (rev (map fst (kidlist n))) (Node (ndata n) None)).
  match goal with |- context [at_path q ?f root] => rewrite (at_path_ext q f (fun _ => A) root fresh Hx eq_refl) end.
  assert (RG : forall c, In c (rev (map fst (kidlist n))) -> 0 <= c < 8).
  { intros c Hc. apply in_rev in Hc. apply in_map_iff in Hc. destruct Hc as ([c' ch] & <- & Hi). apply kid_in in Hi. tauto. }
  destruct (alloc_kids_spec N _ (Node (ndata n) None) RG) as (A1 & A2 & A3). fold A in A1, A2, A3.
  rewrite (mreads_seq q st (kidlist n) _ A rest Hq (kid_nodup n)).
  - rewrite at_path_comp by exact Hq. f_equal.
    apply (at_path_ext q _ _ root fresh Hx). apply node_ext.
    + rewrite setkids_data, A1, norm_data. reflexivity.
    + rewrite setkids_array, A2, norm_array. cbn [hasChildrenArray nkids orb].
      assert (E1 : existsb (has n) child_ids = negb (match kidlist n with [] => true | _ => false end)).
      { pose proof (kid_fst n) as KF. destruct (kidlist n) as [|[c ch] l] eqn:EK; cbn [negb].
        - apply Bool.not_true_iff_false. intros E. apply existsb_exists in E. destruct E as (c & H1 & H2).
          assert (K : In c (filter (has n) child_ids)) by (apply filter_In; auto). rewrite <- KF in K. exact K.
        - apply existsb_exists. exists c. apply filter_In. rewrite <- KF. left. reflexivity. }
      rewrite E1. destruct (kidlist n) as [|[c ch] l]; [reflexivity|]. cbn [map fst rev]. cbn [negb].
      destruct (rev (map fst l) ++ [c]) eqn:X; [destruct (rev (map fst l)); discriminate|reflexivity].
    + intros c Hc. rewrite setkids_child; [|rewrite map_map; cbn [fst]; exact (kid_nodup n)|exact Hc].
      rewrite assoc_map, assoc_kids, norm_child, A3 by exact Hc. destruct (getChild n c) eqn:E; [reflexivity|].
      cbn [option_map getChild nkids]. destruct (existsb (Z.eqb c) _) eqn:X; [|reflexivity]. exfalso.
      apply existsb_exists in X. destruct X as (c' & Hi & Ec). apply Z.eqb_eq in Ec. subst c'. apply in_rev in Hi. apply in_map_iff in Hi.
      destruct Hi as ([c' ch] & E2 & Hi). cbn in E2. subst c'. apply kid_in in Hi. destruct Hi as [_ Hi]. congruence.
  - intros c ch Hi. apply kid_in in Hi. destruct Hi as [Hc E]. split; [exact Hc|]. exact (IH c ch E).
  - apply (look_at_path q (fun _ => A) root fresh Hq Hx).
  - intros c ch Hi. assert (Hc : 0 <= c < 8) by (apply kid_in in Hi; tauto). rewrite A3 by exact Hc. cbn [getChild nkids].
    replace (existsb (Z.eqb c) _) with true; [reflexivity|]. symmetry. apply existsb_exists. exists c. split; [|apply Z.eqb_refl].
    apply -> in_rev. apply in_map_iff. exists (c, ch). auto.
Qed.
Corollary ros_tree_fresh n : ros_tree N (mser n) [[]] fresh = Some (norm n).
Proof.
  pose proof (mreads_tree n [] [] fresh [] (Forall_nil _) eq_refl) as H. rewrite app_nil_r in H. rewrite H. reflexivity.
Qed.

(** ** Blocks and maps *)
(** The content of a block after sending and receiving it *)
Definition as_sent (C : wconf) (t : wtree (V := V)) : wtree := WT (norm (keep N C (wscale t) (wroot t))) (wscale t).
Definition block_msg (C : wconf) (i : idx3) (b : wblock (V := V)) : bmsg V :=
  BM i (wscale (btree b)) (mser (keep N C (wscale (btree b)) (wroot (btree b)))).
Context (lf : wblock (V := V) -> nat) (Hlf : forall b, (nsize (wroot (btree b)) <= lf b)%nat).
Lemma blockToRosMsg_eq C i b : blockToRosMsg N lf C i b = Some (block_msg C i b).
Proof.
  unfold blockToRosMsg, block_msg. rewrite ros_nodes_eq.
  - cbn [flat_map fst snd option_map]. rewrite app_nil_r. reflexivity.
  - cbn [map list_sum fold_right]. unfold ksize. cbn [fst snd]. pose proof (ksize_le N (fun _ => 0) (fun _ => n0 N) C (wroot (btree b)) (wscale (btree b))). specialize (Hlf b). lia.
Qed.
Lemma map_opt_some {A B} (f : A -> option B) (g : A -> B) l : (forall a, In a l -> f a = Some (g a)) -> map_opt f l = Some (map g l).
Proof.
  induction l as [|a l IH]; intros H; [reflexivity|]. cbn [map_opt map]. rewrite (H a (or_introl eq_refl)), IH by (intros; apply H; right; assumption). reflexivity.
Qed.
Definition bmsg_of (C : wconf) (m : hmap (V := V)) (i : idx3) : bmsg V :=
  match getBlock m i with Some b => block_msg C i b | None => BM i (n0 N) [] end.
Lemma mapToRosMsg_eq ord w C m incl : mapToRosMsg N lf ord w C m incl = Some (MM w C (keys m) (map (bmsg_of C m) (ord (filter (hasBlock m) incl)))).
Proof.
  unfold mapToRosMsg. rewrite (map_opt_some _ (bmsg_of C m)); [reflexivity|]. intros i _. unfold bmsg_of.
  destruct (getBlock m i); [apply blockToRosMsg_eq|reflexivity].
Qed.
(** Receiving one block *)
Lemma recv_block_eq now C m i b : exists s, recv_block N now m (block_msg C i b) = Some (setBlock m i s) /\ btree s = as_sent C (btree b).
Proof.
  unfold recv_block, block_msg. cbn [bm_index bm_scale bm_nodes].
  assert (E : forall x : wblock (V := V), wroot (btree x) = fresh -> ros_tree N (mser (keep N C (wscale (btree b)) (wroot (btree b)))) [[]] (wroot (btree x)) = Some (wroot (as_sent C (btree b)))).
  { intros x ->. apply ros_tree_fresh. }
  destruct (getBlock m i) as [o|]; rewrite E by reflexivity; cbn [option_map]; eexists; (split; [reflexivity|reflexivity]).
Qed.
Lemma recv_blocks_eq now C (mp : hmap (V := V)) : forall l m, hwf m -> (forall i, In i l -> hasBlock mp i = true) ->
  exists m', recv_blocks N now m (map (bmsg_of C mp) l) = Some m' /\ hwf m' /\
    (forall i, ~ In i l -> getBlock m' i = getBlock m i) /\
    forall i b, In i l -> getBlock mp i = Some b -> exists s, getBlock m' i = Some s /\ btree s = as_sent C (btree b).
Proof.
  induction l as [|i l IH]; intros m W H; cbn [map recv_blocks].
  - exists m. split; [reflexivity|]. split; [exact W|]. split; [reflexivity|]. intros i b [].
  - assert (Hi := H i (or_introl eq_refl)). unfold hasBlock in Hi. unfold bmsg_of at 1. destruct (getBlock mp i) as [b|] eqn:E; [|discriminate].
    destruct (recv_block_eq now C m i b) as (s & -> & Es).
    destruct (IH (setBlock m i s) (setBlock_wf m i s W) (fun j Hj => H j (or_intror Hj))) as (m' & E1 & W' & E2 & E3).
    exists m'. split; [exact E1|]. split; [exact W'|]. split.
    + intros j Hj. rewrite E2 by (intros K; apply Hj; right; exact K). rewrite getBlock_setBlock.
      destruct (ieqb_spec i j) as [->|]; [exfalso; apply Hj; left; reflexivity|reflexivity].
    + intros j b' Hj Eb. destruct (in_dec idx3_eq_dec j l) as [Hl|Hl]; [exact (E3 j b' Hl Eb)|].
      destruct Hj as [<-|Hj]; [|contradiction]. rewrite E in Eb. injection Eb as <-. exists s. split; [|exact Es].
      rewrite E2 by exact Hl. rewrite getBlock_setBlock, ieqb_refl. reflexivity.
Qed.
End FP.
