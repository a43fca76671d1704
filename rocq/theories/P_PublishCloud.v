(** * C63: the published obstacle point clouds *)
From Verif Require Import Base M_IntMath F_IntMath M_NdtreeIndex M_Num F_Num M_Haar F_Haar M_Haar3 F_Haar3 M_Ndtree S_Field F_Hash M_Wavelet
  F_Wavelet F_Wavelet2 F_Leaves F_WavTree F_WavMap F_WavHash M_WavHist F_WavHist M_HashedBlocks P_HashedBlocks M_Octree F_Octree M_Chunked F_Chunked
  F_ChunkedSim F_ChunkedWav M_ChunkedHist F_ChunkedMap P_Chunked P_Wavelet M_Grid P_Grid M_Stream M_Publish F_Publish3 P_Publish M_Point M_PublishCloud.
From Coq Require Import QArith Qcanon Qcabs Lqa Permutation.
Close Scope Qc_scope. Close Scope Q_scope. Open Scope Z_scope.

(** ** Specification vocabulary *)
(** The centre of a cell of the finest resolution *)
Definition centre (w : Q) (c : idx3) : list Q :=
  [((inject_Z (px c) + (1 # 2)) * w)%Q; ((inject_Z (py c) + (1 # 2)) * w)%Q; ((inject_Z (pz c) + (1 # 2)) * w)%Q].
(** The message holds the centres of exactly the cells that satisfy [P], each once. *)
Definition lists_cells (w : Q) (P : idx3 -> Prop) (msg : list (list Q)) : Prop :=
  exists cells, msg = map (centre w) cells /\ NoDup cells /\ forall c, In c cells <-> P c.

(** What can happen to a hashed map and its publisher: a call on the map at some time, a direct change of one of its blocks (this is
    what the integrators do), an invocation of the publisher. *)
Inductive oevent :=
| OCall (now : Z) (c : hcall)
| OWrite (i : idx3) (b : wblock (V := Qc))
| ORun (force : bool) (ros_now now : Z).
Definition o_pruning (e : oevent) : Prop := match e with OCall _ HPrune | OCall _ (HPruneSmart _) => True | _ => False end.
(** Later than the clock's epoch and than all invocations of the publisher in a history *)
Definition after_runs (l : list oevent) (t : Z) : Prop := 0 < t /\ forall force ros_now now, In (ORun force ros_now now) l -> now < t.
Section HISTORY.
Context (lf : wblock (V := Qc) -> nat) (w : Q) (C : wconfig (V := Qc)) (thr : Qc) (only : bool) (every : Z).
(** The histories of a map (empty at first), the publisher's state and the messages sent so far. Changes happen strictly after the
    invocations so far. *)
Inductive cloud_history : list oevent -> hmap (V := Qc) -> pcstate -> list (list (list Q)) -> Prop :=
| ch_nil : cloud_history [] [] (PCS 0 0) []
| ch_call l m s sent now c : cloud_history l m s sent -> after_runs l now -> cloud_history (l ++ [OCall now c]) (hw_apply C m (now, c)) s sent
| ch_write l m s sent i b : cloud_history l m s sent -> after_runs l (bstamp b) -> proper_block C b ->
    cloud_history (l ++ [OWrite i b]) (setBlock m i b) s sent
| ch_run l m s sent force ros_now now s' o : cloud_history l m s sent ->
    pc_run every force ros_now now (fun last => pc_hashed qn w thr lf C only last m) s = Some (s', o) ->
    cloud_history (l ++ [ORun force ros_now now]) m s' (sent ++ match o with Some msg => [msg] | None => [] end).
End HISTORY.
(** The same for hashed chunked maps, without direct changes of blocks *)
Section CHISTORY.
Context (fuel : nat) (F : cmap (V := Qc) -> nat) (w : Q) (C : wconfig (V := Qc)) (thr : Qc) (only : bool) (every : Z).
Inductive chunk_history : list oevent -> cmap (V := Qc) -> pcstate -> list (list (list Q)) -> Prop :=
| kh_nil : chunk_history [] [] (PCS 0 0) []
| kh_call l m s sent now c : chunk_history l m s sent -> after_runs l now -> chunk_history (l ++ [OCall now c]) (hc_apply fuel C m (now, c)) s sent
| kh_run l m s sent force ros_now now s' o : chunk_history l m s sent ->
    pc_run every force ros_now now (fun last => pc_chunked qn w thr (F m) C only last m) s = Some (s', o) ->
    chunk_history (l ++ [ORun force ros_now now]) m s' (sent ++ match o with Some msg => [msg] | None => [] end).
End CHISTORY.

(** ** Facts *)
Lemma minmax_in_node i c : 0 <= oh i ->
  (in_box_list (ilist (minCorner i)) (ilist (maxCorner i)) (ilist c) <-> in_node i c = true).
Proof.
  intros Hh. destruct i as [h [x y z]], c as [a b e]. cbn [oh] in Hh. unfold in_node, minCorner, maxCorner, imap, ilist, in_box_list. cbn [oh opos px py pz].
  unfold mult_exp2. rewrite !exp2_pow by assumption.
  rewrite !andb_true_iff, !Z.leb_le, !Z.ltb_lt. lia.
Qed.
Lemma map_nodup {A B} (f : A -> B) l : (forall a b, In a l -> In b l -> f a = f b -> a = b) -> NoDup l -> NoDup (map f l).
Proof.
  induction l as [|x l IH]; intros H ND; [constructor|]. inversion ND as [|y z N1 N2]; subst. cbn [map]. constructor.
  - intros Hx. apply in_map_iff in Hx as (y & E & Hy). apply N1. rewrite (H x y (or_introl eq_refl) (or_intror Hy) (eq_sym E)). exact Hy.
  - apply IH; [|exact N2]. intros a b Ha Hb. apply H; right; assumption.
Qed.
Lemma grid_ok i : 0 <= oh i -> exists cells, pc_grid i = Some cells /\ NoDup cells /\ forall c, In c cells <-> in_node i c = true.
Proof.
  intros Hh. unfold pc_grid. assert (P2 : 0 < 2 ^ oh i) by (apply Z.pow_pos_nonneg; lia).
  destruct (C32_grid_visits_box (ilist (minCorner i)) (ilist (maxCorner i)) (Z.to_nat (2 ^ (3 * oh i)))) as (l & E & I1 & ND & _).
  - discriminate.
  - destruct i as [h [x y z]]. cbn [oh] in *. unfold minCorner, maxCorner, mult_exp2, imap, ilist, nonempty_box. cbn [oh opos px py pz]. rewrite !exp2_pow by assumption. lia.
  - destruct i as [h [x y z]]. cbn [oh] in *. unfold minCorner, maxCorner, mult_exp2, imap, ilist, num_cells. cbn [oh opos px py pz]. rewrite !exp2_pow by assumption.
    rewrite Z2Nat.id by (apply Z.pow_nonneg; lia). replace (3 * h) with (h + h + h) by lia. rewrite !Z.pow_add_r by lia.
    apply Z.eq_le_incl. ring.
  - rewrite E. cbn [option_map]. assert (L3 : forall j, In j l -> ilist (list_idx j) = j).
    { intros j Hj. apply I1 in Hj. destruct i as [h [x y z]]. destruct j as [|a [|b [|e [|f j]]]]; cbn in Hj; try tauto; reflexivity. }
    exists (map list_idx l). split; [reflexivity|]. split.
    + apply map_nodup; [|exact ND]. intros a b Ha Hb Eab. rewrite <- (L3 a Ha), <- (L3 b Hb), Eab. reflexivity.
    + intros c. rewrite <- minmax_in_node by assumption. rewrite <- I1. split.
      * intros Hc. apply in_map_iff in Hc as (j & <- & Hj). rewrite L3 by assumption. exact Hj.
      * intros Hc. apply in_map_iff. exists (ilist c). split; [destruct c; reflexivity|exact Hc].
Qed.
Lemma in_node_cell p c : in_node (OI 0 p) c = true <-> c = p.
Proof.
  destruct p as [x y z], c as [a b e]. unfold in_node. cbn [oh opos px py pz]. rewrite Z.pow_0_r, !andb_true_iff, !Z.leb_le, !Z.ltb_lt.
  split; [intros H; f_equal; lia|intros H; injection H as -> -> ->; lia].
Qed.
Section LEAVES.
Context (w : Q) (thr : Qc).
Lemma leaf_ok i v : 0 <= oh i -> exists cells, pc_leaf qn w thr (i, v) = Some (map (centre w) cells) /\ NoDup cells /\
  forall c, In c cells <-> in_node i c = true /\ (thr < v)%Qc.
Proof.
  intros Hh. unfold pc_leaf. cbn [nltb qn]. destruct (qltb thr v) eqn:Et.
  - apply qltb_iff in Et. destruct (Z.eqb_spec (oh i) 0) as [H0|H0].
    + exists [opos i]. split; [reflexivity|]. split; [repeat constructor; intros []|]. intros c. destruct i as [h p]. cbn [oh opos] in *. subst h. rewrite in_node_cell.
      cbn [In]. split; [intros [->|[]]; auto|intros [-> _]; auto].
    + destruct (grid_ok i Hh) as (cells & -> & ND & I). exists cells. split; [reflexivity|]. split; [exact ND|]. intros c. rewrite I. tauto.
  - exists []. split; [reflexivity|]. split; [constructor|]. intros c. apply qltb_false in Et. split; [intros []|]. intros [_ H]. exfalso. exact (Qcle_not_lt _ _ Et H).
Qed.
(** Every cell is in at most one of the leaves. *)
Definition once (l : list (oidx * Qc)) : Prop := forall c, (forall i u, In (i, u) l -> in_node i c = false) \/ exists v, exactly_one l c v.
Lemma once_cons i v l : once ((i, v) :: l) -> once l /\ forall c j u, in_node i c = true -> In (j, u) l -> in_node j c = false.
Proof.
  intros H. split.
  - intros c. destruct (H c) as [N|(u & l1 & j & l2 & E & Hj & N)]; [left; intros j u Hj; apply (N j u); right; exact Hj|].
    destruct l1 as [|a l1]; injection E as E1 E2.
    + left. subst l. exact N.
    + right. subst. exists u, l1, j, l2. split; [reflexivity|]. split; [exact Hj|]. intros k x Hk. apply (N k x). right. exact Hk.
  - intros c j u Hc Hj. destruct (H c) as [N|(u' & l1 & k & l2 & E & Hk & N)]; [rewrite (N i v) in Hc by (left; reflexivity); discriminate|].
    destruct l1 as [|a l1]; injection E as E1 E2.
    + subst l. exact (N j u Hj).
    + subst. rewrite (N i v) in Hc by (left; reflexivity). discriminate.
Qed.
Lemma NoDup_app_disj {A} (a b : list A) : NoDup a -> NoDup b -> (forall x, In x a -> In x b -> False) -> NoDup (a ++ b).
Proof.
  intros Ha Hb H. induction a as [|x a IH]; [exact Hb|]. inversion Ha as [|y z H1 H2]; subst. cbn [app]. constructor.
  - intros Hx. apply in_app_or in Hx as [Hx|Hx]; [exact (H1 Hx)|]. apply (H x); [left; reflexivity|exact Hx].
  - apply IH; [exact H2|]. intros y Y1 Y2. apply (H y); [right; exact Y1|exact Y2].
Qed.
Lemma leaves_ok l : (forall i u, In (i, u) l -> 0 <= oh i) -> once l ->
  exists cells, pc_leaves qn w thr (Some l) = Some (map (centre w) cells) /\ NoDup cells /\
    forall c, In c cells <-> exists i v, In (i, v) l /\ in_node i c = true /\ (thr < v)%Qc.
Proof.
  induction l as [|[i v] l IH]; intros Hh O.
  - exists []. split; [reflexivity|]. split; [constructor|]. intros c. split; [intros []|intros (i & v & [] & _)].
  - destruct (once_cons i v l O) as [O' D]. destruct IH as (cells & E & ND & I); [intros j u Hj; apply (Hh j u); right; exact Hj|exact O'|].
    destruct (leaf_ok i v (Hh i v (or_introl eq_refl))) as (c1 & E1 & ND1 & I1). exists (c1 ++ cells). split; [|split].
    + unfold pc_leaves in *. cbn [map_opt]. rewrite E1. destruct (map_opt (pc_leaf qn w thr) l) as [ls|]; [|discriminate E]. cbn [option_map concat] in *.
      injection E as E. rewrite E, map_app. reflexivity.
    + apply NoDup_app_disj; [exact ND1|exact ND|]. intros c Hc1 Hc2. apply I1 in Hc1 as [Hc1 _]. apply I in Hc2 as (j & u & Hj & Hc2 & _).
      rewrite (D c j u Hc1 Hj) in Hc2. discriminate.
    + intros c. rewrite in_app_iff, I1, I. split.
      * intros [[H1 H2]|(j & u & H1 & H2)]; [exists i, v; split; [left; reflexivity|auto]|exists j, u; split; [right; exact H1|exact H2]].
      * intros (j & u & [H1|H1] & H2); [injection H1 as <- <-; left; exact H2|right; exists j, u; auto].
Qed.
(** With the values of a field on the cells that are covered *)
Lemma leaves_field l (covered : idx3 -> Prop) (f : field) : (forall i u, In (i, u) l -> 0 <= oh i) ->
  (forall c, covered c -> exactly_one l c (f c)) -> (forall c, covered c \/ forall i u, In (i, u) l -> in_node i c = false) ->
  exists cells, pc_leaves qn w thr (Some l) = Some (map (centre w) cells) /\ NoDup cells /\
    forall c, In c cells <-> (exists i u, In (i, u) l /\ in_node i c = true) /\ covered c /\ (thr < f c)%Qc.
Proof.
  intros Hh Hc Hu. destruct (leaves_ok l Hh) as (cells & E & ND & I).
  { intros c. destruct (Hu c) as [H|H]; [right; exists (f c); apply Hc; exact H|left; exact H]. }
  exists cells. split; [exact E|]. split; [exact ND|]. intros c. rewrite I. split.
  - intros (i & v & H1 & H2 & H3). destruct (Hu c) as [H|H]; [|rewrite (H i v H1) in H2; discriminate].
    split; [exists i, v; auto|]. split; [exact H|]. destruct (Hc c H) as (l1 & j & l2 & -> & Hj & N). apply in_app_or in H1.
    assert (X : (i, v) = (j, f c) \/ In (i, v) (l1 ++ l2)). { destruct H1 as [H1|[H1|H1]]; [right; apply in_or_app; auto|left; congruence|right; apply in_or_app; auto]. }
    destruct X as [X|X]; [injection X as -> ->; exact H3|rewrite (N i v X) in H2; discriminate].
  - intros (_ & H1 & H2). destruct (Hc c H1) as (l1 & j & l2 & -> & Hj & N). exists j, (f c). split; [apply in_or_app; right; left; reflexivity|auto].
Qed.
Lemma pc_leaves_app l l' : pc_leaves qn w thr (Some (l ++ l')) =
  match pc_leaves qn w thr (Some l), pc_leaves qn w thr (Some l') with Some a, Some b => Some (a ++ b) | _, _ => None end.
Proof.
  unfold pc_leaves. induction l as [|a l IH]; cbn [app map_opt].
  - cbn [option_map concat]. destruct (option_map _ _); reflexivity.
  - destruct (pc_leaf qn w thr a) as [x|]; [|reflexivity]. destruct (map_opt (pc_leaf qn w thr) (l ++ l')) as [y|], (map_opt (pc_leaf qn w thr) l) as [z|];
      destruct (map_opt (pc_leaf qn w thr) l') as [u|]; cbn [option_map concat] in *; try discriminate; try reflexivity. injection IH as IH. rewrite IH, app_assoc. reflexivity.
Qed.
Lemma blocks_hashed lf C only last m : (forall b, (nsize (wroot (btree b)) <= lf b)%nat) ->
  pc_blocks qn w thr bstamp (fun k b => wt_forEachLeaf qn (lf b) 0 (OI (cT C) k) (btree b)) only last m =
  pc_leaves qn w thr (hw_forEachLeaf qn lf C (filter (fun kb => negb only || (last <? bstamp (snd kb))) m)).
Proof.
  intros Hlf. unfold pc_blocks. induction m as [|[k b] m IH]; [reflexivity|]. cbn [map_opt filter fst snd].
  destruct (hw_leaves_total C (filter (fun kb => negb only || (last <? bstamp (snd kb))) m) lf Hlf) as [l' El']. rewrite El' in IH.
  destruct (negb only || (last <? bstamp b)).
  - cbn [hw_forEachLeaf]. rewrite El'. destruct (wt_forEachLeaf qn (lf b) 0 (OI (cT C) k) (btree b)) as [l|]; [|reflexivity]. rewrite pc_leaves_app, <- IH.
    destruct (pc_leaves qn w thr (Some l)); [|reflexivity]. destruct (map_opt _ m); reflexivity.
  - rewrite El', <- IH. destruct (map_opt _ m); reflexivity.
Qed.
Lemma blocks_chunked F C only last m : (exists l, hc_forEachLeaf qn F C (filter (fun kb => negb only || (last <? cbstamp (snd kb))) m) = Some l) ->
  pc_blocks qn w thr cbstamp (fun k b => cb_forEachLeaf qn F 0 (OI (cT C) k) (cbtree b)) only last m =
  pc_leaves qn w thr (hc_forEachLeaf qn F C (filter (fun kb => negb only || (last <? cbstamp (snd kb))) m)).
Proof.
  unfold pc_blocks. induction m as [|[k b] m IH]; intros [l0 E0]; [reflexivity|]. cbn [map_opt filter fst snd] in *.
  destruct (negb only || (last <? cbstamp b)).
  - cbn [hc_forEachLeaf] in *. destruct (cb_forEachLeaf qn F 0 (OI (cT C) k) (cbtree b)) as [l|]; [|discriminate].
    destruct (hc_forEachLeaf qn F C (filter _ m)) as [l'|]; [|discriminate]. specialize (IH (ex_intro _ l' eq_refl)). rewrite pc_leaves_app, <- IH.
    destruct (pc_leaves qn w thr (Some l)); [|reflexivity]. destruct (map_opt _ m); reflexivity.
  - specialize (IH (ex_intro _ l0 E0)). rewrite <- IH. destruct (map_opt _ m); reflexivity.
Qed.
End LEAVES.

Lemma getBlock_filter {B} (f : idx3 * B -> bool) m j : hwf m ->
  getBlock (filter f m) j = match getBlock m j with Some b => if f (j, b) then Some b else None | None => None end.
Proof.
  unfold hwf. induction m as [|[k b] m IH]; intros H; [reflexivity|]. cbn [keys map fst] in H. inversion H as [|x y H1 H2]; subst. cbn [filter getBlock].
  destruct (ieqb_spec k j) as [->|Hne].
  - destruct (f (j, b)); [cbn [getBlock]; rewrite ieqb_refl; reflexivity|]. rewrite (IH H2). assert (G : getBlock m j = None) by (apply getBlock_None; exact H1). rewrite G. reflexivity.
  - destruct (f (k, b)); [cbn [getBlock]; destruct (ieqb_spec k j); [contradiction|]|]; apply IH; exact H2.
Qed.
(** The message for a map of blocks, from what forEachLeaf visits on the blocks that are kept *)
Lemma message_of_leaves w thr (l : list (oidx * Qc)) T (kept : idx3 -> option bool) (blk : idx3 -> idx3) (f : field) :
  (forall i u, In (i, u) l -> 0 <= oh i < T) ->
  (forall c, match kept (blk c) with Some e => if e then uncovered l c else covered_once l c (f c) | None => uncovered l c end) ->
  exists msg, pc_leaves qn w thr (Some l) = Some msg /\ lists_cells w (fun c => kept (blk c) = Some false /\ (thr < f c)%Qc) msg.
Proof.
  intros H1 H2. assert (HH : forall i u, In (i, u) l -> 0 <= oh i) by (intros i u Hi; destruct (H1 i u Hi); assumption).
  assert (U : forall c, uncovered l c -> forall i u, In (i, u) l -> in_node i c = false).
  { intros c Hu i u Hin. destruct (in_node i c) eqn:En; [|reflexivity]. exfalso. apply in_node_covers in En; [|apply (HH i u Hin)].
    apply (Hu i); [|exact En]. apply in_map_iff. exists (i, u). auto. }
  destruct (leaves_field w thr l (fun c => kept (blk c) = Some false) f HH) as (cells & E & ND & I).
  - intros c Hc. specialize (H2 c). rewrite Hc in H2. apply exactly_one_covered; assumption.
  - intros c. specialize (H2 c). destruct (kept (blk c)) as [[|]|]; [right; apply U; exact H2|left; reflexivity|right; apply U; exact H2].
  - exists (map (centre w) cells). split; [exact E|]. exists cells. split; [reflexivity|]. split; [exact ND|]. intros c. rewrite I. split; [tauto|].
    intros [Hc Ht]. split; [|auto]. specialize (H2 c). rewrite Hc in H2. destruct H2 as (l1 & i & l2 & -> & Hi & _). exists i, (f c).
    assert (X : In (i, f c) (l1 ++ (i, f c) :: l2)) by (apply in_or_app; right; left; reflexivity). split; [exact X|]. apply in_node_covers; [apply (HH _ _ X)|exact Hi].
Qed.
Definition announced (C : wconfig (V := Qc)) (thr : Qc) (only : bool) (last : Z) (m : hmap (V := Qc)) (c : idx3) : Prop :=
  exists b, getBlock m (block_with C c) = Some b /\ wb_empty qn b = false /\ (only = true -> last < bstamp b) /\ (thr < hw_get qn C m c)%Qc.
Lemma cond_iff only last x : negb only || (last <? x) = true <-> (only = true -> last < x).
Proof. destruct only; cbn [negb orb]; rewrite ?Z.ltb_lt; [tauto|]. split; [discriminate|reflexivity]. Qed.
Lemma hashed_message lf w C thr only last m : 1 <= cT C <= 21 -> enough_fuel lf -> hw_ok C m -> m <> [] ->
  exists msg, pc_hashed qn w thr lf C only last m = Some (Some msg) /\ lists_cells w (announced C thr only last m) msg.
Proof.
  intros HT Hlf [W H] NE. unfold pc_hashed. replace (hw_empty m) with false by (destruct m; [congruence|reflexivity]).
  rewrite (blocks_hashed w thr lf C only last m Hlf). set (m' := filter _ m).
  assert (G : forall j, getBlock m' j = match getBlock m j with Some b => if negb only || (last <? bstamp b) then Some b else None | None => None end).
  { intros j. unfold m'. rewrite getBlock_filter by exact W. reflexivity. }
  assert (OK : hw_ok C m').
  { split; [apply filter_wf; exact W|]. intros b blk E. rewrite G in E. destruct (getBlock m b) as [x|] eqn:Ex; [|discriminate]. destruct (negb only || _); [|discriminate].
    injection E as <-. exact (H b x Ex). }
  destruct (hw_leaves_total C m' lf Hlf) as [l El]. rewrite El. destruct (hw_leaves C m' lf l HT OK Hlf El) as [L1 L2].
  destruct (message_of_leaves w thr l (cT C) (fun k => match getBlock m' k with Some b => Some (wb_empty qn b) | None => None end) (block_of C) (hw_field C m') L1) as (msg & E & cells & E1 & ND & I).
  - intros c. specialize (L2 c). destruct (getBlock m' (block_of C c)); exact L2.
  - rewrite E. exists msg. split; [reflexivity|]. exists cells. split; [exact E1|]. split; [exact ND|]. intros c. rewrite I. unfold announced.
    change (block_with C c) with (block_of C c). change (hw_get qn C m c) with (hw_field C m c). rewrite !hw_field_spec by lia. unfold tree_at. rewrite G.
    destruct (getBlock m (block_of C c)) as [b|]; [|split; [intros [K _]; discriminate|intros (b & K & _); discriminate]].
    destruct (negb only || (last <? bstamp b)) eqn:Ec.
    + pose proof (proj1 (cond_iff _ _ _) Ec) as Ec'. split; [intros [K1 K2]; injection K1 as K1; exists b; auto|]. intros (b' & K & K1 & _ & K2). injection K as <-. rewrite K1. auto.
    + split; [intros [K _]; discriminate|]. intros (b' & K & _ & K1 & _). injection K as <-. pose proof (proj2 (cond_iff _ _ _) K1). congruence.
Qed.
Lemma hw_ok_call C m now c : 1 <= cT C <= 21 -> (clo C <= chi C)%Qc -> hw_ok C m -> hw_ok C (hw_apply C m (now, c)).
Proof.
  intros HT Hlh H. assert (X := call_inv C 1%Qc true (fun _ => wt_new qn) m (now - 1) None now c HT Hlh).
  assert (HS : forall i b now', hw_ok C m -> tree_ok (cT C) (btree b) -> hw_ok C (setBlock m i (WB (btree b) true true now'))).
  { intros i b now' Hm Hb. apply hw_ok_set; [exact Hm|exact Hb|discriminate]. }
  destruct c as [i v|i u| | |age| |b]; cbn [hw_apply].
  - unfold hw_set. apply hw_ok_set; [exact H| |discriminate]. cbn [wb_set btree]. rewrite blockOrNew_tree. apply wt_update_ok; [|apply tree_at_ok; assumption].
    rewrite hw_cellIndex_spec by lia. cbn [oh]. lia.
  - unfold hw_add. apply hw_ok_set; [exact H| |discriminate]. cbn [wb_add btree]. rewrite blockOrNew_tree. apply wt_update_ok; [|apply tree_at_ok; assumption].
    rewrite hw_cellIndex_spec by lia. cbn [oh]. lia.
  - apply hw_threshold_ok; assumption.
  - apply hw_prune_ok; assumption.
  - apply hw_pruneSmart_ok; assumption.
  - apply hw_ok_nil.
  - destruct H as [W K]. split; [apply filter_wf; exact W|]. intros b' blk E. rewrite getBlock_eraseBlock in E. destruct (ieqb b b'); [discriminate|]. exact (K b' blk E).
Qed.

(** The invariant: cells of blocks that were not changed since the last run, and were never announced, are not above the threshold (up to one prune) *)
Definition slack (C : wconfig (V := Qc)) (np : bool) (b : wblock (V := Qc)) : Qc := if np then 0%Qc else if bprn b then 0%Qc else plain_prune_bound (cT C).
Definition quiet (C : wconfig (V := Qc)) (w : Q) (thr : Qc) (np : bool) (Sent : list (list Q)) (k : idx3) (b : wblock (V := Qc)) : Prop :=
  forall c, block_of C c = k -> ~ In (centre w c) Sent -> (cellv (cT C) (btree b) c <= thr + slack C np b)%Qc.
Definition oinv (C : wconfig (V := Qc)) (w : Q) (thr : Qc) (np : bool) (m : hmap (V := Qc)) (last : Z) (Sent : list (list Q)) : Prop :=
  hw_ok C m /\ forall k b, getBlock m k = Some b -> last < bstamp b \/ quiet C w thr np Sent k b.
Section INV.
Context (C : wconfig (V := Qc)) (w : Q) (thr : Qc) (HT : 1 <= cT C <= 21) (Hlh : (clo C <= chi C)%Qc) (Hthr : (clo C <= thr)%Qc).
Lemma bound_pos : (0 <= plain_prune_bound (cT C))%Qc.
Proof.
  unfold plain_prune_bound. assert (X := Qcmult_le_compat_r _ _ prune_unit (proj1 (qz_le 0 (cT C - 1)) ltac:(lia)) prune_unit_pos).
  replace (qz 0 * prune_unit)%Qc with 0%Qc in X by (change (qz 0) with 0%Qc; ring). exact X.
Qed.
Lemma slack_pos np b : (0 <= slack C np b)%Qc.
Proof. unfold slack. destruct np; [apply Qcle_refl|]. destruct (bprn b); [apply Qcle_refl|apply bound_pos]. Qed.
Lemma slack_weaken np np' b : (np = true \/ np' = false) -> (slack C np b <= slack C np' b)%Qc.
Proof. intros H. unfold slack. destruct np, np'; try apply Qcle_refl; [destruct (bprn b); [apply Qcle_refl|apply bound_pos]|]. destruct H; discriminate. Qed.
Lemma clamp_below v x : (clo C <= x)%Qc -> (v <= x)%Qc -> (qclamp (clo C) (chi C) v <= x)%Qc.
Proof.
  intros H1 H2. unfold qclamp, nclamp. cbn [nltb qn]. destruct (M_Num.qltb v (clo C)); [exact H1|]. destruct (M_Num.qltb (chi C) v) eqn:E; [|exact H2]. apply qltb_iff in E.
  apply Qclt_le_weak in E. eapply Qcle_trans; eassumption.
Qed.
Lemma quiet_weaken np np' Sent k b : (np = true \/ np' = false) -> quiet C w thr np Sent k b -> quiet C w thr np' Sent k b.
Proof.
  intros H Q c Hc Hs. eapply Qcle_trans; [exact (Q c Hc Hs)|]. apply Qcplus_le_compat; [apply Qcle_refl|]. apply slack_weaken. exact H.
Qed.
Lemma thr_bprn b : bprn (wb_threshold qn C b) = bprn b.
Proof. unfold wb_threshold. destruct (bthr b); [|reflexivity]. destruct (threshold_rec _ _ _ _ _). reflexivity. Qed.
Lemma quiet_threshold np Sent k b : blk_ok C b -> quiet C w thr np Sent k b -> quiet C w thr np Sent k (wb_threshold qn C b).
Proof.
  intros Hb Q c Hc Hs. destruct (wb_threshold_ok C b Hlh Hb) as (_ & _ & T3). rewrite T3. unfold slack. rewrite thr_bprn. fold (slack C np b).
  apply clamp_below; [|exact (Q c Hc Hs)]. replace (clo C) with (clo C + 0)%Qc by ring. apply Qcplus_le_compat; [exact Hthr|apply slack_pos].
Qed.
Lemma quiet_prune np Sent k b : blk_ok C b -> quiet C w thr np Sent k b -> quiet C w thr false Sent k (wb_prune qn C b).
Proof.
  intros Hb Q. pose proof (quiet_weaken np false Sent k b (or_intror eq_refl) Q) as Q'. destruct (bprn b) eqn:Ep.
  - intros c Hc Hs. pose proof (wb_prune_cell C b c Hlh Hb) as P. rewrite Ep in P. specialize (Q' c Hc Hs). unfold slack in *. rewrite Ep in Q'.
    assert (E : bprn (wb_prune qn C b) = false) by (unfold wb_prune; rewrite Ep; reflexivity). rewrite E.
    assert (X : (qclamp (clo C) (chi C) (cellv (cT C) (btree b) c) <= thr)%Qc).
    { apply clamp_below; [exact Hthr|]. replace thr with (thr + 0)%Qc by ring. exact Q'. }
    change (plain_prune_bound (cT C)) with (qz (cT C - 1) * prune_unit)%Qc. apply Qcabs_Qcle_condition in P. destruct P as [_ P]. revert P X.
    generalize (qz (cT C - 1) * prune_unit)%Qc, (qclamp (clo C) (chi C) (cellv (cT C) (btree b) c)), (cellv (cT C) (btree (wb_prune qn C b)) c). intros a e x P X. qlra.
  - replace (wb_prune qn C b) with b by (unfold wb_prune; rewrite Ep; reflexivity). exact Q'.
Qed.
Lemma oinv_set np m last Sent i b : oinv C w thr np m last Sent -> blk_ok C b -> last < bstamp b -> oinv C w thr np (setBlock m i b) last Sent.
Proof.
  intros [H1 H2] Hb Hl. split; [apply hw_ok_set; [exact H1|apply Hb|apply Hb]|]. intros j b' E. rewrite getBlock_setBlock in E.
  destruct (ieqb_spec i j) as [<-|]; [injection E as <-; left; exact Hl|apply H2; exact E].
Qed.
Lemma oinv_erase np m last Sent f : oinv C w thr np m last Sent -> (forall b, bstamp (f b) = bstamp b) -> (forall b, blk_ok C b -> blk_ok C (f b)) ->
  (forall k b, blk_ok C b -> quiet C w thr np Sent k b -> quiet C w thr false Sent k (f b)) ->
  oinv C w thr false (eraseBlockIf (fun _ b => let b' := f b in (b', wb_empty qn b')) m) last Sent.
Proof.
  intros [H1 H2] F1 F2 F3. split; [apply eraseIf_ok; assumption|]. intros k b E. rewrite getBlock_eraseBlockIf in E by apply H1.
  destruct (getBlock m k) as [b0|] eqn:E0; [|discriminate]. cbn [fst snd] in E. destruct (wb_empty qn (f b0)); [discriminate|]. injection E as <-.
  destruct (H2 k b0 E0) as [K|K]; [left; rewrite F1; exact K|right; apply F3; [exact (proj2 H1 k b0 E0)|exact K]].
Qed.
Lemma oinv_call np m last Sent now c : oinv C w thr np m last Sent -> last < now -> oinv C w thr (np && negb (prunes c)) (hw_apply C m (now, c)) last Sent.
Proof.
  intros H Hn. pose proof H as [H1 H2]. destruct c as [i v|i u| | |age| |b]; cbn [hw_apply prunes negb]; rewrite ?andb_true_r, ?andb_false_r.
  - unfold hw_set. apply oinv_set; [exact H| |exact Hn]. split; [|discriminate]. cbn [wb_set btree]. rewrite blockOrNew_tree. apply wt_update_ok; [|apply tree_at_ok; assumption].
    rewrite hw_cellIndex_spec by lia. cbn [oh]. lia.
  - unfold hw_add. apply oinv_set; [exact H| |exact Hn]. split; [|discriminate]. cbn [wb_add btree]. rewrite blockOrNew_tree. apply wt_update_ok; [|apply tree_at_ok; assumption].
    rewrite hw_cellIndex_spec by lia. cbn [oh]. lia.
  - split; [apply hw_threshold_ok; assumption|]. intros k b E. unfold hw_threshold in E. rewrite getBlock_forEachBlock in E.
    destruct (getBlock m k) as [b0|] eqn:E0; [|discriminate]. injection E as <-. destruct (H2 k b0 E0) as [K|K]; [left; rewrite thr_stamp; exact K|right].
    apply quiet_threshold; [exact (proj2 H1 k b0 E0)|exact K].
  - unfold hw_prune. apply (oinv_erase np); [exact H|exact (prune_stamp C)|intros b; apply wb_prune_ok; exact Hlh|intros k b; apply quiet_prune].
  - unfold hw_pruneSmart. apply (oinv_erase np m last Sent (fun b => if age <? now - bstamp b then wb_prune qn C b else b)).
    + exact H.
    + intros b. destruct (_ <? _); [apply prune_stamp|reflexivity].
    + intros b Hb. destruct (_ <? _); [apply wb_prune_ok; assumption|exact Hb].
    + intros k b Hb K. destruct (_ <? _); [exact (quiet_prune np Sent k b Hb K)|apply (quiet_weaken np); [right; reflexivity|exact K]].
  - split; [apply hw_ok_nil|]. intros i b E. discriminate E.
  - split; [apply (hw_ok_call C m now (HEraseBlock b)); assumption|]. intros i b' E. rewrite getBlock_eraseBlock in E. destruct (ieqb b i); [discriminate|]. exact (H2 i b' E).
Qed.
Lemma oinv_run np m last Sent only msg : (qeps <= thr)%Qc -> oinv C w thr np m last Sent ->
  (forall c, announced C thr only last m c -> In (centre w c) msg) ->
  forall k b, getBlock m k = Some b -> quiet C w thr np (Sent ++ msg) k b.
Proof.
  intros He [H1 H2] HM k b E c Hc Hs. destruct (Qclt_le_dec (thr + slack C np b) (cellv (cT C) (btree b) c)) as [Hv|Hv]; [|exact Hv].
  exfalso. assert (HV : (thr < cellv (cT C) (btree b) c)%Qc).
  { eapply Qcle_lt_trans; [|exact Hv]. replace thr with (thr + 0)%Qc at 1 by ring. apply Qcplus_le_compat; [apply Qcle_refl|apply slack_pos]. }
  destruct (H2 k b E) as [K|K].
  - apply Hs. apply in_or_app. right. apply HM. exists b. change (block_with C c) with (block_of C c). rewrite Hc. split; [exact E|]. split; [|split; [auto|]].
    + destruct (wb_empty qn b) eqn:Eb; [|reflexivity]. exfalso. pose proof (wb_empty_cell C b c ltac:(lia) Eb) as X. apply Qclt_le_weak in X. apply Qcabs_Qcle_condition in X. destruct X as [_ X].
      apply (Qcle_not_lt _ _ (Qcle_trans _ _ _ X He)). exact HV.
    + change (hw_get qn C m c) with (hw_field C m c). rewrite hw_field_spec by lia. unfold tree_at. rewrite Hc, E. exact HV.
  - apply (Qcle_not_lt (cellv (cT C) (btree b) c) (thr + slack C np b)); [|exact Hv]. apply (K c Hc). intros X. apply Hs. apply in_or_app. left. exact X.
Qed.
Lemma oinv_read np m Sent c : (0 <= thr)%Qc -> (forall k b, getBlock m k = Some b -> quiet C w thr np Sent k b) ->
  (thr + (if np then 0 else plain_prune_bound (cT C)) < hw_get qn C m c)%Qc -> In (centre w c) Sent.
Proof.
  intros H0 HS Hv. assert (D : In (centre w c) Sent \/ ~ In (centre w c) Sent).
  { destruct (in_dec (list_eq_dec (fun a b : Q => ltac:(decide equality; [apply Pos.eq_dec|apply Z.eq_dec]))) (centre w c) Sent); auto. }
  destruct D as [D|D]; [exact D|exfalso]. change (hw_get qn C m c) with (hw_field C m c) in Hv. rewrite hw_field_spec in Hv by lia. unfold tree_at in Hv.
  destruct (getBlock m (block_of C c)) as [b|] eqn:E.
  - pose proof (HS _ b E c eq_refl D) as K. apply (Qcle_not_lt _ _ K). eapply Qcle_lt_trans; [|exact Hv].
    apply Qcplus_le_compat; [apply Qcle_refl|]. unfold slack. destruct np; [apply Qcle_refl|]. destruct (bprn b); [apply bound_pos|apply Qcle_refl].
  - rewrite cellv_new in Hv by lia. apply (Qcle_not_lt 0 (thr + (if np then 0 else plain_prune_bound (cT C)))); [|exact Hv].
    replace 0%Qc with (0 + 0)%Qc at 1 by ring. apply Qcplus_le_compat; [exact H0|]. destruct np; [apply Qcle_refl|apply bound_pos].
Qed.
End INV.
Fixpoint o_noprunes (l : list oevent) : bool :=
  match l with [] => true | OCall _ c :: l' => negb (prunes c) && o_noprunes l' | _ :: l' => o_noprunes l' end.
Lemma o_noprunes_app l l' : o_noprunes (l ++ l') = o_noprunes l && o_noprunes l'.
Proof. induction l as [|[now c|i b|f r now] l IH]; cbn [app o_noprunes]; rewrite ?IH, ?andb_assoc; reflexivity. Qed.
Lemma o_noprunes_spec l : Forall (fun e => ~ o_pruning e) l -> o_noprunes l = true.
Proof.
  induction l as [|e l IH]; intros H; [reflexivity|]. inversion H as [|x y H1 H2]; subst. destruct e as [now c|i b|f r now]; cbn [o_noprunes]; rewrite (IH H2); [|reflexivity|reflexivity].
  destruct c; cbn [prunes negb andb o_pruning] in *; try reflexivity; exfalso; apply H1; exact I.
Qed.
Definition known_time (l : list oevent) (t : Z) : Prop := t = 0 \/ exists f r, In (ORun f r t) l.
Lemma known_app l e t : known_time l t -> known_time (l ++ [e]) t.
Proof. intros [H|(f & r & H)]; [left; exact H|right; exists f, r; apply in_or_app; left; exact H]. Qed.
Lemma known_later l t t' : known_time l t -> after_runs l t' -> t < t'.
Proof. intros [->|(f & r & H)] [H1 H2]; [exact H1|exact (H2 _ _ _ H)]. Qed.
Lemma pc_run_cases every force ros now pub s s' o : pc_run every force ros now pub s = Some (s', o) ->
  (o = None /\ pc_last_internal s' = pc_last_internal s) \/ (exists msg, o = Some msg /\ pub (pc_last_internal s) = Some (Some msg) /\ pc_last_internal s' = now).
Proof.
  unfold pc_run. destruct (force || _); [|intros E; injection E as <- <-; left; auto]. destruct (pub (pc_last_internal s)) as [[msg|]|] eqn:Ep; [| |discriminate]; intros E; injection E as <- <-.
  - right. exists msg. auto.
  - left. auto.
Qed.
Lemma hashed_published lf w C thr only last m msg : 1 <= cT C <= 21 -> enough_fuel lf -> hw_ok C m -> pc_hashed qn w thr lf C only last m = Some (Some msg) ->
  lists_cells w (announced C thr only last m) msg.
Proof.
  intros HT Hlf H E. assert (NE : m <> []) by (intros K; rewrite K in E; discriminate E). destruct (hashed_message lf w C thr only last m HT Hlf H NE) as (msg' & E' & L).
  rewrite E in E'. injection E' as <-. exact L.
Qed.
Lemma lists_in w P msg c : lists_cells w P msg -> P c -> In (centre w c) msg.
Proof. intros (cells & -> & _ & I) H. apply in_map. apply I. exact H. Qed.
Lemma history_inv lf w C thr only every l m s sent : valid_config C -> enough_fuel lf -> (clo C <= thr)%Qc -> (qeps <= thr)%Qc ->
  cloud_history lf w C thr only every l m s sent -> oinv C w thr (o_noprunes l) m (pc_last_internal s) (concat sent) /\ known_time l (pc_last_internal s).
Proof.
  intros HC Hlf Hthr He H. pose proof HC as [HT Hlh]. apply Qclt_le_weak in Hlh. induction H as [|l m s sent now c R [IH K] Hn|l m s sent i b R [IH K] Hn Hb|l m s sent force ros now s' o R [IH K] E].
  - split; [split; [apply hw_ok_nil|intros k b E; discriminate E]|left; reflexivity].
  - rewrite o_noprunes_app. cbn [o_noprunes]. rewrite andb_true_r. split; [|apply known_app; exact K]. apply oinv_call; try assumption. exact (known_later _ _ _ K Hn).
  - rewrite o_noprunes_app. cbn [o_noprunes]. rewrite andb_true_r. split; [|apply known_app; exact K]. apply oinv_set; [exact IH|apply proper_ok; assumption|exact (known_later _ _ _ K Hn)].
  - rewrite o_noprunes_app. cbn [o_noprunes]. rewrite andb_true_r. destruct (pc_run_cases _ _ _ _ _ _ _ _ E) as [[-> EL]|(msg & -> & EP & EL)]; rewrite EL.
    + rewrite app_nil_r. split; [exact IH|apply known_app; exact K].
    + split; [|right; exists force, ros; apply in_or_app; right; left; reflexivity]. rewrite concat_app. cbn [concat]. rewrite app_nil_r. split; [apply IH|]. intros k b Eb. right.
      refine (oinv_run C w thr HT _ m (pc_last_internal s) _ only msg He IH _ k b Eb). intros c Hc. exact (lists_in _ _ _ _ (hashed_published _ _ _ _ _ _ _ _ HT Hlf (proj1 IH) EP) Hc).
Qed.
Lemma history_ok lf w C thr only every l m s sent : valid_config C -> cloud_history lf w C thr only every l m s sent -> hw_ok C m.
Proof.
  intros HC H. pose proof HC as [HT Hlh]. apply Qclt_le_weak in Hlh. induction H as [|l m s sent now c R IH Hn|l m s sent i b R IH Hn Hb|l m s sent force ros now s' o R IH E].
  - apply hw_ok_nil.
  - apply hw_ok_call; assumption.
  - destruct (proper_ok C b HC Hb) as [B1 B2]. apply hw_ok_set; assumption.
  - exact IH.
Qed.

(** ** Chunked maps, through the hashed map they simulate *)
Lemma mrel_filter C f g m h : mrel C m h -> (forall k c b, brel C c b -> f (k, c) = g (k, b)) -> mrel C (filter f m) (filter g h).
Proof.
  intros R Hf. unfold mrel in *. induction R as [|[k c] [k' b] m h [E B] R IH]; [constructor|]. cbn [filter fst snd] in *. subst k'. rewrite (Hf k c b B).
  destruct (g (k, b)); [constructor; [split; [reflexivity|exact B]|exact IH]|exact IH].
Qed.
Lemma leaf_fuel_filter C f m : (leaf_fuel C (filter f m) <= leaf_fuel C m)%nat.
Proof.
  unfold leaf_fuel. induction m as [|a m IH]; [apply le_n|]. cbn [filter]. destruct (f a); cbn [map]; rewrite ?list_max_cons in *; cbn [list_max fold_right map] in *; unfold list_max in *; lia.
Qed.
Lemma chunked_message fuel w C thr only last m h F : 1 <= cT C <= 21 -> (Z.to_nat (cT C) <= fuel)%nat -> mrel C m h -> hw_ok C h -> (leaf_fuel C m <= F)%nat -> m <> [] ->
  exists msg, pc_chunked qn w thr F C only last m = Some (Some msg) /\ lists_cells w (announced C thr only last h) msg.
Proof.
  intros HT Hf R Hh HF NE. pose proof Hh as [Wh _]. unfold pc_chunked. replace (hc_empty m) with false by (destruct m; [congruence|reflexivity]).
  assert (W : hwf m) by (unfold hwf; rewrite (mrel_keys C m h R); exact Wh).
  set (m' := filter (fun kb : idx3 * cblock => negb only || (last <? cbstamp (snd kb))) m).
  assert (R' : mrel C m' (filter (fun kb : idx3 * wblock => negb only || (last <? bstamp (snd kb))) h)).
  { apply mrel_filter; [exact R|]. intros k c b (_ & _ & _ & E). cbn [snd]. rewrite E. reflexivity. }
  set (h' := filter (fun kb : idx3 * wblock => negb only || (last <? bstamp (snd kb))) h) in *.
  assert (W' : hwf m') by (apply filter_wf; exact W).
  destruct (hc_leaves fuel C HT Hf m' h' F R' W' ltac:(eapply Nat.le_trans; [apply leaf_fuel_filter|exact HF])) as (l & El & L1 & L2).
  rewrite blocks_chunked by (exists l; exact El). fold m'. rewrite El.
  destruct (message_of_leaves w thr l (cT C) (fun k => match getBlock m' k with Some b => Some (cb_empty qn b) | None => None end) (block_of C) (hc_get qn C m') L1) as (msg & E & cells & E1 & ND & I).
  - intros c. specialize (L2 c). destruct (getBlock m' (block_of C c)); exact L2.
  - rewrite E. exists msg. split; [reflexivity|]. exists cells. split; [exact E1|]. split; [exact ND|]. intros c. rewrite I. unfold announced.
    change (block_with C c) with (block_of C c). rewrite (mrel_get fuel C HT Hf m' h' c R'). change (hw_get qn C h c) with (hw_field C h c). change (hw_get qn C h' c) with (hw_field C h' c). rewrite !hw_field_spec by lia. unfold tree_at.
    pose proof (mrel_getBlock C m' h' (block_of C c) R') as G. assert (G' := getBlock_filter (fun kb : idx3 * wblock => negb only || (last <? bstamp (snd kb))) h (block_of C c) Wh). fold h' in G'. cbn [snd] in G'. rewrite G' in *.
    destruct (getBlock h (block_of C c)) as [b|].
    + destruct (negb only || (last <? bstamp b)) eqn:Ec.
      * pose proof (proj1 (cond_iff _ _ _) Ec) as Ec'. destruct (getBlock m' (block_of C c)) as [cb|]; [|contradiction].
        assert (EE : cb_empty qn cb = wb_empty qn b). { apply (trel_empty C). apply G. }
        rewrite EE. split; [intros [K1 K2]; injection K1 as K1; exists b; auto|]. intros (b' & K & K1 & _ & K2). injection K as <-. rewrite K1. auto.
      * destruct (getBlock m' (block_of C c)) as [cb|]; [contradiction|]. split; [intros [K _]; discriminate|]. intros (b' & K & _ & K1 & _). injection K as <-. pose proof (proj2 (cond_iff _ _ _) K1). congruence.
    + destruct (getBlock m' (block_of C c)) as [cb|]; [contradiction|]. split; [intros [K _]; discriminate|intros (b & K & _); discriminate].
Qed.
Lemma chunk_inv fuel F w C thr only every l m s sent : valid_config C -> (Z.to_nat (cT C) <= fuel)%nat -> (forall m, (leaf_fuel C m <= F m)%nat) ->
  (clo C <= thr)%Qc -> (qeps <= thr)%Qc -> chunk_history fuel F w C thr only every l m s sent ->
  exists h, mrel C m h /\ oinv C w thr (o_noprunes l) h (pc_last_internal s) (concat sent) /\ known_time l (pc_last_internal s).
Proof.
  intros HC Hf HF Hthr He H. pose proof HC as [HT Hlh]. apply Qclt_le_weak in Hlh. induction H as [|l m s sent now c R (h & M & IH & K) Hn|l m s sent force ros now s' o R (h & M & IH & K) E].
  - exists []. split; [constructor|]. split; [split; [apply hw_ok_nil|intros k b E; discriminate E]|left; reflexivity].
  - exists (hw_apply C h (now, c)). split; [apply mrel_apply; assumption|]. rewrite o_noprunes_app. cbn [o_noprunes]. rewrite andb_true_r. split; [|apply known_app; exact K]. apply oinv_call; try assumption. exact (known_later _ _ _ K Hn).
  - exists h. split; [exact M|]. rewrite o_noprunes_app. cbn [o_noprunes]. rewrite andb_true_r. destruct (pc_run_cases _ _ _ _ _ _ _ _ E) as [[-> EL]|(msg & -> & EP & EL)]; rewrite EL.
    + rewrite app_nil_r. split; [exact IH|apply known_app; exact K].
    + split; [|right; exists force, ros; apply in_or_app; right; left; reflexivity]. rewrite concat_app. cbn [concat]. rewrite app_nil_r. split; [apply IH|]. intros k b Eb. right.
      refine (oinv_run C w thr HT _ h (pc_last_internal s) _ only msg He IH _ k b Eb). intros c Hc.
      assert (NE : m <> []) by (intros X; rewrite X in EP; discriminate EP).
      destruct (chunked_message fuel w C thr only (pc_last_internal s) m h (F m) HT Hf M (proj1 IH) (HF m) NE) as (msg' & E' & L). rewrite EP in E'. injection E' as <-. exact (lists_in _ _ _ _ L Hc).
Qed.

Lemma half_range u a : 0 < a -> (u + a) / (2 * a) = 0 -> - a <= u < a.
Proof. intros P H. apply Z.div_small_iff in H; lia. Qed.

(** ** C63 *)
(** An invocation that is due (or forced) on a map that is not empty publishes one message. It holds the centres of exactly the cells above
    the threshold in the allocated blocks that are not empty and, if only changed blocks are to be published, have changed since the
    invocation before. *)
Theorem C63_hashed_message : forall lf w C thr only every l m s sent force ros_now now,
  valid_config C -> enough_fuel lf -> cloud_history lf w C thr only every l m s sent -> m <> [] -> force = true \/ every < ros_now - pc_last_run s ->
  exists msg, pc_run every force ros_now now (fun last => pc_hashed qn w thr lf C only last m) s = Some (PCS ros_now now, Some msg) /\
    lists_cells w (fun c => exists b, getBlock m (block_with C c) = Some b /\ wb_empty qn b = false /\ (only = true -> pc_last_internal s < bstamp b) /\
                                      (thr < hw_get qn C m c)%Qc) msg.
Proof.
  intros lf w C thr only every l m s sent force ros_now now HC Hlf R NE Hd. pose proof HC as [HT _]. pose proof (history_ok _ _ _ _ _ _ _ _ _ _ HC R) as OK.
  destruct (hashed_message lf w C thr only (pc_last_internal s) m HT Hlf OK NE) as (msg & E & L). exists msg. split; [|exact L].
  unfold pc_run, pc_shouldRun. replace (force || (every <? ros_now - pc_last_run s)) with true; [rewrite E; reflexivity|]. symmetry. apply orb_true_iff.
  destruct Hd as [->|Hd]; [left; reflexivity|right; apply Z.ltb_lt; exact Hd].
Qed.
(** Without the restriction to changed blocks, and with a threshold not below the one for observed cells (the default), these are simply the
    cells above the threshold. *)
Theorem C63_hashed_whole_map : forall lf w C thr every l m s sent force ros_now now,
  valid_config C -> enough_fuel lf -> (qeps <= thr)%Qc -> cloud_history lf w C thr false every l m s sent -> m <> [] -> force = true \/ every < ros_now - pc_last_run s ->
  exists msg, pc_run every force ros_now now (fun last => pc_hashed qn w thr lf C false last m) s = Some (PCS ros_now now, Some msg) /\
    lists_cells w (fun c => (thr < hw_get qn C m c)%Qc) msg.
Proof.
  intros lf w C thr every l m s sent force ros_now now HC Hlf He R NE Hd. pose proof HC as [HT _]. pose proof (history_ok _ _ _ _ _ _ _ _ _ _ HC R) as OK.
  destruct (C63_hashed_message lf w C thr false every l m s sent force ros_now now HC Hlf R NE Hd) as (msg & E & cells & E1 & ND & I). exists msg. split; [exact E|].
  exists cells. split; [exact E1|]. split; [exact ND|]. intros c. rewrite I. split; [intros (b & _ & _ & _ & H); exact H|]. intros H.
  change (hw_get qn C m c) with (hw_field C m c) in *. pose proof H as H'. rewrite hw_field_spec in H' by lia. unfold tree_at in H'. change (block_with C c) with (block_of C c).
  destruct (getBlock m (block_of C c)) as [b|] eqn:Eb.
  - exists b. split; [reflexivity|]. split; [|split; [discriminate|exact H]]. destruct (wb_empty qn b) eqn:Ee; [|reflexivity]. exfalso.
    pose proof (wb_empty_cell C b c ltac:(lia) Ee) as X. apply Qclt_le_weak in X. apply Qcabs_Qcle_condition in X. destruct X as [_ X].
    exact (Qcle_not_lt _ _ (Qcle_trans _ _ _ X He) H').
  - exfalso. rewrite cellv_new in H' by lia. assert (Z0 : (0 <= qeps)%Qc) by discriminate. exact (Qcle_not_lt _ _ (Qcle_trans _ _ _ Z0 He) H').
Qed.
(** Whoever collects the messages knows all obstacles: after an invocation that publishes, every cell above the threshold has been in this
    message or an earlier one, with the restriction to changed blocks too. If prune() was used, which changes values by a small amount
    without marking the block as changed, this holds for cells that are above the threshold by more than that. *)
Theorem C63_hashed_all_announced : forall lf w C thr only every l m s sent force ros_now now s' msg c,
  valid_config C -> enough_fuel lf -> (clo C <= thr)%Qc -> (qeps <= thr)%Qc -> cloud_history lf w C thr only every l m s sent ->
  pc_run every force ros_now now (fun last => pc_hashed qn w thr lf C only last m) s = Some (s', Some msg) ->
  (thr + plain_prune_bound (cT C) < hw_get qn C m c)%Qc \/ Forall (fun e => ~ o_pruning e) l /\ (thr < hw_get qn C m c)%Qc ->
  In (centre w c) (concat (sent ++ [msg])).
Proof.
  intros lf w C thr only every l m s sent force ros_now now s' msg c HC Hlf Hthr He R E Hv. pose proof HC as [HT Hlh].
  destruct (history_inv lf w C thr only every l m s sent HC Hlf Hthr He R) as [IH K].
  destruct (pc_run_cases _ _ _ _ _ _ _ _ E) as [[X _]|(msg' & X & EP & EL)]; [discriminate|]. injection X as <-. rewrite concat_app. cbn [concat]. rewrite app_nil_r.
  assert (Z0 : (0 <= qeps)%Qc) by discriminate.
  apply (oinv_read C w thr HT (o_noprunes l) m _ c (Qcle_trans _ _ _ Z0 He)).
  - intros k b Eb. refine (oinv_run C w thr HT _ m (pc_last_internal s) _ only msg He IH _ k b Eb). intros c' Hc. exact (lists_in _ _ _ _ (hashed_published _ _ _ _ _ _ _ _ HT Hlf (proj1 IH) EP) Hc).
  - destruct Hv as [Hv|[HP Hv]].
    + eapply Qcle_lt_trans; [|exact Hv]. apply Qcplus_le_compat; [apply Qcle_refl|]. destruct (o_noprunes l); [apply (bound_pos C HT)|apply Qcle_refl].
    + rewrite (o_noprunes_spec l HP). replace (thr + 0)%Qc with thr by ring. exact Hv.
Qed.
(** Hashed chunked maps *)
Theorem C63_chunked_message : forall fuel F w C thr only every l m s sent force ros_now now,
  valid_config C -> (Z.to_nat (cT C) <= fuel)%nat -> (forall m, (leaf_fuel C m <= F m)%nat) -> (clo C <= thr)%Qc -> (qeps <= thr)%Qc ->
  chunk_history fuel F w C thr only every l m s sent -> m <> [] -> force = true \/ every < ros_now - pc_last_run s ->
  exists msg, pc_run every force ros_now now (fun last => pc_chunked qn w thr (F m) C only last m) s = Some (PCS ros_now now, Some msg) /\
    lists_cells w (fun c => exists b, getBlock m (block_with C c) = Some b /\ cb_empty qn b = false /\ (only = true -> pc_last_internal s < cbstamp b) /\
                                      (thr < hc_get qn C m c)%Qc) msg.
Proof.
  intros fuel F w C thr only every l m s sent force ros_now now HC Hf HF Hthr He R NE Hd. pose proof HC as [HT _].
  destruct (chunk_inv fuel F w C thr only every l m s sent HC Hf HF Hthr He R) as (h & M & IH & K).
  destruct (chunked_message fuel w C thr only (pc_last_internal s) m h (F m) HT Hf M (proj1 IH) (HF m) NE) as (msg & E & cells & E1 & ND & I). exists msg. split.
  - unfold pc_run, pc_shouldRun. replace (force || (every <? ros_now - pc_last_run s)) with true; [rewrite E; reflexivity|]. symmetry. apply orb_true_iff.
    destruct Hd as [->|Hd]; [left; reflexivity|right; apply Z.ltb_lt; exact Hd].
  - exists cells. split; [exact E1|]. split; [exact ND|]. intros c. rewrite I. unfold announced. rewrite (mrel_get fuel C HT Hf m h c M).
    pose proof (mrel_getBlock C m h (block_with C c) M) as G. destruct (getBlock m (block_with C c)) as [cb|], (getBlock h (block_with C c)) as [b|]; try contradiction.
    + destruct G as (G1 & _ & _ & G4). assert (EE : cb_empty qn cb = wb_empty qn b) by (apply (trel_empty C); exact G1).
      split; intros (x & X1 & X2 & X3 & X4); injection X1 as <-; [exists cb|exists b]; rewrite ?EE, ?G4 in *; auto.
    + split; intros (x & X1 & _); discriminate.
Qed.
Theorem C63_chunked_all_announced : forall fuel F w C thr only every l m s sent force ros_now now s' msg c,
  valid_config C -> (Z.to_nat (cT C) <= fuel)%nat -> (forall m, (leaf_fuel C m <= F m)%nat) -> (clo C <= thr)%Qc -> (qeps <= thr)%Qc ->
  chunk_history fuel F w C thr only every l m s sent ->
  pc_run every force ros_now now (fun last => pc_chunked qn w thr (F m) C only last m) s = Some (s', Some msg) ->
  (thr + plain_prune_bound (cT C) < hc_get qn C m c)%Qc \/ Forall (fun e => ~ o_pruning e) l /\ (thr < hc_get qn C m c)%Qc ->
  In (centre w c) (concat (sent ++ [msg])).
Proof.
  intros fuel F w C thr only every l m s sent force ros_now now s' msg c HC Hf HF Hthr He R E Hv. pose proof HC as [HT Hlh].
  destruct (chunk_inv fuel F w C thr only every l m s sent HC Hf HF Hthr He R) as (h & M & IH & K).
  destruct (pc_run_cases _ _ _ _ _ _ _ _ E) as [[X _]|(msg' & X & EP & EL)]; [discriminate|]. injection X as <-. rewrite concat_app. cbn [concat]. rewrite app_nil_r.
  assert (Z0 : (0 <= qeps)%Qc) by discriminate. rewrite (mrel_get fuel C HT Hf m h c M) in Hv. assert (NE : m <> []) by (intros X; rewrite X in EP; discriminate EP).
  apply (oinv_read C w thr HT (o_noprunes l) h _ c (Qcle_trans _ _ _ Z0 He)).
  - intros k b Eb. refine (oinv_run C w thr HT _ h (pc_last_internal s) _ only msg He IH _ k b Eb). intros c' Hc.
    destruct (chunked_message fuel w C thr only (pc_last_internal s) m h (F m) HT Hf M (proj1 IH) (HF m) NE) as (msg' & E' & L). rewrite EP in E'. injection E' as <-. exact (lists_in _ _ _ _ L Hc).
  - destruct Hv as [Hv|[HP Hv]].
    + eapply Qcle_lt_trans; [|exact Hv]. apply Qcplus_le_compat; [apply Qcle_refl|]. destruct (o_noprunes l); [apply (bound_pos C HT)|apply Qcle_refl].
    + rewrite (o_noprunes_spec l HP). replace (thr + 0)%Qc with thr by ring. exact Hv.
Qed.
(** Maps without blocks: all their cells, every time *)
Theorem C63_wavelet_octree_message : forall w C thr fuel t, valid_config C -> plain_reachable C t -> (nsize (wroot t) <= fuel)%nat -> wt_empty qn t = false ->
  exists msg, pc_plain qn w thr fuel C t = Some (Some msg) /\
    lists_cells w (fun c => in_octree (cT C) (cell c) /\ (thr < wo_get qn C t (cell c))%Qc) msg.
Proof.
  intros w C thr fuel t HC Hr Hf He. pose proof HC as [HT _]. pose proof (plain_ok C t HC Hr) as Ht. unfold pc_plain. rewrite He.
  destruct (C17_plain_leaves C t fuel HC Hr Hf) as (l & El & _ & Hl). specialize (Hl He). rewrite El.
  destruct (wo_leaves C t fuel l Ht Hf He El) as [L1 _].
  assert (HH : forall i u, In (i, u) l -> 0 <= oh i) by (intros i u Hi; destruct (L1 i u Hi); assumption).
  assert (OUT : forall c, in_octree (cT C) (cell c) \/ forall i u, In (i, u) l -> in_node i c = false).
  { intros c. unfold wo_forEachLeaf in El. destruct (wt_forEachLeaf qn fuel 0 (OI (cT C) (I3 0 0 0)) t) as [l0|] eqn:E0; [|discriminate]. injection El as <-.
    destruct (wt_leaves (cT C) t 0 (I3 0 0 0) fuel l0 Ht ltac:(lia) Hf He E0 (shift (2 ^ (cT C - 1)) c)) as [_ H].
    set (a := 2 ^ (cT C - 1)) in *. assert (EA : 2 ^ cT C = 2 * a) by (unfold a; rewrite <- Z.pow_succ_r by lia; f_equal; lia). assert (PA : 0 < a) by (apply Z.pow_pos_nonneg; lia).
    destruct (idx3_eq_dec (imap (fun x => x / 2 ^ cT C) (shift a c)) (I3 0 0 0)) as [D|D].
    - left. destruct c as [x y z]. unfold shift, imap in D. cbn [px py pz] in D. injection D as D1 D2 D3. rewrite EA in *.
      unfold in_octree, cell. cbn [oh opos px py pz]. rewrite Z.sub_0_r. fold a. assert (X : forall u, (u + a) / (2 * a) = 0 -> - a <= u < a) by (intros u; apply half_range; exact PA).
      split; [lia|]. split; [exact (X x D1)|]. split; [exact (X y D2)|exact (X z D3)].
    - right. specialize (H D). intros i u Hin. destruct (in_node i c) eqn:En; [|reflexivity]. exfalso. pose proof (HH i u Hin) as Hi. apply in_node_covers in En; [|exact Hi].
      apply in_map_iff in Hin as ([j v] & E & Hin). injection E as <- <-. apply (H j); [apply in_map_iff; exists (j, v); auto|]. cbn [fst] in *.
      apply wo_toExternal_covers; [|exact En]. apply (wt_leaves_heights C t 0 (I3 0 0 0) fuel l0 j v ltac:(lia) ltac:(lia) Hf E0 Hin). }
  destruct (leaves_field w thr l (fun c => in_octree (cT C) (cell c)) (fun c => wo_get qn C t (cell c)) HH Hl OUT) as (cells & E & ND & I).
  exists (map (centre w) cells). rewrite E. split; [reflexivity|]. exists cells. split; [reflexivity|]. split; [exact ND|]. intros c. rewrite I. split; [tauto|].
  intros [H1 H2]. split; [|auto]. destruct (Hl c H1) as (l1 & i & l2 & -> & Hi & _). exists i, (wo_get qn C t (cell c)). split; [apply in_or_app; right; left; reflexivity|exact Hi].
Qed.
Theorem C63_hashed_blocks_message : forall w (C : hbconfig Qc) thr l, 0 <= hK C -> let m := hb_run qn C l in hb_empty m = false ->
  exists msg, pc_dense qn w thr C m = Some (Some msg) /\ lists_cells w (fun c => hb_hasValue C m c = true /\ (thr < hb_get C m c)%Qc) msg.
Proof.
  intros w C thr l HK m He. unfold pc_dense. rewrite He. destruct (C21_leaves Qc qn C l HK) as (L1 & L2 & L3 & L4 & _). fold m in L1, L2, L3, L4.
  set (lv := hb_forEachLeaf C m) in *. assert (HH : forall i u, In (i, u) lv -> 0 <= oh i) by (intros i u Hi; destruct (L2 i u Hi) as [-> _]; lia).
  assert (CV : forall c, hb_hasValue C m c = true -> exactly_one lv c (hb_get C m c)).
  { intros c Hc. destruct (in_split _ _ (L3 c Hc)) as (l1 & l2 & E). exists l1, (OI 0 c), l2. split; [exact E|]. split; [apply in_node_cell; reflexivity|].
    intros j u Hj. destruct (in_node j c) eqn:En; [|reflexivity]. exfalso. rewrite E in L1. rewrite map_app in L1. cbn [map fst] in L1. apply NoDup_remove_2 in L1.
    assert (Ej : In (j, u) lv) by (rewrite E; apply in_app_or in Hj; apply in_or_app; destruct Hj; [left|right; right]; assumption).
    destruct (L2 j u Ej) as (O & _). destruct j as [h p]. cbn [oh] in O. subst h. apply in_node_cell in En. subst p. apply L1. rewrite <- map_app. apply in_map_iff. exists (OI 0 c, u). auto. }
  destruct (leaves_field w thr lv (fun c => hb_hasValue C m c = true) (hb_get C m) HH CV) as (cells & E & ND & I).
  { intros c. destruct (hb_hasValue C m c) eqn:Ec; [left; reflexivity|right]. intros i u Hi. destruct (L2 i u Hi) as (O & Hv & _). destruct i as [h p]. cbn [oh opos] in *. subst h.
    destruct (in_node (OI 0 p) c) eqn:En; [|reflexivity]. apply in_node_cell in En. subst p. congruence. }
  exists (map (centre w) cells). rewrite E. split; [reflexivity|]. exists cells. split; [reflexivity|]. split; [exact ND|]. intros c. rewrite I. split; [tauto|].
  intros [H1 H2]. split; [|auto]. exists (OI 0 c), (hb_get C m c). split; [apply L3; exact H1|apply in_node_cell; reflexivity].
Qed.

(** ** Examples and what goes wrong *)
Definition run1 (only force : bool) (ros_now now : Z) (m : hmap (V := Qc)) (s : pcstate) : pcstate * option (list (list Q)) :=
  match pc_run 10 force ros_now now (fun last => pc_hashed qn (1 # 2) (Q2Qc 1) lf0 exC only last m) s with Some r => r | None => (s, None) end.
Definition oev (only : bool) (x : hmap (V := Qc) * pcstate * list (list (list Q))) (e : oevent) : hmap (V := Qc) * pcstate * list (list (list Q)) :=
  let '(m, s, sent) := x in
  match e with
  | OCall now c => (hw_apply exC m (now, c), s, sent)
  | OWrite i b => (setBlock m i b, s, sent)
  | ORun force ros now => let '(s', o) := run1 only force ros now m s in (m, s', sent ++ match o with Some msg => [msg] | None => [] end)
  end.
Definition oevs (only : bool) (l : list oevent) := fold_left (oev only) l ([], PCS 0 0, []).
Fixpoint afterb (l : list oevent) (t : Z) : bool :=
  match l with [] => 0 <? t | ORun _ _ now :: l' => (now <? t) && afterb l' t | _ :: l' => afterb l' t end.
Lemma afterb_spec l t : afterb l t = true -> after_runs l t.
Proof.
  induction l as [|e l IH]; cbn [afterb]; [intros H; apply Z.ltb_lt in H; split; [exact H|intros ? ? ? []]|].
  destruct e as [n c|i b|f r n]; [intros H|intros H|intros H; apply andb_true_iff in H; destruct H as [H0 H]; apply Z.ltb_lt in H0];
    destruct (IH H) as [I1 I2]; (split; [exact I1|]); intros f' r' n' [E|E]; try discriminate; try (exact (I2 _ _ _ E)).
  injection E as _ _ ->. exact H0.
Qed.
Definition hist1 (only : bool) (l : list oevent) : Prop :=
  let '(m, s, sent) := oevs only l in cloud_history lf0 (1 # 2) exC (Q2Qc 1) only 10 l m s sent.
Lemma hist1_snoc only l e : hist1 only l -> match e with OCall now _ => afterb l now = true | OWrite _ _ => False | ORun _ _ _ => True end -> hist1 only (l ++ [e]).
Proof.
  unfold hist1, oevs. rewrite fold_left_app. cbn [fold_left]. fold (oevs only l). destruct (oevs only l) as [[m s] sent]. intros R He. destruct e as [now c|i b|f r n]; cbn [oev].
  - apply ch_call; [exact R|apply afterb_spec; exact He].
  - destruct He.
  - unfold run1. assert (X : exists x, pc_run 10 f r n (fun last => pc_hashed qn (1 # 2) (Q2Qc 1) lf0 exC only last m) s = Some x).
    { unfold pc_run. destruct (f || _); [|eexists; reflexivity]. destruct m as [|kb m0] eqn:Em; [eexists; reflexivity|]. rewrite <- Em in *.
      destruct (hashed_message lf0 (1 # 2) exC (Q2Qc 1) only (pc_last_internal s) m ltac:(cbn; lia) lf0_ok (history_ok _ _ _ _ _ _ _ _ _ _ exC_valid R) ltac:(rewrite Em; discriminate)) as (msg & -> & _). eexists; reflexivity. }
    destruct X as [[s' o] X]. rewrite X. exact (ch_run _ _ _ _ _ _ _ _ _ _ _ _ _ _ _ R X).
Qed.
Lemma hist1_nil only : hist1 only []. Proof. exact (ch_nil _ _ _ _ _ _). Qed.
(** Two cells become obstacles, one after the other, in two blocks; the second run is not due; the next one sends both, as the block of the first
    was changed again. *)
Definition exO : list oevent :=
  [OCall 1 (HAdd (I3 1 1 1) (Q2Qc 3)); ORun false 20 2; OCall 3 (HAdd (I3 9 9 9) (Q2Qc 2)); ORun false 25 4; OCall 5 (HAdd (I3 0 1 1) (- Q2Qc 1)%Qc)].
Lemma exO_hist only : hist1 only exO.
Proof.
  change exO with ((((([] ++ [OCall 1 (HAdd (I3 1 1 1) (Q2Qc 3))]) ++ [ORun false 20 2]) ++ [OCall 3 (HAdd (I3 9 9 9) (Q2Qc 2))]) ++ [ORun false 25 4]) ++ [OCall 5 (HAdd (I3 0 1 1) (- Q2Qc 1)%Qc)]).
  repeat (apply hist1_snoc; [|first [exact I|vm_compute; reflexivity]]). apply hist1_nil.
Qed.

Definition o_map (x : hmap (V := Qc) * pcstate * list (list (list Q))) := fst (fst x).
Definition pts (l : list (list Q)) : list (list Q) := map (map Qred) l.
Example C63_ex : hist1 true exO /\ hist1 false exO /\ (clo exC <= Q2Qc 1)%Qc /\ (qeps <= Q2Qc 1)%Qc /\
  map pts (snd (oevs true exO)) = [[[3 # 4; 3 # 4; 3 # 4]]]%Q /\
  option_map pts (snd (run1 true false 40 6 (o_map (oevs true exO)) (snd (fst (oevs true exO))))) = Some [[3 # 4; 3 # 4; 3 # 4]; [19 # 4; 19 # 4; 19 # 4]]%Q.
Proof. split; [apply exO_hist|]. split; [apply exO_hist|]. split; [discriminate|]. split; [discriminate|]. split; vm_compute; reflexivity. Qed.
Example C63_chunked_ex : let m := hc_run 5 exCC [(1, HAdd (I3 1 1 1) (Q2Qc 3))] in
  chunk_history 5 (leaf_fuel exCC) 1%Q exCC (Q2Qc 1) true 10 [OCall 1 (HAdd (I3 1 1 1) (Q2Qc 3))] m (PCS 0 0) [] /\ m <> [] /\
  (Z.to_nat (cT exCC) <= 5)%nat /\ (forall m, (leaf_fuel exCC m <= leaf_fuel exCC m)%nat) /\ valid_config exCC /\
  option_map (option_map pts) (pc_chunked qn 1%Q (Q2Qc 1) 100 exCC true 0 m) = Some (Some [[3 # 2; 3 # 2; 3 # 2]])%Q.
Proof.
  split.
  - apply (kh_call _ _ _ _ _ _ _ [] [] (PCS 0 0) [] 1 (HAdd (I3 1 1 1) (Q2Qc 3))); [apply kh_nil|]. split; [lia|]. intros f r n [].
  - split; [vm_compute; discriminate|]. split; [vm_compute; lia|]. split; [intros m; apply le_n|]. split; [split; [cbn; lia|reflexivity]|]. vm_compute. reflexivity.
Qed.
Example C63_plain_ex : valid_config exC /\ plain_reachable exC (wo_run exC exW) /\ wt_empty qn (wo_run exC exW) = false.
Proof. split; [exact exC_valid|exact C48_plain_ex]. Qed.
Example C63_dense_ex : let C := HBC (- Q2Qc 2)%Qc (Q2Qc 4) 0%Qc 2 in let m := hb_run qn C [HBSet (I3 1 2 3) (Q2Qc 3); HBAdd (I3 (-1) 0 0) (Q2Qc 7)] in
  hb_empty m = false /\ option_map (option_map pts) (pc_dense qn 2%Q (Q2Qc 3) C m) = Some (Some [[- (1); 1; 1]])%Q.
Proof. split; vm_compute; reflexivity. Qed.
(** That a cell is no longer an obstacle is not announced: two histories with the same messages, up to date in both cases, after which
    the same cell is an obstacle in one map and free in the other. *)
Theorem C63_freed_cells_refuted : exists lf w C thr only every l1 m1 s1 sent1 l2 m2 s2 sent2 c,
  valid_config C /\ enough_fuel lf /\ (clo C <= thr)%Qc /\ (qeps <= thr)%Qc /\
  cloud_history lf w C thr only every (l1 ++ [ORun true 20 20]) m1 s1 sent1 /\ cloud_history lf w C thr only every (l2 ++ [ORun true 20 20]) m2 s2 sent2 /\
  sent1 = sent2 /\ length sent1 = 2%nat /\ (thr < hw_get qn C m1 c)%Qc /\ (hw_get qn C m2 c < 0)%Qc.
Proof.
  set (l1 := [OCall 1 (HAdd (I3 1 1 1) (Q2Qc 3)); ORun true 10 10]).
  set (l2 := [OCall 1 (HAdd (I3 1 1 1) (Q2Qc 3)); ORun true 10 10; OCall 11 (HAdd (I3 1 1 1) (- Q2Qc 4)%Qc)]).
  assert (H1 : hist1 true (l1 ++ [ORun true 20 20])).
  { change (l1 ++ [ORun true 20 20]) with ((([] ++ [OCall 1 (HAdd (I3 1 1 1) (Q2Qc 3))]) ++ [ORun true 10 10]) ++ [ORun true 20 20]).
    repeat (apply hist1_snoc; [|first [exact I|vm_compute; reflexivity]]). apply hist1_nil. }
  assert (H2 : hist1 true (l2 ++ [ORun true 20 20])).
  { change (l2 ++ [ORun true 20 20]) with (((([] ++ [OCall 1 (HAdd (I3 1 1 1) (Q2Qc 3))]) ++ [ORun true 10 10]) ++ [OCall 11 (HAdd (I3 1 1 1) (- Q2Qc 4)%Qc)]) ++ [ORun true 20 20]).
    repeat (apply hist1_snoc; [|first [exact I|vm_compute; reflexivity]]). apply hist1_nil. }
  unfold hist1 in H1, H2. destruct (oevs true (l1 ++ [ORun true 20 20])) as [[m1 s1] sent1] eqn:E1. destruct (oevs true (l2 ++ [ORun true 20 20])) as [[m2 s2] sent2] eqn:E2.
  exists lf0, (1 # 2)%Q, exC, (Q2Qc 1), true, 10, l1, m1, s1, sent1, l2, m2, s2, sent2, (I3 1 1 1).
  split; [exact exC_valid|]. split; [exact lf0_ok|]. split; [discriminate|]. split; [discriminate|]. split; [exact H1|]. split; [exact H2|].
  assert (P1 : sent1 = snd (oevs true (l1 ++ [ORun true 20 20]))) by (rewrite E1; reflexivity). assert (P2 : sent2 = snd (oevs true (l2 ++ [ORun true 20 20]))) by (rewrite E2; reflexivity).
  assert (M1 : m1 = o_map (oevs true (l1 ++ [ORun true 20 20]))) by (rewrite E1; reflexivity). assert (M2 : m2 = o_map (oevs true (l2 ++ [ORun true 20 20]))) by (rewrite E2; reflexivity).
  rewrite P1, P2, M1, M2. clear. split; [vm_compute; reflexivity|]. split; [vm_compute; reflexivity|]. split; vm_compute; reflexivity.
Qed.
(** The requirement that changes happen after the earlier runs is needed: a change that has the same time stamp as the start of a run, but is made
    after the block was read, is not seen by the following runs. *)
Theorem C63_same_time_refuted : exists lf w C thr every l m s sent c v s' msg,
  valid_config C /\ enough_fuel lf /\ (clo C <= thr)%Qc /\ (qeps <= thr)%Qc /\ cloud_history lf w C thr true every (l ++ [ORun true 10 10]) m s sent /\
  let m' := hw_add qn C 10 m c v in
  pc_run every true 20 20 (fun last => pc_hashed qn w thr lf C true last m') s = Some (s', Some msg) /\
  (thr < hw_get qn C m' c)%Qc /\ ~ In (centre w c) (concat (sent ++ [msg])).
Proof.
  set (l := [OCall 1 (HAdd (I3 1 1 1) (Q2Qc 3))]).
  assert (H1 : hist1 true (l ++ [ORun true 10 10])).
  { change (l ++ [ORun true 10 10]) with (([] ++ [OCall 1 (HAdd (I3 1 1 1) (Q2Qc 3))]) ++ [ORun true 10 10]).
    repeat (apply hist1_snoc; [|first [exact I|vm_compute; reflexivity]]). apply hist1_nil. }
  unfold hist1 in H1. destruct (oevs true (l ++ [ORun true 10 10])) as [[m s] sent] eqn:E1.
  exists lf0, (1 # 2)%Q, exC, (Q2Qc 1), 10, l, m, s, sent, (I3 3 1 1), (Q2Qc 2), (PCS 20 20), [].
  split; [exact exC_valid|]. split; [exact lf0_ok|]. split; [discriminate|]. split; [discriminate|]. split; [exact H1|].
  assert (P1 : sent = snd (oevs true (l ++ [ORun true 10 10]))) by (rewrite E1; reflexivity). assert (P2 : s = snd (fst (oevs true (l ++ [ORun true 10 10])))) by (rewrite E1; reflexivity).
  assert (M1 : m = o_map (oevs true (l ++ [ORun true 10 10]))) by (rewrite E1; reflexivity).
  rewrite P1, P2, M1. clear. cbv zeta. split; [vm_compute; reflexivity|]. split; [vm_compute; reflexivity|].
  assert (X : existsb (fun p => if list_eq_dec (fun a b : Q => ltac:(decide equality; [apply Pos.eq_dec|apply Z.eq_dec])) (centre (1 # 2) (I3 3 1 1)) p then true else false)
                (concat (snd (oevs true (l ++ [ORun true 10 10])) ++ [[]])) = false) by (vm_compute; reflexivity).
  intros K. rewrite <- not_true_iff_false in X. apply X. apply existsb_exists. exists (centre (1 # 2) (I3 3 1 1)). split; [exact K|]. destruct (list_eq_dec _ _ _); [reflexivity|congruence].
Qed.
Print Assumptions C63_hashed_message.
Print Assumptions C63_hashed_whole_map.
Print Assumptions C63_hashed_all_announced.
Print Assumptions C63_chunked_message.
Print Assumptions C63_chunked_all_announced.
Print Assumptions C63_wavelet_octree_message.
Print Assumptions C63_hashed_blocks_message.
Print Assumptions C63_freed_cells_refuted.
Print Assumptions C63_same_time_refuted.
