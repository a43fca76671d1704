(** What a saved hashed (chunked) wavelet octree contains, in exact arithmetic *)
From Verif Require Import Base M_IntMath F_IntMath M_NdtreeIndex M_Num F_Num M_Haar F_Haar M_Haar3 F_Haar3 M_Ndtree S_Field F_Hash M_Wavelet
  F_Wavelet F_Wavelet2 F_Leaves F_WavTree F_WavMap F_WavHash M_WavHist F_WavHist M_HashedBlocks M_Octree F_Octree M_Chunked F_Chunked F_ChunkedSim F_ChunkedWav
  M_ChunkedHist F_ChunkedMap M_Subtree P_Subtree M_Stream F_Stream F_Stream2 F_Stream3.
From Coq Require Import QArith Qcanon Qcabs Lqa.
Close Scope Qc_scope. Close Scope Q_scope. Open Scope Z_scope.

Notation qconf := (wconfig (V := Qc)).
Notation qsat := (saturated qn).

Lemma path_firstn j : forall k p, (j <= k)%nat -> firstn j (path k p) = path j (imap (fun c => c / 2 ^ (Z.of_nat k - Z.of_nat j)) p).
Proof.
  induction j as [|j IH]; intros k p H; [reflexivity|]. destruct k as [|k]; [lia|]. cbn [path firstn].
  replace (Z.of_nat (S k) - Z.of_nat (S j)) with (Z.of_nat k - Z.of_nat j) by lia. rewrite IH by lia. f_equal.
  unfold cidx, imap. cbn [px py pz]. rewrite !Z.div_pow2_bits by lia. replace (Z.of_nat j + (Z.of_nat k - Z.of_nat j)) with (Z.of_nat k) by lia. reflexivity.
Qed.
Lemma kidval_value s n c : 0 <= c < 8 -> kidval qn s n c = child_value s (ndata n) c.
Proof. intros H. unfold kidval. rewrite <- bsc_backward by exact H. apply bsc_value. exact H. Qed.
(** Saturation cuts a path at its first saturated prefix *)
Lemma eval_keep C : forall q n v, valid_path q -> exists j, (j <= length q)%nat /\ eval v (norm (keep qn C v n)) q = eval v n (firstn j q) /\
  (j = length q \/ (0 < j)%nat /\ qsat C (eval v n (firstn j q)) = true) /\
  forall j', (0 < j' < j)%nat -> qsat C (eval v n (firstn j' q)) = false.
Proof.
  induction q as [|c q IH]; intros n v Hq.
  - exists O. split; [cbn; lia|]. split; [reflexivity|]. split; [left; reflexivity|]. intros j' H. lia.
  - apply Forall_cons_iff in Hq. destruct Hq as [Hc Hq]. cbn [eval]. rewrite norm_data, keep_data, norm_child, keep_child by exact Hc.
    rewrite kidval_value by exact Hc. set (v' := child_value v (ndata n) c). destruct (qsat C v') eqn:S.
    + exists 1%nat. split; [cbn; lia|]. cbn [firstn eval option_map]. split; [destruct (getChild n c); reflexivity|].
      split; [right; split; [lia|]; destruct (getChild n c); exact S|]. intros j' H. lia.
    + destruct (getChild n c) as [ch|] eqn:E; cbn [option_map].
      * destruct (IH ch v' Hq) as (j & J1 & J2 & J3 & J4). exists (Datatypes.S j). split; [cbn [length]; lia|]. cbn [firstn eval]. rewrite E. split; [exact J2|].
        split; [destruct J3 as [J3|[J3 J5]]; [left; cbn [length]; lia|right; split; [lia|exact J5]]|].
        intros [|j'] H; [lia|]. cbn [firstn eval]. rewrite E. fold v'. destruct j' as [|j']; [exact S|]. apply J4. lia.
      * exists (Datatypes.S (length q)). split; [cbn [length]; lia|]. cbn [firstn eval]. rewrite E. split; [reflexivity|].
        split; [left; reflexivity|]. intros [|j'] H; [lia|]. cbn [firstn eval]. rewrite E. exact S.
Qed.
Definition as_saved (C : qconf) (t : wtree (V := Qc)) : wtree := WT (norm (keep qn C (wscale t) (wroot t))) (wscale t).
Lemma as_saved_get C t c : 1 <= cT C <= 21 -> exists h, 0 <= h < cT C /\
  wt_get qn (cT C) (as_saved C t) (OI 0 c) = wt_get qn (cT C) t (OI h (imap (fun x => x / 2 ^ h) c)) /\
  (h = 0 \/ qsat C (wt_get qn (cT C) t (OI h (imap (fun x => x / 2 ^ h) c))) = true) /\
  forall h', h < h' < cT C -> qsat C (wt_get qn (cT C) t (OI h' (imap (fun x => x / 2 ^ h') c))) = false.
Proof.
  intros HT. set (T := cT C) in *.
  destruct (eval_keep C (path (Z.to_nat (T - 0)) c) (wroot t) (wscale t) (path_valid _ _)) as (j & J1 & J2 & J3 & J4).
  rewrite path_length in J1, J3.
  assert (E : forall h, 0 <= h < T -> wt_get qn T t (OI h (imap (fun x => x / 2 ^ h) c)) = eval (wscale t) (wroot t) (firstn (Z.to_nat (T - h)) (path (Z.to_nat (T - 0)) c))).
  { intros h Hh. rewrite wt_get_eval by lia. rewrite path_firstn by lia. do 3 f_equal.
    replace (Z.of_nat (Z.to_nat (T - 0)) - Z.of_nat (Z.to_nat (T - h))) with h by lia. reflexivity. }
  assert (Hj : (0 < j)%nat) by (destruct J3 as [->|[? _]]; lia).
  exists (T - Z.of_nat j). split; [lia|]. rewrite E by lia. replace (Z.to_nat (T - (T - Z.of_nat j))) with j by lia. split; [|split].
  - unfold as_saved. rewrite wt_get_eval by lia. exact J2.
  - destruct J3 as [->|[_ J3]]; [left; lia|right; exact J3].
  - intros h' Hh. rewrite E by lia. apply J4. lia.
Qed.
(** The loaded map *)
Definition hw_reloaded (C : qconf) (now : Z) (m : hmap (V := Qc)) : hmap := hw_loaded now (as_written qn C m).
Lemma getBlock_map {A B} (f : A -> B) (m : shash A) i : getBlock (map (fun kb => (fst kb, f (snd kb))) m) i = option_map f (getBlock m i).
Proof. induction m as [|[k b] m IH]; [reflexivity|]. cbn [map getBlock fst snd]. destruct (ieqb k i); [reflexivity|exact IH]. Qed.
Lemma tree_reloaded C now m b : tree_at (hw_reloaded C now m) b = as_saved C (tree_at m b).
Proof.
  unfold tree_at, hw_reloaded, hw_loaded, as_written. rewrite map_map. cbn [fst snd].
  rewrite (getBlock_map (fun b => WB (WT (norm (keep qn C (wscale (btree b)) (wroot (btree b)))) (wscale (btree b))) false false now)).
  destruct (getBlock m b); reflexivity.
Qed.
Lemma reloaded_get C now m c : 1 <= cT C <= 21 -> exists h, 0 <= h < cT C /\
  hw_get qn C (hw_reloaded C now m) c = hw_get_node qn C m (OI h (imap (fun x => x / 2 ^ h) c)) /\
  (h = 0 \/ qsat C (hw_get_node qn C m (OI h (imap (fun x => x / 2 ^ h) c))) = true) /\
  forall h', h < h' < cT C -> qsat C (hw_get_node qn C m (OI h' (imap (fun x => x / 2 ^ h') c))) = false.
Proof.
  intros HT. destruct (as_saved_get C (tree_at m (block_of C c)) c HT) as (h & H1 & H2 & H3 & H4).
  assert (E : forall h, 0 <= h < cT C -> hw_get_node qn C m (OI h (imap (fun x => x / 2 ^ h) c)) =
    wt_get qn (cT C) (tree_at m (block_of C c)) (OI h (imap (fun x => x / 2 ^ h) c))).
  { intros h' Hh. rewrite hw_get_node_spec by lia. rewrite <- (block_of_covers C h' (imap (fun x => x / 2 ^ h') c) c); [reflexivity|lia|reflexivity]. }
  exists h. split; [exact H1|]. rewrite E by lia. split; [|split; [exact H3|intros h' Hh; rewrite E by lia; apply H4; exact Hh]].
  change (hw_get qn C (hw_reloaded C now m) c) with (hw_field C (hw_reloaded C now m) c). rewrite hw_field_spec by lia. rewrite tree_reloaded. exact H2.
Qed.

(** ** Chunked maps are written like the pointer map that stores all their nodes *)
Inductive save_rel (root : chunk (det Qc)) : Qc * nref -> Qc * node (det Qc) -> Prop :=
| SR k q n s : valid_path q -> nheight k n -> csub root q (Some n) -> save_rel root (s, caddr q) (s, mat k root q).
Lemma fold_save_rel C root k q n (vs : oct Qc) : valid_path q -> nheight k n -> csub root q (Some n) ->
  forall l st st', (forall c, In c l -> 0 <= c < 8) -> Forall2 (save_rel root) st st' ->
  Forall2 (save_rel root)
   (fold_left (fun st c => if qsat C (oget vs c) then st else match nr_getChild cH root (caddr q) c with Some ch => (oget vs c, ch) :: st | None => st end) l st)
   (fold_left (fun st c => if qsat C (oget vs c) then st else match getChild (mat k root q) c with Some ch => (oget vs c, ch) :: st | None => st end) l st').
Proof.
  intros Hq Hn S. induction l as [|c l IH]; intros st st' Hl R; [exact R|]. cbn [fold_left]. apply IH; [intros c' H; apply Hl; right; exact H|].
  destruct (qsat C (oget vs c)); [exact R|]. assert (Hc : 0 <= c < 8) by (apply Hl; left; reflexivity).
  pose proof (mat_child k root q n c Hq Hc Hn S) as M. destruct (nr_getChild cH root (caddr q) c) as [r|].
  - destruct M as (-> & k' & _ & Eg & Hn' & S'). rewrite Eg. constructor; [|exact R]. apply (SR root k' (q ++ [c]) (childOrNew cz n c)); try assumption.
    apply valid_snoc; assumption.
  - destruct M as [-> _]. exact R.
Qed.
Lemma hc_save_loop_sim enc C root fuel : forall st st', Forall2 (save_rel root) st st' ->
  hc_save_loop qn enc fuel C root st = hw_save_loop qn enc fuel C st'.
Proof.
  induction fuel as [|fuel IH]; intros st st' R; destruct R as [|e e' st st' Re R]; try reflexivity; destruct Re as [k q n s Hq Hn S]; [reflexivity|].
  cbn [hc_save_loop hw_save_loop].
  replace (ndata (mat k root q)) with (cdat root q) by (destruct k; reflexivity). change (nr_data cz root (caddr q)) with (cdat root q).
  assert (EB : child_bits (fun c => negb (qsat C (oget (backward3 qn s (cdat root q)) c)) && match nr_getChild cH root (caddr q) c with Some _ => true | None => false end) =
          child_bits (fun c => negb (qsat C (oget (backward3 qn s (cdat root q)) c)) && match getChild (mat k root q) c with Some _ => true | None => false end)).
  { apply child_bits_ext. intros c Hc. f_equal. pose proof (mat_child k root q n c Hq Hc Hn S) as M. destruct (nr_getChild cH root (caddr q) c) as [r|].
    - destruct M as (_ & k' & _ & Eg & _). rewrite Eg. reflexivity.
    - destruct M as [-> _]. reflexivity. }
  rewrite EB. f_equal. apply IH. apply (fold_save_rel C root k q n (backward3 qn s (cdat root q)) Hq Hn S); [|exact R].
  intros c Hc. apply in_rev in Hc. apply in_child_ids. exact Hc.
Qed.
Lemma hc_save_eq enc C fuel w m h : mrel C m h -> hc_save qn enc fuel w C m = hw_save qn enc fuel w C (mat_map C m).
Proof.
  intros R. unfold hc_save, hw_save. unfold mat_map at 1. rewrite map_length. f_equal.
  induction R as [|[k c] [k' b] m h [E B] R IH]; [reflexivity|]. cbn [concat_opt mat_map map fst snd]. fold (mat_map C m). rewrite IH.
  destruct B as ((S & Es & Hn) & _). cbn [mat_block btree wroot wscale].
  rewrite (hc_save_loop_sim enc C (croot (cbtree c)) fuel [(cscale (cbtree c), nr_root)] [(cscale (cbtree c), mat (Z.to_nat (cT C - 1)) (croot (cbtree c)) [])]); [reflexivity|].
  constructor; [|constructor]. apply (SR (croot (cbtree c)) _ [] (wroot (btree b))); [constructor|exact Hn|exact S].
Qed.
(** The loaded map only depends on the node averages *)
Lemma reloaded_same C now now' m m' c : 1 <= cT C <= 21 -> (forall i, 0 <= oh i <= cT C -> hw_get_node qn C m i = hw_get_node qn C m' i) ->
  hw_get qn C (hw_reloaded C now m) c = hw_get qn C (hw_reloaded C now' m') c.
Proof.
  intros HT E. destruct (reloaded_get C now m c HT) as (h & A1 & A2 & A3 & A4). destruct (reloaded_get C now' m' c HT) as (h' & B1 & B2 & B3 & B4).
  rewrite A2, B2. assert (h = h'); [|subst h'; apply E; cbn; lia].
  destruct (Z.lt_trichotomy h h') as [L|[L|L]]; [|exact L|]; exfalso.
  - destruct B3 as [B3|B3]; [lia|]. specialize (A4 h' ltac:(lia)). rewrite E in A4 by (cbn; lia). congruence.
  - destruct A3 as [A3|A3]; [lia|]. specialize (B4 h ltac:(lia)). rewrite <- E in B4 by (cbn; lia). congruence.
Qed.
