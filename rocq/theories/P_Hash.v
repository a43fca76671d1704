(** Property theorem C52 (SpatialHash) and C08 (block/cell split). *)
From Verif Require Import Base M_IntMath F_IntMath M_Num M_Ndtree S_Field F_Hash M_Wavelet F_WavMap F_WavHash.
From Coq Require Import Qcanon.
Close Scope Qc_scope.
Open Scope Z_scope.

(** ** C52. The reference object is a partial function from block indices to blocks. *)
Definition pmap (B : Type) := idx3 -> option B.
Definition same_index (i j : idx3) : Prop := px i = px j /\ py i = py j /\ pz i = pz j.

(** Mutating members of SpatialHash (data_structure/spatial_hash.h:28-50); [HUpd i f d] is
    getOrAllocateBlock(i, d) followed by an arbitrary modification [f] of the returned reference,
    [HEraseIf] is eraseBlockIf with an indicator that may modify the block it is shown. *)
Inductive hash_op (B : Type) :=
| HUpd (i : idx3) (f : B -> B) (d : B)
| HErase (i : idx3)
| HEraseIf (f : idx3 -> B -> B * bool)
| HForEach (f : idx3 -> B -> B)
| HClr.
Arguments HUpd {B}. Arguments HErase {B}. Arguments HEraseIf {B}. Arguments HForEach {B}. Arguments HClr {B}.
Definition hash_step {B} (m : shash B) (o : hash_op B) : shash B :=
  match o with
  | HUpd i f d => setBlock m i (f (blockOrNew d m i))
  | HErase i => fst (eraseBlock m i)
  | HEraseIf f => eraseBlockIf f m
  | HForEach f => forEachBlock f m
  | HClr => []
  end.
(** The same calls on the reference object. *)
Definition pmap_step {B} (s : pmap B) (o : hash_op B) : pmap B :=
  match o with
  | HUpd i f d => fun j => if idx3_eq_dec i j then Some (f (match s i with Some b => b | None => d end)) else s j
  | HErase i => fun j => if idx3_eq_dec i j then None else s j
  | HEraseIf f => fun j => match s j with
                           | Some b => if snd (f j b) then None else Some (fst (f j b))
                           | None => None
                           end
  | HForEach f => fun j => option_map (f j) (s j)
  | HClr => fun _ => None
  end.

Lemma hash_run_wf {B} (l : list (hash_op B)) : hwf (fold_left hash_step l []).
Proof.
  assert (H : hwf (@nil (idx3 * B))) by constructor. revert H. generalize (@nil (idx3 * B)).
  induction l as [|o l IH]; intros m Hm; cbn [fold_left]; [assumption|]. apply IH.
  destruct o; cbn [hash_step].
  - apply setBlock_wf; assumption.
  - apply filter_wf; assumption.
  - apply eraseBlockIf_wf; assumption.
  - apply forEachBlock_wf; assumption.
  - constructor.
Qed.

(** After any history, lookups, membership, the value returned by eraseBlock, the set of visited
    blocks and the block count are those of the reference partial function. *)
Theorem C52_finite_map : forall (B : Type) (l : list (hash_op B)),
  let m := fold_left hash_step l [] in
  let s := fold_left pmap_step l (fun _ => None) in
  (forall i, getBlock m i = s i) /\
  (forall i, hasBlock m i = true <-> s i <> None) /\
  (forall i, snd (eraseBlock m i) = true <-> s i <> None) /\
  (forall i b, In (i, b) m <-> s i = Some b) /\
  NoDup (map fst m).
Proof.
  intros B l. cbv zeta.
  assert (H : forall i, getBlock (fold_left hash_step l []) i = fold_left pmap_step l (fun _ => None) i).
  { induction l as [|o l IH] using rev_ind; intros i; [reflexivity|]. rewrite !fold_left_app. cbn [fold_left].
    pose proof (hash_run_wf l) as W. set (m := fold_left hash_step l []) in *.
    set (s := fold_left pmap_step l (fun _ => None)) in *. destruct o as [i0 f d|i0|f|f|]; cbn [hash_step pmap_step].
    - rewrite getBlock_setBlock. unfold blockOrNew. rewrite IH.
      destruct (ieqb_spec i0 i), (idx3_eq_dec i0 i); try contradiction; [reflexivity|apply IH].
    - rewrite getBlock_eraseBlock. destruct (ieqb_spec i0 i), (idx3_eq_dec i0 i); try contradiction; [reflexivity|apply IH].
    - rewrite getBlock_eraseBlockIf by assumption. rewrite IH. destruct (s i); reflexivity.
    - rewrite getBlock_forEachBlock, IH. reflexivity.
    - reflexivity. }
  split; [exact H|]. pose proof (hash_run_wf l) as W. repeat split.
  - rewrite hasBlock_keys, <- H. apply getBlock_keys.
  - rewrite hasBlock_keys, <- H. apply getBlock_keys.
  - cbn [eraseBlock snd]. rewrite hasBlock_keys, <- H. apply getBlock_keys.
  - cbn [eraseBlock snd]. rewrite hasBlock_keys, <- H. apply getBlock_keys.
  - rewrite <- H. apply In_getBlock. assumption.
  - rewrite <- H. apply getBlock_In.
  - exact W.
Qed.
Example C52_ex :
  let l := [HUpd (I3 0 0 0) (fun x => x + 1) 5; HUpd (I3 (-1) 2 0) (fun x => x) 7;
            HUpd (I3 0 0 0) (fun x => x * 10) 0; HEraseIf (fun _ b => (b + 1, b =? 7))] in
  fold_left hash_step l [] = [(I3 0 0 0, 61)].
Proof. reflexivity. Qed.

(** getMinBlockIndex/getMaxBlockIndex are the componentwise extremes over the stored blocks (and are
    attained), for block indices in the int32 range. *)
Theorem C52_block_bounds : forall (B : Type) (m : shash B), m <> [] -> (forall i, In i (map fst m) -> i32_index i) ->
  (forall i, In i (map fst m) ->
     px (getMinBlockIndex m) <= px i <= px (getMaxBlockIndex m) /\
     py (getMinBlockIndex m) <= py i <= py (getMaxBlockIndex m) /\
     pz (getMinBlockIndex m) <= pz i <= pz (getMaxBlockIndex m)) /\
  (forall ax, In ax [px; py; pz] -> exists i j, In i (map fst m) /\ In j (map fst m) /\
     ax i = ax (getMinBlockIndex m) /\ ax j = ax (getMaxBlockIndex m)).
Proof.
  intros B m Hne Hr. assert (Hr' : forall k, In k (keys m) -> in_i32 k).
  { intros k Hk. specialize (Hr k Hk). unfold i32_index, in_i32, int_min, int_max in *. lia. }
  destruct (getMinBlockIndex_spec m Hne Hr') as [A1 A2]. destruct (getMaxBlockIndex_spec m Hne Hr') as [B1 B2].
  split.
  - intros i Hi. specialize (A1 i Hi). specialize (B1 i Hi). unfold ile in *. lia.
  - intros ax Hax. destruct (A2 ax Hax) as (i & Hi & Ei). destruct (B2 ax Hax) as (j & Hj & Ej).
    exists i, j. repeat split; auto.
Qed.
Example C52_bounds_ex :
  let m := [(I3 0 5 (-7), 1); (I3 (-3) 9 2, 2)] in
  getMinBlockIndex m = I3 (-3) 5 (-7) /\ getMaxBlockIndex m = I3 0 9 2.
Proof. split; reflexivity. Qed.
Print Assumptions C52_finite_map.
Print Assumptions C52_block_bounds.

(** ** C08. Splitting the index of a node at height h into block and cell index, per axis. *)
Theorem C08_split_recombine : forall (C : wconfig (V := Qc)) i,
  0 <= cT C -> 0 <= oh i <= cT C ->
  let b := hw_blockIndex C i in
  let c := hw_cellIndex C i in
  let w := 2 ^ (cT C - oh i) in    (* cells of this height per block side *)
  oh c = oh i /\
  (px (opos i) = px b * w + px (opos c) /\ 0 <= px (opos c) < w) /\
  (py (opos i) = py b * w + py (opos c) /\ 0 <= py (opos c) < w) /\
  (pz (opos i) = pz b * w + pz (opos c) /\ 0 <= pz (opos c) < w).
Proof.
  intros C [h p] HT Hh. cbv zeta. cbn [oh] in Hh. rewrite hw_blockIndex_spec, hw_cellIndex_spec by lia.
  cbn [oh opos]. split; [reflexivity|]. unfold imap. cbn [px py pz].
  pose proof (pow2_pos (cT C - h) ltac:(lia)) as P.
  assert (D : forall u, u = u / 2 ^ (cT C - h) * 2 ^ (cT C - h) + u mod 2 ^ (cT C - h) /\ 0 <= u mod 2 ^ (cT C - h) < 2 ^ (cT C - h)).
  { intros u. split; [|apply Z.mod_pos_bound; assumption]. rewrite Z.mul_comm. apply Z.div_mod. lia. }
  split; [|split]; apply D.
Qed.
(** The pair is unique: the only (block, cell) pair with the cell in range that names this node. *)
Theorem C08_split_unique : forall (C : wconfig (V := Qc)) i b c,
  0 <= cT C -> 0 <= oh i <= cT C ->
  let w := 2 ^ (cT C - oh i) in
  0 <= px c < w -> 0 <= py c < w -> 0 <= pz c < w ->
  opos i = I3 (px b * w + px c) (py b * w + py c) (pz b * w + pz c) ->
  hw_blockIndex C i = b /\ hw_cellIndex C i = OI (oh i) c.
Proof.
  intros C [h p] b c HT Hh w H1 H2 H3 E. cbn [oh opos] in *. subst w. rewrite hw_blockIndex_spec, hw_cellIndex_spec by lia.
  subst p. pose proof (pow2_pos (cT C - h) ltac:(lia)) as P. destruct b as [b1 b2 b3], c as [c1 c2 c3].
  unfold imap. cbn [px py pz] in *.
  assert (D : forall u v, 0 <= v < 2 ^ (cT C - h) -> (u * 2 ^ (cT C - h) + v) / 2 ^ (cT C - h) = u /\
     (u * 2 ^ (cT C - h) + v) mod 2 ^ (cT C - h) = v).
  { intros u v Hv. split; [rewrite Z.div_add_l by lia; rewrite Z.div_small by assumption; lia|].
    rewrite Z.add_comm, Z.mod_add by lia. apply Z.mod_small. assumption. }
  destruct (D b1 c1 H1) as [-> ->]. destruct (D b2 c2 H2) as [-> ->]. destruct (D b3 c3 H3) as [-> ->].
  split; reflexivity.
Qed.
(** A node and all cells it contains belong to the same block. *)
Theorem C08_node_in_one_block : forall (C : wconfig (V := Qc)) i cell,
  0 <= cT C -> 0 <= oh i <= cT C -> in_node i cell = true ->
  hw_blockIndex C (OI 0 cell) = hw_blockIndex C i.
Proof.
  intros C [h p] cell HT Hh Hin. cbn [oh] in Hh. apply in_node_covers in Hin; [|cbn; lia].
  rewrite !hw_blockIndex_spec by lia. rewrite <- (block_of_covers C h p cell) by assumption.
  unfold block_of. rewrite Z.sub_0_r. reflexivity.
Qed.
Example C08_ex : let C := WC 4 0%Qc 1%Qc in
  hw_blockIndex C (OI 1 (I3 (-1) 9 16)) = I3 (-1) 1 2 /\ hw_cellIndex C (OI 1 (I3 (-1) 9 16)) = OI 1 (I3 7 1 0) /\
  hw_blockIndex C (OI 0 (I3 (-17) 15 16)) = I3 (-2) 0 1 /\ hw_cellIndex C (OI 0 (I3 (-17) 15 16)) = OI 0 (I3 15 15 0).
Proof. repeat split. Qed.
Print Assumptions C08_split_recombine.
Print Assumptions C08_split_unique.
Print Assumptions C08_node_in_one_block.
