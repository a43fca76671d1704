(** Properties of the chunked octree (C53) and of the hashed chunked wavelet octree (C16 and the chunked parts of
    C11, C12, C13, C14, C15, C17, C18, C20). *)
From Verif Require Import Base M_IntMath F_IntMath M_Morton F_Morton M_NdtreeIndex F_NdtreeIndex
  M_Num F_Num M_Haar F_Haar M_Haar3 F_Haar3 M_Ndtree S_Field F_Hash M_Wavelet F_Wavelet F_Wavelet2 F_Leaves F_WavTree
  F_WavMap F_WavHash M_WavHist F_WavHist M_Octree F_Octree P_Octree M_Chunked F_Chunked F_ChunkedSim F_ChunkedWav
  M_ChunkedHist F_ChunkedMap P_Wavelet.
From Coq Require Import QArith Qcanon Qcabs Lqa.
Close Scope Qc_scope.
Close Scope Q_scope.
Open Scope Z_scope.

(** * C53: a chunked octree behaves like a pointer-per-node octree *)
(** ** Specification *)
(** A history of operations: write a node's data (allocating it), erase a node, clear the tree. *)
Inductive tree_op (A : Type) := OWrite (i : oidx) (g : A -> A) | OErase (i : oidx) | OClear.
Arguments OWrite {A}. Arguments OErase {A}. Arguments OClear {A}.
Definition op_ok {A} (T : Z) (o : tree_op A) : Prop :=
  match o with OWrite i _ => in_tree T i | OErase i => in_tree T i /\ oh i < T | OClear => True end.
(** The history executed on the pointer tree and on the chunked tree. *)
Definition p_apply {A} (T : Z) (zero : A) (n : node A) (o : tree_op A) : node A :=
  match o with
  | OWrite i g => nd_alloc_data T zero n i g
  | OErase i => fst (nd_eraseNode T n i)
  | OClear => nd_clear zero n
  end.
Definition p_run {A} T zero (l : list (tree_op A)) : node A := fold_left (p_apply T zero) l (Node zero None).
Definition c_apply {A} (H T : Z) (zero : A) (root : chunk A) (o : tree_op A) : chunk A :=
  match o with
  | OWrite i g => ct_alloc_data zero H T root i g
  | OErase i => ct_eraseNode zero H T root i
  | OClear => chunk_new zero
  end.
Definition c_run {A} H T zero (l : list (tree_op A)) : chunk A := fold_left (c_apply H T zero) l (chunk_new zero).
(** Data of a node in the chunked tree, as returned by getNode(i)->data(); [None] if getNode returns nothing. *)
Definition c_stored {A} (H T : Z) (zero : A) (root : chunk A) (i : oidx) : option A :=
  option_map (nr_data zero root) (ct_getNode H T root i).

Section C53.
Context {A : Type} (zero : A) (H T : Z) (HH : 1 <= H <= 20) (HT : 0 <= T <= 21).
Notation csub := (F_ChunkedSim.sub zero H).
Lemma c_apply_sim root n o : op_ok T o -> csub root [] (Some n) -> csub (c_apply H T zero root o) [] (Some (p_apply T zero n o)).
Proof.
  intros Ho S. destruct o as [[h p] g|[h p]|]; cbn [c_apply p_apply op_ok] in *.
  - destruct Ho as [Hh _]. cbn [oh] in Hh. unfold ct_alloc_data, ct_getOrAllocateNode, nd_alloc_data. cbn [oh].
    rewrite nd_alloc_path by lia.
    destruct (ct_alloc_path zero H HH (Z.to_nat (T - h)) root [] n T h p ltac:(constructor) S ltac:(lia) ltac:(lia) ltac:(lia)) as (_ & _ & X).
    cbv zeta in X. change (addr H []) with nr_root in X.
    destruct (ct_alloc_loop zero H (Z.to_nat (T - h)) root T (omorton (OI h p)) nr_root) as [root' r]. apply (X g).
  - destruct Ho as [[Hh _] Hl]. cbn [oh] in Hh, Hl. unfold ct_eraseNode, nd_eraseNode, ct_getNode. cbn [oh opos].
    rewrite rel_child_cidx. set (pp := imap (fun c => div_exp2_floor c 1) p).
    pose proof (ct_get_path zero H (Z.to_nat (T - (h + 1))) root [] n T (h + 1) pp ltac:(constructor) S ltac:(lia) ltac:(lia) ltac:(lia)) as G.
    change (addr H []) with nr_root in G. rewrite nd_getNode_path by lia.
    destruct (ct_get_loop H _ root T (omorton (OI (h + 1) pp)) nr_root) as [r|].
    + destruct G as [-> Gp]. cbn [app] in *.
      pose proof (sim_erase_path zero H HH root (path (Z.to_nat (T - (h + 1))) pp) (cidx p 0) n (path_valid _ _) (cidx_range _ _) S Gp) as X.
      destruct (nlook (path (Z.to_nat (T - (h + 1))) pp) n) as [x|] eqn:E; cbn [fst].
      * rewrite nd_modify_path by lia. exact X.
      * rewrite nmodify_none in X by assumption. exact X.
    + rewrite G. exact S.
  - apply sub_fresh.
Qed.
Lemma c_run_sim l : Forall (op_ok T) l -> csub (c_run H T zero l) [] (Some (p_run T zero l)).
Proof.
  unfold c_run, p_run. assert (S : csub (chunk_new zero) [] (Some (Node zero None))) by apply sub_fresh. revert S.
  generalize (chunk_new zero) (Node zero (@None (oct (option (node A))))).
  induction l as [|o l IH]; intros root n S Hl; cbn [fold_left]; [exact S|]. inversion Hl; subst.
  apply IH; [|assumption]. apply c_apply_sim; assumption.
Qed.

Section HIST.
Context (l : list (tree_op A)) (Hl : Forall (op_ok T) l).
Let n := p_run T zero l.
Let root := c_run H T zero l.

(** Every node stored in the pointer tree is found in the chunked tree with the same data. A node that is found in
    the chunked tree only (all children of a node share the chunk's storage) holds the default value. *)
Theorem C53_same_data : forall j, in_tree T j ->
  match stored T n j with
  | Some x => c_stored H T zero root j = Some x
  | None => c_stored H T zero root j = None \/ c_stored H T zero root j = Some zero
  end.
Proof.
  intros [h p] [Hh _]. cbn [oh] in Hh. pose proof (c_run_sim l Hl) as S. fold n root in S.
  unfold stored, c_stored. rewrite nd_getNode_path by lia. unfold ct_getNode. cbn [oh].
  pose proof (ct_get_path zero H (Z.to_nat (T - h)) root [] n T h p ltac:(constructor) S ltac:(lia) ltac:(lia) ltac:(lia)) as G.
  change (addr H []) with nr_root in G. set (q := path (Z.to_nat (T - h)) p) in *.
  destruct (S q (path_valid _ _)) as (S1 & _). cbn [app olook] in S1.
  destruct (ct_get_loop H _ root T (omorton (OI h p)) nr_root) as [r|]; cbn [option_map].
  - destruct G as [-> _]. cbn [app]. change (nr_data zero root (addr H q)) with (dat zero H root q). rewrite S1.
    destruct (nlook q n); cbn; auto.
  - rewrite G. cbn. auto.
Qed.
(** Reading with the default for missing nodes gives the same value. *)
Theorem C53_same_value : forall j, in_tree T j ->
  or_default zero (c_stored H T zero root j) = or_default zero (stored T n j).
Proof.
  intros j Hj. pose proof (C53_same_data j Hj) as X. destruct (stored T n j) as [x|]; cbn [or_default].
  - rewrite X. reflexivity.
  - destruct X as [-> | ->]; reflexivity.
Qed.
(** hasAtLeastOneChild() of a node agrees with the existence of its children array in the pointer tree; a node that
    only exists in the chunked tree has no children. *)
Theorem C53_same_child_test : forall j r, in_tree T j -> ct_getNode H T root j = Some r ->
  nr_bit root r = match nd_getNode T n j with Some x => hasChildrenArray x | None => false end.
Proof.
  intros [h p] r [Hh _] Er. cbn [oh] in Hh. pose proof (c_run_sim l Hl) as S. fold n root in S.
  unfold ct_getNode in Er. cbn [oh] in Er. rewrite nd_getNode_path by lia.
  pose proof (ct_get_path zero H (Z.to_nat (T - h)) root [] n T h p ltac:(constructor) S ltac:(lia) ltac:(lia) ltac:(lia)) as G.
  change (addr H []) with nr_root in G. rewrite Er in G. destruct G as [-> _]. cbn [app].
  destruct (S (path (Z.to_nat (T - h)) p) (path_valid _ _)) as (_ & S2 & _). cbn [app olook] in S2. exact S2.
Qed.
(** getNodeOrAncestor: the node it returns is the ancestor at the returned height, at least as deep as in the
    pointer tree, and if it is deeper it holds the default value. *)
Theorem C53_ancestor : forall j r h, in_tree T j -> ct_getNodeOrAncestor H T root j = (r, h) ->
  let (x, hp) := nd_getNodeOrAncestor T n j in
  oh j <= h <= hp /\
  nr_data zero root r = or_default zero (stored T n (OI h (imap (fun c => c / 2 ^ (h - oh j)) (opos j)))) /\
  nr_data zero root r = if h =? hp then ndata x else zero.
Proof.
  intros [h0 p] r h [Hh _] Er. cbn [oh opos] in *. pose proof (c_run_sim l Hl) as S. fold n root in S.
  unfold ct_getNodeOrAncestor in Er. cbn [oh] in Er. unfold nd_getNodeOrAncestor. cbn [oh].
  rewrite nd_anc_path by lia. set (k := Z.to_nat (T - h0)) in *.
  destruct (ct_anc_path zero H k root [] n T h0 p ltac:(constructor) S ltac:(lia) ltac:(lia) ltac:(lia)) as (j & J1 & J2 & J3 & J4).
  change (addr H []) with nr_root in J2. rewrite Er in J2. injection J2 as -> ->. cbn [app] in *.
  destruct (nanc_spec (path k p) n) as (N1 & N2 & N3). cbv zeta in *.
  assert (Lp : length (path k p) = k) by apply path_length. rewrite Lp in *.
  destruct (nanc (path k p) n) as [x a]. cbn [fst snd] in *.
  assert (Ha : (k - a <= j)%nat).
  { destruct (Nat.le_gt_cases (k - a) j) as [Y|Y]; [exact Y|]. exfalso. specialize (J4 (k - a)%nat ltac:(lia)). congruence. }
  assert (Vp : valid_path (firstn j (path k p))) by (pose proof (firstn_path j (k - j) p) as Fp; replace (j + (k - j))%nat with k in Fp by lia; rewrite Fp; apply path_valid).
  destruct (S _ Vp) as (S1 & _). cbn [app olook] in S1. change (nr_data zero root (addr H (firstn j (path k p)))) with (dat zero H root (firstn j (path k p))).
  split; [lia|]. split.
  - rewrite S1. unfold stored. rewrite nd_getNode_path by lia.
    replace (Z.to_nat (T - (h0 + Z.of_nat (k - j)))) with j by lia.
    replace (h0 + Z.of_nat (k - j) - h0) with (Z.of_nat (k - j)) by lia.
    pose proof (firstn_path j (k - j) p) as Fp. replace (j + (k - j))%nat with k in Fp by lia. rewrite Fp.
    destruct (nlook (path j _) n); reflexivity.
  - rewrite S1. destruct (Z.eqb_spec (h0 + Z.of_nat (k - j)) (h0 + Z.of_nat a)) as [E|E].
    + replace j with (k - a)%nat by lia. rewrite N2. reflexivity.
    + rewrite (N3 j) by lia. reflexivity.
Qed.
(** All array accesses are within bounds: the node arrays of a chunk have num_total_nodes<3>(H) elements, the array
    of child chunks has num_leaf_nodes<3>(H + 1), and the DCHECK of num_total_nodes_fast does not fail. *)
Theorem C53_indices : forall j r, in_tree T j -> ct_getNode H T root j = Some r ->
  0 <= ndepth r < H /\ num_total_nodes_fast 3 (ndepth r) <> None /\
  0 <= nr_index (ndepth r) (ndist r) < num_total_nodes 3 H /\
  Forall (fun i => 0 <= i < num_leaf_nodes 3 (H + 1)) (nchunk r) /\
  (forall c, 0 <= c < 8 -> ndepth r + 1 = H -> 0 <= nr_childDist (ndist r) c < num_leaf_nodes 3 (H + 1)).
Proof.
  intros [h p] r [Hh _] Er. cbn [oh] in Hh. pose proof (c_run_sim l Hl) as S. fold n root in S.
  unfold ct_getNode in Er. cbn [oh] in Er.
  pose proof (ct_get_path zero H (Z.to_nat (T - h)) root [] n T h p ltac:(constructor) S ltac:(lia) ltac:(lia) ltac:(lia)) as G.
  change (addr H []) with nr_root in G. rewrite Er in G. destruct G as [-> _]. cbn [app].
  destruct (addr_ok H HH (path (Z.to_nat (T - h)) p) (path_valid _ _)) as (O1 & O2 & O3).
  set (r := addr H (path (Z.to_nat (T - h)) p)) in *.
  rewrite leaf_nodes_spec by lia. replace (H + 1 - 1) with H by lia.
  split; [exact O2|]. split; [|split; [|split]].
  - unfold num_total_nodes_fast. change (64 / 3 - 1) with 20.
    replace ((0 <=? ndepth r) && (ndepth r <=? 20)) with true by (symmetry; apply andb_true_intro; split; apply Z.leb_le; lia). discriminate.
  - apply (index_range H HH); assumption.
  - exact O1.
  - intros c Hc Hd. rewrite childDist_spec by lia. rewrite <- Hd, Z.pow_add_r by lia. lia.
Qed.
(** Two different nodes never share storage. *)
Theorem C53_no_aliasing : forall i j r r', in_tree T i -> in_tree T j -> ct_getNode H T root i = Some r ->
  ct_getNode H T root j = Some r' -> nchunk r = nchunk r' ->
  nr_index (ndepth r) (ndist r) = nr_index (ndepth r') (ndist r') -> i = j.
Proof.
  intros [h p] [h' p'] r r' Hi Hj Er Er' Ec Ei. pose proof Hi as [Hh _]. pose proof Hj as [Hh' _]. cbn [oh] in *.
  pose proof (c_run_sim l Hl) as S. fold n root in S. unfold ct_getNode in *. cbn [oh] in *.
  pose proof (ct_get_path zero H (Z.to_nat (T - h)) root [] n T h p ltac:(constructor) S ltac:(lia) ltac:(lia) ltac:(lia)) as G.
  pose proof (ct_get_path zero H (Z.to_nat (T - h')) root [] n T h' p' ltac:(constructor) S ltac:(lia) ltac:(lia) ltac:(lia)) as G'.
  change (addr H []) with nr_root in *. rewrite Er in G. rewrite Er' in G'. destruct G as [-> _], G' as [-> _]. cbn [app] in *.
  set (q := path (Z.to_nat (T - h)) p) in *. set (q' := path (Z.to_nat (T - h')) p') in *.
  destruct (addr_ok H HH q (path_valid _ _)) as (O1 & O2 & O3). destruct (addr_ok H HH q' (path_valid _ _)) as (O1' & O2' & O3').
  destruct (index_inj H HH _ _ _ _ O2 O3 O2' O3' Ei) as [E1 E2].
  assert (Eq : q = q').
  { apply (addr_inj H HH); [apply path_valid|apply path_valid|]. destruct (addr H q), (addr H q'). cbn in *. congruence. }
  apply (prefix_eq T (OI h' p') (OI h p) Hj Hi); unfold ipath; cbn [oh opos]; fold q q'; rewrite Eq; apply is_prefix_refl.
Qed.
End HIST.
End C53.
Example C53_ex : let l := [OWrite (OI 0 (I3 5 2 7)) (fun _ => 7); OWrite (OI 2 (I3 1 0 0)) (fun x => x + 3); OErase (OI 1 (I3 2 1 3));
    OWrite (OI 1 (I3 7 7 7)) (fun _ => 9)] in
  Forall (op_ok 5) l /\
  map (c_stored 2 5 0 (c_run 2 5 0 l)) [OI 0 (I3 5 2 7); OI 1 (I3 2 1 3); OI 2 (I3 1 0 0); OI 2 (I3 1 0 1); OI 1 (I3 7 7 7); OI 4 (I3 1 1 1)] =
    [None; None; Some 3; Some 0; Some 9; Some 0] /\
  map (stored 5 (p_run 5 0 l)) [OI 0 (I3 5 2 7); OI 1 (I3 2 1 3); OI 2 (I3 1 0 0); OI 2 (I3 1 0 1); OI 1 (I3 7 7 7); OI 4 (I3 1 1 1)] =
    [None; None; Some 3; Some 0; Some 9; None].
Proof.
  split; [repeat constructor; cbn; lia|]. split; vm_compute; reflexivity.
Qed.
Print Assumptions C53_same_data.
Print Assumptions C53_same_value.
Print Assumptions C53_same_child_test.
Print Assumptions C53_ancestor.
Print Assumptions C53_indices.
Print Assumptions C53_no_aliasing.

(** * The hashed chunked wavelet octree *)
(** All map states that API calls can produce. [fuel] only bounds the recursion depth of the model. *)
Definition chunked_reachable (fuel : nat) (C : wconfig) (m : shash (cblock (V := Qc))) : Prop := exists l, m = hc_run fuel C l.
Lemma chunked_sim fuel C m : valid_config C -> (Z.to_nat (cT C) <= fuel)%nat -> chunked_reachable fuel C m ->
  exists h, hashed_reachable C h /\ mrel C m h.
Proof. intros [HT _] Hf (l & ->). exists (hw_run C l). split; [exists l; reflexivity|apply mrel_run; assumption]. Qed.

(** ** C16: the hashed and the hashed chunked map are interchangeable under every history *)
Theorem C16_hashed_chunked_same : forall fuel C l, valid_config C -> (Z.to_nat (cT C) <= fuel)%nat ->
  let h := hw_run C l in let m := hc_run fuel C l in
  (forall c, hc_get qn C m c = hw_get qn C h c) /\
  (forall i, 0 <= oh i <= cT C -> hc_get_node qn C m i = hw_get_node qn C h i) /\
  (forall b, hasBlock m b = hasBlock h b) /\ hc_empty m = hw_empty h /\
  hc_min_index C m = hw_min_index C h /\ hc_max_index C m = hw_max_index C h.
Proof.
  intros fuel C l [HT _] Hf. cbv zeta. pose proof (mrel_run fuel C HT Hf l) as R.
  destruct (mrel_bounds C _ _ R) as (B1 & B2 & B3).
  split; [intros c; apply (mrel_get fuel C HT Hf); exact R|]. split; [intros i Hi; apply (mrel_get_node fuel C HT Hf); assumption|].
  split; [intros b; apply (mrel_hasBlock C); exact R|auto].
Qed.
(** The three maps (each with its own tree height) after the same set/add/threshold/clear calls. *)
Theorem C16_three_maps_same : forall fuel CP CH CC l times times',
  valid_config CP -> valid_config CH -> valid_config CC ->
  clo CP = clo CH -> chi CP = chi CH -> clo CP = clo CC -> chi CP = chi CC -> (clo CP <= 0)%Qc -> (0 <= chi CP)%Qc ->
  2 <= cT CP -> Forall (k_in (cT CP)) l -> length times = length l -> length times' = length l ->
  (Z.to_nat (cT CC) <= fuel)%nat ->
  let p := wo_run CP (map k_plain l) in
  let h := hw_run CH (combine times (map k_hashed l)) in
  let m := hc_run fuel CC (combine times' (map k_hashed l)) in
  (forall c, in_octree (cT CP) (cell c) -> wo_get qn CP p (cell c) = hw_get qn CH h c /\ wo_get qn CP p (cell c) = hc_get qn CC m c) /\
  (forall i, in_octree (cT CP) i -> oh i <= cT CH -> wo_get qn CP p i = hw_get_node qn CH h i) /\
  (forall i, in_octree (cT CP) i -> oh i <= cT CC -> wo_get qn CP p i = hc_get_node qn CC m i).
Proof.
  intros fuel CP CH CC l times times' HP HHc HCc El Eh El' Eh' H0 H1 H2 Hl Ht Ht' Hf. cbv zeta.
  destruct (C16_plain_hashed_same CP CH l times HP HHc El Eh H0 H1 H2 Hl Ht) as [A1 A2].
  destruct (C16_plain_hashed_same CP CC l times' HP HCc El' Eh' H0 H1 H2 Hl Ht') as [B1 B2]. cbv zeta in *.
  destruct (C16_hashed_chunked_same fuel CC (combine times' (map k_hashed l)) HCc Hf) as (X1 & X2 & _). cbv zeta in *.
  split; [|split].
  - intros c Hc. split; [apply A1; exact Hc|]. rewrite X1. apply B1. exact Hc.
  - exact A2.
  - intros i Hi Hh. rewrite X2 by (destruct Hi; lia). apply B2; assumption.
Qed.
Definition exCC : wconfig (V := Qc) := WC 5 (- Q2Qc 2)%Qc (Q2Qc 4).
Example C16_chunked_ex : let l := exh ++ [(6, HPrune); (7, HAdd (I3 17 (-2) 3) (Q2Qc 3)); (8, HThreshold)] in
  map (fun c => this (hc_get qn exCC (hc_run 5 exCC l) c)) [I3 1 (-2) 3; I3 9 9 9; I3 0 (-1) 2; I3 17 (-2) 3] =
  map (fun c => this (hw_get qn exCC (hw_run exCC l) c)) [I3 1 (-2) 3; I3 9 9 9; I3 0 (-1) 2; I3 17 (-2) 3] /\
  map (fun c => this (hc_get qn exCC (hc_run 5 exCC l) c)) [I3 1 (-2) 3; I3 9 9 9; I3 17 (-2) 3] = [4; -2; 3]%Q.
Proof. vm_compute. split; reflexivity. Qed.
Print Assumptions C16_hashed_chunked_same.
Print Assumptions C16_three_maps_same.

(** ** The properties of the hashed map carry over *)
Theorem C11_chunked_add_exact : forall fuel C m now i u c,
  valid_config C -> (Z.to_nat (cT C) <= fuel)%nat -> chunked_reachable fuel C m ->
  hc_get qn C (hc_add qn C now m i u) c = if idx3_eq_dec c i then (hc_get qn C m c + u)%Qc else hc_get qn C m c.
Proof.
  intros fuel C m now i u c HC Hf Hr. destruct (chunked_sim fuel C m HC Hf Hr) as (h & Hh & R). pose proof HC as [HT _].
  pose proof (mrel_apply fuel C HT Hf m h (now, HAdd i u) R) as R'. cbn [hc_apply hw_apply] in R'.
  rewrite (mrel_get fuel C HT Hf _ _ c R'), (mrel_get fuel C HT Hf _ _ c R). apply C11_add_exact; assumption.
Qed.
Theorem C11_chunked_set_frame : forall fuel C m now i v c,
  valid_config C -> (Z.to_nat (cT C) <= fuel)%nat -> chunked_reachable fuel C m -> c <> i ->
  hc_get qn C (hc_set qn C now m i v) c = hc_get qn C m c.
Proof.
  intros fuel C m now i v c HC Hf Hr Hne. destruct (chunked_sim fuel C m HC Hf Hr) as (h & Hh & R). pose proof HC as [HT _].
  pose proof (mrel_apply fuel C HT Hf m h (now, HSet i v) R) as R'. cbn [hc_apply hw_apply] in R'.
  rewrite (mrel_get fuel C HT Hf _ _ c R'), (mrel_get fuel C HT Hf _ _ c R). apply C11_set_frame; assumption.
Qed.
Theorem C12_chunked_accumulates : forall fuel C (l : list (Z * idx3 * Qc)) c,
  valid_config C -> (Z.to_nat (cT C) <= fuel)%nat ->
  hc_get qn C (hc_run fuel C (map (fun x => let '(now, i, u) := x in (now, HAdd i u)) l)) c =
  increments_at (map (fun x => let '(_, i, u) := x in (cell i, u)) l) c.
Proof.
  intros fuel C l c HC Hf. rewrite (proj1 (C16_hashed_chunked_same fuel C _ HC Hf)). apply C12_hashed_accumulates. exact HC.
Qed.
Theorem C13_chunked_average : forall fuel C m i,
  valid_config C -> (Z.to_nat (cT C) <= fuel)%nat -> chunked_reachable fuel C m -> 0 <= oh i <= cT C ->
  hc_get_node qn C m i = node_mean (hc_get qn C m) i.
Proof.
  intros fuel C m i HC Hf Hr Hi. destruct (chunked_sim fuel C m HC Hf Hr) as (h & Hh & R). pose proof HC as [HT _].
  rewrite (mrel_get_node fuel C HT Hf m h i R Hi). rewrite (C13_hashed_average C h i HC Hh Hi).
  apply node_mean_ext; [lia|]. intros c _. symmetry. apply (mrel_get fuel C HT Hf). exact R.
Qed.
Theorem C14_chunked_threshold : forall fuel C m c,
  valid_config C -> (Z.to_nat (cT C) <= fuel)%nat -> chunked_reachable fuel C m ->
  hc_get qn C (hc_threshold qn fuel C m) c =
  if hasBlock m (hw_blockIndex C (cell c)) then clampq (clo C) (chi C) (hc_get qn C m c) else 0%Qc.
Proof.
  intros fuel C m c HC Hf Hr. destruct (chunked_sim fuel C m HC Hf Hr) as (h & Hh & R). pose proof HC as [HT _].
  pose proof (mrel_apply fuel C HT Hf m h (0, HThreshold) R) as R'. cbn [hc_apply hw_apply] in R'.
  rewrite (mrel_get fuel C HT Hf _ _ c R'), (mrel_get fuel C HT Hf _ _ c R), (mrel_hasBlock C m h _ R). apply C14_hashed_threshold; assumption.
Qed.
Theorem C15_chunked_prune : forall fuel C m c,
  valid_config C -> (Z.to_nat (cT C) <= fuel)%nat -> chunked_reachable fuel C m -> (clo C <= 0)%Qc -> (0 <= chi C)%Qc ->
  let v := hc_get qn C m c in let v' := hc_get qn C (hc_prune qn fuel C m) c in
  (Qcabs (v' - v) <= hashed_prune_bound (cT C))%Qc \/
  (Qcabs (v' - clampq (clo C) (chi C) v) <= hashed_prune_bound (cT C))%Qc.
Proof.
  intros fuel C m c HC Hf Hr H0 H1. destruct (chunked_sim fuel C m HC Hf Hr) as (h & Hh & R). pose proof HC as [HT _].
  pose proof (mrel_apply fuel C HT Hf m h (0, HPrune) R) as R'. cbn [hc_apply hw_apply] in R'. cbv zeta.
  rewrite (mrel_get fuel C HT Hf _ _ c R'), (mrel_get fuel C HT Hf _ _ c R). apply (C15_hashed_prune C h c HC Hh H0 H1).
Qed.
Lemma hc_run_wf fuel C l : valid_config C -> (Z.to_nat (cT C) <= fuel)%nat -> hwf (hc_run fuel C l).
Proof.
  intros HC Hf. pose proof HC as [HT _]. pose proof (mrel_run fuel C HT Hf l) as R. unfold hwf. rewrite (mrel_keys C _ _ R).
  apply (hashed_ok C _ HC). exists l. reflexivity.
Qed.
Theorem C17_chunked_leaves : forall fuel C m, valid_config C -> (Z.to_nat (cT C) <= fuel)%nat -> chunked_reachable fuel C m ->
  exists enough, forall F, (enough <= F)%nat -> exists leaves, hc_forEachLeaf qn F C m = Some leaves /\
  forall c, match getBlock m (hw_blockIndex C (cell c)) with
            | Some b => if cb_empty qn b then forall i u, In (i, u) leaves -> in_node i c = false
                        else exactly_one leaves c (hc_get qn C m c)
            | None => forall i u, In (i, u) leaves -> in_node i c = false
            end.
Proof.
  intros fuel C m HC Hf Hr. destruct (chunked_sim fuel C m HC Hf Hr) as (h & Hh & R). pose proof HC as [HT _].
  assert (W : hwf m) by (destruct Hr as (l & ->); apply hc_run_wf; assumption).
  exists (leaf_fuel C m). intros F HF. destruct (hc_leaves fuel C HT Hf m h F R W HF) as (l & E & L1 & L2). exists l. split; [exact E|].
  intros c. specialize (L2 c). unfold cell. rewrite hw_blockIndex_spec by lia. rewrite Z.sub_0_r. fold (block_of C c).
  assert (U : uncovered l c -> forall i u, In (i, u) l -> in_node i c = false).
  { intros Hu i u Hin. destruct (in_node i c) eqn:En; [|reflexivity]. exfalso.
    apply in_node_covers in En; [|apply (L1 i u Hin)]. apply (Hu i); [|assumption].
    apply in_map_iff. exists (i, u). auto. }
  destruct (getBlock m (block_of C c)) as [b|]; [destruct (cb_empty qn b)|]; try (apply U; exact L2).
  apply exactly_one_covered; [intros i u Hin; apply (L1 i u Hin)|exact L2].
Qed.
Example C17_chunked_ex : let m := hc_run 5 exCC exh in
  option_map (@length _) (hc_forEachLeaf qn 500 exCC m) = Some 366%nat.
Proof. vm_compute. reflexivity. Qed.
Theorem C18_chunked_bounds : forall fuel C l c,
  valid_config C -> (Z.to_nat (cT C) <= fuel)%nat ->
  Forall (fun tc => match snd tc with HSet i _ | HAdd i _ => i32_index i | _ => True end) l ->
  let m := hc_run fuel C l in
  hc_get qn C m c <> 0%Qc -> ileq (hc_min_index C m) c /\ ileq c (hc_max_index C m).
Proof.
  intros fuel C l c HC Hf Hl. cbv zeta. destruct (C16_hashed_chunked_same fuel C l HC Hf) as (X1 & _ & _ & _ & X5 & X6). cbv zeta in *.
  rewrite X1, X5, X6. apply C18_hashed_bounds; assumption.
Qed.
Print Assumptions C11_chunked_add_exact.
Print Assumptions C11_chunked_set_frame.
Print Assumptions C12_chunked_accumulates.
Print Assumptions C13_chunked_average.
Print Assumptions C14_chunked_threshold.
Print Assumptions C15_chunked_prune.
Print Assumptions C17_chunked_leaves.
Print Assumptions C18_chunked_bounds.
Theorem C20_chunked_fresh : forall fuel C i m, valid_config C -> (Z.to_nat (cT C) <= fuel)%nat -> chunked_reachable fuel C m ->
  (forall c, hc_get qn C [] c = 0%Qc) /\ hc_get_node qn C (hc_clear m) i = 0%Qc /\
  (hc_empty m = true -> hc_get_node qn C m i = 0%Qc /\ forall c, hc_get qn C m c = 0%Qc).
Proof.
  intros fuel C i m _ _ _. split; [reflexivity|]. split; [reflexivity|]. destruct m; [|discriminate]. intros _. split; reflexivity.
Qed.
Theorem C49_chunked_recent_values_kept : forall fuel C m max_age now c blk,
  valid_config C -> (Z.to_nat (cT C) <= fuel)%nat -> chunked_reachable fuel C m ->
  getBlock m (hw_blockIndex C (cell c)) = Some blk -> now - cbstamp blk <= max_age ->
  hc_get qn C (hc_pruneSmart qn fuel C max_age now m) c = hc_get qn C m c \/
  (hc_get qn C (hc_pruneSmart qn fuel C max_age now m) c = 0%Qc /\ (Qcabs (hc_get qn C m c) < qeps)%Qc).
Proof.
  intros fuel C m age now c blk HC Hf Hr Hb Ha. destruct (chunked_sim fuel C m HC Hf Hr) as (h & Hh & R). pose proof HC as [HT _].
  pose proof (mrel_apply fuel C HT Hf m h (now, HPruneSmart age) R) as R'. cbn [hc_apply hw_apply] in R'.
  rewrite (mrel_get fuel C HT Hf _ _ c R'), (mrel_get fuel C HT Hf _ _ c R).
  pose proof (mrel_getBlock C m h (hw_blockIndex C (cell c)) R) as G. rewrite Hb in G.
  destruct (getBlock h (hw_blockIndex C (cell c))) as [w|] eqn:Ew; [|destruct G].
  apply (C49_recent_values_kept C h age now c w HC Hh Ew). destruct G as (_ & _ & _ & G). rewrite <- G. exact Ha.
Qed.
Print Assumptions C20_chunked_fresh.
Print Assumptions C49_chunked_recent_values_kept.
