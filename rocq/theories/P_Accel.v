(** C19: Accelerated queries equal direct queries.

    A query accelerator is created on a map and answers a sequence of queries; the map does not change meanwhile. For
    each query it returns exactly the value that a direct query on the map returns. The value operations are
    arbitrary ([N : num V]), so "exactly" includes every rounding: both compute the same operations on the same
    operands. *)
From Verif Require Import Base M_IntMath M_Morton M_NdtreeIndex M_Num M_Haar M_Haar3 M_Ndtree M_Wavelet M_WavHist M_Chunked
  M_ChunkedHist M_Octree M_Accel S_Field F_Num F_Hash F_Accel P_Wavelet P_Chunked.
From Coq Require Import QArith Qcanon Lqa.
Close Scope Qc_scope.
Close Scope Q_scope.
Open Scope Z_scope.

(** The node lies within the octree height, and the cells it covers have 32 bit coordinates. *)
Definition node_query (T : Z) (i : oidx) : Prop :=
  0 <= oh i <= T /\ Forall (fun c => - 2 ^ 31 <= c * 2 ^ oh i < 2 ^ 31) (ilist (opos i)).

Lemma node_queries T l : 1 <= T -> Forall (node_query T) l -> Forall (fun i => 0 <= oh i <= T /\ block_at T i <> no_block) l.
Proof.
  intros HT H. eapply Forall_impl; [|exact H]. intros i [H1 H2]. split; [exact H1|]. apply block_not_sentinel; assumption.
Qed.

(** Hashed wavelet octree *)
Theorem C19_hashed_accelerator : forall (V : Type) (N : M_Num.num V) (C : wconfig) (m : hmap) (queries : list oidx),
  1 <= cT C < 20 -> Forall (node_query (cT C)) queries ->
  hw_acc_queries N C m queries = Some (map (hw_get_node N C m) queries).
Proof.
  intros V N C m l HT Hl. pose proof (node_queries (cT C) l ltac:(lia) Hl) as Hq. unfold hw_acc_queries.
  rewrite queries_spec; [|assumption|intros i Hi; apply hw_block_at; exact Hi|apply inv_new; assumption|exact Hq].
  f_equal. apply map_ext_in. intros i Hi. rewrite Forall_forall in Hl. destruct (Hl i Hi) as [H1 _].
  apply hw_direct; [exact H1|lia].
Qed.
(** Hashed chunked wavelet octree *)
Theorem C19_chunked_accelerator : forall (V : Type) (N : M_Num.num V) (C : wconfig) (m : cmap) (queries : list oidx),
  1 <= cT C < 20 -> Forall (node_query (cT C)) queries ->
  hc_acc_queries N C m queries = Some (map (hc_get_node N C m) queries).
Proof.
  intros V N C m l HT Hl. pose proof (node_queries (cT C) l ltac:(lia) Hl) as Hq. unfold hc_acc_queries.
  rewrite queries_spec; [|assumption|intros i Hi; apply hw_block_at; exact Hi|apply inv_new; assumption|exact Hq].
  f_equal. apply map_ext_in. intros i Hi. rewrite Forall_forall in Hl. destruct (Hl i Hi) as [H1 _].
  apply hc_direct; [exact H1|lia].
Qed.
(** In particular, querying a list of cells gives their values. *)
Theorem C19_hashed_cells : forall (C : wconfig) (m : hmap) (cells : list idx3),
  valid_config C -> cT C < 20 -> hashed_reachable C m ->
  Forall (fun c => Forall (fun x => - 2 ^ 31 <= x < 2 ^ 31) (ilist c)) cells ->
  hw_acc_queries qn C m (map cell cells) = Some (map (hw_get qn C m) cells).
Proof.
  intros C m cells HC HT Hm Hc. destruct HC as [H1 H2]. rewrite C19_hashed_accelerator.
  - rewrite map_map. f_equal. apply map_ext. intros c. apply C13_hashed_cell_query; [split; assumption|assumption].
  - lia.
  - rewrite Forall_forall in *. intros i Hi. apply in_map_iff in Hi. destruct Hi as (c & <- & Hin).
    unfold node_query, cell. cbn [oh opos]. split; [lia|]. specialize (Hc c Hin). rewrite Forall_forall in *.
    intros x Hx. rewrite Z.pow_0_r, Z.mul_1_r. apply Hc. exact Hx.
Qed.

(** A map with two blocks, queried in both, above and below the leaves, inside and outside what is stored *)
Definition acc_ops :=
  combine [1; 2; 3; 4] (map k_hashed
    [KAdd (I3 0 0 0) (Q2Qc 3); KAdd (I3 5 2 7) (Q2Qc 1); KAdd (I3 (-1) (-1) (-1)) (Q2Qc 2); KAdd (I3 0 1 0) (Q2Qc (-1))]).
Definition acc_C : wconfig := WC 3 (Q2Qc (-2)) (Q2Qc 4).
Definition acc_q : list oidx :=
  [OI 0 (I3 0 0 0); OI 0 (I3 0 1 0); OI 2 (I3 0 0 0); OI 0 (I3 7 7 7); OI 0 (I3 (-1) (-1) (-1)); OI 1 (I3 (-1) (-1) (-1));
   OI 3 (I3 4 4 4); OI 0 (I3 40 40 40); OI 0 (I3 5 2 7); OI 3 (I3 0 0 0); OI 0 (I3 5 2 7)].
Example C19_nonvacuous :
  let m := hw_run acc_C acc_ops in
  hashed_reachable acc_C m /\ 1 <= cT acc_C < 20 /\ Forall (node_query (cT acc_C)) acc_q /\
  map this (map (hw_get_node qn acc_C m) acc_q) =
    [3#1; -1#1; 1#32; 0; 2; 1#4; 0; 0; 1; 3#512; 1]%Q.
Proof.
  cbv zeta. split; [exists acc_ops; reflexivity|]. split; [cbn; lia|]. split.
  - unfold acc_q, node_query. cbn [cT acc_C]. repeat constructor; cbn; lia.
  - vm_compute. reflexivity.
Qed.

(** Tree heights of 20 and more are accepted by the configuration but overflow the accelerator's stacks. *)
Theorem C19_tall_octree_refuted : exists (C : wconfig) (m : hmap) (i : oidx),
  valid_config C /\ hashed_reachable C m /\ node_query (cT C) i /\ hw_acc_queries qn C m [i] = None.
Proof.
  exists (WC 20 (Q2Qc (-2)) (Q2Qc 4)), [], (OI 0 (I3 0 0 0)). split; [split; [cbn; lia|reflexivity]|].
  split; [exists []; reflexivity|]. split; [split; [cbn; lia|repeat constructor; cbn; lia]|]. reflexivity.
Qed.

(** Block accelerators: the calls give the results, and have the effects on the map, of calling the map itself. *)
Fixpoint blocks_direct {B} (dflt : B) (m : shash B) (l : list bacc_call) : shash B * list (option B) :=
  match l with
  | [] => (m, [])
  | BGet b :: l' => let '(m', rs) := blocks_direct dflt m l' in (m', getBlock m b :: rs)
  | BAlloc b :: l' =>
      let m1 := setBlock m b (blockOrNew dflt m b) in
      let '(m', rs) := blocks_direct dflt m1 l' in (m', getBlock m1 b :: rs)
  end.
Definition called_block (c : bacc_call) : idx3 := match c with BGet b => b | BAlloc b => b end.
Lemma bacc_run_spec {B} (dflt : B) l : forall m a, binv m a -> Forall (fun c => called_block c <> no_block) l ->
  bacc_run dflt m a l = blocks_direct dflt m l.
Proof.
  induction l as [|c l IH]; intros m a Ha Hl; [reflexivity|]. inversion Hl as [|x y H1 H2]; subst.
  destruct c as [b|b]; cbn [bacc_run blocks_direct called_block] in *.
  - destruct (bget_spec m a b Ha H1) as [E1 E2]. destruct (bacc_get m a b) as [a' r]. cbn [fst snd] in E1, E2.
    rewrite (IH m a' E2 H2). rewrite E1. reflexivity.
  - destruct (balloc_spec dflt m a b Ha H1) as (a' & -> & E2). rewrite (IH _ a' E2 H2). reflexivity.
Qed.
Theorem C19_block_accelerator : forall (B : Type) (dflt : B) (m : shash B) (calls : list bacc_call),
  Forall (fun c => called_block c <> no_block) calls ->
  bacc_run dflt m bacc_new calls = blocks_direct dflt m calls.
Proof. intros B dflt m l H. apply bacc_run_spec; [left; reflexivity|exact H]. Qed.
Example C19_block_nonvacuous :
  let a := I3 0 0 0 in let b := I3 1 0 (-2) in
  Forall (fun c => called_block c <> no_block) [BGet a; BGet b; BAlloc b; BGet b; BGet a; BAlloc b; BAlloc (I3 4 4 4)] /\
  blocks_direct 7 [(a, 3)] [BGet a; BGet b; BAlloc b; BGet b; BGet a; BAlloc b; BAlloc (I3 4 4 4)] =
  ([(a, 3); (b, 7); (I3 4 4 4, 7)], [Some 3; None; Some 7; Some 7; Some 3; Some 7; Some 7]).
Proof. cbv zeta. split; [repeat constructor; discriminate|reflexivity]. Qed.

(** Tree accelerator (generic octree block hash): it finds every node that exists; for a node that does not exist in
    an existing block it returns the closest existing ancestor. *)
Theorem C19_ndtree_accelerator_partial : forall (A : Type) (T : Z) (m : shash (node A)) (queries : list oidx),
  1 <= T < 20 -> Forall (node_query T) queries ->
  exists results, nacc_queries T m (nacc_new T) queries = Some results /\
  Forall2 (fun i r =>
    (forall x, bh_getNode T m i = Some x -> r = Some x) /\
    (r = None <-> hasBlock m (bh_blockIndex T i) = false) /\
    option_map ndata r = fst (bh_getValueOrAncestor T m i)) queries results.
Proof.
  intros A T m l HT Hl. pose proof (node_queries T l ltac:(lia) Hl) as Hq.
  exists (map (ndirect T m) l). split; [apply nqueries_spec; [exact HT|apply ninv_new; exact HT|exact Hq]|].
  clear Hq. induction Hl as [|i l [Hi _] Hl IH]; [constructor|]. cbn [map]. constructor; [|exact IH].
  rewrite ndirect_anc by assumption. unfold bh_getNode, bh_getValueOrAncestor, hasBlock.
  destruct (getBlock m (bh_blockIndex T i)) as [b|].
  - cbn [option_map fst]. split; [|split; [split; discriminate|reflexivity]].
    intros x Hx. unfold nd_getNodeOrAncestor. f_equal. apply (anc_of_node _ _ _ _ _ Hx).
  - split; [discriminate|]. split; [split; reflexivity|reflexivity].
Qed.
Theorem C19_ndtree_same_as_direct_refuted : exists (T : Z) (m : shash (node Z)) (i : oidx),
  1 <= T < 20 /\ node_query T i /\ bh_getNode T m i = None /\
  nacc_queries T m (nacc_new T) [i] = Some [Some (Node 5 None)].
Proof.
  exists 2, [(I3 0 0 0, Node 5 None)], (OI 0 (I3 1 1 1)). split; [lia|]. split; [split; [cbn; lia|repeat constructor; cbn; lia]|].
  split; reflexivity.
Qed.
Example C19_ndtree_nonvacuous :
  let m := bh_update 3 0 (bh_update 3 0 [] (OI 0 (I3 1 2 3)) (fun _ => 8)) (OI 1 (I3 (-4) 0 0)) (fun _ => 9) in
  let qs := [OI 0 (I3 1 2 3); OI 0 (I3 1 2 2); OI 1 (I3 (-4) 0 0); OI 0 (I3 1 2 3); OI 1 (I3 0 1 1); OI 0 (I3 90 0 0)] in
  Forall (node_query 3) qs /\
  map (bh_getValue 3 m) qs = [Some 8; None; Some 9; Some 8; Some 0; None] /\
  option_map (map (option_map ndata)) (nacc_queries 3 m (nacc_new 3) qs) = Some [Some 8; Some 0; Some 9; Some 8; Some 0; None].
Proof. cbv zeta. split; [unfold node_query; repeat constructor; cbn; lia|]. split; vm_compute; reflexivity. Qed.

Print Assumptions C19_hashed_accelerator.
Print Assumptions C19_chunked_accelerator.
Print Assumptions C19_hashed_cells.
Print Assumptions C19_tall_octree_refuted.
Print Assumptions C19_block_accelerator.
Print Assumptions C19_ndtree_accelerator_partial.
Print Assumptions C19_ndtree_same_as_direct_refuted.
