(** C19, continued: calls on one accelerator of a generic octree block hash that read nodes and that allocate and update
    nodes, in any order, have the same effects as the same calls made directly on the map. *)
From Verif Require Import Base M_IntMath M_Morton M_NdtreeIndex M_Ndtree M_Octree M_Accel M_AccelAlloc F_Hash F_Accel F_AccelAlloc P_Accel.

(** The same calls on the map: a read returns the value of the node or, if it does not exist, of its closest existing
    ancestor (the tree accelerator's getNode, unlike the map's, falls back to an ancestor); an update is
    getOrAllocateValue(index) followed by the update of the value. *)
Fixpoint nodes_direct {A : Type} (T : Z) (dflt : A) (m : shash (node A)) (l : list (@pcall A)) : shash (node A) * list (option A) :=
  match l with
  | [] => (m, [])
  | PRead i :: l' => let '(m', rs) := nodes_direct T dflt m l' in (m', fst (bh_getValueOrAncestor T m i) :: rs)
  | PUpdate i g :: l' => nodes_direct T dflt (bh_update T dflt m i g) l'
  end.
Definition called_node {A} (c : @pcall A) : oidx := match c with PRead i => i | PUpdate i _ => i end.

Lemma pacc_run_spec (A : Type) (T : Z) (dflt : A) : 1 <= T < 20 -> forall l m a, pinv T m a ->
  Forall (fun c => node_query T (called_node c)) l ->
  pacc_run T dflt dflt m a l = Some (nodes_direct T dflt m l).
Proof.
  intros HT. induction l as [|c l IH]; intros m a Ha Hl; [reflexivity|]. inversion Hl as [|x y H1 H2]; subst.
  pose proof H1 as [Hi Hr]. assert (Hb : block_at T (called_node c) <> no_block) by (apply block_not_sentinel; [lia|assumption..]).
  destruct c as [i|i g]; cbn [pacc_run nodes_direct called_node] in *.
  - destruct (pget_spec T HT m a i Ha Hi Hb) as (a' & p & -> & Ha' & Hp). rewrite ndirect_anc in Hp by assumption.
    unfold bh_getValueOrAncestor. destruct p as [q|].
    + destruct Hp as (x & -> & Hx). rewrite (IH m a' Ha' H2). destruct (getBlock m (bh_blockIndex T i)) as [b|]; [|discriminate].
      injection Hx as <-. cbn [option_map fst]. destruct (nodes_direct T dflt m l). reflexivity.
    + rewrite (IH m a' Ha' H2). destruct (getBlock m (bh_blockIndex T i)) as [b|]; [discriminate|].
      cbn [option_map fst]. destruct (nodes_direct T dflt m l). reflexivity.
  - destruct (palloc_spec T HT dflt dflt (data_fn g) m a i Ha Hi Hb) as (a' & m' & p & x & -> & -> & E & Ha').
    rewrite E in Ha' |- *. rewrite aupdate_direct in Ha' |- * by assumption. apply IH; assumption.
Qed.
(** If the caller passes the map's default value as the argument for new nodes, everything is as if the calls were made
    directly: the reads, and the whole final map including which nodes were allocated. *)
Theorem C19_tree_accelerator_updates : forall (A : Type) (T : Z) (dflt : A) (m : shash (node A)) (calls : list pcall),
  1 <= T < 20 -> Forall (fun c => node_query T (called_node c)) calls ->
  pacc_run T dflt dflt m (pacc_new T) calls = Some (nodes_direct T dflt m calls).
Proof. intros A T dflt m l HT Hl. apply pacc_run_spec; [exact HT|apply pinv_new; exact HT|exact Hl]. Qed.
Example C19_tree_updates_example :
  let calls := [PRead (OI 0 (I3 1 2 3)); PUpdate (OI 0 (I3 1 2 3)) (fun v => v + 10); PRead (OI 0 (I3 1 2 3));
                PUpdate (OI 1 (I3 1 1 1)) (fun v => v + 20); PRead (OI 0 (I3 3 2 3)); PRead (OI 0 (I3 1 3 3));
                PUpdate (OI 0 (I3 (-1) 0 0)) (fun _ => 7); PRead (OI 3 (I3 (-1) 0 0)); PRead (OI 0 (I3 1 2 3)); PRead (OI 0 (I3 90 0 0))] in
  Forall (fun c => node_query 3 (called_node c)) calls /\
  option_map snd (pacc_run 3 5 5 [] (pacc_new 3) calls) =
    Some [None; Some 15; Some 25; Some 5; Some 5; Some 15; None].
Proof. cbv zeta. split; [unfold node_query; repeat constructor; cbn; lia|]. vm_compute. reflexivity. Qed.

(** Without arguments (as getOrAllocateNode of the map itself is called), new nodes below the root get the value of a
    default-constructed CellDataT rather than the map's default value: here the map's default is 5, CellDataT{} is 0, and
    a counter incremented in a new node ends up as 1 instead of 6. *)
Theorem C19_default_value_refuted : exists (T : Z) (dflt : Z) (m : shash (node Z)) (calls : list pcall),
  1 <= T < 20 /\ Forall (fun c => node_query T (called_node c)) calls /\
  option_map snd (pacc_run T dflt 0 m (pacc_new T) calls) = Some [Some 1] /\
  snd (nodes_direct T dflt m calls) = [Some 6].
Proof.
  exists 2, 5, [], [PUpdate (OI 0 (I3 1 1 1)) (fun v => v + 1); PRead (OI 0 (I3 1 1 1))].
  split; [lia|]. split; [unfold node_query; repeat constructor; cbn; lia|]. split; vm_compute; reflexivity.
Qed.

Print Assumptions C19_tree_accelerator_updates.
Print Assumptions C19_default_value_refuted.
