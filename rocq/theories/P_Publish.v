(** * C48: publishing a map keeps its subscribers in sync *)
From Verif Require Import Base M_IntMath F_IntMath M_NdtreeIndex M_Num F_Num M_Haar F_Haar M_Haar3 F_Haar3 M_Ndtree S_Field F_Hash M_Wavelet
  F_Wavelet F_Wavelet2 F_Leaves F_WavTree F_WavMap F_WavHash M_WavHist F_WavHist M_HashedBlocks P_HashedBlocks M_Octree F_Octree M_Subtree P_Subtree
  P_Wavelet M_Stream F_Stream F_Stream2 F_Stream4 P_Stream M_Publish F_Publish F_Publish2 F_Publish3.
From Coq Require Import QArith Qcanon Qcabs Lqa Permutation.
Close Scope Qc_scope. Close Scope Q_scope. Open Scope Z_scope.

(** ** Specification vocabulary *)
(** The block that contains a cell *)
Definition block_with (C : wconfig (V := Qc)) (c : idx3) : idx3 := I3 (px c / 2 ^ cT C) (py c / 2 ^ cT C) (pz c / 2 ^ cT C).
(** What can happen: a call on the publisher's map at some time; a direct change of one of its blocks, after which the block has
    a time stamp (this is what the integrators do); a publication, with all its messages delivered. *)
Inductive pevent :=
| PCall (now : Z) (c : hcall)
| PWrite (i : idx3) (b : wblock (V := Qc))
| PPublish (now rnow : Z) (whole : bool).
Definition pruning (e : pevent) : Prop := match e with PCall _ HPrune | PCall _ (HPruneSmart _) => True | _ => False end.
(** A block whose tree is not higher than configured and which, unless it is marked for thresholding, is within the bounds *)
Definition proper_block (C : wconfig (V := Qc)) (b : wblock (V := Qc)) : Prop :=
  (forall q, valid_path q -> nlook q (wroot (btree b)) <> None -> Z.of_nat (length q) < cT C) /\
  (bthr b = false -> forall p, (clo C <= wb_get qn C b (OI 0 p))%Qc /\ (wb_get qn C b (OI 0 p) <= chi C)%Qc).
(** Any order in which the elements of a set are visited *)
Definition set_order (ord : list idx3 -> list idx3) : Prop := forall l, Permutation (ord l) l.
(** Later than the clock's epoch and than all publications in a history *)
Definition later (l : list pevent) (t : Z) : Prop := 0 < t /\ forall now rnow whole, In (PPublish now rnow whole) l -> now < t.
Section RUN.
Context (lf : wblock (V := Qc) -> nat) (w : Qc) (C : wconfig (V := Qc)) (maxn : Z).
(** The histories of a publisher (with an empty map at first) and a subscriber (that has no map yet). Changes happen strictly
    after the publications so far. *)
Inductive runs : list pevent -> psys Qc -> Prop :=
| run_nil : runs [] (PSY [] 0 None)
| run_call l m last sub now c : runs l (PSY m last sub) -> later l now -> runs (l ++ [PCall now c]) (PSY (hw_apply C m (now, c)) last sub)
| run_write l m last sub i b : runs l (PSY m last sub) -> later l (bstamp b) -> proper_block C b -> runs (l ++ [PWrite i b]) (PSY (setBlock m i b) last sub)
| run_publish l s now rnow whole ord s' msgs : runs l s -> set_order ord -> sys_publish qn lf w C maxn now rnow whole ord s = Some (s', msgs) ->
    runs (l ++ [PPublish now rnow whole]) s'.
End RUN.
Definition enough_fuel (lf : wblock (V := Qc) -> nat) : Prop := forall b, (nsize (wroot (btree b)) <= lf b)%nat.

(** ** Facts *)
Lemma height_of_paths k : forall n : node (det Qc), (forall q, valid_path q -> nlook q n <> None -> (length q < k)%nat) -> height_ok k n.
Proof.
  induction k as [|k IH]; intros n H; [specialize (H [] (Forall_nil _)); cbn in H; assert (X : (0 < 0)%nat) by (apply H; discriminate); lia|].
  intros c Hc. destruct (getChild n c) as [ch|] eqn:E; [|exact I]. apply IH. intros q Hq L. specialize (H (c :: q) (Forall_cons _ Hc Hq)). cbn [nlook length] in H.
  rewrite E in H. specialize (H L). lia.
Qed.
Lemma proper_ok C b : valid_config C -> proper_block C b -> blk_ok C b.
Proof.
  intros [HT _] [H1 H2]. split.
  - split; [exact HT|]. apply height_of_paths. intros q Hq L. specialize (H1 q Hq L). lia.
  - intros E p. exact (H2 E p).
Qed.
Fixpoint no_prunes (l : list pevent) : bool :=
  match l with [] => true | PCall _ c :: l' => negb (prunes c) && no_prunes l' | _ :: l' => no_prunes l' end.
Lemma no_prunes_app l l' : no_prunes (l ++ l') = no_prunes l && no_prunes l'.
Proof. induction l as [|[now c|i b|now rnow wh] l IH]; cbn [app no_prunes]; rewrite ?IH, ?andb_assoc; reflexivity. Qed.
Lemma no_prunes_spec l : Forall (fun e => ~ pruning e) l -> no_prunes l = true.
Proof.
  induction l as [|e l IH]; intros H; [reflexivity|]. inversion H as [|x y H1 H2]; subst. destruct e as [now c|i b|now rnow wh]; cbn [no_prunes]; rewrite (IH H2); [|reflexivity|reflexivity].
  destruct c; cbn [prunes negb andb pruning] in *; try reflexivity; exfalso; apply H1; exact I.
Qed.
Lemma runs_last lf w C maxn l s : runs lf w C maxn l s -> ps_last s = 0 \/ exists rnow whole, In (PPublish (ps_last s) rnow whole) l.
Proof.
  intros R. induction R as [|l m last sub now c R IH Hn|l m last sub i b R IH Hn Hb|l s now rnow whole ord s' msgs R IH Ho E]; cbn [ps_last] in *.
  - left. reflexivity.
  - destruct IH as [IH|(r & wh & IH)]; [left; exact IH|right]. exists r, wh. apply in_or_app. left. exact IH.
  - destruct IH as [IH|(r & wh & IH)]; [left; exact IH|right]. exists r, wh. apply in_or_app. left. exact IH.
  - unfold sys_publish in E. destruct (hw_empty (ps_map s)).
    + injection E as <- _. destruct IH as [IH|(r & wh & IH)]; [left; exact IH|right]. exists r, wh. apply in_or_app. left. exact IH.
    + destruct (publishHashedMap _ _ _ _ _ _ _ _ _) as [[m' ms]|]; [|discriminate]. destruct (recv_all _ _ _ _); [|discriminate]. injection E as <- _. cbn [ps_last].
      right. exists rnow, whole. apply in_or_app. right. left. reflexivity.
Qed.
Lemma runs_later lf w C maxn l s t : runs lf w C maxn l s -> later l t -> ps_last s < t.
Proof. intros R [H1 H2]. destruct (runs_last _ _ _ _ _ _ R) as [E|(r & wh & E)]; [lia|exact (H2 _ _ _ E)]. Qed.
Lemma runs_inv lf w C maxn l s : valid_config C -> enough_fuel lf -> runs lf w C maxn l s -> exists G, inv C w (no_prunes l) G s.
Proof.
  intros HC Hlf R. pose proof HC as [HT Hlh]. apply Qclt_le_weak in Hlh. induction R as [|l m last sub now c R [G IH] Hn|l m last sub i b R [G IH] Hn Hb|l s now rnow whole ord s' msgs R [G IH] Ho E].
  - exists (fun _ => wt_new qn). apply inv_init.
  - exists G. rewrite no_prunes_app. cbn [no_prunes]. rewrite andb_true_r. apply call_inv; try assumption. exact (runs_later _ _ _ _ _ _ _ R Hn).
  - exists G. rewrite no_prunes_app. cbn [no_prunes]. rewrite andb_true_r. apply set_inv; [exact IH|apply proper_ok; assumption|exact (runs_later _ _ _ _ _ _ _ R Hn)].
  - rewrite no_prunes_app. cbn [no_prunes]. rewrite andb_true_r.
    destruct (publish_inv C w maxn lf Hlf (no_prunes l) G s now rnow whole ord HT Hlh Ho IH) as (s2 & msgs2 & G' & E2 & I2 & _). rewrite E in E2. injection E2 as <- <-. exists G'. exact I2.
Qed.

(** ** Hashed wavelet octrees *)
(** A publication succeeds, clamps the publisher's own cells to the bounds, and afterwards the subscriber holds every block of the
    publisher's map. Each cell [c] of these blocks has at the subscriber the value that a saved and reloaded map has (C25: the average
    of the largest enclosing saturated node, or the exact value), of a field [g] that is the publisher's current content up to pruning:
    exactly the current content if the whole map was requested or nothing was ever pruned, and otherwise within the bound of one
    prune(). *)
Theorem C48_publish_sync : forall lf w C maxn l s now rnow whole ord,
  valid_config C -> enough_fuel lf -> runs lf w C maxn l s -> set_order ord -> ps_map s <> [] ->
  exists s' msgs sub g, sys_publish qn lf w C maxn now rnow whole ord s = Some (s', msgs) /\
    ps_sub s' = Some (w, C, sub) /\
    (forall b, hasBlock (ps_map s') b = hasBlock (ps_map s) b) /\
    (forall c, hasBlock (ps_map s) (block_with C c) = true -> hw_get qn C (ps_map s') c = clampq (clo C) (chi C) (hw_get qn C (ps_map s) c)) /\
    (forall b, hasBlock (ps_map s') b = true -> hasBlock sub b = true) /\
    (forall c, (Qcabs (g c - hw_get qn C (ps_map s') c) <= plain_prune_bound (cT C))%Qc) /\
    (whole = true \/ Forall (fun e => ~ pruning e) l -> forall c, g c = hw_get qn C (ps_map s') c) /\
    (forall c, hasBlock (ps_map s') (block_with C c) = true -> value_after_saving C g c (hw_get qn C sub c)).
Proof.
  intros lf w C maxn l s now rnow whole ord HC Hlf R Ho NE. pose proof HC as [HT Hlh]. apply Qclt_le_weak in Hlh.
  destruct (runs_inv lf w C maxn l s HC Hlf R) as [G I]. pose proof I as (H1 & H2 & H3).
  destruct (publish_inv C w maxn lf Hlf (no_prunes l) G s now rnow whole ord HT Hlh Ho I) as (s' & msgs & G' & E & (J1 & J2 & J3) & EK & GB & SY & M0 & M1).
  assert (SUB : exists sub, ps_sub s' = Some (w, C, sub)).
  { destruct (ps_map s) as [|[k b0] m] eqn:EM; [congruence|]. assert (E0 : getBlock (ps_map s') k = Some (wb_threshold qn C b0)).
    { rewrite GB. cbn [getBlock]. rewrite ieqb_refl. reflexivity. }
    destruct (SY k _ E0) as ((_ & (sb & S1 & _) & _) & _). unfold sub_ok in J2. destruct (ps_sub s') as [[[w' C'] sub]|]; [|discriminate S1].
    destruct J2 as (-> & -> & _). exists sub. reflexivity. }
  destruct SUB as [sub ES]. rewrite ES in *. cbn [submap] in *. set (gm := ghost_map G' (ps_map s')).
  exists s', msgs, sub, (hw_get qn C gm). split; [exact E|]. split; [exact ES|]. split; [intros b; apply has_of_keys; exact EK|].
  assert (TA : forall i, (tree_at (ps_map s') i = tree_at gm i \/ no_prunes l = false /\ whole = false /\ tree_ok (cT C) (tree_at gm i) /\ tree_at (ps_map s') i = wt_prune (tree_at gm i)) /\
      (hasBlock (ps_map s') i = true -> tree_at sub i = as_saved C (tree_at gm i))).
  { intros i. unfold gm, tree_at, hasBlock. rewrite ghost_get. destruct (getBlock (ps_map s') i) as [b|] eqn:Eb; cbn [option_map btree].
    - destruct (SY i b Eb) as ((_ & (sb & S1 & S2) & S3 & S4) & S5). rewrite S1. split; [|intros _; exact S2]. destruct whole; [left; apply S5; reflexivity|].
      destruct S4 as [S4|(S4 & _ & S6)]; [left; exact S4|right]. auto.
    - split; [left; reflexivity|discriminate]. }
  split; [|split; [|split; [|split]]].
  - intros c Hc. change (hw_field C (ps_map s') c = clampq (clo C) (chi C) (hw_field C (ps_map s) c)). rewrite !hw_field_spec by lia. unfold tree_at.
    change (block_with C c) with (block_of C c) in Hc. unfold hasBlock in Hc. rewrite GB. destruct (getBlock (ps_map s) (block_of C c)) as [b|] eqn:Eb; [|discriminate]. cbn [option_map].
    destruct (wb_threshold_ok C b Hlh (proj2 H1 _ b Eb)) as (_ & _ & T3). rewrite T3, clampq_qclamp. reflexivity.
  - intros b Hb. unfold hasBlock in *. destruct (getBlock (ps_map s') b) as [x|] eqn:Eb; [|discriminate]. destruct (SY b x Eb) as ((_ & (sb & S1 & _) & _) & _). rewrite S1. reflexivity.
  - intros c. change (Qcabs (hw_field C gm c - hw_field C (ps_map s') c) <= plain_prune_bound (cT C))%Qc. rewrite !hw_field_spec by lia.
    destruct (TA (block_of C c)) as [[TE|(_ & _ & T1 & TE)] _]; rewrite TE.
    + replace (_ - _)%Qc with 0%Qc by ring. replace (Qcabs 0) with 0%Qc by (apply Qc_is_canon; reflexivity). unfold plain_prune_bound.
      assert (X := Qcmult_le_compat_r _ _ prune_unit (proj1 (qz_le 0 (cT C - 1)) ltac:(lia)) prune_unit_pos).
      replace (qz 0 * prune_unit)%Qc with 0%Qc in X by (change (qz 0) with 0%Qc; ring). exact X.
    + rewrite Qcabs_sym. exact (wt_prune_node (cT C) (tree_at gm (block_of C c)) 0 c T1 ltac:(lia)).
  - intros HP c. change (hw_field C gm c = hw_field C (ps_map s') c). rewrite !hw_field_spec by lia.
    destruct (TA (block_of C c)) as [[TE|(T1 & T2 & _)] _]; [rewrite TE; reflexivity|]. destruct HP as [HP|HP]; [congruence|]. rewrite (no_prunes_spec l HP) in T1. discriminate.
  - intros c Hc. destruct (TA (block_with C c)) as [_ TS]. specialize (TS Hc). rewrite (sub_get C G' (ps_map s') sub c HT TS). fold gm.
    destruct (reloaded_get C 0 gm c HT) as (h & A1 & A2 & A3 & A4). exists h.
    assert (EN : forall h, 0 <= h < cT C -> node_mean (hw_get qn C gm) (enclosing h c) = hw_get_node qn C gm (OI h (imap (fun x => x / 2 ^ h) c))).
    { intros h' Hh. symmetry. apply (hw_node_mean C gm); [exact HT|cbn; lia]. }
    rewrite EN by lia. split; [exact A1|]. split; [exact A2|]. split; [rewrite <- qsat_spec; exact A3|]. intros h' Hh. rewrite EN by lia. rewrite <- qsat_spec, A4 by exact Hh. discriminate.
Qed.
(** If the publication sent a message, the subscriber has no other blocks. *)
Theorem C48_no_other_blocks_partial : forall lf w C maxn l s now rnow whole ord s' msgs,
  valid_config C -> enough_fuel lf -> runs lf w C maxn l s -> set_order ord -> sys_publish qn lf w C maxn now rnow whole ord s = Some (s', msgs) ->
  msgs <> [] -> exists sub, ps_sub s' = Some (w, C, sub) /\ (forall b, hasBlock sub b = hasBlock (ps_map s') b) /\
    forall c, hasBlock (ps_map s') (block_with C c) = false -> hw_get qn C sub c = 0%Qc /\ hw_get qn C (ps_map s') c = 0%Qc.
Proof.
  intros lf w C maxn l s now rnow whole ord s' msgs HC Hlf R Ho E NM. pose proof HC as [HT Hlh]. apply Qclt_le_weak in Hlh.
  assert (NE : ps_map s <> []). { intros K. unfold sys_publish in E. rewrite K in E. cbn [hw_empty] in E. congruence. }
  destruct (C48_publish_sync lf w C maxn l s now rnow whole ord HC Hlf R Ho NE) as (s2 & msgs2 & sub & g & E2 & ES & _ & _ & HB & _). rewrite E in E2. injection E2 as <- <-.
  exists sub. split; [exact ES|]. destruct (runs_inv lf w C maxn l s HC Hlf R) as [G I].
  destruct (publish_inv C w maxn lf Hlf (no_prunes l) G s now rnow whole ord HT Hlh Ho I) as (s2 & msgs2 & G' & E2 & _ & _ & _ & _ & _ & M1). rewrite E in E2. injection E2 as <- <-.
  specialize (M1 NM). rewrite ES in M1. cbn [submap] in M1. assert (HB2 : forall b, hasBlock sub b = hasBlock (ps_map s') b).
  { intros b. specialize (HB b). specialize (M1 b). unfold hasBlock in *. destruct (getBlock (ps_map s') b); [rewrite HB by reflexivity; reflexivity|rewrite M1 by reflexivity; reflexivity]. }
  split; [exact HB2|]. assert (Z0 : forall m c, hasBlock m (block_with C c) = false -> hw_get qn C m c = 0%Qc).
  { intros m c Hc. change (hw_get qn C m c) with (hw_field C m c). rewrite hw_field_spec by lia. unfold tree_at, hasBlock in *. change (block_with C c) with (block_of C c) in Hc.
    destruct (getBlock m (block_of C c)); [discriminate|]. apply cellv_new. lia. }
  intros c Hc. split; apply Z0; [rewrite HB2|]; exact Hc.
Qed.
(** A message is sent if there is anything new: some block was changed since the last publication, or the whole map was requested and is
    not empty. *)
Theorem C48_sends : forall lf w C maxn l s now rnow whole ord s' msgs b,
  valid_config C -> enough_fuel lf -> runs lf w C maxn l s -> set_order ord -> sys_publish qn lf w C maxn now rnow whole ord s = Some (s', msgs) ->
  hasBlock (ps_map s) b = true -> whole = true \/ (exists blk, getBlock (ps_map s) b = Some blk /\ later l (bstamp blk)) -> msgs <> [].
Proof.
  intros lf w C maxn l s now rnow whole ord s' msgs b HC Hlf R Ho E Hb HW NM. pose proof HC as [HT Hlh]. apply Qclt_le_weak in Hlh.
  destruct (runs_inv lf w C maxn l s HC Hlf R) as [G I].
  destruct (publish_inv C w maxn lf Hlf (no_prunes l) G s now rnow whole ord HT Hlh Ho I) as (s2 & msgs2 & G' & E2 & _ & _ & _ & _ & M0 & _). rewrite E in E2. injection E2 as <- <-.
  unfold hasBlock in Hb. destruct (getBlock (ps_map s) b) as [x|] eqn:Eb; [|discriminate]. destruct (M0 NM b x Eb) as [K1 K2].
  destruct HW as [HW|(blk & HW & HL)]; [congruence|]. injection HW as <-. pose proof (runs_later _ _ _ _ _ _ _ R HL). lia.
Qed.

(** ** Examples and what goes wrong *)
Lemma some_inj {A} (a b : A) : Some a = Some b -> a = b. Proof. intros E. injection E as E. exact E. Qed.
Definition lf0 (b : wblock (V := Qc)) : nat := nsize (wroot (btree b)).
Lemma lf0_ok : enough_fuel lf0. Proof. intros b. apply le_n. Qed.
Lemma id_order : set_order (fun l => l). Proof. intros l. apply Permutation_refl. Qed.
(** Running events, with one block per message *)
Definition pub1 (now : Z) (whole : bool) (s : psys Qc) : psys Qc * list (mmsg Qc) :=
  match sys_publish qn lf0 1%Qc exC 1 now now whole (fun l => l) s with Some r => r | None => (s, []) end.
Definition ev (s : psys Qc) (e : pevent) : psys Qc :=
  match e with
  | PCall now c => PSY (hw_apply exC (ps_map s) (now, c)) (ps_last s) (ps_sub s)
  | PWrite i b => PSY (setBlock (ps_map s) i b) (ps_last s) (ps_sub s)
  | PPublish now _ whole => fst (pub1 now whole s)
  end.
Definition evs (l : list pevent) : psys Qc := fold_left ev l (PSY [] 0 None).
Lemma pub1_eq l s now whole : runs lf0 1%Qc exC 1 l s -> sys_publish qn lf0 1%Qc exC 1 now now whole (fun l => l) s = Some (pub1 now whole s).
Proof.
  intros R. unfold pub1. destruct (runs_inv _ _ _ _ _ _ exC_valid lf0_ok R) as [G I].
  destruct (publish_inv exC 1%Qc 1 lf0 lf0_ok (no_prunes l) G s now now whole (fun l => l)) as (s' & msgs & G' & E & _);
    [cbn; lia|apply Qclt_le_weak; apply exC_valid|exact id_order|exact I|]. rewrite E. reflexivity.
Qed.
(** Calls at increasing times and publications at the times at which they happen *)
Fixpoint laterb (l : list pevent) (t : Z) : bool :=
  match l with [] => 0 <? t | PPublish now _ _ :: l' => (now <? t) && laterb l' t | _ :: l' => laterb l' t end.
Lemma laterb_spec l t : laterb l t = true -> later l t.
Proof.
  induction l as [|e l IH]; cbn [laterb]; [intros H; apply Z.ltb_lt in H; split; [exact H|intros ? ? ? []]|].
  destruct e as [n c|i b|n r wh]; [intros H|intros H|intros H; apply andb_true_iff in H; destruct H as [H0 H]; apply Z.ltb_lt in H0];
    destruct (IH H) as [I1 I2]; (split; [exact I1|]); intros n' r' w' [E|E]; try discriminate; try (exact (I2 _ _ _ E)).
  injection E as -> _ _. exact H0.
Qed.
Definition ev_ok (l : list pevent) (e : pevent) : Prop :=
  match e with PCall now _ => laterb l now = true | PPublish now rnow _ => rnow = now | PWrite _ _ => False end.
Lemma evs_runs l : forall l0, runs lf0 1%Qc exC 1 l0 (evs l0) -> (forall l1 e l2, l = l1 ++ e :: l2 -> ev_ok (l0 ++ l1) e) ->
  runs lf0 1%Qc exC 1 (l0 ++ l) (evs (l0 ++ l)).
Proof.
  induction l as [|e l IH]; intros l0 R H; [rewrite app_nil_r; exact R|]. pose proof (H [] e l eq_refl) as He. rewrite app_nil_r in He.
  replace (l0 ++ e :: l) with ((l0 ++ [e]) ++ l) by (rewrite <- app_assoc; reflexivity). apply IH.
  - unfold evs at 1. rewrite fold_left_app. fold (evs l0). cbn [fold_left]. destruct e as [now c|i b|now rnow whole]; cbn [ev_ok ev] in *; [|destruct He|].
    + destruct (evs l0) as [m last sub] eqn:E. cbn [ps_map ps_last ps_sub] in *. apply run_call; [exact R|apply laterb_spec; exact He].
    + subst rnow. eapply run_publish; [exact R|exact id_order|]. rewrite (pub1_eq l0 (evs l0) now whole R). apply f_equal. apply surjective_pairing.
  - intros l1 e' l2 ->. rewrite <- app_assoc. apply (H (e :: l1) e' l2). reflexivity.
Qed.
Definition exP : list pevent :=
  [PCall 1 (HAdd (I3 1 1 1) (Q2Qc 3)); PCall 2 (HAdd (I3 9 9 9) (- Q2Qc 1)%Qc); PPublish 3 3 false; PCall 4 (HAdd (I3 9 9 9) (Q2Qc (1 # 2)))].
Ltac ev_steps := intros pa pe pb EQ; cbn [app];
  repeat (destruct pa as [|? pa]; [injection EQ as <- _; vm_compute; reflexivity | injection EQ as <- EQ]); destruct pa; discriminate.
Lemma exP_runs : runs lf0 1%Qc exC 1 exP (evs exP).
Proof. apply (evs_runs exP []); [exact (run_nil _ _ _ _)|]. unfold exP. ev_steps. Qed.
Definition sub_reads (s : psys Qc) (c : idx3) : Qc := match ps_sub s with Some (_, C, m) => hw_get qn C m c | None => 0%Qc end.
(** The second publication sends one message with one block, and the subscriber then reads -1/2 and 3. *)
Example C48_ex : runs lf0 1%Qc exC 1 exP (evs exP) /\ ps_map (evs exP) <> [] /\
  length (snd (pub1 5 false (evs exP))) = 1%nat /\
  sub_reads (evs exP) (I3 9 9 9) = (- Q2Qc 1)%Qc /\ sub_reads (fst (pub1 5 false (evs exP))) (I3 9 9 9) = (- Q2Qc (1 # 2))%Qc /\
  sub_reads (fst (pub1 5 false (evs exP))) (I3 1 1 1) = Q2Qc 3.
Proof.
  split; [exact exP_runs|]. split; [vm_compute; discriminate|]. split; [vm_compute; reflexivity|]. split; [|split]; apply Qc_is_canon; vm_compute; reflexivity.
Qed.

(** Blocks that are erased without any other change stay at the subscriber: nothing is sent. *)
Theorem C48_erased_block_refuted : exists lf w C maxn l s now rnow ord s' sub b,
  valid_config C /\ enough_fuel lf /\ runs lf w C maxn l s /\ set_order ord /\ sys_publish qn lf w C maxn now rnow false ord s = Some (s', []) /\
  ps_map s' <> [] /\ ps_sub s' = Some (w, C, sub) /\ hasBlock sub b = true /\ hasBlock (ps_map s') b = false.
Proof.
  set (l := [PCall 1 (HAdd (I3 1 1 1) (Q2Qc 3)); PCall 2 (HAdd (I3 9 9 9) (- Q2Qc 1)%Qc); PPublish 3 3 false; PCall 4 (HEraseBlock (I3 0 0 0))]).
  assert (R : runs lf0 1%Qc exC 1 l (evs l)) by (apply (evs_runs l []); [exact (run_nil _ _ _ _)|unfold l; ev_steps]).
  pose proof (pub1_eq l (evs l) 5 false R) as E.
  assert (E2 : snd (pub1 5 false (evs l)) = []) by (vm_compute; reflexivity).
  assert (NE : ps_map (evs l) <> []) by (vm_compute; discriminate).
  destruct (C48_publish_sync lf0 1%Qc exC 1 l (evs l) 5 5 false (fun l => l) exC_valid lf0_ok R id_order NE) as (s' & msgs & sub & g & P1 & P2 & _).
  rewrite E in P1. apply some_inj in P1. rewrite P1 in E2. cbn [snd] in E2. subst msgs.
  exists lf0, 1%Qc, exC, 1, l, (evs l), 5, 5, (fun l => l), s', sub, (I3 0 0 0). split; [exact exC_valid|]. split; [exact lf0_ok|]. split; [exact R|]. split; [exact id_order|].
  split; [rewrite E, P1; reflexivity|]. assert (ES : s' = fst (pub1 5 false (evs l))) by (rewrite P1; reflexivity).
  split; [rewrite ES; vm_compute; discriminate|]. split; [exact P2|]. split.
  - assert (X : match ps_sub s' with Some (_, _, m) => hasBlock m (I3 0 0 0) | None => false end = true) by (rewrite ES; vm_compute; reflexivity).
    rewrite P2 in X. exact X.
  - rewrite ES. vm_compute. reflexivity.
Qed.
(** A cleared map is never announced, not even when the whole map is requested: the subscriber keeps the old map. *)
Theorem C48_cleared_map_refuted : exists lf w C maxn l s now rnow ord sub b,
  valid_config C /\ enough_fuel lf /\ runs lf w C maxn l s /\ set_order ord /\ sys_publish qn lf w C maxn now rnow true ord s = Some (s, []) /\
  ps_map s = [] /\ ps_sub s = Some (w, C, sub) /\ hasBlock sub b = true.
Proof.
  set (l1 := [PCall 1 (HAdd (I3 1 1 1) (Q2Qc 3))]). set (l := l1 ++ [PPublish 3 3 false] ++ [PCall 4 HClear]).
  assert (R : runs lf0 1%Qc exC 1 l (evs l)) by (apply (evs_runs l []); [exact (run_nil _ _ _ _)|unfold l, l1; ev_steps]).
  assert (R1 : runs lf0 1%Qc exC 1 l1 (evs l1)) by (apply (evs_runs l1 []); [exact (run_nil _ _ _ _)|unfold l1; ev_steps]).
  assert (NE : ps_map (evs l1) <> []) by (vm_compute; discriminate).
  destruct (C48_publish_sync lf0 1%Qc exC 1 l1 (evs l1) 3 3 false (fun l => l) exC_valid lf0_ok R1 id_order NE) as (s' & msgs & sub & g & P1 & P2 & _).
  rewrite (pub1_eq l1 (evs l1) 3 false R1) in P1. apply some_inj in P1.
  assert (ES : evs l = PSY [] (ps_last s') (ps_sub s')).
  { unfold l, evs. rewrite !fold_left_app. fold (evs l1). cbn [fold_left ev hw_apply]. rewrite P1. reflexivity. }
  exists lf0, 1%Qc, exC, 1, l, (evs l), 5, 5, (fun l => l), sub, (I3 0 0 0). split; [exact exC_valid|]. split; [exact lf0_ok|]. split; [exact R|]. split; [exact id_order|].
  rewrite ES. split; [reflexivity|]. split; [reflexivity|]. split; [exact P2|].
  assert (X : match ps_sub (fst (pub1 3 false (evs l1))) with Some (_, _, m) => hasBlock m (I3 0 0 0) | None => false end = true) by (vm_compute; reflexivity).
  rewrite P1 in X. cbn [fst] in X. rewrite P2 in X. exact X.
Qed.
Lemma silent_sub lf w C maxn now rnow whole ord s s' : sys_publish qn lf w C maxn now rnow whole ord s = Some (s', []) -> ps_sub s' = ps_sub s.
Proof.
  unfold sys_publish. destruct (hw_empty (ps_map s)); [intros E; injection E as <-; reflexivity|].
  destruct (publishHashedMap _ _ _ _ _ _ _ _ _) as [[m' msgs']|]; [|discriminate]. destruct msgs' as [|x y]; cbn [recv_all].
  - intros E. injection E as <-. reflexivity.
  - destruct (recv qn rnow (ps_sub s) x) as [z|]; [|discriminate]. destruct (recv_all qn rnow z y); discriminate.
Qed.
Definition same_time_test (s : psys Qc) : bool :=
  match sys_publish qn lf0 1%Qc exC 1 4 4 false (fun l => l) (PSY (hw_apply exC (ps_map s) (3, HAdd (I3 9 9 9) (Q2Qc (1 # 2)))) 3 (ps_sub s)) with
  | Some (s', []) => Qeq_bool (this (hw_get qn exC (ps_map s') (I3 9 9 9))) (- (1 # 2)) && Qeq_bool (this (sub_reads s (I3 9 9 9))) (-1)
  | _ => false
  end.
Lemma same_time_test_spec m sub : same_time_test (PSY m 3 (Some (1%Qc, exC, sub))) = true -> exists s',
  sys_publish qn lf0 1%Qc exC 1 4 4 false (fun l => l) (PSY (hw_apply exC m (3, HAdd (I3 9 9 9) (Q2Qc (1 # 2)))) 3 (Some (1%Qc, exC, sub))) = Some (s', []) /\
  hw_get qn exC (ps_map s') (I3 9 9 9) = (- Q2Qc (1 # 2))%Qc /\ hw_get qn exC sub (I3 9 9 9) = (- Q2Qc 1)%Qc.
Proof.
  unfold same_time_test, sub_reads. cbn [ps_map ps_sub]. destruct (sys_publish _ _ _ _ _ _ _ _ _ _) as [[s' [|x y]]|]; try discriminate. intros B.
  apply andb_true_iff in B. destruct B as [B1 B2]. apply Qeq_bool_iff in B1, B2. exists s'. split; [reflexivity|]. split; apply Qc_is_canon; assumption.
Qed.
(** A change in the same clock tick as a publication (after it) is not transmitted by the next publication. *)
Theorem C48_same_time_refuted : exists lf w C maxn l m last sub now rnow c v ord s',
  valid_config C /\ enough_fuel lf /\ runs lf w C maxn (l ++ [PPublish last rnow false]) (PSY m last (Some (w, C, sub))) /\ set_order ord /\
  sys_publish qn lf w C maxn now now false ord (PSY (hw_apply C m (last, HAdd c v)) last (Some (w, C, sub))) = Some (s', []) /\
  ps_sub s' = Some (w, C, sub) /\ hw_get qn C (ps_map s') c = (- Q2Qc (1 # 2))%Qc /\ hw_get qn C sub c = (- Q2Qc 1)%Qc.
Proof.
  set (l1 := [PCall 1 (HAdd (I3 9 9 9) (- Q2Qc 1)%Qc)]). set (l := l1 ++ [PPublish 3 3 false]).
  assert (R : runs lf0 1%Qc exC 1 l (evs l)) by (apply (evs_runs l []); [exact (run_nil _ _ _ _)|unfold l, l1; ev_steps]).
  assert (R1 : runs lf0 1%Qc exC 1 l1 (evs l1)) by (apply (evs_runs l1 []); [exact (run_nil _ _ _ _)|unfold l1; ev_steps]).
  assert (NE : ps_map (evs l1) <> []) by (vm_compute; discriminate).
  destruct (C48_publish_sync lf0 1%Qc exC 1 l1 (evs l1) 3 3 false (fun l => l) exC_valid lf0_ok R1 id_order NE) as (s1 & msgs & sub & g & P1 & P2 & _).
  rewrite (pub1_eq l1 (evs l1) 3 false R1) in P1. apply some_inj in P1.
  assert (ES : evs l = s1). { unfold l, evs. rewrite fold_left_app. fold (evs l1). cbn [fold_left ev]. rewrite P1. reflexivity. }
  assert (EL : ps_last (evs l) = 3) by (vm_compute; reflexivity).
  assert (B : same_time_test (evs l) = true) by (vm_compute; reflexivity).
  rewrite ES in EL, B, R. clear - EL B R P2. destruct s1 as [m last sb]. cbn [ps_last ps_sub] in *. subst last sb. destruct (same_time_test_spec m sub B) as (s' & E & B1 & B2).
  exists lf0, 1%Qc, exC, 1, l1, m, 3, sub, 4, 3, (I3 9 9 9), (Q2Qc (1 # 2)), (fun l => l), s'.
  split; [exact exC_valid|]. split; [exact lf0_ok|]. split; [exact R|]. split; [exact id_order|]. split; [exact E|].
  split; [exact (silent_sub _ _ _ _ _ _ _ _ _ _ E)|]. split; assumption.
Qed.

(** ** Dense block maps: every message has the whole map *)
Definition dense (lo hi : Qc) : hbconfig Qc := HBC lo hi 0%Qc 4.
(** The subscriber's map before: any with blocks of the right size *)
Definition dense_sub (s : option (Qc * hbconfig Qc * hbmap (V := Qc))) : Prop :=
  match s with Some (_, C, m) => hK C = 4 /\ hdef C = 0%Qc /\ hwf m /\ forall k b, In (k, b) m -> Z.of_nat (length b) = 4096 | None => True end.
Lemma dense_recv (C : hbconfig Qc) : let n := Z.to_nat (hb_ncells C) in forall l m0, hwf m0 -> hwf l -> (forall k b, getBlock m0 k = Some b -> length b = n) -> (forall k b, In (k, b) l -> length b = n) ->
  exists m, hb_recv_blocks C m0 l = Some m /\ hwf m /\ (forall i, getBlock m i = match getBlock l i with Some b => Some b | None => getBlock m0 i end).
Proof.
  intros n. induction l as [|[k v] l IH]; intros m0 W0 W L0 L.
  - exists m0. split; [reflexivity|]. split; [exact W0|reflexivity].
  - cbn [hb_recv_blocks]. assert (EB : length (blockOrNew (hb_new C) m0 k) = n).
    { unfold blockOrNew, hblock in *. destruct (getBlock m0 k) as [b|] eqn:E; [apply (L0 k b); exact E|]. unfold hb_new. rewrite repeat_length. reflexivity. }
    unfold hb_overwrite. rewrite EB, (L k v (or_introl eq_refl)). rewrite Nat.leb_refl. rewrite skipn_all2 by (rewrite EB; apply le_n). rewrite app_nil_r.
    inversion W as [|x y W1 W2]; subst. destruct (IH (setBlock m0 k v)) as (m & E1 & E2 & E3).
    + apply setBlock_wf. exact W0.
    + exact W2.
    + intros j b. rewrite getBlock_setBlock. destruct (ieqb k j); [intros E; injection E as <-; exact (L k v (or_introl eq_refl))|apply L0].
    + intros j b Hj. apply (L j b). right. exact Hj.
    + exists m. split; [exact E1|]. split; [exact E2|]. intros i. rewrite E3. cbn [getBlock]. rewrite getBlock_setBlock. destruct (ieqb_spec k i) as [->|]; [|reflexivity].
      replace (getBlock l i) with (@None (list Qc)); [reflexivity|]. symmetry. apply getBlock_None. exact W1.
Qed.
(** After publishing a map that is not empty, the subscriber's map is equal: same blocks, same values. *)
Theorem C48_dense_sync : forall w lo hi (l : list (hbcall Qc)) sub,
  let C := dense lo hi in let m := hb_run qn C l in
  m <> [] -> dense_sub sub ->
  exists msg m', hb_publish w C m = (m, [msg]) /\ hb_recv qn sub msg = Some (Some (w, C, m')) /\ dense_sub (Some (w, C, m')) /\
    (forall b, hasBlock m' b = hasBlock m b) /\ forall i, hb_get C m' i = hb_get C m i.
Proof.
  intros w lo hi l sub C m NE HS. destruct (run_bwf qn C l) as [W1 W2]. fold m in W1, W2. assert (N0 : Z.of_nat (Z.to_nat (hb_ncells C)) = 4096) by reflexivity. set (n := Z.to_nat (hb_ncells C)) in *.
  exists (hb_toMsg w C m). unfold hb_publish, hb_threshold. destruct (hb_empty m) eqn:EM; [destruct m; [congruence|discriminate]|].
  unfold hb_recv, hb_toMsg. cbn [hbm_width hbm_lo hbm_hi hbm_alloc hbm_blocks C dense hlo hhi]. change (HBC lo hi (n0 qn) 4) with C.
  match goal with |- context [hb_recv_blocks C ?x m] => set (m0 := x) end.
  assert (M0 : hwf m0 /\ (forall k b, getBlock m0 k = Some b -> length b = n) /\ forall i, hasBlock m i = false -> getBlock m0 i = None).
  { subst m0. destruct sub as [[[w' C'] sm]|]; [|split; [constructor|split; [intros k b H; discriminate H|reflexivity]]]. destruct HS as (_ & _ & S3 & S4).
    destruct (_ && _); [|split; [constructor|split; [intros k b H; discriminate H|reflexivity]]]. split; [apply eraseBlockIf_wf; exact S3|]. split.
    - intros k b. rewrite getBlock_eraseBlockIf by exact S3. destruct (getBlock sm k) as [b0|] eqn:E; [|discriminate]. cbn [fst snd]. destruct (negb _); [discriminate|].
      intros H. injection H as <-. apply Nat2Z.inj. rewrite N0. apply (S4 k). apply getBlock_In. exact E.
    - intros i Hi. rewrite getBlock_eraseBlockIf by exact S3. destruct (getBlock sm i); [|reflexivity]. cbn [fst snd].
      change (existsb (ieqb i) (map fst m)) with (memb i (keys m)). replace (memb i (keys m)) with false; [reflexivity|]. symmetry. apply memb_false. intros K.
      apply hasBlock_keys in K. congruence. }
  clearbody m0. destruct M0 as (A1 & A2 & A3). destruct (dense_recv C m m0 A1 W1 A2 W2) as (m' & E1 & E2 & E3). rewrite E1. exists m'.
  split; [reflexivity|]. split; [reflexivity|]. assert (EG : forall i, getBlock m' i = getBlock m i).
  { intros i. pose proof (A3 i) as X. unfold hasBlock in X. specialize (E3 i). unfold hbmap, hblock in *. destruct (@getBlock (list Qc) m i) as [b|]; [exact E3|].
    rewrite X in E3; [exact E3|reflexivity]. }
  split; [|split].
  - cbn [dense_sub]. split; [reflexivity|]. split; [reflexivity|]. split; [exact E2|]. intros k b H. rewrite <- N0. f_equal. apply (W2 k b). apply getBlock_In. rewrite <- EG. apply In_getBlock; assumption.
  - intros b. unfold hasBlock. rewrite EG. reflexivity.
  - intros i. unfold hb_get, hb_getValue. rewrite EG. reflexivity.
Qed.
Example C48_dense_ex : let m := hb_run qn (dense (- Q2Qc 2)%Qc (Q2Qc 4)) [HBSet (I3 1 2 3) (Q2Qc 3); HBAdd (I3 (-1) 0 0) (Q2Qc 7)] in
  m <> [] /\ dense_sub None /\ hb_get (dense (- Q2Qc 2)%Qc (Q2Qc 4)) m (I3 (-1) 0 0) = Q2Qc 4.
Proof. split; [vm_compute; discriminate|]. split; [exact I|]. apply Qc_is_canon. vm_compute. reflexivity. Qed.

(** ** Plain wavelet octrees: every message has the whole map *)
Lemma child_index_range m j : 0 <= relativeChildIndexFromMorton 3 m j < 8.
Proof. unfold relativeChildIndexFromMorton. change (Z.shiftl 1 3 - 1) with (Z.ones 3). rewrite Z.land_ones by lia. apply Z.mod_pos_bound. lia. Qed.
Lemma loop_norm {V} (N : M_Num.num V) k : forall ph mo v n, get_loop N k ph mo v (norm n) = get_loop N k ph mo v n.
Proof.
  induction k as [|k IH]; intros ph mo v n; [reflexivity|]. cbn [get_loop]. rewrite norm_data, norm_child by apply child_index_range.
  destruct (getChild n _); [apply IH|reflexivity].
Qed.
Lemma wo_publish_eq {V} (N : M_Num.num V) fuel w C t : wt_empty N t = false -> (nsize (wroot (wo_threshold N C t)) <= fuel)%nat ->
  wo_publish N fuel w C t = Some (wo_threshold N C t, [WOM w C (wscale (wo_threshold N C t)) (mser (wroot (wo_threshold N C t)))]).
Proof.
  intros He Hf. unfold wo_publish. rewrite He. cbv zeta. set (t1 := wo_threshold N C t) in *. unfold wo_toMsg.
  assert (E2 : iterate pre_next fuel (pre_begin (wroot t1)) = Some (preL ([], wroot t1))).
  { unfold pre_begin. rewrite pre_iterate; cbn [flat_map]; rewrite app_nil_r; [reflexivity|]. rewrite preL_length. exact Hf. }
  rewrite E2. apply iterate_mser in E2. unfold pre_begin in E2. cbn [flat_map snd] in E2. rewrite app_nil_r in E2. cbn [option_map]. do 4 f_equal. exact E2.
Qed.
(** A subscriber that has no map yet, or one with other settings, gets an equal map. *)
Theorem C48_plain_first_message : forall fuel w C t sub,
  valid_config C -> plain_reachable C t -> wt_empty qn t = false -> (nsize (wroot (wo_threshold qn C t)) <= fuel)%nat ->
  match sub with Some (w', C', _) => w' <> w \/ cT C' <> cT C \/ clo C' <> clo C \/ chi C' <> chi C | None => True end ->
  exists t' msg sub', wo_publish qn fuel w C t = Some (t', [msg]) /\ wo_recv qn sub msg = Some (Some (w, C, sub')) /\
    (forall i, wo_get qn C sub' i = wo_get qn C t' i) /\
    forall c, wo_get qn C t' (cell c) = clampq (clo C) (chi C) (wo_get qn C t (cell c)).
Proof.
  intros fuel w C t sub HC Hr He Hf HS. rewrite wo_publish_eq by assumption. set (t1 := wo_threshold qn C t).
  exists t1, (WOM w C (wscale t1) (mser (wroot t1))), (WT (norm (wroot t1)) (wscale t1)). split; [reflexivity|]. split; [|split].
  - unfold wo_recv. cbn [wom_width wom_conf wom_scale wom_nodes].
    assert (EQ : forall a b : Qc, veq qn a b = true -> a = b).
    { intros a b H. unfold veq in H. apply andb_true_iff in H. destruct H as [H1 H2]. apply negb_true_iff in H1, H2. cbn [qn nltb] in H1, H2.
      apply qltb_false in H1, H2. apply Qcle_antisym; assumption. }
    assert (E : match sub with Some (w0, C0, t0) => if conf_eq qn w0 C0 w C then t0 else wt_new qn | None => wt_new qn end = wt_new qn).
    { destruct sub as [[[w' C'] t']|]; [|reflexivity]. destruct (conf_eq qn w' C' w C) eqn:E; [|reflexivity]. exfalso. unfold conf_eq in E. rewrite !andb_true_iff in E.
      destruct E as (((E1 & E2) & E3) & E4). apply EQ in E1, E2, E3. apply Z.eqb_eq in E4. destruct HS as [HS|[HS|[HS|HS]]]; apply HS; congruence. }
    rewrite E. cbn [wt_new wroot]. rewrite (ros_tree_fresh qn (wroot t1)). reflexivity.
  - intros i. unfold wo_get, wt_get. cbn [wroot wscale]. apply loop_norm.
  - intros c. apply C14_plain_threshold; assumption.
Qed.
Definition exW : list call := [CAdd (cell (I3 0 0 0)) (Q2Qc 3); CAdd (cell (I3 (-1) (-1) (-1))) (Q2Qc 2)].
(** The first cell is reset to 0, and its nodes are pruned. *)
Definition exW2 : list call := [CAdd (cell (I3 0 0 0)) (- Q2Qc 3)%Qc; CPrune].
Lemma exW_ok : Forall (call_ok exC) (exW ++ exW2). Proof. unfold exW, exW2. cbn [app]. fall. Qed.
Example C48_plain_ex : plain_reachable exC (wo_run exC exW) /\ wt_empty qn (wo_run exC exW) = false.
Proof. split; [|vm_compute; reflexivity]. exists exW. split; [|reflexivity]. pose proof exW_ok as H. apply Forall_app in H. apply H. Qed.
Definition patched (t1 t2 : wtree (V := Qc)) : node (det Qc) :=
  match ros_tree qn (mser (wroot t2)) [[]] (norm (wroot t1)) with Some r => r | None => wroot t1 end.
Lemma wo_recv_first w C (t1 : wtree (V := Qc)) : wo_recv qn None (WOM w C (wscale t1) (mser (wroot t1))) = Some (Some (w, C, WT (norm (wroot t1)) (wscale t1))).
Proof. unfold wo_recv. cbn [wom_width wom_conf wom_scale wom_nodes wt_new wroot]. rewrite (ros_tree_fresh qn (wroot t1)). reflexivity. Qed.
Lemma wo_recv_again w C (t1 t2 : wtree (V := Qc)) : conf_eq qn w C w C = true ->
  match ros_tree qn (mser (wroot t2)) [[]] (norm (wroot t1)) with Some _ => true | None => false end = true ->
  wo_recv qn (Some (w, C, WT (norm (wroot t1)) (wscale t1))) (WOM w C (wscale t2) (mser (wroot t2))) = Some (Some (w, C, WT (patched t1 t2) (wscale t2))).
Proof.
  intros E X. unfold wo_recv. cbn [wom_width wom_conf wom_scale wom_nodes]. rewrite E. cbn [wroot]. unfold patched.
  destruct (ros_tree qn (mser (wroot t2)) [[]] (norm (wroot t1))); [reflexivity|discriminate].
Qed.
Definition after_publish (t : wtree (V := Qc)) : wtree (V := Qc) := wo_threshold qn exC t.
Lemma two_messages t l2 : let t1 := after_publish t in let u := fold_left (wo_apply exC) l2 t1 in let t2 := after_publish u in
  wt_empty qn t = false -> (nsize (wroot t1) <=? 100)%nat = true -> wt_empty qn u = false -> (nsize (wroot t2) <=? 100)%nat = true ->
  match ros_tree qn (mser (wroot t2)) [[]] (norm (wroot t1)) with Some _ => true | None => false end = true ->
  exists msg1 sub1 msg2, wo_publish qn 100 1%Qc exC t = Some (t1, [msg1]) /\ wo_recv qn None msg1 = Some sub1 /\
    wo_publish qn 100 1%Qc exC u = Some (t2, [msg2]) /\ wo_recv qn sub1 msg2 = Some (Some (1%Qc, exC, WT (patched t1 t2) (wscale t2))).
Proof.
  intros t1 u t2 H1 H2 H3 H4 H5. exists (WOM 1%Qc exC (wscale t1) (mser (wroot t1))), (Some (1%Qc, exC, WT (norm (wroot t1)) (wscale t1))), (WOM 1%Qc exC (wscale t2) (mser (wroot t2))).
  apply Nat.leb_le in H2, H4. split; [apply wo_publish_eq; assumption|]. split; [apply wo_recv_first|]. split; [apply wo_publish_eq; assumption|].
  apply wo_recv_again; [vm_compute; reflexivity|exact H5].
Qed.
(** Later messages do not remove nodes at the subscriber: after the publisher's obstacle was removed and pruned, the subscriber still
    reads a positive value in a cell that is 0 in the published map. *)
Theorem C48_plain_stale_nodes_refuted : exists fuel w C l1 l2 t1 msg1 sub1 t2 msg2 sub2 c,
  valid_config C /\ Forall (call_ok C) (l1 ++ l2) /\
  wo_publish qn fuel w C (wo_run C l1) = Some (t1, [msg1]) /\ wo_recv qn None msg1 = Some sub1 /\
  wo_publish qn fuel w C (fold_left (wo_apply C) l2 t1) = Some (t2, [msg2]) /\ wo_recv qn sub1 msg2 = Some (Some (w, C, sub2)) /\
  wo_get qn C t2 (cell c) = 0%Qc /\ (1 < wo_get qn C sub2 (cell c))%Qc.
Proof.
  destruct (two_messages (wo_run exC exW) exW2) as (msg1 & sub1 & msg2 & E1 & E2 & E3 & E4); [vm_compute; reflexivity..|].
  exists 100%nat, 1%Qc, exC, exW, exW2. eexists. exists msg1, sub1. eexists. exists msg2. eexists. exists (I3 0 0 0).
  split; [exact exC_valid|]. split; [exact exW_ok|]. split; [exact E1|]. split; [exact E2|]. split; [exact E3|]. split; [exact E4|]. split.
  - apply Qc_is_canon. vm_compute. reflexivity.
  - vm_compute. reflexivity.
Qed.

Print Assumptions C48_publish_sync.
Print Assumptions C48_no_other_blocks_partial.
Print Assumptions C48_sends.
Print Assumptions C48_erased_block_refuted.
Print Assumptions C48_cleared_map_refuted.
Print Assumptions C48_same_time_refuted.
Print Assumptions C48_dense_sync.
Print Assumptions C48_plain_first_message.
Print Assumptions C48_plain_stale_nodes_refuted.
