(** * C48 for hashed chunked wavelet octrees *)
From Verif Require Import Base M_IntMath F_IntMath M_NdtreeIndex M_Num F_Num M_Haar F_Haar M_Haar3 F_Haar3 M_Ndtree S_Field F_Hash M_Wavelet
  F_Wavelet F_Wavelet2 F_Leaves F_WavTree F_WavMap F_WavHash M_WavHist F_WavHist M_HashedBlocks P_HashedBlocks M_Octree F_Octree M_Chunked F_Chunked F_ChunkedSim F_ChunkedWav
  M_ChunkedHist F_ChunkedMap M_Subtree P_Subtree P_Wavelet M_Stream F_Stream F_Stream2 F_Stream3 F_Stream4 P_Stream M_Publish F_Publish F_Publish2 F_Publish3 P_Publish
  M_PublishChunked F_PublishChunked.
From Coq Require Import QArith Qcanon Qcabs Lqa Permutation.
Close Scope Qc_scope. Close Scope Q_scope. Open Scope Z_scope.

(** ** Specification vocabulary *)
(** As in P_Publish.v: a call on the publisher's map, a direct change of one of its blocks (integrators), a publication with all its
    messages delivered *)
Inductive cevent :=
| CCall (now : Z) (c : hcall)
| CWrite (i : idx3) (b : cblock (V := Qc))
| CPublish (now rnow : Z) (whole : bool).
Definition cpruning (e : cevent) : Prop := match e with CCall _ HPrune | CCall _ (HPruneSmart _) => True | _ => False end.
(** A block whose chunks hold some tree that is not higher than configured (the nodes that are only there because the chunk is, are
    zero: [sub], F_ChunkedSim.v) and which, unless it is marked for thresholding, is within the bounds *)
Definition proper_cblock (C : wconfig (V := Qc)) (b : cblock (V := Qc)) : Prop :=
  (exists n, sub (dzero qn) kChunkHeight (croot (cbtree b)) [] (Some n) /\ nheight (Z.to_nat (cT C - 1)) n) /\
  (cbthr b = false -> forall p, (clo C <= cb_get qn (cT C) (cbtree b) (OI 0 p))%Qc /\ (cb_get qn (cT C) (cbtree b) (OI 0 p) <= chi C)%Qc).
Definition clater (l : list cevent) (t : Z) : Prop := 0 < t /\ forall now rnow whole, In (CPublish now rnow whole) l -> now < t.
Section RUN.
Context (tf nf : nat) (w : Qc) (C : wconfig (V := Qc)) (maxn : Z).
Inductive cruns : list cevent -> cpsys Qc -> Prop :=
| crun_nil : cruns [] (CPS [] 0 None)
| crun_call l m last sub now c : cruns l (CPS m last sub) -> clater l now -> cruns (l ++ [CCall now c]) (CPS (hc_apply tf C m (now, c)) last sub)
| crun_write l m last sub i b : cruns l (CPS m last sub) -> clater l (cbstamp b) -> proper_cblock C b -> cruns (l ++ [CWrite i b]) (CPS (setBlock m i b) last sub)
| crun_publish l s now rnow whole ord s' msgs : cruns l s -> set_order ord -> csys_publish qn tf nf w C maxn now rnow whole ord s = Some (s', msgs) ->
    cruns (l ++ [CPublish now rnow whole]) s'.
End RUN.
(** Enough for the recursion of threshold() and for the nodes of a block *)
Definition enough_cfuel (C : wconfig (V := Qc)) (tf nf : nat) : Prop := (Z.to_nat (cT C) <= tf)%nat /\ 8 ^ cT C <= Z.of_nat nf.

(** ** Facts *)
Lemma nheight_paths {A} k : forall n : node A, nheight k n -> forall q, valid_path q -> nlook q n <> None -> (length q <= k)%nat.
Proof.
  induction k as [|k IH]; intros n H q Hq L; destruct q as [|c q]; cbn [length]; try lia; cbn [nlook] in L; inversion Hq as [|? ? Hc Hq']; subst.
  - cbn [nheight] in H. unfold getChild in L. rewrite H in L. congruence.
  - specialize (H c Hc). destruct (getChild n c) as [ch|]; [|congruence]. specialize (IH ch H q Hq' L). lia.
Qed.
Lemma proper_rel C c : valid_config C -> proper_cblock C c -> exists b, brel C c b /\ proper_block C b.
Proof.
  intros [HT _] [(n & S & Hn) Hb]. exists (WB (WT n (cscale (cbtree c))) (cbthr c) (cbprn c) (cbstamp c)).
  assert (TR : trel C (cbtree c) (WT n (cscale (cbtree c)))) by (split; [exact S|]; split; [reflexivity|exact Hn]).
  split; [split; [exact TR|auto]|]. split; cbn [btree wroot bthr].
  - intros q Hq L. pose proof (nheight_paths _ n Hn q Hq L). lia.
  - intros E p. unfold wb_get. cbn [btree]. rewrite <- (trel_get _ C HT (le_n _) _ _ (OI 0 p) TR) by (cbn; lia). apply Hb. exact E.
Qed.
Inductive evrel : cevent -> pevent -> Prop :=
| ER_call now c : evrel (CCall now c) (PCall now c)
| ER_write i c b : evrel (CWrite i c) (PWrite i b)
| ER_pub now rnow whole : evrel (CPublish now rnow whole) (PPublish now rnow whole).
Lemma evrel_later l l' t : Forall2 evrel l l' -> clater l t <-> later l' t.
Proof.
  intros R. assert (X : forall now rnow whole, In (CPublish now rnow whole) l <-> In (PPublish now rnow whole) l').
  { intros now rnow whole. induction R as [|e e' l l' E R IH]; [reflexivity|]. cbn [In]. rewrite IH. destruct E; split; (intros [E|E]; [try discriminate; left; injection E as <- <- <-; reflexivity|right; exact E]). }
  unfold clater, later. split; intros [H1 H2]; (split; [exact H1|]); intros n r wh Hin; apply (H2 n r wh), X, Hin.
Qed.
Lemma evrel_pruning l l' : Forall2 evrel l l' -> Forall (fun e => ~ cpruning e) l -> Forall (fun e => ~ pruning e) l'.
Proof.
  induction 1 as [|e e' l l' E R IH]; intros H; [constructor|]. inversion H as [|? ? H1 H2]; subst. constructor; [|apply IH; exact H2]. destruct E; exact H1.
Qed.
Lemma init_sysrel C w : sysrel C w (CPS [] 0 None) (PSY [] 0 None).
Proof. split; [constructor|]. split; [reflexivity|]. split; [exact I|]. split; [exact I|]. split; [reflexivity|]. intros i. exact I. Qed.
Lemma cruns_sim tf nf w C maxn l s : valid_config C -> enough_cfuel C tf nf -> cruns tf nf w C maxn l s ->
  exists l' s', Forall2 evrel l l' /\ runs lf0 w C maxn l' s' /\ sysrel C w s s'.
Proof.
  intros HC [Htf Hnf] R. pose proof HC as [HT Hlh]. induction R as [|l m last sub now c R IH Hn|l m last sub i b R IH Hn Hb|l s now rnow whole ord s1 msgs R IH Ho E].
  - exists [], (PSY [] 0 None). split; [constructor|]. split; [constructor|apply init_sysrel].
  - destruct IH as (l' & [h last' sub'] & E & R' & (M & L & S)). cbn [cps_map cps_last cps_sub ps_map ps_last ps_sub] in *. subst last'.
    exists (l' ++ [PCall now c]), (PSY (hw_apply C h (now, c)) last sub'). split; [apply Forall2_app; [exact E|constructor; [constructor|constructor]]|].
    split; [apply run_call; [exact R'|apply (evrel_later l l' now E); exact Hn]|]. split; [cbn [cps_map ps_map]; apply mrel_apply; assumption|]. split; [reflexivity|exact S].
  - destruct IH as (l' & [h last' sub'] & E & R' & (M & L & S)). cbn [cps_map cps_last cps_sub ps_map ps_last ps_sub] in *. subst last'.
    destruct (proper_rel C b HC Hb) as (b' & B & PB). exists (l' ++ [PWrite i b']), (PSY (setBlock h i b') last sub').
    split; [apply Forall2_app; [exact E|constructor; [constructor|constructor]]|].
    split; [apply run_write; [exact R'| |exact PB]|].
    + apply (evrel_later l l' (bstamp b') E). replace (bstamp b') with (cbstamp b) by apply B. exact Hn.
    + split; [cbn [cps_map ps_map]; apply mrel_setBlock; assumption|]. split; [reflexivity|exact S].
  - destruct IH as (l' & s' & EV & R' & SR).
    destruct (runs_inv lf0 w C maxn l' s' HC lf0_ok R') as [G I]. apply Qclt_le_weak in Hlh.
    destruct (publish_inv C w maxn lf0 lf0_ok (no_prunes l') G s' now rnow whole ord HT Hlh Ho I) as (s2 & msgs2 & G' & E2 & _).
    destruct (csys_publish_sim C w maxn tf nf ord HT Htf Hnf Ho lf0 now rnow whole s s' s2 msgs2 lf0_ok SR E2) as (z & ms & E3 & SR2 & _).
    rewrite E in E3. injection E3 as <- <-. exists (l' ++ [PPublish now rnow whole]), s2.
    split; [apply Forall2_app; [exact EV|constructor; [constructor|constructor]]|]. split; [eapply run_publish; eassumption|exact SR2].
Qed.
Lemma srel_get C sub sub' c : 1 <= cT C <= 21 -> srel_map C sub sub' -> hw_get qn C sub c = hw_get qn C sub' c.
Proof.
  intros HT R. change (hw_field C sub c = hw_field C sub' c). rewrite !hw_field_spec by lia. unfold tree_at. specialize (R (block_of C c)).
  destruct (getBlock sub _), (getBlock sub' _); try contradiction; [|reflexivity]. exact (R c).
Qed.
Lemma srel_has C sub sub' b : srel_map C sub sub' -> hasBlock sub b = hasBlock sub' b.
Proof. intros R. specialize (R b). unfold hasBlock. destruct (getBlock sub b), (getBlock sub' b); try contradiction; reflexivity. Qed.

(** ** Hashed chunked wavelet octrees *)
(** As C48_publish_sync: a publication succeeds, clamps the publisher's cells, and afterwards the subscriber (a hashed wavelet octree)
    holds every block of the publisher's map, with the values of a field that is the publisher's content up to one prune(). *)
Theorem C48_chunked_sync : forall tf nf w C maxn l s now rnow whole ord,
  valid_config C -> enough_cfuel C tf nf -> cruns tf nf w C maxn l s -> set_order ord -> cps_map s <> [] ->
  exists s' msgs sub g, csys_publish qn tf nf w C maxn now rnow whole ord s = Some (s', msgs) /\
    cps_sub s' = Some (w, C, sub) /\
    (forall b, hasBlock (cps_map s') b = hasBlock (cps_map s) b) /\
    (forall c, hasBlock (cps_map s) (block_with C c) = true -> hc_get qn C (cps_map s') c = clampq (clo C) (chi C) (hc_get qn C (cps_map s) c)) /\
    (forall b, hasBlock (cps_map s') b = true -> hasBlock sub b = true) /\
    (forall c, (Qcabs (g c - hc_get qn C (cps_map s') c) <= plain_prune_bound (cT C))%Qc) /\
    (whole = true \/ Forall (fun e => ~ cpruning e) l -> forall c, g c = hc_get qn C (cps_map s') c) /\
    (forall c, hasBlock (cps_map s') (block_with C c) = true -> value_after_saving C g c (hw_get qn C sub c)).
Proof.
  intros tf nf w C maxn l s now rnow whole ord HC [Htf Hnf] R Ho NE. pose proof HC as [HT _].
  destruct (cruns_sim tf nf w C maxn l s HC (conj Htf Hnf) R) as (l' & s' & EV & R' & SR). pose proof SR as (M & L & S).
  assert (NE' : ps_map s' <> []) by (intros K; rewrite K in M; inversion M; congruence).
  destruct (C48_publish_sync lf0 w C maxn l' s' now rnow whole ord HC lf0_ok R' Ho NE') as (s2 & msgs2 & sub2 & g & P1 & P2 & P3 & P4 & P5 & P6 & P7 & P8).
  destruct (csys_publish_sim C w maxn tf nf ord HT Htf Hnf Ho lf0 now rnow whole s s' s2 msgs2 lf0_ok SR P1) as (z & ms & E3 & (M2 & L2 & (S1 & S2 & S3 & S4)) & _).
  rewrite P2 in *. destruct (cps_sub z) as [[[w1 C1] sub]|] eqn:EZ; [|exfalso; discriminate (proj1 S3 eq_refl)]. destruct S1 as (-> & -> & _). cbn [submap] in S4.
  exists z, ms, sub, g. split; [exact E3|]. split; [exact EZ|].
  assert (EH : forall b, hasBlock (cps_map z) b = hasBlock (ps_map s2) b) by (intros b; apply (mrel_hasBlock C); exact M2).
  assert (EH0 : forall b, hasBlock (cps_map s) b = hasBlock (ps_map s') b) by (intros b; apply (mrel_hasBlock C); exact M).
  assert (EG : forall c, hc_get qn C (cps_map z) c = hw_get qn C (ps_map s2) c) by (intros c; apply (mrel_get _ C HT (le_n _)); exact M2).
  assert (EG0 : forall c, hc_get qn C (cps_map s) c = hw_get qn C (ps_map s') c) by (intros c; apply (mrel_get _ C HT (le_n _)); exact M).
  split; [intros b; rewrite EH, EH0; apply P3|]. split; [intros c Hc; rewrite EH0 in Hc; rewrite EG, EG0; apply P4; exact Hc|].
  split; [intros b Hb; rewrite EH in Hb; rewrite (srel_has C _ _ b S4); apply P5; exact Hb|].
  split; [intros c; rewrite EG; apply P6|].
  split; [intros HP c; rewrite EG; apply P7; destruct HP as [HP|HP]; [left; exact HP|right; exact (evrel_pruning _ _ EV HP)]|].
  intros c Hc. rewrite EH in Hc. rewrite (srel_get C sub sub2 c HT S4). apply P8. exact Hc.
Qed.
(** If the publication sent a message, the subscriber has no other blocks. *)
Theorem C48_chunked_no_other_blocks_partial : forall tf nf w C maxn l s now rnow whole ord s' msgs,
  valid_config C -> enough_cfuel C tf nf -> cruns tf nf w C maxn l s -> set_order ord -> csys_publish qn tf nf w C maxn now rnow whole ord s = Some (s', msgs) ->
  msgs <> [] -> exists sub, cps_sub s' = Some (w, C, sub) /\ (forall b, hasBlock sub b = hasBlock (cps_map s') b) /\
    forall c, hasBlock (cps_map s') (block_with C c) = false -> hw_get qn C sub c = 0%Qc /\ hc_get qn C (cps_map s') c = 0%Qc.
Proof.
  intros tf nf w C maxn l s now rnow whole ord z ms HC [Htf Hnf] R Ho E NM. pose proof HC as [HT Hlh]. apply Qclt_le_weak in Hlh.
  destruct (cruns_sim tf nf w C maxn l s HC (conj Htf Hnf) R) as (l' & s' & EV & R' & SR). pose proof SR as (M & L & S).
  destruct (runs_inv lf0 w C maxn l' s' HC lf0_ok R') as [G I].
  destruct (publish_inv C w maxn lf0 lf0_ok (no_prunes l') G s' now rnow whole ord HT Hlh Ho I) as (s2 & msgs2 & G' & E2 & _).
  destruct (csys_publish_sim C w maxn tf nf ord HT Htf Hnf Ho lf0 now rnow whole s s' s2 msgs2 lf0_ok SR E2) as (z' & ms' & E3 & (M2 & L2 & (S1 & S2 & S3 & S4)) & EM).
  rewrite E in E3. injection E3 as <- <-.
  destruct (C48_no_other_blocks_partial lf0 w C maxn l' s' now rnow whole ord s2 msgs2 HC lf0_ok R' Ho E2) as (sub2 & B1 & B2 & B3). { intros K. apply NM, EM, K. }
  rewrite B1 in *. destruct (cps_sub z) as [[[w1 C1] sub]|] eqn:EZ; [|exfalso; discriminate (proj1 S3 eq_refl)]. destruct S1 as (-> & -> & _). cbn [submap] in S4.
  exists sub. split; [reflexivity|]. assert (EH : forall b, hasBlock (cps_map z) b = hasBlock (ps_map s2) b) by (intros b; apply (mrel_hasBlock C); exact M2).
  split; [intros b; rewrite EH, (srel_has C _ _ b S4); apply B2|]. intros c Hc. rewrite EH in Hc. rewrite (srel_get C sub sub2 c HT S4), (mrel_get _ C HT (le_n _) _ _ c M2). apply B3. exact Hc.
Qed.
(** A message is sent if some block was changed since the last publication, or the whole map was requested and is not empty. *)
Theorem C48_chunked_sends : forall tf nf w C maxn l s now rnow whole ord s' msgs b,
  valid_config C -> enough_cfuel C tf nf -> cruns tf nf w C maxn l s -> set_order ord -> csys_publish qn tf nf w C maxn now rnow whole ord s = Some (s', msgs) ->
  hasBlock (cps_map s) b = true -> whole = true \/ (exists blk, getBlock (cps_map s) b = Some blk /\ clater l (cbstamp blk)) -> msgs <> [].
Proof.
  intros tf nf w C maxn l s now rnow whole ord z ms b HC [Htf Hnf] R Ho E Hb HW. pose proof HC as [HT Hlh]. apply Qclt_le_weak in Hlh.
  destruct (cruns_sim tf nf w C maxn l s HC (conj Htf Hnf) R) as (l' & s' & EV & R' & SR). pose proof SR as (M & L & S).
  destruct (runs_inv lf0 w C maxn l' s' HC lf0_ok R') as [G I].
  destruct (publish_inv C w maxn lf0 lf0_ok (no_prunes l') G s' now rnow whole ord HT Hlh Ho I) as (s2 & msgs2 & G' & E2 & _).
  destruct (csys_publish_sim C w maxn tf nf ord HT Htf Hnf Ho lf0 now rnow whole s s' s2 msgs2 lf0_ok SR E2) as (z' & ms' & E3 & _ & EM).
  rewrite E in E3. injection E3 as <- <-. intros K. apply EM in K. revert K.
  apply (C48_sends lf0 w C maxn l' s' now rnow whole ord s2 msgs2 b HC lf0_ok R' Ho E2).
  - rewrite <- (mrel_hasBlock C _ _ b M). exact Hb.
  - destruct HW as [HW|(blk & HW & HL)]; [left; exact HW|right]. pose proof (mrel_getBlock C _ _ b M) as X. rewrite HW in X. destruct (getBlock (ps_map s') b) as [x|]; [|contradiction].
    exists x. split; [reflexivity|]. replace (bstamp x) with (cbstamp blk) by apply X. apply (evrel_later l l' _ EV). exact HL.
Qed.

(** ** Example *)
(** Tree height 4: the trees have two levels of chunks *)
Definition cpub1 (now : Z) (whole : bool) (s : cpsys Qc) : cpsys Qc * list (mmsg Qc) :=
  match csys_publish qn 4 4096 1%Qc ex26C 1 now now whole (fun l => l) s with Some r => r | None => (s, []) end.
Definition csub_reads (s : cpsys Qc) (c : idx3) : Qc := match cps_sub s with Some (_, C, m) => hw_get qn C m c | None => 0%Qc end.
Definition exCP1 : cpsys Qc := fst (cpub1 3 false (CPS (hc_apply 4 ex26C (hc_apply 4 ex26C [] (1, HAdd (I3 1 1 1) (Q2Qc 1))) (2, HAdd (I3 19 19 19) (- Q2Qc 1)%Qc)) 0 None)).
Definition exCP : cpsys Qc := CPS (hc_apply 4 ex26C (cps_map exCP1) (4, HAdd (I3 19 19 19) (Q2Qc (1 # 2)))) (cps_last exCP1) (cps_sub exCP1).
Definition exCPl : list cevent := [CCall 1 (HAdd (I3 1 1 1) (Q2Qc 1)); CCall 2 (HAdd (I3 19 19 19) (- Q2Qc 1)%Qc); CPublish 3 3 false; CCall 4 (HAdd (I3 19 19 19) (Q2Qc (1 # 2)))].
Lemma ex26C_valid : valid_config ex26C. Proof. split; [cbn; lia|reflexivity]. Qed.
Lemma ex26_fuel : enough_cfuel ex26C 4 4096. Proof. split; cbn [ex26C cT]; lia. Qed.
Lemma cpub1_eq l s now whole : cruns 4 4096 1%Qc ex26C 1 l s -> cps_map s <> [] -> csys_publish qn 4 4096 1%Qc ex26C 1 now now whole (fun l => l) s = Some (cpub1 now whole s).
Proof.
  intros R NE. unfold cpub1. destruct (C48_chunked_sync 4 4096 1%Qc ex26C 1 l s now now whole (fun l => l) ex26C_valid ex26_fuel R id_order NE) as (s' & msgs & sub & g & E & _).
  rewrite E. reflexivity.
Qed.
Lemma exCP_runs : cruns 4 4096 1%Qc ex26C 1 exCPl exCP.
Proof.
  assert (R2 : cruns 4 4096 1%Qc ex26C 1 [CCall 1 (HAdd (I3 1 1 1) (Q2Qc 1)); CCall 2 (HAdd (I3 19 19 19) (- Q2Qc 1)%Qc)]
    (CPS (hc_apply 4 ex26C (hc_apply 4 ex26C [] (1, HAdd (I3 1 1 1) (Q2Qc 1))) (2, HAdd (I3 19 19 19) (- Q2Qc 1)%Qc)) 0 None)).
  { apply (crun_call _ _ _ _ _ [CCall 1 (HAdd (I3 1 1 1) (Q2Qc 1))]); [apply (crun_call _ _ _ _ _ []); [constructor|split; [lia|intros ? ? ? []]]|].
    split; [lia|]. intros ? ? ? [K|[]]. discriminate K. }
  assert (R3 : cruns 4 4096 1%Qc ex26C 1 [CCall 1 (HAdd (I3 1 1 1) (Q2Qc 1)); CCall 2 (HAdd (I3 19 19 19) (- Q2Qc 1)%Qc); CPublish 3 3 false] exCP1).
  { eapply (crun_publish _ _ _ _ _ [CCall 1 (HAdd (I3 1 1 1) (Q2Qc 1)); CCall 2 (HAdd (I3 19 19 19) (- Q2Qc 1)%Qc)] _ 3 3 false (fun l => l)); [exact R2|exact id_order|]. rewrite (cpub1_eq _ _ 3 false R2); [apply f_equal; apply surjective_pairing|]. discriminate. }
  unfold exCPl, exCP. destruct exCP1 as [m last sub]. cbn [cps_map cps_last cps_sub].
  apply (crun_call _ _ _ _ _ [CCall 1 (HAdd (I3 1 1 1) (Q2Qc 1)); CCall 2 (HAdd (I3 19 19 19) (- Q2Qc 1)%Qc); CPublish 3 3 false]); [exact R3|].
  split; [lia|]. intros ? ? ? [K|[K|[K|[]]]]; try discriminate K. injection K as <- <- <-. lia.
Qed.
(** The second publication sends one message with one block, and the subscriber then reads -1/2 and 1. *)
Example C48_chunked_ex : cruns 4 4096 1%Qc ex26C 1 exCPl exCP /\ cps_map exCP <> [] /\ length (snd (cpub1 5 false exCP)) = 1%nat /\ csub_reads exCP (I3 19 19 19) = (- Q2Qc 1)%Qc /\ csub_reads (fst (cpub1 5 false exCP)) (I3 19 19 19) = (- Q2Qc (1 # 2))%Qc /\
  csub_reads (fst (cpub1 5 false exCP)) (I3 1 1 1) = Q2Qc 1.
Proof.
  split; [exact exCP_runs|]. split; [vm_compute; discriminate|]. split; [vm_compute; reflexivity|]. split; [|split]; apply Qc_is_canon; vm_compute; reflexivity.
Qed.
Print Assumptions C48_chunked_sync.
Print Assumptions C48_chunked_no_other_blocks_partial.
Print Assumptions C48_chunked_sends.
