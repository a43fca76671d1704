(** Leaf visits of ClassifiedMap: which cells are visited. *)
From Verif Require Import Base M_IntMath F_IntMath M_Morton F_Morton M_NdtreeIndex F_NdtreeIndex M_Num F_Num M_Haar3 F_Haar3
  M_Ndtree S_Field F_Hash M_Wavelet F_Wavelet F_Wavelet2 F_Leaves F_WavTree F_WavMap F_WavHash M_Octree F_Octree M_Accel F_Accel
  M_Occupancy P_Occupancy M_Queue M_HashedBlocks M_Classified F_Classified F_Classified2 F_Classified3.
From Coq Require Import QArith Qcanon Lqa Permutation.
Close Scope Qc_scope.
Close Scope Q_scope.
Open Scope Z_scope.

(** number of visited leaves containing a cell *)
Definition times {A} (l : list (oidx * A)) (x : idx3) : nat := length (filter (fun io => in_node (fst io) x) l).
Lemma times_app {A} (a b : list (oidx * A)) x : times (a ++ b) x = (times a x + times b x)%nat.
Proof. unfold times. rewrite filter_app, app_length. reflexivity. Qed.
Lemma times_perm {A} (a b : list (oidx * A)) x : Permutation a b -> times a x = times b x.
Proof.
  induction 1 as [|e a b _ IH|e e' a|a b c _ IH1 _ IH2]; [reflexivity| | |congruence].
  - change (e :: a) with ([e] ++ a). change (e :: b) with ([e] ++ b). rewrite !times_app. congruence.
  - change (e :: e' :: a) with ([e] ++ [e'] ++ a). change (e' :: e :: a) with ([e'] ++ [e] ++ a). rewrite !times_app. lia.
Qed.
Lemma times_flat_0 {A B} (g : B -> list (oidx * A)) cs x : (forall c, In c cs -> times (g c) x = O) -> times (flat_map g cs) x = O.
Proof.
  induction cs as [|c cs IH]; intros H; [reflexivity|]. cbn [flat_map]. rewrite times_app, (H c), IH; [reflexivity|intros; apply H; right; assumption|left; reflexivity].
Qed.
Lemma times_flat_1 {A B} (g : B -> list (oidx * A)) cs c0 x : NoDup cs -> In c0 cs -> (forall c, In c cs -> c <> c0 -> times (g c) x = O) ->
  times (flat_map g cs) x = times (g c0) x.
Proof.
  induction cs as [|c cs IH]; intros ND Hin H; [destruct Hin|]. cbn [flat_map]. rewrite times_app. inversion ND; subst. destruct Hin as [->|Hin].
  - rewrite times_flat_0; [lia|]. intros c Hc. apply H; [right; assumption|intros ->; contradiction].
  - rewrite (H c); [|left; reflexivity|intros ->; contradiction]. apply IH; [assumption|assumption|]. intros d Hd. apply H. right. assumption.
Qed.
Lemma in_node_covers3 i x : 0 <= oh i -> (in_node i x = true <-> covers3 i x).
Proof. intros H. rewrite in_node_covers3b by assumption. apply covers3b_iff. Qed.
Lemma times_one {A} i (a : A) x : 0 <= oh i -> covers3 i x -> times [(i, a)] x = 1%nat.
Proof. intros H Hx. apply in_node_covers3 in Hx; [|assumption]. unfold times. cbn. rewrite Hx. reflexivity. Qed.
Lemma times_none {A} i (a : A) x : 0 <= oh i -> ~ covers3 i x -> times [(i, a)] x = O.
Proof. intros H Hx. rewrite <- in_node_covers3 in Hx by assumption. unfold times. cbn. destruct (in_node i x); [contradiction|reflexivity]. Qed.

Lemma summary_pos f strict idx n : summary f strict idx n -> 1 <= oh idx.
Proof. unfold summary. destruct (Z.to_nat (oh idx)) eqn:E; [intros []|lia]. Qed.
Section LV.
Context (f : idx3 -> oclass) (strict : bool).
Context (action : oidx -> cnode -> Z -> act).
Context (Hpush : forall idx n c ch, action idx n c = Push ch -> getChild n c = Some ch).
Context (Hok : forall idx n c ch, summary f strict idx n -> 1 <= oh idx -> 0 <= c < 8 -> action idx n c = Push ch -> summary f strict (ochild idx c) ch).
(** [leaf io]: what is true of every visited leaf; [must x]: the cell must be visited *)
Context (leaf : oidx * Z -> Prop) (must : idx3 -> Prop).
Context (Hemit : forall idx n c, summary f strict idx n -> 0 <= c < 8 -> action idx n c = Emit -> leaf (ochild idx c, cd_child (ndata n) c)).
Context (Hskip : forall idx n c x, summary f strict idx n -> 0 <= c < 8 -> action idx n c = Skip -> covers3 (ochild idx c) x -> ~ must x).
Lemma lv_spec k : forall idx n, oh idx = Z.of_nat k -> summary f strict idx n ->
  Forall leaf (lv action k idx n) /\ (forall x, ~ covers3 idx x -> times (lv action k idx n) x = O) /\
  (forall x, covers3 idx x -> (times (lv action k idx n) x <= 1)%nat /\ (must x -> times (lv action k idx n) x = 1%nat)).
Proof.
  induction k as [|k IH]; intros idx n Hh HS; [pose proof (summary_pos _ _ _ _ HS); lia|]. cbn [lv].
  set (g := fun c => match action idx n c with Skip => [] | Emit => [(ochild idx c, cd_child (ndata n) c)] | Push ch => lv action k (ochild idx c) ch end).
  assert (SUB : forall c ch, 0 <= c < 8 -> action idx n c = Push ch -> summary f strict (ochild idx c) ch) by (intros; apply (Hok idx n); try assumption; lia).
  assert (Z0 : forall c x, 0 <= c < 8 -> ~ covers3 (ochild idx c) x -> times (g c) x = O).
  { intros c x Hc Hx. unfold g. destruct (action idx n c) as [| |ch] eqn:Ea; [reflexivity|apply times_none; [cbn; lia|assumption]|].
    apply (IH (ochild idx c) ch); [cbn; lia|apply SUB; assumption|assumption]. }
  split; [|split].
  - apply Forall_forall. intros io Hio. apply in_flat_map in Hio. destruct Hio as (c & Hc & Hio). apply in_child_ids in Hc. unfold g in Hio.
    destruct (action idx n c) as [| |ch] eqn:Ea; [destruct Hio|destruct Hio as [<-|[]]; apply Hemit; assumption|].
    assert (X : oh (ochild idx c) = Z.of_nat k) by (cbn; lia).
    destruct (IH (ochild idx c) ch X (SUB c ch Hc Ea)) as [I1 _]. rewrite Forall_forall in I1. apply I1. assumption.
  - intros x Hx. apply times_flat_0. intros c Hc. apply in_child_ids in Hc. apply Z0; [assumption|]. rewrite covers3_child by (lia || assumption). tauto.
  - intros x Hx. pose proof (cidx_range x (oh idx - 1)) as Hc0. set (c0 := cidx x (oh idx - 1)) in *.
    assert (E : times (flat_map g child_ids) x = times (g c0) x).
    { apply times_flat_1; [apply child_ids_nodup|apply in_child_ids; assumption|]. intros c Hc Hne. apply in_child_ids in Hc. apply Z0; [assumption|].
      rewrite covers3_child by (lia || assumption). intros [_ E]. fold c0 in E. congruence. }
    rewrite E. assert (Hx0 : covers3 (ochild idx c0) x) by (rewrite covers3_child by (lia || assumption); auto).
    unfold g. destruct (action idx n c0) as [| |ch] eqn:Ea.
    + split; [cbn; lia|]. intros Hm. exfalso. exact (Hskip idx n c0 x HS Hc0 Ea Hx0 Hm).
    + rewrite times_one by (cbn; lia || assumption). split; [lia|reflexivity].
    + apply IH; [cbn; lia|apply SUB; assumption|assumption].
Qed.

(** The whole map *)
Context {V : Type} (C : wconfig (V := V)) (cm : shash cnode).
Notation T := (cT C).
Context (HT : 0 <= T) (Hwf : hwf cm) (HR : roots_ok C (summary f strict) cm).
Context (visit : oidx -> cnode -> list (oidx * cnode) * list (oidx * Z) -> Z -> list (oidx * cnode) * list (oidx * Z)).
Context (Hvisit : forall idx n sa c, visit idx n sa c = match action idx n c with
  | Skip => sa
  | Emit => (fst sa, (ochild idx c, cd_child (ndata n) c) :: snd sa)
  | Push ch => ((ochild idx c, ch) :: fst sa, snd sa)
  end).
Lemma opt_concat_perm {A} (fl : idx3 * cnode -> option (list A)) g (m : shash cnode) l : opt_concat (map fl m) = Some l ->
  (forall kb l', In kb m -> fl kb = Some l' -> Permutation l' (g kb)) -> Permutation l (flat_map g m).
Proof.
  revert l. induction m as [|kb m IH]; intros l H HG; cbn [map opt_concat flat_map] in *; [injection H as <-; constructor|].
  destruct (fl kb) as [a|] eqn:E; [|discriminate]. destruct (opt_concat (map fl m)) as [r|]; [|discriminate]. injection H as <-.
  apply Permutation_app; [apply HG; [left; reflexivity|assumption]|]. apply IH; [reflexivity|]. intros; apply HG; [right; assumption|assumption].
Qed.
Lemma visit_map_spec fuel l : cm_visit C visit fuel cm = Some l ->
  Forall leaf l /\
  (forall x, hasBlock cm (imap (fun c => c / 2 ^ T) x) = false -> times l x = O) /\
  (forall x, hasBlock cm (imap (fun c => c / 2 ^ T) x) = true -> (times l x <= 1)%nat /\ (must x -> times l x = 1%nat)).
Proof.
  intros H. apply opt_concat_perm with (g := fun kb => lvs action (OI T (fst kb), snd kb)) in H.
  2:{ intros [b r] l' Hin E. cbn [fst snd] in *. apply (loop_perm visit action Hvisit Hpush (summary f strict)) in E.
      - cbn [app flat_map] in E. rewrite app_nil_r in E. exact E.
      - intros idx n c ch HS Hc Ha. apply (Hok idx n); [assumption|apply (summary_pos f strict idx n); assumption|assumption|assumption].
      - intros idx n. apply summary_pos.
      - constructor; [|constructor]. cbn [fst snd]. apply HR. apply In_getBlock; assumption. }
  assert (SPEC : forall b r, In (b, r) cm -> Forall leaf (lvs action (OI T b, r)) /\
     (forall x, ~ covers3 (OI T b) x -> times (lvs action (OI T b, r)) x = O) /\
     (forall x, covers3 (OI T b) x -> (times (lvs action (OI T b, r)) x <= 1)%nat /\ (must x -> times (lvs action (OI T b, r)) x = 1%nat))).
  { intros b r Hin. unfold lvs. cbn [fst snd oh]. apply lv_spec; [cbn; lia|]. apply HR. apply In_getBlock; assumption. }
  split; [|split].
  - apply Forall_forall. intros io Hio. apply (Permutation_in _ H) in Hio. apply in_flat_map in Hio. destruct Hio as ([b r] & Hin & Hio).
    cbn [fst snd] in Hio. destruct (SPEC b r Hin) as [S1 _]. rewrite Forall_forall in S1. apply S1. assumption.
  - intros x Hx. rewrite (times_perm _ _ _ H). apply times_flat_0. intros [b r] Hin. cbn [fst snd]. apply (SPEC b r Hin).
    intros Hc. unfold covers3 in Hc. cbn [oh opos] in Hc. subst b. assert (X : hasBlock cm (imap (fun c => c / 2 ^ T) x) = true).
    { apply hasBlock_keys. change (imap (fun c => c / 2 ^ T) x) with (fst (imap (fun c => c / 2 ^ T) x, r)). apply in_map. assumption. }
    congruence.
  - intros x Hx. rewrite (times_perm _ _ _ H). unfold hasBlock in Hx. destruct (getBlock cm _) as [r|] eqn:Eb; [|discriminate]. apply getBlock_In in Eb.
    rewrite (times_flat_1 _ cm (imap (fun c => c / 2 ^ T) x, r)).
    + cbn [fst snd]. apply (SPEC _ _ Eb). reflexivity.
    + apply (NoDup_map_inv fst). exact Hwf.
    + assumption.
    + intros [b r'] Hin Hne. cbn [fst snd]. apply (SPEC _ _ Hin). intros Hc. unfold covers3 in Hc. cbn [oh opos] in Hc. subst b.
      apply Hne. f_equal. apply In_getBlock in Hin; [|assumption]. apply In_getBlock in Eb; [|assumption]. congruence.
Qed.
Lemma visit_map_total fuel : (forall b r, In (b, r) cm -> (nsize r <= fuel)%nat) -> exists l, cm_visit C visit fuel cm = Some l.
Proof.
  clear - Hvisit Hpush. unfold cm_visit. induction cm as [|[b r] m IH]; intros H; cbn [map opt_concat]; [eexists; reflexivity|].
  cbn [fst snd]. destruct (loop_total visit action Hvisit Hpush (fun _ _ => False) (fun _ _ _ _ H _ _ => H) (fun _ _ H => False_ind _ H) fuel [(OI T b, r)] []) as (a & ->).
  { cbn [stack_size snd]. rewrite Nat.add_0_r. apply (H b r). left. reflexivity. }
  destruct IH as (l & ->); [intros b' r' Hin; apply (H b' r'); right; assumption|]. eexists. reflexivity.
Qed.
End LV.
(** The two visitors *)
Definition act_leaf (th : Z) (idx : oidx) (n : cnode) (c : Z) : act :=
  match (if th <? oh (ochild idx c) then getChild n c else None) with Some ch => Push ch | None => Emit end.
Definition act_match (mask th : Z) (idx : oidx) (n : cnode) (c : Z) : act :=
  if negb (oc_has (cd_child (ndata n) c) mask) then Skip
  else if oc_isFully (cd_child (ndata n) c) mask || (oh (ochild idx c) <=? th) then Emit
  else match getChild n c with Some ch => Push ch | None => Skip end.
Lemma cf_child_act th idx n sa c : cf_child th idx n sa c = match act_leaf th idx n c with
  | Skip => sa | Emit => (fst sa, (ochild idx c, cd_child (ndata n) c) :: snd sa) | Push ch => ((ochild idx c, ch) :: fst sa, snd sa) end.
Proof. unfold cf_child, act_leaf. destruct (_ <? _); [destruct (getChild n c)|]; reflexivity. Qed.
Lemma cfm_child_act mask th idx n sa c : cfm_child mask th idx n sa c = match act_match mask th idx n c with
  | Skip => sa | Emit => (fst sa, (ochild idx c, cd_child (ndata n) c) :: snd sa) | Push ch => ((ochild idx c, ch) :: fst sa, snd sa) end.
Proof. unfold cfm_child, act_match. destruct (negb _); [reflexivity|]. destruct (_ || _); [reflexivity|]. destruct (getChild n c); reflexivity. Qed.
Lemma act_leaf_push th idx n c ch : act_leaf th idx n c = Push ch -> getChild n c = Some ch.
Proof. unfold act_leaf. destruct (_ <? _); [|discriminate]. destruct (getChild n c); [|discriminate]. congruence. Qed.
Lemma act_match_push mask th idx n c ch : act_match mask th idx n c = Push ch -> getChild n c = Some ch.
Proof. unfold act_match. destruct (negb _); [discriminate|]. destruct (_ || _); [discriminate|]. destruct (getChild n c); [|discriminate]. congruence. Qed.

Section SPECS.
Context (f : idx3 -> oclass).
(** the mask lists the classes of the cells of the leaf *)
Definition mask_ok (io : oidx * Z) : Prop := 0 <= oh (fst io) /\ forall cl, in_mask (snd io) cl <-> exists x, covers3 (fst io) x /\ f x = cl.
Lemma summary_bits strict idx n c cl : summary f strict idx n -> 0 <= c < 8 ->
  (in_mask (cd_child (ndata n) c) cl <-> exists x, covers3 (ochild idx c) x /\ f x = cl).
Proof.
  intros HS Hc. pose proof (summary_pos _ _ _ _ HS) as Hh. apply (child_bits (summary f strict) f strict); try assumption. apply summary_summ.
Qed.
Lemma summary_mask_ok strict idx n c : summary f strict idx n -> 0 <= c < 8 -> mask_ok (ochild idx c, cd_child (ndata n) c).
Proof.
  intros HS Hc. pose proof (summary_pos _ _ _ _ HS) as Hh. split; [cbn; lia|]. intros cl. cbn [fst snd]. apply (summary_bits strict); assumption.
Qed.
Lemma summary_no_child strict idx n c : summary f strict idx n -> 0 <= c < 8 -> getChild n c = None -> homog f (ochild idx c).
Proof.
  intros HS Hc E. unfold summary in HS. destruct (Z.to_nat (oh idx)); [destruct HS|]. destruct HS as [_ HS]. destruct (HS c Hc) as [_ H].
  rewrite E in H. exact H.
Qed.
Definition leaf_leaf (th : Z) (io : oidx * Z) : Prop := mask_ok io /\ (th < oh (fst io) -> homog f (fst io)).
Definition leaf_match (mask th : Z) (io : oidx * Z) : Prop :=
  mask_ok io /\ (exists x, covers3 (fst io) x /\ in_mask mask (f x)) /\ (th < oh (fst io) -> forall x, covers3 (fst io) x -> in_mask mask (f x)).
Lemma leaf_emit th idx n c : summary f true idx n -> 0 <= c < 8 -> act_leaf th idx n c = Emit -> leaf_leaf th (ochild idx c, cd_child (ndata n) c).
Proof.
  intros HS Hc Ha. split; [apply (summary_mask_ok true); assumption|]. cbn [fst]. intros Ht. unfold act_leaf in Ha.
  replace (th <? oh (ochild idx c)) with true in Ha by (symmetry; apply Z.ltb_lt; assumption).
  destruct (getChild n c) eqn:E; [discriminate|]. apply (summary_no_child true idx n); assumption.
Qed.
Lemma match_emit strict mask th idx n c : summary f strict idx n -> 0 <= c < 8 -> act_match mask th idx n c = Emit ->
  leaf_match mask th (ochild idx c, cd_child (ndata n) c).
Proof.
  intros HS Hc Ha. split; [apply (summary_mask_ok strict); assumption|]. unfold act_match in Ha. cbn [fst].
  destruct (oc_has _ _) eqn:EH; [|discriminate]. cbn [negb] in Ha. split.
  - apply C28_has in EH; [|left; apply toMask3_range]. destruct EH as (cl & H1 & H2). apply (summary_bits strict idx n c) in H1; [|assumption|assumption].
    destruct H1 as (x & Hx & <-). exists x. auto.
  - intros Ht x Hx. destruct (oc_isFully _ _) eqn:EF.
    + apply (proj1 (C28_isFully _ _) EF). apply (summary_bits strict idx n c); [assumption|assumption|]. exists x. auto.
    + cbn [orb] in Ha. replace (oh (ochild idx c) <=? th) with false in Ha by (symmetry; apply Z.leb_gt; assumption).
      destruct (getChild n c); discriminate.
Qed.
Lemma match_skip strict mask th idx n c x : summary f strict idx n -> 0 <= c < 8 -> act_match mask th idx n c = Skip -> covers3 (ochild idx c) x ->
  ~ in_mask mask (f x).
Proof.
  intros HS Hc Ha Hx Hm. unfold act_match in Ha.
  assert (HX : in_mask (cd_child (ndata n) c) (f x)) by (apply (summary_bits strict idx n c); [assumption|assumption|exists x; auto]).
  assert (HH : oc_has (cd_child (ndata n) c) mask = true) by (apply C28_has; [left; apply toMask3_range|exists (f x); auto]).
  rewrite HH in Ha. cbn [negb] in Ha. destruct (oc_isFully _ _) eqn:EF; [discriminate|]. cbn [orb] in Ha. destruct (_ <=? _); [discriminate|].
  destruct (getChild n c) eqn:E; [discriminate|]. destruct (summary_no_child strict idx n c HS Hc E) as (cl & Hcl).
  apply not_true_iff_false in EF. apply EF. apply C28_isFully. intros cl' H'. apply (summary_bits strict idx n c) in H'; [|assumption|assumption].
  destruct H' as (y & Hy & <-). rewrite (Hcl y Hy), <- (Hcl x Hx). assumption.
Qed.
Lemma match_ok strict mask th idx n c ch : summary f strict idx n -> 1 <= oh idx -> 0 <= c < 8 -> act_match mask th idx n c = Push ch ->
  summary f strict (ochild idx c) ch.
Proof.
  intros HS Hh Hc Ha. pose proof (act_match_push _ _ _ _ _ _ Ha) as E. unfold act_match in Ha.
  destruct (oc_has _ _) eqn:EH; [|discriminate]. cbn [negb] in Ha. destruct (oc_isFully _ _) eqn:EF; [discriminate|].
  apply (summary_mixed f strict mask idx n); assumption.
Qed.
End SPECS.
