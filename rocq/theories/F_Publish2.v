(** The publication loop and the state of the subscriber *)
From Verif Require Import Base M_IntMath F_IntMath M_NdtreeIndex M_Num F_Num M_Haar F_Haar M_Haar3 F_Haar3 M_Ndtree S_Field F_Hash M_Wavelet
  F_Wavelet F_Wavelet2 F_Leaves F_WavTree F_WavMap F_WavHash M_WavHist F_WavHist M_HashedBlocks M_Octree F_Octree M_Subtree P_Subtree
  M_Stream F_Stream F_Stream2 M_Publish F_Publish.
From Coq Require Import QArith Qcanon Qcabs Lqa Permutation.
Close Scope Qc_scope. Close Scope Q_scope. Open Scope Z_scope.

Lemma keys_setBlock {B} (m : shash B) i b : hasBlock m i = true -> keys (setBlock m i b) = keys m.
Proof.
  unfold hasBlock. induction m as [|[k b'] m IH]; cbn [getBlock]; [discriminate|]. cbn [setBlock]. destruct (ieqb_spec k i) as [->|]; [reflexivity|].
  intros H. unfold keys in *. cbn [map fst]. rewrite IH by exact H. reflexivity.
Qed.
Lemma has_of_keys {B} (m m' : shash B) i : keys m = keys m' -> hasBlock m i = hasBlock m' i.
Proof.
  intros E. pose proof (hasBlock_keys m i) as H. pose proof (hasBlock_keys m' i) as H'. rewrite E in H.
  destruct (hasBlock m i), (hasBlock m' i); try reflexivity; [symmetry; apply H'; apply H; reflexivity|apply H; apply H'; reflexivity].
Qed.
Definition memb (i : idx3) (l : list idx3) : bool := existsb (ieqb i) l.
Lemma memb_iff i l : memb i l = true <-> In i l.
Proof.
  unfold memb. rewrite existsb_exists. split; [intros (j & H & E); apply ieqb_iff in E; subst; exact H|]. intros H. exists i. split; [exact H|apply ieqb_refl].
Qed.
Lemma memb_false i l : memb i l = false <-> ~ In i l.
Proof. rewrite <- memb_iff. destruct (memb i l); split; congruence. Qed.
Lemma memb_ext i l l' : (In i l <-> In i l') -> memb i l = memb i l'.
Proof.
  intros H. pose proof (memb_iff i l) as A. pose proof (memb_iff i l') as B. destruct (memb i l), (memb i l'); try reflexivity.
  - symmetry. apply B, H, A. reflexivity.
  - apply A, H, B. reflexivity.
Qed.
Lemma NoDup_app_iff {A} (l l' : list A) : NoDup (l ++ l') <-> NoDup l /\ NoDup l' /\ forall x, In x l -> ~ In x l'.
Proof.
  induction l as [|a l IH]; cbn [app].
  - split; [intros H; split; [constructor|split; [exact H|intros x []]]|intros (_ & H & _); exact H].
  - rewrite !NoDup_cons_iff, IH, in_app_iff. split.
    + intros (H1 & H2 & H3 & H4). split; [tauto|]. split; [exact H3|]. intros x [<-|Hx]; [tauto|apply H4; exact Hx].
    + intros ((H1 & H2) & H3 & H4). split; [intros [H|H]; [tauto|exact (H4 a (or_introl eq_refl) H)]|]. split; [exact H2|]. split; [exact H3|].
      intros x Hx. apply H4. right. exact Hx.
Qed.

Section LOOP.
Context (C : wconfig (V := Qc)) (w : Qc) (maxn : Z) (lf : wblock (V := Qc) -> nat) (ord : list idx3 -> list idx3).
Context (Hlf : forall b, (nsize (wroot (btree b)) <= lf b)%nat) (Hord : forall l, Permutation (ord l) l).
Notation thr := (wb_threshold qn C).

Lemma pub_select_spec changed : forall cnt m, NoDup changed -> (forall i, In i changed -> hasBlock m i = true) ->
  exists m' sel rest, pub_select qn C maxn cnt m changed = (m', sel) /\ changed = sel ++ rest /\ (changed <> [] -> sel <> []) /\
    keys m' = keys m /\ forall i, getBlock m' i = if memb i sel then option_map thr (getBlock m i) else getBlock m i.
Proof.
  induction changed as [|i l IH]; intros cnt m Hn H; cbn [pub_select].
  - exists m, [], []. repeat split; congruence.
  - assert (Hi := H i (or_introl eq_refl)). assert (Hi' := Hi). unfold hasBlock in Hi'. destruct (getBlock m i) as [b|] eqn:E; [|discriminate].
    apply NoDup_cons_iff in Hn. destruct Hn as [Hn1 Hn2]. destruct (maxn <=? cnt + 1).
    + exists (setBlock m i (thr b)), [i], l. split; [reflexivity|]. split; [reflexivity|]. split; [discriminate|]. split; [apply keys_setBlock; exact Hi|].
      intros j. rewrite getBlock_setBlock. unfold memb. cbn [existsb]. rewrite orb_false_r, (ieqb_sym j i). destruct (ieqb_spec i j) as [<-|]; [rewrite E|]; reflexivity.
    + destruct (IH (cnt + 1) (setBlock m i (thr b)) Hn2) as (m' & sel & rest & E1 & E2 & E3 & E4 & E5).
      { intros j Hj. rewrite (has_of_keys _ m); [apply H; right; exact Hj|apply keys_setBlock; exact Hi]. }
      rewrite E1. exists m', (i :: sel), rest. split; [reflexivity|]. split; [cbn [app]; congruence|]. split; [discriminate|].
      split; [rewrite E4; apply keys_setBlock; exact Hi|]. intros j. rewrite E5, getBlock_setBlock. unfold memb. cbn [existsb]. fold (memb j sel).
      rewrite (ieqb_sym j i). destruct (ieqb_spec i j) as [<-|]; cbn [orb]; [|reflexivity].
      replace (memb i sel) with false; [rewrite E; reflexivity|]. symmetry. apply memb_false. intros K. apply Hn1. rewrite E2. apply in_or_app. left. exact K.
Qed.
Definition submap (s : subscriber Qc) : hmap (V := Qc) := match s with Some (_, _, m) => m | None => [] end.
Definition sub_ok (s : subscriber Qc) : Prop := match s with Some (w', C', m) => w' = w /\ C' = C /\ hwf m | None => True end.
Lemma veq_refl a : veq qn a a = true.
Proof. unfold veq. cbn [qn nltb]. assert (H : qltb a a = false) by (apply qltb_false; apply Qcle_refl). rewrite H. reflexivity. Qed.
Lemma recv_spec now s (mp : hmap (V := Qc)) l : sub_ok s -> (forall i, In i l -> hasBlock mp i = true) ->
  exists sm, recv qn now s (MM w C (keys mp) (map (bmsg_of qn C mp) l)) = Some (Some (w, C, sm)) /\ hwf sm /\
    forall i, match getBlock mp i with
              | None => getBlock sm i = None
              | Some b => if memb i l then exists sb, getBlock sm i = Some sb /\ btree sb = as_sent qn C (btree b) else getBlock sm i = getBlock (submap s) i
              end.
Proof.
  intros Hs Hl. unfold recv. cbn [mm_width mm_conf mm_alloc mm_blocks].
  match goal with |- context [recv_blocks qn now ?x _] => set (m0 := x) end.
  assert (M0 : hwf m0 /\ forall i, getBlock m0 i = if hasBlock mp i then getBlock (submap s) i else None).
  { subst m0. destruct s as [[[w' C'] m]|]; cbn [submap].
    - destruct Hs as (-> & -> & W). unfold conf_eq. rewrite !veq_refl, Z.eqb_refl. cbn [andb]. split; [apply eraseBlockIf_wf; exact W|].
      intros i. rewrite getBlock_eraseBlockIf by exact W. destruct (getBlock m i) as [b|]; [|destruct (hasBlock mp i); reflexivity]. cbn [fst snd].
      change (existsb (ieqb i) (keys mp)) with (memb i (keys mp)).
      replace (memb i (keys mp)) with (hasBlock mp i); [destruct (hasBlock mp i); reflexivity|].
      pose proof (hasBlock_keys mp i) as A. pose proof (memb_iff i (keys mp)) as B. destruct (hasBlock mp i), (memb i (keys mp)); try reflexivity; exfalso.
      + assert (X : false = true) by (apply B, A; reflexivity). discriminate.
      + assert (X : false = true) by (apply A, B; reflexivity). discriminate.
    - split; [constructor|]. intros i. cbn [getBlock]. destruct (hasBlock mp i); reflexivity. }
  destruct M0 as [W0 G0]. clearbody m0. destruct (recv_blocks_eq qn now C mp l m0 W0 Hl) as (sm & -> & W & E2 & E3).
  exists sm. split; [reflexivity|]. split; [exact W|]. intros i. specialize (G0 i). unfold hasBlock in G0. destruct (getBlock mp i) as [b|] eqn:E.
  - destruct (memb i l) eqn:M.
    + apply memb_iff in M. exact (E3 i b M E).
    + apply memb_false in M. rewrite E2 by exact M. exact G0.
  - rewrite E2; [exact G0|]. intros K. specialize (Hl i K). unfold hasBlock in Hl. rewrite E in Hl. discriminate.
Qed.
Lemma pub_loop_spec now : forall fuel changed m s, (length changed <= fuel)%nat -> NoDup changed -> (forall i, In i changed -> hasBlock m i = true) -> sub_ok s ->
  exists m' msgs s', pub_loop qn fuel lf ord w C maxn m changed = Some (m', msgs) /\ recv_all qn now s msgs = Some s' /\ sub_ok s' /\
    keys m' = keys m /\ (forall i, getBlock m' i = if memb i changed then option_map thr (getBlock m i) else getBlock m i) /\
    (changed = [] -> msgs = [] /\ s' = s) /\
    (changed <> [] -> msgs <> [] /\ exists sm, s' = Some (w, C, sm) /\
      forall i, match getBlock m' i with
                | None => getBlock sm i = None
                | Some b => if memb i changed then exists sb, getBlock sm i = Some sb /\ btree sb = as_sent qn C (btree b) else getBlock sm i = getBlock (submap s) i
                end).
Proof.
  induction fuel as [|fuel IH]; intros changed m s Hf Hn Hc Hs.
  { destruct changed; [|cbn [length] in Hf; lia]. exists m, [], s. repeat (split; [reflexivity || assumption|]). split; [split; reflexivity|]. congruence. }
  destruct changed as [|i0 l0] eqn:EC.
  { exists m, [], s. repeat (split; [reflexivity || assumption|]). split; [split; reflexivity|]. congruence. }
  rewrite <- EC in *. assert (NE : changed <> []) by congruence.
  destruct (pub_select_spec changed 0 m Hn Hc) as (m1 & sel & rest & E1 & E2 & E3 & E4 & E5). specialize (E3 NE).
  assert (EL : pub_loop qn (S fuel) lf ord w C maxn m changed = 
    match mapToRosMsg qn lf ord w C m1 sel with
    | None => None
    | Some msg => option_map (fun r => (fst r, msg :: snd r)) (pub_loop qn fuel lf ord w C maxn m1 (skipn (length sel) changed)) end).
  { rewrite EC at 1. cbn [pub_loop]. rewrite <- EC. rewrite E1. reflexivity. }
  rewrite EL. clear EL. rewrite (mapToRosMsg_eq qn lf Hlf).
  assert (Hsel : forall i, In i sel -> hasBlock m1 i = true).
  { intros i Hi. rewrite (has_of_keys m1 m i E4). apply Hc. rewrite E2. apply in_or_app. left. exact Hi. }
  assert (Hf1 : filter (hasBlock m1) sel = sel).
  { clear - Hsel. induction sel as [|a sel IH]; [reflexivity|]. cbn [filter]. rewrite (Hsel a (or_introl eq_refl)), IH by (intros; apply Hsel; right; assumption). reflexivity. }
  rewrite Hf1. assert (Ho : forall i, In i (ord sel) <-> In i sel).
  { intros i. split; intros H; [exact (Permutation_in _ (Hord sel) H)|exact (Permutation_in _ (Permutation_sym (Hord sel)) H)]. }
  destruct (recv_spec now s m1 (ord sel) Hs) as (sm1 & R1 & W1 & R2). { intros i Hi. apply Hsel, Ho, Hi. }
  assert (ES : skipn (length sel) changed = rest) by (rewrite E2, skipn_app, Nat.sub_diag, skipn_all; reflexivity). rewrite ES.
  rewrite E2 in Hn. apply NoDup_app_iff in Hn. destruct Hn as (N1 & N2 & N3).
  destruct (IH rest m1 (Some (w, C, sm1))) as (m' & msgs & s' & P1 & P2 & P3 & P4 & P5 & P6 & P7).
  { rewrite E2, app_length in Hf. destruct sel; [congruence|cbn [length] in Hf; lia]. }
  { exact N2. }
  { intros i Hi. rewrite (has_of_keys m1 m i E4). apply Hc. rewrite E2. apply in_or_app. right. exact Hi. }
  { repeat split. exact W1. }
  rewrite P1. exists m', (MM w C (keys m1) (map (bmsg_of qn C m1) (ord sel)) :: msgs), s'. split; [reflexivity|].
  split; [cbn [recv_all]; rewrite R1; exact P2|]. split; [exact P3|]. split; [congruence|].
  assert (EM : forall i, memb i changed = memb i sel || memb i rest).
  { intros i. rewrite E2. unfold memb. apply existsb_app. }
  assert (EB : forall i, getBlock m' i = if memb i changed then option_map thr (getBlock m i) else getBlock m i).
  { intros i. rewrite P5, E5, EM. destruct (memb i sel) eqn:M1, (memb i rest) eqn:M2; cbn [orb]; try reflexivity.
    exfalso. apply memb_iff in M1, M2. exact (N3 i M1 M2). }
  split; [exact EB|]. split; [congruence|]. intros _. split; [discriminate|].
  destruct rest as [|r0 rest0] eqn:ER.
  - destruct (P6 eq_refl) as [-> ->]. exists sm1. split; [reflexivity|]. intros i. specialize (R2 i). rewrite P5 in *. cbn [memb existsb] in *.
    destruct (getBlock m1 i); [|exact R2]. rewrite EM. cbn [memb existsb]. rewrite orb_false_r. rewrite <- (memb_ext i (ord sel) sel (Ho i)). exact R2.
  - destruct P7 as (_ & sm & -> & P8); [discriminate|]. exists sm. split; [reflexivity|]. intros i. specialize (P8 i). specialize (R2 i).
    rewrite EM. cbn [submap] in P8. rewrite P5 in *. rewrite (memb_ext i (ord sel) sel (Ho i)) in R2. destruct (memb i (r0 :: rest0)) eqn:M2.
    + destruct (getBlock m1 i) as [b|] eqn:G; cbn [option_map] in *; [|exact P8]. rewrite orb_true_r. exact P8.
    + rewrite orb_false_r. destruct (getBlock m1 i) as [b|]; [|exact P8]. destruct (memb i sel); [|rewrite P8; exact R2].
      destruct R2 as (sb & R2 & R3). exists sb. split; [rewrite P8; exact R2|exact R3].
Qed.
End LOOP.
