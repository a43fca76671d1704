(** * C70: map files, write errors and crashes *)
From Verif Require Import Base M_IntMath M_NdtreeIndex M_Num F_Num M_Ndtree M_HashedBlocks P_HashedBlocks M_Wavelet M_Stream F_Stream F_Stream2 F_Stream3 F_Stream4 P_Stream M_FileIO.
From Coq Require Import QArith Qcanon.
Close Scope Qc_scope. Close Scope Q_scope. Open Scope Z_scope.

Section SPEC.
Context {V : Type} (N : M_Num.num V) (enc : V -> Z) (dec : Z -> V).
Notation any := (anymap (V := V)).
(** ** Specification *)
(** The call opens the file at path [p] for writing. *)
Definition overwrites (p : path) (o : fop (V := V)) : Prop := match o with FSave _ q e => q = p /\ q <> 0 /\ e_open e = true | FLoad _ _ _ => False end.
(** The maps that are saved can be serialized (C23-C26 say which can), or are of a type that cannot be saved. *)
Definition serializable (o : fop (V := V)) : Prop := match o with FSave a _ _ => a = AnyOther \/ exists bytes, saves N enc a bytes | FLoad _ _ _ => True end.
(** Nothing goes wrong while the file is written. *)
Definition fine (r : wres) : Prop := match r with WOk _ => True | _ => False end.
Definition no_fault (e : wenv) : Prop := e_open e = true /\ Forall fine (map snd (e_writes e)) /\ fine (e_close e).
(** The program is not killed while the file is written. *)
Definition survives (r : wres) : Prop := match r with WCrash _ => False | _ => True end.
Definition no_crash (e : wenv) : Prop := Forall survives (map snd (e_writes e)) /\ survives (e_close e).
(** No write error is reported (but the program may be killed). *)
Definition no_err (r : wres) : Prop := match r with WErr _ => False | _ => True end.
Definition no_write_error (e : wenv) : Prop := Forall no_err (map snd (e_writes e)) /\ no_err (e_close e).
(** Nothing goes wrong while the file is read. *)
Definition readable (r : renv) : Prop := r_open r = true /\ r_limit r = None.

(** ** Facts *)
(** The file and the buffer together hold what was written. *)
Lemma owrites_good evs : forall l o o', owrites evs l o = inl o' -> ogood o = true -> ogood o' = true -> odisk o' ++ obuf o' = odisk o ++ obuf o ++ l.
Proof.
  assert (bad : forall evs l o o', owrites evs l o = inl o' -> ogood o = false -> ogood o' = false).
  { induction evs0 as [|[k r] evs0 IH]; intros l o o' E G.
    - cbn [owrites owrite] in E. rewrite G in E. injection E as <-. exact G.
    - cbn [owrites] in E. destruct r; cbn [owrite] in E; rewrite G in E; try discriminate E; exact (IH _ _ _ E G). }
  induction evs as [|[k r] evs IH]; intros l o o' E G G'.
  - cbn [owrites owrite] in E. rewrite G in E. injection E as <-. cbn [odisk obuf firstn skipn]. rewrite app_nil_r. reflexivity.
  - cbn [owrites] in E. destruct r; cbn [owrite] in E; rewrite G in E.
    + rewrite (IH _ _ _ E (eq_refl true) G'). cbn [odisk obuf]. rewrite <- !app_assoc. f_equal. rewrite app_assoc, firstn_skipn, <- app_assoc, firstn_skipn. reflexivity.
    + exfalso. rewrite (bad _ _ _ _ E (eq_refl false)) in G'. discriminate.
    + discriminate.
Qed.
(** If the program is killed, the file holds the first part of what was written, unless an error had occurred before. *)
Lemma owrites_crash evs : forall l o c, owrites evs l o = inr c -> ogood o = true ->
  (exists n, c = odisk o ++ firstn n (obuf o ++ l)) \/ ~ Forall no_err (map snd evs).
Proof.
  induction evs as [|[k r] evs IH]; intros l o c E G.
  - discriminate E.
  - cbn [owrites] in E. destruct r as [n|x|n]; cbn [owrite] in E; rewrite G in E.
    + destruct (IH _ _ _ E (eq_refl true)) as [[n' ->]|K].
      * left. cbn [odisk obuf].
        exists (length (firstn n (obuf o ++ firstn k l)) + n')%nat. rewrite <- app_assoc. f_equal.
        assert (X : obuf o ++ l = firstn n (obuf o ++ firstn k l) ++ skipn n (obuf o ++ firstn k l) ++ skipn k l).
        { rewrite app_assoc, firstn_skipn, <- app_assoc, firstn_skipn. reflexivity. }
        rewrite X, firstn_app_2. reflexivity.
      * right. intros F. inversion F; subst. contradiction.
    + right. intros F. inversion F; subst. contradiction.
    + injection E as <-. left. exists (min n (length (obuf o ++ firstn k l))). f_equal.
      assert (X : obuf o ++ l = (obuf o ++ firstn k l) ++ skipn k l) by (rewrite <- app_assoc, firstn_skipn; reflexivity).
      rewrite X. generalize (obuf o ++ firstn k l) (skipn k l). intros u v. rewrite firstn_app.
      replace (min n (length u) - length u)%nat with 0%nat by lia. cbn [firstn]. rewrite app_nil_r. destruct (Nat.le_gt_cases n (length u)) as [L|L].
      * rewrite Nat.min_l by exact L. reflexivity.
      * rewrite Nat.min_r by lia. rewrite firstn_all. apply firstn_all2. lia.
Qed.
Lemma owrites_fine evs : forall l o, Forall fine (map snd evs) -> ogood o = true -> exists o', owrites evs l o = inl o' /\ ogood o' = true.
Proof.
  induction evs as [|[k r] evs IH]; intros l o F G.
  - cbn [owrites owrite]. rewrite G. eexists. split; reflexivity.
  - inversion F as [|? ? F1 F2]; subst. cbn [snd] in F1. destruct r; try contradiction. cbn [owrites owrite]. rewrite G. apply IH; [exact F2|reflexivity].
Qed.
Lemma owrites_survive evs : forall l o, Forall survives (map snd evs) -> exists o', owrites evs l o = inl o'.
Proof.
  induction evs as [|[k r] evs IH]; intros l o F.
  - cbn [owrites owrite]. eexists. reflexivity.
  - inversion F as [|? ? F1 F2]; subst. cbn [snd] in F1. destruct r; try contradiction; cbn [owrites owrite]; apply IH; exact F2.
Qed.
(** Calls that do not open the file do not change it. *)
Lemma fstep_other fuel o d x d' q : fstep N enc dec fuel o d = Some (x, d') -> ~ overwrites q o -> d' q = d q.
Proof.
  destruct o as [a p e|now p r]; cbn [fstep overwrites]; intros E H.
  - assert (P : p = q -> p <> 0 -> e_open e = true -> False) by tauto.
    assert (U : forall l, (p =? 0) = false -> negb (e_open e) = false -> fs_put d p l q = d q).
    { intros l P0 O. unfold fs_put. destruct (Z.eqb_spec q p) as [->|]; [|reflexivity]. exfalso. apply P; [reflexivity|lia|destruct (e_open e); [reflexivity|discriminate]]. }
    unfold mapToFile in E. destruct (p =? 0) eqn:P0; [injection E as <- <-; reflexivity|]. destruct (negb (e_open e)) eqn:O; [injection E as <- <-; reflexivity|].
    destruct (map_save _ _ _ _) as [| |l]; [discriminate|injection E as <- <-; apply U; reflexivity|].
    destruct (owrites _ _ _) as [o|c]; [|injection E as <- <-; apply U; reflexivity].
    destruct (negb (ogood o)); [injection E as <- <-; apply U; reflexivity|].
    destruct (oclose _ _) as [o'|c]; injection E as <- <-; apply U; reflexivity.
  - destruct (fileToMap _ _ _ _ _ _ _) as [[| | |m]|]; try discriminate; injection E as <- <-; reflexivity.
Qed.
Lemma frun_other fuel ops : forall d l d' q, frun N enc dec fuel ops d = Some (l, d') -> Forall (fun o => ~ overwrites q o) ops -> d' q = d q.
Proof.
  induction ops as [|o ops IH]; intros d l d' q E F; cbn [frun] in E.
  - injection E as <- <-. reflexivity.
  - inversion F as [|? ? F1 F2]; subst. destruct (fstep _ _ _ _ _ _) as [[x d1]|] eqn:E1; [|discriminate].
    destruct (frun _ _ _ _ _ _) as [[l2 d2]|] eqn:E2; [|discriminate]. injection E as <- <-.
    rewrite (IH _ _ _ _ E2 F2). exact (fstep_other _ _ _ _ _ _ E1 F1).
Qed.
(** Every call terminates, with a result that does not depend on the fuel. *)
Lemma fstep_total o d : serializable o -> exists x d' f0, forall f, (f0 <= f)%nat -> fstep N enc dec f o d = Some (x, d').
Proof.
  destruct o as [a p e|now p r]; cbn [serializable fstep].
  - intros H. unfold mapToFile. destruct (p =? 0); [do 2 eexists; exists 0%nat; intros; reflexivity|]. destruct (negb (e_open e)); [do 2 eexists; exists 0%nat; intros; reflexivity|].
    destruct H as [->|(bytes & f0 & H)]; [do 2 eexists; exists 0%nat; intros; reflexivity|].
    assert (X : exists x d', forall f, (f0 <= f)%nat -> match match map_save N enc f a with
        | SFuel => None | SFalse => Some (Returned false (fs_put d p []))
        | STrue l => match owrites (e_writes e) l (OF [] [] true) with
               | inr c => Some (Crashed (fs_put d p c))
               | inl o => if negb (ogood o) then Some (Returned false (fs_put d p (odisk o))) else
                          match oclose (e_close e) o with
                          | inr c => Some (Crashed (fs_put d p c))
                          | inl o' => Some (Returned (ogood o') (fs_put d p (odisk o')))
                          end
               end end with None => None | Some (Returned b d') => Some (ASaved b, d') | Some (Crashed d') => Some (ACrashed, d') end = Some (x : fans (V := V), d')).
    { destruct (owrites (e_writes e) bytes (OF [] [] true)) as [o|c] eqn:EO.
      - destruct (negb (ogood o)) eqn:EG.
        + do 2 eexists. intros f Hf. rewrite (H f Hf), EO, EG. reflexivity.
        + destruct (oclose (e_close e) o) as [o'|c] eqn:EC; do 2 eexists; intros f Hf; rewrite (H f Hf), EO, EG, EC; reflexivity.
      - do 2 eexists. intros f Hf. rewrite (H f Hf), EO. reflexivity. }
    destruct X as (x & d' & X). exists x, d', f0. exact X.
  - intros _. unfold fileToMap. destruct (p =? 0); [do 2 eexists; exists 0%nat; intros; reflexivity|]. destruct (negb (r_open r)); [do 2 eexists; exists 0%nat; intros; reflexivity|].
    destruct (d p) as [l|]; [|do 2 eexists; exists 0%nat; intros; reflexivity].
    set (b := match r_limit r with Some n => firstn n l | None => l end).
    set (f0 := (9 * length b + 10)%nat). pose proof (C27_terminates N enc dec b true now f0 (le_n _)) as T.
    assert (X : exists x d', forall f, (f0 <= f)%nat -> match match map_load N dec f now (IS b true) with
      | LFuel => None | LAbort => Some LdAbort | LKept => Some LdKept | LNull => Some LdNull | LOk m _ => Some (LdTrue m) end with
      | None => None | Some LdAbort => Some (AAborted, d) | Some LdKept | Some LdNull => Some (ANotLoaded, d) | Some (LdTrue m) => Some (ALoaded m, d) end = Some (x : fans (V := V), d')).
    { destruct (map_load N dec f0 now (IS b true)) as [| | | |m s] eqn:EL; [contradiction|..];
        do 2 eexists; intros f Hf; rewrite (load_mono N enc dec f0 now _ f) by (rewrite ?EL; [discriminate|exact Hf] || (rewrite EL; discriminate) || exact Hf); rewrite EL; reflexivity. }
    destruct X as (x & d' & X). exists x, d', f0. exact X.
Qed.
Lemma frun_total ops : forall d, Forall serializable ops -> exists l d' f0, length l = length ops /\ forall f, (f0 <= f)%nat -> frun N enc dec f ops d = Some (l, d').
Proof.
  induction ops as [|o ops IH]; intros d F.
  - exists [], d, 0%nat. split; reflexivity.
  - inversion F as [|? ? F1 F2]; subst. destruct (fstep_total o d F1) as (x & d1 & f1 & E1). destruct (IH d1 F2) as (l & d2 & f2 & L & E2).
    exists (x :: l), d2, (max f1 f2). split; [cbn [length]; lia|]. intros f Hf. cbn [frun]. rewrite E1, E2 by lia. reflexivity.
Qed.
Lemma frun_app fuel ops1 ops2 : forall d, frun N enc dec fuel (ops1 ++ ops2) d =
  match frun N enc dec fuel ops1 d with
  | None => None
  | Some (l1, d1) => match frun N enc dec fuel ops2 d1 with None => None | Some (l2, d2) => Some (l1 ++ l2, d2) end
  end.
Proof.
  induction ops1 as [|o ops1 IH]; intros d; cbn [app frun].
  - destruct (frun _ _ _ _ ops2 d) as [[l2 d2]|]; reflexivity.
  - destruct (fstep _ _ _ _ _ _) as [[x d1]|]; [|reflexivity]. rewrite IH. destruct (frun _ _ _ _ ops1 d1) as [[l1 d2]|]; [|reflexivity].
    destruct (frun _ _ _ _ ops2 d2) as [[l2 d3]|]; reflexivity.
Qed.
(** What a save leaves in the file *)
Lemma save_content a p e d bytes f0 x d' : p <> 0 -> e_open e = true -> (forall f, (f0 <= f)%nat -> map_save N enc f a = STrue bytes) -> fstep N enc dec f0 (FSave a p e) d = Some (x, d') ->
  (x = ASaved true -> d' p = Some bytes) /\ (no_write_error e -> exists n, d' p = Some (firstn n bytes)) /\
  (no_fault e -> x = ASaved true) /\ (no_crash e -> exists b, x = ASaved b) /\ ((exists b, x = ASaved b) \/ x = ACrashed).
Proof.
  intros Hp Ho HS E. cbn [fstep] in E. unfold mapToFile in E. destruct (Z.eqb_spec p 0) as [K|_]; [contradiction|]. rewrite Ho in E. cbn [negb] in E. rewrite (HS f0 (le_n _)) in E.
  assert (PP : forall l, fs_put d p l p = Some l) by (intros l; unfold fs_put; rewrite Z.eqb_refl; reflexivity).
  assert (FN : forall evs, Forall fine evs -> Forall survives evs).
  { intros evs. apply Forall_impl. intros []; cbn; tauto. }
  destruct (owrites (e_writes e) bytes (OF [] [] true)) as [o|c] eqn:EO.
  - destruct (ogood o) eqn:G; cbn [negb] in E.
    + pose proof (owrites_good _ _ _ _ EO (eq_refl true) G) as B. cbn [odisk obuf app] in B.
      destruct (e_close e) as [n|l|n] eqn:EC; cbn [oclose] in E; injection E as <- <-.
      * cbn [odisk ogood]. rewrite G, B, PP. split; [reflexivity|]. split; [intros _; exists (length bytes); rewrite firstn_all; reflexivity|]. split; [reflexivity|]. split; [intros _; eexists; reflexivity|left; eexists; reflexivity].
      * cbn [odisk ogood]. split; [discriminate|]. split; [intros [_ K]; rewrite EC in K; contradiction|]. split; [intros (_ & _ & K); rewrite EC in K; contradiction|]. split; [intros _; eexists; reflexivity|left; eexists; reflexivity].
      * split; [discriminate|]. split; [intros _; rewrite PP; exists (length (odisk o) + n)%nat; rewrite <- B, firstn_app_2; reflexivity|].
        split; [intros (_ & _ & K); rewrite EC in K; contradiction|]. split; [intros (_ & K); rewrite EC in K; contradiction|right; reflexivity].
    + injection E as <- <-. split; [discriminate|]. split.
      * intros [K _]. exfalso. assert (X : forall evs l o o', owrites evs l o = inl o' -> ogood o = true -> Forall no_err (map snd evs) -> ogood o' = true).
        { induction evs as [|[k r] evs IH]; intros l0 o0 o1 E0 G0 F0; cbn [owrites owrite] in E0.
          - rewrite G0 in E0. injection E0 as <-. reflexivity.
          - inversion F0 as [|? ? F1 F2]; subst. cbn [snd] in F1. destruct r; try contradiction; cbn [owrite] in E0; [|discriminate]. rewrite G0 in E0. exact (IH _ _ _ E0 (eq_refl true) F2). }
        rewrite (X _ _ _ _ EO (eq_refl true) K) in G. discriminate.
      * split; [|split; [intros _; eexists; reflexivity|left; eexists; reflexivity]].
        intros (_ & K & _). destruct (owrites_fine _ bytes (OF [] [] true) K (eq_refl true)) as (o' & E' & G'). rewrite EO in E'. injection E' as <-. rewrite G in G'. discriminate.
  - injection E as <- <-. split; [discriminate|]. split; [|split; [|split; [|right; reflexivity]]].
    + intros [K _]. destruct (owrites_crash _ _ _ _ EO (eq_refl true)) as [(n & ->)|K']; [|contradiction]. exists n. rewrite PP. reflexivity.
    + intros (_ & K & _). destruct (owrites_survive _ bytes (OF [] [] true) (FN _ K)) as (o' & E'). rewrite EO in E'. discriminate.
    + intros (K & _). destruct (owrites_survive _ bytes (OF [] [] true) K) as (o' & E'). rewrite EO in E'. discriminate.
Qed.

(** ** Property *)
(** Any sequence of calls that save and load maps, with any failures and crashes, terminates. Consider a save of [a] to [p] that opened the file,
    later calls that did not open [p] for writing, and then a load from [p]:
    - the save returns unless the program is killed, and returns true if nothing went wrong;
    - if the save returned true and the load is not disturbed, then the load returns true with the saved map (as C23-C26 describe it);
    - if the save returned true, or the program was killed at any moment of it but no write error occurred, then whatever map the load returns is the saved one. *)
Theorem C70_history : forall d0 ops1 a p e ops2 now r a',
  Forall serializable (ops1 ++ ops2) -> reloads N enc dec now a a' ->
  p <> 0 -> e_open e = true -> Forall (fun o => ~ overwrites p o) ops2 ->
  exists ans1 y ans2 x d f0,
    (forall fuel, (f0 <= fuel)%nat -> frun N enc dec fuel (ops1 ++ FSave a p e :: ops2 ++ [FLoad now p r]) d0 = Some (ans1 ++ y :: ans2 ++ [x], d)) /\
    length ans1 = length ops1 /\ length ans2 = length ops2 /\
    (y = ASaved true \/ y = ASaved false \/ y = ACrashed) /\ (no_crash e -> y <> ACrashed) /\ (no_fault e -> y = ASaved true) /\
    (y = ASaved true -> readable r -> x = ALoaded a') /\
    (y = ASaved true \/ no_write_error e -> forall m, x = ALoaded m -> m = a').
Proof.
  intros d0 ops1 a p e ops2 now r a' HF HR Hp Ho H2. apply Forall_app in HF. destruct HF as [HF1 HF2].
  destruct HR as (bytes & (fs & HS) & HL).
  destruct (frun_total ops1 d0 HF1) as (ans1 & d1 & f1 & L1 & E1).
  destruct (fstep_total (FSave a p e) d1) as (y & d2 & f2 & E2); [right; exists bytes, fs; exact HS|].
  destruct (frun_total ops2 d2 HF2) as (ans2 & d3 & f3 & L3 & E3).
  destruct (fstep_total (FLoad now p r) d3 I) as (x & d4 & f4 & E4).
  exists ans1, y, ans2, x, d4, (max (max f1 f2) (max f3 f4)). split.
  { intros f Hf. rewrite frun_app, E1 by lia. cbn [frun]. rewrite E2 by lia. rewrite frun_app, E3 by lia. cbn [frun]. rewrite E4 by lia. reflexivity. }
  split; [exact L1|]. split; [exact L3|].
  assert (HS' : forall f, (max fs f2 <= f)%nat -> map_save N enc f a = STrue bytes) by (intros f Hf; apply HS; lia).
  destruct (save_content a p e d1 bytes (max fs f2) y d2 Hp Ho HS' (E2 (max fs f2) ltac:(lia))) as (A1 & A2 & A3 & A4 & A5).
  assert (D : d3 p = d2 p) by exact (frun_other _ _ _ _ _ _ (E3 f3 (le_n _)) H2).
  split; [destruct A5 as [([|] & ->)| ->]; tauto|]. split; [intros K; destruct (A4 K) as (b & ->); discriminate|]. split; [exact A3|].
  pose proof (HL []) as (fl & HL0). rewrite app_nil_r in HL0.
  split.
  - intros Y (R1 & R2). specialize (A1 Y). rewrite <- D in A1.
    specialize (E4 (max fl f4) ltac:(lia)). cbn [fstep] in E4. unfold fileToMap in E4. destruct (Z.eqb_spec p 0); [contradiction|]. rewrite R1, A1, R2 in E4. cbn [negb] in E4.
    rewrite HL0 in E4 by lia. injection E4 as <- _. reflexivity.
  - intros Y m ->.
    assert (P : exists n, d3 p = Some (firstn n bytes)).
    { rewrite D. destruct Y as [Y|Y]; [exists (length bytes); rewrite firstn_all; exact (A1 Y)|exact (A2 Y)]. }
    destruct P as (n & P). specialize (E4 (max fl f4) ltac:(lia)). cbn [fstep] in E4. unfold fileToMap in E4. destruct (Z.eqb_spec p 0); [contradiction|].
    destruct (negb (r_open r)); [discriminate|]. rewrite P in E4.
    assert (Q : exists n', match r_limit r with Some nl => firstn nl (firstn n bytes) | None => firstn n bytes end = firstn n' bytes).
    { destruct (r_limit r) as [nl|]; [exists (min nl n); apply firstn_firstn|exists n; reflexivity]. }
    destruct Q as (n' & Q). rewrite Q in E4.
    destruct (Nat.le_gt_cases (length bytes) n') as [L|L].
    + rewrite (firstn_all2 bytes L), HL0 in E4 by lia. injection E4 as <- _. reflexivity.
    + destruct (map_load N dec (max fl f4) now (IS (firstn n' bytes) true)) as [| | | |m' s] eqn:EM; try discriminate.
      exfalso. refine (C27_truncated_not_loaded N enc dec now a a' bytes (firstn n' bytes) (skipn n' bytes) _ HL _ _ _ _ _ EM); [exists fs; exact HS|symmetry; apply firstn_skipn|].
      intros K. apply (f_equal (@length Z)) in K. rewrite skipn_length in K. cbn [length] in K. lia.
Qed.
(** Saving and loading changes no other file, and loading changes none. *)
Theorem C70_other_files : forall fuel ops d l d' q, frun N enc dec fuel ops d = Some (l, d') -> Forall (fun o => ~ overwrites q o) ops -> d' q = d q.
Proof. exact frun_other. Qed.
End SPEC.

(** ** Examples *)
Definition fx_map (k : Z) : anymap (V := Qc) := AnyHB qh ex23C (if k =? 0 then [] else hb_run qn ex23C ex23l).
Definition we_ok : wenv := WE true [(10, WOk 3); (3, WOk 0); (20, WOk 30)]%nat (WOk 0).
Definition we_full : wenv := WE true [(10, WOk 3); (10, WErr [])]%nat (WOk 0).
Definition we_killed (n : nat) : wenv := WE true [(10, WOk 3); (10, WCrash n)]%nat (WOk 0).
Definition re_ok : renv := RE true None.
Definition no_files : fs := fun _ => None.
Lemma fx_reloads k : reloads qn fx_enc fx_dec 7 (fx_map k) (fx_map k).
Proof.
  unfold fx_map. destruct (k =? 0).
  - apply (C23_hashed_blocks_roundtrip_partial qn fx_enc fx_dec 7 qh ex23C []); [reflexivity|reflexivity|apply fx_header_spec; vm_compute; reflexivity|vm_compute; reflexivity|].
    intros k0 b Hb. discriminate Hb.
  - exact (proj1 C23_example).
Qed.
Lemma fx_saves k : exists bytes, saves qn fx_enc (fx_map k) bytes.
Proof. destruct (fx_reloads k) as (bytes & S & _). exists bytes. exact S. Qed.
(** A map is saved; the program is killed while it saves another map to another file; a third map cannot be saved because the disk is full. The first file loads. *)
Example C70_example : exists x0 x1 x2 d f0, forall fuel, (f0 <= fuel)%nat ->
  frun qn fx_enc fx_dec fuel [FSave (fx_map 0) 2 we_ok; FSave (fx_map 1) 1 we_ok; FSave (fx_map 0) 2 (we_killed 5); FSave (fx_map 0) 3 we_full; FLoad 7 1 re_ok] no_files =
    Some ([x0; ASaved true; x1; x2; ALoaded (fx_map 1)], d).
Proof.
  destruct (C70_history qn fx_enc fx_dec no_files [FSave (fx_map 0) 2 we_ok] (fx_map 1) 1 we_ok [FSave (fx_map 0) 2 (we_killed 5); FSave (fx_map 0) 3 we_full] 7 re_ok (fx_map 1))
    as (ans1 & y & ans2 & x & d & f0 & R & L1 & L2 & _ & _ & A & B & _).
  - cbn [app]. repeat (apply Forall_cons; [right; apply fx_saves|]). apply Forall_nil.
  - apply fx_reloads.
  - discriminate.
  - reflexivity.
  - repeat (apply Forall_cons; [cbn; intros (K & _); discriminate|]). apply Forall_nil.
  - destruct ans1 as [|x0 [|? ?]]; try discriminate. destruct ans2 as [|x1 [|x2 [|? ?]]]; try discriminate.
    assert (Y : y = ASaved true) by (apply A; repeat split; repeat constructor). specialize (B Y ltac:(split; reflexivity)). subst x y.
    exists x0, x1, x2, d, f0. exact R.
Qed.
(** Saving is not atomic: the previous contents of the file are gone as soon as it is opened. After a save that returned false because the disk was full, or that was
    interrupted, the file contains neither the old nor the new map. *)
Theorem C70_old_map_lost_refuted : exists d,
  frun qn fx_enc fx_dec 100 [FSave (fx_map 0) 1 we_ok; FSave (fx_map 0) 1 we_full; FLoad 7 1 re_ok] no_files = Some ([ASaved true; ASaved false; ANotLoaded], d) /\
  exists d', frun qn fx_enc fx_dec 100 [FSave (fx_map 0) 1 we_ok; FSave (fx_map 0) 1 (we_killed 0); FLoad 7 1 re_ok] no_files = Some ([ASaved true; ACrashed; ANotLoaded], d').
Proof. eexists. split; [vm_compute; reflexivity|]. eexists. vm_compute. reflexivity. Qed.
(** If the program is killed when only part of the header has reached the file, then the next attempt to load the file does not return false, but aborts the program. *)
Theorem C70_abort_after_crash_refuted : exists d,
  frun qn fx_enc fx_dec 100 [FSave (fx_map 0) 1 (we_killed 6); FLoad 7 1 re_ok] no_files = Some ([ACrashed; AAborted], d).
Proof. eexists. vm_compute. reflexivity. Qed.
(** Trying to save a map of a type that cannot be saved (VolumetricOctree) returns false, but first destroys the file's contents. *)
Theorem C70_unsupported_destroys_refuted : exists d,
  frun qn fx_enc fx_dec 100 [FSave (fx_map 0) 1 we_ok; FSave AnyOther 1 we_ok; FLoad 7 1 re_ok] no_files = Some ([ASaved true; ASaved false; ANotLoaded], d).
Proof. eexists. vm_compute. reflexivity. Qed.

Print Assumptions C70_history.
Print Assumptions C70_other_files.
Print Assumptions C70_old_map_lost_refuted.
Print Assumptions C70_abort_after_crash_refuted.
Print Assumptions C70_unsupported_destroys_refuted.
