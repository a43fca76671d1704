(** The thread pool: events, progress and termination. *)
From Verif Require Import Base M_ThreadPool F_ThreadPool.
From Coq Require Import Permutation.

Definition adds (tr : list (nat * event)) : list nat := flat_map (fun e => match snd e with EAdd n => [n] | _ => [] end) tr.
Definition starts (tr : list (nat * event)) : list nat := flat_map (fun e => match snd e with EStart n => [n] | _ => [] end) tr.
Definition finishes (tr : list (nat * event)) : list nat := flat_map (fun e => match snd e with EFinish n => [n] | _ => [] end) tr.
Definition inflight1 (p : pc) : list nat := match p with WUnlock n _ | WRun n _ | PAdd _ _ (KTask n _) => [n] | _ => [] end.
Definition inflight (l : list pc) : list nat := flat_map inflight1 l.

Lemma inflight_lset l : forall i p p', nth_error l i = Some p ->
  exists a b, inflight l = a ++ inflight1 p ++ b /\ inflight (lset l i p') = a ++ inflight1 p' ++ b.
Proof.
  induction l as [|x l IH]; intros [|i] p p' H; cbn in H; try discriminate.
  - injection H as ->. exists [], (inflight l). split; reflexivity.
  - destruct (IH i p p' H) as (a & b & E1 & E2). exists (inflight1 x ++ a), b. unfold inflight in *. cbn [flat_map lset].
    rewrite E1, E2, !app_assoc. split; reflexivity.
Qed.
Lemma inflight_map l g : (forall p, inflight1 (g p) = inflight1 p) -> inflight (map g l) = inflight l.
Proof. intros H. unfold inflight. induction l as [|p l IH]; cbn [map flat_map]; [reflexivity|]. rewrite H, IH. reflexivity. Qed.
Lemma notified_inflight f l l' : notified f l l' -> inflight l' = inflight l.
Proof.
  intros N. destruct N as [l|l j E|l H|l|l]; try reflexivity.
  - destruct (inflight_lset l j WSleep WLock E) as (a & b & E1 & E2). rewrite E1, E2. reflexivity.
  - apply inflight_map. intros p. destruct p; reflexivity.
  - apply inflight_map. intros p. destruct p; reflexivity.
Qed.
Lemma inflight_pend l : sumf pend l = 0 -> inflight l = [].
Proof.
  induction l as [|p l IH]; cbn [sumf]; [reflexivity|]. intros H. pose proof (sumf_nonneg _ l nn_pend). pose proof (nn_pend p).
  unfold inflight in *. cbn [flat_map]. rewrite IH by lia. assert (P : pend p = 0) by lia.
  destruct p as [| | | | | | | | | | | | |a t k| | | | | | | | | | | | | ]; try reflexivity; cbn in P; try discriminate. destruct k; [discriminate|reflexivity].
Qed.

Definition tinv (tr : list (nat * event)) (st : state) : Prop :=
  let '(l, s) := st in
  starts tr ++ map fst (tasks s) = seq 0 (nsub s) /\ adds tr = seq 0 (nsub s) /\
  Permutation (starts tr) (finishes tr ++ inflight l) /\
  (0 < sumf dall l -> In EDestroyCall (map snd tr)) /\
  (aborted s = true -> In EAbort (map snd tr)).
Lemma adds_snoc tr e : adds (tr ++ [e]) = adds tr ++ match snd e with EAdd n => [n] | _ => [] end.
Proof. unfold adds. rewrite flat_map_app. cbn [flat_map]. rewrite app_nil_r. reflexivity. Qed.
Lemma starts_snoc tr e : starts (tr ++ [e]) = starts tr ++ match snd e with EStart n => [n] | _ => [] end.
Proof. unfold starts. rewrite flat_map_app. cbn [flat_map]. rewrite app_nil_r. reflexivity. Qed.
Lemma finishes_snoc tr e : finishes (tr ++ [e]) = finishes tr ++ match snd e with EFinish n => [n] | _ => [] end.
Proof. unfold finishes. rewrite flat_map_app. cbn [flat_map]. rewrite app_nil_r. reflexivity. Qed.
Lemma notified_dall f l l' : notified f l l' -> sumf dall l' = sumf dall l.
Proof.
  intros N. destruct N as [l|l j E|l H|l|l]; try reflexivity.
  - rewrite (sumf_lset dall l j WSleep WLock E). cbn. ring.
  - apply sumf_map. intros p. destruct p; reflexivity.
  - apply sumf_map. intros p. destruct p; reflexivity.
Qed.

Lemma step_tinv tr st e st' : tinv tr st -> step st e st' -> tinv (tr ++ [e]) st'.
Proof.
  intros I S. destruct S as [l s i p e s' p' f l' Ha E T N]. unfold tinv in *. destruct I as (I1 & I2 & I3 & I4 & I5).
  rewrite (notified_inflight _ _ _ N), (notified_dall _ _ _ N). rewrite adds_snoc, starts_snoc, finishes_snoc, map_app. cbn [snd map].
  rewrite (sumf_lset dall l i p p' E).
  destruct (inflight_lset l i p p' E) as (a & b & F1 & F2). rewrite F1 in I3. rewrite F2. clear F1 F2 N E.
  assert (D : 0 < sumf dall l -> In EDestroyCall (map snd tr ++ [e])) by (intros H; apply in_or_app; left; auto).
  destruct T; try (destruct k); cbn [tasks nsub aborted set_locked set_count inflight1 dall resume app] in *;
    rewrite ?app_nil_r, ?Z.sub_0_r, ?Z.add_0_r in *;
    (split; [try exact I1|split; [try exact I2|split; [try exact I3|
      split; [intros H'; try (apply D; lia)|try (intros Hb; congruence)]]]]).
  - rewrite <- app_assoc. cbn [app]. rewrite H in I1. exact I1.
  - rewrite Permutation_app_comm. cbn [app]. rewrite I3. rewrite !app_assoc. rewrite <- (Permutation_middle (finishes tr ++ a) b n).
    reflexivity.
  - rewrite I3. rewrite <- !app_assoc. apply Permutation_app_head. cbn [app]. symmetry. apply Permutation_middle.
  - intros _. apply in_or_app. right. left. reflexivity.
  - intros _. apply in_or_app. right. left. reflexivity.
  - rewrite map_app, app_assoc, I1. cbn [map fst]. rewrite seq_S. reflexivity.
  - rewrite I2, seq_S. reflexivity.
  - rewrite map_app, app_assoc, I1. cbn [map fst]. rewrite seq_S. reflexivity.
  - rewrite I2, seq_S. reflexivity.
  - apply in_or_app. right. left. reflexivity.
Qed.
Lemma spurious_tinv tr st st' : tinv tr st -> spurious st st' -> tinv tr st'.
Proof.
  intros I S. destruct S as [l s i Ha E|l s i r Ha E]; unfold tinv in *; destruct I as (I1 & I2 & I3 & I4 & I5);
    (split; [exact I1|split; [exact I2|split; [|split; [|exact I5]]]]).
  - destruct (inflight_lset l i _ WLock E) as (a & b & F1 & F2). rewrite F2. rewrite F1 in I3. exact I3.
  - rewrite (sumf_lset dall l i _ WLock E). cbn [dall]. intros H. apply I4. lia.
  - destruct (inflight_lset l i _ (VLock r) E) as (a & b & F1 & F2). rewrite F2. rewrite F1 in I3. exact I3.
  - rewrite (sumf_lset dall l i _ (VLock r) E). cbn [dall]. intros H. apply I4. lia.
Qed.
Lemma start_tinv w progs : tinv [] (start w progs).
Proof.
  unfold tinv, start. cbn [tasks nsub aborted map seq]. split; [reflexivity|]. split; [reflexivity|].
  assert (A : inflight (repeat WLock w ++ map CRun progs) = []).
  { apply inflight_pend. rewrite sumf_app, sumf_repeat, sumf_crun by reflexivity. cbn. lia. }
  rewrite A. split; [constructor|]. split; [|discriminate].
  rewrite sumf_app, sumf_repeat, sumf_crun by reflexivity. cbn. lia.
Qed.
Lemma exec_tinv w progs tr st : exec (start w progs) tr st -> tinv tr st.
Proof.
  intros X. induction X as [|tr st e st' X IH S|tr st st' X IH S].
  - apply start_tinv.
  - eapply step_tinv; eassumption.
  - eapply spurious_tinv; eassumption.
Qed.
(** Prefixes of executions are executions. *)
Lemma exec_split s0 tr st : exec s0 tr st -> forall t1 e t2, tr = t1 ++ e :: t2 ->
  exists st1 st2, exec s0 t1 st1 /\ step st1 e st2.
Proof.
  intros X. induction X as [|tr st e' st' X IH S|tr st st' X IH S]; intros t1 e t2 E.
  - destruct t1; discriminate.
  - destruct t2 as [|x t2'] using rev_ind.
    + apply app_inj_tail in E. destruct E as [-> ->]. eauto.
    + clear IHt2'. change (e :: t2' ++ [x]) with ((e :: t2') ++ [x]) in E. rewrite app_assoc in E. apply app_inj_tail in E.
      destruct E as [-> _]. eapply IH. reflexivity.
  - eapply IH. exact E.
Qed.
Lemma all_finished tr l s : tinv tr (l, s) -> inflight l = [] -> tasks s = [] -> Permutation (finishes tr) (adds tr).
Proof.
  intros (I1 & I2 & I3 & _) Hi Hq. rewrite Hi, app_nil_r in I3. rewrite Hq in I1. cbn [map] in I1. rewrite app_nil_r in I1.
  rewrite <- I3, I1, I2. reflexivity.
Qed.
Lemma qlen_nil s : qlen s = 0 -> tasks s = [].
Proof. unfold qlen. destruct (tasks s); [reflexivity|cbn [length]; lia]. Qed.
Lemma excl1 l i p f : (forall q, 0 <= f q <= holds q) -> nth_error l i = Some p -> sumf holds l <= 1 -> holds p = 1 -> f p = 0 ->
  sumf f l = 0.
Proof.
  intros Hf E Hl Hp Hz. pose proof (excl f l i p Hf E). pose proof (sumf_nonneg f l ltac:(intros q; apply Hf)). lia.
Qed.

(** ** Workers stay workers *)
Lemma tstep_worker i l s p e s' p' f : tstep i l s p e s' p' f -> is_worker p' = is_worker p.
Proof. intros T. destruct T; try reflexivity; destruct k; reflexivity. Qed.
Lemma nth_map_wake {A B} (g : A -> B) l i : nth_error (map g l) i = option_map g (nth_error l i).
Proof. revert i. induction l as [|x l IH]; intros [|i]; cbn; auto. Qed.
Lemma nth_lset {A} (l : list A) i a j x : nth_error l i = Some x ->
  nth_error (lset l i a) j = if Nat.eq_dec j i then Some a else nth_error l j.
Proof.
  intros E. destruct (Nat.eq_dec j i) as [->|Hn]; [eapply nth_lset_same; eassumption|apply nth_lset_other; assumption].
Qed.
Lemma step_role st e st' : step st e st' ->
  forall j, option_map is_worker (nth_error (fst st') j) = option_map is_worker (nth_error (fst st) j).
Proof.
  intros S j. destruct S as [l s i p e s' p' f l' Ha E T N]. cbn [fst].
  assert (A : option_map is_worker (nth_error (lset l i p') j) = option_map is_worker (nth_error l j)).
  { rewrite (nth_lset l i p' j p E). destruct (Nat.eq_dec j i) as [->|]; [|reflexivity]. rewrite E. cbn [option_map]. f_equal.
    eapply tstep_worker. eassumption. }
  rewrite <- A. clear A. inversion N as [l0|l0 k Ek|l0|l0|l0]; subst; try reflexivity.
  - rewrite (nth_lset _ k WLock j WSleep Ek). destruct (Nat.eq_dec j k) as [->|]; [|reflexivity]. rewrite Ek. reflexivity.
  - rewrite nth_map_wake. destruct (nth_error _ j) as [q|]; [|reflexivity]. destruct q; reflexivity.
  - rewrite nth_map_wake. destruct (nth_error _ j) as [q|]; [|reflexivity]. destruct q; reflexivity.
Qed.
Lemma spurious_role st st' : spurious st st' ->
  forall j, option_map is_worker (nth_error (fst st') j) = option_map is_worker (nth_error (fst st) j).
Proof.
  intros S j. destruct S as [l s i Ha E|l s i r Ha E]; cbn [fst].
  - rewrite (nth_lset l i WLock j WSleep E). destruct (Nat.eq_dec j i) as [->|]; [|reflexivity]. rewrite E. reflexivity.
  - rewrite (nth_lset l i (VLock r) j (VSleep r) E). destruct (Nat.eq_dec j i) as [->|]; [|reflexivity]. rewrite E. reflexivity.
Qed.
Lemma exec_role s0 tr st : exec s0 tr st ->
  forall j, option_map is_worker (nth_error (fst st) j) = option_map is_worker (nth_error (fst s0) j).
Proof.
  intros X. induction X as [|tr st e st' X IH S|tr st st' X IH S]; intros j; [reflexivity| |].
  - rewrite (step_role _ _ _ S j). apply IH.
  - rewrite (spurious_role _ _ S j). apply IH.
Qed.
Lemma start_role w progs j p : nth_error (fst (start w progs)) j = Some p -> is_worker p = true <-> (j < w)%nat.
Proof.
  unfold start. cbn [fst]. intros E. destruct (Nat.lt_ge_cases j w) as [L|L].
  - rewrite nth_error_app1 in E by (rewrite repeat_length; exact L). apply nth_error_In, repeat_spec in E. subst p. split; [intros _; exact L|reflexivity].
  - rewrite nth_error_app2 in E by (rewrite repeat_length; exact L). apply nth_error_In in E. apply in_map_iff in E.
    destruct E as (x & <- & _). split; [discriminate|lia].
Qed.

(** ** Usage: the destructor is called at most once, as the last call of its thread *)
Fixpoint destroys (l : list call) : Z := match l with [] => 0 | CDestroy :: l' => 1 + destroys l' | _ :: l' => destroys l' end.
Fixpoint last_only (l : list call) : bool :=
  match l with [] => true | CDestroy :: l' => match l' with [] => true | _ => false end | _ :: l' => last_only l' end.
Definition prog_of (p : pc) : list call :=
  match p with PAdd _ _ (KProg l) | CRun l | VLock l | VCheck l | VGo l | VSleep l | VUnlock l => l | _ => [] end.
Definition des (p : pc) : Z := destroys (prog_of p) + dall p.
Lemma destroys_nonneg l : 0 <= destroys l.
Proof. induction l as [|[t| |] l IH]; cbn [destroys]; lia. Qed.
Lemma nn_des p : 0 <= des p.
Proof. unfold des. pose proof (destroys_nonneg (prog_of p)). pose proof (nn_dall p). lia. Qed.
Definition uinv (l : list pc) : Prop := sumf des l <= 1 /\ forall i p, nth_error l i = Some p -> last_only (prog_of p) = true.
Lemma tstep_use i l s p e s' p' f : tstep i l s p e s' p' f -> des p' = des p /\ (last_only (prog_of p) = true -> last_only (prog_of p') = true).
Proof.
  intros T. destruct T; try (destruct k); unfold des; cbn [prog_of dall destroys last_only resume]; split; auto; try lia.
Qed.
Lemma wake_use p : des (wake_worker p) = des p /\ prog_of (wake_worker p) = prog_of p.
Proof. destruct p; split; reflexivity. Qed.
Lemma wakev_use p : des (wake_waiter p) = des p /\ prog_of (wake_waiter p) = prog_of p.
Proof. destruct p; split; reflexivity. Qed.
Lemma uinv_lset l i p p' : uinv l -> nth_error l i = Some p -> des p' = des p -> (last_only (prog_of p) = true -> last_only (prog_of p') = true) ->
  uinv (lset l i p').
Proof.
  intros [U1 U2] E D L. split.
  - rewrite (sumf_lset des l i p p' E). lia.
  - intros j q Hq. rewrite (nth_lset l i p' j p E) in Hq. destruct (Nat.eq_dec j i) as [->|].
    + injection Hq as <-. apply L. eapply U2. exact E.
    + eapply U2. exact Hq.
Qed.
Lemma uinv_map l g : (forall p, des (g p) = des p /\ prog_of (g p) = prog_of p) -> uinv l -> uinv (map g l).
Proof.
  intros G [U1 U2]. split.
  - rewrite sumf_map; [exact U1|]. intros p. apply G.
  - intros j q Hq. rewrite nth_map_wake in Hq. destruct (nth_error l j) as [x|] eqn:Ex; [|discriminate]. injection Hq as <-.
    destruct (G x) as [_ ->]. eapply U2. exact Ex.
Qed.
Lemma step_uinv st e st' : uinv (fst st) -> step st e st' -> uinv (fst st').
Proof.
  intros U S. destruct S as [l s i p e s' p' f l' Ha E T N]. cbn [fst] in *.
  destruct (tstep_use _ _ _ _ _ _ _ _ T) as [D L]. pose proof (uinv_lset l i p p' U E D L) as U'.
  inversion N as [l0|l0 k Ek|l0|l0|l0]; subst; try exact U'.
  - apply (uinv_lset _ k WSleep WLock U' Ek); auto.
  - apply uinv_map; [apply wake_use|exact U'].
  - apply uinv_map; [apply wakev_use|exact U'].
Qed.
Lemma spurious_uinv st st' : uinv (fst st) -> spurious st st' -> uinv (fst st').
Proof.
  intros U S. destruct S as [l s i Ha E|l s i r Ha E]; cbn [fst] in *.
  - apply (uinv_lset _ i WSleep WLock U E); auto.
  - apply (uinv_lset _ i (VSleep r) (VLock r) U E); auto.
Qed.
Lemma exec_uinv s0 tr st : uinv (fst s0) -> exec s0 tr st -> uinv (fst st).
Proof.
  intros U X. induction X as [|tr st e st' X IH S|tr st st' X IH S]; [exact U|eapply step_uinv; eassumption|eapply spurious_uinv; eassumption].
Qed.

(** ** Progress *)
Lemma notified_total f l : exists l', notified f l l'.
Proof.
  destruct f; try solve [eexists; constructor].
  assert (D : {In WSleep l} + {~ In WSleep l}).
  { induction l as [|p l [IH|IH]]; [right; intros []|left; right; exact IH|].
    destruct p; try (right; intros [H|H]; [discriminate|contradiction]). left. left. reflexivity. }
  destruct D as [D|D].
  - apply In_nth_error in D. destruct D as [j Ej]. exists (lset l j WLock). apply n_one. exact Ej.
  - exists l. apply n_nobody. exact D.
Qed.
Definition stuck (st : state) : Prop := forall e st', ~ step st e st'.
Lemma can_step l s i p : aborted s = false -> nth_error l i = Some p -> (exists e s' p' f, tstep i l s p e s' p' f) -> ~ stuck (l, s).
Proof.
  intros Ha E (e & s' & p' & f & T) St. destruct (notified_total f (lset l i p')) as [l' N].
  apply (St (i, e) (l', s')). econstructor; eassumption.
Qed.
Definition blocked (p : pc) : Prop :=
  match p with WSleep | WExit | VSleep _ | CRun [] | CRun (CDestroy :: _) | DJoin | DDone => True | _ => False end.
Ltac ex := do 4 eexists; econstructor; first [eassumption | reflexivity | (left; eassumption) | (right; assumption) ].
Lemma holder_steps w l s i p : pinv w (l, s) -> nth_error l i = Some p -> 0 < holds p -> exists e s' p' f, tstep i l s p e s' p' f.
Proof.
  intros I E H. unfold pinv in I. destruct I as (_ & _ & _ & _ & _ & _ & _ & I8 & _).
  destruct p as [| | | | |n [subs]| | | | | | | |a t k| | | | | | | | | | | | | ]; cbn [holds] in H; try lia; try solve [do 4 eexists; econstructor].
  - destruct (terminate s) eqn:Et; [do 4 eexists; apply t_check_true; left; exact Et|].
    destruct (tasks s) as [|x q] eqn:Eq; [do 4 eexists; apply t_check_false; assumption|].
    do 4 eexists; apply t_check_true; right; rewrite Eq; discriminate.
  - pose proof (sumf_ge_at wtake l i WTake nn_wtake E) as G. cbn [wtake] in G.
    destruct (tasks s) as [|[n t] q] eqn:Eq.
    + do 4 eexists. apply t_exit; [|exact Eq]. destruct I8 as [T|T]; [lia| |unfold qlen in T; rewrite Eq in T; cbn in T; lia].
      destruct (terminate s); [reflexivity|cbn in T; lia].
    + do 4 eexists. eapply t_pop. exact Eq.
  - destruct a; try lia; try solve [do 4 eexists; econstructor].
    destruct (terminate s) eqn:Et; [do 4 eexists; apply t_aabort; exact Et|do 4 eexists; apply t_atest; exact Et].
  - destruct (terminate s) eqn:Et; [do 4 eexists; apply t_vcheck_true; left; exact Et|].
    destruct (Z.eq_dec (count s) 0) as [Z0|Z0]; [do 4 eexists; apply t_vcheck_true; right; exact Z0|do 4 eexists; apply t_vcheck_false; assumption].
Qed.
Lemma free_steps l s i p : locked s = false -> holds p = 0 -> ~ blocked p -> exists e s' p' f, tstep i l s p e s' p' f.
Proof.
  intros L H B. destruct p as [| | | | |n [subs]|n [|t subs]| | | | | | |a t k|[|[t| |] r]| | | | | | | | | | | | ]; cbn [holds blocked] in H, B; try discriminate; try tauto;
    try solve [do 4 eexists; econstructor; eassumption]; try solve [do 4 eexists; econstructor].
  - destruct (Z.eq_dec (count s) 0); do 4 eexists; [apply t_test_zero|apply t_test_nonzero]; assumption.
  - destruct a; try discriminate; do 4 eexists; econstructor; eassumption.
Qed.
Lemma stuck_blocked w l s : pinv w (l, s) -> aborted s = false -> stuck (l, s) -> locked s = false /\ forall i p, nth_error l i = Some p -> blocked p.
Proof.
  intros I Ha St.
  assert (L : locked s = false).
  { destruct (locked s) eqn:L; [|reflexivity]. exfalso. pose proof I as I'. unfold pinv in I'. destruct I' as (I1 & _).
    rewrite L in I1. cbn in I1.
    destruct (sumf_pos_ex holds l ltac:(lia)) as (i & p & E & H). eapply can_step; [exact Ha|exact E| |exact St].
    exact (holder_steps w l s i p I E H). }
  split; [exact L|]. intros i p E.
  assert (H : holds p = 0).
  { pose proof (sumf_ge_at holds l i p nn_holds E) as G. unfold pinv in I. destruct I as (I1 & _). rewrite L in I1. cbn in I1.
    pose proof (nn_holds p). lia. }
  assert (D : blocked p \/ ~ blocked p).
  { destruct p as [| | | | | | | | | | | | | |[|[| |]]| | | | | | | | | | | | ]; cbn; tauto. }
  destruct D as [D|D]; [exact D|]. exfalso. eapply can_step; [exact Ha|exact E| |exact St]. apply free_steps; assumption.
Qed.
Definition at_rest (p : pc) : Prop := p = WSleep \/ p = WExit \/ p = CRun [] \/ p = DDone.
Lemma stuck_rest w l s : pinv w (l, s) -> uinv l -> 0 < w -> aborted s = false -> stuck (l, s) ->
  (forall i p, nth_error l i = Some p -> at_rest p) /\ tasks s = [] /\ inflight l = [] /\ count s = 0 /\
  (terminate s = true -> forall i p, nth_error l i = Some p -> p <> WSleep).
Proof.
  intros I U Hw Ha St. destruct (stuck_blocked w l s I Ha St) as [L B].
  pose proof I as I'. unfold pinv in I'.
  destruct I' as (I1 & I2 & I3 & I4 & I5 & I6 & I7 & I8 & I9 & I10 & I11 & I12 & I13 & I15 & I16 & I14).
  assert (Z : forall f, (forall p, blocked p -> f p = 0) -> sumf f l = 0) by (intros f Hf; apply sumf_zero; intros i p E; apply Hf; eapply B; exact E).
  assert (Z0 : forall f, (f WSleep = 0 /\ f WExit = 0 /\ f DJoin = 0 /\ f DDone = 0) -> (forall r, f (VSleep r) = 0) -> (forall r, f (CRun r) = 0) -> sumf f l = 0).
  { intros f (F1 & F2 & F3 & F4) F5 F6. apply Z. intros p Hp.
    destruct p as [| | | | | | | | | | | | | |[|[| |]]| | | | | | | | | | | | ]; cbn in Hp; try contradiction; auto. }
  rewrite (Z0 pend) in I2 by (repeat split; reflexivity). rewrite (Z0 inc) in I2 by (repeat split; reflexivity).
  rewrite (Z0 awake), (Z0 pnote) in I4 by (repeat split; reflexivity).
  rewrite (Z0 vnote) in I5 by (repeat split; reflexivity).
  rewrite (Z0 dnote), (Z0 wgo) in I6 by (repeat split; reflexivity).
  assert (Q : qlen s = 0) by (unfold qlen in *; lia).
  assert (C0 : count s = 0) by lia. pose proof (sumf_nonneg _ l nn_vwait) as NV. assert (V0 : sumf vwait l = 0) by lia.
  pose proof (sumf_nonneg _ l nn_wsleep) as NW.
  assert (T0 : terminate s = true -> sumf wsleep l = 0) by (intros T; rewrite T in I6; cbn in I6; lia).
  assert (TS : terminate s = true -> forall i p, nth_error l i = Some p -> p <> WSleep).
  { intros T i p E ->. pose proof (sumf_ge_at wsleep l i _ nn_wsleep E) as G. cbn in G. specialize (T0 T). lia. }
  split; [|split; [apply qlen_nil; exact Q|split; [|split; [exact C0|exact TS]]]].
  2:{ apply inflight_pend. apply Z0; repeat split; reflexivity. }
  intros i p E. pose proof (B i p E) as Bp.
  destruct p as [| | | | | | | | | | | | | |[|[t| |] r]| | | | | | | | | | | | ]; cbn in Bp; try contradiction; unfold at_rest; auto; exfalso.
  - (* CRun (CDestroy :: r) *)
    destruct U as [U1 U2]. pose proof (U2 i _ E) as Lo. cbn in Lo. destruct r; [|discriminate].
    eapply can_step; [exact Ha|exact E| |exact St]. do 4 eexists. apply t_call_destroy. intros j q Hj Eq.
    pose proof (B j q Eq) as Bq.
    assert (D : des q = 0).
    { assert (G : des q + des (CRun [CDestroy]) <= sumf des l).
      { pose proof (sumf_lset des l i (CRun [CDestroy]) (CRun []) E) as S1.
        assert (S2 : nth_error (lset l i (CRun [])) j = Some q) by (rewrite nth_lset_other; assumption).
        pose proof (sumf_ge_at des _ j q nn_des S2) as S3.
        change (des (CRun [])) with 0 in S1. rewrite S1 in S3. clear - S3. lia. }
      pose proof (nn_des q) as Nq. change (des (CRun [CDestroy])) with 1 in G. clear - Nq G U1. lia. }
    destruct q as [| | | | | | | | | | | | | |[|[t'| |] r']| | | | | | | | | | | | ]; cbn in Bq; try contradiction; auto.
    + unfold des in D. cbn [prog_of destroys dall] in D. pose proof (destroys_nonneg r'). lia.
    + pose proof (sumf_ge_at vwait l j _ nn_vwait Eq) as G. cbn in G. lia.
    + discriminate D.
    + discriminate D.
  - (* VSleep *) pose proof (sumf_ge_at vwait l i _ nn_vwait E) as G. cbn in G. lia.
  - (* DJoin *)
    pose proof (sumf_ge_at dterm l i _ nn_dterm E) as G. cbn in G.
    assert (T : terminate s = true) by (destruct (terminate s); [reflexivity|cbn in I10; lia]).
    eapply can_step; [exact Ha|exact E| |exact St]. do 4 eexists. apply t_djoin. intros j q Eq Wq.
    pose proof (B j q Eq) as Bq. pose proof (TS T j q Eq).
    destruct q as [| | | | | | | | | | | | | |[|[t'| |] r']| | | | | | | | | | | | ]; cbn in Bq, Wq; try contradiction; try discriminate; congruence.
Qed.

(** ** Termination: a potential that every step decreases. [M] is four times the number of threads. *)
Section POTENTIAL.
Context (M : Z) (HM : 0 <= M).
Fixpoint tw (t : task) : Z := match t with Task subs => 11 + M + fold_right (fun u a => tw u + 14 + a) 0 subs end.
Definition sw (l : list task) : Z := fold_right (fun u a => tw u + 14 + a) 0 l.
Fixpoint cw (l : list call) : Z :=
  match l with [] => 0 | CAdd t :: l' => tw t + 14 + cw l' | CWait :: l' => 6 + cw l' | CDestroy :: l' => 12 + 2 * M + cw l' end.
Definition kw (k : kont) : Z := match k with KTask _ subs => 9 + M + sw subs | KProg l => cw l end.
Definition phi (p : pc) : Z :=
  match p with
  | WSleep | WExit => 0 | WGo | WTake => 1 | WCheck => 2 | WLock => 3 | WNUnlock => 4 | WNotify => 5 + M | WNLock => 6 + M
  | WTest => 7 + M | WDec => 8 + M | WRun _ subs => 9 + M + sw subs | WUnlock _ t => tw t
  | PAdd ALock t k => kw k + tw t + 12 | PAdd ATest t k => kw k + tw t + 11 | PAdd APush t k => kw k + tw t + 10
  | PAdd AInc _ k => kw k + 9 | PAdd AUnlock _ k => kw k + 8 | PAdd ANotify _ k => kw k + 7
  | CRun l => cw l | VLock l => 3 + cw l | VCheck l => 2 + cw l | VGo l => 1 + cw l | VSleep l => cw l | VUnlock l => 1 + cw l
  | DLock => 11 + 2 * M | DSet => 10 + 2 * M | DUnlock => 9 + 2 * M | DNotify => 8 + 2 * M | DJoin => 4 + M | DNotify2 => 3 + M | DDone => 0
  end.
Definition qw (q : list (nat * task)) : Z := fold_right (fun x a => tw (snd x) + a) 0 q.
Definition potential (st : state) : Z := sumf phi (fst st) + qw (tasks (snd st)) + (if aborted (snd st) then 0 else 1).
Lemma task_ind' (P : task -> Prop) : (forall subs, Forall P subs -> P (Task subs)) -> forall t, P t.
Proof.
  intros H. fix F 1. intros [subs]. apply H. induction subs as [|u subs IH]; constructor; [apply F|exact IH].
Qed.
Lemma tw_nonneg t : 0 <= tw t.
Proof.
  induction t as [subs IH] using task_ind'. cbn [tw]. induction IH as [|u subs Hu _ IH]; cbn [fold_right] in *; lia.
Qed.
Lemma sw_nonneg l : 0 <= sw l.
Proof. unfold sw. induction l as [|u l IH]; cbn [fold_right]; [lia|]. pose proof (tw_nonneg u). lia. Qed.
Lemma cw_nonneg l : 0 <= cw l.
Proof. induction l as [|[t| |] l IH]; cbn [cw]; try lia. pose proof (tw_nonneg t). lia. Qed.
Lemma phi_nonneg p : 0 <= phi p.
Proof.
  destruct p as [| | | | |n t|n subs| | | | | | |a t k|l|l|l|l|l|l| | | | | | | ]; cbn [phi]; try lia;
    try (pose proof (tw_nonneg t)); try (pose proof (sw_nonneg subs)); try (pose proof (cw_nonneg l)); try lia.
  destruct k as [n subs|l]; cbn [kw]; [pose proof (sw_nonneg subs)|pose proof (cw_nonneg l)]; destruct a; lia.
Qed.
Lemma qw_app q1 q2 : qw (q1 ++ q2) = qw q1 + qw q2.
Proof. unfold qw. induction q1 as [|x q1 IH]; cbn [app fold_right]; [reflexivity|]. rewrite IH. ring. Qed.
Lemma qw_nonneg q : 0 <= qw q.
Proof. unfold qw. induction q as [|x q IH]; cbn [fold_right]; [lia|]. pose proof (tw_nonneg (snd x)). lia. Qed.
Lemma potential_nonneg st : 0 <= potential st.
Proof.
  unfold potential. pose proof (sumf_nonneg phi (fst st) phi_nonneg). pose proof (qw_nonneg (tasks (snd st))). destruct (aborted (snd st)); lia.
Qed.
Lemma phi_wake l : sumf phi (map wake_worker l) <= sumf phi l + 3 * Z.of_nat (length l).
Proof. induction l as [|p l IH]; cbn [map sumf length]; [lia|]. rewrite Nat2Z.inj_succ. destruct p; cbn [wake_worker phi]; lia. Qed.
Lemma phi_wakev l : sumf phi (map wake_waiter l) <= sumf phi l + 3 * Z.of_nat (length l).
Proof. induction l as [|p l IH]; cbn [map sumf length]; [lia|]. rewrite Nat2Z.inj_succ. destruct p; cbn [wake_waiter phi]; lia. Qed.
Lemma notified_phi f l l' : notified f l l' ->
  sumf phi l' <= sumf phi l + match f with NoEff => 0 | NotifyOneWorker => 3 | _ => 3 * Z.of_nat (length l) end.
Proof.
  intros N. destruct N as [l|l j E|l H|l|l]; try lia; [|apply phi_wake|apply phi_wakev].
  rewrite (sumf_lset phi l j WSleep WLock E). cbn [phi]. lia.
Qed.
Lemma phi_resume k : phi (resume k) = kw k. Proof. destruct k; reflexivity. Qed.
Lemma step_potential st e st' : M = 4 * Z.of_nat (length (fst st)) -> step st e st' -> potential st' < potential st.
Proof.
  intros EM S. destruct S as [l s i p e s' p' f l' Ha E T N]. unfold potential. cbn [fst snd] in *.
  apply notified_phi in N. rewrite lset_length in N. rewrite (sumf_lset phi l i p p' E) in N. rewrite Ha. clear E.
  destruct T; cbn [tasks aborted set_locked set_count] in *; rewrite ?Ha; rewrite ?phi_resume, ?qw_app in *;
    cbn [phi kw cw tw qw fold_right snd] in *; try (change (fold_right (fun u a => tw u + 14 + a) 0 subs) with (sw subs) in * );
    try (change (sw (t :: subs)) with (tw t + 14 + sw subs) in * ); try lia.
  - rewrite H. cbn [qw fold_right snd]. unfold qw in *. lia.
  - change (sw []) with 0 in N. lia.
Qed.
End POTENTIAL.
Lemma notified_length f l l' : notified f l l' -> length l' = length l.
Proof. intros N. destruct N; rewrite ?lset_length, ?map_length; reflexivity. Qed.
Lemma step_length st e st' : step st e st' -> length (fst st') = length (fst st).
Proof. intros S. destruct S as [l s i p e s' p' f l' Ha E T N]. cbn [fst]. rewrite (notified_length _ _ _ N), lset_length. reflexivity. Qed.
(** Steps without spurious wake-ups *)
Inductive steps : nat -> state -> list (nat * event) -> state -> Prop :=
| s_zero : forall st, steps 0 st [] st
| s_more : forall n st e st1 tr st2, step st e st1 -> steps n st1 tr st2 -> steps (S n) st (e :: tr) st2.
Lemma steps_bound n st tr st' : steps n st tr st' -> Z.of_nat n <= potential (4 * Z.of_nat (length (fst st))) st.
Proof.
  intros X. induction X as [st|n st e st1 tr st2 S X IH]; [apply potential_nonneg; lia|].
  rewrite (step_length _ _ _ S) in IH. pose proof (step_potential (4 * Z.of_nat (length (fst st))) ltac:(lia) st e st1 eq_refl S). lia.
Qed.
