(** C31: The thread pool runs each task once and wait_all waits for all.

    [exec (start w progs) tr st]: a pool with [w] workers is constructed, client threads run the programs [progs]
    (sequences of add_task, wait_all and destructor calls), threads interleave arbitrarily, sleeping threads may wake
    up spuriously; [tr] lists the events so far in their order, each with the thread it happened in. Tasks are numbered
    in the order in which they are submitted (EAdd). *)
From Verif Require Import Base M_ThreadPool F_ThreadPool F_ThreadPool2.
From Coq Require Import Permutation.

Definition happened (tr : list (nat * event)) (e : event) : Prop := In e (map snd tr).
(** The number of times an event happened *)
Definition times (tr : list (nat * event)) (f : event -> bool) : nat := length (filter f (map snd tr)).
Definition is_start (n : nat) (e : event) : bool := match e with EStart k => Nat.eqb k n | _ => false end.
Definition is_finish (n : nat) (e : event) : bool := match e with EFinish k => Nat.eqb k n | _ => false end.
Definition is_add (n : nat) (e : event) : bool := match e with EAdd k => Nat.eqb k n | _ => false end.

Lemma happened_adds tr n : happened tr (EAdd n) <-> In n (adds tr).
Proof.
  unfold happened, adds. rewrite in_map_iff, in_flat_map. split.
  - intros ((i & e) & H & K). cbn in H. subst e. exists (i, EAdd n). cbn. auto.
  - intros ((i & e) & K & H). cbn in H. destruct e; cbn in H; try contradiction. destruct H as [->|[]]. exists (i, EAdd n). auto.
Qed.
Lemma happened_finishes tr n : happened tr (EFinish n) <-> In n (finishes tr).
Proof.
  unfold happened, finishes. rewrite in_map_iff, in_flat_map. split.
  - intros ((i & e) & H & K). cbn in H. subst e. exists (i, EFinish n). cbn. auto.
  - intros ((i & e) & K & H). cbn in H. destruct e; cbn in H; try contradiction. destruct H as [->|[]]. exists (i, EFinish n). auto.
Qed.
Lemma times_start tr n : times tr (is_start n) = count_occ Nat.eq_dec (starts tr) n.
Proof.
  unfold times, starts. induction tr as [|[i e] tr IH]; [reflexivity|]. cbn [map snd filter flat_map]. rewrite count_occ_app, <- IH.
  destruct e; cbn [is_start]; try reflexivity. destruct (Nat.eqb_spec n0 n) as [->|Hn]; cbn [length count_occ].
  - destruct (Nat.eq_dec n n); [reflexivity|congruence].
  - destruct (Nat.eq_dec n0 n); [congruence|reflexivity].
Qed.
Lemma times_finish tr n : times tr (is_finish n) = count_occ Nat.eq_dec (finishes tr) n.
Proof.
  unfold times, finishes. induction tr as [|[i e] tr IH]; [reflexivity|]. cbn [map snd filter flat_map]. rewrite count_occ_app, <- IH.
  destruct e; cbn [is_finish]; try reflexivity. destruct (Nat.eqb_spec n0 n) as [->|Hn]; cbn [length count_occ].
  - destruct (Nat.eq_dec n n); [reflexivity|congruence].
  - destruct (Nat.eq_dec n0 n); [congruence|reflexivity].
Qed.
Lemma times_add tr n : times tr (is_add n) = count_occ Nat.eq_dec (adds tr) n.
Proof.
  unfold times, adds. induction tr as [|[i e] tr IH]; [reflexivity|]. cbn [map snd filter flat_map]. rewrite count_occ_app, <- IH.
  destruct e; cbn [is_add]; try reflexivity. destruct (Nat.eqb_spec n0 n) as [->|Hn]; cbn [length count_occ].
  - destruct (Nat.eq_dec n n); [reflexivity|congruence].
  - destruct (Nat.eq_dec n0 n); [congruence|reflexivity].
Qed.
Lemma count_perm (l1 l2 : list nat) n : Permutation l1 l2 -> count_occ Nat.eq_dec l1 n = count_occ Nat.eq_dec l2 n.
Proof. intros P. induction P; cbn [count_occ]; repeat match goal with |- context [Nat.eq_dec ?a ?b] => destruct (Nat.eq_dec a b) end; congruence. Qed.
Lemma count_seq n k a : (count_occ Nat.eq_dec (seq a k) n <= 1)%nat.
Proof.
  pose proof (seq_NoDup k a) as N. rewrite (NoDup_count_occ Nat.eq_dec) in N. apply N.
Qed.

(** At any time of any execution, no task number has been submitted twice, started twice or finished twice; only
    submitted tasks have started, and only started tasks have finished. (Applied to each prefix of an execution: the
    start comes after the submission and the end after the start.) *)
Theorem C31_at_most_once : forall w progs tr st, exec (start w progs) tr st -> forall n,
  (times tr (is_finish n) <= times tr (is_start n) <= times tr (is_add n))%nat /\ (times tr (is_add n) <= 1)%nat.
Proof.
  intros w progs tr st X n. pose proof (exec_tinv _ _ _ _ X) as I. destruct st as [l s]. destruct I as (I1 & I2 & I3 & _).
  rewrite times_start, times_finish, times_add. rewrite (count_perm _ _ n I3) , count_occ_app. rewrite I2.
  rewrite <- I1, count_occ_app, (count_perm _ _ n I3), count_occ_app. split; [lia|].
  pose proof (count_seq n (nsub s) 0) as B. rewrite <- I1, count_occ_app, (count_perm _ _ n I3), count_occ_app in B. lia.
Qed.
(** Tasks are started in the order of their submission. *)
Theorem C31_fifo : forall w progs tr st, exec (start w progs) tr st ->
  exists waiting, flat_map (fun e => match snd e with EAdd n => [n] | _ => [] end) tr
                  = flat_map (fun e => match snd e with EStart n => [n] | _ => [] end) tr ++ waiting.
Proof.
  intros w progs tr st X. pose proof (exec_tinv _ _ _ _ X) as I. destruct st as [l s]. destruct I as (I1 & I2 & _).
  exists (map fst (tasks s)). etransitivity; [exact I2|symmetry; exact I1].
Qed.

(** When wait_all returns (and the destructor has not been called), every task submitted so far - in particular
    every task submitted before wait_all was called - has finished. *)
Theorem C31_wait_all : forall w progs tr1 i tr2 st, exec (start w progs) (tr1 ++ (i, EWaitRet) :: tr2) st ->
  ~ happened tr1 EDestroyCall -> forall n, happened tr1 (EAdd n) -> happened tr1 (EFinish n).
Proof.
  intros w progs tr1 i tr2 st X Hd n Hn. destruct (exec_split _ _ _ X tr1 _ tr2 eq_refl) as (st1 & st2 & X1 & S).
  pose proof (exec_tinv _ _ _ _ X1) as I. pose proof (exec_pinv _ _ _ _ X1) as P. clear X X1.
  apply happened_finishes. apply happened_adds in Hn.
  inversion S as [l s i0 p e s' p' f l' Ha E T N]; subst. inversion T; subst. clear T N S.
  unfold pinv in P. destruct P as (P1 & P2 & P3 & P4 & P5 & P6 & P7 & P8 & P9 & P10 & P11 & P12 & P13 & P15 & P16 & P14).
  pose proof I as I'. destruct I' as (_ & _ & _ & I4 & _).
  assert (L1 : sumf holds l <= 1) by (rewrite P1; destruct (locked s); cbn; lia).
  pose proof (excl1 l i _ inc ltac:(pw) E L1 eq_refl eq_refl) as Z1.
  pose proof (sumf_ge_at vunl l i _ nn_vunl E) as G. cbn [vunl] in G.
  assert (T0 : bz (terminate s) = 0).
  { destruct (terminate s); [|reflexivity]. exfalso. apply Hd. apply I4. cbn in P10.
    pose proof (sumf_le dterm dall l ltac:(pw)). lia. }
  assert (C0 : count s = 0) by (destruct P16 as [P16|P16]; [lia|lia|exact P16]).
  pose proof (sumf_nonneg _ l nn_pend) as NP. assert (Q0 : 0 <= qlen s) by (unfold qlen; lia).
  eapply Permutation_in; [|exact Hn]. symmetry. apply (all_finished tr1 l s I).
  - apply inflight_pend. lia.
  - apply qlen_nil. lia.
Qed.

(** When the destructor returns (of a pool with workers), every submitted task has finished and all worker threads
    have ended. *)
Theorem C31_destructor : forall w progs tr1 i tr2 st, (1 <= w)%nat -> exec (start w progs) (tr1 ++ (i, EDestroyRet) :: tr2) st ->
  (forall n, happened tr1 (EAdd n) -> happened tr1 (EFinish n)) /\
  exists st1, exec (start w progs) tr1 st1 /\ forall j, (j < w)%nat -> nth_error (fst st1) j = Some WExit.
Proof.
  intros w progs tr1 i tr2 st Hw X. destruct (exec_split _ _ _ X tr1 _ tr2 eq_refl) as (st1 & st2 & X1 & S).
  pose proof (exec_tinv _ _ _ _ X1) as I. pose proof (exec_pinv _ _ _ _ X1) as P.
  pose proof (exec_role _ _ _ X1) as R. clear X.
  inversion S as [l s i0 p e s' p' f l' Ha E T N]; subst. inversion T; subst. clear T N S.
  unfold pinv in P. destruct P as (P1 & P2 & P3 & P4 & P5 & P6 & P7 & P8 & P9 & P10 & P11 & P12 & P13 & P15 & P16 & P14).
  pose proof (sumf_ge_at dpost l i _ nn_dpost E) as G. cbn [dpost] in G. specialize (P13 ltac:(lia)).
  destruct (P3 ltac:(lia)) as [_ Q0].
  assert (A : forall j p, nth_error l j = Some p -> is_worker p = true -> p = WExit).
  { intros j p Ej Wp. pose proof (sumf_ge_at (fun q => worker q - exitc q) l j p ltac:(unfold worker; pw) Ej) as G2.
    assert (S2 : sumf (fun q => worker q - exitc q) l = sumf worker l - sumf exitc l).
    { clear. induction l as [|x l IH]; cbn [sumf]; [reflexivity|]. rewrite IH. ring. }
    unfold worker in G2 at 1. rewrite Wp in G2. destruct p; cbn [exitc] in G2; try lia; try discriminate; reflexivity. }
  split.
  - intros n Hn. apply happened_finishes. apply happened_adds in Hn. eapply Permutation_in; [|exact Hn]. symmetry.
    apply (all_finished tr1 l _ I); [|apply qlen_nil; exact Q0]. apply inflight_pend. apply sumf_zero. intros j p Ej.
    destruct (is_worker p) eqn:Wp; [rewrite (A j p Ej Wp); reflexivity|].
    destruct p as [| | | | | | | | | | | | |? ? []| | | | | | | | | | | | | ]; try reflexivity; discriminate Wp.
  - eexists. split; [exact X1|]. intros j Hj. cbn [fst].
    specialize (R j). cbn [fst] in R.
    assert (Ej : nth_error (fst (start w progs)) j = Some WLock).
    { unfold start. cbn [fst]. rewrite nth_error_app1 by (rewrite repeat_length; exact Hj). rewrite nth_error_repeat by exact Hj. reflexivity. }
    rewrite Ej in R. cbn in R. destruct (nth_error l j) as [p|] eqn:Elj; [|discriminate]. cbn in R. injection R as R.
    f_equal. eapply A; [exact Elj|exact R].
Qed.

(** The pool is used properly: over all client threads there is at most one destructor call, and no call follows it
    in its thread. *)
Definition proper_use (progs : list (list call)) : Prop :=
  (forall k p l1 l2, nth_error progs k = Some p -> p = l1 ++ CDestroy :: l2 -> l2 = []) /\
  (forall j k p q, nth_error progs j = Some p -> nth_error progs k = Some q -> In CDestroy p -> In CDestroy q -> j = k).
Lemma last_only_iff p : (forall l1 l2, p = l1 ++ CDestroy :: l2 -> l2 = []) -> last_only p = true.
Proof.
  induction p as [|c p IH]; [reflexivity|]. intros H. destruct c; cbn [last_only].
  - apply IH. intros l1 l2 E. apply (H (CAdd t :: l1) l2). rewrite E. reflexivity.
  - apply IH. intros l1 l2 E. apply (H (CWait :: l1) l2). rewrite E. reflexivity.
  - rewrite (H [] p eq_refl). reflexivity.
Qed.
Lemma destroys_pos p : destroys p <> 0 -> In CDestroy p.
Proof. induction p as [|[t| |] p IH]; cbn [destroys]; intros H; [congruence|right; auto|right; auto|left; reflexivity]. Qed.
Lemma last_only_le p : last_only p = true -> destroys p <= 1.
Proof.
  induction p as [|[t| |] p IH]; cbn [destroys last_only]; intros H; [lia|auto|auto|]. destruct p; [cbn; lia|discriminate].
Qed.
Lemma proper_uinv w progs : proper_use progs -> uinv (fst (start w progs)).
Proof.
  intros [H1 H2]. assert (LO : forall k p, nth_error progs k = Some p -> last_only p = true).
  { intros k p E. apply last_only_iff. intros l1 l2 E'. eapply H1; eassumption. }
  unfold start. cbn [fst]. split.
  - rewrite sumf_app, sumf_repeat. change (des WLock) with 0. rewrite Z.mul_0_r, Z.add_0_l.
    clear H1. revert H2 LO. induction progs as [|p progs IH]; intros H2 LO; cbn [map sumf]; [lia|].
    assert (IH' : sumf des (map CRun progs) <= 1).
    { apply IH; [|intros k q E; exact (LO (S k) q E)]. intros j k a b Ea Eb Ha Hb.
      specialize (H2 (S j) (S k) a b Ea Eb Ha Hb). lia. }
    assert (Ep : des (CRun p) = destroys p) by (unfold des; cbn [prog_of dall]; lia). rewrite Ep.
    destruct (Z.eq_dec (destroys p) 0) as [Z0|Z0]; [lia|].
    pose proof (last_only_le p (LO 0%nat p eq_refl)).
    assert (sumf des (map CRun progs) = 0); [|lia].
    apply sumf_zero. intros k q E. rewrite nth_map_wake in E. destruct (nth_error progs k) as [x|] eqn:Ex; [|discriminate].
    injection E as <-. unfold des. cbn [prog_of dall]. destruct (Z.eq_dec (destroys x) 0) as [Zx|Zx]; [lia|].
    apply destroys_pos in Z0, Zx. specialize (H2 0%nat (S k) p x eq_refl Ex Z0 Zx). discriminate.
  - intros j p E. apply nth_error_In in E. apply in_app_or in E. destruct E as [E|E].
    + apply repeat_spec in E. subst p. reflexivity.
    + apply in_map_iff in E. destruct E as (x & <- & Hx). apply In_nth_error in Hx. destruct Hx as [k Ek]. exact (LO k x Ek).
Qed.

(** No wake-up is lost, nothing deadlocks: take any execution (with any number of spurious wake-ups so far). From there,
    only finitely many steps are possible without a further spurious wake-up; and if no step is possible any more
    then, unless the program has aborted, all submitted tasks have finished, every client thread has returned from its
    last call (wait_all and the destructor included), and the workers sleep or (after the destructor) have ended. *)
Theorem C31_finitely_many_steps : forall w progs tr st, exec (start w progs) tr st ->
  exists bound : Z, forall k tr' st', steps k st tr' st' -> Z.of_nat k <= bound.
Proof. intros w progs tr st X. eexists. intros k tr' st' Y. exact (steps_bound k st tr' st' Y). Qed.
Theorem C31_no_deadlock : forall w progs tr st, (1 <= w)%nat -> proper_use progs -> exec (start w progs) tr st ->
  (forall e st', ~ step st e st') -> ~ happened tr EAbort ->
  (forall n, happened tr (EAdd n) -> happened tr (EFinish n)) /\
  (forall j p, nth_error (fst st) j = Some p ->
     if (j <? w)%nat then (p = WSleep /\ ~ happened tr EDestroyRet) \/ p = WExit else p = CRun [] \/ p = DDone).
Proof.
  intros w progs tr [l s] Hw Hu X St Hab. pose proof (exec_pinv _ _ _ _ X) as P. pose proof (exec_tinv _ _ _ _ X) as I.
  pose proof (exec_uinv _ _ _ (proper_uinv w progs Hu) X) as U.
  assert (Ha : aborted s = false). { destruct (aborted s) eqn:A; [|reflexivity]. exfalso. apply Hab. apply I. exact A. }
  destruct (stuck_rest (Z.of_nat w) l s P U ltac:(lia) Ha St) as (R & Q & F & C & TS). split.
  - intros n Hn. apply happened_finishes. apply happened_adds in Hn. eapply Permutation_in; [|exact Hn]. symmetry.
    exact (all_finished tr l s I F Q).
  - intros j p E. cbn [fst] in E.
    assert (W : is_worker p = true <-> (j < w)%nat).
    { pose proof (exec_role _ _ _ X j) as Rj. cbn [fst] in Rj. rewrite E in Rj. cbn [option_map] in Rj.
      destruct (nth_error (fst (start w progs)) j) as [q|] eqn:Eq; [|discriminate]. cbn in Rj. injection Rj as Rj. rewrite Rj.
      eapply start_role. exact Eq. }
    destruct (R j p E) as [-> |[-> |[-> | ->]]]; destruct (Nat.ltb_spec j w) as [L|L]; auto;
      try (exfalso; cbn in W; destruct W as [W1 W2]; specialize (W2 L); discriminate);
      try (exfalso; cbn in W; destruct W as [W1 W2]; specialize (W1 eq_refl); lia).
    left. split; [reflexivity|]. intros D. unfold happened in D. apply in_map_iff in D. destruct D as ((i & e) & De & D). cbn in De. subst e.
    apply in_split in D. destruct D as (t1 & t2 & ->).
    destruct (exec_split _ _ _ X t1 _ t2 eq_refl) as (st1 & st2 & X1 & S).
    destruct (C31_destructor w progs t1 i t2 (l, s) Hw X) as [_ (st3 & X3 & W3)].
    (* the pool is terminated once the destructor has returned *)
    assert (T : terminate s = true).
    { clear - X. remember (t1 ++ (i, EDestroyRet) :: t2) as tr eqn:Et. remember (l, s) as st eqn:Es.
      assert (G : forall tr st, exec (start w progs) tr st -> happened tr EDestroyRet -> terminate (snd st) = true).
      { clear. intros tr st X. induction X as [|tr st e st' X IH S|tr st st' X IH S]; intros H.
        - destruct H.
        - unfold happened in H, IH. rewrite map_app in H. apply in_app_or in H.
          pose proof (exec_pinv _ _ _ _ X) as P. inversion S as [l s i0 p e0 s' p' f l' Ha E T N]; subst. cbn [snd map] in *.
          assert (M : terminate s = true -> terminate s' = true).
          { intros Ht. inversion T; subst; cbn; auto. }
          destruct H as [H|[H|[]]]; [apply M, IH, H|]. subst e0. inversion T; subst.
          unfold pinv in P. destruct P as (_ & _ & _ & _ & _ & _ & _ & _ & _ & P10 & _).
          pose proof (sumf_ge_at dterm l i0 _ nn_dterm E) as G. cbn [dterm] in G.
          destruct (terminate s'); [reflexivity|cbn in P10; lia].
        - destruct S; apply IH; exact H. }
      specialize (G _ _ X). subst st. cbn [snd] in G. apply G. subst tr. unfold happened. rewrite map_app. apply in_or_app. right. left. reflexivity. }
    exact (TS T j WSleep E eq_refl).
Qed.

(** add_task aborts only in a worker: when a task submits a task while the destructor runs. *)
Theorem C31_abort : forall w progs tr1 i tr2 st, exec (start w progs) (tr1 ++ (i, EAbort) :: tr2) st ->
  (i < w)%nat /\ happened tr1 EDestroyCall.
Proof.
  intros w progs tr1 i tr2 st X. destruct (exec_split _ _ _ X tr1 _ tr2 eq_refl) as (st1 & st2 & X1 & S).
  pose proof (exec_tinv _ _ _ _ X1) as I. pose proof (exec_pinv _ _ _ _ X1) as P. pose proof (exec_role _ _ _ X1 i) as R. clear X.
  inversion S as [l s i0 p e s' p' f l' Ha E T N]; subst. inversion T; subst. clear T N S.
  destruct I as (_ & _ & _ & I4 & _).
  unfold pinv in P. destruct P as (P1 & P2 & P3 & P4 & P5 & P6 & P7 & P8 & P9 & P10 & P11 & _).
  match goal with H : terminate s = true |- _ => rewrite H in P10 end. cbn in P10.
  pose proof (sumf_le dterm dall l ltac:(pw)) as LE. specialize (P11 ltac:(lia)). specialize (I4 ltac:(lia)).
  split; [|exact I4]. pose proof (sumf_ge_at busy l i _ nn_busy E) as G. destruct k as [n subs|r].
  - cbn [fst] in R. rewrite E in R. cbn [option_map is_worker] in R.
    destruct (nth_error (fst (start w progs)) i) as [q|] eqn:Eq; [|discriminate]. cbn in R. injection R as R.
    apply (start_role w progs i q Eq). symmetry. exact R.
  - cbn in G. lia.
Qed.

(** A pool created with zero threads (the constructor accepts it): wait_all after add_task never returns. *)
Theorem C31_no_workers_refuted : exists progs tr st,
  proper_use progs /\ exec (start 0 progs) tr st /\ (forall e st', ~ step st e st') /\
  happened tr (EAdd 0) /\ happened tr EWaitCall /\ ~ happened tr (EStart 0) /\ ~ happened tr EWaitRet.
Proof.
  exists [[CAdd (Task []); CWait]].
  set (s1 := Pool [(0%nat, Task [])] 1 false false 1 false).
  exists [(0, ETau); (0, ETau); (0, ETau); (0, EAdd 0); (0, ETau); (0, ETau); (0, ETau); (0, EWaitCall); (0, ETau); (0, ETau); (0, ETau)]%nat.
  exists ([VSleep []], s1). split; [|split; [|split; [|split; [|split; [|split]]]]].
  - split.
    + intros [|k] p l1 l2 E1 E2; [|destruct k; discriminate]. injection E1 as <-. destruct l1 as [|a [|b [|c l1]]]; discriminate.
    + intros [|j] [|k] p q E1 E2 _ _; try reflexivity; destruct j || destruct k; discriminate.
  - change [(0, ETau); (0, ETau); (0, ETau); (0, EAdd 0); (0, ETau); (0, ETau); (0, ETau); (0, EWaitCall); (0, ETau); (0, ETau); (0, ETau)]%nat
      with ((((((((((([] ++ [(0, ETau)]) ++ [(0, ETau)]) ++ [(0, ETau)]) ++ [(0, EAdd 0)]) ++ [(0, ETau)]) ++ [(0, ETau)]) ++ [(0, ETau)])
        ++ [(0, EWaitCall)]) ++ [(0, ETau)]) ++ [(0, ETau)]) ++ [(0, ETau)])%nat.
    eapply x_step; [eapply x_step; [eapply x_step; [eapply x_step; [eapply x_step; [eapply x_step; [eapply x_step; [eapply x_step;
      [eapply x_step; [eapply x_step; [eapply x_step; [apply x_nil|]|]|]|]|]|]|]|]|]|]|].
    + eapply (step_thread _ _ 0%nat); [reflexivity|reflexivity|apply t_call_add|apply n_none].
    + eapply (step_thread _ _ 0%nat); [reflexivity|reflexivity|apply t_alock; reflexivity|apply n_none].
    + eapply (step_thread _ _ 0%nat); [reflexivity|reflexivity|apply t_atest; reflexivity|apply n_none].
    + eapply (step_thread _ _ 0%nat); [reflexivity|reflexivity|apply t_apush|apply n_none].
    + eapply (step_thread _ _ 0%nat); [reflexivity|reflexivity|apply t_ainc|apply n_none].
    + eapply (step_thread _ _ 0%nat); [reflexivity|reflexivity|apply t_aunlock|apply n_none].
    + eapply (step_thread _ _ 0%nat); [reflexivity|reflexivity|apply t_anotify|apply n_nobody]. cbn. intros [H|[]]. discriminate.
    + eapply (step_thread _ _ 0%nat); [reflexivity|reflexivity|apply t_call_wait|apply n_none].
    + eapply (step_thread _ _ 0%nat); [reflexivity|reflexivity|apply t_vlock; reflexivity|apply n_none].
    + eapply (step_thread _ _ 0%nat); [reflexivity|reflexivity|apply t_vcheck_false; cbn; [reflexivity|discriminate]|apply n_none].
    + eapply (step_thread _ _ 0%nat); [reflexivity|reflexivity|apply t_vsleep|apply n_none].
  - intros e st' S. inversion S as [l s i p e0 s' p' f l' Ha E T N]; subst. destruct i as [|i]; [|destruct i; discriminate].
    injection E as <-. inversion T.
  - unfold happened. cbn. tauto.
  - unfold happened. cbn. tauto.
  - unfold happened. cbn. intros H. repeat destruct H as [H|H]; try discriminate; exact H.
  - unfold happened. cbn. intros H. repeat destruct H as [H|H]; try discriminate; exact H.
Qed.

(** ** The hypotheses are met: executions computed from a schedule (a list of thread numbers) *)
Fixpoint first_sleeper (l : list pc) : option nat :=
  match l with [] => None | WSleep :: _ => Some O | _ :: l' => option_map S (first_sleeper l') end.
Definition tnext (i : nat) (ths : list pc) (s : pool) (p : pc) : option (event * pool * pc * effect) :=
  match p with
  | WLock => if locked s then None else Some (ETau, set_locked s true, WCheck, NoEff)
  | WCheck => if terminate s || negb (match tasks s with [] => true | _ => false end) then Some (ETau, s, WTake, NoEff)
              else Some (ETau, s, WGo, NoEff)
  | WGo => Some (ETau, set_locked s false, WSleep, NoEff)
  | WTake => match tasks s with
             | [] => if terminate s then Some (ETau, set_locked s false, WExit, NoEff) else None
             | (n, t) :: q => Some (EStart n, Pool q (count s) (terminate s) (locked s) (nsub s) (aborted s), WUnlock n t, NoEff)
             end
  | WUnlock n (Task subs) => Some (ETau, set_locked s false, WRun n subs, NoEff)
  | WRun n (t :: subs) => Some (ETau, s, PAdd ALock t (KTask n subs), NoEff)
  | WRun n [] => Some (EFinish n, s, WDec, NoEff)
  | WDec => Some (ETau, set_count s (count s - 1), WTest, NoEff)
  | WTest => if count s =? 0 then Some (ETau, s, WNLock, NoEff) else Some (ETau, s, WLock, NoEff)
  | WNLock => if locked s then None else Some (ETau, set_locked s true, WNotify, NoEff)
  | WNotify => Some (ETau, s, WNUnlock, NotifyAllWaiters)
  | WNUnlock => Some (ETau, set_locked s false, WLock, NoEff)
  | PAdd ALock t k => if locked s then None else Some (ETau, set_locked s true, PAdd ATest t k, NoEff)
  | PAdd ATest t k => if terminate s then
      Some (EAbort, Pool (tasks s) (count s) (terminate s) (locked s) (nsub s) true, PAdd ATest t k, NoEff) else Some (ETau, s, PAdd APush t k, NoEff)
  | PAdd APush t k => Some (EAdd (nsub s), Pool (tasks s ++ [(nsub s, t)]) (count s) (terminate s) (locked s) (S (nsub s)) (aborted s), PAdd AInc t k, NoEff)
  | PAdd AInc t k => Some (ETau, set_count s (count s + 1), PAdd AUnlock t k, NoEff)
  | PAdd AUnlock t k => Some (ETau, set_locked s false, PAdd ANotify t k, NoEff)
  | PAdd ANotify t k => Some (ETau, s, resume k, NotifyOneWorker)
  | CRun (CAdd t :: l) => Some (ETau, s, PAdd ALock t (KProg l), NoEff)
  | CRun (CWait :: l) => Some (EWaitCall, s, VLock l, NoEff)
  | CRun [CDestroy] => if forallb (fun jp => Nat.eqb (fst jp) i || is_worker (snd jp) || match snd jp with CRun [] => true | _ => false end)
                            (combine (seq 0 (length ths)) ths) then Some (EDestroyCall, s, DLock, NoEff) else None
  | VLock l => if locked s then None else Some (ETau, set_locked s true, VCheck l, NoEff)
  | VCheck l => if terminate s || (count s =? 0) then Some (ETau, s, VUnlock l, NoEff) else Some (ETau, s, VGo l, NoEff)
  | VGo l => Some (ETau, set_locked s false, VSleep l, NoEff)
  | VUnlock l => Some (EWaitRet, set_locked s false, CRun l, NoEff)
  | DLock => if locked s then None else Some (ETau, set_locked s true, DSet, NoEff)
  | DSet => Some (ETau, Pool (tasks s) (count s) true (locked s) (nsub s) (aborted s), DUnlock, NoEff)
  | DUnlock => Some (ETau, set_locked s false, DNotify, NoEff)
  | DNotify => Some (ETau, s, DJoin, NotifyAllWorkers)
  | DJoin => if forallb (fun p => negb (is_worker p) || match p with WExit => true | _ => false end) ths then Some (ETau, s, DNotify2, NoEff) else None
  | DNotify2 => Some (EDestroyRet, s, DDone, NotifyAllWaiters)
  | _ => None
  end.
Definition napply (f : effect) (l : list pc) : list pc :=
  match f with
  | NoEff => l
  | NotifyOneWorker => match first_sleeper l with Some j => lset l j WLock | None => l end
  | NotifyAllWorkers => map wake_worker l
  | NotifyAllWaiters => map wake_waiter l
  end.
Definition next (st : state) (i : nat) : option (event * state) :=
  let '(ths, s) := st in
  if aborted s then None else
  match nth_error ths i with
  | Some p => match tnext i ths s p with Some (e, s', p', f) => Some (e, (napply f (lset ths i p'), s')) | None => None end
  | None => None
  end.
Lemma first_sleeper_some l : forall j, first_sleeper l = Some j -> nth_error l j = Some WSleep.
Proof.
  induction l as [|p l IH]; [discriminate|]. intros j H.
  assert (G : p = WSleep /\ j = O \/ option_map S (first_sleeper l) = Some j).
  { destruct p; try (right; exact H). left. injection H as <-. auto. }
  destruct G as [[-> ->]|G]; [reflexivity|]. destruct (first_sleeper l) as [k|]; [|discriminate]. injection G as <-. cbn. apply IH. reflexivity.
Qed.
Lemma first_sleeper_none l : first_sleeper l = None -> ~ In WSleep l.
Proof.
  induction l as [|p l IH]; [auto|]. intros H [E|E].
  - subst p. discriminate.
  - destruct p; try discriminate; cbn in H; (destruct (first_sleeper l); [discriminate|]; apply IH; [reflexivity|exact E]).
Qed.
Lemma napply_ok f l : notified f l (napply f l).
Proof.
  destruct f; cbn; [constructor| |constructor|constructor]. destruct (first_sleeper l) eqn:E.
  - apply n_one. apply first_sleeper_some. exact E.
  - apply n_nobody. apply first_sleeper_none. exact E.
Qed.
Lemma tnext_ok i ths s p e s' p' f : tnext i ths s p = Some (e, s', p', f) -> tstep i ths s p e s' p' f.
Proof.
  intros H. destruct p as [| | | | |n [subs]|n [|t subs]| | | | | | |[] t k|[|[t| |] [|c l]]| | | | | | | | | | | | ]; cbn in H; try discriminate;
    repeat match type of H with
    | (if ?b then _ else _) = _ => destruct b eqn:?
    | match tasks s with _ => _ end = _ => destruct (tasks s) as [|[? ?] ?] eqn:?
    end; try discriminate; injection H as <- <- <- <-; try (constructor; assumption); try constructor; try assumption.
  all: rewrite ?Bool.orb_true_iff, ?Bool.orb_false_iff, ?Bool.negb_true_iff, ?Bool.negb_false_iff in *;
    repeat match goal with H : _ /\ _ |- _ => destruct H end; rewrite ?Z.eqb_eq, ?Z.eqb_neq in *; try assumption; try congruence.
  - destruct (tasks s); [|right; discriminate]. destruct Heqb as [A|A]; [left; exact A|discriminate].
  - destruct (tasks s); [reflexivity|discriminate].
  - match goal with A : terminate s = true |- _ => pose proof (t_aabort i ths s t k A) as T; rewrite A in T; exact T end.
  - rewrite forallb_forall in Heqb. intros j p Hj E. specialize (Heqb (j, p)).
    assert (K : In (j, p) (combine (seq 0 (length ths)) ths)).
    { assert (G : forall (l : list pc) a k p, nth_error l k = Some p -> In ((a + k)%nat, p) (combine (seq a (length l)) l)).
      { clear. induction l as [|x l IH]; intros a [|k] p E; try discriminate; cbn [length seq combine].
        - injection E as <-. left. f_equal. lia.
        - right. replace (a + S k)%nat with (S a + k)%nat by lia. apply IH. exact E. }
      exact (G ths 0%nat j p E). }
    specialize (Heqb K). cbn in Heqb. rewrite !Bool.orb_true_iff in Heqb. destruct Heqb as [[A|A]|A].
    + apply Nat.eqb_eq in A. congruence.
    + left. exact A.
    + right. destruct p as [| | | | | | | | | | | | | |[|]| | | | | | | | | | | | ]; try discriminate. reflexivity.
  - rewrite forallb_forall in Heqb. intros j p E W. specialize (Heqb p (nth_error_In _ _ E)). rewrite W in Heqb. cbn in Heqb.
    destruct p; try discriminate. reflexivity.
Qed.
Lemma next_ok st i e st' : next st i = Some (e, st') -> step st (i, e) st'.
Proof.
  unfold next. destruct st as [ths s]. destruct (aborted s) eqn:A; [discriminate|]. destruct (nth_error ths i) as [p|] eqn:E; [|discriminate].
  destruct (tnext i ths s p) as [[[[e1 s1] p1] f1]|] eqn:T; [|discriminate]. intros H. injection H as -> <-.
  eapply step_thread; [exact A|exact E|apply tnext_ok; exact T|apply napply_ok].
Qed.
(** Run a schedule (threads that cannot move are skipped) *)
Fixpoint run (st : state) (sch : list nat) : list (nat * event) * state :=
  match sch with
  | [] => ([], st)
  | i :: sch' => match next st i with
                 | Some (e, st') => let '(tr, st2) := run st' sch' in ((i, e) :: tr, st2)
                 | None => run st sch'
                 end
  end.
Lemma run_ok s0 sch : forall tr0 st, exec s0 tr0 st -> exec s0 (tr0 ++ fst (run st sch)) (snd (run st sch)).
Proof.
  induction sch as [|i sch IH]; intros tr0 st X; cbn [run].
  - cbn. rewrite app_nil_r. exact X.
  - destruct (next st i) as [[e st']|] eqn:E; [|apply IH; exact X].
    specialize (IH (tr0 ++ [(i, e)]) st' (x_step _ _ _ _ _ X (next_ok _ _ _ _ E))).
    destruct (run st' sch) as [tr st2]. cbn [fst snd] in *. rewrite <- app_assoc in IH. exact IH.
Qed.
Definition visible (tr : list (nat * event)) : list (nat * event) := filter (fun e => match snd e with ETau => false | _ => true end) tr.

(** Two workers; the client (thread 2) submits two tasks, the first of which submits another one, waits for all, submits one
    more and destroys the pool. *)
Definition ex_progs : list (list call) := [[CAdd (Task [Task []]); CAdd (Task []); CWait; CAdd (Task []); CDestroy]].
Definition ex_sched : list nat := concat (repeat [2; 2; 0; 1; 1; 0; 2]%nat 60).
Example ex_visible : visible (fst (run (start 2 ex_progs) ex_sched)) =
  [(2, EAdd 0); (0, EStart 0); (2, EAdd 1); (2, EWaitCall); (0, EAdd 2); (0, EFinish 0); (1, EStart 1); (1, EFinish 1);
   (0, EStart 2); (0, EFinish 2); (2, EWaitRet); (2, EAdd 3); (2, EDestroyCall); (0, EStart 3); (0, EFinish 3); (2, EDestroyRet)]%nat.
Proof. vm_compute. reflexivity. Qed.
Example ex_proper : proper_use ex_progs.
Proof.
  split.
  - intros [|k] p l1 l2 E1 E2; [|destruct k; discriminate]. injection E1 as <-.
    destruct l1 as [|? [|? [|? [|? [|? [|? l1]]]]]]; try discriminate. injection E2 as _ _ _ _ E. symmetry. exact E.
  - intros [|j] [|k] p q E1 E2 _ _; try reflexivity; destruct j || destruct k; discriminate.
Qed.
Definition ex_tr := fst (run (start 2 ex_progs) ex_sched).
Definition ex_st := snd (run (start 2 ex_progs) ex_sched).
Example ex_exec : exec (start 2 ex_progs) ex_tr ex_st.
Proof. exact (run_ok (start 2 ex_progs) ex_sched [] _ (x_nil _)). Qed.
(* wait_all returned before the destructor was called: the trace splits as C31_wait_all and C31_destructor require *)
Definition event_dec (a b : event) : {a = b} + {a <> b}.
Proof. decide equality; apply Nat.eq_dec. Defined.
Definition happenedb (tr : list (nat * event)) (e : event) : bool := existsb (fun x => if event_dec e (snd x) then true else false) tr.
Lemma happenedb_iff tr e : happenedb tr e = true <-> happened tr e.
Proof.
  unfold happenedb, happened. rewrite existsb_exists, in_map_iff. split.
  - intros (x & H & E). destruct (event_dec e (snd x)); [|discriminate]. exists x. auto.
  - intros (x & E & H). exists x. split; [exact H|]. destruct (event_dec e (snd x)); [reflexivity|congruence].
Qed.
Fixpoint before_ret (tr : list (nat * event)) : nat := match tr with [] | (_, EWaitRet) :: _ => O | _ :: tr' => S (before_ret tr') end.
Example ex_wait : exists tr1 tr2, ex_tr = tr1 ++ (2%nat, EWaitRet) :: tr2 /\ ~ happened tr1 EDestroyCall /\
  happened tr1 (EAdd 0) /\ happened tr1 (EAdd 1) /\ happened tr1 (EAdd 2).
Proof.
  exists (firstn (before_ret ex_tr) ex_tr), (skipn (S (before_ret ex_tr)) ex_tr). split; [vm_compute; reflexivity|]. rewrite <- !happenedb_iff. vm_compute. repeat split; discriminate.
Qed.
Example ex_destroy : exists tr1, ex_tr = tr1 ++ [(2%nat, EDestroyRet)] /\ happened tr1 (EAdd 3).
Proof. exists (removelast ex_tr). split; [vm_compute; reflexivity|apply happenedb_iff; vm_compute; reflexivity]. Qed.
(* nothing can move any more, and nothing was aborted: the hypotheses of C31_no_deadlock *)
Example ex_end : (forall e st', ~ step ex_st e st') /\ ~ happened ex_tr EAbort.
Proof.
  split.
  - assert (E : ex_st = ([WExit; WExit; DDone], Pool [] 0 true false 4 false)) by (vm_compute; reflexivity). rewrite E. clear E.
    intros e st' S. inversion S as [l s i p e0 s' p' f l' Ha En T N]; subst. destruct i as [|[|[|i]]]; cbn in En; try discriminate; try (injection En as <-; inversion T).
    destruct i; discriminate.
  - rewrite <- happenedb_iff. vm_compute. discriminate.
Qed.
(* a task that submits a task while the destructor runs aborts the program *)
Example ex_abort : visible (fst (run (start 1 [[CAdd (Task [Task []]); CDestroy]]) (repeat 1 20 ++ repeat 0 20)%nat)) =
  [(1, EAdd 0); (1, EDestroyCall); (0, EStart 0); (0, EAbort)]%nat.
Proof. vm_compute. reflexivity. Qed.

Print Assumptions C31_at_most_once.
Print Assumptions C31_fifo.
Print Assumptions C31_wait_all.
Print Assumptions C31_destructor.
Print Assumptions C31_finitely_many_steps.
Print Assumptions C31_no_deadlock.
Print Assumptions C31_abort.
Print Assumptions C31_no_workers_refuted.
