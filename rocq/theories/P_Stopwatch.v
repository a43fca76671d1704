(** C85: the stopwatch and the resource monitor add up the episodes between start and stop; the memory usage is the one in the system's report. *)
From Verif Require Import Base M_Stopwatch.
From Coq Require Import Ascii String Permutation.
Local Open Scope Z_scope.
Local Open Scope list_scope.
Local Notation length := List.length.

(** ** Specification: a history is the list of calls with the times at which they were made *)
Definition history := list (watch_op * Z).
Definition call (l : history) (i : nat) : option watch_op := option_map fst (nth_error l i).
Definition time (l : history) (i : nat) : Z := match nth_error l i with Some (_, t) => t | None => 0 end.
(** Call i starts an episode that call j stops: in between, start is called again at most (to no effect), and the call
    before i is not a start (so that the watch does not run yet) *)
Definition episode (l : history) (i j : nat) : Prop :=
  (i < j)%nat /\ call l i = Some Start /\ call l j = Some Stop /\ (forall k, (i < k < j)%nat -> call l k = Some Start) /\
  (forall k, S k = i -> call l k <> Some Start).
Definition not_reset_after (l : history) (j : nat) : Prop := forall k, (j < k)%nat -> call l k <> Some Reset.
(** The episodes since the last reset, each of them once *)
Definition episodes (l : history) (eps : list (nat * nat)) : Prop :=
  NoDup eps /\ forall i j, In (i, j) eps <-> episode l i j /\ not_reset_after l j.
Definition duration (l : history) (p : nat * nat) : Z := time l (snd p) - time l (fst p).
Definition sum (l : list Z) : Z := fold_right Z.add 0 l.
(** A clock that does not run backwards *)
Definition steady (l : history) : Prop := forall i j, (i <= j < length l)%nat -> time l i <= time l j.

(** ** Proofs *)
Lemma call_app l e i : (i < length l)%nat -> call (l ++ [e]) i = call l i.
Proof. intros H. unfold call. rewrite nth_error_app1 by exact H. reflexivity. Qed.
Lemma call_last l e : call (l ++ [e]) (length l) = Some (fst e).
Proof. unfold call. rewrite nth_error_app2 by lia. rewrite Nat.sub_diag. reflexivity. Qed.
Lemma call_lt l i o : call l i = Some o -> (i < length l)%nat.
Proof. unfold call. intros H. apply nth_error_Some. destruct (nth_error l i); discriminate. Qed.
Lemma call_some l i : (i < length l)%nat -> exists o, call l i = Some o.
Proof. intros H. unfold call. destruct (nth_error l i) eqn:E; [cbn; eauto|]. apply nth_error_None in E. lia. Qed.
Lemma call_ge l i : (length l <= i)%nat -> call l i = None.
Proof. intros H. unfold call. apply nth_error_None in H. rewrite H. reflexivity. Qed.
Lemma time_app l e i : (i < length l)%nat -> time (l ++ [e]) i = time l i.
Proof. intros H. unfold time. rewrite nth_error_app1 by exact H. reflexivity. Qed.
Lemma time_last l e : time (l ++ [e]) (length l) = snd e.
Proof. unfold time. rewrite nth_error_app2 by lia. rewrite Nat.sub_diag. cbn. destruct e; reflexivity. Qed.
Lemma sum_perm a b : Permutation a b -> sum a = sum b.
Proof. unfold sum. induction 1; cbn; lia. Qed.

Lemma episode_lt l i j : episode l i j -> (i < j < length l)%nat.
Proof. intros (H & _ & S & _). apply call_lt in S. lia. Qed.
Lemma episode_app l e i j : (j < length l)%nat -> episode (l ++ [e]) i j <-> episode l i j.
Proof.
  intros H. unfold episode. split; intros (A & B & C & D & E).
  - rewrite call_app in B, C by lia. split; [exact A|]. split; [exact B|]. split; [exact C|]. split.
    + intros k Hk. rewrite <- (call_app l e) by lia. apply D. exact Hk.
    + intros k Hk X. apply (E k Hk). rewrite call_app by lia. exact X.
  - rewrite !call_app by lia. split; [exact A|]. split; [exact B|]. split; [exact C|]. split.
    + intros k Hk. rewrite call_app by lia. apply D. exact Hk.
    + intros k Hk X. rewrite call_app in X by lia. apply (E k Hk). exact X.
Qed.
Lemma not_reset_app l e j : (j < length l)%nat -> fst e <> Reset -> not_reset_after (l ++ [e]) j <-> not_reset_after l j.
Proof.
  intros H N. unfold not_reset_after. split; intros A k Hk X.
  - pose proof (call_lt _ _ _ X). apply (A k Hk). rewrite call_app by lia. exact X.
  - pose proof (call_lt _ _ _ X) as L. rewrite app_length in L. cbn in L. destruct (Nat.eq_dec k (length l)) as [->|Q].
    + rewrite call_last in X. injection X as X. contradiction.
    + rewrite call_app in X by lia. apply (A k Hk X).
Qed.
(** What the members hold *)
Record holds (l : history) (s : stopwatch) : Prop := {
  h_run : sw_running s = true -> exists i, call l i = Some Start /\ (forall k, (i < k < length l)%nat -> call l k = Some Start) /\
            (forall k, S k = i -> call l k <> Some Start) /\ sw_start s = time l i;
  h_idle : sw_running s = false -> forall k, S k = length l -> call l k <> Some Start;
  h_eps : exists eps, episodes l eps /\ sw_total s = sum (map (duration l) eps);
  h_last : (forall i j, episode l i j -> not_reset_after l j -> (forall i' j', episode l i' j' -> (j' <= j)%nat) -> sw_last s = duration l (i, j)) /\
           ((forall i j, episode l i j -> ~ not_reset_after l j) -> sw_last s = 0) }.
Lemma sw_run_app l e : sw_run (l ++ [e]) = sw_call (sw_run l) e.
Proof. unfold sw_run. rewrite fold_left_app. reflexivity. Qed.
Lemma dur_app l e eps : (forall i j, In (i, j) eps -> (i < j < length l)%nat) -> map (duration (l ++ [e])) eps = map (duration l) eps.
Proof. intros H. apply map_ext_in. intros [i j] I. specialize (H i j I). unfold duration. cbn. rewrite !time_app by lia. reflexivity. Qed.
(** A call that completes no episode and is not a reset *)
Lemma eps_same l e eps : fst e <> Reset -> (forall i, ~ episode (l ++ [e]) i (length l)) -> episodes l eps -> episodes (l ++ [e]) eps.
Proof.
  intros N X [ND H]. split; [exact ND|]. intros i j. rewrite H. split; intros [A B].
  - pose proof (episode_lt _ _ _ A). split; [apply episode_app; [lia|exact A]|apply not_reset_app; [lia|exact N|exact B]].
  - pose proof (episode_lt _ _ _ A) as L. rewrite app_length in L. cbn in L. destruct (Nat.eq_dec j (length l)) as [->|Q]; [exfalso; exact (X i A)|].
    split; [rewrite episode_app in A by lia; exact A|rewrite not_reset_app in B; [exact B|lia|exact N]].
Qed.
Lemma holds_same l e s s' : fst e <> Reset -> (forall i, ~ episode (l ++ [e]) i (length l)) -> holds l s ->
  sw_last s' = sw_last s -> sw_total s' = sw_total s ->
  (exists eps, episodes (l ++ [e]) eps /\ sw_total s' = sum (map (duration (l ++ [e])) eps)) /\
  ((forall i j, episode (l ++ [e]) i j -> not_reset_after (l ++ [e]) j -> (forall i' j', episode (l ++ [e]) i' j' -> (j' <= j)%nat) -> sw_last s' = duration (l ++ [e]) (i, j)) /\
   ((forall i j, episode (l ++ [e]) i j -> ~ not_reset_after (l ++ [e]) j) -> sw_last s' = 0)).
Proof.
  intros N X [_ _ (eps & He & Ht) [L1 L2]] E1 E2. rewrite E1, E2.
  assert (Q : forall i j, episode (l ++ [e]) i j -> (i < j < length l)%nat).
  { intros i j A. pose proof (episode_lt _ _ _ A) as L. rewrite app_length in L. cbn in L. destruct (Nat.eq_dec j (length l)) as [->|Q]; [exfalso; exact (X i A)|lia]. }
  split; [|split].
  - exists eps. split; [apply eps_same; assumption|]. rewrite dur_app; [exact Ht|]. intros i j I. apply He in I. apply episode_lt, I.
  - intros i j A B M. pose proof (Q i j A). unfold duration. cbn [fst snd]. rewrite !time_app by lia. apply (L1 i j).
    + rewrite episode_app in A by lia; exact A.
    + rewrite not_reset_app in B; [exact B|lia|exact N].
    + intros i' j' A'. apply (M i'). apply episode_app; [apply episode_lt in A'; lia|exact A'].
  - intros M. apply L2. intros i j A B. pose proof (episode_lt _ _ _ A). apply (M i j); [apply episode_app; [lia|exact A]|apply not_reset_app; [lia|exact N|exact B]].
Qed.
Lemma sw_holds l : holds l (sw_run l).
Proof.
  induction l as [|e l IH] using rev_ind.
  { split.
    - discriminate.
    - intros _ k H. cbn in H. lia.
    - exists []. split; [|reflexivity]. split; [constructor|]. intros i j. split; [intros []|]. intros [A _]. apply episode_lt in A. cbn in A. lia.
    - split; [|reflexivity]. intros i j A. apply episode_lt in A. cbn in A. lia. }
  rewrite sw_run_app. remember (sw_run l) as s eqn:Es. clear Es. destruct e as [[| |] t].
  - (* start *)
    assert (NE : forall i, ~ episode (l ++ [(Start, t)]) i (length l)). { intros i (_ & _ & C & _). rewrite call_last in C. discriminate C. }
    assert (Eq : sw_last (sw_call s (Start, t)) = sw_last s /\ sw_total (sw_call s (Start, t)) = sw_total s).
    { cbn. unfold sw_do_start. destruct (sw_running s); split; reflexivity. }
    destruct (holds_same l (Start, t) s _ ltac:(discriminate) NE IH (proj1 Eq) (proj2 Eq)) as (Q1 & Q2). split; [| |exact Q1|exact Q2].
    + intros _. cbn. unfold sw_do_start. destruct IH as [Hr Hi _ _]. destruct (sw_running s) eqn:R.
      * destruct (Hr eq_refl) as (i & A & B & C & D). pose proof (call_lt _ _ _ A). exists i. rewrite call_app by lia. split; [exact A|]. split; [|split].
        -- intros k Hk. rewrite app_length in Hk. cbn in Hk. destruct (Nat.eq_dec k (length l)) as [->|Q]; [apply call_last|]. rewrite call_app by lia. apply B. lia.
        -- intros k Hk. rewrite call_app by lia. apply C. exact Hk.
        -- rewrite time_app by lia. exact D.
      * exists (length l). split; [apply call_last|]. split; [|split].
        -- intros k Hk. rewrite app_length in Hk. cbn in Hk. lia.
        -- intros k Hk. rewrite call_app by lia. apply Hi; [reflexivity|exact Hk].
        -- cbn. rewrite time_last. reflexivity.
    + cbn. unfold sw_do_start. destruct (sw_running s) eqn:R; [rewrite R|]; discriminate.
  - (* stop *)
    cbn. unfold sw_do_stop. destruct (sw_running s) eqn:R; cbn [negb].
    + pose proof IH as [Hr _ (eps & He & Ht) _]. destruct (Hr R) as (i & A & B & C & D). pose proof (call_lt _ _ _ A) as L.
      assert (NE : episode (l ++ [(Stop, t)]) i (length l)).
      { split; [exact L|]. split; [rewrite call_app by lia; exact A|]. split; [apply call_last|]. split.
        - intros k Hk. rewrite call_app by lia. apply B. exact Hk.
        - intros k Hk. rewrite call_app by lia. apply C. exact Hk. }
      assert (UN : forall i', episode (l ++ [(Stop, t)]) i' (length l) -> i' = i).
      { intros i' (A' & B' & _ & D' & E'). destruct (Nat.lt_trichotomy i i') as [Q|[Q|Q]]; [|auto|].
        - exfalso. destruct i' as [|k]; [lia|]. apply (E' k eq_refl). rewrite call_app by lia. destruct (Nat.eq_dec k i) as [->|Q']; [exact A|]. apply B. lia.
        - exfalso. destruct i as [|k]; [lia|]. apply (C k eq_refl). rewrite <- (call_app l (Stop, t)) by lia. destruct (Nat.eq_dec k i') as [->|Q']; [exact B'|]. apply D'. lia. }
      assert (NR : not_reset_after (l ++ [(Stop, t)]) (length l)). { intros k Hk X. apply call_lt in X. rewrite app_length in X. cbn in X. lia. }
      assert (DU : duration (l ++ [(Stop, t)]) (i, length l) = t - sw_start s). { unfold duration. cbn [fst snd]. rewrite time_last, time_app, D by lia. reflexivity. }
      split; [discriminate| | |].
      * intros _ k Hk. rewrite app_length in Hk. cbn in Hk. assert (k = length l) as -> by lia. rewrite call_last. discriminate.
      * exists ((i, length l) :: eps). split.
        -- destruct He as [ND He]. split.
           ++ constructor; [|exact ND]. intros X. apply He in X. destruct X as [X _]. apply episode_lt in X. lia.
           ++ intros i' j'. cbn [In]. rewrite He. split.
              ** intros [X|[X Y]]; [injection X as <- <-; split; assumption|]. pose proof (episode_lt _ _ _ X). split; [apply episode_app; [lia|exact X]|apply not_reset_app; [lia|discriminate|exact Y]].
              ** intros [X Y]. pose proof (episode_lt _ _ _ X) as L'. rewrite app_length in L'. cbn in L'. destruct (Nat.eq_dec j' (length l)) as [->|Q].
                 --- left. rewrite (UN i' X). reflexivity.
                 --- right. split; [rewrite episode_app in X by lia; exact X|rewrite not_reset_app in Y; [exact Y|lia|discriminate]].
        -- cbn [map sum fold_right sw_total]. rewrite DU, dur_app; [unfold sum in Ht; rewrite Ht; unfold sum; lia|]. intros i' j' I. apply He in I. apply episode_lt, I.
      * cbn [sw_last]. split.
        -- intros i' j' X Y M. assert (j' = length l) as ->.
           { specialize (M i (length l) NE). pose proof (episode_lt _ _ _ X) as L'. rewrite app_length in L'. cbn in L'. lia. }
           rewrite (UN i' X), DU. reflexivity.
        -- intros X. exfalso. exact (X i (length l) NE NR).
    + assert (NE : forall i, ~ episode (l ++ [(Stop, t)]) i (length l)).
      { intros i (A & B & _ & D & _). destruct IH as [_ Hi _ _]. assert (K : exists k, S k = length l) by (exists (length l - 1)%nat; lia). destruct K as (k & Hk).
        apply (Hi R k Hk). rewrite <- (call_app l (Stop, t)) by lia. destruct (Nat.eq_dec k i) as [->|Q]; [exact B|]. apply D. lia. }
      destruct (holds_same l (Stop, t) s s ltac:(discriminate) NE IH eq_refl eq_refl) as (Q1 & Q2). split; [rewrite R; discriminate| |exact Q1|exact Q2].
      intros _ k Hk. rewrite app_length in Hk. cbn in Hk. assert (k = length l) as -> by lia. rewrite call_last. discriminate.
  - (* reset *)
    assert (NE : forall i j, episode (l ++ [(Reset, t)]) i j -> ~ not_reset_after (l ++ [(Reset, t)]) j).
    { intros i j A B. pose proof (episode_lt _ _ _ A) as L. rewrite app_length in L. cbn in L. destruct (Nat.eq_dec j (length l)) as [->|Q].
      - destruct A as (_ & _ & A & _). rewrite call_last in A. discriminate A.
      - apply (B (length l)); [lia|]. apply call_last. }
    split; [discriminate| | |].
    + intros _ k Hk. rewrite app_length in Hk. cbn in Hk. assert (k = length l) as -> by lia. rewrite call_last. discriminate.
    + exists []. split; [|reflexivity]. split; [constructor|]. intros i j. split; [intros []|]. intros [A B]. exact (NE i j A B).
    + split; [|reflexivity]. intros i j A B _. exfalso. exact (NE i j A B).
Qed.

(** ** Theorems *)
(** The total is the sum of the durations of all episodes since the last reset; there is exactly one list of them up to order. *)
Theorem C85_total : forall l,
  (exists eps, episodes l eps) /\ forall eps, episodes l eps -> sw_total (sw_run l) = sum (map (duration l) eps).
Proof.
  intros l. destruct (sw_holds l) as [_ _ (eps & He & Ht) _]. split; [exists eps; exact He|]. intros eps' He'. rewrite Ht. apply sum_perm. apply Permutation_map.
  destruct He as [N H], He' as [N' H']. apply NoDup_Permutation; [exact N|exact N'|]. intros [i j]. rewrite H, H'. reflexivity.
Qed.
(** The last episode's duration is that of the latest completed episode, and 0 if there is none since the last reset. *)
Theorem C85_last : forall l,
  (forall i j, episode l i j -> not_reset_after l j -> (forall i' j', episode l i' j' -> (j' <= j)%nat) -> sw_last (sw_run l) = time l j - time l i) /\
  ((forall i j, episode l i j -> ~ not_reset_after l j) -> sw_last (sw_run l) = 0).
Proof. intros l. exact (h_last _ _ (sw_holds l)). Qed.
(** The watch runs exactly if the latest call is a start (possibly a repeated one). *)
Theorem C85_running : forall l, sw_running (sw_run l) = true <-> exists k, S k = length l /\ call l k = Some Start.
Proof.
  intros l. destruct (sw_holds l) as [Hr Hi _ _]. destruct (sw_running (sw_run l)) eqn:R; split; intros H.
  - destruct (Hr eq_refl) as (i & A & B & _). pose proof (call_lt _ _ _ A). exists (length l - 1)%nat. split; [lia|].
    destruct (Nat.eq_dec (length l - 1) i) as [->|Q]; [exact A|]. apply B. lia.
  - reflexivity.
  - discriminate.
  - destruct H as (k & H & X). exfalso. exact (Hi eq_refl k H X).
Qed.
(** With a clock that does not run backwards, durations are not negative, the last one is part of the total, and the total is at most
    the time from the first to the last call. *)
Theorem C85_bounds : forall l, steady l -> l <> [] ->
  0 <= sw_last (sw_run l) <= sw_total (sw_run l) /\ sw_total (sw_run l) <= time l (length l - 1) - time l 0.
Proof.
  intros l Hs Hn. enough (X : (sw_running (sw_run l) = true -> time l 0 <= sw_start (sw_run l) <= time l (length l - 1)) /\
    0 <= sw_last (sw_run l) <= sw_total (sw_run l) /\
    sw_total (sw_run l) <= (if sw_running (sw_run l) then sw_start (sw_run l) else time l (length l - 1)) - time l 0).
  { destruct X as (A & B & C). split; [exact B|]. destruct (sw_running (sw_run l)); [specialize (A eq_refl)|]; lia. }
  induction l as [|e l IH] using rev_ind; [contradiction|]. rewrite sw_run_app.
  assert (E : time (l ++ [e]) (length (l ++ [e]) - 1) = snd e). { rewrite app_length. cbn [List.length]. replace (length l + 1 - 1)%nat with (length l) by lia. apply time_last. }
  rewrite E. destruct l as [|e0 l'].
  { destruct e as [[| |] t]; cbn; lia. }
  remember (e0 :: l') as l eqn:El. assert (L : (0 < length l)%nat) by (rewrite El; cbn; lia).
  assert (Hs' : steady l). { intros i j H. specialize (Hs i j). rewrite app_length in Hs. cbn in Hs. rewrite !time_app in Hs by lia. apply Hs. lia. }
  specialize (IH Hs' ltac:(rewrite El; discriminate)). destruct IH as (A & B & C).
  assert (M : time l (length l - 1) <= snd e). { specialize (Hs (length l - 1)%nat (length l)). rewrite app_length, time_last, time_app in Hs by lia. cbn [List.length] in Hs. apply Hs. lia. }
  assert (M0 : time l 0 <= time l (length l - 1)) by (apply Hs'; lia). rewrite time_app by lia.
  clear El Hs Hs' E. generalize dependent (time l (length l - 1)). generalize (time l 0). generalize dependent (sw_run l). clear. intros s B t0 t1 A C M M0.
  destruct s as [r st la to], e as [[| |] t]; cbn in *; unfold sw_do_start, sw_do_stop; destruct r; cbn in *; try specialize (A eq_refl);
    repeat split; intros; try discriminate; try lia.
Qed.
(** The resource monitor is a pair of stopwatches, one for the CPU's and one for the wall clock; a clock reading is a number of seconds and
    nanoseconds. *)
Definition nanoseconds (t : timespec) : Z := tv_sec t * 1000000000 + tv_nsec t.
Theorem C85_monitor : forall l : list (watch_op * (timespec * timespec)),
  let cpu := sw_run (map (fun e => (fst e, nanoseconds (fst (snd e)))) l) in
  let wall := sw_run (map (fun e => (fst e, nanoseconds (snd (snd e)))) l) in
  let s := rm_run l in
  rm_running s = sw_running cpu /\ rm_running s = sw_running wall /\
  rm_last_cpu s = sw_last cpu /\ rm_last_wall s = sw_last wall /\ rm_total_cpu s = sw_total cpu /\ rm_total_wall s = sw_total wall.
Proof.
  intros l. cbv zeta.
  enough (X : let s := rm_run l in let cpu := sw_run (map (fun e => (fst e, nanoseconds (fst (snd e)))) l) in
    let wall := sw_run (map (fun e => (fst e, nanoseconds (snd (snd e)))) l) in
    cpu = SW (rm_running s) (nanoseconds (rm_cpu_start s)) (rm_last_cpu s) (rm_total_cpu s) /\
    wall = SW (rm_running s) (nanoseconds (rm_wall_start s)) (rm_last_wall s) (rm_total_wall s)).
  { destruct X as [-> ->]. repeat split. }
  induction l as [|[op [c w]] l IH] using rev_ind; [split; reflexivity|]. cbv zeta in *. rewrite !map_app. cbn [map]. rewrite !sw_run_app. destruct IH as [-> ->].
  unfold rm_run. rewrite fold_left_app. cbn [fold_left]. fold (rm_run l). destruct (rm_run l) as [r cs ws lc lw tc tw]. cbn [fst snd rm_running rm_cpu_start rm_wall_start rm_last_cpu rm_last_wall rm_total_cpu rm_total_wall].
  destruct op; cbn; unfold sw_do_start, sw_do_stop, rm_do_start, rm_do_stop; destruct r; cbn; split; try reflexivity;
    unfold computeDuration, nanoseconds; f_equal; lia.
Qed.
Print Assumptions C85_total.
Print Assumptions C85_last.
Print Assumptions C85_running.
Print Assumptions C85_bounds.
Print Assumptions C85_monitor.

(** Two episodes after a reset, with a repeated start and a stop too many *)
Definition ex_history : history :=
  [(Start, 0); (Stop, 5); (Reset, 6); (Start, 10); (Start, 12); (Stop, 17); (Stop, 18); (Start, 20); (Stop, 24); (Start, 30)].
Example C85_ex : steady ex_history /\ episode ex_history 3 5 /\ episode ex_history 7 8 /\ not_reset_after ex_history 5 /\
  sw_total (sw_run ex_history) = 11 /\ sw_last (sw_run ex_history) = 4 /\ sw_running (sw_run ex_history) = true.
Proof.
  split; [|split; [|split; [|split]]].
  - intros i j H. cbn in H. do 10 (destruct i as [|i]; [do 10 (destruct j as [|j]; [cbn; lia|]); lia|]). lia.
  - split; [lia|]. split; [reflexivity|]. split; [reflexivity|]. split; intros k H.
    + assert (k = 4)%nat as -> by lia. reflexivity.
    + injection H as ->. discriminate.
  - split; [lia|]. split; [reflexivity|]. split; [reflexivity|]. split; intros k H; [lia|]. injection H as ->. discriminate.
  - intros k H. do 10 (destruct k as [|k]; [try lia; discriminate|]). destruct k; discriminate.
  - repeat split.
Qed.

(** ** Memory usage *)
(** A report with the complete lines [before], the complete line [line] and then [after] *)
Definition complete (lines : list text) : text := flat_map (fun l => l ++ [newline]) lines.
Definition is_line (l : text) : Prop := ~ In newline l.
Definition begins_with (p l : text) : Prop := exists r, l = p ++ r.
Definition spaces (l : text) : Prop := forall c, In c l -> is_space c = true.
Definition word (l : text) : Prop := l <> [] /\ forall c, In c l -> is_space c = false.
(** A number in decimal digits *)
Inductive decimal : text -> Z -> Prop :=
| dec_one c : (48 <= nat_of_ascii c <= 57)%nat -> decimal [c] (Z.of_nat (nat_of_ascii c) - 48)
| dec_more l v c : decimal l v -> (48 <= nat_of_ascii c <= 57)%nat -> decimal (l ++ [c]) (10 * v + (Z.of_nat (nat_of_ascii c) - 48)).
(** A line with a word, white space, a number that fits into 64 bits, and the unit kB; more words may follow. A number with a minus sign counts
    from 2^64 downwards. *)
Definition entry (line : text) (n : Z) : Prop :=
  exists w s1 sg ds v s2 tail, line = w ++ s1 ++ sg ++ ds ++ s2 ++ list_ascii_of_string "kB" ++ tail /\
    word w /\ spaces s1 /\ s1 <> [] /\ decimal ds v /\ v < 2 ^ 64 /\ spaces s2 /\ (tail = [] \/ exists c r, tail = c :: r /\ is_space c = true) /\
    ((sg = [] \/ sg = ["+"%char]) /\ n = v \/ sg = ["-"%char] /\ n = (- v) mod 2 ^ 64).

Lemma is_space_newline : is_space newline = true. Proof. reflexivity. Qed.
Lemma starts_with_spec p : forall l, starts_with p l = true <-> begins_with p l.
Proof.
  unfold begins_with. induction p as [|c p IH]; intros l; cbn.
  - split; [intros _; exists l; reflexivity|reflexivity].
  - destruct l as [|d l]; [split; [discriminate|intros (r & H); discriminate]|]. rewrite andb_true_iff, IH, Ascii.eqb_eq. split.
    + intros [-> (r & ->)]. exists r. reflexivity.
    + intros (r & H). injection H as -> ->. split; [reflexivity|exists r; reflexivity].
Qed.
Lemma take_line_full l : forall r, is_line l -> take_line (l ++ newline :: r) = (l, r, false).
Proof.
  induction l as [|c l IH]; intros r H; [reflexivity|]. cbn. destruct (Ascii.eqb_spec c newline) as [->|N]; [exfalso; apply H; left; reflexivity|].
  rewrite IH by (intros X; apply H; right; exact X). reflexivity.
Qed.
Lemma take_line_end l : is_line l -> take_line l = (l, [], true).
Proof.
  induction l as [|c l IH]; intros H; [reflexivity|]. cbn. destruct (Ascii.eqb_spec c newline) as [->|N]; [exfalso; apply H; left; reflexivity|].
  rewrite IH by (intros X; apply H; right; exact X). reflexivity.
Qed.
Lemma find_line_skip before : forall fuel rest, (forall l, In l before -> is_line l /\ ~ begins_with VmRSS l) ->
  (length (complete before ++ rest) < fuel)%nat -> exists fuel', (length rest < fuel')%nat /\ find_line fuel (complete before ++ rest) = find_line fuel' rest.
Proof.
  induction before as [|l before IH]; intros fuel rest H Hf; [exists fuel; split; [exact Hf|reflexivity]|].
  destruct (H l (or_introl eq_refl)) as [L N]. cbn [complete flat_map] in *. fold (complete before) in *. rewrite <- !app_assoc in *. cbn [app] in *.
  destruct fuel as [|fuel]; [lia|]. destruct (IH fuel rest) as (fuel' & F1 & F2).
  - intros l' H'. apply H. right. exact H'.
  - rewrite app_length in Hf. cbn [List.length] in Hf. lia.
  - exists fuel'. split; [exact F1|]. cbn [find_line]. rewrite take_line_full by exact L. destruct (starts_with VmRSS l) eqn:E; [apply starts_with_spec in E; contradiction|].
    rewrite F2. destruct l; reflexivity.
Qed.
(** Every text consists of complete lines and a last line without newline *)
Lemma text_lines (f : text) : exists lines end_, f = complete lines ++ end_ /\ (forall l, In l lines -> is_line l) /\ is_line end_.
Proof.
  induction f as [|c f (lines & e & -> & A & B)]; [exists [], []; split; [reflexivity|]; split; [intros l []|intros []]|].
  destruct (ascii_dec c newline) as [->|N].
  - exists ([] :: lines), e. split; [reflexivity|]. split; [|exact B]. intros l [<-|H]; [intros []|exact (A l H)].
  - destruct lines as [|l lines].
    + exists [], (c :: e). split; [reflexivity|]. split; [intros l []|]. intros [X|X]; [contradiction|exact (B X)].
    + exists ((c :: l) :: lines), e. split; [reflexivity|]. split; [|exact B]. intros l' [<-|H]; [|apply A; right; exact H].
      intros [X|X]; [contradiction|]. exact (A l (or_introl eq_refl) X).
Qed.
Lemma skip_space_spec s l : spaces s -> (forall c r, l = c :: r -> is_space c = false) -> skip_space (s ++ l) = l.
Proof.
  intros H N. induction s as [|c s IH]; cbn.
  - destruct l as [|c l]; [reflexivity|]. cbn. rewrite (N c l eq_refl). reflexivity.
  - rewrite (H c (or_introl eq_refl)). apply IH. intros c' X. apply H. right. exact X.
Qed.
Lemma skip_space_inv l : exists s r, l = s ++ r /\ spaces s /\ skip_space l = r /\ (forall c r', r = c :: r' -> is_space c = false).
Proof.
  induction l as [|c l (s & r & -> & A & B & C)]; [exists [], []; repeat split; [intros c []|discriminate]|]. cbn. destruct (is_space c) eqn:E.
  - exists (c :: s), r. split; [reflexivity|]. split; [intros c' [<-|H]; [exact E|exact (A c' H)]|]. split; [exact B|exact C].
  - exists [], (c :: s ++ r). split; [reflexivity|]. split; [intros c' []|]. split; [reflexivity|]. intros c' r' H. injection H as <- _. exact E.
Qed.
Lemma take_word_spec w r : (forall c, In c w -> is_space c = false) -> (r = [] \/ exists c r', r = c :: r' /\ is_space c = true) -> take_word (w ++ r) = (w, r).
Proof.
  intros H R. induction w as [|c w IH]; cbn.
  - destruct R as [->|(c & r' & -> & E)]; [reflexivity|]. cbn. rewrite E. reflexivity.
  - rewrite (H c (or_introl eq_refl)). rewrite IH; [reflexivity|]. intros c' X. apply H. right. exact X.
Qed.
Lemma take_word_inv l w r : take_word l = (w, r) -> l = w ++ r /\ (forall c, In c w -> is_space c = false) /\ (r = [] \/ exists c r', r = c :: r' /\ is_space c = true).
Proof.
  revert w r. induction l as [|c l IH]; intros w r; cbn.
  - intros H. injection H as <- <-. split; [reflexivity|]. split; [intros c []|left; reflexivity].
  - destruct (is_space c) eqn:E.
    + intros H. injection H as <- <-. split; [reflexivity|]. split; [intros c' []|]. right. exists c, l. split; [reflexivity|exact E].
    + destruct (take_word l) as [w' r'] eqn:F. intros H. injection H as <- <-. destruct (IH _ _ eq_refl) as (-> & A & B). split; [reflexivity|]. split; [|exact B].
      intros c' [<-|X]; [exact E|exact (A c' X)].
Qed.
Lemma digit_spec c d : digit c = Some d <-> (48 <= nat_of_ascii c <= 57)%nat /\ d = Z.of_nat (nat_of_ascii c) - 48.
Proof.
  unfold digit. destruct ((0 <=? Z.of_nat (nat_of_ascii c) - 48) && (Z.of_nat (nat_of_ascii c) - 48 <=? 9)) eqn:E.
  - rewrite andb_true_iff, !Z.leb_le in E. split; [intros H; injection H as <-; split; lia|intros [_ ->]; reflexivity].
  - rewrite andb_false_iff, !Z.leb_gt in E. split; [discriminate|]. intros [H _]. lia.
Qed.
Fixpoint value (acc : Z) (l : text) : Z := match l with [] => acc | c :: l => value (10 * acc + (Z.of_nat (nat_of_ascii c) - 48)) l end.
Lemma value_app l l' : forall acc, value acc (l ++ l') = value (value acc l) l'.
Proof. induction l as [|c l IH]; intros acc; [reflexivity|]. cbn. apply IH. Qed.
Lemma decimal_value ds v : decimal ds v <-> ds <> [] /\ (forall c, In c ds -> (48 <= nat_of_ascii c <= 57)%nat) /\ v = value 0 ds.
Proof.
  split.
  - induction 1 as [c H|l v c D (A & B & ->) H].
    + split; [discriminate|]. split; [intros c' [<-|[]]; exact H|]. cbn. lia.
    + split; [destruct l; discriminate|]. split; [|rewrite value_app; reflexivity]. intros c' X. apply in_app_iff in X. destruct X as [X|[<-|[]]]; [exact (B c' X)|exact H].
  - intros (N & H & ->). induction ds as [|c ds IH] using rev_ind; [contradiction|]. rewrite value_app. cbn [value]. destruct ds as [|d ds].
    + cbn. replace (Z.of_nat (nat_of_ascii c) - 48) with (Z.of_nat (nat_of_ascii c) - 48) by lia. apply dec_one. apply H. left. reflexivity.
    + apply dec_more; [apply IH; [discriminate|intros c' X; apply H; apply in_app_iff; left; exact X]|apply H; apply in_app_iff; right; left; reflexivity].
Qed.
Lemma take_digits_spec ds r : forall acc seen, (forall c, In c ds -> (48 <= nat_of_ascii c <= 57)%nat) -> (forall c r', r = c :: r' -> digit c = None) ->
  take_digits acc seen (ds ++ r) = (value acc ds, match ds with [] => seen | _ => true end, r).
Proof.
  induction ds as [|c ds IH]; intros acc seen H N; cbn.
  - destruct r as [|c r]; [reflexivity|]. cbn. rewrite (N c r eq_refl). reflexivity.
  - replace (digit c) with (Some (Z.of_nat (nat_of_ascii c) - 48)) by (symmetry; apply digit_spec; split; [apply H; left; reflexivity|reflexivity]).
    rewrite IH; [destruct ds; reflexivity| |exact N]. intros c' X. apply H. right. exact X.
Qed.
Lemma take_digits_inv l : exists ds r, l = ds ++ r /\ (forall c, In c ds -> (48 <= nat_of_ascii c <= 57)%nat) /\ (forall c r', r = c :: r' -> digit c = None).
Proof.
  induction l as [|c l (ds & r & -> & A & B)]; [exists [], []; split; [reflexivity|]; split; [intros c []|discriminate]|].
  destruct (digit c) as [d|] eqn:E.
  - exists (c :: ds), r. split; [reflexivity|]. split; [|exact B]. intros c' [<-|X]; [apply digit_spec in E; apply E|exact (A c' X)].
  - exists [], (c :: ds ++ r). split; [reflexivity|]. split; [intros c' []|]. intros c' r' H. injection H as <- _. exact E.
Qed.
Lemma not_space_range c : is_space c = true -> digit c = None /\ c <> "-"%char /\ c <> "+"%char.
Proof. destruct c as [[] [] [] [] [] [] [] []]; cbn; intros H; try discriminate H; repeat split; discriminate. Qed.
Lemma read_word_some l w r : read_word l = Some (w, r) <->
  exists s, l = s ++ w ++ r /\ spaces s /\ word w /\ (r = [] \/ exists c r', r = c :: r' /\ is_space c = true).
Proof.
  unfold read_word. split.
  - destruct (skip_space_inv l) as (s & m & -> & A & -> & _). destruct (take_word m) as [w' r'] eqn:E. apply take_word_inv in E. destruct E as (-> & B & C).
    destruct w' as [|c w']; [discriminate|]. intros H. injection H as <- <-. exists s. split; [reflexivity|]. split; [exact A|]. split; [split; [discriminate|exact B]|exact C].
  - intros (s & -> & A & [B1 B2] & C). destruct w as [|c w]; [contradiction|]. rewrite skip_space_spec; [|exact A|].
    + rewrite take_word_spec by assumption. reflexivity.
    + intros c' r' H. injection H as <- _. apply B2. left. reflexivity.
Qed.
Lemma read_size_some l n r : read_size l = Some (n, r) <->
  exists s sg ds v, l = s ++ sg ++ ds ++ r /\ spaces s /\ decimal ds v /\ v < 2 ^ 64 /\ (forall c r', r = c :: r' -> digit c = None) /\
    ((sg = [] \/ sg = ["+"%char]) /\ n = v \/ sg = ["-"%char] /\ n = (- v) mod 2 ^ 64).
Proof.
  assert (K : forall (neg : bool) (m : text), (let '(v, seen, r') := take_digits 0 false m in if negb seen || (size_max <? v) then None else Some (if neg then (- v) mod 2 ^ 64 else v, r')) = Some (n, r) <->
    exists ds v, m = ds ++ r /\ decimal ds v /\ v < 2 ^ 64 /\ (forall c r', r = c :: r' -> digit c = None) /\ n = if neg then (- v) mod 2 ^ 64 else v).
  { intros neg m. split.
    - destruct (take_digits_inv m) as (ds & r' & -> & A & B). rewrite take_digits_spec by assumption. destruct ds as [|c ds]; [discriminate|]. cbn [negb orb].
      destruct (Z.ltb_spec size_max (value 0 (c :: ds))) as [|L]; [discriminate|]. intros H. injection H as <- <-. exists (c :: ds), (value 0 (c :: ds)).
      split; [reflexivity|]. split; [apply decimal_value; split; [discriminate|auto]|]. split; [unfold size_max in L; lia|]. split; [exact B|reflexivity].
    - intros (ds & v & -> & D & L & B & ->). apply decimal_value in D. destruct D as (N & A & ->). rewrite take_digits_spec by assumption. destruct ds as [|c ds]; [contradiction|].
      cbn [negb orb]. destruct (Z.ltb_spec size_max (value 0 (c :: ds))) as [L'|L']; [unfold size_max in L'; lia|]. reflexivity. }
  unfold read_size. split.
  - destruct (skip_space_inv l) as (s & m & -> & A & -> & C). intros H.
    destruct (take_sign m) as [neg m'] eqn:E. apply K in H. destruct H as (ds & v & -> & D & L & B & ->).
    assert (X : exists sg, m = sg ++ ds ++ r /\ ((sg = [] \/ sg = ["+"%char]) /\ neg = false \/ sg = ["-"%char] /\ neg = true)).
    { unfold take_sign in E. destruct m as [|c m]; [injection E as <- E; exists []; split; [exact E|left; auto]|].
      destruct c as [[] [] [] [] [] [] [] []]; injection E as <- E; try (exists []; split; [exact E|left; auto]; fail).
      - exists ["+"%char]. rewrite E. split; [reflexivity|left; auto].
      - exists ["-"%char]. rewrite E. split; [reflexivity|right; auto]. }
    destruct X as (sg & -> & X). exists s, sg, ds, v. split; [reflexivity|]. split; [exact A|]. split; [exact D|]. split; [exact L|]. split; [exact B|].
    destruct X as [[X ->]|[X ->]]; [left; split; [exact X|reflexivity]|right; split; [exact X|reflexivity]].
  - intros (s & sg & ds & v & -> & A & D & L & B & X). pose proof D as D'. apply decimal_value in D'. destruct D' as (N & DG & _). destruct ds as [|c0 ds]; [contradiction|].
    pose proof (DG c0 (or_introl eq_refl)) as D0.
    assert (NS : is_space c0 = false /\ c0 <> "-"%char /\ c0 <> "+"%char).
    { split; [|split; intros ->; cbn in D0; lia]. destruct (is_space c0) eqn:E; [|reflexivity]. apply not_space_range in E. destruct E as [E _].
      assert (Y : digit c0 = Some (Z.of_nat (nat_of_ascii c0) - 48)) by (apply digit_spec; auto). rewrite E in Y. discriminate Y. }
    destruct NS as (NS & NM & NP). rewrite skip_space_spec; [|exact A|].
    + destruct X as [[[->| ->] ->]|[-> ->]].
      * cbn [app]. assert (Y : take_sign (c0 :: ds ++ r) = (false, c0 :: ds ++ r)).
        { destruct c0 as [[] [] [] [] [] [] [] []]; try reflexivity; [contradiction NP; reflexivity|contradiction NM; reflexivity]. }
        rewrite Y. apply (K false). exists (c0 :: ds), v. auto.
      * cbn [app take_sign]. apply (K false). exists (c0 :: ds), v. auto.
      * cbn [app take_sign]. apply (K true). exists (c0 :: ds), v. auto.
    + intros c r' H. destruct X as [[[->| ->] _]|[-> _]]; cbn in H; injection H as <- _; [exact NS|reflexivity|reflexivity].
Qed.
Definition parse (line : text) : option Z :=
  match read_word line with
  | None => None
  | Some (_, r) => match read_size r with
                   | None => None
                   | Some (ram, r) => match read_word r with
                                      | None => None
                                      | Some (unit, _) => if text_eqb unit (list_ascii_of_string "kB") then Some ram else None
                                      end
                   end
  end.
Lemma parse_spec line n : begins_with VmRSS line -> parse line = Some n <-> entry line n.
Proof.
  intros HV. unfold parse, entry. split.
  - destruct (read_word line) as [[w r]|] eqn:E1; [|discriminate]. apply read_word_some in E1. destruct E1 as (s & -> & S1 & W1 & T1).
    destruct (read_size r) as [[ram r2]|] eqn:E2; [|discriminate]. apply read_size_some in E2. destruct E2 as (s1 & sg & ds & v & -> & S2 & D & L & B & X).
    destruct (read_word r2) as [[u r3]|] eqn:E3; [|discriminate]. apply read_word_some in E3. destruct E3 as (s2 & -> & S3 & W3 & T3).
    unfold text_eqb. destruct (list_eq_dec ascii_dec u (list_ascii_of_string "kB")) as [->|]; [|discriminate]. intros H. injection H as <-.
    assert (s = []) as ->.
    { destruct s as [|c s]; [reflexivity|]. destruct HV as (q & Q). cbn in Q. injection Q as -> _. specialize (S1 _ (or_introl eq_refl)). discriminate S1. }
    exists w, s1, sg, ds, v, s2, r3. split; [reflexivity|]. split; [exact W1|]. split; [exact S2|]. split.
    + intros ->. apply decimal_value in D. destruct D as (N & DG & _). destruct ds as [|c0 ds]; [contradiction|]. pose proof (DG c0 (or_introl eq_refl)) as D0.
      assert (Y : digit c0 = Some (Z.of_nat (nat_of_ascii c0) - 48)) by (apply digit_spec; auto).
      destruct T1 as [T1|(c & r' & T1 & C)].
      * destruct X as [[[->| ->] _]|[-> _]]; discriminate T1.
      * destruct X as [[[->| ->] _]|[-> _]]; cbn in T1; injection T1 as <- _; [|discriminate C|discriminate C]. apply not_space_range in C. destruct C as [C _]. rewrite C in Y. discriminate Y.
    + auto 10.
  - intros (w & s1 & sg & ds & v & s2 & tail & -> & W & S1 & N1 & D & L & S2 & T & X).
    assert (E1 : read_word (w ++ s1 ++ sg ++ ds ++ s2 ++ list_ascii_of_string "kB" ++ tail) = Some (w, s1 ++ sg ++ ds ++ s2 ++ list_ascii_of_string "kB" ++ tail)).
    { apply read_word_some. exists []. split; [reflexivity|]. split; [intros c []|]. split; [exact W|]. right. destruct s1 as [|c s1]; [contradiction|]. exists c. eexists. split; [reflexivity|].
      apply S1. left. reflexivity. }
    rewrite E1. assert (E2 : read_size (s1 ++ sg ++ ds ++ s2 ++ list_ascii_of_string "kB" ++ tail) = Some (n, s2 ++ list_ascii_of_string "kB" ++ tail)).
    { apply read_size_some. exists s1, sg, ds, v. split; [reflexivity|]. split; [exact S1|]. split; [exact D|]. split; [exact L|]. split; [|exact X].
      intros c r' H. destruct s2 as [|c' s2]; cbn in H; injection H as <- _; [reflexivity|]. apply not_space_range. apply S2. left. reflexivity. }
    rewrite E2. assert (E3 : read_word (s2 ++ list_ascii_of_string "kB" ++ tail) = Some (list_ascii_of_string "kB", tail)).
    { apply read_word_some. exists s2. split; [reflexivity|]. split; [exact S2|]. split; [|exact T]. split; [discriminate|]. intros c [<-|[<-|[]]]; reflexivity. }
    rewrite E3. unfold text_eqb. destruct (list_eq_dec ascii_dec _ _) as [_|Q]; [reflexivity|contradiction].
Qed.

(** The first complete line that begins with VmRSS decides: the result is its number if it is an entry in kB and nothing otherwise. *)
Theorem C85_ram : forall before line after n,
  (forall l, In l before -> is_line l /\ ~ begins_with VmRSS l) -> is_line line -> begins_with VmRSS line ->
  exists r, getCurrentRamUsageInKB (Some (complete before ++ line ++ newline :: after)) = Some r /\ (r = Some n <-> entry line n).
Proof.
  intros before line after n Hb Hl HV. exists (parse line). split; [|apply parse_spec; exact HV]. unfold getCurrentRamUsageInKB.
  destruct (find_line_skip before _ (line ++ newline :: after) Hb (Nat.lt_succ_diag_r _)) as (fuel & F & ->). destruct fuel as [|fuel]; [lia|].
  assert (E : find_line (S fuel) (line ++ newline :: after) = Some (line, false)).
  { cbn [find_line]. rewrite take_line_full by exact Hl. replace (starts_with VmRSS line) with true by (symmetry; apply starts_with_spec; exact HV).
    destruct line; [|reflexivity]. destruct HV as (q & Q). discriminate Q. }
  rewrite E. reflexivity.
Qed.
(** Without such a line, or without the file, there is no result; every call ends. *)
Theorem C85_ram_unknown :
  getCurrentRamUsageInKB None = Some None /\
  (forall lines rest, (forall l, In l lines -> is_line l /\ ~ begins_with VmRSS l) -> is_line rest -> getCurrentRamUsageInKB (Some (complete lines ++ rest)) = Some None) /\
  (forall f, exists r, getCurrentRamUsageInKB f = Some r).
Proof.
  assert (N : forall lines rest, (forall l, In l lines -> is_line l /\ ~ begins_with VmRSS l) -> is_line rest -> getCurrentRamUsageInKB (Some (complete lines ++ rest)) = Some None).
  { intros lines rest Hb Hr. unfold getCurrentRamUsageInKB. destruct (find_line_skip lines _ rest Hb (Nat.lt_succ_diag_r _)) as (fuel & F & ->). destruct fuel as [|fuel]; [lia|].
    cbn [find_line]. rewrite take_line_end by exact Hr. destruct rest; [reflexivity|]. destruct (starts_with VmRSS (a :: rest)); reflexivity. }
  split; [reflexivity|]. split; [exact N|]. intros [f|]; [|eexists; reflexivity]. destruct (text_lines f) as (lines & e & -> & A & B).
  assert (X : (forall l, In l lines -> is_line l /\ ~ begins_with VmRSS l) \/ exists l1 l l2, lines = l1 ++ l :: l2 /\ (forall l, In l l1 -> is_line l /\ ~ begins_with VmRSS l) /\ is_line l /\ begins_with VmRSS l).
  { clear B. induction lines as [|l lines IH]; [left; intros l []|]. destruct (starts_with VmRSS l) eqn:E.
    - right. exists [], l, lines. split; [reflexivity|]. split; [intros l' []|]. split; [apply A; left; reflexivity|apply starts_with_spec; exact E].
    - assert (NB : ~ begins_with VmRSS l) by (rewrite <- starts_with_spec, E; discriminate). destruct IH as [IH|(l1 & l0 & l2 & -> & I1 & I2 & I3)].
      + intros l' H. apply A. right. exact H.
      + left. intros l' [<-|H]; [split; [apply A; left; reflexivity|exact NB]|exact (IH l' H)].
      + right. exists (l :: l1), l0, l2. split; [reflexivity|]. split; [|auto]. intros l' [<-|H]; [split; [apply A; left; reflexivity|exact NB]|exact (I1 l' H)]. }
  destruct X as [X|(l1 & l & l2 & -> & I1 & I2 & I3)]; [exists None; apply N; assumption|].
  destruct (C85_ram l1 l (complete l2 ++ e) 0 I1 I2 I3) as (r & E & _). exists r. rewrite <- E. f_equal. f_equal. unfold complete. rewrite flat_map_app. cbn [flat_map].
  rewrite <- !app_assoc. reflexivity.
Qed.
Definition ex_report : list text := map list_ascii_of_string ["Name:  server"; "VmHWM:   20300 kB"]%string.
Definition ex_line : text := list_ascii_of_string "VmRSS:   18244 kB".
Example C85_ram_ex : (forall l, In l ex_report -> is_line l /\ ~ begins_with VmRSS l) /\ is_line ex_line /\ begins_with VmRSS ex_line /\ entry ex_line 18244 /\
  getCurrentRamUsageInKB (Some (complete ex_report ++ ex_line ++ newline :: list_ascii_of_string "Threads: 1")) = Some (Some 18244).
Proof.
  assert (HV : begins_with VmRSS ex_line) by (apply starts_with_spec; reflexivity).
  assert (D : forall l, existsb (Ascii.eqb newline) l = false -> is_line l).
  { intros l H X. assert (Y : existsb (Ascii.eqb newline) l = true) by (apply existsb_exists; exists newline; split; [exact X|apply Ascii.eqb_refl]). rewrite H in Y. discriminate Y. }
  split; [|split; [apply D; reflexivity|split; [exact HV|split; [apply parse_spec; [exact HV|reflexivity]|reflexivity]]]].
  intros l [<-|[<-|[]]]; (split; [apply D; reflexivity|rewrite <- starts_with_spec; discriminate]).
Qed.
(** An entry in the last line of a report that does not end with a newline is not found. *)
Theorem C85_last_line_refuted : exists line n, is_line line /\ begins_with VmRSS line /\ entry line n /\ getCurrentRamUsageInKB (Some line) = Some None.
Proof. exists ex_line, 18244. destruct C85_ram_ex as (_ & A & B & C & _). split; [exact A|]. split; [exact B|]. split; [exact C|reflexivity]. Qed.
Print Assumptions C85_ram.
Print Assumptions C85_ram_unknown.
Print Assumptions C85_last_line_refuted.
