(** Invariants of the thread pool. *)
From Verif Require Import Base M_ThreadPool.
From Coq Require Import Permutation.

(** ** Sums over threads *)
Fixpoint sumf (f : pc -> Z) (l : list pc) : Z := match l with [] => 0 | p :: l' => f p + sumf f l' end.
Lemma sumf_app f l1 l2 : sumf f (l1 ++ l2) = sumf f l1 + sumf f l2.
Proof. induction l1 as [|p l1 IH]; cbn [app sumf]; [reflexivity|rewrite IH; ring]. Qed.
Lemma sumf_lset f l : forall i p p', nth_error l i = Some p -> sumf f (lset l i p') = sumf f l - f p + f p'.
Proof.
  induction l as [|x l IH]; intros [|i] p p' H; cbn in H; try discriminate; cbn [lset sumf].
  - injection H as ->. ring.
  - rewrite (IH i p p' H). ring.
Qed.
Lemma sumf_map f g l : (forall p, f (g p) = f p) -> sumf f (map g l) = sumf f l.
Proof. intros H. induction l as [|p l IH]; cbn [map sumf]; [reflexivity|]. rewrite H, IH. reflexivity. Qed.
Lemma sumf_le f g l : (forall p, f p <= g p) -> sumf f l <= sumf g l.
Proof. intros H. induction l as [|p l IH]; cbn [sumf]; [lia|]. specialize (H p). lia. Qed.
Lemma sumf_nonneg f l : (forall p, 0 <= f p) -> 0 <= sumf f l.
Proof. intros H. induction l as [|p l IH]; cbn [sumf]; [lia|]. specialize (H p). lia. Qed.
Lemma sumf_add f g l : sumf (fun p => f p + g p) l = sumf f l + sumf g l.
Proof. induction l as [|p l IH]; cbn [sumf]; [reflexivity|]. rewrite IH. ring. Qed.
Lemma sumf_ge_at f l i p : (forall p, 0 <= f p) -> nth_error l i = Some p -> f p <= sumf f l.
Proof.
  intros H. revert i. induction l as [|x l IH]; intros [|i] E; cbn in E; try discriminate; cbn [sumf].
  - injection E as ->. pose proof (sumf_nonneg f l H). lia.
  - specialize (IH i E). specialize (H x). lia.
Qed.
Lemma sumf_pos_ex f l : 0 < sumf f l -> exists i p, nth_error l i = Some p /\ 0 < f p.
Proof.
  induction l as [|x l IH]; cbn [sumf]; [lia|]. intros H. destruct (Z_lt_dec 0 (f x)) as [P|P].
  - exists 0%nat, x. auto.
  - destruct IH as (i & p & E & Q); [lia|]. exists (S i), p. auto.
Qed.
Lemma sumf_zero f l : (forall i p, nth_error l i = Some p -> f p = 0) -> sumf f l = 0.
Proof.
  induction l as [|x l IH]; intros H; cbn [sumf]; [reflexivity|]. rewrite (H 0%nat x eq_refl), IH; [reflexivity|].
  intros i p E. exact (H (S i) p E).
Qed.
Lemma sumf_zero_but f l i p : nth_error l i = Some p -> (forall j q, j <> i -> nth_error l j = Some q -> f q = 0) ->
  sumf f l = f p.
Proof.
  revert i. induction l as [|x l IH]; intros [|i] E H; cbn in E; try discriminate; cbn [sumf].
  - injection E as ->. rewrite sumf_zero; [ring|]. intros j q Hj. exact (H (S j) q ltac:(lia) Hj).
  - rewrite (IH i E), (H 0%nat x ltac:(lia) eq_refl); [ring|]. intros j q Hn Hj. exact (H (S j) q ltac:(lia) Hj).
Qed.
Lemma lset_length {A} (l : list A) : forall i a, length (lset l i a) = length l.
Proof. induction l as [|x l IH]; intros [|i] a; cbn [lset length]; auto. Qed.
Lemma nth_lset_same {A} (l : list A) : forall i a x, nth_error l i = Some x -> nth_error (lset l i a) i = Some a.
Proof. induction l as [|y l IH]; intros [|i] a x H; cbn in *; try discriminate; eauto. Qed.
Lemma nth_lset_other {A} (l : list A) : forall i j a, j <> i -> nth_error (lset l i a) j = nth_error l j.
Proof. induction l as [|y l IH]; intros [|i] [|j] a H; cbn; try reflexivity; try lia. apply IH. lia. Qed.

(** ** Counters *)
Definition holds (p : pc) : Z :=
  match p with
  | WCheck | WGo | WTake | WUnlock _ _ | WNotify | WNUnlock => 1
  | PAdd (ATest | APush | AInc | AUnlock) _ _ => 1
  | VCheck _ | VGo _ | VUnlock _ | DSet | DUnlock => 1
  | _ => 0
  end.
(** task taken, not yet counted as done *)
Definition pend (p : pc) : Z := match p with WUnlock _ _ | WRun _ _ | WDec | PAdd _ _ (KTask _ _) => 1 | _ => 0 end.
Definition inc (p : pc) : Z := match p with PAdd AInc _ _ => 1 | _ => 0 end.
Definition push (p : pc) : Z := match p with PAdd APush _ _ => 1 | _ => 0 end.
Definition pnote (p : pc) : Z := match p with PAdd (AInc | AUnlock | ANotify) _ _ => 1 | _ => 0 end.
Definition exitc (p : pc) : Z := match p with WExit => 1 | _ => 0 end.
Definition worker (p : pc) : Z := if is_worker p then 1 else 0.
Definition wgo (p : pc) : Z := match p with WGo => 1 | _ => 0 end.
Definition wsleep (p : pc) : Z := match p with WSleep => 1 | _ => 0 end.
Definition wtake (p : pc) : Z := match p with WTake => 1 | _ => 0 end.
(** workers that will evaluate the predicate again *)
Definition awake (p : pc) : Z := worker p - exitc p - wsleep p - wgo p.
Definition vwait (p : pc) : Z := match p with VSleep _ | VGo _ => 1 | _ => 0 end.
Definition vnote (p : pc) : Z := match p with WTest | WNLock | WNotify => 1 | _ => 0 end.
Definition dnote (p : pc) : Z := match p with DUnlock | DNotify => 1 | _ => 0 end.
Definition dterm (p : pc) : Z := match p with DUnlock | DNotify | DJoin | DNotify2 | DDone => 1 | _ => 0 end.
Definition dall (p : pc) : Z := match p with DLock | DSet | DUnlock | DNotify | DJoin | DNotify2 | DDone => 1 | _ => 0 end.
Definition dpost (p : pc) : Z := match p with DNotify2 | DDone => 1 | _ => 0 end.
Definition vunl (p : pc) : Z := match p with VUnlock _ => 1 | _ => 0 end.
(** clients that are not done *)
Definition busy (p : pc) : Z := match p with CRun [] => 0 | _ => 1 - worker p - dall p end.

Definition bz (b : bool) : Z := if b then 1 else 0.
Definition qlen (s : pool) : Z := Z.of_nat (length (tasks s)).
Definition pinv (w : Z) (st : state) : Prop :=
  let '(l, s) := st in
  sumf holds l = bz (locked s) /\
  count s = qlen s + sumf pend l - sumf inc l /\
  (0 < sumf exitc l -> bz (terminate s) = 1 /\ qlen s = 0) /\
  (0 < qlen s -> 0 < w -> 0 < sumf awake l + sumf pnote l) /\
  (count s = 0 -> 0 < sumf vwait l -> 0 < sumf vnote l) /\
  (bz (terminate s) = 1 -> 0 < sumf wsleep l + sumf wgo l -> 0 < sumf dnote l) /\
  (0 < sumf wgo l -> qlen s = 0 /\ bz (terminate s) = 0) /\
  (0 < sumf wtake l -> bz (terminate s) = 1 \/ 0 < qlen s) /\
  (0 < sumf push l -> bz (terminate s) = 0) /\
  sumf dterm l = bz (terminate s) /\
  (0 < sumf dall l -> sumf busy l = 0) /\
  sumf dall l <= 1 /\
  (0 < sumf dpost l -> sumf worker l = sumf exitc l) /\
  (0 < sumf inc l -> 0 < qlen s) /\
  (0 < sumf vunl l -> bz (terminate s) = 1 \/ count s = 0) /\
  sumf worker l = w.

(** Pointwise bounds between counters *)
Ltac pw := let p := fresh "p" in intros p; destruct p as [| | | | | | | | | | | | |[] ? []|[|]| | | | | | | | | | | | ]; cbn; lia.
Lemma nn_holds p : 0 <= holds p. Proof. revert p; pw. Qed.
Lemma nn_pend p : 0 <= pend p. Proof. revert p; pw. Qed.
Lemma nn_inc p : 0 <= inc p. Proof. revert p; pw. Qed.
Lemma nn_push p : 0 <= push p. Proof. revert p; pw. Qed.
Lemma nn_pnote p : 0 <= pnote p. Proof. revert p; pw. Qed.
Lemma nn_exitc p : 0 <= exitc p. Proof. revert p; pw. Qed.
Lemma nn_worker p : 0 <= worker p. Proof. revert p; pw. Qed.
Lemma nn_wgo p : 0 <= wgo p. Proof. revert p; pw. Qed.
Lemma nn_wsleep p : 0 <= wsleep p. Proof. revert p; pw. Qed.
Lemma nn_wtake p : 0 <= wtake p. Proof. revert p; pw. Qed.
Lemma nn_awake p : 0 <= awake p. Proof. revert p; unfold awake, worker; pw. Qed.
Lemma nn_vwait p : 0 <= vwait p. Proof. revert p; pw. Qed.
Lemma nn_vnote p : 0 <= vnote p. Proof. revert p; pw. Qed.
Lemma nn_dnote p : 0 <= dnote p. Proof. revert p; pw. Qed.
Lemma nn_dterm p : 0 <= dterm p. Proof. revert p; pw. Qed.
Lemma nn_vunl p : 0 <= vunl p. Proof. revert p; pw. Qed.
Lemma nn_dall p : 0 <= dall p. Proof. revert p; pw. Qed.
Lemma nn_dpost p : 0 <= dpost p. Proof. revert p; pw. Qed.
Lemma nn_busy p : 0 <= busy p. Proof. revert p; unfold busy, worker; pw. Qed.

(** Counters at other threads while thread [i] holds the mutex *)
Lemma excl f l i p : (forall q, 0 <= f q <= holds q) -> nth_error l i = Some p -> sumf f l <= sumf holds l - holds p + f p.
Proof.
  intros H E. assert (K : 0 <= sumf (fun q => holds q - f q) l - (holds p - f p)).
  { pose proof (sumf_ge_at (fun q => holds q - f q) l i p) as G. cbn beta in G.
    specialize (G ltac:(intros q; specialize (H q); lia) E). lia. }
  assert (S : sumf (fun q => holds q - f q) l = sumf holds l - sumf f l).
  { clear. induction l as [|x l IH]; cbn [sumf]; [reflexivity|]. rewrite IH. ring. }
  lia.
Qed.
Lemma awake_sum l : sumf awake l = sumf worker l - sumf exitc l - sumf wsleep l - sumf wgo l.
Proof. induction l as [|x l IH]; cbn [sumf]; [reflexivity|]. rewrite IH. unfold awake. ring. Qed.

(** Effect of notifications on the counters *)
Lemma wake_sums l :
  sumf holds (map wake_worker l) = sumf holds l /\ sumf pend (map wake_worker l) = sumf pend l /\
  sumf inc (map wake_worker l) = sumf inc l /\ sumf push (map wake_worker l) = sumf push l /\
  sumf pnote (map wake_worker l) = sumf pnote l /\ sumf exitc (map wake_worker l) = sumf exitc l /\
  sumf worker (map wake_worker l) = sumf worker l /\ sumf wgo (map wake_worker l) = sumf wgo l /\
  sumf wsleep (map wake_worker l) = 0 /\ sumf wtake (map wake_worker l) = sumf wtake l /\
  sumf vwait (map wake_worker l) = sumf vwait l /\ sumf vnote (map wake_worker l) = sumf vnote l /\
  sumf dnote (map wake_worker l) = sumf dnote l /\ sumf dterm (map wake_worker l) = sumf dterm l /\
  sumf dall (map wake_worker l) = sumf dall l /\ sumf vunl (map wake_worker l) = sumf vunl l /\ sumf dpost (map wake_worker l) = sumf dpost l /\
  sumf busy (map wake_worker l) = sumf busy l.
Proof.
  repeat match goal with |- _ /\ _ => split end;
    try (apply sumf_map; intros p; destruct p; reflexivity).
  induction l as [|p l IH]; cbn [map sumf]; [reflexivity|]. rewrite IH. destruct p; reflexivity.
Qed.
Lemma wakev_sums l :
  sumf holds (map wake_waiter l) = sumf holds l /\ sumf pend (map wake_waiter l) = sumf pend l /\
  sumf inc (map wake_waiter l) = sumf inc l /\ sumf push (map wake_waiter l) = sumf push l /\
  sumf pnote (map wake_waiter l) = sumf pnote l /\ sumf exitc (map wake_waiter l) = sumf exitc l /\
  sumf worker (map wake_waiter l) = sumf worker l /\ sumf wgo (map wake_waiter l) = sumf wgo l /\
  sumf wsleep (map wake_waiter l) = sumf wsleep l /\ sumf wtake (map wake_waiter l) = sumf wtake l /\
  (sumf vwait (map wake_waiter l) <= sumf vwait l /\ sumf vwait (map wake_waiter l) <= sumf (fun p => match p with VGo _ => 1 | _ => 0 end) l)
  /\ sumf vnote (map wake_waiter l) = sumf vnote l /\
  sumf dnote (map wake_waiter l) = sumf dnote l /\ sumf dterm (map wake_waiter l) = sumf dterm l /\
  sumf dall (map wake_waiter l) = sumf dall l /\ sumf vunl (map wake_waiter l) = sumf vunl l /\ sumf dpost (map wake_waiter l) = sumf dpost l /\
  sumf busy (map wake_waiter l) = sumf busy l.
Proof.
  repeat match goal with |- _ /\ _ => split end;
    try (apply sumf_map; intros p; destruct p; reflexivity).
  - induction l as [|p l IH]; cbn [map sumf]; [lia|]. destruct p; cbn [wake_waiter vwait]; lia.
  - induction l as [|p l IH]; cbn [map sumf]; [lia|]. destruct p; cbn [wake_waiter vwait]; lia.
Qed.
Definition vgo (p : pc) : Z := match p with VGo _ => 1 | _ => 0 end.
Lemma nosleep l : ~ In WSleep l -> sumf wsleep l = 0.
Proof.
  intros H. apply sumf_zero. intros i p E. apply nth_error_In in E. destruct p; try reflexivity. contradiction.
Qed.

Ltac lsets E p' :=
  rewrite ?(sumf_lset holds _ _ _ p' E), ?(sumf_lset pend _ _ _ p' E), ?(sumf_lset inc _ _ _ p' E), ?(sumf_lset push _ _ _ p' E),
    ?(sumf_lset pnote _ _ _ p' E), ?(sumf_lset exitc _ _ _ p' E), ?(sumf_lset worker _ _ _ p' E), ?(sumf_lset wgo _ _ _ p' E),
    ?(sumf_lset wsleep _ _ _ p' E), ?(sumf_lset wtake _ _ _ p' E), ?(sumf_lset vwait _ _ _ p' E),
    ?(sumf_lset vnote _ _ _ p' E), ?(sumf_lset dnote _ _ _ p' E), ?(sumf_lset dterm _ _ _ p' E), ?(sumf_lset dall _ _ _ p' E),
    ?(sumf_lset dpost _ _ _ p' E), ?(sumf_lset busy _ _ _ p' E), ?(sumf_lset vgo _ _ _ p' E), ?(sumf_lset vunl _ _ _ p' E) in *.

(** Counters of a program point *)
Ltac evalpc := cbn [holds pend inc push pnote exitc worker is_worker wgo wsleep wtake vwait vnote dnote dterm dall dpost busy vgo vunl resume] in *.
Lemma worker_resume k : worker (resume k) = worker (PAdd ANotify (Task []) k). Proof. destruct k; reflexivity. Qed.
Lemma worker_padd a t k a' t' : worker (PAdd a t k) = worker (PAdd a' t' k). Proof. destruct k; reflexivity. Qed.

Ltac splitall := repeat match goal with H : _ /\ _ |- _ => destruct H end.
Lemma dall_dterm l : sumf (fun p => dall p - dterm p) l = sumf dall l - sumf dterm l.
Proof. induction l as [|x l IH]; cbn [sumf]; [reflexivity|]. rewrite IH. ring. Qed.
Lemma guard_destroy l i p : nth_error l i = Some p ->
  (forall j p, j <> i -> nth_error l j = Some p -> is_worker p = true \/ p = CRun []) ->
  sumf busy l = busy p /\ sumf dall l = dall p.
Proof.
  intros E H. split; apply (sumf_zero_but _ l i p E); intros j q Hj Eq; destruct (H j q Hj Eq) as [W| ->]; try reflexivity;
    unfold busy, worker; rewrite ?W; destruct q as [| | | | | | | | | | | | | |[|]| | | | | | | | | | | | ]; cbn in W |- *; congruence || reflexivity.
Qed.
Lemma guard_join l : (forall j p, nth_error l j = Some p -> is_worker p = true -> p = WExit) ->
  sumf worker l = sumf exitc l.
Proof.
  intros H. assert (S : sumf (fun p => worker p - exitc p) l = 0).
  { apply sumf_zero. intros i p E. specialize (H i p E). unfold worker. destruct (is_worker p) eqn:W.
    - rewrite H by reflexivity. reflexivity.
    - destruct p; cbn in W; try discriminate; reflexivity. }
  assert (A : sumf (fun p => worker p - exitc p) l = sumf worker l - sumf exitc l).
  { clear. induction l as [|x l IH]; cbn [sumf]; [reflexivity|]. rewrite IH. ring. }
  lia.
Qed.
Lemma step_pinv w st e st' : pinv w st -> step st e st' -> pinv w st'.
Proof.
  intros I S. destruct S as [l s i p e s' p' f l' Ha E T N]. unfold pinv in I.
  destruct I as (I1 & I2 & I3 & I4 & I5 & I6 & I7 & I8 & I9 & I10 & I11 & I12 & I13 & I15 & I16 & I14).
  pose proof (excl inc l i p ltac:(pw) E) as X1. pose proof (excl push l i p ltac:(pw) E) as X2.
  pose proof (excl wgo l i p ltac:(pw) E) as X3. pose proof (excl wtake l i p ltac:(pw) E) as X4.
  pose proof (excl vgo l i p ltac:(pw) E) as X5.
  pose proof (excl vunl l i p ltac:(pw) E) as X6. pose proof (sumf_ge_at _ l i p nn_vunl E).
  pose proof (sumf_ge_at _ l i p nn_awake E) as GA. rewrite awake_sum in GA. unfold awake in GA.
  pose proof (sumf_ge_at (fun p => dall p - dterm p) l i p ltac:(pw) E) as GD. rewrite dall_dterm in GD.
  pose proof (sumf_ge_at _ l i p nn_holds E). pose proof (sumf_ge_at _ l i p nn_pend E).
  pose proof (sumf_ge_at _ l i p nn_inc E). pose proof (sumf_ge_at _ l i p nn_push E).
  pose proof (sumf_ge_at _ l i p nn_pnote E). pose proof (sumf_ge_at _ l i p nn_exitc E).
  pose proof (sumf_ge_at _ l i p nn_worker E). pose proof (sumf_ge_at _ l i p nn_wgo E).
  pose proof (sumf_ge_at _ l i p nn_wsleep E). pose proof (sumf_ge_at _ l i p nn_wtake E).
  pose proof (sumf_ge_at _ l i p nn_vwait E).
  pose proof (sumf_ge_at _ l i p nn_vnote E). pose proof (sumf_ge_at _ l i p nn_dnote E).
  pose proof (sumf_ge_at _ l i p nn_dterm E). pose proof (sumf_ge_at _ l i p nn_dall E).
  pose proof (sumf_ge_at _ l i p nn_dpost E). pose proof (sumf_ge_at _ l i p nn_busy E).
  assert (Hlock : 0 <= bz (locked s) <= 1) by (destruct (locked s); cbn; lia).
  assert (Hterm : 0 <= bz (terminate s) <= 1) by (destruct (terminate s); cbn; lia).
  assert (Hq : 0 <= qlen s) by (unfold qlen; lia).
  assert (Lq : forall X, tasks s = X -> qlen s = Z.of_nat (length X)) by (intros X <-; reflexivity).
  assert (Lq0 : tasks s <> [] -> 0 < qlen s) by (unfold qlen; destruct (tasks s); [congruence|cbn [length]; lia]).
  assert (Lb : forall b, locked s = b -> bz (locked s) = bz b) by (intros b ->; reflexivity).
  assert (Lt : forall b, terminate s = b -> bz (terminate s) = bz b) by (intros b ->; reflexivity).
  assert (BZ : bz true = 1 /\ bz false = 0) by (split; reflexivity). destruct BZ as [BT BF].
  pose proof (wake_sums (lset l i p')) as WW. pose proof (wakev_sums (lset l i p')) as WV.
  change (fun p => match p with VGo _ => 1 | _ => 0 end) with vgo in WV.
  destruct T; inversion N; subst; clear N.
  all: unfold pinv; unfold qlen; cbn [tasks count terminate locked set_locked set_count].
  all: match goal with H : sumf holds _ = bz (locked ?s) |- _ => fold (qlen s) end.
  all: rewrite ?awake_sum in *.
  all: try match goal with |- context [map wake_worker] => rewrite ?awake_sum | _ => clear WW end.
  all: try match goal with |- context [map wake_waiter] => rewrite ?awake_sum | _ => clear WV end.
  all: splitall.
  all: repeat match goal with H : sumf _ (map _ _) = _ |- _ => rewrite H in *; clear H end.
  all: try match goal with
    | H : nth_error (lset _ _ _) _ = Some WSleep |- _ => lsets H WLock; clear H
    | H : ~ In WSleep (lset _ _ _) |- _ => apply nosleep in H
    end.
  all: try match goal with k : kont |- _ => destruct k end.
  all: match goal with E : nth_error ?l ?i = Some _ |- context [lset ?l ?i ?q] => lsets E q end.
  all: try match goal with E : nth_error ?l ?i = Some _, H : context [lset ?l ?i ?q] |- _ => lsets E q end.
  all: evalpc.
  all: try match goal with H : locked _ = _, Lb : forall b, locked _ = b -> _ |- _ => apply Lb in H end.
  all: repeat match goal with H : terminate ?s = _, Lt : forall b, terminate ?s = b -> _ |- _ => apply Lt in H end.
  all: try match goal with H : terminate ?s = _ \/ _, Lt : forall b, terminate ?s = b -> _, Lq0 : tasks _ <> [] -> _ |- _ =>
     destruct H as [H|H]; [apply Lt in H|try apply Lq0 in H] end.
  all: try match goal with H : tasks ?s = _, Lq : forall X, tasks ?s = X -> _ |- _ => apply Lq in H; cbn [length] in H end.
  all: rewrite ?app_length; cbn [length].
  all: try match goal with H : forall j p, j <> _ -> nth_error _ j = Some p -> _, E : nth_error _ _ = Some _ |- _ =>
     pose proof (guard_destroy _ _ _ E H) end.
  all: try match goal with H : forall j p, nth_error _ j = Some p -> _ |- _ =>
     pose proof (guard_join _ H) end.
  all: clear Lq Lb Lt Lq0 E Ha; splitall; evalpc; rewrite ?Nat2Z.inj_add, ?Nat2Z.inj_succ.
  all: try match goal with I1 : sumf holds _ = bz (locked ?s) |- _ => change (Z.of_nat (length (tasks s))) with (qlen s) in * end.
  all: try rewrite BT in *; try rewrite BF in *; rewrite ?Z.sub_0_r, ?Z.add_0_r, ?Z.sub_add in *.
  all: refine (conj _ (conj _ (conj _ (conj _ (conj _ (conj _ (conj _ (conj _ (conj _ (conj _ (conj _ (conj _ (conj _ (conj _ (conj _ _)))))))))))))));
    try assumption.
  all: intros.
  all: try solve [clear I3 I4 I5 I6 I7 I8 I9 I11 I13 I15 I16; lia].
  all: try solve [clear I4 I5 I6 I7 I8 I9 I11 I13 I15 I16; lia].
  all: try solve [clear I3 I5 I6 I7 I8 I9 I11 I13 I15 I16; lia].
  all: try solve [clear I3 I4 I6 I7 I8 I9 I11 I13 I15 I16; lia].
  all: try solve [clear I3 I4 I5 I7 I8 I9 I11 I13 I15 I16; lia].
  all: try solve [clear I3 I4 I5 I6 I8 I9 I11 I13 I15 I16; lia].
  all: try solve [clear I3 I4 I5 I6 I7 I9 I11 I13 I15 I16; lia].
  all: try solve [clear I3 I4 I5 I6 I7 I8 I11 I13 I15 I16; lia].
  all: try solve [clear I3 I4 I5 I6 I7 I8 I9 I13 I15 I16; lia].
  all: try solve [clear I3 I4 I5 I6 I7 I8 I9 I11 I15 I16; lia].
  all: try solve [clear I3 I4 I5 I6 I7 I8 I9 I11 I13 I16; lia].
  all: try solve [clear I3 I4 I5 I6 I7 I8 I9 I11 I13 I15; lia].
  all: try solve [clear I4 I5 I6 I7 I8 I11 I13 I15 I16; lia].
  all: try solve [clear I4 I5 I6 I8 I9 I11 I13 I15 I16; lia].
  all: try solve [clear I3 I4 I5 I6 I8 I11 I13 I15 I16; lia].
  all: try solve [clear I3 I4 I6 I7 I8 I9 I11 I13 I16; lia].
  all: try solve [clear I4 I5 I6 I8 I11 I13; lia].
Qed.
Lemma spurious_pinv w st st' : pinv w st -> spurious st st' -> pinv w st'.
Proof.
  intros I S. unfold pinv in *. destruct S as [l s i Ha E|l s i r Ha E];
  destruct I as (I1 & I2 & I3 & I4 & I5 & I6 & I7 & I8 & I9 & I10 & I11 & I12 & I13 & I15 & I16 & I14).
  - rewrite awake_sum in *. lsets E WLock. evalpc.
    rewrite ?Z.sub_0_r, ?Z.add_0_r, ?Z.sub_add in *.
    refine (conj _ (conj _ (conj _ (conj _ (conj _ (conj _ (conj _ (conj _ (conj _ (conj _ (conj _ (conj _ (conj _ (conj _ (conj _ _)))))))))))))));
    try assumption; intros.
    + clear I3 I5 I6 I7 I8 I9 I11 I13 I15 I16; lia.
    + apply I6; lia.
  - rewrite awake_sum in *. lsets E (VLock r). evalpc.
    rewrite ?Z.sub_0_r, ?Z.add_0_r, ?Z.sub_add in *.
    refine (conj _ (conj _ (conj _ (conj _ (conj _ (conj _ (conj _ (conj _ (conj _ (conj _ (conj _ (conj _ (conj _ (conj _ (conj _ _)))))))))))))));
    try assumption; intros.
    + apply I5; [assumption|lia].
Qed.
Lemma sumf_repeat f p n : sumf f (repeat p n) = Z.of_nat n * f p.
Proof. induction n as [|n IH]; cbn [repeat sumf]; [lia|]. rewrite IH, Nat2Z.inj_succ. ring. Qed.
Lemma sumf_crun f progs : (forall l, f (CRun l) = 0) -> sumf f (map CRun progs) = 0.
Proof. intros H. induction progs as [|p progs IH]; cbn [map sumf]; [reflexivity|]. rewrite H, IH. reflexivity. Qed.
Lemma start_pinv w progs : pinv (Z.of_nat w) (start w progs).
Proof.
  unfold pinv, start. rewrite !sumf_app, !sumf_repeat.
  rewrite (sumf_crun holds), (sumf_crun pend), (sumf_crun inc), (sumf_crun exitc), (sumf_crun awake), (sumf_crun pnote),
    (sumf_crun vwait), (sumf_crun vnote), (sumf_crun wsleep), (sumf_crun wgo), (sumf_crun dnote), (sumf_crun wtake), (sumf_crun push),
    (sumf_crun dterm), (sumf_crun dall), (sumf_crun dpost), (sumf_crun worker), (sumf_crun vunl) by reflexivity.
  unfold awake. evalpc. unfold qlen. cbn [count tasks terminate locked length bz Z.of_nat].
  refine (conj _ (conj _ (conj _ (conj _ (conj _ (conj _ (conj _ (conj _ (conj _ (conj _ (conj _ (conj _ (conj _ (conj _ (conj _ _)))))))))))))));
    try lia.
Qed.
Lemma exec_pinv w progs tr st : exec (start w progs) tr st -> pinv (Z.of_nat w) st.
Proof.
  intros X. induction X as [|tr st e st' X IH S|tr st st' X IH S].
  - apply start_pinv.
  - eapply step_pinv; eassumption.
  - eapply spurious_pinv; eassumption.
Qed.
