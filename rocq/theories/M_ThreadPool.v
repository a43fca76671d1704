(** Thread pool: /repo/library/cpp/include/wavemap/core/utils/thread_pool.h (lines "h:") and
    /repo/library/cpp/src/core/utils/thread_pool.cc (lines "cc:"), as a transition system whose steps interleave
    arbitrarily (sequential consistency). Each statement that other threads can observe is a step of its own; blocks
    of a condition variable's wait are: evaluate the predicate, (if false) atomically release the mutex and sleep,
    and, once notified or spuriously woken, re-acquire the mutex. *)
From Verif Require Import Base.

(** What a task does, as far as the pool is concerned: submit further tasks (from the worker that runs it), then
    finish. Tasks that block forever are not modelled. *)
Inductive task := Task (subs : list task).
(** The calls a client thread makes: add_task, wait_all, ~ThreadPool *)
Inductive call := CAdd (t : task) | CWait | CDestroy.
(** What a thread does after add_task has returned: go on running task number [n], or its program *)
Inductive kont := KTask (n : nat) (subs : list task) | KProg (l : list call).
(** add_task, h:89-97: acquire the mutex (90), test terminate_ (91), tasks_.emplace (94), task_count_++ (95), release
    the mutex (96), notify_one (97) *)
Inductive aphase := ALock | ATest | APush | AInc | AUnlock | ANotify.

(** Program points *)
Inductive pc :=
(* worker_loop, cc:42-71 *)
| WLock                              (* acquiring the mutex: 47, or within wait: 50 *)
| WCheck                             (* evaluating the predicate: 51 *)
| WGo                                (* it was false *)
| WSleep                             (* blocked on worker_condition_ *)
| WTake                              (* it was true: 53-58 *)
| WUnlock (n : nat) (t : task)       (* 59 *)
| WRun (n : nat) (subs : list task)  (* 62 *)
| WDec                               (* 63 *)
| WTest                              (* 66 *)
| WNLock                             (* 67 *)
| WNotify                            (* 68 *)
| WNUnlock                           (* 69 *)
| WExit                              (* 54: the thread has ended *)
(* add_task *)
| PAdd (a : aphase) (t : task) (k : kont)
(* client threads: between calls, with the calls to come *)
| CRun (l : list call)
(* wait_all, cc:36-40 *)
| VLock (l : list call)              (* acquiring the mutex: 37, or within wait: 38 *)
| VCheck (l : list call)             (* evaluating the predicate: 39 *)
| VGo (l : list call)                (* it was false *)
| VSleep (l : list call)             (* blocked on wait_all_condition_ *)
| VUnlock (l : list call)            (* it was true: 40 *)
(* ~ThreadPool, cc:24-34 *)
| DLock                              (* 26 *)
| DSet                               (* 27 *)
| DUnlock                            (* 28 *)
| DNotify                            (* 29 *)
| DJoin                              (* 30-32 *)
| DNotify2                           (* 33 *)
| DDone.

(** Members of the pool; [locked]: the mutex is held; [nsub]: number of tasks submitted so far, which numbers the
    tasks; [aborted]: LOG(FATAL) was reached. std::atomic<int> task_count_ is unbounded. *)
Record pool := Pool { tasks : list (nat * task); count : Z; terminate : bool; locked : bool; nsub : nat; aborted : bool }.
Definition set_locked (s : pool) (b : bool) : pool := Pool (tasks s) (count s) (terminate s) b (nsub s) (aborted s).
Definition set_count (s : pool) (c : Z) : pool := Pool (tasks s) c (terminate s) (locked s) (nsub s) (aborted s).

(** Observable events: a task is submitted, starts, finishes; wait_all and the destructor are called and return *)
Inductive event :=
| EAdd (n : nat) | EStart (n : nat) | EFinish (n : nat) | EWaitCall | EWaitRet | EDestroyCall | EDestroyRet | EAbort | ETau.
(** Notifications *)
Inductive effect := NoEff | NotifyOneWorker | NotifyAllWorkers | NotifyAllWaiters.

Definition is_worker (p : pc) : bool :=
  match p with
  | WLock | WCheck | WGo | WSleep | WTake | WUnlock _ _ | WRun _ _ | WDec | WTest | WNLock | WNotify | WNUnlock | WExit => true
  | PAdd _ _ (KTask _ _) => true
  | _ => false
  end.
Definition resume (k : kont) : pc := match k with KTask n s => WRun n s | KProg l => CRun l end.

(** One step of thread [i], which is at the given program point *)
Inductive tstep (i : nat) (ths : list pc) (s : pool) : pc -> event -> pool -> pc -> effect -> Prop :=
| t_lock : locked s = false -> tstep i ths s WLock ETau (set_locked s true) WCheck NoEff
| t_check_true : terminate s = true \/ tasks s <> [] -> tstep i ths s WCheck ETau s WTake NoEff
| t_check_false : terminate s = false -> tasks s = [] -> tstep i ths s WCheck ETau s WGo NoEff
| t_sleep : tstep i ths s WGo ETau (set_locked s false) WSleep NoEff
| t_exit : terminate s = true -> tasks s = [] -> tstep i ths s WTake ETau (set_locked s false) WExit NoEff
| t_pop : forall n t q, tasks s = (n, t) :: q ->
    tstep i ths s WTake (EStart n) (Pool q (count s) (terminate s) (locked s) (nsub s) (aborted s)) (WUnlock n t) NoEff
| t_unlock : forall n subs, tstep i ths s (WUnlock n (Task subs)) ETau (set_locked s false) (WRun n subs) NoEff
| t_sub : forall n t subs, tstep i ths s (WRun n (t :: subs)) ETau s (PAdd ALock t (KTask n subs)) NoEff
| t_finish : forall n, tstep i ths s (WRun n []) (EFinish n) s WDec NoEff
| t_dec : tstep i ths s WDec ETau (set_count s (count s - 1)) WTest NoEff
| t_test_zero : count s = 0 -> tstep i ths s WTest ETau s WNLock NoEff
| t_test_nonzero : count s <> 0 -> tstep i ths s WTest ETau s WLock NoEff
| t_nlock : locked s = false -> tstep i ths s WNLock ETau (set_locked s true) WNotify NoEff
| t_notify : tstep i ths s WNotify ETau s WNUnlock NotifyAllWaiters
| t_nunlock : tstep i ths s WNUnlock ETau (set_locked s false) WLock NoEff
(* add_task *)
| t_alock : forall t k, locked s = false -> tstep i ths s (PAdd ALock t k) ETau (set_locked s true) (PAdd ATest t k) NoEff
| t_aabort : forall t k, terminate s = true ->
    tstep i ths s (PAdd ATest t k) EAbort (Pool (tasks s) (count s) (terminate s) (locked s) (nsub s) true) (PAdd ATest t k) NoEff
| t_atest : forall t k, terminate s = false -> tstep i ths s (PAdd ATest t k) ETau s (PAdd APush t k) NoEff
| t_apush : forall t k, tstep i ths s (PAdd APush t k) (EAdd (nsub s))
    (Pool (tasks s ++ [(nsub s, t)]) (count s) (terminate s) (locked s) (S (nsub s)) (aborted s)) (PAdd AInc t k) NoEff
| t_ainc : forall t k, tstep i ths s (PAdd AInc t k) ETau (set_count s (count s + 1)) (PAdd AUnlock t k) NoEff
| t_aunlock : forall t k, tstep i ths s (PAdd AUnlock t k) ETau (set_locked s false) (PAdd ANotify t k) NoEff
| t_anotify : forall t k, tstep i ths s (PAdd ANotify t k) ETau s (resume k) NotifyOneWorker
(* client programs *)
| t_call_add : forall t l, tstep i ths s (CRun (CAdd t :: l)) ETau s (PAdd ALock t (KProg l)) NoEff
| t_call_wait : forall l, tstep i ths s (CRun (CWait :: l)) EWaitCall s (VLock l) NoEff
(* The destructor is the last call, made once no other client uses the pool: anything else is undefined in C++ *)
| t_call_destroy : (forall j p, j <> i -> nth_error ths j = Some p -> is_worker p = true \/ p = CRun []) ->
    tstep i ths s (CRun [CDestroy]) EDestroyCall s DLock NoEff
(* wait_all *)
| t_vlock : forall l, locked s = false -> tstep i ths s (VLock l) ETau (set_locked s true) (VCheck l) NoEff
| t_vcheck_true : forall l, terminate s = true \/ count s = 0 -> tstep i ths s (VCheck l) ETau s (VUnlock l) NoEff
| t_vcheck_false : forall l, terminate s = false -> count s <> 0 -> tstep i ths s (VCheck l) ETau s (VGo l) NoEff
| t_vsleep : forall l, tstep i ths s (VGo l) ETau (set_locked s false) (VSleep l) NoEff
| t_vunlock : forall l, tstep i ths s (VUnlock l) EWaitRet (set_locked s false) (CRun l) NoEff
(* ~ThreadPool *)
| t_dlock : locked s = false -> tstep i ths s DLock ETau (set_locked s true) DSet NoEff
| t_dset : tstep i ths s DSet ETau (Pool (tasks s) (count s) true (locked s) (nsub s) (aborted s)) DUnlock NoEff
| t_dunlock : tstep i ths s DUnlock ETau (set_locked s false) DNotify NoEff
| t_dnotify : tstep i ths s DNotify ETau s DJoin NotifyAllWorkers
| t_djoin : (forall j p, nth_error ths j = Some p -> is_worker p = true -> p = WExit) ->
    tstep i ths s DJoin ETau s DNotify2 NoEff
| t_dnotify2 : tstep i ths s DNotify2 EDestroyRet s DDone NotifyAllWaiters.

(** Threads and their update *)
Fixpoint lset {A} (l : list A) (i : nat) (a : A) : list A :=
  match l, i with
  | [], _ => []
  | _ :: l', O => a :: l'
  | x :: l', S i' => x :: lset l' i' a
  end.
Definition wake_worker (p : pc) : pc := match p with WSleep => WLock | _ => p end.
Definition wake_waiter (p : pc) : pc := match p with VSleep l => VLock l | _ => p end.
(** Effect of a notification on the threads; notify_one wakes some sleeping worker if there is one *)
Inductive notified : effect -> list pc -> list pc -> Prop :=
| n_none : forall l, notified NoEff l l
| n_one : forall l j, nth_error l j = Some WSleep -> notified NotifyOneWorker l (lset l j WLock)
| n_nobody : forall l, ~ In WSleep l -> notified NotifyOneWorker l l
| n_workers : forall l, notified NotifyAllWorkers l (map wake_worker l)
| n_waiters : forall l, notified NotifyAllWaiters l (map wake_waiter l).

Definition state : Type := list pc * pool.
(** A step of the program: one thread moves, or a sleeping thread wakes up spuriously *)
Inductive step : state -> nat * event -> state -> Prop :=
| step_thread : forall ths s i p e s' p' f ths', aborted s = false -> nth_error ths i = Some p ->
    tstep i ths s p e s' p' f -> notified f (lset ths i p') ths' -> step (ths, s) (i, e) (ths', s').
Inductive spurious : state -> state -> Prop :=
| sp_worker : forall ths s i, aborted s = false -> nth_error ths i = Some WSleep -> spurious (ths, s) (lset ths i WLock, s)
| sp_waiter : forall ths s i l, aborted s = false -> nth_error ths i = Some (VSleep l) -> spurious (ths, s) (lset ths i (VLock l), s).

(** The constructor, cc:9-22, with [w] workers, next to client threads that run [progs] *)
Definition start (w : nat) (progs : list (list call)) : state :=
  (repeat WLock w ++ map CRun progs, Pool [] 0 false false 0 false).
(** Executions: the events in the order of their occurrence *)
Inductive exec (s0 : state) : list (nat * event) -> state -> Prop :=
| x_nil : exec s0 [] s0
| x_step : forall tr s e s', exec s0 tr s -> step s e s' -> exec s0 (tr ++ [e]) s'
| x_spur : forall tr s s', exec s0 tr s -> spurious s s' -> exec s0 tr s'.
