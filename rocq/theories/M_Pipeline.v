(** * Pipeline of integrators and map operations
    Model of library/cpp/{include/wavemap,src}/pipeline. Integrators and measurements are opaque; what an
    integrator or operation does to the map is not modelled here, only the calls made, as an event log.
    Time is in rational seconds since the clock's epoch (the code converts steady_clock ticks to float
    seconds); each operation reads the clock when it runs, and a call carries these readings. *)
From Verif Require Import Base.
From Coq Require Import String QArith.
Close Scope Q_scope.
Open Scope Z_scope.
Open Scope list_scope.

Section PIPE.
Context {I M : Type}.
(** map_operations/prune_map_operation.h:36-37 (and threshold_map_operation.h): period and last run. The id
    stands for the operation object. A default-constructed Timestamp is the epoch, 0. *)
Record op := Op { op_id : Z; op_period : Q; op_last : Q }.
(** A call made by the pipeline: [integrate(measurement)] or [pruneSmart()/threshold()] with its time. *)
Inductive event := EInt (i : I) (m : M) | EOp (id : Z) (t : Q).
(** pipeline.h:89-92: name -> integrator map (unordered_map as association list), operation vector.
    [p_next] numbers operation objects. *)
Record pipe := Pipe { p_ints : list (string * I); p_ops : list op; p_next : Z }.

(** src/pipeline/pipeline.cc:23-28 [getIntegrator] *)
Fixpoint find_int (l : list (string * I)) (n : string) : option I :=
  match l with [] => None | (k, i) :: l' => if String.eqb k n then Some i else find_int l' n end.
Definition getIntegrator (s : pipe) (n : string) : option I := find_int (p_ints s) n.
(** src/pipeline/pipeline.cc:15-17 [hasIntegrator] *)
Definition hasIntegrator (s : pipe) (n : string) : bool := match getIntegrator s n with Some _ => true | None => false end.
(** src/pipeline/pipeline.cc:37-54 [addIntegrator]; the result tells whether a pointer was returned. *)
Definition addIntegrator (s : pipe) (n : string) (o : option I) : pipe * option I :=
  match o with
  | None => (s, None)
  | Some i => match getIntegrator s n with
              | Some _ => (s, None)
              | None => (Pipe ((n, i) :: p_ints s) (p_ops s) (p_next s), Some i)
              end
  end.
(** src/pipeline/pipeline.cc:19-21 [removeIntegrator] (keys are unique in a map, so erasing all
    entries with the key is erasing the entry) *)
Definition removeIntegrator (s : pipe) (n : string) : pipe * bool :=
  (Pipe (filter (fun e => negb (String.eqb (fst e) n)) (p_ints s)) (p_ops s) (p_next s), hasIntegrator s n).
(** pipeline.h:58 [clearIntegrators] *)
Definition clearIntegrators (s : pipe) : pipe := Pipe [] (p_ops s) (p_next s).
(** src/pipeline/pipeline.cc:62-66 [addOperation]; None is the null pointer (e.g. from a failing factory) *)
Definition addOperation (s : pipe) (period : option Q) : pipe * option Z :=
  match period with
  | None => (s, None)
  | Some p => (Pipe (p_ints s) (p_ops s ++ [Op (p_next s) p 0]) (p_next s + 1), Some (p_next s))
  end.
(** pipeline.h:67 [clearOperations] *)
Definition clearOperations (s : pipe) : pipe := Pipe (p_ints s) [] (p_next s).
(** src/pipeline/pipeline.cc:10-13 [clear] *)
Definition clear_all (s : pipe) : pipe := clearOperations (clearIntegrators s).

(** impl/pipeline_inl.h:8-19 [runIntegrators] *)
Fixpoint runIntegrators (s : pipe) (names : list string) (m : M) : list event * bool :=
  match names with
  | [] => ([], true)
  | n :: ns => match getIntegrator s n with
               | Some i => let (es, b) := runIntegrators s ns m in (EInt i m :: es, b)
               | None => ([], false)
               end
  end.
(** src/pipeline/map_operations/prune_map_operation.cc:11-14, threshold_map_operation.cc:11-14 [shouldRun] *)
Definition shouldRun (o : op) (now : Q) : bool := negb (Qle_bool (now - op_last o) (op_period o)).
(** prune_map_operation.cc:16-22, threshold_map_operation.cc:16-22 [run] *)
Definition op_run (force : bool) (now : Q) (o : op) : op * list event :=
  if force || shouldRun o now then (Op (op_id o) (op_period o) now, [EOp (op_id o) now]) else (o, []).
(** src/pipeline/pipeline.cc:68-72 [runOperations]; [ts k] is the clock when operation k runs *)
Fixpoint runOps (force : bool) (ts : nat -> Q) (k : nat) (ops : list op) : list op * list event :=
  match ops with
  | [] => ([], [])
  | o :: os => let (o', e) := op_run force (ts k) o in
               let (os', es) := runOps force ts (S k) os in (o' :: os', e ++ es)
  end.
Definition runOperations (force : bool) (ts : nat -> Q) (s : pipe) : pipe * list event :=
  let (os, es) := runOps force ts 0 (p_ops s) in (Pipe (p_ints s) os (p_next s), es).
(** impl/pipeline_inl.h:21-27 [runPipeline] *)
Definition runPipeline (s : pipe) (names : list string) (m : M) (ts : nat -> Q) : pipe * list event * bool :=
  let (es, b) := runIntegrators s names m in let (s', es') := runOperations false ts s in (s', es ++ es', b).

(** The public calls (pipeline.h:33-83). *)
Inductive cmd := CAddInt (n : string) (o : option I) | CRemoveInt (n : string) | CClearInts
  | CAddOp (period : option Q) | CClearOps | CClear
  | CRunInts (names : list string) (m : M) | CRunOps (force : bool) (ts : nat -> Q)
  | CRunPipe (names : list string) (m : M) (ts : nat -> Q).
Definition step (s : pipe) (c : cmd) : pipe * list event :=
  match c with
  | CAddInt n o => (fst (addIntegrator s n o), [])
  | CRemoveInt n => (fst (removeIntegrator s n), [])
  | CClearInts => (clearIntegrators s, [])
  | CAddOp p => (fst (addOperation s p), [])
  | CClearOps => (clearOperations s, [])
  | CClear => (clear_all s, [])
  | CRunInts ns m => (s, fst (runIntegrators s ns m))
  | CRunOps f ts => runOperations f ts s
  | CRunPipe ns m ts => fst (runPipeline s ns m ts)
  end.
(** A new pipeline (pipeline.h:26-30) after a history of calls, oldest first, with the log of calls made. *)
Definition run_hist (h : list cmd) : pipe * list event :=
  fold_left (fun sl c => let (s', es) := step (fst sl) c in (s', snd sl ++ es)) h (Pipe [] [] 0, []).
End PIPE.
Arguments op : clear implicits. Arguments event : clear implicits. Arguments pipe : clear implicits. Arguments cmd : clear implicits.
