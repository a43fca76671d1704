(** Bucket queue: /repo/library/cpp/include/wavemap/core/data_structure/bucket_queue.h (lines "h:") and
    impl/bucket_queue_inl.h (lines "inl:"); sparse vector: data_structure/sparse_vector.h (lines "sv:"). *)
From Verif Require Import Base.
From Coq Require Import QArith Qround Qabs.
Close Scope Q_scope.
Open Scope Z_scope.

Section BUCKETS.
Context {V : Type}.
(** h:44-52. Keys are rationals instead of floats; counters are unbounded. *)
Record bqueue := BQ { q_num : Z; q_max : Q; q_buckets : list (list V); q_last : Z; q_count : Z }.
(** buckets_.clear(); buckets_.resize(n) *)
Definition fresh_buckets (n : Z) : list (list V) := repeat [] (Z.to_nat n).
(** inl:7-14 *)
Definition bq_new (n : Z) (mx : Q) : bqueue := BQ n mx (fresh_buckets n) 0 0.
(** inl:16-24; last_bucket_index_ is not reset *)
Definition bq_setNumBuckets (q : bqueue) (n : Z) (mx : Q) : bqueue := BQ n mx (fresh_buckets n) (q_last q) 0.
(** inl:26-32 *)
Definition bq_clear (q : bqueue) : bqueue := BQ (q_num q) (q_max q) (fresh_buckets (q_num q)) 0 0.
(** h:26-27 *)
Definition bq_size (q : bqueue) : Z := q_count q.
Definition bq_empty (q : bqueue) : bool := q_count q =? 0.
(** h:34-41 *)
Definition computeBucketIndex (q : bqueue) (key : Q) : Z :=
  let i := Qfloor (Qabs key / q_max q * inject_Z (q_num q - 1)) in
  if q_num q <=? i then q_num q - 1 else i.
Fixpoint update_nth {B} (n : nat) (f : B -> B) (l : list B) : list B :=
  match l, n with [], _ => [] | x :: l', O => f x :: l' | x :: l', S n' => x :: update_nth n' f l' end.
(** inl:34-43 *)
Definition bq_push (q : bqueue) (key : Q) (v : V) : bqueue :=
  let b := computeBucketIndex q key in
  BQ (q_num q) (q_max q) (update_nth (Z.to_nat b) (fun l => l ++ [v]) (q_buckets q))
     (if b <? q_last q then b else q_last q) (q_count q + 1).
(** The loop in pop() and front(), inl:50-53 and 64-67: skip empty buckets. [fuel] is num_buckets_, which
    bounds the number of iterations. *)
Fixpoint skip_empty (fuel : nat) (n : Z) (bs : list (list V)) (i : Z) : Z :=
  match fuel with
  | O => i
  | S f => if i <? n then match nth (Z.to_nat i) bs [] with [] => skip_empty f n bs (i + 1) | _ => i end else i
  end.
Definition bq_skip (q : bqueue) : Z := skip_empty (Z.to_nat (q_num q)) (q_num q) (q_buckets q) (q_last q).
(** inl:45-58 *)
Definition bq_pop (q : bqueue) : bqueue :=
  if bq_empty q then q else
  let i := bq_skip q in
  if i <? q_num q then BQ (q_num q) (q_max q) (update_nth (Z.to_nat i) (@tl V) (q_buckets q)) i (q_count q - 1)
  else BQ (q_num q) (q_max q) (q_buckets q) i (q_count q).
(** inl:60-69: updates last_bucket_index_ and returns the first element; [None]: undefined behaviour
    (access past the last bucket, or front() of an empty std::queue) *)
Definition bq_front (q : bqueue) : bqueue * option V :=
  let i := bq_skip q in
  (BQ (q_num q) (q_max q) (q_buckets q) i (q_count q), nth_error (nth (Z.to_nat i) (q_buckets q) []) 0).

(** Calls in any order *)
Inductive bq_call := BPush (key : Q) (v : V) | BPop | BFront | BClear | BSet (n : Z) (mx : Q).
Definition bq_apply (q : bqueue) (c : bq_call) : bqueue * option V :=
  match c with
  | BPush k v => (bq_push q k v, None)
  | BPop => (bq_pop q, None)
  | BFront => bq_front q
  | BClear => (bq_clear q, None)
  | BSet n mx => (bq_setNumBuckets q n mx, None)
  end.
End BUCKETS.
Arguments bqueue : clear implicits.
Arguments bq_call : clear implicits.

Section SPARSE.
Context {V : Type} (dflt : V).
(** sv:50-51: bitset (index 0 first) and compacted vector *)
Record svec := SV { sv_mask : list bool; sv_vals : list V }.
(** sv:14, 48-49: default constructed, all bits zero *)
Definition sv_new (max_size : nat) : svec := SV (repeat false max_size) [].
Fixpoint count_true (l : list bool) : nat := match l with [] => O | true :: l' => S (count_true l') | false :: l' => count_true l' end.
(** size, sv:16 *)
Definition sv_size (s : svec) : nat := count_true (sv_mask s).
(** has, sv:20 *)
Definition sv_has (s : svec) (i : nat) : bool := nth i (sv_mask s) false.
(** ((kOnes << idx).flip() & bitmask_).count(), sv:24 and sv:31: the number of set bits below idx *)
Definition sparse_idx (s : svec) (i : nat) : nat := count_true (firstn i (sv_mask s)).
(** at, sv:22-28 *)
Definition sv_at (s : svec) (i : nat) : V := if sv_has s i then nth (sparse_idx s i) (sv_vals s) dflt else dflt.
(** operator[] followed by an assignment of [v] through the returned reference, sv:30-38 *)
Definition sv_set (s : svec) (i : nat) (v : V) : svec :=
  let k := sparse_idx s i in
  if sv_has s i then SV (sv_mask s) (update_nth k (fun _ => v) (sv_vals s))
  else SV (update_nth i (fun _ => true) (sv_mask s)) (update_nth k (fun _ => v) (firstn k (sv_vals s) ++ dflt :: skipn k (sv_vals s))).
(** operator[] without an assignment (reading through a non-const reference inserts the default) *)
Definition sv_touch (s : svec) (i : nat) : svec := if sv_has s i then s else sv_set s i dflt.
End SPARSE.
Arguments svec : clear implicits.
