(** Ray iterator: /repo/library/cpp/include/wavemap/core/utils/iterate/ray_iterator.h and
    impl/ray_iterator_inl.h. Vectors of dimension [d] are functions of the axis number (only axes below
    [d] matter); floats are rationals. *)
From Verif Require Import Base M_IntMath M_NdtreeIndex M_Point.
From Coq Require Import QArith Qround Lqa.
Close Scope Q_scope.
Open Scope Z_scope.

Definition vec (A : Type) := nat -> A.
Definition upd {A} (v : vec A) (i : nat) (x : A) : vec A := fun j => if Nat.eqb j i then x else v j.
Fixpoint vsum (d : nat) (v : vec Z) : Z := match d with O => 0 | S d' => vsum d' v + v d' end.

(** ray_iterator.h:59-65 *)
Record ray := Ray { r_start : vec Z; r_end : vec Z; r_len : Z; r_signs : vec Z; r_tstep : vec Q; r_tinit : vec Q }.

(** Ray(start_index, end_index), ray_iterator_inl.h:5-33. (The early return for a length of 0 cannot be
    taken: the length is at least 1.) *)
Definition ray_of_indices (d : nat) (s e : vec Z) : ray :=
  let r := fun i => e i - s i in
  let signs := fun i => Z.sgn (r i) in
  Ray s e (vsum d (fun i => Z.abs (e i - s i)) + 1) signs
    (fun i => if r i =? 0 then 2%Q else (inject_Z (signs i) / inject_Z (r i))%Q)
    (fun i => if r i =? 0 then 2%Q else ((inject_Z (Z.max (signs i) 0) - (1 # 2)) / inject_Z (r i))%Q).

(** Eigen's cwiseSign on floats *)
Definition qsgn (x : Q) : Z := Z.sgn (Qnum x).
(** Ray(start_point, end_point, cell_width), ray_iterator_inl.h:35-66; [rnd] is the rounding used by
    pointToNearestIndex (index_conversions.h:16-35) *)
Definition ray_of_points (rnd : Q -> Z) (d : nat) (s e : vec Q) (w : Q) : ray :=
  let si := fun i => rnd (s i * (1 / w) - (1 # 2))%Q in
  let ei := fun i => rnd (e i * (1 / w) - (1 # 2))%Q in
  let r := fun i => (e i - s i)%Q in
  let signs := fun i => qsgn (r i) in
  let start_relative := fun i => (s i - inject_Z (si i) * w)%Q in
  Ray si ei (vsum d (fun i => Z.abs (ei i - si i)) + 1) signs
    (fun i => if Qeq_bool (r i) 0 then 2%Q else (inject_Z (signs i) * w / r i)%Q)
    (fun i => if Qeq_bool (r i) 0 then 2%Q else ((inject_Z (Z.max (signs i) 0) * w - start_relative i) / r i)%Q).

(** Eigen's minCoeff(&index): position of the first minimal coefficient *)
Fixpoint min_coeff (d : nat) (t : vec Q) : nat :=
  match d with
  | O => O
  | S O => O
  | S d' => let m := min_coeff d' t in if Qle_bool (t m) (t d') then m else d'
  end.
(** The iterator state (current_index_, t_to_next_boundary_), and operator++, ray_iterator_inl.h:68-78 *)
Definition ray_state := (vec Z * vec Q)%type.
Definition ray_next (d : nat) (r : ray) (st : ray_state) : ray_state :=
  let '(cur, t) := st in
  let m := min_coeff d t in
  (upd cur m (cur m + r_signs r m), upd t m (t m + r_tstep r m)%Q).
(** begin(), ray_iterator.h:22-25, 55 *)
Definition ray_begin (r : ray) : ray_state := (r_start r, r_tinit r).
Fixpoint ray_after (d : nat) (r : ray) (k : nat) : ray_state :=
  match k with O => ray_begin r | S k' => ray_next d r (ray_after d r k') end.
(** `for (const auto& index : ray)`: iterators compare their step counters (ray_iterator.h:40-47), and
    end() has step ray_length_in_steps_ (26-31), so the loop body runs for steps 0 .. length - 1. *)
Definition ray_visit (d : nat) (r : ray) : list (vec Z) :=
  map (fun k => fst (ray_after d r k)) (seq 0 (Z.to_nat (r_len r))).
