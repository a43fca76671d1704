(** Number operations used by the map code. All map models take a record of operations, so the same
    Gallina function describes the C++ code at any value type (as the C++ templates do); the
    algebraic theorems use the instance [qn] over the canonical rationals [Qc] (exact arithmetic). *)
From Verif Require Import Base.
From Coq Require Import QArith Qcanon Qcabs.
Close Scope Qc_scope.
Close Scope Q_scope.
Open Scope Z_scope.

(** Operations of FloatingPoint (float), /repo/library/cpp/include/wavemap/core/common.h:18:
    zero = ValueT{}, + , binary -, unary -, 0.5*x, x / ValueT(2^k), <, ==, std::abs and the literal
    1e-3f used as tolerance. *)
Record num (V : Type) := MkNum {
  n0 : V;
  nadd : V -> V -> V;
  nsub : V -> V -> V;
  nopp : V -> V;
  nhalf : V -> V;
  ndiv2 : V -> Z -> V;
  nltb : V -> V -> bool;
  neqb : V -> V -> bool;
  nabs : V -> V;
  neps : V }.
Arguments n0 {V}. Arguments nadd {V}. Arguments nsub {V}. Arguments nopp {V}. Arguments nhalf {V}.
Arguments ndiv2 {V}. Arguments nltb {V}. Arguments neqb {V}. Arguments nabs {V}. Arguments neps {V}.

(** std::clamp(v, lo, hi), used in /repo/library/cpp/include/wavemap/core/map/map_base.h:121-123 *)
Definition nclamp {V} (N : num V) (lo hi v : V) : V :=
  if nltb N v lo then lo else if nltb N hi v then hi else v.

(** Exact arithmetic. The tolerance is the exact value of the float literal 1e-3f. *)
Definition q2 : Qc := Qcplus 1%Qc 1%Qc.
Definition qeps : Qc := Q2Qc (8589935 # 8589934592).
Definition qltb (a b : Qc) : bool := negb (Qle_bool (this b) (this a)).
Definition qeqb (a b : Qc) : bool := Qeq_bool (this a) (this b).
Definition qdiv2 (x : Qc) (k : Z) : Qc := Qcdiv x (Qcpower q2 (Z.to_nat k)).
Definition qn : num Qc :=
  MkNum Qc 0%Qc Qcplus Qcminus Qcopp (fun x => Qcdiv x q2) qdiv2 qltb qeqb Qcabs qeps.
