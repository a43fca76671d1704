(** Fixed-size containers for the 3D maps and the Haar transform at dim = 3. *)
From Verif Require Import Base M_Num M_Haar.

(** std::array<T, 8>, e.g. HaarCoefficients<ValueT,3>::CoefficientsArray (haar_coefficients.h:20) and
    NdtreeNode::ChildrenArray (ndtree_node.h:52). Indices outside 0..7 do not occur. *)
Inductive oct (A : Type) := Oct (a0 a1 a2 a3 a4 a5 a6 a7 : A).
Arguments Oct {A}.
Definition oget {A} (o : oct A) (i : Z) : A :=
  match o with Oct a0 a1 a2 a3 a4 a5 a6 a7 =>
    match i with 0 => a0 | 1 => a1 | 2 => a2 | 3 => a3 | 4 => a4 | 5 => a5 | 6 => a6 | _ => a7 end
  end.
Definition otab {A} (f : Z -> A) : oct A := Oct (f 0) (f 1) (f 2) (f 3) (f 4) (f 5) (f 6) (f 7).
Definition oset {A} (o : oct A) (i : Z) (v : A) : oct A := otab (fun j => if j =? i then v else oget o j).
Definition omap {A B} (f : A -> B) (o : oct A) : oct B :=
  match o with Oct a0 a1 a2 a3 a4 a5 a6 a7 =>
    Oct (f a0) (f a1) (f a2) (f a3) (f a4) (f a5) (f a6) (f a7) end.
Definition olist {A} (o : oct A) : list A :=
  match o with Oct a0 a1 a2 a3 a4 a5 a6 a7 => [a0; a1; a2; a3; a4; a5; a6; a7] end.

(** HaarCoefficients<ValueT,3>::Details, haar_coefficients.h:23-71: seven detail coefficients. *)
Inductive det (V : Type) := Det (d1 d2 d3 d4 d5 d6 d7 : V).
Arguments Det {V}.
Definition dlist {V} (d : det V) : list V :=
  match d with Det d1 d2 d3 d4 d5 d6 d7 => [d1; d2; d3; d4; d5; d6; d7] end.
Definition dmap2 {V} (f : V -> V -> V) (a b : det V) : det V :=
  match a, b with Det a1 a2 a3 a4 a5 a6 a7, Det b1 b2 b3 b4 b5 b6 b7 =>
    Det (f a1 b1) (f a2 b2) (f a3 b3) (f a4 b4) (f a5 b5) (f a6 b6) (f a7 b7) end.
Definition dtab {V} (f : Z -> V) : det V := Det (f 1) (f 2) (f 3) (f 4) (f 5) (f 6) (f 7).

(** HaarCoefficients::Parent::operator[], haar_coefficients.h:91-96 *)
Definition parr {V} (s : V) (d : det V) : Z -> V := fun i =>
  match d with Det d1 d2 d3 d4 d5 d6 d7 =>
    match i with 0 => s | 1 => d1 | 2 => d2 | 3 => d3 | 4 => d4 | 5 => d5 | 6 => d6 | _ => d7 end
  end.

Section Haar3.
Context {V : Type} (N : num V).
(** Details{} *)
Definition dzero : det V := dtab (fun _ => n0 N).
(** Details::operator+, operator-, haar_coefficients.h:25-44 *)
Definition dadd : det V -> det V -> det V := dmap2 (nadd N).
Definition dsub : det V -> det V -> det V := dmap2 (nsub N).

(** HaarTransform<ValueT,3>::forward / backward / forwardSingleChild / backwardSingleChild,
    haar_transform.h:50-77 *)
Definition forward3 (children : oct V) : V * det V :=
  let a := ForwardLifted N 3 (oget children) in (a 0, dtab a).
Definition backward3 (s : V) (d : det V) : oct V := otab (BackwardLifted N 3 (parr s d)).
Definition forwardSingleChild3 (x : V) (child : Z) : V * det V :=
  let a := ForwardSingleChild N 3 x child in (a 0, dtab a).
Definition backwardSingleChild3 (s : V) (d : det V) (child : Z) : V :=
  BackwardSingleChild N 3 (parr s d) child.

(** data::is_nonzero for an array, strict and with tolerance, utils/data/comparisons.h:12-31 *)
Definition det_nonzero (d : det V) : bool := existsb (fun v => negb (neqb N v (n0 N))) (dlist d).
Definition det_nonzero_tol (d : det V) : bool := existsb (fun v => nltb N (neps N) (nabs N v)) (dlist d).
End Haar3.
