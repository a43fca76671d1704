(** Property theorems C01, C02 (Haar transform), in exact arithmetic. *)
From Verif Require Import Base M_Num F_Num M_Haar F_Haar M_Haar3 F_Haar3.
From Coq Require Import QArith Qcanon.
Close Scope Qc_scope.
Close Scope Q_scope.
Open Scope Z_scope.

(** C01: decompress after compress is the identity on the 2^dim child values, for every dimension
    and every value array; and the other way round. *)
Theorem C01_backward_forward : forall dim (child_scales : Z -> Qc) i,
  1 <= dim -> 0 <= i < 2 ^ dim ->
  BackwardLifted qn dim (ForwardLifted qn dim child_scales) i = child_scales i.
Proof. exact backward_forward_lifted. Qed.
Theorem C01_forward_backward : forall dim (parent : Z -> Qc) i,
  1 <= dim -> 0 <= i < 2 ^ dim ->
  ForwardLifted qn dim (BackwardLifted qn dim parent) i = parent i.
Proof. exact forward_backward_lifted. Qed.
(** The same for the 3D containers the maps use, and for the 1D/2D specialisations, which use the
    parallel implementation (haar_transform.h:79-135). *)
Theorem C01_lossless_3d : forall (children : oct Qc) (scale : Qc) (details : det Qc),
  backward3 qn (fst (forward3 qn children)) (snd (forward3 qn children)) = children /\
  forward3 qn (backward3 qn scale details) = (scale, details).
Proof. intros o s d. exact (conj (backward_forward3 o) (forward_backward3 s d)). Qed.
Example C01_ex :
  let o := Oct (Q2Qc (1 # 3)) (Q2Qc (-2)) (Q2Qc 0) (Q2Qc 7) (Q2Qc (1 # 2)) (Q2Qc 0) (Q2Qc 4) (Q2Qc (-5)) in
  map this (dlist (snd (forward3 qn o))) =
  [(-29 # 24); (43 # 24); (5 # 12); (-35 # 24); (-85 # 12); (-61 # 12); (-107 # 6)]%Q /\
  this (fst (forward3 qn o)) = (29 # 48)%Q.
Proof. vm_compute. split; reflexivity. Qed.
Print Assumptions C01_backward_forward.
Print Assumptions C01_forward_backward.
Print Assumptions C01_lossless_3d.

(** C02: all implementations compute the same function, in the dimensions the code instantiates. *)
Theorem C02_variants_agree : forall dim (a : Z -> Qc) i,
  (dim = 1 \/ dim = 2 \/ dim = 3) -> 0 <= i < 2 ^ dim ->
  ForwardParallel qn dim a i = ForwardLifted qn dim a i /\
  BackwardParallel qn dim a i = BackwardLifted qn dim a i /\
  BackwardSingleChild qn dim a i = BackwardLifted qn dim a i.
Proof.
  intros dim a i Hd Hi.
  exact (conj (forward_parallel_lifted dim a i Hd Hi)
        (conj (backward_parallel_lifted dim a i Hd Hi) (backward_single_lifted dim a i Hd Hi))).
Qed.
(** Compressing after incrementing child [ch] by [x] = compressing, plus the single-child transform. *)
Theorem C02_forward_single_child : forall dim (c : Z -> Qc) x ch i,
  (dim = 1 \/ dim = 2 \/ dim = 3) -> 0 <= ch < 2 ^ dim -> 0 <= i < 2 ^ dim ->
  ForwardLifted qn dim (fun j => if j =? ch then (c ch + x)%Qc else c j) i =
  (ForwardLifted qn dim c i + ForwardSingleChild qn dim x ch i)%Qc.
Proof. exact forward_single_lifted. Qed.
Example C02_ex :
  this (ForwardSingleChild qn 3 (Q2Qc 8) 5 3) = (-4)%Q /\ this (ForwardSingleChild qn 3 (Q2Qc 8) 5 0) = 1%Q.
Proof. vm_compute. split; reflexivity. Qed.
Print Assumptions C02_variants_agree.
Print Assumptions C02_forward_single_child.
