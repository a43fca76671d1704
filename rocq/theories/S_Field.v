(** Specification vocabulary for occupancy maps: a map is a field of cell values. Nothing here refers
    to trees, blocks or coefficients. *)
From Verif Require Import Base M_Ndtree.
From Coq Require Import QArith Qcanon Qcabs.
Close Scope Qc_scope.
Close Scope Q_scope.
Open Scope Z_scope.

(** Value of every smallest-resolution cell. *)
Definition field := idx3 -> Qc.

(** Cell [c] lies in the node (height, position): position * 2^height <= c < (position + 1) * 2^height. *)
Definition in_node (i : oidx) (c : idx3) : bool :=
  let w := 2 ^ oh i in
  (px (opos i) * w <=? px c) && (px c <? (px (opos i) + 1) * w) &&
  (py (opos i) * w <=? py c) && (py c <? (py (opos i) + 1) * w) &&
  (pz (opos i) * w <=? pz c) && (pz c <? (pz (opos i) + 1) * w).

(** Integers as rationals. *)
Definition qz (z : Z) : Qc := Q2Qc (inject_Z z).

(** f(a) + f(a+1) + ... (n terms) *)
Fixpoint sum_range (f : Z -> Qc) (a : Z) (n : nat) : Qc :=
  match n with O => 0%Qc | S n' => (f a + sum_range f (a + 1)%Z n')%Qc end.
(** Sum of [f] over the 2^h x 2^h x 2^h cells of the node (h, p), and their mean. *)
Definition cell_sum (f : field) (h : Z) (p : idx3) : Qc :=
  let n := Z.to_nat (2 ^ h) in
  sum_range (fun x => sum_range (fun y => sum_range (fun z => f (I3 x y z))
    (pz p * 2 ^ h) n) (py p * 2 ^ h) n) (px p * 2 ^ h) n.
Definition node_mean (f : field) (i : oidx) : Qc := (cell_sum f (oh i) (opos i) / qz (8 ^ oh i))%Qc.

(** Clamping to an interval. *)
Definition clampq (lo hi v : Qc) : Qc :=
  if Qlt_le_dec (this v) (this lo) then lo else if Qlt_le_dec (this hi) (this v) then hi else v.

(** The node one level up. *)
Definition parent_node (i : oidx) : oidx :=
  OI (oh i + 1) (I3 (px (opos i) / 2) (py (opos i) / 2) (pz (opos i) / 2)).

(** Effects on a field. *)
Definition fadd (f : field) (i : oidx) (u : Qc) : field := fun c => if in_node i c then (f c + u)%Qc else f c.
Definition fset (f : field) (i : oidx) (v : Qc) : field := fun c => if in_node i c then v else f c.
Definition fclamp (lo hi : Qc) (f : field) : field := fun c => clampq lo hi (f c).
Definition fzero : field := fun _ => 0%Qc.
(** What setCellValue actually does on the wavelet maps: it adds the difference between the new value
    and the mean of the PARENT node (see C10). *)
Definition fset_parent (f : field) (i : oidx) (v : Qc) : field :=
  fadd f i (v - node_mean f (parent_node i))%Qc.

(** Every cell is covered by exactly one entry of a leaf list, and that entry carries the value. *)
Definition exactly_one (l : list (oidx * Qc)) (c : idx3) (v : Qc) : Prop :=
  exists l1 i l2, l = l1 ++ (i, v) :: l2 /\ in_node i c = true /\
    forall j u, In (j, u) (l1 ++ l2) -> in_node j c = false.

(** Calls on a field, for maps whose setCellValue is [fset_parent]. *)
Inductive fcall := FSet (i : oidx) (v : Qc) | FAdd (i : oidx) (u : Qc) | FThreshold | FClear.
Definition fapply (lo hi : Qc) (f : field) (c : fcall) : field :=
  match c with
  | FSet i v => fset_parent f i v
  | FAdd i u => fadd f i u
  | FThreshold => fclamp lo hi f
  | FClear => fzero
  end.
Definition frun (lo hi : Qc) (l : list fcall) : field := fold_left (fapply lo hi) l fzero.

(** Total of the increments whose node contains cell [c]. *)
Fixpoint increments_at (l : list (oidx * Qc)) (c : idx3) : Qc :=
  match l with
  | [] => 0%Qc
  | (i, u) :: l' => if in_node i c then (u + increments_at l' c)%Qc else increments_at l' c
  end.

(** Nodes a plain octree of height [T] stores: below the root and inside the cube
    [-2^(T-1), 2^(T-1))^3 of smallest cells. *)
Definition in_octree (T : Z) (i : oidx) : Prop :=
  let b := 2 ^ (T - 1 - oh i) in
  0 <= oh i < T /\ (- b <= px (opos i) < b) /\ (- b <= py (opos i) < b) /\ (- b <= pz (opos i) < b).
(** Componentwise order. *)
Definition ileq (a b : idx3) : Prop := px a <= px b /\ py a <= py b /\ pz a <= pz b.
(** int32 range. *)
Definition i32_index (a : idx3) : Prop :=
  (- 2 ^ 31 <= px a < 2 ^ 31) /\ (- 2 ^ 31 <= py a < 2 ^ 31) /\ (- 2 ^ 31 <= pz a < 2 ^ 31).
