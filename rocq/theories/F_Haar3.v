(** Facts about the 3D Haar transform (exact arithmetic). *)
From Verif Require Import Base M_IntMath M_Num F_Num M_Haar F_Haar M_Haar3.
From Coq Require Import QArith Qcanon Qcabs Lqa.
Close Scope Qc_scope.
Close Scope Q_scope.
Open Scope Z_scope.

Lemma child_cases c : 0 <= c < 8 ->
  c = 0 \/ c = 1 \/ c = 2 \/ c = 3 \/ c = 4 \/ c = 5 \/ c = 6 \/ c = 7.
Proof. lia. Qed.
Ltac child8 c Hc :=
  destruct (child_cases c Hc) as [->|[->|[->|[->|[->|[->|[->| ->]]]]]]].

Lemma oget_otab {A} (f : Z -> A) c : 0 <= c < 8 -> oget (otab f) c = f c.
Proof. intros H. child8 c H; reflexivity. Qed.
Lemma oget_oset {A} (o : oct A) i c v : 0 <= c < 8 -> oget (oset o i v) c = if c =? i then v else oget o c.
Proof. intros H. unfold oset. rewrite oget_otab by assumption. reflexivity. Qed.
Lemma oget_omap {A B} (f : A -> B) o c : 0 <= c < 8 -> oget (omap f o) c = f (oget o c).
Proof. intros H. destruct o. child8 c H; reflexivity. Qed.
Lemma oct_ext {A} (a b : oct A) : (forall c, 0 <= c < 8 -> oget a c = oget b c) -> a = b.
Proof.
  intros H. destruct a, b.
  pose proof (H 0 ltac:(lia)); pose proof (H 1 ltac:(lia)); pose proof (H 2 ltac:(lia));
  pose proof (H 3 ltac:(lia)); pose proof (H 4 ltac:(lia)); pose proof (H 5 ltac:(lia));
  pose proof (H 6 ltac:(lia)); pose proof (H 7 ltac:(lia)).
  cbn in *. congruence.
Qed.
Lemma otab_oget {A} (o : oct A) : otab (oget o) = o.
Proof. destruct o; reflexivity. Qed.

Lemma BackwardLifted_ext (a b : Z -> Qc) i : (forall j, 0 <= j < 2 ^ 3 -> a j = b j) -> 0 <= i < 2 ^ 3 ->
  BackwardLifted qn 3 a i = BackwardLifted qn 3 b i.
Proof.
  intros H Hi. rewrite !BackwardLifted_spec by lia.
  apply (fold_axes_eqr 3 bstep bstep); try assumption.
  - intros x Hx. apply axes_In in Hx; lia.
  - intros x c Hx j Hj. reflexivity.
  - intros x c d. apply bstep_eqr.
Qed.
Lemma ForwardLifted_ext (a b : Z -> Qc) i : (forall j, 0 <= j < 2 ^ 3 -> a j = b j) -> 0 <= i < 2 ^ 3 ->
  ForwardLifted qn 3 a i = ForwardLifted qn 3 b i.
Proof.
  intros H Hi. rewrite !ForwardLifted_spec by lia.
  apply (fold_axes_eqr 3 fstep fstep); try assumption.
  - intros x Hx. apply axes_In in Hx; lia.
  - intros x c Hx j Hj. reflexivity.
  - intros x c d. apply fstep_eqr.
Qed.

Lemma parr_dtab (f : Z -> Qc) j : 0 <= j < 8 -> parr (f 0) (dtab f) j = f j.
Proof. intros H. child8 j H; reflexivity. Qed.
Lemma parr_dtab_eq (s : Qc) d : dtab (parr s d) = d.
Proof. destruct d; reflexivity. Qed.

Lemma backward_forward3 o : backward3 qn (fst (forward3 qn o)) (snd (forward3 qn o)) = o.
Proof.
  apply oct_ext. intros c Hc. unfold backward3. rewrite oget_otab by assumption.
  cbn [forward3 fst snd].
  rewrite (BackwardLifted_ext _ (ForwardLifted qn 3 (oget o))).
  - apply backward_forward_lifted; lia.
  - intros j Hj. apply parr_dtab. lia.
  - lia.
Qed.
Lemma forward_backward3 s d : forward3 qn (backward3 qn s d) = (s, d).
Proof.
  unfold forward3, backward3.
  assert (E : forall i, 0 <= i < 8 ->
    ForwardLifted qn 3 (oget (otab (BackwardLifted qn 3 (parr s d)))) i = parr s d i).
  { intros i Hi. rewrite (ForwardLifted_ext _ (BackwardLifted qn 3 (parr s d))).
    - apply forward_backward_lifted; lia.
    - intros j Hj. apply oget_otab. lia.
    - lia. }
  cbv zeta. rewrite E by lia. f_equal; [destruct d; reflexivity|].
  rewrite <- (parr_dtab_eq s d) at 2. unfold dtab. rewrite !E by lia. reflexivity.
Qed.

Ltac qcompute :=
  cbv -[Qcplus Qcminus Qcmult Qcopp Qcdiv Qcinv Qcpower q2 Q2Qc];
  cbn [Qcpower]; unfold q2.
Ltac qneq := repeat split; (exact q2_neq0 || (let h := fresh in intros h; discriminate h)).
Ltac qfin := qcompute; field; qneq.

(** Explicit form of the inverse transform, independent of the loops. *)
Definition sgn (b : bool) (x : Qc) : Qc := if b then x else Qcopp x.
Definition child_value (s : Qc) (d : det Qc) (c : Z) : Qc :=
  match d with Det d1 d2 d3 d4 d5 d6 d7 =>
    let x := Z.testbit c 0 in let y := Z.testbit c 1 in let z := Z.testbit c 2 in
    (s + sgn x (d1 / q2) + sgn y (d2 / q2) + sgn (eqb x y) (d3 / (q2 * q2))
       + sgn z (d4 / q2) + sgn (eqb x z) (d5 / (q2 * q2)) + sgn (eqb y z) (d6 / (q2 * q2))
       + sgn (eqb (eqb x y) z) (d7 / (q2 * q2 * q2)))%Qc
  end.

Lemma backward3_value s d c : 0 <= c < 8 -> oget (backward3 qn s d) c = child_value s d c.
Proof. intros Hc. destruct d. child8 c Hc; qfin. Qed.
Lemma bsc_value s d c : 0 <= c < 8 -> backwardSingleChild3 qn s d c = child_value s d c.
Proof. intros Hc. destruct d. child8 c Hc; qfin. Qed.

Lemma bsc_backward s d c : 0 <= c < 8 -> backwardSingleChild3 qn s d c = oget (backward3 qn s d) c.
Proof. intros Hc. rewrite bsc_value, backward3_value by assumption. reflexivity. Qed.

(** Adding the single-child transform of [x] for child [c] changes child [c] by [x] and no other. *)
Lemma child_value_fsc s d x c c' : 0 <= c < 8 -> 0 <= c' < 8 ->
  child_value (s + fst (forwardSingleChild3 qn x c))%Qc (dadd qn d (snd (forwardSingleChild3 qn x c))) c' =
  (child_value s d c' + (if (c' =? c)%Z then x else 0))%Qc.
Proof.
  intros Hc Hc'. destruct d. child8 c Hc; child8 c' Hc'; qfin.
Qed.
Lemma fsc_scale x c : 0 <= c < 8 -> fst (forwardSingleChild3 qn x c) = (x / Qcpower q2 3)%Qc.
Proof. intros Hc. child8 c Hc; qfin. Qed.

(** The scale is the mean of the children. *)
Lemma child_value_mean s d :
  (child_value s d 0 + child_value s d 1 + child_value s d 2 + child_value s d 3 +
   child_value s d 4 + child_value s d 5 + child_value s d 6 + child_value s d 7)%Qc =
  (Qcpower q2 3 * s)%Qc.
Proof. destruct d. qfin. Qed.

Lemma child_value_zero s c : child_value s (dzero qn) c = s.
Proof.
  cbv -[Qcplus Qcminus Qcmult Qcopp Qcdiv Qcinv Qcpower q2 Q2Qc Z.testbit].
  destruct (Z.testbit c 0), (Z.testbit c 1), (Z.testbit c 2); unfold q2; field; qneq.
Qed.

Lemma dim_cases dim i : (dim = 1 \/ dim = 2 \/ dim = 3) -> 0 <= i < 2 ^ dim ->
  (dim = 1 /\ (i = 0 \/ i = 1)) \/ (dim = 2 /\ (i = 0 \/ i = 1 \/ i = 2 \/ i = 3)) \/
  (dim = 3 /\ 0 <= i < 8).
Proof.
  intros [->|[->| ->]] H.
  - left. change (2 ^ 1) with 2 in H. lia.
  - right; left. change (2 ^ 2) with 4 in H. lia.
  - right; right. change (2 ^ 3) with 8 in H. lia.
Qed.
Lemma forward_parallel_lifted dim c i : (dim = 1 \/ dim = 2 \/ dim = 3) -> 0 <= i < 2 ^ dim ->
  ForwardParallel qn dim c i = ForwardLifted qn dim c i.
Proof.
  intros Hd Hi. destruct (dim_cases dim i Hd Hi) as [[-> [->| ->]]|[[-> [->|[->|[->| ->]]]]|[-> HH]]];
  [..|child8 i HH]; qfin.
Qed.
Lemma backward_parallel_lifted dim c i : (dim = 1 \/ dim = 2 \/ dim = 3) -> 0 <= i < 2 ^ dim ->
  BackwardParallel qn dim c i = BackwardLifted qn dim c i.
Proof.
  intros Hd Hi. destruct (dim_cases dim i Hd Hi) as [[-> [->| ->]]|[[-> [->|[->|[->| ->]]]]|[-> HH]]];
  [..|child8 i HH]; qfin.
Qed.
Lemma backward_single_lifted dim c i : (dim = 1 \/ dim = 2 \/ dim = 3) -> 0 <= i < 2 ^ dim ->
  BackwardSingleChild qn dim c i = BackwardLifted qn dim c i.
Proof.
  intros Hd Hi. destruct (dim_cases dim i Hd Hi) as [[-> [->| ->]]|[[-> [->|[->|[->| ->]]]]|[-> HH]]];
  [..|child8 i HH]; qfin.
Qed.
Lemma forward_single_lifted dim c x ch i : (dim = 1 \/ dim = 2 \/ dim = 3) ->
  0 <= ch < 2 ^ dim -> 0 <= i < 2 ^ dim ->
  ForwardLifted qn dim (upd c ch (c ch + x)%Qc) i =
  (ForwardLifted qn dim c i + ForwardSingleChild qn dim x ch i)%Qc.
Proof.
  intros Hd Hc Hi. destruct (dim_cases dim i Hd Hi) as [[-> [->| ->]]|[[-> [->|[->|[->| ->]]]]|[-> HH]]];
  (destruct (dim_cases _ ch Hd Hc) as [[HD [->| ->]]|[[HD [->|[->|[->| ->]]]]|[HD HC]]]; try discriminate HD);
  [..|child8 i HH; child8 ch HC]; qfin.
Qed.
