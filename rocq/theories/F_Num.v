(** Facts about the exact instance. *)
From Verif Require Import Base M_Num.
From Coq Require Import QArith Qcanon Qcabs Lqa.
Close Scope Q_scope.
Open Scope Qc_scope.

Lemma qltb_iff a b : qltb a b = true <-> a < b.
Proof.
  unfold qltb, Qclt. rewrite negb_true_iff.
  split; intros H.
  - apply Qnot_le_lt. intros L. apply Qle_bool_iff in L. congruence.
  - destruct (Qle_bool b a) eqn:E; [|reflexivity]. apply Qle_bool_iff in E.
    exfalso. apply (Qlt_not_le _ _ H E).
Qed.
Lemma qltb_false a b : qltb a b = false <-> b <= a.
Proof.
  unfold qltb, Qcle. rewrite negb_false_iff. apply Qle_bool_iff.
Qed.
Lemma qeqb_iff a b : qeqb a b = true <-> a = b.
Proof.
  unfold qeqb. rewrite Qeq_bool_iff. split; [apply Qc_is_canon|intros ->; reflexivity].
Qed.

(** Move order/equality goals from Qc to Q and call lra. *)
Lemma Qc_eq_Q (a b : Qc) : a = b <-> (this a == this b)%Q.
Proof. split; [intros ->; reflexivity|apply Qc_is_canon]. Qed.
Lemma this_plus a b : (this (a + b) == this a + this b)%Q.
Proof. apply Qred_correct. Qed.
Lemma this_mult a b : (this (a * b) == this a * this b)%Q.
Proof. apply Qred_correct. Qed.
Lemma this_opp a : (this (- a) == - this a)%Q.
Proof. apply Qred_correct. Qed.
Lemma this_minus a b : (this (a - b) == this a - this b)%Q.
Proof. unfold Qcminus. rewrite this_plus, this_opp. reflexivity. Qed.
Lemma this_inv a : (this (/ a) == / this a)%Q.
Proof. apply Qred_correct. Qed.
Lemma this_div a b : (this (a / b) == this a / this b)%Q.
Proof. unfold Qcdiv. rewrite this_mult, this_inv. reflexivity. Qed.
Lemma this_1 : (this 1 == 1)%Q. Proof. reflexivity. Qed.
Lemma this_0 : (this 0 == 0)%Q. Proof. reflexivity. Qed.
Lemma this_q2 : (this q2 == 2)%Q. Proof. reflexivity. Qed.
Lemma this_Q2Qc q : (this (Q2Qc q) == q)%Q. Proof. apply Qred_correct. Qed.
Lemma this_abs a : (this (Qcabs a) == Qabs.Qabs (this a))%Q.
Proof. reflexivity. Qed.

Ltac toQ :=
  unfold Qclt, Qcle, q2 in *;
  repeat match goal with
  | H : @eq Qc _ _ |- _ => apply Qc_eq_Q in H
  | |- @eq Qc _ _ => apply Qc_eq_Q
  | H : ~ @eq Qc _ _ |- _ => rewrite Qc_eq_Q in H
  end;
  repeat (rewrite ?this_plus, ?this_mult, ?this_opp, ?this_minus, ?this_div, ?this_inv, ?this_1,
          ?this_0, ?this_Q2Qc in * ).
Ltac qlra := toQ; lra.

Lemma q2_neq0 : 1 + 1 <> 0 :> Qc.
Proof. intros H. discriminate H. Qed.
Lemma q2_neq0' : q2 <> 0 :> Qc.
Proof. intros H. discriminate H. Qed.
Lemma q2_pos : 0 < q2.
Proof. reflexivity. Qed.

Definition qclamp (lo hi v : Qc) : Qc := nclamp qn lo hi v.

Lemma qclamp_spec lo hi v : lo <= hi ->
  (v < lo /\ qclamp lo hi v = lo) \/ (hi < v /\ qclamp lo hi v = hi) \/
  (lo <= v /\ v <= hi /\ qclamp lo hi v = v).
Proof.
  intros H. unfold qclamp, nclamp. cbn [nltb qn].
  destruct (qltb v lo) eqn:E.
  - left. apply qltb_iff in E. auto.
  - apply qltb_false in E. destruct (qltb hi v) eqn:E2.
    + right; left. apply qltb_iff in E2. auto.
    + right; right. apply qltb_false in E2. auto.
Qed.
Lemma qclamp_range lo hi v : lo <= hi -> lo <= qclamp lo hi v /\ qclamp lo hi v <= hi.
Proof. intros H. destruct (qclamp_spec lo hi v H) as [[? ->]|[[? ->]|[? [? ->]]]]; split; try apply Qcle_refl; assumption. Qed.
Lemma qclamp_id lo hi v : lo <= v -> v <= hi -> qclamp lo hi v = v.
Proof.
  intros H1 H2. assert (lo <= hi) by qlra. destruct (qclamp_spec lo hi v H) as [[? E]|[[? E]|[? [? E]]]]; qlra.
Qed.
Lemma qclamp_idem lo hi v : lo <= hi -> qclamp lo hi (qclamp lo hi v) = qclamp lo hi v.
Proof. intros H. destruct (qclamp_range lo hi v H). apply qclamp_id; assumption. Qed.
