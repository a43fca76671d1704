(** C40, continued: the angular intervals of the spherical projector's sensor boxes. *)
From Verif Require Import Base M_IntMath M_Point P_Point M_Image M_RangeBounds P_RangeBounds M_Measure F_Measure P_Measure M_Intersector P_Intersector P_Intersector3.
From Coq Require Import QArith Qround Qabs Lqa Lia.
Close Scope Z_scope.
Open Scope Q_scope.

(** Angle [a] lies on the arc that starts at [lo] and ends at [hi], going through the seam at +-pi if [hi < lo]. *)
Definition on_arc (lo hi a : Q) : Prop := (lo <= hi /\ lo <= a <= hi) \/ (hi < lo /\ (lo <= a \/ a <= hi)).

Lemma fold_min_in l : forall m, fold_left qmin l m = m \/ In (fold_left qmin l m) l.
Proof.
  induction l as [|a l IH]; intros m; cbn [fold_left]; [left; reflexivity|].
  destruct (IH (qmin m a)) as [E|I]; [|right; right; exact I]. rewrite E. unfold qmin.
  destruct (qltb _ _); auto; right; left; reflexivity.
Qed.
Lemma fold_max_in l : forall m, fold_left qmax l m = m \/ In (fold_left qmax l m) l.
Proof.
  induction l as [|a l IH]; intros m; cbn [fold_left]; [left; reflexivity|].
  destruct (IH (qmax m a)) as [E|I]; [|right; right; exact I]. rewrite E. unfold qmax.
  destruct (qltb _ _); auto; right; left; reflexivity.
Qed.
Lemma minl_in l a : In a l -> a < kInitialMin -> In (minl l) l.
Proof.
  intros I H. destruct (fold_min_in l kInitialMin) as [E|J]; [|exact J]. pose proof (minl_le _ _ I) as L. unfold minl in L. rewrite E in L. lra.
Qed.
Lemma maxl_in l a : In a l -> kInitialMax < a -> In (maxl l) l.
Proof.
  intros I H. destruct (fold_max_in l kInitialMax) as [E|J]; [|exact J]. pose proof (maxl_ge _ _ I) as L. unfold maxl in L. rewrite E in L. lra.
Qed.

(** For corners at angles within [-pi, pi], as atan2 returns them: each corner lies on the box's arc, both ends of the arc
    are corner angles, and the arc goes through the seam exactly when the angles differ by more than half a turn; otherwise it
    spans at most half a turn. *)
Theorem C40_corner_arc : forall angles a0, In a0 angles -> (forall a, In a angles -> - kPi <= a <= kPi) ->
  let lo := fst (angle_interval angles) in let hi := snd (angle_interval angles) in
  (forall a, In a angles -> on_arc lo hi a) /\ In lo angles /\ In hi angles /\
  (lo <= hi -> hi - lo <= kPi) /\
  (hi < lo <-> exists a b, In a angles /\ In b angles /\ kPi < a - b).
Proof.
  intros l a0 I0 H lo hi. subst lo hi. unfold angle_interval.
  assert (P1 : kPi < kInitialMin) by reflexivity. assert (P2 : kInitialMax < - kPi) by reflexivity.
  pose proof (H _ I0) as B0.
  assert (Mi : In (minl l) l) by (apply (minl_in l a0 I0); lra). assert (Ma : In (maxl l) l) by (apply (maxl_in l a0 I0); lra).
  assert (P0 : 0 < kPi) by reflexivity.
  destruct (qltb kPi (maxl l - minl l)) eqn:E.
  - apply qltb_true in E. cbn [fst snd]. set (pos := filter (fun a => qltb 0 a) l). set (neg := filter (fun a => negb (qltb 0 a)) l).
    pose proof (H _ Mi) as Bi. pose proof (H _ Ma) as Ba.
    assert (In1 : In (maxl l) pos) by (apply filter_In; split; [exact Ma|apply qltb_true; lra]).
    assert (In2 : In (minl l) neg) by (apply filter_In; split; [exact Mi|apply Bool.negb_true_iff, qltb_false; lra]).
    assert (J1 : In (minl pos) pos) by (apply (minl_in _ _ In1); lra). assert (J2 : In (maxl neg) neg) by (apply (maxl_in _ _ In2); lra).
    pose proof (proj1 (filter_In _ _ _) J1) as [K1 K1']. apply qltb_true in K1'.
    pose proof (proj1 (filter_In _ _ _) J2) as [K2 K2']. apply Bool.negb_true_iff, qltb_false in K2'.
    split; [|split; [exact K1|split; [exact K2|split; [lra|]]]].
    + intros a Ia. right. split; [lra|]. destruct (qltb 0 a) eqn:Ea.
      * left. apply minl_le. apply filter_In. split; assumption.
      * right. apply maxl_ge. apply filter_In. split; [exact Ia|]. rewrite Ea. reflexivity.
    + split; [|lra]. intros _. exists (maxl l), (minl l). repeat split; assumption.
  - apply qltb_false in E. cbn [fst snd]. pose proof (minl_le _ _ Ma) as L.
    split; [|split; [exact Mi|split; [exact Ma|split; [lra|]]]].
    + intros a Ia. left. split; [exact L|]. split; [apply minl_le|apply maxl_ge]; exact Ia.
    + split; [lra|]. intros (a & b & Ia & Ib & D). pose proof (maxl_ge _ _ Ia). pose proof (minl_le _ _ Ib). lra.
Qed.
(** Corners of a cell behind the sensor: the box goes through the seam. *)
Example C40_corner_arc_ex : angle_interval [3; - 3; 14 # 5; - (29 # 10)] = (14 # 5, - (29 # 10)) /\
  Forall (fun a => - kPi <= a <= kPi) [3; - 3; 14 # 5; - (29 # 10)].
Proof. split; [vm_compute; reflexivity|]. repeat constructor; vm_compute; discriminate. Qed.
Print Assumptions C40_corner_arc.
