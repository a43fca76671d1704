(** Property theorem C56, continued: motion undistortion with rigid poses, that is, unit quaternions that are interpolated as in C59, over the real
    numbers. The poses of P_Undistort.v are instantiated with those of M_Pose.v. *)
From Coq Require Import QArith Qreals Reals Lra Sorting.Sorted Permutation.
From Verif Require Import Base M_Undistort M_Pose P_Pose P_Pose2 P_Undistort.
Close Scope Q_scope.
Close Scope R_scope.
Open Scope Z_scope.

(** T_WC.inverse() and interpolateComponentwise as functions; where they abort, the value does not matter (C56_rigid shows that they do not) *)
Definition inverse_of (X : pose) : pose := match pose_inverse X with Some Y => Y | None => pose_identity end.
Definition between (a b : pose) (l : Q) : pose := match interpolate a b (Q2R l) with Some X => X | None => pose_identity end.
(** The sensor's pose at time [t]: interpolated between two neighbouring poses of the buffer around [t] *)
Definition moved_at (buf : list (Z * pose)) (t : Z) (X : pose) : Prop :=
  exists i tl Tl tr Tr, nth_error buf i = Some (tl, Tl) /\ nth_error buf (S i) = Some (tr, Tr) /\ tl <= t <= tr /\ tl < tr /\
    interpolate Tl Tr (IZR (t - tl) / IZR (tr - tl))%R = Some X.

(** As C56_compensate_partial, for poses whose inverse may be inexact *)
Lemma compensate_raw {P T : Type} (act : T -> P -> P) inv interp ident srt buf c b0 X0 b1 X1 : sorts srt -> increasing buf -> (2 <= length buf)%nat -> cloud_ok c ->
  nth_error buf 0 = Some (b0, X0) -> nth_error buf (length buf - 1) = Some (b1, X1) -> (forall p, In p (sc_points c) -> b0 <= point_time c p <= b1) ->
  (forall p, In p (sc_points c) -> point_time c p = 2 ^ 32 - 1 -> exists q, In q (sc_points c) /\ point_time c q < 2 ^ 32 - 1) ->
  exists pose pts ps Xs, compensate_motion act inv interp ident srt buf c = Some (pose, pts) /\ Permutation (sc_points c) ps /\ in_time_order ps /\
    Forall2 (fun p X => pose_at interp buf (point_time c p) X) ps Xs /\ nth_error Xs (length ps / 2) = Some pose /\
    pts = map (fun px => act (inv pose) (act (snd px) (sp_pos (fst px)))) (combine ps Xs).
Proof.
  intros Hsrt Hi Hl Hc E0 E1 Hr Hm. destruct (times_ex (T := unit) (fun _ p => p) (fun u => u) (fun u _ _ => u) tt (fun _ p => eq_refl) srt Hsrt c Hc) as (p0 & p1 & N0 & N1 & S0 & S1 & I0 & I1 & Hq).
  destruct (sort_sorted srt Hsrt c Hc) as (Pm & So & Eb). set (l := sc_points (sc_sort srt c)) in *.
  destruct Hc as (Hn & Hb & Ho & Hb2 & Hs).
  assert (EL : fst (last buf (0, ident)) = b1).
  { clear - E1. induction buf as [|a buf IH]; [discriminate|]. destruct buf as [|b buf]; [cbn in E1; injection E1 as ->; reflexivity|]. apply IH. rewrite <- E1. cbn [length]. rewrite !Nat.sub_succ, !Nat.sub_0_r. reflexivity. }
  destruct (loop_ok act inv interp ident buf Hi (sc_base c) b1 Hb Hb2 (ex_intro _ X1 E1) l (2 ^ 32 - 1) 0%nat ident b0 So) as (r & Er & Fr).
  - intros p Ip. apply (Permutation_in _ (Permutation_sym Pm)) in Ip. split; [apply Ho, Ip|apply (Hr p Ip)].
  - lia.
  - exists X0. exact E0.
  - intros p Ip. apply (Permutation_in _ (Permutation_sym Pm)) in Ip. apply (Hr p Ip).
  - right. intros p E. rewrite N0 in E. injection E as <-. intros C. destruct (Hm p0 I0 C) as (q & Iq & Lq). specialize (Hq q Iq). unfold point_time in Lq. lia.
  - pose proof (forall2_len _ _ _ Fr) as LR. assert (L0 : (0 < length l)%nat) by (destruct l; [discriminate|cbn; lia]).
    destruct (nth_ex r (length r / 2)) as (xm & Em); [apply Nat.div_lt; lia|].
    unfold compensate_motion. rewrite S0, S1. destruct buf as [|[b0' X0'] buf]; [discriminate|]. cbn in E0. injection E0 as -> ->.
    destruct (Hr p0 I0) as [R0 _]. destruct (Hr p1 I1) as [_ R1]. rewrite EL. replace (b0 <=? point_time c p0) with true by (symmetry; apply Z.leb_le; exact R0).
    replace (point_time c p1 <=? b1) with true by (symmetry; apply Z.leb_le; exact R1). cbn [andb]. fold l. rewrite Er, Em.
    eexists _, _, l, (map fst r). split; [reflexivity|]. split; [exact Pm|]. split; [exact So|]. split; [|split].
    + clear - Fr. induction Fr; constructor; [tauto|assumption].
    + rewrite nth_error_map. rewrite LR, Em. reflexivity.
    + clear - Fr. induction Fr as [|p x ps xs [_ E] _ IH]; [reflexivity|]. cbn [map combine fst snd]. rewrite E. f_equal. exact IH.
Qed.
Lemma fraction a b : 0 <= a <= b -> 0 < b -> Q2R (inject_Z a / inject_Z b) = (IZR a / IZR b)%R /\ (0 <= IZR a / IZR b <= 1)%R.
Proof.
  intros H Hb. assert (B : (0 < IZR b)%R) by (apply IZR_lt; exact Hb). split.
  - rewrite Q2R_div; [unfold Q2R, inject_Z; cbn [Qnum Qden]; field; lra|]. unfold Qeq, inject_Z. cbn. lia.
  - assert (0 <= IZR a <= IZR b)%R by (split; apply IZR_le; lia). split; [apply Rmult_le_pos; [lra|apply Rlt_le, Rinv_0_lt_compat; exact B]|].
    apply (Rmult_le_reg_r (IZR b)); [exact B|]. unfold Rdiv. rewrite Rmult_assoc, Rinv_l by lra. lra.
Qed.

(** The undistorted cloud: the points in the order of their times; each of them, seen from the pose of the result, is where the pose at the
    point's own time puts the measured point, up to 5e-4 of the distances, and exactly if the pose of the result has a quaternion of
    length 1. The pose of the result is the one at the time of the median point. Nothing aborts. *)
Theorem C56_rigid_partial : forall srt buf c b0 X0 b1 X1,
  sorts srt -> cloud_ok c -> increasing buf -> (2 <= length buf)%nat -> (forall t X, In (t, X) buf -> accepted (prot X)) ->
  nth_error buf 0 = Some (b0, X0) -> nth_error buf (length buf - 1) = Some (b1, X1) -> (forall p, In p (sc_points c) -> b0 <= point_time c p <= b1) ->
  (forall p, In p (sc_points c) -> point_time c p = 2 ^ 32 - 1 -> exists q, In q (sc_points c) /\ point_time c q < 2 ^ 32 - 1) ->
  exists T pts ps Xs, compensate_motion transform inverse_of between pose_identity srt buf c = Some (T, pts) /\
    Permutation (sc_points c) ps /\ in_time_order ps /\ Forall2 (fun p X => moved_at buf (point_time c p) X) ps Xs /\ nth_error Xs (length ps / 2) = Some T /\
    (exists Y, pose_inverse T = Some Y) /\
    Forall2 (fun px out => let world := transform (snd px) (sp_pos (fst px)) in
      (distance (transform T out) world <= 5 / 10000 * (norm world + norm (ppos T)))%R /\ (unit_quat (prot T) -> transform T out = world)) (combine ps Xs) pts.
Proof.
  intros srt buf c b0 X0 b1 X1 Hsrt Hc Hi Hl Ha E0 E1 Hr Hm.
  destruct (compensate_raw transform inverse_of between pose_identity srt buf c b0 X0 b1 X1 Hsrt Hi Hl Hc E0 E1 Hr Hm) as (T & pts & ps & Xs & E & Pm & So & F & Em & M).
  assert (K : forall t X, pose_at between buf t X -> moved_at buf t X /\ accepted (prot X)).
  { intros t X (i & tl & Tl & tr & Tr & A & B & L & L' & ->). destruct (fraction (t - tl) (tr - tl) ltac:(lia) ltac:(lia)) as [Q1 Q2].
    destruct (C59_defined Tl Tr (IZR (t - tl) / IZR (tr - tl)) (Ha _ _ (nth_error_In _ _ A)) (Ha _ _ (nth_error_In _ _ B))) as [D _]. destruct (D Q2) as (X & EX & AX & _).
    unfold between. rewrite Q1, EX. split; [|exact AX]. exists i, tl, Tl, tr, Tr. auto. }
  assert (AT : accepted (prot T)).
  { clear - F Em K. revert Em. generalize (length ps / 2)%nat. intros n. revert n. induction F as [|p X ps Xs H _ IH]; intros n Em; [destruct n; discriminate|].
    destruct n as [|n]; [cbn in Em; injection Em as <-; apply (K _ _ H)|exact (IH n Em)]. }
  destruct (C58_no_abort T T AT AT) as (_ & (Y & EY & _) & _).
  exists T, pts, ps, Xs. split; [exact E|]. split; [exact Pm|]. split; [exact So|]. split; [clear - F K; induction F as [|p X ps Xs H _ IH]; constructor; [apply K; exact H|exact IH]|].
  split; [exact Em|]. split; [exists Y; exact EY|]. rewrite M. unfold inverse_of. rewrite EY. clear - AT EY.
  induction (combine ps Xs) as [|[p X] l IH]; cbn [map]; constructor; [|exact IH]. cbn [fst snd]. split; [apply C58_inverse_accuracy; assumption|].
  intros U. destruct (C58_inverse T U) as (Y' & EY' & _ & Q). rewrite EY in EY'. injection EY' as <-. apply Q.
Qed.
Print Assumptions C56_rigid_partial.
(** A sensor that turns by 90 degrees and moves within 100 ns *)
Definition ex_buf : list (Z * pose) := [(0, pose_identity); (100, ex_pose)].
Definition ex_cloud : scloud vec3 := SC 0 [SP (V3 1 0 0) 60; SP (V3 0 2 0) 10] false.
Example C56_rigid_ex : cloud_ok ex_cloud /\ increasing ex_buf /\ (2 <= length ex_buf)%nat /\ (forall t X, In (t, X) ex_buf -> accepted (prot X)) /\
  nth_error ex_buf 0 = Some (0, pose_identity) /\ nth_error ex_buf (length ex_buf - 1) = Some (100, ex_pose) /\
  (forall p, In p (sc_points ex_cloud) -> 0 <= point_time ex_cloud p <= 100) /\ (forall p, In p (sc_points ex_cloud) -> point_time ex_cloud p <> 2 ^ 32 - 1).
Proof.
  split; [|split; [|split; [apply le_n|split; [|split; [reflexivity|split; [reflexivity|]]]]]].
  - split; [discriminate|]. split; [cbn; lia|]. split; [intros p [<-|[<-|[]]]; cbn; lia|]. split; [cbn; lia|discriminate].
  - split.
    + intros i tl Tl tr Tr A B. destruct i as [|[|i]]; [|discriminate B|destruct i; discriminate A]. cbn in A, B. injection A as <- <-. injection B as <- <-. reflexivity.
    + intros t X [H|[H|[]]]; injection H as <- <-; lia.
  - intros t X [H|[H|[]]]; injection H as <- <-; apply unit_accepted; [unfold unit_quat, pose_identity, qident, qn2, qdot; cbn; ring|].
    unfold unit_quat, ex_pose, qn2, qdot. cbn. pose proof (sqrt_sqrt 2 ltac:(lra)). lra.
  - split; intros p [<-|[<-|[]]]; cbn; lia.
Qed.
