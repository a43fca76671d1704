(** Property theorems C56: motion undistortion of point clouds. *)
From Verif Require Import Base M_Undistort.
From Coq Require Import QArith Qround Sorting.Sorted Permutation.
Close Scope Q_scope.
Open Scope Z_scope.

(** ** Specification *)
Section SPEC.
Context {P T : Type} (act : T -> P -> P) (inv : T -> T) (interp : T -> T -> Q -> T).
Definition in_time_order (l : list (spoint P)) : Prop := StronglySorted (fun a b => sp_off a <= sp_off b) l.
(** A sorting function: the result is a permutation in the order of the times *)
Definition sorts (srt : list (spoint P) -> list (spoint P)) : Prop := forall l, Permutation l (srt l) /\ in_time_order (srt l).
(** A cloud as filled by the callbacks: non-empty, offsets and times are in range *)
Definition cloud_ok (c : scloud P) : Prop :=
  sc_points c <> [] /\ 0 <= sc_base c /\ (forall p, In p (sc_points c) -> 0 <= sp_off p < 2 ^ 32) /\ sc_base c + 2 ^ 32 <= 2 ^ 64 /\
  (sc_sorted c = true -> in_time_order (sc_points c)).
Definition point_time (c : scloud P) (p : spoint P) : Z := sc_base c + sp_off p.
(** The pose at time [t]: interpolated between two neighbouring poses of the buffer around [t] *)
Definition pose_at (buf : list (Z * T)) (t : Z) (X : T) : Prop :=
  exists i tl Tl tr Tr, nth_error buf i = Some (tl, Tl) /\ nth_error buf (S i) = Some (tr, Tr) /\ tl <= t <= tr /\ tl < tr /\
    X = interp Tl Tr (inject_Z (t - tl) / inject_Z (tr - tl))%Q.
Definition increasing (buf : list (Z * T)) : Prop :=
  (forall i tl Tl tr Tr, nth_error buf i = Some (tl, Tl) -> nth_error buf (S i) = Some (tr, Tr) -> tl < tr) /\
  (forall t X, In (t, X) buf -> 0 <= t < 2 ^ 64).
(** The undistorted cloud: the points of the cloud in the order of their times; the world position of each is its measured position
    moved by the pose at its own time; the pose of the result is the one at the time of the median point. *)
Definition undistorted (at_time : Z -> T -> Prop) (c : scloud P) (pose : T) (pts : list P) : Prop :=
  exists ps Xs, Permutation (sc_points c) ps /\ in_time_order ps /\ Forall2 (fun p X => at_time (point_time c p) X) ps Xs /\
    nth_error Xs (length ps / 2) = Some pose /\ map (act pose) pts = map (fun px => act (snd px) (sp_pos (fst px))) (combine ps Xs).
End SPEC.

(** ** Proofs *)
Lemma u64_id x : 0 <= x < 2 ^ 64 -> u64 x = x. Proof. intros H. apply Z.mod_small. exact H. Qed.
Section PROOFS.
Context {P T : Type} (act : T -> P -> P) (inv : T -> T) (interp : T -> T -> Q -> T) (ident : T).
Context (srt : list (spoint P) -> list (spoint P)) (Hsrt : sorts srt).
Context (buf : list (Z * T)) (Hinc : increasing buf).
Let stamp (i : nat) (t : Z) : Prop := exists X, nth_error buf i = Some (t, X).
Lemma stamp_ex i : (i < length buf)%nat -> exists t, stamp i t.
Proof. intros H. destruct (nth_error buf i) as [[t X]|] eqn:E; [exists t, X; exact E|]. apply nth_error_None in E. lia. Qed.
Lemma stamp_range i t : stamp i t -> 0 <= t < 2 ^ 64.
Proof. intros [X E]. apply nth_error_In in E. apply (proj2 Hinc) in E. exact E. Qed.

Lemma advance_ok last_t time : stamp (length buf - 1) last_t -> time <= last_t -> forall fuel left tl, (length buf <= fuel + left + 2)%nat -> (S left < length buf)%nat ->
  stamp left tl -> tl <= time -> exists l tl' tr', advance fuel buf left time = Some l /\ (left <= l)%nat /\ (S l < length buf)%nat /\ stamp l tl' /\ tl' <= time /\ stamp (S l) tr' /\ time <= tr'.
Proof.
  intros HL HT. induction fuel as [|fuel IH]; intros left tl Hf Hl Hs Ht.
  - destruct (stamp_ex (S left) Hl) as (tr & Sr). pose proof Sr as [Xr Er]. cbn [advance]. rewrite Er.
    destruct (Z.ltb_spec tr time) as [L|L].
    + destruct (Nat.ltb_spec (left + 2) (length buf)); [lia|]. cbn [andb]. replace (length buf - 1)%nat with (S left) in HL by lia. destruct HL as [Xl El]. rewrite Er in El. injection El as <- <-. lia.
    + cbn [andb]. exists left, tl, tr. repeat split; try assumption; lia.
  - destruct (stamp_ex (S left) Hl) as (tr & Sr). pose proof Sr as [Xr Er]. cbn [advance]. rewrite Er.
    destruct (Z.ltb_spec tr time) as [L|L].
    + destruct (Nat.ltb_spec (left + 2) (length buf)) as [K|K].
      * cbn [andb]. destruct (IH (S left) tr) as (l & tl' & tr' & E & H1 & H2 & H3); [lia|lia|exact Sr|lia|]. exists l, tl', tr'. split; [exact E|]. split; [lia|]. split; [exact H2|exact H3].
      * replace (length buf - 1)%nat with (S left) in HL by lia. destruct HL as [Xl El]. rewrite Er in El. injection El as <- <-. lia.
    + cbn [andb]. exists left, tl, tr. repeat split; try assumption; lia.
Qed.
Lemma between_ok l tl tr time : stamp l tl -> stamp (S l) tr -> tl <= time -> time <= tr ->
  exists X, pose_between interp buf l time = Some X /\ pose_at interp buf time X.
Proof.
  intros Sl Sr H1 H2. pose proof (stamp_range l tl Sl). pose proof (stamp_range (S l) tr Sr). destruct Sl as [Tl El]. destruct Sr as [Tr Er].
  pose proof (proj1 Hinc l tl Tl tr Tr El Er) as LT. exists (interp Tl Tr (inject_Z (time - tl) / inject_Z (tr - tl))%Q). unfold pose_between. rewrite El, Er.
  rewrite !u64_id by lia. replace (tr - tl =? 0) with false by (symmetry; apply Z.eqb_neq; lia). replace (tr - tl <? time - tl) with false by (symmetry; apply Z.ltb_ge; lia).
  cbn [orb]. split; [reflexivity|]. exists l, tl, Tl, tr, Tr. repeat split; assumption.
Qed.
Lemma loop_ok base last_t : 0 <= base -> base + 2 ^ 32 <= 2 ^ 64 -> stamp (length buf - 1) last_t -> forall pts prev left cur tl,
  in_time_order pts -> (forall p, In p pts -> 0 <= sp_off p < 2 ^ 32 /\ base + sp_off p <= last_t) ->
  (S left < length buf)%nat -> stamp left tl -> (forall p, In p pts -> tl <= base + sp_off p) ->
  (pose_at interp buf prev cur \/ forall p, nth_error pts 0 = Some p -> base + sp_off p <> prev) ->
  exists l, undistort_loop act interp buf base prev left cur pts = Some l /\
    Forall2 (fun p x => pose_at interp buf (base + sp_off p) (fst x) /\ snd x = act (fst x) (sp_pos p)) pts l.
Proof.
  intros Hb Hb2 HL. induction pts as [|p pts IH]; intros prev left cur tl Ho Hr Hl Hs Ht Hp; [exists []; split; [reflexivity|constructor]|].
  cbn [undistort_loop]. destruct (Hr p (or_introl eq_refl)) as [O1 O2]. rewrite u64_id by lia. set (time := base + sp_off p) in *.
  assert (Ho' := Ho). inversion Ho' as [|? ? Ho1 Ho2]; subst.
  assert (STEP : exists l X tl', (if time =? prev then Some (left, cur) else match advance (length buf) buf left time with None => None | Some l => option_map (fun T => (l, T)) (pose_between interp buf l time) end) = Some (l, X) /\
    pose_at interp buf time X /\ (S l < length buf)%nat /\ stamp l tl' /\ tl' <= time).
  { destruct (Z.eqb_spec time prev) as [E|N].
    - exists left, cur, tl. split; [reflexivity|]. destruct Hp as [Hp|Hp]; [|exfalso; apply (Hp p eq_refl); exact E]. rewrite E. split; [exact Hp|]. split; [exact Hl|]. split; [exact Hs|]. rewrite <- E. apply Ht. left. reflexivity.
    - destruct (advance_ok last_t time HL O2 (length buf) left tl) as (l & tl' & tr' & E & A1 & A2 & A3 & A4 & A5 & A6); [lia|exact Hl|exact Hs|apply Ht; left; reflexivity|].
      destruct (between_ok l tl' tr' time A3 A5 A4 A6) as (X & EX & PX). exists l, X, tl'. rewrite E, EX. split; [reflexivity|]. split; [exact PX|]. split; [exact A2|]. split; [exact A3|exact A4]. }
  destruct STEP as (l & X & tl' & -> & PX & L2 & S2 & T2).
  destruct (IH time l X tl') as (r & Er & Fr).
  - exact Ho1.
  - intros q Iq. apply Hr. right. exact Iq.
  - exact L2.
  - exact S2.
  - intros q Iq. rewrite Forall_forall in Ho2. specialize (Ho2 q Iq). unfold time in T2. lia.
  - left. exact PX.
  - rewrite Er. cbn [option_map]. eexists. split; [reflexivity|]. constructor; [split; [exact PX|reflexivity]|exact Fr].
Qed.
Lemma sort_sorted c : cloud_ok c -> Permutation (sc_points c) (sc_points (sc_sort srt c)) /\ in_time_order (sc_points (sc_sort srt c)) /\ sc_base (sc_sort srt c) = sc_base c.
Proof.
  intros (_ & _ & _ & _ & Hs). unfold sc_sort. destruct (sc_sorted c) eqn:E; [split; [apply Permutation_refl|split; [apply Hs; reflexivity|reflexivity]]|].
  cbn [sc_points sc_base]. destruct (Hsrt (sc_points c)). split; [assumption|split; [assumption|reflexivity]].
Qed.
End PROOFS.
Lemma sorted_first {P} (l : list (spoint P)) p q : in_time_order l -> nth_error l 0 = Some p -> In q l -> sp_off p <= sp_off q.
Proof.
  intros S E I. destruct l as [|a l]; [discriminate|]. cbn in E. injection E as ->. destruct I as [->|I]; [lia|]. inversion S as [|? ? _ F]; subst. rewrite Forall_forall in F. apply F, I.
Qed.
Lemma sorted_last {P} (l : list (spoint P)) p q : in_time_order l -> nth_error l (length l - 1) = Some p -> In q l -> sp_off q <= sp_off p.
Proof.
  intros S E I. induction l as [|a l IH]; [destruct I|]. inversion S as [|? ? S' F]; subst. destruct l as [|b l].
  - cbn in E. injection E as ->. destruct I as [->|[]]. lia.
  - assert (E' : nth_error (b :: l) (length (b :: l) - 1) = Some p) by (rewrite <- E; cbn [length]; rewrite !Nat.sub_succ, !Nat.sub_0_r; reflexivity).
    destruct I as [->|I]; [|apply IH; assumption]. rewrite Forall_forall in F. apply F. apply nth_error_In in E'. exact E'.
Qed.
Lemma nth_ex {A} (l : list A) k : (k < length l)%nat -> exists x, nth_error l k = Some x.
Proof. intros H. destruct (nth_error l k) eqn:E; [eexists; reflexivity|]. apply nth_error_None in E. lia. Qed.
Lemma forall2_len {A B} (R : A -> B -> Prop) l m : Forall2 R l m -> length l = length m. Proof. intros H. induction H; cbn; congruence. Qed.

Section MAIN.
Context {P T : Type} (act : T -> P -> P) (inv : T -> T) (interp : T -> T -> Q -> T) (ident : T).
Context (Hinv : forall X p, act X (act (inv X) p) = p).
Context (srt : list (spoint P) -> list (spoint P)) (Hsrt : sorts srt).
Lemma times_ex c : cloud_ok c -> let l := sc_points (sc_sort srt c) in exists p0 p1, nth_error l 0 = Some p0 /\ nth_error l (length l - 1) = Some p1 /\
  getStartTime srt c = Some (point_time c p0) /\ getEndTime srt c = Some (point_time c p1) /\
  In p0 (sc_points c) /\ In p1 (sc_points c) /\ (forall q, In q (sc_points c) -> sp_off p0 <= sp_off q <= sp_off p1).
Proof.
  intros Hc l. destruct (sort_sorted srt Hsrt c Hc) as (Pm & So & Eb). fold l in Pm, So. destruct Hc as (Hn & Hb & Ho & Hb2 & _).
  assert (LL := Permutation_length Pm). assert (L : (0 < length l)%nat) by (destruct (sc_points c); [contradiction|cbn in LL; lia]).
  destruct (nth_ex l 0 L) as (p0 & E0). destruct (nth_ex l (length l - 1) ltac:(lia)) as (p1 & E1). exists p0, p1. split; [exact E0|]. split; [exact E1|].
  assert (I0 : In p0 (sc_points c)) by (apply (Permutation_in _ (Permutation_sym Pm)), (nth_error_In _ _ E0)).
  assert (I1 : In p1 (sc_points c)) by (apply (Permutation_in _ (Permutation_sym Pm)), (nth_error_In _ _ E1)).
  pose proof (Ho p0 I0). pose proof (Ho p1 I1). unfold getStartTime, getEndTime, time_at, point_time. fold l. rewrite LL, E0, E1, Eb. cbn [option_map].
  rewrite !u64_id by lia. split; [reflexivity|]. split; [reflexivity|]. split; [exact I0|]. split; [exact I1|].
  intros q Iq. apply (Permutation_in _ Pm) in Iq. split; [apply (sorted_first l); assumption|apply (sorted_last l); assumption].
Qed.
Lemma compensate_ok buf c b0 X0 b1 X1 : increasing buf -> (2 <= length buf)%nat -> cloud_ok c ->
  nth_error buf 0 = Some (b0, X0) -> nth_error buf (length buf - 1) = Some (b1, X1) -> (forall p, In p (sc_points c) -> b0 <= point_time c p <= b1) ->
  (forall p, In p (sc_points c) -> point_time c p = 2 ^ 32 - 1 -> exists q, In q (sc_points c) /\ point_time c q < 2 ^ 32 - 1) ->
  exists pose pts, compensate_motion act inv interp ident srt buf c = Some (pose, pts) /\ undistorted act (pose_at interp buf) c pose pts.
Proof.
  intros Hi Hl Hc E0 E1 Hr Hm. destruct (times_ex c Hc) as (p0 & p1 & N0 & N1 & S0 & S1 & I0 & I1 & Hq).
  destruct (sort_sorted srt Hsrt c Hc) as (Pm & So & Eb). set (l := sc_points (sc_sort srt c)) in *.
  destruct Hc as (Hn & Hb & Ho & Hb2 & Hs).
  assert (EL : fst (last buf (0, ident)) = b1).
  { clear - E1. induction buf as [|a buf IH]; [discriminate|]. destruct buf as [|b buf]; [cbn in E1; injection E1 as ->; reflexivity|]. apply IH. rewrite <- E1. cbn [length]. rewrite !Nat.sub_succ, !Nat.sub_0_r. reflexivity. }
  destruct (loop_ok act inv interp ident buf Hi (sc_base c) b1 Hb Hb2 (ex_intro _ X1 E1) l (2 ^ 32 - 1) 0%nat ident b0 So) as (r & Er & Fr).
  - intros p Ip. apply (Permutation_in _ (Permutation_sym Pm)) in Ip. split; [apply Ho, Ip|apply (Hr p Ip)].
  - lia.
  - exists X0. exact E0.
  - intros p Ip. apply (Permutation_in _ (Permutation_sym Pm)) in Ip. apply (Hr p Ip).
  - right. intros p E. rewrite N0 in E. injection E as <-. intros C. destruct (Hm p0 I0 C) as (q & Iq & Lq). specialize (Hq q Iq). unfold point_time in Lq. lia.
  - pose proof (forall2_len _ _ _ Fr) as LR. assert (L0 : (0 < length l)%nat) by (destruct l; [discriminate|cbn; lia]).
    destruct (nth_ex r (length r / 2)) as (xm & Em); [apply Nat.div_lt; lia|].
    unfold compensate_motion. rewrite S0, S1. destruct buf as [|[b0' X0'] buf]; [discriminate|]. cbn in E0. injection E0 as -> ->.
    destruct (Hr p0 I0) as [R0 _]. destruct (Hr p1 I1) as [_ R1]. rewrite EL. replace (b0 <=? point_time c p0) with true by (symmetry; apply Z.leb_le; exact R0).
    replace (point_time c p1 <=? b1) with true by (symmetry; apply Z.leb_le; exact R1). cbn [andb]. fold l. rewrite Er, Em.
    eexists _, _. split; [reflexivity|]. exists l, (map fst r). split; [exact Pm|]. split; [exact So|]. split; [|split].
    + clear - Fr. induction Fr; constructor; [tauto|assumption].
    + rewrite nth_error_map. rewrite LR, Em. reflexivity.
    + rewrite map_map. clear - Fr Hinv. induction Fr as [|p x ps xs [_ E] _ IH]; [reflexivity|]. cbn [map combine fst snd]. rewrite Hinv, E. f_equal. exact IH.
Qed.
End MAIN.
(** ** The transforms *)
(** Poses looked up by a time in nanoseconds *)
Definition by_ns {T} (tfn : Z -> option T) (t : ros_time) : option T := tfn (fst t * 1000000000 + snd t).
Definition ros_range (n : Z) : Prop := 0 <= n < 2 ^ 32 * 1000000000.
Lemma by_ns_ok {T} (tfn : Z -> option T) n : ros_range n -> by_ns tfn (nanoSecondsToRosTime n) = tfn n.
Proof.
  intros H. unfold ros_range in H. unfold by_ns, nanoSecondsToRosTime. cbn [fst snd].
  rewrite (Z.mod_small (n / 1000000000)) by (split; [apply Z.div_pos; lia|apply Z.div_lt_upper_bound; lia]).
  rewrite (Z.mod_small (n mod 1000000000)) by (pose proof (Z.mod_pos_bound n 1000000000); lia).
  f_equal. pose proof (Z.div_mod n 1000000000). lia.
Qed.
(** The times for which a transform is available have no gaps. *)
Definition no_gaps {T} (tfn : Z -> option T) : Prop := forall a b c, a <= b <= c -> tfn a <> None -> tfn c <> None -> tfn b <> None.
(** The pose at time [t], interpolated between transforms sampled every [step] nanoseconds from [t0] *)
Definition sampled {T} (interp : T -> T -> Q -> T) (tfn : Z -> option T) (t0 step t : Z) (X : T) : Prop :=
  exists i Tl Tr, let tl := t0 + i * step in 0 <= i /\ tl <= t <= tl + step /\ tfn tl = Some Tl /\ tfn (tl + step) = Some Tr /\
    X = interp Tl Tr (inject_Z (t - tl) / inject_Z step)%Q.
Lemma buffer_ok {T} (tfn : Z -> option T) start step : 0 <= start -> 0 <= step -> forall k from, 0 <= from -> (forall i, from <= i < from + Z.of_nat k -> ros_range (start + i * step)) ->
  (forall i, from <= i < from + Z.of_nat k -> tfn (start + i * step) <> None) ->
  exists buf, buffer_poses (by_ns tfn) start step k from = Some buf /\ length buf = k /\
    forall i t X, nth_error buf i = Some (t, X) -> t = start + (from + Z.of_nat i) * step /\ tfn t = Some X.
Proof.
  intros Hs Hp. induction k as [|k IH]; intros from Hf Hr Ha.
  - exists []. split; [reflexivity|]. split; [reflexivity|]. intros [|i] t X E; discriminate.
  - cbn [buffer_poses]. assert (R : ros_range (start + from * step)) by (apply Hr; lia). rewrite u64_id by (unfold ros_range in R; lia). rewrite by_ns_ok by exact R.
    destruct (tfn (start + from * step)) as [X|] eqn:EX; [|exfalso; apply (Ha from); [lia|exact EX]].
    destruct (IH (from + 1)) as (buf & E & L & N); [lia|intros i Hi; apply Hr; lia|intros i Hi; apply Ha; lia|].
    rewrite E. exists ((start + from * step, X) :: buf). split; [reflexivity|]. split; [cbn; lia|]. intros [|i] t Y EY.
    + cbn in EY. injection EY as <- <-. split; [rewrite Z.add_0_r; reflexivity|exact EX].
    + cbn in EY. destruct (N i t Y EY) as [-> Q]. split; [|exact Q]. f_equal. f_equal. lia.
Qed.

Lemma span_arith n step d r : 2 <= n -> 1 <= step -> n - 2 <= step -> d = (n - 1) * step + r -> 0 <= r < n - 1 ->
  step <= d /\ d <= n * step /\ n * step <= d + step.
Proof. intros H1 H2 H3 H4 H5. assert (0 <= (n - 2) * step) by (apply Z.mul_nonneg_nonneg; lia). lia. Qed.
Lemma sample_arith a step i n : 0 <= a -> 1 <= step -> 0 <= i <= n -> a <= a + i * step <= a + n * step.
Proof. intros. assert (0 <= i * step) by (apply Z.mul_nonneg_nonneg; lia). assert (0 <= (n - i) * step) by (apply Z.mul_nonneg_nonneg; lia). lia. Qed.

(** ** Theorems *)
(** compensate_motion, for any buffer of poses that covers the times of the points and any cloud whose first time is not 2^32 - 1 *)
Theorem C56_compensate_partial : forall (P T : Type) (act : T -> P -> P) inv interp ident srt buf c b0 X0 b1 X1,
  (forall X p, act X (act (inv X) p) = p) -> sorts srt -> cloud_ok c -> increasing buf -> (2 <= length buf)%nat ->
  nth_error buf 0 = Some (b0, X0) -> nth_error buf (length buf - 1) = Some (b1, X1) -> (forall p, In p (sc_points c) -> b0 <= point_time c p <= b1) ->
  (forall p, In p (sc_points c) -> point_time c p = 2 ^ 32 - 1 -> exists q, In q (sc_points c) /\ point_time c q < 2 ^ 32 - 1) ->
  exists pose pts, compensate_motion act inv interp ident srt buf c = Some (pose, pts) /\ undistorted act (pose_at interp buf) c pose pts.
Proof. intros P T act inv interp ident srt buf c b0 X0 b1 X1 H1 H2 H3 H4 H5 H6 H7 H8 H9. eapply compensate_ok; eassumption. Qed.
(** Poses are never extrapolated: compensate_motion only succeeds if the buffer covers the times of all points. *)
Theorem C56_no_extrapolation : forall (P T : Type) (act : T -> P -> P) inv interp ident srt buf c r, sorts srt -> cloud_ok c ->
  compensate_motion act inv interp ident srt buf c = Some r ->
  exists b0 X0 b1 X1, nth_error buf 0 = Some (b0, X0) /\ nth_error buf (length buf - 1) = Some (b1, X1) /\ forall p, In p (sc_points c) -> b0 <= point_time c p <= b1.
Proof.
  intros P T act inv interp ident srt buf c r Hs Hc H. destruct (times_ex (T := unit) (fun _ p => p) (fun u => u) (fun u _ _ => u) tt (fun _ p => eq_refl) srt Hs c Hc) as (p0 & p1 & _ & _ & S0 & S1 & _ & _ & Hq).
  unfold compensate_motion in H. rewrite S0, S1 in H. destruct buf as [|[b0 X0] buf]; [discriminate|].
  destruct (b0 <=? point_time c p0) eqn:E0; [|discriminate]. destruct (point_time c p1 <=? _) eqn:E1; [|discriminate]. apply Z.leb_le in E0, E1.
  destruct (nth_ex ((b0, X0) :: buf) (length ((b0, X0) :: buf) - 1)) as ([b1 X1] & N1); [cbn; lia|]. exists b0, X0, b1, X1. split; [reflexivity|]. split; [exact N1|].
  assert (EL : fst (last ((b0, X0) :: buf) (0, ident)) = b1).
  { clear - N1. revert N1. generalize ((b0, X0) :: buf). intros l. induction l as [|a l IH]; [discriminate|]. destruct l as [|b l]; [cbn; intros E; injection E as ->; reflexivity|].
    intros E. apply IH. rewrite <- E. cbn [length]. rewrite !Nat.sub_succ, !Nat.sub_0_r. reflexivity. }
  rewrite EL in E1. intros p Ip. specialize (Hq p Ip). unfold point_time in *. lia.
Qed.
(** The poses of a sensor that does not move: the points are unchanged, in the order of their times. *)
Theorem C56_static_partial : forall (P T : Type) (act : T -> P -> P) inv interp ident srt buf c b0 X b1,
  (forall X p, act X (act (inv X) p) = p) -> (forall X p q, act X p = act X q -> p = q) -> (forall X a, interp X X a = X) -> sorts srt -> cloud_ok c -> increasing buf -> (2 <= length buf)%nat ->
  nth_error buf 0 = Some (b0, X) -> nth_error buf (length buf - 1) = Some (b1, X) -> (forall p, In p (sc_points c) -> b0 <= point_time c p <= b1) ->
  (forall p, In p (sc_points c) -> point_time c p = 2 ^ 32 - 1 -> exists q, In q (sc_points c) /\ point_time c q < 2 ^ 32 - 1) ->
  (forall t Y, In (t, Y) buf -> Y = X) ->
  exists pts, compensate_motion act inv interp ident srt buf c = Some (X, pts) /\ Permutation (map sp_pos (sc_points c)) pts.
Proof.
  intros P T act inv interp ident srt buf c b0 X b1 H1 Hi HX H2 H3 H4 H5 H6 H7 H8 H9 HS.
  destruct (C56_compensate_partial P T act inv interp ident srt buf c b0 X b1 X H1 H2 H3 H4 H5 H6 H7 H8 H9) as (pose & pts & E & ps & Xs & Pm & So & F & Em & M).
  assert (A : forall t Y, pose_at interp buf t Y -> Y = X).
  { intros t Y (i & tl & Tl & tr & Tr & El & Er & _ & _ & ->). apply nth_error_In in El, Er. rewrite (HS _ _ El), (HS _ _ Er). apply HX. }
  assert (B : forall Y, In Y Xs -> Y = X).
  { clear - F A. induction F as [|p Z ps Xs HZ _ IH]; [intros Y []|]. intros Y [<-|I]; [eapply A; eassumption|apply IH, I]. }
  assert (pose = X) by (apply B; apply nth_error_In in Em; exact Em). subst pose. exists pts. split; [exact E|].
  assert (G : map (act X) pts = map (act X) (map sp_pos ps)).
  { rewrite M. pose proof (forall2_len _ _ _ F) as L. clear - B L. revert Xs B L. induction ps as [|p ps IH]; intros [|Y Xs] B L; try discriminate; [reflexivity|].
    cbn [combine map fst snd]. rewrite (B Y) by (left; reflexivity). f_equal. apply IH; [intros Z I; apply B; right; exact I|cbn in L; lia]. }
  assert (G' : pts = map sp_pos ps).
  { clear - G Hi. revert G. generalize (map sp_pos ps). induction pts as [|a pts IH]; intros [|b l] G; try discriminate; [reflexivity|]. cbn in G. injection G as Ga Gl. f_equal; [eapply Hi; exact Ga|apply IH, Gl]. }
  rewrite G'. apply Permutation_map. exact Pm.
Qed.
(** The undistorter. [p0], [p1] are a first and a last point; [step] is the sampling period. The call succeeds exactly if the transforms one
    period before the first and one period after the last point are available; the result is the cloud undistorted with transforms
    sampled with that period. Hypotheses: more than one interval, and a cloud that lasts at least (n - 1) (n - 2) nanoseconds and one
    nanosecond per interval. *)
Theorem C56_undistorter_partial : forall (P T : Type) (act : T -> P -> P) inv interp ident srt tfn n c p0 p1,
  (forall X p, act X (act (inv X) p) = p) -> sorts srt -> cloud_ok c -> no_gaps tfn ->
  In p0 (sc_points c) -> In p1 (sc_points c) -> (forall p, In p (sc_points c) -> sp_off p0 <= sp_off p <= sp_off p1) -> point_time c p0 <> 2 ^ 32 - 1 ->
  let t0 := point_time c p0 in let t1 := point_time c p1 in let step := (t1 - t0) / (n - 1) in
  2 <= n < 2 ^ 31 -> n - 1 <= t1 - t0 -> (n - 1) * (n - 2) <= t1 - t0 -> step <= t0 -> t1 + step < 2 ^ 32 * 1000000000 ->
  let out := undistortPointcloud act inv interp ident srt (by_ns tfn) n c in
  (tfn (t0 - step) = None -> out = UStart) /\
  (tfn (t0 - step) <> None -> tfn (t1 + step) = None -> out = UEnd) /\
  (tfn (t0 - step) <> None -> tfn (t1 + step) <> None -> exists pose pts, out = USuccess pose pts /\ undistorted act (sampled interp tfn t0 step) c pose pts).
Proof.
  intros P T act inv interp ident srt tfn n c p0 p1 H1 H2 H3 Hg I0 I1 Hq Hm t0 t1 step Hn Hs1 Hs2 Hlow Hhigh out.
  destruct (times_ex act inv interp ident H1 srt H2 c H3) as (q0 & q1 & N0 & N1 & S0 & S1 & J0 & J1 & Hq').
  assert (E0 : sp_off q0 = sp_off p0) by (pose proof (Hq q0 J0); pose proof (Hq' p0 I0); lia).
  assert (E1 : sp_off q1 = sp_off p1) by (pose proof (Hq q1 J1); pose proof (Hq' p1 I1); lia).
  assert (Et0 : point_time c q0 = t0) by (unfold t0, point_time; lia). assert (Et1 : point_time c q1 = t1) by (unfold t1, point_time; lia).
  rewrite Et0 in S0. rewrite Et1 in S1. pose proof H3 as (_ & Hb & Ho & Hb2 & _).
  assert (Et : t1 - t0 = sp_off p1 - sp_off p0) by (unfold t0, t1, point_time; lia).
  pose proof (Ho p0 I0) as O0. pose proof (Ho p1 I1) as O1.
  assert (D := Z.div_mod (t1 - t0) (n - 1) ltac:(lia)). pose proof (Z.mod_pos_bound (t1 - t0) (n - 1) ltac:(lia)) as Hmod. fold step in D.
  assert (St : 1 <= step) by (unfold step; apply Z.div_le_lower_bound; lia).
  assert (St2 : n - 2 <= step) by (unfold step; apply Z.div_le_lower_bound; lia).
  destruct (span_arith n step (t1 - t0) ((t1 - t0) mod (n - 1)) ltac:(lia) St St2 ltac:(lia) Hmod) as (St3 & Hcov' & Hcov2').
  assert (Hcov : t1 <= t0 + n * step) by lia. assert (Hcov2 : t0 + n * step <= t1 + step) by lia. clear Hcov' Hcov2'.
  assert (T0 : 0 <= t0) by (unfold t0, point_time; lia).
  assert (OUT : out = match tfn (t0 - step) with None => UStart | Some _ => match tfn (t1 + step) with None => UEnd | Some _ =>
     match buffer_poses (by_ns tfn) t0 step (Z.to_nat (n + 1)) 0 with None => UIntermediate | Some buf => match compensate_motion act inv interp ident srt buf c with Some (pose, pts) => USuccess pose pts | None => UAbort end end end end).
  { unfold out, undistortPointcloud. rewrite S0, S1. cbv zeta. rewrite N0, N1. replace (n - 1 =? 0) with false by (symmetry; apply Z.eqb_neq; lia).
    rewrite E0, E1, <- Et. rewrite (Z.mod_small (t1 - t0)) by lia. rewrite (Z.mod_small (n - 1)) by lia. fold step. rewrite !(u64_id step) by lia.
    rewrite (u64_id (t0 - step)) by lia. rewrite (u64_id (t1 + step)) by lia. rewrite !by_ns_ok by (unfold ros_range; lia). reflexivity. }
  clearbody out. clear N0 N1 S0 S1. assert (SA := fun i => sample_arith t0 step i n T0 St). clearbody step. clear D Hmod.
  split; [intros E; rewrite OUT, E; reflexivity|]. split; [intros Ea E; rewrite OUT, E; destruct (tfn (t0 - step)); [reflexivity|contradiction]|].
  intros Ea Ec. destruct (buffer_ok tfn t0 step T0 ltac:(lia) (Z.to_nat (n + 1)) 0 ltac:(lia)) as (buf & EB & LB & NB).
  - intros i Hi. rewrite Z2Nat.id in Hi by lia. unfold ros_range. pose proof (SA i ltac:(lia)). lia.
  - intros i Hi. rewrite Z2Nat.id in Hi by lia. apply (Hg (t0 - step) _ (t1 + step)); [|exact Ea|exact Ec]. pose proof (SA i ltac:(lia)). lia.
  - destruct (nth_ex buf 0) as ([b0 X0] & B0); [lia|]. destruct (nth_ex buf (length buf - 1)) as ([b1 X1] & B1); [lia|].
    destruct (C56_compensate_partial P T act inv interp ident srt buf c b0 X0 b1 X1) as (pose & pts & E & U); try assumption.
    + split.
      * intros i tl Tl tr Tr El Er. destruct (NB _ _ _ El) as [-> _]. destruct (NB _ _ _ Er) as [-> _]. lia.
      * intros t X I. apply In_nth_error in I as (i & I). assert (Li : (i < length buf)%nat) by (apply nth_error_Some; rewrite I; discriminate). destruct (NB _ _ _ I) as [-> _]. pose proof (SA (Z.of_nat i) ltac:(lia)). lia.
    + lia.
    + intros p Ip. destruct (NB _ _ _ B0) as [-> _]. destruct (NB _ _ _ B1) as [-> _]. pose proof (Hq p Ip). rewrite LB. replace (0 + Z.of_nat (Z.to_nat (n + 1) - 1)) with n by lia. unfold t0, t1, point_time in *. lia.
    + intros p Ip Ep. exists p0. split; [exact I0|]. pose proof (Hq p Ip). unfold point_time in *. lia.
    + exists pose, pts. split; [rewrite OUT, EB, E; destruct (tfn (t0 - step)); [|contradiction]; destruct (tfn (t1 + step)); [reflexivity|contradiction]|].
      destruct U as (ps & Xs & U1 & U2 & U3 & U4). exists ps, Xs. split; [exact U1|]. split; [exact U2|]. split; [|exact U4].
      assert (W : forall t X, pose_at interp buf t X -> sampled interp tfn t0 step t X); [|clear - U3 W; induction U3; constructor; [apply W; assumption|assumption]].
      intros t X (i & tl & Tl & tr & Tr & El & Er & Ht & _ & EX). destruct (NB _ _ _ El) as [-> Ql]. destruct (NB _ _ _ Er) as [-> Qr].
      exists (Z.of_nat i), Tl, Tr. cbv zeta. rewrite Z.add_0_l in *. replace (t0 + Z.of_nat (S i) * step) with (t0 + Z.of_nat i * step + step) in * by lia. rewrite Z.add_0_l in *.
      split; [lia|]. split; [lia|]. split; [exact Ql|]. split.
      * exact Qr.
      * rewrite EX. replace (t0 + Z.of_nat (S i) * step - (t0 + Z.of_nat i * step)) with step by lia. reflexivity.
Qed.

(** ** Non-vacuity: a sensor moving along a line. Points and poses are positions in whole millimetres; a pose moves a
    point by adding, the interpolation rounds down. *)
Fixpoint insert_pt (p : spoint Z) (l : list (spoint Z)) : list (spoint Z) :=
  match l with [] => [p] | q :: r => if sp_off p <=? sp_off q then p :: l else q :: insert_pt p r end.
Definition isort (l : list (spoint Z)) : list (spoint Z) := fold_right insert_pt [] l.
Lemma isort_sorts : sorts isort.
Proof.
  intros l. induction l as [|p l [IP IS]]; [split; [constructor|constructor]|]. cbn [isort fold_right]. fold (isort l).
  assert (G : forall r, in_time_order r -> Permutation (p :: r) (insert_pt p r) /\ in_time_order (insert_pt p r)).
  { induction r as [|q r IHr]; intros S; [split; [apply Permutation_refl|constructor; [constructor|constructor]]|]. cbn [insert_pt].
    inversion S as [|? ? S' F]; subst. destruct (Z.leb_spec (sp_off p) (sp_off q)) as [L|L].
    - split; [apply Permutation_refl|]. constructor; [exact S|]. constructor; [exact L|]. eapply Forall_impl; [|exact F]. intros a Ha. cbn in Ha. lia.
    - destruct (IHr S') as [A B]. split; [eapply perm_trans; [apply perm_swap|apply perm_skip; exact A]|]. constructor; [exact B|].
      apply (Permutation_Forall A). constructor; [lia|exact F]. }
  destruct (G (isort l) IS) as [A B]. split; [eapply perm_trans; [apply perm_skip; exact IP|exact A]|exact B].
Qed.
Definition lin (x y : Z) (a : Q) : Z := x + Qfloor (a * inject_Z (y - x)).
(** The sensor is at 2 t; transforms are available from time 900 on. *)
Definition ex_tf (t : Z) : option Z := if t <? 900 then None else Some (2 * t).
Definition ex_sc : scloud Z := SC 1000 [SP 5 40; SP 1 0; SP 3 15] false.
Definition run_ex (tf : Z -> option Z) n c := undistortPointcloud Z.add Z.opp lin 0 isort (by_ns tf) n c.
Example C56_ex : run_ex ex_tf 3 ex_sc = USuccess 2030 [(-29); 3; 55] /\
  run_ex (fun t => if t <? 1059 then ex_tf t else None) 3 ex_sc = UEnd /\ cloud_ok ex_sc.
Proof.
  split; [vm_compute; reflexivity|]. split; [vm_compute; reflexivity|]. split; [discriminate|]. split; [cbn; lia|]. split; [|split; [cbn; lia|discriminate]].
  intros p [<-|[<-|[<-|[]]]]; cbn; lia.
Qed.

Example C56_ex_hyps : (forall X p : Z, X + (- X + p) = p) /\ sorts isort /\ no_gaps ex_tf /\ In (SP 1 0) (sc_points ex_sc) /\ In (SP 5 40) (sc_points ex_sc) /\
  (forall p, In p (sc_points ex_sc) -> 0 <= sp_off p <= 40) /\ ex_tf (1000 - 40 / (3 - 1)) <> None /\ ex_tf (1040 + 40 / (3 - 1)) <> None /\ (3 - 1) * (3 - 2) <= 40.
Proof.
  split; [intros; lia|]. split; [exact isort_sorts|]. split.
  - intros t u v H1 A B. unfold ex_tf in *. destruct (Z.ltb_spec t 900); [destruct A; reflexivity|]. destruct (Z.ltb_spec u 900); [lia|discriminate].
  - repeat split; try discriminate; cbn; try lia; try (left; reflexivity); try (right; left; reflexivity); destruct H as [<-|[<-|[<-|[]]]]; cbn; lia.
Qed.

(** ** False variants *)
(** A configuration with one interval is accepted, but divides by zero. *)
Theorem C56_one_interval_refuted : exists c, cloud_ok c /\ run_ex (fun t => Some t) 1 c = UAbort.
Proof. exists ex_sc. split; [apply C56_ex|vm_compute; reflexivity]. Qed.
(** A cloud without times (all offsets 0, as loaded if the message has no time field or its type is not supported) aborts the program,
    for any number of intervals and any available transforms. *)
Theorem C56_no_times_refuted : exists c, cloud_ok c /\ (forall p, In p (sc_points c) -> sp_off p = 0) /\ forall n tf, 2 <= n < 2 ^ 31 -> run_ex (fun t => Some (tf t)) n c = UAbort.
Proof.
  exists (SC 1000 [SP 5 0; SP 1 0] true). split; [|split].
  - split; [discriminate|]. split; [cbn; lia|]. split; [intros p [<-|[<-|[]]]; cbn; lia|]. split; [cbn; lia|]. intros _. repeat constructor; cbn; lia.
  - intros p [<-|[<-|[]]]; reflexivity.
  - intros n tf Hn. unfold run_ex, undistortPointcloud, by_ns. set (k := nanoSecondsToRosTime). set (f := fun t : ros_time => Some (tf (fst t * 1000000000 + snd t))).
    change (getStartTime isort (SC 1000 [SP 5 0; SP 1 0] true)) with (Some 1000). change (getEndTime isort (SC 1000 [SP 5 0; SP 1 0] true)) with (Some 1000). cbn beta iota.
    replace (n - 1 =? 0) with false by (symmetry; apply Z.eqb_neq; lia).
    change ((match nth_error (sc_points (sc_sort isort (SC 1000 [SP 5 0; SP 1 0] true))) _ with Some p => sp_off p | None => 0 end - _) mod 2 ^ 32) with 0.
    cbv zeta. rewrite Z.div_0_l by (rewrite Z.mod_small by lia; lia). change (u64 0) with 0.
    replace (Z.to_nat (n + 1)) with (S (S (Z.to_nat (n - 1)))) by lia. generalize (Z.to_nat (n - 1)). intros m. cbn [buffer_poses].
    assert (K : forall m from, exists buf, buffer_poses f 1000 0 m from = Some buf /\ forall t X, In (t, X) buf -> t = 1000).
    { clear. induction m as [|m IH]; intros from; [exists []; split; [reflexivity|intros ? ? []]|]. cbn [buffer_poses]. rewrite Z.mul_0_r. change (u64 (1000 + 0)) with 1000. unfold f at 1.
      destruct (IH (from + 1)) as (buf & E & H). rewrite E. eexists. split; [reflexivity|]. intros t X [I|I]; [injection I as <- _; reflexivity|apply (H t X I)]. }
    destruct (K m (0 + 1 + 1)) as (buf & E & H). change (u64 (1000 + 0 * 0)) with 1000. change (u64 (1000 + (0 + 1) * 0)) with 1000. cbn beta iota. unfold f at 1 2. cbn beta iota. rewrite E.
    cbn [option_map]. unfold compensate_motion.
    change (getStartTime isort (SC 1000 [SP 5 0; SP 1 0] true)) with (Some 1000). change (getEndTime isort (SC 1000 [SP 5 0; SP 1 0] true)) with (Some 1000). cbn beta iota.
    destruct ((1000 <=? 1000) && _); [|reflexivity]. cbn [sc_sort sc_sorted sc_points undistort_loop sc_base sp_off]. change (u64 (1000 + 0)) with 1000.
    change (1000 =? 2 ^ 32 - 1) with false. cbn [length advance nth_error]. change (1000 <? 1000) with false. cbn [andb pose_between nth_error]. change (u64 (1000 - 1000) =? 0) with true. reflexivity.
Qed.
(** A cloud that lasts less than (n - 1) (n - 2) nanoseconds can abort the program: the last sample is before the last point. *)
Theorem C56_short_cloud_refuted : exists n c, cloud_ok c /\ 2 <= n /\ run_ex (fun t => Some t) n c = UAbort.
Proof.
  exists 100, (SC 1000 [SP 5 0; SP 1 150] true). split; [|split; [lia|vm_compute; reflexivity]].
  split; [discriminate|]. split; [cbn; lia|]. split; [intros p [<-|[<-|[]]]; cbn; lia|]. split; [cbn; lia|]. intros _. repeat constructor; cbn; lia.
Qed.
(** A cloud whose first point has the time 2^32 - 1 ns: this point is not moved by the pose of the sensor. The sensor stands still at 7. *)
Theorem C56_first_time_refuted : exists c pts, cloud_ok c /\ run_ex (fun t => Some 7) 2 c = USuccess 7 pts /\ ~ Permutation (map sp_pos (sc_points c)) pts.
Proof.
  exists (SC (2 ^ 32 - 1) [SP 5 0; SP 1 10] true), [(-2); 1]. split; [|split; [vm_compute; reflexivity|]].
  - split; [discriminate|]. split; [cbn; lia|]. split; [intros p [<-|[<-|[]]]; cbn; lia|]. split; [cbn; lia|]. intros _. repeat constructor; cbn; lia.
  - intros Pm. assert (I : In (-2) [5; 1]) by (apply (Permutation_in _ (Permutation_sym Pm)); left; reflexivity). destruct I as [I|[I|[]]]; discriminate I.
Qed.
Print Assumptions C56_compensate_partial.
Print Assumptions C56_no_extrapolation.
Print Assumptions C56_static_partial.
Print Assumptions C56_undistorter_partial.
Print Assumptions C56_one_interval_refuted.
Print Assumptions C56_no_times_refuted.
Print Assumptions C56_short_cloud_refuted.
Print Assumptions C56_first_time_refuted.
