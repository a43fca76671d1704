(** Property theorems C58 (pose algebra), C59 (pose interpolation) and C60 (rotation matrices). *)
From Verif Require Import M_Pose.
From Coq Require Import Reals Lra Psatz List.
Import ListNotations.
Open Scope R_scope.

(** ** Specification *)
Definition norm (v : vec3) : R := sqrt (vdot v v).
Definition distance (a b : vec3) : R := norm (vsub a b).
Definition unit_quat (q : quat) : Prop := qn2 q = 1.
(** The rotation by the angle [a] around the unit vector [n] (Rodrigues' formula) *)
Definition rotation_about (n : vec3) (a : R) (v : vec3) : vec3 :=
  vadd (vadd (vscale (cos a) v) (vscale (sin a) (vcross n v))) (vscale ((1 - cos a) * vdot n v) n).
(** A motion of a rigid body: lengths and orientation are kept. *)
Definition rigid (f : vec3 -> vec3) : Prop :=
  (forall p q, distance (f p) (f q) = distance p q) /\
  (forall o p q, vcross (vsub (f p) (f o)) (vsub (f q) (f o)) = vsub (f (vadd o (vcross (vsub p o) (vsub q o)))) (f o)).
(** A quaternion that the constructors accept *)
Definition accepted (q : quat) : Prop := checked q = Some q.

Ltac vec := repeat match goal with v : vec3 |- _ => destruct v end; repeat match goal with v : quat |- _ => destruct v end; repeat match goal with v : pose |- _ => destruct v end.
Ltac unf := cbv [unit_quat qn2 qdot qrot qim qprod qconj qneg qscale qadd qmat mmul rotate transform vadd vsub vneg vscale vdot vcross
  qw qx qy qz vx vy vz m00 m01 m02 m10 m11 m12 m20 m21 m22 prot ppos qident pose_identity] in *.

(** ** Facts *)
Lemma eps_val : 0 < norm_eps < 1 / 1000. Proof. unfold norm_eps. lra. Qed.
Lemma checked_iff q : checked q = Some q <-> 1 - norm_eps <= qn2 q <= 1 + norm_eps.
Proof.
  unfold checked. destruct (Rle_dec (qn2 q) (1 + norm_eps)); [|split; [discriminate|lra]].
  destruct (Rle_dec (1 - norm_eps) (qn2 q)); split; try discriminate; try lra; auto.
Qed.
Lemma checked_some q : 1 - norm_eps <= qn2 q <= 1 + norm_eps -> checked q = Some q.
Proof. apply checked_iff. Qed.
Lemma unit_accepted q : unit_quat q -> accepted q.
Proof. unfold unit_quat, accepted. intros H. apply checked_some. rewrite H. pose proof eps_val. lra. Qed.
Lemma qn2_prod a b : qn2 (qprod a b) = qn2 a * qn2 b. Proof. vec; unf. ring. Qed.
Lemma qn2_conj a : qn2 (qconj a) = qn2 a. Proof. vec; unf. ring. Qed.
Lemma qn2_neg a : qn2 (qneg a) = qn2 a. Proof. vec; unf. ring. Qed.
Lemma qn2_scale s a : qn2 (qscale s a) = s * s * qn2 a. Proof. vec; unf. ring. Qed.
Lemma qn2_pos a : 0 <= qn2 a. Proof. vec; unf. nra. Qed.
(** Rotating is linear. *)
Lemma rot_add q a b : qrot q (vadd a b) = vadd (qrot q a) (qrot q b). Proof. vec; unf. f_equal; ring. Qed.
Lemma rot_sub q a b : qrot q (vsub a b) = vsub (qrot q a) (qrot q b). Proof. vec; unf. f_equal; ring. Qed.
Lemma rot_neg q a : qrot q (vneg a) = vneg (qrot q a). Proof. vec; unf. f_equal; ring. Qed.
Lemma rot_mat q v : mmul (qmat q) v = qrot q v. Proof. vec; unf. f_equal; ring. Qed.
(** The product q v q* of quaternions, and how it differs from q * v if q is not of unit length *)
Definition sandwich (q : quat) (v : vec3) : vec3 :=
  let u := qim q in vadd (vadd (vscale (qw q * qw q - vdot u u) v) (vscale (2 * qw q) (vcross u v))) (vscale (2 * vdot u v) u).
Lemma rot_sandwich q v : qrot q v = vsub (sandwich q v) (vscale (qn2 q - 1) v). Proof. unfold sandwich. vec; unf. f_equal; ring. Qed.
Lemma rot_unit q v : unit_quat q -> qrot q v = sandwich q v.
Proof. intros H. rewrite rot_sandwich, H. unfold sandwich. vec; unf. f_equal; ring. Qed.
Lemma sandwich_prod a b v : sandwich (qprod a b) v = sandwich a (sandwich b v).
Proof. unfold sandwich. vec; unf. f_equal; ring. Qed.
Lemma sandwich_conj q v : sandwich q (sandwich (qconj q) v) = vscale (qn2 q * qn2 q) v.
Proof. unfold sandwich. vec; unf. f_equal; ring. Qed.
Lemma sandwich_dot q v w : vdot (sandwich q v) (sandwich q w) = qn2 q * qn2 q * vdot v w.
Proof. unfold sandwich. vec; unf. ring. Qed.
Lemma sandwich_cross q v w : vcross (sandwich q v) (sandwich q w) = vscale (qn2 q) (sandwich q (vcross v w)).
Proof. unfold sandwich. vec; unf. f_equal; ring. Qed.
Lemma unit_prod a b : unit_quat a -> unit_quat b -> unit_quat (qprod a b).
Proof. unfold unit_quat. intros A B. rewrite qn2_prod, A, B. ring. Qed.
Lemma unit_conj a : unit_quat a -> unit_quat (qconj a).
Proof. unfold unit_quat. rewrite qn2_conj. auto. Qed.
Lemma unit_inv a : unit_quat a -> qinv a = qconj a.
Proof. intros H. unfold qinv. rewrite H, Rinv_1. vec; unf. f_equal; ring. Qed.
Lemma unit_renorm a : unit_quat a -> renormalized a = a.
Proof. unfold unit_quat, renormalized. intros ->. destruct (Rlt_dec _ _) as [H|H]; [|reflexivity]. exfalso. pose proof eps_val. rewrite Rminus_diag_eq, Rabs_R0 in H; [lra|reflexivity]. Qed.
Lemma vscale_1 v : vscale 1 v = v. Proof. vec; unf. f_equal; ring. Qed.
Lemma abs_le x a : Rabs x <= a -> - a <= x <= a. Proof. unfold Rabs. destruct (Rcase_abs x); lra. Qed.
Lemma norm_ext a b : vdot a a = vdot b b -> norm a = norm b. Proof. unfold norm. intros ->. reflexivity. Qed.
Lemma norm_pos a : 0 <= norm a. Proof. apply sqrt_pos. Qed.
Lemma norm_sq a : norm a * norm a = vdot a a. Proof. apply sqrt_sqrt. vec; unf. nra. Qed.
Lemma norm_le a r : 0 <= r -> vdot a a <= r * r -> norm a <= r.
Proof. intros Hr H. unfold norm. rewrite <- (sqrt_square r Hr). apply sqrt_le_1_alt. exact H. Qed.
Lemma cauchy a b : vdot a b * vdot a b <= vdot a a * vdot b b.
Proof.
  assert (E : vdot a a * vdot b b - vdot a b * vdot a b = vdot (vcross a b) (vcross a b)) by (vec; unf; ring).
  assert (0 <= vdot (vcross a b) (vcross a b)) by (set (c := vcross a b); clearbody c; vec; unf; nra). lra.
Qed.
Lemma norm_triangle a b : norm (vadd a b) <= norm a + norm b.
Proof.
  pose proof (norm_pos a) as A. pose proof (norm_pos b) as B. apply norm_le; [lra|].
  replace (vdot (vadd a b) (vadd a b)) with (vdot a a + vdot b b + 2 * vdot a b) by (vec; unf; ring). rewrite <- (norm_sq a), <- (norm_sq b).
  pose proof (cauchy a b) as C. rewrite <- (norm_sq a), <- (norm_sq b) in C.
  assert (vdot a b <= norm a * norm b); [|nra]. apply Rnot_lt_le. intros L. assert (0 <= norm a * norm b) by nra. nra.
Qed.
Lemma norm_scale s a : norm (vscale s a) = Rabs s * norm a.
Proof.
  unfold norm. replace (vdot (vscale s a) (vscale s a)) with (s * s * vdot a a) by (vec; unf; ring).
  rewrite sqrt_mult_alt by nra. f_equal. apply (sqrt_Rsqr_abs s).
Qed.
Lemma norm_cross u v : norm (vcross u v) <= norm u * norm v.
Proof.
  pose proof (norm_pos u). pose proof (norm_pos v). apply norm_le; [nra|].
  replace (vdot (vcross u v) (vcross u v)) with (vdot u u * vdot v v - vdot u v * vdot u v) by (vec; unf; ring).
  rewrite <- (norm_sq u), <- (norm_sq v). pose proof (Rle_0_sqr (vdot u v)) as S. unfold Rsqr in S. nra.
Qed.

(** ** C58: poses *)
(** The identity changes nothing. *)
Theorem C58_identity : forall p, transform pose_identity p = p.
Proof. intros p. vec; unf. f_equal; ring. Qed.
(** The product of two poses is the composition of the two motions. *)
Theorem C58_compose : forall a b, unit_quat (prot a) -> unit_quat (prot b) ->
  exists c, pose_mul a b = Some c /\ unit_quat (prot c) /\ forall p, transform c p = transform a (transform b p).
Proof.
  intros [qa ta] [qb tb] Ha Hb. cbn [prot] in *. unfold pose_mul, rot_mul. cbn [prot ppos].
  pose proof (unit_prod qa qb Ha Hb) as Hc. rewrite (unit_renorm _ Hc), (unit_accepted _ Hc). cbn [with_rot].
  eexists. split; [reflexivity|]. split; [exact Hc|]. intros p. unfold transform, rotate. cbn [prot ppos].
  rewrite rot_add, !(rot_unit qa), (rot_unit qb), (rot_unit (qprod qa qb)), sandwich_prod by assumption.
  generalize (sandwich qa (sandwich qb p)) (sandwich qa tb). intros u v. vec; unf. f_equal; ring.
Qed.
(** The inverse of a pose undoes the motion, from both sides; inverseTransform does the same. *)
Theorem C58_inverse : forall x, unit_quat (prot x) ->
  exists y, pose_inverse x = Some y /\ unit_quat (prot y) /\
    forall p, transform y (transform x p) = p /\ transform x (transform y p) = p /\ inverse_transform x p = transform y p.
Proof.
  intros [q t] H. cbn [prot] in *. unfold pose_inverse, rot_inverse. cbn [prot ppos]. pose proof (unit_conj q H) as Hc.
  rewrite (unit_accepted _ Hc). cbn [with_rot]. eexists. split; [reflexivity|]. split; [exact Hc|].
  intros p. unfold inverse_transform, transform, inverse_rotate, rotate. cbn [prot ppos]. rewrite !unit_inv by assumption.
  rewrite !rot_add, rot_sub, !rot_neg, !(rot_unit q), !(rot_unit (qconj q)) by assumption.
  assert (C1 : forall v, sandwich q (sandwich (qconj q) v) = v) by (intros v; rewrite sandwich_conj, H, Rmult_1_r; apply vscale_1).
  assert (C2 : forall v, sandwich (qconj q) (sandwich q v) = v).
  { intros v. assert (E : qconj (qconj q) = q) by (vec; unf; f_equal; ring). rewrite <- E at 2. rewrite sandwich_conj, qn2_conj, H, Rmult_1_r. apply vscale_1. }
  split; [|split].
  - rewrite C2. generalize (sandwich (qconj q) t). intros u. vec; unf. f_equal; ring.
  - rewrite !C1. vec; unf. f_equal; ring.
  - generalize (sandwich (qconj q) p) (sandwich (qconj q) t). intros u v. vec; unf. f_equal; ring.
Qed.
(** Poses move rigid bodies: distances and orientation are kept. *)
Theorem C58_rigid : forall x, unit_quat (prot x) -> rigid (transform x).
Proof.
  intros [q t] H. cbn [prot] in *. assert (D : forall p p', vsub (transform (Pose q t) p) (transform (Pose q t) p') = sandwich q (vsub p p')).
  { intros p p'. unfold transform, rotate. cbn [prot ppos]. rewrite <- (rot_unit q), rot_sub by assumption. generalize (qrot q p) (qrot q p'). intros u v. vec; unf. f_equal; ring. }
  split.
  - intros p p'. unfold distance. rewrite D. apply norm_ext. rewrite sandwich_dot, H. ring.
  - intros o p p'. rewrite !D, sandwich_cross, H, vscale_1. f_equal. generalize (vcross (vsub p o) (vsub p' o)). intros u. vec; unf. f_equal; ring.
Qed.
(** The quaternion (cos(a/2), sin(a/2) n) rotates by the angle a around n. *)
Theorem C58_angle_axis : forall n a v, vdot n n = 1 ->
  rotate (Qt (cos (a / 2)) (sin (a / 2) * vx n) (sin (a / 2) * vy n) (sin (a / 2) * vz n)) v = rotation_about n a v.
Proof.
  intros n a v Hn. set (h := a / 2). assert (Ea : a = 2 * h) by (unfold h; field). rewrite Ea. unfold rotation_about. rewrite cos_2a, sin_2a.
  pose proof (sin2_cos2 h) as S. unfold Rsqr in S. set (c := cos h) in *. set (s := sin h) in *. clearbody c s. clear a h Ea. unfold rotate.
  assert (Hu : unit_quat (Qt c (s * vx n) (s * vy n) (s * vz n))).
  { unfold unit_quat. replace (qn2 _) with (s * s * vdot n n + c * c) by (vec; unf; ring). rewrite Hn. lra. }
  rewrite (rot_unit _ _ Hu). replace (1 - (c * c - s * s)) with (2 * (s * s)) by lra.
  assert (E : vscale (c * c - s * s) v = vscale (c * c - s * s * vdot n n) v) by (rewrite Hn, Rmult_1_r; reflexivity).
  rewrite E. unfold sandwich. vec; unf. f_equal; ring.
Qed.
Lemma unit_circle c s : c * c + s * s = 1 -> exists a, c = cos a /\ s = sin a.
Proof.
  intros H. assert (-1 <= c <= 1) by (split; nra). destruct (Rle_dec 0 s) as [P|N].
  - exists (acos c). split; [symmetry; apply cos_acos; assumption|]. rewrite sin_acos by assumption. symmetry.
    replace (1 - c²) with (s * s) by (unfold Rsqr; lra). apply sqrt_square. exact P.
  - exists (- acos c). rewrite cos_neg, sin_neg. split; [symmetry; apply cos_acos; assumption|]. rewrite sin_acos by assumption.
    replace (1 - c²) with ((- s) * (- s)) by (unfold Rsqr; lra). rewrite sqrt_square by lra. ring.
Qed.
(** Every unit quaternion is a rotation around some axis. *)
Theorem C58_is_rotation : forall q, unit_quat q -> exists n a, vdot n n = 1 /\ forall v, rotate q v = rotation_about n a v.
Proof.
  intros q H. set (s := norm (qim q)). assert (Hs : s * s = vdot (qim q) (qim q)) by apply norm_sq.
  assert (Hq : qw q * qw q + s * s = 1) by (rewrite Hs, <- H; vec; unf; ring).
  destruct (unit_circle _ _ Hq) as (h & C & S). destruct (Req_dec s 0) as [Z|NZ].
  - exists (V3 1 0 0), (2 * h). split; [unf; ring|]. intros v. rewrite <- (C58_angle_axis (V3 1 0 0) (2 * h) v) by (unf; ring).
    replace (2 * h / 2) with h by field. rewrite <- C, <- S, Z. rewrite Z in Hs. f_equal. clear - Hs. destruct q as [w x y z]. unf.
    assert (x = 0) by nra. assert (y = 0) by nra. assert (z = 0) by nra. subst. f_equal; ring.
  - exists (vscale (/ s) (qim q)), (2 * h).
    assert (N1 : vdot (vscale (/ s) (qim q)) (vscale (/ s) (qim q)) = 1).
    { replace (vdot _ _) with (/ s * / s * vdot (qim q) (qim q)) by (vec; unf; ring). rewrite <- Hs. field. exact NZ. }
    split; [exact N1|]. intros v. rewrite <- (C58_angle_axis _ (2 * h) v N1).
    replace (2 * h / 2) with h by field. rewrite <- C, <- S. f_equal. clearbody s. clear - NZ. vec; unf. f_equal; field; exact NZ.
Qed.
(** Transforming a list of points transforms each of them. *)
Theorem C58_transform_all : forall x l, l <> [] -> transform_all x l = Some (map (transform x) l).
Proof.
  intros x l Hl. unfold transform_all, rotate_all. destruct l as [|v l]; [contradiction|]. rewrite map_map. f_equal. apply map_ext. intros p. rewrite rot_mat. reflexivity.
Qed.
(** From accepted quaternions, products, inverses and getUnique never abort, and the results are accepted. *)
Lemma accepted_iff q : accepted q <-> 1 - norm_eps <= qn2 q <= 1 + norm_eps. Proof. apply checked_iff. Qed.
Theorem C58_no_abort : forall a b, accepted (prot a) -> accepted (prot b) ->
  (exists c, pose_mul a b = Some c /\ accepted (prot c)) /\ (exists c, pose_inverse a = Some c /\ accepted (prot c)) /\
  (exists q, unique (prot a) = Some q /\ accepted q).
Proof.
  intros [qa ta] [qb tb] Ha Hb. cbn [prot] in *. apply accepted_iff in Ha. apply accepted_iff in Hb. pose proof eps_val. split; [|split].
  - unfold pose_mul, rot_mul. cbn [prot ppos].
    assert (R : accepted (renormalized (qprod qa qb))).
    { apply accepted_iff. unfold renormalized. destruct (Rlt_dec _ _) as [L|L].
      - unfold qnormalize. rewrite qn2_scale. assert (P : 0 < qn2 (qprod qa qb)) by (rewrite qn2_prod; nra).
        assert (S : / sqrt (qn2 (qprod qa qb)) * / sqrt (qn2 (qprod qa qb)) * qn2 (qprod qa qb) = 1).
        { pose proof (sqrt_sqrt _ (Rlt_le _ _ P)) as SS. pose proof (sqrt_lt_R0 _ P) as SP. set (r := sqrt (qn2 (qprod qa qb))) in *.
          rewrite <- SS. field. lra. }
        rewrite S. lra.
      - apply Rnot_lt_le in L. apply abs_le in L. lra. }
    unfold accepted in R. rewrite R. eexists. split; [reflexivity|]. cbn [prot]. exact R.
  - unfold pose_inverse, rot_inverse. cbn [prot ppos]. assert (R : accepted (qconj qa)) by (apply accepted_iff; rewrite qn2_conj; lra).
    unfold accepted in R. rewrite R. eexists. split; [reflexivity|exact R].
  - assert (P : accepted qa) by (apply accepted_iff; lra). assert (R : accepted (qneg qa)) by (apply accepted_iff; rewrite qn2_neg; lra).
    unfold unique. unfold accepted in R. rewrite R. repeat destruct (Rlt_dec _ _); eexists; (split; [reflexivity|assumption]).
Qed.
(** Quaternions that are accepted but not of unit length: a pose and its inverse cancel up to 5e-4 of the distances. *)
Lemma rot_conj q v : qrot q (qrot (qconj q) v) = vadd v (vscale (4 * (1 - qn2 q)) (vcross (qim q) (vcross (qim q) v))).
Proof. vec; unf. f_equal; ring. Qed.
Lemma rot_inv q v : qn2 q <> 0 -> let n := qn2 q in let u := qim q in
  qrot q (qrot (qinv q) v) = vadd v (vadd (vscale (2 * qw q * (1 - / (n * n))) (vcross u v)) (vscale (2 * ((1 - / n) * (1 - / n))) (vcross u (vcross u v)))).
Proof.
  intros Hn n u. unfold qinv. fold n. assert (Hi : n * / n = 1) by (apply Rinv_r; exact Hn). rewrite Rinv_mult.
  set (i := / n) in *. assert (En : n = qn2 q) by reflexivity. clearbody n i. clear Hn. unfold u. clear u.
  assert (E : forall (a b : vec3), vsub a b = V3 0 0 0 -> a = b) by (intros [? ? ?] [? ? ?] H; unf; injection H as H1 H2 H3; f_equal; lra).
  apply E. clear E.
  assert (K : vsub (qrot q (qrot (qscale i (qconj q)) v)) (vadd v (vadd (vscale (2 * qw q * (1 - i * i)) (vcross (qim q) v)) (vscale (2 * ((1 - i) * (1 - i))) (vcross (qim q) (vcross (qim q) v)))))
    = vscale (4 * i * (1 - i * qn2 q)) (vcross (qim q) (vcross (qim q) v))) by (vec; unf; f_equal; ring).
  rewrite K, <- En, (Rmult_comm i n), Hi. generalize (vcross (qim q) (vcross (qim q) v)). intros w. clear K. vec; unf. f_equal; ring.
Qed.
Lemma qim_norm q : norm (qim q) * norm (qim q) <= qn2 q.
Proof. rewrite norm_sq. vec; unf. nra. Qed.
Lemma double_cross q v : norm (vcross (qim q) (vcross (qim q) v)) <= qn2 q * norm v.
Proof.
  pose proof (norm_cross (qim q) (vcross (qim q) v)) as A. pose proof (norm_cross (qim q) v) as B. pose proof (qim_norm q) as C.
  pose proof (norm_pos (qim q)). pose proof (norm_pos v). pose proof (norm_pos (vcross (qim q) v)).
  assert (norm (qim q) * norm (vcross (qim q) v) <= norm (qim q) * (norm (qim q) * norm v)) by (apply Rmult_le_compat_l; assumption). nra.
Qed.
Lemma single_cross q v : norm (vscale (2 * qw q) (vcross (qim q) v)) <= qn2 q * norm v.
Proof.
  rewrite norm_scale. pose proof (norm_cross (qim q) v) as B. pose proof (norm_pos (qim q)). pose proof (norm_pos v). pose proof (norm_pos (vcross (qim q) v)).
  assert (C : Rabs (2 * qw q) * norm (qim q) <= qn2 q).
  { rewrite Rabs_mult, (Rabs_right 2) by lra. pose proof (norm_sq (qim q)) as S. replace (qn2 q) with (qw q * qw q + vdot (qim q) (qim q)) by (vec; unf; ring).
    rewrite <- S. pose proof (Rsqr_abs (qw q)) as A. unfold Rsqr in A. rewrite A. clear. pose proof (Rle_0_sqr (Rabs (qw q) - norm (qim q))) as Q. unfold Rsqr in Q. lra. }
  pose proof (Rabs_pos (2 * qw q)). assert (Rabs (2 * qw q) * norm (vcross (qim q) v) <= Rabs (2 * qw q) * (norm (qim q) * norm v)) by (apply Rmult_le_compat_l; assumption). nra.
Qed.
Lemma inverse_defect n : 1 - norm_eps <= n <= 1 + norm_eps -> Rabs (1 - / n) <= 101 / 100 * norm_eps /\ Rabs (1 - / (n * n)) <= 202 / 100 * norm_eps.
Proof.
  intros H. assert (E : norm_eps = 13743895 / 137438953472) by reflexivity. set (e := norm_eps) in *. clearbody e.
  assert (He : 0 < e < / 9999) by lra. clear E. assert (Hn : 0 < n) by lra. assert (Hi : n * / n = 1) by (apply Rinv_r; lra). rewrite Rinv_mult.
  assert (Hp : 0 < / n) by (apply Rinv_0_lt_compat; exact Hn). set (i := / n) in *. clearbody i.
  assert (L1 : 1 - e <= i) by nra. assert (L2 : i <= 1 + 1001 / 1000 * e) by nra.
  split; apply Rabs_le; split; nra.
Qed.
Theorem C58_inverse_accuracy : forall x y p, accepted (prot x) -> pose_inverse x = Some y ->
  distance (transform x (transform y p)) p <= 5 / 10000 * (norm p + norm (ppos x)).
Proof.
  intros [q t] y p Ha Hy. cbn [prot ppos] in *. unfold pose_inverse, rot_inverse in Hy. cbn [prot ppos] in Hy. apply accepted_iff in Ha.
  rewrite checked_some in Hy by (rewrite qn2_conj; exact Ha). injection Hy as <-. unfold transform, inverse_rotate, rotate. cbn [prot ppos].
  rewrite rot_add, rot_neg, rot_conj, rot_inv by (pose proof eps_val; lra). cbv zeta.
  set (n := qn2 q) in *. destruct (inverse_defect n Ha) as [D1 D2].
  set (A := vcross (qim q) (vcross (qim q) p)). set (C := vcross (qim q) (vcross (qim q) t)). set (B := vcross (qim q) t).
  assert (BA : norm A <= n * norm p) by apply double_cross. assert (BC : norm C <= n * norm t) by apply double_cross.
  assert (BB : norm (vscale (2 * qw q) B) <= n * norm t) by apply single_cross.
  assert (E : vsub (vadd (vadd (vadd p (vscale (4 * (1 - n)) A)) (vneg (vadd t (vadd (vscale (2 * qw q * (1 - / (n * n))) B) (vscale (2 * ((1 - / n) * (1 - / n))) C))))) t) p
    = vadd (vscale (4 * (1 - n)) A) (vadd (vscale (- (1 - / (n * n))) (vscale (2 * qw q) B)) (vscale (- (2 * ((1 - / n) * (1 - / n)))) C))).
  { generalize (/ (n * n)) (/ n). intros r s. generalize A B C n (qw q). clear. intros. vec; unf. f_equal; ring. }
  unfold distance. rewrite E. clear E. eapply Rle_trans; [apply norm_triangle|]. eapply Rle_trans; [apply Rplus_le_compat_l, norm_triangle|]. rewrite !(norm_scale _ A), !(norm_scale _ C), (norm_scale _ (vscale (2 * qw q) B)), !Rabs_Ropp.
  rewrite (Rabs_mult 4), (Rabs_mult 2), (Rabs_mult (1 - / n)), (Rabs_right 4), (Rabs_right 2) by lra.
  assert (A1 : Rabs (1 - n) <= norm_eps) by (apply Rabs_le; lra).
  pose proof (norm_pos p). pose proof (norm_pos t). pose proof (norm_pos A). pose proof (norm_pos C). pose proof (norm_pos (vscale (2 * qw q) B)).
  pose proof (Rabs_pos (1 - n)). pose proof (Rabs_pos (1 - / n)). pose proof (Rabs_pos (1 - / (n * n))).
  assert (Ev : norm_eps = 13743895 / 137438953472) by reflexivity. set (e := norm_eps) in *. clearbody e.
  assert (He : 0 < e <= / 9999) by lra. clear Ev.
  assert (T1 : 4 * Rabs (1 - n) * norm A <= 4 * e * ((1 + e) * norm p)) by (apply Rmult_le_compat; nra).
  assert (T2 : Rabs (1 - / (n * n)) * norm (vscale (2 * qw q) B) <= 202 / 100 * e * ((1 + e) * norm t)) by (apply Rmult_le_compat; nra).
  assert (T3 : 2 * (Rabs (1 - / n) * Rabs (1 - / n)) * norm C <= 2 * (101 / 100 * e * (101 / 100 * e)) * ((1 + e) * norm t)) by (apply Rmult_le_compat; nra).
  assert (P1 : 4 * e * (1 + e) <= 5 / 10000) by nra. assert (P2 : 202 / 100 * e * (1 + e) + 2 * (101 / 100 * e * (101 / 100 * e)) * (1 + e) <= 5 / 10000) by nra.
  nra.
Qed.
(** It is not exact: with an accepted quaternion the two cancel only up to 3 cm at 100 m. *)
Theorem C58_inverse_exact_refuted : exists x y p, accepted (prot x) /\ pose_inverse x = Some y /\ norm p = 100 /\
  distance (transform x (transform y p)) p > 3 / 100.
Proof.
  set (z := 100004 / 100000). assert (Ha : accepted (Qt 0 0 0 z)) by (apply accepted_iff; unfold norm_eps, z; unf; lra).
  exists (Pose (Qt 0 0 0 z) (V3 0 0 0)). unfold pose_inverse, rot_inverse. cbn [prot ppos]. assert (Hc : checked (qconj (Qt 0 0 0 z)) = Some (qconj (Qt 0 0 0 z))) by (apply checked_some; unfold norm_eps, z; unf; lra).
  rewrite Hc. eexists. exists (V3 100 0 0). split; [exact Ha|]. split; [reflexivity|]. split.
  - unfold norm. unf. replace (100 * 100 + 0 * 0 + 0 * 0) with (100 * 100) by ring. apply sqrt_square. lra.
  - unfold transform, rotate, inverse_rotate. cbn [prot ppos]. rewrite rot_add, rot_conj.
    unfold distance, norm. assert (Z : qrot (qinv (Qt 0 0 0 z)) (V3 0 0 0) = V3 0 0 0) by (generalize (qinv (Qt 0 0 0 z)); intros r; vec; unf; f_equal; ring).
    rewrite Z, rot_neg. assert (Z' : qrot (Qt 0 0 0 z) (V3 0 0 0) = V3 0 0 0) by (unf; f_equal; ring). rewrite Z'.
    apply Rlt_gt. rewrite <- (sqrt_square (3 / 100)) by lra. apply sqrt_lt_1_alt. split; [lra|]. unfold z. unf. lra.
Qed.
(** getUnique does not change the rotation, and quaternions of the same rotation get the same representation. *)
Theorem C58_unique_same : forall q r, accepted q -> unique q = Some r -> forall v, rotate r v = rotate q v.
Proof.
  intros q r Ha Hu v. assert (Hn : checked (qneg q) = Some (qneg q)) by (apply checked_some; rewrite qn2_neg; apply accepted_iff; exact Ha).
  assert (E : r = q \/ r = qneg q) by (unfold unique in Hu; rewrite Hn in Hu; repeat destruct (Rlt_dec _ _) in Hu; injection Hu as <-; auto).
  destruct E as [->| ->]; [reflexivity|]. unfold rotate. vec; unf. f_equal; ring.
Qed.
Lemma sq_pm a b : a * a = b * b -> a = b \/ a = - b. Proof. intros H. assert ((a - b) * (a + b) = 0) by lra. destruct (Rmult_integral _ _ H0); [left|right]; lra. Qed.
Lemma same_rotation a b : unit_quat a -> unit_quat b -> (forall v, rotate a v = rotate b v) -> b = a \/ b = qneg a.
Proof.
  intros Ha Hb H. pose proof (H (V3 1 0 0)) as H1. pose proof (H (V3 0 1 0)) as H2. pose proof (H (V3 0 0 1)) as H3. clear H. unfold rotate in *.
  rewrite !rot_unit in H1, H2, H3 by assumption. unfold sandwich in *. destruct a as [w x y z], b as [w' x' y' z']. unf.
  injection H1 as A1 A2 A3. injection H2 as B1 B2 B3. injection H3 as C1 C2 C3.
  assert (Eww : w' * w' = w * w) by nra. assert (Exx : x' * x' = x * x) by nra. assert (Eyy : y' * y' = y * y) by nra. assert (Ezz : z' * z' = z * z) by nra.
  assert (Ewx : w' * x' = w * x) by nra. assert (Ewy : w' * y' = w * y) by nra. assert (Ewz : w' * z' = w * z) by nra.
  assert (Exy : x' * y' = x * y) by nra. assert (Exz : x' * z' = x * z) by nra. assert (Eyz : y' * z' = y * z) by nra.
  clear A1 A2 A3 B1 B2 B3 C1 C2 C3.
  assert (K : forall s, s * s = 1 -> w' = s * w -> x' = s * x -> y' = s * y -> z' = s * z -> Qt w' x' y' z' = Qt w x y z \/ Qt w' x' y' z' = Qt (- w) (- x) (- y) (- z)).
  { intros s Hs -> -> -> ->. destruct (sq_pm s 1) as [->| ->]; [lra|left|right]; f_equal; ring. }
  assert (S : forall c c', c <> 0 -> c' * c' = c * c -> exists s, s * s = 1 /\ c' = s * c /\ forall d d', c' * d' = c * d -> d' = s * d).
  { intros c c' Hc E. destruct (sq_pm _ _ E) as [->| ->].
    - exists 1. split; [ring|]. split; [ring|]. intros d d' E'. apply (Rmult_eq_reg_l c); [lra|exact Hc].
    - exists (-1). split; [ring|]. split; [ring|]. intros d d' E'. apply (Rmult_eq_reg_l c); [lra|exact Hc]. }
  destruct (Req_dec w 0) as [W|W].
  - destruct (Req_dec x 0) as [X|X].
    + destruct (Req_dec y 0) as [Y|Y].
      * assert (Z : z <> 0) by (intros ->; subst; lra). destruct (S z z' Z Ezz) as (s & Hs & Hz & Hd).
        apply (K s Hs); [apply Hd; lra|apply Hd; lra|apply Hd; lra|exact Hz].
      * destruct (S y y' Y Eyy) as (s & Hs & Hz & Hd). apply (K s Hs); [apply Hd; lra|apply Hd; lra|exact Hz|apply Hd; lra].
    + destruct (S x x' X Exx) as (s & Hs & Hz & Hd). apply (K s Hs); [apply Hd; lra|exact Hz|apply Hd; lra|apply Hd; lra].
  - destruct (S w w' W Eww) as (s & Hs & Hz & Hd). apply (K s Hs); [exact Hz|apply Hd; lra|apply Hd; lra|apply Hd; lra].
Qed.
Theorem C58_unique_canonical : forall a b, unit_quat a -> unit_quat b ->
  (unique a = unique b <-> forall v, rotate a v = rotate b v).
Proof.
  intros a b Ha Hb. split.
  - intros E v. destruct (C58_no_abort (Pose a (V3 0 0 0)) (Pose a (V3 0 0 0)) (unit_accepted _ Ha) (unit_accepted _ Ha)) as (_ & _ & r & Hr & _). cbn [prot] in Hr.
    rewrite <- (C58_unique_same a r (unit_accepted _ Ha) Hr). apply C58_unique_same; [apply unit_accepted; exact Hb|congruence].
  - intros H. assert (N : forall q, unit_quat q -> checked (qneg q) = Some (qneg q)) by (intros q Hq; apply unit_accepted; unfold unit_quat; rewrite qn2_neg; exact Hq).
    destruct (same_rotation a b Ha Hb H) as [->| ->]; [reflexivity|]. clear H. unfold unique. rewrite (N a Ha).
    assert (NN : qneg (qneg a) = a) by (vec; unf; f_equal; ring). rewrite NN, (unit_accepted a Ha : checked a = Some a). destruct a as [w x y z]. unf.
    destruct (Rlt_dec 0 w), (Rlt_dec w 0), (Rlt_dec 0 (- w)), (Rlt_dec (- w) 0); try lra; try reflexivity.
    destruct (Rlt_dec 0 x), (Rlt_dec x 0), (Rlt_dec 0 (- x)), (Rlt_dec (- x) 0); try lra; try reflexivity.
    destruct (Rlt_dec 0 y), (Rlt_dec y 0), (Rlt_dec 0 (- y)), (Rlt_dec (- y) 0); try lra; try reflexivity.
    destruct (Rlt_dec 0 z), (Rlt_dec 0 (- z)); try lra; try reflexivity.
    assert (w = 0) by lra. assert (x = 0) by lra. assert (y = 0) by lra. assert (z = 0) by lra. subst. lra.
Qed.
(** What PosedObject stores is consistent: the matrices are those of the pose and of its inverse. *)
Theorem C58_posed_object : forall x, unit_quat (prot x) -> exists o, set_pose x = Some o /\ forall p,
  transform (po_Tinv o) (transform (po_T o) p) = p /\ transform (po_T o) p = transform x p /\
  vadd (mmul (po_R o) p) (ppos x) = transform x p /\ mmul (po_Rinv o) (vsub p (ppos x)) = transform (po_Tinv o) p.
Proof.
  intros x Hx. destruct (C58_inverse x Hx) as (y & Hy & Uy & Hp). unfold set_pose. rewrite Hy. eexists. split; [reflexivity|]. intros p. cbn [po_T po_Tinv po_R po_Rinv].
  destruct (Hp p) as (A & B & C). split; [exact A|]. split; [reflexivity|]. split; [rewrite rot_mat; reflexivity|].
  rewrite rot_mat, <- C. unfold inverse_transform, inverse_rotate. rewrite unit_inv by exact Hx. unfold pose_inverse, rot_inverse in Hy.
  rewrite (unit_accepted _ (unit_conj _ Hx) : checked _ = _) in Hy. injection Hy as <-. reflexivity.
Qed.
(** ** Non-vacuity: a quarter turn around z and a shift *)
Definition ex_pose : pose := Pose (Qt (sqrt 2 / 2) 0 0 (sqrt 2 / 2)) (V3 1 2 3).
Example C58_ex : unit_quat (prot ex_pose) /\ accepted (prot ex_pose) /\ transform ex_pose (V3 1 0 0) = V3 1 3 3 /\
  exists c, pose_mul ex_pose ex_pose = Some c /\ transform c (V3 1 0 0) = V3 (-2) 3 6.
Proof.
  assert (S2 : sqrt 2 * sqrt 2 = 2) by (apply sqrt_sqrt; lra). assert (U : unit_quat (prot ex_pose)) by (unfold ex_pose; unf; nra).
  assert (T : forall v, transform ex_pose v = V3 (1 - vy v) (2 + vx v) (3 + vz v)) 
    by (intros [x y z]; unfold ex_pose; set (h := sqrt 2 / 2); assert (H2 : h * h = / 2) by (unfold h; lra); clearbody h;
        assert (h * h * x = / 2 * x) by (rewrite H2; ring); assert (h * h * y = / 2 * y) by (rewrite H2; ring); unf; f_equal; lra).
  split; [exact U|]. split; [apply unit_accepted; exact U|]. split; [rewrite T; cbn [vx vy vz]; f_equal; ring|].
  destruct (C58_compose ex_pose ex_pose U U) as (c & E & _ & H). exists c. split; [exact E|]. rewrite H, !T. cbn [vx vy vz]. f_equal; ring.
Qed.
(** The zero quaternion and quaternions whose length differs by more than 5e-5 are not accepted. *)
Example C58_ex_reject : checked (Qt 0 0 0 0) = None /\ checked (Qt 1.0001 0 0 0) = None.
Proof.
  split; unfold checked.
  - destruct (Rle_dec _ _); [|reflexivity]. destruct (Rle_dec _ _) as [H|]; [|reflexivity]. exfalso. unf. unfold norm_eps in H. lra.
  - destruct (Rle_dec _ _) as [H|]; [|reflexivity]. exfalso. unf. unfold norm_eps in H. lra.
Qed.
Print Assumptions C58_identity.
Print Assumptions C58_compose.
Print Assumptions C58_inverse.
Print Assumptions C58_rigid.
Print Assumptions C58_angle_axis.
Print Assumptions C58_is_rotation.
Print Assumptions C58_transform_all.
Print Assumptions C58_no_abort.
Print Assumptions C58_inverse_accuracy.
Print Assumptions C58_inverse_exact_refuted.
Print Assumptions C58_unique_same.
Print Assumptions C58_unique_canonical.
Print Assumptions C58_posed_object.
