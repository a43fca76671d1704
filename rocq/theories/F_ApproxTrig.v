(** Facts for C65: the error of the polynomial approximation of the arc tangent. *)
From Verif Require Import M_Intersector M_ApproxTrig.
From Coq Require Import Reals QArith Qreals Qround Lra Lia Psatz List ZArith.
Import ListNotations.
Close Scope Q_scope.
Open Scope R_scope.

(** ** Polynomials with rational coefficients, lowest degree first *)
Fixpoint peval (c : list Q) (t : R) : R := match c with [] => 0 | a :: c => Q2R a + t * peval c t end.
Fixpoint padd (a b : list Q) : list Q :=
  match a, b with [], _ => b | _, [] => a | x :: a', y :: b' => Qred (x + y) :: padd a' b' end.
Definition pscale (s : Q) (a : list Q) : list Q := map (fun x => Qred (s * x)) a.
Lemma Q2R_red q : Q2R (Qred q) = Q2R q.
Proof. apply Qeq_eqR. apply Qred_correct. Qed.
Lemma peval_add a : forall b t, peval (padd a b) t = peval a t + peval b t.
Proof.
  induction a as [|x a IH]; intros b t; cbn [padd peval]; [lra|]. destruct b as [|y b]; cbn [peval]; [lra|].
  rewrite IH, Q2R_red, Q2R_plus. ring.
Qed.
Lemma peval_scale s a t : peval (pscale s a) t = Q2R s * peval a t.
Proof. unfold pscale. induction a as [|x a IH]; cbn [map peval]; [ring|]. rewrite IH, Q2R_red, Q2R_mult. ring. Qed.
(** multiplication with u + v t *)
Definition pmul_lin (u v : Q) (p : list Q) : list Q := padd (pscale u p) (0%Q :: pscale v p).
Lemma peval_mul_lin u v p t : peval (pmul_lin u v p) t = (Q2R u + Q2R v * t) * peval p t.
Proof. unfold pmul_lin. rewrite peval_add. cbn [peval]. rewrite !peval_scale. replace (Q2R 0) with 0 by (unfold Q2R; cbn; lra). ring. Qed.
(** Taylor shift: p(m + s) as a polynomial in s *)
Fixpoint pshift (m : Q) (p : list Q) : list Q := match p with [] => [] | a :: p => padd [a] (pmul_lin m 1 (pshift m p)) end.
Lemma peval_shift m p s : peval (pshift m p) s = peval p (Q2R m + s).
Proof.
  induction p as [|a p IH]; cbn [pshift]; [reflexivity|]. rewrite peval_add, peval_mul_lin, IH. cbn [peval]. replace (Q2R 1) with 1 by (unfold Q2R; cbn; lra). ring.
Qed.
(** Bound on a disc around 0 *)
Fixpoint pbound (r : Q) (p : list Q) : Q := match p with [] => 0%Q | a :: p => Qred (Qabs.Qabs a + r * pbound r p) end.
Lemma Q2R_abs q : Q2R (Qabs.Qabs q) = Rabs (Q2R q).
Proof.
  destruct (Qlt_le_dec q 0) as [H|H].
  - assert (Q2R q <= 0). { apply Qlt_Rlt in H. replace (Q2R 0) with 0 in H by (unfold Q2R; cbn; lra). lra. }
    rewrite Rabs_left1 by assumption. rewrite <- Q2R_opp. apply Qeq_eqR. apply Qabs.Qabs_neg. apply Qlt_le_weak. assumption.
  - assert (0 <= Q2R q). { apply Qle_Rle in H. replace (Q2R 0) with 0 in H by (unfold Q2R; cbn; lra). lra. }
    rewrite Rabs_right by lra. apply Qeq_eqR. apply Qabs.Qabs_pos. assumption.
Qed.
Lemma pbound_spec r p s : Rabs s <= Q2R r -> Rabs (peval p s) <= Q2R (pbound r p).
Proof.
  intros H. induction p as [|a p IH]; cbn [peval pbound]; [rewrite Rabs_R0; unfold Q2R; cbn; lra|].
  rewrite Q2R_red, Q2R_plus, Q2R_mult, Q2R_abs. eapply Rle_trans; [apply Rabs_triang|]. apply Rplus_le_compat_l. rewrite Rabs_mult.
  apply Rmult_le_compat; try apply Rabs_pos; assumption.
Qed.
(** x * p(x^2) is bounded by [K] for x^2 in [a, b]: by bisection *)
Definition pcheck1 (K : Q) (p : list Q) (a b : Q) : bool :=
  let m := Qred ((a + b) / 2) in let r := Qred ((b - a) / 2) in let B := pbound r (pshift m p) in Qle_bool (b * (B * B)) (K * K).
Fixpoint pcheck (n : nat) (K : Q) (p : list Q) (a b : Q) : bool :=
  if pcheck1 K p a b then true
  else match n with O => false | S n => let m := Qred ((a + b) / 2) in pcheck n K p a m && pcheck n K p m b end.
Lemma sq_le_abs y K : 0 <= K -> y * y <= K * K -> Rabs y <= K.
Proof. intros HK H. destruct (Rcase_abs y) as [L|L]; [rewrite Rabs_left by exact L|rewrite Rabs_right by exact L]; nra. Qed.
Lemma pcheck1_spec K p a b x : (0 <= K)%Q -> pcheck1 K p a b = true -> 0 <= x -> Q2R a <= x * x <= Q2R b -> Rabs (x * peval p (x * x)) <= Q2R K.
Proof.
  intros HK H Hx Ht. unfold pcheck1 in H. set (m := Qred ((a + b) / 2)) in *. set (r := Qred ((b - a) / 2)) in *. apply Qle_bool_iff in H. apply Qle_Rle in H. rewrite !Q2R_mult in H.
  set (B := Q2R (pbound r (pshift m p))) in *. assert (Em : Q2R m = (Q2R a + Q2R b) / 2). { unfold m. rewrite Q2R_red, Q2R_div by discriminate. rewrite Q2R_plus. replace (Q2R 2) with 2 by (unfold Q2R; cbn; lra). reflexivity. }
  assert (Er : Q2R r = (Q2R b - Q2R a) / 2). { unfold r. rewrite Q2R_red, Q2R_div by discriminate. rewrite Q2R_minus. replace (Q2R 2) with 2 by (unfold Q2R; cbn; lra). reflexivity. }
  assert (P : Rabs (peval p (x * x)) <= B). { replace (x * x) with (Q2R m + (x * x - Q2R m)) by ring. rewrite <- peval_shift. apply pbound_spec. apply Rabs_le. lra. }
  apply Qle_Rle in HK. replace (Q2R 0) with 0 in HK by (unfold Q2R; cbn; lra). apply sq_le_abs; [exact HK|].
  eapply Rle_trans; [|exact H]. set (v := peval p (x * x)) in *. assert (v * v <= B * B). { rewrite <- (Rabs_pos_eq (v * v)) by nra. rewrite Rabs_mult. apply Rmult_le_compat; try apply Rabs_pos; exact P. }
  replace (x * v * (x * v)) with (x * x * (v * v)) by ring. apply Rmult_le_compat; nra.
Qed.
Lemma pcheck_spec n : forall K p a b x, (0 <= K)%Q -> pcheck n K p a b = true -> 0 <= x -> Q2R a <= x * x <= Q2R b -> Rabs (x * peval p (x * x)) <= Q2R K.
Proof.
  induction n as [|n IH]; intros K p a b x HK H Hx Ht; cbn [pcheck] in H; destruct (pcheck1 K p a b) eqn:E; try (apply (pcheck1_spec K p a b); assumption); [discriminate|].
  apply andb_prop in H as [H1 H2]. set (m := Qred ((a + b) / 2)) in *. destruct (Rle_dec (x * x) (Q2R m)) as [L|L].
  - apply (IH K p a m); try assumption. lra.
  - apply (IH K p m b); try assumption. lra.
Qed.

(** ** A polynomial near 1 / (1 + t) *)
Fixpoint inv_poly (n : nat) : list Q := match n with O => [] | S n => padd [(2 # 3)%Q] (pmul_lin (1 # 3) (-2 # 3) (inv_poly n)) end.
Lemma Q2R_third : Q2R (1 # 3) = / 3 /\ Q2R (-2 # 3) = - (2 / 3) /\ Q2R (2 # 3) = 2 / 3.
Proof. unfold Q2R. cbn. lra. Qed.
Lemma inv_poly_spec n t : (1 + t) * peval (inv_poly n) t = 1 - ((1 - 2 * t) / 3) ^ n.
Proof.
  destruct Q2R_third as (E1 & E2 & E3). induction n as [|n IH]; cbn [inv_poly pow]; [cbn [peval]; ring|]. rewrite peval_add, peval_mul_lin. cbn [peval]. rewrite E1, E2, E3.
  replace (_ * _) with (2 / 3 * (1 + t) + ((1 - 2 * t) / 3) * ((1 + t) * peval (inv_poly n) t)) by field. rewrite IH. field.
Qed.
Lemma inv_poly_error n t : 0 <= t <= 1 -> Rabs (/ (1 + t) - peval (inv_poly n) t) <= (/ 3) ^ n.
Proof.
  intros H. pose proof (inv_poly_spec n t) as E. replace (/ (1 + t) - peval (inv_poly n) t) with (((1 - 2 * t) / 3) ^ n * / (1 + t)) by (apply (Rmult_eq_reg_l (1 + t)); [|lra]; rewrite Rmult_minus_distr_l, E; field; lra).
  rewrite Rabs_mult, <- RPow_abs. assert (A : Rabs ((1 - 2 * t) / 3) <= / 3) by (apply Rabs_le; lra).
  assert (I : Rabs (/ (1 + t)) <= 1). { rewrite Rabs_right; [|apply Rle_ge, Rlt_le, Rinv_0_lt_compat; lra]. rewrite <- Rinv_1. apply Rinv_le_contravar; lra. }
  rewrite <- (Rmult_1_r ((/ 3) ^ n)). apply Rmult_le_compat; try apply Rabs_pos; try assumption; [apply pow_le, Rabs_pos|]. apply pow_incr. split; [apply Rabs_pos|exact A].
Qed.
(** ** Its integral, x times a polynomial in x^2 *)
Fixpoint pint (k : Z) (p : list Q) : list Q := match p with [] => [] | a :: p => Qred (a / inject_Z (2 * k + 1)) :: pint (k + 1) p end.
Fixpoint oddsum (k : nat) (p : list Q) (x : R) : R := match p with [] => 0 | a :: p => Q2R a / INR (2 * k + 1) * x ^ (2 * k + 1) + oddsum (S k) p x end.
Lemma oddsum_deriv p : forall k x, derivable_pt_lim (oddsum k p) x (x ^ (2 * k) * peval p (x * x)).
Proof.
  induction p as [|a p IH]; intros k x; cbn [oddsum peval].
  - rewrite Rmult_0_r. apply derivable_pt_lim_const.
  - replace (x ^ (2 * k) * (Q2R a + x * x * peval p (x * x))) with (Q2R a / INR (2 * k + 1) * (INR (2 * k + 1) * x ^ pred (2 * k + 1)) + x ^ (2 * S k) * peval p (x * x)).
    + apply (derivable_pt_lim_plus (fun x => Q2R a / INR (2 * k + 1) * x ^ (2 * k + 1)) (oddsum (S k) p)); [|apply IH].
      apply (derivable_pt_lim_scal (fun x => x ^ (2 * k + 1))). apply derivable_pt_lim_pow.
    + replace (pred (2 * k + 1)) with (2 * k)%nat by lia. replace (2 * S k)%nat with (S (S (2 * k))) by lia. cbn [pow]. field. apply not_0_INR. lia.
Qed.
Lemma oddsum_int p : forall k x, oddsum k p x = x ^ (2 * k + 1) * peval (pint (Z.of_nat k) p) (x * x).
Proof.
  induction p as [|a p IH]; intros k x; cbn [oddsum pint peval]; [ring|]. rewrite IH. replace (Z.of_nat (S k)) with (Z.of_nat k + 1)%Z by lia.
  assert (E : Q2R (Qred (a / inject_Z (2 * Z.of_nat k + 1))) = Q2R a / INR (2 * k + 1)).
  { rewrite Q2R_red, Q2R_div; [|intros X; unfold Qeq, inject_Z in X; cbn [Qnum Qden] in X; lia]. f_equal. rewrite INR_IZR_INZ. replace (Z.of_nat (2 * k + 1)) with (2 * Z.of_nat k + 1)%Z by lia. unfold Q2R, inject_Z. cbn [Qnum Qden]. lra. }
  rewrite E. replace (2 * S k + 1)%nat with (S (S (2 * k + 1))) by lia. cbn [pow]. field. apply not_0_INR. lia.
Qed.
Lemma oddsum_atan n x : 0 <= x <= 1 -> Rabs (oddsum 0 (inv_poly n) x - atan x) <= (/ 3) ^ n.
Proof.
  intros Hx. set (D := fun x => oddsum 0 (inv_poly n) x - atan x). assert (DD : forall y, derivable_pt_lim D y (peval (inv_poly n) (y * y) - / (1 + y ^ 2))).
  { intros y. apply (derivable_pt_lim_minus (oddsum 0 (inv_poly n)) atan); [|apply derivable_pt_lim_atan]. pose proof (oddsum_deriv (inv_poly n) 0 y) as H. cbn [Nat.mul pow] in H. rewrite Rmult_1_l in H. exact H. }
  assert (P0 : 0 <= (/ 3) ^ n) by (apply pow_le; lra).
  assert (D0 : D 0 = 0). { unfold D. rewrite oddsum_int, atan_0. cbn [Nat.mul Nat.add pow]. ring. }
  change (Rabs (D x) <= (/ 3) ^ n). destruct (Req_dec x 0) as [->|N]; [rewrite D0, Rabs_R0; exact P0|].
  destruct (MVT_cor2 D (fun y => peval (inv_poly n) (y * y) - / (1 + y ^ 2)) 0 x ltac:(lra)) as (c & E & Hc); [intros; apply DD|].
  rewrite D0, !Rminus_0_r in E. rewrite E, Rabs_mult, <- Rabs_Ropp. replace (- (peval (inv_poly n) (c * c) - / (1 + c ^ 2))) with (/ (1 + c * c) - peval (inv_poly n) (c * c)) by (replace (c ^ 2) with (c * c) by ring; ring).
  rewrite <- (Rmult_1_r ((/ 3) ^ n)). apply Rmult_le_compat; try apply Rabs_pos; [apply inv_poly_error; nra|]. rewrite Rabs_right; lra.
Qed.

(** ** The polynomial of the code *)
Definition code_poly : list Q := [8388417 # 8388608; - (348781 # 1048576); 6494241 # 33554432; - (15627355 # 134217728); 7067009 # 134217728; - (12585543 # 1073741824)]%Q.
Lemma code_poly_spec x : Rapprox_atan x = x * peval code_poly (x * x).
Proof. unfold Rapprox_atan, code_poly. cbn [peval]. ring. Qed.
Definition err_poly : list Q := Eval vm_compute in padd code_poly (pscale (-1) (pint 0 (inv_poly 16))).
Lemma err_poly_eq : err_poly = padd code_poly (pscale (-1) (pint 0 (inv_poly 16))).
Proof. vm_compute. reflexivity. Qed.
Lemma err_check : pcheck 20 (177 # 100000000) err_poly 0 1 = true.
Proof. vm_compute. reflexivity. Qed.
Lemma pow3_16 : (/ 3) ^ 16 <= 25 / 1000000000.
Proof. rewrite pow_inv. apply Rle_trans with (/ 40000000); [|lra]. apply Rinv_le_contravar; [lra|]. cbn [pow]. lra. Qed.
Lemma approx_atan_pos x : 0 <= x <= 1 -> Rabs (Rapprox_atan x - atan x) <= 1795 / 1000000000.
Proof.
  intros Hx. rewrite code_poly_spec. pose proof (oddsum_atan 16 x Hx) as A. rewrite oddsum_int in A. cbn [Nat.mul Nat.add] in A. rewrite pow_1 in A. change (Z.of_nat 0) with 0%Z in A.
  assert (B : Rabs (x * peval err_poly (x * x)) <= Q2R (177 # 100000000)).
  { apply (pcheck_spec 20 _ _ 0 1); [discriminate|exact err_check|lra|]. unfold Q2R. cbn. nra. }
  rewrite err_poly_eq, peval_add, peval_scale in B. replace (Q2R (-1)) with (-1) in B by (unfold Q2R; cbn; lra). pose proof pow3_16.
  set (p := peval code_poly (x * x)) in *. set (q := peval (pint 0 (inv_poly 16)) (x * x)) in *. clearbody p q.
  replace (x * p - atan x) with (x * (p + -1 * q) + (x * q - atan x)) by ring. eapply Rle_trans; [apply Rabs_triang|].
  replace (Q2R (177 # 100000000)) with (177 / 100000000) in B by (unfold Q2R; cbn; lra). lra.
Qed.
