(** Property theorems C62: what the fixed resolution integrator does to every cell. *)
From Verif Require Import M_VolOctree P_VolOctree S_Field.
From Verif Require Import M_HashedBlocks P_HashedBlocks M_Chunked M_ChunkedHist P_Chunked.
From Verif Require Import Base M_IntMath M_NdtreeIndex M_Num M_Ndtree M_Point M_Grid P_Grid P_Point M_Wavelet M_WavHist F_Num F_Hash P_Wavelet.
From Verif Require P_Measure.
From Verif Require Import M_RayTrace M_Image M_RangeBounds M_Measure M_Intersector M_FixedRes.
From Coq Require Import QArith Qabs Qround Qminmax Qcanon Qcabs Lqa.
Close Scope Qc_scope.
Close Scope Q_scope.
Open Scope Z_scope.

(** ** Specification *)
Definition axes : list (v3 -> Q) := [vx; vy; vz].
(** The centre of a cell *)
Definition centre (w : Q) (c : idx3) : v3 := V3 (w * inject_Z (px c) + w / 2) (w * inject_Z (py c) + w / 2) (w * inject_Z (pz c) + w / 2).
(** The cells near the bounding box of a set of points: on every axis, the centre is less than [pad] plus one cell beyond the outermost points. *)
Definition reached (w pad : Q) (S : v3 -> Prop) (c : idx3) : Prop := forall f, In f axes ->
  (exists p, S p /\ (f p - pad - w < f (centre w c))%Q) /\ (exists p, S p /\ (f (centre w c) < f p + pad + w)%Q).
(** The points that span the bounding box of a cloud: the sensor, and every usable point, moved to max_range if it is further away.
    A point is usable if it is finite, between 1e-3 and 1e3 m away, and its nearest pixel is in the image. *)
Definition usable (rnd : Q -> Z) (sens : v3 -> sensor) (prj : projector) (rows cols : Z) (p : v3) : Prop :=
  ((8589935 # 8589934592) * (8589935 # 8589934592) <= vx p * vx p + vy p * vy p + vz p * vz p)%Q /\ (vx p * vx p + vy p * vy p + vz p * vz p <= 1000000)%Q /\
  let i := imageToNearestIndex rnd prj (fst (sens p)) in 0 <= fst i < rows /\ 0 <= snd i < cols.
Definition clipped (max d : Q) (p q : v3) : Prop := ((d <= max)%Q /\ q = p) \/ ((max < d)%Q /\ forall f, In f axes -> (f q == max / d * f p)%Q).
Definition world (T : pose3) (p q : v3) : Prop :=
  let R := po_R T in
  (vx q == vx (col0 R) * vx p + vx (col1 R) * vy p + vx (col2 R) * vz p + vx (po_t T) /\
   vy q == vy (col0 R) * vx p + vy (col1 R) * vy p + vy (col2 R) * vz p + vy (po_t T) /\
   vz q == vz (col0 R) * vx p + vz (col1 R) * vy p + vz (col2 R) * vz p + vz (po_t T))%Q.
Definition cloud_points rnd sens prj rows cols (max : Q) (T : pose3) (cloud : list (option v3)) (q : v3) : Prop :=
  q = po_t T \/ exists p e, In (Some p) cloud /\ usable rnd sens prj rows cols p /\ clipped max (snd (sens p)) p e /\ world T e q.
(** For a range image: the sensor and the corners of the image (pixel indices 0 and width, 0 and height) at max_range *)
Definition image_points (to_cart : v2 -> Q -> v3) prj rows cols (max : Q) (T : pose3) (q : v3) : Prop :=
  q = po_t T \/ exists i j, (i = 0 \/ i = rows) /\ (j = 0 \/ j = cols) /\ world T (to_cart (indexToImage prj (i, j)) max) q.
(** Numbers a float can represent are at most FLT_MAX. *)
Definition finite_floats (S : v3 -> Prop) : Prop := forall p f, S p -> In f axes -> (Qabs (f p) <= inject_Z (2 ^ 128 - 2 ^ 104))%Q.
(** The update that the scan assigns to a cell: that of the measurement model at the cell's centre in the sensor frame ([sampled], C62_sample_point), if the depth of the centre is between min_range and max_range *)
Definition sampled (T : pose3) (w : Q) (c : idx3) : v3 :=
  let R := po_R T in let t := po_t T in
  let dx := ((inject_Z (px c) + (1 # 2)) * w - vx t)%Q in let dy := ((inject_Z (py c) + (1 # 2)) * w - vy t)%Q in let dz := ((inject_Z (pz c) + (1 # 2)) * w - vz t)%Q in
  V3 (dx * vx (col0 R) + dy * vy (col0 R) + dz * vz (col0 R)) (dx * vx (col1 R) + dy * vy (col1 R) + dz * vz (col1 R)) (dx * vx (col2 R) + dy * vy (col2 R) + dz * vz (col2 R)).
Definition assigned (min max : Q) (sens : v3 -> sensor) (model : v2 -> Q -> Q) (T : pose3) (w : Q) (c : idx3) (u : Qc) : Prop :=
  let s := sens (sampled T w c) in
  ((min <= snd s /\ snd s <= max)%Q -> u = Q2Qc (model (fst s) (snd s))) /\ (~ (min <= snd s /\ snd s <= max)%Q -> u = 0%Qc).
(** The values of all cells before and after: a reached cell gets the update assigned to it once, unless the update is at most 1e-6; no other cell changes. *)
Definition updates (dom : idx3 -> Prop) (step : Qc -> Qc -> Qc) (near : idx3 -> Prop) (asg : idx3 -> Qc -> Prop) (before after : idx3 -> Qc) : Prop :=
  forall c, dom c -> (~ near c -> after c = before c) /\
    (near c -> forall u, asg c u -> ((keps < Qcabs u)%Qc -> after c = step (before c) u) /\ (~ (keps < Qcabs u)%Qc -> after c = before c)).
Definition everywhere : idx3 -> Prop := fun _ => True.
(** The range image of a cloud (C43) *)
Definition cloud_image rnd (sens : v3 -> sensor) prj rows cols (min : Q) (cloud : list (option v3)) : images :=
  importPointcloud point_valid (fun q => match q with Some p => sens p | None => ((0, 0), 0)%Q end) rnd prj rows cols min cloud.
(** The effect of integrating a cloud, and a range image, into a map of the kind [add], [get], from the states [ok], for all projection and measurement models
    and all poses. The map must contain the cells near the bounding box ([dom]). *)
Definition scan_effect {M} (dom : idx3 -> Prop) (add : M -> idx3 -> Qc -> M) (get : M -> idx3 -> Qc) (ok : M -> Prop) (step : Qc -> Qc -> Qc) : Prop :=
  forall rnd sens to_cart prj rows cols min max sin_angle back model w T m, (0 < w)%Q -> (0 <= back)%Q -> ok m ->
  let pad := Qmax (sin_angle * max) back in
  (forall cloud, let S := cloud_points rnd sens prj rows cols max T cloud in finite_floats S -> (forall c, reached w pad S c -> dom c) ->
     exists n m', (forall fuel, (n <= fuel)%nat -> fr_integrate_cloud rnd sens prj rows cols min max sin_angle back model add keps fuel w m T cloud = Some m') /\ ok m' /\
       updates dom step (reached w pad S) (assigned min max sens (model (cloud_image rnd sens prj rows cols min cloud)) T w) (get m) (get m')) /\
  (forall image, let S := image_points to_cart prj rows cols max T in finite_floats S -> (forall c, reached w pad S c -> dom c) ->
     exists n m', (forall fuel, (n <= fuel)%nat -> fr_integrate_image sens to_cart prj rows cols min max sin_angle back model add keps fuel w m T image = Some m') /\ ok m' /\
       updates dom step (reached w pad S) (assigned min max sens (model (fun i => (image i, (0, 0)%Q))) T w) (get m) (get m')).

(** ** Proofs *)
Lemma qlt_iff a b : M_Image.qltb a b = true <-> (a < b)%Q.
Proof. unfold M_Image.qltb. rewrite negb_true_iff. split; intros H. - apply Qnot_le_lt. intros C. apply Qle_bool_iff in C. congruence. - apply not_true_iff_false. intros C. apply Qle_bool_iff in C. lra. Qed.
Lemma qlt_false a b : M_Image.qltb a b = false <-> (b <= a)%Q.
Proof. unfold M_Image.qltb. rewrite negb_false_iff. apply Qle_bool_iff. Qed.

(** A map whose [add] acts on one cell *)
Section ANY.
  Context {M : Type} (dom : idx3 -> Prop) (add : M -> idx3 -> Qc -> M) (get : M -> idx3 -> Qc) (ok : M -> Prop) (step : Qc -> Qc -> Qc).
  Context (Hok : forall m i u, dom i -> ok m -> ok (add m i u)).
  Context (Hadd : forall m i u c, dom i -> dom c -> ok m -> get (add m i u) c = if idx3_eq_dec c i then step (get m c) u else get m c).
  Context (upd : idx3 -> Qc).
  Definition put (m : M) (i : idx3) : M := if M_Num.qltb keps (Qcabs (upd i)) then add m i (upd i) else m.
  Lemma puts l : forall m, Forall dom l -> NoDup l -> ok m -> let m' := fold_left put l m in
    ok m' /\ forall c, dom c -> (~ In c l -> get m' c = get m c) /\
      (In c l -> ((keps < Qcabs (upd c))%Qc -> get m' c = step (get m c) (upd c)) /\ (~ (keps < Qcabs (upd c))%Qc -> get m' c = get m c)).
  Proof using Hok Hadd.
    induction l as [|i l IH]; intros m Hd Hn Hm; cbv zeta; cbn [fold_left].
    - split; [exact Hm|]. intros c Hc. split; [reflexivity|intros []].
    - inversion Hd as [|? ? Hi Hd']; subst. inversion Hn as [|? ? Ni Hn']; subst.
      assert (Hm1 : ok (put m i)) by (unfold put; destruct (M_Num.qltb _ _); [apply Hok|]; assumption).
      destruct (IH (put m i) Hd' Hn' Hm1) as [A B]. split; [exact A|]. intros c Hc. destruct (B c Hc) as [B1 B2].
      assert (P : c <> i -> get (put m i) c = get m c).
      { intros N. unfold put. destruct (M_Num.qltb _ _); [|reflexivity]. rewrite Hadd by assumption. destruct (idx3_eq_dec c i); [contradiction|reflexivity]. }
      split.
      + intros N. cbn [In] in N. rewrite B1 by tauto. apply P. intros E. apply N. left. congruence.
      + intros [<-|HI].
        * rewrite (B1 Ni). unfold put. destruct (M_Num.qltb keps (Qcabs (upd i))) eqn:E.
          -- apply qltb_iff in E. split; [|intros N; contradiction]. intros _. rewrite Hadd by assumption. destruct (idx3_eq_dec i i); [reflexivity|congruence].
          -- apply qltb_false in E. split; [intros C; exfalso; apply (Qcle_not_lt _ _ E C)|reflexivity].
        * assert (c <> i) by (intros ->; contradiction). rewrite <- !P by assumption. apply B2. exact HI.
  Qed.
End ANY.

Lemma mul_lt a b w : (0 < w)%Q -> (a < b)%Q -> (a * w < b * w)%Q. Proof. intros. apply Qmult_lt_compat_r; assumption. Qed.
Lemma mul_le a b w : (0 < w)%Q -> (a <= b)%Q -> (a * w <= b * w)%Q. Proof. intros. apply Qmult_le_compat_r; lra. Qed.
Lemma floor_idx w x c : (0 < w)%Q -> Qfloor (x * (1 / w) - (1 # 2))%Q <= c <-> (x - w < w * inject_Z c + w / 2)%Q.
Proof.
  intros Hw. assert (E : (x * (1 / w) * w == x)%Q) by (field; lra). assert (E2 : (w / 2 == (1 # 2) * w)%Q) by field. rewrite E2.
  set (y := (x * (1 / w))%Q) in *. pose proof (Qlt_floor (y - (1 # 2))) as L. pose proof (Qfloor_le (y - (1 # 2))) as G. split; intros H.
  - rewrite Zle_Qle in H. rewrite inject_Z_plus in L. change (inject_Z 1) with 1%Q in L. assert (K : (y < inject_Z c + (3 # 2))%Q) by lra. apply (mul_lt _ _ w Hw) in K. lra.
  - assert (K : (y - (1 # 2) < inject_Z (c + 1))%Q). { rewrite inject_Z_plus. change (inject_Z 1) with 1%Q. destruct (Qlt_le_dec (y - (1 # 2)) (inject_Z c + 1)) as [A|A]; [exact A|]. exfalso. apply (mul_le _ _ w Hw) in A. lra. }
    assert (H0 : (inject_Z (Qfloor (y - (1 # 2))) < inject_Z (c + 1))%Q) by lra. rewrite <- Zlt_Qlt in H0. lia.
Qed.
Lemma ceil_idx w x c : (0 < w)%Q -> c <= Qceiling (x * (1 / w) - (1 # 2))%Q <-> (w * inject_Z c + w / 2 < x + w)%Q.
Proof.
  intros Hw. assert (E : (x * (1 / w) * w == x)%Q) by (field; lra). assert (E2 : (w / 2 == (1 # 2) * w)%Q) by field. rewrite E2.
  set (y := (x * (1 / w))%Q) in *. pose proof (Qceiling_lt (y - (1 # 2))) as L. pose proof (Qle_ceiling (y - (1 # 2))) as G. split; intros H.
  - rewrite Zle_Qle in H. assert (X : (inject_Z (Qceiling (y - (1 # 2)) - 1) == inject_Z (Qceiling (y - (1 # 2))) - 1)%Q) by (unfold Zminus; rewrite inject_Z_plus; reflexivity). rewrite X in L.
    assert (K : (inject_Z c - 1 < y - (1 # 2))%Q) by lra. apply (mul_lt _ _ w Hw) in K. lra.
  - assert (K : (inject_Z (c - 1) < y - (1 # 2))%Q). { unfold Zminus. rewrite inject_Z_plus. change (inject_Z (- (1))) with (- (1))%Q. destruct (Qlt_le_dec (inject_Z c + - (1)) (y - (1 # 2))) as [A|A]; [exact A|]. exfalso. apply (mul_le _ _ w Hw) in A. lra. }
    assert (H0 : (inject_Z (c - 1) < inject_Z (Qceiling (y - (1 # 2))))%Q) by lra. rewrite <- Zlt_Qlt in H0. lia.
Qed.

(** The bounding box of the included points *)
Lemma qmin_le a b : (qmin a b <= a)%Q /\ (qmin a b <= b)%Q /\ (qmin a b = a \/ qmin a b = b).
Proof. unfold qmin. destruct (M_Image.qltb b a) eqn:E; [apply qlt_iff in E|apply qlt_false in E]; repeat split; auto; lra. Qed.
Lemma qmax_le a b : (a <= qmax a b)%Q /\ (b <= qmax a b)%Q /\ (qmax a b = a \/ qmax a b = b).
Proof. unfold qmax. destruct (M_Image.qltb a b) eqn:E; [apply qlt_iff in E|apply qlt_false in E]; repeat split; auto; lra. Qed.
Lemma axes_case (P : (v3 -> Q) -> Prop) : P vx -> P vy -> P vz -> forall f, In f axes -> P f.
Proof. intros A B C f [<-|[<-|[<-|[]]]]; assumption. Qed.
(** [b] bounds [S] tightly: every point of [S] is inside, and each side touches a point of [S] up to the initial value *)
Definition tight (S : v3 -> Prop) (b : box) : Prop := forall f, In f axes ->
  (forall p, S p -> (f (bmin b) <= f p /\ f p <= f (bmax b))%Q) /\ (exists p, S p /\ (f (bmin b) == f p)%Q) /\ (exists p, S p /\ (f (bmax b) == f p)%Q).
Lemma tight_first p : (forall f, In f axes -> (Qabs (f p) <= inject_Z (2 ^ 128 - 2 ^ 104))%Q) -> tight (eq p) (box_include box_empty p).
Proof.
  intros H. unfold tight. apply axes_case; cbn [bmin bmax box_include box_empty vx vy vz].
  1: specialize (H vx ltac:(cbn; auto)). 2: specialize (H vy ltac:(cbn; auto)). 3: specialize (H vz ltac:(cbn; auto)).
  all: apply Qabs_Qle_condition in H; fold kInitialMin in H; unfold kInitialMax;
    match goal with |- context[qmin kInitialMin ?x] => destruct (qmin_le kInitialMin x) as (A1 & A2 & A3); destruct (qmax_le (- kInitialMin) x) as (B1 & B2 & B3) end;
    split; [intros q <-; split; assumption|];
    split; exists p; (split; [reflexivity|]); [destruct A3 as [A3|A3]; rewrite A3 in *|destruct B3 as [B3|B3]; rewrite B3 in *]; lra.
Qed.
Lemma tight_include S b p : tight S b -> tight (fun q => S q \/ q = p) (box_include b p).
Proof.
  intros H. unfold tight. apply axes_case; cbn [bmin bmax box_include vx vy vz].
  1: destruct (H vx ltac:(cbn; auto)) as (I & (l & Sl & El) & (h & Sh & Eh)). 2: destruct (H vy ltac:(cbn; auto)) as (I & (l & Sl & El) & (h & Sh & Eh)). 3: destruct (H vz ltac:(cbn; auto)) as (I & (l & Sl & El) & (h & Sh & Eh)).
  all: match goal with |- context[qmin ?a ?x] => destruct (qmin_le a x) as (A1 & A2 & A3) end;
    match goal with |- context[qmax ?a ?x] => destruct (qmax_le a x) as (B1 & B2 & B3) end;
    split; [intros q [Hq| ->]; [destruct (I q Hq); split; lra|split; assumption]|];
    split; [destruct A3 as [->| ->]; [exists l|exists p]|destruct B3 as [->| ->]; [exists h|exists p]]; (split; [auto|]); solve [assumption|reflexivity].
Qed.
Lemma tight_ext (S S' : v3 -> Prop) b : tight S b -> (forall p, S p -> exists q, S' q /\ forall f, In f axes -> (f p == f q)%Q) ->
  (forall p, S' p -> exists q, S q /\ forall f, In f axes -> (f p == f q)%Q) -> tight S' b.
Proof.
  intros H E1 E2 f Hf. destruct (H f Hf) as (I & (l & Sl & El) & (h & Sh & Eh)). split; [|split].
  - intros p Hp. destruct (E2 p Hp) as (q & Hq & Eq). rewrite (Eq f Hf). apply I. exact Hq.
  - destruct (E1 l Sl) as (q & Hq & Eq). exists q. split; [exact Hq|]. rewrite El. apply Eq. exact Hf.
  - destruct (E1 h Sh) as (q & Hq & Eq). exists q. split; [exact Hq|]. rewrite Eh. apply Eq. exact Hf.
Qed.
Definition grid_min (w : Q) (b : box) := pointToFloorIndex (v3list (bmin b)) (1 / w).
Definition grid_max (w : Q) (b : box) := pointToCeilIndex (v3list (bmax b)) (1 / w).
Lemma box_reached w pad S b c : (0 < w)%Q -> tight S b ->
  (reached w pad S c <-> in_box_list (grid_min w (box_pad b pad)) (grid_max w (box_pad b pad)) [px c; py c; pz c]).
Proof.
  intros Hw HT. unfold grid_min, grid_max, pointToFloorIndex, pointToCeilIndex, scaledPointToFloorIndex, scaledPointToCeilIndex, scale_point, v3list.
  cbn [map in_box_list bmin bmax box_pad v3sub v3add vx vy vz]. rewrite !floor_idx, !ceil_idx by exact Hw. split.
  - intros H.
    assert (G : forall f, In f axes -> (f (bmin b) - pad - w < f (centre w c) /\ f (centre w c) < f (bmax b) + pad + w)%Q).
    { intros f Hf. destruct (H f Hf) as [(p & Sp & Lp) (q & Sq & Lq)]. destruct (HT f Hf) as (I & _ & _). destruct (I p Sp), (I q Sq). split; lra. }
    pose proof (G vx ltac:(cbn; auto)) as Gx. pose proof (G vy ltac:(cbn; auto)) as Gy. pose proof (G vz ltac:(cbn; auto)) as Gz. cbn [vx vy vz centre] in *.
    repeat split; lra.
  - intros ((A1 & A2) & (B1 & B2) & (C1 & C2) & _). unfold reached. apply axes_case; cbn [vx vy vz centre].
    + destruct (HT vx ltac:(cbn; auto)) as (_ & (l & Sl & El) & (h & Sh & Eh)). split; [exists l|exists h]; split; try assumption; lra.
    + destruct (HT vy ltac:(cbn; auto)) as (_ & (l & Sl & El) & (h & Sh & Eh)). split; [exists l|exists h]; split; try assumption; lra.
    + destruct (HT vz ltac:(cbn; auto)) as (_ & (l & Sl & El) & (h & Sh & Eh)). split; [exists l|exists h]; split; try assumption; lra.
Qed.
Lemma box_nonempty w pad S b : (0 < w)%Q -> (0 <= pad)%Q -> tight S b -> nonempty_box (grid_min w (box_pad b pad)) (grid_max w (box_pad b pad)).
Proof.
  intros Hw Hp HT. unfold grid_min, grid_max, pointToFloorIndex, pointToCeilIndex, scaledPointToFloorIndex, scaledPointToCeilIndex, scale_point, v3list.
  cbn [map nonempty_box bmin bmax box_pad v3sub v3add vx vy vz].
  assert (G : forall a b, (a <= b)%Q -> Qfloor ((a - pad) * (1 / w) - (1 # 2))%Q <= Qceiling ((b + pad) * (1 / w) - (1 # 2))%Q).
  { intros x y L. apply Z.le_trans with (Qfloor ((y + pad) * (1 / w) - (1 # 2))%Q).
    - apply Qfloor_resp_le. assert (0 < 1 / w)%Q by (apply Qlt_shift_div_l; lra). set (k := (1 / w)%Q) in *. nra.
    - rewrite Zle_Qle. eapply Qle_trans; [apply Qfloor_le|apply Qle_ceiling]. }
  assert (B : forall f, In f axes -> (f (bmin b) <= f (bmax b))%Q).
  { intros f Hf. destruct (HT f Hf) as (I & (l & Sl & El) & _). destruct (I l Sl). lra. }
  pose proof (B vx ltac:(cbn; auto)). pose proof (B vy ltac:(cbn; auto)). pose proof (B vz ltac:(cbn; auto)).
  repeat split; apply G; assumption.
Qed.

Section UPDATE.
  Context {M : Type} (dom : idx3 -> Prop) (add : M -> idx3 -> Qc -> M) (get : M -> idx3 -> Qc) (ok : M -> Prop) (step : Qc -> Qc -> Qc).
  Context (Hok : forall m i u, dom i -> ok m -> ok (add m i u)).
  Context (Hadd : forall m i u c, dom i -> dom c -> ok m -> get (add m i u) c = if idx3_eq_dec c i then step (get m c) u else get m c).
  Context (sens : v3 -> sensor) (min max : Q) (model : images -> v2 -> Q -> Q).
  Lemma assigned_update T w im c u : assigned min max sens (model im) T w c u <-> u = fr_update sens min max model T w im c.
  Proof.
    unfold assigned, fr_update, computeUpdate. change (to_sensor T (cell_center w c)) with (sampled T w c). set (s := sens _). destruct (M_Image.qltb (snd s) min) eqn:E1; [apply qlt_iff in E1|apply qlt_false in E1].
    - cbn [orb]. split; [intros [_ H]; apply H; lra|intros ->; split; [lra|reflexivity]].
    - cbn [orb]. destruct (M_Image.qltb max (snd s)) eqn:E2; [apply qlt_iff in E2|apply qlt_false in E2].
      + split; [intros [_ H]; apply H; lra|intros ->; split; [lra|reflexivity]].
      + split; [intros [H _]; apply H; split; assumption|intros ->; split; [reflexivity|intros N; exfalso; apply N; split; assumption]].
  Qed.
  Lemma update_effect T w im pad S b m : (0 < w)%Q -> (0 <= pad)%Q -> tight S b -> ok m -> (forall c, reached w pad S c -> dom c) ->
    exists n m', (forall fuel, (n <= fuel)%nat -> fr_updateMap sens min max model add keps fuel T w m (im, box_pad b pad) = Some m') /\ ok m' /\
      updates dom step (reached w pad S) (assigned min max sens (model im) T w) (get m) (get m').
  Proof using Hok Hadd.
    intros Hw Hp HT Hm Hd. remember (grid_min w (box_pad b pad)) as mn eqn:Emn. remember (grid_max w (box_pad b pad)) as mx eqn:Emx.
    pose proof (box_nonempty w pad S b Hw Hp HT) as NE. rewrite <- Emn, <- Emx in NE.
    set (n := Z.to_nat (num_cells mn mx)).
    assert (G : forall fuel, (n <= fuel)%nat -> grid_visit fuel mn mx = Some (P_Grid.box mn mx)).
    { intros fuel Hf. assert (mn <> []) by (rewrite Emn; discriminate). apply loop_walk; [apply walk_box; assumption|apply end_not_in; assumption|]. pose proof (box_length mn mx NE). lia. }
    assert (IB : forall i, In i (P_Grid.box mn mx) <-> in_box_list mn mx i) by (intros i; apply box_in; exact NE).
    assert (L3 : forall i, in_box_list mn mx i -> exists c, i = [px c; py c; pz c] /\ of_list i = c).
    { intros i Hi. rewrite Emn, Emx in Hi. unfold grid_min, grid_max, pointToFloorIndex, pointToCeilIndex, scaledPointToFloorIndex, scaledPointToCeilIndex, scale_point, v3list in Hi. cbn [map in_box_list] in Hi. destruct i as [|x [|y [|z [|t i]]]]; try tauto. exists (I3 x y z). split; reflexivity. }
    set (l := map of_list (P_Grid.box mn mx)).
    assert (ND : NoDup l).
    { assert (ND : forall r, NoDup r -> (forall i, In i r -> in_box_list mn mx i) -> NoDup (map of_list r)).
      { induction r as [|i r IH]; intros N AL; cbn [map]; constructor; inversion N; subst.
        - intros C. apply in_map_iff in C as (j & Ej & Hj). destruct (L3 i (AL i (or_introl eq_refl))) as (c & -> & Ec). destruct (L3 j (AL j (or_intror Hj))) as (c' & -> & Ec').
          rewrite Ec, Ec' in Ej. subst c'. contradiction.
        - apply IH; [assumption|]. intros j Hj. apply AL. right. exact Hj. }
      apply ND; [apply asc_NoDup, box_asc|]. intros i Hi. apply IB. exact Hi. }
    assert (IL : forall c, In c l <-> reached w pad S c).
    { intros c. rewrite (box_reached w pad S b c Hw HT). rewrite <- Emn, <- Emx. unfold l. rewrite in_map_iff. split.
      - intros (i & Ei & Hi). apply IB in Hi. destruct (L3 i Hi) as (c' & E & E'). subst i. rewrite E' in Ei. subst c'. exact Hi.
      - intros H. exists [px c; py c; pz c]. split; [destruct c; reflexivity|]. apply IB. exact H. }
    destruct (puts dom add get ok step Hok Hadd (fr_update sens min max model T w im) l m) as [A B]; [apply Forall_forall; intros c Hc; apply Hd, IL; exact Hc|exact ND|exact Hm|].
    exists n, (fold_left (put add (fr_update sens min max model T w im)) l m). split; [|split; [exact A|]].
    - intros fuel Hf. unfold fr_updateMap. cbn [fst snd]. fold (grid_min w (box_pad b pad)) (grid_max w (box_pad b pad)). rewrite <- Emn, <- Emx. rewrite (G fuel Hf). f_equal. unfold l.
      generalize (P_Grid.box mn mx) m. induction l0 as [|i r IH]; intros m0; [reflexivity|]. cbn [map fold_left]. rewrite <- IH. reflexivity.
    - intros c Hc. destruct (B c Hc) as [B1 B2]. split.
      + intros N. apply B1. intros C. apply N, IL. exact C.
      + intros H u Hu. apply assigned_update in Hu. subst u. apply B2. apply IL. exact H.
  Qed.
End UPDATE.

Lemma axes_add (p q : v3) f : In f axes -> f (v3add p q) = (f p + f q)%Q. Proof. intros [<-|[<-|[<-|[]]]]; reflexivity. Qed.
Lemma axes_scale k (p : v3) f : In f axes -> f (v3scale k p) = (k * f p)%Q. Proof. intros [<-|[<-|[<-|[]]]]; reflexivity. Qed.
Lemma axes_sub (p q : v3) f : In f axes -> f (v3sub p q) = (f p - f q)%Q. Proof. intros [<-|[<-|[<-|[]]]]; reflexivity. Qed.
Lemma axes_world T p f : In f axes -> f (to_world T p) = (vx p * f (col0 (po_R T)) + vy p * f (col1 (po_R T)) + vz p * f (col2 (po_R T)) + f (po_t T))%Q.
Proof. intros Hf. unfold to_world, m3mul. rewrite !axes_add, !axes_scale by exact Hf. reflexivity. Qed.
Lemma world_world T p q : world T p q <-> forall f, In f axes -> (f q == f (to_world T p))%Q.
Proof.
  split.
  - intros (A & B & C). apply axes_case; rewrite axes_world by (cbn; auto); [rewrite A|rewrite B|rewrite C]; ring.
  - intros H. pose proof (H vx ltac:(cbn; auto)) as A. pose proof (H vy ltac:(cbn; auto)) as B. pose proof (H vz ltac:(cbn; auto)) as C.
    rewrite axes_world in A, B, C by (cbn; auto). split; [rewrite A; ring|split; [rewrite B; ring|rewrite C; ring]].
Qed.

Section IMPORT.
  Context (rnd : Q -> Z) (sens : v3 -> sensor) (to_cart : v2 -> Q -> v3) (prj : projector) (rows cols : Z) (min max sin_angle back : Q) (T : pose3).
  Lemma usable_iff p : usable rnd sens prj rows cols p <-> point_valid (Some p) = true /\ within_bounds rows cols (fst (imageToNearestIndexAndOffset rnd prj (fst (sens p)))) = true.
  Proof.
    unfold usable, point_valid, measurement_valid, low2, high2, within_bounds, v3norm2. rewrite !andb_true_iff, !Qle_bool_iff, !Z.leb_le, !Z.ltb_lt. cbn. tauto.
  Qed.
  Lemma clip_clipped p e : clipped max (snd (sens p)) p e -> forall f, In f axes -> (f e == f (truncate p (snd (sens p)) max))%Q.
  Proof.
    unfold clipped, truncate. intros H f Hf. destruct (M_Image.qltb max (snd (sens p))) eqn:E; [apply qlt_iff in E|apply qlt_false in E].
    - destruct H as [[L _]|[_ H]]; [lra|]. rewrite (H f Hf). rewrite axes_add, axes_scale, axes_sub by exact Hf. assert (Z : f (V3 0 0 0) = 0%Q) by (destruct Hf as [<-|[<-|[<-|[]]]]; reflexivity). rewrite Z. ring.
    - destruct H as [[_ ->]|[L _]]; [reflexivity|lra].
  Qed.
  Lemma clipped_clip p : clipped max (snd (sens p)) p (truncate p (snd (sens p)) max).
  Proof.
    unfold clipped, truncate. destruct (M_Image.qltb max (snd (sens p))) eqn:E; [apply qlt_iff in E|apply qlt_false in E]; [right|left]; (split; [exact E|]); [|reflexivity].
    intros f Hf. rewrite axes_add, axes_scale, axes_sub by exact Hf. assert (Z : f (V3 0 0 0) = 0%Q) by (destruct Hf as [<-|[<-|[<-|[]]]]; reflexivity). rewrite Z. ring.
  Qed.
  Lemma to_world_ext p q : (forall f, In f axes -> (f p == f q)%Q) -> forall f, In f axes -> (f (to_world T p) == f (to_world T q))%Q.
  Proof. intros H f Hf. rewrite !axes_world by exact Hf. rewrite (H vx), (H vy), (H vz) by (cbn; auto). reflexivity. Qed.
  Lemma tight_eq S S' b : tight S b -> (forall p, S p <-> S' p) -> tight S' b.
  Proof. intros H E. apply (tight_ext S); [exact H| |]; intros p Hp; exists p; split; try reflexivity; apply E; exact Hp. Qed.
  Definition included (cloud : list (option v3)) (q : v3) : Prop := q = po_t T \/ exists p, In (Some p) cloud /\ usable rnd sens prj rows cols p /\ q = to_world T (truncate p (snd (sens p)) max).
  Lemma import_spec cloud : let st := fold_left (fr_import_point rnd sens prj rows cols min max T) cloud (reset_images, box_include box_empty (po_t T)) in
    (forall f, In f axes -> (Qabs (f (po_t T)) <= inject_Z (2 ^ 128 - 2 ^ 104))%Q) ->
    fst st = importPointcloud point_valid (fun q => match q with Some p => sens p | None => ((0, 0), 0)%Q end) rnd prj rows cols min cloud /\ tight (included cloud) (snd st).
  Proof.
    cbv zeta. intros HB. induction cloud as [|q cloud IH] using rev_ind; unfold importPointcloud in *.
    - split; [reflexivity|]. cbn [fold_left snd]. eapply tight_eq; [apply tight_first; exact HB|]. intros p. unfold included. split; [intros <-; auto|intros [->|(? & [] & _)]; reflexivity].
    - rewrite !fold_left_app. cbn [fold_left]. destruct IH as [I1 I2]. rewrite <- I1. destruct (fold_left (fr_import_point _ _ _ _ _ _ _ _) cloud _) as [im b]. cbn [fst snd] in *. clear I1.
      unfold fr_import_point at 1 2, import_point. destruct q as [p|].
      2: { cbn [point_valid negb fst snd]. split; [reflexivity|]. eapply tight_eq; [exact I2|]. intros x. unfold included. split; intros [H|(p & Hp & R)]; auto; right; exists p; (split; [|exact R]).
           - apply in_or_app. auto. - apply in_app_or in Hp as [Hp|[Hp|[]]]; [exact Hp|discriminate]. }
      pose proof (usable_iff p) as U. destruct (point_valid (Some p)) eqn:V; cbn [negb].
      2: { split; [reflexivity|]. eapply tight_eq; [exact I2|]. intros x. unfold included. split; intros [H|(p' & Hp & R)]; auto; right; exists p'.
           - split; [apply in_or_app; auto|exact R]. - apply in_app_or in Hp as [Hp|[Hp|[]]]; [auto|]. injection Hp as <-. exfalso. destruct R as [R _]. apply U in R as [C _]. discriminate C. }
      destruct (sens p) as [coords range] eqn:ES. cbn [fst] in U. destruct (imageToNearestIndexAndOffset rnd prj coords) as [idx offset]. cbn [fst] in U.
      destruct (within_bounds rows cols idx) eqn:WB; cbn [negb fst snd].
      + split; [destruct (M_Image.qltb _ _ || M_Image.qltb _ _); reflexivity|].
        eapply tight_eq; [apply tight_include; exact I2|]. intros x. unfold included. split.
        * intros [[H|(p' & Hp & R)]| ->]; [auto| |]; right; [exists p'; split; [apply in_or_app; auto|exact R]|]. exists p. split; [apply in_or_app; right; left; reflexivity|]. split; [apply U; auto|]. rewrite ES. reflexivity.
        * intros [H|(p' & Hp & R)]; [auto|]. apply in_app_or in Hp as [Hp|[Hp|[]]]; [left; right; exists p'; auto|]. injection Hp as <-. right. rewrite ES in R. apply R.
      + split; [reflexivity|]. eapply tight_eq; [exact I2|]. intros x. unfold included. split; intros [H|(p' & Hp & R)]; auto; right; exists p'.
        * split; [apply in_or_app; auto|exact R].
        * apply in_app_or in Hp as [Hp|[Hp|[]]]; [auto|]. injection Hp as <-. exfalso. destruct R as [R _]. apply U in R as [_ C]. discriminate C.
  Qed.
  Lemma cloud_box cloud : finite_floats (cloud_points rnd sens prj rows cols max T cloud) ->
    exists b, fr_importPointcloud rnd sens prj rows cols min max sin_angle back T cloud =
      (importPointcloud point_valid (fun q => match q with Some p => sens p | None => ((0, 0), 0)%Q end) rnd prj rows cols min cloud, box_pad b (max_lateral_component sin_angle max back)) /\
      tight (cloud_points rnd sens prj rows cols max T cloud) b.
  Proof.
    intros HF. pose proof (import_spec cloud (fun f => HF (po_t T) f (or_introl eq_refl))) as [A B]. unfold fr_importPointcloud.
    destruct (fold_left _ cloud _) as [im b]. cbn [fst snd] in *. subst im. exists b. split; [reflexivity|].
    apply (tight_ext (included cloud)); [exact B| |].
    - intros q [->|(p & Hp & U & ->)]; [exists (po_t T); split; [left; reflexivity|reflexivity]|]. eexists. split; [right; exists p, (truncate p (snd (sens p)) max); split; [exact Hp|]; split; [exact U|]; split; [apply clipped_clip|apply world_world; reflexivity]|reflexivity].
    - intros q [->|(p & e & Hp & U & C & W)]; [exists (po_t T); split; [left; reflexivity|reflexivity]|].
      exists (to_world T (truncate p (snd (sens p)) max)). split; [right; exists p; auto|]. intros f Hf. rewrite (proj1 (world_world T e q) W f Hf). apply to_world_ext; [|exact Hf]. apply clip_clipped. exact C.
  Qed.
  Lemma image_box image : finite_floats (image_points to_cart prj rows cols max T) ->
    exists b, fr_importRangeImage to_cart prj rows cols max sin_angle back T image = (fun i => (image i, (0, 0)%Q), box_pad b (max_lateral_component sin_angle max back)) /\
      tight (image_points to_cart prj rows cols max T) b.
  Proof.
    intros HF. unfold fr_importRangeImage. eexists. split; [reflexivity|]. cbn [fold_left fst snd].
    pose proof (tight_first (po_t T) (fun f => HF (po_t T) f (or_introl eq_refl))) as B.
    apply (tight_include _ _ (to_world T (fr_corner to_cart prj rows cols max (0, 0)))) in B. apply (tight_include _ _ (to_world T (fr_corner to_cart prj rows cols max (1, 0)))) in B.
    apply (tight_include _ _ (to_world T (fr_corner to_cart prj rows cols max (0, 1)))) in B. apply (tight_include _ _ (to_world T (fr_corner to_cart prj rows cols max (1, 1)))) in B.
    assert (E : forall a b, fr_corner to_cart prj rows cols max (a, b) = to_cart (indexToImage prj (a * rows, b * cols)) max) by reflexivity. rewrite !E in B |- *. rewrite !Z.mul_0_l, !Z.mul_1_l in *.
    eapply tight_ext; [exact B| |].
    - intros p [[[[<-| ->]| ->]| ->]| ->]; eexists; (split; [|reflexivity]); [left; reflexivity| | | |]; right; do 2 eexists; (split; [|split; [|apply world_world; reflexivity]]); auto.
    - intros p [->|(i & j & Hi & Hj & W)]; [eexists; split; [left; left; left; left; reflexivity|reflexivity]|].
      exists (to_world T (to_cart (indexToImage prj (i, j)) max)). split; [|apply world_world; exact W]. destruct Hi as [->| ->], Hj as [->| ->]; tauto.
  Qed.
End IMPORT.

Lemma pad_eq a b : (qmax a b == Qmax a b)%Q.
Proof. unfold qmax. destruct (M_Image.qltb a b) eqn:E; [apply qlt_iff in E; rewrite Q.max_r by lra|apply qlt_false in E; rewrite Q.max_l by lra]; reflexivity. Qed.
Lemma reached_pad w pad pad' S c : (pad == pad')%Q -> reached w pad S c -> reached w pad' S c.
Proof. intros E H f Hf. destruct (H f Hf) as [(p & Hp & L) (q & Hq & L')]. split; [exists p|exists q]; (split; [assumption|]); lra. Qed.
Lemma any_scan_effect {M} (dom : idx3 -> Prop) (add : M -> idx3 -> Qc -> M) (get : M -> idx3 -> Qc) (ok : M -> Prop) (step : Qc -> Qc -> Qc) :
  (forall m i u, dom i -> ok m -> ok (add m i u)) ->
  (forall m i u c, dom i -> dom c -> ok m -> get (add m i u) c = if idx3_eq_dec c i then step (get m c) u else get m c) ->
  scan_effect dom add get ok step.
Proof.
  intros Hok Hadd rnd sens to_cart prj rows cols min max sin_angle back model w T m Hw Hb Hm. cbv zeta.
  assert (HP : (0 <= max_lateral_component sin_angle max back)%Q) by (unfold max_lateral_component; pose proof (qmax_le (sin_angle * max) back); lra).
  assert (PE : (max_lateral_component sin_angle max back == Qmax (sin_angle * max) back)%Q) by apply pad_eq. split.
  - intros cloud HF Hd. destruct (cloud_box rnd sens prj rows cols min max sin_angle back T cloud HF) as (b & E & B). unfold fr_integrate_cloud. rewrite E.
    destruct (update_effect dom add get ok step Hok Hadd sens min max model T w (cloud_image rnd sens prj rows cols min cloud) _ _ b m Hw HP B Hm) as (n & m' & F & O & U).
    { intros c Hc. apply Hd. eapply reached_pad; [exact PE|exact Hc]. }
    exists n, m'. split; [exact F|]. split; [exact O|]. intros c Hc. destruct (U c Hc) as [U1 U2]. split.
    + intros N. apply U1. intros R. apply N. eapply reached_pad; [exact PE|exact R].
    + intros R. apply U2. eapply reached_pad; [symmetry; exact PE|exact R].
  - intros image HF Hd. destruct (image_box rnd sens to_cart prj rows cols min max sin_angle back T image HF) as (b & E & B). unfold fr_integrate_image. rewrite E.
    destruct (update_effect dom add get ok step Hok Hadd sens min max model T w (fun i => (image i, (0, 0)%Q)) _ _ b m Hw HP B Hm) as (n & m' & F & O & U).
    { intros c Hc. apply Hd. eapply reached_pad; [exact PE|exact Hc]. }
    exists n, m'. split; [exact F|]. split; [exact O|]. intros c Hc. destruct (U c Hc) as [U1 U2]. split.
    + intros N. apply U1. intros R. apply N. eapply reached_pad; [exact PE|exact R].
    + intros R. apply U2. eapply reached_pad; [symmetry; exact PE|exact R].
Qed.

Lemma cell_node i c : in_node (cell i) c = if idx3_eq_dec c i then true else false.
Proof.
  unfold in_node, cell. cbn [oh opos]. change (2 ^ 0) with 1. destruct (idx3_eq_dec c i) as [->|N].
  - rewrite !andb_true_iff, !Z.leb_le, !Z.ltb_lt. lia.
  - apply not_true_is_false. rewrite !andb_true_iff, !Z.leb_le, !Z.ltb_lt. intros H. apply N. destruct c, i; cbn in *. f_equal; lia.
Qed.

(** ** Theorems *)
(** The hashed wavelet octree, from any state a history of calls leads to *)
Theorem C62_hashed_wavelet : forall C now, valid_config C -> scan_effect everywhere (hw_add qn C now) (hw_get qn C) (hashed_reachable C) Qcplus.
Proof.
  intros C now HC. apply any_scan_effect.
  - intros m0 i u _ (l & ->). exists (l ++ [(now, HAdd i u)]). unfold hw_run. rewrite fold_left_app. reflexivity.
  - intros m0 i u c _ _ H0. apply C11_add_exact; assumption.
Qed.
(** The hashed chunked wavelet octree *)
Theorem C62_hashed_chunked : forall fuel C now, valid_config C -> (Z.to_nat (cT C) <= fuel)%nat ->
  scan_effect everywhere (hc_add qn C now) (hc_get qn C) (chunked_reachable fuel C) Qcplus.
Proof.
  intros fuel C now HC Hf. apply any_scan_effect.
  - intros m0 i u _ (l & ->). exists (l ++ [(now, HAdd i u)]). unfold hc_run. rewrite fold_left_app. reflexivity.
  - intros m0 i u c _ _ H0. apply (C11_chunked_add_exact fuel); assumption.
Qed.
(** Dense blocks: sums are clamped. *)
Definition clamped_sum (lo hi v u : Qc) : Qc := if M_Num.qltb (v + u)%Qc lo then lo else if M_Num.qltb hi (v + u)%Qc then hi else (v + u)%Qc.
Theorem C62_hashed_blocks : forall C : hbconfig Qc, 0 <= hK C ->
  scan_effect everywhere (hb_add qn C) (hb_get C) (fun m => exists l, m = hb_run qn C l) (clamped_sum (hlo C) (hhi C)).
Proof.
  intros C HC. apply any_scan_effect.
  - intros m0 i u _ (l0 & ->). exists (l0 ++ [HBAdd i u]). unfold hb_run. rewrite fold_left_app. reflexivity.
  - intros m0 i u c _ _ (l0 & ->). unfold hb_add. rewrite get_modify by (try assumption; apply run_bwf).
    destruct (idx3_eq_dec i c), (idx3_eq_dec c i); try congruence; reflexivity.
Qed.
(** The wavelet octree, if all cells near the bounding box are inside the octree *)
Theorem C62_wavelet_octree : forall C, valid_config C ->
  scan_effect (fun c => in_octree (cT C) (cell c)) (fun t i u => wo_add qn C t (cell i) u) (fun t c => wo_get qn C t (cell c)) (plain_reachable C) Qcplus.
Proof.
  intros C HC. apply any_scan_effect.
  - intros m0 i u Hd (l & F & ->). exists (l ++ [CAdd (cell i) u]). split; [apply Forall_app; split; [exact F|constructor; [exact Hd|constructor]]|].
    unfold wo_run. rewrite fold_left_app. reflexivity.
  - intros m0 i u c Hd Hdc H0. rewrite C10_add_exact by assumption. rewrite cell_node. destruct (idx3_eq_dec c i); reflexivity.
Qed.
(** The octree without wavelets, for maps only written cell by cell *)
Theorem C62_volumetric_octree : forall C, vo_valid C ->
  scan_effect (fun c => in_octree (cT C) (cell c)) (fun t i u => vo_add qn C t (cell i) u) (vo_get C)
    (fun t => exists l, Forall (cell_call_ok (cT C)) l /\ t = vo_run qn keps C (map to_vcall l)) Qcplus.
Proof.
  intros C HC. apply any_scan_effect.
  - intros m0 i u Hd (l0 & F & ->). exists (l0 ++ [CellAdd i u]). split; [apply Forall_app; split; [exact F|constructor; [exact Hd|constructor]]|].
    rewrite map_app. unfold vo_run. rewrite fold_left_app. reflexivity.
  - intros m0 i u c Hd Hdc (l0 & F & ->).
    assert (F' : Forall (cell_call_ok (cT C)) (l0 ++ [CellAdd i u])) by (apply Forall_app; split; [exact F|constructor; [exact Hd|constructor]]).
    pose proof (proj1 (C22_cell_histories_partial C _ HC F') c Hdc) as G. pose proof (proj1 (C22_cell_histories_partial C _ HC F) c Hdc) as G0.
    rewrite map_app in G. unfold vo_run in G. rewrite fold_left_app in G. cbn [map fold_left to_vcall vo_apply] in G. unfold vo_run. change (P_VolOctree.cell i) with (cell i) in G. rewrite G.
    unfold vo_run in G0. rewrite G0. unfold cell_run. rewrite fold_left_app. cbn [fold_left cell_apply].
    destruct (idx3_eq_dec c i) as [->|N]; [rewrite ieqb_refl; reflexivity|]. destruct (ieqb_spec i c); [congruence|reflexivity].
Qed.

(** Every cell whose centre is within the padding of the segment from the sensor to a clipped point is reached. *)
Theorem C62_segments_reached : forall rnd sens prj rows cols max T cloud w pad p q e t c,
  (0 < w)%Q -> In (Some p) cloud -> usable rnd sens prj rows cols p -> clipped max (snd (sens p)) p q -> world T q e -> (0 <= t)%Q -> (t <= 1)%Q ->
  (forall f, In f axes -> (Qabs (f (centre w c) - (f (po_t T) + t * (f e - f (po_t T)))) <= pad)%Q) ->
  reached w pad (cloud_points rnd sens prj rows cols max T cloud) c.
Proof.
  intros rnd sens prj rows cols max T cloud w pad p q e t c Hw Hp U C W T0 T1 H f Hf. specialize (H f Hf). apply Qabs_Qle_condition in H as [H1 H2].
  assert (S0 : cloud_points rnd sens prj rows cols max T cloud (po_t T)) by (left; reflexivity).
  assert (S1 : cloud_points rnd sens prj rows cols max T cloud e) by (right; exists p, q; auto).
  set (x := f (centre w c)) in *. set (a := f (po_t T)) in *. destruct (Qlt_le_dec (f e) a) as [L|L].
  - assert (f e - a <= t * (f e - a) /\ t * (f e - a) <= 0)%Q as [K1 K2] by (split; nra).
    split; [exists e|exists (po_t T)]; (split; [assumption|]); fold a; lra.
  - assert (0 <= t * (f e - a) /\ t * (f e - a) <= f e - a)%Q as [K1 K2] by (split; nra).
    split; [exists (po_t T)|exists e]; (split; [assumption|]); fold a; lra.
Qed.

(** Range images of a pinhole camera: every cell whose centre projects between the first corner of the image (index 0) and the last (index width, height), at most max_range
    in front of the camera, is reached. *)
Definition rotation (R : m3) : Prop := forall f g, In f axes -> In g axes ->
  (f (col0 R) * g (col0 R) + f (col1 R) * g (col1 R) + f (col2 R) * g (col2 R) == if Qeq_bool (f (V3 1 2 3)) (g (V3 1 2 3)) then 1 else 0)%Q.
Lemma back_to_world T p : rotation (po_R T) -> forall f, In f axes -> (f (to_world T (to_sensor T p)) == f p)%Q.
Proof.
  intros H f Hf. rewrite axes_world by exact Hf. unfold to_sensor, m3mul, transpose. cbn [vx vy vz v3add v3scale v3sub col0 col1 col2].
  pose proof (H f vx Hf ltac:(cbn; auto)) as Hx. pose proof (H f vy Hf ltac:(cbn; auto)) as Hy. pose proof (H f vz Hf ltac:(cbn; auto)) as Hz.
  set (dx := (vx p - vx (po_t T))%Q). set (dy := (vy p - vy (po_t T))%Q). set (dz := (vz p - vz (po_t T))%Q).
  transitivity (dx * (f (col0 (po_R T)) * vx (col0 (po_R T)) + f (col1 (po_R T)) * vx (col1 (po_R T)) + f (col2 (po_R T)) * vx (col2 (po_R T))) +
    dy * (f (col0 (po_R T)) * vy (col0 (po_R T)) + f (col1 (po_R T)) * vy (col1 (po_R T)) + f (col2 (po_R T)) * vy (col2 (po_R T))) +
    dz * (f (col0 (po_R T)) * vz (col0 (po_R T)) + f (col1 (po_R T)) * vz (col1 (po_R T)) + f (col2 (po_R T)) * vz (col2 (po_R T))) + f (po_t T))%Q; [ring|].
  rewrite Hx, Hy, Hz. destruct Hf as [<-|[<-|[<-|[]]]]; cbn [vx vy vz]; unfold dx, dy, dz;
    change (Qeq_bool 1 1) with true; change (Qeq_bool 1 2) with false; change (Qeq_bool 1 3) with false; change (Qeq_bool 2 1) with false; change (Qeq_bool 2 2) with true; change (Qeq_bool 2 3) with false;
    change (Qeq_bool 3 1) with false; change (Qeq_bool 3 2) with false; change (Qeq_bool 3 3) with true; cbv iota; ring.
Qed.
(** The update of a cell is sampled where its centre is: the pose of the sensor takes the sampled point to the centre of the cell. *)
Theorem C62_sample_point : forall T w c, rotation (po_R T) -> world T (sampled T w c) (centre w c).
Proof.
  intros T w c H. change (sampled T w c) with (to_sensor T (cell_center w c)).
  assert (E : forall f, In f axes -> (f (centre w c) == f (to_world T (to_sensor T (cell_center w c))))%Q).
  { intros f Hf. rewrite back_to_world by assumption. revert f Hf. apply axes_case; cbn [centre cell_center vx vy vz]; field. }
  unfold world. rewrite (E vx), (E vy), (E vz) by (cbn; auto).
  unfold to_world, m3mul. cbn [vx vy vz v3add v3scale col0 col1 col2]. repeat split; ring.
Qed.
(** An affine function on a rectangle is at most its value at some corner *)
Lemma corner_ge A B C W H u v : (0 <= u)%Q -> (u <= W)%Q -> (0 <= v)%Q -> (v <= H)%Q ->
  exists i j, (i = 0 \/ i = 1) /\ (j = 0 \/ j = 1) /\ (A * u + B * v + C <= A * (inject_Z i * W) + B * (inject_Z j * H) + C)%Q.
Proof.
  intros U0 U1 V0 V1.
  assert (X : exists i, (i = 0 \/ i = 1) /\ (A * u <= A * (inject_Z i * W))%Q).
  { destruct (Qlt_le_dec A 0); [exists 0|exists 1]; (split; [auto|]); [change (inject_Z 0) with 0%Q|change (inject_Z 1) with 1%Q]; nra. }
  assert (Y : exists j, (j = 0 \/ j = 1) /\ (B * v <= B * (inject_Z j * H))%Q).
  { destruct (Qlt_le_dec B 0); [exists 0|exists 1]; (split; [auto|]); [change (inject_Z 0) with 0%Q|change (inject_Z 1) with 1%Q]; nra. }
  destruct X as (i & Hi & X), Y as (j & Hj & Y). exists i, j. repeat split; try assumption. lra.
Qed.
Lemma scaled_le k g G : (0 <= k)%Q -> (k <= 1)%Q -> (g <= G)%Q -> (k * g <= 0 \/ k * g <= G)%Q.
Proof. intros. destruct (Qlt_le_dec g 0); [left; nra|right; nra]. Qed.
Theorem C62_pinhole_frustum : forall cam max T w pad c, pinhole_isValid cam = true -> (0 < w)%Q -> (0 <= pad)%Q -> (0 < max)%Q -> rotation (po_R T) ->
  let s := pinhole_sensor cam (to_sensor T (centre w c)) in
  (kEpsilon <= snd s)%Q -> (snd s <= max)%Q -> (0 <= fst (fst s))%Q -> (fst (fst s) <= inject_Z (ph_width cam))%Q -> (0 <= snd (fst s))%Q -> (snd (fst s) <= inject_Z (ph_height cam))%Q ->
  reached w pad (image_points (pinhole_cartesian cam) pinhole_base (ph_width cam) (ph_height cam) max T) c.
Proof.
  intros cam max T w pad c HV Hw Hp Hm HR. unfold pinhole_isValid in HV. rewrite !andb_true_iff, !qlt_iff in HV. destruct HV as (((_ & _) & Fx) & Fy).
  set (p := to_sensor T (centre w c)). cbv zeta. unfold pinhole_sensor. cbn [fst snd]. intros Z0 Z1.
  assert (EW : qmax (vz p) kEpsilon = vz p). { unfold qmax. destruct (M_Image.qltb (vz p) kEpsilon) eqn:E; [apply qlt_iff in E; lra|reflexivity]. }
  rewrite EW. set (fx := ph_fx cam) in *. set (fy := ph_fy cam) in *. set (u := (fx * vx p / vz p + ph_cx cam)%Q). set (v := (fy * vy p / vz p + ph_cy cam)%Q). intros U0 U1 V0 V1.
  assert (Zp : (0 < vz p)%Q) by (assert (0 < kEpsilon)%Q by reflexivity; lra).
  assert (Px : (vx p == vz p * ((u - ph_cx cam) / fx))%Q) by (unfold u; field; lra).
  assert (Py : (vy p == vz p * ((v - ph_cy cam) / fy))%Q) by (unfold v; field; lra).
  set (k := (vz p / max)%Q). assert (K0 : (0 <= k)%Q) by (apply Qle_shift_div_l; lra). assert (K1 : (k <= 1)%Q) by (apply Qle_shift_div_r; lra). assert (KZ : (vz p == k * max)%Q) by (unfold k; field; lra).
  intros f Hf.
  set (A := (max * f (col0 (po_R T)) / fx)%Q). set (B := (max * f (col1 (po_R T)) / fy)%Q).
  set (Cc := (max * f (col2 (po_R T)) - A * ph_cx cam - B * ph_cy cam)%Q).
  assert (EP : (f (centre w c) == k * (A * u + B * v + Cc) + f (po_t T))%Q).
  { rewrite <- (back_to_world T (centre w c) HR f Hf). fold p. rewrite axes_world by exact Hf. rewrite Px, Py, KZ. unfold Cc, A, B. field. lra. }
  assert (EC : forall i j, (i = 0 \/ i = 1) -> (j = 0 \/ j = 1) -> exists q, image_points (pinhole_cartesian cam) pinhole_base (ph_width cam) (ph_height cam) max T q /\
      (f q == A * (inject_Z i * inject_Z (ph_width cam)) + B * (inject_Z j * inject_Z (ph_height cam)) + Cc + f (po_t T))%Q).
  { intros i j Hi Hj. exists (to_world T (pinhole_cartesian cam (indexToImage pinhole_base (i * ph_width cam, j * ph_height cam)) max)). split.
    - right. exists (i * ph_width cam), (j * ph_height cam). split; [destruct Hi as [->| ->]; lia|]. split; [destruct Hj as [->| ->]; lia|]. apply world_world. reflexivity.
    - rewrite axes_world by exact Hf. unfold pinhole_cartesian, indexToImage, pinhole_base. cbn [fst snd pb_scale pb_offset vx vy vz v3scale]. fold fx fy. rewrite !inject_Z_mult. unfold Cc, A, B. field. split; lra. }
  assert (S0 : image_points (pinhole_cartesian cam) pinhole_base (ph_width cam) (ph_height cam) max T (po_t T)) by (left; reflexivity).
  split.
  - destruct (corner_ge (- A) (- B) (- Cc) _ _ u v U0 U1 V0 V1) as (i & j & Hi & Hj & L). destruct (EC i j Hi Hj) as (q & Sq & Eq).
    set (X := (A * (inject_Z i * inject_Z (ph_width cam)))%Q) in *. set (Y := (B * (inject_Z j * inject_Z (ph_height cam)))%Q) in *.
    assert (L' : (- (A * u + B * v + Cc) <= - (X + Y + Cc))%Q) by (unfold X, Y; lra).
    destruct (scaled_le k _ _ K0 K1 L') as [G|G]; [exists (po_t T)|exists q]; (split; [assumption|]); rewrite EP; [|rewrite Eq]; lra.
  - destruct (corner_ge A B Cc _ _ u v U0 U1 V0 V1) as (i & j & Hi & Hj & L). destruct (EC i j Hi Hj) as (q & Sq & Eq).
    destruct (scaled_le k _ _ K0 K1 L) as [G|G]; [exists (po_t T)|exists q]; (split; [assumption|]); rewrite EP; [|rewrite Eq]; lra.
Qed.

(** ** False variants: cells that the scan assigns an update above 1e-6 but that do not change *)
Definition no_rot : m3 := M3 (V3 1 0 0) (V3 0 1 0) (V3 0 0 1).
Definition at_zero : pose3 := Pose3 no_rot (V3 0 0 0).
(** The ContinuousRay measurement model (C45) *)
Definition ray_model (flog : Q -> Q) (cfg : mm_config) (rnd : Q -> Z) (prj : projector) (rows cols : Z) (im : images) (coords : v2) (d : Q) : Q :=
  ray_computeUpdate flog cfg rnd prj (Img rows cols (fun x y => fst (im (x, y)))) coords d.
Definition ex_ray : mm_config := MM (1 # 100) (1 # 10) (1 # 2) (1 # 2) kNearestNeighbor.
Definition ex_cam : pinhole := PH 2 2 1 1 (1 # 2) (1 # 2).
Definition cam_model := ray_model P_Measure.ex_log ex_ray round_away pinhole_base 2 2.
(** Half a pixel along the first rows and columns of a range image is cut off. *)
Theorem C62_image_border_refuted : exists cam model w T image c u, pinhole_isValid cam = true /\ rotation (po_R T) /\
  (let i := imageToNearestIndex round_away pinhole_base (fst (pinhole_sensor cam (to_sensor T (centre w c)))) in 0 <= fst i < ph_width cam /\ 0 <= snd i < ph_height cam) /\
  assigned 1 10 (pinhole_sensor cam) (model (fun i => (image i, (0, 0)%Q))) T w c u /\ (keps < Qcabs u)%Qc /\
  forall C now m, valid_config C -> hashed_reachable C m -> exists n m',
    (forall fuel, (n <= fuel)%nat -> fr_integrate_image (pinhole_sensor cam) (pinhole_cartesian cam) pinhole_base (ph_width cam) (ph_height cam) 1 10 0 (range_back ex_ray) model (hw_add qn C now) keps fuel w m T image = Some m') /\
    hw_get qn C m' c = hw_get qn C m c.
Proof.
  exists ex_cam, cam_model, 1%Q, at_zero, (fun _ => 20%Q), (I3 (-8) 0 9). eexists. split; [reflexivity|]. split; [|split; [|split; [|split]]].
  - intros f g [<-|[<-|[<-|[]]]] [<-|[<-|[<-|[]]]]; reflexivity.
  - vm_compute. repeat split; discriminate.
  - apply (assigned_update (pinhole_sensor ex_cam) 1 10 cam_model at_zero 1 (fun i => (20%Q, (0, 0)%Q)) (I3 (-8) 0 9)). reflexivity.
  - vm_compute. reflexivity.
  - intros C now m HC Hm.
    destruct (C62_hashed_wavelet C now HC round_away (pinhole_sensor ex_cam) (pinhole_cartesian ex_cam) pinhole_base 2 2 1%Q 10%Q 0%Q (range_back ex_ray) cam_model 1%Q at_zero m) as [_ H]; [reflexivity|discriminate|exact Hm|].
    destruct (H (fun _ => 20%Q)) as (n & m' & F & _ & U).
    + intros p f [->|(i & j & [->| ->] & [->| ->] & W)] Hf; [destruct Hf as [<-|[<-|[<-|[]]]]; vm_compute; discriminate| | | |];
        rewrite (proj1 (world_world _ _ _) W f Hf); destruct Hf as [<-|[<-|[<-|[]]]]; vm_compute; discriminate.
    + intros; exact I.
    + exists n, m'. split; [exact F|]. apply (U (I3 (-8) 0 9)); [exact I|]. intros R. destruct (R vx ltac:(cbn; auto)) as [(p & [->|(i & j & [->| ->] & [->| ->] & (W & _))] & L) _]; [|rewrite W in L..]; vm_compute in L; discriminate L.
Qed.
(** A range image of a spherical sensor that covers all azimuths: all four corners point backwards, and cells in front of the sensor are missed. *)
Definition ex_lidar : spherical := SP (CP (- (1 # 4)) (1 # 4) 3) (CP (- kPi) kPi 9).
Definition lidar_model := ray_model P_Measure.ex_log ex_ray round_away (spherical_base ex_lidar) 3 9.
Theorem C62_full_circle_refuted : exists lidar model w T image c u, circular_isValid (sp_elevation lidar) = true /\ circular_isValid (sp_azimuth lidar) = true /\ axis_periodic (sp_azimuth lidar) = true /\
  assigned 1 10 (spherical_sensor P_Measure.ex_sqrt) (model (fun i => (image i, (0, 0)%Q))) T w c u /\ (keps < Qcabs u)%Qc /\
  forall fsin fcos C now m, (forall a, Qabs (fsin a) <= 1 /\ Qabs (fcos a) <= 1)%Q -> (forall a, (Qabs a <= 3 # 2)%Q -> (0 <= fcos a)%Q) -> (forall a, (8 # 5 <= Qabs a)%Q -> (Qabs a <= 47 # 10)%Q -> (fcos a <= 0)%Q) ->
    valid_config C -> hashed_reachable C m -> exists n m',
    (forall fuel, (n <= fuel)%nat -> fr_integrate_image (spherical_sensor P_Measure.ex_sqrt) (spherical_cartesian fsin fcos) (spherical_base lidar) (cp_num (sp_elevation lidar)) (cp_num (sp_azimuth lidar)) 1 10 0 (range_back ex_ray)
       model (hw_add qn C now) keps fuel w m T image = Some m') /\
    hw_get qn C m' c = hw_get qn C m c.
Proof.
  exists ex_lidar, lidar_model, 1%Q, at_zero, (fun _ => 20%Q), (I3 5 0 0). eexists. split; [reflexivity|]. split; [reflexivity|]. split; [reflexivity|]. split; [|split].
  - apply (assigned_update (spherical_sensor P_Measure.ex_sqrt) 1 10 lidar_model at_zero 1 (fun i => (20%Q, (0, 0)%Q)) (I3 5 0 0)). reflexivity.
  - vm_compute. reflexivity.
  - intros fsin fcos C now m Hb Hpos Hneg HC Hm.
    destruct (C62_hashed_wavelet C now HC round_away (spherical_sensor P_Measure.ex_sqrt) (spherical_cartesian fsin fcos) (spherical_base ex_lidar) 3 9 1%Q 10%Q 0%Q (range_back ex_ray) lidar_model 1%Q at_zero m) as [_ H]; [reflexivity|discriminate|exact Hm|].
    assert (Bnd : forall a b, (Qabs a <= 1)%Q -> (Qabs b <= 1)%Q -> (- (1) <= a * b /\ a * b <= 1)%Q).
    { intros a b Ha Hb'. apply Qabs_Qle_condition in Ha as [A1 A2]. apply Qabs_Qle_condition in Hb' as [B1 B2]. split; nra. }
    assert (W0 : forall i j p f, In f axes -> world at_zero (spherical_cartesian fsin fcos (indexToImage (spherical_base ex_lidar) (i, j)) 10) p -> (- (10) <= f p /\ f p <= 10)%Q).
    { intros i j p f Hf W. rewrite (proj1 (world_world _ _ _) W f Hf). rewrite axes_world by exact Hf. unfold spherical_cartesian. cbn [vx vy vz v3scale]. set (e := fst _). set (a := snd _).
      destruct (Hb e) as [Se Ce], (Hb a) as [Sa Ca]. pose proof (Bnd _ _ Ce Ca). pose proof (Bnd _ _ Ce Sa). apply Qabs_Qle_condition in Se.
      destruct Hf as [<-|[<-|[<-|[]]]]; cbn [at_zero no_rot po_R po_t col0 col1 col2 vx vy vz]; lra. }
    destruct (H (fun _ => 20%Q)) as (n & m' & F & _ & U).
    + intros p f [->|(i & j & _ & _ & W)] Hf; [destruct Hf as [<-|[<-|[<-|[]]]]; vm_compute; discriminate|].
      destruct (W0 i j p f Hf W) as [L1 L2]. apply Qabs_Qle_condition. assert (10 <= inject_Z (2 ^ 128 - 2 ^ 104))%Q by (vm_compute; discriminate). split; lra.
    + intros; exact I.
    + exists n, m'. split; [exact F|]. apply (U (I3 5 0 0)); [exact I|]. intros R. destruct (R vx ltac:(cbn; auto)) as [_ (p & [->|(i & j & Hi & Hj & W)] & L)]; [vm_compute in L; discriminate L|].
      pose proof (proj1 (world_world _ _ _) W vx ltac:(cbn; auto)) as E. rewrite axes_world in E by (cbn; auto). unfold spherical_cartesian in E. cbn [vx vy vz v3scale at_zero no_rot po_R po_t col0 col1 col2] in E.
      set (e := fst (indexToImage (spherical_base ex_lidar) (i, j))) in E. set (a := snd (indexToImage (spherical_base ex_lidar) (i, j))) in E.
      assert (Pe : (0 <= fcos e)%Q) by (apply Hpos; unfold e; destruct Hi as [->| ->]; vm_compute; discriminate).
      assert (Na : (fcos a <= 0)%Q) by (apply Hneg; unfold a; destruct Hj as [->| ->]; vm_compute; discriminate).
      assert (fcos e * fcos a <= 0)%Q by nra. assert (LL : (11 # 2 < vx p + (6 # 10) + 1)%Q).
      { eapply Qle_lt_trans; [|eapply Qlt_le_trans; [exact L|]]; [vm_compute; discriminate|]. apply Qplus_le_l. apply Qplus_le_r. vm_compute. discriminate. }
      lra.
Qed.
(** Point clouds: with the ContinuousRay model, whose padding angle is zero, cells in the same pixel as a point can be missed. *)
Theorem C62_pixel_cone_refuted : exists cam model w T p c u, pinhole_isValid cam = true /\ usable round_away (pinhole_sensor cam) pinhole_base (ph_width cam) (ph_height cam) p /\
  imageToNearestIndex round_away pinhole_base (fst (pinhole_sensor cam p)) = imageToNearestIndex round_away pinhole_base (fst (pinhole_sensor cam (to_sensor T (centre w c)))) /\
  assigned 1 10 (pinhole_sensor cam) (model (cloud_image round_away (pinhole_sensor cam) pinhole_base (ph_width cam) (ph_height cam) 1 [Some p])) T w c u /\ (keps < Qcabs u)%Qc /\
  forall C now m, valid_config C -> hashed_reachable C m -> exists n m',
    (forall fuel, (n <= fuel)%nat -> fr_integrate_cloud round_away (pinhole_sensor cam) pinhole_base (ph_width cam) (ph_height cam) 1 10 0 (range_back ex_ray) model (hw_add qn C now) keps fuel w m T [Some p] = Some m') /\
    hw_get qn C m' c = hw_get qn C m c.
Proof.
  exists ex_cam, cam_model, 1%Q, at_zero, (V3 (- (1 # 2)) (- (1 # 2)) 9), (I3 (-5) (-1) 8). eexists. split; [reflexivity|]. split; [|split; [|split; [|split]]].
  - vm_compute. repeat split; discriminate.
  - vm_compute. reflexivity.
  - apply (assigned_update (pinhole_sensor ex_cam) 1 10 cam_model at_zero 1 (cloud_image round_away (pinhole_sensor ex_cam) pinhole_base 2 2 1 [Some (V3 (- (1 # 2)) (- (1 # 2)) 9)]) (I3 (-5) (-1) 8)). reflexivity.
  - vm_compute. reflexivity.
  - intros C now m HC Hm.
    destruct (C62_hashed_wavelet C now HC round_away (pinhole_sensor ex_cam) (pinhole_cartesian ex_cam) pinhole_base 2 2 1%Q 10%Q 0%Q (range_back ex_ray) cam_model 1%Q at_zero m) as [H _]; [reflexivity|discriminate|exact Hm|].
    assert (ONE : forall q, cloud_points round_away (pinhole_sensor ex_cam) pinhole_base 2 2 10 at_zero [Some (V3 (- (1 # 2)) (- (1 # 2)) 9)] q -> forall f, In f axes -> (f q == 0 \/ f q == f (V3 (- (1 # 2)) (- (1 # 2)) 9))%Q).
    { intros q [->|(p & e & [E|[]] & _ & C0 & W)] f Hf; [left; destruct Hf as [<-|[<-|[<-|[]]]]; reflexivity|]. injection E as <-. right.
      destruct C0 as [[_ ->]|[C0 _]]; [|vm_compute in C0; discriminate C0]. rewrite (proj1 (world_world _ _ _) W f Hf). destruct Hf as [<-|[<-|[<-|[]]]]; reflexivity. }
    destruct (H [Some (V3 (- (1 # 2)) (- (1 # 2)) 9)]) as (n & m' & F & _ & U).
    + intros q f Hq Hf. destruct (ONE q Hq f Hf) as [E|E]; rewrite E; [vm_compute; discriminate|]. destruct Hf as [<-|[<-|[<-|[]]]]; vm_compute; discriminate.
    + intros; exact I.
    + exists n, m'. split; [exact F|]. apply (U (I3 (-5) (-1) 8)); [exact I|]. intros R. destruct (R vx ltac:(cbn; auto)) as [(q & Hq & L) _].
      destruct (ONE q Hq vx ltac:(cbn; auto)) as [E|E]; rewrite E in L; vm_compute in L; discriminate L.
Qed.

(** ** Non-vacuity: a cloud and a range image, integrated into a map that is not empty *)
Definition ex_pt : option v3 := Some (V3 (- (1 # 2)) (- (1 # 2)) 3).
Definition ex_before := hw_run exC [(5, HAdd (I3 0 0 2) (Q2Qc 3))].
Definition reads {M} (get : M -> idx3 -> Qc) (m : option M) (cs : list idx3) : list Q :=
  match m with Some m => map (fun c => Qred (this (get m c))) cs | None => [] end.
Example C62_ex : valid_config exC /\ hashed_reachable exC ex_before /\
  usable round_away (pinhole_sensor ex_cam) pinhole_base 2 2 (V3 (- (1 # 2)) (- (1 # 2)) 3) /\
  reads (hw_get qn exC) (fr_integrate_cloud round_away (pinhole_sensor ex_cam) pinhole_base 2 2 1 10 0 (range_back ex_ray) cam_model (hw_add qn exC 7) keps 500 1 ex_before at_zero [ex_pt; None]) [I3 (-1) (-1) 1; I3 0 0 2; I3 (-1) (-1) 3; I3 3 3 3] = [-1; 3; (1 # 48); 0]%Q /\
  reads (hw_get qn exC) (fr_integrate_image (pinhole_sensor ex_cam) (pinhole_cartesian ex_cam) pinhole_base 2 2 1 4 0 (range_back ex_ray) cam_model (hw_add qn exC 7) keps 2000 1 ex_before at_zero (fun _ => 3%Q)) [I3 (-1) (-1) 1; I3 0 0 2; I3 (-1) (-1) 3; I3 3 3 3] = [-1; 2; (1 # 48); 0]%Q.
Proof. split; [exact exC_valid|]. split; [eexists; reflexivity|]. split; [vm_compute; repeat split; discriminate|]. split; vm_compute; reflexivity. Qed.

Print Assumptions C62_hashed_wavelet.
Print Assumptions C62_hashed_chunked.
Print Assumptions C62_hashed_blocks.
Print Assumptions C62_wavelet_octree.
Print Assumptions C62_volumetric_octree.
Print Assumptions C62_segments_reached.
Print Assumptions C62_sample_point.
Print Assumptions C62_pinhole_frustum.
Print Assumptions C62_image_border_refuted.
Print Assumptions C62_full_circle_refuted.
Print Assumptions C62_pixel_cone_refuted.
