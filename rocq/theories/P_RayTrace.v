(** Property theorems C55: what the ray tracing integrator does to every cell. *)
From Verif Require Import M_VolOctree P_VolOctree S_Field.
From Verif Require Import M_HashedBlocks P_HashedBlocks M_Chunked M_ChunkedHist P_Chunked.
From Verif Require Import Base M_IntMath M_NdtreeIndex M_Num M_Ndtree M_Point M_Ray M_Wavelet M_WavHist M_RayTrace P_Point P_Ray P_Ray2 F_Num F_Hash P_Wavelet.
From Coq Require Import QArith Qabs Qround Qcanon Lqa.
Close Scope Qc_scope.
Close Scope Q_scope.
Open Scope Z_scope.

(** ** Specification *)
(** std::sqrt up to a relative error *)
Definition sqrt_within (eps : Q) (f : Q -> Q) : Prop :=
  (0 <= eps)%Q /\ (eps < 1)%Q /\ forall x, (0 <= x)%Q -> (0 <= f x /\ (1 - eps) * (1 - eps) * x <= f x * f x /\ f x * f x <= (1 + eps) * (1 + eps) * x)%Q.
Definition dist2 (a b : vec Q) : Q := ((a 0%nat - b 0%nat) * (a 0%nat - b 0%nat) + (a 1%nat - b 1%nat) * (a 1%nat - b 1%nat) + (a 2%nat - b 2%nat) * (a 2%nat - b 2%nat))%Q.
Definition at_cell (c : idx3) : vec Z := fun i => match i with O => px c | S O => py c | _ => pz c end.
Definition meets (w : Q) (c : idx3) (p : vec Q) : Prop := touches 3 w (at_cell c) p.
Definition contains_inside (w : Q) (c : idx3) (p : vec Q) : Prop := crosses 3 w (at_cell c) p.
(** A measured point is used if it is finite and between 1e-3 and 1e3 m from the sensor. *)
Definition usable (s : vec Q) (p : fpoint) : Prop :=
  exists e, p = PFin e /\ ((8589935 # 8589934592) * (8589935 # 8589934592) <= dist2 e s)%Q /\ (dist2 e s <= 1000000)%Q.
(** The part of the segment from the sensor to the point that is traced ends at parameter [k]: at the point itself, or at
    max_range from the sensor (up to the error of the square root). *)
Definition reach (eps max : Q) (s e : vec Q) (k : Q) : Prop :=
  (0 < k)%Q /\ (k <= 1)%Q /\ ((1 + eps) * (1 + eps) * dist2 e s <= max * max -> k == 1)%Q /\
  ((1 - eps) * (1 - eps) * (k * k * dist2 e s) <= max * max)%Q /\
  (~ (k == 1)%Q -> (max * max <= (1 + eps) * (1 + eps) * (k * k * dist2 e s))%Q).
(** The updates [us] that one point gives to one cell [c]: none if the point is not usable; at most one; one if the traced part
    of the segment passes through the interior of the cell; none if it does not meet the cell. The update is [occ] in the cell of
    the end point and [free] in other cells. *)
Definition contribution (eps max w : Q) (s : vec Q) (c : idx3) (p : fpoint) (us : list Qc) : Prop :=
  (~ usable s p -> us = []) /\
  (forall e, p = PFin e -> usable s p -> exists k, reach eps max s e k /\
     (length us <= 1)%nat /\
     ((exists t, (0 <= t)%Q /\ (t <= k)%Q /\ contains_inside w c (on_segment s e t)) -> us <> []) /\
     (us <> [] -> exists t, (0 <= t)%Q /\ (t <= k)%Q /\ meets w c (on_segment s e t)) /\
     (forall u, In u us -> (u = log_odds_occupied /\ meets w c e) \/ (u = log_odds_free /\ ~ contains_inside w c e))).
(** The values of all cells before and after: each cell receives the updates of the points, in the order of the points. [step] is
    what one update does to a value. *)
Definition integrated_in (dom : idx3 -> Prop) (eps max w : Q) (step : Qc -> Qc -> Qc) (s : vec Q) (points : list fpoint) (before after : idx3 -> Qc) : Prop :=
  forall c, dom c -> exists us, Forall2 (contribution eps max w s c) points us /\ after c = fold_left step (concat us) (before c).
Definition everywhere : idx3 -> Prop := fun _ => True.
Definition integrated := integrated_in everywhere.
(** A measured point in the world frame, for the rotation matrix and the position of the sensor *)
Definition in_world (rot : nat -> nat -> Q) (pos : vec Q) (p : fpoint) : fpoint :=
  match p with PFin x => PFin (fun i => rot i 0%nat * x 0%nat + rot i 1%nat * x 1%nat + rot i 2%nat * x 2%nat + pos i)%Q | _ => p end.
(** For a map of bounded size: every cell that a traced segment touches is in the map. *)
Definition stays_in (dom : idx3 -> Prop) (fsqrt : Q -> Q) (c : rtconfig) (w : Q) (s : vec Q) (points : list fpoint) : Prop :=
  forall e, In (PFin e) points -> usable s (PFin e) -> forall t x, (0 <= t)%Q -> (t <= 1)%Q -> meets w x (on_segment s (traced_end fsqrt c s e) t) -> dom x.
(** The hypothesis of the partial theorem: the traced ray of every usable point ends strictly inside a cell. *)
Definition ends_inside (fsqrt : Q -> Q) (c : rtconfig) (w : Q) (s : vec Q) (points : list fpoint) : Prop :=
  forall e, In (PFin e) points -> usable s (PFin e) -> forall i, (i < 3)%nat -> exists z, inside_cell w z (traced_end fsqrt c s e i).

(** ** Proofs *)
Lemma dist2_norm e s : dist2 e s = vnorm2 (vsub e s). Proof. reflexivity. Qed.
Lemma dist2_sym e s : (vnorm2 (vsub s e) == dist2 e s)%Q. Proof. unfold vnorm2, vsub, dist2. ring. Qed.
Lemma valid_usable s e : measurement_valid (vnorm2 (vsub e s)) = true <-> usable s (PFin e).
Proof.
  unfold measurement_valid. rewrite andb_true_iff, !Qle_bool_iff. unfold usable. split.
  - intros [A B]. exists e. split; [reflexivity|]. rewrite dist2_norm. split; assumption.
  - intros (e' & E & A & B). injection E as <-. rewrite dist2_norm in *. split; assumption.
Qed.
Lemma sq_lt a b : (0 <= b)%Q -> (b < a)%Q -> (b * b < a * a)%Q.
Proof. intros H L. nra. Qed.
Lemma traced_reach eps fsqrt c s e : sqrt_within eps fsqrt -> (0 < rt_max c)%Q -> usable s (PFin e) ->
  exists k, reach eps (rt_max c) s e k /\ forall i, (traced_end fsqrt c s e i == on_segment s e k i)%Q.
Proof.
  intros (E0 & E1 & HS) Hm (e' & E & HL & HH). injection E as <-. unfold traced_end, end_or_max_range, reach.
  set (D := dist2 e s) in *. assert (HD : (0 < D)%Q) by (eapply Qlt_le_trans; [|exact HL]; reflexivity).
  assert (EQ : (vnorm2 (vsub s e) == D)%Q) by (apply dist2_sym). set (n2 := vnorm2 (vsub s e)) in *.
  destruct (HS n2) as (F0 & F1 & F2); [lra|]. set (f := fsqrt n2) in *. rewrite EQ in F1, F2. set (mx := rt_max c) in *.
  destruct (Qle_bool f mx) eqn:L.
  - apply Qle_bool_iff in L. exists 1%Q. split; [|intros i; unfold on_segment; ring].
    split; [reflexivity|]. split; [apply Qle_refl|]. split; [reflexivity|]. split; [|intros N; exfalso; apply N; reflexivity].
    assert (f * f <= mx * mx)%Q by nra. setoid_replace (1 * 1 * D)%Q with D by ring. lra.
  - assert (L' : (mx < f)%Q) by (apply Qnot_le_lt; intros C; apply Qle_bool_iff in C; congruence). clear L.
    assert (Hf : (0 < f)%Q) by lra. exists (mx / f)%Q. split; [|intros i; unfold on_segment; ring].
    assert (K1 : (mx / f * f == mx)%Q) by (field; lra). assert (K0 : (0 < mx / f)%Q) by (apply Qlt_shift_div_l; lra).
    assert (K2 : (mx / f <= 1)%Q) by (apply Qle_shift_div_r; lra). set (k := (mx / f)%Q) in *.
    assert (KK : (mx * mx == k * k * (f * f))%Q) by (rewrite <- K1; ring). assert (Hkk : (0 <= k * k)%Q) by nra.
    assert (A1 : (k * k * ((1 - eps) * (1 - eps) * D) <= k * k * (f * f))%Q) by (rewrite !(Qmult_comm (k * k)); apply Qmult_le_compat_r; assumption).
    assert (A2 : (k * k * (f * f) <= k * k * ((1 + eps) * (1 + eps) * D))%Q) by (rewrite !(Qmult_comm (k * k)); apply Qmult_le_compat_r; assumption).
    split; [exact K0|]. split; [exact K2|]. split; [|split].
    + intros G. exfalso. assert (mx * mx < f * f)%Q by (apply sq_lt; lra). lra.
    + rewrite KK. setoid_replace ((1 - eps) * (1 - eps) * (k * k * D))%Q with (k * k * ((1 - eps) * (1 - eps) * D))%Q by ring. exact A1.
    + intros _. rewrite KK. setoid_replace ((1 + eps) * (1 + eps) * (k * k * D))%Q with (k * k * ((1 + eps) * (1 + eps) * D))%Q by ring. exact A2.
Qed.

(** Any map whose [add] acts on one cell *)
Section ANY.
  Context {M : Type} (dom : idx3 -> Prop) (add : M -> idx3 -> Qc -> M) (get : M -> idx3 -> Qc) (ok : M -> Prop) (step : Qc -> Qc -> Qc).
  Context (Hok : forall m i u, dom i -> ok m -> ok (add m i u)).
  Context (Hadd : forall m i u c, dom i -> dom c -> ok m -> get (add m i u) c = if idx3_eq_dec c i then step (get m c) u else get m c).

  Definition mine (c : idx3) (l : list (idx3 * Qc)) : list Qc := map snd (filter (fun p => ieqb c (fst p)) l).
  Lemma adds_get l : forall m, Forall (fun p => dom (fst p)) l -> ok m -> let m' := fold_left (fun m p => add m (fst p) (snd p)) l m in
    ok m' /\ forall c, dom c -> get m' c = fold_left step (mine c l) (get m c).
  Proof using Hok Hadd.
    induction l as [|[i u] l IH]; intros m Hl Hm; [split; [exact Hm|reflexivity]|]. cbn [fold_left fst snd]. cbv zeta in *.
    inversion Hl as [|? ? Hi Hl']; subst. cbn [fst] in Hi.
    destruct (IH (add m i u) Hl' (Hok m i u Hi Hm)) as [A B]. split; [exact A|]. intros c Hc. rewrite B by exact Hc. unfold mine. cbn [filter fst]. rewrite Hadd by assumption.
    destruct (idx3_eq_dec c i) as [->|N]; [rewrite ieqb_refl; reflexivity|]. destruct (ieqb_spec c i); [contradiction|reflexivity].
  Qed.
End ANY.
Lemma vi_veq x y : vi x = vi y <-> veq 3 x y.
Proof.
  unfold vi, veq. split.
  - intros E i Hi. injection E as E0 E1 E2. destruct i as [|[|[|i]]]; [assumption|assumption|assumption|lia].
  - intros H. rewrite (H 0%nat), (H 1%nat), (H 2%nat) by lia. reflexivity.
Qed.
Lemma vi_at x c : vi x = c -> veq 3 (at_cell c) x.
Proof. intros <-. intros i Hi. destruct i as [|[|[|i]]]; [reflexivity|reflexivity|reflexivity|lia]. Qed.
Lemma touches_ext w x y p q : veq 3 x y -> (forall i, (i < 3)%nat -> (p i == q i)%Q) -> touches 3 w x p -> touches 3 w y q.
Proof. intros H G T i Hi. specialize (T i Hi). rewrite (H i Hi) in T. unfold in_cell in *. specialize (G i Hi). destruct T; split; lra. Qed.
Lemma crosses_ext w x y p q : veq 3 x y -> (forall i, (i < 3)%nat -> (p i == q i)%Q) -> crosses 3 w x p -> crosses 3 w y q.
Proof. intros H G T i Hi. specialize (T i Hi). rewrite (H i Hi) in T. unfold inside_cell in *. specialize (G i Hi). destruct T; split; lra. Qed.
Lemma seg_seg s e e' k t i : (e' i == on_segment s e k i)%Q -> (on_segment s e' t i == on_segment s e (t * k) i)%Q.
Proof. unfold on_segment. intros ->. ring. Qed.
(** A list without duplicates meets a value at most once *)
Lemma filter_once (l : list (vec Z)) c : (forall j k x, (j < k)%nat -> (k < length l)%nat -> ~ veq 3 (nth j l x) (nth k l x)) ->
  (length (filter (fun x => ieqb c (vi x)) l) <= 1)%nat.
Proof.
  induction l as [|a l IH]; intros H; [cbn; lia|]. cbn [filter].
  assert (IH' : (length (filter (fun x => ieqb c (vi x)) l) <= 1)%nat) by (apply IH; intros j k x J K; apply (H (S j) (S k) x); cbn; lia).
  destruct (ieqb_spec c (vi a)) as [E|N]; [|exact IH']. cbn [length].
  destruct (filter (fun x => ieqb c (vi x)) l) as [|b r] eqn:F; [cbn; lia|]. exfalso.
  assert (Hb : In b (filter (fun x => ieqb c (vi x)) l)) by (rewrite F; left; reflexivity). apply filter_In in Hb as [Hb Eb].
  destruct (ieqb_spec c (vi b)) as [E'|]; [|discriminate]. destruct (In_nth l b a Hb) as (k & Hk & Ek).
  apply (H 0%nat (S k) a); [lia|cbn; lia|]. cbn [nth]. rewrite Ek. apply vi_veq. congruence.
Qed.
Lemma nearest_in rnd w x : nearest rnd -> (0 < w)%Q -> in_cell w (rnd (x * (1 / w) - (1 # 2))%Q) x.
Proof.
  intros Hr Hw. pose proof (C09_cell_contains_point rnd w [x] Hr Hw) as H. unfold point_in_cell in H.
  inversion H; subst. assumption.
Qed.
Lemma nearest_inside rnd w z x : nearest rnd -> (0 < w)%Q -> inside_cell w z x -> rnd (x * (1 / w) - (1 # 2))%Q = z.
Proof.
  intros Hr Hw Hi. pose proof (C09_interior_point rnd w [z] [x] Hr Hw) as H. unfold point_inside_cell in H.
  specialize (H ltac:(constructor; [assumption|constructor])). injection H as H. exact H.
Qed.

Definition point_updates rnd fsqrt (c : rtconfig) (w : Q) (s : vec Q) (p : fpoint) : list (idx3 * Qc) :=
  match p with
  | PFin e => if measurement_valid (vnorm2 (vsub e s)) then
      map (fun x => (vi x, ray_update rnd w e x)) (ray_visit 3 (ray_of_points rnd 3 s (traced_end fsqrt c s e) w)) else []
  | _ => []
  end.
Lemma rt_point_updates {M} rnd fsqrt (add : M -> idx3 -> Qc -> M) c w s m p :
  rt_point rnd fsqrt add c w s m p = fold_left (fun m q => add m (fst q) (snd q)) (point_updates rnd fsqrt c w s p) m.
Proof.
  destruct p as [| |e]; try reflexivity. cbn [rt_point point_updates]. destruct (measurement_valid _); [|reflexivity].
  generalize (ray_visit 3 (ray_of_points rnd 3 s (traced_end fsqrt c s e) w)). intros l. revert m. induction l as [|x l IH]; intros m; [reflexivity|]. cbn [map fold_left fst snd]. apply IH.
Qed.
Lemma point_contribution rnd fsqrt eps cfg w s c p : nearest rnd -> sqrt_within eps fsqrt -> (0 < w)%Q -> (0 < rt_max cfg)%Q ->
  (forall e, p = PFin e -> usable s p -> forall i, (i < 3)%nat -> exists z, inside_cell w z (traced_end fsqrt cfg s e i)) ->
  contribution eps (rt_max cfg) w s c p (mine c (point_updates rnd fsqrt cfg w s p)).
Proof.
  intros Hr HS Hw Hm He. split.
  - intros Nu. destruct p as [| |e]; try reflexivity. cbn [point_updates].
    destruct (measurement_valid _) eqn:V; [|reflexivity]. apply valid_usable in V. contradiction.
  - intros e -> Hu. specialize (He e eq_refl Hu). destruct (traced_reach eps fsqrt cfg s e HS Hm Hu) as (k & Hk & Ek).
    exists k. split; [exact Hk|]. cbn [point_updates]. pose proof Hu as V. apply valid_usable in V. rewrite V. clear V.
    set (e' := traced_end fsqrt cfg s e) in *. set (l := ray_visit 3 (ray_of_points rnd 3 s e' w)).
    assert (Hz : forall i, (i < 3)%nat -> inside_cell w (end_cell rnd w e' i) (e' i)).
    { intros i Hi. destruct (He i Hi) as (z & Z). unfold end_cell. rewrite (nearest_inside rnd w z (e' i) Hr Hw Z). exact Z. }
    pose proof (C33_points_follow_segment_partial rnd 3 s e' w _ Hr ltac:(lia) Hw Hz) as [(T & HT & _) HC].
    pose proof (C33_ray_between_points_partial rnd 3 s e' w _ Hr ltac:(lia) Hw Hz) as (si & _ & SP). fold l in HT, HC, SP.
    assert (ND : forall j k x, (j < k)%nat -> (k < length l)%nat -> ~ veq 3 (nth j l x) (nth k l x)) by (destruct SP as (_ & _ & _ & _ & SP); exact SP).
    assert (EM : mine c (map (fun x => (vi x, ray_update rnd w e x)) l) = map (ray_update rnd w e) (filter (fun x => ieqb c (vi x)) l)).
    { clear. induction l as [|x l IH]; [reflexivity|]. unfold mine in *. cbn [map filter fst]. destruct (ieqb c (vi x)); cbn [map snd]; rewrite IH; reflexivity. }
    rewrite EM. clear EM. split; [rewrite map_length; apply filter_once; exact ND|]. split; [|split].
    + intros (t & T0 & T1 & HX). destruct Hk as (K0 & K1 & _). destruct (HC (t / k)%Q (at_cell c)) as (y & Hy & Ey).
      * apply Qle_shift_div_l; lra.
      * apply Qle_shift_div_r; lra.
      * revert HX. apply crosses_ext; [intros i _; reflexivity|]. intros i _. rewrite (seg_seg s e e' k _ i (Ek i)). unfold on_segment. field. lra.
      * intros F. assert (I : In y (filter (fun x => ieqb c (vi x)) l)).
        { apply filter_In. split; [exact Hy|]. apply vi_veq in Ey. destruct (ieqb_spec c (vi y)) as [|N]; [reflexivity|]. exfalso. apply N. rewrite <- Ey. destruct c; reflexivity. }
        destruct (filter _ l); [destruct I|discriminate F].
    + intros F. destruct (filter (fun x => ieqb c (vi x)) l) as [|y r] eqn:E; [contradiction|].
      assert (I : In y (filter (fun x => ieqb c (vi x)) l)) by (rewrite E; left; reflexivity). apply filter_In in I as [I Ey].
      destruct (ieqb_spec c (vi y)) as [Ec|]; [|discriminate]. destruct (In_nth l y y I) as (j & Hj & Ej). destruct (HT j Hj) as (T0 & T1 & HX).
      destruct Hk as (K0 & K1 & _). exists (T j * k)%Q. split; [apply Qmult_le_0_compat; lra|]. split; [nra|].
      specialize (HX y). rewrite Ej in HX. revert HX. apply touches_ext; [|intros i _; apply seg_seg, Ek].
      intros i Hi. symmetry. apply vi_at; [symmetry; exact Ec|exact Hi].
    + intros u Iu. apply in_map_iff in Iu as (y & <- & I). apply filter_In in I as [I Ey]. destruct (ieqb_spec c (vi y)) as [Ec|]; [|discriminate].
      unfold ray_update. destruct (ieqb_spec (vi y) (vi (end_cell rnd w e))) as [E|N].
      * left. split; [reflexivity|]. intros i Hi. unfold meets. rewrite (vi_at (end_cell rnd w e) c) by (congruence || exact Hi). unfold end_cell. apply nearest_in; assumption.
      * right. split; [reflexivity|]. intros HX. apply N. apply vi_veq. intros i Hi. specialize (HX i Hi).
        rewrite (vi_at y c (eq_sym Ec) i Hi) in HX. unfold end_cell. symmetry. apply (nearest_inside rnd w _ _ Hr Hw HX).
Qed.
Lemma updates_in dom rnd fsqrt cfg w s p : nearest rnd -> (0 < w)%Q -> ends_inside fsqrt cfg w s [p] -> stays_in dom fsqrt cfg w s [p] ->
  Forall (fun q => dom (fst q)) (point_updates rnd fsqrt cfg w s p).
Proof.
  intros Hr Hw He Hd. destruct p as [| |e]; try constructor. cbn [point_updates]. destruct (measurement_valid _) eqn:V; [|constructor].
  apply valid_usable in V. specialize (He e (or_introl eq_refl) V). specialize (Hd e (or_introl eq_refl) V).
  set (e' := traced_end fsqrt cfg s e) in *. set (l := ray_visit 3 (ray_of_points rnd 3 s e' w)).
  assert (Hz : forall i, (i < 3)%nat -> inside_cell w (end_cell rnd w e' i) (e' i)).
  { intros i Hi. destruct (He i Hi) as (z & Z). unfold end_cell. rewrite (nearest_inside rnd w z (e' i) Hr Hw Z). exact Z. }
  pose proof (C33_points_follow_segment_partial rnd 3 s e' w _ Hr ltac:(lia) Hw Hz) as [(T & HT & _) _]. fold l in HT.
  apply Forall_forall. intros q I. apply in_map_iff in I as (y & <- & I). cbn [fst]. destruct (In_nth l y y I) as (j & Hj & Ej).
  destruct (HT j Hj) as (T0 & T1 & HX). apply (Hd (T j)); [exact T0|exact T1|]. specialize (HX y). rewrite Ej in HX. revert HX.
  apply touches_ext; [|reflexivity]. intros i Hi. symmetry. apply vi_at; [reflexivity|exact Hi].
Qed.
Section ANY2.
  Context {M : Type} (dom : idx3 -> Prop) (add : M -> idx3 -> Qc -> M) (get : M -> idx3 -> Qc) (ok : M -> Prop) (step : Qc -> Qc -> Qc).
  Context (Hok : forall m i u, dom i -> ok m -> ok (add m i u)).
  Context (Hadd : forall m i u c, dom i -> dom c -> ok m -> get (add m i u) c = if idx3_eq_dec c i then step (get m c) u else get m c).
  Lemma points_integrated rnd fsqrt eps cfg w s : nearest rnd -> sqrt_within eps fsqrt -> (0 < w)%Q -> (0 < rt_max cfg)%Q ->
    forall points m, ends_inside fsqrt cfg w s points -> stays_in dom fsqrt cfg w s points -> ok m ->
    let m' := fold_left (rt_point rnd fsqrt add cfg w s) points m in ok m' /\ integrated_in dom eps (rt_max cfg) w step s points (get m) (get m').
  Proof using Hok Hadd.
    intros Hr HS Hw Hm. induction points as [|p points IH]; intros m He Hd Hm0; cbv zeta in *.
    - split; [exact Hm0|]. intros c _. exists []. split; [constructor|reflexivity].
    - cbn [fold_left]. set (m1 := rt_point rnd fsqrt add cfg w s m p).
      assert (H1 : ok m1 /\ forall c, dom c -> get m1 c = fold_left step (mine c (point_updates rnd fsqrt cfg w s p)) (get m c)).
      { unfold m1. rewrite rt_point_updates. apply (adds_get dom add get ok step Hok Hadd _ m); [|exact Hm0].
        apply updates_in; try assumption; intros e [->|[]]; [apply He|apply Hd]; left; reflexivity. }
      destruct H1 as [O1 H1].
      destruct (IH m1) as [A B]; [intros e I; apply He; right; exact I|intros e I; apply Hd; right; exact I|exact O1|]. split; [exact A|].
      intros c Dc. destruct (B c Dc) as (us & F & E). exists (mine c (point_updates rnd fsqrt cfg w s p) :: us). split.
      + constructor; [|exact F]. apply point_contribution; try assumption. intros e -> Hu. apply He; [left; reflexivity|exact Hu].
      + rewrite E. cbn [concat]. rewrite fold_left_app, H1 by exact Dc. reflexivity.
  Qed.
  Lemma cloud_integrated rnd fsqrt eps cfg w pose s cloud m : nearest rnd -> sqrt_within eps fsqrt -> (0 < w)%Q -> rt_valid cfg = true -> rp_pos pose = Some s ->
    cloud <> [] -> let points := map (in_world (rp_rot pose) s) cloud in ends_inside fsqrt cfg w s points -> stays_in dom fsqrt cfg w s points -> ok m ->
    exists m', rt_integrate rnd fsqrt add cfg w m pose cloud = Some m' /\ ok m' /\ integrated_in dom eps (rt_max cfg) w step s points (get m) (get m').
  Proof using Hok Hadd.
    intros Hr HS Hw Hc Hp Hn points He Hd Hm. assert (HM : (0 < rt_max cfg)%Q).
    { unfold rt_valid in Hc. rewrite !andb_true_iff, !negb_true_iff in Hc. destruct Hc as [[_ H] _]. apply Qnot_le_lt. intros C. apply Qle_bool_iff in C. congruence. }
    unfold rt_integrate. rewrite Hp. assert (EP : map (to_global (rp_rot pose) s) cloud = points) by (apply map_ext; intros [| |x]; reflexivity). rewrite EP.
    eexists. split; [destruct cloud; [contradiction|reflexivity]|].
    apply points_integrated; assumption.
  Qed.
End ANY2.
Lemma stays_everywhere fsqrt cfg w s points : stays_in everywhere fsqrt cfg w s points.
Proof. intros e _ _ t x _ _ _. exact I. Qed.

Lemma cell_node i c : in_node (cell i) c = if idx3_eq_dec c i then true else false.
Proof.
  unfold in_node, cell. cbn [oh opos]. change (2 ^ 0) with 1. destruct (idx3_eq_dec c i) as [->|N].
  - rewrite !andb_true_iff, !Z.leb_le, !Z.ltb_lt. lia.
  - apply not_true_is_false. rewrite !andb_true_iff, !Z.leb_le, !Z.ltb_lt. intros H. apply N. destruct c, i; cbn in *. f_equal; lia.
Qed.

(** ** Theorems *)
(** A pose with a NaN position leaves the map unchanged. *)
Theorem C55_invalid_pose : forall {M} rnd fsqrt (add : M -> idx3 -> Qc -> M) cfg w m pose cloud, rp_pos pose = None ->
  rt_integrate rnd fsqrt add cfg w m pose cloud = Some m.
Proof. intros M rnd fsqrt add cfg w m pose cloud E. unfold rt_integrate. rewrite E. reflexivity. Qed.
(** The hashed wavelet octree, from any state a history of calls leads to: updates are added. *)
Theorem C55_hashed_wavelet_partial : forall rnd fsqrt eps cfg w C m now pose s cloud,
  nearest rnd -> sqrt_within eps fsqrt -> (0 < w)%Q -> rt_valid cfg = true -> valid_config C -> hashed_reachable C m -> rp_pos pose = Some s ->
  cloud <> [] -> let points := map (in_world (rp_rot pose) s) cloud in ends_inside fsqrt cfg w s points ->
  exists m', rt_integrate rnd fsqrt (hw_add qn C now) cfg w m pose cloud = Some m' /\
    integrated eps (rt_max cfg) w Qcplus s points (hw_get qn C m) (hw_get qn C m').
Proof.
  intros rnd fsqrt eps cfg w C m now pose s cloud Hr HS Hw Hc HC Hm Hp Hn points He.
  destruct (cloud_integrated everywhere (hw_add qn C now) (hw_get qn C) (hashed_reachable C) Qcplus) with (rnd := rnd) (fsqrt := fsqrt) (eps := eps) (cfg := cfg) (w := w) (pose := pose) (s := s) (cloud := cloud) (m := m)
    as (m' & E & _ & R); try assumption.
  - intros m0 i u _ (l & ->). exists (l ++ [(now, HAdd i u)]). unfold hw_run. rewrite fold_left_app. reflexivity.
  - intros m0 i u c _ _ H0. apply C11_add_exact; assumption.
  - apply stays_everywhere.
  - exists m'. split; assumption.
Qed.
(** The hashed chunked wavelet octree *)
Theorem C55_hashed_chunked_partial : forall fuel rnd fsqrt eps cfg w C m now pose s cloud,
  nearest rnd -> sqrt_within eps fsqrt -> (0 < w)%Q -> rt_valid cfg = true -> valid_config C -> (Z.to_nat (cT C) <= fuel)%nat -> chunked_reachable fuel C m ->
  rp_pos pose = Some s -> cloud <> [] ->
  let points := map (in_world (rp_rot pose) s) cloud in ends_inside fsqrt cfg w s points ->
  exists m', rt_integrate rnd fsqrt (hc_add qn C now) cfg w m pose cloud = Some m' /\
    integrated eps (rt_max cfg) w Qcplus s points (hc_get qn C m) (hc_get qn C m').
Proof.
  intros fuel rnd fsqrt eps cfg w C m now pose s cloud Hr HS Hw Hc HC Hf Hm Hp Hn points He.
  destruct (cloud_integrated everywhere (hc_add qn C now) (hc_get qn C) (chunked_reachable fuel C) Qcplus) with (rnd := rnd) (fsqrt := fsqrt) (eps := eps) (cfg := cfg) (w := w) (pose := pose) (s := s) (cloud := cloud) (m := m)
    as (m' & E & _ & R); try assumption.
  - intros m0 i u _ (l & ->). exists (l ++ [(now, HAdd i u)]). unfold hc_run. rewrite fold_left_app. reflexivity.
  - intros m0 i u c _ _ H0. apply (C11_chunked_add_exact fuel); assumption.
  - apply stays_everywhere.
  - exists m'. split; assumption.
Qed.
(** Dense blocks: the value is clamped after every update, so the order of the points matters. *)
Definition clamped_sum (lo hi v u : Qc) : Qc := if qltb (v + u)%Qc lo then lo else if qltb hi (v + u)%Qc then hi else (v + u)%Qc.
Theorem C55_hashed_blocks_partial : forall rnd fsqrt eps cfg w (C : hbconfig Qc) l pose s cloud,
  nearest rnd -> sqrt_within eps fsqrt -> (0 < w)%Q -> rt_valid cfg = true -> 0 <= hK C -> rp_pos pose = Some s -> cloud <> [] ->
  let m := hb_run qn C l in let points := map (in_world (rp_rot pose) s) cloud in ends_inside fsqrt cfg w s points ->
  exists m', rt_integrate rnd fsqrt (hb_add qn C) cfg w m pose cloud = Some m' /\
    integrated eps (rt_max cfg) w (clamped_sum (hlo C) (hhi C)) s points (hb_get C m) (hb_get C m').
Proof.
  intros rnd fsqrt eps cfg w C l pose s cloud Hr HS Hw Hc HC Hp Hn m points He.
  destruct (cloud_integrated everywhere (hb_add qn C) (hb_get C) (fun m => exists l, m = hb_run qn C l) (clamped_sum (hlo C) (hhi C))) with (rnd := rnd) (fsqrt := fsqrt) (eps := eps) (cfg := cfg) (w := w) (pose := pose) (s := s) (cloud := cloud) (m := m)
    as (m' & E & _ & R); try assumption.
  - intros m0 i u _ (l0 & ->). exists (l0 ++ [HBAdd i u]). unfold hb_run. rewrite fold_left_app. reflexivity.
  - intros m0 i u c _ _ (l0 & ->). unfold hb_add. rewrite get_modify by (try assumption; apply run_bwf).
    destruct (idx3_eq_dec i c), (idx3_eq_dec c i); try congruence; reflexivity.
  - apply stays_everywhere.
  - exists l. reflexivity.
  - exists m'. split; assumption.
Qed.
(** The wavelet octree, from any state a history of calls leads to, if the traced rays stay inside the octree *)
Theorem C55_wavelet_octree_partial : forall rnd fsqrt eps cfg w C t pose s cloud,
  nearest rnd -> sqrt_within eps fsqrt -> (0 < w)%Q -> rt_valid cfg = true -> valid_config C -> plain_reachable C t -> rp_pos pose = Some s -> cloud <> [] ->
  let points := map (in_world (rp_rot pose) s) cloud in let inside := fun c => in_octree (cT C) (cell c) in
  ends_inside fsqrt cfg w s points -> stays_in inside fsqrt cfg w s points ->
  exists t', rt_integrate rnd fsqrt (fun t i u => wo_add qn C t (cell i) u) cfg w t pose cloud = Some t' /\
    integrated_in inside eps (rt_max cfg) w Qcplus s points (fun c => wo_get qn C t (cell c)) (fun c => wo_get qn C t' (cell c)).
Proof.
  intros rnd fsqrt eps cfg w C t pose s cloud Hr HS Hw Hc HC Ht Hp Hn points inside He Hi.
  destruct (cloud_integrated inside (fun t i u => wo_add qn C t (cell i) u) (fun t c => wo_get qn C t (cell c)) (plain_reachable C) Qcplus) with (rnd := rnd) (fsqrt := fsqrt) (eps := eps) (cfg := cfg) (w := w) (pose := pose) (s := s) (cloud := cloud) (m := t)
    as (t' & E & _ & R); try assumption.
  - intros m0 i u Hd (l & F & ->). exists (l ++ [CAdd (cell i) u]). split; [apply Forall_app; split; [exact F|constructor; [exact Hd|constructor]]|].
    unfold wo_run. rewrite fold_left_app. reflexivity.
  - intros m0 i u c Hd Hdc H0. rewrite C10_add_exact by assumption. rewrite cell_node. destruct (idx3_eq_dec c i); reflexivity.
  - exists t'. split; assumption.
Qed.
(** The octree without wavelets (VolumetricOctree), for maps only written cell by cell *)
Theorem C55_volumetric_octree_partial : forall rnd fsqrt eps cfg w C l pose s cloud,
  nearest rnd -> sqrt_within eps fsqrt -> (0 < w)%Q -> rt_valid cfg = true -> vo_valid C -> Forall (cell_call_ok (cT C)) l -> rp_pos pose = Some s -> cloud <> [] ->
  let t := vo_run qn keps C (map to_vcall l) in
  let points := map (in_world (rp_rot pose) s) cloud in let inside := fun c => in_octree (cT C) (cell c) in
  ends_inside fsqrt cfg w s points -> stays_in inside fsqrt cfg w s points ->
  exists t', rt_integrate rnd fsqrt (fun t i u => vo_add qn C t (cell i) u) cfg w t pose cloud = Some t' /\
    integrated_in inside eps (rt_max cfg) w Qcplus s points (vo_get C t) (vo_get C t').
Proof.
  intros rnd fsqrt eps cfg w C l pose s cloud Hr HS Hw Hc HC Hl Hp Hn t points inside He Hi.
  destruct (cloud_integrated inside (fun t i u => vo_add qn C t (cell i) u) (vo_get C) (fun t => exists l, Forall (cell_call_ok (cT C)) l /\ t = vo_run qn keps C (map to_vcall l)) Qcplus) with (rnd := rnd) (fsqrt := fsqrt) (eps := eps) (cfg := cfg) (w := w) (pose := pose) (s := s) (cloud := cloud) (m := t)
    as (t' & E & _ & R); try assumption.
  - intros m0 i u Hd (l0 & F & ->). exists (l0 ++ [CellAdd i u]). split; [apply Forall_app; split; [exact F|constructor; [exact Hd|constructor]]|].
    rewrite map_app. unfold vo_run. rewrite fold_left_app. reflexivity.
  - intros m0 i u c Hd Hdc (l0 & F & ->).
    assert (F' : Forall (cell_call_ok (cT C)) (l0 ++ [CellAdd i u])) by (apply Forall_app; split; [exact F|constructor; [exact Hd|constructor]]).
    pose proof (proj1 (C22_cell_histories_partial C _ HC F') c Hdc) as G. pose proof (proj1 (C22_cell_histories_partial C _ HC F) c Hdc) as G0.
    rewrite map_app in G. unfold vo_run in G. rewrite fold_left_app in G. cbn [map fold_left to_vcall vo_apply] in G. unfold vo_run. change (P_VolOctree.cell i) with (cell i) in G. rewrite G.
    unfold vo_run in G0. rewrite G0. unfold cell_run. rewrite fold_left_app. cbn [fold_left cell_apply].
    destruct (idx3_eq_dec c i) as [->|N]; [rewrite ieqb_refl; reflexivity|]. destruct (ieqb_spec i c); [congruence|reflexivity].
  - exists l. split; [exact Hl|reflexivity].
  - exists t'. split; assumption.
Qed.

(** ** Non-vacuity *)
(** A square root with a relative error below 1/1024 *)
Definition rsqrt (x : Q) : Q := (inject_Z (Z.sqrt (Qnum x * QDen x * 16777216)) / inject_Z (QDen x * 4096))%Q.
Lemma rsqrt_within : sqrt_within (1 # 1024) rsqrt.
Proof.
  split; [discriminate|]. split; [reflexivity|]. intros [n d] Hx. unfold rsqrt. cbn [Qnum Qden]. assert (Hn : 0 <= n) by (unfold Qle in Hx; cbn in Hx; lia).
  set (N := n * Z.pos d * 16777216). assert (HN : 0 <= N) by (unfold N; nia). pose proof (Z.sqrt_spec N HN) as SP. cbv zeta in SP. unfold Z.succ in SP.
  set (r := Z.sqrt N) in *. assert (Hr : 0 <= r) by (apply Z.sqrt_nonneg).
  assert (L : 1023 * 1023 * N <= 1024 * 1024 * (r * r)).
  { destruct (Z.eq_dec n 0) as [->|Nz]; [unfold N in *; nia|]. assert (4096 <= r) by (assert (4096 * 4096 <= N) by (unfold N; nia); nia).
    assert (1023 * 1023 * ((r + 1) * (r + 1)) <= 1024 * 1024 * (r * r)); [|nia].
    assert (K : 1023 * (r + 1) <= 1024 * r) by lia. assert (0 <= 1023 * (r + 1)) by lia. set (a := 1023 * (r + 1)) in *. replace (1023 * 1023 * ((r + 1) * (r + 1))) with (a * a) by (unfold a; ring). nia. }
  assert (EN : N = n * Z.pos d * 16777216) by reflexivity. clearbody N. clear HN. destruct SP as [SP _].
  set (D := (Z.pos d * 4096)). assert (HD : 0 < D) by (unfold D; lia).
  assert (X : (n # d == inject_Z N / (inject_Z D * inject_Z D))%Q).
  { rewrite EN. unfold D. rewrite !inject_Z_mult. setoid_replace (n # d)%Q with (inject_Z n / inject_Z (Z.pos d))%Q by (symmetry; rewrite <- Qmake_Qdiv; reflexivity). change (inject_Z 16777216) with (16777216)%Q. change (inject_Z 4096) with (4096)%Q. field. intros C. discriminate C. }
  assert (HDq : (0 < inject_Z D)%Q) by (apply injZ_lt; exact HD).
  assert (P : (0 < inject_Z D * inject_Z D)%Q) by nra.
  split; [apply Qle_shift_div_l; [exact HDq|]; setoid_replace (0 * inject_Z D)%Q with (inject_Z 0) by (change (inject_Z 0) with 0%Q; ring); rewrite <- Zle_Qle; exact Hr|].
  rewrite X. assert (Y : (inject_Z r / inject_Z D * (inject_Z r / inject_Z D) == inject_Z (r * r) / (inject_Z D * inject_Z D))%Q) by (rewrite inject_Z_mult; field; lra).
  rewrite Y. split.
  - apply Qle_shift_div_l; [exact P|]. rewrite Zle_Qle in L. rewrite !inject_Z_mult in L. rewrite inject_Z_mult.
    setoid_replace ((1 - (1 # 1024)) * (1 - (1 # 1024)) * (inject_Z N / (inject_Z D * inject_Z D)) * (inject_Z D * inject_Z D))%Q with ((1 - (1 # 1024)) * (1 - (1 # 1024)) * inject_Z N)%Q by (field; lra).
    change (inject_Z 1023) with 1023%Q in L. change (inject_Z 1024) with 1024%Q in L. lra.
  - apply Qle_shift_div_r; [exact P|]. rewrite Zle_Qle in SP. rewrite inject_Z_mult in *. 
    setoid_replace ((1 + (1 # 1024)) * (1 + (1 # 1024)) * (inject_Z N / (inject_Z D * inject_Z D)) * (inject_Z D * inject_Z D))%Q with ((1 + (1 # 1024)) * (1 + (1 # 1024)) * inject_Z N)%Q by (field; lra).
    assert (0 <= inject_Z N)%Q by (change 0%Q with (inject_Z 0); rewrite <- Zle_Qle, EN; nia). lra.
Qed.
Definition no_rot : nat -> nat -> Q := fun i j => if Nat.eqb i j then 1%Q else 0%Q.
Definition ex_pose : rpose := RPose (Some (v3 (1 # 2) (1 # 2) (1 # 2))%Q) no_rot.
Definition ex_cfg : rtconfig := RTC (1 # 2) 4.
(** Four points: one hit at 2.2 m, a NaN, one beyond max_range (4 m), and one 0.1 mm from the sensor *)
Definition ex_cloud : list fpoint := [PFin (v3 2 1 0)%Q; PNan; PFin (v3 6 0 0)%Q; PFin (v3 0 (1 # 10000) 0)%Q].
Definition ex_before := hw_run exC [(5, HAdd (I3 1 0 0) (Q2Qc 3))].
Definition ex_after := rt_integrate round_away rsqrt (hw_add qn exC 7) ex_cfg 1 ex_before ex_pose ex_cloud.
Definition reads {M} (get : M -> idx3 -> Qc) (m : option M) (cs : list idx3) : list Q :=
  match m with Some m => map (fun c => Qred (this (get m c))) cs | None => [] end.
Example C55_ex : rt_valid ex_cfg = true /\
  reads (hw_get qn exC) ex_after [I3 0 0 0; I3 1 0 0; I3 2 1 0; I3 4 0 0; I3 5 0 0; I3 2 0 0; I3 1 1 0; I3 6 0 0] =
    [(- 13421773 # 16777216); (36909875 # 16777216); (7130317 # 8388608); (- 13421773 # 33554432); 0; (- 13421773 # 33554432); (- 13421773 # 33554432); 0]%Q.
Proof. split; [reflexivity|]. vm_compute. reflexivity. Qed.
Example C55_ex_hyp : nearest round_away /\ sqrt_within (1 # 1024) rsqrt /\ valid_config exC /\
  ends_inside rsqrt ex_cfg 1 (v3 (1 # 2) (1 # 2) (1 # 2))%Q (map (in_world no_rot (v3 (1 # 2) (1 # 2) (1 # 2))%Q) ex_cloud).
Proof.
  split; [exact round_away_nearest|]. split; [exact rsqrt_within|]. split; [exact exC_valid|].
  intros e I (e' & E & L & _) i Hi. injection E as <-. cbn [map in_world ex_cloud In] in I.
  destruct I as [I|[I|[I|[I|[]]]]]; try discriminate I; injection I as <-.
  - exists (match i with O => 2 | S O => 1 | _ => 0 end). destruct i as [|[|[|i]]]; [| | |lia]; vm_compute; auto.
  - exists (match i with O => 4 | S O => 0 | _ => 0 end). destruct i as [|[|[|i]]]; [| | |lia]; vm_compute; auto.
  - exfalso. apply L. vm_compute. reflexivity.
Qed.

(** The octrees: all rays of the cloud without the second and third point stay inside an octree of 2^3 cells per side around the origin. *)
Definition ex_cloud2 : list fpoint := [PFin (v3 2 1 0)%Q; PFin (v3 0 (1 # 10000) 0)%Q; PFin (v3 (- (2)) (- (1)) 0)%Q].
Example C55_ex_octrees :
  reads (fun t c => wo_get qn exC t (cell c)) (rt_integrate round_away rsqrt (fun t i u => wo_add qn exC t (cell i) u) ex_cfg 1 (wo_run exC [CAdd (cell (I3 1 0 0)) (Q2Qc 3)]) ex_pose ex_cloud2)
    [I3 0 0 0; I3 1 0 0; I3 2 1 0; I3 (-2) (-1) 0; I3 3 3 3] = [(- 13421773 # 16777216); (87241523 # 33554432); (7130317 # 8388608); (7130317 # 8388608); 0]%Q /\
  reads (vo_get exC) (rt_integrate round_away rsqrt (fun t i u => vo_add qn exC t (cell i) u) ex_cfg 1 (vo_run qn keps exC [VAdd (cell (I3 1 0 0)) (Q2Qc 3)]) ex_pose ex_cloud2)
    [I3 0 0 0; I3 1 0 0; I3 2 1 0; I3 (-2) (-1) 0; I3 3 3 3] = [(- 13421773 # 16777216); (87241523 # 33554432); (7130317 # 8388608); (7130317 # 8388608); 0]%Q.
Proof. split; vm_compute; reflexivity. Qed.
Example C55_ex_octrees_hyp : let points := map (in_world no_rot (v3 (1 # 2) (1 # 2) (1 # 2))%Q) ex_cloud2 in
  ends_inside rsqrt ex_cfg 1 (v3 (1 # 2) (1 # 2) (1 # 2))%Q points /\
  stays_in (fun c => in_octree (cT exC) (cell c)) rsqrt ex_cfg 1 (v3 (1 # 2) (1 # 2) (1 # 2))%Q points.
Proof.
  cbv zeta. split.
  - intros e I (e' & E & L & _) i Hi. injection E as <-. cbn [map in_world ex_cloud2 In] in I.
    destruct I as [I|[I|[I|[]]]]; injection I as <-.
    + exists (match i with O => 2 | S O => 1 | _ => 0 end). destruct i as [|[|[|i]]]; [| | |lia]; vm_compute; auto.
    + exfalso. apply L. vm_compute. reflexivity.
    + exists (match i with O => -2 | S O => -1 | _ => 0 end). destruct i as [|[|[|i]]]; [| | |lia]; vm_compute; auto.
  - assert (G : forall (s e : vec Q) t x, (forall i, (i < 3)%nat -> (- (3) <= s i /\ s i <= 3)%Q /\ (- (3) <= e i /\ e i <= 3)%Q) -> (0 <= t)%Q -> (t <= 1)%Q ->
      meets 1 x (on_segment s e t) -> in_octree (cT exC) (cell x)).
    { clear. intros s e t x H T0 T1 HX. assert (B : forall i, (i < 3)%nat -> -4 <= at_cell x i < 4).
      { intros i Hi. destruct (H i Hi) as [[A1 A2] [A3 A4]]. destruct (HX i Hi) as [X1 X2]. unfold on_segment in *.
        assert (L1 : (- (3) <= s i + t * (e i - s i))%Q) by nra. assert (L2 : (s i + t * (e i - s i) <= 3)%Q) by nra.
        assert (M1 : (inject_Z (-4) <= inject_Z (at_cell x i))%Q) by (change (inject_Z (-4)) with (-4)%Q; lra).
        assert (M2 : (inject_Z (at_cell x i) <= inject_Z 3)%Q) by (change (inject_Z 3) with 3%Q; lra).
        rewrite <- Zle_Qle in M1. rewrite <- Zle_Qle in M2. lia. }
      pose proof (B 0%nat ltac:(lia)). pose proof (B 1%nat ltac:(lia)). pose proof (B 2%nat ltac:(lia)). cbn [at_cell] in *.
      unfold in_octree, cell. cbn. lia. }
    intros e I (e' & E & L & _) t x. injection E as <-. cbn [map in_world ex_cloud2 In] in I.
    destruct I as [I|[I|[I|[]]]]; injection I as <-; [|exfalso; apply L; vm_compute; reflexivity|];
      apply G; intros i Hi; destruct i as [|[|[|i]]]; try lia; repeat split; vm_compute; discriminate.
Qed.

(** ** False variants *)
(** Points closer than min_range are integrated all the same: the parameter is never used. *)
Theorem C55_min_range_refuted : exists cfg (s e : vec Q) c, rt_valid cfg = true /\ (dist2 e s < rt_min cfg * rt_min cfg)%Q /\
  exists m, rt_integrate round_away rsqrt (hw_add qn exC 7) cfg 1 [] (RPose (Some s) no_rot) [PFin (vsub e s)] = Some m /\ hw_get qn exC m c <> 0%Qc.
Proof.
  exists (RTC 2 4), (v3 (1 # 2) (1 # 2) (1 # 2))%Q, (v3 (3 # 2) (1 # 2) (1 # 2))%Q, (I3 1 0 0). split; [reflexivity|]. split; [reflexivity|].
  eexists. split; [reflexivity|]. intros H. apply (f_equal this) in H. vm_compute in H. discriminate H.
Qed.
(** A cloud without points aborts the process. *)
Theorem C55_empty_cloud_refuted : exists cfg pose m, rt_valid cfg = true /\ hashed_reachable exC m /\ rp_pos pose <> None /\
  rt_integrate round_away rsqrt (hw_add qn exC 7) cfg 1 m pose [] = None.
Proof. exists ex_cfg, ex_pose, ex_before. split; [reflexivity|]. split; [eexists; reflexivity|]. split; [discriminate|reflexivity]. Qed.
(** If the end point lies on a cell face, it can happen that no cell at all is updated as occupied. *)
Theorem C55_end_on_face_refuted : exists cfg (s e : vec Q), rt_valid cfg = true /\ usable s (PFin e) /\ (dist2 e s < rt_max cfg * rt_max cfg)%Q /\
  exists m, rt_integrate round_away rsqrt (hw_add qn exC 7) cfg 1 [] (RPose (Some s) no_rot) [PFin (vsub e s)] = Some m /\ forall c, (hw_get qn exC m c <= 0)%Qc.
Proof.
  exists (RTC 1 4), (v3 (- (1 # 2)) (1 # 2) (1 # 2))%Q, (v3 0 1 (1 # 2))%Q. split; [reflexivity|]. split; [|split; [reflexivity|]].
  - exists (v3 0 1 (1 # 2))%Q. split; [reflexivity|]. split; vm_compute; discriminate.
  - set (s := (v3 (- (1 # 2)) (1 # 2) (1 # 2))%Q). set (e := (v3 0 1 (1 # 2))%Q). unfold rt_integrate. cbn [rp_pos rp_rot map fold_left].
    eexists. split; [reflexivity|]. intros c. rewrite rt_point_updates.
    assert (E : point_updates round_away rsqrt (RTC 1 4) 1 s (to_global no_rot s (PFin (vsub e s))) = [(I3 (-1) 0 0, log_odds_free); (I3 0 0 0, log_odds_free)]) by (vm_compute; reflexivity).
    rewrite E. cbn [fold_left fst snd]. assert (R0 : hashed_reachable exC []) by (exists []; reflexivity).
    rewrite !C11_add_exact; try exact exC_valid; try exact R0.
    + assert (Z0 : hw_get qn exC [] c = 0%Qc) by reflexivity. rewrite Z0. destruct (idx3_eq_dec c (I3 0 0 0)), (idx3_eq_dec c (I3 (-1) 0 0)); vm_compute; discriminate.
    + exists [(7, HAdd (I3 (-1) 0 0) log_odds_free)]. reflexivity.
Qed.
Print Assumptions C55_invalid_pose.
Print Assumptions C55_hashed_wavelet_partial.
Print Assumptions C55_hashed_chunked_partial.
Print Assumptions C55_hashed_blocks_partial.
Print Assumptions C55_wavelet_octree_partial.
Print Assumptions C55_volumetric_octree_partial.
Print Assumptions C55_empty_cloud_refuted.
Print Assumptions C55_min_range_refuted.
Print Assumptions C55_end_on_face_refuted.
