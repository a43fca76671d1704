(** * C79: the slice display in RViz shows the cells that the slice cuts *)
From Verif Require Import Base M_IntMath F_IntMath M_NdtreeIndex M_Num F_Num M_Haar M_Haar3 M_Ndtree S_Field F_Hash M_Wavelet F_Wavelet F_Leaves F_WavTree F_WavMap F_WavHash M_WavHist F_WavHist P_Wavelet
  M_Point M_Slice.
From Coq Require Import QArith Qcanon Qround Qabs Lqa.
Close Scope Qc_scope. Close Scope Q_scope. Open Scope Z_scope.

(** ** Specification *)
(** The squares that are displayed: centre, side, opacity, colour. A point lies on a square. *)
Record square := Sq { q_x : Q; q_y : Q; q_z : Q; q_side : Q; q_alpha : Q; q_color : colour }.
Definition squares (v : slice) : list square :=
  flat_map (fun l => map (fun c => Sq (sc_x c) (sc_y c) (sc_z c) (l_width l) (l_alpha l) (sc_color c)) (l_cells l)) (s_levels v).
Definition on_square (q : square) (x y : Q) : Prop := (Qabs (x - q_x q) <= q_side q / 2 /\ Qabs (y - q_y q) <= q_side q / 2)%Q.
(** The point (x, y) lies inside of the smallest cell c, seen from above; a slice at height z cuts that cell. *)
Definition inside (w : Q) (c : idx3) (x y : Q) : Prop :=
  (inject_Z (px c) * w < x < (inject_Z (px c) + 1) * w /\ inject_Z (py c) * w < y < (inject_Z (py c) + 1) * w)%Q.
Definition cuts (w z : Q) (c : idx3) : Prop := (inject_Z (pz c) * w <= z < (inject_Z (pz c) + 1) * w)%Q.
(** Maps: no two leaves overlap. All maps of the history have the same height and cell width, slice heights are representable. *)
Definition good_map (T : Z) (w : Q) (m : smap) : Prop :=
  m_T m = T /\ m_w m = w /\ (forall i v, In (i, v) (m_leaves m) -> 0 <= oh i <= T) /\
  forall c, (forall i u, In (i, u) (m_leaves m) -> in_node i c = false) \/ exists v, exactly_one (m_leaves m) c v.
Definition representable (w z : Q) : Prop := (- inject_Z (2 ^ 31) * w <= z < inject_Z (2 ^ 31) * w)%Q.
Definition good_event (T : Z) (w : Q) (e : sevent) : Prop :=
  match e with SMap m _ => good_map T w m | SHeight z => representable w z | _ => True end.
(** The display was told about the last map, and not reset since. *)
Fixpoint fresh (mode : color_mode) (before : bool) (l : list sevent) : bool :=
  match l with
  | [] => before
  | SMap _ shown :: l' => fresh mode shown l'
  | (SVisible _ | SLimits _ _ | SHeight _) :: l' => fresh mode true l'
  | SAlpha _ :: l' => fresh mode before l'
  | SMode mode' :: l' => fresh mode' (before || negb (colour_eq mode' mode)) l'
  | SReset :: l' => fresh mode false l'
  end.
(** The colour stands for the value: a grey level that grows from black at the lower limit to white at the upper limit, or the grey
    level of the occupancy probability. *)
Definition colour_for (t : settings) (u : Qc) (c : colour) : Prop :=
  match t_mode t with
  | MProbability => c = CProb u
  | MRaw => (t_lo t < t_hi t)%Qc -> exists g, c = CRaw (Some (RGB g g g)) /\ (g * (this (t_hi t) - this (t_lo t)) == this u - this (t_lo t))%Q /\ (0 <= g <= 1)%Q
  end.

(** ** Proofs *)
Section SLICE.
Context (T : Z) (w : Q) (HT : 0 <= T) (Hw : (0 < w)%Q).
Notation n := (Z.to_nat (T + 1)).

Lemma width_pow h : 0 <= h -> heightToCellWidth w h = (w * inject_Z (2 ^ h)%Z)%Q.
Proof. intros H. unfold heightToCellWidth. rewrite exp2_pow by lia. reflexivity. Qed.
Lemma pow_pos h : 0 <= h -> 0 < 2 ^ h. Proof. intros. apply Z.pow_pos_nonneg; lia. Qed.
Lemma floor_iff q k : Qfloor q = k <-> (inject_Z k <= q < inject_Z k + 1)%Q.
Proof.
  split.
  - intros <-. split; [apply Qfloor_le|]. pose proof (Qlt_floor q) as L. rewrite inject_Z_plus in L. exact L.
  - intros [A B]. pose proof (Qfloor_le q) as L1. pose proof (Qlt_floor q) as L2. rewrite inject_Z_plus in L2. change (inject_Z 1) with 1%Q in L2.
    assert (X1 : (inject_Z k < inject_Z (Qfloor q + 1))%Q) by (rewrite inject_Z_plus; change (inject_Z 1) with 1%Q; lra).
    assert (X2 : (inject_Z (Qfloor q) < inject_Z (k + 1))%Q) by (rewrite inject_Z_plus; change (inject_Z 1) with 1%Q; lra).
    rewrite <- Zlt_Qlt in X1, X2. lia.
Qed.
Lemma floor_div z k : Qfloor (z / w) = k <-> (inject_Z k * w <= z < (inject_Z k + 1) * w)%Q.
Proof.
  rewrite floor_iff. set (a := inject_Z k). clearbody a. assert (E : (z == z / w * w)%Q) by (field; lra). set (y := (z / w)%Q) in *. clearbody y.
  split; intros [A B]; split; try (rewrite E at 1); try nra.
Qed.
Lemma floor_level z h : 0 <= h -> Qfloor (z / heightToCellWidth w h) = Qfloor (z / w) / 2 ^ h.
Proof.
  intros Hh. rewrite width_pow by lia. pose proof (pow_pos h Hh) as P. set (N := 2 ^ h) in *. clearbody N.
  assert (Pq : (0 < inject_Z N)%Q) by (change 0%Q with (inject_Z 0); rewrite <- Zlt_Qlt; lia).
  assert (E : (z / (w * inject_Z N) == z / w / inject_Z N)%Q) by (field; split; lra). rewrite E. set (y := (z / w)%Q). clearbody y.
  apply floor_iff. pose proof (Qfloor_le y) as L1. pose proof (Qlt_floor y) as L2. set (k := Qfloor y) in *. clearbody k.
  pose proof (Z.mul_div_le k N P) as D1. pose proof (Z.mul_succ_div_gt k N P) as D2. set (d := k / N) in *. clearbody d.
  assert (D1' : (inject_Z N * inject_Z d <= inject_Z k)%Q) by (rewrite <- inject_Z_mult, <- Zle_Qle; exact D1).
  assert (D2' : (inject_Z (k + 1) <= inject_Z N * (inject_Z d + 1))%Q) by (change 1%Q with (inject_Z 1); rewrite <- inject_Z_plus, <- inject_Z_mult, <- Zle_Qle; lia).
  split.
  - apply Qle_shift_div_l; [exact Pq|]. lra.
  - apply Qlt_shift_div_r; [exact Pq|]. lra.
Qed.
Definition cutOf (z : Q) (h : Z) : Z := Qfloor (z / w) / 2 ^ h.
Lemma cut_in z h : representable w z -> 0 <= h -> cutIndex z w h = Some (cutOf z h).
Proof.
  intros [R1 R2] Hh. unfold cutIndex. rewrite floor_level by exact Hh. fold (cutOf z h).
  assert (B : - 2 ^ 31 <= Qfloor (z / w) < 2 ^ 31).
  { destruct (proj1 (floor_div z _) eq_refl) as [A1 A2]. set (k := Qfloor (z / w)) in *. clearbody k.
    assert (X1 : (- inject_Z (2 ^ 31) < inject_Z (k + 1))%Q) by (rewrite inject_Z_plus; apply (Qmult_lt_r _ _ w Hw); change (inject_Z 1) with 1%Q; lra).
    assert (X2 : (inject_Z k < inject_Z (2 ^ 31))%Q) by (apply (Qmult_lt_r _ _ w Hw); lra).
    rewrite <- inject_Z_opp in X1. rewrite <- Zlt_Qlt in X1, X2. lia. }
  unfold cutOf. pose proof (pow_pos h Hh) as P. set (k := Qfloor (z / w)) in *. set (N := 2 ^ h) in *. clearbody k N.
  assert (D : - 2 ^ 31 <= k / N < 2 ^ 31).
  { split; [apply Z.div_le_lower_bound; [lia|]; nia|]. apply Z.div_lt_upper_bound; [lia|]. nia. }
  assert ((- 2 ^ 31 <=? k / N) && (k / N <? 2 ^ 31) = true) as -> by (apply andb_true_iff; rewrite Z.leb_le, Z.ltb_lt; exact D). reflexivity.
Qed.
Lemma cuts_in z : representable w z -> forall k h, 0 <= h -> exists l, cutIndices z w k h = Some l /\ length l = k /\ forall j, (j < k)%nat -> nth_error l j = Some (cutOf z (h + Z.of_nat j)).
Proof.
  intros R. induction k as [|k IH]; intros h Hh; cbn [cutIndices].
  - exists []. split; [reflexivity|]. split; [reflexivity|]. intros j Hj. lia.
  - rewrite (cut_in z h R Hh). destruct (IH (h + 1) ltac:(lia)) as (l & -> & E & H). eexists. split; [reflexivity|]. split; [cbn; lia|].
    intros [|j] Hj; cbn [nth_error]; [f_equal; f_equal; lia|]. rewrite H by lia. f_equal. f_equal. lia.
Qed.

(** *** The leaves that are selected *)
Definition mk (s : settings) (iv : oidx * Qc) : scell :=
  let i := fst iv in let c := nodeIndexToCenterPoint (oni i) w in
  SC (nth 0 c 0%Q) (nth 1 c 0%Q) (t_height s) (cellColor (t_mode s) (t_lo s) (t_hi s) (snd iv)).
Definition sel (s : settings) (h : nat) (iv : oidx * Qc) : bool :=
  (oh (fst iv) =? Z.of_nat h) && (pz (opos (fst iv)) =? cutOf (t_height s) (oh (fst iv))) && negb (qltb (snd iv) (t_lo s) || qltb (t_hi s) (snd iv)).
Lemma nth_emplace h x : forall l, (h < length l)%nat -> forall k, nth k (emplaceAt h x l) [] = nth k l [] ++ (if Nat.eqb k h then [x] else []).
Proof.
  induction h as [|h IH]; intros [|c l] Hh k; cbn [length] in Hh; try lia; cbn [emplaceAt]; destruct k as [|k]; cbn [nth Nat.eqb]; rewrite ?app_nil_r; try reflexivity.
  apply IH. lia.
Qed.
Lemma len_emplace h x : forall l, length (emplaceAt h x l) = length l.
Proof. induction h as [|h IH]; intros [|c l]; cbn [emplaceAt length]; try reflexivity. rewrite IH. reflexivity. Qed.
Lemma leaves_selected s cl : length cl = n -> (forall j, (j < n)%nat -> nth_error cl j = Some (cutOf (t_height s) (Z.of_nat j))) ->
  forall l cpl, (forall i v, In (i, v) l -> 0 <= oh i <= T) -> length cpl = n ->
  exists r, sliceLeaves s w cl l cpl = Some r /\ length r = n /\ forall k, (k < n)%nat -> nth k r [] = nth k cpl [] ++ map (mk s) (filter (sel s k) l).
Proof.
  intros Lc Hc. induction l as [|[i v] l IH]; intros cpl Hl Lp; unfold sliceLeaves; cbn [fold_left].
  - exists cpl. split; [reflexivity|]. split; [exact Lp|]. intros k _. cbn [filter map]. rewrite app_nil_r. reflexivity.
  - pose proof (Hl i v (or_introl eq_refl)) as Hi. unfold sliceLeaf at 2. destruct (Z.ltb_spec (oh i) 0) as [X|_]; [lia|].
    rewrite (Hc (Z.to_nat (oh i))) by lia. rewrite Z2Nat.id by lia.
    destruct (IH cpl (fun j u H => Hl j u (or_intror H)) Lp) as (r0 & E0 & L0 & N0).
    set (cut := cutOf (t_height s) (oh i)). destruct (Z.eqb_spec (pz (opos i)) cut) as [Ez|Nz]; cbn [negb].
    + destruct (qltb v (t_lo s) || qltb (t_hi s) v) eqn:Eq.
      * exists r0. split; [exact E0|]. split; [exact L0|]. intros k Hk. rewrite (N0 k Hk). cbn [filter].
        assert (sel s k (i, v) = false) as -> by (unfold sel; cbn [fst snd]; rewrite Eq; cbn [negb]; apply andb_false_r). reflexivity.
      * match goal with |- context [emplaceAt ?h ?x cpl] => destruct (IH (emplaceAt h x cpl) (fun j u H => Hl j u (or_intror H)) ltac:(rewrite len_emplace; exact Lp)) as (r & E & L & N) end.
        exists r. split; [exact E|]. split; [exact L|]. intros k Hk. rewrite (N k Hk), nth_emplace by lia. cbn [filter].
        unfold sel at 2. cbn [fst snd]. rewrite Eq. fold cut. rewrite Ez, Z.eqb_refl. cbn [negb]. rewrite !andb_true_r. rewrite <- app_assoc. f_equal.
        destruct (Nat.eqb_spec k (Z.to_nat (oh i))) as [->|Nk].
        -- assert (oh i =? Z.of_nat (Z.to_nat (oh i)) = true) as -> by lia. reflexivity.
        -- assert (oh i =? Z.of_nat k = false) as -> by lia. reflexivity.
    + exists r0. split; [exact E0|]. split; [exact L0|]. intros k Hk. rewrite (N0 k Hk). cbn [filter].
      assert (sel s k (i, v) = false) as ->. { unfold sel. cbn [fst snd]. fold cut. rewrite (proj2 (Z.eqb_neq _ _) Nz). rewrite andb_false_r. reflexivity. } reflexivity.
Qed.

(** *** The layers *)
Definition sized (a : Q) (h : Z) (ls : list slayer) : Prop :=
  forall k l, nth_error ls k = Some l -> l_width l = heightToCellWidth w (h + Z.of_nat k) /\ l_alpha l = a.
Lemma sized_nil a h : sized a h []. Proof. intros [|k] l H; discriminate. Qed.
Lemma sized_cons a h x ls : sized a h (x :: ls) <-> (l_width x = heightToCellWidth w h /\ l_alpha x = a) /\ sized a (h + 1) ls.
Proof.
  split.
  - intros H. split; [destruct (H 0%nat x eq_refl) as [A B]; split; [rewrite A; f_equal; cbn; lia|exact B]|].
    intros k l E. destruct (H (S k) l E) as [A B]. split; [rewrite A; f_equal; lia|exact B].
  - intros [[A B] H] [|k] l E; cbn [nth_error] in E; [injection E as <-; split; [rewrite A; f_equal; cbn; lia|exact B]|].
    destruct (H k l E) as [A' B']. split; [rewrite A'; f_equal; lia|exact B'].
Qed.
Lemma draw_spec a : forall cpl h ls, sized a h ls -> (length ls <= length cpl)%nat ->
  sized a h (drawLevels w a h cpl ls) /\ map l_cells (drawLevels w a h cpl ls) = cpl.
Proof.
  induction cpl as [|c cpl IH]; intros h [|l ls] S L; cbn [length] in L; try lia; cbn [drawLevels].
  - split; [apply sized_nil|reflexivity].
  - destruct (IH (h + 1) [] (sized_nil a _) ltac:(cbn; lia)) as [A B]. split; [apply sized_cons; split; [split; reflexivity|exact A]|]. cbn [map l_cells]. rewrite B. reflexivity.
  - apply sized_cons in S as [[S1 S2] S3]. destruct (IH (h + 1) ls S3 ltac:(lia)) as [A B]. split; [apply sized_cons; split; [split; assumption|exact A]|]. cbn [map l_cells]. rewrite B. reflexivity.
Qed.

(** *** The state *)
Definition drawn (m : smap) (v : slice) : Prop :=
  length (s_levels v) = n /\ forall k, (k < n)%nat -> nth k (map l_cells (s_levels v)) [] = map (mk (s_set v)) (filter (sel (s_set v) k) (m_leaves m)).
Record sinv (fr : bool) (om : option smap) (v : slice) : Prop := MkInv {
  v_sized : sized (t_alpha (s_set v)) 0 (s_levels v);
  v_len : (length (s_levels v) <= n)%nat;
  v_hidden : t_visible (s_set v) = false -> s_levels v = [];
  v_height : representable w (t_height (s_set v));
  v_map : forall m, om = Some m -> good_map T w m;
  v_none : om = None -> s_levels v = [];
  v_fresh : fr = true -> t_visible (s_set v) = true -> forall m, om = Some m -> drawn m v }.
Lemma update_inv v om : sized (t_alpha (s_set v)) 0 (s_levels v) -> (length (s_levels v) <= n)%nat -> representable w (t_height (s_set v)) ->
  (forall m, om = Some m -> good_map T w m) -> (om = None -> s_levels v = []) ->
  exists v', supdate v om = Some v' /\ s_set v' = s_set v /\ sinv true om v'.
Proof.
  intros S L H M Hn. unfold supdate. destruct (t_visible (s_set v)) eqn:Ev; cbn [negb].
  - destruct om as [m|].
    + destruct (M m eq_refl) as (E1 & E2 & E3 & E4). rewrite E1, E2. destruct (cuts_in _ H n 0 ltac:(lia)) as (cl & -> & Lc & Nc). cbn [Z.add] in Nc.
      destruct (leaves_selected (s_set v) cl Lc Nc (m_leaves m) (repeat [] n) E3 (repeat_length _ _)) as (r & -> & Lr & Nr).
      destruct (draw_spec (t_alpha (s_set v)) r 0 (s_levels v) S ltac:(lia)) as [D1 D2].
      assert (Ln : length (drawLevels w (t_alpha (s_set v)) 0 r (s_levels v)) = n) by (rewrite <- (map_length l_cells), D2; exact Lr).
      eexists. split; [reflexivity|]. split; [reflexivity|]. split; cbn [s_set s_levels]; try assumption; try congruence; try lia.
      intros _ _ m' Em. injection Em as <-. split; [exact Ln|]. intros k Hk. cbn [s_set s_levels]. rewrite D2, (Nr k Hk).
      assert (nth k (repeat (@nil scell) n) [] = []) as ->; [|reflexivity]. destruct (nth_in_or_default k (repeat (@nil scell) n) []) as [X|X]; [apply repeat_spec in X; exact X|exact X].
    + exists v. split; [reflexivity|]. split; [reflexivity|]. split; try assumption; congruence.
  - eexists. split; [reflexivity|]. split; [reflexivity|]. split; cbn [s_set s_levels length]; try assumption; try congruence; try lia. apply sized_nil.
Qed.
Lemma colour_eq_spec a b : colour_eq a b = true <-> a = b. Proof. destruct a, b; cbn; split; congruence. Qed.
Lemma step_inv fr om v e : sinv fr om v -> good_event T w e ->
  exists v' om', sstep (v, om) e = Some (v', om') /\ sinv (fresh (t_mode (s_set v)) fr [e]) om' v' /\
    t_mode (s_set v') = match e with SMode m => m | _ => t_mode (s_set v) end.
Proof.
  intros I G. destruct I as [I1 I2 I3 I4 I5 I6 I7].
  assert (U : forall t' om', t_alpha t' = t_alpha (s_set v) -> representable w (t_height t') -> (forall m, om' = Some m -> good_map T w m) -> (om' = None -> s_levels v = []) ->
    exists v', supdate (Slice t' (s_levels v)) om' = Some v' /\ s_set v' = t' /\ sinv true om' v').
  { intros t' om' Ha Hh Hm Hn. destruct (update_inv (Slice t' (s_levels v)) om') as (v' & E & S & I); cbn [s_set s_levels] in *; try assumption; [rewrite Ha; exact I1|]. eauto. }
  destruct e as [m [|]|b|lo hi|z|a|mode|]; cbn [sstep fresh]; cbv zeta.
  - destruct v as [t ls]. cbn [s_set s_levels] in *. destruct (U t (Some m)) as (v' & E & S & I); try assumption; try congruence; [intros m' Em; injection Em as <-; exact G|].
    rewrite E. eexists _, _. split; [reflexivity|]. split; [exact I|]. rewrite S. reflexivity.
  - eexists _, _. split; [reflexivity|]. split; [|reflexivity]. split; try assumption; try congruence. intros m' Em. injection Em as <-. exact G.
  - destruct (U (Settings b (t_lo (s_set v)) (t_hi (s_set v)) (t_height (s_set v)) (t_alpha (s_set v)) (t_mode (s_set v))) om) as (v' & E & S & I); try assumption; [reflexivity|].
    rewrite E. eexists _, _. split; [reflexivity|]. split; [exact I|]. rewrite S. reflexivity.
  - destruct (U (Settings (t_visible (s_set v)) lo hi (t_height (s_set v)) (t_alpha (s_set v)) (t_mode (s_set v))) om) as (v' & E & S & I); try assumption; [reflexivity|].
    rewrite E. eexists _, _. split; [reflexivity|]. split; [exact I|]. rewrite S. reflexivity.
  - destruct (U (Settings (t_visible (s_set v)) (t_lo (s_set v)) (t_hi (s_set v)) z (t_alpha (s_set v)) (t_mode (s_set v))) om) as (v' & E & S & I); try assumption; [reflexivity|].
    rewrite E. eexists _, _. split; [reflexivity|]. split; [exact I|]. rewrite S. reflexivity.
  - eexists _, _. split; [reflexivity|]. split; [|reflexivity]. split; cbn [s_set s_levels t_alpha t_visible t_height]; try assumption.
    + intros k l E. rewrite nth_error_map in E. destruct (nth_error (s_levels v) k) as [l0|] eqn:E0; [|discriminate]. injection E as <-. destruct (I1 k l0 E0) as [A B]. split; [exact A|reflexivity].
    + rewrite map_length. exact I2.
    + intros H. rewrite (I3 H). reflexivity.
    + intros H. rewrite (I6 H). reflexivity.
    + intros F V m E. destruct (I7 F V m E) as [A B]. split; cbn [s_set s_levels]; [rewrite map_length; exact A|]. intros k Hk. rewrite map_map. cbn [l_cells]. exact (B k Hk).
  - destruct (colour_eq mode (t_mode (s_set v))) eqn:Em.
    + eexists _, _. split; [reflexivity|]. split; [|reflexivity]. cbn [negb]. rewrite orb_false_r. apply colour_eq_spec in Em. subst mode. destruct v as [[] ls]. cbn in *. split; assumption.
    + destruct (U (Settings (t_visible (s_set v)) (t_lo (s_set v)) (t_hi (s_set v)) (t_height (s_set v)) (t_alpha (s_set v)) mode) om) as (v' & E & S & I); try assumption; [reflexivity|].
      rewrite E. eexists _, _. split; [reflexivity|]. cbn [negb]. rewrite orb_true_r. split; [exact I|]. rewrite S. reflexivity.
  - eexists _, _. split; [reflexivity|]. split; [|reflexivity]. split; cbn [s_set s_levels length]; try assumption; try congruence; try lia. apply sized_nil.
Qed.
Lemma fresh_app mode fr e l : fresh mode fr (e :: l) = fresh (match e with SMode m => m | _ => mode end) (fresh mode fr [e]) l.
Proof. destruct e as [m [|]| | | | | |]; reflexivity. Qed.
Lemma run_inv : forall l fr om v, sinv fr om v -> Forall (good_event T w) l ->
  exists v' om', srun (v, om) l = Some (v', om') /\ sinv (fresh (t_mode (s_set v)) fr l) om' v'.
Proof.
  induction l as [|e l IH]; intros fr om v I F; cbn [srun]; [eauto|]. inversion F as [|x y F1 F2]; subst.
  destruct (step_inv fr om v e I F1) as (v1 & om1 & -> & I1 & M1). destruct (IH _ _ _ I1 F2) as (v' & om' & E & I'). exists v', om'. split; [exact E|].
  rewrite fresh_app. rewrite M1 in I'. exact I'.
Qed.
Lemma init_inv : sinv true None (fst sinit).
Proof.
  split; cbn [fst sinit s_set s_levels t_visible t_height length]; try congruence; try lia; [apply sized_nil|].
  split; change (inject_Z (2 ^ 31)) with (2147483648 # 1)%Q; lra.
Qed.

(** *** Geometry *)
Lemma axis_on x c p h : 0 <= h -> (inject_Z c * w < x < (inject_Z c + 1) * w)%Q ->
  ((Qabs (x - (inject_Z p + (1 # 2)) * heightToCellWidth w h) <= heightToCellWidth w h / 2)%Q <-> p * 2 ^ h <= c < (p + 1) * 2 ^ h).
Proof.
  intros Hh [X1 X2]. rewrite width_pow by lia. pose proof (pow_pos h Hh) as P. set (N := 2 ^ h) in *. clearbody N.
  rewrite Qabs_Qle_condition. assert (E2 : (w * inject_Z N / 2 == (1 # 2) * (w * inject_Z N))%Q) by field. rewrite E2. clear E2. split.
  - intros [A B]. assert (A' : (inject_Z (p * N) < inject_Z (c + 1))%Q).
    { rewrite inject_Z_mult, inject_Z_plus. apply (Qmult_lt_r _ _ w Hw). change (inject_Z 1) with 1%Q. lra. }
    assert (B' : (inject_Z c < inject_Z ((p + 1) * N))%Q).
    { rewrite inject_Z_mult, inject_Z_plus. apply (Qmult_lt_r _ _ w Hw). change (inject_Z 1) with 1%Q. lra. }
    rewrite <- Zlt_Qlt in A', B'. lia.
  - intros [A B]. assert (A' : (inject_Z (p * N) * w <= inject_Z c * w)%Q) by (apply Qmult_le_r; [exact Hw|]; rewrite <- Zle_Qle; exact A).
    assert (B' : (inject_Z (c + 1) * w <= inject_Z ((p + 1) * N) * w)%Q) by (apply Qmult_le_r; [exact Hw|]; rewrite <- Zle_Qle; lia).
    rewrite inject_Z_mult in A', B'. rewrite !inject_Z_plus in B'. change (inject_Z 1) with 1%Q in *. split; lra.
Qed.
Definition sq (s : settings) (h : Z) (iv : oidx * Qc) : square :=
  let c := mk s iv in Sq (sc_x c) (sc_y c) (sc_z c) (heightToCellWidth w h) (t_alpha s) (sc_color c).
Lemma sq_on s iv c x y : 0 <= oh (fst iv) -> inside w c x y -> cuts w (t_height s) c -> sel s (Z.to_nat (oh (fst iv))) iv = true ->
  (on_square (sq s (oh (fst iv)) iv) x y <-> in_node (fst iv) c = true).
Proof.
  destruct iv as [i v]. cbn [fst]. intros Hi [X Y] Z1 S. unfold on_square, sq. cbn [q_x q_y q_side mk sc_x sc_y fst snd]. unfold nodeIndexToCenterPoint, indexToCenterPoint.
  cbn [oni position height ilist map nth]. rewrite (axis_on x (px c) (px (opos i)) (oh i) Hi X), (axis_on y (py c) (py (opos i)) (oh i) Hi Y).
  unfold sel in S. cbn [fst snd] in S. apply andb_true_iff in S as [S _]. apply andb_true_iff in S as [_ S]. apply Z.eqb_eq in S. unfold cutOf in S.
  apply (proj2 (floor_div (t_height s) (pz c))) in Z1. rewrite Z1 in S. pose proof (pow_pos (oh i) Hi) as P. unfold in_node.
  assert (Hz : pz (opos i) * 2 ^ oh i <= pz c < (pz (opos i) + 1) * 2 ^ oh i).
  { rewrite S. pose proof (Z.mul_div_le (pz c) (2 ^ oh i) P). pose proof (Z.mul_succ_div_gt (pz c) (2 ^ oh i) P). lia. }
  rewrite !andb_true_iff, !Z.leb_le, !Z.ltb_lt. tauto.
Qed.
Lemma sel_iff s i v c : 0 <= oh i -> cuts w (t_height s) c -> in_node i c = true -> (sel s (Z.to_nat (oh i)) (i, v) = true <-> (t_lo s <= v)%Qc /\ (v <= t_hi s)%Qc).
Proof.
  intros Hi Z1 N. apply (proj2 (floor_div (t_height s) (pz c))) in Z1. unfold in_node in N. rewrite !andb_true_iff, !Z.leb_le, !Z.ltb_lt in N. pose proof (pow_pos (oh i) Hi) as P.
  assert (E : pz (opos i) = pz c / 2 ^ oh i) by (apply (Z.div_unique_pos _ _ _ (pz c - pz (opos i) * 2 ^ oh i)); lia).
  unfold sel, cutOf. cbn [fst snd]. rewrite Z1, <- E. rewrite Z2Nat.id, !Z.eqb_refl by lia. cbn [andb]. rewrite negb_true_iff, orb_false_iff, !qltb_false. reflexivity.
Qed.
Lemma sel_height s k iv : sel s k iv = true -> oh (fst iv) = Z.of_nat k.
Proof. unfold sel. rewrite !andb_true_iff. intros [[A _] _]. apply Z.eqb_eq in A. exact A. Qed.
(** The squares, level by level *)
Lemma squares_levels v m : sized (t_alpha (s_set v)) 0 (s_levels v) -> drawn m v ->
  squares v = flat_map (fun k => map (sq (s_set v) (Z.of_nat k)) (filter (sel (s_set v) k) (m_leaves m))) (seq 0 n).
Proof.
  intros S [L D]. unfold squares. set (s := s_set v) in *. clearbody s. revert S D. rewrite <- L. generalize (s_levels v). intros ls S D. clear L.
  assert (X : forall ls b, sized (t_alpha s) (Z.of_nat b) ls -> (forall k, (k < length ls)%nat -> nth k (map l_cells ls) [] = map (mk s) (filter (sel s (b + k)) (m_leaves m))) ->
    flat_map (fun l => map (fun c => Sq (sc_x c) (sc_y c) (sc_z c) (l_width l) (l_alpha l) (sc_color c)) (l_cells l)) ls =
    flat_map (fun k => map (sq s (Z.of_nat k)) (filter (sel s k) (m_leaves m))) (seq b (length ls))).
  { clear ls S D. induction ls as [|l ls IH]; intros b S D; cbn [flat_map length seq]; [reflexivity|]. apply sized_cons in S as [[S1 S2] S3]. f_equal.
    - specialize (D 0%nat ltac:(cbn; lia)). cbn [map nth] in D. rewrite D, map_map, Nat.add_0_r. apply map_ext. intros iv. unfold sq. rewrite S1, S2. reflexivity.
    - apply IH; [replace (Z.of_nat (S b)) with (Z.of_nat b + 1) by lia; exact S3|]. intros k Hk. specialize (D (S k) ltac:(cbn; lia)). cbn [map nth] in D. rewrite D. do 3 f_equal. lia. }
  apply (X ls 0%nat); [exact S|exact D].
Qed.
Lemma colour_ok s v : (t_lo s <= v)%Qc -> (v <= t_hi s)%Qc -> colour_for s v (cellColor (t_mode s) (t_lo s) (t_hi s) v).
Proof.
  intros A B. unfold colour_for, cellColor. destruct (t_mode s); [reflexivity|]. intros L. unfold scalarToColor, qeqb. destruct (Qeq_bool _ _) eqn:E.
  - apply Qeq_bool_eq in E. unfold Qclt in L. exfalso. lra.
  - eexists. split; [reflexivity|]. unfold Qcle, Qclt in *. set (a := this (t_lo s)) in *. set (b := this (t_hi s)) in *. set (u := this v) in *.
    assert (X : (this ((v - t_lo s) / (t_hi s - t_lo s))%Qc == (u - a) / (b - a))%Q).
    { rewrite this_div, !this_minus. reflexivity. }
    rewrite X. split; [field; lra|]. split; [apply Qle_shift_div_l; lra|apply Qle_shift_div_r; lra].
Qed.
End SLICE.

(** Whatever happens, the display does not fail. *)
Theorem C79_no_abort : forall T w l, 0 <= T -> (0 < w)%Q -> Forall (good_event T w) l -> exists s, srun sinit l = Some s.
Proof. intros T w l HT Hw F. destruct (run_inv T w HT Hw l true None (fst sinit) (init_inv T w HT Hw) F) as (v & om & E & _). exists (v, om). exact E. Qed.

(** It shows, at every place, the leaf of the map that the slice cuts there, if its value is within the user's limits, as exactly one
    square of the leaf's size, with the chosen opacity and a colour that stands for the value, and nothing otherwise. *)
Theorem C79_faithful : forall T w l v m, 0 <= T -> (0 < w)%Q -> Forall (good_event T w) l -> srun sinit l = Some (v, Some m) ->
  t_visible (s_set v) = true -> fresh MProbability true l = true ->
  forall c x y, inside w c x y -> cuts w (t_height (s_set v)) c ->
  (forall i u, In (i, u) (m_leaves m) -> in_node i c = true -> (t_lo (s_set v) <= u)%Qc -> (u <= t_hi (s_set v))%Qc ->
     exists l1 q l2, squares v = l1 ++ q :: l2 /\ on_square q x y /\ (forall q', In q' (l1 ++ l2) -> ~ on_square q' x y) /\
       (q_side q == w * inject_Z (2 ^ oh i))%Q /\ q_z q = t_height (s_set v) /\ q_alpha q = t_alpha (s_set v) /\ colour_for (s_set v) u (q_color q)) /\
  ((forall i u, In (i, u) (m_leaves m) -> in_node i c = true -> ~ ((t_lo (s_set v) <= u)%Qc /\ (u <= t_hi (s_set v))%Qc)) ->
     forall q, In q (squares v) -> ~ on_square q x y).
Proof.
  intros T w l v m HT Hw F E Hv Hf c x y Hin Hc. destruct (run_inv T w HT Hw l true None (fst sinit) (init_inv T w HT Hw) F) as (v' & om & E' & I).
  change (fst sinit, None) with sinit in E'. rewrite E in E'. injection E' as <- <-. change (t_mode (s_set (fst sinit))) with MProbability in I. rewrite Hf in I.
  destruct (v_map _ _ _ _ _ I m eq_refl) as (_ & _ & Hh & Once). set (s := s_set v) in *.
  pose proof (squares_levels T w v m (v_sized _ _ _ _ _ I) (v_fresh _ _ _ _ _ I eq_refl Hv m eq_refl)) as Sq. fold s in Sq. rewrite Sq. clear Sq.
  assert (Cov : forall k iv, (k < Z.to_nat (T + 1))%nat -> In iv (filter (sel w s k) (m_leaves m)) -> (on_square (sq w s (Z.of_nat k) iv) x y <-> in_node (fst iv) c = true)).
  { intros k iv Hk Hi. apply filter_In in Hi as [Hi S]. pose proof (sel_height w s k iv S) as Eh. rewrite <- Eh. destruct iv as [i u]. apply sq_on with (c := c); try assumption; [apply (Hh i u Hi)|].
    cbn [fst] in *. rewrite Eh, Nat2Z.id. exact S. }
  split.
  - intros i u Hi Hn L1 L2. pose proof (Hh i u Hi) as Hhi. destruct (Once c) as [N|(u' & a & j & b & El & Hj & Hno)]; [rewrite (N i u Hi) in Hn; discriminate|].
    assert (Eij : (i, u) = (j, u')).
    { rewrite El in Hi. apply in_app_or in Hi as [Hi|[Hi|Hi]]; [|congruence|]; rewrite (Hno i u) in Hn by (apply in_or_app; auto); discriminate. }
    injection Eij as <- <-. set (k := Z.to_nat (oh i)). set (n := Z.to_nat (T + 1)) in *.
    assert (Hs : sel w s k (i, u) = true) by (apply (sel_iff w Hw s i u c); try assumption; [lia|split; assumption]).
    assert (Es : seq 0 n = seq 0 k ++ k :: seq (S k) (n - S k)).
    { replace n with (k + (1 + (n - S k)))%nat by lia. rewrite !seq_app. cbn [seq app Nat.add]. replace (k + 1)%nat with (S k) by lia. do 2 f_equal. f_equal. lia. }
    set (g := fun k0 => map (sq w s (Z.of_nat k0)) (filter (sel w s k0) (m_leaves m))).
    assert (Eg : g k = map (sq w s (Z.of_nat k)) (filter (sel w s k) a) ++ sq w s (Z.of_nat k) (i, u) :: map (sq w s (Z.of_nat k)) (filter (sel w s k) b)).
    { unfold g. rewrite El, filter_app. cbn [filter]. rewrite Hs, map_app. reflexivity. }
    rewrite Es, flat_map_app. cbn [flat_map]. rewrite Eg.
    exists (flat_map g (seq 0 k) ++ map (sq w s (Z.of_nat k)) (filter (sel w s k) a)), (sq w s (Z.of_nat k) (i, u)),
      (map (sq w s (Z.of_nat k)) (filter (sel w s k) b) ++ flat_map g (seq (S k) (n - S k))).
    split; [rewrite <- !app_assoc; cbn [app]; reflexivity|].
    assert (Ek : Z.of_nat k = oh i) by lia.
    split; [apply (Cov k (i, u)); [lia| |exact Hn]; apply filter_In; auto|]. split.
    + (* the others *)
      assert (X : forall iv, In iv (filter (sel w s k) a) \/ In iv (filter (sel w s k) b) -> ~ on_square (sq w s (Z.of_nat k) iv) x y).
      { intros iv Hiv On. assert (In iv (filter (sel w s k) (m_leaves m))).
        { rewrite El, filter_app. cbn [filter]. rewrite Hs. apply in_or_app. destruct Hiv; [left|right; right]; assumption. }
        apply (Cov k iv ltac:(lia)) in On; [|assumption]. destruct iv as [i' u0]. cbn [fst] in On. rewrite (Hno i' u0) in On; [discriminate|]. apply in_or_app. destruct Hiv as [Hiv|Hiv]; apply filter_In in Hiv; tauto. }
      assert (Y : forall k', (k' < n)%nat -> k' <> k -> forall q', In q' (g k') -> ~ on_square q' x y).
      { intros k' Hk' Nk q' Hq On. unfold g in Hq. apply in_map_iff in Hq as ([i' u0] & <- & Hq). apply (Cov k' _ Hk' Hq) in On. apply filter_In in Hq as [Hq S]. apply sel_height in S. cbn [fst] in *.
        rewrite El in Hq. apply in_app_or in Hq as [Hq|[Hq|Hq]]; [| injection Hq as <- <-; lia |]; rewrite (Hno i' u0) in On by (apply in_or_app; auto); discriminate. }
      intros q' Hq. apply in_app_or in Hq as [Hq|Hq]; apply in_app_or in Hq as [Hq|Hq].
      * apply in_flat_map in Hq as (k' & Hk' & Hq). apply in_seq in Hk'. apply (Y k'); [lia|lia|exact Hq].
      * apply in_map_iff in Hq as (iv & <- & Hq). apply X. auto.
      * apply in_map_iff in Hq as (iv & <- & Hq). apply X. auto.
      * apply in_flat_map in Hq as (k' & Hk' & Hq). apply in_seq in Hk'. apply (Y k'); [lia|lia|exact Hq].
    + split; [cbn [q_side sq]; rewrite Ek, width_pow by lia; reflexivity|]. split; [reflexivity|]. split; [reflexivity|]. cbn [q_color sq mk sc_color snd]. apply colour_ok; assumption.
  - intros No q Hq On. apply in_flat_map in Hq as (k & Hk & Hq). apply in_seq in Hk. apply in_map_iff in Hq as ([i u] & <- & Hq). apply (Cov k _ ltac:(lia) Hq) in On. apply filter_In in Hq as [Hq S].
    cbn [fst] in On. pose proof (sel_height _ _ _ _ S) as Eh. cbn [fst] in Eh. apply (No i u Hq On). apply (sel_iff w Hw s i u c); [rewrite Eh; lia|exact Hc|exact On|]. rewrite Eh, Nat2Z.id. exact S.
Qed.
(** Nothing is shown while the display is switched off. *)
Theorem C79_hidden : forall T w l v om, 0 <= T -> (0 < w)%Q -> Forall (good_event T w) l -> srun sinit l = Some (v, om) ->
  t_visible (s_set v) = false -> squares v = [].
Proof.
  intros T w l v om HT Hw F E Hv. destruct (run_inv T w HT Hw l true None (fst sinit) (init_inv T w HT Hw) F) as (v' & om' & E' & I).
  change (fst sinit, None) with sinit in E'. rewrite E in E'. injection E' as <- <-. unfold squares. rewrite (v_hidden _ _ _ _ _ I Hv). reflexivity.
Qed.

(** The maps of the mapping system are such maps: a hashed wavelet octree, after any history. *)
Theorem C79_maps : forall C m w fuel, valid_config C -> hashed_reachable C m -> (forall b, (nsize (wroot (btree b)) <= fuel b)%nat) ->
  exists leaves, hw_forEachLeaf qn fuel C m = Some leaves /\ good_map (cT C) w (SM (cT C) w leaves) /\
    forall c i u, In (i, u) leaves -> in_node i c = true -> u = hw_get qn C m c.
Proof.
  intros C m w fuel HC Hr Hf. destruct (C17_hashed_leaves C m fuel HC Hr Hf) as (l & E & H). exists l. split; [exact E|].
  pose proof (hashed_ok C m HC Hr) as Hok. destruct HC as [HT _]. destruct (hw_leaves C m fuel l HT Hok Hf E) as [L1 _]. split.
  - split; [reflexivity|]. split; [reflexivity|]. split; [intros i v Hi; cbn [m_leaves] in Hi; specialize (L1 i v Hi); lia|]. intros c. cbn [m_leaves]. specialize (H c).
    destruct (getBlock m _) as [b|]; [destruct (wb_empty qn b)|]; eauto.
  - intros c i u Hi Hn. specialize (H c). assert (X : (forall j v, In (j, v) l -> in_node j c = false) \/ exactly_one l c (hw_get qn C m c)) by (destruct (getBlock m _) as [b|]; [destruct (wb_empty qn b)|]; auto).
    destruct X as [X|(a & j & b & El & _ & No)]; [rewrite (X i u Hi) in Hn; discriminate|].
    rewrite El in Hi. apply in_app_or in Hi as [Hi|[Hi|Hi]]; [|congruence|]; rewrite (No i u) in Hn by (apply in_or_app; auto); discriminate.
Qed.

(** ** Colours by height *)
(** The colour of a height: a fully saturated colour (one component 1, one 0) that repeats every 5 m; within such a span, different
    heights have different colours. *)
Definition rgb_eq (a b : rgb) : Prop := (cr a == cr b /\ cg a == cg b /\ cb a == cb b)%Q.
Definition unit_rgb (a : rgb) : Prop := (0 <= cr a <= 1 /\ 0 <= cg a <= 1 /\ 0 <= cb a <= 1)%Q.
Definition saturated (a : rgb) : Prop := (cr a == 1 \/ cg a == 1 \/ cb a == 1)%Q /\ (cr a == 0 \/ cg a == 0 \/ cb a == 0)%Q.
Lemma hue_range z : (0 <= hue z < 6)%Q.
Proof. unfold hue. cbv zeta. set (h := ((1 # 5) * z + - (2))%Q). destruct (proj1 (floor_iff h _) eq_refl). lra. Qed.
Lemma hue_cases z : exists k f, (0 <= f < 1)%Q /\ (hue z == inject_Z k + f)%Q /\ Qfloor (hue z) = k /\ 0 <= k < 6 /\
  let u := (1 * (1 - 1 * (1 - (hue z - inject_Z k))))%Q in let d := (1 * (1 - 1 * (hue z - inject_Z k)))%Q in let m := (1 * (1 - 1))%Q in
  (k = 0 /\ positionToColor z = RGB 1 u m) \/ (k = 1 /\ positionToColor z = RGB d 1 m) \/ (k = 2 /\ positionToColor z = RGB m 1 u) \/
  (k = 3 /\ positionToColor z = RGB m d 1) \/ (k = 4 /\ positionToColor z = RGB u m 1) \/ (k = 5 /\ positionToColor z = RGB 1 m d).
Proof.
  destruct (hue_range z) as [H1 H2]. destruct (proj1 (floor_iff (hue z) _) eq_refl) as [F1 F2]. exists (Qfloor (hue z)), (hue z - inject_Z (Qfloor (hue z)))%Q.
  split; [lra|]. split; [lra|]. split; [reflexivity|].
  assert (K : 0 <= Qfloor (hue z) < 6).
  { assert (A : (inject_Z 0 < inject_Z (Qfloor (hue z) + 1))%Q) by (rewrite inject_Z_plus; change (inject_Z 1) with 1%Q; change (inject_Z 0) with 0%Q; lra).
    assert (B : (inject_Z (Qfloor (hue z)) < inject_Z 6)%Q) by (change (inject_Z 6) with 6%Q; lra). rewrite <- Zlt_Qlt in A, B. lia. }
  split; [exact K|]. unfold positionToColor, hueToColor. cbv zeta. set (k := Qfloor (hue z)) in *. clearbody k.
  assert (E : k = 0 \/ k = 1 \/ k = 2 \/ k = 3 \/ k = 4 \/ k = 5) by lia. destruct E as [->|[->|[->|[->|[->| ->]]]]]; [left|right; left|do 2 right; left|do 3 right; left|do 4 right; left|do 5 right]; split; reflexivity.
Qed.
Ltac six E := destruct E as [[-> E]|[[-> E]|[[-> E]|[[-> E]|[[-> E]|[-> E]]]]]]; rewrite E; clear E; cbn [cr cg cb]; unfold inject_Z in *.
Theorem C79_height_colour : forall z, unit_rgb (positionToColor z) /\ saturated (positionToColor z).
Proof.
  intros z. destruct (hue_cases z) as (k & f & Hf & Eh & _ & Hk & Ec). cbv zeta in Ec. unfold unit_rgb, saturated. revert Ec. generalize (positionToColor z). intros col Ec. set (h := hue z) in *. clearbody h.
  six Ec; (split; [repeat split; lra|split]); first [left; lra|right; left; lra|right; right; lra].
Qed.
Theorem C79_height_period : forall z k, rgb_eq (positionToColor (z + 5 * inject_Z k)) (positionToColor z).
Proof.
  intros z k. assert (E : (hue (z + 5 * inject_Z k) == hue z)%Q).
  { unfold hue. cbv zeta. set (h := ((1 # 5) * z + - (2))%Q). assert (E : ((1 # 5) * (z + 5 * inject_Z k) + - (2) == h + inject_Z k)%Q) by (unfold h; lra).
    assert (F : Qfloor ((1 # 5) * (z + 5 * inject_Z k) + - (2)) = Qfloor h + k).
    { rewrite E. apply floor_iff. destruct (proj1 (floor_iff h _) eq_refl). rewrite inject_Z_plus. lra. }
    rewrite F, E, inject_Z_plus. lra. }
  unfold positionToColor. set (a := hue (z + 5 * inject_Z k)) in *. set (b := hue z) in *. clearbody a b. unfold hueToColor. cbv zeta.
  assert (Ef : Qfloor a = Qfloor b) by (rewrite E; reflexivity). rewrite Ef. set (j := Qfloor b). clearbody j.
  set (fa := if Z.land j 1 =? 0 then (1 - (a - inject_Z j))%Q else (a - inject_Z j)%Q). set (fb := if Z.land j 1 =? 0 then (1 - (b - inject_Z j))%Q else (b - inject_Z j)%Q).
  assert (X : (fa == fb)%Q) by (unfold fa, fb; destruct (_ =? _); lra). clearbody fa fb. unfold rgb_eq.
  repeat match goal with |- context [if ?c then _ else _] => destruct c end; cbn [cr cg cb]; repeat split; lra.
Qed.
Theorem C79_height_distinct : forall z z', (0 <= z -> z < 5 -> 0 <= z' -> z' < 5 -> rgb_eq (positionToColor z) (positionToColor z') -> z == z')%Q.
Proof.
  intros z z' A B A' B' R.
  assert (X : forall z, (0 <= z < 5)%Q -> (z == hue z * (5 # 6))%Q).
  { intros t Ht. unfold hue. cbv zeta. set (h := ((1 # 5) * t + - (2))%Q). assert (F : Qfloor h = -2) by (apply floor_iff; unfold h; change (inject_Z (-2)) with (-2 # 1)%Q; lra).
    rewrite F. unfold h. change (inject_Z (-2)) with (-2 # 1)%Q. lra. }
  rewrite (X z), (X z') by (split; assumption). clear A B A' B' X. destruct (hue_cases z) as (k & f & Hf & Eh & _ & Hk & Ec). destruct (hue_cases z') as (k' & f' & Hf' & Eh' & _ & Hk' & Ec').
  cbv zeta in Ec, Ec'. unfold rgb_eq in R. revert R Ec Ec'. generalize (positionToColor z) (positionToColor z'). intros col col' R Ec Ec'. set (a := hue z) in *. set (a' := hue z') in *. clearbody a a'.
  revert R. six Ec; six Ec'; intros (R1 & R2 & R3); lra.
Qed.

(** ** A concrete case *)
(** A leaf of 1 m next to one of 0.5 m; the slice at 0.75 m cuts the first one only, at 0.25 m both. *)
Definition ex_map : smap := SM 2 (1 # 2) [(OI 1 (I3 0 0 0), 1%Qc); (OI 0 (I3 2 0 0), Q2Qc (-1))].
Definition ex_events (z : Q) : list sevent :=
  [SMap ex_map false; SVisible true; SReset; SHeight z; SLimits (Q2Qc (-3)) (Q2Qc 5); SMode MRaw; SAlpha (1 # 2); SMap ex_map true].
Lemma ex_good T : 1 <= T -> good_map T (1 # 2) (SM T (1 # 2) (m_leaves ex_map)).
Proof.
  intros HT. split; [reflexivity|]. split; [reflexivity|]. split.
  - intros i v [H|[H|[]]]; injection H as <- <-; cbn [oh]; lia.
  - intros c. cbn [m_leaves ex_map]. destruct (in_node (OI 1 (I3 0 0 0)) c) eqn:E1; destruct (in_node (OI 0 (I3 2 0 0)) c) eqn:E2.
    + exfalso. unfold in_node in E1, E2. cbn [oh opos px py pz] in E1, E2. change (2 ^ 1) with 2 in *. change (2 ^ 0) with 1 in *. rewrite !andb_true_iff, !Z.leb_le, !Z.ltb_lt in E1, E2. lia.
    + right. exists 1%Qc, [], (OI 1 (I3 0 0 0)), [(OI 0 (I3 2 0 0), Q2Qc (-1))]. split; [reflexivity|]. split; [exact E1|]. intros j u [H|[]]. injection H as <- <-. exact E2.
    + right. exists (Q2Qc (-1)), [(OI 1 (I3 0 0 0), 1%Qc)], (OI 0 (I3 2 0 0)), []. split; [reflexivity|]. split; [exact E2|]. intros j u [H|[]]. injection H as <- <-. exact E1.
    + left. intros j u [H|[H|[]]]; injection H as <- <-; assumption.
Qed.
Lemma ex_repr z : (-100 <= z <= 100)%Q -> representable (1 # 2) z.
Proof. intros H. split; change (inject_Z (2 ^ 31)) with (2147483648 # 1)%Q; lra. Qed.
Example C79_ex : forall z, (-100 <= z <= 100)%Q -> Forall (good_event 2 (1 # 2)) (ex_events z) /\ fresh MProbability true (ex_events z) = true.
Proof.
  intros z H. split; [|reflexivity]. unfold ex_events. repeat apply Forall_cons; try exact I; try apply Forall_nil; [apply (ex_good 2); lia|apply ex_repr; exact H|apply (ex_good 2); lia].
Qed.
Definition shown (l : list sevent) : list (Q * Q * Q * Q) :=
  match srun sinit l with Some (v, _) => map (fun q => (Qred (q_x q), Qred (q_y q), Qred (q_side q), match q_color q with CRaw (Some g) => Qred (cr g) | _ => -1 end))%Q (squares v) | None => [] end.
Example C79_ex_cut : shown (ex_events (3 # 4)) = [(1 # 2, 1 # 2, 1, 1 # 2)]%Q /\
  shown (ex_events (1 # 4)) = [(5 # 4, 1 # 4, 1 # 2, 1 # 4); (1 # 2, 1 # 2, 1, 1 # 2)]%Q /\
  inside (1 # 2) (I3 2 0 0) (5 # 4) (1 # 8) /\ cuts (1 # 2) (1 # 4) (I3 2 0 0) /\ ~ cuts (1 # 2) (3 # 4) (I3 2 0 0).
Proof. split; [vm_compute; reflexivity|]. split; [vm_compute; reflexivity|]. unfold inside, cuts, inject_Z. cbn [px py pz]. repeat split; try reflexivity; try discriminate. intros [_ H]. revert H. vm_compute. discriminate. Qed.
Example C79_ex_colour : rgb_eq (positionToColor 0) (RGB 1 0 0) /\ rgb_eq (positionToColor (5 # 4)) (RGB (1 # 2) 1 0).
Proof. repeat split. Qed.
Example C79_ex_maps : exists C m leaves, valid_config C /\ hashed_reachable C m /\ hw_forEachLeaf qn (fun b => nsize (wroot (btree b))) C m = Some leaves /\ length leaves = 15%nat.
Proof.
  exists (WC 2 (- Q2Qc 2)%Qc (Q2Qc 4)), (hw_run (WC 2 (- Q2Qc 2)%Qc (Q2Qc 4)) (combine [1] (map k_hashed [KAdd (I3 1 (-2) 3) (Q2Qc 8)]))). eexists.
  split; [split; [cbn; lia|reflexivity]|]. split; [eexists; reflexivity|]. split; [vm_compute; reflexivity|reflexivity].
Qed.

(** ** Where the code deviates *)
(** A map with another cell width: the layers keep the old one. Here the only leaf is a square of side 1/2; it is drawn with side 1. *)
Theorem C79_width_change_refuted : exists m1 m2 l v q, good_map 1 1 m1 /\ good_map 1 (1 # 2) m2 /\ l = [SVisible true; SMap m1 true; SMap m2 true] /\
  srun sinit l = Some (v, Some m2) /\ m_leaves m2 = [(OI 0 (I3 0 0 0), 1%Qc)] /\ squares v = [q] /\ (q_side q == 1)%Q.
Proof.
  assert (G : forall w, good_map 1 w (SM 1 w [(OI 0 (I3 0 0 0), 1%Qc)])).
  { intros w. split; [reflexivity|]. split; [reflexivity|]. split; [intros i v [H|[]]; injection H as <- <-; cbn; lia|]. intros c. cbn [m_leaves].
    destruct (in_node (OI 0 (I3 0 0 0)) c) eqn:E; [right; exists 1%Qc, [], (OI 0 (I3 0 0 0)), []; split; [reflexivity|]; split; [exact E|]; intros j u []|].
    left. intros j u [H|[]]. injection H as <- <-. exact E. }
  eexists (SM 1 1 _), (SM 1 (1 # 2) _), _, _, _. split; [apply G|]. split; [apply G|]. split; [reflexivity|]. split; [vm_compute; reflexivity|]. split; [reflexivity|]. split; [vm_compute; reflexivity|]. reflexivity.
Qed.
(** A map with fewer levels: what was drawn on the surplus levels stays. Here the new map has no leaves at all. *)
Theorem C79_levels_change_refuted : exists m1 m2 l v, good_map 1 (1 # 2) m1 /\ good_map 0 (1 # 2) m2 /\ l = [SVisible true; SMap m1 true; SMap m2 true; SHeight (1 # 4)] /\
  srun sinit l = Some (v, Some m2) /\ m_leaves m2 = [] /\ squares v <> [].
Proof.
  eexists (SM 1 (1 # 2) (m_leaves ex_map)), (SM 0 (1 # 2) []), _, _. split; [apply ex_good; lia|]. split; [|].
  - split; [reflexivity|]. split; [reflexivity|]. split; [intros i v []|]. intros c. left. intros i u [].
  - split; [reflexivity|]. split; [vm_compute; reflexivity|]. split; [reflexivity|]. vm_compute. discriminate.
Qed.
(** A message whose frame cannot be looked up changes the map but not the picture, and a reset of the display blanks it: both last until
    the next map or change of a setting. *)
Theorem C79_not_told_refuted : exists m1 m2 l v, good_map 1 (1 # 2) m1 /\ good_map 1 (1 # 2) m2 /\ l = [SVisible true; SMap m1 true; SMap m2 false] /\
  srun sinit l = Some (v, Some m2) /\ m_leaves m2 = [] /\ squares v <> [] /\
  exists v', srun sinit [SVisible true; SMap m1 true; SReset] = Some (v', Some m1) /\ squares v' = [].
Proof.
  eexists (SM 1 (1 # 2) (m_leaves ex_map)), (SM 1 (1 # 2) []), _, _. split; [apply ex_good; lia|]. split; [|].
  - split; [reflexivity|]. split; [reflexivity|]. split; [intros i v []|]. intros c. left. intros i u [].
  - split; [reflexivity|]. split; [vm_compute; reflexivity|]. split; [reflexivity|]. split; [vm_compute; discriminate|]. eexists. split; [vm_compute; reflexivity|reflexivity].
Qed.
(** A slice height that is not representable: the conversion to an integer is undefined. *)
Theorem C79_height_refuted : exists m l z, good_map 2 (1 # 2) m /\ l = [SVisible true; SMap m true; SHeight z] /\ (z == 10000000000)%Q /\ srun sinit l = None.
Proof. eexists ex_map, _, 10000000000%Q. split; [apply (ex_good 2); lia|]. split; [reflexivity|]. split; [reflexivity|]. vm_compute. reflexivity. Qed.
(** Equal limits in raw mode: the colour of the cells with exactly that value is 0 / 0. *)
Theorem C79_raw_refuted : exists m l v q, good_map 2 (1 # 2) m /\ Forall (good_event 2 (1 # 2)) l /\ srun sinit l = Some (v, Some m) /\ In q (squares v) /\ q_color q = CRaw None.
Proof.
  eexists ex_map, [SVisible true; SMode MRaw; SLimits 1%Qc 1%Qc; SMap ex_map true], _, _. split; [apply (ex_good 2); lia|]. split.
  - repeat apply Forall_cons; try exact I; try apply Forall_nil. apply (ex_good 2). lia.
  - split; [vm_compute; reflexivity|]. split; [vm_compute; left; reflexivity|]. reflexivity.
Qed.
Print Assumptions C79_no_abort.
Print Assumptions C79_faithful.
Print Assumptions C79_hidden.
Print Assumptions C79_maps.
Print Assumptions C79_height_colour.
Print Assumptions C79_height_period.
Print Assumptions C79_height_distinct.
Print Assumptions C79_width_change_refuted.
Print Assumptions C79_levels_change_refuted.
Print Assumptions C79_not_told_refuted.
Print Assumptions C79_height_refuted.
Print Assumptions C79_raw_refuted.
