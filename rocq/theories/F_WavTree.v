(** One wavelet tree of height [T] seen as a field of cell values (exact arithmetic). *)
From Verif Require Import Base M_IntMath F_IntMath M_Morton F_Morton M_NdtreeIndex F_NdtreeIndex
  M_Num F_Num M_Haar F_Haar M_Haar3 F_Haar3 M_Ndtree S_Field F_Hash M_Wavelet F_Wavelet F_Wavelet2 F_Leaves.
From Coq Require Import QArith Qcanon Qcabs Lqa.
Close Scope Qc_scope.
Close Scope Q_scope.
Open Scope Z_scope.

(** Coordinates of a node relative to a tree of height [T]. *)
Definition inside (T : Z) (i : oidx) : Prop :=
  0 <= oh i <= T /\ 0 <= px (opos i) < 2 ^ (T - oh i) /\ 0 <= py (opos i) < 2 ^ (T - oh i) /\ 0 <= pz (opos i) < 2 ^ (T - oh i).
Definition covers3b (i : oidx) (cell : idx3) : bool := ieqb (imap (fun c => c / 2 ^ oh i) cell) (opos i).

Lemma covers3b_iff i cell : covers3b i cell = true <-> covers3 i cell.
Proof. apply ieqb_iff. Qed.

Lemma testbit_shift x b j : 0 <= b -> 0 <= j -> Z.testbit (x / 2 ^ b) j = Z.testbit x (j + b).
Proof. intros Hb Hj. rewrite <- Z.shiftr_div_pow2 by assumption. apply Z.shiftr_spec. assumption. Qed.
Lemma cidx_shift p b j : 0 <= b -> 0 <= j -> cidx (imap (fun c => c / 2 ^ b) p) j = cidx p (j + b).
Proof. intros Hb Hj. unfold cidx, imap. cbn [px py pz]. rewrite !testbit_shift by assumption. reflexivity. Qed.
Lemma firstn_path a b p : firstn a (path (a + b) p) = path a (imap (fun c => c / 2 ^ Z.of_nat b) p).
Proof.
  induction a as [|a IH]; cbn [Nat.add path firstn]; [reflexivity|].
  rewrite cidx_shift by lia. replace (Z.of_nat a + Z.of_nat b) with (Z.of_nat (a + b)) by lia.
  rewrite IH. reflexivity.
Qed.
Lemma cidx_bits p p' j : cidx p j = cidx p' j ->
  Z.testbit (px p) j = Z.testbit (px p') j /\ Z.testbit (py p) j = Z.testbit (py p') j /\ Z.testbit (pz p) j = Z.testbit (pz p') j.
Proof.
  unfold cidx.
  destruct (Z.testbit (px p) j), (Z.testbit (py p) j), (Z.testbit (pz p) j),
    (Z.testbit (px p') j), (Z.testbit (py p') j), (Z.testbit (pz p') j); cbn [Z.b2z]; intros H; repeat split; lia.
Qed.
Lemma path_bits k p p' : path k p = path k p' -> forall j, 0 <= j < Z.of_nat k -> cidx p j = cidx p' j.
Proof.
  induction k as [|k IH]; intros H j Hj; [lia|]. cbn [path] in H. injection H as H1 H2.
  destruct (Z.eq_dec j (Z.of_nat k)) as [->|]; [assumption|]. apply IH; [assumption|lia].
Qed.
Lemma path_ext k p p' : (forall j, 0 <= j < Z.of_nat k -> cidx p j = cidx p' j) -> path k p = path k p'.
Proof.
  induction k as [|k IH]; intros H; cbn [path]; [reflexivity|]. rewrite H by lia. rewrite IH; [reflexivity|].
  intros j Hj. apply H. lia.
Qed.
Lemma bits_eq_low x y k : 0 <= x < 2 ^ k -> 0 <= y < 2 ^ k -> 0 <= k ->
  (forall j, 0 <= j < k -> Z.testbit x j = Z.testbit y j) -> x = y.
Proof.
  intros Hx Hy Hk H. apply Z.bits_inj'. intros j Hj. destruct (Z.lt_ge_cases j k) as [L|L]; [apply H; lia|].
  assert (B : forall z, 0 <= z < 2 ^ k -> Z.testbit z j = false).
  { intros z Hz. rewrite Z.testbit_false by assumption. rewrite Z.div_small; [reflexivity|].
    split; [lia|]. apply Z.lt_le_trans with (2 ^ k); [lia|]. apply Z.pow_le_mono_r; lia. }
  rewrite !B by assumption. reflexivity.
Qed.
Definition in_box (k : Z) (p : idx3) : Prop := 0 <= px p < 2 ^ k /\ 0 <= py p < 2 ^ k /\ 0 <= pz p < 2 ^ k.
Lemma path_inj k p p' : in_box (Z.of_nat k) p -> in_box (Z.of_nat k) p' -> path k p = path k p' -> p = p'.
Proof.
  intros (Hx & Hy & Hz) (Hx' & Hy' & Hz') H. destruct p as [x y z], p' as [x' y' z']. cbn [px py pz] in *.
  assert (B : forall j, 0 <= j < Z.of_nat k -> Z.testbit x j = Z.testbit x' j /\ Z.testbit y j = Z.testbit y' j /\ Z.testbit z j = Z.testbit z' j).
  { intros j Hj. apply (path_bits k _ _ H) in Hj. exact (cidx_bits _ _ _ Hj). }
  f_equal; eapply bits_eq_low; try eassumption; try lia; intros j Hj; apply B; assumption.
Qed.
Lemma testbit_mod x k j : 0 <= j < k -> Z.testbit (x mod 2 ^ k) j = Z.testbit x j.
Proof. intros H. rewrite Z.mod_pow2_bits_low by lia. reflexivity. Qed.
Lemma path_mod k p T : Z.of_nat k <= T -> path k (imap (fun c => c mod 2 ^ T) p) = path k p.
Proof.
  intros H. apply path_ext. intros j Hj. unfold cidx, imap. cbn [px py pz].
  rewrite !testbit_mod by lia. reflexivity.
Qed.
Lemma path_snoc k p : path (S k) p = path k (imap (fun c => c / 2) p) ++ [cidx p 0].
Proof.
  induction k as [|k IH]; [reflexivity|].
  change (path (S (S k)) p) with (cidx p (Z.of_nat (S k)) :: path (S k) p). rewrite IH.
  cbn [path app]. f_equal. change 2 with (2 ^ 1). rewrite cidx_shift by lia. f_equal. lia.
Qed.

Lemma contrib_prefix p : forall q x, (length p <= length q)%nat ->
  contrib p q x = if list_eq_dec Z.eq_dec p (firstn (length p) q) then x else 0%Qc.
Proof.
  induction p as [|c p IH]; intros q x H; cbn [contrib length firstn].
  - destruct (list_eq_dec Z.eq_dec [] []); congruence.
  - destruct q as [|c' q]; cbn [length] in H; [lia|]. cbn [firstn].
    destruct (Z.eqb_spec c' c) as [->|Hne].
    + rewrite IH by lia. destruct (list_eq_dec Z.eq_dec p (firstn (length p) q)), (list_eq_dec Z.eq_dec (c :: p) (c :: firstn (length p) q)); congruence.
    + destruct (list_eq_dec Z.eq_dec (c :: p) (c' :: firstn (length p) q)); congruence.
Qed.

(** Value of a cell, and the well-formedness of trees. *)
Definition cellv (T : Z) (t : wtree) (cell : idx3) : Qc := wt_get qn T t (OI 0 cell).
Definition tree_ok (T : Z) (t : wtree (V := Qc)) : Prop := 1 <= T <= 21 /\ height_ok (Z.to_nat T) (wroot t).

Lemma wt_get_eval T t h p : 0 <= h <= T -> T <= 21 ->
  wt_get qn T t (OI h p) = eval (wscale t) (wroot t) (path (Z.to_nat (T - h)) p).
Proof. intros Hh HT. unfold wt_get. cbn [oh]. apply get_loop_eval; lia. Qed.

Lemma tree_ok_new T : 1 <= T <= 21 -> tree_ok T (wt_new qn).
Proof.
  intros H. split; [assumption|]. cbn [wt_new wroot]. destruct (Z.to_nat T) eqn:E; [lia|].
  apply height_ok_new.
Qed.
Lemma wt_get_new T h p : 0 <= h <= T -> T <= 21 -> wt_get qn T (wt_new qn) (OI h p) = 0%Qc.
Proof. intros Hh HT. rewrite wt_get_eval by assumption. apply eval_new. Qed.

(** The value setCellValue compares with. *)
Definition parent_index (i : oidx) : oidx := OI (oh i + 1) (imap (fun c => c / 2) (opos i)).
Definition ref_value (T : Z) (t : wtree) (i : oidx) : Qc :=
  if oh i =? T then wscale t else wt_get qn T t (parent_index i).

Lemma removelast_path k p : removelast (path (S k) p) = path k (imap (fun c => c / 2) p).
Proof. rewrite path_snoc. apply removelast_last. Qed.

Lemma wt_update_eval T t i inc : 0 <= oh i <= T -> 1 <= T <= 21 ->
  let t' := wt_update qn T t i inc in
  (forall r, valid_path r -> eval (wscale t') (wroot t') r =
     (eval (wscale t) (wroot t) r + contrib (path (Z.to_nat (T - oh i)) (opos i)) r (inc (ref_value T t i)))%Qc) /\
  (tree_ok T t -> tree_ok T t').
Proof.
  intros Hh HT. destruct i as [h p]. cbn [oh opos] in *. unfold wt_update. cbn [oh].
  destruct (Z.to_nat (T - h)) as [|k] eqn:E.
  - cbv zeta. cbn [wscale wroot path contrib]. split; [|intros H; exact H].
    intros r Hr. unfold ref_value. cbn [oh]. replace (h =? T) with true by (symmetry; apply Z.eqb_eq; lia).
    cbn [contrib nadd qn]. apply eval_shift.
  - rewrite (update_loop_path k T h p inc) by lia.
    destruct (upd_path_spec (path k p) (cidx p (Z.of_nat k)) inc (wscale t) (wroot t)
               (cidx_range _ _) (path_valid _ _)) as [_ He].
    pose proof (upd_path_height (path k p) (Z.to_nat T) (cidx p (Z.of_nat k)) inc (wscale t) (wroot t)
               (cidx_range _ _) (path_valid _ _)) as Hk.
    rewrite parent_value_eval in He.
    change (cidx p (Z.of_nat k) :: path k p) with (path (S k) p) in He. rewrite removelast_path in He.
    destruct (upd_path (path k p) _ inc _ _) as [n' s]. cbv zeta. cbn [fst snd wscale wroot nadd qn] in *.
    split.
    + intros r Hr. rewrite He by assumption. do 3 f_equal. unfold ref_value. cbn [oh].
      replace (h =? T) with false by (symmetry; apply Z.eqb_neq; lia).
      unfold parent_index. cbn [oh opos]. rewrite wt_get_eval by lia. do 2 f_equal. lia.
    + intros [_ H]. split; [assumption|]. apply Hk; [|assumption]. rewrite path_length. lia.
Qed.

Lemma path_prefix_covers T h p cell : 0 <= h <= T -> inside T (OI h p) -> in_box T cell ->
  (path (Z.to_nat (T - h)) p = firstn (Z.to_nat (T - h)) (path (Z.to_nat T) cell) <-> covers3 (OI h p) cell).
Proof.
  intros Hh (_ & Hx & Hy & Hz) Hc. cbn [oh opos] in *.
  replace (Z.to_nat T) with (Z.to_nat (T - h) + Z.to_nat h)%nat by lia. rewrite firstn_path.
  rewrite !Z2Nat.id by lia. unfold covers3. cbn [oh opos]. split; [|intros ->; reflexivity].
  intros E. symmetry. apply path_inj in E; [assumption| |].
  - rewrite Z2Nat.id by lia. unfold in_box. auto.
  - rewrite Z2Nat.id by lia. destruct cell as [a b c]. unfold in_box, imap in *. cbn [px py pz] in *.
    assert (D : forall x, 0 <= x < 2 ^ T -> 0 <= x / 2 ^ h < 2 ^ (T - h)).
    { intros x Hx'. assert (0 < 2 ^ h) by (apply Z.pow_pos_nonneg; lia).
      split; [apply Z.div_pos; lia|]. apply Z.div_lt_upper_bound; [lia|].
      rewrite <- Z.pow_add_r by lia. replace (h + (T - h)) with T by lia. lia. }
    destruct Hc as (? & ? & ?). repeat split; apply D; assumption.
Qed.

(** Update of one node: every covered cell is shifted, every other one is unchanged. *)
Lemma wt_update_cell T t i inc cell : 1 <= T <= 21 -> inside T i -> in_box T cell ->
  cellv T (wt_update qn T t i inc) cell =
  (cellv T t cell + (if covers3b i cell then inc (ref_value T t i) else 0))%Qc.
Proof.
  intros HT Hi Hc. unfold cellv. rewrite !wt_get_eval by lia.
  destruct (wt_update_eval T t i inc (proj1 Hi) HT) as [He _]. cbv zeta in He.
  rewrite He by apply path_valid. f_equal. rewrite Z.sub_0_r.
  destruct i as [h p]. cbn [oh opos] in *. rewrite contrib_prefix by (rewrite !path_length; destruct Hi; cbn [oh] in *; lia).
  rewrite path_length.
  pose proof (path_prefix_covers T h p cell (proj1 Hi) Hi Hc) as PC.
  rewrite <- covers3b_iff in PC.
  destruct (list_eq_dec Z.eq_dec _ _) as [E|E].
  - apply PC in E. rewrite E. reflexivity.
  - destruct (covers3b (OI h p) cell); [exfalso; apply E, PC; reflexivity|reflexivity].
Qed.
Lemma wt_update_ok T t i inc : 0 <= oh i <= T -> tree_ok T t -> tree_ok T (wt_update qn T t i inc).
Proof. intros Hh Ht. destruct (wt_update_eval T t i inc Hh (proj1 Ht)) as [_ H]. exact (H Ht). Qed.

(** ** Averages over boxes of cells *)
Lemma sum_range_app f n : forall a m, sum_range f a (n + m) = (sum_range f a n + sum_range f (a + Z.of_nat n)%Z m)%Qc.
Proof.
  induction n as [|n IH]; intros a m; cbn [Nat.add sum_range].
  - rewrite Qcplus_0_l. f_equal. lia.
  - rewrite IH. replace (a + 1 + Z.of_nat n) with (a + Z.of_nat (S n)) by lia. ring.
Qed.
Lemma sum_range_plus f g n : forall a, sum_range (fun x => (f x + g x)%Qc) a n = (sum_range f a n + sum_range g a n)%Qc.
Proof. induction n as [|n IH]; intros a; cbn [sum_range]; [ring|]. rewrite IH. ring. Qed.
Lemma sum_range_ext f g n : forall a, (forall x, a <= x < a + Z.of_nat n -> f x = g x) -> sum_range f a n = sum_range g a n.
Proof.
  induction n as [|n IH]; intros a H; cbn [sum_range]; [reflexivity|]. rewrite H by lia. rewrite (IH (a + 1)); [reflexivity|].
  intros x Hx. apply H. lia.
Qed.
Lemma sum_range_double f a n : sum_range f (a * Z.of_nat (2 * n)) (2 * n) =
  (sum_range f (2 * a * Z.of_nat n) n + sum_range f ((2 * a + 1) * Z.of_nat n)%Z n)%Qc.
Proof.
  replace (2 * n)%nat with (n + n)%nat by lia. rewrite sum_range_app. f_equal; f_equal; lia.
Qed.

Definition child_pos (p : idx3) (c : Z) : idx3 :=
  I3 (2 * px p + Z.b2z (Z.testbit c 0)) (2 * py p + Z.b2z (Z.testbit c 1)) (2 * pz p + Z.b2z (Z.testbit c 2)).
Lemma cell_sum_split f h p : 0 <= h ->
  cell_sum f (h + 1) p = sum8 (fun c => cell_sum f h (child_pos p c)).
Proof.
  intros Hh. unfold cell_sum. assert (P : 0 < 2 ^ h) by (apply Z.pow_pos_nonneg; lia).
  set (n := Z.to_nat (2 ^ h)). assert (En : 2 ^ h = Z.of_nat n) by (subst n; lia).
  replace (2 ^ (h + 1)) with (Z.of_nat (2 * n)) by (rewrite Z.add_1_r, Z.pow_succ_r by lia; lia).
  rewrite En, Nat2Z.id. rewrite sum_range_double.
  destruct p as [x y z]. cbn [px py pz].
  assert (E : forall a m, sum_range (fun x => sum_range (fun y => sum_range (fun z => f (I3 x y z)) (z * Z.of_nat (2 * n)) (2 * n)) (y * Z.of_nat (2 * n)) (2 * n)) a m =
    (sum_range (fun x => sum_range (fun y => sum_range (fun z => f (I3 x y z)) (2 * z * Z.of_nat n) n) (2 * y * Z.of_nat n) n) a m +
     sum_range (fun x => sum_range (fun y => sum_range (fun z => f (I3 x y z)) ((2 * z + 1) * Z.of_nat n) n) (2 * y * Z.of_nat n) n) a m +
     (sum_range (fun x => sum_range (fun y => sum_range (fun z => f (I3 x y z)) (2 * z * Z.of_nat n) n) ((2 * y + 1) * Z.of_nat n) n) a m +
      sum_range (fun x => sum_range (fun y => sum_range (fun z => f (I3 x y z)) ((2 * z + 1) * Z.of_nat n) n) ((2 * y + 1) * Z.of_nat n) n) a m))%Qc).
  { intros a m. rewrite <- !sum_range_plus. apply sum_range_ext. intros u _. rewrite sum_range_double.
    rewrite <- !sum_range_plus. f_equal; apply sum_range_ext; intros w _; apply sum_range_double. }
  rewrite !E. unfold sum8, child_pos. cbn [px py pz].
  repeat match goal with |- context [Z.b2z (Z.testbit ?a ?b)] =>
    let v := eval vm_compute in (Z.b2z (Z.testbit a b)) in change (Z.b2z (Z.testbit a b)) with v end.
  rewrite !Z.add_0_r. ring.
Qed.

Lemma child_pos_path k p c : 0 <= c < 8 -> path (S k) (child_pos p c) = path k p ++ [c].
Proof.
  intros Hc. rewrite path_snoc. f_equal.
  - f_equal. destruct p as [x y z]. unfold child_pos, imap. cbn [px py pz].
    assert (D : forall u b, (2 * u + Z.b2z b) / 2 = u) by (intros u b; destruct b; cbn [Z.b2z]; Z.div_mod_to_equations; lia).
    rewrite !D. reflexivity.
  - f_equal. unfold cidx, child_pos. cbn [px py pz].
    assert (B : forall u b, Z.testbit (2 * u + Z.b2z b) 0 = b).
    { intros u b. rewrite Z.bit0_odd, Z.odd_add, Z.odd_mul. destruct b; reflexivity. }
    rewrite !B. child8 c Hc; reflexivity.
Qed.

(** A node's value is the mean of its cells. *)
Lemma eval_cell_sum v n k : forall h p, 
  cell_sum (fun cell => eval v n (path (k + h) cell)) (Z.of_nat h) p = (q8pow h * eval v n (path k p))%Qc.
Proof.
  intros h. revert k. induction h as [|h IH]; intros k p.
  - unfold cell_sum. cbn. rewrite !Z.mul_1_r, Nat.add_0_r. destruct p as [x y z]. cbn [px py pz].
    unfold q8pow. cbn [Nat.mul Qcpower]. change (Pos.to_nat 1) with 1%nat. cbn [sum_range]. ring.
  - replace (Z.of_nat (S h)) with (Z.of_nat h + 1) by lia. rewrite cell_sum_split by lia.
    rewrite (sum8_ext _ (fun c => (q8pow h * eval v n (path k p ++ [c]))%Qc)).
    + assert (E := eval_mean (path k p) v n (path_valid k p)). unfold sum8 in *.
      rewrite q8pow_S. transitivity (q8pow h * (Qcpower q2 3 * eval v n (path k p)))%Qc; [rewrite <- E|]; ring.
    + intros c Hc. rewrite <- child_pos_path by assumption. rewrite <- IH.
      replace (S k + h)%nat with (k + S h)%nat by lia. reflexivity.
Qed.
Lemma cell_sum_ext f g h p : 0 <= h ->
  (forall cell, covers3 (OI h p) cell -> f cell = g cell) -> cell_sum f h p = cell_sum g h p.
Proof.
  intros Hh H. unfold cell_sum. assert (P : 0 < 2 ^ h) by (apply Z.pow_pos_nonneg; lia).
  assert (D : forall x a, a * 2 ^ h <= x < a * 2 ^ h + Z.of_nat (Z.to_nat (2 ^ h)) -> x / 2 ^ h = a).
  { intros x a Hx. rewrite Z2Nat.id in Hx by lia. symmetry. apply (Z.div_unique x (2 ^ h) a (x - a * 2 ^ h)); lia. }
  apply sum_range_ext; intros x Hx. apply sum_range_ext; intros y Hy. apply sum_range_ext; intros z Hz.
  apply H. unfold covers3, imap. cbn [oh opos px py pz]. rewrite (D x (px p)), (D y (py p)), (D z (pz p)) by assumption.
  destruct p; reflexivity.
Qed.
Lemma wt_node_mean T t h p : 0 <= h <= T -> T <= 21 ->
  cell_sum (cellv T t) h p = (q8pow (Z.to_nat h) * wt_get qn T t (OI h p))%Qc.
Proof.
  intros Hh HT. rewrite wt_get_eval by assumption. rewrite <- eval_cell_sum. rewrite Z2Nat.id by lia.
  apply cell_sum_ext; [lia|]. intros cell _. unfold cellv. rewrite wt_get_eval by lia.
  do 2 f_equal. lia.
Qed.

(** ** Threshold and prune of a whole tree *)
Definition wt_threshold (lo hi : Qc) (t : wtree) : wtree :=
  WT (fst (threshold_rec qn lo hi (wroot t) (wscale t))) (snd (threshold_rec qn lo hi (wroot t) (wscale t))).
Definition wt_prune (t : wtree) : wtree (V := Qc) := WT (prune_rec qn (wroot t)) (wscale t).
Lemma wt_threshold_cell T lo hi t cell : tree_ok T t ->
  cellv T (wt_threshold lo hi t) cell = qclamp lo hi (cellv T t cell).
Proof.
  intros [HT Hk]. unfold cellv. rewrite !wt_get_eval by lia. rewrite Z.sub_0_r. cbn [wt_threshold wscale wroot].
  apply (thr_eval _ _ (Z.to_nat T)); [assumption|apply path_valid|rewrite path_length; lia].
Qed.
Lemma wt_threshold_ok T lo hi t : tree_ok T t -> tree_ok T (wt_threshold lo hi t).
Proof. intros [HT Hk]. split; [assumption|]. apply thr_height. assumption. Qed.
Lemma wt_prune_node T t h p : tree_ok T t -> 0 <= h <= T ->
  (Qcabs (wt_get qn T (wt_prune t) (OI h p) - wt_get qn T t (OI h p)) <= qz (T - 1) * prune_unit)%Qc.
Proof.
  intros [HT Hk] Hh. rewrite !wt_get_eval by lia. cbn [wt_prune wscale wroot].
  destruct (Z.to_nat T) as [|k] eqn:E; [lia|]. replace (T - 1) with (Z.of_nat k) by lia.
  apply prune_eval; [assumption|apply path_valid].
Qed.
Lemma wt_prune_ok T t : tree_ok T t -> tree_ok T (wt_prune t).
Proof. intros [HT Hk]. split; [assumption|]. apply prune_height. assumption. Qed.

(** ** Leaves of a whole tree; cells in the coordinates of the root index. *)
Lemma wt_leaves T t th b fuel l : tree_ok T t -> 0 <= th < T -> (nsize (wroot t) <= fuel)%nat ->
  wt_empty qn t = false ->
  wt_forEachLeaf qn fuel th (OI T b) t = Some l ->
  forall cell, (covers3 (OI T b) cell ->
      covered_once l cell (wt_get qn T t (OI th (imap (fun c => c / 2 ^ th) cell)))) /\
    (~ covers3 (OI T b) cell -> uncovered l cell).
Proof.
  intros [HT Hk] Hth Hf He Hl. unfold wt_forEachLeaf in Hl. rewrite He in Hl.
  rewrite leaf_loop_leaves in Hl by (cbn [stack_size]; lia). injection Hl as <-.
  cbn [rev app flat_map fst snd]. rewrite app_nil_r. intros cell. split.
  - intros Hc. rewrite wt_get_eval by lia.
    pose proof (leaves_cover (Z.to_nat T) (Z.to_nat th) (wroot t) (OI T b) (wscale t) cell Hk
                  ltac:(cbn [oh]; lia) ltac:(lia) Hc) as H.
    rewrite Z2Nat.id in H by lia.
    replace (Z.to_nat T) with ((Z.to_nat T - Z.to_nat th) + Z.to_nat th)%nat in H at 2 by lia.
    rewrite firstn_path in H. rewrite Z2Nat.id in H by lia.
    replace (Z.to_nat (T - th)) with (Z.to_nat T - Z.to_nat th)%nat by lia. exact H.
  - intros Hc. apply leaves_uncovered; [lia|cbn [oh]; lia|assumption].
Qed.
Lemma wt_leaves_total T t th b fuel : (nsize (wroot t) <= fuel)%nat ->
  exists l, wt_forEachLeaf qn fuel th (OI T b) t = Some l.
Proof.
  intros Hf. unfold wt_forEachLeaf. destruct (wt_empty qn t); [eauto|].
  rewrite leaf_loop_leaves by (cbn [stack_size]; lia). eauto.
Qed.

(** ** Empty trees *)
Lemma wt_empty_get T t h p : wt_empty qn t = true -> 0 <= h <= T -> T <= 21 ->
  wt_get qn T t (OI h p) = wscale t /\ (Qcabs (wscale t) < qeps)%Qc.
Proof.
  intros He Hh HT. unfold wt_empty in He. apply andb_true_iff in He as [He H3]. apply andb_true_iff in He as [H1 H2].
  split; [|apply qltb_iff; exact H3].
  rewrite wt_get_eval by assumption. rewrite eval_leaf by (apply negb_true_iff; exact H1).
  destruct (path _ p) as [|c q]; [reflexivity|].
  assert (Hz : ndata (wroot t) = dzero qn).
  { apply negb_true_iff in H2. unfold det_nonzero in H2. destruct (ndata (wroot t)) as [d1 d2 d3 d4 d5 d6 d7].
    cbn [dlist existsb] in H2. rewrite !orb_false_iff, !negb_false_iff in H2. cbn [neqb n0 qn] in H2.
    rewrite !qeqb_iff in H2. unfold dzero. cbn [n0 qn]. destruct H2 as (-> & -> & -> & -> & -> & -> & -> & _). reflexivity. }
  rewrite Hz. apply child_value_zero.
Qed.
