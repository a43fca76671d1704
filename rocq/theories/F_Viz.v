(** Facts about the voxel display *)
From Verif Require Import Base M_IntMath F_IntMath M_NdtreeIndex M_Num F_Num M_Haar F_Haar M_Haar3 F_Haar3 M_Ndtree S_Field F_Hash M_Wavelet
  F_Wavelet F_Wavelet2 F_Leaves F_WavTree F_WavMap F_WavHash M_Point M_Adjacency M_Sdf M_Viz.
From Coq Require Import QArith Qcanon Qcabs Lqa Permutation.
Close Scope Qc_scope. Close Scope Q_scope. Open Scope Z_scope.

(** ** Lists *)
Lemma emplace_map x f : forall n a d,
  emplace (V := Qc) d x (map f (seq a n)) = map (fun e => if (e =? a + d)%nat then f e ++ [x] else f e) (seq a n).
Proof.
  induction n as [|n IH]; intros a d; cbn [seq map emplace]; [destruct d; reflexivity|]. destruct d as [|d].
  - cbn [emplace]. rewrite Nat.add_0_r, Nat.eqb_refl. f_equal. apply map_ext_in. intros e He. apply in_seq in He.
    destruct (Nat.eqb_spec e a); [lia|reflexivity].
  - cbn [emplace]. destruct (Nat.eqb_spec a (a + S d)); [lia|]. f_equal. rewrite IH. apply map_ext. intros e. replace (S a + d)%nat with (a + S d)%nat by lia. reflexivity.
Qed.

Section CFG.
Context (C : wconfig (V := Qc)) (w : Q).
Notation T := (cT C).
Definition lwidth (d : nat) : Q := heightToCellWidth w (T - Z.of_nat d).
Definition mkcell (iv : oidx * Qc) : vcell := VC (nodeIndexToCenterPoint (oni (fst iv)) w) (snd iv).
Definition drawn_leaf (m : hmap) (s : selector) (iv : oidx * Qc) : bool := shouldBeDrawn qn C m s (fst iv) (snd iv).
Definition cells_at (m : hmap) (s : selector) (l : list (oidx * Qc)) (d : nat) : list vcell :=
  map mkcell (filter (fun iv => drawn_leaf m s iv && (T - oh (fst iv) =? Z.of_nat d)) l).
Definition leaves_of (h : Z) (k : idx3) (b : wblock) : list (oidx * Qc) :=
  match wt_forEachLeaf qn (nsize (wroot (btree b))) h (OI T k) (btree b) with Some l => l | None => [] end.
(** What a block looks like when it is drawn at height [h] *)
Definition expected (m : hmap) (s : selector) (h : Z) (k : idx3) (b : wblock) : list layer :=
  map (fun d => Layer (lwidth d) (cells_at m s (leaves_of h k b) d)) (seq 0 (Z.to_nat (T + 1 - h))).

Lemma appendLeaves_spec m s n : forall l f,
  (forall iv, In iv l -> 0 <= T - oh (fst iv) < Z.of_nat n) ->
  appendLeaves qn C w m s l (map f (seq 0 n)) = Some (map (fun d => f d ++ cells_at m s l d) (seq 0 n)).
Proof.
  induction l as [|iv l IH]; intros f H; unfold appendLeaves; cbn [fold_left].
  - f_equal. apply map_ext. intros d. cbn. rewrite app_nil_r. reflexivity.
  - unfold appendLeaf at 2. unfold cells_at. cbn [filter]. unfold drawn_leaf at 1.
    assert (Hd := H iv (or_introl eq_refl)).
    destruct (shouldBeDrawn qn C m s (fst iv) (snd iv)) eqn:E.
    + rewrite map_length, seq_length. destruct (Z.leb_spec 0 (T - oh (fst iv))); [|lia].
      destruct (Z.ltb_spec (T - oh (fst iv)) (Z.of_nat n)); [|lia]. cbn [andb]. rewrite emplace_map.
      match goal with |- fold_left ?g l (Some ?x) = _ => change (fold_left g l (Some x)) with (appendLeaves qn C w m s l x) end. rewrite IH by (intros jv Hj; apply H; right; exact Hj). f_equal. apply map_ext_in. intros d Hin.
      cbn [Nat.add]. destruct (Nat.eqb_spec d (Z.to_nat (T - oh (fst iv)))) as [->|Hne].
      * rewrite Z2Nat.id by lia. rewrite Z.eqb_refl. cbn [map]. unfold cells_at. rewrite <- app_assoc. cbn [app]. rewrite Z2Nat.id by lia. reflexivity.
      * destruct (Z.eqb_spec (T - oh (fst iv)) (Z.of_nat d)) as [E'|]; [lia|]. reflexivity.
    + cbn [andb]. match goal with |- fold_left ?g l (Some ?x) = _ => change (fold_left g l (Some x)) with (appendLeaves qn C w m s l x) end. rewrite IH by (intros jv Hj; apply H; right; exact Hj). reflexivity.
Qed.

Definition widths_ok (ls : list (layer (V := Qc))) : Prop := map ly_width ls = map lwidth (seq 0 (length ls)).
Lemma drawLayers_spec f : forall n a ls,
  map ly_width ls = map lwidth (seq a (length ls)) ->
  drawLayers C w (Z.of_nat a) (map f (seq a n)) ls = map (fun d => Layer (lwidth d) (f d)) (seq a n).
Proof.
  induction n as [|n IH]; intros a ls H; cbn [seq map drawLayers]; [reflexivity|].
  replace (Z.of_nat a + 1) with (Z.of_nat (S a)) by lia. destruct ls as [|l ls].
  - rewrite IH by reflexivity. reflexivity.
  - cbn [length seq map] in H. injection H as H1 H2. rewrite H1. rewrite IH by exact H2. reflexivity.
Qed.
Lemma expected_widths m s h k b : widths_ok (expected m s h k b).
Proof. unfold widths_ok, expected. rewrite map_map. cbn [ly_width]. rewrite map_length, seq_length. reflexivity. Qed.
Lemma expected_length m s h k b : length (expected m s h k b) = Z.to_nat (T + 1 - h).
Proof. unfold expected. rewrite map_length, seq_length. reflexivity. Qed.
Lemma repeat_map {A} (x : A) n : forall a, repeat x n = map (fun _ => x) (seq a n).
Proof. induction n as [|n IH]; intros a; cbn; [reflexivity|]. f_equal. apply IH. Qed.

Lemma drawBlock_spec m k b z h :
  1 <= T -> getBlock (z_queue z) k = Some h -> 0 <= h < T ->
  (forall ls, getBlock (z_drawn z) k = Some ls -> widths_ok ls) ->
  drawBlock qn (DM C w m) k b z =
  Some (Viz (setBlock (z_drawn z) k (expected m (z_sel z) h k b)) (fst (eraseBlock (z_queue z) k)) (z_last z) (z_force z) (z_visible z) (z_term z) (z_sel z)).
Proof.
  intros HT Hq Hh Hw. unfold drawBlock. cbn [d_conf d_width d_blocks]. rewrite Hq.
  destruct (Z.leb_spec (T + 1 - h) 0); [lia|].
  destruct (wt_leaves_total T (btree b) h k (nsize (wroot (btree b))) (le_n _)) as [l El]. rewrite El.
  rewrite (repeat_map [] (Z.to_nat (T + 1 - h)) 0).
  rewrite appendLeaves_spec.
  2:{ intros [i v] Hin. pose proof (wt_leaves_heights C (btree b) h k (nsize (wroot (btree b))) l i v HT Hh (le_n _) El Hin). cbn [fst]. lia. }
  do 2 f_equal. f_equal. unfold expected, leaves_of. rewrite El.
  apply (drawLayers_spec (fun d => [] ++ cells_at m (z_sel z) l d) _ 0).
  destruct (getBlock (z_drawn z) k) as [ls|] eqn:E; [apply (Hw ls eq_refl)|reflexivity].
Qed.
End CFG.

(** ** Spatial hashes *)
Lemma getBlock_filter_key {B} (f : idx3 -> bool) (m : shash B) j :
  getBlock (filter (fun kb => f (fst kb)) m) j = if f j then getBlock m j else None.
Proof.
  induction m as [|[k b] m IH]; cbn [filter getBlock fst]; [destruct (f j); reflexivity|].
  destruct (f k) eqn:E; cbn [getBlock]; destruct (ieqb_spec k j) as [->|Hne]; rewrite ?E in *; auto.
Qed.
Lemma fold_setBlock {B D} (v : B) (l : shash D) : forall (q : shash B) j,
  getBlock (fold_left (fun q kb => setBlock q (fst kb) v) l q) j = if existsb (ieqb j) (map fst l) then Some v else getBlock q j.
Proof.
  induction l as [|[k b] l IH]; intros q j; cbn [fold_left map fst existsb]; [reflexivity|].
  rewrite IH, getBlock_setBlock. rewrite (ieqb_sym k j). destruct (ieqb j k); cbn [orb]; [destruct (existsb _ _); reflexivity|reflexivity].
Qed.
Lemma fold_setBlock_wf {B D} (v : B) (l : shash D) : forall (q : shash B), hwf q -> hwf (fold_left (fun q kb => setBlock q (fst kb) v) l q).
Proof. induction l as [|[k b] l IH]; intros q H; cbn [fold_left]; [exact H|]. apply IH. apply setBlock_wf. exact H. Qed.
Lemma existsb_ieqb j l : existsb (ieqb j) l = true <-> In j l.
Proof. rewrite existsb_exists. split; [intros (x & Hin & E); apply ieqb_iff in E; congruence|intros H; exists j; split; [exact H|apply ieqb_refl]]. Qed.
Lemma eraseBlock_wf {B} (m : shash B) k : hwf m -> hwf (fst (eraseBlock m k)).
Proof. intros H. unfold eraseBlock. cbn [fst]. apply filter_wf. exact H. Qed.
