(** What the drawn layers show, and how the display settles *)
From Verif Require Import Base M_IntMath F_IntMath M_NdtreeIndex M_Num F_Num M_Haar F_Haar M_Haar3 F_Haar3 M_Ndtree S_Field F_Hash M_Wavelet
  F_Wavelet F_Wavelet2 F_Leaves F_WavTree F_WavMap F_WavHash M_Octree F_Octree M_Point M_Adjacency M_Sdf F_Sdf M_Viz S_Viz F_Viz F_Viz2.
From Coq Require Import QArith Qcanon Qcabs Lqa Permutation.
Close Scope Qc_scope. Close Scope Q_scope. Open Scope Z_scope.

(** ** Sorting leaves into levels *)
Lemma flat_map_split {A B} (f g : A -> list B) l : Permutation (flat_map (fun a => f a ++ g a) l) (flat_map f l ++ flat_map g l).
Proof.
  induction l as [|a l IH]; cbn [flat_map]; [constructor|]. rewrite <- !app_assoc. apply Permutation_app_head.
  rewrite IH. rewrite !app_assoc. apply Permutation_app_tail. apply Permutation_app_comm.
Qed.
Lemma flat_map_ext' {A B} (f g : A -> list B) l : (forall a, In a l -> f a = g a) -> flat_map f l = flat_map g l.
Proof. induction l as [|a l IH]; intros H; cbn; [reflexivity|]. rewrite H by (left; reflexivity). rewrite IH; [reflexivity|]. intros b Hb; apply H; right; exact Hb. Qed.
Lemma flat_map_single {B} (x : B) d0 : forall n a, (a <= d0 < a + n)%nat -> flat_map (fun d => if (d0 =? d)%nat then [x] else []) (seq a n) = [x].
Proof.
  assert (Z0 : forall n a, (d0 < a)%nat -> flat_map (fun d => if (d0 =? d)%nat then [x] else []) (seq a n) = []).
  { induction n as [|n IH]; intros a H; cbn; [reflexivity|]. destruct (Nat.eqb_spec d0 a); [lia|]. apply IH. lia. }
  induction n as [|n IH]; intros a H; [lia|]. cbn [seq flat_map]. destruct (Nat.eqb_spec d0 a) as [->|]; [rewrite Z0 by lia; reflexivity|].
  apply IH. lia.
Qed.
Lemma bucket_perm {A B} (P : A -> bool) (g : A -> B) (dep : A -> nat) n : forall l, (forall a, In a l -> (dep a < n)%nat) ->
  Permutation (flat_map (fun d => map g (filter (fun a => P a && (dep a =? d)%nat) l)) (seq 0 n)) (map g (filter P l)).
Proof.
  induction l as [|a l IH]; intros H.
  - cbn [filter map]. replace (flat_map (fun _ : nat => []) (seq 0 n)) with (@nil B); [constructor|].
    induction (seq 0 n); cbn; auto.
  - assert (Hd := H a (or_introl eq_refl)). assert (Hl : forall b, In b l -> (dep b < n)%nat) by (intros b Hb; apply H; right; exact Hb).
    rewrite (flat_map_ext' _ (fun d => (if P a then if (dep a =? d)%nat then [g a] else [] else []) ++ map g (filter (fun a => P a && (dep a =? d)%nat) l))).
    2:{ intros d _. cbn [filter]. destruct (P a); cbn [andb]; [|reflexivity]. destruct (dep a =? d)%nat; reflexivity. }
    rewrite flat_map_split. rewrite (IH Hl). cbn [filter]. destruct (P a).
    + rewrite flat_map_single by lia. reflexivity.
    + replace (flat_map (fun _ : nat => []) (seq 0 n)) with (@nil B); [reflexivity|]. clear. induction (seq 0 n); cbn; auto.
Qed.

Section CFG.
Context (C : wconfig (V := Qc)) (w : Q) (HT : 1 <= cT C <= 21) (Hw : (0 < w)%Q).
Notation T := (cT C).
Definition cube_of (iv : oidx * Qc) : cube := (nodeIndexToCenterPoint (oni (fst iv)) w, (w * inject_Z (2 ^ oh (fst iv))%Z)%Q, snd iv).

Lemma leaves_of_heights h k b iv : 0 <= h < T -> In iv (leaves_of C h k b) -> h <= oh (fst iv) < T.
Proof.
  intros Hh Hin. unfold leaves_of in Hin. destruct (wt_forEachLeaf _ _ _ _ _) as [l|] eqn:E; [|destruct Hin]. destruct iv as [i v].
  exact (wt_leaves_heights C (btree b) h k (nsize (wroot (btree b))) l i v ltac:(lia) Hh (le_n _) E Hin).
Qed.
Lemma cubes_perm m z k b h : 0 <= h < T -> getBlock (z_drawn z) k = Some (expected C w m (z_sel z) h k b) ->
  Permutation (cubes z k) (map cube_of (filter (drawn_leaf C m (z_sel z)) (leaves_of C h k b))).
Proof.
  intros Hh E. unfold cubes. rewrite E. unfold expected. set (l := leaves_of C h k b).
  assert (Hl : forall iv, In iv l -> h <= oh (fst iv) < T) by (intros iv Hin; exact (leaves_of_heights h k b iv Hh Hin)). clearbody l.
  set (s := z_sel z). rewrite flat_map_concat_map, map_map, <- flat_map_concat_map. cbn [ly_cells ly_width].
  rewrite (flat_map_ext' _ (fun d => map cube_of (filter (fun iv => drawn_leaf C m s iv && (Z.to_nat (T - oh (fst iv)) =? d)%nat) l))).
  - apply bucket_perm. intros iv Hin. specialize (Hl iv Hin). lia.
  - intros d Hd. apply in_seq in Hd. unfold cells_at. rewrite map_map.
    assert (X : filter (fun iv => drawn_leaf C m s iv && (T - oh (fst iv) =? Z.of_nat d)) l = filter (fun iv => drawn_leaf C m s iv && (Z.to_nat (T - oh (fst iv)) =? d)%nat) l).
    { apply filter_ext_in. intros iv Hin. specialize (Hl iv Hin). f_equal. destruct (Z.eqb_spec (T - oh (fst iv)) (Z.of_nat d)), (Nat.eqb_spec (Z.to_nat (T - oh (fst iv))) d); try reflexivity; lia. }
    rewrite X. apply map_ext_in. intros iv Hin. apply filter_In in Hin as [Hin Hf]. specialize (Hl iv Hin). apply andb_true_iff in Hf as [_ Hf]. apply Nat.eqb_eq in Hf.
    unfold mkcell, cube_of. cbn [vc_center vc_value]. do 2 f_equal. unfold lwidth, heightToCellWidth. rewrite exp2_pow by lia.
    do 3 f_equal. lia.
Qed.

(** ** Geometry *)
Lemma axis_cover x p h : 0 <= h ->
  ((inject_Z p + (1 # 2)) * (w * inject_Z (exp2 h)) - w * inject_Z (2 ^ h)%Z / 2 <= (inject_Z x + (1 # 2)) * w /\
   (inject_Z x + (1 # 2)) * w <= (inject_Z p + (1 # 2)) * (w * inject_Z (exp2 h)) + w * inject_Z (2 ^ h)%Z / 2)%Q <-> (x / 2 ^ h = p)%Z.
Proof.
  intros Hh. rewrite exp2_pow by lia. pose proof (pow2_pos h Hh) as Hp. set (n := 2 ^ h) in *. clearbody n.
  assert (X : (inject_Z (p * n) <= inject_Z x + (1 # 2) <= inject_Z ((p + 1) * n))%Q <-> (x / n = p)%Z).
  { split.
    - intros [A B]. assert (A' : (inject_Z (2 * (p * n)) <= inject_Z (2 * x + 1))%Q) by (rewrite inject_Z_plus, !inject_Z_mult in *; change (inject_Z 2) with 2%Q; change (inject_Z 1) with 1%Q; lra).
      assert (B' : (inject_Z (2 * x + 1) <= inject_Z (2 * ((p + 1) * n)))%Q) by (rewrite inject_Z_plus in *; rewrite !inject_Z_mult in *; change (inject_Z 2) with 2%Q; change (inject_Z 1) with 1%Q; lra).
      rewrite <- Zle_Qle in A', B'. symmetry. apply Z.div_unique with (x - p * n); [left|]; nia.
    - intros <-. pose proof (Z.mul_div_le x n Hp). pose proof (Z.mul_succ_div_gt x n Hp).
      split.
      + assert (A : (inject_Z (x / n * n) <= inject_Z x)%Q) by (rewrite <- Zle_Qle; lia). lra.
      + assert (A : (inject_Z (x + 1) <= inject_Z ((x / n + 1) * n))%Q) by (rewrite <- Zle_Qle; lia). rewrite inject_Z_plus in A. change (inject_Z 1) with 1%Q in A. lra. }
  rewrite <- X. rewrite !inject_Z_mult, inject_Z_plus. change (inject_Z 1) with 1%Q.
  generalize (inject_Z p) (inject_Z n) (inject_Z x). intros P N X'. assert (E2 : (w * N / 2 == (1 # 2) * (w * N))%Q) by field. rewrite E2. clear E2. split; intros [A B]; split.
  - apply (Qmult_le_r _ _ w Hw). lra.
  - apply (Qmult_le_r _ _ w Hw). lra.
  - assert (Y : (P * N * w <= (X' + (1 # 2)) * w)%Q) by (apply (Qmult_le_r _ _ w Hw); exact A). lra.
  - assert (Y : ((X' + (1 # 2)) * w <= (P + 1) * N * w)%Q) by (apply (Qmult_le_r _ _ w Hw); exact B). lra.
Qed.
Lemma in_cube_covers iv c : 0 <= oh (fst iv) -> (in_cube (cube_of iv) (cell_center w c) <-> covers3 (fst iv) c).
Proof.
  destruct iv as [[h [a b e]] v], c as [x y z]. cbn [fst oh]. intros Hh. unfold in_cube, cube_of, cell_center, covers3, nodeIndexToCenterPoint, indexToCenterPoint, heightToCellWidth, imap.
  cbn [fst oni position height ilist opos oh px py pz map snd imap].
  pose proof (axis_cover x a h Hh) as A1. pose proof (axis_cover y b h Hh) as A2. pose proof (axis_cover z e h Hh) as A3. split.
  - intros F. inversion F as [|? ? ? ? F1 F2]; subst. inversion F2 as [|? ? ? ? F3 F4]; subst. inversion F4 as [|? ? ? ? F5 F6]; subst.
    f_equal; [apply A1|apply A2|apply A3]; assumption.
  - intros E. injection E as E1 E2 E3. repeat constructor; try (apply A1; exact E1); try (apply A2; exact E2); try (apply A3; exact E3).
Qed.

(** ** Selection *)
Lemma drawn_to_draw m s i v : 0 <= oh i <= T -> drawn_leaf C m s (i, v) = true <-> to_draw (hw_get qn C m) s i v.
Proof.
  intros Hi. unfold drawn_leaf, shouldBeDrawn, to_draw, on_surface, in_band, observed, sel_isUnknown. cbn [fst snd nltb nabs qn].
  destruct (s_surface_mode s).
  - rewrite andb_true_iff, negb_true_iff, orb_false_iff, !qltb_false. unfold hasFreeNeighbor. rewrite existsb_exists. split.
    + intros [[A B] (o & Ho & Hu)]. split; [exact B|]. split; [exact A|]. apply offsets_in in Ho as (O1 & O2 & O3 & O4).
      exists (px o), (py o), (pz o). repeat (split; [assumption|]). split; [intros E; apply O4; destruct o; cbn in E; injection E as -> -> ->; reflexivity|].
      cbv zeta in Hu |- *. unfold sel_isUnknown in Hu. cbn [nltb nabs qn] in Hu. apply andb_true_iff in Hu as [Hu1 Hu2]. apply negb_true_iff in Hu2. rewrite qltb_iff in Hu1. rewrite qltb_false in Hu2.
      rewrite (hw_node_mean C m (OI (oh i) (imap2 Z.add (opos i) o)) HT) in Hu1, Hu2 by exact Hi. split; [exact Hu2|exact Hu1].
    + intros (B & A & dx & dy & dz & O1 & O2 & O3 & O4 & Hu). split; [split; assumption|]. exists (I3 dx dy dz). split.
      * apply offsets_in. cbn [px py pz]. repeat (split; [assumption|]). intros E. injection E as -> -> ->. apply O4. reflexivity.
      * cbv zeta in Hu |- *. destruct Hu as [Hu2 Hu1]. unfold sel_isUnknown. cbn [nltb nabs qn]. apply andb_true_iff. rewrite negb_true_iff, qltb_iff, qltb_false.
        rewrite (hw_node_mean C m (OI (oh i) (imap2 Z.add (opos i) (I3 dx dy dz))) HT) by exact Hi. split; [exact Hu1|exact Hu2].
  - rewrite negb_true_iff, !orb_false_iff, !qltb_false. tauto.
Qed.

Lemma one_cube_perm l l' p side v : Permutation l l' -> one_cube l p side v -> one_cube l' p side v.
Proof.
  intros Hp (l1 & ctr & l2 & -> & Hin & Hout). set (x := (ctr, side, v)) in *.
  assert (Hx : In x l') by (eapply Permutation_in; [exact Hp|]; apply in_or_app; right; left; reflexivity).
  apply in_split in Hx as (l1' & l2' & ->). exists l1', ctr, l2'. split; [reflexivity|]. split; [exact Hin|].
  intros q Hq. apply Hout. apply Permutation_app_inv in Hp. eapply Permutation_in; [apply Permutation_sym; exact Hp|exact Hq].
Qed.
Lemma node_at_covers i c : covers3 i c -> node_at (oh i) c = i.
Proof. destruct i as [h p]. unfold covers3, node_at, imap. cbn [oh opos]. intros ->. reflexivity. Qed.

Lemma wf_tree m k b : well_formed C m -> getBlock m k = Some b -> tree_ok T (btree b).
Proof.
  intros [_ H] Hb. split; [exact HT|]. specialize (H k b Hb). revert H. generalize (wroot (btree b)).
  assert (X : forall n (t : node (det Qc)), (forall q, valid_path q -> nlook q t <> None -> (length q < n)%nat) -> height_ok n t).
  { induction n as [|n IH]; intros t H; [specialize (H [] (Forall_nil _)); cbn in H; assert (Y : (0 < 0)%nat) by (apply H; discriminate); lia|].
    intros c Hc. destruct (getChild t c) as [ch|] eqn:E; [|exact I]. apply IH. intros q Hq L. specialize (H (c :: q) (Forall_cons _ Hc Hq)). cbn [nlook length] in H.
    rewrite E in H. specialize (H L). lia. }
  intros t H. apply X. intros q Hq L. specialize (H q Hq L). lia.
Qed.
Lemma expected_displayed m z k b h : well_formed C m -> getBlock m k = Some b -> 0 <= h < T ->
  getBlock (z_drawn z) k = Some (expected C w m (z_sel z) h k b) -> displayed C w m z k b h.
Proof.
  intros Wf Hb Hh E. pose proof (cubes_perm m z k b h Hh E) as Pm. set (l := leaves_of C h k b) in *.
  assert (Hl : forall iv, In iv l -> h <= oh (fst iv) < T) by (intros iv Hin; exact (leaves_of_heights h k b iv Hh Hin)).
  assert (Ht := wf_tree m k b Wf Hb). split; [|split].
  - intros Ee. assert (El : l = []) by (unfold l, leaves_of, wt_forEachLeaf; unfold wb_empty in Ee; rewrite Ee; reflexivity).
    rewrite El in Pm. cbn in Pm. apply Permutation_nil. apply Permutation_sym. exact Pm.
  - intros Ee c Hc. assert (Hcov : covers3 (OI T k) c).
    { unfold node_at in Hc. injection Hc as Hc. unfold covers3. cbn [oh opos]. rewrite <- Hc. reflexivity. }
    destruct (wt_leaves_total T (btree b) h k (nsize (wroot (btree b))) (le_n _)) as [l' El].
    assert (Ell : l = l') by (unfold l, leaves_of; rewrite El; reflexivity). rewrite <- Ell in El. clear l' Ell.
    destruct (proj1 (wt_leaves T (btree b) h k _ l Ht Hh (le_n _) Ee El c) Hcov) as (l1 & i & l2 & Es & Hi & Hu).
    assert (Hiv := Hl (i, wt_get qn T (btree b) (OI h (imap (fun c0 => c0 / 2 ^ h) c))) ltac:(rewrite Es; apply in_or_app; right; left; reflexivity)). cbn [fst] in Hiv.
    assert (Ev : wt_get qn T (btree b) (OI h (imap (fun c0 => c0 / 2 ^ h) c)) = node_mean (hw_get qn C m) (node_at h c)).
    { change (hw_get qn C m) with (hw_field C m). rewrite <- (hw_node_mean C m (node_at h c) HT) by (cbn; lia). unfold node_at. change (I3 (px c / 2 ^ h) (py c / 2 ^ h) (pz c / 2 ^ h)) with (imap (fun x => x / 2 ^ h) c).
      rewrite hw_get_node_spec by lia. rewrite <- (block_of_covers C h (imap (fun x => x / 2 ^ h) c) c); [|lia|reflexivity].
      assert (Eb : block_of C c = k) by exact Hcov. rewrite Eb. unfold tree_at. rewrite Hb. reflexivity. }
    rewrite Ev in Es. set (v := node_mean (hw_get qn C m) (node_at h c)) in *. exists (oh i). split; [exact Hiv|]. cbv zeta. fold v. rewrite (node_at_covers i c Hi).
    rewrite <- (drawn_to_draw m (z_sel z) i v) by lia. rewrite Es in Pm. rewrite filter_app in Pm. cbn [filter] in Pm.
    assert (Hout : forall q, In q (map cube_of (filter (drawn_leaf C m (z_sel z)) l1) ++ map cube_of (filter (drawn_leaf C m (z_sel z)) l2)) -> ~ in_cube q (cell_center w c)).
    { intros q Hq. rewrite <- map_app, <- filter_app in Hq. apply in_map_iff in Hq as (iv & <- & Hq). apply filter_In in Hq as [Hq _].
      assert (Hin : In iv l) by (rewrite Es; apply in_app_or in Hq; apply in_or_app; destruct Hq; [left|right; right]; assumption).
      rewrite in_cube_covers by (specialize (Hl iv Hin); lia). apply Hu. apply in_map. exact Hq. }
    destruct (drawn_leaf C m (z_sel z) (i, v)); rewrite map_app in Pm.
    + split; [|intros X; exfalso; apply X; reflexivity]. intros _. cbn [map] in Pm. eapply one_cube_perm; [apply Permutation_sym; exact Pm|].
      eexists _, _, _. split; [reflexivity|]. split; [|exact Hout]. apply (in_cube_covers (i, v) c); [cbn; lia|exact Hi].
    + split; [discriminate|]. intros _ q Hq. apply Hout. eapply Permutation_in; [exact Pm|exact Hq].
  - intros c Hc q Hq. assert (Hcov : ~ covers3 (OI T k) c).
    { intros X. apply Hc. unfold covers3 in X. cbn [oh opos] in X. unfold node_at. rewrite <- X. reflexivity. }
    assert (Hq' := Permutation_in q Pm Hq). apply in_map_iff in Hq' as (iv & <- & Hin). apply filter_In in Hin as [Hin _].
    rewrite in_cube_covers by (specialize (Hl iv Hin); lia).
    destruct (wb_empty qn b) eqn:Ee.
    + assert (El : l = []) by (unfold l, leaves_of, wt_forEachLeaf; unfold wb_empty in Ee; rewrite Ee; reflexivity). rewrite El in Hin. destruct Hin.
    + destruct (wt_leaves_total T (btree b) h k (nsize (wroot (btree b))) (le_n _)) as [l' El].
      assert (Ell : l = l') by (unfold l, leaves_of; rewrite El; reflexivity). rewrite <- Ell in El.
      apply (proj2 (wt_leaves T (btree b) h k _ l Ht Hh (le_n _) Ee El c) Hcov). apply in_map. exact Hin.
Qed.
End CFG.
