(** Property theorems C61: the effect of one scan of the CoarseToFineIntegrator on a VolumetricOctree, in exact arithmetic. *)
From Verif Require Import Base M_IntMath F_IntMath M_NdtreeIndex M_Num F_Num M_Haar3 F_Haar3 M_Ndtree S_Field S_Integrate F_Hash
  M_Wavelet F_Wavelet F_Wavelet2 F_Leaves F_WavTree F_WavMap F_WavHist M_Octree F_Octree M_VolOctree P_VolOctree
  M_Integrator F_Integrator F_Integrator3 M_CoarseToFine.
From Coq Require Import QArith Qcanon Qcabs Lqa.
Close Scope Qc_scope.
Close Scope Q_scope.
Open Scope Z_scope.

(** ** Specification *)
(** The node at which the refinement for cell [c] ends, coming down from height [h]: the first one that is unobserved, or whose
    error bound is met, or that is a single cell. *)
Definition ends_at (W : oracle Qc) (h : Z) (c : idx3) (i : oidx) : Prop :=
  exists k, 0 <= k <= h /\ i = node_of c k /\
    (forall j, k < j <= h -> ~ unobserved (o_type W) (node_of c j) /\ o_accept W (node_of c j) = false) /\
    (k = 0 \/ unobserved (o_type W) i \/ o_accept W i = true).
(** What it contributes to the cells of the node: nothing if it is unobserved or the update is not above 1e-6, else the update
    at its centre. *)
Definition contributes (W : oracle Qc) (i : oidx) (u : Qc) : Prop :=
  (0 < oh i /\ unobserved (o_type W) i /\ u = 0%Qc) \/
  ((oh i = 0 \/ ~ unobserved (o_type W) i) /\ (keps < Qcabs (o_sample W i))%Qc /\ u = o_sample W i) \/
  ((oh i = 0 \/ ~ unobserved (o_type W) i) /\ ~ (keps < Qcabs (o_sample W i))%Qc /\ u = 0%Qc).
(** [f] is the field of values of the map: that of leaf iteration, or the query result if the map is a single node. *)
Definition map_values (C : wconfig (V := Qc)) (t : node Qc) (f : field) : Prop :=
  ((1 < nsize t)%nat -> iter_field C t f) /\ ((nsize t <= 1)%nat -> forall c, in_octree (cT C) (cell c) -> f c = vo_get C t c).

(** ** Facts *)
Definition down : list Z := [7; 6; 5; 4; 3; 2; 1; 0].
Lemma incr_app l1 l2 c : increments_at (l1 ++ l2) c = (increments_at l1 c + increments_at l2 c)%Qc.
Proof. induction l1 as [|[i u] l1 IH]; cbn [increments_at app]; [ring|]. rewrite IH. destruct (in_node i c); ring. Qed.
Lemma incr_flat (g : Z -> list (oidx * Qc)) x c0 : 0 <= c0 < 8 -> (forall a, 0 <= a < 8 -> a <> c0 -> increments_at (g a) x = 0%Qc) ->
  increments_at (flat_map g down) x = increments_at (g c0) x.
Proof.
  intros H0 H. unfold down. cbn [flat_map]. rewrite !incr_app. cbn [increments_at].
  assert (E : c0 = 0 \/ c0 = 1 \/ c0 = 2 \/ c0 = 3 \/ c0 = 4 \/ c0 = 5 \/ c0 = 6 \/ c0 = 7) by lia.
  destruct E as [->|[->|[->|[->|[->|[->|[->| ->]]]]]]];
    repeat match goal with |- context [g ?a] => rewrite (H a) by lia end; try ring.
  all: rewrite ?(H 0), ?(H 1), ?(H 2), ?(H 3), ?(H 4), ?(H 5), ?(H 6), ?(H 7) by lia; ring.
Qed.
Lemma incr_flat0 (g : Z -> list (oidx * Qc)) x : (forall a, 0 <= a < 8 -> increments_at (g a) x = 0%Qc) -> increments_at (flat_map g down) x = 0%Qc.
Proof. intros H. unfold down. cbn [flat_map]. rewrite !incr_app. cbn [increments_at]. rewrite !H by lia. ring. Qed.

Section WALK.
Context (W : oracle Qc).
Notation upd i := (if qltb keps (Qcabs (o_sample W i)) then [(i, o_sample W i)] else []).
Fixpoint walk (k : nat) (idx : oidx) : list (oidx * Qc) :=
  match k with
  | O => upd idx
  | S k' => if is_unobserved (o_type W idx) then [] else if o_accept W idx then upd idx
            else flat_map (fun c => walk k' (ochild idx c)) down
  end.
Fixpoint cost (k : nat) : nat := match k with O => 1 | S k' => S (8 * cost k') end.
Definition add_all (C : wconfig (V := Qc)) (t : node Qc) (l : list (oidx * Qc)) : node Qc :=
  fold_left (fun t iu => vo_add qn C t (fst iu) (snd iu)) l t.
Lemma apply_upd C t i : ctf_apply qn keps W C t i = add_all C t (upd i).
Proof. unfold ctf_apply. cbn [nltb nabs qn]. destruct (qltb _ _); reflexivity. Qed.
Lemma add_all_app C t l l' : add_all C t (l ++ l') = add_all C (add_all C t l) l'.
Proof. apply fold_left_app. Qed.
Lemma loop_list C k (IH : forall idx st t, oh idx = Z.of_nat k -> exists n, (n <= cost k)%nat /\ forall fuel,
     ctf_loop qn keps W (n + fuel) C (idx :: st) t = ctf_loop qn keps W fuel C st (add_all C t (walk k idx))) :
  forall l st t, (forall i, In i l -> oh i = Z.of_nat k) -> exists n, (n <= List.length l * cost k)%nat /\ forall fuel,
     ctf_loop qn keps W (n + fuel) C (l ++ st) t = ctf_loop qn keps W fuel C st (add_all C t (flat_map (walk k) l)).
Proof.
  induction l as [|i l IHl]; intros st t Hl.
  - exists O. split; [cbn; lia|]. intros fuel. reflexivity.
  - destruct (IH i (l ++ st) t (Hl i (or_introl eq_refl))) as (n1 & H1 & E1).
    destruct (IHl st (add_all C t (walk k i)) (fun j Hj => Hl j (or_intror Hj))) as (n2 & H2 & E2).
    exists (n1 + n2)%nat. split; [cbn [List.length]; lia|]. intros fuel. rewrite <- Nat.add_assoc. cbn [app]. rewrite E1, E2. cbn [flat_map]. rewrite add_all_app. reflexivity.
Qed.
Lemma loop_walk C k : forall idx st t, oh idx = Z.of_nat k -> exists n, (n <= cost k)%nat /\ forall fuel,
  ctf_loop qn keps W (n + fuel) C (idx :: st) t = ctf_loop qn keps W fuel C st (add_all C t (walk k idx)).
Proof.
  induction k as [|k IH]; intros idx st t Hk.
  - exists 1%nat. split; [cbn; lia|]. intros fuel. cbn [Nat.add ctf_loop]. rewrite Hk. cbn [Z.of_nat Z.eqb]. rewrite apply_upd. reflexivity.
  - assert (Hz : (oh idx =? 0) = false) by (apply Z.eqb_neq; lia). cbn [walk].
    destruct (is_unobserved (o_type W idx)) eqn:Eu; [|destruct (o_accept W idx) eqn:Ea].
    + exists 1%nat. split; [cbn; lia|]. intros fuel. cbn [Nat.add ctf_loop]. rewrite Hz, Eu. reflexivity.
    + exists 1%nat. split; [cbn; lia|]. intros fuel. cbn [Nat.add ctf_loop]. rewrite Hz, Eu, Ea. cbn [orb]. rewrite apply_upd. reflexivity.
    + destruct (loop_list C k IH (map (ochild idx) down) st t) as (n & Hn & E).
      { intros i Hi. apply in_map_iff in Hi as (c & <- & _). cbn [ochild oh]. lia. }
      exists (S n). split; [cbn [cost]; rewrite map_length in Hn; cbn [List.length down] in Hn; lia|]. intros fuel. cbn [Nat.add ctf_loop]. rewrite Hz, Eu, Ea. cbn [orb].
      change (fold_left (fun s c => ochild idx c :: s) [0; 1; 2; 3; 4; 5; 6; 7] st) with (map (ochild idx) down ++ st).
      rewrite E. rewrite flat_map_concat_map, map_map, <- flat_map_concat_map. reflexivity.
Qed.
Lemma update_all C t : 1 <= cT C -> exists n, forall fuel, (n <= fuel)%nat ->
  ctf_updateMap qn keps W fuel C t = Some (add_all C t (flat_map (fun c => walk (Z.to_nat (cT C - 1)) (vo_external C (ochild (OI (cT C) (I3 0 0 0)) c))) down)).
Proof.
  intros HT. set (l := map (fun c => vo_external C (ochild (OI (cT C) (I3 0 0 0)) c)) down).
  destruct (loop_list C (Z.to_nat (cT C - 1)) (loop_walk C _) l [] t) as (n & Hn & E).
  { intros i Hi. apply in_map_iff in Hi as (c & <- & _). cbn [vo_external wo_toExternal ochild oh]. lia. }
  exists n. intros fuel Hf. replace fuel with (n + (fuel - n))%nat by lia. unfold ctf_updateMap.
  change (fold_left (fun s i => i :: s) (vo_firstChildren C) []) with (l ++ []). rewrite E. destruct (fuel - n)%nat; cbn [ctf_loop]; f_equal; f_equal; unfold l; rewrite flat_map_concat_map, map_map, <- flat_map_concat_map; reflexivity.
Qed.

Lemma cover_child idx c a : 1 <= oh idx -> 0 <= a < 8 -> in_node (ochild idx a) c = true <-> in_node idx c = true /\ cidx c (oh idx - 1) = a.
Proof. intros Hh Ha. rewrite !in_node_covers by (cbn [ochild oh]; lia). apply covers3_child; assumption. Qed.
Lemma incr_upd i c : in_node i c = false -> increments_at (upd i) c = 0%Qc.
Proof. intros H. destruct (qltb _ _); cbn [increments_at]; [rewrite H|]; ring. Qed.
Lemma incr_upd_in i c : in_node i c = true -> increments_at (upd i) c = if qltb keps (Qcabs (o_sample W i)) then o_sample W i else 0%Qc.
Proof. intros H. destruct (qltb _ _); cbn [increments_at]; [rewrite H|]; ring. Qed.
Lemma walk_outside k : forall idx c, oh idx = Z.of_nat k -> in_node idx c = false -> increments_at (walk k idx) c = 0%Qc.
Proof.
  induction k as [|k IH]; intros idx c Hk Hc; cbn [walk]; [apply incr_upd; exact Hc|].
  destruct (is_unobserved _); [reflexivity|]. destruct (o_accept W idx); [apply incr_upd; exact Hc|].
  apply incr_flat0. intros a Ha. apply IH; [cbn [ochild oh]; lia|]. destruct (in_node (ochild idx a) c) eqn:E; [|reflexivity].
  apply cover_child in E; [|lia|assumption]. destruct E. congruence.
Qed.
Definition contribution (i : oidx) : Qc :=
  if (0 <? oh i) && is_unobserved (o_type W i) then 0%Qc else if qltb keps (Qcabs (o_sample W i)) then o_sample W i else 0%Qc.
Lemma unobs_true i : is_unobserved (o_type W i) = true <-> unobserved (o_type W) i.
Proof. unfold unobserved, is_unobserved. destruct (o_type W i); split; intros H; congruence. Qed.
Lemma unobs_false i : is_unobserved (o_type W i) = false <-> ~ unobserved (o_type W) i.
Proof. rewrite <- unobs_true. destruct (is_unobserved _); split; intros H; congruence. Qed.
Lemma contributes_iff i u : 0 <= oh i -> contributes W i u <-> u = contribution i.
Proof.
  intros Hi. unfold contributes, contribution. rewrite <- !unobs_true. destruct (is_unobserved (o_type W i)).
  - destruct (Z.ltb_spec 0 (oh i)) as [L|L]; cbn [andb].
    + split; [intros [(_ & _ & H)|[([H|H] & _)|([H|H] & _)]]; try lia; try congruence; exact H|]. intros ->. left. auto.
    + destruct (qltb keps _) eqn:E.
      * apply qltb_iff in E. split; [intros [(H & _)|[(_ & _ & H)|(_ & H & _)]]; try lia; try contradiction; exact H|]. intros ->. right. left. split; [left; lia|auto].
      * apply qltb_false in E. split; [intros [(H & _)|[(_ & H & _)|(_ & _ & H)]]; try lia; try exact H; exfalso; apply (Qcle_not_lt _ _ E H)|].
        intros ->. right. right. split; [left; lia|]. split; [|reflexivity]. intros H. apply (Qcle_not_lt _ _ E H).
  - rewrite andb_false_r. destruct (qltb keps _) eqn:E.
    + apply qltb_iff in E. split; [intros [(_ & H & _)|[(_ & _ & H)|(_ & H & _)]]; try congruence; contradiction|]. intros ->. right. left. split; [right; congruence|auto].
    + apply qltb_false in E. split; [intros [(_ & H & _)|[(_ & H & _)|(_ & _ & H)]]; try congruence; exfalso; apply (Qcle_not_lt _ _ E H)|].
      intros ->. right. right. split; [right; congruence|]. split; [|reflexivity]. intros H. apply (Qcle_not_lt _ _ E H).
Qed.
Lemma walk_inside k : forall c i, ends_at W (Z.of_nat k) c i -> increments_at (walk k (node_of c (Z.of_nat k))) c = contribution i.
Proof.
  induction k as [|k IH]; intros c i (h & Hh & -> & Hb & He).
  - replace h with 0 by lia. cbn [walk Z.of_nat]. rewrite incr_upd_in by (apply node_of_in; lia). unfold contribution. reflexivity.
  - cbn [walk]. set (idx := node_of c (Z.of_nat (S k))).
    destruct (Z.eq_dec h (Z.of_nat (S k))) as [->|Hne].
    + fold idx in He. fold idx. unfold contribution. replace (0 <? oh idx) with true by (symmetry; apply Z.ltb_lt; cbn [idx node_of oh]; lia). cbn [andb].
      destruct (is_unobserved (o_type W idx)) eqn:Eu; [reflexivity|].
      destruct He as [He|[He| ->]]; [lia|apply unobs_true in He; congruence|].
      apply incr_upd_in. apply node_of_in. lia.
    + destruct (Hb (Z.of_nat (S k)) ltac:(lia)) as [Hu Ha]. fold idx in Hu, Ha. apply unobs_false in Hu. rewrite Hu, Ha.
      assert (Ci : forall a, 0 <= a < 8 -> in_node (ochild idx a) c = true <-> cidx c (oh idx - 1) = a).
      { intros a H8. rewrite cover_child by (try assumption; cbn [idx node_of oh]; lia). split; [intros [_ H]; exact H|]. intros H. split; [apply node_of_in; lia|exact H]. }
      rewrite (incr_flat _ c (cidx c (oh idx - 1)) (cidx_range _ _)).
      * assert (E : ochild idx (cidx c (oh idx - 1)) = node_of c (Z.of_nat k)).
        { assert (In1 : in_node (ochild idx (cidx c (oh idx - 1))) c = true) by (apply Ci; [apply cidx_range|reflexivity]).
          apply node_of_unique in In1; [|cbn [ochild oh idx node_of]; lia]. rewrite In1. f_equal. cbn [ochild oh idx node_of]. lia. }
        rewrite E. apply IH. exists h. split; [lia|]. split; [reflexivity|]. split; [intros j Hj; apply Hb; lia|exact He].
      * intros a H8 Hna. apply walk_outside; [cbn [ochild oh idx node_of]; lia|]. destruct (in_node (ochild idx a) c) eqn:E; [|reflexivity].
        apply Ci in E; [congruence|assumption].
Qed.
Lemma land1 r : 0 <= Z.land r 1 <= 1.
Proof. pose proof (Z.land_ones r 1 ltac:(lia)) as E. change (Z.ones 1) with 1 in E. rewrite E. change (2 ^ 1) with 2. pose proof (Z.mod_pos_bound r 2 ltac:(lia)). lia. Qed.
(** All updated nodes belong to the octree. *)
Lemma in_octree_child T idx c : 1 <= oh idx -> 0 <= c < 8 -> in_octree T idx -> in_octree T (ochild idx c).
Proof.
  intros Hh Hc (H0 & H1 & H2 & H3). unfold in_octree in *. cbn [ochild oh opos px py pz]. replace (T - 1 - (oh idx - 1)) with (Z.succ (T - 1 - oh idx)) by lia.
  rewrite Z.pow_succ_r by lia. split; [lia|].
  assert (B : forall r, 0 <= Z.land r 1 <= 1) by exact land1.
  pose proof (B (Z.shiftr c 0)). pose proof (B (Z.shiftr c 1)). pose proof (B (Z.shiftr c 2)). repeat split; lia.
Qed.
Lemma walk_octree T k : forall idx, oh idx = Z.of_nat k -> in_octree T idx -> Forall (fun iu => in_octree T (fst iu)) (walk k idx).
Proof.
  induction k as [|k IH]; intros idx Hk Hi; cbn [walk].
  - destruct (qltb _ _); [constructor; [exact Hi|constructor]|constructor].
  - destruct (is_unobserved _); [constructor|]. destruct (o_accept W idx); [destruct (qltb _ _); [constructor; [exact Hi|constructor]|constructor]|].
    apply Forall_flat_map, Forall_forall. intros c Hc. apply IH; [cbn [ochild oh]; lia|]. apply in_octree_child; [lia| |exact Hi]. cbn [down In] in Hc. lia.
Qed.
Context (C : wconfig (V := Qc)) (HT : 1 <= cT C <= 21).
Notation T := (cT C).
Notation first c := (vo_external C (ochild (OI T (I3 0 0 0)) c)).
Notation adds := (flat_map (fun c => walk (Z.to_nat (T - 1)) (first c)) down).
Lemma first_octree c : 0 <= c < 8 -> in_octree T (first c).
Proof.
  intros Hc. unfold vo_external, wo_toExternal, ochild, in_octree. cbn [oh opos px py pz]. rewrite (wo_offset_spec C) by lia.
  replace (T - 1 - (T - 1)) with 0 by lia. change (2 ^ 0) with 1. split; [lia|].
  assert (B : forall r, 0 <= Z.land r 1 <= 1) by exact land1.
  pose proof (B (Z.shiftr c 0)). pose proof (B (Z.shiftr c 1)). pose proof (B (Z.shiftr c 2)). unfold imap. cbn [px py pz]. repeat split; lia.
Qed.
Lemma adds_octree : Forall (fun iu => in_octree T (fst iu)) adds.
Proof.
  apply Forall_flat_map, Forall_forall. intros c Hc. apply walk_octree; [cbn [vo_external wo_toExternal ochild oh]; lia|]. apply first_octree. cbn [down In] in Hc. lia.
Qed.
Lemma first_cover c a : 0 <= a < 8 -> in_octree T (cell c) -> in_node (first a) c = true <-> cidx (shift (2 ^ (T - 1)) c) (T - 1) = a.
Proof.
  intros Ha Hc. rewrite in_node_covers by (cbn [vo_external wo_toExternal ochild oh]; lia). unfold vo_external. rewrite <- wo_toExternal_covers by (cbn [ochild oh]; lia).
  rewrite covers3_child by (cbn [oh]; lia). cbn [oh]. split; [intros [_ H]; exact H|]. intros H. split; [|exact H].
  pose proof (wo_cell_box C c Hc) as B. unfold covers3, in_box in *. destruct (shift (2 ^ (T - 1)) c) as [x y z]. cbn [oh opos px py pz] in *. unfold imap. cbn [px py pz].
  destruct B as (B1 & B2 & B3). rewrite !Z.div_small by assumption. reflexivity.
Qed.
Lemma adds_spec c i : in_octree T (cell c) -> ends_at W (T - 1) c i -> increments_at adds c = contribution i.
Proof.
  intros Hc He. set (a := cidx (shift (2 ^ (T - 1)) c) (T - 1)). assert (Ha : 0 <= a < 8) by apply cidx_range.
  rewrite (incr_flat _ c a Ha).
  - assert (E : first a = node_of c (T - 1)).
    { assert (I1 : in_node (first a) c = true) by (apply first_cover; [assumption|assumption|reflexivity]).
      apply node_of_unique in I1; [|cbn [vo_external wo_toExternal ochild oh]; lia]. rewrite I1. f_equal. }
    rewrite E. rewrite <- (Z2Nat.id (T - 1)) at 2 by lia. apply walk_inside. rewrite Z2Nat.id by lia. exact He.
  - intros b Hb Hne. apply walk_outside; [cbn [vo_external wo_toExternal ochild oh]; lia|]. destruct (in_node (first b) c) eqn:E; [|reflexivity].
    apply first_cover in E; [|assumption|assumption]. unfold a in Hne. congruence.
Qed.
Lemma add_all_field l : forall t c, Forall (fun iu => in_octree T (fst iu)) l -> in_octree T (cell c) ->
  vfield C (add_all C t l) c = (vfield C t c + increments_at l c)%Qc.
Proof.
  induction l as [|[i u] l IH]; intros t c Hl Hc; cbn [increments_at]; [cbn; ring|]. inversion Hl as [|? ? Hi Hl']; subst. cbn [fst] in Hi.
  change (add_all C t ((i, u) :: l)) with (add_all C (vo_add qn C t i u) l). rewrite IH, vfield_add by assumption. unfold fadd. destruct (in_node i c); ring.
Qed.
Lemma add_all_reach l t : vo_reachable C t -> Forall (fun iu => in_octree T (fst iu)) l -> vo_reachable C (add_all C t l).
Proof.
  intros (h & Hh & ->) Hl. exists (h ++ map (fun iu => VAdd (fst iu) (snd iu)) l). split.
  - apply Forall_app. split; [exact Hh|]. rewrite Forall_map. exact Hl.
  - unfold vo_run. rewrite fold_left_app. generalize (fold_left (vo_apply qn keps C) h (vo_new qn)). clear Hl.
    induction l as [|[i u] l IH]; intros t; [reflexivity|]. cbn [map fold_left fst snd vo_apply]. change (add_all C t ((i, u) :: l)) with (add_all C (vo_add qn C t i u) l). apply IH.
Qed.
Lemma small_vfield t c : (nsize t <= 1)%nat -> vfield C t c = vo_get C t c.
Proof.
  intros Hs. rewrite vo_get_path by exact HT. unfold vfield.
  assert (N : forall a, 0 <= a < 8 -> getChild t a = None).
  { intros a Ha. destruct t as [d [k|]]; [|reflexivity]. unfold getChild. cbn [nkids]. cbn [nsize] in Hs.
    assert (Z : forall n, In n (olist (omap (fun c => match c with None => O | Some ch => nsize ch end) k)) -> n = O).
    { intros n Hn. assert (G : forall l, (list_sum l <= 0)%nat -> forall n, In n l -> n = O).
      { clear. induction l as [|x l IH]; intros Hl n Hn; [destruct Hn|]. cbn [list_sum fold_right] in Hl. destruct Hn as [<-|Hn]; [lia|apply IH; [unfold list_sum; lia|exact Hn]]. }
      refine (G _ _ n Hn). apply le_S_n. exact Hs. }
    specialize (Z _ (oget_In (omap (fun c => match c with None => O | Some ch => nsize ch end) k) a)).
    rewrite oget_omap in Z by exact Ha. destruct (oget k a) as [ch|]; [|reflexivity]. destruct ch as [d' [k'|]]; cbn [nsize] in Z; lia. }
  pose proof (path_valid _ _ : valid_path (cpath C c)) as P. unfold vdeep. destruct (cpath C c) as [|a q]; cbn [geval nanc]; unfold addv; [cbn [fst]; ring|]. inversion P; subst. rewrite N by assumption. cbn [fst]. ring.
Qed.
Lemma values_vfield t f c : vo_reachable C t -> map_values C t f -> in_octree T (cell c) -> f c = vfield C t c.
Proof.
  intros Hr [H1 H2] Hc. destruct (Nat.le_gt_cases (nsize t) 1) as [Hs|Hs].
  - rewrite H2 by assumption. symmetry. apply small_vfield. exact Hs.
  - apply (iter_is_vfield C t f HT (reach_height C t HT Hr) (size_array t Hs) (H1 Hs) c Hc).
Qed.
Lemma vfield_values t f : vo_reachable C t -> (forall c, in_octree T (cell c) -> f c = vfield C t c) -> map_values C t f.
Proof.
  intros Hr H. split.
  - intros Hs. apply (iter_ext C t (vfield C t)); [intros c Hc; symmetry; apply H; exact Hc|]. apply iter_vfield; [exact HT|apply reach_height; assumption|apply size_array; exact Hs].
  - intros Hs c Hc. rewrite H by exact Hc. apply small_vfield. exact Hs.
Qed.
End WALK.

(** ** C61 *)
(** Each cell has exactly one node at which the refinement ends; it contains the cell. *)
Theorem C61_end_unique : forall W h c, 0 <= h -> exists i, ends_at W h c i /\ in_node i c = true /\ 0 <= oh i <= h /\ forall i', ends_at W h c i' -> i' = i.
Proof.
  intros W h c Hh. assert (Ex : exists i, ends_at W h c i).
  { rewrite <- (Z2Nat.id h) by exact Hh. induction (Z.to_nat h) as [|k IH].
    - exists (node_of c 0). exists 0. split; [lia|]. split; [reflexivity|]. split; [intros; lia|auto].
    - destruct (is_unobserved (o_type W (node_of c (Z.of_nat (S k))))) eqn:Eu.
      { eexists. exists (Z.of_nat (S k)). split; [lia|]. split; [reflexivity|]. split; [intros; lia|]. right. left. apply unobs_true. exact Eu. }
      destruct (o_accept W (node_of c (Z.of_nat (S k)))) eqn:Ea.
      { eexists. exists (Z.of_nat (S k)). split; [lia|]. split; [reflexivity|]. split; [intros; lia|]. right. right. exact Ea. }
      destruct IH as (i & j & Hj & -> & Hb & He). exists (node_of c j), j. split; [lia|]. split; [reflexivity|]. split; [|exact He].
      intros l Hl. destruct (Z.eq_dec l (Z.of_nat (S k))) as [->|Hne]; [split; [apply unobs_false; exact Eu|exact Ea]|apply Hb; lia]. }
  destruct Ex as (i & Hi). exists i. split; [exact Hi|]. destruct Hi as (k & Hk & -> & Hb & He). split; [apply node_of_in; lia|]. split; [exact Hk|].
  intros i' (k' & Hk' & -> & Hb' & He'). f_equal. destruct (Z.lt_trichotomy k k') as [L|[E|L]]; [|symmetry; exact E|].
  - exfalso. destruct (Hb k' ltac:(lia)) as [Hu Ha]. destruct He' as [H|[H|H]]; [lia|contradiction|congruence].
  - exfalso. destruct (Hb' k ltac:(lia)) as [Hu Ha]. destruct He as [H|[H|H]]; [lia|contradiction|congruence].
Qed.
(** A scan terminates and adds to every cell what its end node contributes. *)
Theorem C61_scan_effect : forall C t f W, vo_valid C -> vo_reachable C t -> map_values C t f ->
  exists n t' f', (forall fuel, (n <= fuel)%nat -> ctf_updateMap qn keps W fuel C t = Some t') /\ vo_reachable C t' /\ map_values C t' f' /\
    forall c i u, in_octree (cT C) (cell c) -> ends_at W (cT C - 1) c i -> contributes W i u -> f' c = (f c + u)%Qc.
Proof.
  intros C t f W [HT _] Hr Hf. destruct (update_all W C t ltac:(lia)) as (n & Hn).
  set (l := flat_map _ down) in Hn. assert (Hl : Forall (fun iu => in_octree (cT C) (fst iu)) l) by (apply adds_octree; exact HT).
  exists n, (add_all C t l), (fun c => (f c + increments_at l c)%Qc). split; [exact Hn|]. pose proof (add_all_reach C l t Hr Hl) as Hr'. split; [exact Hr'|]. split.
  - apply vfield_values; [exact HT|exact Hr'|]. intros c Hc. rewrite (add_all_field C HT) by assumption. rewrite (values_vfield C HT t f c Hr Hf Hc). reflexivity.
  - intros c i u Hc Hi Hu. f_equal. unfold l. rewrite (adds_spec W C HT c i Hc Hi). symmetry. apply contributes_iff; [|exact Hu].
    destruct Hi as (k & Hk & -> & _). cbn [node_of oh]. lia.
Qed.
(** After thresholding, queries return the sum, clamped to the range, up to (tree height + 1) times 1e-6. *)
Theorem C61_after_threshold : forall C t f W n t' c i u, vo_valid C -> (clo C <= 0)%Qc -> (0 <= chi C)%Qc -> vo_reachable C t -> map_values C t f ->
  ctf_updateMap qn keps W n C t = Some t' -> (1 < nsize t')%nat -> in_octree (cT C) (cell c) -> ends_at W (cT C - 1) c i -> contributes W i u ->
  (Qcabs (vo_get C (vo_threshold qn keps C t') c - clampq (clo C) (chi C) (f c + u)) <= qz (cT C + 1) * keps)%Qc.
Proof.
  intros C t f W n t' c i u HC Hlo Hhi Hr Hf Ht Hs Hc Hi Hu. destruct (C61_scan_effect C t f W HC Hr Hf) as (n1 & t1 & f1 & E1 & R1 & V1 & F1).
  assert (Et : t' = t1).
  { assert (M : forall fuel st s r, ctf_loop qn keps W fuel C st s = Some r -> forall m, (fuel <= m)%nat -> ctf_loop qn keps W m C st s = Some r).
    { clear. induction fuel as [|fuel IH]; intros st s r H m Hm; destruct st as [|a st]; cbn [ctf_loop] in *; try discriminate; try (destruct m; exact H).
      destruct m as [|m]; [lia|]. cbn [ctf_loop]. destruct (oh a =? 0); [apply IH; [exact H|lia]|]. destruct (is_unobserved _); [apply IH; [exact H|lia]|].
      destruct (_ || _); apply IH; try exact H; lia. }
    specialize (E1 (n + n1)%nat ltac:(lia)). unfold ctf_updateMap in *. rewrite (M _ _ _ _ Ht (n + n1)%nat ltac:(lia)) in E1. congruence. }
  subst t1. destruct (C22_prune C t' f1 HC Hlo Hhi R1 Hs (proj1 V1 Hs)) as [P _]. cbv zeta in P. rewrite <- (F1 c i u Hc Hi Hu). apply P. exact Hc.
Qed.
(** Before it, a query may miss a contribution: here the second scan updates a whole octant of which the first updated one cell. *)
Definition ex_scan1 : oracle Qc := Oracle (fun _ => kPossiblyOccupied) (fun i => if ieqb (opos i) (I3 0 0 0) then 1%Qc else 0%Qc) (fun _ => false).
Definition ex_scan2 : oracle Qc := Oracle (fun _ => kFreeOrUnobserved) (fun _ => Q2Qc (- (1 # 2))) (fun _ => true).
Definition ex_ctf : wconfig (V := Qc) := WC 2 (Q2Qc (-2)) (Q2Qc 4).
Definition ex_t1 : node Qc := match ctf_updateMap qn keps ex_scan1 100 ex_ctf (vo_new qn) with Some t => t | None => vo_new qn end.
Definition ex_t2 : node Qc := match ctf_updateMap qn keps ex_scan2 100 ex_ctf ex_t1 with Some t => t | None => vo_new qn end.
Theorem C61_query_refuted : exists C t1 t2 W1 W2 c u, vo_valid C /\ ctf_updateMap qn keps W1 100 C (vo_new qn) = Some t1 /\
  ctf_updateMap qn keps W2 100 C t1 = Some t2 /\ in_octree (cT C) (cell c) /\ (exists i, ends_at W2 (cT C - 1) c i /\ contributes W2 i u) /\ u <> 0%Qc /\
  vo_get C t2 c = vo_get C t1 c.
Proof.
  exists ex_ctf, ex_t1, ex_t2, ex_scan1, ex_scan2, (I3 0 0 0), (Q2Qc (- (1 # 2))).
  split; [split; [cbn; lia|reflexivity]|]. split; [vm_compute; reflexivity|]. split; [vm_compute; reflexivity|]. split; [unfold in_octree; cbn; lia|]. split.
  - exists (node_of (I3 0 0 0) 1). split.
    + exists 1. split; [cbn; lia|]. split; [reflexivity|]. split; [cbn; intros; lia|]. right. right. reflexivity.
    + right. left. split; [right; intros H; discriminate H|]. split; reflexivity.
  - split; [discriminate|]. vm_compute. reflexivity.
Qed.
(** ** Non-vacuity: the same two scans; the iterated value of the cell is the sum 1 - 1/2 *)
Example C61_ex : vo_valid ex_ctf /\ vo_reachable ex_ctf (vo_new qn) /\ map_values ex_ctf (vo_new qn) fzero /\
  (1 < nsize ex_t2)%nat /\ vo_get ex_ctf (vo_threshold qn keps ex_ctf ex_t2) (I3 0 0 0) = Q2Qc (1 # 2) /\ vo_get ex_ctf (vo_threshold qn keps ex_ctf ex_t2) (I3 1 0 0) = Q2Qc (- (1 # 2)).
Proof.
  split; [split; [cbn; lia|reflexivity]|]. split; [exists []; split; [constructor|reflexivity]|]. split; [|split; [|split]].
  - split; [cbn; lia|]. intros _ c Hc. rewrite <- (small_vfield ex_ctf ltac:(cbn; lia) (vo_new qn) c ltac:(cbn; lia)). unfold vfield, vo_new. destruct (cpath ex_ctf c); reflexivity.
  - vm_compute. lia.
  - apply Qc_is_canon. vm_compute. reflexivity.
  - apply Qc_is_canon. vm_compute. reflexivity.
Qed.
Print Assumptions C61_end_unique.
Print Assumptions C61_scan_effect.
Print Assumptions C61_after_threshold.
Print Assumptions C61_query_refuted.
