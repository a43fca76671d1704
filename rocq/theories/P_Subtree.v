(** Property theorem C34 (subtree iterators). *)
From Verif Require Import Base M_Haar3 F_Haar3 M_Ndtree M_Subtree F_Wavelet2.
From Coq Require Import Sorting.Sorted Sorting.Permutation.

(** ** Specification *)
Section SPEC.
Context {A : Type}.
(** The node reached from [n] along a path of child indices *)
Fixpoint node_at (n : node A) (p : list Z) : option (node A) :=
  match p with
  | [] => Some n
  | c :: p' => if (0 <=? c) && (c <? 8) then match getChild n c with Some ch => node_at ch p' | None => None end else None
  end.
(** The list contains every node of the tree exactly once and nothing else. *)
Definition each_node_once (root : node A) (l : list (list Z * node A)) : Prop :=
  NoDup (map fst l) /\ forall p m, In (p, m) l <-> node_at root p = Some m.
(** No node has a children array without any child in it. *)
Definition no_empty_arrays (root : node A) : Prop :=
  forall p m, node_at root p = Some m -> hasChildrenArray m = true -> hasAtLeastOneChild m = true.
End SPEC.
(** Depth-first orders on paths: siblings by child index; a parent before (after) its descendants. *)
Fixpoint pre_before (p q : list Z) : Prop :=
  match p, q with
  | [], _ :: _ => True
  | c :: p', c' :: q' => c < c' \/ (c = c' /\ pre_before p' q')
  | _, [] => False
  end.
Fixpoint post_before (p q : list Z) : Prop :=
  match p, q with
  | _ :: _, [] => True
  | c :: p', c' :: q' => c < c' \/ (c = c' /\ post_before p' q')
  | [], _ => False
  end.
(** Breadth-first: by depth (i.e. by decreasing height), then in depth-first order. *)
Definition bfs_before (p q : list Z) : Prop :=
  (length p < length q)%nat \/ (length p = length q /\ pre_before p q).
Definition strict_prefix (p q : list Z) : Prop := exists r, r <> [] /\ q = p ++ r.
(** The order relations say what the English property says: *)
Lemma pre_parent_first p q : strict_prefix p q -> pre_before p q.
Proof. intros (r & Hr & ->). induction p as [|c p IH]; cbn; [destruct r; [congruence|exact I]|right; auto]. Qed.
Lemma post_child_first p q : strict_prefix p q -> post_before q p.
Proof. intros (r & Hr & ->). induction p as [|c p IH]; cbn; [destruct r; [congruence|exact I]|right; auto]. Qed.

Lemma pre_irrefl p : ~ pre_before p p.
Proof. induction p as [|c p IH]; cbn; [auto|]. intros [H|[_ H]]; [lia|auto]. Qed.
Lemma pre_trans p : forall q r, pre_before p q -> pre_before q r -> pre_before p r.
Proof.
  induction p as [|c p IH]; intros [|c2 q] [|c3 r]; cbn; try tauto.
  intros [H|[-> H]] [K|[-> K]]; [left; lia|left; lia|left; lia|right; split; [reflexivity|eapply IH; eassumption]].
Qed.
Lemma pre_app_l p q r : pre_before q r -> pre_before (p ++ q) (p ++ r).
Proof. intros H. induction p as [|c p IH]; cbn; auto. Qed.
Lemma post_irrefl p : ~ post_before p p.
Proof. induction p as [|c p IH]; cbn; [auto|]. intros [H|[_ H]]; [lia|auto]. Qed.
Lemma post_app_l p q r : post_before q r -> post_before (p ++ q) (p ++ r).
Proof. intros H. induction p as [|c p IH]; cbn; auto. Qed.
Lemma bfs_irrefl p : ~ bfs_before p p.
Proof. intros [H|[_ H]]; [lia|]. apply (pre_irrefl p H). Qed.
Lemma sorted_NoDup (R : list Z -> list Z -> Prop) l : (forall p, ~ R p p) -> StronglySorted R l -> NoDup l.
Proof.
  intros HR. induction 1 as [|a l Hl IH Hf]; constructor; [|assumption]. intros Hin. rewrite Forall_forall in Hf. apply (HR a). auto.
Qed.
Lemma sorted_app {B} (R : B -> B -> Prop) l l' : StronglySorted R l -> StronglySorted R l' -> (forall a b, In a l -> In b l' -> R a b) -> StronglySorted R (l ++ l').
Proof.
  induction 1 as [|a l Hl IH Hf]; cbn; intros H' Hc; [assumption|]. constructor.
  - apply IH; [assumption|]. intros. apply Hc; [right|]; assumption.
  - apply Forall_app. split; [assumption|]. apply Forall_forall. intros b Hb. apply Hc; [left; reflexivity|assumption].
Qed.

(** ** Children and reference enumerations *)
Section PROOFS.
Context {A : Type}.
Notation ptr := (@ptr A).
Definition kids_of (ids : list Z) (x : ptr) : list ptr := flat_map (fun c => match pchild x c with Some y => [y] | None => [] end) ids.
Definition pkids (x : ptr) : list ptr := kids_of child_ids x.
Arguments kids_of : simpl never.
Arguments pkids : simpl never.
Lemma no_array_no_kids (x : ptr) : hasChildrenArray (snd x) = false -> forall ids, kids_of ids x = [].
Proof.
  unfold hasChildrenArray. intros H ids. unfold kids_of. induction ids as [|c ids IH]; [reflexivity|]. cbn [flat_map]. rewrite IH. unfold pchild, getChild.
  destruct (nkids (snd x)); [discriminate|reflexivity].
Qed.
Lemma pre_enqueue_eq (x : ptr) D : pre_enqueue x D = pkids x ++ D.
Proof.
  unfold pre_enqueue. destruct (hasChildrenArray (snd x)) eqn:E; [|unfold pkids; rewrite no_array_no_kids by assumption; reflexivity].
  unfold pkids, kids_of.
  assert (G : forall ids D, fold_left (fun D c => match pchild x c with Some y => y :: D | None => D end) (rev ids) D =
     flat_map (fun c => match pchild x c with Some y => [y] | None => [] end) ids ++ D).
  { induction ids as [|c ids IH]; intros D'; [reflexivity|]. cbn [rev flat_map]. rewrite fold_left_app, IH. cbn. destruct (pchild x c); reflexivity. }
  apply G.
Qed.
Lemma bfs_enqueue_eq (x : ptr) D : bfs_enqueue x D = D ++ pkids x.
Proof.
  unfold bfs_enqueue. destruct (hasChildrenArray (snd x)) eqn:E; [|unfold pkids; rewrite no_array_no_kids, app_nil_r by assumption; reflexivity].
  unfold pkids, kids_of.
  assert (G : forall ids D, fold_left (fun D c => match pchild x c with Some y => D ++ [y] | None => D end) ids D =
     D ++ flat_map (fun c => match pchild x c with Some y => [y] | None => [] end) ids).
  { induction ids as [|c ids IH]; intros D'; cbn [fold_left flat_map]; [rewrite app_nil_r; reflexivity|]. rewrite IH.
    destruct (pchild x c); [rewrite <- app_assoc|]; reflexivity. }
  apply G.
Qed.
Lemma in_kids ids (x : ptr) q m : In (q, m) (kids_of ids x) <-> exists c, In c ids /\ q = fst x ++ [c] /\ getChild (snd x) c = Some m.
Proof.
  unfold kids_of. rewrite in_flat_map. split.
  - intros (c & Hc & H). unfold pchild in H. destruct (getChild (snd x) c) as [ch|] eqn:E; cbn in H; [|contradiction].
    destruct H as [H|[]]. injection H as <- <-. exists c. auto.
  - intros (c & Hc & -> & E). exists c. split; [assumption|]. unfold pchild. rewrite E. left. reflexivity.
Qed.
Lemma ids_range c : In c child_ids <-> 0 <= c < 8.
Proof. unfold child_ids. cbn. lia. Qed.

(** Enumerations used in the proofs, by depth *)
Fixpoint depth (n : node A) : nat :=
  match n with Node _ kids => match kids with None => O
    | Some k => S (list_max (olist (omap (fun c => match c with None => O | Some ch => depth ch end) k))) end end.
Lemma depth_child (n : node A) c ch : 0 <= c < 8 -> getChild n c = Some ch -> (depth ch < depth n)%nat.
Proof.
  intros Hc H. destruct n as [d [k|]]; cbn in H; [|discriminate]. cbn [depth]. set (f := fun c => match c with None => O | Some ch => depth ch end).
  assert (X : (f (oget k c) <= list_max (olist (omap f k)))%nat).
  { pose proof (proj1 (list_max_le (olist (omap f k)) _) (Nat.le_refl _)) as F. rewrite Forall_forall in F. apply F.
    rewrite <- oget_omap by assumption. apply oget_In. }
  rewrite H in X. cbn [f] in X. lia.
Qed.
Fixpoint pre_list (f : nat) (x : ptr) : list ptr :=
  match f with O => [x] | S f' => x :: flat_map (pre_list f') (pkids x) end.
Fixpoint post_list (f : nat) (x : ptr) : list ptr :=
  match f with O => [x] | S f' => flat_map (post_list f') (pkids x) ++ [x] end.
Lemma kids_depth (x y : ptr) ids : (forall c, In c ids -> 0 <= c < 8) -> In y (kids_of ids x) -> (depth (snd y) < depth (snd x))%nat.
Proof. destruct y as [q m]. intros Hi H. apply in_kids in H as (c & Hc & _ & E). eapply depth_child; [|exact E]. auto. Qed.
Lemma pkids_depth (x y : ptr) : In y (pkids x) -> (depth (snd y) < depth (snd x))%nat.
Proof. apply kids_depth. intros c. apply ids_range. Qed.
Lemma flat_map_ext_in {B C} (f g : B -> list C) l : (forall x, In x l -> f x = g x) -> flat_map f l = flat_map g l.
Proof. induction l as [|x l IH]; cbn; intros H; [reflexivity|]. rewrite H, IH by auto. reflexivity. Qed.
Lemma pre_list_fuel f : forall g x, (depth (snd x) <= f)%nat -> (depth (snd x) <= g)%nat -> pre_list f x = pre_list g x.
Proof.
  induction f as [|f IH]; intros [|g] x Hf Hg; try reflexivity.
  - cbn. destruct (pkids x) as [|y l] eqn:E; [reflexivity|]. pose proof (pkids_depth x y) as H. rewrite E in H. specialize (H (or_introl eq_refl)). lia.
  - cbn. destruct (pkids x) as [|y l] eqn:E; [reflexivity|]. pose proof (pkids_depth x y) as H. rewrite E in H. specialize (H (or_introl eq_refl)). lia.
  - cbn. f_equal. apply flat_map_ext_in. intros y Hy. apply pkids_depth in Hy. apply IH; lia.
Qed.
Lemma post_list_fuel f : forall g x, (depth (snd x) <= f)%nat -> (depth (snd x) <= g)%nat -> post_list f x = post_list g x.
Proof.
  induction f as [|f IH]; intros [|g] x Hf Hg; try reflexivity.
  - cbn. destruct (pkids x) as [|y l] eqn:E; [reflexivity|]. pose proof (pkids_depth x y) as H. rewrite E in H. specialize (H (or_introl eq_refl)). lia.
  - cbn. destruct (pkids x) as [|y l] eqn:E; [reflexivity|]. pose proof (pkids_depth x y) as H. rewrite E in H. specialize (H (or_introl eq_refl)). lia.
  - cbn. f_equal. apply flat_map_ext_in. intros y Hy. apply pkids_depth in Hy. apply IH; lia.
Qed.
Definition preL (x : ptr) : list ptr := pre_list (depth (snd x)) x.
Definition postL (x : ptr) : list ptr := post_list (depth (snd x)) x.
Lemma preL_eq x : preL x = x :: flat_map preL (pkids x).
Proof.
  unfold preL. rewrite (pre_list_fuel _ (S (depth (snd x))) x) by lia. cbn [pre_list]. f_equal. apply flat_map_ext_in. intros y Hy.
  apply pkids_depth in Hy. apply pre_list_fuel; lia.
Qed.
Lemma postL_eq x : postL x = flat_map postL (pkids x) ++ [x].
Proof.
  unfold postL. rewrite (post_list_fuel _ (S (depth (snd x))) x) by lia. cbn [post_list]. f_equal. apply flat_map_ext_in. intros y Hy.
  apply pkids_depth in Hy. apply post_list_fuel; lia.
Qed.
Lemma ptr_ind (P : ptr -> Prop) : (forall x, (forall y, In y (pkids x) -> P y) -> P x) -> forall x, P x.
Proof.
  intros H. assert (G : forall d x, (depth (snd x) <= d)%nat -> P x).
  { induction d as [|d IH]; intros x Hd; apply H; intros y Hy; apply pkids_depth in Hy; [lia|apply IH; lia]. }
  intros x. apply (G (depth (snd x))). lia.
Qed.

(** Membership *)
Lemma node_at_in_kids (n : node A) c p m : node_at n (c :: p) = Some m <-> exists ch, 0 <= c < 8 /\ getChild n c = Some ch /\ node_at ch p = Some m.
Proof.
  cbn [node_at]. split.
  - destruct ((0 <=? c) && (c <? 8)) eqn:E; [|discriminate]. destruct (getChild n c) as [ch|]; [|discriminate]. intros H. exists ch. split; [lia|auto].
  - intros (ch & Hc & -> & H). replace ((0 <=? c) && (c <? 8)) with true by lia. assumption.
Qed.
Lemma preL_in x : forall q m, In (q, m) (preL x) <-> exists r, q = fst x ++ r /\ node_at (snd x) r = Some m.
Proof.
  induction x as [x IH] using ptr_ind. intros q m. rewrite preL_eq. cbn [In]. rewrite in_flat_map. split.
  - intros [->|((q', m') & Hy & H)].
    + exists []. cbn. rewrite app_nil_r. auto.
    + pose proof Hy as Hy'. apply in_kids in Hy' as (c & Hc & Eq & E). apply IH in H; [|assumption]. destruct H as (r & -> & Hr). cbn [fst snd] in *.
      exists (c :: r). split; [rewrite Eq, <- app_assoc; reflexivity|]. apply node_at_in_kids. exists m'. apply ids_range in Hc. auto.
  - intros (r & -> & Hr). destruct r as [|c r].
    + left. cbn in Hr. injection Hr as <-. rewrite app_nil_r. destruct x; reflexivity.
    + right. apply node_at_in_kids in Hr as (ch & Hc & E & Hr). exists (fst x ++ [c], ch).
      assert (Hin : In (fst x ++ [c], ch) (pkids x)) by (apply in_kids; exists c; split; [apply ids_range; assumption|auto]).
      split; [assumption|]. apply IH; [assumption|]. exists r. cbn [fst snd]. rewrite <- app_assoc. auto.
Qed.
Lemma pre_post_perm x : Permutation (preL x) (postL x).
Proof.
  induction x as [x IH] using ptr_ind. rewrite preL_eq, postL_eq. rewrite Permutation_app_comm. cbn. constructor.
  assert (G : forall l, (forall y, In y l -> Permutation (preL y) (postL y)) -> Permutation (flat_map preL l) (flat_map postL l)).
  { induction l as [|y l IHl]; intros H; cbn; [constructor|]. apply Permutation_app; [apply H; left; reflexivity|apply IHl; intros; apply H; right; assumption]. }
  apply G. assumption.
Qed.
Lemma preL_length (n : node A) p : length (preL (p, n)) = nsize n.
Proof.
  revert p. induction n as [n IH] using node_ind_child. intros p. rewrite preL_eq. cbn [length].
  destruct n as [d [k|]]; cbn [nsize].
  - f_equal. unfold pkids, kids_of, child_ids, pchild. cbn [flat_map snd fst getChild nkids].
    rewrite !app_nil_r. unfold getChild in IH. cbn [nkids] in IH.
    assert (F : forall c, 0 <= c < 8 -> length (flat_map preL (match option_map (fun ch => (p ++ [c], ch)) (oget k c) with Some y => [y] | None => [] end)) =
       match oget k c with None => O | Some ch => nsize ch end).
    { intros c Hc. destruct (oget k c) as [ch|] eqn:E; cbn; [|reflexivity]. rewrite app_nil_r. apply (IH c); assumption. }
    rewrite !flat_map_app, !app_length.
    rewrite !F by lia. destruct k as [k0 k1 k2 k3 k4 k5 k6 k7]. cbn. lia.
  - unfold pkids. rewrite (no_array_no_kids (p, Node d None)) by reflexivity. reflexivity.
Qed.

(** Sortedness *)
Lemma kids_sorted ids (x : ptr) : StronglySorted Z.lt ids -> StronglySorted (fun y z : ptr => exists c c', fst y = fst x ++ [c] /\ fst z = fst x ++ [c'] /\ c < c') (kids_of ids x).
Proof.
  induction 1 as [|c ids Hs IH Hf]; [constructor|]. unfold kids_of in *. cbn [flat_map]. apply sorted_app; [|assumption|].
  - destruct (pchild x c); repeat constructor.
  - intros [q m] [q' m'] H H'. unfold pchild in H. destruct (getChild (snd x) c); cbn in H; [|contradiction]. destruct H as [H|[]].
    injection H as <- <-. apply (in_kids ids x) in H' as (c' & Hc' & -> & _). exists c, c'. rewrite Forall_forall in Hf. auto.
Qed.
Lemma child_ids_sorted : StronglySorted Z.lt child_ids.
Proof. unfold child_ids. repeat constructor. Qed.
Lemma sorted_flat_map {B} (R : list Z -> list Z -> Prop) (f : B -> list ptr) (S : B -> B -> Prop) l :
  StronglySorted S l -> (forall y, In y l -> StronglySorted R (map fst (f y))) ->
  (forall y z, In y l -> In z l -> S y z -> forall a b, In a (f y) -> In b (f z) -> R (fst a) (fst b)) -> StronglySorted R (map fst (flat_map f l)).
Proof.
  induction 1 as [|y l Hl IH Hf]; intros H1 H2; cbn; [constructor|]. rewrite map_app. apply sorted_app.
  - apply H1. left. reflexivity.
  - apply IH; [intros; apply H1; right; assumption|]. intros y' z' Hy Hz. apply H2; right; assumption.
  - intros a b Ha Hb. apply in_map_iff in Ha as (a' & <- & Ha). apply in_map_iff in Hb as (b' & <- & Hb).
    apply in_flat_map in Hb as (z & Hz & Hb). rewrite Forall_forall in Hf. eapply (H2 y z); [left; reflexivity|right; assumption|auto|assumption|assumption].
Qed.
Lemma preL_prefix x a : In a (preL x) -> exists r, fst a = fst x ++ r.
Proof. destruct a as [q m]. intros H. apply preL_in in H as (r & -> & _). exists r. reflexivity. Qed.
Lemma postL_prefix x a : In a (postL x) -> exists r, fst a = fst x ++ r.
Proof. intros H. apply (Permutation_in _ (Permutation_sym (pre_post_perm x))) in H. apply preL_prefix. assumption. Qed.
Lemma preL_sorted x : StronglySorted pre_before (map fst (preL x)).
Proof.
  induction x as [x IH] using ptr_ind. rewrite preL_eq. cbn [map]. constructor.
  - eapply sorted_flat_map; [apply (kids_sorted child_ids x), child_ids_sorted|assumption|].
    intros y z _ _ (c & c' & Ey & Ez & Hc) a b Ha Hb. apply preL_prefix in Ha as [r Er]. apply preL_prefix in Hb as [r' Er'].
    rewrite Er, Er', Ey, Ez, <- !app_assoc. apply pre_app_l. cbn. auto.
  - apply Forall_forall. intros q Hq. apply in_map_iff in Hq as (a & <- & Ha). apply in_flat_map in Ha as ([q m] & Hy & Ha).
    apply preL_prefix in Ha as [r Er]. apply in_kids in Hy as (c & _ & E & _). cbn in Er. rewrite Er, E. apply pre_parent_first.
    exists (c :: r). split; [discriminate|]. rewrite <- app_assoc. reflexivity.
Qed.
Lemma postL_sorted x : StronglySorted post_before (map fst (postL x)).
Proof.
  induction x as [x IH] using ptr_ind. rewrite postL_eq, map_app. apply sorted_app.
  - eapply sorted_flat_map; [apply (kids_sorted child_ids x), child_ids_sorted|assumption|].
    intros y z _ _ (c & c' & Ey & Ez & Hc) a b Ha Hb. apply postL_prefix in Ha as [r Er]. apply postL_prefix in Hb as [r' Er'].
    rewrite Er, Er', Ey, Ez, <- !app_assoc. apply post_app_l. cbn. auto.
  - repeat constructor.
  - intros p q Hp Hq. cbn in Hq. destruct Hq as [<-|[]]. apply in_map_iff in Hp as (a & <- & Ha). apply in_flat_map in Ha as ([q m] & Hy & Ha).
    apply postL_prefix in Ha as [r Er]. apply in_kids in Hy as (c & _ & E & _). cbn in Er. rewrite Er, E. apply post_child_first.
    exists (c :: r). split; [discriminate|]. rewrite <- app_assoc. reflexivity.
Qed.

(** The loops *)
Lemma pre_iterate fuel : forall D, (length (flat_map preL D) <= fuel)%nat -> iterate pre_next fuel D = Some (flat_map preL D).
Proof.
  induction fuel as [|fuel IH]; intros [|x D] H; cbn [iterate]; try reflexivity.
  - cbn in H. rewrite preL_eq in H. cbn in H. lia.
  - cbn [flat_map] in *. rewrite preL_eq in *. cbn [length app] in *. cbn [pre_next]. rewrite pre_enqueue_eq, IH.
    + cbn. rewrite flat_map_app. reflexivity.
    + rewrite flat_map_app. lia.
Qed.
Lemma bfs_iterate fuel : forall D, (length (flat_map preL D) <= fuel)%nat ->
  exists l, iterate bfs_next fuel D = Some l /\ Permutation l (flat_map preL D).
Proof.
  induction fuel as [|fuel IH]; intros [|x D] H; cbn [iterate]; try (exists []; split; [reflexivity|constructor]).
  - cbn in H. rewrite preL_eq in H. cbn in H. lia.
  - cbn [flat_map] in *. rewrite preL_eq in *. cbn [length app] in *. cbn [bfs_next]. rewrite bfs_enqueue_eq.
    destruct (IH (D ++ pkids x)) as (l & -> & P).
    + rewrite flat_map_app, app_length. rewrite app_length in H. lia.
    + exists (x :: l). split; [reflexivity|]. constructor. rewrite P, flat_map_app. apply Permutation_app_comm.
Qed.
(** Invariant of the breadth-first deque *)
Definition bfs_inv (D : list ptr) : Prop :=
  StronglySorted bfs_before (map fst D) /\
  forall x y, In x D -> In y D -> (length (fst y) <= S (length (fst x)))%nat /\ (length (fst y) = S (length (fst x)) -> pre_before (removelast (fst y)) (fst x)).
Lemma bfs_inv_next x D : bfs_inv (x :: D) -> bfs_inv (bfs_next (x :: D)) /\ Forall (fun y => bfs_before (fst x) (fst y)) (bfs_next (x :: D)).
Proof.
  intros [HS HI]. cbn [bfs_next]. rewrite bfs_enqueue_eq. cbn [map] in HS. inversion HS as [|? ? HS' HF]; subst.
  assert (HFx : forall y, In y D -> bfs_before (fst x) (fst y)).
  { intros y Hy. rewrite Forall_forall in HF. apply HF. apply in_map. assumption. }
  assert (HK : forall z, In z (pkids x) -> exists c, fst z = fst x ++ [c]).
  { intros [q m] Hz. apply in_kids in Hz as (c & _ & E & _). exists c. assumption. }
  assert (HKlen : forall z, In z (pkids x) -> length (fst z) = S (length (fst x))).
  { intros z Hz. destruct (HK z Hz) as [c ->]. rewrite app_length. cbn. lia. }
  split; [split|].
  - rewrite map_app. apply sorted_app; [assumption| |].
    + assert (G : forall l, StronglySorted (fun y z : ptr => exists c c', fst y = fst x ++ [c] /\ fst z = fst x ++ [c'] /\ c < c') l -> StronglySorted bfs_before (map fst l)).
      { induction 1 as [|y l Hl IH Hf]; cbn; constructor; [assumption|]. apply Forall_forall. intros q Hq. apply in_map_iff in Hq as (z & <- & Hz).
        rewrite Forall_forall in Hf. destruct (Hf z Hz) as (c & c' & -> & -> & Hc). right. rewrite !app_length. split; [reflexivity|]. apply pre_app_l. cbn. auto. }
      apply G, kids_sorted, child_ids_sorted.
    + intros p q Hp Hq. apply in_map_iff in Hp as (y & <- & Hy). apply in_map_iff in Hq as (z & <- & Hz).
      destruct (HI x y (or_introl eq_refl) (or_intror Hy)) as [L1 L2]. pose proof (HKlen z Hz) as Lz.
      destruct (Nat.eq_dec (length (fst y)) (S (length (fst x)))) as [E|N]; [|left; lia]. right. split; [congruence|]. specialize (L2 E).
      destruct (HK z Hz) as [c ->]. assert (Hne : fst y <> []) by (intros X; rewrite X in E; discriminate).
      rewrite (app_removelast_last 0 Hne). set (r := removelast (fst y)) in *.
      assert (Lr : length r = length (fst x)).
      { assert (length (fst y) = length (r ++ [last (fst y) 0])) by (unfold r; rewrite <- app_removelast_last by assumption; reflexivity). rewrite app_length in H. cbn in H. lia. }
      clear - L2 Lr. set (s := fst x) in *. clearbody r s. revert s L2 Lr. induction r as [|a r IH]; intros [|b s] L2 Lr; cbn in *; try discriminate; try contradiction.
      destruct L2 as [L2|[-> L2]]; [left; assumption|]. right. split; [reflexivity|]. apply IH; [assumption|lia].
  - assert (HKI : forall z y, In z (pkids x) -> In y D -> (length (fst y) <= S (length (fst z)))%nat /\ (length (fst y) = S (length (fst z)) -> pre_before (removelast (fst y)) (fst z)) /\
                   (length (fst z) <= S (length (fst y)))%nat /\ (length (fst z) = S (length (fst y)) -> pre_before (removelast (fst z)) (fst y))).
    { intros z y Hz Hy. destruct (HI x y (or_introl eq_refl) (or_intror Hy)) as [L1 L2]. pose proof (HKlen z Hz) as Lz.
      split; [lia|]. split; [lia|]. destruct (HFx y Hy) as [B|[B1 B2]]; [split; lia|]. split; [lia|]. intros _. destruct (HK z Hz) as [c ->]. rewrite removelast_last. assumption. }
    intros a b Ha Hb. apply in_app_iff in Ha, Hb. destruct Ha as [Ha|Ha], Hb as [Hb|Hb].
    + apply HI; right; assumption.
    + destruct (HKI b a Hb Ha) as (_ & _ & P3 & P4). auto.
    + destruct (HKI a b Ha Hb) as (P1 & P2 & _). auto.
    + rewrite (HKlen a Ha), (HKlen b Hb). split; lia.
  - apply Forall_app. split; [apply Forall_forall; assumption|]. apply Forall_forall. intros z Hz. left. rewrite (HKlen z Hz). lia.
Qed.
Lemma bfs_trans p q r : bfs_before p q -> bfs_before q r -> bfs_before p r.
Proof. intros [H|[H H']] [K|[K K']]; [left; lia|left; lia|left; lia|right; split; [congruence|eapply pre_trans; eassumption]]. Qed.
Lemma bfs_sorted fuel : forall D l, bfs_inv D -> iterate bfs_next fuel D = Some l -> StronglySorted bfs_before (map fst l) /\
  forall p, Forall (fun y => bfs_before p (fst y)) D -> Forall (bfs_before p) (map fst l).
Proof.
  induction fuel as [|fuel IH]; intros [|x D] l HI H; cbn [iterate] in H; try discriminate; try (injection H as <-; split; [constructor|constructor]).
  destruct (bfs_inv_next x D HI) as [HI' HF]. destruct (iterate bfs_next fuel (bfs_next (x :: D))) as [l'|] eqn:E; cbn in H; [|discriminate]. injection H as <-.
  destruct (IH _ _ HI' E) as [S1 S2]. cbn [map]. split; [constructor; [assumption|apply S2; assumption]|].
  intros p Hp. inversion Hp; subst. constructor; [assumption|]. apply S2. eapply Forall_impl; [|exact HF]. intros y Hy. eapply bfs_trans; eassumption.
Qed.

(** Postorder: what remains to be visited from a stack *)
Definition later (i : Z) (x : ptr) : list ptr := kids_of (filter (fun j => i <? j) child_ids) x.
Definition todo (st : list selt) : list ptr := flat_map (fun e => flat_map postL (later (snd e) (fst e)) ++ [fst e]) st.
Definition full_arrays (n : node A) : Prop := no_empty_arrays n.
Lemma full_child n c ch : 0 <= c < 8 -> full_arrays n -> getChild n c = Some ch -> full_arrays ch.
Proof.
  intros Hc H E p m Hp. apply (H (c :: p)). apply node_at_in_kids. exists ch. auto.
Qed.
Lemma post_enqueue_eq d k p st : @post_enqueue A (Node d (Some k)) p st =
  match first_some 0 (olist k) with
  | Some (i, ch) => post_enqueue ch (p ++ [i]) (((p, Node d (Some k)), i) :: st) | None => st end.
Proof.
  cbn [post_enqueue]. destruct k as [k0 k1 k2 k3 k4 k5 k6 k7]. cbn [omap olist].
  destruct k0, k1, k2, k3, k4, k5, k6, k7; reflexivity.
Qed.
(** the children from the first one on *)
Lemma first_some_none {B} (l : list (option B)) : forall i, first_some i l = None -> Forall (fun o => o = None) l.
Proof. induction l as [|o l IH]; intros i H; constructor; cbn in H; destruct o; try discriminate; [reflexivity|eapply IH; eassumption]. Qed.
Lemma first_kids d (k : oct (option (node A))) p i ch : first_some 0 (olist k) = Some (i, ch) ->
  0 <= i < 8 /\ oget k i = Some ch /\ pkids (p, Node d (Some k)) = (p ++ [i], ch) :: later i (p, Node d (Some k)).
Proof.
  destruct k as [k0 k1 k2 k3 k4 k5 k6 k7]. cbn [olist first_some]. unfold later, pkids.
  assert (G : forall c, getChild (snd (p, Node d (Some (Oct k0 k1 k2 k3 k4 k5 k6 k7)))) c = oget (Oct k0 k1 k2 k3 k4 k5 k6 k7) c) by reflexivity.
  destruct k0; [intros [= <- <-]; repeat split; try lia|].
  destruct k1; [intros [= <- <-]; repeat split; try lia|].
  destruct k2; [intros [= <- <-]; repeat split; try lia|].
  destruct k3; [intros [= <- <-]; repeat split; try lia|].
  destruct k4; [intros [= <- <-]; repeat split; try lia|].
  destruct k5; [intros [= <- <-]; repeat split; try lia|].
  destruct k6; [intros [= <- <-]; repeat split; try lia|].
  destruct k7; [intros [= <- <-]; repeat split; try lia|discriminate].
Qed.
Definition ready (st : list selt) : Prop := match st with [] => True | (x, i) :: _ => later i x = [] end.
Lemma enqueue_todo (n : node A) : full_arrays n -> forall p st, todo (post_enqueue n p st) = postL (p, n) ++ todo st /\ ready (post_enqueue n p st) /\ post_enqueue n p st <> [].
Proof.
  induction n as [n IH] using node_ind_child. intros Hf p st. destruct n as [d [k|]].
  - rewrite post_enqueue_eq. destruct (first_some 0 (olist k)) as [[i ch]|] eqn:E.
    + destruct (first_kids d k p i ch E) as (Hi & Ek & EK).
      assert (Ec : getChild (Node d (Some k)) i = Some ch) by exact Ek.
      destruct (IH i ch Ec (full_child _ i ch Hi Hf Ec) (p ++ [i]) (((p, Node d (Some k)), i) :: st)) as (T1 & T2 & T3).
      split; [|auto]. rewrite T1. rewrite (postL_eq (p, Node d (Some k))), EK. cbn [flat_map todo fst snd]. rewrite <- !app_assoc. reflexivity.
    + exfalso. specialize (Hf [] (Node d (Some k)) eq_refl eq_refl). apply first_some_none in E. cbn in Hf.
      apply existsb_exists in Hf as (o & Ho & Hs). rewrite Forall_forall in E. rewrite (E o Ho) in Hs. discriminate.
  - cbn [post_enqueue]. cbn [todo flat_map fst snd ready]. unfold later.
    rewrite (no_array_no_kids (p, Node d None)) by reflexivity. rewrite postL_eq. unfold pkids. rewrite (no_array_no_kids (p, Node d None)) by reflexivity.
    split; [reflexivity|]. split; [reflexivity|discriminate].
Qed.
Lemma later8 x : later 8 x = [].
Proof. reflexivity. Qed.
Lemma advance_todo js : forall x st, full_arrays (snd x) -> StronglySorted Z.lt js -> (forall c, In c js -> 0 <= c < 8) ->
  (forall j, In j js -> filter (fun c => j <? c) child_ids = filter (fun c => j <? c) js) ->
  todo (post_advance js x st) = flat_map postL (kids_of js x) ++ x :: todo st /\ ready (post_advance js x st).
Proof.
  induction js as [|j js IH]; intros x st Hf HS HR HJ.
  - cbn. split; [reflexivity|apply later8].
  - cbn [post_advance]. inversion HS as [|? ? HS' HF]; subst. unfold kids_of. cbn [flat_map]. fold (kids_of js x).
    assert (Fj : filter (fun c => j <? c) (j :: js) = js).
    { cbn. replace (j <? j) with false by lia. clear - HF. rewrite Forall_forall in HF. induction js as [|a js IHjs]; [reflexivity|]. cbn.
      replace (j <? a) with true by (specialize (HF a (or_introl eq_refl)); lia). f_equal. apply IHjs. intros; apply HF; right; assumption. }
    destruct (pchild x j) as [[q ch]|] eqn:E.
    + unfold pchild in E. destruct (getChild (snd x) j) as [ch'|] eqn:Ec; cbn in E; [|discriminate]. injection E as <- <-.
      destruct (enqueue_todo ch' (full_child _ j ch' (HR j (or_introl eq_refl)) Hf Ec) (fst x ++ [j]) ((x, j) :: st)) as (T1 & T2 & _).
      split; [|assumption]. etransitivity; [exact T1|]. cbn [todo flat_map fst snd]. unfold later. rewrite (HJ j (or_introl eq_refl)), Fj.
      cbn [app flat_map]. rewrite <- !app_assoc. reflexivity.
    + apply IH; [assumption|assumption|intros; apply HR; right; assumption|].
      intros j' Hj'. rewrite (HJ j' (or_intror Hj')). cbn. replace (j' <? j) with false; [reflexivity|].
      rewrite Forall_forall in HF. specialize (HF j' Hj'). lia.
Qed.
Definition st_full (st : list selt) : Prop := Forall (fun e : selt => full_arrays (snd (fst e))) st.
Lemma enqueue_full (n : node A) : full_arrays n -> forall p st, st_full st -> st_full (post_enqueue n p st).
Proof.
  induction n as [n IH] using node_ind_child. intros Hf p st Hs. destruct n as [d [k|]]; [|cbn; constructor; assumption].
  rewrite post_enqueue_eq. destruct (first_some 0 (olist k)) as [[i ch]|] eqn:E; [|assumption].
  destruct (first_kids d k p i ch E) as (Hi & Ek & EK). assert (Ec : getChild (Node d (Some k)) i = Some ch) by exact Ek.
  apply (IH i ch Ec (full_child _ i ch Hi Hf Ec)). constructor; assumption.
Qed.
Lemma advance_full js : forall x st, (forall c, In c js -> 0 <= c < 8) -> full_arrays (snd x) -> st_full st -> st_full (post_advance js x st).
Proof.
  induction js as [|j js IH]; intros x st HR Hf Hs; cbn; [constructor; assumption|]. destruct (pchild x j) as [[q ch]|] eqn:E.
  - unfold pchild in E. destruct (getChild (snd x) j) as [ch'|] eqn:Ec; cbn in E; [|discriminate]. injection E as <- <-.
    apply enqueue_full; [eapply full_child; [apply HR; left; reflexivity|exact Hf|exact Ec]|constructor; assumption].
  - apply IH; [intros; apply HR; right; assumption|assumption|assumption].
Qed.
Lemma filter_sorted (f : Z -> bool) l : StronglySorted Z.lt l -> StronglySorted Z.lt (filter f l).
Proof.
  induction 1 as [|a l Hl IH Hf]; cbn; [constructor|]. destruct (f a); [|assumption]. constructor; [assumption|].
  rewrite Forall_forall in *. intros x Hx. apply filter_In in Hx as [Hx _]. auto.
Qed.
Lemma post_iterate_eq fuel : forall st, st_full st -> ready st -> (length (todo st) <= fuel)%nat -> post_iterate fuel st = Some (todo st).
Proof.
  induction fuel as [|fuel IH]; intros [|[x i] st] Hs Hr HL; cbn [post_iterate]; try reflexivity.
  - cbn in HL. rewrite !app_length in HL. cbn in HL. lia.
  - cbn in Hr. cbn [todo flat_map fst snd] in *. rewrite Hr in *. cbn [flat_map app] in *. fold (todo st) in *. cbn [length] in HL.
    destruct st as [|[y j] st].
    + cbn. destruct fuel; reflexivity.
    + cbn [post_next]. inversion Hs as [|? ? _ Hs']; subst. inversion Hs' as [|? ? Hy Hs'']; subst. cbn [fst snd] in Hy.
      destruct (advance_todo (filter (fun c => j <? c) child_ids) y st Hy) as [T1 T2].
      * apply filter_sorted, child_ids_sorted.
      * intros c Hc. apply filter_In in Hc as [Hc _]. apply ids_range. assumption.
      * intros j' Hj'. apply filter_In in Hj' as [Hj1 Hj2]. clear - Hj2. induction child_ids as [|a l IHl]; [reflexivity|]. cbn.
        destruct (j' <? a) eqn:E1, (j <? a) eqn:E2; cbn; rewrite ?E1, IHl; try reflexivity. lia.
      * rewrite IH; [rewrite T1; cbn [option_map todo flat_map fst snd]; unfold later; rewrite <- app_assoc; reflexivity| |assumption|].
        -- apply advance_full; [intros c Hc; apply filter_In in Hc as [Hc _]; apply ids_range; assumption|assumption|assumption].
        -- rewrite T1. fold (later j y). change (todo ((y, j) :: st)) with ((flat_map postL (later j y) ++ [y]) ++ todo st) in HL.
           rewrite !app_length in *. cbn [length] in *. lia.
Qed.
End PROOFS.

(** ** C34 *)
(** Pre-order: every node exactly once, parents before children. *)
Theorem C34_preorder : forall (A : Type) (root : node A) fuel, (nsize root <= fuel)%nat ->
  exists l, iterate pre_next fuel (pre_begin root) = Some l /\ each_node_once root l /\ StronglySorted pre_before (map fst l).
Proof.
  intros A root fuel Hf. exists (preL ([], root)). pose proof (preL_sorted ([], root)) as HS. split; [|split; [split|assumption]].
  - unfold pre_begin. rewrite pre_iterate; cbn [flat_map]; rewrite app_nil_r; [reflexivity|]. rewrite preL_length. assumption.
  - apply (sorted_NoDup pre_before); [apply pre_irrefl|assumption].
  - intros p m. rewrite preL_in. cbn [fst snd]. split; [intros (r & -> & H); assumption|intros H; exists p; auto].
Qed.
(** Breadth-first: every node exactly once, by non-increasing height. *)
Theorem C34_breadth_first : forall (A : Type) (root : node A) fuel, (nsize root <= fuel)%nat ->
  exists l, iterate bfs_next fuel (pre_begin root) = Some l /\ each_node_once root l /\ StronglySorted bfs_before (map fst l).
Proof.
  intros A root fuel Hf. destruct (bfs_iterate fuel [([], root)]) as (l & E & P); [cbn [flat_map]; rewrite app_nil_r, preL_length; assumption|].
  exists l. assert (HI : bfs_inv [(@nil Z, root)]).
  { split; [repeat constructor|]. intros x y [<-|[]] [<-|[]]. cbn. split; lia. }
  destruct (bfs_sorted fuel _ l HI E) as [HS _]. split; [exact E|]. split; [split|exact HS].
  - apply (sorted_NoDup bfs_before); [apply bfs_irrefl|assumption].
  - cbn [flat_map] in P. rewrite app_nil_r in P. intros p m. split.
    + intros H. apply (Permutation_in _ P) in H. apply preL_in in H as (r & -> & H). assumption.
    + intros H. apply (Permutation_in _ (Permutation_sym P)). apply preL_in. exists p. auto.
Qed.
(** Post-order: every node exactly once, children before parents, if no node has an allocated children
    array without children. What is missing: trees with such arrays, for which the claim is false, see
    [C34_postorder_empty_array_refuted]. *)
Theorem C34_postorder_partial : forall (A : Type) (root : node A) fuel, no_empty_arrays root -> (nsize root <= fuel)%nat ->
  exists l, post_iterate fuel (post_begin root) = Some l /\ each_node_once root l /\ StronglySorted post_before (map fst l).
Proof.
  intros A root fuel Hr Hf. exists (postL ([], root)). pose proof (postL_sorted ([], root)) as HS.
  destruct (enqueue_todo root Hr [] []) as (T1 & T2 & _). cbn [todo flat_map] in T1. rewrite app_nil_r in T1. fold (post_begin root) in *. split; [|split; [split|assumption]].
  - rewrite <- T1. apply post_iterate_eq; [apply enqueue_full; [assumption|constructor]|assumption|].
    rewrite T1, <- (Permutation_length (pre_post_perm ([], root))), preL_length. assumption.
  - apply (sorted_NoDup post_before); [apply post_irrefl|assumption].
  - intros p m. split.
    + intros H. apply (Permutation_in _ (Permutation_sym (pre_post_perm ([], root)))) in H. apply preL_in in H as (r & -> & H). assumption.
    + intros H. apply (Permutation_in _ (pre_post_perm ([], root))). apply preL_in. exists p. auto.
Qed.
(** size() counts the nodes *)
Theorem C34_size : forall (A : Type) (root : node A) l fuel, iterate pre_next fuel (pre_begin root) = Some l -> length l = nsize root.
Proof.
  intros A root l fuel H.
  assert (M : forall f g D l', iterate pre_next f D = Some l' -> (f <= g)%nat -> iterate (A := A) pre_next g D = Some l').
  { induction f as [|f IH]; intros g D l' E Hg; destruct D as [|x D]; cbn in *; try (destruct g; assumption); try discriminate.
    destruct g as [|g]; [lia|]. cbn. destruct (iterate pre_next f (pre_enqueue x D)) as [l0|] eqn:E0; cbn in E; [|discriminate].
    rewrite (IH g _ _ E0) by lia. assumption. }
  apply (M _ (fuel + nsize root)%nat) in H; [|lia]. unfold pre_begin in H. rewrite pre_iterate in H; cbn [flat_map] in *; rewrite app_nil_r in *.
  - injection H as <-. apply preL_length.
  - rewrite preL_length. lia.
Qed.

(** A small tree *)
Definition leaf (v : Z) : node Z := Node v None.
Definition ex_tree : node Z :=
  setChild (setChild (leaf 0) 5 (leaf 1)) 2 (setChild (leaf 2) 7 (leaf 3)).
Example C34_ex : no_empty_arrays ex_tree /\
  option_map (map fst) (iterate pre_next 4 (pre_begin ex_tree)) = Some [[]; [2]; [2; 7]; [5]] /\
  option_map (map fst) (iterate bfs_next 4 (pre_begin ex_tree)) = Some [[]; [2]; [5]; [2; 7]] /\
  option_map (map fst) (post_iterate 4 (post_begin ex_tree)) = Some [[2; 7]; [2]; [5]; []].
Proof.
  split; [|vm_compute; auto]. intros p m H Ha. assert (L : (length p <= 2)%nat \/ node_at ex_tree p = None).
  { destruct p as [|a [|b [|c p]]]; [left; cbn; lia|left; cbn; lia|left; cbn; lia|right].
    destruct (node_at ex_tree (a :: b :: c :: p)) as [m'|] eqn:E; [|reflexivity]. exfalso.
    apply node_at_in_kids in E as (ch & Ha' & E1 & E). apply node_at_in_kids in E as (ch2 & Hb & E2 & E). apply node_at_in_kids in E as (ch3 & Hc & E3 & E).
    assert (a = 0 \/ a = 1 \/ a = 2 \/ a = 3 \/ a = 4 \/ a = 5 \/ a = 6 \/ a = 7) as Da by lia.
    assert (b = 0 \/ b = 1 \/ b = 2 \/ b = 3 \/ b = 4 \/ b = 5 \/ b = 6 \/ b = 7) as Db by lia.
    repeat (destruct Da as [->|Da]); try subst a; cbn in E1; try discriminate; injection E1 as <-;
    repeat (destruct Db as [->|Db]); try subst b; cbn in E2; try discriminate; injection E2 as <-; cbn in E3; discriminate. }
  destruct L as [L|L]; [|congruence].
  destruct p as [|a [|b p]].
  - cbn in H. injection H as <-. reflexivity.
  - apply node_at_in_kids in H as (ch & Ha' & E1 & E). cbn in E. injection E as <-.
    assert (a = 0 \/ a = 1 \/ a = 2 \/ a = 3 \/ a = 4 \/ a = 5 \/ a = 6 \/ a = 7) as Da by lia.
    repeat (destruct Da as [->|Da]); try subst a; cbn in E1; try discriminate; injection E1 as <-; cbn in *; congruence.
  - apply node_at_in_kids in H as (ch & Ha' & E1 & E). apply node_at_in_kids in E as (ch2 & Hb & E2 & E).
    assert (p = []) by (destruct p; [reflexivity|cbn in L; lia]). subst p. cbn in E. injection E as <-.
    assert (a = 0 \/ a = 1 \/ a = 2 \/ a = 3 \/ a = 4 \/ a = 5 \/ a = 6 \/ a = 7) as Da by lia.
    assert (b = 0 \/ b = 1 \/ b = 2 \/ b = 3 \/ b = 4 \/ b = 5 \/ b = 6 \/ b = 7) as Db by lia.
    repeat (destruct Da as [->|Da]); try subst a; cbn in E1; try discriminate; injection E1 as <-;
    repeat (destruct Db as [->|Db]); try subst b; cbn in E2; try discriminate; injection E2 as <-; cbn in *; congruence.
Qed.
(** A tree built with the public node operations (allocate two children, below the first one allocate and
    erase a child): post-order iteration visits only the root, and misses two nodes. *)
Theorem C34_postorder_empty_array_refuted : exists root : node Z,
  (exists p m, node_at root p = Some m /\ forall fuel l, post_iterate fuel (post_begin root) = Some l -> ~ In (p, m) l) /\
  post_iterate 9 (post_begin root) = Some [([], root)] /\ nsize root = 3%nat /\
  root = setChild (setChild (leaf 0) 0 (fst (eraseChild (setChild (leaf 1) 3 (leaf 2)) 3))) 1 (leaf 4).
Proof.
  eexists. split; [|split; [|split; [|reflexivity]]]; [|vm_compute; reflexivity|vm_compute; reflexivity].
  exists [1], (leaf 4). split; [vm_compute; reflexivity|]. intros fuel l H. destruct fuel as [|fuel]; vm_compute in H; [discriminate|].
  destruct fuel; injection H as <-; intros [X|[]]; discriminate.
Qed.
Print Assumptions C34_preorder.
Print Assumptions C34_breadth_first.
Print Assumptions C34_postorder_partial.
Print Assumptions C34_size.
Print Assumptions C34_postorder_empty_array_refuted.
