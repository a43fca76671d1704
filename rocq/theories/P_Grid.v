(** Property theorem C32 (grid iteration). *)
From Verif Require Import Base M_Grid.

(** Specification: componentwise order, and the order of visits (last axis most significant). *)
Fixpoint in_box_list (mn mx i : list Z) : Prop :=
  match mn, mx, i with
  | [], [], [] => True
  | m :: mn', M :: mx', c :: i' => m <= c <= M /\ in_box_list mn' mx' i'
  | _, _, _ => False
  end.
Fixpoint nonempty_box (mn mx : list Z) : Prop :=
  match mn, mx with
  | [], [] => True
  | m :: mn', M :: mx' => m <= M /\ nonempty_box mn' mx'
  | _, _ => False
  end.
(** [a] comes before [b]: at the last axis on which they differ, [a] is smaller. *)
Fixpoint before (a b : list Z) : Prop :=
  match a, b with
  | x :: a', y :: b' => before a' b' \/ (a' = b' /\ x < y)
  | _, _ => False
  end.
Fixpoint num_cells (mn mx : list Z) : Z :=
  match mn, mx with m :: mn', M :: mx' => (M - m + 1) * num_cells mn' mx' | _, _ => 1 end.

(** Reference enumeration *)
Definition zrange (a : Z) (n : nat) : list Z := map (fun k => a + Z.of_nat k) (seq 0 n).
Fixpoint box (mn mx : list Z) : list (list Z) :=
  match mn, mx with
  | m :: mn', M :: mx' => flat_map (fun tl => map (fun c => c :: tl) (zrange m (Z.to_nat (M - m + 1)))) (box mn' mx')
  | _, _ => [[]]
  end.
(** [l] is what iterating [next] from [a] until [z] visits. *)
Fixpoint walk {A} (next : A -> A) (a : A) (l : list A) (z : A) : Prop :=
  match l with [] => a = z | x :: l' => x = a /\ walk next (next a) l' z end.
Lemma walk_app {A} (next : A -> A) l : forall a z l' z', walk next a l z -> walk next z l' z' -> walk next a (l ++ l') z'.
Proof.
  induction l as [|x l IH]; intros a z l' z' H1 H2; cbn [walk app] in *; [subst; assumption|].
  destruct H1 as [-> H1]. split; [reflexivity|]. eapply IH; eassumption.
Qed.

Lemma in_range_nonempty mn : forall mx i, in_box_list mn mx i -> nonempty_box mn mx.
Proof.
  induction mn as [|m mn IH]; intros [|M mx] [|c i] H; cbn in *; try contradiction; [exact I|].
  destruct H as [H1 H2]. split; [lia|eapply IH; eassumption].
Qed.
Lemma carry_id mn : forall mx i, in_box_list mn mx i -> grid_carry mn mx i = i.
Proof.
  induction mn as [|m mn IH]; intros [|M mx] [|c [|c2 i]] H; cbn in H; try contradiction; try reflexivity.
  destruct H as [H1 H2]. cbn [grid_carry]. replace (M <? c) with false by (symmetry; apply Z.ltb_ge; lia).
  f_equal. apply (IH mx (c2 :: i)). exact H2.
Qed.
Lemma next_in mn mx m M c tl : m <= c < M -> in_box_list mn mx tl ->
  grid_next (m :: mn) (M :: mx) (c :: tl) = c + 1 :: tl.
Proof. intros Hc Ht. cbn [grid_next]. apply carry_id. cbn. split; [lia|assumption]. Qed.
Lemma next_wrap mn mx m M tl : m <= M -> in_box_list mn mx tl -> tl <> [] ->
  grid_next (m :: mn) (M :: mx) (M :: tl) = m :: grid_next mn mx tl.
Proof.
  intros Hc Ht Hne. destruct tl as [|c2 cs]; [congruence|]. cbn [grid_next grid_carry].
  replace (M <? M + 1) with true by (symmetry; apply Z.ltb_lt; lia). reflexivity.
Qed.
Lemma zrange_S a n : zrange a (S n) = a :: zrange (a + 1) n.
Proof.
  unfold zrange. cbn [seq map]. rewrite Z.add_0_r. f_equal. rewrite <- seq_shift, map_map. apply map_ext. intros k. lia.
Qed.
Lemma walk_row mn mx m M tl : m <= M -> in_box_list mn mx tl ->
  walk (grid_next (m :: mn) (M :: mx)) (m :: tl) (map (fun c => c :: tl) (zrange m (Z.to_nat (M - m + 1))))
    (grid_next (m :: mn) (M :: mx) (M :: tl)).
Proof.
  intros HM Ht.
  assert (G : forall n c, m <= c -> c + Z.of_nat n = M ->
     walk (grid_next (m :: mn) (M :: mx)) (c :: tl) (map (fun c => c :: tl) (zrange c (S n))) (grid_next (m :: mn) (M :: mx) (M :: tl))).
  { induction n as [|n IH]; intros c Hc E.
    - rewrite zrange_S. cbn [map walk zrange seq]. split; [reflexivity|]. f_equal. f_equal. lia.
    - rewrite zrange_S. cbn [map walk]. split; [reflexivity|].
      rewrite next_in by (assumption || lia). apply IH; lia. }
  replace (Z.to_nat (M - m + 1)) with (S (Z.to_nat (M - m))) by lia. apply G; lia.
Qed.
Lemma flat_map_walk {A B} (nextA : A -> A) (next : B -> B) (row : A -> list B) (fst_of : A -> B) (z : A) (zB : B) :
  forall l a, walk nextA a l z ->
  (forall x, In x l -> walk next (fst_of x) (row x) (fst_of (nextA x)) ) -> fst_of z = zB ->
  walk next (fst_of a) (flat_map row l) zB.
Proof.
  induction l as [|x l IH]; intros a Hw Hr Hz; cbn [walk flat_map] in *; [subst; reflexivity|].
  destruct Hw as [-> Hw]. eapply walk_app; [apply Hr; left; reflexivity|]. apply IH; [assumption| |assumption].
  intros y Hy. apply Hr. right. assumption.
Qed.
Lemma box_in mn : forall mx i, nonempty_box mn mx -> (In i (box mn mx) <-> in_box_list mn mx i).
Proof.
  induction mn as [|m mn IH]; intros [|M mx] i H; cbn [nonempty_box] in H; try contradiction.
  - cbn [box In]. destruct i; cbn; split; intros X; try tauto; destruct X; (discriminate || contradiction).
  - destruct H as [H1 H2]. cbn [box]. rewrite in_flat_map. split.
    + intros (tl & Ht & Hi). apply in_map_iff in Hi as (c & <- & Hc). apply in_map_iff in Hc as (k & <- & Hk).
      apply in_seq in Hk. apply IH in Ht; [|assumption]. cbn. split; [lia|assumption].
    + destruct i as [|c tl]; [intros []|]. intros [Hc Ht]. exists tl. split; [apply IH; assumption|].
      apply in_map_iff. exists c. split; [reflexivity|]. apply in_map_iff. exists (Z.to_nat (c - m)).
      split; [lia|]. apply in_seq. lia.
Qed.
Lemma grid_end_cons m m2 mn M M2 mx : grid_end (m :: m2 :: mn) (M :: M2 :: mx) = m :: grid_end (m2 :: mn) (M2 :: mx).
Proof. reflexivity. Qed.
Lemma walk_box mn : forall mx, mn <> [] -> nonempty_box mn mx ->
  walk (grid_next mn mx) mn (box mn mx) (grid_end mn mx).
Proof.
  induction mn as [|m mn IH]; intros mx Hne H; [congruence|]. destruct mx as [|M mx]; cbn [nonempty_box] in H; [contradiction|].
  destruct H as [H1 H2]. destruct mn as [|m2 mn].
  - destruct mx as [|]; [|contradiction]. cbn [box flat_map]. rewrite app_nil_r.
    change (grid_end [m] [M]) with [M + 1]. exact (walk_row [] [] m M [] H1 I).
  - destruct mx as [|M2 mx]; [destruct H2|]. specialize (IH (M2 :: mx) ltac:(discriminate) H2).
    rewrite grid_end_cons.
    apply (flat_map_walk (grid_next (m2 :: mn) (M2 :: mx)) (grid_next (m :: m2 :: mn) (M :: M2 :: mx))
             (fun tl => map (fun c => c :: tl) (zrange m (Z.to_nat (M - m + 1)))) (cons m) (grid_end (m2 :: mn) (M2 :: mx))
             _ (box (m2 :: mn) (M2 :: mx)) (m2 :: mn) IH); [|reflexivity].
    intros tl Ht. apply box_in in Ht; [|assumption]. rewrite <- next_wrap with (M := M); [|assumption|assumption|].
    + apply walk_row; assumption.
    + intros ->. destruct Ht.
Qed.
Lemma end_not_in mn : forall mx, mn <> [] -> nonempty_box mn mx -> ~ In (grid_end mn mx) (box mn mx).
Proof.
  induction mn as [|m mn IH]; intros [|M mx] Hne H Hin; cbn [nonempty_box] in H; try contradiction; try congruence.
  apply box_in in Hin; [|exact H]. destruct H as [H1 H2].
  destruct mn as [|m2 mn].
  - destruct mx; [|contradiction]. cbn in Hin. lia.
  - destruct mx as [|M2 mx]; [destruct H2|]. rewrite grid_end_cons in Hin. cbn [in_box_list] in Hin. destruct Hin as [_ Hin].
    apply (IH (M2 :: mx)); [discriminate|assumption|]. apply box_in; assumption.
Qed.
Lemma loop_walk mn mx l : forall cur fuel, walk (grid_next mn mx) cur l (grid_end mn mx) -> ~ In (grid_end mn mx) l ->
  (length l <= fuel)%nat -> grid_loop fuel mn mx cur = Some l.
Proof.
  induction l as [|x l IH]; intros cur fuel Hw Hn Hf.
  - cbn [walk] in Hw. subst cur. destruct fuel; cbn [grid_loop]; unfold list_eqb;
      (destruct (list_eq_dec Z.eq_dec _ _); [reflexivity|congruence]).
  - cbn [walk] in Hw. destruct Hw as [-> Hw]. destruct fuel as [|fuel]; cbn [length] in Hf; [lia|]. cbn [grid_loop]. unfold list_eqb.
    destruct (list_eq_dec Z.eq_dec cur (grid_end mn mx)) as [E|_]; [exfalso; apply Hn; left; exact E|].
    rewrite IH; [reflexivity|assumption| |lia]. intros Hin. apply Hn. right. assumption.
Qed.
Lemma box_length mn : forall mx, nonempty_box mn mx -> Z.of_nat (length (box mn mx)) = num_cells mn mx.
Proof.
  induction mn as [|m mn IH]; intros [|M mx] H; cbn [nonempty_box] in H; try contradiction; [reflexivity|].
  destruct H as [H1 H2]. cbn [box num_cells]. rewrite <- IH by assumption.
  assert (E : forall l, length (flat_map (fun tl => map (fun c => c :: tl) (zrange m (Z.to_nat (M - m + 1)))) l) =
          (Z.to_nat (M - m + 1) * length l)%nat).
  { induction l as [|x l IHl]; cbn [flat_map length]; [lia|]. rewrite app_length, IHl, map_length. unfold zrange.
    rewrite map_length, seq_length. lia. }
  rewrite E. lia.
Qed.
(** Strictly ascending lists *)
Inductive ascending : list (list Z) -> Prop :=
| asc_nil : ascending []
| asc_cons a l : Forall (before a) l -> ascending l -> ascending (a :: l).
Lemma asc_app l l' : ascending l -> ascending l' -> (forall a b, In a l -> In b l' -> before a b) -> ascending (l ++ l').
Proof.
  induction l as [|x l IH]; intros H1 H2 H3; cbn [app]; [assumption|]. inversion H1; subst. constructor.
  - apply Forall_app. split; [assumption|]. apply Forall_forall. intros b Hb. apply H3; [left; reflexivity|assumption].
  - apply IH; [assumption|assumption|]. intros a b Ha Hb. apply H3; [right|]; assumption.
Qed.
Lemma zrange_in a n c : In c (zrange a n) -> a <= c < a + Z.of_nat n.
Proof. intros H. apply in_map_iff in H as (k & <- & Hk). apply in_seq in Hk. lia. Qed.
Lemma row_asc tl n : forall a, ascending (map (fun c => c :: tl) (zrange a n)).
Proof.
  induction n as [|n IH]; intros a; [constructor|]. rewrite zrange_S. cbn [map]. constructor; [|apply IH].
  apply Forall_forall. intros x Hx. apply in_map_iff in Hx as (c & <- & Hc). apply zrange_in in Hc. cbn. right. split; [reflexivity|lia].
Qed.
Lemma box_asc mn : forall mx, ascending (box mn mx).
Proof.
  induction mn as [|m mn IH]; intros mx; [cbn; constructor; constructor|]. destruct mx as [|M mx]; [cbn; constructor; constructor|].
  cbn [box]. specialize (IH mx). induction IH as [|tl l Hf Hl IHl]; cbn [flat_map]; [constructor|].
  apply asc_app; [apply row_asc|assumption|]. intros a b Ha Hb. apply in_map_iff in Ha as (c & <- & Hc).
  apply in_flat_map in Hb as (tl' & Htl & Hb). apply in_map_iff in Hb as (c' & <- & Hc').
  cbn. left. rewrite Forall_forall in Hf. apply Hf. assumption.
Qed.
Lemma before_irrefl a : ~ before a a.
Proof. induction a as [|x a IH]; cbn; [auto|]. intros [H|[_ H]]; [auto|lia]. Qed.
Lemma asc_NoDup l : ascending l -> NoDup l.
Proof.
  induction 1 as [|a l Hf Hl IH]; constructor; [|assumption]. intros Hin. rewrite Forall_forall in Hf. apply (before_irrefl a). auto.
Qed.

(** C32. For every dimension and every non-empty box, iteration terminates (after exactly as many steps
    as the box has cells), visits exactly the indices of the box, each once, in ascending order. *)
Theorem C32_grid_visits_box : forall mn mx fuel,
  mn <> [] -> nonempty_box mn mx -> num_cells mn mx <= Z.of_nat fuel ->
  exists l, grid_visit fuel mn mx = Some l /\
    (forall i, In i l <-> in_box_list mn mx i) /\ NoDup l /\ ascending l /\ Z.of_nat (length l) = num_cells mn mx.
Proof.
  intros mn mx fuel Hne H Hf. exists (box mn mx). pose proof (box_length mn mx H) as HL. split; [|split; [|split; [|split]]].
  - apply loop_walk; [apply walk_box; assumption|apply end_not_in; assumption|lia].
  - intros i. apply box_in. assumption.
  - apply asc_NoDup, box_asc.
  - apply box_asc.
  - exact HL.
Qed.
Example C32_ex : nonempty_box [-1; 5; 0] [0; 6; 0] /\
  grid_visit 4 [-1; 5; 0] [0; 6; 0] = Some [[-1; 5; 0]; [0; 5; 0]; [-1; 6; 0]; [0; 6; 0]].
Proof. split; [cbn; lia|vm_compute; reflexivity]. Qed.
(** Boxes that are empty along another axis than the last are not skipped: the loop visits indices that
    are not in the box. *)
Theorem C32_empty_box_refuted : exists mn mx fuel l i,
  (forall j, ~ in_box_list mn mx j) /\ grid_visit fuel mn mx = Some l /\ In i l.
Proof.
  exists [3; 0], [2; 1], 9%nat, [[3; 0]; [3; 1]], [3; 0]. split; [|split; [vm_compute; reflexivity|left; reflexivity]].
  intros j H. destruct j as [|a [|b [|c j]]]; cbn in H; lia.
Qed.
(** Boxes empty along the last axis only are skipped if max = min - 1 there; otherwise the loop does not
    stop at all (here: with integers of unlimited range). *)
Theorem C32_empty_last_axis : forall mn mx m, length mn = length mx ->
  grid_visit 0 (mn ++ [m]) (mx ++ [m - 1]) = Some [].
Proof.
  intros mn mx m _. unfold grid_visit, grid_loop, list_eqb, grid_end. rewrite removelast_last, last_last.
  replace (m - 1 + 1) with m by lia. destruct (list_eq_dec Z.eq_dec (mn ++ [m]) (mn ++ [m])); [reflexivity|congruence].
Qed.
Theorem C32_inverted_box_never_ends_refuted : exists mn mx, forall fuel, grid_visit fuel mn mx = None.
Proof.
  exists [5], [0]. unfold grid_visit.
  assert (G : forall fuel c, 5 <= c -> grid_loop fuel [5] [0] [c] = None).
  { induction fuel as [|fuel IH]; intros c Hc; cbn [grid_loop]; unfold list_eqb;
      (destruct (list_eq_dec Z.eq_dec [c] (grid_end [5] [0])) as [E|_]; [injection E as E; lia|]); [reflexivity|].
    change (grid_next [5] [0] [c]) with [c + 1]. rewrite IH by lia. reflexivity. }
  intros fuel. apply G. lia.
Qed.
Print Assumptions C32_grid_visits_box.
Print Assumptions C32_empty_box_refuted.
Print Assumptions C32_empty_last_axis.
Print Assumptions C32_inverted_box_never_ends_refuted.
