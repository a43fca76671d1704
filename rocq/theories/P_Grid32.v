(** C32 in 32-bit ints: which boxes can be iterated over. *)
From Verif Require Import Base M_Grid P_Grid M_IndexInt P_IndexInt M_IntMath32 P_IntMath32 M_Grid32.

(** Specification: all components are ints; all components are below the last int. *)
Definition all_ints (i : list Z) : Prop := Forall is_int i.
Definition below_last (mx : list Z) : Prop := Forall (fun c => c < 2 ^ 31 - 1) mx.

Lemma ints_lower mn mx i : all_ints mn -> in_box_list mn mx i -> Forall (fun c => - 2 ^ 31 <= c) i.
Proof.
  revert mx i. induction mn as [|m mn IH]; intros [|M mx] [|c i] A B; cbn [in_box_list] in B; try contradiction; [constructor|].
  inversion A as [|? ? A1 A2]; subst. unfold is_int in A1. constructor; [lia|]. apply (IH mx); tauto.
Qed.
Lemma carry_some mn : forall mx c cs, below_last mx -> - 2 ^ 31 <= c < 2 ^ 31 -> length mn = S (length cs) -> Forall (fun z => - 2 ^ 31 <= z) cs ->
  match mn, mx with _ :: mn', _ :: mx' => in_box_list mn' mx' cs | _, _ => False end -> grid_carry_32 mn mx (c :: cs) = Some (grid_carry mn mx (c :: cs)).
Proof.
  induction mn as [|m mn IH]; intros [|M mx] c cs BL Hc HL F B; try contradiction. destruct cs as [|c2 cs]; [reflexivity|]. destruct mn as [|m2 mn]; [destruct mx; contradiction B|]. destruct mx as [|M2 mx]; [contradiction B|].
  cbn [in_box_list] in B. destruct B as [B1 B2]. inversion BL as [|? ? L1 L2]; subst. inversion L2 as [|? ? L3 L4]; subst. inversion F as [|? ? F1 F2]; subst. cbn [length] in HL.
  change (grid_carry_32 (m :: m2 :: mn) (M :: M2 :: mx) (c :: c2 :: cs)) with (if M <? c then ibind (int_result (c2 + 1)) (fun c2' => option_map (cons m) (grid_carry_32 (m2 :: mn) (M2 :: mx) (c2' :: cs)))
      else option_map (cons c) (grid_carry_32 (m2 :: mn) (M2 :: mx) (c2 :: cs))).
  change (grid_carry (m :: m2 :: mn) (M :: M2 :: mx) (c :: c2 :: cs)) with (if M <? c then m :: grid_carry (m2 :: mn) (M2 :: mx) (c2 + 1 :: cs) else c :: grid_carry (m2 :: mn) (M2 :: mx) (c2 :: cs)).
  destruct (M <? c).
  - rewrite ir_some by (unfold is_int; lia). cbn [ibind]. rewrite IH; [reflexivity|exact L2|lia|cbn [length]; lia|exact F2|exact B2].
  - rewrite IH; [reflexivity|exact L2|lia|cbn [length]; lia|exact F2|exact B2].
Qed.
Lemma box_lengths mn : forall mx i, in_box_list mn mx i -> length mn = length i.
Proof. induction mn as [|m mn IH]; intros [|M mx] [|c i] B; cbn [in_box_list] in B; try contradiction; [reflexivity|]. cbn [length]. f_equal. apply (IH mx). tauto. Qed.
Lemma next_some mn mx i : all_ints mn -> below_last mx -> in_box_list mn mx i -> grid_next_32 mn mx i = Some (grid_next mn mx i).
Proof.
  intros A BL B. pose proof (ints_lower mn mx i A B) as F. pose proof (box_lengths mn mx i B) as HL. destruct i as [|c cs]; [reflexivity|]. unfold grid_next_32, grid_next.
  destruct mn as [|m mn]; [discriminate HL|]. destruct mx as [|M mx]; [contradiction B|]. cbn [in_box_list] in B. destruct B as [B1 B2]. inversion BL as [|? ? L1 L2]; subst. inversion F as [|? ? F1 F2]; subst.
  rewrite ir_some by (unfold is_int; lia). cbn [ibind]. apply carry_some; [exact BL|lia|exact HL|exact F2|exact B2].
Qed.
(** The checked step is the step of M_Grid wherever it is defined. *)
Lemma carry_agrees mn : forall mx cur r, grid_carry_32 mn mx cur = Some r -> r = grid_carry mn mx cur.
Proof.
  assert (IR : forall z w, int_result z = Some w -> w = z) by (intros z w; unfold int_result; destruct (_ && _); congruence).
  induction mn as [|m mn IH]; intros mx cur r E; (destruct cur as [|c [|c2 cs]]; [cbn in *; congruence|cbn in *; destruct mx; congruence|]); [cbn in *; congruence|]. destruct mx as [|M mx]; [cbn in *; congruence|].
  cbn [grid_carry_32 grid_carry] in *. destruct (M <? c).
  - destruct (int_result (c2 + 1)) as [w|] eqn:W; [|discriminate E]. apply IR in W. subst w. cbn [ibind] in E.
    destruct (grid_carry_32 mn mx (c2 + 1 :: cs)) as [r'|] eqn:R; [|discriminate E]. injection E as <-. f_equal. apply IH. exact R.
  - destruct (grid_carry_32 mn mx (c2 :: cs)) as [r'|] eqn:R; [|discriminate E]. injection E as <-. f_equal. apply IH. exact R.
Qed.
Lemma next_agrees mn mx cur r : grid_next_32 mn mx cur = Some r -> r = grid_next mn mx cur.
Proof.
  destruct cur as [|c cs]; cbn [grid_next_32 grid_next]; [congruence|]. destruct (int_result (c + 1)) as [w|] eqn:W; [|discriminate]. cbn [ibind]. intros E.
  assert (w = c + 1) as -> by (unfold int_result in W; destruct (_ && _); congruence). apply carry_agrees. exact E.
Qed.
Lemma loop_some mn mx fuel : all_ints mn -> below_last mx -> forall cur l, grid_loop fuel mn mx cur = Some l -> (forall i, In i l -> in_box_list mn mx i) ->
  grid_loop_32 fuel mn mx (grid_end mn mx) cur = Some (Some l).
Proof.
  intros A BL. induction fuel as [|fuel IH]; intros cur l E H; cbn [grid_loop grid_loop_32] in *; (destruct (list_eqb cur (grid_end mn mx)); [congruence|]); [discriminate E|].
  destruct (grid_loop fuel mn mx (grid_next mn mx cur)) as [l'|] eqn:E'; [|discriminate E]. injection E as <-. rewrite (next_some mn mx cur A BL) by (apply H; left; reflexivity).
  rewrite (IH _ _ E') by (intros i I; apply H; right; exact I). reflexivity.
Qed.
Lemma loop_none mn mx fuel i : grid_next_32 mn mx i = None -> forall cur l, grid_loop fuel mn mx cur = Some l -> In i l -> grid_loop_32 fuel mn mx (grid_end mn mx) cur = None.
Proof.
  intros N. induction fuel as [|fuel IH]; intros cur l E I; cbn [grid_loop grid_loop_32] in *; (destruct (list_eqb cur (grid_end mn mx)); [injection E as <-; destruct I|]); [discriminate E|].
  destruct (grid_loop fuel mn mx (grid_next mn mx cur)) as [l'|] eqn:E'; [|discriminate E]. injection E as <-. destruct I as [->|I]; [rewrite N; reflexivity|].
  destruct (grid_next_32 mn mx cur) as [r|] eqn:R; [|reflexivity]. apply next_agrees in R. subst r. rewrite (IH _ _ E' I). reflexivity.
Qed.
Lemma last_below mx : mx <> [] -> below_last mx -> last mx 0 < 2 ^ 31 - 1.
Proof. intros N H. unfold below_last in H. rewrite Forall_forall in H. apply H. destruct (exists_last N) as (l & a & ->). rewrite last_last. apply in_or_app. right. left. reflexivity. Qed.
Lemma last_box mn : forall mx, mn <> [] -> nonempty_box mn mx -> all_ints mn -> - 2 ^ 31 <= last mx 0.
Proof.
  induction mn as [|m mn IH]; intros [|M mx] N H A; try congruence; cbn [nonempty_box] in H; [contradiction|]. inversion A as [|? ? A1 A2]; subst. unfold is_int in A1. destruct mn as [|m2 mn].
  - destruct mx; [cbn; lia|cbn in H; tauto].
  - destruct mx as [|M2 mx]; [cbn in H; tauto|]. apply (IH (M2 :: mx)); [discriminate|tauto|exact A2].
Qed.
(** The step from the last index of the box increments every component. *)
Lemma carry_last_none mn : forall mx c cs, nonempty_box mn mx -> match mx with M :: mx' => M < c /\ cs = mx' | [] => False end -> Exists (fun z => z = 2 ^ 31 - 1) cs -> grid_carry_32 mn mx (c :: cs) = None.
Proof.
  induction mn as [|m mn IH]; intros [|M mx] c cs B E X; try contradiction. destruct E as [L ->]. destruct mx as [|M2 mx]; [inversion X|].
  destruct mn as [|m2 mn]; [cbn in B; tauto|]. cbn [nonempty_box] in B.
  change (grid_carry_32 (m :: m2 :: mn) (M :: M2 :: mx) (c :: M2 :: mx)) with (if M <? c then ibind (int_result (M2 + 1)) (fun c2' => option_map (cons m) (grid_carry_32 (m2 :: mn) (M2 :: mx) (c2' :: mx)))
      else option_map (cons c) (grid_carry_32 (m2 :: mn) (M2 :: mx) (M2 :: mx))).
  destruct (Z.ltb_spec M c) as [_|Q]; [|lia]. destruct (is_int_dec (M2 + 1)) as [J|J]; [|rewrite ir_none by exact J; reflexivity]. rewrite ir_some by exact J. cbn [ibind].
  rewrite IH; [reflexivity|cbn [nonempty_box]; tauto|split; [lia|reflexivity]|]. inversion X as [? ? X1|? ? X1]; subst; [unfold is_int in J; lia|exact X1].
Qed.
Lemma next_last_none mn mx : mn <> [] -> nonempty_box mn mx -> Exists (fun z => z = 2 ^ 31 - 1) mx -> grid_next_32 mn mx mx = None.
Proof.
  intros N B X. destruct mn as [|m mn]; [congruence|]. destruct mx as [|M mx]; [contradiction B|]. unfold grid_next_32. destruct (is_int_dec (M + 1)) as [J|J]; [|rewrite ir_none by exact J; reflexivity].
  rewrite ir_some by exact J. cbn [ibind]. apply carry_last_none; [exact B|split; [lia|reflexivity]|]. inversion X as [? ? X1|? ? X1]; subst; [unfold is_int in J; lia|exact X1].
Qed.
Lemma max_in_box mn : forall mx, nonempty_box mn mx -> in_box_list mn mx mx.
Proof. induction mn as [|m mn IH]; intros [|M mx] H; cbn in *; try contradiction; [exact I|]. split; [lia|apply IH; tauto]. Qed.

Lemma not_Forall_last mx : all_ints mx -> ~ below_last mx -> Exists (fun z => z = 2 ^ 31 - 1) mx.
Proof.
  unfold below_last. induction 1 as [|c mx Hc H IH]; intros L; [exfalso; apply L; constructor|]. destruct (Z.lt_ge_cases c (2 ^ 31 - 1)) as [Q|Q].
  - right. apply IH. intros L'. apply L. constructor; assumption.
  - left. unfold is_int in Hc. lia.
Qed.

(** For every dimension and every non-empty box of int indices: iteration is defined, and does what C32 says, exactly if the box does not reach the last int along any axis. *)
Theorem C32_int32 : forall mn mx fuel, mn <> [] -> nonempty_box mn mx -> num_cells mn mx <= Z.of_nat fuel -> all_ints mn -> all_ints mx ->
  (below_last mx -> exists l, grid_visit_32 fuel mn mx = Some (Some l) /\ (forall i, In i l <-> in_box_list mn mx i) /\ NoDup l /\ ascending l) /\
  (~ below_last mx -> grid_visit_32 fuel mn mx = None).
Proof.
  intros mn mx fuel N B F A AX. destruct (C32_grid_visits_box mn mx fuel N B F) as (l & V & I & ND & AS & _).
  assert (NX : mx <> []) by (intros ->; destruct mn; [congruence|contradiction B]). unfold grid_visit_32, grid_end_32. split.
  - intros L. exists l. pose proof (last_below mx NX L). pose proof (last_box mn mx N B A). rewrite ir_some by (unfold is_int; lia). cbn [ibind]. split; [|auto].
    apply (loop_some mn mx fuel A L mn l V). intros i. apply I.
  - intros L. destruct (is_int_dec (last mx 0 + 1)) as [J|J]; [|rewrite ir_none by exact J; reflexivity]. rewrite ir_some by exact J. cbn [ibind].
    apply (loop_none mn mx fuel mx) with (l := l); [|exact V|apply I, max_in_box, B]. apply next_last_none; [exact N|exact B|].
    apply not_Forall_last; assumption.
Qed.
Example C32_int32_ex : grid_visit_32 4 [2 ^ 31 - 3; - 2 ^ 31] [2 ^ 31 - 2; - 2 ^ 31] = Some (Some [[2 ^ 31 - 3; - 2 ^ 31]; [2 ^ 31 - 2; - 2 ^ 31]]) /\
  grid_visit_32 4 [2 ^ 31 - 3; 0] [2 ^ 31 - 1; 0] = None /\ grid_visit_32 4 [0; 2 ^ 31 - 2] [0; 2 ^ 31 - 1] = None.
Proof. vm_compute. auto. Qed.
Print Assumptions C32_int32.
