(** Leaf iteration of one wavelet tree. *)
From Verif Require Import Base M_IntMath F_IntMath M_Morton F_Morton M_NdtreeIndex F_NdtreeIndex
  M_Num F_Num M_Haar F_Haar M_Haar3 F_Haar3 M_Ndtree M_Wavelet F_Wavelet F_Wavelet2.
From Coq Require Import QArith Qcanon Qcabs Lqa.
Close Scope Qc_scope.
Close Scope Q_scope.
Open Scope Z_scope.

(** [covers3 i cell]: the node [i] covers the finest-resolution cell. *)
Definition covers3 (i : oidx) (cell : idx3) : Prop := imap (fun c => c / 2 ^ oh i) cell = opos i.

Lemma child_coord x p h b : 1 <= h ->
  (x / 2 ^ (h - 1) = p * 2 + Z.b2z b <-> x / 2 ^ h = p /\ Z.testbit x (h - 1) = b).
Proof.
  intros Hh. assert (E : x / 2 ^ (h - 1) = 2 * (x / 2 ^ h) + Z.b2z (Z.testbit x (h - 1))).
  { rewrite Z.testbit_spec' by lia. replace (2 ^ h) with (2 ^ (h - 1) * 2).
    2:{ rewrite Z.mul_comm, <- Z.pow_succ_r by lia. f_equal. lia. }
    rewrite <- Z.div_div by (try apply Z.pow_nonzero; lia). apply Z.div_mod. lia. }
  rewrite E. split.
  - intros H. destruct b, (Z.testbit x (h - 1)); cbn [Z.b2z] in H; (split; [lia|reflexivity || lia]).
  - intros [-> ->]. lia.
Qed.
Lemma covers3_child i c cell : 1 <= oh i -> 0 <= c < 8 ->
  (covers3 (ochild i c) cell <-> covers3 i cell /\ cidx cell (oh i - 1) = c).
Proof.
  intros Hh Hc. destruct i as [h [x y z]], cell as [a b e]. unfold covers3, ochild, cidx, imap.
  cbn [oh opos px py pz] in *.
  assert (L : forall k, 0 <= k -> Z.land (Z.shiftr c k) 1 = Z.b2z (Z.testbit c k)).
  { intros k Hk. change 1 with (Z.ones 1) at 1. rewrite Z.land_ones by lia. rewrite Z.shiftr_div_pow2 by lia.
    rewrite Z.testbit_spec' by lia. reflexivity. }
  rewrite !L by lia.
  assert (CX := child_coord a x h (Z.testbit c 0) Hh). assert (CY := child_coord b y h (Z.testbit c 1) Hh).
  assert (CZ := child_coord e z h (Z.testbit c 2) Hh).
  assert (E : I3 (a / 2 ^ (h - 1)) (b / 2 ^ (h - 1)) (e / 2 ^ (h - 1)) =
              I3 (x * 2 + Z.b2z (Z.testbit c 0)) (y * 2 + Z.b2z (Z.testbit c 1)) (z * 2 + Z.b2z (Z.testbit c 2)) <->
              (a / 2 ^ h = x /\ Z.testbit a (h - 1) = Z.testbit c 0) /\
              (b / 2 ^ h = y /\ Z.testbit b (h - 1) = Z.testbit c 1) /\
              (e / 2 ^ h = z /\ Z.testbit e (h - 1) = Z.testbit c 2)).
  { rewrite <- CX, <- CY, <- CZ. split; [intros H; injection H; auto|intros (-> & -> & ->); reflexivity]. }
  rewrite E. clear - Hc. split.
  - intros ((-> & Ea) & (-> & Eb) & (-> & Ee)). split; [reflexivity|]. rewrite Ea, Eb, Ee.
    child8 c Hc; reflexivity.
  - intros [H1 H2]. injection H1 as E1 E2 E3. rewrite <- H2, E1, E2, E3. clear.
    destruct (Z.testbit a (h - 1)), (Z.testbit b (h - 1)), (Z.testbit e (h - 1)); cbn; auto 10.
Qed.

(** Structural form of the leaf iteration. *)
Section Leaves.
Context {V : Type} (N : M_Num.num V).
Fixpoint leaves (th : Z) (n : node (det V)) (idx : oidx) (v : V) : list (oidx * V) :=
  match n with Node d kids =>
    let values := backward3 N v d in
    let subs :=
      match kids with
      | None => otab (fun _ => None)
      | Some k => omap2 (fun kid c =>
          match kid with
          | Some ch => if th <? oh idx - 1 then Some (leaves th ch (ochild idx c) (oget values c)) else None
          | None => None
          end) k (otab (fun c => c))
      end in
    flat_map (fun c => match oget subs c with None => [(ochild idx c, oget values c)] | Some _ => [] end)
      [0; 1; 2; 3; 4; 5; 6; 7] ++
    flat_map (fun c => match oget subs c with None => [] | Some l => l end) [7; 6; 5; 4; 3; 2; 1; 0]
  end.
Definition sub (th : Z) (n : node (det V)) (idx : oidx) (v : V) (c : Z) : option (list (oidx * V)) :=
  match getChild n c with
  | Some ch => if th <? oh idx - 1 then Some (leaves th ch (ochild idx c) (oget (backward3 N v (ndata n)) c)) else None
  | None => None
  end.
Lemma flat_map_ext_in {A B} (f g : A -> list B) l : (forall a, In a l -> f a = g a) -> flat_map f l = flat_map g l.
Proof. induction l as [|a l IH]; intros H; cbn [flat_map]; [reflexivity|]. rewrite H by (left; reflexivity).
  rewrite IH; [reflexivity|]. intros b Hb. apply H. right; assumption. Qed.
Lemma leaves_eq th n idx v :
  leaves th n idx v =
    flat_map (fun c => match sub th n idx v c with None => [(ochild idx c, oget (backward3 N v (ndata n)) c)] | Some _ => [] end)
      [0; 1; 2; 3; 4; 5; 6; 7] ++
    flat_map (fun c => match sub th n idx v c with None => [] | Some l => l end) [7; 6; 5; 4; 3; 2; 1; 0].
Proof.
  destruct n as [d kids]. cbn [leaves ndata].
  f_equal; apply flat_map_ext_in; intros c Hc;
  assert (Hr : 0 <= c < 8) by (cbn [In] in Hc; lia); unfold sub, getChild; cbn [nkids ndata].
  - destruct kids as [k|]; [|rewrite oget_otab by assumption; reflexivity].
    rewrite oget_omap2, oget_otab by assumption. destruct (oget k c); reflexivity.
  - destruct kids as [k|]; [|rewrite oget_otab by assumption; reflexivity].
    rewrite oget_omap2, oget_otab by assumption. destruct (oget k c); reflexivity.
Qed.

Definition push (th : Z) (n : node (det V)) (idx : oidx) (values : oct V) (c : Z) : list (oidx * node (det V) * V) :=
  match getChild n c with
  | Some ch => if th <? oh idx - 1 then [(ochild idx c, ch, oget values c)] else []
  | None => []
  end.
Lemma leaf_fold th idx n values cs : forall st ac,
  fold_left (fun sa c => leaf_visit th (fst sa) (snd sa) idx n values c) cs (st, ac) =
  (rev (flat_map (push th n idx values) cs) ++ st,
   rev (flat_map (fun c => match push th n idx values c with [] => [(ochild idx c, oget values c)] | _ => [] end) cs) ++ ac).
Proof.
  induction cs as [|c cs IH]; intros st ac; [reflexivity|]. cbn [fold_left flat_map].
  rewrite !rev_app_distr, <- !app_assoc. unfold leaf_visit at 2. cbn [fst snd].
  unfold push at 2 4. cbn [ochild oh]. destruct (getChild n c) as [ch|].
  - destruct (th <? oh idx - 1); rewrite IH; reflexivity.
  - rewrite IH; reflexivity.
Qed.

Fixpoint stack_size (st : list (oidx * node (det V) * V)) : nat :=
  match st with [] => O | (_, n, _) :: st' => (nsize n + stack_size st')%nat end.
Lemma stack_size_app a b : stack_size (a ++ b) = (stack_size a + stack_size b)%nat.
Proof. induction a as [|[[i n] v] a IH]; cbn [stack_size app]; lia. Qed.
Lemma stack_size_rev a : stack_size (rev a) = stack_size a.
Proof. induction a as [|[[i n] v] a IH]; cbn [stack_size rev]; [reflexivity|]. rewrite stack_size_app. cbn. lia. Qed.
Lemma push_size th n idx values :
  (S (stack_size (flat_map (push th n idx values) [0; 1; 2; 3; 4; 5; 6; 7]%Z)) <= nsize n)%nat.
Proof.
  destruct n as [d [[k0 k1 k2 k3 k4 k5 k6 k7]|]].
  2:{ cbn. lia. }
  cbn [flat_map]. rewrite !stack_size_app. unfold push, getChild. cbn [nkids oget].
  assert (X : forall (o : option (node (det V))) (c : Z), (stack_size (match o with Some ch => if (th <? oh idx - 1)%Z then [(ochild idx c, ch, oget values c)] else [] | None => [] end)
     <= match o with Some ch => nsize ch | None => O end)%nat).
  { intros o c. destruct o; [|cbn; lia]. destruct (_ <? _); cbn [stack_size]; lia. }
  assert (H0 := X k0 0). assert (H1 := X k1 1). assert (H2 := X k2 2). assert (H3 := X k3 3).
  assert (H4 := X k4 4). assert (H5 := X k5 5). assert (H6 := X k6 6). assert (H7 := X k7 7).
  cbn [nsize olist omap list_sum fold_right stack_size]. cbn [oget] in *. lia.
Qed.

Lemma flat_map_rev_push th n idx values (g : oidx * node (det V) * V -> list (oidx * V)) :
  flat_map g (rev (flat_map (push th n idx values) [0; 1; 2; 3; 4; 5; 6; 7])) =
  flat_map (fun c => flat_map g (push th n idx values c)) [7; 6; 5; 4; 3; 2; 1; 0].
Proof.
  assert (S : forall c, rev (push th n idx values c) = push th n idx values c).
  { intros c. unfold push. destruct (getChild n c); [|reflexivity]. destruct (_ <? _); reflexivity. }
  cbn [flat_map]. rewrite !rev_app_distr, !S. rewrite !flat_map_app. cbn [rev app flat_map].
  rewrite !app_nil_r, <- ?app_assoc. reflexivity.
Qed.

Lemma leaf_loop_leaves fuel : forall th st ac, (stack_size st <= fuel)%nat ->
  leaf_loop N fuel th st ac = Some (rev ac ++ flat_map (fun inv => leaves th (snd (fst inv)) (fst (fst inv)) (snd inv)) st).
Proof.
  induction fuel as [|fuel IH]; intros th st ac Hf.
  - destruct st as [|[[i n] v] st]; cbn [leaf_loop flat_map]; [rewrite app_nil_r; reflexivity|].
    cbn [stack_size] in Hf. pose proof (push_size th n i (backward3 N v (ndata n))). lia.
  - destruct st as [|[[i n] v] st]; cbn [leaf_loop]; [cbn [flat_map]; rewrite app_nil_r; reflexivity|].
    cbn [stack_size] in Hf. pose proof (push_size th n i (backward3 N v (ndata n))) as Hp.
    rewrite leaf_fold. rewrite IH by (rewrite stack_size_app, stack_size_rev; lia).
    f_equal. rewrite rev_app_distr, rev_involutive. rewrite flat_map_app, <- !app_assoc. f_equal.
    rewrite flat_map_rev_push.
    change (flat_map ?f ((i, n, v) :: st)) with (leaves th n i v ++ flat_map f st).
    rewrite leaves_eq. rewrite <- app_assoc.
    f_equal; [|f_equal].
    + apply flat_map_ext_in. intros c _. unfold sub, push. destruct (getChild n c); [|reflexivity].
      destruct (_ <? _); reflexivity.
    + apply flat_map_ext_in. intros c _. unfold sub, push. destruct (getChild n c); [|reflexivity].
      destruct (_ <? _); cbn [flat_map fst snd]; [rewrite app_nil_r; reflexivity|reflexivity].
Qed.
End Leaves.

Section Cover.
Context {V : Type}.
(** Exactly one entry of the list covers the cell, and it carries value [v]. *)
Definition uncovered (l : list (oidx * V)) (cell : idx3) : Prop :=
  forall j, In j (map fst l) -> ~ covers3 j cell.
Definition covered_once (l : list (oidx * V)) (cell : idx3) (v : V) : Prop :=
  exists l1 i l2, l = l1 ++ (i, v) :: l2 /\ covers3 i cell /\ uncovered (l1 ++ l2) cell.
Lemma covered_once_app_l a b cell v : covered_once a cell v -> uncovered b cell -> covered_once (a ++ b) cell v.
Proof.
  intros (l1 & i & l2 & -> & Hc & Hu) Hb. exists l1, i, (l2 ++ b). split; [rewrite <- app_assoc; reflexivity|].
  split; [assumption|]. intros j. rewrite app_assoc, map_app, in_app_iff. intros [H|H]; [apply Hu|apply Hb]; assumption.
Qed.
Lemma covered_once_app_r a b cell v : uncovered a cell -> covered_once b cell v -> covered_once (a ++ b) cell v.
Proof.
  intros Ha (l1 & i & l2 & -> & Hc & Hu). exists (a ++ l1), i, l2. split; [rewrite <- app_assoc; reflexivity|].
  split; [assumption|]. intros j. rewrite <- app_assoc, map_app, in_app_iff. intros [H|H]; [apply Ha|apply Hu]; assumption.
Qed.
Lemma uncovered_app a b cell : uncovered a cell -> uncovered b cell -> uncovered (a ++ b) cell.
Proof. intros Ha Hb j. rewrite map_app, in_app_iff. intros [H|H]; [apply Ha|apply Hb]; assumption. Qed.
Lemma uncovered_flat_map {A} (f : A -> list (oidx * V)) l cell :
  (forall a, In a l -> uncovered (f a) cell) -> uncovered (flat_map f l) cell.
Proof.
  induction l as [|a l IH]; intros H; [intros j []|]. cbn [flat_map]. apply uncovered_app.
  - apply H. left; reflexivity.
  - apply IH. intros b Hb. apply H. right; assumption.
Qed.
Lemma covered_once_flat_map {A} (f : A -> list (oidx * V)) l c cell v : NoDup l -> In c l ->
  covered_once (f c) cell v -> (forall a, In a l -> a <> c -> uncovered (f a) cell) ->
  covered_once (flat_map f l) cell v.
Proof.
  induction l as [|a l IH]; intros Hnd Hin Hc Hu; [destruct Hin|]. inversion Hnd; subst. cbn [flat_map].
  destruct Hin as [->|Hin].
  - apply covered_once_app_l; [assumption|]. apply uncovered_flat_map. intros b Hb. apply Hu; [right; assumption|].
    intros ->; contradiction.
  - apply covered_once_app_r; [apply Hu; [left; reflexivity|intros ->; contradiction]|].
    apply IH; try assumption. intros b Hb. apply Hu. right; assumption.
Qed.
Lemma uncovered_nil cell : uncovered [] cell.
Proof. intros j []. Qed.
Lemma covered_once_one i v cell : covers3 i cell -> covered_once [(i, v)] cell v.
Proof. intros H. exists [], i, []. split; [reflexivity|]. split; [assumption|]. apply uncovered_nil. Qed.
End Cover.

(** All leaves lie inside the node. *)
Lemma leaves_uncovered th n : forall idx v cell, 0 <= th -> 1 <= oh idx -> ~ covers3 idx cell ->
  uncovered (leaves qn th n idx v) cell.
Proof.
  induction n as [n IH] using node_ind_child. intros idx v cell Hth Hh Hn. rewrite leaves_eq.
  apply uncovered_app; apply uncovered_flat_map; intros c Hc;
    assert (Hr : 0 <= c < 8) by (cbn [In] in Hc; lia).
  - destruct (sub qn th n idx v c); [apply uncovered_nil|]. intros j [<-|[]]. cbn [fst].
    rewrite covers3_child by assumption. tauto.
  - unfold sub. destruct (getChild n c) as [ch|] eqn:E; [|apply uncovered_nil].
    destruct (Z.ltb_spec th (oh idx - 1)); [|apply uncovered_nil].
    apply (IH c ch E); [assumption|cbn; lia|]. rewrite covers3_child by assumption. tauto.
Qed.

Lemma cidx_path_head idx cell k : oh idx = Z.of_nat (S k) ->
  path (S k) cell = cidx cell (oh idx - 1) :: path k cell.
Proof. intros ->. cbn [path]. replace (Z.of_nat (S k) - 1) with (Z.of_nat k) by lia. reflexivity. Qed.

Lemma NoDup_up : NoDup [0; 1; 2; 3; 4; 5; 6; 7].
Proof. repeat constructor; cbn [In]; lia. Qed.
Lemma NoDup_down : NoDup [7; 6; 5; 4; 3; 2; 1; 0].
Proof. repeat constructor; cbn [In]; lia. Qed.
Lemma in_up c : 0 <= c < 8 -> In c [0; 1; 2; 3; 4; 5; 6; 7].
Proof. cbn [In]. lia. Qed.
Lemma in_down c : 0 <= c < 8 -> In c [7; 6; 5; 4; 3; 2; 1; 0].
Proof. cbn [In]. lia. Qed.

Lemma leaves_cover k : forall th n idx v cell,
  height_ok k n -> oh idx = Z.of_nat k -> (th < k)%nat -> covers3 idx cell ->
  covered_once (leaves qn (Z.of_nat th) n idx v) cell (eval v n (firstn (k - th) (path k cell))).
Proof.
  induction k as [|k IH]; intros th n idx v cell Hn Hh Hth Hc; [contradiction|].
  rewrite (cidx_path_head idx cell k Hh). replace (S k - th)%nat with (S (k - th)) by lia. cbn [firstn eval].
  set (c := cidx cell (oh idx - 1)). assert (Hr : 0 <= c < 8) by apply cidx_range.
  rewrite leaves_eq.
  assert (Hcc : covers3 (ochild idx c) cell) by (rewrite covers3_child by (try assumption; lia); split; [assumption|reflexivity]).
  assert (Hoc : forall a, 0 <= a < 8 -> a <> c -> ~ covers3 (ochild idx a) cell).
  { intros a Ha Hne. rewrite covers3_child by (try assumption; lia). intros [_ E]. fold c in E. congruence. }
  assert (Hsub : forall a, 0 <= a < 8 -> a <> c ->
    uncovered (match sub qn (Z.of_nat th) n idx v a with None => [] | Some l => l end) cell).
  { intros a Ha Hne. unfold sub. destruct (getChild n a) eqn:E; [|apply uncovered_nil].
    destruct (Z.ltb_spec (Z.of_nat th) (oh idx - 1)); [|apply uncovered_nil].
    apply leaves_uncovered; [lia|cbn; lia|apply Hoc; assumption]. }
  specialize (Hn c Hr).
  assert (Hval : oget (backward3 qn v (ndata n)) c = child_value v (ndata n) c) by (apply backward3_value; assumption).
  destruct (sub qn (Z.of_nat th) n idx v c) as [l|] eqn:Es.
  - apply covered_once_app_r.
    + apply uncovered_flat_map. intros a Ha. assert (0 <= a < 8) as Ha' by (cbn [In] in Ha; lia).
      destruct (Z.eq_dec a c) as [->|Hne]; [rewrite Es; apply uncovered_nil|].
      destruct (sub qn (Z.of_nat th) n idx v a); [apply uncovered_nil|].
      intros j [<-|[]]. apply Hoc; assumption.
    + apply (covered_once_flat_map _ _ c); [exact NoDup_down|apply in_down; assumption| |].
      * rewrite Es. unfold sub in Es. destruct (getChild n c) as [ch|] eqn:E; [|discriminate].
        destruct (Z.ltb_spec (Z.of_nat th) (oh idx - 1)); [|discriminate]. rewrite Hval in Es; injection Es as <-.
        apply IH; [assumption|cbn; lia|lia|assumption].
      * intros a Ha Hne. apply Hsub; [cbn [In] in Ha; lia|assumption].
  - apply covered_once_app_l.
    + apply (covered_once_flat_map _ _ c); [exact NoDup_up|apply in_up; assumption| |].
      * rewrite Es. rewrite Hval.
        assert (Ev : match getChild n c with Some ch => eval (child_value v (ndata n) c) ch (firstn (k - th) (path k cell)) | None => child_value v (ndata n) c end = child_value v (ndata n) c).
        { unfold sub in Es. destruct (getChild n c) as [ch|]; [|reflexivity].
          destruct (Z.ltb_spec (Z.of_nat th) (oh idx - 1)); [discriminate|].
          replace (k - th)%nat with O by lia. reflexivity. }
        rewrite Ev. apply covered_once_one. assumption.
      * intros a Ha Hne. assert (0 <= a < 8) by (cbn [In] in Ha; lia).
        destruct (sub qn (Z.of_nat th) n idx v a); [apply uncovered_nil|].
        intros j [<-|[]]. apply Hoc; assumption.
    + apply uncovered_flat_map. intros a Ha. assert (0 <= a < 8) by (cbn [In] in Ha; lia).
      destruct (Z.eq_dec a c) as [->|Hne]; [rewrite Es; apply uncovered_nil|apply Hsub; assumption].
Qed.
