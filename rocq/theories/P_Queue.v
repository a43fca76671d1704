(** Property theorems C37 (bucket queue) and C38 (sparse vector). *)
From Verif Require Import Base M_Queue.
From Coq Require Import QArith Qround Qabs Lqa.
Close Scope Q_scope.
Open Scope Z_scope.

(** ** C37: specification. The queue holds (bucket number, value) pairs in the order of insertion; the next
    element is the earliest inserted one among those with the smallest bucket number. *)
Section SPEC.
Context {V : Type}.
Record squeue := SQ { s_num : Z; s_max : Q; s_items : list (Z * V) }.
(** the bucket of a key: num_buckets - 1 buckets of equal width over [0, max_key), the last one for the rest *)
Definition bucket_of_key (n : Z) (mx key : Q) (b : Z) : Prop :=
  (0 <= b < n /\ (b < n - 1 -> (Qabs key * inject_Z (n - 1) < inject_Z (b + 1) * mx)%Q) /\ (inject_Z b * mx <= Qabs key * inject_Z (n - 1))%Q).
Definition is_next (l : list (Z * V)) (b : Z) (v : V) (rest : list (Z * V)) : Prop :=
  exists l1 l2, l = l1 ++ (b, v) :: l2 /\ rest = l1 ++ l2 /\ Forall (fun x => b < fst x) l1 /\ Forall (fun x => b <= fst x) l2.
(** one call: (state before, state after, returned value) *)
Inductive s_call : squeue -> bq_call V -> squeue -> option V -> Prop :=
| s_push n mx l k v b : bucket_of_key n mx k b -> s_call (SQ n mx l) (BPush k v) (SQ n mx (l ++ [(b, v)])) None
| s_pop_empty n mx : s_call (SQ n mx []) BPop (SQ n mx []) None
| s_pop n mx l b v r : is_next l b v r -> s_call (SQ n mx l) BPop (SQ n mx r) None
| s_front n mx l b v r : is_next l b v r -> s_call (SQ n mx l) BFront (SQ n mx l) (Some v)
| s_clear n mx l : s_call (SQ n mx l) BClear (SQ n mx []) None
| s_set n mx l n' mx' : s_call (SQ n mx l) (BSet n' mx') (SQ n' mx' []) None.
(** Allowed calls: front() only on a non-empty queue (it is undefined otherwise), valid sizes *)
Definition allowed (s : squeue) (c : bq_call V) : Prop :=
  match c with BFront => s_items s <> [] | BSet n mx => 0 < n /\ (0 < mx)%Q | _ => True end.
End SPEC.
Arguments squeue : clear implicits.

Section PROOFS.
Context {V : Type}.
(** Refinement *)
Definition in_bucket (l : list (Z * V)) (b : Z) : list V := map snd (filter (fun x => fst x =? b) l).
Definition refines (q : bqueue V) (s : squeue V) : Prop :=
  q_num q = s_num s /\ q_max q = s_max s /\ 0 < s_num s /\ (0 < s_max s)%Q /\
  Z.of_nat (length (q_buckets q)) = s_num s /\
  Forall (fun x => 0 <= fst x < s_num s) (s_items s) /\
  (forall b, 0 <= b < s_num s -> nth (Z.to_nat b) (q_buckets q) [] = in_bucket (s_items s) b) /\
  q_count q = Z.of_nat (length (s_items s)) /\
  0 <= q_last q /\ Forall (fun x => q_last q <= fst x) (s_items s).

Lemma nth_update {B} (l : list B) f d : forall n m, nth m (update_nth n f l) d = if Nat.eqb m n then (if Nat.ltb n (length l) then f (nth m l d) else nth m l d) else nth m l d.
Proof.
  induction l as [|x l IH]; intros n m; [destruct n, m; cbn; try reflexivity; destruct (Nat.eqb m n); reflexivity|].
  destruct n as [|n], m as [|m]; cbn; try reflexivity. rewrite IH. change (Nat.ltb (S n) (S (length l))) with (Nat.ltb n (length l)). reflexivity.
Qed.
Lemma update_length {B} (l : list B) f : forall n, length (update_nth n f l) = length l.
Proof. induction l as [|x l IH]; intros [|n]; cbn; auto. Qed.
Lemma in_bucket_app l1 l2 b : in_bucket (l1 ++ l2) b = in_bucket l1 b ++ in_bucket l2 b.
Proof. unfold in_bucket. rewrite filter_app, map_app. reflexivity. Qed.

Lemma bucket_index_spec n mx key (q : bqueue V) : q_num q = n -> q_max q = mx -> 0 < n -> (0 < mx)%Q -> bucket_of_key n mx key (computeBucketIndex q key).
Proof.
  intros <- <- Hn Hm. unfold computeBucketIndex, bucket_of_key. set (n := q_num q) in *. set (mx := q_max q) in *.
  assert (Ha := Qabs_nonneg key). set (a := Qabs key) in *.
  assert (Hn1 : (0 <= inject_Z (n - 1))%Q) by (change 0%Q with (inject_Z 0); rewrite <- Zle_Qle; lia).
  set (y := (a / mx * inject_Z (n - 1))%Q).
  assert (Ey : (y * mx == a * inject_Z (n - 1))%Q) by (unfold y; field; lra).
  assert (Hy : (0 <= y)%Q) by (unfold y; apply Qmult_le_0_compat; [apply Qle_shift_div_l; lra|assumption]).
  pose proof (Qfloor_le y) as F1. pose proof (Qlt_floor y) as F2. set (f := Qfloor y) in *.
  assert (0 <= f) by (unfold f; change 0 with (Qfloor 0); apply Qfloor_resp_le; assumption).
  destruct (Z.leb_spec n f).
  - split; [lia|]. split; [lia|]. rewrite <- Ey. apply Qmult_le_compat_r; [|lra]. apply Qle_trans with (inject_Z f); [rewrite <- Zle_Qle; lia|assumption].
  - split; [lia|]. rewrite <- Ey. split; [intros _; apply Qmult_lt_compat_r; assumption|]. apply Qmult_le_compat_r; [assumption|lra].
Qed.

(** The earliest element of the smallest bucket exists and is unique up to its position *)
Lemma split_bucket (l : list (Z * V)) b v vs : in_bucket l b = v :: vs ->
  exists l1 l2, l = l1 ++ (b, v) :: l2 /\ in_bucket l1 b = [] /\ in_bucket l2 b = vs.
Proof.
  induction l as [|[b' v'] l IH]; [discriminate|]. unfold in_bucket in *. cbn [filter fst]. destruct (Z.eqb_spec b' b) as [->|N]; cbn [map snd].
  - intros H. injection H as E1 E2. subst v'. exists [], l. auto.
  - intros H. destruct (IH H) as (l1 & l2 & -> & E1 & E2). exists ((b', v') :: l1), l2. split; [reflexivity|]. split; [|assumption].
    cbn [filter fst]. destruct (Z.eqb_spec b' b); [contradiction|assumption].
Qed.
Lemma in_bucket_nil l b : in_bucket l b = [] -> Forall (fun x : Z * V => fst x <> b) l.
Proof.
  unfold in_bucket. induction l as [|[b' v'] l IH]; intros H; constructor; cbn [filter fst] in H; destruct (Z.eqb_spec b' b); try discriminate; [assumption|].
  apply IH. assumption.
Qed.
Lemma skip_spec (bs : list (list V)) n fuel : forall i, 0 <= i -> n - i <= Z.of_nat fuel ->
  let j := skip_empty fuel n bs i in i <= j /\ (forall b, i <= b < j -> nth (Z.to_nat b) bs [] = []) /\ (j < n -> nth (Z.to_nat j) bs [] <> []).
Proof.
  induction fuel as [|fuel IH]; intros i Hi Hf; cbn [skip_empty].
  - cbv zeta. split; [lia|]. split; [intros; lia|lia].
  - destruct (Z.ltb_spec i n); [|cbv zeta; split; [lia|]; split; [intros; lia|lia]].
    destruct (nth (Z.to_nat i) bs []) eqn:E.
    + specialize (IH (i + 1) ltac:(lia) ltac:(lia)). cbv zeta in *. destruct IH as (A & B & C). split; [lia|]. split; [|assumption].
      intros b Hb. destruct (Z.eq_dec b i) as [->|]; [assumption|apply B; lia].
    + cbv zeta. split; [lia|]. split; [intros; lia|]. intros _. rewrite E. discriminate.
Qed.
Lemma find_next q s : refines q s -> s_items s <> [] ->
  let j := bq_skip q in q_last q <= j /\ j < s_num s /\ exists v r, nth (Z.to_nat j) (q_buckets q) [] = v :: in_bucket r j /\ is_next (s_items s) j v r /\
  (forall b, b <> j -> in_bucket r b = in_bucket (s_items s) b).
Proof.
  intros (R1 & R2 & R3 & R4 & R5 & R6 & R7 & R8 & R9 & R10) Hne. cbv zeta. unfold bq_skip.
  pose proof (skip_spec (q_buckets q) (q_num q) (Z.to_nat (q_num q)) (q_last q) R9 ltac:(lia)) as K. cbv zeta in K.
  set (j := skip_empty _ _ _ _) in *. destruct K as (K1 & K2 & K3). rewrite R1 in *.
  assert (Hj : Forall (fun x => j <= fst x) (s_items s)).
  { apply Forall_forall. intros [b v] Hin. cbn [fst]. destruct (Z_lt_le_dec b j) as [C|C]; [|assumption]. exfalso.
    rewrite Forall_forall in R6, R10. pose proof (R6 _ Hin). pose proof (R10 _ Hin). cbn [fst] in *.
    specialize (K2 b ltac:(lia)). rewrite R7 in K2 by lia. apply in_bucket_nil in K2. rewrite Forall_forall in K2. apply (K2 _ Hin). reflexivity. }
  assert (Hjn : j < s_num s).
  { destruct (s_items s) as [|x l]; [congruence|]. inversion R6; inversion Hj; subst. lia. }
  split; [assumption|]. split; [assumption|]. specialize (K3 Hjn). rewrite R7 in K3 by lia.
  destruct (in_bucket (s_items s) j) as [|v vs] eqn:E; [congruence|]. destruct (split_bucket _ _ _ _ E) as (l1 & l2 & El & E1 & E2).
  exists v, (l1 ++ l2). split; [|split].
  - rewrite R7 by lia. rewrite E, in_bucket_app, E1, E2. reflexivity.
  - exists l1, l2. split; [assumption|]. split; [reflexivity|]. rewrite El in Hj. apply Forall_app in Hj as [H1 H2]. inversion H2; subst. split; [|assumption].
    apply in_bucket_nil in E1. rewrite Forall_forall in *. intros x Hx. specialize (H1 x Hx). specialize (E1 x Hx). lia.
  - intros b Hb. rewrite El, !in_bucket_app. f_equal. symmetry. unfold in_bucket at 1. cbn [filter fst]. destruct (Z.eqb_spec j b); [congruence|reflexivity].
Qed.
Lemma next_all (P : Z * V -> Prop) l b v r : is_next l b v r -> Forall P l -> Forall P r.
Proof.
  intros (l1 & l2 & -> & -> & _ & _) H. apply Forall_app in H as [H1 H2]. inversion H2; subst. apply Forall_app. auto.
Qed.
Lemma next_length (l : list (Z * V)) b v r : is_next l b v r -> length l = S (length r).
Proof. intros (l1 & l2 & -> & -> & _ & _). rewrite !app_length. cbn. lia. Qed.
Lemma next_min (l : list (Z * V)) b v r : is_next l b v r -> Forall (fun x => b <= fst x) r.
Proof.
  intros (l1 & l2 & -> & -> & H1 & H2). apply Forall_app. split; [|assumption]. eapply Forall_impl; [|exact H1]. cbn. intros; lia.
Qed.
Lemma refines_fresh n mx (last : Z) : 0 < n -> (0 < mx)%Q -> 0 <= last -> refines (BQ n mx (fresh_buckets n) last 0) (SQ n mx []).
Proof.
  intros Hn Hm Hl. unfold refines. cbn. split; [reflexivity|]. split; [reflexivity|]. split; [assumption|]. split; [assumption|].
  split; [unfold fresh_buckets; rewrite repeat_length; lia|]. split; [constructor|]. split.
  - intros b Hb. unfold fresh_buckets, in_bucket. cbn. apply nth_repeat.
  - split; [reflexivity|]. split; [assumption|constructor].
Qed.
Lemma refine_call q s c : refines q s -> allowed s c ->
  exists s' , s_call s c s' (snd (bq_apply q c)) /\ refines (fst (bq_apply q c)) s'.
Proof.
  intros R Ha. pose proof R as (R1 & R2 & R3 & R4 & R5 & R6 & R7 & R8 & R9 & R10). destruct s as [n mx l]. cbn [s_num s_max s_items] in *.
  destruct c as [k v| | | |n' mx']; cbn [bq_apply fst snd].
  - pose proof (bucket_index_spec n mx k q R1 R2 R3 R4) as Hb. exists (SQ n mx (l ++ [(computeBucketIndex q k, v)])). split; [constructor; assumption|].
    set (b := computeBucketIndex q k) in *. destruct Hb as (Hb & _). unfold refines, bq_push. fold b. cbn [q_num q_max q_buckets q_last q_count s_num s_max s_items].
    split; [assumption|]. split; [assumption|]. split; [assumption|]. split; [assumption|]. split; [rewrite update_length; assumption|].
    split; [apply Forall_app; split; [assumption|repeat constructor; cbn; lia]|]. split; [|split; [rewrite app_length; cbn; lia|split]].
    + intros c Hc. rewrite nth_update, R7 by assumption. rewrite in_bucket_app. replace (in_bucket [(b, v)] c) with (if b =? c then [v] else []) by (unfold in_bucket; cbn [filter fst]; destruct (b =? c); reflexivity).
      destruct (Z.eqb_spec b c) as [->|N].
      * rewrite Nat.eqb_refl. replace (Nat.ltb (Z.to_nat c) (length (q_buckets q))) with true by (symmetry; apply Nat.ltb_lt; lia). reflexivity.
      * replace (Nat.eqb (Z.to_nat c) (Z.to_nat b)) with false by (symmetry; apply Nat.eqb_neq; lia). cbn. rewrite app_nil_r. reflexivity.
    + destruct (b <? q_last q); lia.
    + destruct (Z.ltb_spec b (q_last q)); (apply Forall_app; split; [eapply Forall_impl; [|exact R10]; cbv beta; intros; lia|constructor; [cbn; lia|constructor]]).
  - unfold bq_pop, bq_empty. destruct (Z.eqb_spec (q_count q) 0) as [E|N].
    + assert (l = []) by (destruct l; [reflexivity|cbn in R8; lia]). subst l. exists (SQ n mx []). split; [constructor|assumption].
    + assert (Hne : l <> []) by (intros ->; cbn in R8; congruence).
      pose proof (find_next q (SQ n mx l) R Hne) as F. cbv zeta in F. set (j := bq_skip q) in *. cbn [s_num s_items] in F.
      destruct F as (J1 & J2 & v & r & F1 & F2 & F3). replace (j <? q_num q) with true by lia.
      exists (SQ n mx r). split; [eapply s_pop; exact F2|]. unfold refines. cbn [q_num q_max q_buckets q_last q_count s_num s_max s_items].
      split; [assumption|]. split; [assumption|]. split; [assumption|]. split; [assumption|]. split; [rewrite update_length; assumption|].
      split; [eapply next_all; eassumption|]. split; [|split; [pose proof (next_length _ _ _ _ F2); lia|split; [lia|eapply next_min; eassumption]]].
      intros b Hb. rewrite nth_update. destruct (Z.eq_dec b j) as [->|Nb].
      * rewrite Nat.eqb_refl. replace (Nat.ltb (Z.to_nat j) (length (q_buckets q))) with true by (symmetry; apply Nat.ltb_lt; lia). rewrite F1. reflexivity.
      * replace (Nat.eqb (Z.to_nat b) (Z.to_nat j)) with false by (symmetry; apply Nat.eqb_neq; lia). rewrite R7, F3 by assumption. reflexivity.
  - cbn in Ha. pose proof (find_next q (SQ n mx l) R Ha) as F. cbv zeta in F. unfold bq_front. cbv zeta. set (j := bq_skip q) in *. cbn [s_num s_items] in F.
    destruct F as (J1 & J2 & v & r & F1 & F2 & F3). cbn [fst snd]. rewrite F1. cbn. exists (SQ n mx l). split; [eapply s_front; exact F2|].
    unfold refines. cbn [q_num q_max q_buckets q_last q_count s_num s_max s_items]. repeat (split; [assumption|]). split; [lia|].
    destruct F2 as (l1 & l2 & -> & _ & H1 & H2). apply Forall_app. split; [eapply Forall_impl; [|exact H1]; cbn; intros; lia|]. constructor; [cbn; lia|assumption].
  - exists (SQ n mx []). split; [constructor|]. unfold bq_clear. rewrite R1, R2. apply refines_fresh; (assumption || lia).
  - exists (SQ n' mx' []). split; [constructor|]. cbn in Ha. unfold bq_setNumBuckets. apply refines_fresh; tauto.
Qed.
End PROOFS.

(** Histories: a sequence of calls and their results *)
Fixpoint q_run {V} (q : bqueue V) (cs : list (bq_call V)) : bqueue V * list (option V) :=
  match cs with [] => (q, []) | c :: cs' => let '(q1, r) := bq_apply q c in let '(q2, rs) := q_run q1 cs' in (q2, r :: rs) end.
Inductive s_run {V} : squeue V -> list (bq_call V) -> squeue V -> list (option V) -> Prop :=
| sr_nil s : s_run s [] s []
| sr_cons s c s1 r cs s2 rs : s_call s c s1 r -> s_run s1 cs s2 rs -> s_run s (c :: cs) s2 (r :: rs).
(** All calls of a history are allowed in the specification state where they happen. *)
Fixpoint all_allowed {V} (s : squeue V) (cs : list (bq_call V)) : Prop :=
  match cs with [] => True | c :: cs' => allowed s c /\ forall s' r, s_call s c s' r -> all_allowed s' cs' end.

(** C37. Every history of calls on a queue behaves as the specification queue: front() returns the earliest
    pushed element of the lowest non-empty bucket, pop() removes exactly this element, and size() and
    empty() are exact. *)
Theorem C37_bucket_queue : forall (V : Type) n mx (cs : list (bq_call V)), 0 < n -> (0 < mx)%Q ->
  all_allowed (SQ n mx []) cs ->
  exists s, s_run (SQ n mx []) cs s (snd (q_run (bq_new n mx) cs)) /\
    bq_size (fst (q_run (bq_new n mx) cs)) = Z.of_nat (length (s_items s)) /\
    (bq_empty (fst (q_run (bq_new n mx) cs)) = true <-> s_items s = []).
Proof.
  intros V n mx cs Hn Hm. pose proof (@refines_fresh V n mx 0 Hn Hm ltac:(lia)) as R. fold (@bq_new V n mx) in R.
  generalize dependent (@bq_new V n mx). generalize (@SQ V n mx []).
  induction cs as [|c cs IH]; intros s q R Ha.
  - exists s. cbn. split; [constructor|]. destruct R as (_ & _ & _ & _ & _ & _ & _ & R8 & _). split; [assumption|]. unfold bq_empty. rewrite R8.
    destruct (s_items s); cbn; split; intros; try reflexivity; discriminate || lia.
  - cbn [all_allowed] in Ha. destruct Ha as [Ha Hr]. destruct (refine_call q s c R Ha) as (s1 & C1 & R1). cbn [q_run].
    destruct (bq_apply q c) as [q1 r] eqn:E. cbn [fst snd] in *. destruct (IH s1 q1 R1 (Hr _ _ C1)) as (s2 & C2 & Z2).
    destruct (q_run q1 cs) as [q2 rs]. cbn [fst snd] in *. exists s2. split; [econstructor; eassumption|assumption].
Qed.
(** What the specification removes is unique, so every pushed element leaves the queue exactly once. *)
Theorem C37_next_unique : forall (V : Type) (l : list (Z * V)) b v r b' v' r',
  is_next l b v r -> is_next l b' v' r' -> b = b' /\ v = v' /\ r = r'.
Proof.
  intros V l b v r b' v' r' (l1 & l2 & E & -> & H1 & H2) (l1' & l2' & E' & -> & H1' & H2').
  assert (Eb : b = b').
  { assert (A : In (b, v) l) by (rewrite E; apply in_elt). assert (B : In (b', v') l) by (rewrite E'; apply in_elt).
    rewrite E' in A. rewrite E in B. rewrite in_app_iff in A, B. cbn in A, B. rewrite Forall_forall in *.
    assert (b' <= b) by (destruct A as [A|[A|A]]; [specialize (H1' _ A); cbn in *; lia|injection A; intros; lia|specialize (H2' _ A); cbn in *; lia]).
    assert (b <= b') by (destruct B as [B|[B|B]]; [specialize (H1 _ B); cbn in *; lia|injection B; intros; lia|specialize (H2 _ B); cbn in *; lia]). lia. }
  subst b'. split; [reflexivity|]. rewrite E in E'. clear E H2 H2'. revert l1' H1' E'. induction l1 as [|x l1 IH]; intros [|x' l1'] H1' E'.
  - cbn in E'. injection E' as -> ->. auto.
  - exfalso. cbn in E'. injection E' as <- _. inversion H1'; subst. cbn in *. lia.
  - exfalso. cbn in E'. injection E' as -> _. inversion H1; subst. cbn in *. lia.
  - cbn in E'. injection E' as -> E'. apply Forall_inv_tail in H1. apply Forall_inv_tail in H1'. destruct (IH H1 l1' H1' E') as [-> Er]. split; [reflexivity|]. cbn. f_equal. exact Er.
Qed.
(** Keys are popped in order up to one bucket width: no key in an earlier bucket exceeds one in a later. *)
Theorem C37_keys_ordered : forall n mx k1 b1 k2 b2, 0 < n -> (0 < mx)%Q ->
  bucket_of_key n mx k1 b1 -> bucket_of_key n mx k2 b2 -> b1 < b2 -> (Qabs k1 < Qabs k2)%Q.
Proof.
  intros n mx k1 b1 k2 b2 Hn Hm (A1 & A2 & _) (B1 & _ & B3) Hb. specialize (A2 ltac:(lia)).
  assert (Hn1 : (0 < inject_Z (n - 1))%Q) by (change 0%Q with (inject_Z 0); rewrite <- Zlt_Qlt; lia).
  assert (L : (inject_Z (b1 + 1) * mx <= inject_Z b2 * mx)%Q) by (apply Qmult_le_compat_r; [rewrite <- Zle_Qle; lia|lra]).
  rewrite <- (Qmult_lt_r _ _ (inject_Z (n - 1)) Hn1). lra.
Qed.
Example C37_ex : let cs := [BPush (3 # 1) 1; BPush (1 # 1) 2; BPush (-1 # 1) 3; BFront; BPop; BFront; BPop; BPop; BPush (9 # 1) 4; BFront] in
  all_allowed (SQ 4 (3 # 1) []) cs /\ snd (q_run (bq_new 4 (3 # 1)) cs) = [None; None; None; Some 2; None; Some 3; None; None; None; Some 4].
Proof.
  cbv zeta. split; [|vm_compute; reflexivity].
  assert (N : forall (l : list (Z * Z)) b v r, is_next l b v r -> length l = S (length r)) by (intros *; apply next_length).
  repeat match goal with
  | |- all_allowed _ [] => exact I
  | |- all_allowed _ (_ :: _) => split; [first [exact I | cbn; intros ->; cbn in *; lia | cbn; discriminate | cbn; let E := fresh in intros E; apply app_eq_nil in E as [_ E]; discriminate]|]
  | |- forall s r, _ -> _ => let H := fresh in intros ? ? H; inversion H; subst; clear H;
       repeat match goal with H : is_next _ _ _ _ |- _ => apply N in H; rewrite ?app_length in H; cbn in H end
  end.
Qed.
(** front() on an empty queue reads out of bounds. *)
Theorem C37_front_empty_undefined : forall (V : Type) n mx, 0 < n -> (0 < mx)%Q -> snd (bq_front (@bq_new V n mx)) = None.
Proof.
  intros V n mx Hn Hm. unfold bq_front, bq_skip, bq_new, fresh_buckets. cbn [snd q_buckets q_num q_last].
  set (j := skip_empty _ _ _ _). rewrite nth_repeat. reflexivity.
Qed.

(** ** C38: the sparse vector behaves as an array of optional values *)
Section SPARSE_SPEC.
Context {V : Type} (dflt : V).
Definition array := list (option V).
Definition array_get (a : array) (i : nat) : option V := nth i a None.
Definition array_set (a : array) (i : nat) (v : V) : array := update_nth i (fun _ => Some v) a.
Definition array_count (a : array) : nat := length (filter (fun o => match o with Some _ => true | None => false end) a).
Inductive sv_op := SvSet (i : nat) (v : V) | SvTouch (i : nat).
Definition sv_idx (o : sv_op) : nat := match o with SvSet i _ | SvTouch i => i end.
Definition sv_apply (s : svec V) (o : sv_op) : svec V := match o with SvSet i v => sv_set dflt s i v | SvTouch i => sv_touch dflt s i end.
Definition array_apply (a : array) (o : sv_op) : array :=
  match o with SvSet i v => array_set a i v | SvTouch i => match array_get a i with Some _ => a | None => array_set a i dflt end end.

Definition is_some {B} (o : option B) : bool := match o with Some _ => true | None => false end.
Fixpoint somes (a : list (option V)) : list V := match a with [] => [] | Some v :: a' => v :: somes a' | None :: a' => somes a' end.
Definition sv_rel (s : svec V) (a : array) : Prop := sv_mask s = map is_some a /\ sv_vals s = somes a.
Lemma count_firstn a : forall i, count_true (firstn i (map is_some a)) = length (somes (firstn i a)).
Proof. induction a as [|o a IH]; intros [|i]; cbn; try reflexivity. destruct o; cbn; rewrite IH; reflexivity. Qed.
Lemma nth_somes a : forall i v, nth i a None = Some v -> nth (length (somes (firstn i a))) (somes a) dflt = v.
Proof.
  induction a as [|o a IH]; intros [|i] v H; cbn in *; try discriminate.
  - rewrite H. reflexivity.
  - destruct o; cbn; apply IH; assumption.
Qed.
Lemma set_somes_some a v : forall i w, nth i a None = Some w -> update_nth (length (somes (firstn i a))) (fun _ => v) (somes a) = somes (update_nth i (fun _ => Some v) a).
Proof.
  induction a as [|o a IH]; intros [|i] w H; cbn in *; try discriminate.
  - rewrite H. reflexivity.
  - destruct o; cbn; rewrite <- (IH i w H); reflexivity.
Qed.
Lemma set_somes_none a v : forall i, (i < length a)%nat -> nth i a None = None ->
  let k := length (somes (firstn i a)) in
  update_nth k (fun _ => v) (firstn k (somes a) ++ dflt :: skipn k (somes a)) = somes (update_nth i (fun _ => Some v) a).
Proof.
  cbv zeta. induction a as [|o a IH]; intros [|i] L H; cbn in *; try lia.
  - rewrite H. reflexivity.
  - destruct o; cbn; rewrite <- (IH i ltac:(lia) H); reflexivity.
Qed.
Lemma map_update a i v : map is_some (update_nth i (fun _ => Some v) a) = update_nth i (fun _ => true) (map (@is_some V) a).
Proof. revert i; induction a as [|o a IH]; intros [|i]; cbn; try reflexivity. rewrite IH. reflexivity. Qed.
Lemma map_update_same a : forall i w v, nth i a None = Some w -> map is_some (update_nth i (fun _ => Some v) a) = map (@is_some V) a.
Proof. induction a as [|o a IH]; intros [|i] w v H; cbn in *; try discriminate. { rewrite H. reflexivity. } rewrite (IH i w v H). reflexivity. Qed.
Lemma has_rel s a i : sv_rel s a -> sv_has s i = is_some (array_get a i).
Proof. intros [H _]. unfold sv_has. rewrite H. change false with (is_some (@None V)). apply map_nth. Qed.
Lemma set_rel s a i v : sv_rel s a -> (i < length a)%nat -> sv_rel (sv_set dflt s i v) (array_set a i v).
Proof.
  intros H Hi. pose proof (has_rel s a i H) as HH. destruct H as [H1 H2]. unfold sv_set, sparse_idx. rewrite HH, H1, H2, count_firstn. unfold array_get, array_set in *.
  destruct (nth i a None) as [w|] eqn:E; cbn [is_some].
  - split; cbn [sv_mask sv_vals]; [rewrite (map_update_same a i w v E); reflexivity|apply (set_somes_some a v i w E)].
  - split; cbn [sv_mask sv_vals]; [rewrite map_update; reflexivity|apply set_somes_none; assumption].
Qed.
Lemma apply_rel s a o : sv_rel s a -> (sv_idx o < length a)%nat -> sv_rel (sv_apply s o) (array_apply a o).
Proof.
  intros H Hi. destruct o as [i v|i]; cbn [sv_apply array_apply sv_idx] in *; [apply set_rel; assumption|].
  unfold sv_touch. rewrite (has_rel s a i H). destruct (array_get a i); cbn [is_some]; [assumption|]. apply set_rel; assumption.
Qed.
Lemma apply_length a o : length (array_apply a o) = length a.
Proof. destruct o as [i v|i]; cbn; unfold array_set; [apply update_length|]. destruct (array_get a i); [reflexivity|apply update_length]. Qed.
Definition sv_run (n : nat) (ops : list sv_op) : svec V := fold_left sv_apply ops (sv_new n).
Definition array_run (n : nat) (ops : list sv_op) : array := fold_left array_apply ops (repeat None n).
Lemma run_rel n ops : Forall (fun o => (sv_idx o < n)%nat) ops -> sv_rel (sv_run n ops) (array_run n ops).
Proof.
  unfold sv_run, array_run. assert (R : sv_rel (sv_new n) (repeat None n)).
  { unfold sv_rel, sv_new. cbn. split; [|induction n; auto]. induction n; cbn; congruence. }
  assert (L : length (repeat (@None V) n) = n) by apply repeat_length. generalize dependent (repeat (@None V) n). generalize (@sv_new V n).
  induction ops as [|o ops IH]; intros s a R L H; cbn; [assumption|]. inversion H; subst. apply IH; [apply apply_rel; assumption|rewrite apply_length; reflexivity|assumption].
Qed.
End SPARSE_SPEC.
(** After every sequence of writes (within the capacity), has / at / size agree with an array of optionals;
    cells never written read as the default value. *)
Theorem C38_sparse_vector : forall (V : Type) (dflt : V) n ops i, Forall (fun o => (sv_idx o < n)%nat) ops ->
  let s := sv_run dflt n ops in let a := array_run dflt n ops in
  sv_has s i = (match array_get a i with Some _ => true | None => false end) /\
  sv_at dflt s i = (match array_get a i with Some v => v | None => dflt end) /\
  sv_size s = array_count a.
Proof.
  intros V dflt n ops i H. cbv zeta. pose proof (run_rel dflt n ops H) as R. set (s := sv_run dflt n ops) in *. set (a := array_run dflt n ops) in *.
  pose proof (has_rel s a i R) as HH. split; [exact HH|]. destruct R as [R1 R2]. split.
  - unfold sv_at. rewrite HH. unfold sparse_idx. rewrite R1, R2, count_firstn. unfold array_get. destruct (nth i a None) as [v|] eqn:E; cbn [is_some]; [|reflexivity].
    apply nth_somes. assumption.
  - unfold sv_size, array_count. rewrite R1. clear. induction a as [|o a IH]; cbn; [reflexivity|]. destruct o; cbn; rewrite IH; reflexivity.
Qed.
Example C38_ex : let ops := [SvSet 5 50; SvSet 2 20; SvTouch 3; SvSet 5 51; SvSet 7 70] in
  Forall (fun o : @sv_op Z => (sv_idx o < 8)%nat) ops /\ sv_vals (sv_run 0 8 ops) = [20; 0; 51; 70] /\ map (sv_at 0 (sv_run 0 8 ops)) (seq 0 8) = [0; 0; 20; 0; 0; 51; 0; 70].
Proof. cbv zeta. split; [repeat constructor; cbn; lia|vm_compute; auto]. Qed.

Print Assumptions C37_bucket_queue.
Print Assumptions C37_next_unique.
Print Assumptions C37_keys_ordered.
Print Assumptions C38_sparse_vector.
