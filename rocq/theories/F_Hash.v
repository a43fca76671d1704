(** Facts about the spatial hash. *)
From Verif Require Import Base M_IntMath M_NdtreeIndex M_Ndtree.

Lemma ieqb_iff a b : ieqb a b = true <-> a = b.
Proof.
  destruct a as [a1 a2 a3], b as [b1 b2 b3]. unfold ieqb. cbn [px py pz]. rewrite !andb_true_iff, !Z.eqb_eq. split.
  - intros [[-> ->] ->]. reflexivity.
  - intros H. injection H. auto.
Qed.
Lemma ieqb_refl a : ieqb a a = true.
Proof. apply ieqb_iff. reflexivity. Qed.
Lemma ieqb_spec a b : reflect (a = b) (ieqb a b).
Proof. apply iff_reflect. symmetry. apply ieqb_iff. Qed.
Lemma ieqb_sym a b : ieqb a b = ieqb b a.
Proof. destruct (ieqb_spec a b) as [E1|E1], (ieqb_spec b a) as [E2|E2]; congruence. Qed.
Lemma idx3_eq_dec (a b : idx3) : {a = b} + {a <> b}.
Proof. destruct (ieqb a b) eqn:E; [left; apply ieqb_iff; assumption|right; intros H; apply ieqb_iff in H; congruence]. Qed.

Section Hash.
Context {B : Type}.
Implicit Types (m : shash B) (i j : idx3) (b : B).
Definition keys m : list idx3 := map fst m.
Definition hwf m : Prop := NoDup (keys m).

Lemma getBlock_In m i b : getBlock m i = Some b -> In (i, b) m.
Proof.
  induction m as [|[k c] m IH]; cbn [getBlock]; [discriminate|].
  destruct (ieqb_spec k i) as [->|]; [intros H; injection H as ->; left; reflexivity|right; auto].
Qed.
Lemma getBlock_keys m i : getBlock m i <> None <-> In i (keys m).
Proof.
  induction m as [|[k c] m IH]; cbn [getBlock keys map fst In]; [tauto|].
  destruct (ieqb_spec k i) as [->|Hne]; [split; [auto|intros _; discriminate]|].
  rewrite IH. unfold keys. tauto.
Qed.
Lemma getBlock_None m i : getBlock m i = None <-> ~ In i (keys m).
Proof. rewrite <- getBlock_keys. destruct (getBlock m i); split; try tauto; try discriminate. intros H. exfalso. apply H. discriminate. Qed.
Lemma In_getBlock m i b : hwf m -> In (i, b) m -> getBlock m i = Some b.
Proof.
  induction m as [|[k c] m IH]; cbn [getBlock In]; [tauto|]. intros Hw [H|H].
  - injection H as -> ->. rewrite ieqb_refl. reflexivity.
  - inversion Hw; subst. destruct (ieqb_spec k i) as [->|]; [|auto].
    exfalso. apply H2. apply in_map_iff. exists (i, b). auto.
Qed.
Lemma hasBlock_keys m i : hasBlock m i = true <-> In i (keys m).
Proof. unfold hasBlock. rewrite <- getBlock_keys. destruct (getBlock m i); split; congruence. Qed.

Lemma getBlock_setBlock m i b j : getBlock (setBlock m i b) j = if ieqb i j then Some b else getBlock m j.
Proof.
  induction m as [|[k c] m IH]; cbn [setBlock getBlock]; [reflexivity|].
  destruct (ieqb_spec k i) as [->|Hne]; cbn [getBlock].
  - destruct (ieqb i j); reflexivity.
  - rewrite IH. destruct (ieqb_spec k j) as [->|]; [|reflexivity].
    destruct (ieqb_spec i j); [congruence|reflexivity].
Qed.
Lemma setBlock_keys m i b j : In j (keys (setBlock m i b)) <-> j = i \/ In j (keys m).
Proof.
  rewrite <- !getBlock_keys, getBlock_setBlock. destruct (ieqb_spec i j) as [->|H]; [split; [auto|discriminate]|].
  intuition congruence.
Qed.
Lemma setBlock_wf m i b : hwf m -> hwf (setBlock m i b).
Proof.
  unfold hwf. induction m as [|[k c] m IH]; cbn [setBlock keys map fst]; intros H.
  - repeat constructor; auto.
  - inversion H; subst. destruct (ieqb_spec k i) as [->|Hne]; cbn [map fst].
    + constructor; assumption.
    + constructor; [|apply IH; assumption]. rewrite (setBlock_keys m i b k : In k (map fst _) <-> _).
      intros [?|?]; [congruence|contradiction].
Qed.

Lemma filter_keys f m j : In j (keys (filter f m)) -> In j (keys m).
Proof. unfold keys. rewrite !in_map_iff. intros ([k c] & E & H). apply filter_In in H. exists (k, c). tauto. Qed.
Lemma filter_wf f m : hwf m -> hwf (filter f m).
Proof.
  unfold hwf. induction m as [|[k c] m IH]; cbn [filter keys map fst]; intros H; [constructor|].
  inversion H; subst. destruct (f (k, c)); cbn [map fst]; [|auto]. constructor; [|auto].
  intros Hin. apply H2. apply (filter_keys f m k Hin).
Qed.
Lemma getBlock_eraseBlock m i j : getBlock (fst (eraseBlock m i)) j = if ieqb i j then None else getBlock m j.
Proof.
  unfold eraseBlock. cbn [fst]. induction m as [|[k c] m IH]; cbn [filter getBlock fst]; [destruct (ieqb i j); reflexivity|].
  destruct (ieqb_spec k i) as [->|Hne]; cbn [negb getBlock].
  - rewrite IH. destruct (ieqb i j); reflexivity.
  - rewrite IH. destruct (ieqb_spec k j) as [->|]; [|reflexivity].
    destruct (ieqb_spec i j); [congruence|reflexivity].
Qed.
Lemma eraseBlockIf_keys f m j : In j (keys (eraseBlockIf f m)) -> In j (keys m).
Proof.
  induction m as [|[k c] m IH]; cbn [eraseBlockIf]; [auto|]. destruct (f k c) as [c' e].
  destruct e; cbn [keys map fst In]; intros H; [right; apply IH; exact H|]. destruct H; [auto|right; apply IH; exact H].
Qed.
Lemma eraseBlockIf_wf f m : hwf m -> hwf (eraseBlockIf f m).
Proof.
  unfold hwf. induction m as [|[k c] m IH]; cbn [eraseBlockIf keys map fst]; intros H; [constructor|].
  inversion H; subst. destruct (f k c) as [c' e]. destruct e; [auto|]. cbn [map fst]. constructor; [|auto].
  intros Hin. apply H2. apply (eraseBlockIf_keys f m k Hin).
Qed.
Lemma getBlock_eraseBlockIf f m j : hwf m ->
  getBlock (eraseBlockIf f m) j =
  match getBlock m j with None => None | Some b => if snd (f j b) then None else Some (fst (f j b)) end.
Proof.
  induction m as [|[k c] m IH]; cbn [eraseBlockIf getBlock]; intros H; [reflexivity|].
  inversion H; subst. specialize (IH H3). destruct (f k c) as [c' e] eqn:E.
  destruct (ieqb_spec k j) as [->|Hne].
  - rewrite E. cbn [fst snd]. destruct e.
    + rewrite IH. apply getBlock_None in H2. rewrite H2. reflexivity.
    + cbn [getBlock]. rewrite ieqb_refl. reflexivity.
  - destruct e; [exact IH|]. cbn [getBlock]. destruct (ieqb_spec k j); [contradiction|exact IH].
Qed.
Lemma forEachBlock_keys f m : keys (forEachBlock f m) = keys m.
Proof. unfold keys, forEachBlock. rewrite map_map. reflexivity. Qed.
Lemma forEachBlock_wf f m : hwf m -> hwf (forEachBlock f m).
Proof. unfold hwf. rewrite forEachBlock_keys. auto. Qed.
Lemma getBlock_forEachBlock f m j : getBlock (forEachBlock f m) j = option_map (f j) (getBlock m j).
Proof.
  induction m as [|[k c] m IH]; cbn [forEachBlock map getBlock fst snd]; [reflexivity|].
  destruct (ieqb_spec k j) as [->|]; [reflexivity|exact IH].
Qed.

(** Componentwise bounds *)
Definition ile (a b : idx3) : Prop := px a <= px b /\ py a <= py b /\ pz a <= pz b.
Definition in_i32 (a : idx3) : Prop :=
  (int_min <= px a <= int_max) /\ (int_min <= py a <= int_max) /\ (int_min <= pz a <= int_max).
Definition get_axes : list (idx3 -> Z) := [px; py; pz].

Lemma fold_min_axis (ax : idx3 -> Z) m : (forall a b : idx3, ax (imap2 Z.min a b) = Z.min (ax a) (ax b)) ->
  forall acc, let r := ax (fold_left (fun acc (kb : idx3 * B) => imap2 Z.min acc (fst kb)) m acc) in
  r <= ax acc /\ (forall k, In k (keys m) -> r <= ax k) /\ (r = ax acc \/ exists k, In k (keys m) /\ r = ax k).
Proof.
  intros Hax. induction m as [|[k c] m IH]; intros acc; cbn [fold_left keys map fst In].
  - repeat split; [lia|tauto|auto].
  - specialize (IH (imap2 Z.min acc k)). cbv zeta in *. rewrite Hax in IH. destruct IH as (H1 & H2 & H3).
    split; [lia|]. split.
    + intros j [<-|Hj]; [lia|apply H2; assumption].
    + destruct H3 as [H3|(j & Hj & H3)]; [|right; exists j; auto].
      destruct (Z.min_spec (ax acc) (ax k)) as [[_ E]|[_ E]]; rewrite E in H3; [auto|right; exists k; auto].
Qed.
Lemma fold_max_axis (ax : idx3 -> Z) m : (forall a b : idx3, ax (imap2 Z.max a b) = Z.max (ax a) (ax b)) ->
  forall acc, let r := ax (fold_left (fun acc (kb : idx3 * B) => imap2 Z.max acc (fst kb)) m acc) in
  ax acc <= r /\ (forall k, In k (keys m) -> ax k <= r) /\ (r = ax acc \/ exists k, In k (keys m) /\ r = ax k).
Proof.
  intros Hax. induction m as [|[k c] m IH]; intros acc; cbn [fold_left keys map fst In].
  - repeat split; [lia|tauto|auto].
  - specialize (IH (imap2 Z.max acc k)). cbv zeta in *. rewrite Hax in IH. destruct IH as (H1 & H2 & H3).
    split; [lia|]. split.
    + intros j [<-|Hj]; [lia|apply H2; assumption].
    + destruct H3 as [H3|(j & Hj & H3)]; [|right; exists j; auto].
      destruct (Z.max_spec (ax acc) (ax k)) as [[_ E]|[_ E]]; rewrite E in H3; [right; exists k; auto|auto].
Qed.

Lemma getMinBlockIndex_spec m : m <> [] -> (forall k, In k (keys m) -> in_i32 k) ->
  (forall k, In k (keys m) -> ile (getMinBlockIndex m) k) /\
  (forall ax, In ax get_axes -> exists k, In k (keys m) /\ ax (getMinBlockIndex m) = ax k).
Proof.
  intros Hne Hr.
  assert (E : getMinBlockIndex m = fold_left (fun acc (kb : idx3 * B) => imap2 Z.min acc (fst kb)) m (I3 int_max int_max int_max))
    by (destruct m; [congruence|reflexivity]).
  rewrite E. split.
  - intros k Hk. unfold ile. repeat split.
    + apply (fold_min_axis px m ltac:(reflexivity)). assumption.
    + apply (fold_min_axis py m ltac:(reflexivity)). assumption.
    + apply (fold_min_axis pz m ltac:(reflexivity)). assumption.
  - assert (X : forall ax, (forall a b : idx3, ax (imap2 Z.min a b) = Z.min (ax a) (ax b)) ->
       ax (I3 int_max int_max int_max) = int_max -> (forall k, In k (keys m) -> ax k <= int_max) ->
       exists k, In k (keys m) /\ ax (fold_left (fun acc (kb : idx3 * B) => imap2 Z.min acc (fst kb)) m (I3 int_max int_max int_max)) = ax k).
    { intros ax Hax Ha Hk. destruct (fold_min_axis ax m Hax (I3 int_max int_max int_max)) as (H1 & H2 & [H3|H3]); [|exact H3].
      destruct m as [|[k c] m']; [congruence|]. exists k. split; [left; reflexivity|].
      specialize (H2 k (or_introl eq_refl)). specialize (Hk k (or_introl eq_refl)). lia. }
    intros ax [<-|[<-|[<-|[]]]]; (apply X; [reflexivity|reflexivity|intros k Hk; apply Hr in Hk; unfold in_i32 in Hk; lia]).
Qed.
Lemma getMaxBlockIndex_spec m : m <> [] -> (forall k, In k (keys m) -> in_i32 k) ->
  (forall k, In k (keys m) -> ile k (getMaxBlockIndex m)) /\
  (forall ax, In ax get_axes -> exists k, In k (keys m) /\ ax (getMaxBlockIndex m) = ax k).
Proof.
  intros Hne Hr.
  assert (E : getMaxBlockIndex m = fold_left (fun acc (kb : idx3 * B) => imap2 Z.max acc (fst kb)) m (I3 int_min int_min int_min))
    by (destruct m; [congruence|reflexivity]).
  rewrite E. split.
  - intros k Hk. unfold ile. repeat split.
    + apply (fold_max_axis px m ltac:(reflexivity)). assumption.
    + apply (fold_max_axis py m ltac:(reflexivity)). assumption.
    + apply (fold_max_axis pz m ltac:(reflexivity)). assumption.
  - assert (X : forall ax, (forall a b : idx3, ax (imap2 Z.max a b) = Z.max (ax a) (ax b)) ->
       ax (I3 int_min int_min int_min) = int_min -> (forall k, In k (keys m) -> int_min <= ax k) ->
       exists k, In k (keys m) /\ ax (fold_left (fun acc (kb : idx3 * B) => imap2 Z.max acc (fst kb)) m (I3 int_min int_min int_min)) = ax k).
    { intros ax Hax Ha Hk. destruct (fold_max_axis ax m Hax (I3 int_min int_min int_min)) as (H1 & H2 & [H3|H3]); [|exact H3].
      destruct m as [|[k c] m']; [congruence|]. exists k. split; [left; reflexivity|].
      specialize (H2 k (or_introl eq_refl)). specialize (Hk k (or_introl eq_refl)). lia. }
    intros ax [<-|[<-|[<-|[]]]]; (apply X; [reflexivity|reflexivity|intros k Hk; apply Hr in Hk; unfold in_i32 in Hk; lia]).
Qed.
End Hash.
