(** Facts about one wavelet tree, along paths of child indices (exact arithmetic). *)
From Verif Require Import Base M_IntMath F_IntMath M_Morton F_Morton M_NdtreeIndex F_NdtreeIndex
  M_Num F_Num M_Haar F_Haar M_Haar3 F_Haar3 M_Ndtree M_Wavelet.
From Coq Require Import QArith Qcanon Qcabs Lqa.
Close Scope Qc_scope.
Close Scope Q_scope.
Open Scope Z_scope.

Notation wnode := (node (det Qc)).

(** Child index selected by bit [j] of the three coordinates. *)
Definition cidx (p : idx3) (j : Z) : Z :=
  Z.b2z (Z.testbit (px p) j) + 2 * Z.b2z (Z.testbit (py p) j) + 4 * Z.b2z (Z.testbit (pz p) j).
(** The low [k] bits of the coordinates, most significant first. *)
Fixpoint path (k : nat) (p : idx3) : list Z :=
  match k with O => [] | S k' => cidx p (Z.of_nat k') :: path k' p end.
Definition valid_path (q : list Z) : Prop := Forall (fun c => 0 <= c < 8) q.

Lemma cidx_range p j : 0 <= cidx p j < 8.
Proof. unfold cidx. destruct (Z.testbit (px p) j), (Z.testbit (py p) j), (Z.testbit (pz p) j); cbn; lia. Qed.
Lemma path_valid k p : valid_path (path k p).
Proof. induction k as [|k IH]; constructor; [apply cidx_range|assumption]. Qed.
Lemma path_length k p : length (path k p) = k.
Proof. induction k; cbn; congruence. Qed.

Lemma rel_morton_cidx h p ph : 0 <= h < ph -> ph <= 21 ->
  relativeChildIndexFromMorton 3 (omorton (OI h p)) ph = cidx p (ph - 1 - h).
Proof.
  intros Hh Hp. unfold omorton, oni, ilist. cbn [oh opos].
  rewrite relative_child_morton by (reflexivity || lia).
  unfold computeRelativeChildIndex. cbn [position map].
  rewrite relative_child_from_rel0 by lia. cbn [rel0].
  rewrite !div_exp2_floor_spec by lia.
  assert (E : forall c, (c / 2 ^ (ph - 1 - h)) mod 2 = Z.b2z (Z.testbit c (ph - 1 - h))).
  { intros c. rewrite Z.testbit_spec' by lia. reflexivity. }
  rewrite !E. unfold cidx. lia.
Qed.

(** Value found by following a path of child indices. *)
Fixpoint eval (v : Qc) (n : wnode) (q : list Z) : Qc :=
  match q with
  | [] => v
  | c :: q' =>
      let v' := child_value v (ndata n) c in
      match getChild n c with None => v' | Some ch => eval v' ch q' end
  end.

Lemma get_loop_eval k : forall ph h p v n, 0 <= h -> ph - h = Z.of_nat k -> ph <= 21 ->
  get_loop qn k ph (omorton (OI h p)) v n = eval v n (path k p).
Proof.
  induction k as [|k IH]; intros ph h p v n Hh Hk Hp; cbn [get_loop path eval]; [reflexivity|].
  rewrite rel_morton_cidx by lia. replace (ph - 1 - h) with (Z.of_nat k) by lia.
  rewrite bsc_value by apply cidx_range.
  destruct (getChild n (cidx p (Z.of_nat k))); [|reflexivity].
  apply IH; lia.
Qed.

Lemma child_value_shift v d c x : child_value (v + x)%Qc d c = (child_value v d c + x)%Qc.
Proof. destruct d. unfold child_value. ring. Qed.
Lemma eval_shift q : forall v n x, eval (v + x)%Qc n q = (eval v n q + x)%Qc.
Proof.
  induction q as [|c q IH]; intros v n x; cbn [eval]; [reflexivity|].
  rewrite child_value_shift. destruct (getChild n c); [apply IH|reflexivity].
Qed.
Lemma eval_new q v : eval v (Node (dzero qn) None) q = v.
Proof. destruct q as [|c q]; cbn [eval]; [reflexivity|]. cbn [ndata getChild nkids]. apply child_value_zero. Qed.
Lemma eval_childOrNew q v n c :
  match getChild n c with None => v | Some ch => eval v ch q end = eval v (childOrNew (dzero qn) n c) q.
Proof. unfold childOrNew. destruct (getChild n c); [reflexivity|]. symmetry. apply eval_new. Qed.

Lemma getChild_setChild (n : wnode) c ch c' : 0 <= c' < 8 ->
  getChild (setChild n c ch) c' = if c' =? c then Some ch else getChild n c'.
Proof.
  intros H. unfold getChild, setChild. cbn [nkids]. rewrite oget_oset by assumption.
  destruct (c' =? c); [reflexivity|]. destruct (nkids n); [reflexivity|].
  rewrite oget_otab by assumption. reflexivity.
Qed.
Lemma getChild_data (n : wnode) d c : getChild (Node d (nkids n)) c = getChild n c.
Proof. reflexivity. Qed.

(** Update along a path. *)
Fixpoint upd_path (q : list Z) (c : Z) (inc : Qc -> Qc) (v : Qc) (n : wnode) : wnode * Qc :=
  match q with
  | [] => let '(s, d) := forwardSingleChild3 qn (inc v) c in (Node (dadd qn (ndata n) d) (nkids n), s)
  | c' :: q' =>
      let '(ch', x) := upd_path q' c' inc (child_value v (ndata n) c) (childOrNew (dzero qn) n c) in
      let '(s, d) := forwardSingleChild3 qn x c in
      (Node (dadd qn (ndata n) d) (nkids (setChild n c ch')), s)
  end.
Lemma update_loop_path k : forall ph h p inc v n, 0 <= h -> ph - h = Z.of_nat (S k) -> ph <= 21 ->
  update_loop qn k ph (omorton (OI h p)) inc v n = upd_path (path k p) (cidx p (Z.of_nat k)) inc v n.
Proof.
  induction k as [|k IH]; intros ph h p inc v n Hh Hk Hp; cbn [update_loop path upd_path];
    rewrite rel_morton_cidx by lia.
  - replace (ph - 1 - h) with (Z.of_nat 0) by lia. reflexivity.
  - replace (ph - 1 - h) with (Z.of_nat (S k)) by lia.
    rewrite bsc_value by apply cidx_range. rewrite IH by lia.
    destruct (upd_path _ _ _ _ _) as [ch x].
    destruct (forwardSingleChild3 qn x _). reflexivity.
Qed.

Definition q8pow (k : nat) : Qc := Qcpower q2 (3 * k).
Lemma q8pow_S k : q8pow (S k) = (Qcpower q2 3 * q8pow k)%Qc.
Proof.
  unfold q8pow. replace (3 * S k)%nat with (3 + 3 * k)%nat by lia. cbn [Nat.add Qcpower]. ring.
Qed.
Lemma q2pow_neq0 k : Qcpower q2 k <> 0%Qc.
Proof. induction k; cbn [Qcpower]; [discriminate|]. intros H. apply Qcmult_integral in H as [H|H]; [discriminate H|contradiction]. Qed.
Lemma q8pow_neq0 k : q8pow k <> 0%Qc.
Proof. apply q2pow_neq0. Qed.

(** Effect on the value at [q] of adding [x] to the node at [p]. *)
Fixpoint contrib (p q : list Z) (x : Qc) : Qc :=
  match p, q with
  | [], _ => x
  | _ :: _, [] => (x / q8pow (length p))%Qc
  | c :: p', c' :: q' => if c' =? c then contrib p' q' x else 0%Qc
  end.

(** The value the first loop of setCellValue compares with: that of the parent. *)
Fixpoint parent_value (v : Qc) (n : wnode) (c : Z) (q : list Z) : Qc :=
  match q with
  | [] => v
  | c' :: q' => parent_value (child_value v (ndata n) c) (childOrNew (dzero qn) n c) c' q'
  end.
Lemma parent_value_eval q : forall v n c, parent_value v n c q = eval v n (removelast (c :: q)).
Proof.
  induction q as [|c' q IH]; intros v n c; cbn [parent_value]; [reflexivity|].
  rewrite IH. change (removelast (c :: c' :: q)) with (c :: removelast (c' :: q)).
  cbn [eval]. rewrite eval_childOrNew. reflexivity.
Qed.

Lemma upd_path_spec q : forall c inc v n, 0 <= c < 8 -> valid_path q ->
  let x := inc (parent_value v n c q) in
  snd (upd_path q c inc v n) = (x / q8pow (S (length q)))%Qc /\
  forall r, valid_path r ->
    eval (v + snd (upd_path q c inc v n))%Qc (fst (upd_path q c inc v n)) r = (eval v n r + contrib (c :: q) r x)%Qc.
Proof.
  induction q as [|c' q IH]; intros c inc v n Hc Hq; cbn [upd_path parent_value].
  - pose proof (fsc_scale (inc v) c Hc) as Hs.
    pose proof (fun c' Hc' => child_value_fsc v (ndata n) (inc v) c c' Hc Hc') as Hcv.
    destruct (forwardSingleChild3 qn (inc v) c) as [s d]. cbn [fst snd] in *.
    split; [rewrite Hs; reflexivity|].
    intros r Hr. destruct r as [|c2 r]; cbn [eval contrib].
    + rewrite Hs. reflexivity.
    + inversion Hr; subst. cbn [ndata]. rewrite Hcv by assumption. rewrite getChild_data.
      destruct (Z.eqb_spec c2 c) as [->|Hne].
      * destruct (getChild n c); [apply eval_shift|reflexivity].
      * rewrite !Qcplus_0_r. destruct (getChild n c2); reflexivity.
  - inversion Hq; subst.
    specialize (IH c' inc (child_value v (ndata n) c) (childOrNew (dzero qn) n c) ltac:(assumption) ltac:(assumption)).
    cbv zeta in IH. destruct IH as [IHs IHe].
    destruct (upd_path q c' inc _ _) as [ch y] eqn:E. cbn [fst snd] in *.
    set (x := inc (parent_value (child_value v (ndata n) c) (childOrNew (dzero qn) n c) c' q)) in *.
    pose proof (fsc_scale y c Hc) as Hs.
    pose proof (fun c' Hc' => child_value_fsc v (ndata n) y c c' Hc Hc') as Hcv.
    destruct (forwardSingleChild3 qn y c) as [s d]. cbn [fst snd] in *.
    split.
    + rewrite Hs, IHs. cbn [length]. rewrite (q8pow_S (S (length q))).
      field. split; first [apply q8pow_neq0|apply q2pow_neq0].
    + intros r Hr. destruct r as [|c2 r]; cbn [eval contrib].
      * rewrite Hs, IHs. f_equal. cbn [length]. rewrite (q8pow_S (S (length q))).
        field. split; first [apply q8pow_neq0|apply q2pow_neq0].
      * inversion Hr; subst. cbn [ndata]. rewrite Hcv by assumption.
        change (getChild (Node (dadd qn (ndata n) d) (nkids (setChild n c ch))) c2) with (getChild (setChild n c ch) c2).
        rewrite getChild_setChild by assumption.
        destruct (Z.eqb_spec c2 c) as [->|Hne].
        -- rewrite IHe by assumption. rewrite <- eval_childOrNew. reflexivity.
        -- rewrite !Qcplus_0_r. destruct (getChild n c2); reflexivity.
Qed.

(** ** Well-formed height: a node of height [k] has children of height [k-1]; height 0 has no node. *)
Fixpoint height_ok (k : nat) (n : wnode) : Prop :=
  match k with
  | O => False
  | S k' => forall c, 0 <= c < 8 -> match getChild n c with None => True | Some ch => height_ok k' ch end
  end.
Lemma height_ok_new k : height_ok (S k) (Node (dzero qn) None).
Proof. intros c Hc. exact I. Qed.
Lemma height_ok_childOrNew k n c : height_ok (S (S k)) n -> 0 <= c < 8 -> height_ok (S k) (childOrNew (dzero qn) n c).
Proof.
  intros H Hc. specialize (H c Hc). unfold childOrNew. destruct (getChild n c); [assumption|].
  apply height_ok_new.
Qed.
Lemma upd_path_height q : forall k c inc v n, 0 <= c < 8 -> valid_path q -> (length q < k)%nat ->
  height_ok k n -> height_ok k (fst (upd_path q c inc v n)).
Proof.
  induction q as [|c' q IH]; intros k c inc v n Hc Hq Hk Hn; cbn [upd_path].
  - destruct (forwardSingleChild3 qn (inc v) c). cbn [fst]. destruct k; [contradiction|]. exact Hn.
  - inversion Hq; subst. cbn [length] in Hk. destruct k as [|k]; [lia|]. destruct k as [|k]; [lia|].
    specialize (IH (S k) c' inc (child_value v (ndata n) c) (childOrNew (dzero qn) n c)
      ltac:(assumption) ltac:(assumption) ltac:(lia) (height_ok_childOrNew k n c Hn Hc)).
    destruct (upd_path q c' inc _ _) as [ch y]. destruct (forwardSingleChild3 qn y c). cbn [fst] in *.
    intros c2 Hc2.
    change (getChild (Node (dadd qn (ndata n) d) (nkids (setChild n c ch))) c2) with (getChild (setChild n c ch) c2).
    rewrite getChild_setChild by assumption. destruct (c2 =? c); [assumption|]. apply Hn; assumption.
Qed.

(** ** Averages *)
Lemma eval_app q : forall v n c, valid_path q -> 0 <= c < 8 ->
  exists v' d, (forall x, 0 <= x < 8 -> eval v n (q ++ [x]) = child_value v' d x) /\ eval v n q = v'.
Proof.
  induction q as [|c0 q IH]; intros v n c Hq Hc.
  - exists v, (ndata n). split; [|reflexivity]. intros x Hx. cbn [app eval]. destruct (getChild n x); reflexivity.
  - inversion Hq; subst. cbn [app eval]. destruct (getChild n c0) as [ch|].
    + apply (IH _ ch c); assumption.
    + exists (child_value v (ndata n) c0), (dzero qn). split; [|reflexivity].
      intros x Hx. symmetry. apply child_value_zero.
Qed.
Definition sum8 (f : Z -> Qc) : Qc := (f 0%Z + f 1%Z + f 2%Z + f 3%Z + f 4%Z + f 5%Z + f 6%Z + f 7%Z)%Qc.
Lemma sum8_ext f g : (forall c, 0 <= c < 8 -> f c = g c) -> sum8 f = sum8 g.
Proof. intros H. unfold sum8. rewrite !H by lia. reflexivity. Qed.
Lemma eval_mean q v n : valid_path q ->
  sum8 (fun c => eval v n (q ++ [c])) = (Qcpower q2 3 * eval v n q)%Qc.
Proof.
  intros Hq. destruct (eval_app q v n 0 Hq ltac:(lia)) as (v' & d & H1 & H2).
  unfold sum8. rewrite !H1 by lia. rewrite H2. apply child_value_mean.
Qed.
