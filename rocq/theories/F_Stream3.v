(** Loading what was saved, and loading arbitrary bytes (M_Stream.v) *)
From Verif Require Import Base M_IntMath F_IntMath M_NdtreeIndex M_Num M_Haar M_Haar3 F_Haar3 M_Ndtree F_Hash M_Wavelet
  M_HashedBlocks M_Chunked M_Subtree F_Wavelet F_Wavelet2 M_Octree F_Octree P_Subtree M_Stream F_Stream F_Stream2.

Lemma setBlock_new {B} (m : shash B) i b : ~ In i (keys m) -> setBlock m i b = m ++ [(i, b)].
Proof.
  induction m as [|[k c] m IH]; intros H; [reflexivity|]. cbn [setBlock keys map fst In] in *. destruct (ieqb_spec k i) as [->|]; [exfalso; apply H; left; reflexivity|].
  cbn [app]. rewrite IH; [reflexivity|]. intros K. apply H. right. exact K.
Qed.
Lemma keys_app {B} (a b : shash B) : keys (a ++ b) = keys a ++ keys b.
Proof. apply map_app. Qed.
Lemma NoDup_app_l {A} (a b : list A) : NoDup (a ++ b) -> NoDup a.
Proof. induction a as [|x a IH]; intros H; [constructor|]. cbn in H. apply NoDup_cons_iff in H. destruct H as [H1 H2]. constructor; [|apply IH; exact H2]. intros K. apply H1. apply in_or_app. left. exact K. Qed.

Lemma filter_length_le {A} (f : A -> bool) l : (length (filter f l) <= length l)%nat.
Proof. induction l as [|a l IH]; [reflexivity|]. cbn [filter length]. destruct (f a); cbn [length]; lia. Qed.
(** ** Bytes consumed *)
Definition eats (k : nat) {A} (f : istream -> A * istream) : Prop := forall s,
  (length (irest (snd (f s))) <= length (irest s))%nat /\
  (igood (snd (f s)) = true -> igood s = true /\ (length (irest (snd (f s))) + k = length (irest s))%nat).
Lemma eats_iread n init : eats n (iread n init).
Proof.
  intros s. unfold iread. destruct (igood s) eqn:G; [|cbn [snd]; rewrite G; split; [lia|discriminate]].
  destruct (Nat.leb_spec n (length (irest s))) as [L|L]; cbn [snd irest igood].
  - rewrite skipn_length. split; [lia|]. intros _. split; [reflexivity|lia].
  - split; [cbn; lia|discriminate].
Qed.
Lemma eats_ret {A} (a : A) : eats 0 (fun s => (a, s)).
Proof. intros s. cbn [snd]. split; [lia|]. intros H. split; [exact H|lia]. Qed.
Lemma eats_bind {A B} k l (f : istream -> A * istream) (g : A -> istream -> B * istream) : eats k f -> (forall a, eats l (g a)) ->
  eats (k + l) (fun s => let '(a, s1) := f s in g a s1).
Proof.
  intros F G s. specialize (F s). destruct (f s) as [a s1]. cbn [snd] in F. specialize (G a s1). destruct F as [F1 F2], G as [G1 G2].
  split; [lia|]. intros H. destruct (G2 H) as [G3 G4]. destruct (F2 G3) as [F3 F4]. split; [exact F3|lia].
Qed.
Lemma eats_map {A B} k (f : istream -> A * istream) (g : A -> B) : eats k f -> eats k (fun s => let '(a, s1) := f s in (g a, s1)).
Proof. intros F. rewrite <- (Nat.add_0_r k). apply (eats_bind k 0 f (fun a s => (g a, s)) F). intros a. apply eats_ret. Qed.
Lemma eats_i32 : eats 4 r_i32. Proof. apply (eats_map 4 (iread 4 _) (fun b => i32 (le_value b))). apply eats_iread. Qed.
Lemma eats_u8 : eats 1 r_u8. Proof. apply (eats_map 1 (iread 1 _) le_value). apply eats_iread. Qed.
Lemma eats_u64 : eats 8 r_u64. Proof. apply (eats_map 8 (iread 8 _) le_value). apply eats_iread. Qed.
Lemma eats_format : eats 4 r_format. Proof. apply (eats_map 4 (iread 4 _) (fun b => i32 (le_value b))). apply eats_iread. Qed.
Lemma eats_index : eats 12 r_index.
Proof.
  apply (eats_bind 4 8 r_i32 (fun x s1 => let '(y, s2) := r_i32 s1 in let '(z, s3) := r_i32 s2 in (I3 x y z, s3)) eats_i32). intros x.
  apply (eats_bind 4 4 r_i32 (fun y s2 => let '(z, s3) := r_i32 s2 in (I3 x y z, s3)) eats_i32). intros y.
  apply (eats_map 4 r_i32 (fun z => I3 x y z)). exact eats_i32.
Qed.
Lemma r_u8_failed s : igood (snd (r_u8 s)) = false -> fst (r_u8 s) = 0.
Proof.
  unfold r_u8, iread. destruct (igood s) eqn:G; [|reflexivity]. destruct (irest s) as [|b r]; [reflexivity|].
  cbn [length Nat.leb]. cbn [snd igood]. discriminate.
Qed.

Section FS3.
Context {V : Type} (N : num V) (enc : V -> Z) (dec : Z -> V).
Notation wnode := (node (det V)).
Notation r_f32 := (r_f32 dec). Notation w_f32 := (w_f32 enc).
Notation r_node := (r_node dec). Notation w_node := (w_node enc).
Notation faithful := (faithful enc dec). Notation nfaith := (nfaith enc dec).
Notation ser := (ser enc).
Notation wconf := (wconfig (V := V)).
Notation hmap := (hmap (V := V)).
Notation fresh := (Node (dzero N) None : wnode).
Notation r_tree := (r_tree N dec).

Lemma eats_f32 : eats 4 r_f32. Proof. apply (eats_map 4 (iread 4 _) (fun b => dec (le_value b))). apply eats_iread. Qed.
Lemma eats_node : eats 29 r_node.
Proof.
  unfold M_Stream.r_node. apply (eats_bind 4 25 r_f32); [exact eats_f32|intros d1]. apply (eats_bind 4 21 r_f32); [exact eats_f32|intros d2].
  apply (eats_bind 4 17 r_f32); [exact eats_f32|intros d3]. apply (eats_bind 4 13 r_f32); [exact eats_f32|intros d4].
  apply (eats_bind 4 9 r_f32); [exact eats_f32|intros d5]. apply (eats_bind 4 5 r_f32); [exact eats_f32|intros d6].
  apply (eats_bind 4 1 r_f32); [exact eats_f32|intros d7]. apply (eats_map 1 r_u8 (fun b => (Det d1 d2 d3 d4 d5 d6 d7, b))). exact eats_u8.
Qed.
Lemma r_node_failed s : igood (snd (r_node s)) = false -> snd (fst (r_node s)) = 0.
Proof.
  unfold M_Stream.r_node. destruct (r_f32 s) as [d1 s1]. destruct (r_f32 s1) as [d2 s2]. destruct (r_f32 s2) as [d3 s3]. destruct (r_f32 s3) as [d4 s4].
  destruct (r_f32 s4) as [d5 s5]. destruct (r_f32 s5) as [d6 s6]. destruct (r_f32 s6) as [d7 s7].
  pose proof (r_u8_failed s7) as H. destruct (r_u8 s7) as [b s8]. exact H.
Qed.
Lemma r_kids_length bits : (length (r_kids bits) <= 8)%nat.
Proof. unfold r_kids. change 8%nat with (length (rev child_ids)). apply filter_length_le. Qed.
Lemma r_stack_length q bits st : (length (r_stack q bits st) = length (r_kids bits) + length st)%nat.
Proof.
  unfold r_stack. revert st. induction (r_kids bits) as [|c l IH]; intros st; [reflexivity|]. cbn [fold_left]. rewrite IH. cbn [length]. lia.
Qed.
Lemma r_kids_0 : r_kids 0 = [].
Proof. reflexivity. Qed.
Lemma r_tree_total fuel : forall st root s, (length st + 8 * length (irest s) <= fuel)%nat ->
  exists t s', r_tree fuel st root s = Some (t, s') /\ (length (irest s') <= length (irest s))%nat /\ (igood s' = true -> igood s = true).
Proof.
  induction fuel as [|fuel IH]; intros [|q st] root s H.
  - exists root, s. repeat split; auto.
  - cbn [length] in H. lia.
  - exists root, s. repeat split; auto.
  - rewrite r_tree_S. pose proof (eats_node s) as [E1 E2]. pose proof (r_node_failed s) as F. destruct (r_node s) as [[d bits] s1]. cbn [fst snd] in *.
    destruct (IH (r_stack q bits st) (r_root N q d bits root) s1) as (t & s' & K1 & K2 & K3).
    + rewrite r_stack_length. cbn [length] in H. destruct (igood s1) eqn:G.
      * destruct (E2 eq_refl) as [_ E3]. pose proof (r_kids_length bits). lia.
      * rewrite (F eq_refl), r_kids_0. cbn [length]. lia.
    + exists t, s'. split; [exact K1|]. split; [lia|]. intros G. destruct (E2 (K3 G)) as [E3 _]. exact E3.
Qed.
Lemma eats_cells n : eats (4 * n) (r_cells dec n).
Proof.
  induction n as [|n IH]; cbn [r_cells]; [apply eats_ret|]. replace (4 * S n)%nat with (4 + 4 * n)%nat by lia.
  apply (eats_bind 4 (4 * n) r_f32); [exact eats_f32|intros v]. apply (eats_map (4 * n) (r_cells dec n) (fun l => v :: l)). exact IH.
Qed.
Lemma hb_blocks_total C fuel : forall num m s, ((if igood s then 2 + length (irest s) else 1) <= fuel)%nat -> hb_load_blocks dec fuel C num m s <> None.
Proof.
  induction fuel as [|fuel IH]; intros num m s H; [destruct (igood s); lia|]. cbn [hb_load_blocks]. destruct (num <=? 0); [discriminate|].
  destruct (igood s) eqn:G; cbn [negb]; [|discriminate].
  pose proof (eats_index s) as [I1 I2]. destruct (r_index s) as [i s1]. cbn [snd] in *.
  pose proof (eats_cells (Z.to_nat (hb_ncells C)) s1) as [J1 J2]. destruct (r_cells dec _ s1) as [cells s2]. cbn [snd] in *. apply IH.
  destruct (igood s2) eqn:G2; [|lia]. destruct (J2 eq_refl) as [J3 J4]. destruct (I2 J3) as [_ I4]. lia.
Qed.
Lemma hw_blocks_total now fuel : forall num m s, ((if igood s then 3 + 9 * length (irest s) else 1) <= fuel)%nat -> hw_load_blocks N dec fuel now num m s <> None.
Proof.
  induction fuel as [|fuel IH]; intros num m s H; [destruct (igood s); lia|]. cbn [hw_load_blocks]. destruct (num <=? 0); [discriminate|].
  destruct (igood s) eqn:G; cbn [negb]; [|discriminate].
  pose proof (eats_index s) as [I1 I2]. destruct (r_index s) as [i s1]. cbn [snd] in *.
  pose proof (eats_f32 s1) as [J1 J2]. destruct (r_f32 s1) as [scale s2]. cbn [snd] in *.
  destruct (r_tree_total fuel [[]] (wroot (btree (blockOrNew (wb_new N now) m i))) s2) as (t & s3 & K1 & K2 & K3); [cbn [length]; lia|].
  rewrite K1. apply IH. destruct (igood s3) eqn:G3; [|lia]. destruct (J2 (K3 eq_refl)) as [J3 J4]. destruct (I2 J3) as [_ I4]. lia.
Qed.
Lemma load_total fuel now bytes good : (9 * length bytes + 10 <= fuel)%nat -> map_load N dec fuel now (IS bytes good) <> LFuel.
Proof.
  intros H. unfold map_load. destruct (negb (igood _)); [discriminate|].
  assert (P : (length (irest (snd (peek_format (IS bytes good)))) <= length bytes)%nat).
  { unfold peek_format. pose proof (eats_format (IS bytes good)) as [E _]. destruct (r_format (IS bytes good)) as [x s1]. cbn [snd] in *.
    destruct (igood s1); cbn [irest] in *; lia. }
  destruct (peek_format (IS bytes good)) as [f s]. cbn [snd] in P. clear good.
  assert (R : forall {A} k (g : istream -> A * istream) s', eats k g -> (length (irest s') <= length bytes)%nat -> (length (irest (snd (g s'))) <= length bytes)%nat).
  { intros A k g s' E L. destruct (E s') as [E1 _]. lia. }
  destruct (f =? kHashedBlocks); [|destruct (f =? kWaveletOctree); [|destruct (f =? kHashedWaveletOctree); [|discriminate]]].
  - unfold hb_load. destruct (negb (igood s)); [discriminate|].
    apply (R _ 4%nat r_format s eats_format) in P. destruct (r_format s) as [f' s0]. cbn [snd] in P. destruct (negb (f' =? _)); [discriminate|].
    apply (R _ 4%nat r_f32 s0 eats_f32) in P. destruct (r_f32 s0) as [w s1]. cbn [snd] in P.
    apply (R _ 4%nat r_f32 s1 eats_f32) in P. destruct (r_f32 s1) as [lo s2]. cbn [snd] in P.
    apply (R _ 4%nat r_f32 s2 eats_f32) in P. destruct (r_f32 s2) as [hi s3]. cbn [snd] in P.
    apply (R _ 8%nat r_u64 s3 eats_u64) in P. destruct (r_u64 s3) as [num s4]. cbn [snd] in P.
    destruct (negb (isValidBase N w lo hi)); [discriminate|]. cbv zeta.
    pose proof (hb_blocks_total (HBC lo hi (n0 N) 4) fuel num [] s4) as T.
    destruct (hb_load_blocks _ _ _ _ _ _) as [[m s5]|]; [destruct (igood s5); discriminate|]. exfalso. apply T; [destruct (igood s4); lia|reflexivity].
  - unfold wo_load. destruct (negb (igood s)); [discriminate|].
    apply (R _ 4%nat r_format s eats_format) in P. destruct (r_format s) as [f' s0]. cbn [snd] in P. destruct (negb (f' =? _)); [discriminate|].
    apply (R _ 4%nat r_f32 s0 eats_f32) in P. destruct (r_f32 s0) as [w s1]. cbn [snd] in P.
    apply (R _ 4%nat r_f32 s1 eats_f32) in P. destruct (r_f32 s1) as [lo s2]. cbn [snd] in P.
    apply (R _ 4%nat r_f32 s2 eats_f32) in P. destruct (r_f32 s2) as [hi s3]. cbn [snd] in P.
    apply (R _ 4%nat r_i32 s3 eats_i32) in P. destruct (r_i32 s3) as [th s4]. cbn [snd] in P.
    apply (R _ 4%nat r_f32 s4 eats_f32) in P. destruct (r_f32 s4) as [scale s5]. cbn [snd] in P.
    destruct (negb (_ && _)); [discriminate|].
    destruct (r_tree_total fuel [[]] fresh s5) as (t & s6 & K & _ & _); [cbn [length]; lia|].
    rewrite K. destruct (igood s6); discriminate.
  - unfold hw_load. destruct (negb (igood s)); [discriminate|].
    apply (R _ 4%nat r_format s eats_format) in P. destruct (r_format s) as [f' s0]. cbn [snd] in P. destruct (negb (f' =? _)); [discriminate|].
    apply (R _ 4%nat r_f32 s0 eats_f32) in P. destruct (r_f32 s0) as [w s1]. cbn [snd] in P.
    apply (R _ 4%nat r_f32 s1 eats_f32) in P. destruct (r_f32 s1) as [lo s2]. cbn [snd] in P.
    apply (R _ 4%nat r_f32 s2 eats_f32) in P. destruct (r_f32 s2) as [hi s3]. cbn [snd] in P.
    apply (R _ 4%nat r_i32 s3 eats_i32) in P. destruct (r_i32 s3) as [th s4]. cbn [snd] in P.
    apply (R _ 8%nat r_u64 s4 eats_u64) in P. destruct (r_u64 s4) as [num s5]. cbn [snd] in P.
    destruct (negb (_ && _)); [discriminate|].
    pose proof (hw_blocks_total now fuel num [] s5) as T.
    destruct (hw_load_blocks _ _ _ _ _ _ _) as [[m s6]|]; [destruct (igood s6); discriminate|]. exfalso. apply T; [destruct (igood s5); lia|reflexivity].
Qed.

(** ** Locality of loading *)
Definition load_result (fuel : nat) (now : Z) (f : Z) (s : istream) : load (V := V) :=
  if f =? kHashedBlocks then
    match hb_load N dec fuel s with OFuel => LFuel | OAbort => LAbort | ORefused => LKept
    | ODone (w, C, m) s2 => if igood s2 then LOk (AnyHB w C m) s2 else LKept end
  else if f =? kWaveletOctree then
    match wo_load N dec fuel s with OFuel => LFuel | OAbort => LAbort | ORefused => LKept
    | ODone (w, C, t) s2 => if igood s2 then LOk (AnyWO w C t) s2 else LKept end
  else if f =? kHashedWaveletOctree then
    match hw_load N dec fuel now s with OFuel => LFuel | OAbort => LAbort | ORefused => LKept
    | ODone (w, C, m) s2 => if igood s2 then LOk (AnyHW w C m) s2 else LKept end
  else LNull.
Lemma map_load_eq fuel now s : map_load N dec fuel now s = if negb (igood s) then LKept else let '(f, s1) := peek_format s in load_result fuel now f s1.
Proof. reflexivity. Qed.
Definition outcome_local {A} (f : istream -> outcome A) : Prop :=
  (forall s a s', f s = ODone a s' -> igood s = false -> igood s' = false) /\
  forall b a r, f (IS b true) = ODone a (IS r true) -> forall c, f (IS (b ++ c) true) = ODone a (IS (r ++ c) true).
Lemma outl_bind {A B} (f : istream -> A * istream) (g : A -> istream -> outcome B) : local f -> (forall a, outcome_local (g a)) ->
  outcome_local (fun s => let '(a, s1) := f s in g a s1).
Proof.
  intros [F1 F2] G. split.
  - intros s b s' E H. specialize (F1 s H). destruct (f s) as [a s1]. exact (proj1 (G a) s1 b s' E F1).
  - intros b x r. destruct (f (IS b true)) as [a [r1 g1]] eqn:E. destruct g1.
    + intros E2 c. destruct (F2 b a r1 E) as [_ F3]. rewrite F3. exact (proj2 (G a) r1 x r E2 c).
    + intros E2. pose proof (proj1 (G a) (IS r1 false) _ _ E2 eq_refl) as K. discriminate.
Qed.
Lemma outl_opt {A B} (f : istream -> option (A * istream)) (k : A -> B) : olocal f ->
  outcome_local (fun s => match f s with None => OFuel | Some (a, s1) => ODone (k a) s1 end).
Proof.
  intros [F1 F2]. split.
  - intros s b s' E H. destruct (f s) as [[a s1]|] eqn:Ef; [|discriminate]. injection E as <- <-. exact (F1 s a s1 Ef H).
  - intros b x r. destruct (f (IS b true)) as [[a s1]|] eqn:E; [|discriminate]. intros K c. injection K as <- ->.
    destruct (F2 b a r E) as [_ F3]. rewrite F3. reflexivity.
Qed.
Lemma outl_const {A} (o : outcome A) : (forall a s, o <> ODone a s) -> outcome_local (fun _ => o).
Proof. intros H. split; intros; exfalso; eapply H; eassumption. Qed.
Lemma outl_if {A} (b : bool) (f g : istream -> outcome A) : outcome_local f -> outcome_local g -> outcome_local (fun s => if b then f s else g s).
Proof. intros F G. destruct b; assumption. Qed.
Lemma outl_start {A} (f : istream -> outcome A) : outcome_local f -> outcome_local (fun s => if negb (igood s) then ORefused else f s).
Proof.
  intros [F1 F2]. split.
  - intros s a s' E H. rewrite H in E. discriminate.
  - intros b a r E c. exact (F2 b a r E c).
Qed.
Lemma hb_load_local fuel : outcome_local (hb_load N dec fuel).
Proof.
  unfold hb_load. apply outl_start. apply (outl_bind r_format); [exact local_format|intros f]. apply outl_if; [apply outl_const; discriminate|].
  apply (outl_bind r_f32); [exact (local_f32 dec)|intros w]. apply (outl_bind r_f32); [exact (local_f32 dec)|intros lo].
  apply (outl_bind r_f32); [exact (local_f32 dec)|intros hi]. apply (outl_bind r_u64); [exact local_u64|intros num].
  apply outl_if; [apply outl_const; discriminate|]. apply (outl_opt (hb_load_blocks dec fuel (HBC lo hi (n0 N) 4) num []) (fun m => (w, HBC lo hi (n0 N) 4, m))).
  apply olocal_hb_blocks.
Qed.
Lemma wo_load_local fuel : outcome_local (wo_load N dec fuel).
Proof.
  unfold wo_load. apply outl_start. apply (outl_bind r_format); [exact local_format|intros f]. apply outl_if; [apply outl_const; discriminate|].
  apply (outl_bind r_f32); [exact (local_f32 dec)|intros w]. apply (outl_bind r_f32); [exact (local_f32 dec)|intros lo].
  apply (outl_bind r_f32); [exact (local_f32 dec)|intros hi]. apply (outl_bind r_i32); [exact local_i32|intros th].
  apply (outl_bind r_f32); [exact (local_f32 dec)|intros scale].
  apply outl_if; [apply outl_const; discriminate|]. apply (outl_opt (r_tree fuel [[]] fresh) (fun root => (w, WC th lo hi, WT root scale))).
  apply olocal_tree.
Qed.
Lemma hw_load_local fuel now : outcome_local (hw_load N dec fuel now).
Proof.
  unfold hw_load. apply outl_start. apply (outl_bind r_format); [exact local_format|intros f]. apply outl_if; [apply outl_const; discriminate|].
  apply (outl_bind r_f32); [exact (local_f32 dec)|intros w]. apply (outl_bind r_f32); [exact (local_f32 dec)|intros lo].
  apply (outl_bind r_f32); [exact (local_f32 dec)|intros hi]. apply (outl_bind r_i32); [exact local_i32|intros th].
  apply (outl_bind r_u64); [exact local_u64|intros num].
  apply outl_if; [apply outl_const; discriminate|]. apply (outl_opt (hw_load_blocks N dec fuel now num []) (fun m => (w, WC th lo hi, m))).
  apply olocal_hw_blocks.
Qed.
Lemma load_local fuel now b m r : map_load N dec fuel now (IS b true) = LOk m (IS r true) ->
  forall c, map_load N dec fuel now (IS (b ++ c) true) = LOk m (IS (r ++ c) true).
Proof.
  rewrite map_load_eq. cbn [igood negb]. intros H c. rewrite map_load_eq. cbn [igood negb]. unfold peek_format in *.
  destruct (r_format (IS b true)) as [f [r1 g1]] eqn:E. cbn [igood] in *. destruct g1.
  - destruct (proj2 local_format b f r1 E) as [_ L]. rewrite L. cbn [igood]. unfold load_result in *.
    destruct (f =? kHashedBlocks); [|destruct (f =? kWaveletOctree); [|destruct (f =? kHashedWaveletOctree); [|discriminate]]].
    + destruct (hb_load N dec fuel (IS b true)) as [| | |[[w C] x] s2] eqn:K; try discriminate. destruct (igood s2) eqn:G; [|discriminate].
      injection H as <- ->. rewrite (proj2 (hb_load_local fuel) b _ r K c). reflexivity.
    + destruct (wo_load N dec fuel (IS b true)) as [| | |[[w C] x] s2] eqn:K; try discriminate. destruct (igood s2) eqn:G; [|discriminate].
      injection H as <- ->. rewrite (proj2 (wo_load_local fuel) b _ r K c). reflexivity.
    + destruct (hw_load N dec fuel now (IS b true)) as [| | |[[w C] x] s2] eqn:K; try discriminate. destruct (igood s2) eqn:G; [|discriminate].
      injection H as <- ->. rewrite (proj2 (hw_load_local fuel now) b _ r K c). reflexivity.
  - exfalso. unfold load_result, hb_load, wo_load, hw_load in H. cbn [igood negb] in H.
    destruct (f =? kHashedBlocks); [discriminate|destruct (f =? kWaveletOctree); [discriminate|destruct (f =? kHashedWaveletOctree); discriminate]].
Qed.
Lemma load_ok_good fuel now s m s' : map_load N dec fuel now s = LOk m s' -> igood s' = true.
Proof.
  rewrite map_load_eq. destruct (negb (igood s)); [discriminate|]. destruct (peek_format s) as [f s1]. unfold load_result.
  destruct (f =? kHashedBlocks); [|destruct (f =? kWaveletOctree); [|destruct (f =? kHashedWaveletOctree); [|discriminate]]].
  - destruct (hb_load N dec fuel s1) as [| | |[[w C] x] s2]; try discriminate. destruct (igood s2) eqn:G; [|discriminate]. intros E. injection E as _ <-. exact G.
  - destruct (wo_load N dec fuel s1) as [| | |[[w C] x] s2]; try discriminate. destruct (igood s2) eqn:G; [|discriminate]. intros E. injection E as _ <-. exact G.
  - destruct (hw_load N dec fuel now s1) as [| | |[[w C] x] s2]; try discriminate. destruct (igood s2) eqn:G; [|discriminate]. intros E. injection E as _ <-. exact G.
Qed.

(** ** Loading saved maps *)
Lemma r_cells_app l r : Forall faithful l -> r_cells dec (length l) (IS (flat_map w_f32 l ++ r) true) = (l, IS r true).
Proof.
  induction l as [|v l IH]; intros F; [reflexivity|]. apply Forall_cons_iff in F. destruct F as [F1 F2]. cbn [length r_cells flat_map]. rewrite <- app_assoc.
  rewrite (r_f32_app enc dec) by exact F1. rewrite IH by exact F2. reflexivity.
Qed.
Definition hb_bytes (m : hbmap (V := V)) : list Z := flat_map (fun kb => w_index (fst kb) ++ flat_map w_f32 (snd kb)) m.
Lemma hb_blocks_load C fuel : forall (l m0 : hbmap (V := V)) r, (length l <= fuel)%nat -> NoDup (keys (m0 ++ l)) ->
  (forall k b, In (k, b) l -> i32_idx k /\ length b = Z.to_nat (hb_ncells C) /\ Forall faithful b) ->
  hb_load_blocks dec fuel C (Z.of_nat (length l)) m0 (IS (hb_bytes l ++ r) true) = Some (m0 ++ l, IS r true).
Proof.
  induction fuel as [|fuel IH]; intros [|[k b] l] m0 r Hf Hn Hl; cbn [length] in Hf; try lia.
  - cbn [hb_load_blocks length]. rewrite app_nil_r. reflexivity.
  - cbn [hb_load_blocks length]. rewrite app_nil_r. reflexivity.
  - destruct (Hl k b (or_introl eq_refl)) as (H1 & H2 & H3). cbn [hb_load_blocks]. replace (Z.of_nat (length ((k, b) :: l)) <=? 0) with false by (symmetry; apply Z.leb_gt; cbn [length]; lia).
    cbn [igood negb]. unfold hb_bytes. cbn [flat_map fst snd]. rewrite <- !app_assoc. rewrite r_index_app by exact H1. rewrite <- H2, r_cells_app by exact H3.
    replace (Z.of_nat (length ((k, b) :: l)) - 1) with (Z.of_nat (length l)) by (cbn [length]; lia).
    assert (Hk : ~ In k (keys m0)).
    { unfold keys in Hn. rewrite map_app in Hn. cbn [map fst] in Hn. apply NoDup_remove_2 in Hn. intros K. apply Hn. apply in_or_app. left. exact K. }
    rewrite setBlock_new by exact Hk. fold (hb_bytes l). rewrite IH; [|lia| |].
    + rewrite <- app_assoc. reflexivity.
    + rewrite <- app_assoc. exact Hn.
    + intros k' b' Hi. apply Hl. right. exact Hi.
Qed.
Definition hw_bytes (l : list (idx3 * (V * wnode))) : list Z := flat_map (fun kb => w_index (fst kb) ++ w_f32 (fst (snd kb)) ++ ser (snd (snd kb))) l.
Definition hw_loaded (now : Z) (l : list (idx3 * (V * wnode))) : hmap :=
  map (fun kb => (fst kb, WB (WT (norm (snd (snd kb))) (fst (snd kb))) false false now)) l.
Lemma hw_blocks_load now : forall (l : list (idx3 * (V * wnode))) fuel (m0 : hmap) r, NoDup (keys m0 ++ keys l) ->
  (forall k s n, In (k, (s, n)) l -> i32_idx k /\ faithful s /\ nfaith n /\ (length l + nsize n <= fuel)%nat) ->
  hw_load_blocks N dec fuel now (Z.of_nat (length l)) m0 (IS (hw_bytes l ++ r) true) = Some (m0 ++ hw_loaded now l, IS r true).
Proof.
  induction l as [|[k [s n]] l IH]; intros fuel m0 r Hn Hl.
  - destruct fuel; cbn [hw_load_blocks length]; cbn; rewrite app_nil_r; reflexivity.
  - destruct (Hl k s n (or_introl eq_refl)) as (H1 & H2 & H3 & H4). cbn [length] in H4. destruct fuel as [|fuel]; [lia|].
    cbn [hw_load_blocks]. replace (Z.of_nat (length ((k, (s, n)) :: l)) <=? 0) with false by (symmetry; apply Z.leb_gt; cbn [length]; lia).
    cbn [igood negb]. unfold hw_bytes. cbn [flat_map fst snd]. rewrite <- !app_assoc. rewrite r_index_app by exact H1. rewrite (r_f32_app enc dec) by exact H2.
    replace (Z.of_nat (length ((k, (s, n)) :: l)) - 1) with (Z.of_nat (length l)) by (cbn [length]; lia).
    assert (Hk : ~ In k (keys m0)).
    { cbn [keys map fst] in Hn. apply NoDup_remove_2 in Hn. intros K. apply Hn. apply in_or_app. left. exact K. }
    assert (EB : blockOrNew (wb_new N now) m0 k = wb_new N now) by (unfold blockOrNew; rewrite (proj2 (getBlock_None m0 k) Hk); reflexivity).
    rewrite EB. cbn [wb_new btree wt_new wroot bthr bprn bstamp]. rewrite (read_tree N enc dec n fuel _ H3) by lia.
    rewrite setBlock_new by exact Hk. fold (hw_bytes l). rewrite IH.
    + cbn [hw_loaded map fst snd]. rewrite <- app_assoc. reflexivity.
    + rewrite keys_app, <- app_assoc. exact Hn.
    + intros k' s' n' Hi. destruct (Hl k' s' n' (or_intror Hi)) as (G1 & G2 & G3 & G4). cbn [length] in G4. split; [exact G1|split; [exact G2|split; [exact G3|lia]]].
Qed.
(** Blocks as written: scale and tree without saturated children *)
Definition as_written (C : wconf) (m : hmap) : list (idx3 * (V * wnode)) :=
  map (fun kb => (fst kb, (wscale (btree (snd kb)), keep N C (wscale (btree (snd kb))) (wroot (btree (snd kb)))))) m.
Lemma hw_save_result fuel w C m l : hw_save N enc fuel w C m = Some l -> l = w_hw_header enc w C (Z.of_nat (length m)) ++ hw_bytes (as_written C m).
Proof.
  unfold hw_save. generalize (w_hw_header enc w C (Z.of_nat (length m))). intros hd.
  match goal with |- option_map _ ?e = _ -> _ => destruct e as [x|] eqn:E end; [|discriminate]. cbn [option_map]. intros K. injection K as <-. f_equal.
  revert x E. induction m as [|[k b] m IH]; intros x E; cbn [concat_opt fst snd] in E; [injection E as <-; reflexivity|].
  destruct (hw_save_loop N enc fuel C _) as [y|] eqn:E1; cbn [option_map] in E; [|discriminate].
  destruct (concat_opt _ m) as [z|] eqn:E2; [|discriminate]. apply (f_equal (fun o => match o with Some v => v | None => [] end)) in E. cbv beta iota in E. subst x. apply (save_loop_result N enc dec) in E1. cbn [flat_map fst snd] in E1. rewrite app_nil_r in E1. subst y.
  unfold hw_bytes. cbn [as_written map flat_map fst snd]. apply (f_equal2 (@app Z)); [reflexivity|]. apply IH. reflexivity.
Qed.
Definition tree_fuel (m : hmap) : nat := list_max (map (fun kb => nsize (wroot (btree (snd kb)))) m).
Lemma list_max_in {A} (f : A -> nat) l x : In x l -> (f x <= list_max (map f l))%nat.
Proof.
  intros H. pose proof (proj1 (list_max_le (map f l) (list_max (map f l))) (le_n _)) as F. rewrite Forall_forall in F. apply F. apply in_map. exact H.
Qed.
Lemma hw_save_total fuel w C m : (tree_fuel m <= fuel)%nat -> exists l, hw_save N enc fuel w C m = Some l.
Proof.
  intros H. unfold hw_save. match goal with |- exists l, option_map _ ?e = _ => assert (K : exists x, e = Some x) end.
  2:{ destruct K as [x ->]. eexists. reflexivity. }
  assert (F : forall k b, In (k, b) m -> (nsize (wroot (btree b)) <= fuel)%nat).
  { intros k b Hi. apply (list_max_in (fun kb => nsize (wroot (btree (snd kb))))) in Hi. cbn [snd] in Hi. unfold tree_fuel in H. lia. }
  clear H. induction m as [|[k b] m IH]; [exists []; reflexivity|]. cbn [concat_opt fst snd].
  rewrite (save_loop_eq N enc). 2:{ cbn [map list_sum fold_right]. unfold ksize. cbn [fst snd]. pose proof (ksize_le N enc dec C (wroot (btree b)) (wscale (btree b))).
    specialize (F k b (or_introl eq_refl)). lia. }
  cbn [option_map]. destruct IH as [x ->]; [intros k' b' Hi; apply (F k' b'); right; exact Hi|]. eexists. reflexivity.
Qed.
Lemma hw_bytes_length l k s n : In (k, (s, n)) l -> (length l + nsize n <= length (hw_bytes l))%nat.
Proof.
  unfold hw_bytes. assert (W : forall i, length (w_index i) = 12%nat) by (intros i; reflexivity).
  assert (L : forall l : list (idx3 * (V * wnode)), (length l <= length (flat_map (fun kb => w_index (fst kb) ++ w_f32 (fst (snd kb)) ++ ser (snd (snd kb))) l))%nat).
  { clear l. induction l as [|a l IH]; [reflexivity|]. cbn [flat_map length]. rewrite !app_length, W. lia. }
  induction l as [|a l IH]; [intros []|]. intros [->|Hi]; cbn [flat_map length fst snd]; rewrite !app_length, W.
  - pose proof (ser_length enc dec n). pose proof (L l). lia.
  - specialize (IH Hi). lia.
Qed.
End FS3.
