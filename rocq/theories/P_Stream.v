(** * C23-C27: saving and loading maps *)
From Verif Require Import Base M_IntMath F_IntMath M_NdtreeIndex M_Num F_Num M_Haar F_Haar M_Haar3 F_Haar3 M_Ndtree S_Field F_Hash M_Wavelet
  F_Wavelet F_Wavelet2 F_Leaves F_WavTree F_WavMap F_WavHash M_WavHist F_WavHist M_HashedBlocks P_HashedBlocks M_Octree F_Octree M_Chunked F_Chunked F_ChunkedSim F_ChunkedWav
  M_ChunkedHist F_ChunkedMap M_Subtree P_Subtree P_Wavelet P_Chunked M_Stream F_Stream F_Stream2 F_Stream3 F_Stream4.
From Coq Require Import QArith Qcanon Qcabs Qround Lqa.
Close Scope Qc_scope. Close Scope Q_scope. Open Scope Z_scope.

(** ** Specification vocabulary *)
Section SPEC.
Context {V : Type} (N : M_Num.num V) (enc : V -> Z) (dec : Z -> V).
Notation any := (anymap (V := V)).
(** The value is one that 32 bits can hold: its bit pattern is decoded to the same value. *)
Definition representable (v : V) : Prop := 0 <= enc v < 2 ^ 32 /\ dec (enc v) = v.
(** Writing the map terminates, returns true, and produces these bytes. *)
Definition saves (a : any) (bytes : list Z) : Prop := exists f0, forall f, (f0 <= f)%nat -> map_save N enc f a = STrue bytes.
(** Reading from a stream that contains these bytes terminates and returns true with this map; [rest] is left in the stream. *)
Definition loads (now : Z) (bytes : list Z) (a : any) (rest : list Z) : Prop :=
  exists f0, forall f, (f0 <= f)%nat -> map_load N dec f now (IS bytes true) = LOk a (IS rest true).
(** Writing [a] and reading it back (at time [now]) gives [a'] and consumes exactly what was written. *)
Definition reloads (now : Z) (a a' : any) : Prop := exists bytes, saves a bytes /\ forall rest, loads now (bytes ++ rest) a' rest.
(** The three bounds in the header *)
Definition header_ok (w lo hi : V) : Prop :=
  nltb N (n0 N) w = true /\ nltb N lo hi = true /\ representable w /\ representable lo /\ representable hi.
(** All wavelet coefficients stored in a tree *)
Definition tree_representable (n : node (det V)) : Prop :=
  forall q x, valid_path q -> nlook q n = Some x -> Forall representable (dlist (ndata x)).
(** Two trees with the same nodes and the same coefficients *)
Definition same_tree (n n' : node (det V)) : Prop :=
  forall q, valid_path q -> option_map ndata (nlook q n) = option_map ndata (nlook q n').
(** What a hashed wavelet octree must satisfy to be written: floats, int32 block indices, less than 2^64 blocks *)
Definition hashed_storable (w : V) (C : wconfig (V := V)) (m : hmap (V := V)) : Prop :=
  header_ok w (clo C) (chi C) /\ Z.of_nat (length m) < 2 ^ 64 /\
  forall k b, In (k, b) m -> i32_index k /\ representable (wscale (btree b)) /\ tree_representable (wroot (btree b)).

(** ** Facts *)
Lemma reloads_functional now a a1 a2 : reloads now a a1 -> reloads now a a2 -> a1 = a2.
Proof.
  intros (b1 & (f1 & S1) & L1) (b2 & (f2 & S2) & L2). pose proof (S1 (max f1 f2) ltac:(lia)) as E1. pose proof (S2 (max f1 f2) ltac:(lia)) as E2.
  assert (b1 = b2) by congruence. subst b2. destruct (L1 []) as (g1 & G1), (L2 []) as (g2 & G2).
  pose proof (G1 (max g1 g2) ltac:(lia)) as F1. pose proof (G2 (max g1 g2) ltac:(lia)) as F2. congruence.
Qed.
Lemma format_range k : 0 <= k <= 2 -> - 2 ^ 31 <= k < 2 ^ 31. Proof. lia. Qed.
Lemma peek_app k r : 0 <= k <= 2 -> peek_format (IS (le_bytes 4 k ++ r) true) = (k, IS (le_bytes 4 k ++ r) true).
Proof. intros H. unfold peek_format. rewrite r_format_app by (apply format_range; exact H). reflexivity. Qed.
(** Reading past the headers *)
Lemma hb_load_header fuel now w lo hi num r : header_ok w lo hi -> 0 <= num < 2 ^ 64 ->
  map_load N dec fuel now (IS (le_bytes 4 kHashedBlocks ++ w_f32 enc w ++ w_f32 enc lo ++ w_f32 enc hi ++ le_bytes 8 num ++ r) true) =
  match hb_load_blocks dec fuel (HBC lo hi (n0 N) 4) num [] (IS r true) with
  | None => LFuel | Some (m, s) => if igood s then LOk (AnyHB w (HBC lo hi (n0 N) 4) m) s else LKept end.
Proof.
  intros (H1 & H2 & R1 & R2 & R3) Hn. unfold map_load. cbn [igood negb]. rewrite peek_app by (unfold kHashedBlocks; lia).
  rewrite Z.eqb_refl. unfold hb_load. cbn [igood negb]. rewrite r_format_app by (unfold kHashedBlocks; lia). rewrite Z.eqb_refl. cbn [negb].
  rewrite (r_f32_app enc dec w _ R1), (r_f32_app enc dec lo _ R2), (r_f32_app enc dec hi _ R3), r_u64_app by exact Hn.
  unfold isValidBase. rewrite H1, H2. cbn [andb negb]. cbv zeta. destruct (hb_load_blocks _ _ _ _ _ _) as [[m s]|]; reflexivity.
Qed.
Lemma wo_load_header fuel now w lo hi th scale r : header_ok w lo hi -> 0 < th < 2 ^ 31 -> representable scale ->
  map_load N dec fuel now (IS (le_bytes 4 kWaveletOctree ++ w_f32 enc w ++ w_f32 enc lo ++ w_f32 enc hi ++ le_bytes 4 th ++ w_f32 enc scale ++ r) true) =
  match r_tree N dec fuel [[]] (Node (dzero N) None) (IS r true) with
  | None => LFuel | Some (n, s) => if igood s then LOk (AnyWO w (WC th lo hi) (WT n scale)) s else LKept end.
Proof.
  intros (H1 & H2 & R1 & R2 & R3) Hn R4. unfold map_load. cbn [igood negb]. rewrite peek_app by (unfold kWaveletOctree; lia).
  change (kWaveletOctree =? kHashedBlocks) with false. cbv iota. rewrite Z.eqb_refl. unfold wo_load. cbn [igood negb].
  rewrite r_format_app by (unfold kWaveletOctree; lia). rewrite Z.eqb_refl. cbn [negb].
  rewrite (r_f32_app enc dec w _ R1), (r_f32_app enc dec lo _ R2), (r_f32_app enc dec hi _ R3), r_i32_app by lia. rewrite (r_f32_app enc dec scale _ R4).
  unfold isValidBase. rewrite H1, H2. replace (0 <? th) with true by (symmetry; apply Z.ltb_lt; lia). cbn [andb negb].
  destruct (r_tree _ _ _ _ _ _) as [[m s]|]; reflexivity.
Qed.
Lemma hw_load_header fuel now w lo hi th num r : header_ok w lo hi -> 0 < th < 2 ^ 31 -> 0 <= num < 2 ^ 64 ->
  map_load N dec fuel now (IS (w_hw_header enc w (WC th lo hi) num ++ r) true) =
  match hw_load_blocks N dec fuel now num [] (IS r true) with
  | None => LFuel | Some (m, s) => if igood s then LOk (AnyHW w (WC th lo hi) m) s else LKept end.
Proof.
  intros (H1 & H2 & R1 & R2 & R3) Hn Hm. unfold w_hw_header. rewrite <- !app_assoc. cbn [clo chi cT]. unfold map_load. cbn [igood negb].
  rewrite peek_app by (unfold kHashedWaveletOctree; lia).
  change (kHashedWaveletOctree =? kHashedBlocks) with false. change (kHashedWaveletOctree =? kWaveletOctree) with false. cbv iota.
  rewrite Z.eqb_refl. unfold hw_load. cbn [igood negb].
  rewrite r_format_app by (unfold kHashedWaveletOctree; lia). rewrite Z.eqb_refl. cbn [negb].
  rewrite (r_f32_app enc dec w _ R1), (r_f32_app enc dec lo _ R2), (r_f32_app enc dec hi _ R3), r_i32_app by lia. rewrite r_u64_app by exact Hm.
  unfold isValidBase. rewrite H1, H2. replace (0 <? th) with true by (symmetry; apply Z.ltb_lt; lia). cbn [andb negb].
  destruct (hw_load_blocks _ _ _ _ _ _ _) as [[m s]|]; reflexivity.
Qed.
Lemma norm_look q : forall n : node (det V), valid_path q -> nlook q (norm n) = option_map norm (nlook q n).
Proof.
  induction q as [|c q IH]; intros n Hq; [reflexivity|]. apply Forall_cons_iff in Hq. destruct Hq as [Hc Hq]. cbn [nlook]. rewrite norm_child by exact Hc.
  destruct (getChild n c); [apply IH; exact Hq|reflexivity].
Qed.
Lemma child_range m j : 0 <= relativeChildIndexFromMorton 3 m j < 8.
Proof.
  unfold relativeChildIndexFromMorton. change (Z.shiftl 1 3 - 1) with (Z.ones 3). rewrite Z.land_ones by lia. apply Z.mod_pos_bound. lia.
Qed.
Lemma get_loop_norm k : forall ph mo v n, get_loop N k ph mo v (norm n) = get_loop N k ph mo v n.
Proof.
  induction k as [|k IH]; intros ph mo v n; [reflexivity|]. cbn [get_loop]. rewrite norm_data, norm_child by apply child_range.
  destruct (getChild n _); [apply IH|reflexivity].
Qed.
(** A saved hashed wavelet octree, loaded *)
Lemma hw_reloads now w C m : hashed_storable w C m -> 0 < cT C < 2 ^ 31 -> hwf m ->
  reloads now (AnyHW w C m) (AnyHW w C (hw_loaded now (as_written N C m))).
Proof.
  intros (HH & Hn & Hb) HT Hw. destruct (hw_save_total N enc dec (tree_fuel m) w C m (le_n _)) as [bytes Hs]. exists bytes.
  pose proof (hw_save_result N enc dec _ _ _ _ _ Hs) as Eb. split.
  - exists (tree_fuel m). intros f Hf. destruct (hw_save_total N enc dec f w C m Hf) as [b2 Hs2]. cbn [map_save]. rewrite Hs2.
    rewrite (hw_save_result N enc dec _ _ _ _ _ Hs2), Eb. reflexivity.
  - intros rest. exists (length bytes). intros f Hf. rewrite Eb, <- app_assoc. destruct C as [th lo hi]. cbn [cT clo chi] in *.
    rewrite hw_load_header; [|exact HH|exact HT|lia].
    assert (EL : Z.of_nat (length m) = Z.of_nat (length (as_written N (WC th lo hi) m))) by (unfold as_written; rewrite map_length; reflexivity).
    rewrite EL. rewrite (hw_blocks_load N enc dec now (as_written N (WC th lo hi) m) f []); [reflexivity| |].
    + cbn [keys map app]. unfold keys, as_written. rewrite map_map. cbn [fst]. exact Hw.
    + intros k s n Hi. pose proof (hw_bytes_length enc dec _ k s n Hi) as Lb. unfold as_written in Hi. apply in_map_iff in Hi. destruct Hi as ([k' b] & E & Hi). cbn [fst snd] in E.
      injection E as <- <- <-. destruct (Hb k' b Hi) as (B1 & B2 & B3). split; [exact B1|split; [exact B2|split; [apply keep_faith; exact B3|]]].
      rewrite Eb, app_length in Hf. lia.
Qed.

(** ** C23 *)
Theorem C23_hashed_blocks_roundtrip_partial : forall now w (C : hbconfig V) (l : list (hbcall V)),
  let m := hb_run N C l in
  hK C = 4 -> hdef C = n0 N -> header_ok w (hlo C) (hhi C) -> Z.of_nat (length m) < 2 ^ 64 ->
  (forall k b, getBlock m k = Some b -> i32_index k /\ Forall representable b) ->
  reloads now (AnyHB w C m) (AnyHB w C m).
Proof.
  intros now w C l m HK Hd HH Hn Hb. destruct (run_bwf N C l) as [W1 W2]. fold m in W1, W2.
  exists (hb_save enc w C m). split; [exists O; reflexivity|]. intros rest. exists (length m). intros f Hf. unfold hb_save. rewrite <- !app_assoc.
  rewrite hb_load_header by (try exact HH; lia). fold (hb_bytes enc m).
  destruct C as [lo hi df K]. cbn [hK hdef hlo hhi] in *. subst K df.
  rewrite (hb_blocks_load enc dec (HBC lo hi (n0 N) 4) f m []); [reflexivity|exact Hf|exact W1|].
  intros k b Hi. pose proof (In_getBlock m k b W1 Hi) as Eg. destruct (Hb k b Eg) as [B1 B2]. split; [exact B1|]. split; [apply (W2 k); exact Hi|exact B2].
Qed.
(** ** C24 *)
Theorem C24_wavelet_octree_roundtrip : forall now w (C : wconfig (V := V)) (t : wtree (V := V)),
  header_ok w (clo C) (chi C) -> 0 < cT C < 2 ^ 31 -> representable (wscale t) -> tree_representable (wroot t) ->
  exists t', reloads now (AnyWO w C t) (AnyWO w C t') /\
    wscale t' = wscale t /\ same_tree (wroot t') (wroot t) /\ forall i, wo_get N C t' i = wo_get N C t i.
Proof.
  intros now w C t HH HT Hs Ht. exists (WT (norm (wroot t)) (wscale t)). split; [|split; [reflexivity|split]].
  - destruct (C34_preorder _ (wroot t) (nsize (wroot t)) (le_n _)) as (l & E & _). pose proof (iterate_ser enc _ _ _ E) as Es.
    unfold pre_begin in Es. cbn [flat_map snd] in Es. rewrite app_nil_r in Es.
    exists (le_bytes 4 kWaveletOctree ++ w_f32 enc w ++ w_f32 enc (clo C) ++ w_f32 enc (chi C) ++ le_bytes 4 (cT C) ++ w_f32 enc (wscale t) ++ ser enc (wroot t)). split.
    + exists (nsize (wroot t)). intros f Hf. cbn [map_save]. unfold wo_save.
      assert (E2 : iterate pre_next f (pre_begin (wroot t)) = Some (preL ([], wroot t))).
      { unfold pre_begin. rewrite pre_iterate; cbn [flat_map]; rewrite app_nil_r; [reflexivity|]. rewrite preL_length. exact Hf. }
      rewrite E2. apply iterate_ser with (enc := enc) in E2. unfold pre_begin in E2. cbn [flat_map snd] in E2. rewrite app_nil_r in E2. 
      unfold has in E2. rewrite E2. reflexivity.
    + intros rest. exists (nsize (wroot t)). intros f Hf. rewrite <- !app_assoc. rewrite wo_load_header by assumption.
      rewrite (read_tree N enc dec (wroot t) f rest Ht Hf). destruct C; reflexivity.
  - intros q Hq. cbn [wroot]. rewrite norm_look by exact Hq. destruct (nlook q (wroot t)) as [x|]; [|reflexivity]. cbn [option_map]. rewrite norm_data. reflexivity.
  - intros i. unfold wo_get, wt_get. cbn [wroot wscale]. apply get_loop_norm.
Qed.

(** ** C27 *)
(** Reading any byte string, from a stream in any state, terminates. *)
Theorem C27_terminates : forall bytes good now fuel, (9 * length bytes + 10 <= fuel)%nat -> map_load N dec fuel now (IS bytes good) <> LFuel.
Proof. intros bytes good now fuel H. unshelve eapply load_total; [exact enc|exact H]. Qed.
Lemma tree_mono f : forall st root s x, r_tree N dec f st root s = Some x -> forall f', (f <= f')%nat -> r_tree N dec f' st root s = Some x.
Proof.
  induction f as [|f IH]; intros [|q st] root s x H f' Hf; cbn [r_tree] in H; try discriminate; try (destruct f'; exact H).
  destruct f' as [|f']; [lia|]. cbn [r_tree]. destruct (r_node dec s) as [[d b] s1]. apply (IH _ _ _ _ H). lia.
Qed.
Lemma hb_mono f : forall C num m s x, hb_load_blocks dec f C num m s = Some x -> forall f', (f <= f')%nat -> hb_load_blocks dec f' C num m s = Some x.
Proof.
  induction f as [|f IH]; intros C num m s x H f' Hf; cbn [hb_load_blocks] in H; destruct (num <=? 0) eqn:E.
  - destruct f'; cbn [hb_load_blocks]; rewrite E; exact H.
  - discriminate.
  - destruct f'; cbn [hb_load_blocks]; rewrite E; exact H.
  - destruct f' as [|f']; [lia|]. cbn [hb_load_blocks]. rewrite E. destruct (negb (igood s)); [exact H|].
    destruct (r_index s) as [i s1]. destruct (r_cells _ _ s1) as [cells s2]. apply (IH _ _ _ _ _ H). lia.
Qed.
Lemma hw_mono f : forall now num m s x, hw_load_blocks N dec f now num m s = Some x -> forall f', (f <= f')%nat -> hw_load_blocks N dec f' now num m s = Some x.
Proof.
  induction f as [|f IH]; intros now num m s x H f' Hf; cbn [hw_load_blocks] in H; destruct (num <=? 0) eqn:E.
  - destruct f'; cbn [hw_load_blocks]; rewrite E; exact H.
  - discriminate.
  - destruct f'; cbn [hw_load_blocks]; rewrite E; exact H.
  - destruct f' as [|f']; [lia|]. cbn [hw_load_blocks]. rewrite E. destruct (negb (igood s)); [exact H|].
    destruct (r_index s) as [i s1]. destruct (r_f32 dec s1) as [sc s2]. destruct (r_tree N dec f _ _ s2) as [[root s3]|] eqn:Et; [|discriminate].
    rewrite (tree_mono _ _ _ _ _ Et f') by lia. apply (IH _ _ _ _ _ H). lia.
Qed.
Lemma load_mono f now s f' : map_load N dec f now s <> LFuel -> (f <= f')%nat -> map_load N dec f' now s = map_load N dec f now s.
Proof.
  intros H Hf. rewrite map_load_eq in H. rewrite !map_load_eq. destruct (negb (igood s)); [reflexivity|]. destruct (peek_format s) as [fm s1]. unfold load_result in *.
  destruct (fm =? kHashedBlocks); [|destruct (fm =? kWaveletOctree); [|destruct (fm =? kHashedWaveletOctree); [|reflexivity]]].
  - unfold hb_load in *. destruct (negb (igood s1)); [reflexivity|]. destruct (r_format s1) as [x s2]. destruct (negb (x =? _)); [reflexivity|].
    destruct (r_f32 dec s2) as [w s3], (r_f32 dec s3) as [lo s4], (r_f32 dec s4) as [hi s5], (r_u64 s5) as [num s6]. destruct (negb (isValidBase _ _ _ _)); [reflexivity|].
    cbv zeta in *. destruct (hb_load_blocks dec f _ _ _ _) as [y|] eqn:E; [|contradiction]. rewrite (hb_mono _ _ _ _ _ _ E f' Hf). reflexivity.
  - unfold wo_load in *. destruct (negb (igood s1)); [reflexivity|]. destruct (r_format s1) as [x s2]. destruct (negb (x =? _)); [reflexivity|].
    destruct (r_f32 dec s2) as [w s3], (r_f32 dec s3) as [lo s4], (r_f32 dec s4) as [hi s5], (r_i32 s5) as [num s6], (r_f32 dec s6) as [sc s7]. destruct (negb (_ && _)); [reflexivity|].
    destruct (r_tree N dec f _ _ _) as [y|] eqn:E; [|contradiction]. rewrite (tree_mono _ _ _ _ _ E f' Hf). reflexivity.
  - unfold hw_load in *. destruct (negb (igood s1)); [reflexivity|]. destruct (r_format s1) as [x s2]. destruct (negb (x =? _)); [reflexivity|].
    destruct (r_f32 dec s2) as [w s3], (r_f32 dec s3) as [lo s4], (r_f32 dec s4) as [hi s5], (r_i32 s5) as [num s6], (r_u64 s6) as [sc s7]. destruct (negb (_ && _)); [reflexivity|].
    destruct (hw_load_blocks N dec f _ _ _ _) as [y|] eqn:E; [|contradiction]. rewrite (hw_mono _ _ _ _ _ _ E f' Hf). reflexivity.
Qed.
(** If the file is incomplete, loading never returns true: no map is passed off as the saved one. *)
Theorem C27_truncated_not_loaded : forall now a a' bytes part missing,
  saves a bytes -> (forall rest, loads now (bytes ++ rest) a' rest) -> bytes = part ++ missing -> missing <> [] ->
  forall fuel m s, map_load N dec fuel now (IS part true) <> LOk m s.
Proof.
  intros now a a' bytes part missing _ HL E Hm fuel m s K. pose proof (load_ok_good N dec _ _ _ _ _ K) as G. destruct s as [r g]. cbn [igood] in G. subst g.
  destruct (HL []) as (f0 & F). rewrite app_nil_r in F. pose proof (load_local N dec _ _ _ _ _ K missing) as L. rewrite <- E in L.
  assert (NF : map_load N dec fuel now (IS bytes true) <> LFuel) by (rewrite L; discriminate).
  rewrite <- (load_mono _ _ _ (max f0 fuel) NF) in L by lia. rewrite F in L by lia. injection L as _ L. symmetry in L. apply app_eq_nil in L. tauto.
Qed.
Lemma prefix_split {A} (h b p x : list A) : h ++ b = p ++ x -> (length h <= length p)%nat -> exists p', p = h ++ p' /\ b = p' ++ x.
Proof.
  revert p. induction h as [|y h IH]; intros p E L; [exists p; auto|]. destruct p as [|z p]; [cbn in L; lia|]. cbn in E. injection E as <- E.
  destruct (IH p E ltac:(cbn in L; lia)) as (p' & -> & ->). exists p'. auto.
Qed.
Definition header_length (a : any) : nat := match a with AnyHB _ _ _ => 24 | AnyWO _ _ _ => 24 | _ => 28 end.
(** If the incomplete file still contains the whole header, loading returns false and leaves the caller's map as it was. *)
Theorem C27_truncated_kept_partial : forall now a bytes part missing fuel,
  match a with
  | AnyHB w C m => header_ok w (hlo C) (hhi C) /\ Z.of_nat (length m) < 2 ^ 64
  | AnyWO w C t => header_ok w (clo C) (chi C) /\ 0 < cT C < 2 ^ 31 /\ representable (wscale t)
  | AnyHW w C m => header_ok w (clo C) (chi C) /\ 0 < cT C < 2 ^ 31 /\ Z.of_nat (length m) < 2 ^ 64
  | AnyHC w C m => header_ok w (clo C) (chi C) /\ 0 < cT C < 2 ^ 31 /\ Z.of_nat (length m) < 2 ^ 64
  | AnyOther => False
  end ->
  saves a bytes -> (exists a', forall rest, loads now (bytes ++ rest) a' rest) -> bytes = part ++ missing -> missing <> [] ->
  (header_length a <= length part)%nat -> (9 * length part + 10 <= fuel)%nat ->
  map_load N dec fuel now (IS part true) = LKept.
Proof.
  intros now a bytes part missing fuel HA HS [a' HL] E Hm Hp Hf.
  pose proof (C27_truncated_not_loaded now a a' bytes part missing HS HL E Hm fuel) as NO.
  pose proof (C27_terminates part true now fuel Hf) as NF. destruct HS as (f0 & HS). specialize (HS f0 (le_n _)).
  destruct a as [w C m|w C t|w C m|w C m|]; cbn [map_save header_length] in *; [| | | |contradiction].
  - destruct HA as [H1 H2]. unfold hb_save in HS.
    assert (EQ : (le_bytes 4 kHashedBlocks ++ w_f32 enc w ++ w_f32 enc (hlo C) ++ w_f32 enc (hhi C) ++ le_bytes 8 (Z.of_nat (length m))) ++ hb_bytes enc m = part ++ missing)
      by (rewrite <- E; unfold hb_bytes; rewrite <- !app_assoc; congruence).
    apply prefix_split in EQ; [|cbn; exact Hp]. destruct EQ as (p' & -> & _). rewrite <- !app_assoc in *. rewrite hb_load_header in * by (try exact H1; lia).
    destruct (hb_load_blocks _ _ _ _ _ _) as [[x s]|]; [|congruence]. destruct (igood s); [exfalso; eapply NO; reflexivity|reflexivity].
  - destruct HA as (H1 & H2 & H3). unfold wo_save in HS. destruct (iterate pre_next f0 _) as [l|]; [|discriminate].
    assert (EQ : (le_bytes 4 kWaveletOctree ++ w_f32 enc w ++ w_f32 enc (clo C) ++ w_f32 enc (chi C) ++ le_bytes 4 (cT C) ++ w_f32 enc (wscale t)) ++
       flat_map (fun x => w_node enc (ndata (snd x)) (child_bits (fun c => match getChild (snd x) c with Some _ => true | None => false end))) l = part ++ missing)
      by (rewrite <- E; rewrite <- !app_assoc; congruence).
    apply prefix_split in EQ; [|cbn; exact Hp]. destruct EQ as (p' & -> & _). rewrite <- !app_assoc in *. rewrite wo_load_header in * by assumption.
    destruct (r_tree _ _ _ _ _ _) as [[x s]|]; [|congruence]. destruct (igood s); [exfalso; eapply NO; reflexivity|reflexivity].
  - destruct HA as (H1 & H2 & H3). destruct (hw_save N enc f0 w C m) as [b|] eqn:Es; [|discriminate]. injection HS as <-. apply (hw_save_result N enc dec) in Es.
    rewrite E in Es. symmetry in Es. apply prefix_split in Es; [|cbn; exact Hp]. destruct Es as (p' & -> & _). destruct C as [th lo hi]. cbn [cT clo chi] in *.
    rewrite hw_load_header in * by (try assumption; lia).
    destruct (hw_load_blocks _ _ _ _ _ _ _) as [[x s]|]; [|congruence]. destruct (igood s); [exfalso; eapply NO; reflexivity|reflexivity].
  - destruct HA as (H1 & H2 & H3). unfold hc_save in HS. destruct (concat_opt _ m) as [b|]; [|discriminate]. cbn [option_map] in HS.
    assert (Es : w_hw_header enc w C (Z.of_nat (length m)) ++ b = part ++ missing) by (rewrite <- E; exact (f_equal (fun o => match o with STrue v => v | _ => [] end) HS)).
    apply prefix_split in Es; [|cbn; exact Hp]. destruct Es as (p' & -> & _). destruct C as [th lo hi]. cbn [cT clo chi] in *.
    rewrite hw_load_header in * by (try assumption; lia).
    destruct (hw_load_blocks _ _ _ _ _ _ _) as [[x s]|]; [|congruence]. destruct (igood s); [exfalso; eapply NO; reflexivity|reflexivity].
Qed.
Lemma le_bytes_value b : Forall (fun x => 0 <= x < 256) b -> le_bytes (length b) (le_value b) = b /\ 0 <= le_value b < 256 ^ Z.of_nat (length b).
Proof.
  induction b as [|x b IH]; intros H; [split; [reflexivity|cbn; lia]|]. apply Forall_cons_iff in H. destruct H as [Hx H]. destruct (IH H) as [I1 I2].
  cbn [length le_value]. rewrite le_bytes_S. rewrite Nat2Z.inj_succ, Z.pow_succ_r by lia. split; [|lia].
  replace (x + 256 * le_value b) with (x + le_value b * 256) by ring. rewrite Z.mod_add, Z.div_add, Z.mod_small, Z.div_small by lia. cbn [Z.add]. rewrite I1. reflexivity.
Qed.
(** A file whose first four bytes are not a known type, or that has less than four bytes, is refused: the caller's pointer is reset. *)
Theorem C27_unknown_type_refused : forall now fuel bytes, Forall (fun b => 0 <= b < 256) bytes ->
  (forall k, 0 <= k <= 2 -> firstn 4 bytes <> le_bytes 4 k) -> map_load N dec fuel now (IS bytes true) = LNull.
Proof.
  intros now fuel bytes HB H. rewrite map_load_eq. cbn [igood negb].
  assert (R : forall k, 0 <= k <= 2 -> fst (r_format (IS bytes true)) <> k).
  { intros k Hk. unfold r_format, iread. cbn [igood irest].
    assert (U : forall b, length b = 4%nat -> Forall (fun x => 0 <= x < 256) b -> i32 (le_value b) = k -> b = le_bytes 4 k).
    { intros b Lb Fb E. destruct (le_bytes_value b Fb) as [V1 V2]. rewrite Lb in V1, V2. rewrite <- V1. f_equal.
      change (256 ^ Z.of_nat 4) with (2 ^ 32) in V2. unfold i32 in E. set (x := le_value b) in *. clearbody x.
      pose proof (Z.div_mod (x + 2 ^ 31) (2 ^ 32) ltac:(lia)). assert (0 <= (x + 2 ^ 31) / 2 ^ 32 < 2) by (split; [apply Z.div_pos; lia|apply Z.div_lt_upper_bound; lia]). assert (Q : (x + 2 ^ 31) / 2 ^ 32 = 0 \/ (x + 2 ^ 31) / 2 ^ 32 = 1) by lia. destruct Q as [Q|Q]; rewrite Q in *; lia. }
    destruct (4 <=? length bytes)%nat eqn:L; cbn [fst].
    - apply Nat.leb_le in L. intros E. apply U in E; [exact (H k Hk E)|rewrite firstn_length; lia|]. apply Forall_forall. intros x Hx. rewrite Forall_forall in HB. apply HB.
      rewrite <- (firstn_skipn 4 bytes). apply in_or_app. auto.
    - apply Nat.leb_gt in L. intros E. apply U in E.
      + assert (K : k = 0 \/ k = 1 \/ k = 2) by lia. destruct bytes as [|b0 [|b1 [|b2 [|b3 bytes]]]]; cbn [length] in L; try lia; cbn in E; destruct K as [->|[->| ->]]; discriminate E.
      + rewrite app_length, skipn_length. change (length [255; 255; 255; 255]) with 4%nat. lia.
      + apply Forall_app. split; [exact HB|]. clear - L. destruct bytes as [|b0 [|b1 [|b2 [|b3 bytes]]]]; try (cbn [length] in L; lia); cbn [length skipn]; repeat (apply Forall_cons; [lia|]); apply Forall_nil. }
  unfold peek_format. destruct (r_format (IS bytes true)) as [f s1]. cbn [fst] in R. unfold load_result, kHashedBlocks, kWaveletOctree, kHashedWaveletOctree.
  pose proof (R 0 ltac:(lia)). pose proof (R 1 ltac:(lia)). pose proof (R 2 ltac:(lia)).
  destruct (Z.eqb_spec f 2); [congruence|]. destruct (Z.eqb_spec f 0); [congruence|]. destruct (Z.eqb_spec f 1); [congruence|]. reflexivity.
Qed.
(** A map is only ever returned with a valid configuration. *)
Theorem C27_loaded_valid : forall fuel now s m s', map_load N dec fuel now s = LOk m s' ->
  match m with
  | AnyHB w C _ => nltb N (n0 N) w = true /\ nltb N (hlo C) (hhi C) = true
  | AnyWO w C _ => nltb N (n0 N) w = true /\ nltb N (clo C) (chi C) = true /\ 0 < cT C
  | AnyHW w C _ => nltb N (n0 N) w = true /\ nltb N (clo C) (chi C) = true /\ 0 < cT C
  | _ => False
  end.
Proof.
  intros fuel now s m s' H. rewrite map_load_eq in H. destruct (negb (igood s)); [discriminate|]. destruct (peek_format s) as [fm s1]. unfold load_result in H.
  destruct (fm =? kHashedBlocks); [|destruct (fm =? kWaveletOctree); [|destruct (fm =? kHashedWaveletOctree); [|discriminate]]].
  - unfold hb_load in *. destruct (negb (igood s1)); [discriminate|]. destruct (r_format s1) as [x s2]. destruct (negb (x =? _)); [discriminate|].
    destruct (r_f32 dec s2) as [w s3], (r_f32 dec s3) as [lo s4], (r_f32 dec s4) as [hi s5], (r_u64 s5) as [num s6].
    destruct (isValidBase N w lo hi) eqn:E; cbn [negb] in H; [|discriminate].
    cbv zeta in *. destruct (hb_load_blocks dec fuel _ _ _ _) as [[y t]|]; [|discriminate]. destruct (igood t); [|discriminate]. injection H as <- _.
    apply andb_prop in E. exact E.
  - unfold wo_load in *. destruct (negb (igood s1)); [discriminate|]. destruct (r_format s1) as [x s2]. destruct (negb (x =? _)); [discriminate|].
    destruct (r_f32 dec s2) as [w s3], (r_f32 dec s3) as [lo s4], (r_f32 dec s4) as [hi s5], (r_i32 s5) as [num s6], (r_f32 dec s6) as [sc s7].
    destruct (isValidBase N w lo hi && (0 <? num)) eqn:E; cbn [negb] in H; [|discriminate].
    destruct (r_tree N dec fuel _ _ _) as [[y t]|]; [|discriminate]. destruct (igood t); [|discriminate]. injection H as <- _.
    apply andb_prop in E. destruct E as [E1 E2]. apply andb_prop in E1. apply Z.ltb_lt in E2. cbn. tauto.
  - unfold hw_load in *. destruct (negb (igood s1)); [discriminate|]. destruct (r_format s1) as [x s2]. destruct (negb (x =? _)); [discriminate|].
    destruct (r_f32 dec s2) as [w s3], (r_f32 dec s3) as [lo s4], (r_f32 dec s4) as [hi s5], (r_i32 s5) as [num s6], (r_u64 s6) as [sc s7].
    destruct (isValidBase N w lo hi && (0 <? num)) eqn:E; cbn [negb] in H; [|discriminate].
    destruct (hw_load_blocks N dec fuel _ _ _ _) as [[y t]|]; [|discriminate]. destruct (igood t); [|discriminate]. injection H as <- _.
    apply andb_prop in E. destruct E as [E1 E2]. apply andb_prop in E1. apply Z.ltb_lt in E2. cbn. tauto.
Qed.
End SPEC.

(** ** Sums over the cells of a node *)
Lemma sum_ge g n : forall a x0, a <= x0 < a + Z.of_nat n -> (forall x, a <= x < a + Z.of_nat n -> (0 <= g x)%Qc) -> (g x0 <= sum_range g a n)%Qc.
Proof.
  assert (P : forall n a, (forall x, a <= x < a + Z.of_nat n -> (0 <= g x)%Qc) -> (0 <= sum_range g a n)%Qc).
  { induction n0 as [|k IH]; intros a H; cbn [sum_range]; [qlra|]. pose proof (H a ltac:(lia)). pose proof (IH (a + 1) ltac:(intros x Hx; apply H; lia)). qlra. }
  induction n as [|n IH]; intros a x0 Hx H; [lia|]. cbn [sum_range]. destruct (Z.eq_dec x0 a) as [->|Ne].
  - pose proof (P n (a + 1) ltac:(intros x Hy; apply H; lia)). qlra.
  - pose proof (IH (a + 1) x0 ltac:(lia) ltac:(intros x Hy; apply H; lia)). pose proof (H a ltac:(lia)). qlra.
Qed.
Lemma sum_one g n : forall a x0, a <= x0 < a + Z.of_nat n -> (forall x, a <= x < a + Z.of_nat n -> x <> x0 -> g x = 0%Qc) -> sum_range g a n = g x0.
Proof.
  assert (P : forall n a, (forall x, a <= x < a + Z.of_nat n -> g x = 0%Qc) -> sum_range g a n = 0%Qc).
  { induction n0 as [|k IH]; intros a H; cbn [sum_range]; [reflexivity|]. rewrite (H a) by lia. rewrite IH; [ring|intros x Hx; apply H; lia]. }
  induction n as [|n IH]; intros a x0 Hx H; [lia|]. cbn [sum_range]. destruct (Z.eq_dec x0 a) as [->|Ne].
  - rewrite P; [ring|intros x Hy; apply H; lia].
  - rewrite (H a) by lia. rewrite (IH (a + 1) x0); [ring|lia|intros x Hy; apply H; lia].
Qed.
Lemma sum_zero n : forall a, sum_range (fun _ => 0%Qc) a n = 0%Qc.
Proof. induction n as [|n IH]; intros a; cbn [sum_range]; [reflexivity|]. rewrite IH. ring. Qed.
Lemma in_node_div h p c : 0 <= h -> in_node (OI h p) c = true <-> p = imap (fun x => x / 2 ^ h) c.
Proof.
  intros Hh. assert (P : 0 < 2 ^ h) by (apply Z.pow_pos_nonneg; lia). unfold in_node. cbn [oh opos]. destruct p as [x y z], c as [a b d]. cbn [px py pz imap].
  assert (U : forall u v, (u * 2 ^ h <=? v) && (v <? (u + 1) * 2 ^ h) = true <-> u = v / 2 ^ h).
  { intros u v. rewrite andb_true_iff, Z.leb_le, Z.ltb_lt. pose proof (Z.div_mod v (2 ^ h) ltac:(lia)). pose proof (Z.mod_pos_bound v (2 ^ h) P). split; [intros []|intros ->]; nia. }
  rewrite <- !andb_assoc, andb_assoc, andb_true_iff, U, andb_assoc, andb_true_iff, U, U. split; [intros (-> & -> & ->); reflexivity|intros E]. injection E as E1 E2 E3. auto.
Qed.
Section NODE.
Context (h : Z) (p c0 : idx3) (H0 : in_node (OI h p) c0 = true).
Let n := Z.to_nat (2 ^ h).
Lemma node_range : Z.of_nat n = 2 ^ h. Proof. unfold n. apply Z2Nat.id. apply Z.pow_nonneg. lia. Qed.
Lemma in_coords c : in_node (OI h p) c = true <->
  px p * 2 ^ h <= px c < px p * 2 ^ h + Z.of_nat n /\ py p * 2 ^ h <= py c < py p * 2 ^ h + Z.of_nat n /\ pz p * 2 ^ h <= pz c < pz p * 2 ^ h + Z.of_nat n.
Proof. rewrite node_range. unfold in_node. cbn [oh opos]. rewrite !andb_true_iff, !Z.leb_le, !Z.ltb_lt. rewrite !Z.mul_add_distr_r. lia. Qed.
Lemma cell_sum_ge g : (forall c, in_node (OI h p) c = true -> (0 <= g c)%Qc) -> (g c0 <= cell_sum g h p)%Qc.
Proof.
  intros H. unfold cell_sum. fold n. pose proof (proj1 (in_coords c0) H0) as (X & Y & W). 
  eapply Qcle_trans; [|apply (sum_ge (fun x => sum_range (fun y => sum_range (fun z => g (I3 x y z)) (pz p * 2 ^ h) n) (py p * 2 ^ h) n) n (px p * 2 ^ h) (px c0) X)].
  - eapply Qcle_trans; [|apply (sum_ge (fun y => sum_range (fun z => g (I3 (px c0) y z)) (pz p * 2 ^ h) n) n (py p * 2 ^ h) (py c0) Y)].
    + eapply Qcle_trans; [|apply (sum_ge (fun z => g (I3 (px c0) (py c0) z)) n (pz p * 2 ^ h) (pz c0) W)].
      * destruct c0. cbn. apply Qcle_refl.
      * intros z Hz. apply H. apply in_coords. cbn [px py pz]. auto.
    + intros y Hy. eapply Qcle_trans; [|apply (sum_ge (fun z => g (I3 (px c0) y z)) n (pz p * 2 ^ h) (pz c0) W)].
      * apply H. apply in_coords. cbn [px py pz]. auto.
      * intros z Hz. apply H. apply in_coords. cbn [px py pz]. auto.
  - intros x Hx. eapply Qcle_trans; [|apply (sum_ge (fun y => sum_range (fun z => g (I3 x y z)) (pz p * 2 ^ h) n) n (py p * 2 ^ h) (py c0) Y)].
    + eapply Qcle_trans; [|apply (sum_ge (fun z => g (I3 x (py c0) z)) n (pz p * 2 ^ h) (pz c0) W)].
      * apply H. apply in_coords. cbn [px py pz]. auto.
      * intros z Hz. apply H. apply in_coords. cbn [px py pz]. auto.
    + intros y Hy. eapply Qcle_trans; [|apply (sum_ge (fun z => g (I3 x y z)) n (pz p * 2 ^ h) (pz c0) W)].
      * apply H. apply in_coords. cbn [px py pz]. auto.
      * intros z Hz. apply H. apply in_coords. cbn [px py pz]. auto.
Qed.
Lemma cell_sum_one g : (forall c, in_node (OI h p) c = true -> c <> c0 -> g c = 0%Qc) -> cell_sum g h p = g c0.
Proof.
  intros H. unfold cell_sum. fold n. pose proof (proj1 (in_coords c0) H0) as (X & Y & W).
  rewrite (sum_one _ n (px p * 2 ^ h) (px c0) X).
  - rewrite (sum_one _ n (py p * 2 ^ h) (py c0) Y).
    + rewrite (sum_one _ n (pz p * 2 ^ h) (pz c0) W); [destruct c0; reflexivity|].
      intros z Hz Ne. apply H; [apply in_coords; cbn [px py pz]; auto|]. intros E. apply Ne. rewrite <- E. reflexivity.
    + intros y Hy Ne. rewrite <- (sum_zero n (pz p * 2 ^ h)). apply sum_range_ext. intros z Hz. apply H; [apply in_coords; cbn [px py pz]; auto|].
      intros E. apply Ne. rewrite <- E. reflexivity.
  - intros x Hx Ne. rewrite <- (sum_zero n (py p * 2 ^ h)). apply sum_range_ext. intros y Hy. rewrite <- (sum_zero n (pz p * 2 ^ h)). apply sum_range_ext. intros z Hz.
    apply H; [apply in_coords; cbn [px py pz]; auto|]. intros E. apply Ne. rewrite <- E. reflexivity.
Qed.
End NODE.

Lemma cell_sum_plus f g h p : 0 <= h -> cell_sum (fun c => (f c + g c)%Qc) h p = (cell_sum f h p + cell_sum g h p)%Qc.
Proof.
  intros _. unfold cell_sum. rewrite <- sum_range_plus. apply sum_range_ext. intros x _. rewrite <- sum_range_plus. apply sum_range_ext. intros y _. apply sum_range_plus.
Qed.
Lemma cell_sum_const v h p : 0 <= h -> cell_sum (fun _ => v) h p = (qz (8 ^ h) * v)%Qc.
Proof.
  intros Hh. pose proof (eval_cell_sum v (Node (dzero qn) None) 0 (Z.to_nat h) p) as E. rewrite Z2Nat.id in E by exact Hh. cbn [path eval] in E.
  rewrite q8pow_qz, Z2Nat.id in E by exact Hh. rewrite <- E. apply cell_sum_ext; [exact Hh|]. intros c _.
  assert (D : forall q v, eval v (Node (dzero qn) None) q = v).
  { intros [|c1 q] u; [reflexivity|]. cbn [eval ndata getChild nkids]. apply child_value_zero. }
  symmetry. apply D.
Qed.
(** ** C25 *)
(** The averages at which the writer stops: within 1e-3 (as a float) of a bound *)
Definition saturated_value (C : qconf) (v : Qc) : Prop := (v < clo C + Q2Qc (8589935 # 2 ^ 33))%Qc \/ (chi C - Q2Qc (8589935 # 2 ^ 33) < v)%Qc.
(** The node of height [h] that contains cell [c] *)
Definition enclosing (h : Z) (c : idx3) : oidx := OI h (I3 (px c / 2 ^ h) (py c / 2 ^ h) (pz c / 2 ^ h)).
(** What the cell reads after saving and loading a map with cell values [f]: the average of the highest enclosing node (below
    the block root) whose average is saturated, or, if there is none, the cell's own value. *)
Definition value_after_saving (C : qconf) (f : field) (c : idx3) (v : Qc) : Prop :=
  exists h, 0 <= h < cT C /\ v = node_mean f (enclosing h c) /\ (h = 0 \/ saturated_value C (node_mean f (enclosing h c))) /\
    forall h', h < h' < cT C -> ~ saturated_value C (node_mean f (enclosing h' c)).
Lemma qsat_spec C v : qsat C v = true <-> saturated_value C v.
Proof.
  unfold saturated, saturated_value. rewrite orb_true_iff. cbn [qn nltb nadd nsub neps]. change qeps with (Q2Qc (8589935 # 2 ^ 33)). rewrite !qltb_iff. reflexivity.
Qed.
Lemma value_spec C m m' c : valid_config C -> hashed_reachable C m' ->
  (exists h, 0 <= h < cT C /\ m = hw_get_node qn C m' (OI h (imap (fun x => x / 2 ^ h) c)) /\
  (h = 0 \/ qsat C (hw_get_node qn C m' (OI h (imap (fun x => x / 2 ^ h) c))) = true) /\
  forall h', h < h' < cT C -> qsat C (hw_get_node qn C m' (OI h' (imap (fun x => x / 2 ^ h') c))) = false) ->
  value_after_saving C (hw_get qn C m') c m.
Proof.
  intros HC Hr (h & H1 & H2 & H3 & H4). exists h. change (fun x => x / 2 ^ h) with (fun x => x / 2 ^ h) in *.
  assert (E : forall h, 0 <= h < cT C -> node_mean (hw_get qn C m') (enclosing h c) = hw_get_node qn C m' (OI h (imap (fun x => x / 2 ^ h) c))).
  { intros h' Hh. symmetry. apply C13_hashed_average; [exact HC|exact Hr|cbn; lia]. }
  rewrite E by lia. split; [exact H1|]. split; [exact H2|]. split; [rewrite <- qsat_spec; exact H3|].
  intros h' Hh. rewrite E by lia. rewrite <- qsat_spec. rewrite H4 by exact Hh. discriminate.
Qed.
Theorem C25_hashed_reload : forall enc dec now w C m,
  valid_config C -> hashed_reachable C m -> hashed_storable qn enc dec w C m ->
  exists m', reloads qn enc dec now (AnyHW w C m) (AnyHW w C m') /\
    (forall b, hasBlock m' b = hasBlock m b) /\ forall c, value_after_saving C (hw_get qn C m) c (hw_get qn C m' c).
Proof.
  intros enc dec now w C m HC Hr Hs. pose proof HC as [HT _]. destruct (hashed_ok C m HC Hr) as [W _].
  exists (hw_reloaded C now m). split; [apply (hw_reloads qn enc dec); try assumption; lia|]. split.
  - intros b. unfold hasBlock, hw_reloaded, hw_loaded, as_written. rewrite map_map. cbn [fst snd].
    rewrite (getBlock_map (fun b => WB (WT (norm (keep qn C (wscale (btree b)) (wroot (btree b)))) (wscale (btree b))) false false now)).
    destruct (getBlock m b); reflexivity.
  - intros c. apply value_spec; [exact HC|exact Hr|]. apply reloaded_get. exact HT.
Qed.

Lemma mean_0 (f : field) c : node_mean f (enclosing 0 c) = f c.
Proof.
  unfold enclosing. rewrite Z.pow_0_r, !Z.div_1_r. apply mean_of_sum; [cbn; lia|]. cbn [oh opos]. unfold cell_sum. rewrite Z.pow_0_r, !Z.mul_1_r.
  change (Z.to_nat 1) with 1%nat. cbn [sum_range px py pz]. destruct c as [x y z]. cbn [px py pz]. change (q8pow (Z.to_nat 0)) with 1%Qc. ring.
Qed.
(** A cell keeps its exact value if no enclosing node (of height 1 up to, but excluding, the tree height) has a saturated average. *)
Theorem C25_unsaturated_exact : forall enc dec now w C m m' c,
  valid_config C -> hashed_reachable C m -> hashed_storable qn enc dec w C m -> reloads qn enc dec now (AnyHW w C m) (AnyHW w C m') ->
  (forall h, 0 < h < cT C -> ~ saturated_value C (node_mean (hw_get qn C m) (enclosing h c))) ->
  hw_get qn C m' c = hw_get qn C m c.
Proof.
  intros enc dec now w C m m' c HC Hr Hs HL Hu. destruct (C25_hashed_reload enc dec now w C m HC Hr Hs) as (m2 & L2 & _ & V).
  pose proof (reloads_functional qn enc dec _ _ _ _ HL L2) as E. injection E as <-. destruct (V c) as (h & H1 & -> & H3 & _).
  assert (h = 0) as ->. { destruct H3 as [H3|H3]; [exact H3|]. destruct (Z.eq_dec h 0); [assumption|]. exfalso. apply (Hu h); [lia|exact H3]. }
  apply mean_0.
Qed.
(** In a map whose values are all within the bounds (as after threshold), a changed cell can move by less than
    8^h * 1e-3 in total, where h is the height of the saturated node: nothing more is promised. *)
Theorem C25_change_bounded : forall enc dec now w C m m' c,
  valid_config C -> hashed_reachable C m -> hashed_storable qn enc dec w C m -> reloads qn enc dec now (AnyHW w C m) (AnyHW w C m') ->
  (forall c', (clo C <= hw_get qn C m c')%Qc /\ (hw_get qn C m c' <= chi C)%Qc) ->
  hw_get qn C m' c = hw_get qn C m c \/
  exists h, 0 < h < cT C /\ saturated_value C (hw_get qn C m' c) /\
    (Qcabs (hw_get qn C m' c - hw_get qn C m c) < qz (8 ^ h) * Q2Qc (8589935 # 2 ^ 33))%Qc.
Proof.
  intros enc dec now w C m m' c HC Hr Hs HL Hb. destruct (C25_hashed_reload enc dec now w C m HC Hr Hs) as (m2 & L2 & _ & V).
  pose proof (reloads_functional qn enc dec _ _ _ _ HL L2) as E. injection E as <-. destruct (V c) as (h & H1 & Ev & H3 & Hn).
  destruct (Z.eq_dec h 0) as [->|Hh0].
  { left. apply (C25_unsaturated_exact enc dec now w C m m' c HC Hr Hs HL). intros h Hh. apply Hn. lia. }
  assert (Hp : 0 <= h) by lia. right. destruct H3 as [H3|H3]; [lia|]. exists h. split; [lia|]. rewrite <- Ev in H3. split; [exact H3|].
  set (f := hw_get qn C m) in *. assert (N0 : in_node (enclosing h c) c = true) by (apply (in_node_div h _ c); [lia|reflexivity]).
  pose proof (cell_sum_ge h (opos (enclosing h c)) c N0 (fun c => (f c + - clo C)%Qc)) as G1.
  pose proof (cell_sum_ge h (opos (enclosing h c)) c N0 (fun c => (- f c + chi C)%Qc)) as G2. cbv beta in G1, G2.
  rewrite cell_sum_plus in G1, G2 by lia. rewrite cell_sum_const in G1, G2 by lia.
  assert (G3 : (cell_sum f h (opos (enclosing h c)) + cell_sum (fun c => - f c) h (opos (enclosing h c)))%Qc = 0%Qc).
  { rewrite <- cell_sum_plus by lia. rewrite (cell_sum_ext _ (fun _ => 0%Qc)); [|lia|intros c' _; ring]. rewrite cell_sum_const by lia. apply Qcmult_0_r. }
  assert (EM : cell_sum f h (opos (enclosing h c)) = (qz (8 ^ h) * hw_get qn C m' c)%Qc).
  { rewrite Ev. unfold node_mean. change (oh (enclosing h c)) with h. generalize (cell_sum f h (opos (enclosing h c))). intros x. rewrite Qcmult_div_r; [reflexivity|apply qz8_neq0; lia]. }
  specialize (G1 ltac:(intros c' _; destruct (Hb c'); qlra)). specialize (G2 ltac:(intros c' _; destruct (Hb c'); qlra)).
  assert (P8 : (1 <= qz (8 ^ h))%Qc) by (change 1%Qc with (qz 1); apply (proj1 (qz_le 1 (8 ^ h))); apply (Z.pow_le_mono_r 8 0 h); lia).
  unfold saturated_value in H3. set (k := qz (8 ^ h)) in *. set (v := hw_get qn C m' c) in *. set (e := Q2Qc (8589935 # 2 ^ 33)) in *.
  assert (Pe : (0 < e)%Qc) by reflexivity. destruct (Hb c) as [Hb1 Hb2]. change (hw_get qn C m c) with (f c) in *. rewrite EM in *.
  assert (G2' : (- f c + chi C <= - (k * v) + k * chi C)%Qc) by qlra. clear G2 G3. clearbody k v e. clear - G1 G2' P8 Pe H3 Hb1 Hb2.
  assert (U1 : (k * (v - clo C) >= f c - clo C)%Qc) by (clear - G1; replace (k * (v - clo C))%Qc with (k * v + k * - clo C)%Qc by ring; qlra).
  assert (U2 : (k * (chi C - v) >= chi C - f c)%Qc) by (clear - G2'; replace (k * (chi C - v))%Qc with (- (k * v) + k * chi C)%Qc by ring; qlra).
  assert (K : forall d, (0 <= d)%Qc -> (d < e)%Qc -> (k * d < k * e)%Qc).
  { intros d _ D. rewrite !(Qcmult_comm k). apply Qcmult_lt_compat_r; [qlra|exact D]. }
  assert (K1 : forall d, (0 <= d)%Qc -> (d <= k * d)%Qc).
  { intros d D. rewrite <- (Qcmult_1_l d) at 1. apply Qcmult_le_compat_r; assumption. }
  assert (V1 : (clo C <= v)%Qc).
  { destruct (Qclt_le_dec v (clo C)) as [L|L]; [|exact L]. exfalso. assert (X : (0 <= clo C - v)%Qc) by qlra. apply K1 in X.
    replace (k * (clo C - v))%Qc with (- (k * (v - clo C)))%Qc in X by ring. qlra. }
  assert (V2 : (v <= chi C)%Qc).
  { destruct (Qclt_le_dec (chi C) v) as [L|L]; [|exact L]. exfalso. assert (X : (0 <= v - chi C)%Qc) by qlra. apply K1 in X.
    replace (k * (v - chi C))%Qc with (- (k * (chi C - v)))%Qc in X by ring. qlra. }
  assert (Ke := K1 e ltac:(qlra)).
  destruct H3 as [H3|H3].
  - assert (X := K (v - clo C)%Qc ltac:(qlra) ltac:(qlra)). apply Qcabs_case; intros; qlra.
  - assert (X := K (chi C - v)%Qc ltac:(qlra) ltac:(qlra)). apply Qcabs_case; intros; qlra.
Qed.
(** A fully occupied cell whose surrounding node is otherwise fully free reads (almost) fully free after saving and loading, whenever
    (hi - lo) / 8^(T-1) is less than 1e-3. For the default configuration (T = 6, lo = -2, hi = 4) it is 6 / 32768. *)
Theorem C25_obstacle_lost : forall enc dec now w C m m' c0,
  valid_config C -> hashed_reachable C m -> hashed_storable qn enc dec w C m -> reloads qn enc dec now (AnyHW w C m) (AnyHW w C m') ->
  2 <= cT C -> (chi C - clo C < qz (8 ^ (cT C - 1)) * Q2Qc (8589935 # 2 ^ 33))%Qc ->
  hw_get qn C m c0 = chi C -> (forall c, in_node (enclosing (cT C - 1) c0) c = true -> c <> c0 -> hw_get qn C m c = clo C) ->
  hw_get qn C m' c0 = (clo C + (chi C - clo C) / qz (8 ^ (cT C - 1)))%Qc.
Proof.
  intros enc dec now w C m m' c0 HC Hr Hs HL HT Hd E0 E1. destruct (C25_hashed_reload enc dec now w C m HC Hr Hs) as (m2 & L2 & _ & V).
  pose proof (reloads_functional qn enc dec _ _ _ _ HL L2) as E. injection E as <-. destruct (V c0) as (h & H1 & Ev & H3 & Hn). clear V L2 HL.
  set (t := cT C - 1) in *. assert (N0 : in_node (enclosing t c0) c0 = true) by (apply (in_node_div t _ c0); [lia|reflexivity]).
  assert (P8 : (0 < qz (8 ^ t))%Qc).
  { apply (Qclt_le_trans _ 1); [reflexivity|]. change 1%Qc with (qz 1). apply (proj1 (qz_le 1 (8 ^ t))). apply (Z.pow_le_mono_r 8 0 t); lia. }
  assert (EM : node_mean (hw_get qn C m) (enclosing t c0) = (clo C + (chi C - clo C) / qz (8 ^ t))%Qc).
  { set (f := hw_get qn C m) in *. change (node_mean f (enclosing t c0)) with (cell_sum f t (opos (enclosing t c0)) / qz (8 ^ t))%Qc.
    rewrite (cell_sum_ext f (fun c => (clo C + (f c - clo C))%Qc)); [|lia|intros c _; ring]. rewrite cell_sum_plus, cell_sum_const by lia.
    rewrite (cell_sum_one t (opos (enclosing t c0)) c0 N0).
    - rewrite E0. field. intros K. rewrite K in P8. exact (Qclt_not_eq _ _ P8 eq_refl).
    - intros c Hc Hne. rewrite (E1 c Hc Hne). ring. }
  assert (HS : saturated_value C (node_mean (hw_get qn C m) (enclosing t c0))).
  { left. rewrite EM. assert (X : ((chi C - clo C) / qz (8 ^ t) < Q2Qc (8589935 # 2 ^ 33))%Qc).
    { destruct (Qclt_le_dec ((chi C - clo C) / qz (8 ^ t)) (Q2Qc (8589935 # 2 ^ 33))) as [L|L]; [exact L|exfalso].
      apply (Qcmult_le_compat_r _ _ (qz (8 ^ t))) in L; [|apply Qclt_le_weak; exact P8].
      replace ((chi C - clo C) / qz (8 ^ t) * qz (8 ^ t))%Qc with (chi C - clo C)%Qc in L by (field; intros K; rewrite K in P8; exact (Qclt_not_eq _ _ P8 eq_refl)).
      rewrite Qcmult_comm in Hd. exact (Qclt_not_le _ _ Hd L). }
    qlra. }
  assert (h = t) as ->; [|rewrite Ev; exact EM]. destruct (Z.eq_dec h t) as [|Ne]; [assumption|exfalso]. apply (Hn t); [lia|exact HS].
Qed.
(** Such maps exist for every configuration. *)
Definition zspan (a : Z) (n : Z) : list Z := map (fun k => a + Z.of_nat k) (seq 0 (Z.to_nat n)).
Lemma zspan_in a n x : 0 <= n -> In x (zspan a n) <-> a <= x < a + n.
Proof.
  intros Hn. unfold zspan. rewrite in_map_iff. split.
  - intros (k & <- & H). apply in_seq in H. lia.
  - intros H. exists (Z.to_nat (x - a)). split; [lia|]. apply in_seq. lia.
Qed.
Definition cell_dec (a b : idx3) : {a = b} + {a <> b}.
Proof. decide equality; apply Z.eq_dec. Defined.
Definition node_cells (i : oidx) : list idx3 :=
  nodup cell_dec (map (fun xyz => I3 (fst (fst xyz)) (snd (fst xyz)) (snd xyz))
    (list_prod (list_prod (zspan (px (opos i) * 2 ^ oh i) (2 ^ oh i)) (zspan (py (opos i) * 2 ^ oh i) (2 ^ oh i))) (zspan (pz (opos i) * 2 ^ oh i) (2 ^ oh i)))).
Lemma node_cells_in i c : 0 <= oh i -> In c (node_cells i) <-> in_node i c = true.
Proof.
  intros H. assert (P := Z.pow_nonneg 2 (oh i) ltac:(lia)). unfold node_cells. rewrite nodup_In, in_map_iff. unfold in_node. rewrite !andb_true_iff, !Z.leb_le, !Z.ltb_lt, !Z.mul_add_distr_r.
  split.
  - intros ([[x y] z] & <- & Hi). apply in_prod_iff in Hi. destruct Hi as [Hi Hz]. apply in_prod_iff in Hi. destruct Hi as [Hx Hy].
    apply zspan_in in Hx, Hy, Hz; try exact P. cbn [fst snd px py pz]. lia.
  - intros Hc. destruct c as [x y z]. cbn [px py pz] in Hc. exists ((x, y), z). split; [reflexivity|].
    apply in_prod_iff. split; [apply in_prod_iff; split|]; apply zspan_in; lia.
Qed.
(** Add [lo] to every cell of the node, then [hi - lo] to one of them. *)
Definition obstacle_history (C : qconf) (c0 : idx3) : list (Z * idx3 * Qc) :=
  map (fun c => (0, c, clo C)) (node_cells (enclosing (cT C - 1) c0)) ++ [(0, c0, (chi C - clo C)%Qc)].
Definition obstacle_map (C : qconf) (c0 : idx3) : hmap := hw_run C (map (fun x => let '(now, i, u) := x in (now, HAdd i u)) (obstacle_history C c0)).
Lemma in_cell i c : in_node (cell i) c = true <-> i = c.
Proof. unfold cell. rewrite in_node_div by lia. unfold imap. rewrite Z.pow_0_r, !Z.div_1_r. destruct c; reflexivity. Qed.
Lemma increments_app l1 l2 c : increments_at (l1 ++ l2) c = (increments_at l1 c + increments_at l2 c)%Qc.
Proof. induction l1 as [|[i u] l1 IH]; cbn [increments_at app]; [ring|]. rewrite IH. destruct (in_node i c); ring. Qed.
Lemma increments_same u l c : NoDup l -> increments_at (map (fun i => (cell i, u)) l) c = if in_dec idx3_eq_dec c l then u else 0%Qc.
Proof.
  induction l as [|i l IH]; intros H; cbn [map increments_at]; [reflexivity|]. inversion_clear H as [|? ? Hi Hl]. rewrite IH by exact Hl.
  destruct (in_node (cell i) c) eqn:E.
  - apply in_cell in E. subst i. destruct (in_dec idx3_eq_dec c l); [contradiction|]. destruct (in_dec _ c (c :: l)) as [|K]; [ring|exfalso; apply K; left; reflexivity].
  - assert (i <> c) by (intros ->; rewrite (proj2 (in_cell c c) eq_refl) in E; discriminate).
    destruct (in_dec idx3_eq_dec c l) as [A|A], (in_dec idx3_eq_dec c (i :: l)) as [B|B]; try reflexivity; exfalso; [apply B; right; exact A|destruct B; contradiction].
Qed.
Theorem C25_obstacle_reachable : forall C c0, valid_config C -> let m := obstacle_map C c0 in
  hashed_reachable C m /\ hw_get qn C m c0 = chi C /\
  forall c, c <> c0 -> hw_get qn C m c = if in_node (enclosing (cT C - 1) c0) c then clo C else 0%Qc.
Proof.
  intros C c0 HC m. split; [eexists; reflexivity|].
  assert (G : forall c, hw_get qn C m c = ((if in_dec idx3_eq_dec c (node_cells (enclosing (cT C - 1) c0)) then clo C else 0) + (if in_node (cell c0) c then chi C - clo C else 0))%Qc).
  { intros c. unfold m, obstacle_map. rewrite C12_hashed_accumulates by exact HC. unfold obstacle_history. rewrite map_app, increments_app, map_map.
    rewrite increments_same by apply NoDup_nodup. cbn [map increments_at]. destruct (in_node (cell c0) c); ring. }
  pose proof HC as [HT _]. assert (I : forall c, In c (node_cells (enclosing (cT C - 1) c0)) <-> in_node (enclosing (cT C - 1) c0) c = true)
    by (intros c; apply node_cells_in; cbn; lia).
  assert (N0 : in_node (enclosing (cT C - 1) c0) c0 = true) by (apply (in_node_div (cT C - 1) _ c0); [lia|reflexivity]).
  split.
  - rewrite G. rewrite (proj2 (in_cell c0 c0) eq_refl). destruct (in_dec _ c0 _) as [_|K]; [ring|exfalso; apply K, I; exact N0].
  - intros c Hc. rewrite G. destruct (in_node (cell c0) c) eqn:E; [apply in_cell in E; congruence|].
    destruct (in_dec _ c _) as [A|A]; [apply I in A; rewrite A; ring|]. destruct (in_node (enclosing _ _) c) eqn:B; [exfalso; apply A, I; exact B|ring].
Qed.
(** ** C26 *)
(** The nodes of a chunked tree below a node: itself, its children, their children, ... *)
Inductive chunk_below (root : chunk (det Qc)) : nref -> nref -> Prop :=
| CBself r : chunk_below root r r
| CBchild r c r1 r' : 0 <= c < 8 -> nr_getChild kChunkHeight root r c = Some r1 -> chunk_below root r1 r' -> chunk_below root r r'.
(** What a hashed chunked wavelet octree must satisfy to be written: all its coefficients are floats *)
Definition chunked_storable (enc : Qc -> Z) (dec : Z -> Qc) (w : Qc) (C : qconf) (m : cmap (V := Qc)) : Prop :=
  header_ok qn enc dec w (clo C) (chi C) /\ Z.of_nat (length m) < 2 ^ 64 /\
  forall k b, In (k, b) m -> i32_index k /\ representable enc dec (cscale (cbtree b)) /\
    forall r, chunk_below (croot (cbtree b)) nr_root r -> Forall (representable enc dec) (dlist (nr_data (dzero qn) (croot (cbtree b)) r)).
Lemma mat_data root : forall p k q n x, valid_path q -> valid_path p -> nheight k n -> csub root q (Some n) -> nlook p (mat k root q) = Some x ->
  exists r, chunk_below root (caddr q) r /\ ndata x = nr_data cz root r.
Proof.
  induction p as [|c p IH]; intros k q n x Hq Hp Hn S H; cbn [nlook] in H.
  - injection H as <-. exists (caddr q). split; [constructor|]. destruct k; reflexivity.
  - apply Forall_cons_iff in Hp. destruct Hp as [Hc Hp]. pose proof (mat_child k root q n c Hq Hc Hn S) as M.
    destruct (nr_getChild cH root (caddr q) c) as [r|] eqn:E.
    + destruct M as (-> & k' & _ & Eg & Hn' & S'). rewrite Eg in H. destruct (IH k' (q ++ [c]) _ x (valid_snoc q c Hq Hc) Hp Hn' S' H) as (r & R1 & R2).
      exists r. split; [|exact R2]. econstructor; [exact Hc|exact E|exact R1].
    + destruct M as [M _]. rewrite M in H. discriminate.
Qed.
Lemma mrel_in C m h : mrel C m h -> forall k b, In (k, b) m -> exists b', brel C b b'.
Proof.
  induction 1 as [|[k1 b1] [k2 b2] m h [E B] R IH]; intros k b H; [destruct H|]. destruct H as [H|H]; [|eapply IH; exact H]. injection H as <- <-. exists b2. exact B.
Qed.
Lemma mat_storable enc dec w C m h : mrel C m h -> chunked_storable enc dec w C m -> hashed_storable qn enc dec w C (mat_map C m).
Proof.
  intros R (H1 & H2 & H3). split; [exact H1|]. split; [unfold mat_map; rewrite map_length; exact H2|].
  intros k b Hi. unfold mat_map in Hi. apply in_map_iff in Hi. destruct Hi as ([k' b'] & E & Hi). injection E as <- <-. cbn [fst snd].
  destruct (H3 k' b' Hi) as (B1 & B2 & B3). split; [exact B1|]. split; [exact B2|]. intros q x Hq Hx. cbn [mat_block btree wroot] in Hx.
  destruct (mrel_in C m h R k' b' Hi) as (bw & ((S & _ & Hn) & _)).
  destruct (mat_data (croot (cbtree b')) q _ [] _ x ltac:(constructor) Hq Hn S Hx) as (r & R1 & ->). apply B3. exact R1.
Qed.
(** A chunked map is loaded as a hashed map with the same blocks, and its cells read what the common rule says. *)
Theorem C26_chunked_reload : forall enc dec now w C fuel m,
  valid_config C -> (Z.to_nat (cT C) <= fuel)%nat -> chunked_reachable fuel C m -> chunked_storable enc dec w C m ->
  exists m', reloads qn enc dec now (AnyHC w C m) (AnyHW w C m') /\
    (forall b, hasBlock m' b = hasBlock m b) /\ forall c, value_after_saving C (hc_get qn C m) c (hw_get qn C m' c).
Proof.
  intros enc dec now w C fuel m HC Hf Hr Hs. destruct (chunked_sim fuel C m HC Hf Hr) as (h & Hh & R). pose proof HC as [HT _].
  assert (W : hwf (mat_map C m)).
  { unfold hwf. rewrite mat_keys. rewrite (mrel_keys C m h R). apply (hashed_ok C h HC Hh). }
  exists (hw_reloaded C now (mat_map C m)). split; [|split].
  - destruct (hw_reloads qn enc dec now w C (mat_map C m) (mat_storable _ _ _ _ _ h R Hs) ltac:(lia) W) as (bytes & (f0 & S) & L).
    exists bytes. split; [|exact L]. exists f0. intros f Hg. specialize (S f Hg). cbn [map_save] in *. rewrite (hc_save_eq enc C f w m h R). exact S.
  - intros b. unfold hasBlock, hw_reloaded, hw_loaded, as_written. rewrite map_map. cbn [fst snd].
    rewrite (getBlock_map (fun b => WB (WT (norm (keep qn C (wscale (btree b)) (wroot (btree b)))) (wscale (btree b))) false false now)).
    rewrite getBlock_mat. destruct (getBlock m b); reflexivity.
  - intros c. destruct (reloaded_get C now (mat_map C m) c HT) as (k & K1 & K2 & K3 & K4).
    assert (E : forall i, 0 <= oh i <= cT C -> hw_get_node qn C (mat_map C m) i = node_mean (hc_get qn C m) i).
    { intros i Hi. rewrite (mat_get fuel C HT Hf m h i R Hi). apply (C13_chunked_average fuel C m i HC Hf Hr Hi). }
    exists k. rewrite E in K2, K3 by (cbn; lia). change (I3 (px c / 2 ^ k) (py c / 2 ^ k) (pz c / 2 ^ k)) with (imap (fun x => x / 2 ^ k) c).
    split; [exact K1|]. split; [exact K2|]. split; [rewrite <- qsat_spec; exact K3|]. intros h' Hh'. specialize (K4 h' Hh'). rewrite E in K4 by (cbn; lia).
    rewrite <- qsat_spec. change (enclosing h' c) with (OI h' (imap (fun x => x / 2 ^ h') c)). rewrite K4. discriminate.
Qed.
(** The rule determines the value. *)
Lemma value_functional C f g c v v' : (forall i, node_mean f i = node_mean g i) -> value_after_saving C f c v -> value_after_saving C g c v' -> v = v'.
Proof.
  intros E (h & A1 & A2 & A3 & A4) (h' & B1 & B2 & B3 & B4). assert (h = h').
  { destruct (Z.lt_trichotomy h h') as [L|[L|L]]; [|exact L|]; exfalso.
    - destruct B3 as [B3|B3]; [lia|]. apply (A4 h'); [lia|]. rewrite E. exact B3.
    - destruct A3 as [A3|A3]; [lia|]. apply (B4 h); [lia|]. rewrite <- E. exact A3. }
  subst h' v v'. apply E.
Qed.
(** The same history executed on the chunked and on the hashed map, saved and loaded: every cell reads the same in both. *)
Theorem C26_same_as_hashed : forall enc dec now now' w C fuel l m1 m2 c,
  valid_config C -> (Z.to_nat (cT C) <= fuel)%nat ->
  chunked_storable enc dec w C (hc_run fuel C l) -> hashed_storable qn enc dec w C (hw_run C l) ->
  reloads qn enc dec now (AnyHC w C (hc_run fuel C l)) (AnyHW w C m1) -> reloads qn enc dec now' (AnyHW w C (hw_run C l)) (AnyHW w C m2) ->
  hw_get qn C m1 c = hw_get qn C m2 c.
Proof.
  intros enc dec now now' w C fuel l m1 m2 c HC Hf S1 S2 L1 L2.
  destruct (C26_chunked_reload enc dec now w C fuel (hc_run fuel C l) HC Hf ltac:(eexists; reflexivity) S1) as (x1 & X1 & _ & V1).
  destruct (C25_hashed_reload enc dec now' w C (hw_run C l) HC ltac:(eexists; reflexivity) S2) as (x2 & X2 & _ & V2).
  pose proof (reloads_functional qn enc dec _ _ _ _ L1 X1) as E1. injection E1 as <-. pose proof (reloads_functional qn enc dec _ _ _ _ L2 X2) as E2. injection E2 as <-.
  eapply value_functional; [|apply V1|apply V2]. intros i. unfold node_mean. f_equal. unfold cell_sum.
  apply sum_range_ext. intros x _. apply sum_range_ext. intros y _. apply sum_range_ext. intros z _.
  apply (mrel_get fuel C (proj1 HC) Hf). apply mrel_run; [exact (proj1 HC)|exact Hf].
Qed.

(** ** Examples and refutations *)
(** A 32-bit code for multiples of 2^-20, as a stand-in for the float format *)
Definition fx_enc (v : Qc) : Z := Qfloor (this v * (2 ^ 20 # 1)) mod 2 ^ 32.
Definition fx_dec (z : Z) : Qc := Q2Qc (i32 z # 2 ^ 20).
Definition fx_ok (v : Qc) : bool := (0 <=? fx_enc v) && (fx_enc v <? 2 ^ 32) && Qeq_bool (this (fx_dec (fx_enc v))) (this v).
Lemma fx_ok_spec v : fx_ok v = true -> representable fx_enc fx_dec v.
Proof.
  unfold fx_ok. rewrite !andb_true_iff. intros [[H1 H2] H3]. apply Z.leb_le in H1. apply Z.ltb_lt in H2. apply Qeq_bool_iff in H3.
  split; [split; assumption|]. apply Qc_is_canon. exact H3.
Qed.
Lemma fx_all l : forallb fx_ok l = true -> Forall (representable fx_enc fx_dec) l.
Proof. intros H. apply Forall_forall. intros v Hv. apply fx_ok_spec. rewrite forallb_forall in H. apply H. exact Hv. Qed.
Definition fx_tree (n : node (det Qc)) : bool := forallb (fun x => forallb fx_ok (dlist (ndata (snd x)))) (preL ([], n)).
Lemma nlook_node_at q : forall n x : node (det Qc), valid_path q -> nlook q n = Some x -> node_at n q = Some x.
Proof.
  induction q as [|c q IH]; intros n x Hq H; [exact H|]. apply Forall_cons_iff in Hq. destruct Hq as [Hc Hq]. cbn [nlook node_at] in *.
  replace ((0 <=? c) && (c <? 8)) with true by lia. destruct (getChild n c); [apply IH; assumption|discriminate].
Qed.
Lemma fx_tree_spec n : fx_tree n = true -> tree_representable fx_enc fx_dec n.
Proof.
  intros H q x Hq Hx. unfold fx_tree in H. rewrite forallb_forall in H. apply fx_all. apply (H (q, x)). apply preL_in. exists q. split; [reflexivity|].
  apply nlook_node_at; assumption.
Qed.
Definition i32_ok (i : idx3) : bool := forallb (fun x => (- 2 ^ 31 <=? x) && (x <? 2 ^ 31)) [px i; py i; pz i].
Lemma i32_ok_spec i : i32_ok i = true -> i32_index i.
Proof. unfold i32_ok, i32_index. cbn [forallb]. rewrite !andb_true_iff, !Z.leb_le, !Z.ltb_lt. lia. Qed.
Definition fx_header (w lo hi : Qc) : bool := qltb 0%Qc w && qltb lo hi && fx_ok w && fx_ok lo && fx_ok hi.
Lemma fx_header_spec w lo hi : fx_header w lo hi = true -> header_ok qn fx_enc fx_dec w lo hi.
Proof. unfold fx_header. rewrite !andb_true_iff. intros [[[[H1 H2] H3] H4] H5]. repeat split; try assumption; apply fx_ok_spec; assumption. Qed.
Definition fx_hashed (w : Qc) (C : qconf) (m : hmap (V := Qc)) : bool :=
  fx_header w (clo C) (chi C) && (Z.of_nat (length m) <? 2 ^ 64) &&
  forallb (fun kb => i32_ok (fst kb) && fx_ok (wscale (btree (snd kb))) && fx_tree (wroot (btree (snd kb)))) m.
Lemma fx_hashed_spec w C m : fx_hashed w C m = true -> hashed_storable qn fx_enc fx_dec w C m.
Proof.
  unfold fx_hashed. rewrite !andb_true_iff. intros [[H1 H2] H3]. split; [apply fx_header_spec; exact H1|]. split; [apply Z.ltb_lt; exact H2|].
  intros k b Hi. rewrite forallb_forall in H3. specialize (H3 _ Hi). cbn [fst snd] in H3. rewrite !andb_true_iff in H3. destruct H3 as [[H3 H4] H5].
  split; [apply i32_ok_spec; exact H3|]. split; [apply fx_ok_spec; exact H4|apply fx_tree_spec; exact H5].
Qed.
Definition qh : Qc := Q2Qc (1 # 2).

(** C23: a map with two blocks and non-trivial values *)
Definition ex23C : hbconfig Qc := HBC (- Q2Qc 2)%Qc (Q2Qc 4) 0%Qc 4.
Definition ex23l : list (hbcall Qc) := [HBSet (I3 1 (-2) 3) (Q2Qc 3); HBAdd (I3 17 2 40) (Q2Qc (-5 # 4)); HBThreshold].
Example C23_example : reloads qn fx_enc fx_dec 7 (AnyHB qh ex23C (hb_run qn ex23C ex23l)) (AnyHB qh ex23C (hb_run qn ex23C ex23l)) /\
  length (hb_run qn ex23C ex23l) = 2%nat /\ hb_get ex23C (hb_run qn ex23C ex23l) (I3 17 2 40) = Q2Qc (-5 # 4).
Proof.
  split; [|split; [vm_compute; reflexivity|apply Qc_is_canon; vm_compute; reflexivity]].
  apply C23_hashed_blocks_roundtrip_partial; [reflexivity|reflexivity|apply fx_header_spec; vm_compute; reflexivity|vm_compute; reflexivity|].
  assert (H : forallb (fun kb => i32_ok (fst kb) && forallb fx_ok (snd kb)) (hb_run qn ex23C ex23l) = true) by (vm_compute; reflexivity).
  intros k b Hb. apply getBlock_In in Hb. rewrite forallb_forall in H. specialize (H _ Hb). cbn [fst snd] in H. apply andb_prop in H. destruct H as [H1 H2].
  split; [apply i32_ok_spec; exact H1|apply fx_all; exact H2].
Qed.
(** The default value of unobserved cells is not written: a map with a non-zero default value (as used by the distance field generators)
    changes. *)
Theorem C23_default_value_lost_refuted : exists (C : hbconfig Qc) l C' m' c,
  hK C = 4 /\ header_ok qn fx_enc fx_dec qh (hlo C) (hhi C) /\ representable fx_enc fx_dec (hdef C) /\
  reloads qn fx_enc fx_dec 7 (AnyHB qh C (hb_run qn C l)) (AnyHB qh C' m') /\ hb_get C (hb_run qn C l) c = Q2Qc 2 /\ hb_get C' m' c = 0%Qc.
Proof.
  exists (HBC (- Q2Qc 2)%Qc (Q2Qc 4) (Q2Qc 2) 4), [], (HBC (- Q2Qc 2)%Qc (Q2Qc 4) 0%Qc 4), [], (I3 0 0 0).
  split; [reflexivity|]. split; [apply fx_header_spec; vm_compute; reflexivity|]. split; [apply fx_ok_spec; vm_compute; reflexivity|].
  split; [|split; reflexivity]. exists (hb_save fx_enc qh (HBC (- Q2Qc 2)%Qc (Q2Qc 4) (Q2Qc 2) 4) []). split; [exists O; reflexivity|].
  intros rest. exists O. intros f _. unfold hb_save. rewrite <- !app_assoc. rewrite hb_load_header; [destruct f; reflexivity|apply fx_header_spec; vm_compute; reflexivity|cbn; lia].
Qed.
(** C24 *)
Example C24_example : exists t', reloads qn fx_enc fx_dec 7 (AnyWO qh exC (wo_run exC exl)) (AnyWO qh exC t') /\
  same_tree (wroot t') (wroot (wo_run exC exl)) /\ wo_get qn exC t' (OI 0 (I3 1 (-2) 3)) = wo_get qn exC (wo_run exC exl) (OI 0 (I3 1 (-2) 3)) /\
  nsize (wroot (wo_run exC exl)) = 3%nat.
Proof.
  destruct (C24_wavelet_octree_roundtrip qn fx_enc fx_dec 7 qh exC (wo_run exC exl)) as (t' & R & _ & S & G).
  - apply fx_header_spec. vm_compute. reflexivity.
  - cbn. lia.
  - apply fx_ok_spec. vm_compute. reflexivity.
  - apply fx_tree_spec. vm_compute. reflexivity.
  - exists t'. split; [exact R|]. split; [exact S|]. split; [apply G|]. vm_compute. reflexivity.
Qed.
(** C25 *)
Example C25_example : exists m', reloads qn fx_enc fx_dec 7 (AnyHW qh exC (hw_run exC exh)) (AnyHW qh exC m') /\
  (forall c, value_after_saving exC (hw_get qn exC (hw_run exC exh)) c (hw_get qn exC m' c)) /\
  hw_get qn exC m' (I3 1 (-2) 3) = hw_get qn exC (hw_run exC exh) (I3 1 (-2) 3).
Proof.
  assert (HR : hashed_reachable exC (hw_run exC exh)) by (eexists; reflexivity).
  assert (HS : hashed_storable qn fx_enc fx_dec qh exC (hw_run exC exh)) by (apply fx_hashed_spec; vm_compute; reflexivity).
  destruct (C25_hashed_reload fx_enc fx_dec 7 qh exC (hw_run exC exh) exC_valid HR HS) as (m' & R & _ & G).
  exists m'. split; [exact R|]. split; [exact G|]. apply (C25_unsaturated_exact fx_enc fx_dec 7 qh exC _ m' _ exC_valid HR HS R).
  intros h Hh. cbn in Hh. rewrite <- qsat_spec. rewrite <- (C13_hashed_average exC _ _ exC_valid HR) by (cbn; lia).
  assert (h = 1 \/ h = 2) as [-> | ->] by lia; vm_compute; discriminate.
Qed.
(** Saving and loading can turn a fully occupied cell into a free one, although all values are within the bounds. *)
Definition ex25C : qconf := WC 3 (Q2Qc (-1 # 64)) (Q2Qc (1 # 32)).
Theorem C25_occupied_becomes_free_refuted : exists C m m' c,
  valid_config C /\ hashed_reachable C m /\ hashed_storable qn fx_enc fx_dec qh C m /\
  (forall c', (clo C <= hw_get qn C m c')%Qc /\ (hw_get qn C m c' <= chi C)%Qc) /\
  reloads qn fx_enc fx_dec 7 (AnyHW qh C m) (AnyHW qh C m') /\
  hw_get qn C m c = chi C /\ (0 < hw_get qn C m c)%Qc /\ (hw_get qn C m' c < 0)%Qc.
Proof.
  set (c0 := I3 0 0 0). assert (HC : valid_config ex25C) by (split; [cbn; lia|reflexivity]).
  destruct (C25_obstacle_reachable ex25C c0 HC) as (HR & G0 & G1). set (m := obstacle_map ex25C c0) in *.
  assert (HS : hashed_storable qn fx_enc fx_dec qh ex25C m) by (apply fx_hashed_spec; vm_compute; reflexivity).
  destruct (C25_hashed_reload fx_enc fx_dec 7 qh ex25C m HC HR HS) as (m' & R & _).
  exists ex25C, m, m', c0. split; [exact HC|]. split; [exact HR|]. split; [exact HS|]. split; [|split; [exact R|split; [exact G0|]]].
  - intros c'. destruct (idx3_eq_dec c' c0) as [->|Ne]; [rewrite G0; split; vm_compute; discriminate|]. rewrite (G1 c' Ne).
    destruct (in_node _ c'); split; vm_compute; discriminate.
  - split; [rewrite G0; reflexivity|].
    rewrite (C25_obstacle_lost fx_enc fx_dec 7 qh ex25C m m' c0 HC HR HS R); [reflexivity|cbn; lia|reflexivity|exact G0|].
    intros c Hc Hne. rewrite (G1 c Hne). rewrite Hc. reflexivity.
Qed.
(** The arithmetic condition of [C25_obstacle_lost] holds for the default configuration. *)
Example C25_default_config : let C : qconf := WC 6 (- Q2Qc 2)%Qc (Q2Qc 4) in
  valid_config C /\ (chi C - clo C < qz (8 ^ (cT C - 1)) * Q2Qc (8589935 # 2 ^ 33))%Qc /\ ((clo C + (chi C - clo C) / qz (8 ^ (cT C - 1))) < 0)%Qc.
Proof. split; [split; [cbn; lia|reflexivity]|split; reflexivity]. Qed.
(** C26 *)
Fixpoint fx_chunk (fuel : nat) (root : chunk (det Qc)) (r : nref) : bool :=
  match fuel with
  | O => false
  | S f => forallb fx_ok (dlist (nr_data (dzero qn) root r)) &&
      forallb (fun c => match nr_getChild kChunkHeight root r c with Some r1 => fx_chunk f root r1 | None => true end) child_ids
  end.
Lemma fx_chunk_spec root fuel : forall r r', fx_chunk fuel root r = true -> chunk_below root r r' -> Forall (representable fx_enc fx_dec) (dlist (nr_data (dzero qn) root r')).
Proof.
  induction fuel as [|fuel IH]; intros r r' H B; [discriminate|]. cbn [fx_chunk] in H. apply andb_prop in H. destruct H as [H1 H2].
  destruct B as [r|r c r1 r' Hc Hr B]; [apply fx_all; exact H1|]. rewrite forallb_forall in H2. specialize (H2 c (proj2 (in_child_ids c) Hc)). rewrite Hr in H2.
  apply (IH r1 r' H2 B).
Qed.
Definition fx_chunked (w : Qc) (C : qconf) (m : cmap (V := Qc)) : bool :=
  fx_header w (clo C) (chi C) && (Z.of_nat (length m) <? 2 ^ 64) &&
  forallb (fun kb => i32_ok (fst kb) && fx_ok (cscale (cbtree (snd kb))) && fx_chunk 22 (croot (cbtree (snd kb))) nr_root) m.
Lemma fx_chunked_spec w C m : fx_chunked w C m = true -> chunked_storable fx_enc fx_dec w C m.
Proof.
  unfold fx_chunked. rewrite !andb_true_iff. intros [[H1 H2] H3]. split; [apply fx_header_spec; exact H1|]. split; [apply Z.ltb_lt; exact H2|].
  intros k b Hi. rewrite forallb_forall in H3. specialize (H3 _ Hi). cbn [fst snd] in H3. rewrite !andb_true_iff in H3. destruct H3 as [[H3 H4] H5].
  split; [apply i32_ok_spec; exact H3|]. split; [apply fx_ok_spec; exact H4|]. intros r. apply fx_chunk_spec with (fuel := 22%nat). exact H5.
Qed.
(** Tree height 4, so that the trees have two levels of chunks *)
Definition ex26C : qconf := WC 4 (- Q2Qc 2)%Qc (Q2Qc 4).
Example C26_example : exists m1 m2, reloads qn fx_enc fx_dec 7 (AnyHC qh ex26C (hc_run 5 ex26C exh)) (AnyHW qh ex26C m1) /\
  reloads qn fx_enc fx_dec 7 (AnyHW qh ex26C (hw_run ex26C exh)) (AnyHW qh ex26C m2) /\ forall c, hw_get qn ex26C m1 c = hw_get qn ex26C m2 c.
Proof.
  assert (HC : valid_config ex26C) by (split; [cbn; lia|reflexivity]). assert (Hf : (Z.to_nat (cT ex26C) <= 5)%nat) by (cbn; lia).
  assert (S1 : chunked_storable fx_enc fx_dec qh ex26C (hc_run 5 ex26C exh)) by (apply fx_chunked_spec; vm_compute; reflexivity).
  assert (S2 : hashed_storable qn fx_enc fx_dec qh ex26C (hw_run ex26C exh)) by (apply fx_hashed_spec; vm_compute; reflexivity).
  destruct (C26_chunked_reload fx_enc fx_dec 7 qh ex26C 5 (hc_run 5 ex26C exh) HC Hf ltac:(eexists; reflexivity) S1) as (m1 & R1 & _).
  destruct (C25_hashed_reload fx_enc fx_dec 7 qh ex26C (hw_run ex26C exh) HC ltac:(eexists; reflexivity) S2) as (m2 & R2 & _).
  exists m1, m2. split; [exact R1|]. split; [exact R2|]. intros c. apply (C26_same_as_hashed fx_enc fx_dec 7 7 qh ex26C 5 exh m1 m2 c); assumption.
Qed.
(** C27 *)
Example C27_example : exists bytes m', saves qn fx_enc (AnyHW qh exC (hw_run exC exh)) bytes /\ (forall rest, loads qn fx_dec 7 (bytes ++ rest) (AnyHW qh exC m') rest) /\
  length bytes = 234%nat /\ map_load qn fx_dec 3000 7 (IS (firstn 150 bytes) true) = LKept /\ map_load qn fx_dec 3000 7 (IS (firstn 3 bytes) true) = LNull.
Proof.
  assert (HR : hashed_reachable exC (hw_run exC exh)) by (eexists; reflexivity).
  assert (HS : hashed_storable qn fx_enc fx_dec qh exC (hw_run exC exh)) by (apply fx_hashed_spec; vm_compute; reflexivity).
  destruct (C25_hashed_reload fx_enc fx_dec 7 qh exC (hw_run exC exh) exC_valid HR HS) as (m' & (bytes & SV & L) & _).
  exists bytes, m'. split; [exact SV|]. split; [exact L|].
  assert (LB : length bytes = 234%nat).
  { destruct SV as (f0 & SV). specialize (SV (max f0 100) ltac:(lia)).
    destruct (hw_save_total qn fx_enc fx_dec 100 qh exC (hw_run exC exh)) as (b & Eb); [vm_compute; lia|].
    assert (b = bytes) as <-.
    { destruct (hw_save_total qn fx_enc fx_dec (max f0 100) qh exC (hw_run exC exh)) as (b' & Eb'); [vm_compute tree_fuel; lia|]. cbn [map_save] in SV. rewrite Eb' in SV.
      rewrite (hw_save_result qn fx_enc fx_dec _ _ _ _ _ Eb). injection SV as <-. symmetry. apply (hw_save_result qn fx_enc fx_dec _ _ _ _ _ Eb'). }
    assert (X : option_map (@length Z) (hw_save qn fx_enc 100 qh exC (hw_run exC exh)) = Some 234%nat) by (vm_compute; reflexivity).
    rewrite Eb in X. cbn [option_map] in X. injection X as X. exact X. }
  split; [exact LB|]. split.
  - apply (C27_truncated_kept_partial qn fx_enc fx_dec 7 (AnyHW qh exC (hw_run exC exh)) bytes (firstn 150 bytes) (skipn 150 bytes)).
    + split; [apply HS|]. split; [cbn; lia|apply HS].
    + exact SV.
    + exists (AnyHW qh exC m'). exact L.
    + symmetry. apply firstn_skipn.
    + intros K. apply (f_equal (@length Z)) in K. rewrite skipn_length, LB in K. discriminate.
    + rewrite firstn_length, LB. cbn. lia.
    + rewrite firstn_length, LB. cbn. lia.
  - apply (C27_unknown_type_refused qn fx_enc fx_dec).
    + destruct SV as (f0 & SV). specialize (SV f0 (le_n _)). cbn [map_save] in SV. destruct (hw_save _ _ _ _ _ _) as [b|] eqn:Eb; [|discriminate]. injection SV as ->.
      apply (hw_save_result qn fx_enc fx_dec) in Eb. rewrite Eb. cbn [w_hw_header app firstn]. vm_compute. repeat (constructor; [split; [discriminate|reflexivity]|]). constructor.
    + intros k _ K. apply (f_equal (@length Z)) in K. rewrite le_bytes_length, firstn_length, firstn_length, LB in K. discriminate.
Qed.
(** If the file ends inside the header, the zero-initialised fields fail the configuration check and the program aborts: loading does not return.
    Here only the type field is present. *)
Theorem C27_header_cut_aborts_refuted : exists m m' bytes part missing, hashed_reachable exC m /\
  saves qn fx_enc (AnyHW qh exC m) bytes /\ (forall rest, loads qn fx_dec 7 (bytes ++ rest) (AnyHW qh exC m') rest) /\
  bytes = part ++ missing /\ missing <> [] /\ forall fuel, map_load qn fx_dec fuel 7 (IS part true) = LAbort.
Proof.
  assert (HR : hashed_reachable exC (hw_run exC exh)) by (eexists; reflexivity).
  assert (HS : hashed_storable qn fx_enc fx_dec qh exC (hw_run exC exh)) by (apply fx_hashed_spec; vm_compute; reflexivity).
  destruct (C25_hashed_reload fx_enc fx_dec 7 qh exC (hw_run exC exh) exC_valid HR HS) as (m' & (bytes & SV & L) & _).
  destruct SV as (f0 & SV). pose proof (SV f0 (le_n _)) as SV0. cbn [map_save] in SV0. destruct (hw_save qn fx_enc f0 qh exC (hw_run exC exh)) as [b|] eqn:Eb; [|discriminate].
  apply (f_equal (fun o => match o with STrue v => v | _ => [] end)) in SV0. subst b. apply (hw_save_result qn fx_enc fx_dec) in Eb.
  exists (hw_run exC exh), m', bytes, (le_bytes 4 kHashedWaveletOctree), (skipn 4 bytes). split; [exact HR|]. split; [exists f0; exact SV|]. split; [exact L|].
  unfold w_hw_header in Eb. rewrite <- !app_assoc in Eb. rewrite Eb. split; [reflexivity|]. split; [intros K; vm_compute in K; discriminate K|].
  intros fuel. vm_compute. reflexivity.
Qed.

Print Assumptions C23_hashed_blocks_roundtrip_partial.
Print Assumptions C23_default_value_lost_refuted.
Print Assumptions C24_wavelet_octree_roundtrip.
Print Assumptions C25_hashed_reload.
Print Assumptions C25_unsaturated_exact.
Print Assumptions C25_change_bounded.
Print Assumptions C25_obstacle_lost.
Print Assumptions C25_obstacle_reachable.
Print Assumptions C25_occupied_becomes_free_refuted.
Print Assumptions C26_chunked_reload.
Print Assumptions C26_same_as_hashed.
Print Assumptions C27_terminates.
Print Assumptions C27_truncated_not_loaded.
Print Assumptions C27_truncated_kept_partial.
Print Assumptions C27_unknown_type_refused.
Print Assumptions C27_loaded_valid.
Print Assumptions C27_header_cut_aborts_refuted.
