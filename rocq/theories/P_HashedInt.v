(** C93: the index arithmetic of the hashed maps stays in the range of int. *)
From Verif Require Import Base M_IntMath F_IntMath M_NdtreeIndex M_Num M_Haar3 M_Ndtree S_Field F_Hash M_Wavelet F_WavHash M_WavHist F_WavHist P_Wavelet M_Chunked M_ChunkedHist M_HashedBlocks M_IndexInt P_IndexInt M_HashedInt.
From Coq Require Import QArith Qcanon.
Close Scope Qc_scope.
Close Scope Q_scope.
Open Scope Z_scope.

(** ** Specification *)
(** The node contains a cell whose coordinates are ints. A block of 2^T cells per side is a node of height T. *)
Definition has_int_cell (i : oidx) : Prop := exists c, i32_index c /\ in_node i c = true.
Definition int_blocks {B} (T : Z) (m : shash B) : Prop := forall b x, In (b, x) m -> has_int_cell (OI T b).
(** A block of the map contains a cell at the positive end of the range. *)
Definition reaches_end {B} (T : Z) (m : shash B) : Prop :=
  exists b x c, In (b, x) m /\ in_node (OI T b) c = true /\ (px c = 2 ^ 31 - 1 \/ py c = 2 ^ 31 - 1 \/ pz c = 2 ^ 31 - 1).
Definition int_call (c : hcall) : Prop := match c with HSet i _ | HAdd i _ => i32_index i | _ => True end.

Definition int_hbcall {V} (c : hbcall V) : Prop := match c with HBSet i _ | HBAdd i _ => i32_index i | _ => True end.

(** ** Proofs *)
Lemma in_node_iff i c : in_node i c = true <-> let w := 2 ^ oh i in (px (opos i) * w <= px c < (px (opos i) + 1) * w) /\
  (py (opos i) * w <= py c < (py (opos i) + 1) * w) /\ (pz (opos i) * w <= pz c < (pz (opos i) + 1) * w).
Proof. unfold in_node. cbv zeta. rewrite !andb_true_iff, !Z.leb_le, !Z.ltb_lt. tauto. Qed.
(** Along an axis *)
Definition fits (h p : Z) : Prop := - 2 ^ 31 <= p * 2 ^ h /\ (p + 1) * 2 ^ h <= 2 ^ 31.
Lemma split31 h : 0 <= h <= 31 -> 0 < 2 ^ h /\ 0 < 2 ^ (31 - h) /\ 2 ^ 31 = 2 ^ (31 - h) * 2 ^ h.
Proof. intros H. split; [apply pow2_pos; lia|]. split; [apply pow2_pos; lia|]. rewrite <- Z.pow_add_r by lia. f_equal. lia. Qed.
Lemma axis_fits h p u : 0 <= h <= 31 -> - 2 ^ 31 <= u < 2 ^ 31 -> p * 2 ^ h <= u < (p + 1) * 2 ^ h -> fits h p.
Proof.
  intros H U P. destruct (split31 h H) as (W & M & E). unfold fits. rewrite E in *. set (w := 2 ^ h) in *. set (n := 2 ^ (31 - h)) in *.
  assert (p < n) by (apply (Z.mul_lt_mono_pos_r w); lia). assert (- n < p + 1) by (apply (Z.mul_lt_mono_pos_r w); lia). split; nia.
Qed.
Lemma min_fits h p : 0 <= h <= 31 -> - 2 ^ 31 <= p * 2 ^ h < 2 ^ 31 -> fits h p.
Proof. intros H P. apply (axis_fits h p (p * 2 ^ h) H P). pose proof (pow2_pos h). lia. Qed.
Lemma fits_range h p : 0 <= h -> fits h p -> - 2 ^ 31 <= p < 2 ^ 31.
Proof. intros H [A B]. pose proof (pow2_pos h H). nia. Qed.
Lemma has_int_iff i : 0 <= oh i <= 31 -> (has_int_cell i <-> fits (oh i) (px (opos i)) /\ fits (oh i) (py (opos i)) /\ fits (oh i) (pz (opos i))).
Proof.
  intros H. split.
  - intros (c & (A1 & A2 & A3) & I). apply in_node_iff in I. cbv zeta in I. destruct I as (B1 & B2 & B3). exact (conj (axis_fits _ _ _ H A1 B1) (conj (axis_fits _ _ _ H A2 B2) (axis_fits _ _ _ H A3 B3))).
  - intros (F1 & F2 & F3). exists (imap (fun p => p * 2 ^ oh i) (opos i)). pose proof (pow2_pos (oh i) ltac:(lia)) as W. unfold fits in *. split.
    + unfold i32_index, imap. cbn [px py pz]. lia.
    + apply in_node_iff. unfold imap. cbn [px py pz]. cbv zeta. lia.
Qed.
Lemma result_some f i : - 2 ^ 31 <= f (px i) < 2 ^ 31 -> - 2 ^ 31 <= f (py i) < 2 ^ 31 -> - 2 ^ 31 <= f (pz i) < 2 ^ 31 -> index_result f i = Some (imap f i).
Proof. intros A B C. unfold index_result. rewrite !int_result_some by assumption. reflexivity. Qed.
Lemma int_result_out z : ~ (- 2 ^ 31 <= z < 2 ^ 31) -> int_result z = None.
Proof. intros H. unfold int_result, int_min, int_max. destruct (Z.leb_spec (- 2 ^ 31) z) as [A|A]; [|reflexivity]. destruct (Z.leb_spec z (2 ^ 31 - 1)) as [B|B]; [lia|reflexivity]. Qed.
Lemma result_none f i : ~ ((- 2 ^ 31 <= f (px i) < 2 ^ 31) /\ (- 2 ^ 31 <= f (py i) < 2 ^ 31) /\ (- 2 ^ 31 <= f (pz i) < 2 ^ 31)) -> index_result f i = None.
Proof.
  intros H. unfold index_result.
  assert (D : forall z, int_result z = None \/ (int_result z = Some z /\ - 2 ^ 31 <= z < 2 ^ 31)).
  { intros z. destruct (Z.lt_ge_cases z (- 2 ^ 31)); [left; apply int_result_out; lia|]. destruct (Z.lt_ge_cases z (2 ^ 31)); [right; split; [apply int_result_some|]; lia|left; apply int_result_out; lia]. }
  destruct (D (f (px i))) as [->|[-> A]]; [reflexivity|]. destruct (D (f (py i))) as [->|[-> B]]; [reflexivity|]. destruct (D (f (pz i))) as [->|[-> E]]; [reflexivity|]. exfalso. tauto.
Qed.
Lemma key_in {B} (m : shash B) k : In k (keys m) -> exists x, In (k, x) m.
Proof. unfold keys. intros H. apply in_map_iff in H as ([b x] & <- & H). exists x. exact H. Qed.
Lemma key_fits {B} T (m : shash B) k : 0 <= T <= 31 -> int_blocks T m -> In k (keys m) -> fits T (px k) /\ fits T (py k) /\ fits T (pz k).
Proof. intros HT H I. apply key_in in I as (x & I). apply (has_int_iff (OI T k)); [exact HT|]. exact (H _ _ I). Qed.
Lemma keys_i32 {B} T (m : shash B) : 0 <= T <= 31 -> int_blocks T m -> forall k, In k (keys m) -> in_i32 k.
Proof.
  intros HT H k I. destruct (key_fits T m k HT H I) as (F1 & F2 & F3). apply fits_range in F1, F2, F3; try lia. unfold in_i32, int_min, int_max. lia.
Qed.
Lemma extreme_fits {B} T (m : shash B) e : 0 <= T <= 31 -> int_blocks T m -> (forall ax, In ax get_axes -> exists k, In k (keys m) /\ ax e = ax k) ->
  fits T (px e) /\ fits T (py e) /\ fits T (pz e).
Proof.
  intros HT H A. destruct (A px) as (k1 & I1 & ->); [cbn; tauto|]. destruct (A py) as (k2 & I2 & ->); [cbn; tauto|]. destruct (A pz) as (k3 & I3 & ->); [cbn; tauto|].
  split; [apply (key_fits T m k1 HT H I1)|]. split; [apply (key_fits T m k2 HT H I2)|apply (key_fits T m k3 HT H I3)].
Qed.
Lemma min_index_some {B} T (m : shash B) : 0 <= T <= 31 -> int_blocks T m -> min_index_int T m = Some (imap (fun c => exp2 T * c) (getMinBlockIndex m)).
Proof.
  intros HT H. unfold min_index_int. rewrite exp2_pow by lia.
  assert (F : fits T (px (getMinBlockIndex m)) /\ fits T (py (getMinBlockIndex m)) /\ fits T (pz (getMinBlockIndex m))).
  { destruct m as [|e m]; [|refine (extreme_fits T (e :: m) _ HT H (proj2 (getMinBlockIndex_spec (e :: m) _ (keys_i32 T _ HT H)))); discriminate].
    cbn [getMinBlockIndex px py pz]. destruct (split31 T HT) as (W & M & E). unfold fits. rewrite E. nia. }
  destruct F as (F1 & F2 & F3). pose proof (pow2_pos T ltac:(lia)). unfold fits in *. apply result_some; lia.
Qed.
(** The maximum: the end of the block has to be an int too. *)
Lemma max_index_some {B} T (m : shash B) : 0 <= T <= 31 -> int_blocks T m -> m <> [] -> ~ reaches_end T m ->
  max_index_int T m = Some (imap (fun c => exp2 T * (c + 1) - 1) (getMaxBlockIndex m)).
Proof.
  intros HT H Hne Hend. destruct (getMaxBlockIndex_spec m Hne (keys_i32 T _ HT H)) as [_ A]. pose proof (extreme_fits T m _ HT H A) as (F1 & F2 & F3).
  pose proof (pow2_pos T ltac:(lia)) as W.
  assert (D : forall ax, In ax get_axes -> (ax (getMaxBlockIndex m) + 1) * 2 ^ T <> 2 ^ 31).
  { intros ax Ia E. destruct (A ax Ia) as (k & Ik & Ek). rewrite Ek in E. destruct (key_in m k Ik) as (x & Ix). apply Hend.
    exists k, x, (imap (fun p => (p + 1) * 2 ^ T - 1) k). split; [exact Ix|]. split.
    - apply in_node_iff. unfold imap. cbn [oh opos px py pz]. cbv zeta. lia.
    - unfold imap. cbn [px py pz]. destruct Ia as [<-|[<-|[<-|[]]]]; lia. }
  assert (D1 := D px ltac:(cbn; tauto)). assert (D2 := D py ltac:(cbn; tauto)). assert (D3 := D pz ltac:(cbn; tauto)).
  assert (S : forall p, fits T p -> (p + 1) * 2 ^ T <> 2 ^ 31 -> - 2 ^ 31 <= p + 1 < 2 ^ 31 /\ - 2 ^ 31 <= 2 ^ T * (p + 1) < 2 ^ 31 /\ - 2 ^ 31 <= 2 ^ T * (p + 1) - 1 < 2 ^ 31).
  { intros p [P1 P2] P3. nia. }
  apply S in F1, F2, F3; try assumption. unfold max_index_int. destruct m as [|e m]; [congruence|]. rewrite exp2_pow by lia. set (b := getMaxBlockIndex (e :: m)) in *.
  rewrite result_some by tauto. cbn [bind_index]. rewrite result_some by (unfold imap; cbn [px py pz]; tauto). cbn [bind_index].
  rewrite result_some by (unfold imap; cbn [px py pz]; tauto). reflexivity.
Qed.
Lemma max_index_none {B} T (m : shash B) : 0 <= T <= 31 -> int_blocks T m -> reaches_end T m -> max_index_int T m = None.
Proof.
  intros HT H (b & x & c & I & Ic & E). assert (Hne : m <> []) by (intros ->; destruct I). destruct (getMaxBlockIndex_spec m Hne (keys_i32 T _ HT H)) as [A X].
  pose proof (extreme_fits T m _ HT H X) as (F1 & F2 & F3).
  assert (Kb : In b (keys m)) by (unfold keys; apply in_map_iff; exists (b, x); split; [reflexivity|exact I]). specialize (A b Kb). destruct A as (A1 & A2 & A3).
  apply in_node_iff in Ic. cbn [oh opos] in Ic. cbv zeta in Ic. destruct Ic as (I1 & I2 & I3). pose proof (pow2_pos T ltac:(lia)) as W.
  unfold max_index_int. destruct m as [|e m]; [congruence|]. rewrite exp2_pow by lia. set (g := getMaxBlockIndex (e :: m)) in *. unfold fits in *.
  assert (O : 2 ^ 31 <= 2 ^ T * (px g + 1) \/ 2 ^ 31 <= 2 ^ T * (py g + 1) \/ 2 ^ 31 <= 2 ^ T * (pz g + 1)).
  { assert (M : forall p q, p <= q -> 2 ^ 31 - 1 < (p + 1) * 2 ^ T -> 2 ^ 31 <= 2 ^ T * (q + 1)) by (intros; nia).
    destruct E as [E|[E|E]]; rewrite E in *; [left|right; left|right; right]; eapply M; try eassumption; lia. }
  destruct (index_result (fun c0 => c0 + 1) g) as [i|] eqn:Ei; [|reflexivity]. cbn [bind_index].
  assert (i = imap (fun c0 => c0 + 1) g) as ->.
  { unfold index_result, int_result in Ei. repeat (match type of Ei with context [if ?q then _ else _] => destruct q end; try discriminate Ei). injection Ei as <-. reflexivity. }
  rewrite result_none; [reflexivity|]. unfold imap. cbn [px py pz]. lia.
Qed.

Lemma block_int T i : 0 <= T <= 31 -> i32_index i -> has_int_cell (OI T (indexToBlockIndex3 i T)).
Proof.
  intros HT Hi. exists i. split; [exact Hi|]. apply in_node_iff. unfold indexToBlockIndex3, imap. cbn [oh opos px py pz]. cbv zeta. rewrite !div_exp2_floor_spec by lia.
  pose proof (pow2_pos T ltac:(lia)) as W.
  assert (D : forall u, u / 2 ^ T * 2 ^ T <= u < (u / 2 ^ T + 1) * 2 ^ T) by (intros u; pose proof (Z.div_mod u (2 ^ T) ltac:(lia)); pose proof (Z.mod_pos_bound u (2 ^ T) W); lia).
  auto.
Qed.
Lemma keys_blocks {B} T (m : shash B) : (forall k, In k (keys m) -> has_int_cell (OI T k)) -> int_blocks T m.
Proof. intros K b x I. apply K. unfold keys. apply in_map_iff. exists (b, x). split; [reflexivity|exact I]. Qed.
Lemma hw_blocks C l : 1 <= cT C <= 21 -> Forall (fun tc => int_call (snd tc)) l -> int_blocks (cT C) (hw_run C l).
Proof.
  intros HT Hl. apply keys_blocks. induction l as [|[now c] l IH] using rev_ind; intros k Hk; [destruct Hk|].
  apply Forall_app in Hl as [Hl Hc]. inversion Hc as [|? ? Hc1 _]; subst. cbn [snd] in Hc1. specialize (IH Hl).
  rewrite hw_run_app in Hk. cbn [fold_left] in Hk. destruct c as [i v|i u| | |age| |b]; cbn [hw_apply int_call] in *.
  - unfold hw_set in Hk. apply setBlock_keys in Hk as [->|Hk]; [apply block_int; assumption || lia|apply IH; assumption].
  - unfold hw_add in Hk. apply setBlock_keys in Hk as [->|Hk]; [apply block_int; assumption || lia|apply IH; assumption].
  - unfold hw_threshold in Hk. rewrite forEachBlock_keys in Hk. apply IH; assumption.
  - apply eraseBlockIf_keys in Hk. apply IH; assumption.
  - apply eraseBlockIf_keys in Hk. apply IH; assumption.
  - destruct Hk.
  - apply filter_keys in Hk. apply IH; assumption.
Qed.

(** ** Theorems *)
(** Node queries are defined exactly for the nodes with a cell in the range of int. For cells that is every int index. *)
Theorem C93_node_queries : forall V (N : M_Num.num V) C m i, 1 <= cT C <= 21 -> 0 <= oh i <= cT C ->
  (has_int_cell i -> hw_get_node_int N C m i = Some (hw_get_node N C m i)) /\ (~ has_int_cell i -> hw_get_node_int N C m i = None).
Proof.
  intros V N C m i HT Hh. assert (H31 : 0 <= oh i <= 31) by lia. rewrite (has_int_iff i H31). unfold hw_get_node_int, hw_get_node, hw_blockIndex.
  assert (Em : forall c, mult_exp2 c (oh i) = c * 2 ^ oh i) by (intros c; unfold mult_exp2; rewrite exp2_pow by lia; reflexivity). pose proof (pow2_pos (oh i) ltac:(lia)) as W. split; intros F.
  - unfold fits in F. rewrite result_some by (rewrite Em; lia). reflexivity.
  - rewrite result_none; [reflexivity|]. rewrite !Em. intros (A1 & A2 & A3). apply F. split; [|split]; apply min_fits; assumption.
Qed.
(** Histories of calls with int indices only allocate blocks with cells in the range. *)
Theorem C93_histories :
  (forall C l, 1 <= cT C <= 21 -> Forall (fun tc => int_call (snd tc)) l -> int_blocks (cT C) (hw_run C l)) /\
  (forall fuel C l, 1 <= cT C <= 21 -> Forall (fun tc => int_call (snd tc)) l -> int_blocks (cT C) (hc_run fuel C l)) /\
  (forall V (N : M_Num.num V) C l, 0 <= hK C <= 31 -> Forall int_hbcall l -> int_blocks (hK C) (hb_run N C l)).
Proof.
  split; [exact hw_blocks|]. split.
  - intros fuel C l HT Hl. apply keys_blocks. unfold hc_run. assert (K0 : forall k, In k (keys (@nil (idx3 * cblock (V := Qc)))) -> has_int_cell (OI (cT C) k)) by (intros k []). revert K0.
    generalize (@nil (idx3 * cblock (V := Qc))). induction Hl as [|[now c] l Hc Hl IH]; intros m K; [exact K|]. cbn [fold_left]. apply IH. clear IH. intros k Hk. cbn [snd] in Hc.
    destruct c as [i v|i u| | |age| |b]; cbn [hc_apply int_call] in *.
    + unfold hc_set in Hk. apply setBlock_keys in Hk as [->|Hk]; [apply block_int; assumption || lia|apply K; assumption].
    + unfold hc_add in Hk. apply setBlock_keys in Hk as [->|Hk]; [apply block_int; assumption || lia|apply K; assumption].
    + unfold hc_threshold in Hk. rewrite forEachBlock_keys in Hk. apply K; assumption.
    + apply eraseBlockIf_keys in Hk. apply K; assumption.
    + apply eraseBlockIf_keys in Hk. apply K; assumption.
    + destruct Hk.
    + apply filter_keys in Hk. apply K; assumption.
  - intros V N C l HT Hl. apply keys_blocks. unfold hb_run. assert (K0 : forall k, In k (keys (@nil (idx3 * hblock (V := V)))) -> has_int_cell (OI (hK C) k)) by (intros k []). revert K0.
    generalize (@nil (idx3 * hblock (V := V))). induction Hl as [|c l Hc Hl IH]; intros m K; [exact K|]. cbn [fold_left]. apply IH. clear IH. intros k Hk.
    destruct c as [i v|i u| | | |b]; cbn [hb_apply int_hbcall] in *.
    + unfold hb_set, hb_modify in Hk. apply setBlock_keys in Hk as [->|Hk]; [apply (block_int (hK C)); assumption|apply K; assumption].
    + unfold hb_add, hb_modify in Hk. apply setBlock_keys in Hk as [->|Hk]; [apply (block_int (hK C)); assumption|apply K; assumption].
    + apply K; assumption.
    + apply eraseBlockIf_keys in Hk. apply K; assumption.
    + destruct Hk.
    + apply filter_keys in Hk. apply K; assumption.
Qed.
(** All nodes of such a block have int coordinates, and so have their first and last cells. *)
Theorem C93_nodes_of_blocks : forall T b i, 0 <= T <= 31 -> has_int_cell (OI T b) -> 0 <= oh i <= T -> (forall c, in_node i c = true -> in_node (OI T b) c = true) ->
  i32_index (opos i) /\ forall c, in_node i c = true -> i32_index c.
Proof.
  intros T b i HT Hb Hh Hsub. apply (has_int_iff (OI T b) HT) in Hb. cbn [oh opos] in Hb. destruct Hb as (F1 & F2 & F3). unfold fits in *.
  assert (C : forall c, in_node i c = true -> i32_index c).
  { intros c Hc. apply Hsub, in_node_iff in Hc. cbn [oh opos] in Hc. cbv zeta in Hc. unfold i32_index. lia. }
  split; [|exact C]. pose proof (pow2_pos (oh i) ltac:(lia)) as W.
  assert (I0 : has_int_cell i).
  { exists (imap (fun p => p * 2 ^ oh i) (opos i)). assert (J : in_node i (imap (fun p => p * 2 ^ oh i) (opos i)) = true) by (apply in_node_iff; unfold imap; cbn [px py pz]; cbv zeta; lia).
    split; [apply C; exact J|exact J]. }
  apply (has_int_iff i ltac:(lia)) in I0. destruct I0 as (G1 & G2 & G3). apply fits_range in G1, G2, G3; try lia. unfold i32_index. lia.
Qed.
(** getMinIndex is defined for all three hashed maps. *)
Theorem C93_min_index :
  (forall V (C : wconfig (V := V)) m, 1 <= cT C <= 21 -> int_blocks (cT C) m -> min_index_int (cT C) m = Some (hw_min_index C m)) /\
  (forall V (C : wconfig (V := V)) m, 1 <= cT C <= 21 -> int_blocks (cT C) m -> min_index_int (cT C) m = Some (hc_min_index C m)) /\
  (forall V (C : hbconfig V) m, 0 <= hK C <= 31 -> int_blocks (hK C) m -> min_index_int (hK C) m = Some (hb_minIndex C m)).
Proof. split; [|split]; intros V C m HT H; rewrite min_index_some by (assumption || lia); reflexivity. Qed.
(** getMaxIndex is defined exactly if no block reaches the positive end of the range of int. *)
Theorem C93_max_index :
  (forall V (C : wconfig (V := V)) m, 1 <= cT C <= 21 -> int_blocks (cT C) m ->
    (~ reaches_end (cT C) m -> max_index_int (cT C) m = Some (hw_max_index C m)) /\ (reaches_end (cT C) m -> max_index_int (cT C) m = None)) /\
  (forall V (C : wconfig (V := V)) m, 1 <= cT C <= 21 -> int_blocks (cT C) m ->
    (~ reaches_end (cT C) m -> max_index_int (cT C) m = Some (hc_max_index C m)) /\ (reaches_end (cT C) m -> max_index_int (cT C) m = None)) /\
  (forall V (C : hbconfig V) m, 0 <= hK C <= 31 -> int_blocks (hK C) m ->
    (~ reaches_end (hK C) m -> max_index_int (hK C) m = Some (hb_maxIndex C m)) /\ (reaches_end (hK C) m -> max_index_int (hK C) m = None)).
Proof.
  split; [|split]; intros V C m HT H; (split; [|apply max_index_none; assumption || lia]); intros E; (destruct m as [|e m]; [reflexivity|]); rewrite max_index_some by (assumption || lia || discriminate); reflexivity.
Qed.
(** So not every map that can be written has bounds: one update of the last cell is enough. *)
Theorem C93_max_index_refuted : forall C, 1 <= cT C <= 21 -> exists l, Forall (fun tc => int_call (snd tc)) l /\ length l = 1%nat /\ max_index_int (cT C) (hw_run C l) = None.
Proof.
  intros C HT. exists [(0, HAdd (I3 (2 ^ 31 - 1) 0 0) 1%Qc)]. assert (F : Forall (fun tc => int_call (snd tc)) [(0, HAdd (I3 (2 ^ 31 - 1) 0 0) 1%Qc)]).
  { constructor; [|constructor]. unfold int_call, i32_index. cbn [snd px py pz]. lia. }
  split; [exact F|]. split; [reflexivity|]. apply max_index_none; [lia|apply hw_blocks; assumption|].
  unfold hw_run. cbn [fold_left hw_apply]. unfold hw_add. cbv zeta. cbn [setBlock]. eexists _, _, (I3 (2 ^ 31 - 1) 0 0). split; [left; reflexivity|]. split; [|cbn; tauto].
  apply in_node_iff. unfold indexToBlockIndex3, imap. cbn [oh opos px py pz]. cbv zeta. rewrite !div_exp2_floor_spec by lia. pose proof (pow2_pos (cT C) ltac:(lia)) as W.
  assert (D : forall u, u / 2 ^ cT C * 2 ^ cT C <= u < (u / 2 ^ cT C + 1) * 2 ^ cT C) by (intros u; pose proof (Z.div_mod u (2 ^ cT C) ltac:(lia)); pose proof (Z.mod_pos_bound u (2 ^ cT C) W); lia).
  auto.
Qed.
Example C93_ex : let m := hw_run (WC 3 (Q2Qc (- 4)) (Q2Qc 4)) [(0, HAdd (I3 (- 2 ^ 31) 0 (2 ^ 31 - 9)) 1%Qc)] in
  int_blocks 3 m /\ ~ reaches_end 3 m /\ min_index_int 3 m = Some (I3 (- 2 ^ 31) 0 (2 ^ 31 - 16)) /\ max_index_int 3 m = Some (I3 (7 - 2 ^ 31) 7 (2 ^ 31 - 9)) /\
  has_int_cell (OI 2 (I3 (2 ^ 29 - 1) 0 0)) /\ ~ has_int_cell (OI 2 (I3 (2 ^ 29) 0 0)).
Proof.
  cbv zeta. assert (H : int_blocks 3 (hw_run (WC 3 (Q2Qc (- 4)) (Q2Qc 4)) [(0, HAdd (I3 (- 2 ^ 31) 0 (2 ^ 31 - 9)) 1%Qc)])).
  { apply (hw_blocks (WC 3 (Q2Qc (- 4)) (Q2Qc 4))); [cbn; lia|]. constructor; [|constructor]. unfold int_call, i32_index. cbn [snd px py pz]. lia. }
  split; [exact H|]. assert (M : max_index_int 3 (hw_run (WC 3 (Q2Qc (- 4)) (Q2Qc 4)) [(0, HAdd (I3 (- 2 ^ 31) 0 (2 ^ 31 - 9)) 1%Qc)]) = Some (I3 (7 - 2 ^ 31) 7 (2 ^ 31 - 9))) by (vm_compute; reflexivity).
  split; [intros E; rewrite (max_index_none 3 _ ltac:(lia) H E) in M; discriminate M|]. split; [vm_compute; reflexivity|]. split; [exact M|].
  split; [apply has_int_iff; unfold fits; cbn [oh opos px py pz]; lia|]. intros E. apply has_int_iff in E; [|cbn; lia]. unfold fits in E. cbn [oh opos px py pz] in E. lia.
Qed.
Print Assumptions C93_node_queries.
Print Assumptions C93_histories.
Print Assumptions C93_nodes_of_blocks.
Print Assumptions C93_min_index.
Print Assumptions C93_max_index.
Print Assumptions C93_max_index_refuted.
