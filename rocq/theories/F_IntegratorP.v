(** Facts about WaveletIntegrator: effect of one scan on each cell of the plain wavelet octree (exact arithmetic). *)
From Verif Require Import Base M_IntMath F_IntMath M_NdtreeIndex M_Num F_Num M_Haar M_Haar3 F_Haar3 M_Ndtree S_Field S_Integrate F_Hash
  M_Wavelet F_Wavelet F_Wavelet2 F_Leaves F_WavTree F_WavMap F_WavHash M_WavHist F_WavHist M_Octree F_Octree
  M_Integrator F_Integrator F_Integrator2 F_Integrator3.
From Coq Require Import QArith Qcanon Qcabs Lqa.
Close Scope Qc_scope.
Close Scope Q_scope.
Open Scope Z_scope.

Lemma child_value_dadd v s d e c : child_value (v + s)%Qc (dadd qn d e) c = (child_value v d c + child_value s e c)%Qc.
Proof.
  destruct d, e. unfold child_value, dadd, dmap2. cbn [nadd qn].
  assert (S : forall b x y q, sgn b ((x + y) / q)%Qc = (sgn b (x / q) + sgn b (y / q))%Qc) by (intros []; intros; unfold sgn, Qcdiv; ring).
  rewrite !S. ring.
Qed.

(** ** The loop over the eight children *)
Definition pstep (F : Z -> option wnode -> option wnode * Qc) (su : wnode * oct Qc) (c : Z) : wnode * oct Qc :=
  let '(nd1, ups) := su in
  let '(ch, u) := F c (getChild nd1 c) in
  (match ch with Some x => setChild nd1 c x | None => nd1 end, oset ups c u).
Definition keeps (F : Z -> option wnode -> option wnode * Qc) : Prop := forall c o, fst (F c o) = None -> o = None.
Lemma pstep_eq F nd ups c : keeps F -> 0 <= c < 8 ->
  let '(nd', ups') := pstep F (nd, ups) c in
  ndata nd' = ndata nd /\
  forall c', 0 <= c' < 8 -> getChild nd' c' = (if c' =? c then fst (F c (getChild nd c)) else getChild nd c') /\
                           oget ups' c' = (if c' =? c then snd (F c (getChild nd c)) else oget ups c').
Proof.
  intros HF Hc. unfold pstep. pose proof (HF c (getChild nd c)) as K0. destruct (F c (getChild nd c)) as [ch u]. cbn [fst snd] in *.
  split; [destruct ch; reflexivity|]. intros c' Hc'. rewrite oget_oset by assumption. split; [|reflexivity].
  destruct ch as [x|]; [apply getChild_setChild; assumption|]. destruct (Z.eqb_spec c' c) as [->|]; [apply K0; reflexivity|reflexivity].
Qed.
Lemma fold_pstep F cs : keeps F -> Forall (fun c => 0 <= c < 8) cs -> NoDup cs -> forall nd ups,
  let '(nd', ups') := fold_left (pstep F) cs (nd, ups) in
  ndata nd' = ndata nd /\
  forall c, 0 <= c < 8 ->
    if in_dec Z.eq_dec c cs
    then getChild nd' c = fst (F c (getChild nd c)) /\ oget ups' c = snd (F c (getChild nd c))
    else getChild nd' c = getChild nd c /\ oget ups' c = oget ups c.
Proof.
  intros HF. induction cs as [|c0 cs IH]; intros Hr Hnd nd ups; cbn [fold_left].
  - split; [reflexivity|]. intros c Hc. destruct (in_dec Z.eq_dec c []) as [[]|]. split; reflexivity.
  - inversion Hr as [|? ? Hc0 Hr']; inversion Hnd as [|? ? Hni Hnd']; subst.
    pose proof (pstep_eq F nd ups c0 HF Hc0) as S0. destruct (pstep F (nd, ups) c0) as [n1 u1]. destruct S0 as [D1 S1].
    specialize (IH Hr' Hnd' n1 u1). destruct (fold_left _ _ _) as [n2 u2]. destruct IH as [D2 I1]. split; [congruence|].
    intros c Hc. specialize (I1 c Hc). destruct (S1 c Hc) as [A B]. destruct (Z.eqb_spec c c0) as [->|Hne].
    + destruct (in_dec Z.eq_dec c0 cs); [contradiction|]. destruct (in_dec Z.eq_dec c0 (c0 :: cs)) as [_|X]; [|exfalso; apply X; left; reflexivity].
      destruct I1 as [-> ->]. split; assumption.
    + rewrite A, B in I1.
      destruct (in_dec Z.eq_dec c cs) as [Hin|Hin], (in_dec Z.eq_dec c (c0 :: cs)) as [Hin2|Hin2].
      * exact I1.
      * exfalso. apply Hin2. right. exact Hin.
      * destruct Hin2; [congruence|contradiction].
      * exact I1.
Qed.
Definition pall (F : Z -> option wnode -> option wnode * Qc) (nd : wnode) (v : Qc) : wnode * Qc :=
  let '(nd', ups) := fold_left (pstep F) [0; 1; 2; 3; 4; 5; 6; 7] (nd, otab (fun _ => n0 qn)) in
  let '(s, d) := forward3 qn ups in (Node (dadd qn (ndata nd') d) (nkids nd'), s).
Lemma pall_child F nd v c : keeps F -> 0 <= c < 8 ->
  let '(n', s) := pall F nd v in
  getChild n' c = fst (F c (getChild nd c)) /\
  child_value (v + s)%Qc (ndata n') c = (child_value v (ndata nd) c + snd (F c (getChild nd c)))%Qc.
Proof.
  intros HF Hc. unfold pall.
  pose proof (fold_pstep F [0; 1; 2; 3; 4; 5; 6; 7] HF ltac:(repeat constructor; lia) NoDup_up nd (otab (fun _ => n0 qn))) as P.
  destruct (fold_left _ _ _) as [nd' ups]. destruct P as [D P]. specialize (P c Hc).
  destruct (in_dec Z.eq_dec c [0; 1; 2; 3; 4; 5; 6; 7]) as [Hin|X]; [|exfalso; apply X; apply in_up; exact Hc].
  destruct P as [P1 P2]. pose proof (child_value_forward ups c Hc) as CF. destruct (forward3 qn ups) as [s d]. cbn [fst snd] in CF.
  split; [exact P1|]. cbn [ndata]. rewrite child_value_dadd, D. f_equal. rewrite CF. exact P2.
Qed.

(** ** Effect along a path *)
Definition evo (v : Qc) (o : option wnode) (q : list Z) : Qc := match o with None => v | Some n => eval v n q end.
Definition olook (r : list Z) (o : option wnode) : option wnode := match o with Some n => nlook r n | None => None end.
Lemma evo_shift q v o x : evo (v + x)%Qc o q = (evo v o q + x)%Qc.
Proof. destruct o; [apply eval_shift|reflexivity]. Qed.
Lemma evo_cons q v o c : evo v o (c :: q) =
  evo (child_value v (ndata (match o with Some n => n | None => Node (dzero qn) None end)) c)
      (match o with Some n => getChild n c | None => None end) q.
Proof.
  destruct o as [n|]; cbn [evo eval].
  - destruct (getChild n c); reflexivity.
  - cbn [ndata]. symmetry. apply child_value_zero.
Qed.

Section RSC.
Context (K : iconst Qc) (W : oracle Qc) (Hth : 0 <= i_th K).
Notation rsc := (rsc qn K W).
Lemma rsc_unfold k idx v n : rsc (S k) idx v n =
  if oh idx <=? i_th K then (n, clampAdd qn K (o_sample W idx) v - v)%Qc
  else if is_unobserved (o_type W idx) then (n, 0%Qc)
  else if negb (is_occupied (o_type W idx)) && qltb v (i_slo K) then (n, 0%Qc)
  else if o_accept W idx then
    if no_children n then (n, clampAdd qn K (o_sample W idx) v - v)%Qc else (n, o_sample W idx)
  else
    let nd := match n with Some nd => nd | None => Node (dzero qn) None end in
    let vals := backward3 qn v (ndata nd) in
    let '(n', s) := pall (fun c o => rsc k (ochild idx c) (oget vals c) o) nd v in (Some n', s).
Proof.
  cbn [M_Integrator.rsc]. unfold pall, pstep. cbn zeta.
  destruct (oh idx <=? i_th K); [reflexivity|]. destruct (is_unobserved _); [reflexivity|].
  cbn [nltb qn]. destruct (negb _ && _); [reflexivity|]. destruct (o_accept W idx); [reflexivity|].
  destruct (fold_left _ _ _) as [nd' ups]. destruct (forward3 qn ups); reflexivity.
Qed.
Lemma rsc_none k idx v n : fst (rsc k idx v n) = None -> n = None.
Proof.
  destruct k as [|k].
  - cbn [M_Integrator.rsc]. repeat match goal with |- context [if ?b then _ else _] => destruct b end; cbn [fst]; auto.
  - rewrite rsc_unfold. repeat match goal with |- context [if ?b then _ else _] => destruct b end; cbn [fst]; auto.
    destruct (pall _ _ _). discriminate.
Qed.
(** Change at cell [c] below the node of height [h] *)
Fixpoint pdelta (h : nat) (c : idx3) (v : Qc) (n : option wnode) : Qc :=
  let i := anc c (Z.of_nat h) in
  if oh i <=? i_th K then (clampAdd qn K (o_sample W i) v - v)%Qc
  else if is_unobserved (o_type W i) then 0%Qc
  else if negb (is_occupied (o_type W i)) && qltb v (i_slo K) then 0%Qc
  else if o_accept W i then
    if no_children n then (clampAdd qn K (o_sample W i) v - v)%Qc else o_sample W i
  else match h with
       | O => 0%Qc
       | S h' =>
           let nd := match n with Some nd => nd | None => Node (dzero qn) None end in
           let j := cidx c (Z.of_nat h') in
           pdelta h' c (child_value v (ndata nd) j) (getChild nd j)
       end.
Lemma rsc_eval h : forall k c v n, (h < k)%nat ->
  let '(n', u) := rsc k (anc c (Z.of_nat h)) v n in
  evo (v + u)%Qc n' (path h c) = (evo v n (path h c) + pdelta h c v n)%Qc.
Proof.
  induction h as [|h IH]; intros k c v n Hk; (destruct k as [|k]; [lia|]); rewrite rsc_unfold.
  - cbn [pdelta anc oh Z.of_nat]. replace (0 <=? i_th K) with true by (symmetry; apply Z.leb_le; lia).
    rewrite evo_shift. reflexivity.
  - cbn [pdelta].
    destruct (oh _ <=? i_th K); [apply evo_shift|]. destruct (is_unobserved _); [apply evo_shift|].
    destruct (negb _ && _); [apply evo_shift|]. destruct (o_accept W _); [destruct (no_children n); apply evo_shift|].
    cbn zeta. set (nd := match n with Some nd => nd | None => _ end). set (vals := backward3 qn v (ndata nd)).
    set (j := cidx c (Z.of_nat h)). assert (Hj : 0 <= j < 8) by apply cidx_range.
    pose proof (pall_child (fun c0 o => rsc k (ochild (anc c (Z.of_nat (S h))) c0) (oget vals c0) o) nd v j ltac:(intros c0 o; apply rsc_none) Hj) as P.
    destruct (pall _ _ _) as [n' s]. destruct P as [P1 P2]. cbn [path]. fold j. rewrite !evo_cons. fold nd. rewrite P1, P2.
    unfold vals. rewrite backward3_value by assumption. unfold j. rewrite ochild_anc. fold j.
    specialize (IH k c (child_value v (ndata nd) j) (getChild nd j) ltac:(lia)).
    destruct (rsc k _ _ _) as [o u]. cbn [fst snd]. rewrite IH. f_equal. f_equal. destruct n; reflexivity.
Qed.
End RSC.

(** ** The plain octree *)
(** Nodes of the octree that have a stored child (toInternal, getNode, hasAtLeastOneChild) *)
Definition wo_subdivided (C : wconfig (V := Qc)) (t : wtree (V := Qc)) (i : oidx) : bool :=
  match nd_getNode (cT C) (wroot t) (wo_toInternal (cT C) i) with None => false | Some n => hasAtLeastOneChild n end.

Section PLAIN.
Context (C : wconfig (V := Qc)) (HT : 1 <= cT C <= 21) (K : iconst Qc) (W : oracle Qc) (Hth : 0 <= i_th K).
Context (t : wtree (V := Qc)).
Notation T := (cT C).
(** The tree in which the descent evaluates its conditions: all children of the root start at the root's mean *)
Definition flat : wtree (V := Qc) := WT (Node (dzero qn) (nkids (wroot t))) (wscale t).
Notation inT c := (shift (2 ^ (T - 1)) c).
Lemma cidx_inT c k : 0 <= k < T - 1 -> cidx (inT c) k = cidx c k.
Proof.
  intros Hk. unfold cidx, shift, imap. cbn [px py pz].
  assert (E : forall x, Z.testbit (x + 2 ^ (T - 1)) k = Z.testbit x k).
  { intros x. rewrite <- (Z.mod_pow2_bits_low (x + _) (T - 1)), <- (Z.mod_pow2_bits_low x (T - 1)) by lia. f_equal.
    rewrite <- (Z.mul_1_l (2 ^ (T - 1))) at 1. apply Z.mod_add. pose proof (pow2_pos (T - 1)). lia. }
  rewrite !E. reflexivity.
Qed.
Lemma path_inT k c : Z.of_nat k <= T - 1 -> path k (inT c) = path k c.
Proof.
  induction k as [|k IH]; intros Hk; [reflexivity|]. cbn [path]. rewrite IH, cidx_inT by lia. reflexivity.
Qed.
Notation top c := (cidx (inT c) (T - 1)).
Lemma field_top u c : wo_field C u c = evo (child_value (wscale u) (ndata (wroot u)) (top c)) (getChild (wroot u) (top c)) (path (Z.to_nat (T - 1)) c).
Proof.
  rewrite wo_field_cellv by lia. unfold cellv. rewrite wt_get_eval by lia. rewrite Z.sub_0_r.
  replace (Z.to_nat T) with (S (Z.to_nat (T - 1))) by lia. cbn [path eval]. rewrite Z2Nat.id by lia.
  rewrite path_inT by lia. destruct (getChild _ _); reflexivity.
Qed.
Lemma first_index c : wo_cell C c -> wo_toExternal T (ochild (OI T (I3 0 0 0)) (top c)) = anc c (T - 1).
Proof.
  intros (_ & H1 & H2 & H3). cbn [oh opos] in *. rewrite Z.sub_0_r in *. unfold wo_toExternal, ochild, anc. cbn [oh opos].
  rewrite (wo_offset_spec C) by lia. replace (T - 1 - (T - 1)) with 0 by lia. change (2 ^ 0) with 1. f_equal.
  pose proof (pow2_pos (T - 1) ltac:(lia)) as P.
  assert (B : forall x, - 2 ^ (T - 1) <= x < 2 ^ (T - 1) -> Z.b2z (Z.testbit (x + 2 ^ (T - 1)) (T - 1)) - 1 = x / 2 ^ (T - 1)).
  { intros x Hx. rewrite Z.testbit_spec' by lia. rewrite <- (Z.mul_1_l (2 ^ (T - 1))) at 1. rewrite Z.div_add by lia.
    destruct (Z.lt_ge_cases x 0).
    - replace (x / 2 ^ (T - 1)) with (-1) by (apply Z.div_unique with (r := x + 2 ^ (T - 1)); [left|]; lia). reflexivity.
    - rewrite (Z.div_small x) by lia. reflexivity. }
  destruct c as [x y z]. unfold imap, shift, imap. cbn [px py pz] in *.
  rewrite <- !B by lia. unfold cidx. cbn [px py pz].
  destruct (Z.testbit (x + 2 ^ (T - 1)) (T - 1)), (Z.testbit (y + 2 ^ (T - 1)) (T - 1)), (Z.testbit (z + 2 ^ (T - 1)) (T - 1)); reflexivity.
Qed.
Lemma updateMap_pall : wo_updateMap qn K W T t =
  let '(n', s) := pall (fun c o => rsc qn K W (Z.to_nat T) (wo_toExternal T (ochild (OI T (I3 0 0 0)) c)) (wscale t) o) (wroot t) (wscale t) in
  WT n' (wscale t + s)%Qc.
Proof.
  unfold wo_updateMap, pall, pstep. destruct (fold_left _ _ _) as [nd ups]. destruct (forward3 qn ups). reflexivity.
Qed.
Lemma plain_delta c : wo_cell C c ->
  wo_field C (wo_updateMap qn K W T t) c =
  (wo_field C t c + pdelta K W (Z.to_nat (T - 1)) c (wscale t) (getChild (wroot t) (top c)))%Qc.
Proof.
  intros Hc. rewrite updateMap_pall.
  pose proof (pall_child (fun c0 o => rsc qn K W (Z.to_nat T) (wo_toExternal T (ochild (OI T (I3 0 0 0)) c0)) (wscale t) o)
    (wroot t) (wscale t) (top c) ltac:(intros c0 o; apply rsc_none) (cidx_range _ _)) as P.
  destruct (pall _ _ _) as [n' s]. destruct P as [P1 P2]. rewrite !field_top. cbn [wscale wroot]. rewrite P1, P2, first_index by assumption.
  pose proof (rsc_eval K W Hth (Z.to_nat (T - 1)) (Z.to_nat T) c (wscale t) (getChild (wroot t) (top c)) ltac:(lia)) as R.
  clear P1 P2. rewrite Z2Nat.id in R by lia. destruct (rsc _ _ _ _ _ _ _) as [o u]. cbn [fst snd].
  rewrite evo_shift. rewrite evo_shift in R.
  assert (X : forall v v' o' q, evo v o' q = (evo v' o' q + (v - v'))%Qc) by (intros; rewrite <- evo_shift; f_equal; ring).
  rewrite (X _ (wscale t) o). rewrite (X (child_value _ _ _) (wscale t) (getChild _ _)).
  transitivity (evo (wscale t) o (path (Z.to_nat (T - 1)) c) + u + (child_value (wscale t) (ndata (wroot t)) (top c) - wscale t))%Qc; [ring|].
  rewrite R. ring.
Qed.

(** The field of [flat] *)
Lemma flat_child c : child_value (wscale flat) (ndata (wroot flat)) c = wscale t.
Proof. cbn [flat wroot wscale ndata]. apply child_value_zero. Qed.
Lemma anc_get u c h : 0 <= h < T ->
  node_mean (wo_field C u) (anc c h) = eval (wscale u) (wroot u) (path (Z.to_nat (T - h)) (imap (fun x => x / 2 ^ h) (inT c))).
Proof.
  intros Hh. rewrite <- wo_node_mean by (cbn [anc oh]; lia). unfold wo_get, anc. rewrite wo_toInternal_spec by assumption.
  rewrite wt_get_eval by lia. do 2 f_equal. destruct c as [x y z]. unfold shift, imap. cbn [px py pz].
  rewrite !div_shift by lia. reflexivity.
Qed.
Lemma first_mean u c : node_mean (wo_field C u) (anc c (T - 1)) = child_value (wscale u) (ndata (wroot u)) (top c).
Proof.
  rewrite anc_get by lia. replace (Z.to_nat (T - (T - 1))) with 1%nat by lia. cbn [path eval Z.of_nat].
  rewrite cidx_shift by lia. rewrite Z.add_0_l. destruct (getChild _ _); reflexivity.
Qed.
Lemma flat_field c : wo_field C flat c = (wo_field C t c - node_mean (wo_field C t) (anc c (T - 1)) + wscale t)%Qc.
Proof.
  rewrite first_mean, !field_top, flat_child. change (getChild (wroot flat) (top c)) with (getChild (wroot t) (top c)).
  set (q := path _ _). set (o := getChild _ _). set (x := child_value _ _ _).
  replace (wscale t) with (x + (wscale t - x))%Qc at 1 by ring. rewrite evo_shift. ring.
Qed.

(** Going down *)
Notation f0 := (wo_field C flat).
Notation skipped := (skip (o_type W) (i_slo K) f0).
Notation stopping := (stops (o_type W) (o_accept W) (i_th K) (i_slo K) f0).
Notation apply_at := (applied (o_sample W) (i_th K) (i_plo K) (i_phi K) f0 (wo_subdivided C t)).
Notation pathTo c h := (path (Z.to_nat (T - h)) (imap (fun x => x / 2 ^ h) (inT c))).
Lemma anc_sub c h : 0 <= h < T ->
  wo_subdivided C t (anc c h) = match nlook (pathTo c h) (wroot flat) with None => false | Some n => hasAtLeastOneChild n end.
Proof.
  intros Hh. unfold wo_subdivided, anc. rewrite wo_toInternal_spec by assumption. rewrite nd_getNode_path by lia.
  replace (shift (2 ^ (T - 1 - h)) (imap (fun x => x / 2 ^ h) c)) with (imap (fun x => x / 2 ^ h) (inT c)).
  2:{ destruct c as [x y z]. unfold shift, imap. cbn [px py pz]. rewrite !div_shift by lia. reflexivity. }
  assert (N : exists j q, pathTo c h = j :: q).
  { destruct (Z.to_nat (T - h)) eqn:E; [lia|]. cbn [path]. eauto. }
  destruct N as (j & q & ->). cbn [nlook]. reflexivity.
Qed.
Lemma pdelta_spec h : forall c v n, Z.of_nat h < T ->
  (forall r, eval (wscale flat) (wroot flat) (pathTo c (Z.of_nat h) ++ r) = evo v n r) ->
  (forall r, nlook (pathTo c (Z.of_nat h) ++ r) (wroot flat) = olook r n) ->
  exists i b, stopping (Z.of_nat h) c i b /\
    (f0 c + pdelta K W h c v n)%Qc = (if b then apply_at i c else f0 c).
Proof.
  induction h as [|h IH]; intros c v n Hh HE HL; [set (hh := Z.of_nat 0) in *|set (hh := Z.of_nat (S h)) in *];
    (assert (Mean : v = node_mean f0 (anc c hh)) by
      (rewrite anc_get by lia; specialize (HE []); rewrite app_nil_r in HE; rewrite HE; destruct n; reflexivity));
    (assert (Sub : no_children n = negb (wo_subdivided C t (anc c hh))) by
      (rewrite anc_sub by lia; specialize (HL []); rewrite app_nil_r in HL; rewrite HL; destruct n; reflexivity));
    cbn [pdelta]; fold hh; cbn [anc oh]; fold (anc c hh); rewrite Sub; (destruct (Z.leb_spec hh (i_th K)) as [Hb|Hb];
    [exists (anc c hh), true; (split; [apply stop_bottom; assumption|]); unfold applied; cbn [anc oh];
    (replace (i_th K <? hh) with false by (symmetry; apply Z.ltb_ge; lia)); cbn [andb]; fold (anc c hh);
    unfold clampAdd; rewrite applied_clamp, <- Mean; reflexivity|]).
  1: subst hh; cbn in Hb; lia.
  destruct (is_unobserved (o_type W (anc c hh))) eqn:Eu.
  { exists (anc c hh), false. split; [apply stop_skip; [assumption|]; left; rewrite node_of_anc; unfold unobserved, is_unobserved in *; destruct (o_type W (anc c hh)); congruence|ring]. }
  assert (SK : skipped (anc c hh) <-> negb (is_occupied (o_type W (anc c hh))) && qltb v (i_slo K) = true).
  { unfold skip, unobserved, occupied. rewrite andb_true_iff, qltb_iff, <- Mean. unfold is_unobserved, is_occupied in *.
    destruct (o_type W (anc c hh)); cbn [negb]; split; intros H; try destruct H as [H|[H1 H2]]; try discriminate; auto; try (destruct H; discriminate);
      try (right; destruct H; split; [discriminate|assumption]); try (split; [reflexivity|assumption]); exfalso; apply H1; reflexivity. }
  destruct (negb (is_occupied (o_type W (anc c hh))) && qltb v (i_slo K)) eqn:Es.
  { exists (anc c hh), false. split; [apply stop_skip; [assumption|]; rewrite node_of_anc; apply SK; reflexivity|ring]. }
  assert (NS : ~ skipped (node_of c hh)) by (rewrite node_of_anc, SK; discriminate).
  destruct (o_accept W (anc c hh)) eqn:Ea.
  { exists (anc c hh), true. split; [apply stop_accept; rewrite ?node_of_anc; assumption|]. unfold applied. cbn [anc oh].
    replace (i_th K <? hh) with true by (symmetry; apply Z.ltb_lt; lia). cbn [andb]. fold (anc c hh).
    destruct (wo_subdivided C t (anc c hh)); cbn [negb]; [reflexivity|].
    unfold clampAdd. rewrite applied_clamp, <- Mean. reflexivity. }
  set (nd := match n with Some nd => nd | None => Node (dzero qn) None end). set (j := cidx c (Z.of_nat h)).
  assert (PD : pathTo c (Z.of_nat h) = pathTo c hh ++ [j]).
  { unfold hh, j. rewrite (path_down C (inT c) h) by lia. rewrite cidx_inT by lia. reflexivity. }
  destruct (IH c (child_value v (ndata nd) j) (getChild nd j)) as (i & b & S1 & S2); [lia| | |].
  - intros r. rewrite PD, <- app_assoc. cbn [app]. rewrite HE, evo_cons. fold nd. f_equal. destruct n; reflexivity.
  - intros r. rewrite PD, <- app_assoc. cbn [app]. rewrite HL. unfold nd. destruct n as [n|]; [|reflexivity]. cbn [olook nlook].
    destruct (getChild n j); reflexivity.
  - exists i, b. split; [|exact S2]. apply stop_below; rewrite ?node_of_anc; try assumption. replace (hh - 1) with (Z.of_nat h) by lia. exact S1.
Qed.
Lemma plain_field c : wo_cell C c ->
  exists i b, stopping (T - 1) c i b /\
    wo_field C (wo_updateMap qn K W T t) c = (wo_field C t c + ((if b then apply_at i c else f0 c) - f0 c))%Qc.
Proof.
  intros Hc. rewrite plain_delta by assumption.
  destruct (pdelta_spec (Z.to_nat (T - 1)) c (wscale t) (getChild (wroot t) (top c))) as (i & b & S1 & S2); [lia| | |].
  3: rewrite Z2Nat.id in S1 by lia; exists i, b; (split; [exact S1|]); rewrite <- S2; ring.
  all: rewrite Z2Nat.id by lia; replace (Z.to_nat (T - (T - 1))) with 1%nat by lia; intros r; cbn [path app Z.of_nat];
    rewrite cidx_shift by lia; rewrite Z.add_0_l.
  - cbn [eval]. rewrite flat_child. reflexivity.
  - cbn [nlook]. change (getChild (wroot flat) (top c)) with (getChild (wroot t) (top c)). reflexivity.
Qed.
End PLAIN.
