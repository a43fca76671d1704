(** Property theorem C41 for WaveletIntegrator: the effect of one scan on every cell of the plain wavelet octree, in
    exact arithmetic. The vocabulary is that of S_Integrate.v. *)
From Verif Require Import Base M_IntMath F_IntMath M_NdtreeIndex M_Num F_Num M_Haar3 F_Haar3 M_Ndtree S_Field S_Integrate F_Hash
  M_Wavelet F_Wavelet F_Wavelet2 F_Leaves F_WavTree F_WavMap F_WavHash M_WavHist F_WavHist M_Octree F_Octree
  M_Integrator F_Integrator F_Integrator2 F_Integrator3 F_IntegratorP P_Wavelet P_Integrator.
From Coq Require Import QArith Qcanon Qcabs Lqa.
Close Scope Qc_scope.
Close Scope Q_scope.
Open Scope Z_scope.

(** ** Specification *)
(** The eight nodes of height [T - 1] around the origin make up the octree; the mean of all its cells. *)
Definition octants (T : Z) : list oidx :=
  map (fun p => OI (T - 1) p)
    [I3 (-1) (-1) (-1); I3 0 (-1) (-1); I3 (-1) 0 (-1); I3 0 0 (-1); I3 (-1) (-1) 0; I3 0 (-1) 0; I3 (-1) 0 0; I3 0 0 0].
Definition octree_mean (T : Z) (f : field) : Qc := (fold_right Qcplus 0%Qc (map (node_mean f) (octants T)) / Q2Qc 8)%Qc.
(** The field this integrator bases its decisions on: each octant is moved such that its mean becomes the mean of the
    whole octree. *)
Definition rebased (T : Z) (f : field) : field := fun c => (f c - node_mean f (node_of c (T - 1)) + octree_mean T f)%Qc.
(** The octree's stored subdivision: hasAtLeastOneChild of the node. *)
Definition p_field (C : wconfig) (t : wtree) : field := fun c => wo_get qn C t (cell c).
Definition p_stops (C : wconfig) (t : wtree) (K : iconst Qc) (W : oracle Qc) : Z -> idx3 -> oidx -> bool -> Prop :=
  stops (o_type W) (o_accept W) (i_th K) (i_slo K) (rebased (cT C) (p_field C t)).
Definition p_applied (C : wconfig) (t : wtree) (K : iconst Qc) (W : oracle Qc) : oidx -> idx3 -> Qc :=
  applied (o_sample W) (i_th K) (i_plo K) (i_phi K) (rebased (cT C) (p_field C t)) (wo_subdivided C t).

(** ** Proofs *)
Lemma node_mean_ext (f g : field) i : (forall c, f c = g c) -> node_mean f i = node_mean g i.
Proof.
  intros H. unfold node_mean. f_equal. unfold cell_sum.
  apply sum_range_ext_all. intros x. apply sum_range_ext_all. intros y. apply sum_range_ext_all. intros z. apply H.
Qed.
Lemma stops_ext ty ac th slo (f g : field) h c i b : 0 <= th -> (forall h', 0 <= h' <= h -> node_mean f (node_of c h') = node_mean g (node_of c h')) ->
  stops ty ac th slo f h c i b -> stops ty ac th slo g h c i b.
Proof.
  intros Hth E S. revert E. induction S as [h c Hh|h c Hh Hs|h c Hh Hs Ha|h c i b Hh Hs Ha S IH]; intros E.
  - apply stop_bottom. exact Hh.
  - apply stop_skip; [exact Hh|]. unfold skip in *. rewrite <- E by lia. exact Hs.
  - apply stop_accept; [exact Hh| |exact Ha]. unfold skip in *. rewrite <- E by lia. exact Hs.
  - apply stop_below; [exact Hh| |exact Ha|apply IH; intros; apply E; lia]. unfold skip in *. rewrite <- E by lia. exact Hs.
Qed.
Lemma applied_ext sa th plo phi (f g : field) sub i c : node_mean f i = node_mean g i -> f c = g c ->
  applied sa th plo phi f sub i c = applied sa th plo phi g sub i c.
Proof. intros E E'. unfold applied. rewrite E, E'. reflexivity. Qed.

Lemma octree_mean_scale C t : 1 <= cT C <= 21 -> octree_mean (cT C) (wo_field C t) = wscale t.
Proof.
  intros HT. unfold octree_mean, octants. cbn [map fold_right]. pose proof (pow2_pos (cT C - 1) ltac:(lia)) as P.
  assert (M : forall a b e, In a [-1; 0] -> In b [-1; 0] -> In e [-1; 0] ->
    node_mean (wo_field C t) (OI (cT C - 1) (I3 a b e)) =
    child_value (wscale t) (ndata (wroot t)) ((a + 1) + 2 * (b + 1) + 4 * (e + 1))).
  { intros a b e Ha Hb He.
    pose proof (first_mean C HT t (I3 (a * 2 ^ (cT C - 1)) (b * 2 ^ (cT C - 1)) (e * 2 ^ (cT C - 1)))) as F.
    unfold anc, imap in F. cbn [px py pz] in F. rewrite !Z.div_mul in F by lia. rewrite F. f_equal.
    unfold cidx, shift, imap. cbn [px py pz].
    assert (B : forall u, In u [-1; 0] -> Z.b2z (Z.testbit (u * 2 ^ (cT C - 1) + 2 ^ (cT C - 1)) (cT C - 1)) = u + 1).
    { intros u Hu. rewrite Z.testbit_spec' by lia. replace (u * 2 ^ (cT C - 1) + 2 ^ (cT C - 1)) with ((u + 1) * 2 ^ (cT C - 1)) by ring.
      rewrite Z.div_mul by lia. cbn in Hu. destruct Hu as [<-|[<-|[]]]; reflexivity. }
    rewrite !B by assumption. reflexivity. }
  rewrite !M by (cbn; tauto). cbn [Z.add Z.mul Z.pos_sub Pos.mul Pos.add Pos.succ].
  destruct (ndata (wroot t)) as [d1 d2 d3 d4 d5 d6 d7]. unfold child_value. cbv zeta.
  repeat match goal with |- context [Z.testbit ?a ?b] => let v := eval vm_compute in (Z.testbit a b) in change (Z.testbit a b) with v end.
  cbn [eqb sgn].
  replace (Q2Qc 8) with (1 + 1 + 1 + 1 + 1 + 1 + 1 + 1)%Qc by (apply Qc_is_canon; reflexivity).
  generalize (d1 / q2)%Qc, (d2 / q2)%Qc, (d3 / (q2 * q2))%Qc, (d4 / q2)%Qc, (d5 / (q2 * q2))%Qc, (d6 / (q2 * q2))%Qc, (d7 / (q2 * q2 * q2))%Qc.
  intros. field. discriminate.
Qed.
Lemma flat_rebased C t c : 1 <= cT C <= 21 -> wo_field C (flat t) c = rebased (cT C) (wo_field C t) c.
Proof. intros HT. rewrite flat_field by assumption. unfold rebased. rewrite octree_mean_scale by assumption. reflexivity. Qed.

(** ** C41 *)
(** Every cell of the octree changes by what the sample of its stopping node does to the rebased field; cells whose
    stopping node is skipped keep their value. *)
Theorem C41_plain_effect : forall C t K W c,
  valid_config C -> 0 <= i_th K -> in_octree (cT C) (cell c) ->
  exists i applies, p_stops C t K W (cT C - 1) c i applies /\
    wo_get qn C (wo_updateMap qn K W (cT C) t) (cell c) =
    (wo_get qn C t (cell c) + (if applies then p_applied C t K W i c - rebased (cT C) (p_field C t) c else 0))%Qc.
Proof.
  intros C t K W c [HT _] Hth Hc.
  assert (Hc' : wo_cell C c) by exact Hc.
  destruct (plain_field C HT K W Hth t c Hc') as (i & b & S1 & S2). exists i, b.
  assert (E : forall c, wo_field C (flat t) c = rebased (cT C) (p_field C t) c) by (intros c'; apply flat_rebased; exact HT).
  split; [refine (stops_ext _ _ _ _ _ _ _ _ _ _ Hth _ S1); intros; apply node_mean_ext; exact E|].
  change (wo_field C (wo_updateMap qn K W (cT C) t) c = (wo_field C t c + (if b then p_applied C t K W i c - rebased (cT C) (p_field C t) c else 0))%Qc).
  rewrite S2, (E c). f_equal. destruct b; [|ring]. f_equal. apply applied_ext; [apply node_mean_ext; exact E|apply E].
Qed.
(** The stopping node is unique and contains the cell. *)
Theorem C41_plain_stop_unique : forall C t K W h c i b i' b', 0 <= i_th K -> 0 <= h ->
  p_stops C t K W h c i b -> p_stops C t K W h c i' b' -> i = i' /\ b = b' /\ in_node i c = true /\ 0 <= oh i <= h.
Proof.
  intros C t K W h c i b i' b' Hth Hh H H'.
  assert (U : i = i' /\ b = b').
  { clear Hth Hh. revert i' b' H'. induction H; intros i' b' H'; inversion H'; subst; try lia; try contradiction; try congruence; auto. }
  destruct U as [<- <-]. split; [reflexivity|]. split; [reflexivity|]. clear H'.
  assert (N : forall h c, 0 <= h -> in_node (node_of c h) c = true) by (intros; apply node_of_in; assumption).
  induction H; cbn [node_of oh] in *; try (split; [apply N; assumption|lia]).
  destruct IHstops as [A B]; [lia|]. split; [exact A|lia].
Qed.
(** Within the octree as a whole a scan thus adds, at the finest resolution, exactly the clamped-off sample. *)
Theorem C41_plain_finest : forall C t K W c,
  valid_config C -> 0 <= i_th K -> in_octree (cT C) (cell c) -> p_stops C t K W (cT C - 1) c (cell c) true ->
  let x := rebased (cT C) (p_field C t) c in
  wo_get qn C (wo_updateMap qn K W (cT C) t) (cell c) =
  (wo_get qn C t (cell c) + (clampq (i_plo K) (i_phi K) (x + o_sample W (cell c)) - x))%Qc.
Proof.
  intros C t K W c HC Hth Hc Hs x. destruct (C41_plain_effect C t K W c HC Hth Hc) as (i & b & S1 & S2).
  destruct (C41_plain_stop_unique C t K W (cT C - 1) c _ _ _ _ Hth ltac:(destruct HC as [HT _]; lia) Hs S1) as (<- & <- & _). rewrite S2. unfold p_applied, applied, cell.
  cbn [oh]. replace (i_th K <? 0) with false by (symmetry; apply Z.ltb_ge; lia). cbn [andb].
  rewrite node_mean_cell. fold x. clearbody x. generalize (wo_get qn C t (OI 0 c)). intros y. ring.
Qed.
(** Where the octants' means coincide (in particular in a map no scan has changed yet) the rebased field is the map's
    own, so the integrator does what the hashed one does in the blocks it selects. *)
Theorem C41_plain_balanced : forall C t K W c,
  valid_config C -> 0 <= i_th K -> in_octree (cT C) (cell c) ->
  (forall i, In i (octants (cT C)) -> node_mean (p_field C t) i = octree_mean (cT C) (p_field C t)) ->
  exists i applies, stops (o_type W) (o_accept W) (i_th K) (i_slo K) (p_field C t) (cT C - 1) c i applies /\
    wo_get qn C (wo_updateMap qn K W (cT C) t) (cell c) =
    if applies then applied (o_sample W) (i_th K) (i_plo K) (i_phi K) (p_field C t) (wo_subdivided C t) i c
    else wo_get qn C t (cell c).
Proof.
  intros C t K W c HC Hth Hc HB. destruct (C41_plain_effect C t K W c HC Hth Hc) as (i & b & S1 & S2). exists i, b.
  assert (HT : 1 <= cT C <= 21) by (destruct HC; assumption).
  assert (R : forall c', in_node (node_of c (cT C - 1)) c' = true -> rebased (cT C) (p_field C t) c' = p_field C t c').
  { intros c' Hin. unfold rebased. change (node_of c' (cT C - 1)) with (node_of c' (oh (node_of c (cT C - 1)))).
    rewrite <- (node_of_unique c' (node_of c (cT C - 1)) ltac:(cbn [node_of oh]; lia) Hin). unfold node_of.
    rewrite HB; [ring|]. destruct Hc as (_ & H1 & H2 & H3). cbn [cell oh opos] in *. rewrite Z.sub_0_r in *.
    pose proof (pow2_pos (cT C - 1) ltac:(lia)) as P.
    assert (D : forall x, - 2 ^ (cT C - 1) <= x < 2 ^ (cT C - 1) -> x / 2 ^ (cT C - 1) = -1 \/ x / 2 ^ (cT C - 1) = 0).
    { intros x Hx. destruct (Z.lt_ge_cases x 0); [left; symmetry; apply Z.div_unique with (r := x + 2 ^ (cT C - 1)); [left|]; lia|right; apply Z.div_small; lia]. }
    unfold octants. cbn [map In].
    destruct (D _ H1) as [-> | ->], (D _ H2) as [-> | ->], (D _ H3) as [-> | ->]; tauto. }
  assert (M : forall h', 0 <= h' <= cT C - 1 -> node_mean (rebased (cT C) (p_field C t)) (node_of c h') = node_mean (p_field C t) (node_of c h')).
  { intros h' Hh'. apply F_WavHist.node_mean_ext; [cbn [node_of oh]; lia|]. intros c' Hin. apply R.
    apply node_of_unique in Hin; [|cbn [node_of oh]; lia]. cbn [node_of oh] in Hin. injection Hin as E1 E2 E3.
    replace (node_of c (cT C - 1)) with (node_of c' (cT C - 1)); [apply node_of_in; lia|]. unfold node_of.
    assert (D : forall x y, x / 2 ^ h' = y / 2 ^ h' -> y / 2 ^ (cT C - 1) = x / 2 ^ (cT C - 1)).
    { intros x y Exy. replace (cT C - 1) with (h' + (cT C - 1 - h')) by lia. rewrite <- !div_div_pow by lia. rewrite Exy. reflexivity. }
    rewrite (D _ _ E1), (D _ _ E2), (D _ _ E3). reflexivity. }
  split; [exact (stops_ext _ _ _ _ _ _ _ _ _ _ Hth M S1)|]. rewrite S2.
  assert (Rc : rebased (cT C) (p_field C t) c = p_field C t c) by (apply R, node_of_in; lia).
  destruct b; [|ring]. destruct (C41_plain_stop_unique C t K W (cT C - 1) c _ _ _ _ Hth ltac:(lia) S1 S1) as (_ & _ & Hin & Hoh).
  unfold p_applied. rewrite (applied_ext _ _ _ _ _ (p_field C t)); [|rewrite (node_of_unique c i (proj1 Hoh) Hin); apply M; lia|exact Rc].
  rewrite Rc. change (p_field C t c) with (wo_get qn C t (cell c)). ring.
Qed.

(** ** A concrete scan *)
Definition expt : wtree := wo_run exC [CAdd (OI 0 (I3 1 1 1)) (Q2Qc 3); CAdd (OI 0 (I3 3 3 3)) (Q2Qc 1); CAdd (OI 0 (I3 (-1) 0 0)) (Q2Qc 1)].
Example C41_plain_ex :
  map (fun c => this (wo_get qn exC expt (cell c))) [I3 1 1 1; I3 0 1 1; I3 3 3 3; I3 2 2 2; I3 (-1) 0 0] = [3; 0; 1; 0; 1]%Q /\
  map (fun c => this (wo_get qn exC (wo_updateMap qn exK exW (cT exC) expt) (cell c))) [I3 1 1 1; I3 0 1 1; I3 3 3 3; I3 2 2 2; I3 (-1) 0 0] =
  [557017315095 # 137438953472; -1 # 2; 1 # 2; -1 # 2; 1]%Q /\
  map (fun c => this (rebased (cT exC) (p_field exC expt) c)) [I3 1 1 1; I3 0 1 1] = [1509 # 512; -27 # 512]%Q.
Proof. vm_compute. repeat split; reflexivity. Qed.
Example C41_plain_ex_hyps : valid_config exC /\ plain_reachable exC expt /\ in_octree (cT exC) (cell (I3 1 1 1)) /\
  p_stops exC expt exK exW (cT exC - 1) (I3 1 1 1) (cell (I3 1 1 1)) true.
Proof.
  split; [exact exC_valid|]. split; [eexists; split; [|reflexivity]; fall|]. split; [inoct|].
  assert (NS : forall h, 0 < h <= 2 -> ~ skip (o_type exW) (i_slo exK) (rebased (cT exC) (p_field exC expt)) (node_of (I3 1 1 1) h)).
  { intros h Hh. assert (h = 1 \/ h = 2) as [-> | ->] by lia; (intros [H|[H _]]; [discriminate H|apply H; reflexivity]). }
  apply stop_below; [cbn; lia|apply NS; cbn; lia|reflexivity|]. apply stop_below; [cbn; lia|apply NS; cbn; lia|reflexivity|].
  apply stop_bottom. cbn. lia.
Qed.
(** The hypothesis of C41_plain_balanced is met by a new map and by a map with the same edit in each octant. *)
Definition expb : wtree := wo_run exC (map (fun i => CAdd i (Q2Qc 1)) (octants 3) ++ [CAdd (OI 0 (I3 1 1 1)) (Q2Qc 1)] ++
  map (fun p => CAdd (OI 0 p) (Q2Qc 1)) [I3 (-1) (-1) (-1); I3 0 (-1) (-1); I3 (-1) 0 (-1); I3 0 0 (-1); I3 (-1) (-1) 0; I3 0 (-1) 0; I3 (-1) 0 0]).
Example C41_plain_balanced_ex : map (fun i => this (node_mean (p_field exC expb) i)) (octants 3) = repeat (65 # 64)%Q 8 /\
  this (octree_mean 3 (p_field exC expb)) = (65 # 64)%Q.
Proof. split; vm_compute; reflexivity. Qed.
Print Assumptions C41_plain_effect.
Print Assumptions C41_plain_stop_unique.
Print Assumptions C41_plain_finest.
Print Assumptions C41_plain_balanced.
