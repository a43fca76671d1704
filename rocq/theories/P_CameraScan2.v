(** Property theorems C84, continued: the hashed chunked wavelet integrator, and the error of the accepted nodes in both hashed maps. *)
From Verif Require Import Base M_IntMath M_NdtreeIndex M_Num F_Num M_Ndtree S_Field S_Integrate M_Wavelet M_WavHist M_Chunked M_ChunkedHist
  P_Wavelet M_Integrator F_Integrator F_Integrator3 P_Integrator P_Integrator3.
From Verif Require Import M_Point P_Point M_Image M_RangeBounds P_RangeBounds M_Measure F_Measure P_Measure M_Intersector.
From Verif Require Import M_FixedRes P_FixedRes M_CameraScan P_CameraScan.
From Coq Require Import QArith Qround Qabs Qcanon Qcabs Lqa Permutation.
Close Scope Qc_scope.
Close Scope Q_scope.
Open Scope Z_scope.

(** ** Specification *)
(** [s] and [u] are the log-odds of probabilities that differ by less than [e]. *)
Definition near_update (flog : Q -> Q) (e : Q) (u s : Qc) : Prop :=
  exists p p', (0 < p < 1)%Q /\ (0 < p' < 1)%Q /\ (Qabs (p - p') < e)%Q /\ u = Q2Qc (log_odds flog p') /\ s = Q2Qc (log_odds flog p).
(** Where the error bound of the measurement model applies: one pixel per point; the middles of node and cell have depths that are used, and
    are seen in the same pixel if the node may be occupied *)
Definition bounded_region (rnd : Q -> Z) (cfg : mm_config) (cam : pinhole) (W : oracle Qc) (T : pose3) (min_range max_range w : Q) (i : oidx) (c : idx3) : Prop :=
  selector cfg = kNearestNeighbor /\ (scaling_free cfg <= scaling_occupied cfg)%Q /\ unit_axis T /\
  in_range min_range max_range (depth T (middle w i)) /\ in_range min_range max_range (depth T (middle w (cell c))) /\
  (o_type W i = kPossiblyOccupied -> pixel rnd cam T (middle w i) = pixel rnd cam T (middle w (cell c))).

Lemma near_sample flog rnd cfg cam im T min_range max_range tue w i c u : camera_setup flog rnd cfg cam im min_range -> (0 < w)%Q ->
  let W := camera_scan flog rnd cfg cam im T min_range max_range tue w in
  0 <= oh i <= 20 -> in_node i c = true -> in_front T w i -> bounded_region rnd cfg cam W T min_range max_range w i c ->
  o_type W i <> kFullyUnobserved -> o_accept W i = true ->
  assigned min_range max_range (pinhole_sensor cam) (ray_computeUpdate flog cfg rnd pinhole_base im) T w c u ->
  near_update flog tue u (o_sample W i).
Proof.
  intros HS Hw W H I F (SE & SF & U & R1 & R2 & SP) NU AC A.
  exists (prob_at rnd cfg cam im T (middle w i)), (prob_at rnd cfg cam im T (middle w (cell c))).
  split; [eapply prob_bounds; exact HS|]. split; [eapply prob_bounds; exact HS|].
  split; [eapply (prob_error flog rnd cfg cam im T min_range max_range tue w HS Hw i c); eassumption|]. split.
  - rewrite (assigned_update _ _ _ _ _ _ _ _ _ HS c u A). apply Qc_is_canon. cbn [this Q2Qc]. rewrite !Qred_correct. eapply prob_update; eassumption.
  - unfold W. rewrite (sample_middle _ _ _ _ _ _ _ _ _ _ HS i ltac:(lia)). apply Qc_is_canon. cbn [this Q2Qc]. rewrite !Qred_correct. eapply prob_update; eassumption.
Qed.
(** In the exact region, the sample of the node is the update of the cell. *)
Lemma same_sample flog rnd cfg cam im T min_range max_range tue w i c u : camera_setup flog rnd cfg cam im min_range -> (0 < w)%Q ->
  let W := camera_scan flog rnd cfg cam im T min_range max_range tue w in
  0 <= oh i -> in_node i c = true -> in_front T w i -> exact_region W T min_range max_range w i c ->
  assigned min_range max_range (pinhole_sensor cam) (ray_computeUpdate flog cfg rnd pinhole_base im) T w c u -> o_sample W i = u.
Proof.
  intros HS Hw W H In Fr X A. destruct (exact_sample flog rnd cfg cam im T min_range max_range tue w i c u HS Hw H In Fr A) as (X0 & X1 & X2). fold W in X0, X1, X2.
  destruct X as [X|[X|(X & R1 & R2)]]; [apply X0; exact X| |apply X2; assumption].
  rewrite (X1 X). unfold W. rewrite (sample_middle _ _ _ _ _ _ _ _ _ _ HS i H). apply Qc_is_canon. cbn [this Q2Qc]. rewrite Qred_correct.
  apply (point_update flog rnd cfg cam im T min_range max_range tue w HS Hw i); [exact H|exact Fr|apply middle_in; [exact Hw|exact H]|exact X].
Qed.
Lemma stops_accepted typ acc th slo (g : field) h c i : stops typ acc th slo g h c i true -> th < oh i -> acc i = true /\ typ i <> kFullyUnobserved.
Proof.
  remember true as b eqn:Eb. intros S. induction S as [h c H|h c H S|h c H NS A|h c i b H NS A S IH]; intros L.
  - cbn [node_of oh] in L. lia.
  - discriminate Eb.
  - split; [exact A|]. intros X. apply NS. left. exact X.
  - apply IH; assumption.
Qed.
Lemma batch_accepted typ acc th slo (g : field) h c i b : batch_stops typ acc th slo g h c i b -> b = AddSample -> acc i = true /\ typ i <> kFullyUnobserved.
Proof.
  intros S. induction S as [h c S|h c NS A|h c NS A H|h c i b NS A H S IH]; intros Eb; try discriminate Eb.
  - split; [exact A|]. intros X. apply NS. left. exact X.
  - apply IH, Eb.
Qed.

(** ** Theorems *)
(** Hashed wavelet octree: where a scan stops above the smallest nodes, the value that is applied is the log-odds of a probability that is
    less than termination_update_error away from the one that the measurement model assigns to the cell. *)
Theorem C84_hashed_error : forall flog rnd cfg cam im T min_range max_range tue w C m K now k fov sched m' c i u,
  camera_setup flog rnd cfg cam im min_range -> (0 < w)%Q -> valid_config C -> hw_state C m -> 0 <= i_th K -> fov_ok C k fov ->
  let W := camera_scan flog rnd cfg cam im T min_range max_range tue w in
  hw_updateMap qn K W (cT C) now k fov sched m = Some m' -> in_front T w i ->
  assigned min_range max_range (pinhole_sensor cam) (ray_computeUpdate flog cfg rnd pinhole_base im) T w c u ->
  scan_updates C m K W k fov c -> scan_stops C m K W (cT C - 1) c i true -> i_th K < oh i -> bounded_region rnd cfg cam W T min_range max_range w i c ->
  exists s, near_update flog tue u s /\
    hw_get qn C m' c = applied (fun _ => s) (i_th K) (i_plo K) (i_phi K) (hw_get qn C m) (hw_subdivided C m) i c.
Proof.
  intros flog rnd cfg cam im T min_range max_range tue w C m K now k fov sched m' c i u HS Hw HC Hm Hth Hf W E Fr A Hu Hs Hh B.
  destruct (C41_stop_unique C m K W (cT C - 1) c i true i true Hth ltac:(destruct HC; lia) Hs Hs) as (_ & _ & In & Ho).
  destruct (C41_scan_effect C m K W now k fov sched m' c HC Hm Hth Hf E) as [U _]. destruct (U Hu) as (i' & b' & S1 & S2).
  destruct (C41_stop_unique C m K W (cT C - 1) c i true i' b' Hth ltac:(destruct HC; lia) Hs S1) as (<- & <- & _).
  destruct (stops_accepted _ _ _ _ _ _ _ _ Hs Hh) as [AC NU]. destruct HC as [HT _].
  exists (o_sample W i). split; [|rewrite S2; reflexivity].
  exact (near_sample flog rnd cfg cam im T min_range max_range tue w i c u HS Hw ltac:(lia) In Fr B NU AC A).
Qed.
(** Hashed chunked wavelet octree: as for the hashed wavelet octree, with the cases of the batched integrator. *)
Theorem C84_chunked : forall fuel flog rnd cfg cam im T min_range max_range tue w C m K now k fov order c i b u,
  camera_setup flog rnd cfg cam im min_range -> (0 < w)%Q ->
  valid_config C -> 2 <= cT C -> (Z.to_nat (cT C) <= fuel)%nat -> hc_state fuel C m -> 0 <= i_th K -> (i_plo K <= i_phi K)%Qc -> NoDup fov -> fov_ok C k fov ->
  let W := camera_scan flog rnd cfg cam im T min_range max_range tue w in
  Permutation order (hc_blocks qn K W m k fov) ->
  let m' := hc_updateMap qn K W (cT C) now order (hc_blocks qn K W m k fov) m in
  let with_sample s := batch_applied (fun _ => s) (i_plo K) (i_phi K) (hc_get qn C m) b i c in
  in_front T w i -> assigned min_range max_range (pinhole_sensor cam) (ray_computeUpdate flog cfg rnd pinhole_base im) T w c u ->
  c_updates C m K W k fov c -> c_stops C m K W (cT C - 1) c i b ->
  (exact_region W T min_range max_range w i c -> hc_get qn C m' c = with_sample u) /\
  (b = AddSample -> bounded_region rnd cfg cam W T min_range max_range w i c -> exists s, near_update flog tue u s /\ hc_get qn C m' c = with_sample s) /\
  (o_type W i = kFullyUnobserved -> u = 0%Qc).
Proof.
  intros fuel flog rnd cfg cam im T min_range max_range tue w C m K now k fov order c i b u HS Hw HC HT2 Hfuel Hm Hth Hcl Hnd Hf W Hp m' with_sample Fr A Hu Hs.
  destruct (C41_chunked_stop_unique C m K W (cT C - 1) c i b i b Hth ltac:(lia) Hs Hs) as (_ & _ & In & Ho).
  destruct (C41_chunked_effect fuel C m K W now k fov order c HC HT2 Hfuel Hm Hth Hcl Hnd Hf Hp) as [U _]. cbv zeta in U. destruct (U Hu) as (i' & b' & S1 & S2).
  destruct (C41_chunked_stop_unique C m K W (cT C - 1) c i b i' b' Hth ltac:(lia) Hs S1) as (<- & <- & _). fold m' in S2.
  assert (E : hc_get qn C m' c = with_sample (o_sample W i)) by (rewrite S2; unfold c_applied, with_sample, batch_applied; reflexivity).
  destruct HC as [HT _]. split; [|split].
  - intros X. rewrite E. f_equal. exact (same_sample flog rnd cfg cam im T min_range max_range tue w i c u HS Hw ltac:(lia) In Fr X A).
  - intros Eb B. exists (o_sample W i). split; [|exact E]. destruct (batch_accepted _ _ _ _ _ _ _ _ _ Hs Eb) as [AC NU].
    exact (near_sample flog rnd cfg cam im T min_range max_range tue w i c u HS Hw ltac:(lia) In Fr B NU AC A).
  - intros X. apply (exact_sample flog rnd cfg cam im T min_range max_range tue w i c u HS Hw ltac:(lia) In Fr A). exact X.
Qed.
Print Assumptions C84_hashed_error.
Print Assumptions C84_chunked.

(** The scan of C84_ex_hashed on an empty chunked map. The fully free node of [ex_cell] is accepted; so is a node of 20 cm at the front of the
    nearer wall, whose cells are not all in the same state (C84_ex). *)
Example C84_ex_chunked : valid_config ex_hashed /\ 2 <= cT ex_hashed /\ hc_state 4 ex_hashed [] /\ (i_plo exK <= i_phi exK)%Qc /\
  let fov := [node_of ex_cell 4] in
  NoDup fov /\ fov_ok ex_hashed 0 fov /\ hc_blocks qn exK ex_W [] 0 fov = [opos (node_of ex_cell 4)] /\
  c_updates ex_hashed [] exK ex_W 0 fov ex_cell /\ c_stops ex_hashed [] exK ex_W 3 ex_cell (node_of ex_cell 3) AddSample /\
  exact_region ex_W at_zero 2 20 ex_w (node_of ex_cell 3) ex_cell /\ bounded_region round_away ex_cfg ex_camera ex_W at_zero 2 20 ex_w (node_of ex_cell 3) ex_cell.
Proof.
  destruct C84_ex_hashed as (V & _ & _ & F & _ & _ & _ & _ & X & _).
  split; [exact V|]. split; [cbn; lia|]. split; [constructor|]. split; [vm_compute; discriminate|]. cbv zeta. split; [repeat constructor; intros []|]. split; [exact F|].
  split; [vm_compute; reflexivity|]. split; [|split; [|split; [exact X|]]].
  - split; [left; reflexivity|]. split; [|left; vm_compute; reflexivity]. intros h Hh H. assert (h = 4) as -> by (change (cT ex_hashed) with 4 in Hh; lia). vm_compute in H. discriminate H.
  - apply bstop_accept; [|vm_compute; reflexivity]. intros [H|[_ H]]; [vm_compute in H; discriminate H|]. vm_compute in H. discriminate H.
  - split; [reflexivity|]. split; [discriminate|]. split; [reflexivity|]. split; [split; discriminate|]. split; [split; discriminate|]. intros H. vm_compute in H. discriminate H.
Qed.
Definition ex_cell' : idx3 := I3 4 0 80.
Example C84_ex_error : c_updates ex_hashed [] exK ex_W 0 [node_of ex_cell' 4] ex_cell' /\
  c_stops ex_hashed [] exK ex_W 3 ex_cell' (node_of ex_cell' 2) AddSample /\ scan_stops ex_hashed [] exK ex_W 3 ex_cell' (node_of ex_cell' 2) true /\
  bounded_region round_away ex_cfg ex_camera ex_W at_zero 2 20 ex_w (node_of ex_cell' 2) ex_cell' /\ o_type ex_W (node_of ex_cell' 2) = kPossiblyOccupied.
Proof.
  assert (N : forall h g, h = 2 \/ h = 3 -> ~ skip (o_type ex_W) (i_slo exK) g (node_of ex_cell' h)).
  { intros h g [-> | ->] [H|[H _]]; [vm_compute in H; discriminate H|apply H; vm_compute; reflexivity|vm_compute in H; discriminate H|apply H; vm_compute; reflexivity]. }
  split; [|split; [|split; [|split]]].
  - split; [left; reflexivity|]. split; [|left; vm_compute; reflexivity]. intros h Hh H. assert (h = 4) as -> by (change (cT ex_hashed) with 4 in Hh; lia). vm_compute in H. discriminate H.
  - apply bstop_below; [apply N; auto|vm_compute; reflexivity|reflexivity|]. apply bstop_accept; [apply N; auto|vm_compute; reflexivity].
  - apply stop_below; [reflexivity|apply N; auto|vm_compute; reflexivity|]. apply stop_accept; [reflexivity|apply N; auto|vm_compute; reflexivity].
  - split; [reflexivity|]. split; [discriminate|]. split; [reflexivity|]. split; [split; discriminate|]. split; [split; discriminate|]. intros _. vm_compute. reflexivity.
  - vm_compute. reflexivity.
Qed.
