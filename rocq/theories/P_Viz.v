(** * C68: the voxel display in RViz shows the map *)
From Verif Require Import Base M_IntMath F_IntMath M_NdtreeIndex M_Num F_Num M_Haar F_Haar M_Haar3 F_Haar3 M_Ndtree S_Field F_Hash M_Wavelet
  F_Wavelet F_Wavelet2 F_Leaves F_WavTree F_WavMap F_WavHash M_WavHist F_WavHist M_Octree F_Octree P_Wavelet M_Stream M_Publish M_Point M_Adjacency M_Sdf F_Sdf
  M_Viz S_Viz F_Viz F_Viz2 F_Viz3 F_Viz4.
From Coq Require Import QArith Qcanon Qcabs Lqa Permutation.
Close Scope Qc_scope. Close Scope Q_scope. Open Scope Z_scope.

(** ** The maps and their time stamps *)
Lemma height_paths n : forall t : node (det Qc), height_ok n t -> forall q, valid_path q -> nlook q t <> None -> (length q < n)%nat.
Proof.
  induction n as [|n IH]; intros t H; [destruct H|]. intros [|c q] Hq L; [cbn; lia|]. inversion Hq as [|x y Hc Hq']; subst. cbn [nlook] in L. specialize (H c Hc).
  destruct (getChild t c) as [ch|]; [|congruence]. specialize (IH ch H q Hq' L). cbn. lia.
Qed.
Theorem C68_maps_well_formed : forall C m, valid_config C -> hashed_reachable C m -> well_formed C m.
Proof.
  intros C m HC Hr. destruct (hashed_ok C m HC Hr) as [W H]. split; [exact W|]. intros k b Hb q Hq L. destruct (H k b Hb) as [[HT Ht] _].
  pose proof (height_paths _ _ Ht q Hq L). destruct HC. lia.
Qed.
(** A map message leaves blocks as they are or stamps them with the time of its reception. *)
Theorem C68_message_stamps : forall now w C m msg w' C' m',
  NoDup (map fst m) -> recv qn now (Some (w, C, m)) msg = Some (Some (w', C', m')) ->
  forall k b, getBlock m' k = Some b -> bstamp b = now \/ getBlock m k = Some b.
Proof.
  intros now w C m msg w' C' m' W H k b Hb. unfold recv in H.
  assert (X : forall l m0 m1, recv_blocks qn now m0 l = Some m1 -> getBlock m1 k = Some b -> bstamp b = now \/ getBlock m0 k = Some b).
  { induction l as [|bm l IH]; intros m0 m1 E E1; cbn [recv_blocks] in E; [injection E as ->; right; exact E1|].
    unfold recv_block in E. destruct (ros_tree _ _ _ _) as [root|]; cbn [option_map] in E; [|discriminate].
    destruct (IH _ _ E E1) as [Y|Y]; [left; exact Y|]. rewrite getBlock_setBlock in Y. destruct (ieqb _ _); [|right; exact Y].
    injection Y as <-. left. cbn [bstamp]. destruct (getBlock m0 _); reflexivity. }
  destruct (conf_eq _ _ _ _ _) eqn:Ec.
  - destruct (recv_blocks _ _ _ _) as [m1|] eqn:E; cbn [option_map] in H; [|discriminate]. injection H as _ _ ->.
    destruct (X _ _ _ E Hb) as [Y|Y]; [left; exact Y|]. rewrite getBlock_eraseBlockIf in Y by exact W. cbn [fst snd] in Y.
    destruct (getBlock m k) as [b0|]; [|discriminate]. destruct (negb _); [discriminate|]. right. exact Y.
  - destruct (recv_blocks _ _ _ _) as [m1|] eqn:E; cbn [option_map] in H; [|discriminate]. injection H as _ _ ->.
    destruct (X _ _ _ E Hb) as [Y|Y]; [left; exact Y|discriminate].
Qed.

(** ** The display *)
Section DISPLAY.
Context (C : qconf) (w : Q) (HT : 1 <= cT C <= 21) (Hw : (0 < w)%Q).
Lemma run_inv sel l : history C w None 0 l -> exists z om t, vrun qn (vinit sel) l = Some (z, om) /\
  vinv C w (tracked (s_surface_mode sel) true l) (notified true l) t om z.
Proof. intros H. exact (history_inv C w ltac:(lia) l (fst (vinit sel)) None true true 0 (vinit_inv C w ltac:(lia) sel) H). Qed.
Lemma inv_display z t k b m : vinv C w true true t (Some (DM C w m)) z -> z_visible z = true -> getBlock m k = Some b ->
  getBlock (z_queue z) k <> None \/ exists h, 0 <= h < cT C /\ displayed C w m z k b h.
Proof.
  intros I Hv Hb. destruct (getBlock (z_queue z) k) as [q|] eqn:Eq; [left; discriminate|right].
  destruct (drawn_of C w m (fun _ => None) z t k b I Hv Hb Eq) as (h & Hh & E). exists h. split; [exact Hh|].
  apply expected_displayed; try assumption. apply (i_map _ _ _ _ _ _ _ I _ eq_refl).
Qed.
Lemma inv_absent z t k m : vinv C w true true t (Some (DM C w m)) z -> z_visible z = true -> getBlock m k = None -> cubes z k = [].
Proof.
  intros I Hv Hb. unfold cubes. destruct (getBlock (z_drawn z) k) eqn:E; [|reflexivity]. exfalso.
  apply (proj1 (i_sy _ _ _ _ _ _ _ I eq_refl Hv _ eq_refl) k); [left; congruence|exact Hb].
Qed.
End DISPLAY.

(** Whatever happens, the display does not fail. *)
Theorem C68_no_abort : forall C w sel l, 1 <= cT C <= 21 -> history C w None 0 l -> exists s, vrun qn (vinit sel) l = Some s.
Proof. intros C w sel l HT H. destruct (run_inv C w HT sel l H) as (z & om & t & E & _). eauto. Qed.

(** At any time, a block of the map is either shown as it is, at some resolution, or waits to be redrawn; nothing else is shown. *)
Theorem C68_faithful : forall C w sel l z d,
  1 <= cT C <= 21 -> (0 < w)%Q -> history C w None 0 l -> vrun qn (vinit sel) l = Some (z, Some d) ->
  z_visible z = true -> tracked (s_surface_mode sel) true l = true -> notified true l = true ->
  (forall k, getBlock (d_blocks d) k = None -> cubes z k = []) /\
  (forall k b, getBlock (d_blocks d) k = Some b ->
     getBlock (z_queue z) k <> None \/ exists h, 0 <= h < cT C /\ displayed C w (d_blocks d) z k b h).
Proof.
  intros C w sel l z d HT Hw H E Hv Ht Hn. destruct (run_inv C w HT sel l H) as (z' & om & t & E' & I). rewrite E in E'. injection E' as <- <-.
  rewrite Ht, Hn in I. destruct (i_map _ _ _ _ _ _ _ I d eq_refl) as (Ec & Ew & _). rewrite (dm_eta C w d Ec Ew) in I. split.
  - intros k Hk. exact (inv_absent C w z t k (d_blocks d) I Hv Hk).
  - intros k b Hb. exact (inv_display C w HT Hw z t k b (d_blocks d) I Hv Hb).
Qed.

(** When the map, the settings and the camera stop changing, as many frames as there are blocks complete the display, at the
    resolution that the camera asks for or one step finer, but never finer than the user's setting. *)
Definition goal_height (raw : option Z) (lo hi : Z) : Z := match raw with None => lo | Some r => Z.max lo (Z.min r hi) end.
Theorem C68_settles : forall C w sel l z d raw fs,
  1 <= cT C <= 21 -> (0 < w)%Q -> history C w None 0 l -> vrun qn (vinit sel) l = Some (z, Some d) ->
  z_visible z = true -> tracked (s_surface_mode sel) true l = true -> notified true l = true ->
  Forall (fun f => f_raw f = raw /\ forall q, Permutation (f_order f q) q) fs ->
  z_force z = true \/ (exists f fs', fs = f :: fs' /\ f_moved f = true) ->
  fs <> [] -> (length (d_blocks d) <= length fs)%nat ->
  exists z', vrun qn (z, Some d) (map EFrame fs) = Some (z', Some d) /\ z_queue z' = [] /\
    (forall k, getBlock (d_blocks d) k = None -> cubes z' k = []) /\
    forall k b, getBlock (d_blocks d) k = Some b ->
      exists h, displayed C w (d_blocks d) z' k b h /\ z_term z <= h /\ 0 <= h /\
        goal_height (raw k) (z_term z) (cT C - 1) - 1 <= h <= goal_height (raw k) (z_term z) (cT C - 1).
Proof.
  intros C w sel l z d raw fs HT Hw H E Hv Ht Hn F Hf Hne Hlen. destruct (run_inv C w HT sel l H) as (z0 & om & t & E' & I). rewrite E in E'. injection E' as <- <-.
  rewrite Ht, Hn in I. destruct (i_map _ _ _ _ _ _ _ I d eq_refl) as (Ec & Ew & _). rewrite (dm_eta C w d Ec Ew) in I |- *. cbn [d_blocks]. set (m := d_blocks d) in *.
  clearbody m. clear d E Ec Ew.
  destruct fs as [|f fs]; [congruence|]. inversion F as [|x y [F1 F2] F3]; subst.
  assert (Hf' : settled C w m (f_raw f) z \/ z_force z = true \/ f_moved f = true).
  { destruct Hf as [Hf|(f' & fs' & Ef & Hf)]; [auto|]. injection Ef as <- <-. auto. }
  destruct (prerender_settles C w ltac:(lia) m (f_raw f) f z t I Hv eq_refl F2 Hf') as (z1 & E1 & I1 & V1 & T1 & S1 & J1 & L1 & _).
  destruct (frames_settle C w ltac:(lia) m (f_raw f) fs z1 t I1 V1 J1 F3) as (z' & E2 & I2 & V2 & T2 & S2 & J2 & L2).
  assert (Q0 : z_queue z' = []) by (destruct (z_queue z') as [|q0 q]; [reflexivity|]; cbn [length] in *; lia).
  exists z'. split; [cbn [map vrun vstep]; rewrite E1; exact E2|]. split; [exact Q0|]. split.
  - intros k Hk. exact (inv_absent _ _ z' t k m I2 V2 Hk).
  - intros k b Hb. destruct (J2 k) as [_ J]. rewrite Q0 in J. destruct (J eq_refl b Hb) as (h & Hh & H1 & H2 & Ed). exists h. split.
    + apply expected_displayed; try assumption. apply (i_map _ _ _ _ _ _ _ I2 _ eq_refl).
    + assert (Et : z_term z' = z_term z) by congruence. unfold target in H2. rewrite Et in *. split; [exact H1|]. split; [lia|].
      assert (Eg : goal_height (f_raw f k) (z_term z) (cT C - 1) = recommended (f_raw f k) (z_term z) (cT C - 1)).
      { pose proof (b_term _ _ _ (i_base _ _ _ _ _ _ _ I)). unfold goal_height, recommended. destruct (f_raw f k) as [r|]; [|reflexivity].
        destruct (Z.ltb_spec r (z_term z)); [lia|]. destruct (Z.ltb_spec (cT C - 1) r); lia. }
      rewrite Eg. exact H2.
Qed.
Print Assumptions C68_maps_well_formed.
Print Assumptions C68_message_stamps.
Print Assumptions C68_no_abort.
Print Assumptions C68_faithful.
Print Assumptions C68_settles.

(** ** A concrete case *)
Definition leaf_block (v : Qc) (t : Z) : wblock := WB (WT (Node (dzero qn) None) v) false false t.
Definition vC1 : qconf := WC 1 (Q2Qc (-2)) (Q2Qc 4).
Definition vC2 : qconf := WC 2 (Q2Qc (-2)) (Q2Qc 4).
Definition kA : idx3 := I3 0 0 0.
Definition kB : idx3 := I3 1 0 0.
Definition surface_sel : selector (V := Qc) := Sel true 0%Qc 0%Qc (Q2Qc 100) (Q2Qc (1 # 10000)).
Definition band_sel : selector (V := Qc) := Sel false 0%Qc 0%Qc (Q2Qc 100) (Q2Qc (1 # 10000)).
Definition still : frame := Frame (fun _ => None) false (fun l => l) 5.
Definition slow (f : frame) : frame := Frame (f_raw f) (f_moved f) (f_order f) 0.
Lemma leaf_paths v t q : nlook q (wroot (btree (leaf_block v t))) <> None -> q = [].
Proof. intros H. destruct q as [|c q]; [reflexivity|]. cbn in H. congruence. Qed.
Definition mAB (t : Z) : qmap := [(kA, leaf_block 1%Qc 1); (kB, leaf_block (Q2Qc (-1)) t)].
Definition mA (t : Z) : qmap := [(kA, leaf_block 1%Qc t)].
Definition ev_ex : list qevent := [EMap (DM vC2 (1 # 2) (mAB 1)) false true 1; EFrame (slow still); EReset; EVisible false 3; EVisible true 4; EFrame (slow still)].
Lemma wf_A C t : 1 <= cT C -> well_formed C (mA t).
Proof.
  intros HT. split; [apply (NoDup_cons (A := idx3)); [intros []|apply NoDup_nil]|]. intros k b Hb q Hq L. apply getBlock_In in Hb. destruct Hb as [Hb|[]]. injection Hb as _ <-.
  rewrite (leaf_paths _ _ q L). cbn. lia.
Qed.
Lemma wf_AB C t : 1 <= cT C -> well_formed C (mAB t).
Proof.
  intros HT. split; [apply (NoDup_cons (A := idx3)); [cbn; intros [X|[]]; discriminate X|apply (NoDup_cons (A := idx3)); [intros []|apply NoDup_nil]]|]. intros k b Hb q Hq L. apply getBlock_In in Hb. destruct Hb as [Hb|[Hb|[]]]; injection Hb as _ <-;
  rewrite (leaf_paths _ _ q L); cbn; lia.
Qed.
Ltac still_ord := intros ?; apply Permutation_refl.
Ltac old_or_new := intros k b Hb; apply getBlock_In in Hb; repeat (destruct Hb as [Hb|Hb]; [injection Hb as <- <-; try (left; cbn; lia); right; eexists; split; reflexivity|]); destruct Hb.
(** Two blocks, in surface mode, after being hidden and shown again: one is drawn, one waits; later frames draw the other. *)
Example C68_case :
  history vC2 (1 # 2) None 0 ev_ex /\ tracked true true ev_ex = true /\ notified true ev_ex = true /\
  exists z d, vrun qn (vinit surface_sel) ev_ex = Some (z, Some d) /\ z_visible z = true /\ length (z_queue z) = 1%nat /\ length (d_blocks d) = 2%nat /\
    cubes z kA = [] /\
    exists z', vrun qn (z, Some d) (map EFrame [Frame (fun _ => Some 7) true (fun l => l) 0; still]) = Some (z', Some d) /\ z_queue z' = [] /\ length (cubes z' kA) = 4%nat.
Proof.
  split; [|split; [reflexivity|split; [reflexivity|]]].
  - cbn [history ev_ex]. split; [lia|]. split; [reflexivity|]. split; [reflexivity|]. split; [apply wf_AB; cbn; lia|].
    split; [cbn [d_blocks]; old_or_new|]. repeat split; try lia; still_ord.
  - eexists _, _. split; [vm_compute; reflexivity|]. do 4 (split; [vm_compute; reflexivity|]). eexists. split; [vm_compute; reflexivity|]. split; vm_compute; reflexivity.
Qed.

(** ** Where the code deviates *)
(** In surface mode, the default, a block that has not changed is not redrawn when a neighbouring block does: a cell that has come
    to lie on the surface stays hidden. *)
Theorem C68_surface_stale_refuted : exists C w sel l z d k b c,
  1 <= cT C <= 21 /\ (0 < w)%Q /\ history C w None 0 l /\ notified true l = true /\ vrun qn (vinit sel) l = Some (z, Some d) /\ z_visible z = true /\
  z_queue z = [] /\ getBlock (d_blocks d) k = Some b /\ wb_empty qn b = false /\ node_at (cT C) c = OI (cT C) k /\
  (forall H, 0 <= H < cT C -> on_surface (hw_get qn C (d_blocks d)) (z_sel z) (node_at H c) (node_mean (hw_get qn C (d_blocks d)) (node_at H c))) /\
  no_cube (cubes z k) (cell_center w c).
Proof.
  exists vC1, 1%Q, surface_sel, [EMap (DM vC1 1 (mA 1)) false true 1; EFrame still; EMap (DM vC1 1 (mAB 2)) false true 2; EFrame still].
  eexists _, _, kA, (leaf_block 1%Qc 1), (I3 1 0 0). split; [cbn; lia|]. split; [reflexivity|]. split.
  { cbn [history]. split; [lia|]. split; [reflexivity|]. split; [reflexivity|]. split; [apply wf_A; cbn; lia|].
    split; [cbn [d_blocks]; old_or_new|]. split; [still_ord|].
    split; [lia|]. split; [reflexivity|]. split; [reflexivity|]. split; [apply wf_AB; cbn; lia|].
    split; [cbn [d_blocks]; old_or_new|]. split; [still_ord|exact I]. }
  split; [reflexivity|]. split; [vm_compute; reflexivity|]. do 5 (split; [vm_compute; reflexivity|]). split.
  - intros H HH. assert (H = 0) as -> by (cbn in HH; lia). split; [vm_compute; discriminate|]. split; [vm_compute; discriminate|].
    exists 1, 0, 0. repeat (split; [lia|]). split; [congruence|]. split; [vm_compute; discriminate|vm_compute; reflexivity].
  - intros q Hq. vm_compute in Hq. destruct Hq.
Qed.

(** In surface mode, an occupied cell next to a free one is hidden if it belongs to a large leaf and the neighbouring node of that
    size is occupied on average. *)
Definition half_free : wblock (V := Qc) :=
  WB (WT (Node (dzero qn) (Some (Oct (Some (Node (Det (Q2Qc 2) 0%Qc 0%Qc 0%Qc 0%Qc 0%Qc 0%Qc) None)) None None None None None None None))) (Q2Qc (1 # 2))) false false 1.
Definition mH : qmap := [(kA, leaf_block 1%Qc 1); (kB, half_free)].
Theorem C68_surface_hidden_refuted : exists C w sel l z d c,
  1 <= cT C <= 21 /\ (0 < w)%Q /\ history C w None 0 l /\ tracked (s_surface_mode sel) true l = true /\ notified true l = true /\
  s_surface_mode sel = true /\ vrun qn (vinit sel) l = Some (z, Some d) /\ z_visible z = true /\ z_queue z = [] /\
  (let f := hw_get qn C (d_blocks d) in
   observed sel (f c) /\ (s_surface sel <= f c)%Qc /\
   observed sel (f (I3 (px c + 1) (py c) (pz c))) /\ (f (I3 (px c + 1) (py c) (pz c)) < s_surface sel)%Qc) /\
  forall k, no_cube (cubes z k) (cell_center w c).
Proof.
  exists vC2, 1%Q, surface_sel, [EMap (DM vC2 1 mH) true true 1; EFrame still]. eexists _, _, (I3 3 0 0). split; [cbn; lia|]. split; [reflexivity|]. split.
  { cbn [history]. split; [lia|]. split; [reflexivity|]. split; [reflexivity|]. split; [|split; [cbn [d_blocks]; old_or_new|split; [still_ord|exact I]]].
    split; [apply (NoDup_cons (A := idx3)); [cbn; intros [X|[]]; discriminate X|apply (NoDup_cons (A := idx3)); [intros []|apply NoDup_nil]]|]. intros k b Hb q Hq L. apply getBlock_In in Hb. destruct Hb as [Hb|[Hb|[]]]; injection Hb as _ <-.
    - rewrite (leaf_paths _ _ q L). cbn. lia.
    - destruct q as [|c1 [|c2 q]]; [cbn; lia|cbn; lia|]. exfalso. apply L. inversion Hq as [|x y Hc _]; subst. clear - Hc.
      assert (E : c1 = 0 \/ c1 = 1 \/ c1 = 2 \/ c1 = 3 \/ c1 = 4 \/ c1 = 5 \/ c1 = 6 \/ c1 = 7) by lia.
      repeat (destruct E as [->|E]; [reflexivity|]). subst c1. reflexivity. }
  do 6 (split; [vm_compute; reflexivity|]). split.
  - cbv zeta. repeat split; vm_compute; congruence.
  - intros k q Hq. unfold cubes in Hq. destruct (getBlock _ k) as [ls|] eqn:E; [|destruct Hq]. apply getBlock_In in E. vm_compute in E.
    repeat (destruct E as [E|E]; [injection E as _ <-; cbn in Hq|]); [| |destruct E].
    all: repeat (destruct Hq as [<-|Hq]; [intros F; inversion F as [|x y r1 r2 [F1 F2] _]; subst; revert F1 F2; vm_compute; intros; congruence|]); destruct Hq.
Qed.

(** A map with another cell width: the layers of blocks that have been drawn before keep the old width. Here all cells have side 1. *)
Theorem C68_width_change_refuted : exists sel l (z : viz) d k ctr side v,
  vrun qn (vinit sel) l = Some (z, Some d) /\ z_visible z = true /\ z_queue z = [] /\ notified true l = true /\ tracked (s_surface_mode sel) true l = true /\
  cT (d_conf d) = 1 /\ (d_width d == 1)%Q /\ In (ctr, side, v) (cubes z k) /\ (side == 3)%Q.
Proof.
  exists band_sel, [EMap (DM vC1 3 (mA 1)) false true 1; EFrame still; EMap (DM vC1 1 (mA 2)) true true 2; EFrame still].
  eexists _, _, kA, _, _, _. split; [vm_compute; reflexivity|]. do 6 (split; [vm_compute; reflexivity|]). split; [vm_compute; left; reflexivity|reflexivity].
Qed.

(** A termination height equal to the height of the tree, the largest that the user can enter, ends the program. *)
Theorem C68_termination_height_refuted : exists C w d, 1 <= cT C <= 21 /\ (0 < w)%Q /\ d_conf d = C /\ d_width d = w /\ well_formed C (d_blocks d) /\
  forall raw moved, raw = (fun _ => None) \/ raw = (fun _ => Some 0) ->
  exists (sel : selector) l, history C w None 0 l /\ (exists s, vrun qn (vinit sel) l = Some s) /\
    vrun qn (vinit sel) (l ++ [ETerm (cT C); EFrame (Frame raw moved (fun o => o) 0)]) = None.
Proof.
  exists vC2, 1%Q, (DM vC2 1 (mA 1)). split; [cbn; lia|]. split; [reflexivity|]. split; [reflexivity|]. split; [reflexivity|]. split; [apply wf_A; cbn; lia|].
  intros raw moved Hr. exists band_sel, [EMap (DM vC2 1 (mA 1)) false true 1]. split; [|split].
  - cbn [history]. split; [lia|]. split; [reflexivity|]. split; [reflexivity|]. split; [apply wf_A; cbn; lia|]. split; [cbn [d_blocks]; old_or_new|exact I].
  - eexists. vm_compute. reflexivity.
  - destruct Hr as [->| ->]; destruct moved; vm_compute; reflexivity.
Qed.

(** After a reset of the display (without a redraw), blocks that do not change are not shown again, however many frames follow. *)
Lemma blank_frames d : forall fs (z : viz (V := Qc)), z_drawn z = [] -> z_queue z = [] -> Forall (fun f => forall q, Permutation (f_order f q) q) fs ->
  exists z', vrun qn (z, Some d) (map EFrame fs) = Some (z', Some d) /\ z_drawn z' = [].
Proof.
  induction fs as [|f fs IH]; intros z Ed Eq F; cbn [map vrun vstep]; [eauto|]. inversion F as [|x y F1 F2]; subst.
  assert (L : updateLOD (f_raw f) z (Some d) = z).
  { unfold updateLOD. destruct (z_visible z); [|reflexivity]. induction (map fst (d_blocks d)) as [|k l IHl]; cbn [fold_left]; [reflexivity|].
    assert (lodBlock (d_conf d) (f_raw f) z k = z) as -> by (unfold lodBlock, currentLod, hasBlock; rewrite Ed, Eq; reflexivity). exact IHl. }
  unfold prerender. rewrite L. set (z1 := if _ || _ then Viz (z_drawn z) (z_queue z) (z_last z) false (z_visible z) (z_term z) (z_sel z) else z).
  assert (E1 : z_drawn z1 = [] /\ z_queue z1 = []) by (unfold z1; destruct (_ || _); auto). destruct E1 as [E1 E2]. clearbody z1.
  assert (P : processQueue qn (f_order f) (f_more f) z1 (Some d) = Some z1).
  { unfold processQueue. destruct (z_visible z1); [|reflexivity]. rewrite E2. cbn [map]. pose proof (F1 []) as P0. apply Permutation_sym, Permutation_nil in P0. rewrite P0. reflexivity. }
  rewrite P. cbn [option_map]. exact (IH z1 E1 E2 F2).
Qed.
Theorem C68_reset_refuted : exists C w sel l z d k b,
  1 <= cT C <= 21 /\ (0 < w)%Q /\ history C w None 0 l /\ notified true l = true /\ vrun qn (vinit sel) l = Some (z, Some d) /\ z_visible z = true /\
  getBlock (d_blocks d) k = Some b /\ wb_empty qn b = false /\ (forall c, node_at (cT C) c = OI (cT C) k -> in_band sel (hw_get qn C (d_blocks d) c)) /\ s_surface_mode sel = false /\
  forall fs, Forall (fun f => forall q, Permutation (f_order f q) q) fs ->
    exists z', vrun qn (z, Some d) (map EFrame fs) = Some (z', Some d) /\ cubes z' k = [].
Proof.
  exists vC1, 1%Q, band_sel, [EMap (DM vC1 1 (mA 1)) false true 1; EFrame still; EReset]. eexists _, _, kA, (leaf_block 1%Qc 1).
  split; [cbn; lia|]. split; [reflexivity|]. split.
  { cbn [history]. split; [lia|]. split; [reflexivity|]. split; [reflexivity|]. split; [apply wf_A; cbn; lia|].
    split; [cbn [d_blocks]; old_or_new|]. split; [still_ord|exact I]. }
  split; [reflexivity|]. split; [vm_compute; reflexivity|]. do 3 (split; [vm_compute; reflexivity|]). split; [|split; [reflexivity|]].
  - intros [x y z] H. cbn [node_at cT vC1 px py pz kA] in H. injection H as H1 H2 H3.
    assert (X : forall v, v / 2 ^ 1 = 0 -> v = 0 \/ v = 1) by (intros v Hv; change (2 ^ 1) with 2 in Hv; pose proof (Z.div_mod v 2 ltac:(lia)); pose proof (Z.mod_pos_bound v 2 ltac:(lia)); lia).
    destruct (X x H1) as [->| ->], (X y H2) as [->| ->], (X z H3) as [->| ->]; (split; [|split]); vm_compute; congruence.
  - intros fs F. match goal with |- exists z', vrun _ (?zz, Some ?dd) _ = _ /\ _ => destruct (blank_frames dd fs zz eq_refl eq_refl F) as (z' & E & D) end. exists z'. split; [exact E|]. unfold cubes. rewrite D. reflexivity.
Qed.

(** The order by which the queue is sorted is not an order: it has a cycle, which std::sort does not allow. *)
Theorem C68_sort_order_refuted : exists a b c, draw_before a b = true /\ draw_before b c = true /\ draw_before c a = true.
Proof. exists (0, 1%Q), (1, 2%Q), (2, 3%Q). repeat split. Qed.
Print Assumptions C68_case.
Print Assumptions C68_surface_stale_refuted.
Print Assumptions C68_surface_hidden_refuted.
Print Assumptions C68_width_change_refuted.
Print Assumptions C68_termination_height_refuted.
Print Assumptions C68_reset_refuted.
Print Assumptions C68_sort_order_refuted.
