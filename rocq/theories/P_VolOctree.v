(** Property C22: VolumetricOctree, in exact arithmetic. *)
From Verif Require Import Base M_IntMath F_IntMath M_Morton F_Morton M_NdtreeIndex F_NdtreeIndex
  M_Num F_Num M_Haar3 F_Haar3 M_Ndtree S_Field F_Hash M_Wavelet F_Wavelet F_Wavelet2 F_Leaves F_WavTree F_WavMap
  F_WavHist M_Octree F_Octree M_VolOctree.
From Coq Require Import QArith Qcanon Qcabs Lqa.
Close Scope Qc_scope.
Close Scope Q_scope.
Open Scope Z_scope.

(** ** Specification *)
(** The exact value of the float literal 1e-6f. *)
Definition keps : Qc := Q2Qc (8796093 # 8796093022208).
Definition vo_valid (C : wconfig (V := Qc)) : Prop := 1 <= cT C <= 21 /\ (clo C < chi C)%Qc.
Definition cell (c : idx3) : oidx := OI 0 c.
Definition vcall_ok (C : wconfig (V := Qc)) (c : vcall (V := Qc)) : Prop :=
  match c with VSet i _ | VAdd i _ => in_octree (cT C) i | _ => True end.
(** All states that API calls can produce. *)
Definition vo_reachable (C : wconfig (V := Qc)) (t : node Qc) : Prop :=
  exists l, Forall (vcall_ok C) l /\ t = vo_run qn keps C l.
(** [f] is the field of values reported by forEachLeaf: every cell of the map lies in exactly one reported node. *)
Definition iter_field (C : wconfig (V := Qc)) (t : node Qc) (f : field) : Prop :=
  exists l, vo_forEachLeaf qn (nsize t) C t = Some l /\ forall c, in_octree (cT C) (cell c) -> exactly_one l c (f c).
(** Histories of leaf-level writes, and what they should do. *)
Inductive cell_call := CellSet (c : idx3) (v : Qc) | CellAdd (c : idx3) (u : Qc) | CellClear.
Definition to_vcall (c : cell_call) : vcall :=
  match c with CellSet i v => VSet (cell i) v | CellAdd i u => VAdd (cell i) u | CellClear => VClear end.
Definition cell_apply (f : field) (c : cell_call) : field :=
  match c with
  | CellSet i v => fun c => if ieqb i c then v else f c
  | CellAdd i u => fun c => if ieqb i c then (f c + u)%Qc else f c
  | CellClear => fzero
  end.
Definition cell_run (l : list cell_call) : field := fold_left cell_apply l fzero.
Definition cell_call_ok (T : Z) (c : cell_call) : Prop :=
  match c with CellSet i _ | CellAdd i _ => in_octree T (cell i) | CellClear => True end.

(** ** Facts *)
Notation vtree := (node Qc).
Definition addv (pv : Qc) (n : vtree) : Qc := (pv + ndata n)%Qc.
Notation vsum := (geval addv).
Definition vdeep (n : vtree) (q : list Z) : Qc := ndata (fst (nanc q n)).
Lemma vdeep_cons n c q : vdeep n (c :: q) = match getChild n c with Some ch => vdeep ch q | None => ndata n end.
Proof. unfold vdeep. cbn [nanc]. destruct (getChild n c); reflexivity. Qed.
Lemma vsum_shift q : forall (n : vtree) pv u, vsum (pv + u)%Qc n q = (vsum pv n q + u)%Qc.
Proof.
  induction q as [|c q IH]; intros n pv u; cbn [geval]; unfold addv; [ring|].
  destruct (getChild n c); [|ring]. rewrite <- IH. f_equal. ring.
Qed.
Lemma vsum_add q : forall (n : vtree) pv u r, valid_path r -> valid_path q ->
  vsum pv (nalloc q 0%Qc (fun x => Node (ndata x + u)%Qc (nkids x)) n) r =
  if is_prefix q r then (vsum pv n r + u)%Qc else vsum pv n r.
Proof.
  induction q as [|c q IH]; intros n pv u r Hr Hq; cbn [nalloc is_prefix].
  - rewrite <- vsum_shift. destruct r as [|c r]; cbn [geval]; unfold addv; cbn [ndata]; [ring|].
    replace (getChild (Node (ndata n + u)%Qc (nkids n)) c) with (getChild n c) by reflexivity.
    destruct (getChild n c); [|ring]. f_equal. ring.
  - inversion Hq as [|? ? Hc Hq']; subst. destruct r as [|c' r]; cbn [geval]; [reflexivity|].
    inversion Hr as [|? ? Hc' Hr']; subst. rewrite gChild_set by assumption. rewrite (Z.eqb_sym c c').
    assert (D : forall x, addv pv (setChild n c x) = addv pv n) by reflexivity. rewrite D.
    destruct (Z.eqb_spec c' c) as [->|Hne]; cbn [andb]; [|reflexivity].
    rewrite IH by assumption. unfold childOrNew. destruct (getChild n c); [reflexivity|].
    assert (E : forall s, vsum (addv pv n) (Node 0%Qc None) s = addv pv n).
    { intros s. destruct s as [|c0 s]; cbn [geval]; unfold addv; cbn [ndata]; [ring|]. unfold getChild. cbn [nkids]. ring. }
    rewrite E. reflexivity.
Qed.

(** Interior nodes with value 0. *)
Definition izero (n : vtree) : Prop :=
  forall q x, valid_path q -> nlook q n = Some x -> hasChildrenArray x = true -> ndata x = 0%Qc.
Lemma izero_child n c ch : 0 <= c < 8 -> izero n -> getChild n c = Some ch -> izero ch.
Proof. intros Hc H E q x Hq L Hx. apply (H (c :: q) x); [constructor; assumption| |assumption]. cbn [nlook]. rewrite E. exact L. Qed.
Lemma izero_sum q : forall n pv, valid_path q -> izero n -> vsum pv n q = (pv + vdeep n q)%Qc.
Proof.
  induction q as [|c q IH]; intros n pv Hq Hz; cbn [geval]; [reflexivity|]. rewrite vdeep_cons.
  inversion Hq as [|? ? Hc Hq']; subst. destruct (getChild n c) as [ch|] eqn:E; [|reflexivity].
  rewrite IH by (try assumption; exact (izero_child n c ch Hc Hz E)).
  unfold addv. rewrite (Hz [] n); [ring|constructor|reflexivity|]. unfold getChild in E. unfold hasChildrenArray. destruct (nkids n); [reflexivity|discriminate].
Qed.

(** Pruning *)
Section PRUNE.
Context (C : wconfig (V := Qc)) (Hlo : (clo C <= 0)%Qc) (Hhi : (0 <= chi C)%Qc).
Notation pr := (vo_prune_rec qn keps C).
Lemma clamp_range v : (clo C <= vo_clamp qn C v /\ vo_clamp qn C v <= chi C)%Qc.
Proof. apply qclamp_range. apply (Qcle_trans _ 0); assumption. Qed.
Lemma keps_nonneg : (0 <= keps)%Qc. Proof. discriminate. Qed.
Lemma clamp_near0 v : (Qcabs v <= keps)%Qc -> (Qcabs (0 - vo_clamp qn C v) <= keps)%Qc.
Proof.
  intros H. unfold vo_clamp. fold (qclamp (clo C) (chi C) v).
  assert (B : (- keps <= v /\ v <= keps)%Qc) by (apply Qcabs_Qcle_condition; exact H).
  apply Qcabs_Qcle_condition. pose proof keps_nonneg.
  destruct (qclamp_spec (clo C) (chi C) v ltac:(apply (Qcle_trans _ 0); assumption)) as [[A E]|[[A E]|(A1 & A2 & E)]]; rewrite E; split; qlra.
Qed.
Definition new_kid (nv : Qc) (o : option vtree) : option vtree :=
  match o with
  | Some ch => Some (pr nv ch)
  | None => if qltb keps (Qcabs nv) then Some (Node (vo_clamp qn C (nv + 0)%Qc) None) else None
  end.
Lemma pr_eq pv n : pr pv n = match nkids n with
  | None => Node (vo_clamp qn C (pv + ndata n)%Qc) None
  | Some k => vo_merge qn keps C (pv + ndata n)%Qc (omap (new_kid (pv + ndata n)%Qc) k)
  end.
Proof. destruct n as [d [k|]]; reflexivity. Qed.
Lemma merge_cases nv k :
  (exists first, vo_merge qn keps C nv k = Node first None /\ (clo C <= first /\ first <= chi C)%Qc /\
     forall c, 0 <= c < 8 -> match oget k c with
        | Some ch => hasChildrenArray ch = false /\ (Qcabs (ndata ch - first) <= keps)%Qc
        | None => (Qcabs (0 - first) <= keps)%Qc end) \/
  vo_merge qn keps C nv k = Node 0%Qc (Some k).
Proof.
  unfold vo_merge. set (first := vo_clamp qn C _). destruct (forallb _ (olist k)) eqn:F; [|right; reflexivity].
  left. exists first. split; [reflexivity|]. split; [apply clamp_range|]. intros c Hc.
  assert (I := proj1 (forallb_forall _ _) F (oget k c) (oget_In k c)). unfold vo_is_leaf_near in I. cbn [nltb nabs nsub n0 qn] in I.
  destruct (oget k c) as [ch|].
  - apply andb_true_iff in I as [I1 I2]. apply negb_true_iff in I1, I2. split; [assumption|]. apply qltb_false. exact I2.
  - apply negb_true_iff in I. apply qltb_false. exact I.
Qed.
Lemma getChild_kid (n : vtree) k c : nkids n = Some k -> getChild n c = oget k c.
Proof. intros E. unfold getChild. rewrite E. reflexivity. Qed.
Definition kbound (k : nat) : Qc := (qz (Z.of_nat k + 1) * keps)%Qc.
Lemma kbound_S k : kbound (S k) = (kbound k + keps)%Qc.
Proof.
  unfold kbound. replace (qz (Z.of_nat (S k) + 1)) with (qz (Z.of_nat k + 1) + 1)%Qc; [ring|].
  apply Qc_is_canon. unfold qz. rewrite this_plus, !this_Q2Qc. change (this 1) with 1%Q.
  rewrite <- (inject_Z_plus _ 1). apply inject_Z_injective. lia.
Qed.
Lemma kbound_ge k : (keps <= kbound k)%Qc.
Proof.
  induction k as [|k IH]; [discriminate|]. rewrite kbound_S. pose proof keps_nonneg. qlra.
Qed.
Lemma vdeep_leaf (n : vtree) q : hasChildrenArray n = false -> vdeep n q = ndata n.
Proof.
  intros H. destruct q as [|c q]; [reflexivity|]. rewrite vdeep_cons. unfold getChild. unfold hasChildrenArray in H.
  destruct (nkids n); [discriminate|reflexivity].
Qed.
Lemma prune_spec k : forall n pv q, nheight k n -> valid_path q -> length q = k ->
  (Qcabs (vdeep (pr pv n) q - vo_clamp qn C (vsum pv n q)) <= kbound k)%Qc /\
  (clo C <= vdeep (pr pv n) q /\ vdeep (pr pv n) q <= chi C)%Qc.
Proof.
  assert (Z0 : forall j a, (Qcabs (a - a) <= kbound j)%Qc).
  { intros j a. apply Qcabs_Qcle_condition. pose proof (kbound_ge j). pose proof keps_nonneg. split; qlra. }
  induction k as [|k IH]; intros n pv q Hn Hq Hl; rewrite pr_eq.
  - cbn [nheight] in Hn. rewrite Hn. rewrite vdeep_leaf by reflexivity. cbn [ndata].
    destruct q as [|c q]; [|discriminate Hl]. cbn [geval]. unfold addv. split; [apply Z0|apply clamp_range].
  - destruct q as [|c q]; [discriminate Hl|]. cbn [length] in Hl. injection Hl as Hl. inversion Hq as [|? ? Hc Hq']; subst.
    cbn [geval]. destruct (nkids n) as [kk|] eqn:En.
    2:{ rewrite vdeep_leaf by reflexivity. unfold getChild. rewrite En. cbn [ndata]. split; [apply Z0|apply clamp_range]. }
    specialize (Hn c Hc). rewrite (getChild_kid n kk c En) in *.
    set (nv := (pv + ndata n)%Qc). change (addv pv n) with nv.
    pose proof (merge_cases nv (omap (new_kid nv) kk)) as M.
    assert (G : oget (omap (new_kid nv) kk) c = new_kid nv (oget kk c)) by (apply oget_omap; assumption).
    destruct M as [(first & -> & Hr & M)| ->].
    + specialize (M c Hc). rewrite G in M. rewrite vdeep_leaf by reflexivity. cbn [ndata]. split; [|assumption].
      rewrite kbound_S. unfold new_kid in M. destruct (oget kk c) as [ch|].
      * destruct M as [M1 M2]. destruct (IH ch nv q Hn Hq' eq_refl) as [I1 _]. rewrite vdeep_leaf in I1 by assumption.
        apply Qcabs_Qcle_condition in M2, I1. apply Qcabs_Qcle_condition. destruct M2, I1. split; qlra.
      * pose proof (kbound_ge (length q)) as KB. destruct (qltb keps (Qcabs nv)) eqn:E.
        -- destruct M as [_ M]. cbn [ndata] in M. apply Qcabs_Qcle_condition in M. apply Qcabs_Qcle_condition.
           replace (nv + 0)%Qc with nv in M by ring. pose proof keps_nonneg. destruct M. split; qlra.
        -- apply qltb_false in E. pose proof (clamp_near0 nv E) as N0. apply Qcabs_Qcle_condition in M, N0. apply Qcabs_Qcle_condition.
           destruct M, N0. split; qlra.
    + rewrite vdeep_cons. unfold getChild at 1. cbn [nkids]. rewrite G. unfold getChild at 1. cbn [nkids]. rewrite G.
      unfold getChild. cbn [nkids]. rewrite G. cbn [ndata].
      assert (KM : (kbound (length q) <= kbound (S (length q)))%Qc) by (rewrite kbound_S; pose proof keps_nonneg; qlra).
      unfold new_kid. destruct (oget kk c) as [ch|].
      * destruct (IH ch nv q Hn Hq' eq_refl) as [I1 I2]. split; [|assumption]. apply (Qcle_trans _ _ _ I1 KM).
      * destruct (qltb keps (Qcabs nv)) eqn:E.
        -- rewrite vdeep_leaf by reflexivity. cbn [ndata]. replace (nv + 0)%Qc with nv by ring. split; [apply Z0|apply clamp_range].
        -- apply qltb_false in E. split; [|split; assumption]. apply (Qcle_trans _ _ _ (clamp_near0 nv E)). apply kbound_ge.
Qed.
Lemma merge_shape nv k : (exists first, vo_merge qn keps C nv k = Node first None) \/ vo_merge qn keps C nv k = Node 0%Qc (Some k).
Proof. unfold vo_merge. destruct (forallb _ (olist k)); eauto. Qed.
Lemma prune_izero k : forall n pv, nheight k n -> izero (pr pv n) /\ nheight k (pr pv n).
Proof.
  assert (L : forall v, izero (Node v None)).
  { intros v q x Hq E Hx. destruct q as [|c q]; cbn [nlook] in E; [injection E as <-; discriminate Hx|discriminate E]. }
  induction k as [|k IH]; intros n pv Hn; rewrite pr_eq.
  - cbn [nheight] in Hn. rewrite Hn. split; [apply L|reflexivity].
  - destruct (nkids n) as [kk|] eqn:En; [|split; [apply L|apply nheight_new]].
    set (nv := (pv + ndata n)%Qc).
    destruct (merge_shape nv (omap (new_kid nv) kk)) as [(first & ->)| ->]; [split; [apply L|apply nheight_new]|].
    assert (K : forall c ch, 0 <= c < 8 -> new_kid nv (oget kk c) = Some ch -> izero ch /\ nheight k ch).
    { intros c ch Hc E. specialize (Hn c Hc). rewrite (getChild_kid n kk c En) in Hn. unfold new_kid in E.
      destruct (oget kk c) as [x|]; [injection E as <-; apply IH; assumption|].
      destruct (qltb _ _); [injection E as <-|discriminate]. split; [apply L|apply nheight_new]. }
    split.
    + intros q x Hq E Hx. destruct q as [|c q]; cbn [nlook] in E; [injection E as <-; reflexivity|].
      inversion Hq as [|? ? Hc Hq']; subst. unfold getChild in E. cbn [nkids] in E. rewrite oget_omap in E by assumption.
      destruct (new_kid nv (oget kk c)) as [ch|] eqn:EK; [|discriminate]. destruct (K c ch Hc EK) as [K1 _]. exact (K1 q x Hq' E Hx).
    + intros c Hc. unfold getChild. cbn [nkids]. rewrite oget_omap by assumption.
      destruct (new_kid nv (oget kk c)) as [ch|] eqn:EK; [|exact I]. apply (K c ch Hc EK).
Qed.
End PRUNE.

(** ** The whole map *)
Section MAP.
Context (C : wconfig (V := Qc)).
Notation T := (cT C).
Notation K := (Z.to_nat T).
Definition cpath (c : idx3) : list Z := path K (shift (2 ^ (T - 1)) c).
Definition vfield (t : vtree) : field := fun c => vsum 0%Qc t (cpath c).
Lemma cpath_valid c : valid_path (cpath c). Proof. apply path_valid. Qed.
Lemma cpath_length c : length (cpath c) = K. Proof. apply path_length. Qed.
Lemma vo_get_path t c : 1 <= T <= 21 -> vo_get C t c = vdeep t (cpath c).
Proof.
  intros HT. unfold vo_get, nd_getNodeOrAncestor, vo_internal. rewrite wo_toInternal_spec by lia. cbn [oh].
  rewrite nd_anc_path by lia. rewrite !Z.sub_0_r. reflexivity.
Qed.
Definition npath (i : oidx) : list Z := path (Z.to_nat (T - oh i)) (opos (wo_toInternal T i)).
Lemma vo_alloc_path t i g : 1 <= T <= 21 -> 0 <= oh i < T ->
  nd_alloc_data T 0%Qc t (vo_internal C i) g = nalloc (npath i) 0%Qc (fun x => Node (g (ndata x)) (nkids x)) t.
Proof.
  intros HT Hi. unfold nd_alloc_data, vo_internal, npath. destruct i as [h p]. cbn [oh] in *.
  rewrite wo_toInternal_spec by lia. cbn [oh opos]. rewrite nd_alloc_path by lia. reflexivity.
Qed.
Lemma npath_prefix i c : in_octree T i -> in_octree T (cell c) -> 1 <= T -> is_prefix (npath i) (cpath c) = in_node i c.
Proof.
  intros Hi Hc HT. assert (Hh : 0 <= oh i < T) by (destruct Hi; assumption).
  rewrite <- (wo_covers C i c) by assumption.
  assert (B := wo_inside_int C i Hi). assert (B2 := wo_cell_box C c Hc).
  assert (P := path_prefix_covers T (oh i) (opos (wo_toInternal T i)) (shift (2 ^ (T - 1)) c) ltac:(lia)).
  destruct i as [h p]. cbn [oh] in *. unfold npath, cpath in *. rewrite wo_toInternal_spec in * by assumption. cbn [oh opos] in *.
  specialize (P B B2). rewrite <- covers3b_iff in P.
  assert (Q := is_prefix_firstn (path (Z.to_nat (T - h)) (shift (2 ^ (T - 1 - h)) p)) (path K (shift (2 ^ (T - 1)) c))).
  rewrite !path_length in Q.
  destruct (is_prefix _ _), (covers3b _ _); try reflexivity; exfalso.
  - destruct Q as [Q _]. destruct (Q eq_refl) as [_ Q']. apply P in Q'. discriminate.
  - destruct P as [_ P]. destruct Q as [_ Q]. assert (false = true) by (apply Q; split; [lia|apply P; reflexivity]). discriminate.
Qed.
Lemma npath_cell i : 1 <= T -> npath (cell i) = cpath i.
Proof. intros HT. unfold npath, cpath, cell. cbn [oh]. rewrite wo_toInternal_spec by lia. rewrite !Z.sub_0_r. reflexivity. Qed.
Lemma vfield_add t i u c : 1 <= T <= 21 -> in_octree T i -> in_octree T (cell c) ->
  vfield (vo_add qn C t i u) c = fadd (vfield t) i u c.
Proof.
  intros HT Hi Hc. unfold vfield, fadd, vo_add. rewrite vo_alloc_path by (try assumption; destruct Hi; assumption).
  change (n0 qn) with 0%Qc. cbn [nadd qn]. rewrite vsum_add by apply path_valid. rewrite npath_prefix by (try assumption; lia). reflexivity.
Qed.

Lemma alloc_height t i g : 1 <= T <= 21 -> 0 <= oh i < T -> nheight K t ->
  nheight K (nd_alloc_data T 0%Qc t (vo_internal C i) g) /\ hasChildrenArray (nd_alloc_data T 0%Qc t (vo_internal C i) g) = true.
Proof.
  intros HT Hi Hn. rewrite vo_alloc_path by assumption. split.
  - apply nheight_nalloc; [apply path_valid|unfold npath; rewrite path_length; lia|assumption].
  - assert (L : length (npath i) = Z.to_nat (T - oh i)) by apply path_length.
    destruct (npath i) as [|c q]; [cbn in L; lia|]. reflexivity.
Qed.
Lemma reach_height t : 1 <= T <= 21 -> vo_reachable C t -> nheight K t.
Proof.
  intros HT (l & Hl & ->). unfold vo_run.
  assert (X : forall l t, Forall (vcall_ok C) l -> nheight K t -> nheight K (fold_left (vo_apply qn keps C) l t)).
  { clear - HT. induction l as [|a l IH]; intros t Hl Ht; [exact Ht|]. inversion Hl as [|? ? Ha Hl']; subst. cbn [fold_left]. apply IH; [assumption|].
    destruct a as [i v|i u| | |]; cbn [vo_apply vcall_ok] in *.
    - apply (alloc_height t i (fun _ => v)); try assumption. destruct Ha; assumption.
    - apply (alloc_height t i (fun v => nadd qn v u)); try assumption. destruct Ha; assumption.
    - apply prune_izero. assumption.
    - apply prune_izero. assumption.
    - apply nheight_new. }
  apply X; [assumption|]. apply nheight_new.
Qed.

(** Leaf iteration *)
Lemma hca_none (n : vtree) c : hasChildrenArray n = false -> getChild n c = None.
Proof. unfold hasChildrenArray, getChild. destruct (nkids n); [discriminate|reflexivity]. Qed.
Lemma hca_kids (n : vtree) : hasChildrenArray n = true -> nkids n <> None.
Proof. unfold hasChildrenArray. destruct (nkids n); discriminate. Qed.
Notation gl := (gleaves hasChildrenArray addv).
Lemma gl_upper : forall (n : vtree) idx v j u, In (j, u) (gl n idx v) -> oh j <= oh idx.
Proof.
  induction n as [n IH] using node_ind_child. intros idx v j u. rewrite gleaves_eq by (exact hca_kids || exact hca_none).
  destruct (hasChildrenArray n); [|intros [X|[]]; injection X as <- _; lia].
  rewrite in_app_iff, !in_flat_map. intros [(c & Hin & X)|(c & Hin & X)]; destruct (getChild n c) as [ch|] eqn:E.
  - destruct X.
  - destruct X as [X|[]]. injection X as <- _. cbn. lia.
  - apply (IH c ch E) in X. cbn in X. lia.
  - destruct X.
Qed.
Lemma gl_root (n : vtree) idx v j u : hasChildrenArray n = true -> In (j, u) (gl n idx v) -> oh j <= oh idx - 1.
Proof.
  rewrite gleaves_eq by (exact hca_kids || exact hca_none). intros -> Hj. rewrite in_app_iff, !in_flat_map in Hj.
  destruct Hj as [(c & Hin & X)|(c & Hin & X)]; destruct (getChild n c) as [ch|] eqn:E.
  - destruct X.
  - destruct X as [X|[]]. injection X as <- _. cbn. lia.
  - apply gl_upper in X. cbn in X. lia.
  - destruct X.
Qed.
Lemma leaf_list t fuel : (nsize t <= fuel)%nat ->
  vo_forEachLeaf qn fuel C t = Some (map (fun iv => (wo_toExternal T (fst iv), snd iv)) (gl t (OI T (I3 0 0 0)) 0%Qc)).
Proof.
  intros Hf. unfold vo_forEachLeaf. change (fun pv n => nadd qn pv (ndata n)) with addv. change (n0 qn) with 0%Qc.
  rewrite gleaf_loop; [|apply hca_none|apply hca_kids|cbn [gstack_size]; lia].
  cbn [option_map rev app flat_map fst snd]. rewrite app_nil_r. reflexivity.
Qed.
Lemma leaves_once t c : 1 <= T <= 21 -> nheight K t -> hasChildrenArray t = true -> in_octree T (cell c) ->
  exactly_one (map (fun iv => (wo_toExternal T (fst iv), snd iv)) (gl t (OI T (I3 0 0 0)) 0%Qc)) c (vfield t c).
Proof.
  intros HT Hn Ha Hc. set (l := gl t (OI T (I3 0 0 0)) 0%Qc).
  assert (HH : forall j u, In (j, u) l -> 0 <= oh j < T).
  { intros j u Hj. split; [exact (gleaves_height _ _ hca_none hca_kids K t (OI T (I3 0 0 0)) _ Hn ltac:(cbn [oh]; lia) j u Hj)|].
    pose proof (gl_root t _ _ j u Ha Hj) as G. cbn [oh] in G. lia. }
  assert (B := wo_cell_box C c Hc).
  assert (Cov : covers3 (OI T (I3 0 0 0)) (shift (2 ^ (T - 1)) c)).
  { unfold covers3, in_box in *. destruct (shift (2 ^ (T - 1)) c) as [x y z]. cbn [oh opos px py pz] in *. unfold imap. cbn [px py pz].
    destruct B as (B1 & B2 & B3). rewrite !Z.div_small by assumption. reflexivity. }
  destruct (gleaves_cover hasChildrenArray addv hca_none hca_kids K t (OI T (I3 0 0 0)) 0%Qc _ Hn ltac:(cbn [oh]; lia) Cov)
    as (l1 & i & l2 & E & Hci & Hu). fold l in E. rewrite E in *.
  apply exactly_one_covered.
  - intros j u Hj. apply in_map_iff in Hj as ([j0 u0] & X & Hin). injection X as <- <-. cbn [fst oh wo_toExternal]. apply (HH j0 u0 Hin).
  - exists (map (fun iv => (wo_toExternal T (fst iv), snd iv)) l1), (wo_toExternal T i), (map (fun iv => (wo_toExternal T (fst iv), snd iv)) l2).
    rewrite map_app. split; [reflexivity|]. split.
    + apply wo_toExternal_covers; [|assumption]. eapply HH. apply in_elt.
    + rewrite <- map_app. intros j Hj. rewrite map_map in Hj. apply in_map_iff in Hj as ([j0 u] & <- & Hin). cbn [fst].
      rewrite <- wo_toExternal_covers.
      * apply Hu. apply in_map_iff. exists (j0, u). auto.
      * apply in_app_or in Hin. eapply (HH j0 u). apply in_or_app. destruct Hin; [left|right; right]; assumption.
Qed.
Lemma exactly_one_unique l c v w : exactly_one l c v -> exactly_one l c w -> v = w.
Proof.
  intros (l1 & i & l2 & -> & H1 & H2) (m1 & j & m2 & E & G1 & G2).
  assert (Hin : In (j, w) (l1 ++ (i, v) :: l2)) by (rewrite E; apply in_elt).
  apply in_app_or in Hin as [Hin|[X|Hin]]; [|congruence|].
  - exfalso. rewrite (H2 j w) in G1 by (apply in_or_app; auto). discriminate.
  - exfalso. rewrite (H2 j w) in G1 by (apply in_or_app; auto). discriminate.
Qed.
Lemma size_array (t : vtree) : (1 < nsize t)%nat -> hasChildrenArray t = true.
Proof. destruct t as [d [k|]]; [reflexivity|]. cbn. lia. Qed.
Lemma iter_vfield t : 1 <= T <= 21 -> nheight K t -> hasChildrenArray t = true ->
  iter_field C t (vfield t).
Proof. intros HT Hn Ha. eexists. split; [apply leaf_list; lia|]. intros c Hc. apply leaves_once; assumption. Qed.
Lemma iter_is_vfield t f : 1 <= T <= 21 -> nheight K t -> hasChildrenArray t = true -> iter_field C t f ->
  forall c, in_octree T (cell c) -> f c = vfield t c.
Proof.
  intros HT Hn Ha (l & El & H) c Hc. rewrite leaf_list in El by lia. injection El as <-.
  apply (exactly_one_unique _ c _ _ (H c Hc)). apply leaves_once; assumption.
Qed.
Lemma iter_ext t f g : (forall c, in_octree T (cell c) -> f c = g c) -> iter_field C t f -> iter_field C t g.
Proof. intros E (l & El & H). exists l. split; [assumption|]. intros c Hc. rewrite <- E by assumption. apply H; assumption. Qed.

(** Leaf-level histories: interior nodes keep the value 0. *)
Definition zint (t : vtree) : Prop :=
  forall q x, valid_path q -> (length q < K)%nat -> dlook q t = Some x -> x = 0%Qc.
Lemma zint_deep t q : valid_path q -> length q = K -> zint t ->
  vdeep t q = match dlook q t with Some x => x | None => 0%Qc end.
Proof.
  intros Hq Hl Hz. pose proof (nanc_spec q t) as (H1 & H2 & H3). cbv zeta in *. unfold vdeep.
  destruct (snd (nanc q t)) as [|m] eqn:E.
  - rewrite Nat.sub_0_r, firstn_all in H2. unfold dlook. rewrite H2. reflexivity.
  - unfold dlook. specialize (H3 (length q) ltac:(lia)). rewrite firstn_all in H3. rewrite H3. cbn [option_map].
    apply (Hz (firstn (length q - S m) q)).
    + apply Forall_forall. intros z Hz'. apply (proj1 (Forall_forall _ _) Hq). rewrite <- (firstn_skipn (length q - S m)). apply in_or_app. auto.
    + rewrite firstn_length. lia.
    + unfold dlook. rewrite H2. reflexivity.
Qed.
Lemma zint_izero t : nheight K t -> zint t -> izero t.
Proof.
  intros Hn Hz q x Hq E Hx. apply (Hz q); [assumption| |unfold dlook; rewrite E; reflexivity].
  clear Hz. revert t q Hn Hq E. induction K as [|k IH]; intros t q Hn Hq E.
  - destruct q as [|c q]; cbn [nlook] in E.
    + injection E as <-. cbn [nheight] in Hn. unfold hasChildrenArray in Hx. rewrite Hn in Hx. discriminate.
    + unfold getChild in E. cbn [nheight] in Hn. rewrite Hn in E. discriminate.
  - destruct q as [|c q]; cbn [nlook length] in *; [lia|]. inversion Hq as [|? ? Hc Hq']; subst. specialize (Hn c Hc).
    destruct (getChild t c) as [ch|]; [|discriminate]. specialize (IH ch q Hn Hq' E). lia.
Qed.
Lemma zint_alloc t i g : 1 <= T <= 21 -> zint t -> zint (nd_alloc_data T 0%Qc t (vo_internal C (cell i)) g).
Proof.
  intros HT Hz q x Hq Hl. rewrite vo_alloc_path by (cbn [oh cell]; lia). rewrite npath_cell by lia.
  rewrite dlook_nalloc by (assumption || apply path_valid).
  destruct (is_prefix q (cpath i)); [|apply Hz; assumption].
  destruct (is_prefix (cpath i) q) eqn:P.
  - apply is_prefix_firstn in P as [P _]. rewrite cpath_length in P. lia.
  - intros X. injection X as <-. destruct (dlook q t) as [y|] eqn:D; [|reflexivity]. exact (Hz q y Hq Hl D).
Qed.
Lemma cell_alloc t i g c : 1 <= T <= 21 -> zint t -> in_octree T (cell i) -> in_octree T (cell c) ->
  vdeep (nd_alloc_data T 0%Qc t (vo_internal C (cell i)) g) (cpath c) = if ieqb i c then g (vdeep t (cpath c)) else vdeep t (cpath c).
Proof.
  intros HT Hz Hi Hc. rewrite !zint_deep by (apply path_valid || apply path_length || apply zint_alloc || idtac; assumption).
  rewrite vo_alloc_path by (cbn [oh cell]; lia). rewrite dlook_nalloc by apply path_valid.
  assert (P1 := npath_prefix (cell i) c Hi Hc ltac:(lia)). assert (P2 := npath_prefix (cell c) i Hc Hi ltac:(lia)).
  rewrite !npath_cell in * by lia.
  assert (N : forall a b, in_node (cell a) b = ieqb a b).
  { intros a b. rewrite in_node_covers3b by (cbn; lia). unfold covers3b, cell. cbn [oh opos]. change (2 ^ 0) with 1.
    destruct a as [a1 a2 a3], b as [b1 b2 b3]. unfold imap, ieqb. cbn [px py pz]. rewrite !Z.div_1_r. rewrite (Z.eqb_sym b1), (Z.eqb_sym b2), (Z.eqb_sym b3). reflexivity. }
  rewrite N in P1, P2. rewrite P1, P2.
  destruct (ieqb_spec i c) as [->|Hne]; [rewrite ieqb_refl; reflexivity|].
  destruct (ieqb_spec c i) as [->|_]; [congruence|reflexivity].
Qed.
Lemma cells_inv l : 1 <= T <= 21 -> Forall (cell_call_ok T) l ->
  let t := vo_run qn keps C (map to_vcall l) in
  zint t /\ nheight K t /\ forall c, in_octree T (cell c) -> vdeep t (cpath c) = cell_run l c.
Proof.
  intros HT Hl. unfold vo_run, cell_run.
  assert (X : forall l t f, Forall (cell_call_ok T) l -> zint t -> nheight K t ->
     (forall c, in_octree T (cell c) -> vdeep t (cpath c) = f c) ->
     let t' := fold_left (vo_apply qn keps C) (map to_vcall l) t in
     zint t' /\ nheight K t' /\ forall c, in_octree T (cell c) -> vdeep t' (cpath c) = fold_left cell_apply l f c).
  { clear l Hl. induction l as [|a l IH]; intros t f Hl Hz Hn Hf; [cbn; auto|]. inversion Hl as [|? ? Ha Hl']; subst. cbn [map fold_left].
    apply IH; [assumption| | |]; destruct a as [i v|i u|]; cbn [to_vcall vo_apply cell_call_ok cell_apply] in *.
    - apply zint_alloc; assumption.
    - apply zint_alloc; assumption.
    - intros q x Hq Hlq. unfold vo_clear, nd_clear. rewrite dlook_new. destruct q; [intros E; injection E as <-; reflexivity|discriminate].
    - apply (alloc_height t (cell i) (fun _ => v)); try assumption. cbn. lia.
    - apply (alloc_height t (cell i) (fun v => nadd qn v u)); try assumption. cbn. lia.
    - apply nheight_new.
    - intros c Hc. unfold vo_set. change (n0 qn) with 0%Qc. rewrite cell_alloc by assumption. rewrite Hf by assumption. reflexivity.
    - intros c Hc. unfold vo_add. change (n0 qn) with 0%Qc. rewrite cell_alloc by assumption. rewrite Hf by assumption. reflexivity.
    - intros c Hc. unfold vo_clear, nd_clear. unfold vdeep. destruct (cpath c); reflexivity. }
  apply X; [assumption| |apply nheight_new|].
  - intros q x Hq Hlq. unfold vo_new. rewrite dlook_new. destruct q; [intros E; injection E as <-; reflexivity|discriminate].
  - intros c Hc. unfold vo_new, vdeep. destruct (cpath c); reflexivity.
Qed.
End MAP.

(** ** C22 *)
(** Leaf-level histories (cell writes, cell increments, clear): reading returns exactly what was written, in every
    cell, and leaf iteration reports the same values. *)
Theorem C22_cell_histories_partial : forall C l, vo_valid C -> Forall (cell_call_ok (cT C)) l ->
  let t := vo_run qn keps C (map to_vcall l) in
  (forall c, in_octree (cT C) (cell c) -> vo_get C t c = cell_run l c) /\
  ((1 < nsize t)%nat -> iter_field C t (cell_run l)).
Proof.
  intros C l [HT _] Hl t. destruct (cells_inv C l HT Hl) as (Hz & Hn & Hf). fold t in Hz, Hn, Hf.
  assert (G : forall c, in_octree (cT C) (cell c) -> vo_get C t c = cell_run l c).
  { intros c Hc. rewrite vo_get_path by assumption. apply Hf. assumption. }
  split; [assumption|]. intros Hs. apply (iter_ext C t (vfield C t)).
  - intros c Hc. unfold vfield. rewrite izero_sum by (apply path_valid || apply (zint_izero C); assumption). rewrite Hf by assumption. ring.
  - apply iter_vfield; [assumption|assumption|]. apply size_array. assumption.
Qed.
(** Any history: a cell that was just set reads back. *)
Theorem C22_set_reads_back : forall C t c v, vo_valid C -> vo_reachable C t -> in_octree (cT C) (cell c) ->
  vo_get C (vo_set qn C t (cell c) v) c = v.
Proof.
  intros C t c v [HT _] _ Hc. rewrite vo_get_path by assumption. unfold vo_set. rewrite vo_alloc_path by (cbn [oh cell]; lia).
  rewrite npath_cell by lia. unfold vdeep.
  pose proof (nanc_spec (cpath C c) (nalloc (cpath C c) (n0 qn) (fun x => Node v (nkids x)) t)) as (H1 & H2 & H3). cbv zeta in *.
  set (r := nanc _ _) in *.
  assert (D : dlook (cpath C c) (nalloc (cpath C c) (n0 qn) (fun x : vtree => Node v (nkids x)) t) = Some v).
  { rewrite (dlook_nalloc (cpath C c) (n0 qn) (fun _ => v)) by apply path_valid. rewrite is_prefix_refl. reflexivity. }
  destruct (snd r) as [|m] eqn:E.
  - rewrite Nat.sub_0_r, firstn_all in H2. unfold dlook in D. rewrite H2 in D. injection D as D. exact D.
  - exfalso. specialize (H3 (length (cpath C c)) ltac:(lia)). rewrite firstn_all in H3. unfold dlook in D. rewrite H3 in D. discriminate.
Qed.
(** Any history: once a node was written, leaf iteration covers every cell exactly once. *)
Theorem C22_iteration_covers : forall C t, vo_valid C -> vo_reachable C t -> (1 < nsize t)%nat -> exists f, iter_field C t f.
Proof.
  intros C t [HT _] Hr Hs. exists (vfield C t). apply iter_vfield; [assumption|apply reach_height; assumption|apply size_array; assumption].
Qed.
(** Any history: an increment of a node of any size changes the iterated values of exactly the cells in the node. *)
Theorem C22_iteration_add : forall C t f i u, vo_valid C -> vo_reachable C t -> (1 < nsize t)%nat -> in_octree (cT C) i ->
  iter_field C t f -> iter_field C (vo_add qn C t i u) (fadd f i u).
Proof.
  intros C t f i u [HT _] Hr Hs Hi Hf. assert (Hn := reach_height C t HT Hr). assert (Ha := size_array t Hs).
  assert (Hh : 0 <= oh i < cT C) by (destruct Hi; assumption).
  destruct (alloc_height C t i (fun v => nadd qn v u) HT Hh Hn) as [Hn' Ha'].
  apply (iter_ext C _ (vfield C (vo_add qn C t i u))).
  - intros c Hc. rewrite vfield_add by assumption. unfold fadd. rewrite (iter_is_vfield C t f HT Hn Ha Hf c Hc). reflexivity.
  - apply iter_vfield; assumption.
Qed.
(** The same for the first write to a new or cleared map. *)
Theorem C22_iteration_first_add : forall C t i u, vo_valid C -> in_octree (cT C) i ->
  iter_field C (vo_add qn C (vo_clear qn t) i u) (fadd fzero i u).
Proof.
  intros C t i u [HT _] Hi. assert (Hh : 0 <= oh i < cT C) by (destruct Hi; assumption).
  destruct (alloc_height C (vo_clear qn t) i (fun v => nadd qn v u) HT Hh (nheight_new _ _)) as [Hn' Ha'].
  apply (iter_ext C _ (vfield C (vo_add qn C (vo_clear qn t) i u))).
  - intros c Hc. rewrite vfield_add by assumption. unfold fadd. replace (vfield C (vo_clear qn t) c) with 0%Qc; [reflexivity|].
    unfold vfield, vo_clear, nd_clear. destruct (cpath C c); reflexivity.
  - apply iter_vfield; assumption.
Qed.
(** prune: if 0 is in range, every cell reads afterwards what leaf iteration reported before, clamped, up to
    (tree height + 1) times 1e-6; all values are in range; and leaf iteration agrees with queries. *)
Theorem C22_prune : forall C t f, vo_valid C -> (clo C <= 0)%Qc -> (0 <= chi C)%Qc -> vo_reachable C t -> (1 < nsize t)%nat ->
  iter_field C t f ->
  let t' := vo_prune qn keps C t in
  (forall c, in_octree (cT C) (cell c) ->
     (Qcabs (vo_get C t' c - clampq (clo C) (chi C) (f c)) <= qz (cT C + 1) * keps)%Qc /\
     (clo C <= vo_get C t' c /\ vo_get C t' c <= chi C)%Qc) /\
  ((1 < nsize t')%nat -> iter_field C t' (vo_get C t')).
Proof.
  intros C t f [HT _] Hlo Hhi Hr Hs Hf t'. assert (Hn := reach_height C t HT Hr). assert (Ha := size_array t Hs).
  destruct (prune_izero C _ t 0%Qc Hn) as [Hz Hn']. split.
  - intros c Hc. rewrite (iter_is_vfield C t f HT Hn Ha Hf c Hc). rewrite vo_get_path by assumption. rewrite clampq_qclamp.
    destruct (prune_spec C Hlo Hhi _ t 0%Qc (cpath C c) Hn (path_valid _ _) (path_length _ _)) as [P1 P2].
    split; [|exact P2]. unfold kbound in P1. rewrite Z2Nat.id in P1 by lia. exact P1.
  - intros Hs'. apply (iter_ext C t' (vfield C t')).
    + intros c Hc. unfold vfield. rewrite izero_sum by (apply path_valid || exact Hz). rewrite vo_get_path by assumption. ring.
    + apply iter_vfield; [assumption|exact Hn'|apply size_array; assumption].
Qed.
(** Observed cells (|iterated value| >= 1e-3) lie within the reported bounds. *)
Theorem C22_bounds : forall C t f mn mx c, vo_valid C -> vo_reachable C t -> (1 < nsize t)%nat -> iter_field C t f ->
  vo_minIndex qn (nsize t) C t = Some mn -> vo_maxIndex qn (nsize t) C t = Some mx -> in_octree (cT C) (cell c) ->
  (qeps <= Qcabs (f c))%Qc -> ileq mn c /\ ileq c mx.
Proof.
  intros C t f mn mx c [HT _] Hr Hs Hf Hmn Hmx Hc Hv.
  assert (Hu : isUnobserved qn (f c) = false) by (unfold isUnobserved; apply qltb_false; exact Hv).
  destruct Hf as (l & El & H). unfold vo_minIndex in Hmn. unfold vo_maxIndex in Hmx. rewrite El in *. injection Hmn as <-. injection Hmx as <-.
  assert (HH : forall i u, In (i, u) l -> 0 <= oh i).
  { rewrite leaf_list in El by lia. injection El as <-. intros i u Hi. apply in_map_iff in Hi as ([j w] & X & Hin). injection X as <- <-.
    cbn [fst oh wo_toExternal].
    exact (gleaves_height _ _ hca_none hca_kids _ t (OI (cT C) (I3 0 0 0)) _ (reach_height C t HT Hr) ltac:(cbn [oh]; lia) j w Hin). }
  destruct (H c Hc) as (l1 & i & l2 & -> & Hci & _). assert (Hin := in_elt (i, f c) l1 l2).
  assert (Hi := HH _ _ Hin). apply in_node_covers in Hci; [|assumption].
  destruct (corners_cover i c Hi Hci) as [B1 B2]. split.
  - exact (ile_trans _ _ _ (fold_min_in _ i _ (wo_maxPossible C) Hin Hu) B1).
  - exact (ile_trans _ _ _ B2 (fold_max_in _ i _ (wo_minPossible C) Hin Hu)).
Qed.
Print Assumptions C22_cell_histories_partial.
Print Assumptions C22_set_reads_back.
Print Assumptions C22_iteration_covers.
Print Assumptions C22_iteration_add.
Print Assumptions C22_iteration_first_add.
Print Assumptions C22_prune.
Print Assumptions C22_bounds.

(** *** Cases *)
Ltac inoct := vm_compute; repeat (split || reflexivity || (intros; discriminate)).
Ltac vfall := repeat first [apply Forall_nil | apply Forall_cons; [first [exact I | inoct]|]].
Definition exC : wconfig (V := Qc) := WC 3 (Q2Qc (-2)) (Q2Qc 4).
Example exC_valid : vo_valid exC /\ (clo exC <= 0)%Qc /\ (0 <= chi exC)%Qc.
Proof. repeat split; try (cbn; lia); discriminate. Qed.
Definition ex_cells := [CellSet (I3 1 (-2) 3) (Q2Qc 3); CellAdd (I3 1 (-2) 3) (Q2Qc (1 # 2)); CellSet (I3 (-4) 0 0) (Q2Qc 7)].
Example C22_ex_cells : Forall (cell_call_ok 3) ex_cells /\
  map (vo_get exC (vo_run qn keps exC (map to_vcall ex_cells))) [I3 1 (-2) 3; I3 (-4) 0 0; I3 1 (-2) 2] = [Q2Qc (7 # 2); Q2Qc 7; 0%Qc] /\
  (1 < nsize (vo_run qn keps exC (map to_vcall ex_cells)))%nat /\
  vo_minIndex qn 20 exC (vo_run qn keps exC (map to_vcall ex_cells)) = Some (I3 (-4) (-2) 0).
Proof. split; [vfall|]. split; [|split]; [|vm_compute; lia|vm_compute; reflexivity]. vm_compute. repeat f_equal; apply Qc_is_canon; reflexivity. Qed.
(** The eight cells of a node get the value 1; prune merges them into the node. *)
Definition ex_octant : list (vcall (V := Qc)) :=
  map (fun p => VSet (cell p) (Q2Qc 1)) [I3 0 0 0; I3 1 0 0; I3 0 1 0; I3 1 1 0; I3 0 0 1; I3 1 0 1; I3 0 1 1; I3 1 1 1].
Example C22_ex_prune : let t := vo_run qn keps exC ex_octant in
  vo_reachable exC t /\ (1 < nsize t)%nat /\ nsize t = 11%nat /\ nsize (vo_prune qn keps exC t) = 3%nat /\
  vo_get exC (vo_prune qn keps exC t) (I3 0 1 1) = Q2Qc 1.
Proof.
  split; [exists ex_octant; split; [vfall|reflexivity]|]. split; [vm_compute; lia|]. split; [vm_compute; reflexivity|].
  split; [vm_compute; reflexivity|]. apply Qc_is_canon. vm_compute. reflexivity.
Qed.

Ltac qneq := intros H; apply (f_equal this) in H; vm_compute in H; discriminate H.
(** After prune has merged cells, an increment of a cell is not added to its value. *)
Theorem C22_add_after_prune_refuted : exists C t c u, vo_valid C /\ vo_reachable C t /\ in_octree (cT C) (cell c) /\
  vo_get C (vo_add qn C (vo_prune qn keps C t) (cell c) u) c <> (vo_get C (vo_prune qn keps C t) c + u)%Qc.
Proof.
  exists exC, (vo_run qn keps exC ex_octant), (I3 0 0 0), (Q2Qc (1 # 2)).
  split; [apply exC_valid|]. split; [exists ex_octant; split; [vfall|reflexivity]|]. split; [inoct|]. qneq.
Qed.
(** A cell write can change the value read at another cell. *)
Theorem C22_no_disturbance_refuted : exists C t c c' v, vo_valid C /\ vo_reachable C t /\ in_octree (cT C) (cell c) /\
  in_octree (cT C) (cell c') /\ c <> c' /\ vo_get C (vo_set qn C t (cell c) v) c' <> vo_get C t c'.
Proof.
  exists exC, (vo_run qn keps exC [VAdd (OI 2 (I3 0 0 0)) (Q2Qc 3)]), (I3 0 0 0), (I3 1 0 0), (Q2Qc 1).
  split; [apply exC_valid|]. split; [exists [VAdd (OI 2 (I3 0 0 0)) (Q2Qc 3)]; split; [vfall|reflexivity]|].
  split; [inoct|]. split; [inoct|]. split; [discriminate|]. qneq.
Qed.
(** Queries and leaf iteration can disagree, and then prune changes what queries return although all values are in range. *)
Theorem C22_query_vs_iteration_refuted : exists C t f c, vo_valid C /\ vo_reachable C t /\ in_octree (cT C) (cell c) /\
  iter_field C t f /\ vo_get C t c <> f c /\ (clo C <= f c /\ f c <= chi C)%Qc /\
  vo_get C (vo_prune qn keps C t) c <> vo_get C t c.
Proof.
  set (l := [VAdd (OI 2 (I3 0 0 0)) (Q2Qc 3); VSet (cell (I3 0 0 0)) (Q2Qc (1 # 2))] : list (vcall (V := Qc))).
  assert (Hr : vo_reachable exC (vo_run qn keps exC l)) by (exists l; split; [unfold l; vfall|reflexivity]).
  exists exC, (vo_run qn keps exC l), (vfield exC (vo_run qn keps exC l)), (I3 0 0 0).
  split; [apply exC_valid|]. split; [exact Hr|]. split; [inoct|]. split.
  { apply iter_vfield; [cbn; lia|apply reach_height; [cbn; lia|exact Hr]|reflexivity]. }
  split; [qneq|]. split; [split; vm_compute; discriminate|]. qneq.
Qed.
(** If all cells are merged into the root, leaf iteration reports the wrong part of space. *)
Theorem C22_root_leaf_refuted : exists C t l c, vo_valid C /\ vo_reachable C t /\ vo_forEachLeaf qn (nsize t) C t = Some l /\
  in_octree (cT C) (cell c) /\ vo_get C t c <> 0%Qc /\ forall i u, In (i, u) l -> in_node i c = false.
Proof.
  set (C := WC 1 (Q2Qc (-2)) (Q2Qc 4)).
  set (h := map (fun p => VSet (cell p) (Q2Qc 1)) [I3 0 0 0; I3 (-1) 0 0; I3 0 (-1) 0; I3 (-1) (-1) 0; I3 0 0 (-1); I3 (-1) 0 (-1); I3 0 (-1) (-1); I3 (-1) (-1) (-1)] ++ [VPrune] : list (vcall (V := Qc))).
  exists C, (vo_run qn keps C h), [(OI 1 (I3 0 0 0), Q2Qc 1)], (I3 (-1) 0 0).
  split; [split; [cbn; lia|reflexivity]|]. split; [exists h; split; [unfold h; vfall|reflexivity]|]. split.
  { vm_compute. repeat f_equal. }
  split; [inoct|]. split; [qneq|]. intros i u [E|[]]. injection E as <- <-. reflexivity.
Qed.
Print Assumptions C22_add_after_prune_refuted.
Print Assumptions C22_no_disturbance_refuted.
Print Assumptions C22_query_vs_iteration_refuted.
Print Assumptions C22_root_leaf_refuted.
