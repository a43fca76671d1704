(** ClassifiedMap: /repo/library/cpp/include/wavemap/core/utils/query/classified_map.h (lines "h:"),
    impl/classified_map_inl.h ("inl:") and /repo/library/cpp/src/core/utils/query/classified_map.cc ("cc:").
    Block_map_ is a NdtreeBlockHash (a spatial hash of octrees); the octree of a block is its root node. *)
From Verif Require Import Base M_IntMath M_Morton M_NdtreeIndex M_Num M_Haar3 M_Ndtree M_Wavelet M_Octree M_Accel M_Occupancy
  M_Queue M_HashedBlocks.

(** ChildBitset, h:16-22 and inl:8-18, with bit_ops::is_bit_set, unset_bit and set_bit
    (utils/bits/bit_operations.h:108-126). The uint8_t is an integer from 0 to 255. *)
Definition cb_set (b c : Z) (v : bool) : Z := Z.lor (Z.land b (Z.lnot (Z.shiftl 1 c))) (Z.shiftl (Z.b2z v) c) mod 2 ^ 8.
Definition cb_get (b c : Z) : bool := negb (Z.land (Z.shiftr b c) 1 =? 0).
Definition cb_any (b : Z) : bool := negb (b =? 0).
(** NodeData, h:26-34; value-initialised *)
Record cdata := CD { cd_free : Z; cd_occ : Z; cd_unobs : Z }.
Definition cd0 : cdata := CD 0 0 0.
(** occupancyMask, inl:67-70 *)
Definition cd_mask (d : cdata) : Z := occ_toMask3 (cb_any (cd_free d)) (cb_any (cd_occ d)) (cb_any (cd_unobs d)).
(** childOccupancyMask, inl:72-76 *)
Definition cd_child (d : cdata) (c : Z) : Z := occ_toMask3 (cb_get (cd_free d) c) (cb_get (cd_occ d) c) (cb_get (cd_unobs d) c).
Notation cnode := (node cdata).
(** The three set calls on classified_node.data(), e.g. cc:356-359 *)
Definition cn_set (n : cnode) (c : Z) (f o u : bool) : cnode :=
  Node (CD (cb_set (cd_free (ndata n)) c f) (cb_set (cd_occ (ndata n)) c o) (cb_set (cd_unobs (ndata n)) c u)) (nkids n).
(** Collecting the results of a child and pruning it if homogeneous, cc:349-362 and cc:428-444; [ch] is the classified
    child after the recursive call *)
Definition cn_collect (n : cnode) (c : Z) (ch : cnode) : cnode :=
  let f := cb_any (cd_free (ndata ch)) in
  let o := cb_any (cd_occ (ndata ch)) in
  let u := cb_any (cd_unobs (ndata ch)) in
  let n' := cn_set (setChild n c ch) c f o u in
  if Z.b2z f + Z.b2z o + Z.b2z u =? 1 then fst (eraseChild n' c) else n'.
(** for (child_idx = 0; child_idx < 8; ++child_idx) *)
Definition child_ids : list Z := [0; 1; 2; 3; 4; 5; 6; 7].

Section CLASSIFIED.
(** [is] is classifier_.is(value, id); [C] the configuration of the occupancy map, whose tree height the classified map
    takes over (cc:19-24) *)
Context {V : Type} (N : M_Num.num V) (is : V -> occ_id -> bool) (C : wconfig (V := V)).
Notation wnode := (node (det V)).
Notation T := (cT C).
Notation bmap := (shash cnode).

(** recursiveClassifier(occupancy_node, average, classified_node), cc:335-372. [recs c]: the recursive call on occupancy
    child [c], if there is one. *)
Definition cl_leaf (n : cnode) (c : Z) (v : V) : cnode := cn_set n c (is v kFree) (is v kOccupied) (is v kUnobserved).
Definition cl_child (values : oct V) (recs : oct (option (V -> cnode -> cnode))) (n : cnode) (c : Z) : cnode :=
  match oget recs c with
  | Some rec => cn_collect n c (rec (oget values c) (childOrNew cd0 n c))
  | None => cl_leaf n c (oget values c)
  end.
Fixpoint classify (on : wnode) (average : V) (n : cnode) {struct on} : cnode :=
  match on with Node d kids =>
    fold_left (cl_child (backward3 N average d)
                (match kids with
                 | None => otab (fun _ => None)
                 | Some k => omap (fun o => match o with None => None | Some ch => Some (classify ch) end) k
                 end)) child_ids n
  end.

(** The second recursiveClassifier, cc:374-447. [k] = node_index.height; [esdf] is esdf_map.getValue (the accelerator
    only caches a block, see C19) and [radius] is robot_radius. *)
Definition cle_child (rec : oidx -> option wnode -> V -> cnode -> cnode) (esdf : idx3 -> option V) (radius : V)
    (idx : oidx) (on : option wnode) (average : V) (values : oct V) (n : cnode) (c : Z) : cnode :=
  let ci := ochild idx c in
  let child := match on with None => None | Some w => getChild w c end in
  let v := match on with None => average | Some _ => oget values c end in
  let free := is v kFree in
  if (oh ci =? 0) || (negb free && match child with None => true | Some _ => false end) then
    if free && match esdf (opos ci) with Some d => nltb N d radius | None => false end
    then cn_set n c false true false
    else cl_leaf n c v
  else cn_collect n c (rec ci child v (childOrNew cd0 n c)).
Fixpoint classify_esdf (k : nat) (esdf : idx3 -> option V) (radius : V) (idx : oidx) (on : option wnode) (average : V)
    (n : cnode) : cnode :=
  match k with
  | O => n
  | S k' =>
      let values := match on with None => otab (fun _ => n0 N) | Some w => backward3 N average (ndata w) end in
      fold_left (cle_child (classify_esdf k' esdf radius) esdf radius idx on average values) child_ids n
  end.

(** eraseBlockIf and forEachBlock of the two update functions, cc:50-63 and cc:80-96; [f] is the visitor *)
Definition cm_sync (f : idx3 -> wblock -> cnode -> cnode) (m : hmap (V := V)) (cm : bmap) : bmap :=
  fold_left (fun acc kb => setBlock acc (fst kb) (f (fst kb) (snd kb) (blockOrNew (Node cd0 None) acc (fst kb)))) m
    (eraseBlockIf (fun b x => (x, negb (hasBlock m b))) cm).
Definition cm_classify (m : hmap (V := V)) (cm : bmap) : bmap :=
  cm_sync (fun _ b n => classify (wroot (btree b)) (wscale (btree b)) n) m cm.
Definition cm_classify_esdf (esdf : idx3 -> option V) (radius : V) (m : hmap (V := V)) (cm : bmap) : bmap :=
  cm_sync (fun i b n => classify_esdf (Z.to_nat T) esdf radius (OI T i) (Some (wroot (btree b))) (wscale (btree b)) n) m cm.

(** QueryCache, h:122-148. Node pointers are the nodes they point to; block_map_ only changes in update, which resets
    the cache. A non-null block pointer is [qc_found]. *)
Record qcache := QC { qc_block : idx3; qc_height : Z; qc_morton : Z; qc_found : bool; qc_nodes : Z -> option cnode }.
(** Initial state h:127-134, reset cc:326-333 *)
Definition qc_new : qcache := QC no_block T (2 ^ 64 - 1) false (fun _ => None).
(** getBlock, inl:111-123. Writing node_stack[tree_height] is out of bounds if tree_height >= 20; see [qc_enter]. *)
Definition qc_getBlock (cm : bmap) (q : qcache) (b : idx3) : qcache :=
  if ieqb b (qc_block q) then q
  else match getBlock cm b with
       | Some r => QC b T (qc_morton q) true (aset (qc_nodes q) T (Some r))
       | None => QC b T (qc_morton q) false (qc_nodes q)
       end.
(** The first part of getNodeOrAncestor, has and isFully, cc:187-204, cc:229-246 and cc:279-296; the flag tells whether
    the block exists. [None]: undefined behaviour (stack accessed out of bounds). *)
Definition qc_enter (cm : bmap) (q : qcache) (i : oidx) : option (qcache * bool) :=
  let morton := omorton i in
  let q1 := qc_getBlock cm (QC (qc_block q) (qc_height q) morton (qc_found q) (qc_nodes q)) (bh_blockIndex T i) in
  if qc_found q1 then
    if kMaxTreeHeight3 <=? T then None else
    let h := if qc_height q1 =? T then T
             else computeLastCommonAncestorHeight 3 morton (oh i) (qc_morton q) (qc_height q) in
    Some (QC (qc_block q1) h morton true (qc_nodes q1), true)
  else Some (q1, false).
(** The loop cc:212-221; [None]: a null pointer is dereferenced *)
Fixpoint qc_walk (k : nat) (nodes : Z -> option cnode) (morton h : Z) : option ((Z -> option cnode) * Z * cnode) :=
  match nodes h with
  | None => None
  | Some p =>
      match k with
      | O => Some (nodes, h, p)
      | S k' =>
          match getChild p (relativeChildIndexFromMorton 3 morton h) with
          | None => Some (nodes, h, p)
          | Some ch => qc_walk k' (aset nodes (h - 1) (Some ch)) morton (h - 1)
          end
      end
  end.
(** getNodeOrAncestor, cc:184-224 *)
Definition qc_node (cm : bmap) (q : qcache) (i : oidx) : option (qcache * (option cnode * Z)) :=
  match qc_enter cm q i with
  | None => None
  | Some (q', false) => Some (q', (None, T))
  | Some (q', true) =>
      match qc_walk (Z.to_nat (qc_height q' - oh i)) (qc_nodes q') (qc_morton q') (qc_height q') with
      | None => None
      | Some (nodes, h, p) => Some (QC (qc_block q') h (qc_morton q') true nodes, (Some p, h))
      end
  end.
(** The loops cc:255-273 and cc:305-323, which only differ in the value [deflt] returned when the loop ends
    at a region with mixed occupancy: true in has, false in isFully *)
Fixpoint qc_descend (k : nat) (deflt : bool) (mask : Z) (ih : Z) (nodes : Z -> option cnode) (morton h : Z)
    : option ((Z -> option cnode) * Z * bool) :=
  match nodes h with
  | None => None
  | Some p =>
      let c := relativeChildIndexFromMorton 3 morton h in
      let region := cd_child (ndata p) c in
      if oc_isFully region mask then Some (nodes, h, true)
      else if negb (oc_has region mask) then Some (nodes, h, false)
      else if h - 1 =? ih then Some (nodes, h, deflt)
      else match getChild p c with
           | None => Some (nodes, h, deflt)
           | Some ch =>
               match k with
               | O => None
               | S k' => qc_descend k' deflt mask ih (aset nodes (h - 1) (Some ch)) morton (h - 1)
               end
           end
  end.
(** has (cc:226-274, [full] = false) and isFully (cc:276-324, [full] = true) *)
Definition qc_test (full : bool) (cm : bmap) (q : qcache) (i : oidx) (mask : Z) : option (qcache * bool) :=
  match qc_enter cm q i with
  | None => None
  | Some (q', false) => Some (q', false)
  | Some (q', true) =>
      if qc_height q' =? oh i then
        match qc_nodes q' (qc_height q') with
        | None => None
        | Some p => Some (q', if full then oc_isFully (cd_mask (ndata p)) mask else oc_has (cd_mask (ndata p)) mask)
        end
      else
        match qc_descend (Z.to_nat (qc_height q' - oh i)) (negb full) mask (oh i) (qc_nodes q') (qc_morton q') (qc_height q') with
        | None => None
        | Some (nodes, h, r) => Some (QC (qc_block q') h (qc_morton q') true nodes, r)
        end
  end.
(** getValueOrAncestor, cc:99-112; computeParentIndex: indexing/impl/ndtree_index_inl.h:8-15 *)
Definition cm_parent (i : oidx) : oidx := OI (oh i + 1) (imap (fun c => div_exp2_floor c 1) (opos i)).
Definition qc_value (cm : bmap) (q : qcache) (i : oidx) : option (qcache * (option Z * Z)) :=
  match qc_node cm q (cm_parent i) with
  | None => None
  | Some (q', (None, _)) => Some (q', (None, T))
  | Some (q', (Some p, h)) => Some (q', (Some (cd_child (ndata p) (relativeChildIndexFromMorton 3 (omorton i) h)), h - 1))
  end.

(** The whole object, h:104-148: block_map_ and the mutable query_cache_ *)
Record cmstate := CM { cm_map : bmap; cm_cache : qcache }.
(** Constructor without a map, cc:11-16 *)
Definition cm_new : cmstate := CM [] qc_new.
(** Calls of the public API and their results: update (cc:45-97), has, isFully (inl:20-58), getNodeOrAncestor and
    getNode (inl:87-95), getValue and getValueOrAncestor (inl:101-104, cc:99-112), getBlock and hasBlock (inl:78-85) *)
Inductive cmcall :=
| KUpdate (m : hmap (V := V))
| KUpdateEsdf (m : hmap (V := V)) (E : hbconfig V) (e : hbmap (V := V)) (radius : V)
| KHas (i : oidx) (mask : Z) | KFully (i : oidx) (mask : Z)
| KNode (i : oidx) | KValue (i : oidx) | KBlock (b : idx3).
Inductive cmanswer := ADone | ABool (b : bool) | ANode (n : option cnode) (h : Z) | AValue (m : option Z) (h : Z).
(** CHECK_GE, cc:74-75; CHECK_NEAR on the cell widths (cc:76-77) is not modelled *)
Definition esdf_ok (E : hbconfig V) (radius : V) : bool := negb (nltb N (hdef E) radius) && negb (nltb N (hhi E) radius).
(** [None]: undefined behaviour or abort *)
Definition cm_call (s : cmstate) (c : cmcall) : option (cmstate * cmanswer) :=
  let query {A} (r : option (qcache * A)) (f : A -> cmanswer) :=
    match r with None => None | Some (q, a) => Some (CM (cm_map s) q, f a) end in
  match c with
  | KUpdate m => Some (CM (cm_classify m (cm_map s)) qc_new, ADone)
  | KUpdateEsdf m E e radius =>
      if esdf_ok E radius then Some (CM (cm_classify_esdf (hb_getValue E e) radius m (cm_map s)) qc_new, ADone) else None
  | KHas i mask => query (qc_test false (cm_map s) (cm_cache s) i mask) ABool
  | KFully i mask => query (qc_test true (cm_map s) (cm_cache s) i mask) ABool
  | KNode i => query (qc_node (cm_map s) (cm_cache s) i) (fun r => ANode (fst r) (snd r))
  | KValue i => query (qc_value (cm_map s) (cm_cache s) i) (fun r => AValue (fst r) (snd r))
  | KBlock b => let q := qc_getBlock (cm_map s) (cm_cache s) b in Some (CM (cm_map s) q, ABool (qc_found q))
  end.
Fixpoint cm_run (s : cmstate) (l : list cmcall) : option (cmstate * list cmanswer) :=
  match l with
  | [] => Some (s, [])
  | c :: l' =>
      match cm_call s c with
      | None => None
      | Some (s', a) => match cm_run s' l' with None => None | Some (s'', r) => Some (s'', a :: r) end
      end
  end.

(** forEachLeaf, cc:114-145: the loop of one block; [fuel] bounds the number of iterations *)
Definition cf_child (th : Z) (idx : oidx) (n : cnode) (sa : list (oidx * cnode) * list (oidx * Z)) (c : Z) :=
  let ci := ochild idx c in
  match (if th <? oh ci then getChild n c else None) with
  | Some ch => ((ci, ch) :: fst sa, snd sa)
  | None => (fst sa, (ci, cd_child (ndata n) c) :: snd sa)
  end.
(** forEachLeafMatching, cc:147-182 *)
Definition cfm_child (mask th : Z) (idx : oidx) (n : cnode) (sa : list (oidx * cnode) * list (oidx * Z)) (c : Z) :=
  let ci := ochild idx c in
  let o := cd_child (ndata n) c in
  if negb (oc_has o mask) then sa
  else if oc_isFully o mask || (oh ci <=? th) then (fst sa, (ci, o) :: snd sa)
  else match getChild n c with
       | Some ch => ((ci, ch) :: fst sa, snd sa)
       | None => sa
       end.
Fixpoint cf_loop (visit : oidx -> cnode -> list (oidx * cnode) * list (oidx * Z) -> Z -> list (oidx * cnode) * list (oidx * Z))
    (fuel : nat) (stack : list (oidx * cnode)) (acc : list (oidx * Z)) : option (list (oidx * Z)) :=
  match stack with
  | [] => Some (rev acc)
  | (idx, n) :: stack' =>
      match fuel with
      | O => None
      | S fuel' => let sa := fold_left (visit idx n) child_ids (stack', acc) in cf_loop visit fuel' (fst sa) (snd sa)
      end
  end.
Fixpoint opt_concat {A} (l : list (option (list A))) : option (list A) :=
  match l with
  | [] => Some []
  | None :: _ => None
  | Some a :: l' => option_map (app a) (opt_concat l')
  end.
Definition cm_visit visit (fuel : nat) (cm : bmap) : option (list (oidx * Z)) :=
  opt_concat (map (fun kb => cf_loop visit fuel [(OI T (fst kb), snd kb)] []) cm).
Definition cm_forEachLeaf (fuel : nat) (th : Z) (cm : bmap) := cm_visit (cf_child th) fuel cm.
Definition cm_forEachLeafMatching (fuel : nat) (mask th : Z) (cm : bmap) := cm_visit (cfm_child mask th) fuel cm.
(** getMinIndex, getMaxIndex, cc:34-43 *)
Definition cm_minIndex (cm : bmap) : idx3 := imap (fun c => exp2 T * c) (getMinBlockIndex cm).
Definition cm_maxIndex (cm : bmap) : idx3 :=
  match cm with [] => I3 0 0 0 | _ => imap (fun c => exp2 T * (c + 1) - 1) (getMaxBlockIndex cm) end.
End CLASSIFIED.
