(** The voxel display of the RViz plugin. Paths are relative to /repo/interfaces/ros1/wavemap_rviz_plugin:
    vv: src/visuals/voxel_visual.cc, cs: src/visuals/cell_selector.cc, md: src/wavemap_map_display.cc.
    Modelled for maps of type HashedWaveletOctree. Colours, opacity, names, materials and the rendering proper are left out. *)
From Verif Require Import Base M_IntMath M_NdtreeIndex M_Num M_Haar M_Haar3 M_Ndtree M_Wavelet M_Point M_Adjacency M_Sdf.
From Coq Require Import QArith.
Close Scope Q_scope.
Open Scope Z_scope.

Section Viz.
Context {V : Type} (N : M_Num.num V).
Notation conf := (wconfig (V := V)).
Notation hm := (hmap (V := V)).

(** ** Which cells are drawn *)
(** CellSelector's members, include/.../visuals/cell_selector.h:48-55 *)
Record selector := Sel { s_surface_mode : bool; s_surface : V; s_band_min : V; s_band_max : V; s_unknown : V }.
(** isUnknown, cell_selector.h:34-36 *)
Definition sel_isUnknown (s : selector) (v : V) : bool := nltb N (nabs N v) (s_unknown s).
(** hasFreeNeighbor, cs:97-110, with kNeighborOffsets (cs:8-9: 26 offsets, as in M_Sdf.v). The QueryAccelerator is replaced by
    getCellValue of the map (C19); it is reset by setMap (cs:56-59) at every updateMap. *)
Definition hasFreeNeighbor (C : conf) (m : hm) (s : selector) (i : oidx) : bool :=
  existsb (fun o => let v := hw_get_node N C m (OI (oh i) (imap2 Z.add (opos i) o)) in
                    nltb N v (s_surface s) && negb (sel_isUnknown s v)) sdf_offsets.
(** shouldBeDrawn, cs:71-95 *)
Definition shouldBeDrawn (C : conf) (m : hm) (s : selector) (i : oidx) (v : V) : bool :=
  if s_surface_mode s
  then negb (nltb N v (s_surface s) || sel_isUnknown s v) && hasFreeNeighbor C m s i
  else negb (nltb N v (s_band_min s) || nltb N (s_band_max s) v || sel_isUnknown s v).

(** ** Drawing a block *)
(** Cell (include/.../visuals/cell_layer.h:19-23), with the log-odds in place of the colour computed from it; CellLayer: its
    dimensions (setCellDimensions) and its cells (setCells replaces them all, src/visuals/cell_layer.cc:94-98). *)
Record vcell := VC { vc_center : list Q; vc_value : V }.
Record layer := Layer { ly_width : Q; ly_cells : list vcell }.
(** voxels_per_level[d].emplace_back(x) *)
Fixpoint emplace (d : nat) (x : vcell) (l : list (list vcell)) : list (list vcell) :=
  match l, d with
  | [], _ => []
  | c :: l', O => (c ++ [x]) :: l'
  | c :: l', S d' => c :: emplace d' x l'
  end.
(** appendLeafCenterAndColor, vv:334-370; [None]: a CHECK failed, the program aborts *)
Definition appendLeaf (C : conf) (w : Q) (m : hm) (s : selector) (iv : oidx * V) (vpl : list (list vcell)) : option (list (list vcell)) :=
  if shouldBeDrawn C m s (fst iv) (snd iv) then
    let depth := cT C - oh (fst iv) in
    if (0 <=? depth) && (depth <? Z.of_nat (length vpl))
    then Some (emplace (Z.to_nat depth) (VC (nodeIndexToCenterPoint (oni (fst iv)) w) (snd iv)) vpl)
    else None
  else Some vpl.
Definition appendLeaves (C : conf) (w : Q) (m : hm) (s : selector) (l : list (oidx * V)) (vpl : list (list vcell)) : option (list (list vcell)) :=
  fold_left (fun acc iv => match acc with Some a => appendLeaf C w m s iv a | None => None end) l (Some vpl).
(** drawMultiResolutionVoxels, vv:372-407: layers are created with the width of their level when missing, existing ones keep theirs;
    surplus layers are deleted. [depth] counts from 0. *)
Fixpoint drawLayers (C : conf) (w : Q) (depth : Z) (vpl : list (list vcell)) (ls : list layer) : list layer :=
  match vpl with
  | [] => []
  | cells :: vpl' =>
      match ls with
      | [] => Layer (heightToCellWidth w (cT C - depth)) cells :: drawLayers C w (depth + 1) vpl' []
      | l :: ls' => Layer (ly_width l) cells :: drawLayers C w (depth + 1) vpl' ls'
      end
  end.

(** ** The state of a VoxelVisual and of the map it shares with the display *)
(** voxel_visual.h:88-147. The properties are the user's settings. *)
Record viz := Viz {
  z_drawn : shash (list layer);     (* block_voxel_layers_map_ *)
  z_queue : shash Z;                (* block_update_queue_: requested termination heights *)
  z_last : Z;                       (* last_update_time_ *)
  z_force : bool;                   (* force_lod_update_ *)
  z_visible : bool;                 (* visibility_property_ *)
  z_term : Z;                       (* termination_height_property_ *)
  z_sel : selector }.
(** MapAndMutex::map, null at first, with the map's configuration *)
Record dmap := DM { d_conf : conf; d_width : Q; d_blocks : hm }.
Definition dsys := (viz * option dmap)%type.

(** updateMap, vv:101-187, at time [now]. (setMax only limits what the user can enter and is left out.) *)
Definition updateMap (redraw_all : bool) (now : Z) (z : viz) (om : option dmap) : viz :=
  match om with
  | Some d =>
      if z_visible z then
        let m := d_blocks d in
        let drawn := filter (fun kb => hasBlock m (fst kb)) (z_drawn z) in
        let queue := filter (fun kb => hasBlock m (fst kb)) (z_queue z) in
        let due := filter (fun kb => redraw_all || (z_last z <? bstamp (snd kb))) m in
        Viz drawn (fold_left (fun q kb => setBlock q (fst kb) (z_term z)) due queue) now
            (z_force z || match due with [] => false | _ => true end) (z_visible z) (z_term z) (z_sel z)
      else z
  | None => z
  end.

(** computeRecommendedBlockLodHeight, vv:242-268. [None]: orthographic camera. [Some r]: r is floor(log2(1 + 0.002 d / w)) for the
    distance d from the camera to the block, any integer here. std::clamp as implemented by the C++ library: v < lo ? lo : hi < v ? hi : v. *)
Definition recommended (raw : option Z) (lo hi : Z) : Z :=
  match raw with
  | None => lo
  | Some r => if r <? lo then lo else if hi <? r then hi else r
  end.
(** getCurrentBlockLodHeight, vv:270-279 *)
Definition currentLod (C : conf) (z : viz) (k : idx3) : option Z :=
  option_map (fun ls => cT C - (Z.of_nat (length ls) - 1)) (getBlock (z_drawn z) k).
(** the visitor of updateLOD, vv:213-238 *)
Definition lodBlock (C : conf) (raw : idx3 -> option Z) (z : viz) (k : idx3) : viz :=
  let r := recommended (raw k) (z_term z) (cT C - 1) in
  let push := Viz (z_drawn z) (setBlock (z_queue z) k r) (z_last z) (z_force z) (z_visible z) (z_term z) (z_sel z) in
  if hasBlock (z_queue z) k then push
  else match currentLod C z k with
       | Some cur => if (cur <? z_term z) || (cur <? r - 1) || (r <? cur) then push else z
       | None => z
       end.
(** updateLOD, vv:189-240 *)
Definition updateLOD (raw : idx3 -> option Z) (z : viz) (om : option dmap) : viz :=
  match om with
  | Some d => if z_visible z then fold_left (lodBlock (d_conf d) raw) (map fst (d_blocks d)) z else z
  | None => z
  end.

(** The body of the loop in processBlockUpdateQueue, vv:478-492; [None]: abort (or, without levels, an exception) *)
Definition drawBlock (d : dmap) (k : idx3) (b : wblock (V := V)) (z : viz) : option viz :=
  let C := d_conf d in
  let th := match getBlock (z_queue z) k with Some h => h | None => 0 end in
  let num_levels := cT C + 1 - th in
  if num_levels <=? 0 then None else
  match wt_forEachLeaf N (nsize (wroot (btree b))) th (OI (cT C) k) (btree b) with
  | None => None
  | Some l =>
      match appendLeaves C (d_width d) (d_blocks d) (z_sel z) l (repeat [] (Z.to_nat num_levels)) with
      | None => None
      | Some vpl =>
          let old := match getBlock (z_drawn z) k with Some ls => ls | None => [] end in
          Some (Viz (setBlock (z_drawn z) k (drawLayers C (d_width d) 0 vpl old)) (fst (eraseBlock (z_queue z) k))
                    (z_last z) (z_force z) (z_visible z) (z_term z) (z_sel z))
      end
  end.
(** the loop, vv:476-499. The time allowed for a frame is up after n + 1 blocks. *)
Fixpoint drawBlocks (d : dmap) (n : nat) (l : list idx3) (z : viz) : option viz :=
  match l with
  | [] => Some z
  | k :: l' =>
      match getBlock (d_blocks d) k with
      | None => drawBlocks d n l' z
      | Some b =>
          match drawBlock d k b z with
          | None => None
          | Some z' => match n with O => Some z' | S n' => drawBlocks d n' l' z' end
          end
      end
  end.
(** processBlockUpdateQueue, vv:409-504. [ord]: the order in which std::sort leaves the queued blocks. *)
Definition processQueue (ord : list idx3 -> list idx3) (n : nat) (z : viz) (om : option dmap) : option viz :=
  match om with
  | Some d => if z_visible z then drawBlocks d n (ord (map fst (z_queue z))) z else Some z
  | None => Some z
  end.
(** The comparator of that sort on (term_height_difference, distance), vv:451-468 *)
Definition draw_before (a b : Z * Q) : bool :=
  if Z.abs (fst a - fst b) <? 2 then negb (Qle_bool (snd b) (snd a)) else fst b <? fst a.

(** prerenderCallback, vv:531-550: what a frame depends on *)
Record frame := Frame { f_raw : idx3 -> option Z; f_moved : bool; f_order : list idx3 -> list idx3; f_more : nat }.
Definition prerender (f : frame) (s : dsys) : option dsys :=
  let '(z, om) := s in
  let z1 := if z_force z || f_moved f
            then let z' := updateLOD (f_raw f) z om in
                 Viz (z_drawn z') (z_queue z') (z_last z') false (z_visible z') (z_term z') (z_sel z')
            else z in
  option_map (fun z2 => (z2, om)) (processQueue (f_order f) (f_more f) z1 om).

(** ** Events *)
Inductive vevent :=
| EMap (d : dmap) (redraw_all shown : bool) (now : Z)
    (* a new map, from a message (md:80-124; redraw_all = false) or a file or cleared (md:60-69,152-154; redraw_all = true); [shown] is
       false if the display could not look up the transform and returned before updateVisuals (md:102-108) *)
| EFrame (f : frame)
| EVisible (b : bool) (now : Z)       (* visibilityUpdateCallback, vv:292-299 *)
| ETerm (h : Z)                       (* terminationHeightUpdateCallback, voxel_visual.h:68 *)
| ESelect (s : selector) (now : Z)    (* cellSelectionModeUpdateCallback, thresholdUpdateCallback, cs:112-145 *)
| EReset.                             (* reset, md:44-49 *)
Definition vstep (s : dsys) (e : vevent) : option dsys :=
  let '(z, om) := s in
  match e with
  | EMap d redraw_all shown now => Some (if shown then updateMap redraw_all now z (Some d) else z, Some d)
  | EFrame f => prerender f s
  | EVisible b now =>
      let z' := Viz (z_drawn z) (z_queue z) (z_last z) (z_force z) b (z_term z) (z_sel z) in
      Some (if b then updateMap true now z' om
            else Viz [] (z_queue z') (z_last z') (z_force z') b (z_term z') (z_sel z'), om)
  | ETerm h => Some (Viz (z_drawn z) (z_queue z) (z_last z) true (z_visible z) h (z_sel z), om)
  | ESelect sel now =>
      Some (updateMap true now (Viz (z_drawn z) (z_queue z) (z_last z) (z_force z) (z_visible z) (z_term z) sel) om, om)
  | EReset => Some (Viz [] (z_queue z) (z_last z) (z_force z) (z_visible z) (z_term z) (z_sel z), om)
  end.
Fixpoint vrun (s : dsys) (l : list vevent) : option dsys :=
  match l with
  | [] => Some s
  | e :: l' => match vstep s e with Some s' => vrun s' l' | None => None end
  end.
(** Initial values: voxel_visual.h:103-147, vv:24-56; the clock starts at its epoch, 0 *)
Definition vinit (sel : selector) : dsys := (Viz [] [] 0 true true 0 sel, None).
End Viz.
Arguments VC {V}. Arguments vc_center {V}. Arguments vc_value {V}.
Arguments Layer {V}. Arguments ly_width {V}. Arguments ly_cells {V}.
Arguments Sel {V}. Arguments DM {V}. Arguments d_conf {V}. Arguments d_width {V}. Arguments d_blocks {V}.
Arguments z_drawn {V}. Arguments z_queue {V}. Arguments z_last {V}. Arguments z_force {V}.
Arguments z_visible {V}. Arguments z_term {V}. Arguments z_sel {V}. Arguments Viz {V}.
Arguments s_surface_mode {V}. Arguments s_surface {V}. Arguments s_band_min {V}. Arguments s_band_max {V}. Arguments s_unknown {V}.
Arguments EMap {V}. Arguments EFrame {V}. Arguments EVisible {V}. Arguments ETerm {V}. Arguments ESelect {V}. Arguments EReset {V}.
Arguments vinit {V}. Arguments currentLod {V}. Arguments lodBlock {V}. Arguments updateLOD {V}. Arguments updateMap {V}. Arguments drawLayers {V}. Arguments emplace {V}.
