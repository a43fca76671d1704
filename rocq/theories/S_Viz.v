(** Specification vocabulary for the voxel display (C68) *)
From Verif Require Import Base M_NdtreeIndex M_Num M_Haar M_Haar3 M_Ndtree S_Field M_Wavelet F_Wavelet M_Octree F_Octree M_Viz.
From Coq Require Import QArith Qcanon Qcabs Permutation.
Close Scope Qc_scope. Close Scope Q_scope. Open Scope Z_scope.

Notation qconf := (wconfig (V := Qc)).
Notation qmap := (hmap (V := Qc)).
Notation qevent := (vevent (V := Qc)).

(** A map as it comes from a message or a file: block indices are distinct, no tree is higher than configured *)
Definition well_formed (C : qconf) (m : qmap) : Prop :=
  NoDup (map fst m) /\
  forall k b, getBlock m k = Some b -> forall q, valid_path q -> nlook q (wroot (btree b)) <> None -> Z.of_nat (length q) < cT C.
(** The events that can happen to a display whose maps all have the configuration C and cell width w. [om] and [t] are the map and the
    time so far. A block of a new map either is as it was, or has a time stamp later than all events so far. Termination heights
    are less than the height of the tree. *)
Fixpoint history (C : qconf) (w : Q) (om : option qmap) (t : Z) (l : list qevent) : Prop :=
  match l with
  | [] => True
  | e :: l' =>
      match e with
      | EMap d _ _ now =>
          t < now /\ d_conf d = C /\ d_width d = w /\ well_formed C (d_blocks d) /\
          (forall k b, getBlock (d_blocks d) k = Some b ->
             t < bstamp b <= now \/ exists m, om = Some m /\ getBlock m k = Some b) /\
          history C w (Some (d_blocks d)) now l'
      | EFrame f => (forall q, Permutation (f_order f q) q) /\ history C w om t l'
      | EVisible _ now | ESelect _ now => t < now /\ history C w om now l'
      | ETerm h => 0 <= h < cT C /\ history C w om t l'
      | EReset => history C w om t l'
      end
  end.
(** Since the last time that everything was scheduled to be redrawn, the display was not reset and, in surface mode, the map did not
    change. *)
Fixpoint tracked (surface_mode before : bool) (l : list qevent) : bool :=
  match l with
  | [] => before
  | EMap _ redraw_all shown _ :: l' => tracked surface_mode ((redraw_all && shown) || (before && negb surface_mode)) l'
  | EVisible true _ :: l' => tracked surface_mode true l'
  | ESelect s _ :: l' => tracked (s_surface_mode s) true l'
  | EReset :: l' => tracked surface_mode false l'
  | _ :: l' => tracked surface_mode before l'
  end.
(** The display was told about the last change of the map. *)
Fixpoint notified (before : bool) (l : list qevent) : bool :=
  match l with
  | [] => before
  | EMap _ _ shown _ :: l' => notified shown l'
  | EVisible true _ :: l' | ESelect _ _ :: l' => notified true l'
  | _ :: l' => notified before l'
  end.

(** The cubes that are displayed for a block: centre, side length, value *)
Definition cube := (list Q * Q * Qc)%type.
Definition cubes (z : viz (V := Qc)) (k : idx3) : list cube :=
  match getBlock (z_drawn z) k with
  | Some ls => flat_map (fun l => map (fun c => (vc_center c, ly_width l, vc_value c)) (ly_cells l)) ls
  | None => []
  end.
(** The centre of a smallest cell; a point lies in a cube *)
Definition cell_center (w : Q) (c : idx3) : list Q := map (fun x => ((inject_Z x + (1 # 2)) * w)%Q) [px c; py c; pz c].
Definition in_cube (q : cube) (p : list Q) : Prop :=
  let '(ctr, side, _) := q in Forall2 (fun x y => (y - side / 2 <= x /\ x <= y + side / 2)%Q) p ctr.
(** Exactly one cube of the list contains the point, and it has the given side and value; none contains it *)
Definition one_cube (l : list cube) (p : list Q) (side : Q) (v : Qc) : Prop :=
  exists l1 ctr l2, l = l1 ++ (ctr, side, v) :: l2 /\ in_cube (ctr, side, v) p /\ forall q, In q (l1 ++ l2) -> ~ in_cube q p.
Definition no_cube (l : list cube) (p : list Q) : Prop := forall q, In q l -> ~ in_cube q p.

(** Nodes *)
Definition node_at (h : Z) (c : idx3) : oidx := OI h (I3 (px c / 2 ^ h) (py c / 2 ^ h) (pz c / 2 ^ h)).
(** The cells to draw. In band mode: observed cells with a value in the band. In surface mode: observed cells that are not free and
    one of whose 26 neighbours of the same size is observed and free. *)
Definition observed (s : selector) (v : Qc) : Prop := (s_unknown s <= Qcabs v)%Qc.
Definition in_band (s : selector) (v : Qc) : Prop := observed s v /\ (s_band_min s <= v)%Qc /\ (v <= s_band_max s)%Qc.
Definition on_surface (f : field) (s : selector) (i : oidx) (v : Qc) : Prop :=
  observed s v /\ (s_surface s <= v)%Qc /\
  exists dx dy dz, -1 <= dx <= 1 /\ -1 <= dy <= 1 /\ -1 <= dz <= 1 /\ (dx, dy, dz) <> (0, 0, 0) /\
    let u := node_mean f (OI (oh i) (I3 (px (opos i) + dx) (py (opos i) + dy) (pz (opos i) + dz))) in
    observed s u /\ (u < s_surface s)%Qc.
Definition to_draw (f : field) (s : selector) (i : oidx) (v : Qc) : Prop :=
  if s_surface_mode s then on_surface f s i v else in_band s v.
(** The block [b] at index [k] is displayed at resolution [h]: unless the block counts as empty, every cell of the block belongs to a node of height at least h with the value that
    the map has at height h; one cube is displayed there, that of the node, if the node is to be drawn, and none otherwise. *)
Definition displayed (C : qconf) (w : Q) (m : qmap) (z : viz (V := Qc)) (k : idx3) (b : wblock) (h : Z) : Prop :=
  (wb_empty qn b = true -> cubes z k = []) /\
  (wb_empty qn b = false -> forall c, node_at (cT C) c = OI (cT C) k ->
     exists H, h <= H < cT C /\
       let f := hw_get qn C m in
       let v := node_mean f (node_at h c) in
       (to_draw f (z_sel z) (node_at H c) v -> one_cube (cubes z k) (cell_center w c) (w * inject_Z (2 ^ H)%Z)%Q v) /\
       (~ to_draw f (z_sel z) (node_at H c) v -> no_cube (cubes z k) (cell_center w c))) /\
  (forall c, node_at (cT C) c <> OI (cT C) k -> no_cube (cubes z k) (cell_center w c)).
