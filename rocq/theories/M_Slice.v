(** The slice display and the cell colours of the RViz plugin. Paths are relative to /repo/interfaces/ros1/wavemap_rviz_plugin:
    sv: src/visuals/slice_visual.cc, svh: include/wavemap_rviz_plugin/visuals/slice_visual.h, cc: src/utils/color_conversions.cc,
    cch: include/wavemap_rviz_plugin/utils/color_conversions.h, md: src/wavemap_map_display.cc. Arithmetic is exact. *)
From Verif Require Import Base M_IntMath M_NdtreeIndex M_Num M_Ndtree M_Point.
From Coq Require Import QArith Qcanon Qround.
Close Scope Qc_scope. Close Scope Q_scope. Open Scope Z_scope.

(** ** Colours *)
(** red, green, blue; the alpha component is always 1 *)
Record rgb := RGB { cr : Q; cg : Q; cb : Q }.
(** scalarToColor, cch:30-44; [None]: division by zero *)
Definition scalarToColor (v lo hi : Qc) : option rgb :=
  if qeqb hi lo then None else let g := this ((v - lo) / (hi - lo))%Qc in Some (RGB g g g).
(** positionToColor, cc:7-68, in function of center_point.z(); kScaling = 0.2f and kOffset = -2.f are taken as 1/5 and -2 *)
Definition hue (z : Q) : Q := let h := ((1 # 5) * z + - (2))%Q in ((h - inject_Z (Qfloor h)) * 6)%Q.
Definition hueToColor (h : Q) : rgb :=
  let band_idx := Qfloor h in
  let f0 := (h - inject_Z band_idx)%Q in
  let f := if Z.eqb (Z.land band_idx 1) 0 then (1 - f0)%Q else f0 in
  let m := (1 * (1 - 1))%Q in
  let n := (1 * (1 - 1 * f))%Q in
  if (band_idx =? 6) || (band_idx =? 0) then RGB 1 n m
  else if band_idx =? 1 then RGB n 1 m
  else if band_idx =? 2 then RGB m 1 n
  else if band_idx =? 3 then RGB m n 1
  else if band_idx =? 4 then RGB n m 1
  else if band_idx =? 5 then RGB 1 m n
  else RGB 1 (1 # 2) (1 # 2).
Definition positionToColor (z : Q) : rgb := hueToColor (hue z).
(** SliceColorMode, svh:23-29, and the colour of a cell, sv:136-148. logOddsToColor (cch:9-21) is the grey value 1 - e^v / (1 + e^v); it is
    left symbolic here, see M_Prob.v. *)
Inductive color_mode := MProbability | MRaw.
Inductive colour := CProb (v : Qc) | CRaw (c : option rgb).
Definition colour_eq (a b : color_mode) : bool := match a, b with MProbability, MProbability | MRaw, MRaw => true | _, _ => false end.
Definition cellColor (mode : color_mode) (lo hi v : Qc) : colour :=
  match mode with MRaw => CRaw (scalarToColor v lo hi) | MProbability => CProb v end.

(** ** The visual *)
(** The user's settings, svh:84-89 *)
Record settings := Settings { t_visible : bool; t_lo : Qc; t_hi : Qc; t_height : Q; t_alpha : Q; t_mode : color_mode }.
(** Cell (include/.../visuals/cell_layer.h:19-23) and CellLayer: its dimensions, alpha and cells. *)
Record scell := SC { sc_x : Q; sc_y : Q; sc_z : Q; sc_color : colour }.
Record slayer := SL { l_width : Q; l_alpha : Q; l_cells : list scell }.
Record slice := Slice { s_set : settings; s_levels : list slayer }.
(** The shared map: its tree height, cell width and the result of forEachLeaf *)
Record smap := SM { m_T : Z; m_w : Q; m_leaves : list (oidx * Qc) }.

(** static_cast<IndexElement>(std::floor(slice_height / heightToCellWidth(w, h))), sv:100-102. [None]: the value does not fit into an
    int, the conversion is undefined. *)
Definition cutIndex (z w : Q) (h : Z) : option Z :=
  let i := Qfloor (z / heightToCellWidth w h) in if (- 2 ^ 31 <=? i) && (i <? 2 ^ 31) then Some i else None.
(** intersecting_indices, sv:94-103 *)
Fixpoint cutIndices (z w : Q) (n : nat) (h : Z) : option (list Z) :=
  match n with
  | O => Some []
  | S n' => match cutIndex z w h, cutIndices z w n' (h + 1) with Some i, Some l => Some (i :: l) | _, _ => None end
  end.
(** cells_per_level[h].emplace_back(x) *)
Fixpoint emplaceAt (h : nat) (x : scell) (l : list (list scell)) : list (list scell) :=
  match l, h with
  | [], _ => []
  | c :: l', O => (c ++ [x]) :: l'
  | c :: l', S h' => c :: emplaceAt h' x l'
  end.
(** The visitor, sv:107-149; [None]: an index outside of a vector, or a failed CHECK *)
Definition sliceLeaf (s : settings) (w : Q) (cuts : list Z) (iv : oidx * Qc) (cpl : list (list scell)) : option (list (list scell)) :=
  let '(i, v) := iv in
  if oh i <? 0 then None else
  match nth_error cuts (Z.to_nat (oh i)) with
  | None => None
  | Some cut =>
      if negb (pz (opos i) =? cut) then Some cpl
      else if qltb v (t_lo s) || qltb (t_hi s) v then Some cpl
      else let center := nodeIndexToCenterPoint (oni i) w in
           Some (emplaceAt (Z.to_nat (oh i)) (SC (nth 0 center 0%Q) (nth 1 center 0%Q) (t_height s) (cellColor (t_mode s) (t_lo s) (t_hi s) v)) cpl)
  end.
Definition sliceLeaves (s : settings) (w : Q) (cuts : list Z) (l : list (oidx * Qc)) (cpl : list (list scell)) : option (list (list scell)) :=
  fold_left (fun acc iv => match acc with Some a => sliceLeaf s w cuts iv a | None => None end) l (Some cpl).
(** The layers, sv:152-171: missing ones are created with the width of their level; the others keep theirs. *)
Fixpoint drawLevels (w alpha : Q) (h : Z) (cpl : list (list scell)) (ls : list slayer) : list slayer :=
  match cpl with
  | [] => ls
  | cells :: cpl' =>
      match ls with
      | [] => SL (heightToCellWidth w h) alpha cells :: drawLevels w alpha (h + 1) cpl' []
      | l :: ls' => SL (l_width l) (l_alpha l) cells :: drawLevels w alpha (h + 1) cpl' ls'
      end
  end.
(** update, sv:67-172, clear, svh:49 *)
Definition supdate (s : slice) (om : option smap) : option slice :=
  if negb (t_visible (s_set s)) then Some (Slice (s_set s) [])
  else match om with
       | None => Some s
       | Some m =>
           let n := Z.to_nat (m_T m + 1) in
           match cutIndices (t_height (s_set s)) (m_w m) n 0 with
           | None => None
           | Some cuts =>
               match sliceLeaves (s_set s) (m_w m) cuts (m_leaves m) (repeat [] n) with
               | None => None
               | Some cpl => Some (Slice (s_set s) (drawLevels (m_w m) (t_alpha (s_set s)) 0 cpl (s_levels s)))
               end
           end
       end.

(** ** Events *)
Inductive sevent :=
| SMap (m : smap) (shown : bool)   (* a new map; [shown] is false if processMessage returned before updateVisuals (md:102-108) *)
| SVisible (b : bool)              (* generalUpdateCallback, svh:59, for the properties connected to it, sv:21-35 *)
| SLimits (lo hi : Qc)
| SHeight (z : Q)
| SAlpha (a : Q)                   (* opacityUpdateCallback, sv:183-211 *)
| SMode (mode : color_mode)        (* colorModeUpdateCallback, sv:213-222 *)
| SReset.                          (* reset, md:44-49 *)
Definition sstep (s : slice * option smap) (e : sevent) : option (slice * option smap) :=
  let '(v, om) := s in
  let t := s_set v in
  let upd t' := option_map (fun v' => (v', om)) (supdate (Slice t' (s_levels v)) om) in
  match e with
  | SMap m true => option_map (fun v' => (v', Some m)) (supdate v (Some m))
  | SMap m false => Some (v, Some m)
  | SVisible b => upd (Settings b (t_lo t) (t_hi t) (t_height t) (t_alpha t) (t_mode t))
  | SLimits lo hi => upd (Settings (t_visible t) lo hi (t_height t) (t_alpha t) (t_mode t))
  | SHeight z => upd (Settings (t_visible t) (t_lo t) (t_hi t) z (t_alpha t) (t_mode t))
  | SAlpha a => Some (Slice (Settings (t_visible t) (t_lo t) (t_hi t) (t_height t) a (t_mode t))
                            (map (fun l => SL (l_width l) a (l_cells l)) (s_levels v)), om)
  | SMode mode =>
      let t' := Settings (t_visible t) (t_lo t) (t_hi t) (t_height t) (t_alpha t) mode in
      if colour_eq mode (t_mode t) then Some (Slice t' (s_levels v), om) else upd t'
  | SReset => Some (Slice t [], om)
  end.
Fixpoint srun (s : slice * option smap) (l : list sevent) : option (slice * option smap) :=
  match l with
  | [] => Some s
  | e :: l' => match sstep s e with Some s' => srun s' l' | None => None end
  end.
(** Initial values, sv:16-47, svh:64 *)
Definition sinit : slice * option smap :=
  (Slice (Settings false (Q2Qc (-1000000)) (Q2Qc 1000000) 0 1 MProbability) [], None).
