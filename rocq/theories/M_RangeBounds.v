(** HierarchicalRangeBounds: image pyramids with lower and upper bounds on the measured range. Files, under
    /repo/library/cpp/include/wavemap/core/: "h" = integrator/projective/coarse_to_fine/hierarchical_range_bounds.h,
    "inl" = .../impl/hierarchical_range_bounds_inl.h, "im" = data_structure/image.h. Floats are rationals, int is
    unbounded except for the bit width of log2. Pixels are (row, column) = (x, y). *)
From Verif Require Import Base M_IntMath M_Image.
From Coq Require Import QArith Qround Qabs Qminmax.
Close Scope Q_scope.
Open Scope Z_scope.

(** Image, im:13-85: the number of rows and of columns, and the pixels *)
Record img (T : Type) := Img { im_rows : Z; im_cols : Z; im_px : Z -> Z -> T }.
Arguments Img {T}. Arguments im_rows {T}. Arguments im_cols {T}. Arguments im_px {T}.
(** at(), im:59-70; [None]: out of bounds *)
Definition at_px {T} (im : img T) (i : i2) : option T :=
  if (0 <=? fst i) && (fst i <? im_rows im) && (0 <=? snd i) && (snd i <? im_cols im) then Some (im_px im (fst i) (snd i)) else None.
(** transform(), im:72-78 *)
Definition transform {T U} (f : T -> U) (im : img T) : img U := Img (im_rows im) (im_cols im) (fun x y => f (im_px im x y)).

(** computeImageToPyramidScaleFactor, inl:281-291, for a projection model with linear index to image conversion
    (indexToImage, see M_Image.v); the cast to int truncates a positive number *)
Definition scale_factor (P : option projector) : i2 :=
  match P with
  | None => (1, 1)
  | Some P =>
      let dx := Qabs (fst (indexToImage P (1, 1)) - fst (indexToImage P (0, 0))) in
      let dy := Qabs (snd (indexToImage P (1, 1)) - snd (indexToImage P (0, 0))) in
      let m := if qltb dy dx then dy else dx in
      let f d := let r := (d / m)%Q in Qfloor (if qltb 2 r then 2%Q else r) in
      (f dx, f dy)
  end.

Section PYRAMID.
Context {T : Type} (red : T -> T -> T) (init : T).
(** [wraps]: azimuth_wraps_pi_; [s]: image_to_pyramid_scale_factor_ *)
Context (wraps : bool) (s : i2).

(** The value of one pixel of a level, inl:331-375, from the previous level and the indices of its children. Each
    access to the previous level is guarded by a comparison with its dimensions. *)
Definition reduce4 (prev : img T) (mn mx : i2) : T :=
  let p := im_px prev in
  if (fst mn <? im_rows prev) && (snd mn <? im_cols prev) then
    let r00 := p (fst mn) (snd mn) in
    if fst mx <? im_rows prev then
      let first_col := red r00 (p (fst mx) (snd mn)) in
      if snd mx <? im_cols prev then red first_col (red (p (fst mn) (snd mx)) (p (fst mx) (snd mx)))
      else if wraps && (snd mx <=? im_cols prev) then red first_col (red (p (fst mn) 0) (p (fst mx) 0))
      else red first_col init
    else if snd mx <? im_cols prev then red (red r00 (p (fst mn) (snd mx))) init
    else if wraps && (snd mx <=? im_cols prev) then red (red r00 (p (fst mn) 0)) init
    else red r00 init
  else init.

(** One level, inl:309-330; [dx], [dy] are range_image_dims_scaled, [k] is level_idx *)
Definition level (dx dy k : Z) (prev : img T) : img T :=
  Img (div_exp2_ceil dx (k + 1)) (div_exp2_ceil dy (k + 1))
    (fun x y =>
       let mn := (2 * x, 2 * y) in
       let mx := (2 * x + 1, 2 * y + 1) in
       if k =? 0
       then reduce4 prev (Z.quot (fst mn) (fst s), Z.quot (snd mn) (snd s)) (Z.quot (fst mx) (fst s), Z.quot (snd mx) (snd s))
       else reduce4 prev mn mx).
Fixpoint levels_loop (n : nat) (dx dy k : Z) (prev : img T) : list (img T) :=
  match n with
  | O => []
  | S n' => let cur := level dx dy k prev in cur :: levels_loop n' dx dy (k + 1) cur
  end.
(** computeReducedPyramid, inl:293-379. [None]: the CHECK of line 296 fails or log2_ceil is undefined. *)
Definition computeReducedPyramid (im : img T) : option (list (img T)) :=
  if negb wraps || negb (popcount 32 (im_cols im) =? 0) then
    let dx := fst s * im_rows im in
    let dy := snd s * im_cols im in
    option_map (fun n => levels_loop (Z.to_nat n) dx dy 0 im) (log2_ceil true 32 (Z.max dx dy))
  else None.

(** The common structure of getBounds(min, max), inl:35-164, and hasUnobserved(min, max), inl:166-255: [im] is the range
    image after valueOrInit or isUnobserved, [lv] its pyramid. [None]: an image or the vector of levels is accessed out of
    bounds, log2_floor is undefined, or a DCHECK fails. *)
Definition at_level (lv : list (img T)) (k : Z) (i : i2) : option T :=
  if k <? 0 then None else match nth_error lv (Z.to_nat k) with Some im => at_px im i | None => None end.
Definition red2 (a b : option T) : option T := match a, b with Some a, Some b => Some (red a b) | _, _ => None end.
Definition query (im : img T) (lv : list (img T)) (mn mx : i2) : option T :=
  if i2_eqb mn mx then at_px im mn else
  let mxu := (fst mx, if wraps && (snd mx <? snd mn) then snd mx + im_cols im else snd mx) in
  if negb ((fst mn <=? fst mxu) && (snd mn <=? snd mxu)) then None else
  let mul i := (fst s * fst i, snd s * snd i) : i2 in
  let mns := mul mn in let mxs := mul mx in let mxus := mul mxu in
  let max_idx_diff := Z.max (fst mxus - fst mns) (snd mxus - snd mns) in
  match (if max_idx_diff =? 0 then Some 0 else log2_floor true 32 max_idx_diff) with
  | None => None
  | Some l =>
      let up i k := (div_exp2_floor (fst i) k, div_exp2_floor (snd i) k) : i2 in
      let minc := up mns l in let maxc := up mxs l in let maxcu := up mxus l in
      let minp := up minc 1 in let maxp := up maxc 1 in let maxpu := up maxcu 1 in
      let four at_ (a b : i2) :=
        red2 (red2 (red2 (at_ a) (at_ (fst a, snd b))) (at_ (fst b, snd a))) (at_ b) in
      if (Z.abs (fst maxcu - fst minc) <=? 1) && (Z.abs (snd maxcu - snd minc) <=? 1) then
        if i2_eqb minc maxcu then None
        else if (fst minc =? fst maxcu) || (snd minc =? snd maxcu) then
          if l =? 0 then red2 (at_px im mn) (at_px im mx)
          else red2 (at_level lv (l - 1) minc) (at_level lv (l - 1) maxc)
        else if i2_eqb minp maxpu then at_level lv l minp
        else if l =? 0 then four (at_px im) mn mx
        else four (at_level lv (l - 1)) minc maxc
      else four (at_level lv l) minp maxp
  end.
(** getBounds(QuadtreeIndex) and hasUnobserved(QuadtreeIndex), inl:11-33, for heights above 0 *)
Definition node_query (lv : list (img T)) (h : Z) (i : i2) : option T := at_level lv (h - 1) i.
End PYRAMID.

(** std::min and std::max of two floats *)
Definition qmin (a b : Q) : Q := if qltb b a then b else a.
Definition qmax (a b : Q) : Q := if qltb a b then b else a.

Section BOUNDS.
(** The members, h:89-116; the projection model only determines the scale factor *)
Context (im : img Q) (min_range : Q) (wraps : bool) (s : i2).
(** kUnknownValueLowerBound, kUnknownValueUpperBound, h:86-87; isUnobserved, valueOrInit, h:121-140 *)
Definition kUnknownLower : Q := 10000.
Definition kUnknownUpper : Q := 0.
Definition px_unobserved (v : Q) : bool := qltb v min_range.
Definition valueOrInit (init v : Q) : Q := if px_unobserved v then init else v.
(** The images the pyramids are made of, and the pyramids, h:100-116 *)
Definition lower_img := transform (valueOrInit kUnknownLower) im.
Definition upper_img := transform (valueOrInit kUnknownUpper) im.
Definition mask_img := transform px_unobserved im.
Definition lower_levels := computeReducedPyramid qmin kUnknownLower wraps s lower_img.
Definition upper_levels := computeReducedPyramid qmax kUnknownUpper wraps s upper_img.
Definition mask_levels := computeReducedPyramid orb true wraps s mask_img.
Definition obind {A B} (o : option A) (f : A -> option B) : option B := match o with Some a => f a | None => None end.
Definition getLowerBound (mn mx : i2) : option Q := obind lower_levels (fun lv => query qmin wraps s lower_img lv mn mx).
Definition getUpperBound (mn mx : i2) : option Q := obind upper_levels (fun lv => query qmax wraps s upper_img lv mn mx).
(** getBounds(min_image_idx, max_image_idx), inl:35-164: (lower, upper) *)
Definition getBounds (mn mx : i2) : option (Q * Q) :=
  match getLowerBound mn mx, getUpperBound mn mx with Some l, Some u => Some (l, u) | _, _ => None end.
(** hasUnobserved(min_image_idx, max_image_idx), inl:166-255 *)
Definition hasUnobserved (mn mx : i2) : option bool := obind mask_levels (fun lv => query orb wraps s mask_img lv mn mx).
(** getBounds(QuadtreeIndex), hasUnobserved(QuadtreeIndex), inl:11-33 *)
Definition getNodeBounds (h : Z) (i : i2) : option (Q * Q) :=
  if h =? 0 then option_map (fun v => (v, v)) (at_px im i)
  else match obind lower_levels (fun lv => node_query lv h i), obind upper_levels (fun lv => node_query lv h i) with
       | Some l, Some u => Some (l, u)
       | _, _ => None
       end.
Definition nodeHasUnobserved (h : Z) (i : i2) : option bool :=
  if h =? 0 then option_map px_unobserved (at_px im i) else obind mask_levels (fun lv => node_query lv h i).

(** UpdateType, integrator/projective/update_type.h:13-18 *)
Inductive update_type := kFullyUnobserved | kFullyFree | kFreeOrUnobserved | kPossiblyOccupied.
(** getUpdateType, inl:257-279 *)
Definition getUpdateType (mn mx : i2) (range_min range_max : Q) : option update_type :=
  let mnc := (Z.max (fst mn) 0, Z.max (snd mn) 0) in
  let mxc := (Z.min (fst mx) (im_rows im - 1), Z.min (snd mx) (im_cols im - 1)) in
  match getBounds mnc mxc with
  | None => None
  | Some (lo, hi) =>
      if qltb hi range_min then Some kFullyUnobserved
      else if qltb range_max lo then
        if negb (i2_eqb mn mnc) || negb (i2_eqb mx mxc) then Some kFreeOrUnobserved
        else match hasUnobserved mnc mxc with
             | None => None
             | Some true => Some kFreeOrUnobserved
             | Some false => Some kFullyFree
             end
      else Some kPossiblyOccupied
  end.
End BOUNDS.
