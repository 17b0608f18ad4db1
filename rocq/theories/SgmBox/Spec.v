(* Vocabulary of the statements about search boxes. *)
From Coq Require Import ZArith List Bool.
From Verif Require Import Lib.Base ImgMem.Model Lib.Img Sgm.Model Sgm.Spec.
Import ListNotations.
Local Open Scope Z_scope.

Definition maxl (v : Z) (l : list Z) : Z := fold_right Z.max v l.
Definition nothing : box := Box 0 0 (-1) (-1).
Definition same_box (a b : box) : bool :=
  (bx0 a =? bx0 b) && (by0 a =? by0 b) && (bx1 a =? bx1 b) && (by1 a =? by1 b).
(* a box with at least one disparity *)
Definition filled (b : box) : Prop := bx0 b <= bx1 b /\ by0 b <= by1 b.
Definition meet (a b : box) : box :=
  Box (Z.max (bx0 a) (bx0 b)) (Z.max (by0 a) (by0 b)) (Z.min (bx1 a) (bx1 b)) (Z.min (by1 a) (by1 b)).

(* The prior disparity of a pixel: the one of the image of half the size, doubled. *)
Definition prior_at (prev : option (img (option (Z * Z)))) (c r : Z) : option (Z * Z) :=
  match prev with
  | None => None
  | Some p => if insideb p (c / 2) (r / 2)
              then match pix p (c / 2) (r / 2) with Some (dx, dy) => Some (2 * dx, 2 * dy) | None => None end
              else None
  end.
(* Values at or beyond the ends of a range of ten or more are not trusted. *)
Definition at_end (lo hi v : Z) : bool := (10 <=? hi - lo + 1) && ((v <=? lo) || (hi <=? v)).
Definition trusted (g : sgm) prev (c r : Z) : option (Z * Z) :=
  match prior_at prev c r with
  | Some d => if at_end (mnx g) (mxx g) (fst d) || at_end (mny g) (mxy g) (snd d) then None else Some d
  | None => None
  end.
(* The box before the masks are looked at. *)
Definition guess_box (g : sgm) (sbx sby : Z) prev (c r : Z) : box :=
  match trusted g prev c r with
  | Some (dx, dy) => meet (Box (dx - sbx) (dy - sby) (dx + sbx) (dy + sby)) (range g)
  | None => range g
  end.

(* The left mask is off at a pixel. *)
Definition masked (lm : option (img Z)) (c r : Z) : bool :=
  match lm with Some m => pix m c r =? 0 | None => false end.
Definition on (m : img Z) (x y : Z) : bool := 0 <? pix m x y.
(* Rows of the right mask with a valid pixel among the first w columns; columns
   with a valid pixel in row r, other than the first one. *)
Definition rows_on (m : img Z) (w : Z) : list Z :=
  filter (fun y => existsb (fun x => on m x y) (zrange 0 w)) (zrange 0 (irows m)).
Definition row_limits (m : img Z) (w : Z) : Z * Z := (minl (irows m - 1) (rows_on m w), maxl 0 (rows_on m w)).
Definition cols_on (m : img Z) (r a : Z) : list Z := filter (fun x => on m x r) (zrange a (icols m)).
Definition col_limits (m : img Z) (r : Z) : Z * Z :=
  match cols_on m r 1 with
  | [] => (-1, -2)
  | l => (minl (icols m - 1) (cols_on m r 0), maxl 0 l)
  end.
(* The limits as disparities of pixel (c,r).  A region of one row or one column is
   not moved. *)
Definition limit_box (cols rows : Z * Z) (c r : Z) : box :=
  if (fst cols <? snd cols) && (fst rows <? snd rows)
  then Box (fst cols - c) (fst rows - r) (snd cols - c) (snd rows - r)
  else Box (fst cols) (fst rows) (snd cols) (snd rows).
Definition filledb (b : box) : bool := (bx0 b <=? bx1 b) && (by0 b <=? by1 b).

(* The first box of a pixel, and whether it came without a trusted prior. *)
Definition first_box (g : sgm) (sbx sby : Z) prev (lm rm : option (img Z)) (c r : Z) : box :=
  let b := guess_box g sbx sby prev c r in
  if masked lm c r then nothing
  else match rm with
       | None => b
       | Some m =>
           let o := meet (limit_box (col_limits m r) (row_limits m (ocols g)) c r) b in
           if filledb o then o else nothing
       end.
Definition open_pixel (g : sgm) (sbx sby : Z) prev (lm rm : option (img Z)) (c r : Z) : bool :=
  negb (masked lm c r) &&
  match trusted g prev c r with Some _ => false | None => true end &&
  match rm with
  | None => true
  | Some m => filledb (meet (limit_box (col_limits m r) (row_limits m (ocols g)) c r) (range g))
  end.

(* The boxes of the pixels around (c,r) with a trusted prior, and the smallest box
   around them. *)
Definition reach (level : Z) : Z := nth (Z.to_nat level) [10; 25; 3; 0] 10.
Definition near_boxes (w h : Z) (first : Z -> Z -> box) (open : Z -> Z -> bool) (n c r : Z) : list box :=
  flat_map (fun y => flat_map (fun x =>
      if open x y || same_box (first x y) nothing then [] else [first x y])
    (zrange (Z.max 0 (c - n)) (Z.min (w - 1) (c + n) + 1)))
    (zrange (Z.max 0 (r - n)) (Z.min (h - 1) (r + n) + 1)).
Definition hull (bs : list box) : box :=
  Box (minl 2147483646 (flat_map (fun b => [bx0 b; bx1 b]) bs)) (minl 2147483646 (flat_map (fun b => [by0 b; by1 b]) bs))
      (maxl (-2147483646) (flat_map (fun b => [bx0 b; bx1 b]) bs)) (maxl (-2147483646) (flat_map (fun b => [by0 b; by1 b]) bs)).
Definition grown (b : box) : box := Box (bx0 b - 2) (by0 b - 2) (bx1 b + 2) (by1 b + 2).
(* A hull of one row or one column counts as none. *)
Definition thin (b : box) : bool := (bx1 b <=? bx0 b) || (by1 b <=? by0 b).
Definition last_box (g : sgm) (sbx sby : Z) prev lm rm (level c r : Z) : box :=
  let first := first_box g sbx sby prev lm rm in
  let open := open_pixel g sbx sby prev lm rm in
  match prev with
  | None => first c r
  | Some _ =>
      if open c r
      then let u := hull (near_boxes (ocols g) (orows g) first open (reach level) c r) in
           if thin u then (if 0 <? level then nothing else first c r)
           else meet (grown u) (range g)
      else first c r
  end.

Definition boxes_of (g : sgm) (f : Z -> Z -> box) (m : img box) : Prop :=
  icols m = ocols g /\ irows m = orows g /\ forall c r, inside m c r -> pix m c r = f c r.
Definition mask_fits (g : sgm) (lm rm : option (img Z)) : Prop :=
  match lm with Some m => icols m = ocols g /\ irows m = orows g | None => True end /\
  match rm with
  | Some m => ocols g + (mxx g - mnx g) <= icols m /\ orows g + (mxy g - mny g) <= irows m
  | None => True
  end.

(* The square window of half width k around a pixel lies in an image. *)
Definition window_inside (k w h x y : Z) : Prop := k <= x < w - k /\ k <= y < h - k.
(* Every trusted prior has a disparity of the range within the search buffer. *)
Definition priors_reach (g : sgm) (sbx sby : Z) prev : Prop :=
  forall c r d, trusted g prev c r = Some d ->
  exists e, in_box (range g) e /\ Z.abs (fst e - fst d) <= sbx /\ Z.abs (snd e - snd d) <= sby.
Definition small_range (g : sgm) : Prop :=
  -2147483646 <= mnx g /\ mxx g <= 2147483646 /\ -2147483646 <= mny g /\ mxy g <= 2147483646.
(* lo and hi are the first and the last of the numbers with property P. *)
Definition ends (P : Z -> Prop) (lo hi : Z) : Prop := P lo /\ P hi /\ forall i, P i -> lo <= i <= hi.
(* Chebyshev distance of two pixels *)
Definition apart (c r i j : Z) : Z := Z.max (Z.abs (i - c)) (Z.abs (j - r)).
Definition with_boxes (g : sgm) (bn : img box) : sgm :=
  Sgm (mnx g) (mny g) (mxx g) (mxy g) (p1 g) (p2 g) (ocols g) (orows g) (mincol g) (minrow g) bn.
