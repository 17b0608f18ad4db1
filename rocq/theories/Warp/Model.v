(** Interpolation, coordinate transforms and transformed images
    (src/vw/Image/Interpolation.h, src/vw/Image/Transform.h,
    src/vw/Math/Transform.h).

    Coordinates and channel values are exact rationals, pixel indices unbounded
    integers: rounding of doubles and the range of int32 are left out.  A pixel
    has one channel and a flag of validity; a pixel type without a mask is the
    case where every flag is true.  Images have one plane. *)
From Coq Require Import List Bool ZArith QArith Qround.
From Verif Require Import Lib.Base Lib.Img BBox.Model BBox.Box2.
Import ListNotations.
Local Open Scope Q_scope.

Definition ltq (a b : Q) : bool := negb (Qle_bool b a).

(** ** Pixels *)

(* PixelMask.h:48-57 *)
Definition px : Type := (bool * Q)%type.
(* PixelMask.h:321-345 and 410-428: the sum of two masked pixels, also in place *)
Definition padd (a b : px) : px := (fst a && fst b, snd a + snd b).
(* PixelMask.h:499-520: a masked pixel times a number, also in place (586-606) *)
Definition pscale (s : Q) (a : px) : px := (fst a, s * snd a).

(* The channel types: floating point, or integer with its limits. *)
Inductive chan := Real | Int (lo hi : Z).

(* Math/Functions.h:48-51 _round: half a unit is added away from zero, then the
   fraction is dropped *)
Definition round_away (q : Q) : Z :=
  if ltq q 0 then Qceiling (q - (1 # 2)) else Qfloor (q + (1 # 2)).

(* PixelTypeInfo.h:332-356 channel_cast_round_if_int.  A value outside the type
   would wrap: recorded as an overflow. *)
Definition cast_round (c : chan) (p : px) : res px :=
  match c with
  | Real => Ok p
  | Int lo hi =>
      let r := round_away (snd p) in
      if (lo <=? r)%Z && (r <=? hi)%Z then Ok (fst p, inject_Z r) else UB Overflow
  end.

(* PixelTypeInfo.h:358-384 channel_cast_round_and_clamp_if_int *)
Definition cast_clamp (c : chan) (p : px) : res px :=
  match c with
  | Real => Ok p
  | Int lo hi =>
      if ltq (inject_Z hi) (snd p) then Ok (fst p, inject_Z hi)
      else if ltq (snd p) (inject_Z lo) then Ok (fst p, inject_Z lo)
      else cast_round c p
  end.

(** ** Interpolation *)

(* The image below an interpolation, read at whole pixels. *)
Definition view := Z -> Z -> res px.

(* Interpolation.h:75-110 BilinearInterpolationImpl; _floor (Functions.h:74-81)
   is the mathematical floor *)
Definition bilinear (c : chan) (v : view) (i j : Q) : res px :=
  let x := Qfloor i in let y := Qfloor j in
  if Qeq_bool (inject_Z x) i && Qeq_bool (inject_Z y) j then
    p <- v x y ;; cast_round c p
  else
    let normx := i - inject_Z x in let normy := j - inject_Z y in
    let norm1mx := 1 - normx in let norm1my := 1 - normy in
    a <- v x y ;;
    let result := pscale norm1mx a in
    b <- v (x + 1)%Z y ;;
    let result := padd result (pscale normx b) in
    let result := pscale norm1my result in
    a' <- v x (y + 1)%Z ;;
    let row := pscale norm1mx a' in
    b' <- v (x + 1)%Z (y + 1)%Z ;;
    let row := padd row (pscale normx b') in
    cast_round c (padd result (pscale normy row)).

(* Interpolation.h:155-158: the four weights along one axis *)
Definition weight0 (n : Q) : Q := ((2 - n) * n - 1) * n.
Definition weight1 (n : Q) : Q := (3 * n - 5) * n * n + 2.
Definition weight2 (n : Q) : Q := ((4 - 3 * n) * n + 1) * n.
Definition weight3 (n : Q) : Q := (n - 1) * n * n.

(* Interpolation.h:160-164: one row of four pixels from (x,y) on *)
Definition cubic_row (v : view) (n : Q) (x y : Z) : res px :=
  a <- v x y ;;
  let row := pscale (weight0 n) a in
  b <- v (x + 1)%Z y ;;
  let row := padd row (pscale (weight1 n) b) in
  d <- v (x + 2)%Z y ;;
  let row := padd row (pscale (weight2 n) d) in
  e <- v (x + 3)%Z y ;;
  Ok (padd row (pscale (weight3 n) e)).

(* Interpolation.h:136-185 BicubicInterpolationImpl *)
Definition bicubic (c : chan) (v : view) (i j : Q) : res px :=
  let x := Qfloor i in let y := Qfloor j in
  if Qeq_bool (inject_Z x) i && Qeq_bool (inject_Z y) j then
    p <- v x y ;; cast_clamp c p
  else
    let normx := i - inject_Z x in let normy := j - inject_Z y in
    row <- cubic_row v normx (x - 1)%Z (y - 1)%Z ;;
    let result := pscale (weight0 normy) row in
    row <- cubic_row v normx (x - 1)%Z y ;;
    let result := padd result (pscale (weight1 normy) row) in
    row <- cubic_row v normx (x - 1)%Z (y + 1)%Z ;;
    let result := padd result (pscale (weight2 normy) row) in
    row <- cubic_row v normx (x - 1)%Z (y + 2)%Z ;;
    let result := padd result (pscale (weight3 normy) row) in
    cast_clamp c (pscale (1 # 4) result).

(* Interpolation.h:209-224 NearestPixelInterpolation *)
Definition nearest (v : view) (i j : Q) : res px := v (round_away i) (round_away j).

Inductive interpolation := Nearest | Bilinear | Bicubic.

(* Interpolation.h:114, 190, 211: pixel_buffer *)
Definition pixel_buffer (k : interpolation) : Z :=
  match k with Nearest => 1 | Bilinear => 1 | Bicubic => 2 end.

(* Interpolation.h:258 InterpolationView::operator() *)
Definition interpolate (k : interpolation) (c : chan) (v : view) (i j : Q) : res px :=
  match k with
  | Nearest => nearest v i j
  | Bilinear => bilinear c v i j
  | Bicubic => bicubic c v i j
  end.

(* Interpolation.h:277-283: the pixels of the region [r] of the image are copied
   to a buffer, which is then read with the offset of the region taken off
   (CropView.h: the corner of the crop is added) *)
Definition copied (f : Z -> Z -> px) (r : box) : view :=
  let buf := Img (bw r) (bh r) (fun i j => f (i + x0 r)%Z (j + y0 r)%Z) in
  fun x y => get buf (- x0 r + x) (- y0 r + y).

(* Interpolation.h:285-292 InterpolationView::prerasterize over an image with an
   edge extension, which has a pixel everywhere (Edge/) *)
Definition interpolation_prerasterize (k : interpolation) (f : Z -> Z -> px) (b : box) : view :=
  let padded_width := (bw b + 2 * pixel_buffer k)%Z in
  let padded_height := (bh b + 2 * pixel_buffer k)%Z in
  copied f (box_of (x0 b - pixel_buffer k) (y0 b - pixel_buffer k) padded_width padded_height).

(** ** Boxes of transformed points *)

Definition pt : Type := (Q * Q)%type.

(* BBox2: a box of rationals *)
Record qbox := QB { qx0 : Q; qy0 : Q; qx1 : Q; qy1 : Q }.
(* BBox.tcc:36-44 *)
Definition qdefault : qbox :=
  let big := inject_Z (i32_max - 1) in QB big big (- big) (- big).
(* BBox.tcc:80-97 grow by a point *)
Definition qgrow (b : qbox) (p : pt) : qbox :=
  let x1' := if ltq (qx1 b) (fst p) then fst p else qx1 b in
  let x0' := if ltq (fst p) (qx0 b) then fst p else qx0 b in
  let y1' := if ltq (qy1 b) (snd p) then snd p else qy1 b in
  let y0' := if ltq (snd p) (qy0 b) then snd p else qy0 b in
  QB x0' y0' x1' y1'.
Definition qgrow_all (b : qbox) (l : list pt) : qbox := fold_left qgrow l b.
(* BBox.tcc:365-389 grow_bbox_to_int; the two coordinates are independent of
   each other except for the test of emptiness *)
Definition qgrow_to_int (b : qbox) : box :=
  if ltq (qx1 b) (qx0 b) then box_default
  else if ltq (qy1 b) (qy0 b) then box_default
  else Box (Qfloor (qx0 b)) (Qfloor (qy0 b)) (Qfloor (qx1 b) + 1) (Qfloor (qy1 b) + 1).

(* Math/Transform.h:35-39 *)
Inductive ftype := Convex | Continuous | Discontinuous.

Definition at_pix (x y : Z) : pt := (inject_Z x, inject_Z y).

(* The points visited by forward_bbox and reverse_bbox, in order:
   Math/Transform.h:151-156 = 182-187, 157-166 = 188-197, 167-171 = 198-202 *)
Definition visited (ty : ftype) (b : box) : list pt :=
  match ty with
  | Convex => [at_pix (x0 b) (y0 b); at_pix (x1 b - 1) (y0 b); at_pix (x0 b) (y1 b - 1); at_pix (x1 b - 1) (y1 b - 1)]
  | Continuous =>
      flat_map (fun x => [at_pix x (y0 b); at_pix x (y1 b - 1)]) (zrange (x0 b) (x1 b)) ++
      flat_map (fun y => [at_pix (x0 b) y; at_pix (x1 b - 1) y]) (zrange (y0 b + 1) (y1 b - 1))
  | Discontinuous => flat_map (fun y => map (fun x => at_pix x y) (zrange (x0 b) (x1 b))) (zrange (y0 b) (y1 b))
  end.

(* Math/Transform.h:145-174 and 176-205; the box returned for an empty argument
   is the empty one converted to integers *)
Definition mapped_bbox (ty : ftype) (f : pt -> pt) (b : box) : box :=
  if bempty b then box_default
  else qgrow_to_int (qgrow_all qdefault (map f (visited ty b))).

(* Image/Transform.h:238-260 compute_transformed_bbox: all the pixels, column by
   column.  The box is of floats, taken as exact; the warnings are left out. *)
Definition compute_transformed_bbox (w h : Z) (f : pt -> pt) : qbox :=
  qgrow_all qdefault (map f (flat_map (fun x => map (fun y => at_pix x y) (zrange 0 h)) (zrange 0 w))).
(* Image/Transform.h:271-315 compute_transformed_bbox_fast *)
Definition compute_transformed_bbox_fast (r : box) (f : pt -> pt) : qbox :=
  let b := qgrow_all qdefault (map f (map (fun x => at_pix x (y0 r)) (zrange (x0 r) (x1 r)))) in
  let b := qgrow_all b (map f (map (fun x => at_pix x (y1 r - 1)) (zrange (x0 r) (x1 r)))) in
  let b := qgrow_all b (map f (map (fun y => at_pix (x0 r) y) (zrange (y0 r) (y1 r)))) in
  qgrow_all b (map f (map (fun y => at_pix (x1 r - 1) y) (zrange (y0 r) (y1 r)))).

(** ** Transforms *)

(* Math/Transform.h:46-127: what a transform offers.  The search of an inverse
   by least squares (92-99) is left out: each transform has both directions. *)
Record transform := Tx { forward : pt -> pt; reverse : pt -> pt; forward_type : ftype; reverse_type : ftype; tolerance : Q }.
Definition forward_bbox (t : transform) : box -> box := mapped_bbox (forward_type t) (forward t).
Definition reverse_bbox (t : transform) : box -> box := mapped_bbox (reverse_type t) (reverse t).
(* Math/Transform.h:122 *)
Definition set_tolerance (t : transform) (tol : Q) : transform :=
  Tx (forward t) (reverse t) (forward_type t) (reverse_type t) tol.

(* Math/Transform.h:231-237 *)
Definition identity_tx : transform := Tx (fun p => p) (fun p => p) Convex Convex 0.
(* Math/Transform.h:242-263 *)
Definition resample_tx (xf yf : Q) : transform :=
  Tx (fun p => (fst p * xf, snd p * yf)) (fun p => (fst p / xf, snd p / yf)) Convex Convex 0.
(* Math/Transform.h:267-288 *)
Definition translate_tx (xt yt : Q) : transform :=
  Tx (fun p => (fst p + xt, snd p + yt)) (fun p => (fst p - xt, snd p - yt)) Convex Convex 0.

(* 2 x 2 matrices by rows *)
Record mat2 := M2 { ma : Q; mb : Q; mc : Q; md : Q }.
(* Matrix.h:2208-2216 inverse of a 2 x 2 matrix *)
Definition inverse2 (m : mat2) : res mat2 :=
  let det := ma m * md m - mb m * mc m in
  if Qeq_bool det 0 then Throw OtherErr
  else Ok (M2 (md m / det) (- mb m / det) (- mc m / det) (ma m / det)).
Definition mulv (m : mat2) (p : pt) : pt := (ma m * fst p + mb m * snd p, mc m * fst p + md m * snd p).

(* Math/Transform.h:292-307 *)
Definition linear_tx (m : mat2) : res transform :=
  inv <- inverse2 m ;; Ok (Tx (mulv m) (mulv inv) Convex Convex 0).

(* Math/Transform.h:329-339: the two directions from the stored coefficients *)
Definition affine_forward (m : mat2) (off p : pt) : pt :=
  (ma m * fst p + mb m * snd p + fst off, mc m * fst p + md m * snd p + snd off).
Definition affine_reverse (inv : mat2) (off p : pt) : pt :=
  let u := fst p - fst off in let v := snd p - snd off in
  (ma inv * u + mb inv * v, mc inv * u + md inv * v).
(* Math/Transform.h:310-327 *)
Definition affine_tx (m : mat2) (off : pt) : res transform :=
  inv <- inverse2 m ;;
  Ok (Tx (affine_forward m off) (affine_reverse inv off) Convex Convex 0).

(* Math/Transform.h:349-363, with the cosine and the sine of the angle given *)
Definition rotate_tx (c s : Q) (center : pt) : res transform :=
  let r := M2 c (- s) s c in
  let moved := mulv r center in
  let rhs := (fst center - fst moved, snd center - snd moved) in
  inv <- inverse2 r ;;
  Ok (Tx (affine_forward r rhs) (affine_reverse inv rhs) Convex Convex 0).

(* 3 x 3 matrices by rows *)
Record mat3 := M3 { h00 : Q; h01 : Q; h02 : Q; h10 : Q; h11 : Q; h12 : Q; h20 : Q; h21 : Q; h22 : Q }.
(* Matrix.h inverse of a 3 x 3 matrix, here by cofactors.  The code eliminates
   with pivots; MInv/ proves that its result is the inverse, which is unique. *)
Definition det3 (h : mat3) : Q :=
  h00 h * (h11 h * h22 h - h12 h * h21 h) - h01 h * (h10 h * h22 h - h12 h * h20 h) + h02 h * (h10 h * h21 h - h11 h * h20 h).
Definition inverse3 (h : mat3) : res mat3 :=
  let d := det3 h in
  if Qeq_bool d 0 then Throw OtherErr
  else Ok (M3 ((h11 h * h22 h - h12 h * h21 h) / d) ((h02 h * h21 h - h01 h * h22 h) / d) ((h01 h * h12 h - h02 h * h11 h) / d)
              ((h12 h * h20 h - h10 h * h22 h) / d) ((h00 h * h22 h - h02 h * h20 h) / d) ((h02 h * h10 h - h00 h * h12 h) / d)
              ((h10 h * h21 h - h11 h * h20 h) / d) ((h01 h * h20 h - h00 h * h21 h) / d) ((h00 h * h11 h - h01 h * h10 h) / d)).
(* Math/Transform.h:377-387 *)
Definition homography (h : mat3) (p : pt) : pt :=
  let w := h20 h * fst p + h21 h * snd p + h22 h in
  ((h00 h * fst p + h01 h * snd p + h02 h) / w, (h10 h * fst p + h11 h * snd p + h12 h) / w).
(* Math/Transform.h:369-375 *)
Definition homography_tx (h : mat3) : res transform :=
  inv <- inverse3 h ;; Ok (Tx (homography h) (homography inv) Convex Convex 0).

(* Math/Transform.h:394-411; the tolerance of the new object is zero *)
Definition inverse_tx (t : transform) : transform :=
  Tx (fun p => reverse t p) (fun p => forward t p) (reverse_type t) (forward_type t) 0.
(* Math/Transform.h:445-449 *)
Definition compose_type (f g : ftype) : ftype :=
  match f, g with
  | Discontinuous, _ | _, Discontinuous => Discontinuous
  | Continuous, _ | _, Continuous => Continuous
  | _, _ => Convex
  end.
(* Math/Transform.h:429-453 *)
Definition compose_tx (t1 t2 : transform) : transform :=
  Tx (fun p => forward t1 (forward t2 p)) (fun p => reverse t2 (reverse t1 p))
     (compose_type (forward_type t1) (forward_type t2)) (compose_type (reverse_type t1) (reverse_type t2)) 0.

(* Math/Transform.h:508-521 *)
Definition affine2mat (t : transform) : mat3 :=
  let o := forward t (0, 0) in let a := forward t (1, 0) in let b := forward t (0, 1) in
  let a := (fst a - fst o, snd a - snd o) in let b := (fst b - fst o, snd b - snd o) in
  M3 (fst a) (fst b) (fst o) (snd a) (snd b) (snd o) 0 0 1.
(* Math/Transform.h:523-525 *)
Definition mat2affine (m : mat3) : res transform :=
  affine_tx (M2 (h00 m) (h01 m) (h10 m) (h11 m)) (h02 m, h12 m).

(** ** The approximation of a transform by a table *)

Definition vadd (a b : pt) : pt := (fst a + fst b, snd a + snd b).
Definition sqr_dist (a b : pt) : Q := (fst a - fst b) * (fst a - fst b) + (snd a - snd b) * (snd a - snd b).

(* Image/Transform.h:177-178: the place of entry (x,y) in a table of n x n *)
Definition node (b : box) (n x y : Z) : pt :=
  (inject_Z (x0 b) + inject_Z x / inject_Z (n - 1) * inject_Z (bw b),
   inject_Z (y0 b) + inject_Z y / inject_Z (n - 1) * inject_Z (bh b)).

(* Image/Transform.h:173-185: one entry of the new table; the second part is the
   largest error so far *)
Definition refine_entry (f : pt -> pt) (b : box) (prev : img pt) (n x y : Z) (s : img pt * Q) : res (img pt * Q) :=
  if (y mod 2 =? 0)%Z && (x mod 2 =? 0)%Z then
    v <- get prev (x / 2)%Z (y / 2)%Z ;;
    t <- put (fst s) x y v ;;
    Ok (t, snd s)
  else
    let v := f (node b n x y) in
    t <- put (fst s) x y v ;;
    interp <-
      (if (y mod 2 =? 0)%Z then
         p <- get prev (x / 2)%Z (y / 2)%Z ;; q <- get prev (x / 2 + 1)%Z (y / 2)%Z ;;
         let u := vadd p q in Ok (fst u / 2, snd u / 2)
       else if (x mod 2 =? 0)%Z then
         p <- get prev (x / 2)%Z (y / 2)%Z ;; q <- get prev (x / 2)%Z (y / 2 + 1)%Z ;;
         let u := vadd p q in Ok (fst u / 2, snd u / 2)
       else
         p <- get prev (x / 2)%Z (y / 2)%Z ;; q <- get prev (x / 2)%Z (y / 2 + 1)%Z ;;
         p' <- get prev (x / 2 + 1)%Z (y / 2)%Z ;; q' <- get prev (x / 2 + 1)%Z (y / 2 + 1)%Z ;;
         let u := vadd (vadd (vadd p q) p') q' in Ok (fst u / 4, snd u / 4)) ;;
    let sqr_err := sqr_dist v interp in
    Ok (t, if ltq (snd s) sqr_err then sqr_err else snd s).

(* Image/Transform.h:168-187: set_size gives a fresh table *)
Definition refine (f : pt -> pt) (b : box) (prev : img pt) (n : Z) : res (img pt * Q) :=
  for_up 0 n (fun y => for_up 0 n (fun x => refine_entry f b prev n x y)) (Img n n (fun _ _ => (0, 0)), 0).

(* Image/Transform.h:161-188; no table stands for the fallback.  The loop ends
   after fewer rounds than the box has columns. *)
Fixpoint refine_loop (fuel : nat) (f : pt -> pt) (b : box) (tol_sqr : Q) (table : img pt) (n : Z) : res (option (img pt)) :=
  match fuel with
  | O => UB NoTerm
  | S fuel =>
      let n := (2 * n - 1)%Z in
      if (n >=? bw b)%Z || (n >=? bh b)%Z then Ok None
      else
        r <- refine f b table n ;;
        if ltq tol_sqr (snd r) then refine_loop fuel f b tol_sqr (fst r) n
        else Ok (Some (fst r))
  end.

(* Image/Transform.h:146-189: the constructor *)
Definition approximate (t : transform) (b : box) : res (option (img pt)) :=
  let table := of_rows (0, 0)
    [[reverse t (at_pix (x0 b) (y0 b)); reverse t (at_pix (x1 b) (y0 b))];
     [reverse t (at_pix (x0 b) (y1 b)); reverse t (at_pix (x1 b) (y1 b))]] in
  refine_loop (S (Z.to_nat (bw b))) (reverse t) b (tolerance t * tolerance t) table 2.

(* Image/Transform.h:200, 202-204: the position in the table along one axis and
   the cell, which is brought into the table *)
Definition table_pos (n : Z) (p : Q) (lo hi : Z) : Q := inject_Z n * (p - inject_Z lo) / inject_Z (hi - lo).
Definition table_cell (n : Z) (px : Q) : Z :=
  let ix := Qfloor px in
  let ix := if (ix <? 0)%Z then 0%Z else ix in
  if (ix >=? n)%Z then (n - 1)%Z else ix.

(* Image/Transform.h:191-219 *)
Definition table_reverse (b : box) (table : img pt) (p : pt) : pt :=
  let n := (icols table - 1)%Z in
  let px := table_pos n (fst p) (x0 b) (x1 b) in
  let py := table_pos n (snd p) (y0 b) (y1 b) in
  let ix := table_cell n px in let iy := table_cell n py in
  let normx := px - inject_Z ix in let normy := py - inject_Z iy in
  let m00 := pix table ix iy in let m10 := pix table (ix + 1) iy in
  let m01 := pix table ix (iy + 1) in let m11 := pix table (ix + 1) (iy + 1) in
  ((fst m00 * (1 - normy) + fst m01 * normy) * (1 - normx) + (fst m10 * (1 - normy) + fst m11 * normy) * normx,
   (snd m00 * (1 - normy) + snd m01 * normy) * (1 - normx) + (snd m10 * (1 - normy) + snd m11 * normy) * normx).

(* Image/Transform.h:141-224 ApproximateTransform as a transform of its own; the
   tolerance reads as zero *)
Definition approximate_tx (t : transform) (b : box) : res transform :=
  table <- approximate t b ;;
  Ok (Tx (forward t) (match table with None => reverse t | Some m => table_reverse b m end)
         (forward_type t) (reverse_type t) 0).

(** ** Transformed images *)

(* Image/Transform.h:362-365 TransformView::operator() *)
Definition transformed (k : interpolation) (c : chan) (v : view) (t : transform) (i j : Q) : res px :=
  let p := reverse t (i, j) in interpolate k c v (fst p) (snd p).

(* Image/Transform.h:372-386: the pixel (i,j) of the region [b] as rasterized.
   The image below is copied where the box of the transformed region says. *)
Definition transformed_rasterize (k : interpolation) (c : chan) (f : Z -> Z -> px) (t : transform) (b : box) (i j : Z) : res px :=
  t' <- (if ltq 0 (tolerance t) then approximate_tx t b else Ok t) ;;
  transformed k c (interpolation_prerasterize k f (reverse_bbox t' b)) t' (inject_Z i) (inject_Z j).

(* Image/Transform.h:430-437 TransformViewNoData::operator() on an image of
   [cols] by [rows]; [nbuf] is the m_pixel_buffer member *)
Definition transformed_nodata (k : interpolation) (c : chan) (cols rows nbuf : Z) (v : view) (t : transform) (nodata : px) (i j : Q) : res px :=
  let rv := reverse t (i, j) in
  if ltq (fst rv) (inject_Z (nbuf - 1)) || Qle_bool (inject_Z (cols - nbuf)) (fst rv) ||
     ltq (snd rv) (inject_Z (nbuf - 1)) || Qle_bool (inject_Z (rows - nbuf)) (snd rv)
  then Ok nodata
  else interpolate k c v (fst rv) (snd rv).

(* Image/Transform.h:627-658: the size of a resampled image; the cast drops the
   fraction *)
Definition resampled_size (n : Z) (factor : Q) : Z :=
  let q := (1 # 2) + inject_Z n * factor in if ltq q 0 then Qceiling q else Qfloor q.
(* Image/Transform.h:719-726: the transform of resize *)
Definition resize_tx (cols rows ow oh : Z) : transform :=
  resample_tx (inject_Z ow / inject_Z cols) (inject_Z oh / inject_Z rows).
