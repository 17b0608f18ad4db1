(** Pixels, points and longitudes of a georeferenced image
    (src/vw/Cartography/GeoReference.cc, GeoReferenceUtils.cc, GeoTransform.cc).

    Coordinates are exact rationals.  The map projection (OGR, PROJ) is a pair of
    functions of the georeference that may fail; its description and the datum are
    texts.  A default box, with the largest number as its minimum and the least as
    its maximum, is [None].  Reading of files, the making of projections from text
    and distances on the sphere are left out. *)
From Coq Require Import List Bool ZArith QArith Qround Qcanon.
From Verif Require Import Lib.Base Lib.Img Lib.Str.
From Verif Require Line.Model MInv.Model.
Import ListNotations.
Local Open Scope Q_scope.

Definition pt : Type := (Q * Q)%type.
Definition ltq (a b : Q) : bool := negb (Qle_bool b a).

(** ** Matrices *)

Record mat := M3 { m00 : Q; m01 : Q; m02 : Q; m10 : Q; m11 : Q; m12 : Q; m20 : Q; m21 : Q; m22 : Q }.
Definition mat_get (m : mat) (r c : Z) : Q :=
  match r, c with
  | 0, 0 => m00 m | 0, 1 => m01 m | 0, _ => m02 m
  | 1, 0 => m10 m | 1, 1 => m11 m | 1, _ => m12 m
  | _, 0 => m20 m | _, 1 => m21 m | _, _ => m22 m
  end%Z.
(* Math/Matrix.h:2219-2281 inverse, as modelled in MInv/ *)
Definition inverse3 (m : mat) : res mat :=
  x <- MInv.Model.inverse (Img 3 3 (fun c r => Q2Qc (mat_get m r c))) ;;
  let e r c := this (pix x c r) in
  Ok (M3 (e 0%Z 0%Z) (e 0%Z 1%Z) (e 0%Z 2%Z) (e 1%Z 0%Z) (e 1%Z 1%Z) (e 1%Z 2%Z) (e 2%Z 0%Z) (e 2%Z 1%Z) (e 2%Z 2%Z)).

(** ** Boxes *)

Record box := Box { bxl : Q; byl : Q; bxh : Q; byh : Q }.
(* Math/BBox.tcc:156-160 empty *)
Definition empty (b : option box) : bool :=
  match b with None => true | Some b => Qle_bool (bxh b) (bxl b) || Qle_bool (byh b) (byl b) end.
(* Math/BBox.tcc:82-97 grow by a point *)
Definition grow (b : option box) (p : pt) : option box :=
  match b with
  | None => Some (Box (fst p) (snd p) (fst p) (snd p))
  | Some b =>
      Some (Box (if ltq (fst p) (bxl b) then fst p else bxl b) (if ltq (snd p) (byl b) then snd p else byl b)
                (if ltq (bxh b) (fst p) then fst p else bxh b) (if ltq (byh b) (snd p) then snd p else byh b))
  end.
(* Math/BBox.tcc:368-389 grow_bbox_to_int; the numbers are taken to fit an int32 *)
Definition grow_to_int (b : option box) : option box :=
  match b with
  | None => None
  | Some b =>
      if ltq (bxh b) (bxl b) || ltq (byh b) (byl b) then None
      else Some (Box (inject_Z (Qfloor (bxl b))) (inject_Z (Qfloor (byl b)))
                     (inject_Z (Qfloor (bxh b) + 1)) (inject_Z (Qfloor (byh b) + 1)))
  end.
(* The loops that grow a box by the images of points, skipping those that throw *)
Definition grow_by (f : pt -> res pt) (l : list pt) : res (option box) :=
  fold_left (fun s p =>
    b <- s ;;
    match f p with Ok q => Ok (grow b q) | Throw _ => Ok b | UB u => UB u end) l (Ok None).

(* (int32) of a double *)
Definition trunc (q : Q) : Z := if ltq q 0 then Qceiling q else Qfloor q.
(* round, to the nearest, halves away from zero *)
Definition round_away (q : Q) : Z := if ltq q 0 then Qceiling (q - (1 # 2)) else Qfloor (q + (1 # 2)).

(* BresenhamLine and the loop over its points; it ends after the length of the
   longer side *)
Definition bresenham (x0 y0 x1 y1 : Z) : res (list pt) :=
  l <- Line.Model.trace (Z.to_nat (Z.max (Z.abs (x1 - x0)) (Z.abs (y1 - y0)))) (Line.Model.setup x0 y0 x1 y1) ;;
  Ok (map (fun p => (inject_Z (fst p), inject_Z (snd p))) l).

(* GeoReference.cc:1013-1047 sample_int_box *)
Definition sample_int_box (b : option box) : res (list pt) :=
  match b with
  | Some c =>
      if empty b then Ok []
      else
        let sides := flat_map (fun x => [(inject_Z x, byl c); (inject_Z x, byh c)]) (zrange (trunc (bxl c)) (Qfloor (bxh c) + 1))
                  ++ flat_map (fun y => [(bxl c, inject_Z y); (bxh c, inject_Z y)]) (zrange (trunc (byl c)) (Qfloor (byh c) + 1)) in
        let w := trunc (bxh c - bxl c) in
        l1 <- bresenham (trunc (bxl c)) (trunc (byl c)) (trunc (bxh c)) (trunc (byh c)) ;;
        l2 <- bresenham (trunc (bxl c + inject_Z w)) (trunc (byl c)) (trunc (bxh c - inject_Z w)) (trunc (byh c)) ;;
        Ok (sides ++ l1 ++ l2)
  | None => Ok []
  end.

(* GeoReference.cc:1054-1099 sample_float_box *)
Definition sample_float_box (b : option box) (steps : Z) : list pt :=
  match b with
  | Some c =>
      if empty b then []
      else
        let rx := bxh c - bxl c in let ry := byh c - byl c in
        flat_map (fun i =>
          let r := inject_Z i / inject_Z steps in
          [(bxl c, byl c + r * ry); (bxh c, byl c + r * ry); (bxl c + r * rx, byl c); (bxl c + r * rx, byh c);
           (bxl c + r * rx, byl c + r * ry); (bxh c - r * rx, byl c + r * ry)]) (zrange 0 (steps + 1))
  | None => []
  end.

(** ** Georeference *)

Record georef := Geo {
  as_area : bool; tr : mat; sh : mat; inv_tr : mat; inv_sh : mat;
  is_projected : bool; to_lonlat : pt -> res pt; to_proj : pt -> res pt;
  ll_box : option box; wkt : str; datum : str }.

(* GeoReference.cc:461-473 vw_native_transform, vw_native_inverse_transform *)
Definition native (g : georef) : mat := if as_area g then sh g else tr g.
Definition native_inv (g : georef) : mat := if as_area g then inv_sh g else inv_tr g.

(* The formula of pixel_to_point and of point_to_pixel *)
Definition denom (m : mat) (p : pt) : Q := fst p * m20 m + snd p * m21 m + m22 m.
Definition project (m : mat) (p : pt) : pt :=
  ((fst p * m00 m + snd p * m01 m + m02 m) / denom m p, (fst p * m10 m + snd p * m11 m + m12 m) / denom m p).
(* GeoReference.cc:848-855 pixel_to_point *)
Definition pixel_to_point (g : georef) (p : pt) : pt := project (native g) p.
(* GeoReference.cc:859-866 point_to_pixel *)
Definition point_to_pixel (g : georef) (p : pt) : pt := project (native_inv g) p.
(* GeoReference.cc:870-884 point_to_lonlat *)
Definition point_to_lonlat (g : georef) (p : pt) : res pt := if is_projected g then to_lonlat g p else Ok p.
Definition qabs (q : Q) : Q := if ltq q 0 then - q else q.
(* GeoReference.cc:890-901: the longitude nearest the middle of the image *)
Definition near_middle (b : option box) (lon : Q) : Q :=
  match b with
  | Some c =>
      if empty b then lon
      else
        let mid := (bxl c + bxh c) / 2 in
        let lon := if ltq (qabs (lon - mid - 360)) (qabs (lon - mid)) then lon - 360 else lon in
        if ltq (qabs (lon - mid + 360)) (qabs (lon - mid)) then lon + 360 else lon
  | None => lon
  end.
(* GeoReference.cc:888-917 lonlat_to_point *)
Definition lonlat_to_point (g : georef) (p : pt) : res pt :=
  let p := (near_middle (ll_box g) (fst p), snd p) in
  if is_projected g then to_proj g p else Ok p.
(* GeoReference.cc:920-937 geodetic_to_point, point_to_geodetic; no height is NaN *)
Definition geodetic_to_point (g : georef) (p : pt) (h : option Q) : res (pt * option Q) :=
  match h with None => Ok (p, h) | Some _ => q <- lonlat_to_point g p ;; Ok (q, h) end.
Definition point_to_geodetic (g : georef) (p : pt) (h : option Q) : res (pt * option Q) :=
  match h with None => Ok (p, h) | Some _ => q <- point_to_lonlat g p ;; Ok (q, h) end.
(* GeoReference.h:308-310 pixel_to_lonlat *)
Definition pixel_to_lonlat (g : georef) (p : pt) : res pt := point_to_lonlat g (pixel_to_point g p).
(* GeoReference.cc:1277-1279 lonlat_to_pixel *)
Definition lonlat_to_pixel (g : georef) (p : pt) : res pt := q <- lonlat_to_point g p ;; Ok (point_to_pixel g q).

(** ** Boxes through a georeference *)

Definition corners (c : box) : list pt := [(bxl c, byl c); (bxh c, byh c); (bxl c, byh c); (bxh c, byl c)].
(* GeoReference.cc:1104-1121 point_to_pixel_bbox *)
Definition point_to_pixel_bbox (g : georef) (b : option box) : option box :=
  match b with
  | Some c => if empty b then None else grow_to_int (fold_left (fun r p => grow r (point_to_pixel g p)) (corners c) None)
  | None => None
  end.
(* GeoReference.cc:1125-1139 pixel_to_point_bbox *)
Definition pixel_to_point_bbox (g : georef) (b : option box) : option box :=
  match b with
  | Some c => if empty b then None else fold_left (fun r p => grow r (pixel_to_point g p)) (corners c) None
  | None => None
  end.
(* GeoReference.cc:1144-1163 pixel_to_lonlat_bbox *)
Definition pixel_to_lonlat_bbox (g : georef) (b : option box) : res (option box) :=
  if empty b then Ok None
  else if negb (is_projected g) then Ok (pixel_to_point_bbox g b)
  else l <- sample_int_box b ;; grow_by (pixel_to_lonlat g) l.
(* GeoReference.cc:1180-1231 lonlat_to_point_bbox and 1233-1272
   point_to_lonlat_bbox: the points sampled, n along each side *)
Definition sample_sides (c : box) (n : Z) : res (list pt) :=
  let fx := (bxh c - bxl c) / inject_Z n in let fy := (byh c - byl c) / inject_Z n in
  let sides := flat_map (fun i =>
    let x := bxl c + inject_Z i * fx in let y := byl c + inject_Z i * fy in
    [(x, byl c); (x, byh c); (bxl c, y); (bxh c, y)]) (zrange 0 n) in
  let place (p : pt) : pt := (fst p * fx + bxl c, snd p * fy + byl c) in
  l1 <- bresenham 0 0 n n ;; l2 <- bresenham n 0 0 n ;;
  Ok (sides ++ map place l1 ++ map place l2).
Definition lonlat_to_point_bbox (g : georef) (b : option box) (n : Z) : res (option box) :=
  match b with
  | Some c => if empty b then Ok None else l <- sample_sides c n ;; grow_by (lonlat_to_point g) l
  | None => Ok None
  end.
Definition point_to_lonlat_bbox (g : georef) (b : option box) (n : Z) : res (option box) :=
  match b with
  | Some c => if empty b then Ok None else l <- sample_sides c n ;; grow_by (point_to_lonlat g) l
  | None => Ok None
  end.
(* GeoReference.cc:1165-1174 lonlat_to_pixel_bbox *)
Definition lonlat_to_pixel_bbox (g : georef) (b : option box) (n : Z) : res (option box) :=
  if empty b then Ok None
  else if negb (is_projected g) then Ok (point_to_pixel_bbox g b)
  else c <- lonlat_to_point_bbox g b n ;; Ok (point_to_pixel_bbox g c).

(** ** Changing a georeference *)

Definition set_ll_box (g : georef) (b : option box) : georef :=
  Geo (as_area g) (tr g) (sh g) (inv_tr g) (inv_sh g) (is_projected g) (to_lonlat g) (to_proj g) b (wkt g) (datum g).
(* GeoReference.cc:1282-1302 ll_box_from_pix_box *)
Definition ll_box_from_pix_box (g : georef) (b : option box) : res georef :=
  if empty b then
    p <- pixel_to_lonlat g (0, 0) ;;
    let x := 180 * inject_Z (round_away (fst p / 180)) in let y := 180 * inject_Z (round_away (snd p / 180)) in
    Ok (set_ll_box g (Some (Box (x - (1 # 4)) (y - (1 # 4)) (x + (1 # 4)) (y + (1 # 4)))))
  else c <- pixel_to_lonlat_bbox g b ;; Ok (set_ll_box g c).
Definition shifted (t : mat) : mat :=
  M3 (m00 t) (m01 t) (m02 t + (1 # 2) * m00 t) (m10 t) (m11 t) (m12 t + (1 # 2) * m11 t) (m20 t) (m21 t) (m22 t).
(* GeoReference.cc:419-432 set_transform of an object with its projection *)
Definition set_transform (g : georef) (t : mat) : res georef :=
  let s := shifted t in
  i <- inverse3 t ;; j <- inverse3 s ;;
  ll_box_from_pix_box (Geo (as_area g) t s i j (is_projected g) (to_lonlat g) (to_proj g) (ll_box g) (wkt g) (datum g))
    (Some (Box 0 0 0 0)).

Definition with_origin (t : mat) (p : pt) : mat :=
  M3 (m00 t) (m01 t) (fst p) (m10 t) (m11 t) (snd p) (m20 t) (m21 t) (m22 t).
(* GeoReferenceUtils.cc:28-45 crop; the size is not used *)
Definition crop (g : georef) (x y : Q) : res georef :=
  let p := if as_area g then pixel_to_point g (x - (1 # 2), y - (1 # 2)) else pixel_to_point g (x, y) in
  set_transform g (with_origin (tr g) p).
(* GeoReferenceUtils.cc:54-66 resample *)
Definition resample (g : georef) (sx sy : Q) : res georef :=
  let t := tr g in
  let t := M3 (m00 t / sx) (m01 t) (m02 t) (m10 t) (m11 t / sy) (m12 t) (m20 t) (m21 t) (m22 t) in
  let t := if as_area g then with_origin t (pixel_to_point g (- ((1 # 2) / sx), - ((1 # 2) / sy))) else t in
  set_transform g t.

(** ** From one georeference to another *)

Record geotrans := GT { src : georef; dst : georef; skip_map : bool }.

(* GeoTransform.cc:88-178 the constructor.  [same_datum] tells whether the datum
   conversion by PROJ between two datums given by different texts changes none of
   the samples; else the constructor throws, so a datum is never converted. *)
Definition make_geotrans (same_datum : str -> str -> bool) (s d : georef) : res geotrans :=
  skip <- (if str_eqb (wkt s) (wkt d) && negb (empty (ll_box s)) && negb (empty (ll_box d)) then
             match ll_box s with
             | Some c =>
                 p <- lonlat_to_point d (bxl c, byl c) ;; q <- point_to_lonlat d p ;;
                 let e := (bxl c - fst q) * (bxl c - fst q) + (byl c - snd q) * (byl c - snd q) in
                 Ok (Qle_bool e (1 # 10000000000000000))
             | None => Ok false
             end
           else Ok false) ;;
  if str_eqb (datum s) (datum d) || same_datum (datum s) (datum d) then Ok (GT s d skip) else Throw ArgumentErr.

(* GeoTransform.cc:217-222 wrapLon *)
Definition wrap_lon (lon : Q) : Q :=
  let lon := if ltq 180 lon then lon - 360 else lon in
  if ltq lon (- (180)) then lon + 360 else lon.
Definition wrapped (g : georef) (p : pt) : pt := if is_projected g then (wrap_lon (fst p), snd p) else p.
(* GeoTransform.cc:225-242 reverse *)
Definition reverse (t : geotrans) (p : pt) : res pt :=
  if skip_map t then Ok (point_to_pixel (src t) (pixel_to_point (dst t) p))
  else q <- pixel_to_lonlat (dst t) p ;; lonlat_to_pixel (src t) (wrapped (src t) q).
(* GeoTransform.cc:247-264 forward *)
Definition forward (t : geotrans) (p : pt) : res pt :=
  if skip_map t then Ok (point_to_pixel (dst t) (pixel_to_point (src t) p))
  else q <- pixel_to_lonlat (src t) p ;; lonlat_to_pixel (dst t) (wrapped (dst t) q).
(* GeoTransform.cc:267-303 forward_bbox, reverse_bbox *)
Definition forward_bbox (t : geotrans) (b : option box) : res (option box) :=
  if empty b then Ok None else l <- sample_int_box b ;; r <- grow_by (forward t) l ;; Ok (grow_to_int r).
Definition reverse_bbox (t : geotrans) (b : option box) : res (option box) :=
  if empty b then Ok None else l <- sample_int_box b ;; r <- grow_by (reverse t) l ;; Ok (grow_to_int r).
(* GeoTransform.cc:305-313 point_to_point *)
Definition point_to_point (t : geotrans) (p : pt) : res pt :=
  if skip_map t then Ok p else q <- point_to_lonlat (src t) p ;; lonlat_to_point (dst t) q.
(* GeoTransform.cc:316-325 pixel_to_point *)
Definition gt_pixel_to_point (t : geotrans) (p : pt) : res pt :=
  let p := pixel_to_point (src t) p in
  if skip_map t then Ok p else q <- point_to_lonlat (src t) p ;; lonlat_to_point (dst t) q.
(* GeoTransform.cc:327-336 point_to_pixel *)
Definition gt_point_to_pixel (t : geotrans) (p : pt) : res pt :=
  if skip_map t then Ok (point_to_pixel (dst t) p) else q <- point_to_lonlat (src t) p ;; lonlat_to_pixel (dst t) q.
(* GeoTransform.cc:375-394 point_to_point_bbox, 417-435 pixel_to_point_bbox and
   437-456 point_to_pixel_bbox *)
Definition point_to_point_bbox (t : geotrans) (b : option box) : res (option box) :=
  if empty b then Ok None else grow_by (point_to_point t) (sample_float_box b 100).
Definition gt_pixel_to_point_bbox (t : geotrans) (b : option box) : res (option box) :=
  if empty b then Ok None else l <- sample_int_box b ;; grow_by (gt_pixel_to_point t) l.
Definition gt_point_to_pixel_bbox (t : geotrans) (b : option box) : res (option box) :=
  if empty b then Ok None else r <- grow_by (gt_point_to_pixel t) (sample_float_box b 100) ;; Ok (grow_to_int r).

(* GeoTransform.cc:465-485 reproject_point_image: each pixel of the image that is
   not the zero vector; the height stays *)
Definition reproject_pixel (t : geotrans) (p : pt) (h : Q) : res (pt * Q) :=
  if Qeq_bool (fst p) 0 && Qeq_bool (snd p) 0 && Qeq_bool h 0 then Ok (p, h)
  else q <- forward t p ;; Ok (q, h).
Fixpoint reproject_points (t : geotrans) (l : list (pt * Q)) : res (list (pt * Q)) :=
  match l with
  | [] => Ok []
  | (p, h) :: l => q <- reproject_pixel t p h ;; r <- reproject_points t l ;; Ok (q :: r)
  end.
Definition reproject_point_image (same_datum : str -> str -> bool) (l : list (pt * Q)) (s d : georef) : res (list (pt * Q)) :=
  t <- make_geotrans same_datum s d ;; reproject_points t l.
