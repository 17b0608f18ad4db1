(** Filters of disparity maps: src/vw/Stereo/DisparityMap.h and the part of
    src/vw/Stereo/DisparityMap.cc used by them.

    Simplifications: disparities and thresholds are rationals and the arithmetic is
    exact; a standard deviation is compared by its square; images have one plane; the
    counters of rejected points, the plane fit, the quantile filter and the colouring
    of missing pixels are left out. *)
From Coq Require Import List ZArith QArith Qround Qabs Bool.
From Verif Require Import Lib.Base Lib.Img BBox.Box2.
Import ListNotations.
Open Scope Q_scope.

Definition ltq (a b : Q) : bool := negb (Qle_bool b a).

(** Image/PixelMask.h 48-66: PixelMask<Vector2f>, the valid bit and the child; the
    default pixel is not valid. *)
Definition px : Type := bool * (Q * Q).
Definition valid (p : px) : bool := fst p.
Definition dx (p : px) : Q := fst (snd p).
Definition dy (p : px) : Q := snd (snd p).
Definition no_px : px := (false, (0, 0)).

(** A double converted to an int32. *)
Definition trunc (x : Q) : Z := if ltq x 0 then Qceiling x else Qfloor x.

(** Image/Manipulation.h 82-120: a CropView of an image in memory. *)
Record crop A := Crop { cimg : img A; ci : Z; cj : Z; ccols : Z; crows : Z }.
Arguments Crop {A}. Arguments cimg {A}. Arguments ci {A}. Arguments cj {A}. Arguments ccols {A}. Arguments crows {A}.
Definition read {A} (c : crop A) (i j : Z) : res A := get (cimg c) (ci c + i) (cj c + j).
Definition whole {A} (m : img A) : crop A := Crop m 0 0 (icols m) (irows m).

(** Image/ImageView.h 114-119: the region [b] of an image copied to memory; a region
    that is not within the image is read out of bounds. *)
Definition raster {A} (m : img A) (b : box) : res (img A) :=
  if bempty b then Ok (Img 0 0 (pix m))
  else if ((0 <=? x0 b) && (0 <=? y0 b) && (x1 b <=? icols m) && (y1 b <=? irows m))%Z
  then Ok (Img (bw b) (bh b) (fun x y => pix m (x0 b + x)%Z (y0 b + y)%Z))
  else UB OutOfBounds.
(** The copy placed where the region was. *)
Definition placed {A} (buf : img A) (b : box) (cols rows : Z) : crop A := Crop buf (- x0 b) (- y0 b) cols rows.
Definition nothing {A} (d : A) (cols rows : Z) : crop A := Crop (Img 0 0 (fun _ _ => d)) 0 0 cols rows.

(** ** Range of disparities *)

(** Image/Statistics.h 192-224, 283-290: the smallest and largest of each coordinate
    of the valid pixels. *)
Definition minmax (s : option (Q * Q * (Q * Q))) (p : px) : option (Q * Q * (Q * Q)) :=
  if valid p then
    match s with
    | None => Some (dx p, dy p, (dx p, dy p))
    | Some (lx, ly, (hx, hy)) =>
        let '(lx, hx) := if ltq (dx p) lx then (dx p, hx) else if ltq hx (dx p) then (lx, dx p) else (lx, hx) in
        let '(ly, hy) := if ltq (dy p) ly then (dy p, hy) else if ltq hy (dy p) then (ly, dy p) else (ly, hy) in
        Some (lx, ly, (hx, hy))
    end
  else s.
(** All pixels, row by row. *)
Definition pixels {A} (m : img A) : list A := concat (to_rows m).
Definition ranges (m : img px) : option (Q * Q * (Q * Q)) := fold_left minmax (pixels m) None.

(** DisparityMap.h 51-66: get_disparity_range. *)
Definition disparity_range (m : img px) : Q * Q * (Q * Q) := match ranges m with Some r => r | None => (0, 0, (0, 0)) end.

(** ** Masks *)

(** DisparityMap.h 136-156: DisparityMaskView::operator(). *)
Definition mask_at (disp : crop px) (m1 m2 : crop Z) (i j : Z) : res px :=
  a <- read m1 i j ;;
  if (a =? 0)%Z then Ok no_px else
  d <- read disp i j ;;
  if negb (valid d) then Ok no_px else
  let tx := inject_Z i + dx d in
  let ty := inject_Z j + dy d in
  if ltq tx 0 || Qle_bool (inject_Z (ccols m2)) tx || ltq ty 0 || Qle_bool (inject_Z (crows m2)) ty then Ok no_px else
  b <- read m2 (trunc tx) (trunc ty) ;;
  if (b =? 0)%Z then Ok no_px else Ok d.

(** DisparityMap.h 104-118: has_valid_mask. *)
Definition has_valid_mask (m : img Z) : bool := existsb (fun v => negb (v =? 0)%Z) (pixels m).

Definition same_box (a b : box) : bool := ((x0 a =? x0 b) && (y0 a =? y0 b) && (x1 a =? x1 b) && (y1 a =? y1 b))%Z.

(** DisparityMap.h 159-240: DisparityMaskView::prerasterize; [range] is m_search_range. *)
Definition mask_prerasterize (disp : img px) (m1 m2 : img Z) (range b : box) : res (crop px * crop Z * crop Z) :=
  let cols := icols disp in
  let rows := irows disp in
  buf1 <- raster m1 b ;;
  let pre1 := placed buf1 b cols rows in
  if negb (has_valid_mask buf1) then Ok (nothing no_px cols rows, pre1, nothing 0%Z 0 0) else
  if negb (same_box range box_default) then
    let right := bcrop (Box (x0 b + x0 range) (y0 b + y0 range) (x1 b + x1 range) (y1 b + y1 range)) (Box 0 0 (icols m2) (irows m2)) in
    buf2 <- raster m2 right ;;
    if negb (has_valid_mask buf2) then
      Ok (nothing no_px cols rows, placed (Img (icols buf1) (irows buf1) (fun _ _ => 0%Z)) b cols rows, nothing 0%Z 0 0)
    else
    buf <- raster disp b ;;
    Ok (placed buf b cols rows, pre1, placed buf2 right (icols m2) (irows m2))
  else
  buf <- raster disp b ;;
  let pre := placed buf b cols rows in
  match ranges buf with
  | None => Ok (pre, pre1, nothing 0%Z 0 0)
  | Some (lx, ly, (hx, hy)) =>
      let right := bcrop (Box (x0 b + Qfloor lx) (y0 b + Qfloor ly) (x1 b + Qceiling hx) (y1 b + Qceiling hy)) (Box 0 0 (icols m2) (irows m2)) in
      buf2 <- raster m2 right ;;
      Ok (pre, pre1, placed buf2 right (icols m2) (irows m2))
  end.

(** DisparityMap.h 242-243: a pixel of the region [b] as rasterize computes it. *)
Definition mask_rasterized (disp : img px) (m1 m2 : img Z) (range b : box) (i j : Z) : res px :=
  v <- mask_prerasterize disp m1 m2 range b ;; mask_at (fst (fst v)) (snd (fst v)) (snd v) i j.

(** DisparityMap.h 264-284: DisparityRangeMaskFunc; the rows are compared to the
    smallest column. *)
Definition range_mask (min_x min_y max_x max_y : Q) (p : px) (i j : Z) : px :=
  if valid p then
    if ltq (inject_Z i + dx p) min_x || Qle_bool (max_x - 1) (inject_Z i + dx p) ||
       ltq (inject_Z j + dy p) min_x || Qle_bool (max_y - 1) (inject_Z j + dy p)
    then no_px else p
  else p.

(** ** Outliers *)

(** Image/EdgeExtension.h: ConstantEdgeExtension. *)
Definition clamp (n i : Z) : Z := (if i <? 0 then 0 else if i >=? n then n - 1 else i)%Z.
Definition extended {A} (m : img A) (i j : Z) : res A := get m (clamp (icols m) i) (clamp (irows m) j).

(** The loops over the kernel, row by row. *)
Definition over_kernel {S : Type} (h v : Z) (f : Z -> Z -> S -> res S) (s : S) : res S :=
  for_up (- v) (v + 1) (fun yk s => for_up (- h) (h + 1) (fun xk s => f xk yk s) s) s.

(** DisparityMap.h 334-345: the constructor throws. *)
Definition kernel_ok (h v : Z) : bool := ((0 <? h) && (0 <? v))%Z.

(** DisparityMap.h 356-386: RmOutliersUsingThreshFunc::operator() at (i, j) of the
    pixels that [rd] reads. *)
Definition thresh_at (rd : Z -> Z -> res px) (h v : Z) (threshold rejection : Q) (i j : Z) : res px :=
  if negb (kernel_ok h v) then Throw ArgumentErr else
  acc <- rd i j ;;
  if negb (valid acc) then Ok acc else
  r <- over_kernel h v (fun xk yk (s : Z * Z) =>
         c <- rd (i + xk)%Z (j + yk)%Z ;;
         Ok ((if valid c && Qle_bool (Qabs (dx acc - dx c)) threshold && Qle_bool (Qabs (dy acc - dy c)) threshold then (fst s + 1)%Z else fst s),
             (snd s + 1)%Z)) (0, 0)%Z ;;
  if ltq (inject_Z (fst r) / inject_Z (snd r)) rejection then Ok no_px else Ok acc.

(** DisparityMap.h 400-413: rm_outliers_using_thresh. *)
Definition rm_outliers (m : img px) (h v : Z) (threshold rejection : Q) : Z -> Z -> res px :=
  thresh_at (extended m) h v threshold rejection.
(** DisparityMap.h 421-443: disparity_cleanup_using_thresh. *)
Definition cleanup (m : img px) (h v : Z) (threshold rejection : Q) : Z -> Z -> res px :=
  thresh_at (rm_outliers m h v threshold rejection) 1 1 3 (1 # 5).

(** DisparityMap.h 496-515: twice the magnitude at three quarters of the sorted
    magnitudes; [sort] stands for std::sort. *)
Definition magnitude (p : px) : Q := Qabs (dx p) + Qabs (dy p).
Definition cutoff (sort : list Q -> list Q) (len : list Q) : res Q :=
  match len with
  | [] => Ok 0
  | _ => match nth_error (sort len) (Z.to_nat (3 * Z.of_nat (length len) / 4)) with Some x => Ok (2 * x) | None => UB OutOfBounds end
  end.

(** DisparityMap.h 484-553: RmOutliersUsingMeanFunc::operator().  In the second pass
    the column accessor, here the first member of the state, stays where it is after a
    large disparity. *)
Definition mean_at (sort : list Q -> list Q) (rd : Z -> Z -> res px) (h v : Z) (max_diff : Q) (i j : Z) : res px :=
  if negb (kernel_ok h v) then Throw ArgumentErr else
  acc <- rd i j ;;
  if negb (valid acc) then Ok acc else
  len <- over_kernel h v (fun xk yk len => c <- rd (i + xk)%Z (j + yk)%Z ;; Ok (if valid c then len ++ [magnitude c] else len)) [] ;;
  cut <- cutoff sort len ;;
  r <- for_up (- v) (v + 1) (fun yk (s : Q * Q * Z) =>
         t <- for_up (- h) (h + 1) (fun _ (t : Z * (Q * Q * Z)) =>
                let '(col, (sx, sy, n)) := t in
                c <- rd (i + col)%Z (j + yk)%Z ;;
                if valid c then
                  if ltq cut (magnitude c) then Ok t
                  else Ok ((col + 1)%Z, (sx + dx c, sy + dy c, (n + 1)%Z))
                else Ok ((col + 1)%Z, (sx, sy, n))) ((- h)%Z, s) ;;
         Ok (snd t)) (0, 0, 0%Z) ;;
  let '(sx, sy, n) := r in
  let max_sq := max_diff * max_diff in
  let error := if (0 <? n)%Z then
      let mx := sx / inject_Z n in let my := sy / inject_Z n in
      (dx acc - mx) * (dx acc - mx) + (dy acc - my) * (dy acc - my)
    else max_sq + 1 in
  if ltq max_sq error then Ok no_px else Ok acc.

(** DisparityMap.h 644-722: RmOutliersUsingStdDev::operator().  The arrays hold the
    square of twice the vertical half size plus one, whatever the horizontal one is;
    an error is compared to a multiple, which has to be not negative, of a standard
    deviation by their squares. *)
Definition dev_bound (rejection var : Q) : Q :=
  let low := if ltq rejection 0 then 0 else rejection * rejection in if ltq var low then low else var.
Definition stddev_at (rd : Z -> Z -> res px) (h v : Z) (threshold rejection : Q) (i j : Z) : res px :=
  if negb (kernel_ok h v) then Throw ArgumentErr else
  acc <- rd i j ;;
  if negb (valid acc) then Ok acc else
  let capacity := ((2 * v + 1) * (2 * v + 1))%Z in
  vals <- over_kernel h v (fun xk yk (vals : list (Q * Q)) =>
            c <- rd (i + xk)%Z (j + yk)%Z ;;
            if valid c then
              if (Z.of_nat (length vals) <? capacity)%Z then Ok (vals ++ [(dx c, dy c)]) else UB OutOfBounds
            else Ok vals) [] ;;
  match vals with
  | [] => Ok no_px
  | _ =>
      let n := inject_Z (Z.of_nat (length vals)) in
      let mx := fold_left (fun s p => s + fst p) vals 0 / n in
      let my := fold_left (fun s p => s + snd p) vals 0 / n in
      let vx := fold_left (fun s p => s + (fst p - mx) * (fst p - mx)) vals 0 / n in
      let vy := fold_left (fun s p => s + (snd p - my) * (snd p - my)) vals 0 / n in
      let ex := (dx acc - mx) * (dx acc - mx) in
      let ey := (dy acc - my) * (dy acc - my) in
      if ltq (threshold * threshold * dev_bound rejection vx) ex || ltq (threshold * threshold * dev_bound rejection vy) ey
      then Ok no_px else Ok acc
  end.

(** DisparityMap.cc 24-28 and DisparityMap.h 961-995: StdDevImageFunc.  The kernel runs
    from minus half the width to half the width. *)
Definition divq (a b : Q) : res Q := if Qeq_bool b 0 then UB DivByZero else Ok (a / b).
Definition std_dev_at (rd : Z -> Z -> res Q) (w h : Z) (i j : Z) : res Q :=
  if negb ((0 <? w) && (0 <? h))%Z then Throw ArgumentErr else
  sum <- over_kernel (w / 2) (h / 2) (fun xk yk s => c <- rd (i + xk)%Z (j + yk)%Z ;; Ok (s + c)) 0 ;;
  mean <- divq sum (inject_Z (w * h)) ;;
  sum <- over_kernel (w / 2) (h / 2) (fun xk yk s => c <- rd (i + xk)%Z (j + yk)%Z ;; Ok (s + (c - mean) * (c - mean))) 0 ;;
  divq sum (inject_Z (w * h - 1)).

(** ** Transforms and resampling *)

(** DisparityMap.h 1024-1043: TransformDisparitiesFunc; [reverse] is the transform's. *)
Definition transform_px (reverse : Q * Q -> Q * Q) (p : px) (i j : Z) : px :=
  let '(nx, ny) := reverse (inject_Z i + dx p, inject_Z j + dy p) in
  (valid p, (nx - inject_Z i, ny - inject_Z j)).

(** std::round. *)
Definition roundq (x : Q) : Z := if ltq x 0 then (- Qfloor (- x + (1 # 2)))%Z else Qfloor (x + (1 # 2)).

(** DisparityMap.h 1192-1223: transform_disparities for a subregion; [forward] is the
    homography's. *)
Definition transform_region (do_round : bool) (sub : box) (forward : Q * Q -> Q * Q) (m : img px) : res (img px) :=
  if negb ((bw sub =? icols m) && (bh sub =? irows m))%Z then Throw ArgumentErr else
  for_up 0 (icols m) (fun x out => for_up 0 (irows m) (fun y out =>
    d <- get m x y ;;
    if negb (valid d) then Ok out else
    let bx := inject_Z (x0 sub + x) in
    let by_ := inject_Z (y0 sub + y) in
    let '(tx, ty) := forward (bx + dx d, by_ + dy d) in
    let diff := (tx - bx, ty - by_) in
    let diff := if do_round then (inject_Z (roundq (fst diff)), inject_Z (roundq (snd diff))) else diff in
    put out x y (true, diff)) out) (Img (icols m) (irows m) (fun _ _ => no_px)).

(** DisparityMap.h 1264-1267: size of the DisparitySubsampleView. *)
Definition subsample_size (n : Z) : Z := (1 + Z.quot (n - 1) 2)%Z.
(** DisparityMap.h 1270-1305: DisparitySubsampleView::operator(), of the image extended
    at its edges (1318-1322). *)
Definition sub_add (m : img px) (i j weight : Z) (s : res (Q * Q * Q)) : res (Q * Q * Q) :=
  s <- s ;;
  p <- extended m i j ;;
  let '(sx, sy, n) := s in
  Ok (if valid p then (sx + inject_Z weight * dx p, sy + inject_Z weight * dy p, n + inject_Z weight) else (sx, sy, n)).
Definition subsample_at (m : img px) (i j : Z) : res px :=
  let a := (i * 2)%Z in
  let b := (j * 2)%Z in
  s <- (sub_add m (a + 1) (b - 1) 2 (sub_add m (a - 1) (b + 1) 2 (sub_add m (a - 1) (b - 1) 2 (sub_add m (a + 1) (b + 1) 2
       (sub_add m a (b - 1) 5 (sub_add m (a - 1) b 5 (sub_add m a (b + 1) 5 (sub_add m (a + 1) b 5
       (sub_add m a b 10 (Ok (0%Q, 0%Q, 0%Q)))))))))))%Z ;;
  let '(sx, sy, n) := s in
  Ok (if ltq 0 n then (true, (sx / (n * 2), sy / (n * 2))) else no_px).

(** DisparityMap.h 1341-1344: DisparityUpsampleView::operator(). *)
Definition upsample_at (child : crop px) (i j : Z) : res px :=
  p <- read child (i / 2) (j / 2) ;; Ok (valid p, (dx p * 2, dy p * 2)).
(** DisparityMap.h 1346-1352: DisparityUpsampleView::rasterize of a child that copies
    the region asked for to memory: the child is asked for the same region. *)
Definition upsample_rasterized (m : img px) (b : box) (i j : Z) : res px :=
  buf <- raster m b ;; upsample_at (placed buf b (icols m) (irows m)) i j.
