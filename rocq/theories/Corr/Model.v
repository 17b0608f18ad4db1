(* Model of block matching: fast_box_sum (src/vw/Stereo/Algorithms.h),
   best_of_search_convolution, calc_disparity and subdivide_regions
   (src/vw/Stereo/Correlation.cc) with the costs AbsoluteCost and SquaredCost of
   src/vw/Stereo/CostFunctions.h.

   Pixels are integers and the float64 accumulators do not round.  NCCCost, with its
   square root, is not modelled.  int32 arithmetic does not overflow. *)
From Coq Require Import ZArith List Lia Bool.
From Verif Require Import Lib.Base Lib.Img BBox.Box2.
Import ListNotations.
Local Open Scope Z_scope.

(* An element of a std::valarray or of contiguous image memory. *)
Definition at_ {A} (l : list A) (i : Z) : res A :=
  if (0 <=? i) && (i <? Z.of_nat (length l)) then
    match nth_error l (Z.to_nat i) with Some a => Ok a | None => UB OutOfBounds end
  else UB OutOfBounds.

(* Algorithms.h:68-72, 100-105: one pass over all the column sums, [f col x] being the new
   value of the sum of column x. *)
Fixpoint col_pass (f : Z -> Z -> res Z) (sums : list Z) (x : Z) : res (list Z) :=
  match sums with
  | [] => Ok []
  | c :: l => c' <- f c x ;; l' <- col_pass f l (x + 1) ;; Ok (c' :: l')
  end.

(* Algorithms.h:61-75: the sums of the first [ky] rows *)
Definition first_sums (input : img Z) (ky : Z) : res (list Z) :=
  for_up 0 ky (fun row sums => col_pass (fun c x => p <- get input x row ;; Ok (c + p)) sums 0)
    (repeat 0 (Z.to_nat (icols input))).

(* Algorithms.h:84-85, 115-116: std::accumulate over [0, kx) *)
Definition seed (sums : list Z) (kx : Z) : res Z :=
  for_up 0 kx (fun i s => c <- at_ sums i ;; Ok (s + c)) 0.

(* *dst = v; dst.next_col(): the output is contiguous, [out] is what has been written so
   far and [room] the number of pixels it has. *)
Definition write (room : Z) (out : list Z) (v : Z) : res (list Z) :=
  if Z.of_nat (length out) <? room then Ok (out ++ [v]) else UB OutOfBounds.

(* Algorithms.h:82-95, 113-125: one output row.  cfront starts at [kx]; it never meets the
   end of the sums if it starts behind it. *)
Definition sum_row (sums : list Z) (kx room : Z) (out : list Z) : res (list Z) :=
  row_sum <- seed sums kx ;;
  if Z.of_nat (length sums) <? kx then UB OutOfBounds else
  '(out, row_sum) <- for_up kx (Z.of_nat (length sums)) (fun front st =>
      let '(out, row_sum) := st in
      out <- write room out row_sum ;;
      f <- at_ sums front ;; b <- at_ sums (front - kx) ;;
      Ok (out, row_sum + (f - b))) (out, row_sum) ;;
  write room out row_sum.

(* Algorithms.h:97-109 *)
Definition slide (input : img Z) (ky row : Z) (sums : list Z) : res (list Z) :=
  col_pass (fun c x => f <- get input x (row + ky) ;; b <- get input x row ;; Ok (c + f - b)) sums 0.

(* Algorithms.h:41-129.  The result is the contents of the output in memory order; the loop
   of line 81 runs 2^32 times over rows that do not exist if the output has no rows.  A
   negative output size is refused by the constructor of ImageView. *)
Definition fast_box_sum (input : img Z) (kx ky : Z) : res (list Z) :=
  if negb ((Z.rem kx 2 =? 1) && (Z.rem ky 2 =? 1)) then Throw ArgumentErr else
  let ow := icols input - kx + 1 in
  let oh := irows input - ky + 1 in
  if (ow <? 0) || (oh <? 0) then Throw ArgumentErr else
  sums <- first_sums input ky ;;
  if oh =? 0 then UB OutOfBounds else
  '(sums, out) <- for_up 0 (oh - 1) (fun row st =>
      let '(sums, out) := st in
      out <- sum_row sums kx (ow * oh) out ;;
      sums <- slide input ky row sums ;;
      Ok (sums, out)) (sums, []) ;;
  sum_row sums kx (ow * oh) out.

(* ImageView<PixelT> of crop(view, box): every pixel is read through the view *)
Fixpoint read_list {A} (f : Z -> Z -> res A) (l : list (Z * Z)) : res (list A) :=
  match l with
  | [] => Ok []
  | (x, y) :: l => v <- f x y ;; vs <- read_list f l ;; Ok (v :: vs)
  end.
Definition raster (w h : Z) : list (Z * Z) :=
  flat_map (fun y => map (fun x => (x, y)) (zrange 0 w)) (zrange 0 h).
(* a rasterised image: memory in row order, read at (x,y) *)
Definition of_list (w h : Z) (l : list Z) : img Z := Img w h (fun x y => nth (Z.to_nat (y * w + x)) l 0).
Definition rasterize (f : Z -> Z -> res Z) (w h : Z) : res (img Z) :=
  l <- read_list f (raster w h) ;; Ok (of_list w h l).

(* CostFunctions.h:71-90 and 93-117: AbsDifferenceFunctor, SquaredDifferenceFunctor *)
Inductive cost := ABSOLUTE_DIFFERENCE | SQUARED_DIFFERENCE.
Definition pixel_cost (c : cost) (a b : Z) : Z :=
  match c with
  | ABSOLUTE_DIFFERENCE => if a <? b then b - a else a - b
  | SQUARED_DIFFERENCE => (a - b) * (a - b)
  end.

(* PixelMask<Vector2i> *)
Record pixel := Pixel { valid : bool; disp : Z * Z }.

(* Correlation.cc:88-108: the entry of quality_map and disparity_map of one pixel *)
Record qual := Qual { best : Z; worst : Z; at_disp : Z * Z }.
Definition update (d : Z * Z) (c : Z) (q : qual) : qual :=
  if negb ((fst d =? 0) && (snd d =? 0)) then
    if c <? best q then Qual c (worst q) d
    else if negb (c <? worst q) then Qual (best q) c (at_disp q)
    else q
  else Qual c c (at_disp q).

(* Correlation.cc:63-85: the costs of one disparity *)
Definition costs_of (k : cost) (left right : img Z) (kx ky : Z) (d : Z * Z) : res (list Z) :=
  rcrop <- rasterize (fun x y => get right (x + fst d) (y + snd d)) (icols left) (irows left) ;;
  applied <- rasterize (fun x y => a <- get left x y ;; b <- get rcrop x y ;; Ok (pixel_cost k a b))
               (icols left) (irows left) ;;
  fast_box_sum applied kx ky.

(* Correlation.cc:33-137: best_of_search_convolution.  The result is disparity_map in memory
   order.  The search volume is not negative (the loops would not end). *)
Definition best_of_search (k : cost) (left right : img Z) (sx sy kx ky : Z) : res (list pixel) :=
  let n := Z.to_nat ((icols left - kx + 1) * (irows left - ky + 1)) in
  if (icols left - kx + 1 <? 0) || (irows left - ky + 1 <? 0) then Throw ArgumentErr else
  q <- for_up 0 sy (fun dy q => for_up 0 sx (fun dx q =>
         c <- costs_of k left right kx ky (dx, dy) ;;
         Ok (map2 (update (dx, dy)) c q)) q) (repeat (Qual 0 0 (0, 0)) n) ;;
  Ok (map (fun q => Pixel (negb (best q =? worst q)) (at_disp q)) q).

(* Correlation.cc:330-374: calc_disparity, without the assertions of debug builds *)
Definition calc_disparity (k : cost) (left_in right_in : img Z) (region : box) (sx sy kx ky : Z) : res (list pixel) :=
  let right_region := Box (x0 region) (y0 region) (x1 region + (sx - 1)) (y1 region + (sy - 1)) in
  left <- rasterize (fun x y => get left_in (x + x0 region) (y + y0 region))
            (x1 region - x0 region) (y1 region - y0 region) ;;
  right <- rasterize (fun x y => get right_in (x + x0 right_region) (y + y0 right_region))
            (x1 right_region - x0 right_region) (y1 right_region - y0 right_region) ;;
  best_of_search k left right sx sy kx ky.
