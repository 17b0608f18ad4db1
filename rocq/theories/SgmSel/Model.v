(* Semi-global matching: the local costs, the choice of a disparity and the whole
   matcher.  src/vw/Stereo/SGM.cc.  [int] arithmetic is unbounded here; messages are
   left out.  The variant called MGM is not modelled. *)
From Coq Require Import ZArith List Bool.
From Verif Require Import Lib.Base Lib.Lists ImgMem.Model Lib.Img Sgm.Model SgmBox.Model.
From Verif Require Census.Model.
Import ListNotations.
Local Open Scope Z_scope.

(* the double loops of SGM.cc:1753-1758 and the like: an image of the given size *)
Definition fill_image (w h : Z) (f : Z -> Z -> res Z) : res (img Z) :=
  for_up 0 h (fun r m => for_up 0 w (fun c m => v <- f c r ;; put m c r v) m) (Img w h (fun _ _ => 0)).

(* SGM.cc:40-75 get_hamming_distance_costs for binary images of [bits] bits *)
Definition hamming_costs (bits : Z) (left_bin right_bin : img Z) (min_row max_row min_col max_col kernel : Z)
    (bn : img box) (buf : list Z) : res (list Z) :=
  let half := Z.quot (kernel - 1) 2 in
  s <- for_up min_row (max_row + 1) (fun r s =>
         for_up min_col (max_col + 1) (fun c s =>
           b <- get bn (c - min_col) (r - min_row) ;;
           for_up (by0 b) (by1 b + 1) (fun dy s =>
             for_up (bx0 b) (bx1 b + 1) (fun dx s =>
               let '(i, buf) := s in
               x <- get left_bin (c - half) (r - half) ;;
               y <- get right_bin (c - half + dx) (r - half + dy) ;;
               d <- Census.Model.hamming bits x y ;;
               buf <- wr buf i (d mod 256) ;;
               Ok (i + 1, buf)) s) s) s) (0, buf) ;;
  Ok (snd s).

(* SGM.cc:1740-1872 fill_costs_census3x3 .. fill_costs_census9x9 with [bits] the
   width of the pixel type of the census images *)
Definition census_costs (bits : Z) (f : img Z -> Z -> Z -> res Z) (left right : img Z)
    (min_row max_row min_col max_col kernel : Z) (bn : img box) (buf : list Z) : res (list Z) :=
  let half := Z.quot (kernel - 1) 2 in
  let padding := 2 * half in
  let census im := fill_image (icols im - padding) (irows im - padding)
                     (fun c r => v <- f im (c + half) (r + half) ;; Ok (Census.Model.wr bits v)) in
  lb <- census left ;;
  rb <- census right ;;
  hamming_costs bits lb rb min_row max_row min_col max_col kernel bn buf.

(* SGM.cc:1874-1893 compute_disparity_costs *)
Definition compute_costs (kind : cost_kind) (threshold kernel : Z) (left right : img Z)
    (min_row max_row min_col max_col : Z) (bn : img box) (buf : list Z) : res (list Z) :=
  let go bits f := census_costs bits f left right min_row max_row min_col max_col kernel bn buf in
  match kind with
  | Census =>
      if kernel =? 3 then go 8 Census.Model.census_3x3
      else if kernel =? 5 then go 32 Census.Model.census_5x5
      else if kernel =? 7 then go 64 Census.Model.census_7x7
      else if kernel =? 9 then go 32 Census.Model.census_9x9
      else Throw NoImplErr
  | Ternary =>
      if kernel =? 3 then go 16 (fun im c r => Census.Model.census_ternary_3x3 im c r threshold)
      else if kernel =? 5 then go 32 (fun im c r => Census.Model.census_ternary_5x5 im c r threshold)
      else if kernel =? 7 then go 64 (fun im c r => Census.Model.census_ternary_7x7 im c r threshold)
      else if kernel =? 9 then go 64 (fun im c r => Census.Model.census_ternary_9x9 im c r threshold)
      else Throw NoImplErr
  | MeanDiff => Throw NoImplErr
  end.

Section S.
(* round(result / weight_total) for the values under the filter, SGM.cc:1232-1255.
   The arithmetic is in doubles. *)
Variable avg : list Z -> Z.

(* SGM.cc:1184-1190, 1257-1264: index of the minimum, minimum, number of minima *)
Definition track (index value : Z) (t : Z * Z * Z) : Z * Z * Z :=
  let '(mi, mv, n) := t in
  let n := if value =? mv then n + 1 else n in
  if value <? mv then (index, value, 1) else (mi, mv, n).
Definition track0 : Z * Z * Z := (0, 65535, 0).

(* SGM.cc:1169-1194: the copy of the vector and its minimum *)
Definition copy_scan (w h : Z) (vec : list Z) : res (list Z * (Z * Z * Z)) :=
  s <- for_up 0 h (fun row s =>
         for_up 0 w (fun col s =>
           let '(index, buffer, t) := s in
           value <- rd vec index ;;
           buffer <- wr buffer index value ;;
           Ok (index + 1, buffer, track index value t)) s)
       (0, repeat 0 (Z.to_nat (h * w)), track0) ;;
  let '(_, buffer, t) := s in Ok (buffer, t).

(* SGM.cc:1229-1251: the values under the filter; with vertical filtering the step
   between them is the width *)
Definition under (input : list Z) (index at_ size step : Z) : res (list Z) :=
  let mn := if -1 + at_ <? 0 then 0 else -1 in
  let mx := if 1 + at_ >=? size then 0 else 1 in
  for_up mn (mx + 1) (fun k l => v <- rd input (index + k * step) ;; Ok (l ++ [v])) [].

(* SGM.cc:1217-1269: one turn of the smoothing loop *)
Definition smooth (vertical : bool) (w h : Z) (input output : list Z) : res (list Z * (Z * Z * Z)) :=
  s <- for_up 0 h (fun row s =>
         for_up 0 w (fun col s =>
           let '(index, output, t) := s in
           l <- (if vertical then under input index row h w else under input index col w 1) ;;
           let value := u16 (avg l) in
           output <- wr output index value ;;
           Ok (index + 1, output, track index value t)) s)
       (0, output, track0) ;;
  let '(_, output, t) := s in Ok (output, t).

(* SGM.cc:1210-1276: while (min_count > 1) with at most six turns; the turns read
   the buffer and write the vector in turn.  The result: number of turns, vector,
   buffer, minimum. *)
Fixpoint rounds (fuel : nat) (iter w h : Z) (vec buffer : list Z) (t : Z * Z * Z) :
    res (Z * list Z * list Z * (Z * Z * Z)) :=
  let '(_, _, n) := t in
  if n >? 1 then
    match fuel with
    | O => Ok (iter, vec, buffer, t)
    | S fuel =>
        let vertical := negb (iter <? 5) in
        if Z.even iter
        then x <- smooth vertical w h buffer vec ;; rounds fuel (iter + 1) w h (fst x) buffer (snd x)
        else x <- smooth vertical w h vec buffer ;; rounds fuel (iter + 1) w h vec (fst x) (snd x)
    end
  else Ok (iter, vec, buffer, t).

(* SGM.cc:1159-1284 select_best_disparity.  [vec] is the part of the accumulation
   buffer which belongs to the pixel; accesses outside it are flagged.  The result:
   index of the minimum, number of minima, the vector afterwards. *)
Definition select_best (w h : Z) (vec : list Z) : res (Z * Z * list Z) :=
  x <- copy_scan w h vec ;;
  r <- rounds 6 0 w h vec (fst x) (snd x) ;;
  let '(iter, vec, buffer, t) := r in
  vec <- (if (0 <? iter) && (Z.rem iter 2 =? 0)
          then for_up 0 (h * w) (fun i v => b <- rd buffer i ;; wr v i b) vec
          else Ok vec) ;;
  let '(mi, _, n) := t in Ok (mi, n, vec).

(* part of a buffer, and its replacement *)
Definition slice (l : list Z) (s n : Z) : res (list Z) :=
  if (0 <=? s) && (0 <=? n) && (s + n <=? Z.of_nat (length l))
  then Ok (firstn (Z.to_nat n) (skipn (Z.to_nat s) l)) else UB OutOfBounds.
Definition splice (l : list Z) (s : Z) (v : list Z) : list Z :=
  firstn (Z.to_nat s) l ++ v ++ skipn (Z.to_nat s + length v) l.

(* SGM.cc:1286-1407 create_disparity_view; an invalid pixel is None *)
Definition create_view (g : sgm) (starts : img Z) (acc : list Z) : res (img (option (Z * Z)) * list Z) :=
  for_up 0 (orows g) (fun j s =>
    for_up 0 (ocols g) (fun i s =>
      let '(disp, acc) := s in
      b <- get (bnd g) i j ;;
      if box_size b =? 0 then disp <- put disp i j None ;; Ok (disp, acc)
      else
        st <- get starts i j ;;
        vec <- slice acc st (box_size b) ;;
        x <- select_best (bx1 b - bx0 b + 1) (by1 b - by0 b + 1) vec ;;
        let '(mi, _, vec) := x in
        d <- disp_index_to_xy mi b ;;
        disp <- put disp i j (Some d) ;;
        Ok (disp, splice acc st vec)) s)
    (Img (ocols g) (orows g) (fun _ _ => None), acc).

(* SGM.cc:2387-2449 semi_global_matching_func.  [g0] holds the range and the
   penalties, [fits] tells whether buffers for the given boxes are within the memory
   limit, [ev] is the variant of evaluate_path, [cost0] the uninitialised cost
   buffer.  A relation because of the schedules of the threads. *)
Definition frame (g0 : sgm) (kernel : Z) (left right : img Z) (bn : img box) : sgm :=
  let '(c0, c1, (r0, r1)) := output_region g0 kernel (icols left) (irows left) (icols right) (irows right) in
  Sgm (mnx g0) (mny g0) (mxx g0) (mxy g0) (p1 g0) (p2 g0) (c1 - c0 + 1) (r1 - r0 + 1) c0 r0 bn.
Definition matching (g0 : sgm) (kind : cost_kind) (threshold kernel sbx sby : Z) prev fits lm rm (ev : sgm -> eval_fn)
    (cost0 : Z -> list Z) (left right : img Z) (out : img (option (Z * Z))) : Prop :=
  let g1 := frame g0 kernel left right (bnd g0) in
  exists bn ok, populate g1 sbx sby prev fits lm rm = Ok (bn, ok) /\
    let g := frame g0 kernel left right bn in
    if ok : bool then
      exists starts main cost acc acc',
        calc_main_buf_size g = Ok (starts, main) /\
        compute_costs kind threshold kernel left right (minrow g) (minrow g + orows g - 1) (mincol g) (mincol g + ocols g - 1)
          bn (cost0 main) = Ok cost /\
        accum_sgm g (ev g) cost left acc /\
        create_view g starts acc = Ok (out, acc')
    else out = Img (ocols g) (orows g) (fun _ _ => None).
End S.
