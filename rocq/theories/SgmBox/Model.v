(* Semi-global matching: the part of the image that can be matched and the search
   box of every pixel.  src/vw/Stereo/SGM.cc.  [int] arithmetic is unbounded here;
   the statistics kept in doubles and all messages are left out. *)
From Coq Require Import ZArith List Bool.
From Verif Require Import Lib.Base Lib.Lists ImgMem.Model Lib.Img BBox.Model Sgm.Model.
Import ListNotations.
Local Open Scope Z_scope.

(* SGM.cc:2397-2420 semi_global_matching_func: the region of the left image for
   which all disparities can be evaluated, first and last column and row *)
Definition output_region (g : sgm) (kernel lw lh rw rh : Z) : Z * Z * (Z * Z) :=
  let half := Z.quot (kernel - 1) 2 in
  let min_row := half - mny g in
  let min_col := half - mnx g in
  let max_row := Z.min (lh - 1 - half) (rh - 1 - (half + mxy g)) in
  let max_col := Z.min (lw - 1 - half) (rw - 1 - (half + mxx g)) in
  let min_row := if min_row <? 0 then 0 else min_row in
  let min_col := if min_col <? 0 then 0 else min_col in
  let max_row := if max_row >? lh - 1 then lh - 1 else max_row in
  let max_col := if max_col >? lw - 1 then lw - 1 else max_col in
  (min_col, max_col, (min_row, max_row)).

(* SGM.cc:298, 507 *)
Definition zero_area : box := Box 0 0 (-1) (-1).
Definition whole_range (g : sgm) : box := Box (mnx g) (mny g) (mxx g) (mxy g).

(* for (i = n; i > 0; --i) if (f(i) > 0) { ..; break; }  SGM.cc:314-320, 344-349 *)
Fixpoint scan_down (f : Z -> res Z) (n : nat) : res (option Z) :=
  match n with
  | O => Ok None
  | S n' => v <- f (Z.of_nat n) ;; if 0 <? v then Ok (Some (Z.of_nat n)) else scan_down f n'
  end.
(* for (i = i; i < i + n; ++i) if (f(i) > 0) { ..; break; }  SGM.cc:321-327, 351-356 *)
Fixpoint scan_up (f : Z -> res Z) (i : Z) (n : nat) : res (option Z) :=
  match n with
  | O => Ok None
  | S n' => v <- f i ;; if 0 <? v then Ok (Some i) else scan_up f (i + 1) n'
  end.

(* SGM.cc:301-330: first and last row with a valid pixel in the right mask; only
   the columns of the output are looked at *)
Definition valid_rows (rm : img Z) (ncols : Z) : res (Z * Z) :=
  for_up 0 ncols (fun c s =>
    let '(mn, mx) := s in
    d <- scan_down (fun i => get rm c i) (Z.to_nat (irows rm - 1)) ;;
    let mx := match d with Some i => if i >? mx then i else mx | None => mx end in
    u <- scan_up (fun i => get rm c i) 0 (Z.to_nat (irows rm)) ;;
    let mn := match u with Some i => if i <? mn then i else mn | None => mn end in
    Ok (mn, mx)) (irows rm - 1, 0).
(* SGM.cc:341-358: first and last column with a valid pixel in row r *)
Definition valid_columns (rm : img Z) (r : Z) : res (Z * Z) :=
  d <- scan_down (fun i => get rm i r) (Z.to_nat (icols rm - 1)) ;;
  match d with
  | Some mx =>
      u <- scan_up (fun i => get rm i r) 0 (Z.to_nat (icols rm)) ;;
      Ok (match u with Some mn => mn | None => -1 end, mx)
  | None => Ok (-1, -2)
  end.

Section S.
Variable g : sgm.
(* m_search_buffer *)
Variables (sbx sby : Z).
(* the prior disparities: None for invalid pixels *)
Variable prev : option (img (option (Z * Z))).

(* SGM.cc:284-287, 385-406: the prior disparity of the pixel in twice the resolution, if it
   is to be trusted *)
Definition prior (c r : Z) : res (option (Z * Z)) :=
  match prev with
  | None => Ok None
  | Some p =>
      ci <- cdiv c 2 ;; ri <- cdiv r 2 ;;
      if (ci >=? icols p) || (ri >=? irows p) then Ok None
      else
        v <- get p ci ri ;;
        match v with
        | None => Ok None
        | Some (dx, dy) =>
            let dx := dx * 2 in let dy := dy * 2 in
            let check_x := mxx g - mnx g + 1 >=? 10 in
            let check_y := mxy g - mny g + 1 >=? 10 in
            let on_edge := (check_x && ((dx <=? mnx g) || (dx >=? mxx g))) ||
                           (check_y && ((dy <=? mny g) || (dy >=? mxy g))) in
            if on_edge then Ok None else Ok (Some (dx, dy))
        end
  end.
(* SGM.cc:410-420 *)
Definition around (dx dy : Z) : box :=
  let b0 := dx - sbx in let b2 := dx + sbx in
  let b1 := dy - sby in let b3 := dy + sby in
  Box (if b0 <? mnx g then mnx g else b0) (if b1 <? mny g then mny g else b1)
      (if b2 >? mxx g then mxx g else b2) (if b3 >? mxy g then mxy g else b3).
(* SGM.cc:432-455: None is "no valid offsets available" *)
Definition restrict (cols rows : Z * Z) (c r : Z) (b : box) : res (option box) :=
  let region := mkB [fst cols; fst rows] [snd cols; snd rows] in
  let offsets := unshift region [c; r] in
  o <- crop offsets (mkB [bx0 b; by0 b] [bx1 b; by1 b]) ;;
  let x0 := nth 0 (bmin o) 0 in let y0 := nth 1 (bmin o) 0 in
  let x1 := nth 0 (bmax o) 0 in let y1 := nth 1 (bmax o) 0 in
  if (x0 >? x1) || (y0 >? y1) then Ok None else Ok (Some (Box x0 y0 x1 y1)).

(* SGM.cc:375-457, the body of the loop over the pixels; [cols] and [rows] are the
   valid part of the right mask, if there is one.  [full] is full_search_image. *)
Definition pixel_bounds (lm : option (img Z)) (rows : option (Z * Z)) (cols : option (Z * Z))
    (c r : Z) (s : img box * img bool) : res (img box * img bool) :=
  let '(bn, full) := s in
  off <- match lm with Some m => v <- get m c r ;; Ok (v =? 0) | None => Ok false end ;;
  if off : bool then bn <- put bn c r zero_area ;; Ok (bn, full)
  else
    p <- prior c r ;;
    bf <- match p with
          | Some (dx, dy) => Ok (around dx dy, full)
          | None => full <- put full c r true ;; Ok (whole_range g, full)
          end ;;
    let '(b, full) := bf in
    match rows, cols with
    | Some rows, Some cols =>
        o <- restrict cols rows c r b ;;
        match o with
        | None => bn <- put bn c r zero_area ;; full <- put full c r false ;; Ok (bn, full)
        | Some b => bn <- put bn c r b ;; Ok (bn, full)
        end
    | _, _ => bn <- put bn c r b ;; Ok (bn, full)
    end.

(* SGM.cc:514-521 *)
Definition look_range (level : Z) : Z :=
  if level =? 1 then 25 else if level =? 2 then 3 else if level =? 3 then 0 else 10.
Definition boxeqb (a b : box) : bool :=
  (bx0 a =? bx0 b) && (by0 a =? by0 b) && (bx1 a =? bx1 b) && (by1 a =? by1 b).
(* SGM.cc:538-640, the body of the loop over the pixels *)
Definition shrink_pixel (level : Z) (full : img bool) (c r : Z) (bn : img box) : res (img box) :=
  let n := look_range level in
  let r0 := if r - n <? 0 then 0 else r - n in
  let r1 := if r + n >=? irows bn then irows bn - 1 else r + n in
  f <- get full c r ;;
  if negb f then Ok bn
  else
    let c0 := if c - n <? 0 then 0 else c - n in
    let c1 := if c + n >=? icols bn then icols bn - 1 else c + n in
    range <- for_up r0 (r1 + 1) (fun rs nr =>
               for_up c0 (c1 + 1) (fun cs nr =>
                 f <- get full cs rs ;;
                 if f : bool then Ok nr
                 else
                   v <- get bn cs rs ;;
                   if boxeqb v zero_area then Ok nr
                   else nr <- grow_point nr [bx0 v; by0 v] ;; grow_point nr [bx1 v; by1 v]) nr)
             (default_int 2) ;;
    if empty range then (if level >? 0 then put bn c r zero_area else Ok bn)
    else
      let range := expand 2 range in
      o <- crop range (mkB [mnx g; mny g] [mxx g; mxy g]) ;;
      put bn c r (Box (nth 0 (bmin o) 0) (nth 1 (bmin o) 0) (nth 0 (bmax o) 0) (nth 1 (bmax o) 0)).
(* SGM.cc:502-672 constrain_disp_bound_image *)
Definition shrink (level : Z) (full : img bool) (bn : img box) : res (img box) :=
  match prev with
  | None => Ok bn
  | Some _ =>
      for_up 0 (irows bn) (fun r b =>
        for_up 0 (icols bn) (fun c b => shrink_pixel level full c r b) b) bn
  end.

(* SGM.cc:475-498: the levels 0 to 3 until the buffers fit in memory; [fits] says
   whether calc_main_buf_size throws.  The result of calc_main_buf_size is never
   zero. *)
Fixpoint try_levels (fits : img box -> bool) (levels : list Z) (full : img bool) (bn : img box) :
    res (img box * bool) :=
  match levels with
  | [] => Ok (bn, false)
  | k :: ks => bn <- shrink k full bn ;;
               if fits bn then Ok (bn, true) else try_levels fits ks full bn
  end.

(* SGM.cc:231-239 populate_constant_disp_bound_image *)
Definition constant_bounds : img box := Img (ocols g) (orows g) (fun _ _ => whole_range g).

(* SGM.cc:241-499 populate_disp_bound_image *)
Definition populate (fits : img box -> bool) (lm rm : option (img Z)) : res (img box * bool) :=
  let w := ocols g in let h := orows g in
  if match lm with Some m => negb ((icols m =? w) && (irows m =? h)) | None => false end then Throw LogicErr
  else if match rm with
          | Some m => negb ((icols m >=? w + ndx g - 1) && (irows m >=? h + ndy g - 1))
          | None => false
          end then Throw LogicErr
  else
    rows <- match rm with Some m => x <- valid_rows m w ;; Ok (Some x) | None => Ok None end ;;
    s <- for_up 0 h (fun r s =>
           cols <- match rm with Some m => x <- valid_columns m r ;; Ok (Some x) | None => Ok None end ;;
           for_up 0 w (fun c s => pixel_bounds lm rows cols c r s) s)
         (constant_bounds, Img w h (fun _ _ => false)) ;;
    try_levels fits [0; 1; 2; 3] (snd s) (fst s).
End S.
