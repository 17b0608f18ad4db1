(* Model of src/vw/InterestPoint/IntegralImage.h and IntegralImage.cc.

   Pixels are integers.  Every float operation is the exact integer operation
   followed by [rnd], the rounding of the float type.  The final division of the
   derivative filters by filter_size^2 is left out: the functions here return the
   dividend.  pixel_cast<PixelGray<float>> is the identity on gray pixels. *)
From Coq Require Import ZArith List Lia Bool QArith.
From Verif Require Import Lib.Base Lib.Img.
Import ListNotations.
Local Open Scope Z_scope.

(* IntegralImage.h:49-60: the first row and the first column *)
Definition zero_edges (i0 : img Z) : res (img Z) :=
  i1 <- put i0 0 0 0 ;;
  i2 <- for_up 1 (icols i0) (fun i m => put m i 0 0) i1 ;;
  for_up 1 (irows i0) (fun i m => put m 0 i 0) i2.

(* IntegralImage.h:74-78; p - 1, p - offset and p - offset - 1 are the pixels to the
   left, above, and above left *)
Definition fill_pixel (rnd : Z -> Z) (src : img Z) (iy ix : Z) (m : img Z) : res (img Z) :=
  v <- get src ix iy ;;
  a <- get m ix (iy + 1) ;; b <- get m (ix + 1) iy ;; c <- get m ix iy ;;
  put m (ix + 1) (iy + 1) (rnd (rnd (rnd (v + a) + b) - c)).

(* IntegralImage.h:38-88; [junk] is the initial content of the allocated image *)
Definition integral_image (rnd : Z -> Z) (junk : Z -> Z -> Z) (src : img Z) : res (img Z) :=
  m <- zero_edges (Img (icols src + 1) (irows src + 1) junk) ;;
  for_up 0 (irows src) (fun iy => for_up 0 (icols src) (fill_pixel rnd src iy)) m.

(* IntegralImage.cc:28-54; the assertions are compiled out of release builds *)
Definition integral_block (rnd : Z -> Z) (I : img Z) (tl br : Z * Z) : res Z :=
  r1 <- get I (fst tl) (snd tl) ;;
  r2 <- get I (fst br) (snd br) ;;
  r3 <- get I (fst tl) (snd br) ;;
  r4 <- get I (fst br) (snd tl) ;;
  Ok (rnd (rnd (rnd (r1 + r2) - r3) - r4)).

(* Vector2i(a, b) from unsigned arithmetic *)
Definition vec (a b : Z) : Z * Z := (wrap_i32 a, wrap_i32 b).

(* IntegralImage.cc:68-99; floor(float(lobe)/2.0) is taken exact *)
Definition x_second (rnd : Z -> Z) (I : img Z) (x y filter_size : Z) : res Z :=
  let lobe := filter_size / 3 in let half := lobe / 2 in
  l <- integral_block rnd I (vec (x - lobe - half) (y - lobe + 1)) (vec (x - half) (y + lobe)) ;;
  m <- integral_block rnd I (vec (x - half) (y - lobe + 1)) (vec (x + half + 1) (y + lobe)) ;;
  r <- integral_block rnd I (vec (x + half + 1) (y - lobe + 1)) (vec (x + half + lobe + 1) (y + lobe)) ;;
  Ok (rnd (rnd (l - rnd (2 * m)) + r)).

(* IntegralImage.cc:113-144 *)
Definition y_second (rnd : Z -> Z) (I : img Z) (x y filter_size : Z) : res Z :=
  let lobe := filter_size / 3 in let half := lobe / 2 in
  t <- integral_block rnd I (vec (x - lobe + 1) (y - lobe - half)) (vec (x + lobe) (y - half)) ;;
  m <- integral_block rnd I (vec (x - lobe + 1) (y - half)) (vec (x + lobe) (y + half + 1)) ;;
  b <- integral_block rnd I (vec (x - lobe + 1) (y + half + 1)) (vec (x + lobe) (y + half + lobe + 1)) ;;
  Ok (rnd (rnd (t - rnd (2 * m)) + b)).

(* IntegralImage.cc:147-180 *)
Definition xy_derivative (rnd : Z -> Z) (I : img Z) (x y filter_size : Z) : res Z :=
  let lobe := filter_size / 3 in
  a <- integral_block rnd I (vec (x - lobe) (y - lobe)) (vec x y) ;;
  b <- integral_block rnd I (vec (x + 1) (y - lobe)) (vec (x + lobe + 1) y) ;;
  c <- integral_block rnd I (vec (x - lobe) (y + 1)) (vec x (y + lobe + 1)) ;;
  d <- integral_block rnd I (vec (x + 1) (y + 1)) (vec (x + 1 + lobe) (y + 1 + lobe)) ;;
  Ok (rnd (rnd (rnd (a - b) - c) + d)).

(* IntegralImage.cc:57-65, 102-110 *)
Definition x_first (I : img Z) (x y filter_size : Z) : res Z := Throw NoImplErr.
Definition y_first (I : img Z) (x y filter_size : Z) : res Z := Throw NoImplErr.

(* C's round: to the nearest integer, halves away from zero *)
Definition round_q (q : Q) : Z :=
  let n := Qnum q in let d := Z.pos (Qden q) in
  if 0 <=? n then (2 * n + d) / (2 * d) else - ((2 * - n + d) / (2 * d)).

(* IntegralImage.h:133-164: the overload for integral coordinates; size/2 is taken exact *)
Definition h_haar (rnd : Z -> Z) (I : img Z) (x y : Z) (size : Q) : res Z :=
  let half := round_q (size / 2) in
  let isz := 2 * half in
  let top := round_q (inject_Z y - size / 2) in
  let left := round_q (inject_Z x - size / 2) in
  p1 <- get I left top ;; p2 <- get I (left + half) top ;; p3 <- get I (left + isz) top ;;
  p4 <- get I left (top + isz) ;; p5 <- get I (left + half) (top + isz) ;; p6 <- get I (left + isz) (top + isz) ;;
  Ok (rnd (rnd (rnd (rnd (rnd (- p1 + rnd (2 * p2)) - p3) + p4) - rnd (2 * p5)) + p6)).

(* IntegralImage.h:174-205 *)
Definition v_haar (rnd : Z -> Z) (I : img Z) (x y : Z) (size : Q) : res Z :=
  let half := round_q (size / 2) in
  let isz := 2 * half in
  let top := round_q (inject_Z y - size / 2) in
  let left := round_q (inject_Z x - size / 2) in
  p1 <- get I left top ;; p2 <- get I (left + isz) top ;; p3 <- get I left (top + half) ;;
  p4 <- get I (left + isz) (top + half) ;; p5 <- get I left (top + isz) ;; p6 <- get I (left + isz) (top + isz) ;;
  Ok (rnd (rnd (rnd (rnd (rnd (- p1 + p2) + rnd (2 * p3)) - rnd (2 * p4)) - p5) + p6)).
