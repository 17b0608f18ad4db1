(* Model of src/vw/Image/CensusTransform.h and of hamming_distance in
   src/vw/Math/Functions.h.

   Codes are integers reduced modulo 2^w, w being the width of the C++ type.
   Pixel values are integers; threshold +- centre is taken not to overflow int. *)
From Coq Require Import ZArith List Lia Bool.
From Verif Require Import Lib.Base Lib.Img.
Import ListNotations.
Local Open Scope Z_scope.

Definition wr (w z : Z) : Z := z mod 2 ^ w.

(* CensusTransform.h:63-76 *)
Definition census_3x3 (im : img Z) (col row : Z) : res Z :=
  center <- get im col row ;;
  p1 <- get im (col - 1) (row - 1) ;; let o := if center <? p1 then wr 8 (0 + 128) else 0 in
  p2 <- get im col (row - 1) ;; let o := if center <? p2 then wr 8 (o + 64) else o in
  p3 <- get im (col + 1) (row - 1) ;; let o := if center <? p3 then wr 8 (o + 32) else o in
  p4 <- get im (col - 1) row ;; let o := if center <? p4 then wr 8 (o + 16) else o in
  p5 <- get im (col + 1) row ;; let o := if center <? p5 then wr 8 (o + 8) else o in
  p6 <- get im (col - 1) (row + 1) ;; let o := if center <? p6 then wr 8 (o + 4) else o in
  p7 <- get im col (row + 1) ;; let o := if center <? p7 then wr 8 (o + 2) else o in
  p8 <- get im (col + 1) (row + 1) ;; let o := if center <? p8 then wr 8 (o + 1) else o in
  Ok o.

(* CensusTransform.h:86-88, 104-106, 159-162: one position; the state is (output, addend) *)
Definition bin_step (w : Z) (im : img Z) (center c r : Z) (s : Z * Z) : res (Z * Z) :=
  v <- get im c r ;;
  let '(o, a) := s in Ok (if center <? v then wr w (o + a) else o, wr w (a * 2)).
(* CensusTransform.h:178-187, 206-215, 264-273, 326-335: one position, two bits *)
Definition ter_step (w : Z) (im : img Z) (low high c r : Z) (s : Z * Z) : res (Z * Z) :=
  v <- get im c r ;;
  let '(o, a) := s in
  let o' := if low <=? v then (let o1 := wr w (o + a) in if high <? v then wr w (o1 + a * 2) else o1) else o in
  Ok (o', wr w (a * 4)).

(* the double loop of CensusTransform.h:82-90, 100-108, 173-189, 201-217 *)
Definition window (h col row : Z) (step : Z -> Z -> Z * Z -> res (Z * Z)) (s : Z * Z) : res (Z * Z) :=
  for_dn (row + h) (row - h) (fun r =>
    for_dn (col + h) (col - h) (fun c s => if (r =? row) && (c =? col) then Ok s else step c r s)) s.

(* CensusTransform.h:77-92 *)
Definition census_5x5 (im : img Z) (col row : Z) : res Z :=
  center <- get im col row ;; s <- window 2 col row (bin_step 32 im center) (0, 1) ;; Ok (fst s).
(* CensusTransform.h:94-110 *)
Definition census_7x7 (im : img Z) (col row : Z) : res Z :=
  center <- get im col row ;; s <- window 3 col row (bin_step 64 im center) (0, 1) ;; Ok (fst s).

(* the tables cols and rows, CensusTransform.h:134-154 and 298-318 *)
Definition cols9 : list Z :=
  [0; 4; 8;  1; 3; 5; 7;  2; 4; 6;  1; 4; 7;  0; 2; 3; 5; 6; 8;  1; 4; 7;  2; 4; 6;  1; 3; 5; 7;  0; 4; 8].
Definition rows9 : list Z :=
  [0; 0; 0;  1; 1; 1; 1;  2; 2; 2;  3; 3; 3;  4; 4; 4; 4; 4; 4;  5; 5; 5;  6; 6; 6;  7; 7; 7; 7;  8; 8; 8].
(* CensusTransform.h:238-254 *)
Definition cols7 : list Z :=
  [0; 2; 3; 4; 6;  1; 3; 5;  0; 2; 3; 4; 6;  0; 1; 2; 4; 5; 6;  0; 2; 3; 4; 6;  1; 3; 5;  0; 2; 3; 4; 6].
Definition rows7 : list Z :=
  [0; 0; 0; 0; 0;  1; 1; 1;  2; 2; 2; 2; 2;  3; 3; 3; 3; 3; 3;  4; 4; 4; 4; 4;  5; 5; 5;  6; 6; 6; 6; 6].

(* for (int i=0; i<NUM_POSITIONS; ++i) with NUM_POSITIONS = 32 *)
Definition table (cs rs : list Z) (h col row : Z) (step : Z -> Z -> Z * Z -> res (Z * Z)) (s : Z * Z) : res (Z * Z) :=
  for_up 0 32 (fun i s => step (col + nth (Z.to_nat i) cs 0 - h) (row + nth (Z.to_nat i) rs 0 - h) s) s.

(* CensusTransform.h:112-165 *)
Definition census_9x9 (im : img Z) (col row : Z) : res Z :=
  center <- get im col row ;; s <- table cols9 rows9 4 col row (bin_step 32 im center) (0, 1) ;; Ok (fst s).
(* CensusTransform.h:168-191 *)
Definition census_ternary_3x3 (im : img Z) (col row t : Z) : res Z :=
  center <- get im col row ;; s <- window 1 col row (ter_step 16 im (center - t) (center + t)) (0, 1) ;; Ok (fst s).
(* CensusTransform.h:193-219 *)
Definition census_ternary_5x5 (im : img Z) (col row t : Z) : res Z :=
  center <- get im col row ;; s <- window 2 col row (ter_step 64 im (center - t) (center + t)) (0, 1) ;; Ok (fst s).
(* CensusTransform.h:222-275 *)
Definition census_ternary_7x7 (im : img Z) (col row t : Z) : res Z :=
  center <- get im col row ;; s <- table cols7 rows7 3 col row (ter_step 64 im (center - t) (center + t)) (0, 1) ;; Ok (fst s).
(* CensusTransform.h:277-337 *)
Definition census_ternary_9x9 (im : img Z) (col row t : Z) : res Z :=
  center <- get im col row ;; s <- table cols9 rows9 4 col row (ter_step 64 im (center - t) (center + t)) (0, 1) ;; Ok (fst s).

(* Functions.h:206-210 and 219-223: while (val != 0) { ++dist; val &= val - 1; }.
   The counter has the width of the operands.  [n] bounds the number of turns. *)
Fixpoint clear_bits (n : nat) (w dist val : Z) : res Z :=
  if val =? 0 then Ok dist else
  match n with
  | O => UB NoTerm
  | S n' => clear_bits n' w (wr w (dist + 1)) (Z.land val (val - 1))
  end.
(* __builtin_popcount and __builtin_popcountl, by their documentation *)
Fixpoint ones (n : nat) (v : Z) : Z :=
  match n with O => 0 | S n' => Z.b2z (Z.odd v) + ones n' (Z.div2 v) end.
(* Functions.h:201-236, the overload for w-bit operands *)
Definition hamming (w a b : Z) : res Z :=
  let val := Z.lxor a b in
  if w <=? 16 then clear_bits (Z.to_nat w) w 0 val else Ok (ones (Z.to_nat w) val).
