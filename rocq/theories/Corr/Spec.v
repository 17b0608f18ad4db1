(* What block matching means. *)
From Coq Require Import ZArith List.
From Verif Require Import Lib.Base Lib.Img Corr.Model.
Import ListNotations.
Local Open Scope Z_scope.

(* the sum of f over kx columns and ky rows whose first pixel is (x,y) *)
Definition box_sum (f : Z -> Z -> Z) (x y kx ky : Z) : Z :=
  zsum (map (fun j => zsum (map (fun i => f (x + i) (y + j)) (zrange 0 kx))) (zrange 0 ky)).

(* entry (x,y) of an image of width w kept in row order *)
Definition entry {A} (l : list A) (w x y : Z) (a : A) : Prop := nth_error l (Z.to_nat (y * w + x)) = Some a.

(* the candidates in the order in which they are tried: row by row *)
Definition before (d e : Z * Z) : Prop := snd d < snd e \/ (snd d = snd e /\ fst d < fst e).
Definition candidate (sx sy : Z) (d : Z * Z) : Prop := 0 <= fst d < sx /\ 0 <= snd d < sy.

(* how badly two pixels, and two windows a disparity apart, match *)
Definition mismatch (k : cost) (a b : Z) : Z :=
  match k with ABSOLUTE_DIFFERENCE => Z.abs (a - b) | SQUARED_DIFFERENCE => (a - b) ^ 2 end.
Definition score (k : cost) (left right : Z -> Z -> Z) (kx ky x y : Z) (d : Z * Z) : Z :=
  box_sum (fun i j => mismatch k (left i j) (right (i + fst d) (j + snd d))) x y kx ky.
