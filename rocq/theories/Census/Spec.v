(* What a census code says, independently of how it is computed. *)
From Coq Require Import ZArith List Lia Bool String Ascii.
From Verif Require Import Lib.Base Lib.Img Census.Model.
Import ListNotations.
Local Open Scope Z_scope.

(* The positions marked with a star in a picture, in reading order, relative to
   its centre (h, h). *)
Fixpoint stars (s : string) (x : Z) : list Z :=
  match s with
  | EmptyString => []
  | String c t => if Ascii.eqb c "*"%char then x :: stars t (x + 1) else stars t (x + 1)
  end.
Fixpoint picture (h : Z) (l : list string) (y : Z) : list (Z * Z) :=
  match l with
  | [] => []
  | s :: t => map (fun x => (x - h, y - h)) (stars s 0) ++ picture h t (y + 1)
  end.

Local Open Scope string_scope.
Definition full3 := picture 1 ["***"; "*.*"; "***"] 0.
Definition full5 := picture 2 ["*****"; "*****"; "**.**"; "*****"; "*****"] 0.
Definition full7 := picture 3 ["*******"; "*******"; "*******"; "***.***"; "*******"; "*******"; "*******"] 0.
(* the pictures in the comments of the code *)
Definition star7 := picture 3
 ["*.***.*";
  ".*.*.*.";
  "*.***.*";
  "***.***";
  "*.***.*";
  ".*.*.*.";
  "*.***.*"] 0.
Definition star9 := picture 4
 ["*...*...*";
  ".*.*.*.*.";
  "..*.*.*..";
  ".*..*..*.";
  "*.**.**.*";
  ".*..*..*.";
  "..*.*.*..";
  ".*.*.*.*.";
  "*...*...*"] 0.
Local Close Scope string_scope.

Inductive size := S3 | S5 | S7 | S9.
Definition radius (k : size) : Z := match k with S3 => 1 | S5 => 2 | S7 => 3 | S9 => 4 end.
(* the full windows are coded from the bottom right pixel up, the sparse ones from the top left down *)
Definition binary_pattern (k : size) : list (Z * Z) := match k with S3 => rev full3 | S5 => rev full5 | S7 => rev full7 | S9 => star9 end.
Definition ternary_pattern (k : size) : list (Z * Z) := match k with S3 => rev full3 | S5 => rev full5 | S7 => star7 | S9 => star9 end.
Definition binary_width (k : size) : Z := match k with S3 => 8 | S5 => 32 | S7 => 64 | S9 => 32 end.
Definition ternary_width (k : size) : Z := match k with S3 => 16 | _ => 64 end.

(* the functions by size *)
Definition binary_census (k : size) := match k with S3 => census_3x3 | S5 => census_5x5 | S7 => census_7x7 | S9 => census_9x9 end.
Definition ternary_census (k : size) := match k with S3 => census_ternary_3x3 | S5 => census_ternary_5x5 | S7 => census_ternary_7x7 | S9 => census_ternary_9x9 end.

(* the window lies in the image *)
Definition room (im : img Z) (h col row : Z) : Prop := h <= col < icols im - h /\ h <= row < irows im - h.

(* the neighbour at an offset is brighter than the centre *)
Definition brighter (im : img Z) (col row : Z) (d : Z * Z) : bool := pix im col row <? pix im (col + fst d) (row + snd d).
(* darker by more than t: 0; within t: 1; brighter by more than t: 2 *)
Definition class (t : Z) (im : img Z) (col row : Z) (d : Z * Z) : Z :=
  let v := pix im (col + fst d) (row + snd d) in let c := pix im col row in
  if v <? c - t then 0 else if v <=? c + t then 1 else 2.

(* a number whose binary digits, from the lowest, are the list *)
Definition has_bits (code : Z) (l : list bool) : Prop :=
  0 <= code < 2 ^ Z.of_nat (List.length l) /\ forall i, Z.testbit code (Z.of_nat i) = nth i l false.
