(* Vocabulary of the statements about line iterators: the pixel step of each of the
   eight directions, columns growing to the right and rows growing downwards. *)
From Coq Require Import ZArith.
From Verif Require Import Lib.Base ImgMem.Model.
Local Open Scope Z_scope.

Definition heading (d : dir8) : Z * Z :=
  match d with
  | TL => (-1, -1) | T => (0, -1) | TR => (1, -1)
  | L => (-1, 0) | R => (1, 0)
  | BL => (-1, 1) | B => (0, 1) | BR => (1, 1)
  end.
(* pixel number k of the line from (x,y) in direction d *)
Definition on_line (x y : Z) (d : dir8) (k : Z) : Z * Z := (x + k * fst (heading d), y + k * snd (heading d)).
Definition in_img (w h : Z) (p : Z * Z) : Prop := 0 <= fst p < w /\ 0 <= snd p < h.
