(* What C23 means. *)
From Coq Require Import ZArith List Lia Bool.
From Verif Require Import Lib.Base Lib.Img.
Local Open Scope Z_scope.

Definition manhattan (x y zx zy : Z) : Z := Z.abs (x - zx) + Z.abs (y - zy).

(* the zero locations: zero pixels and, when borders count, every location
   outside the image *)
Definition zero_at (src : img Z) (borders : bool) (zx zy : Z) : Prop :=
  inside src zx zy /\ pix src zx zy = 0 \/ borders = true /\ ~ inside src zx zy.

(* d is the Manhattan distance from (x,y) to the nearest zero location *)
Definition nearest_zero (src : img Z) (borders : bool) (x y d : Z) : Prop :=
  (exists zx zy, zero_at src borders zx zy /\ manhattan x y zx zy = d) /\
  (forall zx zy, zero_at src borders zx zy -> d <= manhattan x y zx zy).
