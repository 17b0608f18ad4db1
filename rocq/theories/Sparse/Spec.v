(* What C25 means. *)
From Coq Require Import ZArith List Lia Bool.
From Verif Require Import Lib.Base Lib.Img.
Local Open Scope Z_scope.

Definition placed (A : Type) : Type := Z * Z * img (option A).
(* the patch put at (x0,y0) shows v at image position (i,j) *)
Definition shows {A} (q : placed A) (i j : Z) (v : A) : Prop :=
  let '(x0, y0, p) := q in inside p (i - x0) (j - y0) /\ pix p (i - x0) (j - y0) = Some v.
(* two patches have no valid pixel in common *)
Definition disjoint {A} (q q' : placed A) : Prop :=
  forall i j v v', shows q i j v -> shows q' i j v' -> False.
Definition not_behind {A} (q : placed A) : Prop :=
  let '(x0, y0, p) := q in 0 <= x0 /\ 0 <= y0 /\ 0 <= icols p /\ 0 <= irows p.
