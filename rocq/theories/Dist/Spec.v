(* What C24 means.  A distance a is represented by q^2 a^2; v "is" the smaller
   of max_dist = p/q and the Euclidean distance to the nearest pixel of Z. *)
From Coq Require Import ZArith List Lia Bool.
From Verif Require Import Lib.Base Lib.Img.
Local Open Scope Z_scope.

Definition dist2 (x y zx zy : Z) : Z := (x - zx) * (x - zx) + (y - zy) * (y - zy).

Definition capped_distance (Z0 : Z -> Z -> Prop) (p q x y v : Z) : Prop :=
  (v = p * p \/ exists zx zy, Z0 zx zy /\ v = q * q * dist2 x y zx zy) /\
  v <= p * p /\ (forall zx zy, Z0 zx zy -> v <= q * q * dist2 x y zx zy).

(* the pixels bounded_dist regards as valid: nonzero and off the image edge *)
Definition interior_valid (m : img Z) (x y : Z) : Prop :=
  0 < x < icols m - 1 /\ 0 < y < irows m - 1 /\ pix m x y <> 0.
(* all other pixels of the image *)
Definition hole (m : img Z) (V : Z -> Z -> Prop) (x y : Z) : Prop := inside m x y /\ ~ V x y.
(* a hole touching a valid pixel *)
Definition hole_edge (m : img Z) (V : Z -> Z -> Prop) (x y : Z) : Prop :=
  hole m V x y /\ exists x' y', inside m x' y' /\ V x' y' /\ Z.abs (x - x') <= 1 /\ Z.abs (y - y') <= 1.
