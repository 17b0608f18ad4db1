(* What a box means: a half-open set of integer points. *)
From Coq Require Import ZArith QArith List.
From Verif Require Import BBox.Model.
Local Open Scope Z_scope.

(* A box of dimension n > 0 with both corners of that length. *)
Definition wf (n : nat) (b : bbox) : Prop :=
  (0 < n)%nat /\ length (bmin b) = n /\ length (bmax b) = n.

(* The point p is in the half-open box. *)
Definition inside (b : bbox) (p : list Z) : Prop :=
  length p = length (bmin b) /\ bmin b <> nil /\
  forall i, (i < length p)%nat -> nth i (bmin b) 0 <= nth i p 0 < nth i (bmax b) 0.

(* p and q differ by at most k in each coordinate. *)
Definition within (k : Z) (p q : list Z) : Prop :=
  length p = length q /\
  forall i, (i < length p)%nat -> Z.abs (nth i p 0 - nth i q 0) <= k.

(* q = p + v *)
Definition vadd (p v q : list Z) : Prop :=
  length p = length q /\ length v = length q /\
  forall i, (i < length q)%nat -> nth i q 0 = nth i p 0 + nth i v 0.
