(* Tilings: how many boxes of a list contain a pixel. *)
From Coq Require Import ZArith List Bool.
From Verif Require Import BBox.Box2.
Local Open Scope Z_scope.

Definition inbb (b : box) (x y : Z) : bool :=
  (x0 b <=? x) && (x <? x1 b) && (y0 b <=? y) && (y <? y1 b).

(* Number of boxes of l that contain pixel (x,y). *)
Definition ncover (l : list box) (x y : Z) : nat := length (filter (fun b => inbb b x y) l).

(* Every pixel of o is in exactly one box, every other pixel in none. *)
Definition partitions (l : list box) (o : box) : Prop :=
  forall x y, (inb o x y -> ncover l x y = 1%nat) /\ (~ inb o x y -> ncover l x y = 0%nat).

(* Half-open boxes with at least one pixel. *)
Definition has_pixel (b : box) : Prop := x0 b < x1 b /\ y0 b < y1 b.

Definition subset (b o : box) : Prop := forall x y, inb b x y -> inb o x y.
