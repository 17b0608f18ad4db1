(* What a subdivision of the search promises. *)
From Coq Require Import ZArith List Bool.
From Verif Require Import Lib.Base Lib.Img BBox.Box2.
Import ListNotations.
Local Open Scope Z_scope.

Section Spec.
Variable D : img (option (Z * Z)).

(* the pixel (x,y) has the disparity d *)
Definition has_disparity (x y : Z) (d : Z * Z) : Prop := Lib.Img.inside D x y /\ pix D x y = Some d.

(* how many of the regions contain the pixel (x,y) *)
Definition inb_b (b : box) (x y : Z) : bool := (x0 b <=? x) && (x <? x1 b) && (y0 b <=? y) && (y <? y1 b).
Definition times_in (l : list (box * box)) (x y : Z) : nat := length (filter (fun r => inb_b (fst r) x y) l).

(* the disparities in and around b reach from u to v *)
Definition near_disparity (b : box) (d : Z * Z) : Prop :=
  exists x y, has_disparity x y d /\ x0 b - 1 <= x < x1 b + 1 /\ y0 b - 1 <= y < y1 b + 1.
Definition tight (b r : box) : Prop := forall u v, inb r u v ->
  exists l h t m, near_disparity b l /\ near_disparity b h /\ near_disparity b t /\ near_disparity b m /\
    fst l <= u <= fst h /\ snd t <= v <= snd m.

(* a list of (region, range of disparities) for the pixels of B *)
Definition covers (B : Z -> Z -> Prop) (l : list (box * box)) : Prop :=
  (forall r x y, In r l -> inb (fst r) x y -> B x y) /\
  (forall x y, (times_in l x y <= 1)%nat) /\
  (forall x y d, B x y -> has_disparity x y d -> exists r, In r l /\ inb (fst r) x y /\ inb (snd r) (fst d) (snd d)) /\
  (forall r, In r l -> tight (fst r) (snd r)).
End Spec.
