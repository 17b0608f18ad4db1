(** What the theorems about interpolation and transforms are stated with. *)
From Coq Require Import List Bool ZArith QArith Qround.
From Verif Require Import Lib.Base Lib.Img BBox.Model BBox.Box2 Warp.Model.
Local Open Scope Q_scope.

(* an image that has a pixel everywhere *)
Definition whole (f : Z -> Z -> px) : view := fun x y => Ok (f x y).

(* the channel can hold the value *)
Definition storable (c : chan) (q : Q) : Prop :=
  match c with Real => True | Int lo hi => exists z, (lo <= z <= hi)%Z /\ q == inject_Z z end.

(* the pixels of a square of [n] by [n] from (x,y) on *)
Definition square (P : Z -> Z -> Prop) (x y n : Z) : Prop :=
  forall i j, (x <= i < x + n)%Z -> (y <= j < y + n)%Z -> P i j.

(* polynomials *)
Definition quadratic (a b c t : Q) : Q := a + b * t + c * (t * t).

Definition off_grid (i j : Q) : Prop := ~ (inject_Z (Qfloor i) == i /\ inject_Z (Qfloor j) == j).

(* points *)
Definition peq (p q : pt) : Prop := fst p == fst q /\ snd p == snd q.
Definition respects (f : pt -> pt) : Prop := forall p q, peq p q -> peq (f p) (f q).
Definition inverses (t : transform) : Prop :=
  forall p, peq (forward t (reverse t p)) p /\ peq (reverse t (forward t p)) p.

(* the half-open box of pixels holds a point, as a range of coordinates *)
Definition holds (b : box) (p : pt) : Prop :=
  (inject_Z (x0 b) <= fst p /\ fst p < inject_Z (x1 b)) /\ (inject_Z (y0 b) <= snd p /\ snd p < inject_Z (y1 b)).
Definition within (a b : box) : Prop :=
  (x0 b <= x0 a /\ x1 a <= x1 b /\ y0 b <= y0 a /\ y1 a <= y1 b)%Z.
(* the smallest box of pixels with all the points of a set *)
Definition smallest (P : pt -> Prop) (b : box) : Prop :=
  (forall p, P p -> holds b p) /\ (forall b', (forall p, P p -> holds b' p) -> within b b').
(* the same for closed boxes of real coordinates *)
Definition qholds (b : qbox) (p : pt) : Prop := (qx0 b <= fst p <= qx1 b) /\ (qy0 b <= snd p <= qy1 b).
Definition qsmallest (P : pt -> Prop) (b : qbox) : Prop :=
  (forall p, P p -> qholds b p) /\
  (forall b', (forall p, P p -> qholds b' p) -> (qx0 b' <= qx0 b /\ qx1 b <= qx1 b') /\ (qy0 b' <= qy0 b /\ qy1 b <= qy1 b')).
Definition qbox_eq (a b : qbox) : Prop := (qx0 a == qx0 b /\ qx1 a == qx1 b) /\ (qy0 a == qy0 b /\ qy1 a == qy1 b).

(* the images under [f] of the pixels of a box, of its border, of its corners *)
Definition image_of (f : pt -> pt) (b : box) (p : pt) : Prop := exists x y, inb b x y /\ p = f (at_pix x y).
Definition border (b : box) (x y : Z) : Prop :=
  inb b x y /\ (x = x0 b \/ x = x1 b - 1 \/ y = y0 b \/ y = y1 b - 1)%Z.
Definition image_of_border (f : pt -> pt) (b : box) (p : pt) : Prop := exists x y, border b x y /\ p = f (at_pix x y).
Definition corner (b : box) (x y : Z) : Prop :=
  (x = x0 b \/ x = x1 b - 1)%Z /\ (y = y0 b \/ y = y1 b - 1)%Z.

(* each coordinate of a transformed pixel lies between those of two transformed corners *)
Definition between_corners (f : pt -> pt) (b : box) : Prop :=
  forall x y, inb b x y ->
    (exists cx cy dx dy, corner b cx cy /\ corner b dx dy /\
       fst (f (at_pix cx cy)) <= fst (f (at_pix x y)) <= fst (f (at_pix dx dy))) /\
    (exists cx cy dx dy, corner b cx cy /\ corner b dx dy /\
       snd (f (at_pix cx cy)) <= snd (f (at_pix x y)) <= snd (f (at_pix dx dy))).

(* no coordinate beyond the range of the boxes *)
Definition in_range (f : pt -> pt) (b : box) : Prop :=
  forall x y, inb b x y ->
    (- inject_Z (i32_max - 1) <= fst (f (at_pix x y)) <= inject_Z (i32_max - 1)) /\
    (- inject_Z (i32_max - 1) <= snd (f (at_pix x y)) <= inject_Z (i32_max - 1)).

Definition affine_map (f : pt -> pt) : Prop :=
  exists a b c a' b' c', forall p, peq (f p) (a * fst p + b * snd p + c, a' * fst p + b' * snd p + c').

(* the mean of a function at the four nodes of the coarser table around (x,y):
   along an axis where the index is even there is only one such node *)
Definition lower_even (x : Z) : Z := (x - x mod 2)%Z.
Definition upper_even (x : Z) : Z := (x + x mod 2)%Z.
Definition place (b : box) (m x y : Z) : pt :=
  (inject_Z (x0 b) + inject_Z x / inject_Z m * inject_Z (x1 b - x0 b),
   inject_Z (y0 b) + inject_Z y / inject_Z m * inject_Z (y1 b - y0 b)).
Definition coarse_mean (f : pt -> pt) (b : box) (m x y : Z) : pt :=
  let p00 := f (place b m (lower_even x) (lower_even y)) in
  let p10 := f (place b m (upper_even x) (lower_even y)) in
  let p01 := f (place b m (lower_even x) (upper_even y)) in
  let p11 := f (place b m (upper_even x) (upper_even y)) in
  ((fst p00 + fst p10 + fst p01 + fst p11) * (1 # 4), (snd p00 + snd p10 + snd p01 + snd p11) * (1 # 4)).
Definition distance2 (p q : pt) : Q := (fst p - fst q) * (fst p - fst q) + (snd p - snd q) * (snd p - snd q).

(* the first denominator of a homography at a point *)
Definition depth (h : mat3) (p : pt) : Q := h20 h * fst p + h21 h * snd p + h22 h.
(* it has one sign at the four corners of a box *)
Definition one_sign (h : mat3) (b : box) : Prop :=
  (forall cx cy, corner b cx cy -> 0 < depth h (at_pix cx cy)) \/ (forall cx cy, corner b cx cy -> depth h (at_pix cx cy) < 0).
(* refining to [m] cells changes no node by more than the tolerance *)
Definition accurate (f : pt -> pt) (b : box) (tol : Q) (m : Z) : Prop :=
  forall x y, (0 <= x <= m)%Z -> (0 <= y <= m)%Z ->
    distance2 (f (place b m x y)) (coarse_mean f b m x y) <= tol * tol.
