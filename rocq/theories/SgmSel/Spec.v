(* Vocabulary of the statements about the choice of disparities. *)
From Coq Require Import ZArith List Bool.
From Verif Require Import Lib.Base ImgMem.Model Lib.Img Sgm.Model Sgm.Spec SgmBox.Spec.
From Verif Require Census.Spec.
Import ListNotations.
Local Open Scope Z_scope.

Definition u16s (v : list Z) : Prop := Forall (fun z => 0 <= z <= 65535) v.
Definition item (v : list Z) (i : Z) : Z := nth (Z.to_nat i) v 0.
(* Rounded means of up to three values; halves may be rounded either way. *)
Definition mean_ok (avg : list Z -> Z) : Prop :=
  forall l, l <> [] -> (length l <= 3)%nat -> u16s l ->
  2 * Z.abs (Z.of_nat (length l) * avg l - zsum l) <= Z.of_nat (length l).
(* i is the place of the first of the least values of v *)
Definition first_min (v : list Z) (i : Z) : Prop :=
  0 <= i < Z.of_nat (length v) /\
  forall j, 0 <= j < Z.of_nat (length v) -> item v i <= item v j /\ (j < i -> item v i < item v j).
(* number of least values *)
Definition minima (v : list Z) : Z :=
  Z.of_nat (length (filter (fun z => forallb (fun y => z <=? y) v) v)).

(* Vectors as tables of w columns and h rows.  Blurring replaces each value by the
   mean of itself and its neighbours in the row or in the column. *)
Definition cell (w : Z) (v : list Z) (p : Z * Z) : Z := item v (snd p * w + fst p).
Definition three (vertical : bool) (w h x y : Z) : list (Z * Z) :=
  filter (fun p => in_imgb w h (fst p) (snd p))
    (if vertical then [(x, y - 1); (x, y); (x, y + 1)] else [(x - 1, y); (x, y); (x + 1, y)]).
Definition blur (avg : list Z -> Z) (vertical : bool) (w h : Z) (v : list Z) : list Z :=
  flat_map (fun y => map (fun x => avg (map (cell w v) (three vertical w h x y))) (zrange 0 w)) (zrange 0 h).
(* five times along the rows, then along the columns *)
Fixpoint blurred (avg : list Z -> Z) (w h : Z) (n : nat) (v : list Z) : list Z :=
  match n with
  | O => v
  | S n => blur avg (Nat.leb 5 n) w h (blurred avg w h n v)
  end.

(* The local cost of a disparity: in how many comparisons with their neighbours the
   pixel (x,y) of the left and its target in the right image differ.  The ternary
   variant compares classes; with a 5 by 5 window it uses the last 16 of the 24
   neighbours only. *)
Definition used_pattern (k : Census.Spec.size) : list (Z * Z) :=
  match k with Census.Spec.S5 => firstn 16 (Census.Spec.ternary_pattern k) | _ => Census.Spec.ternary_pattern k end.
Definition match_cost (kind : cost_kind) (t : Z) (k : Census.Spec.size) (left right : img Z) (x y : Z) (d : Z * Z) : Z :=
  let x' := x + fst d in let y' := y + snd d in
  match kind with
  | Census => Z.of_nat (length (filter (fun o =>
        xorb (Census.Spec.brighter left x y o) (Census.Spec.brighter right x' y' o)) (Census.Spec.binary_pattern k)))
  | _ => zsum (map (fun o => Z.abs (Census.Spec.class t left x y o - Census.Spec.class t right x' y' o)) (used_pattern k))
  end.
Definition kernel_of (k : Census.Spec.size) : Z := 2 * Census.Spec.radius k + 1.

(* A pixel of the output with its box, local costs and gray value; the sum of the
   costs of the eight paths arriving at a pixel. *)
Definition pixel_site (g : sgm) (cost : Z -> Z -> Z * Z -> Z) (left : img Z) (p : Z * Z) : site :=
  Site (pix (bnd g) (fst p) (snd p)) (cost (fst p + mincol g) (snd p + minrow g))
       (pix left (fst p + mincol g) (snd p + minrow g)).
Definition score (g : sgm) (cost : Z -> Z -> Z * Z -> Z) (left : img Z) (c r : Z) (d : Z * Z) : Z :=
  zsum (map (fun dir => path_cost (range g) (p1 g) (p2 g)
      (map (pixel_site g cost left) (past_pixels (ocols g) (orows g) dir c r)) d) all_directions).

(* The costs f of the disparities of a box, row by row. *)
Definition box_vec (b : box) (f : Z * Z -> Z) : list Z := map f (cells b).
(* What becomes of a pixel with box b and accumulated costs f: after t smoothings
   the first minimum is the chosen disparity. *)
Definition chosen (avg : list Z -> Z) (b : box) (f : Z * Z -> Z) (o : option (Z * Z)) (v' : list Z) : Prop :=
  match o with
  | None => ~ filled b
  | Some d => filled b /\ in_box b d /\ exists t, (t <= 6)%nat /\
      let w := bx1 b - bx0 b + 1 in let h := by1 b - by0 b + 1 in
      v' = blurred avg w h t (box_vec b f) /\ first_min v' (pos b d) /\
      (forall s, (s < t)%nat -> minima (blurred avg w h s (box_vec b f)) > 1) /\
      ((t < 6)%nat -> minima v' = 1)
  end.
