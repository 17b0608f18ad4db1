From Coq Require Import ZArith List Lia Bool QArith.
From Verif Require Import Lib.Base Lib.Img.
Import ListNotations.
Local Open Scope Z_scope.

(* the sum of f over the pixels with x0 <= x < x1 and y0 <= y < y1 *)
Definition total (f : Z -> Z -> Z) (x0 y0 x1 y1 : Z) : Z :=
  zsum (map (fun y => zsum (map (fun x => f x y) (zrange x0 x1))) (zrange y0 y1)).
Definition block_sum (im : img Z) : Z -> Z -> Z -> Z -> Z := total (pix im).

(* Integers up to 2^24 in absolute value are single precision numbers. *)
Definition single (rnd : Z -> Z) : Prop := forall z, Z.abs z <= 2 ^ 24 -> rnd z = z.

(* The image is dark enough for single precision: the absolute values add up to at
   most 2^24 / 16. *)
Definition dim (im : img Z) : Prop := 16 * total (fun x y => Z.abs (pix im x y)) 0 0 (icols im) (irows im) <= 2 ^ 24.

(* Rounding to 24 significant binary digits, halves to even. *)
Definition round_single (z : Z) : Z :=
  let a := Z.abs z in
  let e := Z.log2 a - 23 in
  if e <=? 0 then z else
    let u := 2 ^ e in let q := a / u in let r := a mod u in
    let q' := if (u <? 2 * r) || ((u =? 2 * r) && Z.odd q) then q + 1 else q in
    Z.sgn z * (q' * u).

(* z is q rounded to the nearest integer, halves away from zero *)
Definition nearest (q : Q) (z : Z) : Prop :=
  (inject_Z z - (1#2) <= q)%Q /\ (q <= inject_Z z + (1#2))%Q /\
  (q == inject_Z z - (1#2) -> 0 < q)%Q /\ (q == inject_Z z + (1#2) -> q < 0)%Q.
