From Coq Require Import ZArith Bool.
From Verif Require Import Lib.Base BBox.Box2 Edge.Model.
Local Open Scope Z_scope.

(* An in-memory image of c x r pixels: reads inside give the pixel, reads
   outside are undefined. *)
Definition mem_view {A} (c r : Z) (px : Z -> Z -> A) : view A :=
  View c r (fun i j => if (0 <=? i) && (i <? c) && (0 <=? j) && (j <? r) then Ok (px i j) else UB OutOfBounds).

(* k is the index in [0,n) nearest to i *)
Definition nearest_index (n i k : Z) : Prop :=
  0 <= k < n /\ forall k', 0 <= k' < n -> Z.abs (i - k) <= Z.abs (i - k').
(* k is the index in [0,n) congruent to i *)
Definition periodic_index (n i k : Z) : Prop :=
  0 <= k < n /\ exists q, i = k + q * n.
(* k is the index in [0,n) to which i folds when the line is reflected at 0 and
   n-1, each end pixel appearing once *)
Definition mirror_index (n i k : Z) : Prop :=
  0 <= k < n /\ exists q, i = k + q * (2 * (n - 1)) \/ i = - k + q * (2 * (n - 1)).

(* Image sizes a mode can be used with. *)
Definition mode_ok {A} (m : mode A) (c r : Z) : Prop :=
  match m with
  | MNone | MZero _ | MValue _ => True
  | MConstant | MPeriodic | MCylindrical => 0 < c /\ 0 < r
  | MReflect => 1 < c /\ 1 < r
  end.


(* Extrapolation along each axis from the nearest pixel (ci,cj) with the slope
   of the two outermost pixels on that side. *)
Definition lin_spec (c r : Z) (px : Z -> Z -> Z) (i j : Z) : Z :=
  let ci := Z.max 0 (Z.min i (c - 1)) in
  let cj := Z.max 0 (Z.min j (r - 1)) in
  let sx := if i <? 0 then px 1 cj - px 0 cj else px (c - 1) cj - px (c - 2) cj in
  let sy := if j <? 0 then px ci 1 - px ci 0 else px ci (r - 1) - px ci (r - 2) in
  px ci cj + (i - ci) * sx + (j - cj) * sy.
