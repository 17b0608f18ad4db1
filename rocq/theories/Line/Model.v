(* Model of src/vw/Math/BresenhamLine.h.  Coordinates are unbounded integers:
   the differences of 32-bit coordinates are assumed not to overflow. *)
From Coq Require Import ZArith List Lia Bool.
From Verif Require Import Lib.Base.
Import ListNotations.
Local Open Scope Z_scope.

(* BresenhamLine.h:46-50 *)
Record line := Line { lx0 : Z; ly0 : Z; lx1 : Z; ly1 : Z; lx : Z; ly : Z; steep : bool;
                      deltax : Z; deltay : Z; error : Z; ystep : Z }.

(* BresenhamLine.h:55-71, called by both constructors, 77-88 *)
Definition setup (x0 y0 x1 y1 : Z) : line :=
  let st := Z.abs (x1 - x0) <? Z.abs (y1 - y0) in
  let '(x0, y0, x1, y1) := if st then (y0, x0, y1, x1) else (x0, y0, x1, y1) in
  let '(x0, y0, x1, y1) := if x1 <? x0 then (x1, y1, x0, y0) else (x0, y0, x1, y1) in
  let dx := x1 - x0 in
  Line x0 y0 x1 y1 x0 y0 st dx (Z.abs (y1 - y0)) (Z.quot dx 2) (if y0 <? y1 then 1 else -1).

(* BresenhamLine.h:91-96 *)
Definition at_ (l : line) : Z * Z := if steep l then (ly l, lx l) else (lx l, ly l).

(* BresenhamLine.h:99-106 *)
Definition next (l : line) : line :=
  let e := error l - deltay l in
  let '(y, e) := if e <? 0 then (ly l + ystep l, e + deltax l) else (ly l, e) in
  Line (lx0 l) (ly0 l) (lx1 l) (ly1 l) (lx l + 1) y (steep l) (deltax l) (deltay l) e (ystep l).

(* BresenhamLine.h:109 *)
Definition is_good (l : line) : bool := lx l <? lx1 l.

(* The loop every user writes: while (it.is_good()) { visit *it; ++it; } *)
Fixpoint trace (fuel : nat) (l : line) : res (list (Z * Z)) :=
  if is_good l then
    match fuel with
    | O => UB NoTerm
    | S f => r <- trace f (next l) ;; Ok (at_ l :: r)
    end
  else Ok [].
