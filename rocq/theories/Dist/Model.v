(* Model of src/vw/Image/DistanceFunction.cc (bounded_dist) and
   DistanceFunction.h (bounded_signed_dist).

   max_dist is the rational p/q with q > 0 (every finite double is one).
   Distances are stored squared with their sign kept, and scaled by q^2: a value
   v of the code is represented by sign(v) * v^2 * q^2, which is an integer here,
   and min, max and the comparisons with 0 commute with this change of scale.  So
   max_dist is represented by p^2 and sqrt(dsq) by dsq * q^2.  The rounding of
   sqrt and of the products is not modelled. *)
From Coq Require Import ZArith List Lia Bool.
From Verif Require Import Lib.Base Lib.Img.
Import ListNotations.
Local Open Scope Z_scope.

(* DistanceFunction.cc:68,85: c < 0 || c >= cols || r < 0 || r >= rows *)
Definition out_of (cols rows c r : Z) : bool := (c <? 0) || (cols <=? c) || (r <? 0) || (rows <=? r).

(* DistanceFunction.cc:65-77, DistanceFunction.h:80-92: does a pixel of the 3x3
   neighbourhood pass the test?  Both breaks stop at the first success. *)
Definition is_bd_pix (cols rows : Z) (test : Z -> Z -> res bool) (col row : Z) : res bool :=
  for_up (col - 1) (col + 2) (fun c (b : bool) =>
    if b then Ok b else
    for_up (row - 1) (row + 2) (fun r (b : bool) =>
      if b then Ok b else if out_of cols rows c r then Ok b else test c r) b) false.

(* ceil(p/q) (DistanceFunction.cc:41) *)
Definition ceil_div (p q : Z) : Z := - (- p / q).

(* DistanceFunction.cc:89-90 *)
Definition sq_dist (c r col row : Z) : Z := (c - col) * (c - col) + (r - row) * (r - row).

(* DistanceFunction.cc:83-104, DistanceFunction.h:98-117: the pixels closer to
   (col,row) than max_dist are adjusted by [f] *)
Definition window (cols rows p q col row : Z) (f : Z -> Z -> Z -> img Z -> res (img Z)) (d : img Z) : res (img Z) :=
  let n := ceil_div p q in
  for_up (col - n) (col + n + 1) (fun c =>
    for_up (row - n) (row + n + 1) (fun r d =>
      if out_of cols rows c r then Ok d
      else let dsq := sq_dist c r col row in
           if p * p <=? dsq * (q * q) then Ok d else f c r (dsq * (q * q)) d)) d.

(* DistanceFunction.cc:36-111 *)
Definition bounded_dist (image : img Z) (p q : Z) (old : Z -> Z -> Z) : res (img Z) :=
  if p <? 0 then Throw ArgumentErr else
  let cols := icols image in let rows := irows image in
  d <- for_up 0 cols (fun col => for_up 0 rows (fun row d =>
         v <- get image col row ;;
         put d col row (if negb (v =? 0) && (0 <? col) && (col <? cols - 1) && (0 <? row) && (row <? rows - 1)
                        then p * p else 0))) (Img cols rows old) ;;
  for_up 0 cols (fun col => for_up 0 rows (fun row d =>
    v <- get d col row ;;
    if 0 <? v then Ok d else
    b <- is_bd_pix cols rows (fun c r => w <- get d c r ;; Ok (0 <? w)) col row ;;
    if negb b then Ok d else
    window cols rows p q col row (fun c r dq d =>
      w <- get d c r ;; if 0 <? w then put d c r (Z.min w dq) else Ok d) d)) d.

(* DistanceFunction.h:51-125.  The image is its validity: nonzero is valid. *)
Definition bounded_signed_dist (image : img Z) (p q : Z) (old : Z -> Z -> Z) : res (img Z) :=
  if p <? 0 then Throw ArgumentErr else
  let cols := icols image in let rows := irows image in
  let valid c r := v <- get image c r ;; Ok (negb (v =? 0)) in
  d <- for_up 0 cols (fun col => for_up 0 rows (fun row d =>
         b <- valid col row ;; put d col row (if (b : bool) then p * p else - (p * p)))) (Img cols rows old) ;;
  for_up 0 cols (fun col => for_up 0 rows (fun row d =>
    b <- valid col row ;;
    if (b : bool) then Ok d else
    b <- is_bd_pix cols rows valid col row ;;
    if negb b then Ok d else
    window cols rows p q col row (fun c r dq d =>
      b <- valid c r ;; w <- get d c r ;;
      if (b : bool) then put d c r (Z.min w dq) else put d c r (Z.max w (- dq))) d)) d.
