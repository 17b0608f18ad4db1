(* Model of src/vw/Image/Grassfire.h: grassfire.  The pixel accessors are
   replaced by their coordinates; output values are unbounded integers (the
   default output type is int32 and the values never exceed cols + rows). *)
From Coq Require Import ZArith List Lia Bool.
From Verif Require Import Lib.Base Lib.Img.
Import ListNotations.
Local Open Scope Z_scope.

(* Grassfire.h:105,118,133,142: the output is 0 on zero input and 1 elsewhere *)
Definition mark (src : img Z) (x y : Z) (dst : img Z) : res (img Z) :=
  s <- get src x y ;; put dst x y (if s =? 0 then 0 else 1).

(* Grassfire.h:123-128, an inner pixel of the forward pass *)
Definition fwd (src : img Z) (x y : Z) (dst : img Z) : res (img Z) :=
  s <- get src x y ;;
  if s =? 0 then put dst x y 0
  else l <- get dst (x - 1) y ;; u <- get dst x (y - 1) ;; put dst x y (1 + Z.min l u).

(* Grassfire.h:153-159, an inner pixel of the backward pass *)
Definition bwd (x y : Z) (dst : img Z) : res (img Z) :=
  d <- get dst x y ;;
  if d =? 0 then Ok dst
  else r <- get dst (x + 1) y ;; l <- get dst x (y + 1) ;;
       let m := Z.min r l in if m <? d then put dst x y (m + 1) else Ok dst.

(* Grassfire.h:98-163, borders count as zero *)
Definition border_mode (src dst : img Z) : res (img Z) :=
  let c := icols src in let r := irows src in
  dst <- for_up 0 c (fun x => mark src x 0) dst ;;
  dst <- for_up 1 (r - 1) (fun y dst =>
           dst <- mark src 0 y dst ;;
           dst <- for_up 1 (c - 1) (fun x => fwd src x y) dst ;;
           mark src (c - 1) y dst) dst ;;
  dst <- for_up 0 c (fun x => mark src x (r - 1)) dst ;;
  for_dn (r - 2) 1 (fun y => for_dn (c - 2) 1 (fun x => bwd x y)) dst.

(* Grassfire.h:177-193, a pixel of the forward pass, borders ignored *)
Definition fwd_i (src : img Z) (init x y : Z) (dst : img Z) : res (img Z) :=
  s <- get src x y ;;
  if s =? 0 then put dst x y 0
  else if 0 <? y then
    (if 0 <? x then l <- get dst (x - 1) y ;; u <- get dst x (y - 1) ;; put dst x y (Z.min l u + 1)
     else u <- get dst x (y - 1) ;; put dst x y (Z.min init (u + 1)))
  else
    (if 0 <? x then l <- get dst (x - 1) y ;; put dst x y (Z.min init (l + 1))
     else put dst x y init).

(* Grassfire.h:208-221, a pixel of the backward pass, borders ignored.  The
   loop counters there run from cols and rows down to 1: [col < cols] says that
   x is not the last column. *)
Definition bwd_i (cols rows init x y : Z) (dst : img Z) : res (img Z) :=
  d <- get dst x y ;;
  if d =? 0 then Ok dst
  else
    m <- (if x + 1 <? cols then r <- get dst (x + 1) y ;; Ok (Z.min d (r + 1)) else Ok d) ;;
    m <- (if y + 1 <? rows then l <- get dst x (y + 1) ;; Ok (Z.min m (l + 1)) else Ok m) ;;
    dst <- put dst x y m ;;
    if init <? m then put dst x y init else Ok dst.

(* Grassfire.h:165-227 *)
Definition ignore_mode (src dst : img Z) : res (img Z) :=
  let c := icols src in let r := irows src in let init := c + r in
  dst <- for_up 0 r (fun y => for_up 0 c (fun x => fwd_i src init x y)) dst ;;
  for_dn (r - 1) 0 (fun y => for_dn (c - 1) 0 (fun x => bwd_i c r init x y)) dst.

(* Grassfire.h:80-228.  [old] is the content of dst after set_size, which is
   arbitrary. *)
Definition grassfire (src : img Z) (old : Z -> Z -> Z) (ignore_borders : bool) : res (img Z) :=
  let dst := Img (icols src) (irows src) old in
  if (icols src <=? 1) || (irows src <=? 1) then Ok (Img (icols src) (irows src) (fun _ _ => 0))
  else if ignore_borders then ignore_mode src dst else border_mode src dst.
