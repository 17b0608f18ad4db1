(* Model of memory layout and iteration of in-memory images:
   src/vw/Image/ImageView.h, PixelIterator.h, ImageViewBase.h.
   Simplifications: the pixel buffer is a list; an allocation either succeeds
   or fails as given by a flag; sharing of buffers between copies is not
   modelled. *)
From Coq Require Import ZArith List Lia Bool.
From Verif Require Import Lib.Base.
Import ListNotations.
Local Open Scope Z_scope.

(* int32 multiplication: signed overflow is undefined. *)
Definition mul32 (a b : Z) : res Z := if i32_okb (a * b) then Ok (a * b) else UB Overflow.

(* ImageView.h:72-75 *)
Record img (A : Type) := Img { icols : Z; irows : Z; iplanes : Z; rstride : Z; pstride : Z; idata : list A }.
Arguments Img {A}. Arguments icols {A}. Arguments irows {A}. Arguments iplanes {A}.
Arguments rstride {A}. Arguments pstride {A}. Arguments idata {A}.

(* ImageView.h:91-93 *)
Definition img0 {A} : img A := Img 0 0 0 0 0 [].

(* ImageView.h:178-180 *)
Definition MAX_SIDE : Z := 80000.
Definition MAX_PLANES : Z := 1024.
Definition MAX_TOTAL : Z := 6400000000.

(* ImageView.h:175-240 for a fundamental pixel type (memset in 237-239); [z] is
   the all-zero-bytes pixel, [alloc] says whether operator new succeeds.  The
   byte count of the memset is m_rows*m_cols*m_planes in int, times the size of
   a pixel in size_t. *)
Definition set_size {A} (z : A) (alloc : bool) (im : img A) (c r p : Z) : res (img A) :=
  if (c =? icols im) && (r =? irows im) && (p =? iplanes im) then Ok im
  else if negb ((c >=? 0) && (r >=? 0) && (p >=? 0)) then Throw ArgumentErr
  else if negb ((c <? MAX_SIDE) && (r <? MAX_SIDE)) then Throw ArgumentErr
  else if negb (p <? MAX_PLANES) then Throw ArgumentErr
  else if negb (c * r * p <? MAX_TOTAL) then Throw ArgumentErr
  else if negb (c * r * p =? 0) && negb alloc then Throw ArgumentErr
  else
    ps <- mul32 r c ;;
    rc <- mul32 r c ;;
    n <- mul32 rc p ;;
    Ok (Img c r p c ps (repeat z (Z.to_nat n))).

(* ImageView.h:249-254 *)
Definition reset {A} (im : img A) : img A := img0.

(* ImageView.h:171: offset of an element; int32 * ssize_t is computed in 64 bits *)
Definition offset {A} (im : img A) (c r p : Z) : Z := c + r * rstride im + p * pstride im.

(* ImageView.h:271-279: strides handed out to I/O code, in units of sizeof(PixelT) *)
Definition buffer_strides {A} (im : img A) : Z * Z * Z := (1, icols im, icols im * irows im).

(* A client that creates an image and changes its size any number of times. *)
Inductive sop := SSize (c r p : Z) | SReset.
Fixpoint run {A} (z : A) (alloc : bool) (ops : list sop) (im : img A) : res (img A) :=
  match ops with
  | [] => Ok im
  | SSize c r p :: t => im <- set_size z alloc im c r p ;; run z alloc t im
  | SReset :: t => run z alloc t (reset im)
  end.

(* ------------------------------------------------------------------ *)
(* PixelIterator.h:67-69 *)
Record iter := It { it_w : Z; it_h : Z; it_idx : Z; it_ppp : Z }.

(* PixelIterator.h:88-92: r*m_width is an int32 product *)
Definition mk_iter (w h c r p : Z) : res iter :=
  rw <- mul32 r w ;; Ok (It w h (p * (w * h) + rw + c) (w * h)).
(* ImageViewBase.h:70-76 *)
Definition it_begin (w h : Z) : res iter := mk_iter w h 0 0 0.
Definition it_end (w h planes : Z) : res iter := mk_iter w h 0 0 planes.

(* PixelIterator.h:72-78 *)
Definition it_equal (a b : iter) : bool := it_idx a =? it_idx b.
Definition it_dist (a b : iter) : Z := it_idx b - it_idx a.
Definition it_inc (a : iter) : iter := It (it_w a) (it_h a) (it_idx a + 1) (it_ppp a).
Definition it_dec (a : iter) : iter := It (it_w a) (it_h a) (it_idx a - 1) (it_ppp a).
Definition it_adv (a : iter) (n : Z) : iter := It (it_w a) (it_h a) (it_idx a + n) (it_ppp a).

(* PixelIterator.h:122-132: the cast to int32 precedes the division *)
Definition it_col (a : iter) : res Z := m <- crem (it_idx a) (it_ppp a) ;; crem (wrap_i32 m) (it_w a).
Definition it_row (a : iter) : res Z := m <- crem (it_idx a) (it_ppp a) ;; cdiv (wrap_i32 m) (it_w a).
Definition it_plane (a : iter) : res Z := q <- cdiv (it_idx a) (it_ppp a) ;; Ok (wrap_i32 q).

(* for (it = begin; it != end; ++it) visiting (col,row,plane) *)
Fixpoint walk (fuel : nat) (it fin : iter) : res (list (Z * Z * Z)) :=
  match fuel with
  | O => UB NoTerm
  | S f =>
    if it_equal it fin then Ok []
    else
      c <- it_col it ;; r <- it_row it ;; p <- it_plane it ;;
      l <- walk f (it_inc it) fin ;; Ok ((c, r, p) :: l)
  end.

(* PixelIterator.h:148, 152-164 *)
Inductive dir8 := TL | T | TR | L | R | BL | B | BR.
Definition dcol (d : dir8) : Z := match d with TL | L | BL => -1 | T | B => 0 | TR | R | BR => 1 end.
Definition drow (d : dir8) : Z := match d with TL | T | TR => -1 | L | R => 0 | BL | B | BR => 1 end.
(* PixelIterator.h:207-210 *)
Record liter := LIt { l_col : Z; l_row : Z; l_w : Z; l_h : Z; l_dc : Z; l_dr : Z }.
Definition mk_line (x y : Z) (d : dir8) (w h : Z) : liter := LIt x y w h (dcol d) (drow d).
(* PixelIterator.h:176-196 *)
Definition l_good (a : liter) : bool :=
  (l_col a >=? 0) && (l_row a >=? 0) && (l_col a <? l_w a) && (l_row a <? l_h a).
Definition l_equal (a b : liter) : bool := (l_col a =? l_col b) && (l_row a =? l_row b).
Definition l_dist (a b : liter) : res Z :=
  if negb (l_dc a =? 0) then cdiv (l_col b - l_col a) (l_dc a) else cdiv (l_row b - l_row a) (l_dr a).
Definition l_inc (a : liter) : liter := LIt (l_col a + l_dc a) (l_row a + l_dr a) (l_w a) (l_h a) (l_dc a) (l_dr a).
Definition l_dec (a : liter) : liter := LIt (l_col a - l_dc a) (l_row a - l_dr a) (l_w a) (l_h a) (l_dc a) (l_dr a).
Definition l_adv (a : liter) (n : Z) : liter :=
  LIt (l_col a + n * l_dc a) (l_row a + n * l_dr a) (l_w a) (l_h a) (l_dc a) (l_dr a).
(* The usual loop: while (it.is_good()) { use *it; ++it; } *)
Fixpoint l_walk (fuel : nat) (a : liter) : res (list (Z * Z)) :=
  match fuel with
  | O => UB NoTerm
  | S f => if l_good a then l <- l_walk f (l_inc a) ;; Ok ((l_col a, l_row a) :: l) else Ok []
  end.
