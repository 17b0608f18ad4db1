(* Run-time typed image buffers and their conversion: ImageBuffer,
   vw::convert and vw::can_convert (src/vw/Image/ImageResource.h,
   src/vw/Image/ImageResource.cc, src/vw/Image/PixelTypeInfo.cc).

   Memory is a list of bytes (0..255), one for the source and another for the
   destination: the two buffers do not overlap.  Integer channels are stored
   in little-endian order.  A floating-point channel is its bit pattern, and
   floating-point arithmetic is left to the operations of [fops], which are
   arbitrary functions in every theorem. *)
From Coq Require Import ZArith List Bool.
From Verif Require Import Lib.Base.
Import ListNotations.
Local Open Scope Z_scope.

(* PixelTypeInfo.h:584-604, enum ChannelTypeEnum. *)
Inductive ctype : Set :=
  CUnknown | CI8 | CU8 | CI16 | CU16 | CI32 | CU32 | CI64 | CU64
| CF16 | CF32 | CF64 | CBool | CChar | CGen1 | CGen2 | CGen4 | CGen8 | CUser.

(* PixelTypeInfo.h:551-582, enum PixelFormatEnum; VW_PIXEL_GENERIC_n_CHANNEL
   is [PGeneric n]. *)
Inductive pformat : Set :=
  PUnknown | PScalar | PGray | PGrayA | PRGB | PRGBA | PXYZ | PLab
| PUnknownM | PScalarM | PGrayM | PGrayAM | PRGBM | PRGBAM | PXYZM | PLabM
| PGeneric (n : Z) | PUser.

Definition ctype_eq_dec (a b : ctype) : {a = b} + {a <> b}.
Proof. decide equality. Defined.
Definition pformat_eq_dec (a b : pformat) : {a = b} + {a <> b}.
Proof. decide equality; apply Z.eq_dec. Defined.
Definition cteqb (a b : ctype) : bool := if ctype_eq_dec a b then true else false.
Definition pfeqb (a b : pformat) : bool := if pformat_eq_dec a b then true else false.

(* PixelTypeInfo.cc:103-128, channel_size_nothrow (sizeof(bool) = 1). *)
Definition csize0 (t : ctype) : Z :=
  match t with
  | CBool => 1
  | CChar | CI8 | CU8 | CGen1 => 1
  | CI16 | CU16 | CF16 | CGen2 => 2
  | CI32 | CU32 | CF32 | CGen4 => 4
  | CI64 | CU64 | CF64 | CGen8 => 8
  | CUnknown | CUser => 0
  end.

(* PixelTypeInfo.cc:130-134, channel_size. *)
Definition csize (t : ctype) : res Z :=
  if 0 <? csize0 t then Ok (csize0 t) else Throw ArgumentErr.

(* PixelTypeInfo.cc:163-199, num_channels_nothrow. *)
Definition nchan0 (f : pformat) : Z :=
  match f with
  | PScalar | PGray => 1
  | PGrayA | PScalarM | PGrayM => 2
  | PRGB | PXYZ | PLab | PGrayAM => 3
  | PRGBA | PRGBM | PXYZM | PLabM => 4
  | PRGBAM => 5
  | PGeneric n => if (1 <=? n) && (n <=? 13) then n else 0
  | PUnknown | PUnknownM | PUser => 0
  end.

(* PixelTypeInfo.cc:201-206, num_channels. *)
Definition nchan (f : pformat) : res Z :=
  if 0 <? nchan0 f then Ok (nchan0 f) else Throw ArgumentErr.

(* ImageResource.h:42-48, struct ImageFormat. *)
Record format : Set := mkfmt {
  fcols : Z; frows : Z; fplanes : Z;
  fpix : pformat; fchan : ctype; fpre : bool }.

(* ImageResource.h:194-197, struct ImageBuffer; [bdata] is the offset of the
   first byte in the memory of the buffer. *)
Record buffer : Set := mkbuf {
  bdata : Z; bfmt : format; bcs : Z; brs : Z; bps : Z }.

(* ImageResource.h:205-210, the constructor taking the strides from the
   format. *)
Definition buffer_of (f : format) (data : Z) : res buffer :=
  s <- csize (fchan f) ;; n <- nchan (fpix f) ;;
  let cs := s * n in
  let rs := cs * fcols f in
  Ok (mkbuf data f cs rs (rs * frows f)).

(* ImageResource.h:231-237, cropped; the box is given by its minimum and its
   size, which is converted to uint32. *)
Definition cropped (b : buffer) (x y w h : Z) : buffer :=
  let f := bfmt b in
  mkbuf (bdata b + bcs b * x + brs b * y)
        (mkfmt (wrap_u32 w) (wrap_u32 h) (fplanes f) (fpix f) (fchan f) (fpre f))
        (bcs b) (brs b) (bps b).

(* Signedness and number of bits of the integer channel types
   (src/vw/Core/FundamentalTypes.h). *)
Definition int_type (t : ctype) : option (bool * Z) :=
  match t with
  | CI8 => Some (true, 8) | CU8 => Some (false, 8)
  | CI16 => Some (true, 16) | CU16 => Some (false, 16)
  | CI32 => Some (true, 32) | CU32 => Some (false, 32)
  | CI64 => Some (true, 64) | CU64 => Some (false, 64)
  | _ => None
  end.
Definition is_signed (t : ctype) : bool :=
  match int_type t with Some (s, _) => s | None => false end.

(* The channel types with entries in the tables of ImageResource.cc:121-220,
   257-266, 297-306, 345-354, 392-401: every pair of these ten has a
   conversion, no other type occurs. *)
Definition in_table (t : ctype) : bool :=
  match t with
  | CI8 | CU8 | CI16 | CU16 | CI32 | CU32 | CI64 | CU64 | CF32 | CF64 => true
  | _ => false
  end.

(* Conversion to a type modulo its size. *)
Definition norm (t : ctype) (v : Z) : Z :=
  let m := 2 ^ (8 * csize0 t) in
  if is_signed t then (v + m / 2) mod m - m / 2 else v mod m.

(* boost::integer_traits<T>::const_max. *)
Definition int_max (t : ctype) : Z :=
  match int_type t with
  | Some (true, b) => 2 ^ (b - 1) - 1
  | Some (false, b) => 2 ^ b - 1
  | None => 0
  end.
Definition int_min (t : ctype) : Z :=
  match int_type t with Some (true, b) => - 2 ^ (b - 1) | _ => 0 end.

(* Floating-point arithmetic that is not modelled.
   [f_conv s d rescale v]: conversion between an integer and a floating type
   or between two floating types (ImageResource.cc:50-80).
   [f_avg]: mean of floating channels (:274-280).
   [f_mul], [f_div]: premultiplication and its reverse on floating channels
   and on 32- and 64-bit integers (:315-331, 362-378), where the code rounds
   through double.
   [tie_up t v a]: whether v*max/a, when exactly halfway between two
   integers, ends up above (the code divides twice in double, :364-368). *)
Record fops := mkfops {
  f_conv : ctype -> ctype -> bool -> Z -> res Z;
  f_avg : ctype -> list Z -> Z;
  f_mul : ctype -> Z -> Z -> res Z;
  f_div : ctype -> Z -> Z -> res Z;
  tie_up : ctype -> Z -> Z -> bool }.

Section Ops.
Variable fo : fops.

(* ImageResource.cc:50-80 and the tables of :121-220: the conversion
   function of a pair of channel types. *)
Definition conv (s d : ctype) (rescale : bool) (v : Z) : res Z :=
  match int_type s, int_type d with
  | Some _, Some _ =>
      if rescale && cteqb s CU16 && cteqb d CU8 then Ok (norm CU8 (Z.quot v (Z.quot 65535 255)))
      else if rescale && cteqb s CU8 && cteqb d CU16 then Ok (norm CU16 (v * Z.quot 65535 255))
      else Ok (norm d v)
  | _, _ =>
      if cteqb s d then Ok v
      else w <- f_conv fo s d rescale v ;; Ok (norm d w)
  end.

(* ImageResource.cc:231-240, channel_set_max_int and channel_set_max_float
   (the bit pattern of 1.0). *)
Definition set_max (t : ctype) : Z :=
  match t with
  | CF32 => 1065353216
  | CF64 => 4607182418800017408
  | _ => int_max t
  end.

Definition i64_ok (z : Z) : bool := (- 2 ^ 63 <=? z) && (z <=? 2 ^ 63 - 1).
Definition wrap_i64 (z : Z) : Z := (z + 2 ^ 63) mod 2 ^ 64 - 2 ^ 63.

(* ImageResource.cc:274-280, channel_average, with the accumulators of
   Core/FundamentalTypes.h:111-122: 32-bit for 8- and 16-bit channels, signed
   64-bit for the others.  Adding a uint64 channel to the accumulator wraps,
   adding an int64 channel may overflow. *)
Definition average (t : ctype) (l : list Z) : res Z :=
  match int_type t with
  | None => Ok (norm t (f_avg fo t l))
  | Some _ =>
      let acc := fold_left (fun m x => s <- m ;;
        match t with
        | CU64 => Ok (wrap_i64 (s + x))
        | CI64 => if i64_ok (s + x) then Ok (s + x) else UB Overflow
        | _ => Ok (s + x)
        end) l (Ok 0) in
      s <- acc ;; q <- cdiv s (Z.of_nat (length l)) ;; Ok (norm t q)
  end.

(* Nearest integer to n/d, d <> 0; halfway cases away from zero when [up],
   towards zero otherwise. *)
Definition round_quot (up : bool) (n d : Z) : Z :=
  let a := Z.abs n in
  let b := Z.abs d in
  let q := (2 * a + b) / (2 * b) in
  let q := if negb up && ((2 * a + b) mod (2 * b) =? 0) then q - 1 else q in
  Z.sgn n * Z.sgn d * q.

(* Conversion of a rounded double to an integer type: undefined outside the
   range of the type. *)
Definition to_int (t : ctype) (v : Z) : res Z :=
  if (int_min t <=? v) && (v <=? int_max t) then Ok v else UB Overflow.

Definition narrow (t : ctype) : bool :=
  match t with CI8 | CU8 | CI16 | CU16 => true | _ => false end.

(* ImageResource.cc:316-320, one channel of channel_premultiply_int:
   round(v * (alpha / max)).  max is odd, so v*alpha/max is never halfway and
   double rounding cannot change the result for 8- and 16-bit channels. *)
Definition mul1 (t : ctype) (v a : Z) : res Z :=
  if narrow t then to_int t (round_quot true (v * a) (int_max t))
  else w <- f_mul fo t v a ;; Ok (norm t w).

(* ImageResource.cc:364-368, one channel of channel_unpremultiply_int:
   round(v / (alpha / max)); with alpha 0 the quotient is infinite or not a
   number and its conversion to an integer is undefined. *)
Definition div1 (t : ctype) (v a : Z) : res Z :=
  if narrow t then
    if a =? 0 then UB DivByZero
    else to_int t (round_quot (tie_up fo t v a) (v * int_max t) a)
  else w <- f_div fo t v a ;; Ok (norm t w).

Fixpoint mapM (f : Z -> res Z) (l : list Z) : res (list Z) :=
  match l with
  | [] => Ok []
  | x :: l' => y <- f x ;; ys <- mapM f l' ;; Ok (y :: ys)
  end.

(* ImageResource.cc:315-331, channel_premultiply_int/_float: the last channel
   is the alpha channel.  The alpha value is read first, so source and
   destination may be the same pixel. *)
Definition premultiply (t : ctype) (xs : list Z) : res (list Z) :=
  let a := last xs 0 in
  ys <- mapM (fun x => mul1 t x a) (removelast xs) ;; Ok (ys ++ [a]).

(* ImageResource.cc:362-378, channel_unpremultiply_int/_float. *)
Definition unpremultiply (t : ctype) (xs : list Z) : res (list Z) :=
  let a := last xs 0 in
  ys <- mapM (fun x => div1 t x a) (removelast xs) ;; Ok (ys ++ [a]).

(* Bytes of a value, least significant first, and back. *)
Fixpoint to_bytes (n : nat) (v : Z) : list Z :=
  match n with O => [] | S n' => v mod 256 :: to_bytes n' (v / 256) end.
Fixpoint of_bytes (l : list Z) : Z :=
  match l with [] => 0 | b :: l' => b + 256 * of_bytes l' end.

Definition slice (m : list Z) (a n : nat) : list Z := firstn n (skipn a m).
Definition splice (m : list Z) (a : nat) (bs : list Z) : list Z :=
  firstn a m ++ bs ++ skipn (a + length bs) m.

(* Reading and writing one channel through a pointer. *)
Definition in_mem (m : list Z) (a n : Z) : bool :=
  (0 <=? a) && (a + n <=? Z.of_nat (length m)).
Definition load (t : ctype) (m : list Z) (a : Z) : res Z :=
  if in_mem m a (csize0 t)
  then Ok (norm t (of_bytes (slice m (Z.to_nat a) (Z.to_nat (csize0 t)))))
  else UB OutOfBounds.
Definition store (t : ctype) (m : list Z) (a v : Z) : res (list Z) :=
  if in_mem m a (csize0 t)
  then Ok (splice m (Z.to_nat a) (to_bytes (Z.to_nat (csize0 t)) v))
  else UB OutOfBounds.

(* The channels of a pixel, as read by the functions taking a pixel. *)
Definition load_all (t : ctype) (m : list Z) (a n : Z) : res (list Z) :=
  mapM (fun k => load t m (a + k * csize0 t)) (zrange 0 n).
Fixpoint store_all (t : ctype) (m : list Z) (a : Z) (l : list Z) : res (list Z) :=
  match l with
  | [] => Ok m
  | v :: l' => m' <- store t m a v ;; store_all t m' (a + csize0 t) l'
  end.

(* The decisions taken before the loop over the pixels
   (ImageResource.cc:468-507). *)
Record plan : Set := mkplan {
  sct : ctype; dct : ctype; sn : Z; dn : Z; resc : bool;
  unpre_src : bool; pre_src : bool; pre_dst : bool }.

(* ImageResource.cc:474, copy_length. *)
Definition copy_length (sn dn : Z) : Z :=
  if sn =? dn then sn else if sn <? 3 then 1 else if 3 <=? dn then 3 else 0.

(* ImageResource.cc:521-583, one pixel.  [get] reads a channel through
   src_ptr, which points into the source memory or at the adjusted copy.  The
   unrolled cases of :535-557 are the general loop. *)
Definition pixel (p : plan) (sm : list Z) (sa da : Z) (dm : list Z) : res (list Z) :=
  let t := dct p in
  let cv := conv (sct p) t (resc p) in
  buf <- (if unpre_src p then
            xs <- load_all (sct p) sm sa (sn p) ;;
            ys <- unpremultiply (sct p) xs ;; Ok (Some ys)
          else if pre_src p then
            xs <- load_all (sct p) sm sa (sn p) ;;
            ys <- premultiply (sct p) xs ;; Ok (Some ys)
          else Ok None) ;;
  let get ch := match buf with
                | Some l => Ok (nth (Z.to_nat ch) l 0)
                | None => load (sct p) sm (sa + ch * csize0 (sct p))
                end in
  let put ch v m := store t m (da + ch * csize0 t) v in
  dm <- for_up 0 (copy_length (sn p) (dn p)) (fun ch m =>
          v <- get ch ;; w <- cv v ;; put ch w m) dm ;;
  dm <- (if (sn p <? 3) && (3 <=? dn p) then
           v <- get 0 ;; w <- cv v ;; m <- put 1 w dm ;;
           v <- get 0 ;; w <- cv v ;; put 2 w m
         else if (3 <=? sn p) && (dn p <? 3) then
           v0 <- get 0 ;; w0 <- cv v0 ;;
           v1 <- get 1 ;; w1 <- cv v1 ;;
           v2 <- get 2 ;; w2 <- cv v2 ;;
           a <- average t [w0; w1; w2] ;; put 0 a dm
         else Ok dm) ;;
  dm <- (if negb (sn p =? dn p) && (sn p mod 2 =? 0) && (dn p mod 2 =? 0) then
           v <- get (sn p - 1) ;; w <- cv v ;; put (dn p - 1) w dm
         else if (sn p mod 2 =? 1) && (dn p mod 2 =? 0) then
           put (dn p - 1) (set_max t) dm
         else Ok dm) ;;
  if pre_dst p then
    ys <- load_all t dm da (dn p) ;;
    zs <- premultiply t ys ;; store_all t dm da zs
  else Ok dm.

(* ImageResource.cc:476-485, alpha handling.  The second disjunct of
   src_alpha tests the destination format, as the code does. *)
Definition src_alpha (d s : format) : bool :=
  pfeqb (fpix s) PGrayA || pfeqb (fpix d) PRGBA.
Definition dst_alpha (d : format) : bool :=
  pfeqb (fpix d) PGrayA || pfeqb (fpix d) PRGBA.

(* ImageResource.cc:468-507. *)
Definition make_plan (d s : format) (rescale : bool) : res plan :=
  sn <- nchan (fpix s) ;; dn <- nchan (fpix d) ;;
  _ <- csize (fchan s) ;; _ <- csize (fchan d) ;;
  if in_table (fchan s) && in_table (fchan d) then
    Ok (mkplan (fchan s) (fchan d) sn dn rescale
          (src_alpha d s && fpre s && negb (fpre d))
          (src_alpha d s && negb (dst_alpha d) && negb (fpre s))
          (src_alpha d s && dst_alpha d && negb (fpre s) && fpre d))
  else Throw NoImplErr.

(* ImageResource.cc:509-591, the loop over planes, rows and columns of the
   source. *)
Definition convert_pixels (dm : list Z) (dst : buffer) (sm : list Z) (src : buffer)
    (rescale : bool) : res (list Z) :=
  p <- make_plan (bfmt dst) (bfmt src) rescale ;;
  for_up 0 (fplanes (bfmt src)) (fun k dm =>
    for_up 0 (frows (bfmt src)) (fun r dm =>
      for_up 0 (fcols (bfmt src)) (fun c dm =>
        pixel p sm (bdata src + k * bps src + r * brs src + c * bcs src)
                   (bdata dst + k * bps dst + r * brs dst + c * bcs dst) dm)
      dm) dm) dm.

(* ImageResource.cc:438-465: the pairs of different formats accepted. *)
Definition core_format (f : pformat) : bool :=
  match f with PGray | PGrayA | PRGB | PRGBA | PXYZ => true | _ => false end.
Definition generic_pair (a b : pformat) : bool :=
  match a, b with
  | PScalarM, PGrayA | PGrayM, PGrayA | PRGBM, PRGBA => true
  | PGeneric n, PGray => n =? 1
  | PGeneric n, PGrayA => n =? 2
  | PGeneric n, PRGB => n =? 3
  | PGeneric n, PXYZ => n =? 3
  | PGeneric n, PRGBA => n =? 4
  | _, _ => false
  end.
Definition accepted (d s : pformat) : bool :=
  generic_pair s d || generic_pair d s || (core_format s && core_format d).

(* A buffer seen as one plane per channel (ImageResource.cc:421-426,
   430-434). *)
Definition as_planes (b : buffer) (n s : Z) : buffer :=
  let f := bfmt b in
  mkbuf (bdata b) (mkfmt (fcols f) (frows f) n PScalar (fchan f) (fpre f))
        (bcs b) (brs b) s.

(* ImageResource.cc:410-592, convert.  In the recursive calls of :426 and
   :434 both formats are VW_PIXEL_SCALAR and the sizes are equal, so their
   checks pass and only the loop is left; they do not pass [rescale] on. *)
Definition convert (dm : list Z) (dst : buffer) (sm : list Z) (src : buffer)
    (rescale : bool) : res (list Z) :=
  let d := bfmt dst in
  let s := bfmt src in
  if (fcols d =? fcols s) && (frows d =? frows s) then
    if pfeqb (fpix d) (fpix s) then convert_pixels dm dst sm src rescale
    else
      a <- (if pfeqb (fpix s) PScalar && (fplanes d =? 1)
            then n <- nchan (fpix d) ;; Ok (fplanes s =? n) else Ok false) ;;
      if a : bool then
        z <- csize (fchan d) ;;
        convert_pixels dm (as_planes dst (fplanes s) z) sm src false
      else
        b <- (if pfeqb (fpix d) PScalar && (fplanes s =? 1)
              then n <- nchan (fpix s) ;; Ok (fplanes d =? n) else Ok false) ;;
        if b : bool then
          z <- csize (fchan s) ;;
          convert_pixels dm dst sm (as_planes src (fplanes d) z) false
        else if accepted (fpix d) (fpix s)
        then convert_pixels dm dst sm src rescale
        else Throw ArgumentErr
  else Throw ArgumentErr.

End Ops.

(* ImageResource.cc:596-659, can_convert.  The recursive calls of :607-612
   and :614-620 compare two VW_PIXEL_SCALAR formats of the same size. *)
Definition can_convert (d s : format) : res unit :=
  let tables := if in_table (fchan s) && in_table (fchan d) then Ok tt else Throw NoImplErr in
  if (fcols d =? fcols s) && (frows d =? frows s) then
    if pfeqb (fpix d) (fpix s) then tables
    else
      a <- (if pfeqb (fpix s) PScalar && (fplanes d =? 1)
            then n <- nchan (fpix d) ;; Ok (fplanes s =? n) else Ok false) ;;
      if a : bool then tables
      else
        b <- (if pfeqb (fpix d) PScalar && (fplanes s =? 1)
              then n <- nchan (fpix s) ;; Ok (fplanes d =? n) else Ok false) ;;
        if b : bool then tables
        else if accepted (fpix d) (fpix s) then tables
        else Throw ArgumentErr
  else Throw ArgumentErr.

(* ImageResource.h:241-244, ImageBuffer::read: convert( buf, cropped(bbox) ). *)
Definition read (fo : fops) (m : list Z) (self : buffer) (bm : list Z) (buf : buffer)
    (x y w h : Z) : res (list Z) :=
  convert fo bm buf m (cropped self x y w h) false.

(* ImageResource.h:247-249, ImageBuffer::write: convert( cropped(bbox), buf ). *)
Definition write (fo : fops) (m : list Z) (self : buffer) (bm : list Z) (buf : buffer)
    (x y w h : Z) : res (list Z) :=
  convert fo m (cropped self x y w h) bm buf false.
