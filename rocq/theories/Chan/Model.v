(** Channel casts (src/vw/Image/PixelTypeInfo.h 240-380). *)
From Verif Require Import Lib.Base Stats.Model MFun.Model.
From Coq Require Import List Bool ZArith QArith SpecFloat.
Import ListNotations.
Local Open Scope Z_scope.

(** Conversion of an integer to an integer type: modulo 2^width (also for signed
    types, as the compilers in use do and C++20 says). *)
Definition convert (t : ity) (z : Z) : Z :=
  let m := z mod 2 ^ width t in
  if signed t && (2 ^ (width t - 1) <=? m) then m - 2 ^ width t else m.

(** The usual arithmetic conversions: small types become int, then the wider
    type, the unsigned one of two of the same width. *)
Definition promote (t : ity) : ity := match t with I8 | U8 | I16 | U16 => I32 | _ => t end.
Definition common (a b : ity) : ity :=
  let a := promote a in let b := promote b in
  if width a <? width b then b
  else if width b <? width a then a
  else if signed a then b else a.

(** [x < y] for operands of the given types. *)
Definition less (a : ity) (x : Z) (b : ity) (y : Z) : bool :=
  let c := common a b in convert c x <? convert c y.

Definition ity_eqb (a b : ity) : bool := (width a =? width b) && Bool.eqb (signed a) (signed b).

(** PixelTypeInfo.h 264-271: ChannelCastFunctor on integers. *)
Definition cast_int (d s : ity) (x : Z) : Z := convert d x.

(** PixelTypeInfo.h 304-316: ChannelCastClampFunctor, from integers; the overload
    for the same type returns its argument. *)
Definition clamp_int (d s : ity) (x : Z) : Z :=
  if ity_eqb d s then x
  else if less d (tmax d) s x then tmax d
  else if less s x d (tmin d) then tmin d
  else convert d x.

(** The same from double.  The bounds are converted to double; conversion of the
    value is undefined if it does not fit. *)
Definition clamp_double (d : ity) (x : dval) : res Z :=
  match x with
  | Fin q => if qlt (dmax d) q then Ok (tmax d) else if qlt q (dmin d) then Ok (tmin d) else to_ity d (qtrunc q)
  | PInf => Ok (tmax d)
  | NInf => Ok (tmin d)
  | NaN => UB Overflow
  end.

(** PixelTypeInfo.h 358-370: ChannelCastRoundClampFunctor from double; _round
    gives an int32, which is then converted. *)
Definition round_clamp_double (d : ity) (x : dval) : res Z :=
  match x with
  | Fin q => if qlt (dmax d) q then Ok (tmax d) else if qlt q (dmin d) then Ok (tmin d) else r <- vw_round q ;; Ok (convert d r)
  | PInf => Ok (tmax d)
  | NInf => Ok (tmin d)
  | NaN => UB Overflow
  end.

(** ** Rescaling, in IEEE arithmetic

    PixelTypeInfo.h 93-113: the range of an integer channel is [0, max], of a
    floating point one [0, 1].  PixelTypeInfo.h 281-297: ChannelCastRescaleFunctor;
    the product is in double whatever the types. *)
Definition dz (z : Z) : spec_float := binary_normalize 53 1024 z 0 false.
Notation dmul := (SFmul 53 1024).
Notation ddiv := (SFdiv 53 1024).

(** From one integer type to another. *)
Definition rescale_int (d s : ity) (x : Z) : res Z :=
  if ity_eqb d s then Ok x
  else to_ity d (sf_trunc (dmul (dz x) (ddiv (dz (tmax d)) (dz (tmax s))))).

(** Conversion between float and double. *)
Definition to_prec (prec emax : Z) (x : spec_float) : spec_float :=
  match x with
  | S754_finite s m e => binary_normalize prec emax (if s then Zneg m else Zpos m) e s
  | _ => x
  end.

(** From an integer to float or double, as a value of that type. *)
Definition rescale_to_double (s : ity) (x : Z) : spec_float := dmul (dz x) (ddiv (dz 1) (dz (tmax s))).
Definition rescale_to_float (s : ity) (x : Z) : spec_float := to_prec 24 128 (rescale_to_double s x).

(** From float or double, clamped to [0, 1] first, to an integer. *)
Definition clamp01 (prec emax : Z) (x : spec_float) : spec_float :=
  let one := binary_normalize prec emax 1 0 false in
  if SFltb one x then one else if SFltb x (S754_zero false) then S754_zero false else x.
Definition rescale_from_double (d : ity) (x : spec_float) : res Z :=
  match x with S754_nan => UB Overflow | _ => to_ity d (sf_trunc (dmul (clamp01 53 1024 x) (ddiv (dz (tmax d)) (dz 1)))) end.
Definition rescale_from_float (d : ity) (x : spec_float) : res Z :=
  match x with S754_nan => UB Overflow | _ => to_ity d (sf_trunc (dmul (to_prec 53 1024 (clamp01 24 128 x)) (ddiv (dz (tmax d)) (dz 1)))) end.
