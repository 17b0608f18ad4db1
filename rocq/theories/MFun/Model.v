(** Small numeric functions (src/vw/Math/Functions.h,
    src/vw/Image/RoundAndClamp.h).

    A double is an exact rational, an infinity or not a number; the additions of
    _round are exact here, and in IEEE arithmetic in [round_f]. *)
From Verif Require Import Lib.Base Stats.Model.
From Coq Require Import List Bool ZArith QArith Qround SpecFloat.
Import ListNotations.

(** The integer types. *)
Inductive ity := I8 | U8 | I16 | U16 | I32 | U32 | I64 | U64.

Definition signed (t : ity) : bool := match t with I8 | I16 | I32 | I64 => true | _ => false end.
Definition width (t : ity) : Z := match t with I8 | U8 => 8 | I16 | U16 => 16 | I32 | U32 => 32 | I64 | U64 => 64 end.
Definition tmin (t : ity) : Z := if signed t then (- 2 ^ (width t - 1))%Z else 0%Z.
Definition tmax (t : ity) : Z := if signed t then (2 ^ (width t - 1) - 1)%Z else (2 ^ width t - 1)%Z.
Definition fits (t : ity) (z : Z) : Prop := (tmin t <= z <= tmax t)%Z.
Definition fitsb (t : ity) (z : Z) : bool := (tmin t <=? z)%Z && (z <=? tmax t)%Z.

(** Functions.h 86-90: mod.  Types below 32 bits are promoted to int, where the
    remainder cannot overflow. *)
Definition vw_mod (t : ity) (a b : Z) : res Z :=
  if (b =? 0)%Z then UB DivByZero
  else if signed t && (32 <=? width t)%Z && (a =? tmin t)%Z && (b =? -1)%Z then UB Overflow
  else let m := Z.rem a b in
       Ok (if (b <? 0)%Z then (if (0 <? m)%Z then m + b else m) else (if (m <? 0)%Z then m + b else m))%Z.

(** Conversion of a floating point number to an integer type: truncation,
    undefined if the result does not fit. *)
Definition qtrunc (q : Q) : Z := if Qle_bool 0 q then Qfloor q else Qceiling q.
Definition to_ity (t : ity) (z : Z) : res Z := if fitsb t z then Ok z else UB Overflow.

Definition qlt (a b : Q) : bool := negb (Qle_bool b a).

(** Functions.h 48-51: _round(double). *)
Definition vw_round (v : Q) : res Z :=
  if qlt v 0 then to_ity I32 (qtrunc (v - (1 # 2))) else to_ity I32 (qtrunc (v + (1 # 2))).

(** Functions.h 74-81: _floor(double).  No operation rounds. *)
Definition vw_floor (v : Q) : res Z :=
  if qlt v 0 then
    i <- to_ity I32 (qtrunc v) ;;
    if Qeq_bool (inject_Z i) v then Ok i else to_ity I32 (i - 1)
  else to_ity I32 (qtrunc v).

(** Functions.h 218-222: nextpow2.  The loop ends after at most 31 rounds. *)
Fixpoint nextpow2_loop (fuel : nat) (k : Z) (x : Q) : res Z :=
  match fuel with
  | O => UB NoTerm
  | S fuel =>
      if qlt (inject_Z k) x
      then if fitsb I32 (k * 2) then nextpow2_loop fuel (k * 2) x else UB Overflow
      else Ok k
  end.
Definition nextpow2 (x : Q) : res Z := nextpow2_loop 32 1 x.

(** Functions.h 226-261: hamming_distance.  The loop for 8 and 16 bits clears the
    lowest bit set until none is left; the others count the bits. *)
Fixpoint clear_bits (fuel : nat) (v d : Z) : res Z :=
  match fuel with
  | O => UB NoTerm
  | S fuel => if (v =? 0)%Z then Ok d else clear_bits fuel (Z.land v (v - 1)) (d + 1)
  end.

Definition hamming_small (fuel : nat) (a b : Z) : res Z := clear_bits fuel (Z.lxor a b) 0.

(** __builtin_popcount. *)
Fixpoint popcount_pos (p : positive) : Z :=
  match p with xH => 1 | xO p => popcount_pos p | xI p => 1 + popcount_pos p end.
Definition popcount (z : Z) : Z := match z with Zpos p => popcount_pos p | _ => 0 end.
Definition hamming_large (a b : Z) : Z := popcount (Z.lxor a b).

(** ** IEEE *)

(** _round with IEEE addition: [prec] 53 and [emax] 1024 for double (Functions.h
    48-51), 24 and 128 for float (Functions.h 55-58). *)
Definition sf_neg (x : spec_float) : bool := match x with S754_finite s _ _ => s | S754_infinity s => s | _ => false end.

Definition sf_trunc (x : spec_float) : Z :=
  match x with
  | S754_finite s m e =>
      let a := match e with Zneg p => (Zpos m / 2 ^ Zpos p)%Z | _ => (Zpos m * 2 ^ e)%Z end in
      if s then (- a)%Z else a
  | _ => 0%Z
  end.

Definition sf_of_Z (prec emax : Z) (n e : Z) : spec_float := binary_normalize prec emax n e false.

Definition round_f (prec emax : Z) (v : spec_float) : Z :=
  let h := sf_of_Z prec emax 1 (-1) in
  if sf_neg v then sf_trunc (SFsub prec emax v h) else sf_trunc (SFadd prec emax v h).

(** ** RoundAndClamp.h *)

Inductive dval := Fin (q : Q) | PInf | NInf | NaN.

Definition sf_Q (x : spec_float) : Q :=
  match x with
  | S754_finite s m e =>
      let a := match e with Zneg p => (Zpos m # (2 ^ p)) | _ => inject_Z (Zpos m * 2 ^ e) end in
      if s then - a else a
  | _ => 0
  end.

(** double(std::numeric_limits<IntType>::min()) and max(). *)
Definition dmin (t : ity) : Q := sf_Q (sf_of_Z 53 1024 (tmin t) 0).
Definition dmax (t : ity) : Q := sf_Q (sf_of_Z 53 1024 (tmax t) 0).

(** RoundAndClamp.h 37-50: round_and_clamp. *)
Definition round_and_clamp (t : ity) (v : dval) : res Z :=
  let v := match v with Fin q => Fin (inject_Z (c_round q)) | _ => v end in
  let v := match v with
           | Fin q => if qlt q (dmin t) then Fin (dmin t) else v
           | NInf => Fin (dmin t)
           | _ => v
           end in
  let v := match v with
           | Fin q => if qlt (dmax t) q then Fin (dmax t) else v
           | PInf => Fin (dmax t)
           | _ => v
           end in
  match v with
  | Fin q => to_ity t (qtrunc q)
  | _ => UB Overflow
  end.
