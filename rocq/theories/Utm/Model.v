(** UTM zones (src/vw/Cartography/Utm.cc).

    Longitudes and latitudes are exact rationals, [None] what is not a number or not
    finite.  Letters are ASCII codes. *)
From Coq Require Import List Bool ZArith QArith Qround.
From Verif Require Import Lib.Base GeoRef.Model.
Import ListNotations.
Local Open Scope Q_scope.

(* Utm.cc:35-36 the two loops; the count bounds the rounds and is always enough *)
Fixpoint raise (n : nat) (x : Q) : Q := match n with O => x | S n => if ltq x (-(180)) then raise n (x + 360) else x end.
Fixpoint lower (n : nat) (x : Q) : Q := match n with O => x | S n => if ltq 180 x then lower n (x - 360) else x end.
Definition rounds (x : Q) : nat := Z.to_nat (Qceiling (qabs x)).

(* Utm.cc:29-38 getLongitudeZone *)
Definition longitude_zone (lon : option Q) : res Z :=
  match lon with
  | None => Throw ArgumentErr
  | Some x =>
      let x := raise (rounds x) x in
      let x := lower (rounds x) x in
      Ok (trunc ((x + 180) / 6) + 1)%Z
  end.

(* Utm.cc:45 the letters CDEFGHJKLMNPQRSTUVWX and the zero at the end of the string *)
Definition bands : list Z := [67; 68; 69; 70; 71; 72; 74; 75; 76; 77; 78; 80; 81; 82; 83; 84; 85; 86; 87; 88; 0]%Z.
(* Utm.cc:40-52 getLatitudeBand; the conversion of what is not a number is undefined *)
Definition latitude_band (lat : option Q) : res Z :=
  match lat with
  | None => UB OutOfBounds
  | Some y =>
      let y := if ltq y (-(90)) then -(90) else y in
      let y := if ltq 90 y then 90 else y in
      if ltq y (-(80)) then Ok 65%Z
      else if ltq 84 y then Ok 90%Z
      else
        let i := trunc ((y + 80) / 8) in
        match nth_error bands (Z.to_nat i) with Some c => Ok c | None => UB OutOfBounds end
  end.

(* Utm.cc:56-75 getUTMZone; the longitude is the one before it is brought into the range *)
Definition utm_zone (lat lon : option Q) : res Z :=
  zone <- longitude_zone lon ;;
  band <- latitude_band lat ;;
  match lon with
  | None => Ok zone
  | Some x =>
      let zone := if (band =? 86)%Z && (zone =? 31)%Z && Qle_bool 3 x then 32%Z else zone in
      Ok (if (band =? 88)%Z then
            if Qle_bool 0 x && ltq x 9 then 31
            else if Qle_bool 9 x && ltq x 21 then 33
            else if Qle_bool 21 x && ltq x 33 then 35
            else if Qle_bool 33 x && ltq x 42 then 37
            else zone
          else zone)%Z
  end.
