(** Strips of longitude and bands of latitude. *)
From Coq Require Import List Bool ZArith QArith.
From Verif Require Import Lib.Base.
Import ListNotations.
Local Open Scope Q_scope.

(* the longitude lies, up to full turns, in the strip of six degrees of the zone *)
Definition in_strip (lon : Q) (z : Z) : Prop :=
  exists k : Z, inject_Z (6 * z - 186 - 360 * k) <= lon /\ lon < inject_Z (6 * z - 180 - 360 * k).
(* the letters of the bands from south to north, without I and O *)
Definition letters : list Z := filter (fun c => negb ((c =? 73) || (c =? 79)))%Z [67; 68; 69; 70; 71; 72; 73; 74; 75; 76; 77; 78; 79; 80; 81; 82; 83; 84; 85; 86; 87; 88]%Z.
(* the latitude lies in the band of eight degrees with the number i, from 80 degrees south *)
Definition in_band (lat : Q) (i : Z) : Prop := inject_Z (8 * i - 80) <= lat /\ lat < inject_Z (8 * i - 72).
