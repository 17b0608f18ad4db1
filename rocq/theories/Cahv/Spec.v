(** What a camera of four vectors shows. *)
From Coq Require Import List Bool ZArith QArith.
From Verif Require Import Lib.Base GeoRef.Model GeoRef.Spec Stereo.Model Stereo.Spec Pinhole.Model Pinhole.Spec Cahv.Model.
Import ListNotations.
Local Open Scope Q_scope.

(* the three vectors do not lie in a plane *)
Definition spread (c : cahv) : Prop := ~ det3 (rows (cA c) (cH c) (cV c)) == 0.
(* the component of what goes from the centre to a point, along a vector *)
Definition toward (c : cahv) (d p : vec) : Q :=
  (vx p - vx (cC c)) * vx d + (vy p - vy (cC c)) * vy d + (vz p - vz (cC c)) * vz d.
(* the axes of a camera: h to the right, v down, a to the front *)
Definition right_handed (h v a : vec) : Prop :=
  unit h /\ unit v /\ unit a /\ perpendicular h v /\ perpendicular h a /\ perpendicular v a /\ det3 (rows h v a) == 1.
Definition lin (k : Q) (u : vec) (l : Q) (w : vec) : vec := V3 (k * vx u + l * vx w) (k * vy u + l * vy w) (k * vz u + l * vz w).
Definition ceq (c d : cahv) : Prop := veq (cC c) (cC d) /\ veq (cA c) (cA d) /\ veq (cH c) (cH d) /\ veq (cV c) (cV d).
(* two pictures are the same, or both are missing *)
Definition osame (a b : option pt) : Prop :=
  match a, b with None, None => True | Some p, Some q => fst p == fst q /\ snd p == snd q | _, _ => False end.
(* unit axes at right angles *)
Definition rows_orthonormal (h v a : vec) : Prop := unit h /\ unit v /\ unit a /\ perpendicular h v /\ perpendicular h a /\ perpendicular v a.
(* a multiple of the part of the base across the sum of the vectors A, and their mean *)
Definition flat (s0 s1 : cahv) : vec := let app := vadd (cA s0) (cA s1) in cross (cross app (vsub (cC s1) (cC s0))) app.
Definition mean_a (s0 s1 : cahv) : vec := V3 ((1 # 2) * (vx (cA s0) + vx (cA s1))) ((1 # 2) * (vy (cA s0) + vy (cA s1))) ((1 # 2) * (vz (cA s0) + vz (cA s1))).
