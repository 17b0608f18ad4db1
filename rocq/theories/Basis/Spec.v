(** Right-handed bases and planes. *)
From Coq Require Import List Bool ZArith QArith.
From Verif Require Import Lib.Base Stereo.Model Stereo.Spec.
Import ListNotations.
Local Open Scope Q_scope.

(* norm gives the length of the vector *)
Definition length_of (norm : vec -> Q) (v : vec) : Prop := 0 <= norm v /\ norm v * norm v == sq v.
Definition det (x y z : vec) : Q :=
  vx x * (vy y * vz z - vz y * vy z) - vy x * (vx y * vz z - vz y * vx z) + vz x * (vx y * vy z - vy y * vx z).
(* unit vectors at right angles that turn to the right *)
Definition right_basis (x y z : vec) : Prop :=
  unit x /\ unit y /\ unit z /\ perpendicular x y /\ perpendicular y z /\ perpendicular z x /\ det x y z == 1.
(* two of the coordinates are zero *)
Definition on_axis (v : vec) : Prop := (vx v == 0 /\ vy v == 0) \/ (vy v == 0 /\ vz v == 0) \/ (vx v == 0 /\ vz v == 0).
