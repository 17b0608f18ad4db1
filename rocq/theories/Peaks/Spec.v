(** Peaks of functions on a grid. *)
From Coq Require Import List Bool ZArith QArith.
From Verif Require Import Lib.Base Peaks.Model.
Import ListNotations.
Local Open Scope Z_scope.

(* one of the eight pixels around *)
Definition around (i j i' j' : Z) : Prop := (i', j') <> (i, j) /\ Z.abs (i' - i) <= 1 /\ Z.abs (j' - j) <= 1.
Definition strict_max (f : Z -> Z -> Q) (i j : Z) : Prop := forall i' j', around i j i' j' -> (f i' j' < f i j)%Q.
Definition strict_min (f : Z -> Z -> Q) (i j : Z) : Prop := forall i' j', around i j i' j' -> (f i j < f i' j')%Q.
Definition wanted (t : peak) (f : Z -> Z -> Q) (i j : Z) : Prop :=
  match t with PMax => strict_max f i j | PMin => strict_min f i j | PMinMax => strict_max f i j \/ strict_min f i j end.
(* a peak of its plane, above or below the same pixel of the planes next to it *)
Definition scale_wanted (t : peak) (fm f fp : Z -> Z -> Q) (i j : Z) : Prop :=
  let hi := strict_max f i j /\ (fm i j < f i j)%Q /\ (fp i j < f i j)%Q in
  let lo := strict_min f i j /\ (f i j < fm i j)%Q /\ (f i j < fp i j)%Q in
  match t with PMax => hi | PMin => lo | PMinMax => hi \/ lo end.
(* not at the border *)
Definition inner (w h i j : Z) : Prop := 1 <= i < w - 1 /\ 1 <= j < h - 1.
(* row by row *)
Definition before (p q : point) : Prop := py p < py q \/ (py p = py q /\ px p < px q).
