(** Polygons and their winding numbers. *)
From Coq Require Import List ZArith QArith Bool Lia.
From Verif Require Import Lib.Base Cut.Model.
Import ListNotations.
Open Scope Q_scope.

(** The edges of a closed polygon. *)
Definition edges (l : list pt) : list (pt * pt) :=
  match l with [] => [] | p :: l' => combine (p :: l') (l' ++ [p]) end.

(** A ray from [q] to the left: edges that cross it upwards count 1, downwards -1. *)
Definition x_at (a b : pt) (y : Q) : Q := fst a + (y - snd a) * (fst b - fst a) / (snd b - snd a).
Definition crossing (q : pt) (e : pt * pt) : Z :=
  let '(a, b) := e in
  if Qle_bool (snd a) (snd q) && ltq (snd q) (snd b) && ltq (x_at a b (snd q)) (fst q) then 1%Z
  else if Qle_bool (snd b) (snd q) && ltq (snd q) (snd a) && ltq (x_at a b (snd q)) (fst q) then (-1)%Z
  else 0%Z.

(** How often a polygon, or several, wind around [q]. *)
Definition sumz {X} (f : X -> Z) (l : list X) : Z := fold_right (fun x s => (f x + s)%Z) 0%Z l.
Definition winding (q : pt) (poly : list pt) : Z := sumz (crossing q) (edges poly).
Definition windings (q : pt) (polys : list (list pt)) : Z := sumz (winding q) polys.

(** The polygons in a list of vertices with the numbers of vertices. *)
Fixpoint polygons (counts : list nat) (pts : list pt) : list (list pt) :=
  match counts with [] => [] | n :: counts => firstn n pts :: polygons counts (skipn n pts) end.

Definition same (p q : pt) : Prop := fst p == fst q /\ snd p == snd q.
Definition inside (xll yll xur yur : Q) (p : pt) : Prop := xll <= fst p <= xur /\ yll <= snd p <= yur.
Definition strictly_inside (xll yll xur yur : Q) (p : pt) : Prop := (xll < fst p /\ fst p < xur) /\ (yll < snd p /\ snd p < yur).
Definition on_border (xll yll xur yur : Q) (p : pt) : Prop := fst p == xll \/ fst p == xur \/ snd p == yll \/ snd p == yur.

(** The point of the edge from [a] to [b] at [t]. *)
Definition point_at (a b : pt) (t : Q) : pt := (fst a + t * (fst b - fst a), snd a + t * (snd b - snd a)).
