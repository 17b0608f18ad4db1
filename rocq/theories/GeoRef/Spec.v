(** Points, boxes and transforms, stated without the model's formulas. *)
From Coq Require Import List Bool ZArith QArith Qround.
From Verif Require Import Lib.Base GeoRef.Model.
Import ListNotations.
Local Open Scope Q_scope.

Definition same (p q : pt) : Prop := fst p == fst q /\ snd p == snd q.
Definition same_res (p q : res pt) : Prop :=
  match p, q with Ok p, Ok q => same p q | Throw e, Throw f => e = f | UB u, UB v => u = v | _, _ => False end.
Definition plus (p q : pt) : pt := (fst p + fst q, snd p + snd q).

(* the last row of an affine transform *)
Definition affine (t : mat) : Prop := m20 t == 0 /\ m21 t == 0 /\ m22 t == 1.
(* axes of pixels along the axes of points *)
Definition aligned (t : mat) : Prop := m01 t == 0 /\ m10 t == 0.
(* value of an affine transform at a point *)
Definition maps_to (t : mat) (p q : pt) : Prop :=
  fst q == m00 t * fst p + m01 t * snd p + m02 t /\ snd q == m10 t * fst p + m11 t * snd p + m12 t.
Definition det3 (t : mat) : Q :=
  m00 t * (m11 t * m22 t - m12 t * m21 t) - m01 t * (m10 t * m22 t - m12 t * m20 t) + m02 t * (m10 t * m21 t - m11 t * m20 t).

(* within the closed box *)
Definition within (c : box) (p : pt) : Prop := bxl c <= fst p <= bxh c /\ byl c <= snd p <= byh c.
Definition inbox (b : option box) (p : pt) : Prop := match b with Some c => within c p | None => False end.
Definition nonempty (c : box) : Prop := bxl c < bxh c /\ byl c < byh c.
(* b is the least box around the points that satisfy P *)
Definition least (P : pt -> Prop) (b : option box) : Prop :=
  (forall p, P p -> inbox b p) /\
  match b with
  | None => True
  | Some c => (exists p, P p /\ fst p == bxl c) /\ (exists p, P p /\ fst p == bxh c) /\
              (exists p, P p /\ snd p == byl c) /\ (exists p, P p /\ snd p == byh c)
  end.
(* b is an integer box that holds the least box around the points, upper sides
   excluded, and is less than one wider on each side *)
Definition int_cover (P : pt -> Prop) (b : option box) : Prop :=
  exists l, least P l /\
  match l, b with
  | None, None => True
  | Some l, Some c => exists x y x' y', c = Box (inject_Z x) (inject_Z y) (inject_Z x') (inject_Z y') /\
      inject_Z x <= bxl l < inject_Z (x + 1) /\ inject_Z y <= byl l < inject_Z (y + 1) /\
      inject_Z (x' - 1) <= bxh l < inject_Z x' /\ inject_Z (y' - 1) <= byh l < inject_Z y'
  | _, _ => False
  end.
(* images of the points that can be converted *)
Definition image_of (f : pt -> res pt) (l : list pt) (q : pt) : Prop := exists p, In p l /\ f p = Ok q.

(* a box with integer corners *)
Definition int_box (x y x' y' : Z) : box := Box (inject_Z x) (inject_Z y) (inject_Z x') (inject_Z y').
(* integer point on the perimeter *)
Definition perimeter (x y x' y' i j : Z) : Prop :=
  (x <= i <= x' /\ y <= j <= y' /\ (i = x \/ i = x' \/ j = y \/ j = y'))%Z.

(* middle of the longitudes of a box *)
Definition middle (c : box) : Q := (bxl c + bxh c) * (1 # 2).
(* longitudes that differ by full turns *)
Definition turns (k : Z) (a b : Q) : Prop := a == b + 360 * inject_Z k.
Definition no_ub (f : pt -> res pt) : Prop := forall p u, f p <> UB u.
(* a georeference with transform t, however its longitudes were set *)
Definition georef_of (t : mat) (g : georef) : Prop := exists g0 g1 b, set_transform g0 t = Ok g1 /\ g = set_ll_box g1 b.
(* neither conversion of the projection is undefined *)
Definition total (g : georef) : Prop := no_ub (to_lonlat g) /\ no_ub (to_proj g).
