(** What control networks should do. *)
From Coq Require Import List ZArith Bool Ascii String.
From Verif Require Import Lib.Base Lib.Str CNet.Model.
Import ListNotations.
Open Scope Z_scope.

(** Measures that count as equal. *)
Definition alike (a b : measure) : Prop :=
  mcol a = mcol b /\ mrow a = mrow b /\ mcol_sigma a = mcol_sigma b /\ mrow_sigma a = mrow_sigma b /\ mimage a = mimage b.

(** Networks made with the constructor and the calls that add and delete points
    and images. *)
Inductive made : network -> Prop :=
| made_new t : made (Net [] [] t)
| made_add p net : made net -> made (add_control_point p net)
| made_adds ps net : made net -> made (add_control_points ps net)
| made_delete i net net' : made net -> delete_control_point i net = Ok net' -> made net'
| made_image x net : made net -> made (fst (add_image_name x net)).

Definition count_of (t : ptype) (net : network) : nat :=
  List.length (filter (fun p => match pptype p, t with
    | GroundControlPoint, GroundControlPoint | TiePoint, TiePoint | PointFromDem, PointFromDem => true | _, _ => false end) (npoints net)).

(** A name of an image is not the name, nor the last part of the name, of another
    one. *)
Definition unambiguous (images : list str) : Prop :=
  forall i j x y, nth_error images i = Some x -> nth_error images j = Some y -> y = x \/ after_last "/"%char y = x -> i = j.

(** Points that can be written. *)
Definition complete (images : list str) (p : point) : Prop :=
  pmeasures p <> [] /\
  forall m, In m (pmeasures p) -> (mimage m < List.length images)%nat /\ 0 < mcol_sigma m /\ 0 < mrow_sigma m.

(** What a file keeps of a measure and of a point. *)
Definition kept_measure (m : measure) : measure := Meas (mcol m) (mrow m) (mcol_sigma m) (mrow_sigma m) (mimage m) false 3.
Definition kept_sigma (s : vec3) : vec3 :=
  V3 (if vx s <=? 0 then 1 else vx s) (if vy s <=? 0 then 1 else vy s) (if vz s <=? 0 then 1 else vz s).
Definition kept_point (p : point) : point :=
  Point (map kept_measure (pmeasures p)) false (pposition p) (kept_sigma (psigma p)) GroundControlPoint.

(** The line of the file for a point. *)
Definition measure_tokens (images : list str) (m : measure) : list tok :=
  match nth_error images (mimage m) with
  | Some x => [Name x; Num (mcol m); Num (mrow m); Num (mcol_sigma m); Num (mrow_sigma m)]
  | None => []
  end.
Definition line_of (geodetic : vec3 -> vec3) (images : list str) (number : Z) (p : point) : list tok :=
  let g := geodetic (pposition p) in let s := kept_sigma (psigma p) in
  [Num number; Num (vy g); Num (vx g); Num (vz g); Num (vx s); Num (vy s); Num (vz s)] ++
  flat_map (measure_tokens images) (pmeasures p).
Fixpoint lines_of (geodetic : vec3 -> vec3) (images : list str) (number : Z) (ps : list point) : list (list tok) :=
  match ps with
  | [] => []
  | p :: ps => line_of geodetic images number p :: lines_of geodetic images (number + 1) ps
  end.

(** An image of the list to which a name refers: by its name or the last part of
    its name. *)
Definition refers (images : list str) (x : str) (j : nat) : Prop :=
  exists y, nth_error images j = Some y /\ (y = x \/ after_last "/"%char y = x).
Fixpoint all_some {X Y} (f : X -> option Y) (l : list X) : list Y :=
  match l with [] => [] | x :: l => match f x with Some y => y :: all_some f l | None => all_some f l end end.
(** What is left of a point when some measures are dropped, and of points when
    those without measures are dropped. *)
Definition kept_with (keep : measure -> option measure) (p : point) : point :=
  Point (all_some keep (pmeasures p)) false (pposition p) (kept_sigma (psigma p)) GroundControlPoint.
Definition with_some_measures (ps : list point) : list point :=
  filter (fun p => match pmeasures p with [] => false | _ => true end) ps.
