(** Lines, rays and distances in space. *)
From Coq Require Import List Bool ZArith QArith.
From Verif Require Import Lib.Base GeoRef.Model Stereo.Model.
Import ListNotations.
Local Open Scope Q_scope.

Definition veq (a b : vec) : Prop := vx a == vx b /\ vy a == vy b /\ vz a == vz b.
Definition sq (a : vec) : Q := vx a * vx a + vy a * vy a + vz a * vz a.
Definition dist2 (a b : vec) : Q := sq (vsub a b).
Definition unit (d : vec) : Prop := sq d == 1.
(* the point of a line at a parameter *)
Definition at_ (c d : vec) (s : Q) : vec := V3 (vx c + s * vx d) (vy c + s * vy d) (vz c + s * vz d).
Definition on_line (c d p : vec) : Prop := exists s, veq p (at_ c d s).
(* one is a multiple of the other *)
Definition parallel (d e : vec) : Prop := exists j k, ~ (j == 0 /\ k == 0) /\ veq (vscale j d) (vscale k e).
Definition perpendicular (a b : vec) : Prop := vx a * vx b + vy a * vy b + vz a * vz b == 0.
(* half-way *)
Definition midpoint (p a b : vec) : Prop := vx p + vx p == vx a + vx b /\ vy p + vy p == vy a + vy b /\ vz p + vz p == vz a + vz b.

(* m is the square of the distance of p from the line *)
Definition line_dist2 (p : vec) (r : vec * vec) (m : Q) : Prop :=
  (exists s, m == dist2 p (at_ (snd r) (fst r) s)) /\ forall s, m <= dist2 p (at_ (snd r) (fst r) s).
Fixpoint total (l : list Q) : Q := match l with [] => 0 | x :: r => x + total r end.
Definition unit_rays (rays : list (vec * vec)) : Prop := forall r, In r rays -> unit (fst r).
Definition some_cross (rays : list (vec * vec)) : Prop := exists r r', In r rays /\ In r' rays /\ ~ parallel (fst r) (fst r').
(* p lies in front of the start of the ray, or at it *)
Definition in_front (p : vec) (r : vec * vec) : Prop := 0 <= dot (vsub p (snd r)) (fst r).
(* two neighbours in the list *)
Definition neighbours {A} (a b : A) (l : list A) : Prop := exists l1 l2, l = l1 ++ a :: b :: l2.
Definition null_error (e : error) : Prop := match e with Between v => veq v vzero | Squares l => forall x, In x l -> x == 0 end.

(* the rays of the usable pixels, in order *)
Inductive sees : list camera -> list pixel -> list (vec * vec) -> Prop :=
| Sees_nil : sees [] [] []
| Sees_skip c cs p ps l : usable p = false -> sees cs ps l -> sees (c :: cs) (p :: ps) l
| Sees_ray c cs q ps l d o : usable (Some q) = true -> to_vector c q = Some (Ok d) -> center_at c q = Some (Ok o) ->
    sees cs ps l -> sees (c :: cs) (Some q :: ps) ((d, o) :: l).
