(** What the camera relation network should hold. *)
From Coq Require Import List ZArith Bool.
From Verif Require Import Lib.Base CNet.Model CNet.Relation.
Import ListNotations.
Open Scope nat_scope.

(** The measures of a network with the numbers of their points, in order. *)
Fixpoint numbered (number : nat) (ps : list point) : list (nat * measure) :=
  match ps with
  | [] => []
  | p :: ps => map (pair number) (pmeasures p) ++ numbered (S number) ps
  end.
Definition observations (net : network) : list (nat * measure) := numbered 0 (npoints net).

(** The places of the list with the property, in increasing order. *)
Definition places {X} (f : X -> bool) (l : list X) : list nat :=
  filter (fun i => match nth_error l i with Some x => f x | None => false end) (seq 0 (List.length l)).

(** The observations in an image, and the other observations of the same point. *)
Definition in_image (j : nat) (obs : list (nat * measure)) : list nat :=
  places (fun o => Nat.eqb (mimage (snd o)) j) obs.
Definition partners (i : nat) (obs : list (nat * measure)) : list nat :=
  match nth_error obs i with
  | Some (p, _) => filter (fun k => negb (Nat.eqb k i)) (places (fun o => Nat.eqb (fst o) p) obs)
  | None => []
  end.
Definition image_of (obs : list (nat * measure)) (i : nat) : option nat :=
  match nth_error obs i with Some (_, m) => Some (mimage m) | None => None end.

(** [k] is the last of [l] in the image. *)
Definition last_in (obs : list (nat * measure)) (j : nat) (l : list nat) (k : nat) : Prop :=
  exists a b, l = a ++ k :: b /\ image_of obs k = Some j /\ forall x, In x b -> image_of obs x <> Some j.

(** The values under a key. *)
Definition under {X} (k : Z) (m : list (Z * X)) : list X := map snd (filter (fun e => Z.eqb (fst e) k) m).

(** The number of images that are needed. *)
Definition image_count (net : network) : nat :=
  fold_right (fun o n => Nat.max (S (mimage (snd o))) n) (List.length (nimages net)) (observations net).

(** Features that can be reached over one or more connections. *)
Inductive reaches (h : list feature) : nat -> nat -> Prop :=
| reach_one a b x : nth_error h a = Some x -> In b (fconn x) -> reaches h a b
| reach_more a b c x : nth_error h a = Some x -> In b (fconn x) -> reaches h b c -> reaches h a c.

Definition connections_inside (h : list feature) : Prop :=
  forall f x c, nth_error h f = Some x -> In c (fconn x) -> c < List.length h.
