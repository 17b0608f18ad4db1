(* What a compressed blob means: a set of pixels. *)
From Coq Require Import ZArith List Lia Bool Sorted.
From Verif Require Import Lib.Base Blob.Model.
Import ListNotations.
Local Open Scope Z_scope.

(* column x lies in some segment of the row *)
Definition covers (r : row) (x : Z) : Prop := exists s e, In (s, e) r /\ s <= x < e.

(* pixel (x, y) belongs to the blob *)
Definition has (b : blob) (x y : Z) : Prop :=
  exists k r, nth_error (rows b) k = Some r /\ y = by_ b + Z.of_nat k /\ covers r (x - bx b).

(* segments are not empty, in order, and do not overlap *)
Definition row_ok (r : row) : Prop :=
  StronglySorted (fun a b => snd a <= fst b) r /\ Forall (fun s => fst s < snd s) r.

(* every row has a pixel, and the left column min.x is used *)
Definition blob_ok (b : blob) : Prop :=
  (forall r, In r (rows b) -> r <> [] /\ row_ok r /\ forall s, In s r -> 0 <= fst s) /\
  exists r s, In r (rows b) /\ In s r /\ fst s = 0.

(* (x, y) and (x', y') touch, diagonally or not *)
Definition adjacent8 (x y x' y' : Z) : Prop := Z.abs (x - x') <= 1 /\ Z.abs (y - y') <= 1.

(* The ways of making a blob that the rest of the library uses, with the pixels
   they ought to give.  [feeds b x y w]: the segment comes after all of the blob
   in reading order, on its last row or on the next. *)
Definition disjoint (P Q : Z -> Z -> Prop) : Prop := forall x y, P x y -> Q x y -> False.

Inductive Built : blob -> (Z -> Z -> Prop) -> Prop :=
| Built_first x y w b : 0 <= x -> 0 < w ->
    add_row empty_blob x y w = Ok b ->
    Built b (fun u v => v = y /\ x <= u < x + w)
| Built_row b P x y w b' : Built b P -> 0 <= x -> 0 < w ->
    (exists u, P u y \/ P u (y - 1)) ->
    (forall u v, P u v -> v < y \/ v = y /\ u < x) ->
    add_row b x y w = Ok b' ->
    Built b' (fun u v => P u v \/ v = y /\ x <= u < x + w)
| Built_absorb b P v Q b' : Built b P -> Built v Q -> disjoint P Q ->
    (exists x y x' y', P x y /\ Q x' y' /\ Z.abs (y - y') <= 1) ->
    absorb b v = Ok b' ->
    Built b' (fun x y => P x y \/ Q x y).
