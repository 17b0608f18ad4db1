From Coq Require Import ZArith List Lia Bool Relations.
From Verif Require Import Lib.Base Lib.Img Blob.Model Blob.Spec.
Import ListNotations.
Local Open Scope Z_scope.

(* a valid pixel of the mask *)
Definition valid (m : img bool) (x y : Z) : Prop := inside m x y /\ pix m x y = true.

(* two valid pixels joined by a path of valid pixels, each touching the next,
   diagonally or not *)
Inductive joined (m : img bool) : Z -> Z -> Z -> Z -> Prop :=
| joined_self x y : valid m x y -> joined m x y x y
| joined_step x y u v u' v' : joined m x y u v -> valid m u' v' -> adjacent8 u v u' v' -> joined m x y u' v'.

(* connected vertices of an undirected graph *)
Definition linked (es : list (Z * Z)) : Z -> Z -> Prop := clos_refl_sym_trans Z (fun a b => In (a, b) es).

(* what boost::connected_components documents, for a graph on vertices 0..n-1:
   components are numbered consecutively from 0, and vertex 0, which is visited
   first, is in component 0 *)
Definition components (n : Z) (es : list (Z * Z)) (comp : Z -> Z) (k : Z) : Prop :=
  (forall v, 0 <= v < n -> 0 <= comp v < k) /\ (forall c, 0 <= c < k -> exists v, 0 <= v < n /\ comp v = c) /\
  comp 0 = 0 /\ (forall u v, 0 <= u < n -> 0 <= v < n -> (comp u = comp v <-> linked es u v)).
