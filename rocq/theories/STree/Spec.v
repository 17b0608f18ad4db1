(** What a spatial tree stores. *)
From Verif Require Import Lib.Base Lib.Lists STree.Model.
From Coq Require Import List Bool ZArith QArith.
Import ListNotations.

(** A box that is not inside out. *)
Definition proper (b : box) : Prop := Forall (fun i => fst i <= snd i) b.

(** A box with an interior. *)
Definition solid (b : box) : Prop := b <> [] /\ Forall (fun i => fst i < snd i) b.

Section Spec.
Context (pbox : nat -> box).

(** Trees made by any calls of add, with any level limits, from a tree with a
    proper box.  The list holds the primitives added. *)
Inductive built : tree -> list nat -> Prop :=
| built_new b : proper b -> built (new_tree b) []
| built_add t xs fuel x lim t' :
    built t xs -> add pbox fuel t x lim = Ok t' -> built t' (x :: xs).

(** The same without level limits. *)
Inductive built_free : tree -> list nat -> Prop :=
| free_new b : proper b -> built_free (new_tree b) []
| free_add t xs fuel x t' :
    built_free t xs -> add pbox fuel t x (-1) = Ok t' -> built_free t' (x :: xs).
End Spec.

(** The unordered pairs of a list, each in the order of the list. *)
Fixpoint pairs {A} (l : list A) : list (A * A) :=
  match l with
  | [] => []
  | x :: l => map (pair x) l ++ pairs l
  end.
