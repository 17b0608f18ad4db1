(** What replacing every occurrence means. *)
From Verif Require Import Lib.Base Lib.Str.
From Coq Require Import List Arith Bool Ascii String.
Import ListNotations.
Open Scope list_scope.

Definition occurs (f s : str) : Prop := exists a b, s = a ++ f ++ b.

(** [a] ends where the leftmost occurrence of [f] in [s] begins. *)
Definition leftmost (f s a b : str) : Prop :=
  s = a ++ f ++ b /\ forall a' b', s = a' ++ f ++ b' -> List.length a <= List.length a'.

(** The occurrences that do not overlap, taken from the left, replaced by [r]:
    the text and their number. *)
Inductive replaced (f r : str) : str -> str -> nat -> Prop :=
| replaced_none s : ~ occurs f s -> replaced f r s s 0
| replaced_some s a b b' n : leftmost f s a b -> replaced f r b b' n -> replaced f r s (a ++ r ++ b') (S n).

(** What erasing does: the character after an erased occurrence is passed
    over. *)
Inductive erased (f : str) : str -> str -> nat -> Prop :=
| erased_none s : ~ occurs f s -> erased f s s 0
| erased_last s a : leftmost f s a [] -> erased f s a 1
| erased_some s a c b b' n : leftmost f s a (c :: b) -> erased f b b' n -> erased f s (a ++ c :: b') (S n).
