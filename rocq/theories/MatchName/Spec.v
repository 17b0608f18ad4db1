(** File name components and image names, independently of the code. *)
From Verif Require Import Lib.Base Lib.Str.
From Coq Require Import List Ascii String.
Import ListNotations.

(** [c] is the last component of the path [t]: what follows its last slash. *)
Definition last_component (t c : str) : Prop :=
  ~ In "/"%char c /\ (t = c \/ exists d, t = d ++ "/"%char :: c).

(** [n] is the name of the image file [f]: its last component, not empty,
    without the extension, that is the last dot and what follows. *)
Definition image_name (f n : str) : Prop :=
  exists c, last_component f c /\ c <> [] /\
    ((~ In "."%char c /\ n = c) \/
     exists e, ~ In "."%char e /\ c = n ++ "."%char :: e).

(** [p] does not occur in [t]. *)
Definition not_within (p t : str) : Prop := forall a b, t <> a ++ p ++ b.

(** A name of at most 16 characters, or one of which two fit into the budget of
    240 characters together with the last component of the prefix, separators
    and extension. *)
Definition short_for (p n : str) : Prop :=
  List.length n <= 16 \/
  exists b, last_component p b /\ List.length b <= 199 /\
            List.length b + 10 + 2 * List.length n <= 240.
