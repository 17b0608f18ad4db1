(** Where the positions given in a frame are. *)
From Coq Require Import List ZArith QArith Qcanon.
From Verif Require Import Lib.Base Tree.Model Tree.Spec Frames.Model Frames.Spec Frames.ATrans.

(** Position [v] in frame [n] is [w] outside the root of the tree: the
    transforms of the frames, from [n] up to the root, are applied one after
    another. *)
Inductive carried (h : heap (frame atrans)) : nat -> vec -> vec -> Prop :=
| carried_root n d v : parent h n = Ok None -> data h n = Ok d -> carried h n v (aat (ftrans d) v)
| carried_up n p d v w : parent h n = Ok (Some p) -> data h n = Ok d -> carried h p (aat (ftrans d) v) w ->
    carried h n v w.

(** Different positions are not carried to the same one, and every position is
    reached. *)
Definition invertible (a : atrans) : Prop := forall w, exists v, aat a v = w /\ forall v', aat a v' = w -> v' = v.

Definition invertible_above (h : heap (frame atrans)) n : Prop :=
  forall m d, above h m n -> data h m = Ok d -> invertible (ftrans d).

Definition same_tree (h : heap (frame atrans)) a b : Prop := exists r, above h r a /\ above h r b.
