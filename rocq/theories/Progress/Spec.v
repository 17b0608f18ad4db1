(** Parts of parts of a task. *)
From Coq Require Import List Bool ZArith QArith.
From Verif Require Import Lib.Base Progress.Model.
Import ListNotations.
Local Open Scope Q_scope.

(* where a part of a part ... begins, and how much of the whole it is *)
Fixpoint share (ps : list part) : Q := match ps with [] => 1 | (a, b) :: ps => (b - a) * share ps end.
Definition nonempty (ps : list part) : Prop := forall a b, In (a, b) ps -> ~ a == b.
(* parts of the task from zero to one, in order *)
Definition proper (ps : list part) : Prop := forall a b, In (a, b) ps -> 0 <= a /\ a <= b /\ b <= 1.
Definition keeps (r : root) : Prop := knd r <> NullRoot.
