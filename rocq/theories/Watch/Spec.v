(** The time during which something is running. *)
From Verif Require Import Lib.Base Lib.Str Watch.Model.
From Coq Require Import ZArith List Lia Bool.
Import ListNotations.
Local Open Scope Z_scope.

Definition time (e : event) : Z := match e with Start t | Stop t => t end.
Definition delta (e : event) : Z := match e with Start _ => 1 | Stop _ => -1 end.

(** Starts that have not been stopped. *)
Definition depth (h : list event) : Z := zsum (map delta h).

(** No stop without a start; fewer than 2^32 starts pending. *)
Definition nested (h : list event) : Prop :=
  forall h1 h2, h = h1 ++ h2 -> 0 <= depth h1 < 4294967296.

(** The lengths of the intervals between consecutive events during which at
    least one start is pending, [d] being pending at the beginning. *)
Fixpoint busy (d : Z) (h : list event) : Z :=
  match h with
  | [] => 0
  | e :: h' =>
      match h' with
      | [] => 0
      | e' :: _ => (if 0 <? d + delta e then time e' - time e else 0) + busy (d + delta e) h'
      end
  end.

(** How often the last pending start is stopped. *)
Fixpoint finishes (d : Z) (h : list event) : Z :=
  match h with
  | [] => 0
  | e :: h' => (if d + delta e =? 0 then 1 else 0) + finishes (d + delta e) h'
  end.
