(** Order statistics and cumulative counts. *)
From Verif Require Import Lib.Base Lib.Lists.
From Coq Require Import List Arith Bool ZArith QArith.
Import ListNotations.

Definition below (x y : Q) : bool := negb (Qle_bool x y).   (* y < x *)
Definition upto (x y : Q) : bool := Qle_bool y x.           (* y <= x *)

(** [x] is the element of rank [k] (from 0) of [l]: at most [k] elements are
    smaller, and more than [k] are smaller or equal. *)
Definition is_kth (l : list Q) (k : nat) (x : Q) : Prop :=
  (count (below x) l <= k < count (upto x) l)%nat.

(** The sum of the first [k] entries. *)
Definition cum (l : list Z) (k : nat) : Z := zsum (firstn k l).
