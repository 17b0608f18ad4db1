(** Polynomials, curves, and tables of samples. *)
From Coq Require Import List ZArith QArith Bool Sorting.Sorted.
From Verif Require Import Lib.Base Interp.Model.
Import ListNotations.
Open Scope Q_scope.

(** The value at [x] of the polynomial with coefficients [c], the lowest first; its
    degree is less than the number of coefficients. *)
Fixpoint peval (c : list Q) (x : Q) : Q := match c with [] => 0 | a :: c => a + x * peval c x end.

(** A curve in space, one polynomial for each coordinate. *)
Definition curve : Type := list Q * list Q * list Q.
Definition ceval (c : curve) (t : Q) : v3 := let '(x, y, z) := c in (peval x t, peval y t, peval z t).
Definition of_degree_below (k : nat) (c : curve) : Prop := let '(x, y, z) := c in (length x <= k /\ length y <= k /\ length z <= k)%nat.

Definition veq (a b : v3) : Prop := let '(x, y, z) := a in let '(x', y', z') := b in x == x' /\ y == y' /\ z == z'.

(** The derivative of a polynomial, and of a curve. *)
Fixpoint deriv_from (k : Z) (c : list Q) : list Q := match c with [] => [] | a :: c => inject_Z k * a :: deriv_from (k + 1) c end.
Definition deriv (c : list Q) : list Q := deriv_from 1 (tl c).
Definition velocity (c : curve) : curve := let '(x, y, z) := c in (deriv x, deriv y, deriv z).

(** The time of the [i]-th of samples taken at equal intervals. *)
Definition time_of (t0 dt : Q) (i : nat) : Q := t0 + dt * inject_Z (Z.of_nat i).

(** The sample [i] is a point of the curve. *)
Definition passes (c : curve) (time : nat -> Q) (samples : list v3) (i : nat) : Prop :=
  exists s, nth_error samples i = Some s /\ veq s (ceval c (time i)).

(** Given by value, also where [res] is compared. *)
Definition gives (r : res v3) (v : v3) : Prop := exists w, r = Ok w /\ veq w v.

Definition ascending : list Q -> Prop := StronglySorted Qlt.
