(* Matrices as functions: product, identity, regularity. *)
From Coq Require Import ZArith List Lia Bool QArith Qcanon.
From Verif Require Import Lib.Base Lib.Img Lib.QSum Sky.Spec MInv.Model.
Local Open Scope Z_scope.

(* element in row r, column c *)
Definition entry (m : matrix) (r c : Z) : Qc := pix m c r.
Definition is_matrix (r c : Z) (m : matrix) : Prop := mrows m = r /\ mcols m = c.
Definition ident (i j : Z) : Qc := if i =? j then 1%Qc else 0%Qc.
(* A B = C *)
Definition product_is (n : Z) (A B C : Z -> Z -> Qc) : Prop :=
  forall i j, 0 <= i < n -> 0 <= j < n -> qsum 0 n (fun k => A i k * B k j)%Qc = C i j.
(* only the zero vector is mapped to zero *)
Definition regular (n : Z) (A : Z -> Z -> Qc) : Prop :=
  forall x, solves n A x (fun _ => 0%Qc) -> forall i, 0 <= i < n -> x i = 0%Qc.
(* the result of the determinant, given enough rounds *)
Definition det_is (m : matrix) (q : Qc) : Prop := exists f, forall g, (f <= g)%nat -> det g m = Ok q.
