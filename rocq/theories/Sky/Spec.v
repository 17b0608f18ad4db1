(* Symmetric matrices and linear systems, independently of how they are stored. *)
From Coq Require Import ZArith List Lia Bool QArith Qcanon.
From Verif Require Import Lib.Base Lib.Img Lib.QSum.
Local Open Scope Z_scope.

(* entry i of A x *)
Definition times (n : Z) (A : Z -> Z -> Qc) (x : Z -> Qc) (i : Z) : Qc := qsum 0 n (fun j => A i j * x j)%Qc.
Definition solves (n : Z) (A : Z -> Z -> Qc) (x b : Z -> Qc) : Prop := forall i, 0 <= i < n -> times n A x i = b i.
Definition symmetric (n : Z) (A : Z -> Z -> Qc) : Prop := forall i j, 0 <= i < n -> 0 <= j < n -> A i j = A j i.
(* every leading square block is regular *)
Definition leading_regular (n : Z) (A : Z -> Z -> Qc) : Prop :=
  forall k, 0 <= k <= n -> forall x, solves k A x (fun _ => 0%Qc) -> forall i, 0 <= i < k -> x i = 0%Qc.
Definition positive_definite (n : Z) (A : Z -> Z -> Qc) : Prop :=
  forall x, (exists i, 0 <= i < n /\ x i <> 0%Qc) -> (0 < qsum 0 n (fun i => x i * times n A x i))%Qc.
(* a lower triangle with ones on the diagonal *)
Definition unit_lower (L : Z -> Z -> Qc) (i k : Z) : Qc := if k <? i then L i k else if k =? i then 1%Qc else 0%Qc.
(* entry (i,j) of L D L^T *)
Definition ldlt (n : Z) (L : Z -> Z -> Qc) (D : Z -> Qc) (i j : Z) : Qc :=
  qsum 0 n (fun k => unit_lower L i k * D k * unit_lower L j k)%Qc.

(* a lookup table that lists every number below n once *)
Definition permutes (n : Z) (p : Z -> Z) : Prop :=
  (forall i, 0 <= i < n -> 0 <= p i < n) /\ (forall i j, 0 <= i < n -> 0 <= j < n -> p i = p j -> i = j).

From Verif Require Import Sky.Model.
Import ListNotations.

(* a vector of n numbers and its elements *)
Definition isvec {A} (n : Z) (v : vec A) : Prop := icols v = n /\ irows v = 1.
Definition vat {A} (v : vec A) (i : Z) : A := pix v i 0.

(* the symmetric matrix a history of assignments describes: the last value assigned to
   (i,j) or (j,i), zero if there is none *)
Definition same_entry (r c i j : Z) : bool := ((r =? i) && (c =? j)) || ((r =? j) && (c =? i)).
Definition entry_after (h : list event) (i j : Z) : Qc :=
  fold_left (fun v e => match e with Assign r c x => if same_entry r c i j then x else v | Look _ _ => v end) h 0%Qc.
Definition event_in (n : Z) (e : event) : Prop :=
  match e with Assign r c _ | Look r c => 0 <= r < n /\ 0 <= c < n end.
Definition touches (e : event) (i j : Z) : Prop :=
  match e with Assign r c _ | Look r c => (r = i /\ c = j) \/ (r = j /\ c = i) end.
