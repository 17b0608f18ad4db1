(* Spanning forests. *)
From Coq Require Import ZArith List Permutation.
From Verif Require Import Lib.Base DSet.Spec Mst.Model.
Import ListNotations.
Local Open Scope Z_scope.

Definition ends (es : list edge) : list (Z * Z) := map (fun e => (node1 e, node2 e)) es.

(* the nodes are joined by a path of these edges *)
Definition joined (es : list edge) (x y : Z) : Prop := linked (ends es) x y.

(* no edge joins what the others already join: there is no cycle *)
Definition forest (es : list edge) : Prop :=
  forall A e B, es = A ++ e :: B -> ~ joined (A ++ B) (node1 e) (node2 e).

(* F is a forest of edges of es that joins everything es joins *)
Definition spanning_forest (F es : list edge) : Prop :=
  incl F es /\ forest F /\ forall x y, joined F x y <-> joined es x y.

Definition total (es : list edge) : Z := zsum (map cost es).

(* the edges of an array whose flag is set *)
Fixpoint chosen (es : list edge) (used : list bool) : list edge :=
  match es, used with
  | e :: es', b :: used' => if (b : bool) then e :: chosen es' used' else chosen es' used'
  | _, _ => []
  end.

Inductive by_cost : list edge -> Prop :=
| bc_nil : by_cost []
| bc_cons e es : (forall x, In x es -> cost e <= cost x) -> by_cost es -> by_cost (e :: es).
