(** Histories of calls and the ancestor relation, in terms of the public
    queries. *)
From Verif Require Import Lib.Base Lib.Lists Tree.Model.
From Coq Require Import List.
Import ListNotations.

Section Spec.
Context {D : Type}.
Implicit Type h : heap D.

(** [above h a n]: [a] is [n] or an ancestor of [n]. *)
Inductive above h : nat -> nat -> Prop :=
| above_self n : live h n -> above h n n
| above_parent a p n : parent h n = Ok (Some p) -> above h a p -> above h a n.

(** Heaps reached by any calls on existing nodes. *)
Inductive reachable : heap D -> Prop :=
| reach_nil : reachable []
| reach_step h o h' : reachable h -> legal h o -> step h o = Ok h' -> reachable h'.

(** No node is moved below itself. *)
Definition no_cycle h (o : op D) : Prop :=
  match o with
  | SetParent n (Some p) => ~ above h n p
  | _ => True
  end.

(** Heaps reached by calls that never move a node below itself. *)
Inductive grown : heap D -> Prop :=
| grown_nil : grown []
| grown_step h o h' : grown h -> legal h o -> no_cycle h o -> step h o = Ok h' -> grown h'.

(** [tree_at h n t]: [t] is the tree of nodes below [n]. *)
Inductive tree := T (id : nat) (sub : list tree).

Inductive tree_at h : nat -> tree -> Prop :=
| tree_at_node n cs ts : children h n = Ok cs -> trees_at h cs ts -> tree_at h n (T n ts)
with trees_at h : list nat -> list tree -> Prop :=
| trees_at_nil : trees_at h [] []
| trees_at_cons c cs t ts : tree_at h c t -> trees_at h cs ts -> trees_at h (c :: cs) (t :: ts).

Definition tid (t : tree) : nat := match t with T n _ => n end.
Definition tsub (t : tree) : list tree := match t with T _ ts => ts end.

(** Number of nodes. *)
Fixpoint tsize (t : tree) : nat :=
  match t with T _ ts => S (fold_right (fun t n => tsize t + n) 0 ts) end.

(** The nodes of a tree. *)
Fixpoint ids (t : tree) : list nat :=
  match t with T n ts => n :: flat_map ids ts end.

(** Node before its children, with the calls around each descent. *)
Fixpoint pre_events (t : tree) : list event :=
  match t with
  | T n ts => Visit n ::
      match ts with
      | [] => []
      | _ => Down n :: flat_map pre_events ts ++ [Up n]
      end
  end.

(** Level by level. *)
Fixpoint levels (k : nat) (ts : list tree) : list nat :=
  match k, ts with
  | O, _ | _, [] => []
  | S k, _ => map tid ts ++ levels k (flat_map tsub ts)
  end.

Definition level_order (t : tree) : list nat := levels (tsize t) [t].

(** The trees with their payload. *)
Inductive dtree := DT (d : D) (sub : list dtree).

Inductive payload h : tree -> dtree -> Prop :=
| payload_node n ts nd ds : get h n = Ok nd -> payloads h ts ds -> payload h (T n ts) (DT (ndata nd) ds)
with payloads h : list tree -> list dtree -> Prop :=
| payloads_nil : payloads h [] []
| payloads_cons t ts d ds : payload h t d -> payloads h ts ds -> payloads h (t :: ts) (d :: ds).

(** The same tree with the children of every node in the opposite order. *)
Fixpoint mirror (t : dtree) : dtree :=
  match t with DT d ts => DT d (rev (map mirror ts)) end.
End Spec.
Arguments dtree : clear implicits.
