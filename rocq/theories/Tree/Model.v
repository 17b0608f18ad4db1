(** Tree nodes (src/vw/Geometry/TreeNode.h).

    Nodes live in a heap; a pointer is an index into it, NULL is [None], and a
    destroyed node is an empty cell.  Using a destroyed node is undefined
    behaviour.  Every loop that follows pointers is given one step more than
    there are cells: a walk that long has come back to a node it already
    visited and, as nothing changes meanwhile, never ends ([UB NoTerm]).
    Calls that recurse are bounded in the same way.  The cached vector of
    ancestry() is returned rather than stored. *)
From Verif Require Import Lib.Base Lib.Lists.
From Coq Require Import List Arith Bool ZArith.
Import ListNotations.
Open Scope nat_scope.

Section TreeNode.
Context {D : Type}.

(** TreeNode.h 59-68: the members. *)
Record node := Node {
  ndata : D;
  nparent : option nat;
  nfirst : option nat;      (* m_first_child *)
  nnext : option nat        (* m_next_sibling *)
}.

Definition heap := list (option node).

Definition get (h : heap) (n : nat) : res node :=
  match nth_error h n with
  | Some (Some nd) => Ok nd
  | _ => UB BadIter
  end.

Definition modify (h : heap) (n : nat) (f : node -> node) : res heap :=
  nd <- get h n ;; Ok (upd h n (Some (f nd))).

Definition with_parent p (nd : node) := Node (ndata nd) p (nfirst nd) (nnext nd).
Definition with_first c (nd : node) := Node (ndata nd) (nparent nd) c (nnext nd).
Definition with_data d (nd : node) := Node d (nparent nd) (nfirst nd) (nnext nd).
Definition with_next s (nd : node) := Node (ndata nd) (nparent nd) (nfirst nd) s.

Definition is (a b : option nat) : bool :=
  match a, b with
  | Some x, Some y => Nat.eqb x y
  | None, None => true
  | _, _ => false
  end.

(** TreeNode.h 470-473: register_child. *)
Definition register_child (h : heap) (this child : nat) : res heap :=
  t <- get h this ;;
  h <- modify h child (with_next (nfirst t)) ;;
  modify h this (with_first (Some child)).

(** TreeNode.h 475-487: deregister_child.  [prev] is the address of the pointer
    to [cur]: the first child of [this] or the next sibling of a node. *)
Inductive loc := First (n : nat) | Next (n : nat).

Definition write (h : heap) (l : loc) (v : option nat) : res heap :=
  match l with
  | First n => modify h n (with_first v)
  | Next n => modify h n (with_next v)
  end.

Fixpoint deregister_loop (fuel : nat) (h : heap) (child : nat) (prev : loc) (cur : option nat)
  : res heap :=
  match fuel with
  | O => UB NoTerm
  | S fuel =>
      match cur with
      | None => Ok h
      | Some n =>
          nd <- get h n ;;
          if Nat.eqb n child then
            h <- write h prev (nnext nd) ;;
            modify h child (with_next None)
          else deregister_loop fuel h child (Next n) (nnext nd)
      end
  end.

Definition deregister_child (h : heap) (this child : nat) : res heap :=
  t <- get h this ;;
  deregister_loop (S (length h)) h child (First this) (nfirst t).

(** TreeNode.h 91-102: the initialising constructor; the new node is the next
    cell of the heap. *)
Definition new_node (h : heap) (parent : option nat) (d : D) : res (heap * nat) :=
  let n := length h in
  let h := h ++ [Some (Node d parent None None)] in
  match parent with
  | None => Ok (h, n)
  | Some p => h <- register_child h p n ;; Ok (h, n)
  end.

(** TreeNode.h 243-249: set_parent. *)
Definition set_parent (h : heap) (n : nat) (parent : option nat) : res heap :=
  nd <- get h n ;;
  h <- match nparent nd with
       | None => Ok h
       | Some p => deregister_child h p n
       end ;;
  h <- modify h n (with_parent parent) ;;
  match parent with
  | None => Ok h
  | Some p => register_child h p n
  end.

(** TreeNode.h 122-129: the destructor. *)
Fixpoint orphan_children (fuel : nat) (h : heap) (n : nat) : res heap :=
  match fuel with
  | O => UB NoTerm
  | S fuel =>
      nd <- get h n ;;
      match nfirst nd with
      | None => Ok h
      | Some c => h <- set_parent h c None ;; orphan_children fuel h n
      end
  end.

Definition destroy (h : heap) (n : nat) : res heap :=
  nd <- get h n ;;
  h <- match nparent nd with
       | None => Ok h
       | Some p => deregister_child h p n
       end ;;
  h <- orphan_children (S (length h)) h n ;;
  Ok (upd h n None).

(** TreeNode.h 147-152: recursive_delete.  [rec] is the recursive call. *)
Fixpoint delete_children (rec : heap -> nat -> res heap) (k : nat) (h : heap) (n : nat) : res heap :=
  match k with
  | O => UB NoTerm
  | S k =>
      nd <- get h n ;;
      match nfirst nd with
      | None => Ok h
      | Some c => h <- rec h c ;; delete_children rec k h n
      end
  end.

Fixpoint recursive_delete_fuel (fuel : nat) (h : heap) (n : nat) : res heap :=
  match fuel with
  | O => UB NoTerm
  | S fuel =>
      h <- delete_children (recursive_delete_fuel fuel) (S (length h)) h n ;;
      destroy h n
  end.

Definition recursive_delete (h : heap) (n : nat) : res heap :=
  recursive_delete_fuel (S (length h)) h n.

(** TreeNode.h 159-167: clone.  [rec] is the recursive call, [m] the new node. *)
Fixpoint clone_children (rec : heap -> nat -> option nat -> res (heap * nat))
    (k : nat) (h : heap) (m : nat) (c : option nat) : res heap :=
  match k with
  | O => UB NoTerm
  | S k =>
      match c with
      | None => Ok h
      | Some c =>
          '(h, _) <- rec h c (Some m) ;;
          cd <- get h c ;;
          clone_children rec k h m (nnext cd)
      end
  end.

Fixpoint clone_fuel (fuel : nat) (h : heap) (n : nat) (parent : option nat)
  : res (heap * nat) :=
  match fuel with
  | O => UB NoTerm
  | S fuel =>
      nd <- get h n ;;
      '(h, m) <- new_node h parent (ndata nd) ;;
      nd <- get h n ;;
      h <- clone_children (clone_fuel fuel) (S (length h)) h m (nfirst nd) ;;
      Ok (h, m)
  end.

Definition clone (h : heap) (n : nat) (parent : option nat) : res (heap * nat) :=
  clone_fuel (S (length h)) h n parent.

(** ** Queries *)

(** TreeNode.h 223-234: data(), for reading and for writing the payload. *)
Definition data (h : heap) (n : nat) : res D := nd <- get h n ;; Ok (ndata nd).
Definition set_data (h : heap) (n : nat) (d : D) : res heap := modify h n (with_data d).

(** TreeNode.h 255-257: parent. *)
Definition parent (h : heap) (n : nat) : res (option nat) :=
  nd <- get h n ;; Ok (nparent nd).

(** TreeNode.h 378-388: children. *)
Fixpoint siblings (fuel : nat) (h : heap) (c : option nat) : res (list nat) :=
  match fuel with
  | O => UB NoTerm
  | S fuel =>
      match c with
      | None => Ok []
      | Some n => nd <- get h n ;; l <- siblings fuel h (nnext nd) ;; Ok (n :: l)
      end
  end.

Definition children (h : heap) (n : nat) : res (list nat) :=
  nd <- get h n ;; siblings (S (length h)) h (nfirst nd).

(** TreeNode.h 306-315: the nodes from here to the root, before they are
    reversed by ancestry(). *)
Fixpoint up_chain (fuel : nat) (h : heap) (i : option nat) : res (list nat) :=
  match fuel with
  | O => UB NoTerm
  | S fuel =>
      match i with
      | None => Ok []
      | Some n => nd <- get h n ;; l <- up_chain fuel h (nparent nd) ;; Ok (n :: l)
      end
  end.

(** TreeNode.h 306-318: ancestry. *)
Definition ancestry (h : heap) (n : nat) : res (list nat) :=
  l <- up_chain (S (length h)) h (Some n) ;; Ok (rev l).

(** TreeNode.h 277-282: root. *)
Fixpoint root_loop (fuel : nat) (h : heap) (n : nat) : res nat :=
  match fuel with
  | O => UB NoTerm
  | S fuel =>
      nd <- get h n ;;
      match nparent nd with
      | None => Ok n
      | Some p => root_loop fuel h p
      end
  end.

Definition root (h : heap) (n : nat) : res nat := root_loop (S (length h)) h n.

(** TreeNode.h 287-295: is_ancestor_of. *)
Fixpoint is_ancestor_loop (fuel : nat) (h : heap) (this : nat) (i : option nat) : res bool :=
  match fuel with
  | O => UB NoTerm
  | S fuel =>
      match i with
      | None => Ok false
      | Some n =>
          nd <- get h n ;;
          if is (nparent nd) (Some this) then Ok true
          else is_ancestor_loop fuel h this (nparent nd)
      end
  end.

Definition is_ancestor_of (h : heap) (this n : nat) : res bool :=
  is_ancestor_loop (S (length h)) h this (Some n).

(** TreeNode.h 338-357: the binary search for the first difference of two
    vectors.  [len] at least halves in each step. *)
Fixpoint mismatch_loop (fuel : nat) (a1 a2 : list nat) (base len : nat) : res nat :=
  match fuel with
  | O => UB NoTerm
  | S fuel =>
      if 0 <? len then
        let half := len / 2 in
        let index := base + half in
        match nth_error a1 index, nth_error a2 index with
        | Some x, Some y =>
            if Nat.eqb x y then mismatch_loop fuel a1 a2 (index + 1) (len - half - 1)
            else mismatch_loop fuel a1 a2 base half
        | _, _ => UB OutOfBounds
        end
      else Ok base
  end.

(** TreeNode.h 327-360: last_common_ancestor_index; -1 when not connected. *)
Definition last_common_ancestor_index (h : heap) (this n : nat) : res Z :=
  a1 <- ancestry h n ;;
  a2 <- ancestry h this ;;
  let len := Nat.min (length a1) (length a2) in
  base <- mismatch_loop (S len) a1 a2 0 len ;;
  Ok (Z.of_nat base - 1)%Z.

(** TreeNode.h 369-373: last_common_ancestor; the cached ancestry is that of
    [this]. *)
Definition last_common_ancestor (h : heap) (this n : nat) : res (option nat) :=
  i <- last_common_ancestor_index h this n ;;
  if (0 <=? i)%Z then
    a2 <- ancestry h this ;;
    match nth_error a2 (Z.to_nat i) with
    | Some x => Ok (Some x)
    | None => UB OutOfBounds
    end
  else Ok None.

(** TreeNode.h 213-221: num_offsprings (unsigned overflow is not modelled).
    [rec] is the recursive call. *)
Fixpoint count_children (rec : nat -> res nat) (h : heap) (k : nat) (c : option nat) (acc : nat)
  : res nat :=
  match k with
  | O => UB NoTerm
  | S k =>
      match c with
      | None => Ok acc
      | Some c =>
          m <- rec c ;;
          cd <- get h c ;;
          count_children rec h k (nnext cd) (acc + (1 + m))
      end
  end.

Fixpoint num_offsprings_fuel (fuel : nat) (h : heap) (n : nat) : res nat :=
  match fuel with
  | O => UB NoTerm
  | S fuel =>
      nd <- get h n ;;
      count_children (num_offsprings_fuel fuel h) h (S (length h)) (nfirst nd) 0
  end.

Definition num_offsprings (h : heap) (n : nat) : res nat :=
  num_offsprings_fuel (S (length h)) h n.

(** TreeNode.h 413-423: pre_order_traverse.  The calls of the three functors in
    order. *)
Inductive event := Visit (n : nat) | Down (n : nat) | Up (n : nat).

Fixpoint pre_order_fuel (fuel : nat) (h : heap) (n : nat) : res (list event) :=
  match fuel with
  | O => UB NoTerm
  | S fuel =>
      nd <- get h n ;;
      sub <- match nfirst nd with
             | None => Ok []
             | Some c => l <- pre_order_fuel fuel h c ;; Ok (Down n :: l ++ [Up n])
             end ;;
      sib <- match nnext nd with
             | None => Ok []
             | Some s => pre_order_fuel fuel h s
             end ;;
      Ok (Visit n :: sub ++ sib)
  end.

Definition pre_order_traverse (h : heap) (n : nat) : res (list event) :=
  pre_order_fuel (S (length h)) h n.

(** TreeNode.h 436-446: post_order_traverse. *)
Fixpoint post_order_fuel (fuel : nat) (h : heap) (n : nat) : res (list event) :=
  match fuel with
  | O => UB NoTerm
  | S fuel =>
      nd <- get h n ;;
      sub <- match nfirst nd with
             | None => Ok []
             | Some c => l <- post_order_fuel fuel h c ;; Ok (Down n :: l ++ [Up n])
             end ;;
      sib <- match nnext nd with
             | None => Ok []
             | Some s => post_order_fuel fuel h s
             end ;;
      Ok (sub ++ sib ++ [Visit n])
  end.

Definition post_order_traverse (h : heap) (n : nat) : res (list event) :=
  post_order_fuel (S (length h)) h n.

(** TreeNode.h 457-466: breadth_first_traverse: the nodes in visiting order. *)
Fixpoint bfs_loop (fuel : nat) (h : heap) (nodes : list nat) : res (list nat) :=
  match fuel with
  | O => UB NoTerm
  | S fuel =>
      match nodes with
      | [] => Ok []
      | n :: rest =>
          cs <- children h n ;;
          l <- bfs_loop fuel h (rest ++ cs) ;;
          Ok (n :: l)
      end
  end.

Definition breadth_first_traverse (h : heap) (n : nat) : res (list nat) :=
  bfs_loop (S (length h)) h [n].

(** ** Histories of calls *)
Inductive op :=
| New (parent : option nat) (d : D)
| SetParent (n : nat) (parent : option nat)
| Destroy (n : nat)
| SetData (n : nat) (d : D).

Definition live (h : heap) (n : nat) : Prop := exists nd, get h n = Ok nd.
Definition live_opt (h : heap) (p : option nat) : Prop :=
  match p with None => True | Some n => live h n end.

(** Only nodes that exist are used. *)
Definition legal (h : heap) (o : op) : Prop :=
  match o with
  | New p _ => live_opt h p
  | SetParent n p => live h n /\ live_opt h p
  | Destroy n => live h n
  | SetData n _ => live h n
  end.

Definition step (h : heap) (o : op) : res heap :=
  match o with
  | New p d => '(h, _) <- new_node h p d ;; Ok h
  | SetParent n p => set_parent h n p
  | Destroy n => destroy h n
  | SetData n d => set_data h n d
  end.

End TreeNode.
Arguments heap : clear implicits.
Arguments node : clear implicits.
Arguments op : clear implicits.
