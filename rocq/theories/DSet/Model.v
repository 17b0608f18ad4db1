(* Model of src/vw/Math/DisjointSet.h.  The nodes are kept in insertion order
   in one list, which is both the heap and the list "elems"; a pointer is a
   position, the null pointer is None.  A pointer that was never handed out is
   undefined behaviour.  Simplifications: ranks are unbounded (ds_log_depth
   shows that they cannot exceed log2 of the number of elements); the member
   num_elems is never read and is left out; the destructor is left out. *)
From Coq Require Import List Arith Lia Bool.
From Verif Require Import Lib.Base Lib.Lists.
Import ListNotations.

Section DS.
  Context {T : Type}.
  Variable eqb : T -> T -> bool.

  Record node := Node { val : T; par : option nat; rank : nat }.   (* DisjointSet.h:47-54 *)
  Definition heap := list node.

  Definition deref (h : heap) (p : option nat) : res node :=
    match p with
    | None => UB NullDeref
    | Some i => match nth_error h i with Some n => Ok n | None => UB OutOfBounds end
    end.

  (* DisjointSet.h:68-73 *)
  Definition insert (h : heap) (v : T) : nat * heap := (length h, h ++ [Node v None 0]).

  (* VW_ASSERT(s && !s->parent, ArgumentErr()) at lines 75, 83, 84 *)
  Definition assert_set (h : heap) (s : option nat) : res nat :=
    match s with
    | None => Throw ArgumentErr
    | Some i => n <- deref h s ;; match par n with None => Ok i | Some _ => Throw ArgumentErr end
    end.

  (* DisjointSet.h:74-80 *)
  Definition insert_in (h : heap) (v : T) (s : option nat) : res (nat * heap) :=
    i <- assert_set h s ;; Ok (length h, h ++ [Node v (Some i) 0]).

  Definition set_par (h : heap) (i p : nat) : heap :=
    match nth_error h i with Some n => upd h i (Node (val n) (Some p) (rank n)) | None => h end.
  Definition inc_rank (h : heap) (i : nat) : heap :=
    match nth_error h i with Some n => upd h i (Node (val n) (par n) (S (rank n))) | None => h end.

  (* DisjointSet.h:82-98 *)
  Definition combine (h : heap) (s1 s2 : option nat) : res (nat * heap) :=
    i <- assert_set h s1 ;; j <- assert_set h s2 ;;
    if Nat.eqb i j then Ok (i, h) else
    n1 <- deref h s1 ;; n2 <- deref h s2 ;;
    if Nat.ltb (rank n2) (rank n1) then Ok (i, set_par h j i)
    else if Nat.ltb (rank n1) (rank n2) then Ok (j, set_par h i j)
    else Ok (i, inc_rank (set_par h j i) i).

  (* DisjointSet.h:105, the first loop of find *)
  Fixpoint climb (fuel : nat) (h : heap) (n : nat) : res nat :=
    nd <- deref h (Some n) ;;
    match par nd with
    | None => Ok n
    | Some p => match fuel with O => UB NoTerm | S f => climb f h p end
    end.

  (* DisjointSet.h:107-110, the second loop of find *)
  Fixpoint compress (fuel : nat) (h : heap) (n p : option nat) (s : nat) : res heap :=
    match p with
    | None => Ok h
    | Some p' =>
        if Nat.eqb p' s then Ok h else
        match fuel with
        | O => UB NoTerm
        | S f => nd <- deref h n ;;
                 match n with
                 | None => UB NullDeref
                 | Some i => compress f (set_par h i s) (par nd) (par nd) s
                 end
        end
    end.

  (* DisjointSet.h:100-112; both loops are given as many steps as there are nodes *)
  Definition find (h : heap) (e : option nat) : res (nat * heap) :=
    match e with
    | None => Throw ArgumentErr
    | Some i =>
        s <- climb (length h) h i ;;
        n <- deref h e ;;
        h' <- compress (S (length h)) h e (par n) s ;;
        Ok (s, h')
    end.

  Fixpoint first_with (h : heap) (v : T) (i : nat) : option nat :=
    match h with
    | [] => None
    | n :: t => if eqb (val n) v then Some i else first_with t v (S i)
    end.

  (* DisjointSet.h:113-125 *)
  Definition find_val (h : heap) (v : T) : res (option nat * heap) :=
    match first_with h v 0 with
    | None => Ok (None, h)
    | Some i => '(s, h') <- find h (Some i) ;; Ok (Some s, h')
    end.

  (* Any sequence of calls.  E lists the pairs that were put together. *)
  Inductive history : heap -> list (nat * nat) -> Prop :=
  | h_new : history [] []
  | h_insert h E v : history h E -> history (snd (insert h v)) E
  | h_insert_in h E v s n h' : history h E -> insert_in h v (Some s) = Ok (n, h') -> history h' ((n, s) :: E)
  | h_combine h E s1 s2 r h' : history h E -> combine h (Some s1) (Some s2) = Ok (r, h') -> history h' ((s1, s2) :: E)
  | h_find h E e r h' : history h E -> find h e = Ok (r, h') -> history h' E
  | h_find_val h E v r h' : history h E -> find_val h v = Ok (r, h') -> history h' E.
End DS.
Arguments node : clear implicits.
Arguments heap : clear implicits.
