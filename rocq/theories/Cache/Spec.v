(* What the cache promises, without the code's pointers. *)
From Coq Require Import ZArith List Lia Bool.
From Verif Require Import Lib.Base Cache.Model.
Import ListNotations.
Local Open Scope Z_scope.

(* Following the links f from p visits exactly the elements of l, then null. *)
Fixpoint chain (f : line -> ptr) (p : ptr) (l : list line) : Prop :=
  match l with [] => p = None | a :: t => p = Some a /\ chain f (f a) t end.

Definition total (f : line -> Z) (l : list line) : Z := zsum (map f l).

(* s is a well-formed cache whose loaded lines are V, newest first, and whose
   other lines are I. *)
Record holds {V} (gen : line -> V) (s : st V) (Va Iv : list line) : Prop := Holds {
  h_fwd : chain (nx (ps s)) (fv (ps s)) Va;
  h_bwd : chain (pv (ps s)) (lv (ps s)) (rev Va);
  h_inv : chain (nx (ps s)) (fi (ps s)) Iv;
  h_nodup : NoDup (Va ++ Iv);
  h_live : forall l, In l (Va ++ Iv) <-> live s l = true;
  h_loaded : forall l, In l Va <-> lval s l = Some (gen l);
  h_unloaded : forall l, ~ In l Va -> lval s l = None;
  h_size : csz s = total (lsize s) Va;
  h_nolock : forall l, stuck s l = false }.

(* Which lines stay when [old], listed oldest first, has to shrink until the
   size sz is at most max: the oldest unpinned lines go, one at a time. *)
Fixpoint survivors (pinned : line -> bool) (size : line -> Z) (max sz : Z) (old : list line) : list line :=
  match old with
  | [] => []
  | x :: t => if sz <=? max then x :: t
              else if pinned x then x :: survivors pinned size max sz t
              else survivors pinned size max (sz - size x) t
  end.

Definition pinned {V} (s : st V) (l : line) : bool := negb (Nat.eqb (pins s l) 0).

(* What one operation does to the order of the loaded lines *)
Definition order_after {V} (s : st V) (o : cop) (Va : list line) : list line :=
  let without l := filter (fun x => negb (Nat.eqb x l)) Va in
  let shrunk max sz vs := rev (survivors (pinned s) (lsize s) max sz (rev vs)) in
  match o with
  | OInsert _ | ORelease _ => Va
  | OValue l => if existsb (Nat.eqb l) Va then Va
                else l :: shrunk (cmax s) (csz s + lsize s l) Va
  | ODepri l => if existsb (Nat.eqb l) Va then without l ++ [l] else Va
  | OResize n => shrunk n (csz s) Va
  | ODrop l => without l
  end.

(* Sublist in the same order *)
Inductive sublist {A} : list A -> list A -> Prop :=
| sub_nil : sublist [] []
| sub_skip x a b : sublist a b -> sublist a (x :: b)
| sub_keep x a b : sublist a b -> sublist (x :: a) (x :: b).

(* x comes somewhere before y in l *)
Definition before {A} (x y : A) (l : list A) : Prop := exists a b c, l = a ++ x :: b ++ y :: c.

(* States a program can get the cache into *)
Definition reached {V} (gen : line -> V) (s : st V) : Prop :=
  exists max ops, steps gen (cache0 max) ops = Ok s.
