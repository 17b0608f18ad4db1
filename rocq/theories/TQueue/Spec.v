(* The sequential first-in first-out queue. *)
From Coq Require Import List.
From Verif Require Import Lib.Base TQueue.Model.
Import ListNotations.

(* [fifo a e b]: the effect e is right on contents a and leaves contents b *)
Inductive fifo {T} : list T -> ev T -> list T -> Prop :=
| f_push l v : fifo l (EPush v) (l ++ [v])
| f_pop l v : fifo (v :: l) (EPop v) l
| f_none : fifo [] ENone []
| f_flush l : fifo l (EFlush (length l)) []
| f_size l : fifo l (ESize (length l)) l
| f_empty l b : (b = true <-> l = []) -> fifo l (EEmpty b) l.

(* a whole history, from one contents to another *)
Inductive fifos {T} : list T -> list (ev T) -> list T -> Prop :=
| fs_nil l : fifos l [] l
| fs_cons a e b h c : fifo a e b -> fifos b h c -> fifos a (e :: h) c.

Definition pushed {T} (h : list (ev T)) : list T := flat_map (fun e => match e with EPush v => [v] | _ => [] end) h.
Definition popped {T} (h : list (ev T)) : list T := flat_map (fun e => match e with EPop v => [v] | _ => [] end) h.
