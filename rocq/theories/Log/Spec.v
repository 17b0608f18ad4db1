(** Which namespaces a pattern stands for, and which rule decides. *)
From Verif Require Import Lib.Base Lib.Lists Lib.Str Log.Model.
From Coq Require Import List Arith Bool ZArith Ascii String.
Import ListNotations.
Open Scope list_scope.

(** At most one star, at the beginning or at the end. *)
Definition legal (p : str) : Prop :=
  ~ In star p \/
  exists q, ~ In star q /\ (p = star :: q \/ p = q ++ [star]).

(** Log.cc 450-455: "*" matches anything, "*.a" matches x.a, "a.*" matches a and
    a.x. *)
Definition stands_for (p ns : str) : Prop :=
  (~ In star p /\ ns = p) \/
  (exists q a, p = star :: q /\ ns = a ++ q) \/
  (exists q a, p = q ++ [star] /\ ns = q ++ a) \/
  p = ns ++ [dot; star].

(** The decision of a rule. *)
Definition grants (rl lvl : Z) : bool := (rl =? 100)%Z || (lvl <=? rl)%Z.

(** The rule that was last accepted, not cleared since, and matches. *)
Definition decides (h : list rule_call) (ns : str) (rl : Z) : Prop :=
  exists pre p post, h = pre ++ AddRule rl p :: post /\ legal p /\ stands_for (to_lower p) (to_lower ns) /\
    ~ In ClearRules post /\
    forall rl' p', In (AddRule rl' p') post -> legal p' -> ~ stands_for (to_lower p') (to_lower ns).

(** ** Buffers *)

(** What a thread wrote, in order. *)
Definition wrote (t : nat) (c : call) : str :=
  match c with
  | Overflow_ u (Some c) => if Nat.eqb u t then [c] else []
  | Xsputn u s => if Nat.eqb u t then s else []
  | _ => []
  end.
Definition written (t : nat) (h : list call) : str := flat_map (wrote t) h.

(** The chunks of a thread among those sent. *)
Definition chunks_of (t : nat) (l : list (nat * nat * str)) : str :=
  flat_map (fun '(_, u, s) => if Nat.eqb u t then s else []) l.
