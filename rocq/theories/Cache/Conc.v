(* Part 2 of the cache model: several threads.  src/vw/Core/Cache.h:314-397,
   Cache.cc:40-144, locks of src/vw/Core/Thread.h (boost shared mutex).
   One transition is one lock operation or what happens under one lock.
   Simplifications: the order of the valid list is left out, so eviction may
   pick any line nobody has locked (the real choice is one of these); taking an
   upgrade lock and turning it into an exclusive one is one transition;
   sizes are unbounded; the set of lines is fixed.  No fairness is assumed. *)
From Coq Require Import ZArith List Lia Bool.
From Verif Require Import Lib.Base Cache.Model.
Import ListNotations.
Local Open Scope Z_scope.

(* Where a thread is *)
Inductive pc :=
| Idle
| Shared (l : line)   (* value(): lock_shared taken, Cache.h:357 *)
| Want (l : line)     (* miss seen, shared lock dropped, Cache.h:361-364 *)
| Excl (l : line)     (* exclusive lock held, before allocate, Cache.h:365-366 *)
| Alloc (l : line)    (* inside Cache::allocate with the cache mutex, Cache.cc:53-83 *)
| Gen (l : line)      (* allocate returned, Cache.h:369-371 *)
| Hold (l : line)     (* value() returned, shared lock held until release() *)
| Inv (l : line).     (* invalidate(): exclusive lock held, Cache.h:318; called by
                         the destructor and, line after line, by Cache::resize,
                         which does not keep the cache mutex, Cache.cc:103-126 *)

Section Conc.
  Context {V : Type}.
  Variable gen : line -> V.
  Variable sz : line -> Z.

  (* readers and writer: state of each line's mutex; cm: the cache mutex;
     extra: history variable, how often a loaded line was generated again *)
  Record cst := Cst {
    thr : list pc; readers : line -> nat; writer : line -> bool; cm : bool;
    csize : Z; cval : line -> option V; extra : line -> nat; ngen : line -> nat }.

  Definition idle_state (n : nat) : cst :=
    Cst (repeat Idle n) (fun _ => 0%nat) (fun _ => false) false 0 (fun _ => None) (fun _ => 0%nat) (fun _ => 0%nat).

  Definition is_some {A} (o : option A) : bool := match o with Some _ => true | None => false end.

  (* Steps of one thread: its counter goes from p to q *)
  Inductive tstep : pc -> cst -> pc -> cst -> Prop :=
  | t_value l T R W c z v e g : W l = false ->                                    (* Cache.h:357 *)
      tstep Idle (Cst T R W c z v e g) (Shared l) (Cst T (upd R l (S (R l))) W c z v e g)
  | t_hit l T R W c z v e g : v l <> None ->                                      (* Cache.h:358, 376 *)
      tstep (Shared l) (Cst T R W c z v e g) (Hold l) (Cst T R W c z v e g)
  | t_miss l T R W c z v e g : v l = None ->                                      (* Cache.h:363 *)
      tstep (Shared l) (Cst T R W c z v e g) (Want l) (Cst T (upd R l (pred (R l))) W c z v e g)
  | t_lock l T R W c z v e g : W l = false -> R l = 0%nat ->                      (* Cache.h:364-365 *)
      tstep (Want l) (Cst T R W c z v e g) (Excl l) (Cst T R (upd W l true) c z v e g)
  | t_alloc l T R W z v e g :                                                     (* Cache.cc:53-59 *)
      tstep (Excl l) (Cst T R W false z v e g) (Alloc l) (Cst T R W true (z + sz l) v e g)
  | t_evict l x T R W c z v e g : x <> l -> W x = false -> R x = 0%nat -> v x <> None ->   (* Cache.cc:75, Cache.h:328-342 *)
      tstep (Alloc l) (Cst T R W c z v e g) (Alloc l) (Cst T R W c (z - sz x) (upd v x None) e g)
  | t_unlock l T R W c z v e g :                                                  (* Cache.cc:101 *)
      tstep (Alloc l) (Cst T R W c z v e g) (Gen l) (Cst T R W false z v e g)
  | t_gen l T R W c z v e g :                                                     (* Cache.h:369-374 *)
      tstep (Gen l) (Cst T R W c z v e g) (Hold l)
            (Cst T (upd R l (S (R l))) (upd W l false) c z (upd v l (Some (gen l)))
                 (if is_some (v l) then upd e l (S (e l)) else e) (upd g l (S (g l))))
  | t_release l T R W c z v e g :                                                 (* Cache.h:381 *)
      tstep (Hold l) (Cst T R W c z v e g) Idle (Cst T (upd R l (pred (R l))) W c z v e g)
  | t_inv l T R W c z v e g : W l = false -> R l = 0%nat ->                       (* Cache.h:318 *)
      tstep Idle (Cst T R W c z v e g) (Inv l) (Cst T R (upd W l true) c z v e g)
  | t_inv_none l T R W c z v e g : v l = None ->                                  (* Cache.h:319 *)
      tstep (Inv l) (Cst T R W c z v e g) Idle (Cst T R (upd W l false) c z v e g)
  | t_inv_some l T R W z v e g : v l <> None ->                                   (* Cache.h:321-323 *)
      tstep (Inv l) (Cst T R W false z v e g) Idle (Cst T R (upd W l false) false (z - sz l) (upd v l None) e g).

  Definition with_thr (s : cst) (T : list pc) : cst :=
    Cst T (readers s) (writer s) (cm s) (csize s) (cval s) (extra s) (ngen s).

  (* Any one thread moves *)
  Inductive cstep : cst -> cst -> Prop :=
  | c_step A p B s q s' : thr s = A ++ p :: B -> tstep p s q s' -> cstep s (with_thr s' (A ++ q :: B)).

  Inductive reach (n : nat) : cst -> Prop :=
  | r_init : reach n (idle_state n)
  | r_step s s' : reach n s -> cstep s s' -> reach n s'.

  Definition lines_of (p : pc) : list line :=
    match p with Idle => [] | Shared l | Want l | Excl l | Alloc l | Gen l | Hold l | Inv l => [l] end.
  (* Runs that only use the lines Ls *)
  Inductive reach_in (Ls : list line) (n : nat) : cst -> Prop :=
  | ri_init : reach_in Ls n (idle_state n)
  | ri_step s s' : reach_in Ls n s -> cstep s s' -> incl (concat (map lines_of (thr s'))) Ls -> reach_in Ls n s'.
End Conc.
