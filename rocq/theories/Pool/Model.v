(* Model of the thread pool: src/vw/Core/ThreadPool.h, ThreadPool.cc.
   Any number of client threads submit tasks and the pool's own workers run
   them; one transition is what a thread does under one mutex, or one call of
   a task.  Simplifications: log output is left out, a task's body is one
   transition, condition variables are represented by their predicates
   (join_all returns in a state where active = 0 and the queue mutex is free),
   indices of the ordered queue are unbounded integers. *)
From Coq Require Import ZArith List Lia Bool Permutation.
From Verif Require Import Lib.Base.
Import ListNotations.

Section Pool.
  Context {T S Q : Type}.            (* tasks, submissions, queue contents *)
  Variable push : Q -> S -> Q.       (* the locked part of add_task *)
  Variable pop : Q -> option (T * Q). (* get_next_task *)

  (* a client: outside, after queueing and before notify(), inside notify() *)
  Inductive cpc := CIdle | CNotify | CLoop.
  (* a worker: about to run a task, task ran, signalled, got another task,
     thread ended by the kill flag while holding a task *)
  Inductive wpc := WRun (t : T) | WEnd (t : T) | WNext | WGot (t : T) | WDead (t : T).

  (* ThreadPool.h:93-99.  submitted, taken, ran, signalled are logs. *)
  Record pool := Pool {
    q : Q; ids : list nat; act : Z; die : bool; qm : bool;
    cl : list cpc; wk : list (nat * wpc);
    submitted : list S; taken : list T; ran : list T; signalled : list T }.

  (* ThreadPool.cc:93-98, n threads, c clients *)
  Definition pool0 (q0 : Q) (n c : nat) : pool :=
    Pool q0 (seq 0 n) 0 false false (repeat CIdle c) [] [] [] [] [].

  (* what the pool does by itself *)
  Inductive istep : pool -> pool -> Prop :=
  | i_lock Q0 I a d A B W s t r g :                                   (* ThreadPool.cc:102 *)
      istep (Pool Q0 I a d false (A ++ CNotify :: B) W s t r g)
            (Pool Q0 I a d true (A ++ CLoop :: B) W s t r g)
  | i_spawn Q0 Q1 x i I a d m A B W s t r g : pop Q0 = Some (x, Q1) -> (* ThreadPool.cc:107-118 *)
      istep (Pool Q0 (i :: I) a d m (A ++ CLoop :: B) W s t r g)
            (Pool Q1 I (a + 1) d m (A ++ CLoop :: B) (W ++ [(i, WRun x)]) s (t ++ [x]) r g)
  | i_done Q0 I a d m A B W s t r g : I = [] \/ pop Q0 = None ->       (* ThreadPool.cc:107-108, 120 *)
      istep (Pool Q0 I a d m (A ++ CLoop :: B) W s t r g)
            (Pool Q0 I a d false (A ++ CIdle :: B) W s t r g)
  | i_run Q0 I a d m C i x A B s t r g :                               (* ThreadPool.cc:62 *)
      istep (Pool Q0 I a d m C (A ++ (i, WRun x) :: B) s t r g)
            (Pool Q0 I a d m C (A ++ (i, WEnd x) :: B) s t (r ++ [x]) g)
  | i_signal Q0 I a d m C i x A B s t r g :                            (* ThreadPool.cc:63 *)
      istep (Pool Q0 I a d m C (A ++ (i, WEnd x) :: B) s t r g)
            (Pool Q0 I a d m C (A ++ (i, WNext) :: B) s t r (g ++ [x]))
  | i_next Q0 Q1 x I a d C i A B s t r g : pop Q0 = Some (x, Q1) ->    (* ThreadPool.cc:69-70 *)
      istep (Pool Q0 I a d false C (A ++ (i, WNext) :: B) s t r g)
            (Pool Q1 I a d false C (A ++ (i, WGot x) :: B) s (t ++ [x]) r g)
  | i_exit Q0 I a d C i A B s t r g : pop Q0 = None ->                 (* ThreadPool.cc:69-75, 80-91 *)
      istep (Pool Q0 I a d false C (A ++ (i, WNext) :: B) s t r g)
            (Pool Q0 (I ++ [i]) (a - 1) d false C (A ++ B) s t r g)
  | i_again Q0 I a m C i x A B s t r g :                               (* ThreadPool.cc:75 *)
      istep (Pool Q0 I a false m C (A ++ (i, WGot x) :: B) s t r g)
            (Pool Q0 I a false m C (A ++ (i, WRun x) :: B) s t r g)
  | i_die Q0 I a m C i x A B s t r g :                                 (* ThreadPool.cc:75 *)
      istep (Pool Q0 I a true m C (A ++ (i, WGot x) :: B) s t r g)
            (Pool Q0 I a true m C (A ++ (i, WDead x) :: B) s t r g).

  (* what clients start *)
  Inductive estep : pool -> pool -> Prop :=
  | e_add Q0 I a d m A B W s t r g x :                                 (* ThreadPool.cc:166-171, 197-202 *)
      estep (Pool Q0 I a d m (A ++ CIdle :: B) W s t r g)
            (Pool (push Q0 x) I a d m (A ++ CNotify :: B) W (s ++ [x]) t r g)
  | e_kill Q0 I a d m C W s t r g :                                    (* ThreadPool.cc:150 *)
      estep (Pool Q0 I a d m C W s t r g) (Pool Q0 I a true m C W s t r g).

  Inductive reach (q0 : Q) (n c : nat) : pool -> Prop :=
  | r_init : reach q0 n c (pool0 q0 n c)
  | r_int p p' : reach q0 n c p -> istep p p' -> reach q0 n c p'
  | r_ext p p' : reach q0 n c p -> estep p p' -> reach q0 n c p'.

  (* join_all returns here: ThreadPool.cc:135-147 *)
  Definition joined (p : pool) : Prop := act p = 0%Z /\ qm p = false.
  (* nothing moves until a client calls again *)
  Definition stuck (p : pool) : Prop := forall p', ~ istep p p'.
End Pool.
Arguments pool : clear implicits.
Arguments wpc : clear implicits.

(* ThreadPool.cc:165-182 *)
Definition fifo_push {T} (q : list T) (t : T) : list T := q ++ [t].
Definition fifo_pop {T} (q : list T) : option (T * list T) :=
  match q with [] => None | t :: r => Some (t, r) end.

(* ThreadPool.cc:187-224: std::map as a list sorted by key, and m_next_index.
   A task is returned together with its index, for the log. *)
Local Open Scope Z_scope.
Fixpoint map_put {T} (m : list (Z * T)) (k : Z) (t : T) : list (Z * T) :=
  match m with
  | [] => [(k, t)]
  | (j, u) :: r => if k <? j then (k, t) :: m else if k =? j then (k, t) :: r else (j, u) :: map_put r k t
  end.
Definition ord_push {T} (q : list (Z * T) * Z) (x : Z * T) : list (Z * T) * Z := (map_put (fst q) (fst x) (snd x), snd q).
Definition ord_pop {T} (q : list (Z * T) * Z) : option ((Z * T) * (list (Z * T) * Z)) :=
  match fst q with
  | [] => None
  | (k, t) :: r => if k =? snd q then Some ((k, t), (r, snd q + 1)) else None
  end.
