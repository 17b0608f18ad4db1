(* Model of the message queue between threads: src/vw/Core/ThreadQueue.h and
   the condition variable wrapper src/vw/Core/Condition.h.
   Any number of threads call the methods in any order.  One transition is what
   a thread does while it holds m_mutex once, or one notification.  Waking up
   without a notification and running out of time may happen at any moment.
   Simplification: the length of a time-out is not represented. *)
From Coq Require Import ZArith List Lia Bool.
From Verif Require Import Lib.Base.
Import ListNotations.

Section TQ.
  Context {T : Type}.

  (* a thread: outside; in push() between unlock and notify_one; in wait_pop()
     or timed_wait_pop() about to lock and test, or asleep on the condition.
     The flag of TTry says that the time is over. *)
  Inductive pc := Idle | Notify | WTry | WSleep | TTry (over : bool) | TSleep.

  (* What a call did at the moment it held the lock. *)
  Inductive ev := EPush (v : T) | EPop (v : T) | ENone | EFlush (n : nat) | ESize (n : nat) | EEmpty (b : bool).

  (* ThreadQueue.h:38-40; hist is a log: thread number and effect *)
  Record st := St { q : list T; th : list pc; hist : list (nat * ev) }.

  Definition st0 (n : nat) := St [] (repeat Idle n) [].

  Inductive step : st -> st -> Prop :=
  | s_push A B Q H v :                                                (* ThreadQueue.h:44-49 *)
      step (St Q (A ++ Idle :: B) H) (St (Q ++ [v]) (A ++ Notify :: B) (H ++ [(length A, EPush v)]))
  | s_notify_w A B A' B' Q H :                                        (* ThreadQueue.h:53, a wait_pop is woken *)
      A ++ Idle :: B = A' ++ WSleep :: B' ->
      step (St Q (A ++ Notify :: B) H) (St Q (A' ++ WTry :: B') H)
  | s_notify_t A B A' B' Q H :                                        (* ThreadQueue.h:53, a timed_wait_pop is woken *)
      A ++ Idle :: B = A' ++ TSleep :: B' ->
      step (St Q (A ++ Notify :: B) H) (St Q (A' ++ TTry false :: B') H)
  | s_notify_0 A B Q H :                                              (* ThreadQueue.h:53, nobody is waiting *)
      (forall p, In p (A ++ B) -> p <> WSleep /\ p <> TSleep) ->
      step (St Q (A ++ Notify :: B) H) (St Q (A ++ Idle :: B) H)
  | s_empty A B Q H :                                                 (* ThreadQueue.h:57-60 *)
      step (St Q (A ++ Idle :: B) H)
           (St Q (A ++ Idle :: B) (H ++ [(length A, EEmpty (match Q with [] => true | _ => false end))]))
  | s_try A B Q H :                                                   (* ThreadQueue.h:64-68 *)
      Q = [] -> step (St Q (A ++ Idle :: B) H) (St Q (A ++ Idle :: B) (H ++ [(length A, ENone)]))
  | s_try_pop A B Q H v :                                             (* ThreadQueue.h:64-65, 70-72 *)
      step (St (v :: Q) (A ++ Idle :: B) H) (St Q (A ++ Idle :: B) (H ++ [(length A, EPop v)]))
  | s_size A B Q H :                                                  (* ThreadQueue.h:76-79 *)
      step (St Q (A ++ Idle :: B) H) (St Q (A ++ Idle :: B) (H ++ [(length A, ESize (length Q))]))
  | s_wait A B Q H :                                                  (* ThreadQueue.h:83 *)
      step (St Q (A ++ Idle :: B) H) (St Q (A ++ WTry :: B) H)
  | s_wait_sleep A B Q H :                                            (* ThreadQueue.h:84-86 *)
      Q = [] -> step (St Q (A ++ WTry :: B) H) (St Q (A ++ WSleep :: B) H)
  | s_wait_pop A B Q H v :                                            (* ThreadQueue.h:84, 89-90 *)
      step (St (v :: Q) (A ++ WTry :: B) H) (St Q (A ++ Idle :: B) (H ++ [(length A, EPop v)]))
  | s_wait_spur A B Q H :                                             (* boost::condition may wake up by itself *)
      step (St Q (A ++ WSleep :: B) H) (St Q (A ++ WTry :: B) H)
  | s_timed A B Q H :                                                 (* ThreadQueue.h:94 *)
      step (St Q (A ++ Idle :: B) H) (St Q (A ++ TTry false :: B) H)
  | s_timed_sleep A B Q H :                                           (* ThreadQueue.h:98, Condition.h:83-94 *)
      Q = [] -> step (St Q (A ++ TTry false :: B) H) (St Q (A ++ TSleep :: B) H)
  | s_timed_fail A B Q H :                                            (* ThreadQueue.h:98-99 *)
      Q = [] -> step (St Q (A ++ TTry true :: B) H) (St Q (A ++ Idle :: B) (H ++ [(length A, ENone)]))
  | s_timed_pop A B Q H b v :                                         (* ThreadQueue.h:98, 101-103 *)
      step (St (v :: Q) (A ++ TTry b :: B) H) (St Q (A ++ Idle :: B) (H ++ [(length A, EPop v)]))
  | s_timed_spur A B Q H b :                                          (* woken up without notification, or time over *)
      step (St Q (A ++ TSleep :: B) H) (St Q (A ++ TTry b :: B) H)
  | s_flush A B Q H :                                                 (* ThreadQueue.h:107-112 *)
      step (St Q (A ++ Idle :: B) H) (St [] (A ++ Idle :: B) (H ++ [(length A, EFlush (length Q))])).

  Inductive reach (n : nat) : st -> Prop :=
  | r_init : reach n (st0 n)
  | r_step s s' : reach n s -> step s s' -> reach n s'.
End TQ.
Arguments ev : clear implicits.
Arguments st : clear implicits.
