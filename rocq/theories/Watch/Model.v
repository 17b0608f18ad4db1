(** Stopwatches (src/vw/Core/Stopwatch.h).

    Each member function runs under the mutex of the watch and is one step, with
    the clock it reads.  Copies of a watch share their data, so a history of
    calls on any of them is a history of one. *)
From Verif Require Import Lib.Base Lib.Str.
From Coq Require Import ZArith List Lia Bool Ascii.
Import ListNotations.
Local Open Scope Z_scope.

Definition u32 (z : Z) : Z := z mod 4294967296.
Definition u64 (z : Z) : Z := z mod 18446744073709551616.

(** Stopwatch.h 37-47. *)
Record watch := Watch { total_elapsed : Z; last_start : Z; startdepth : Z; numstops : Z }.
Definition new_watch : watch := Watch 0 0 0 0.

(** Stopwatch.h 57-62. *)
Definition start (now : Z) (w : watch) : watch :=
  Watch (total_elapsed w) (if startdepth w =? 0 then now else last_start w) (u32 (startdepth w + 1)) (numstops w).

(** Stopwatch.h 64-70. *)
Definition stop (now : Z) (w : watch) : watch :=
  let d := u32 (startdepth w - 1) in
  if d =? 0
  then Watch (u64 (total_elapsed w + u64 (now - last_start w))) (last_start w) d (u32 (numstops w + 1))
  else Watch (total_elapsed w) (last_start w) d (numstops w).

(** Stopwatch.h 72-87. *)
Definition is_running (w : watch) : bool := negb (startdepth w =? 0).
Definition elapsed_microseconds (w : watch) : Z := total_elapsed w.
Definition num_stops (w : watch) : Z := numstops w.

Inductive event := Start (now : Z) | Stop (now : Z).
Definition apply_event (w : watch) (e : event) : watch :=
  match e with Start now => start now w | Stop now => stop now w end.
Definition after (h : list event) : watch := fold_left apply_event h new_watch.

(** Stopwatch.h 92-106: StopwatchSet, a std::map from names to watches (here in
    the order of their creation); get creates a watch on first use. *)
Notation watch_set := (list (str * watch)).

Fixpoint get (s : watch_set) (name : str) : watch_set * watch :=
  match s with
  | [] => ([(name, new_watch)], new_watch)
  | (n, w) :: s => if str_eqb n name then ((n, w) :: s, w) else let '(s', w') := get s name in ((n, w) :: s', w')
  end.

(** What a call on the watch of that name leaves in the set: the watch in the
    set and the copy that get returned share their data. *)
Fixpoint set_watch (s : watch_set) (name : str) (w : watch) : watch_set :=
  match s with
  | [] => []
  | (n, w') :: s => if str_eqb n name then (n, w) :: s else (n, w') :: set_watch s name w
  end.

(** Stopwatch.h 131-138: stopwatch_start, stopwatch_stop.  [None] is a bare
    stopwatch_get. *)
Definition named_call (s : watch_set) (c : str * option event) : watch_set :=
  let '(s', w) := get s (fst c) in
  match snd c with None => s' | Some e => set_watch s' (fst c) (apply_event w e) end.

Definition set_after (h : list (str * option event)) : watch_set := fold_left named_call h [].
