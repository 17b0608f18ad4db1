(** The system log: rule sets, per-thread buffers and the fan-out to several
    logs (src/vw/Core/Log.h, Log.cc).

    Mutexes make every member function below one atomic step.  Time stamps are a
    string given by the caller; the reload of the configuration file in
    Log::operator() (Log.cc 346) is not modelled. *)
From Verif Require Import Lib.Base Lib.Lists Lib.Str.
From Coq Require Import List Arith Bool ZArith Ascii String.
Import ListNotations.
Open Scope list_scope.

Definition star : ascii := "*"%char.
Definition dot : ascii := "."%char.

(** boost::to_lower_copy in the C locale. *)
Definition lower_char (c : ascii) : ascii :=
  let n := nat_of_ascii c in
  if (65 <=? n)%nat && (n <=? 90)%nat then ascii_of_nat (n + 32) else c.
Definition to_lower (s : str) : str := map lower_char s.

(** Log.h 67-75. *)
Definition WarningMessage : Z := 10.
Definition InfoMessage : Z := 20.
Definition EveryMessage : Z := 100.

Notation rule := (Z * str)%type.

(** Log.cc 430-441: add_rule.  m_rules.push_front. *)
Definition add_rule (rules : list rule) (lvl : Z) (ns : str) : res (list rule) :=
  let n := count (Ascii.eqb star) ns in
  if (1 <? n)%nat then Throw ArgumentErr
  else if (n =? 1)%nat && negb (Ascii.eqb (hd star ns) star) && negb (Ascii.eqb (last ns star) star)
  then Throw ArgumentErr
  else Ok ((lvl, to_lower ns) :: rules).

(** boost::ends_with. *)
Definition ends (t p : str) : bool := starts (rev p) (rev t).

(** Log.cc 449-479: wildcard_match. *)
Definition wildcard_match (pattern s : str) : bool :=
  if str_eqb pattern [star] then true
  else match sfind [star] pattern with
       | None => str_eqb pattern s
       | Some idx =>
           if (idx =? 0)%nat then ends s (skipn 1 pattern)
           else if (1 <? List.length pattern)%nat && Ascii.eqb (nth (idx - 1) pattern star) dot
                   && str_eqb s (firstn (idx - 1) pattern)
           then true
           else starts (firstn idx pattern) s
       end.

(** Log.cc 484-513: LogRuleSet::operator(). *)
Definition default_rule (lvl : Z) (ns : str) : bool :=
  if (lvl <=? InfoMessage)%Z && (str_eqb ns (lit "console") || wildcard_match (lit "*.progress") (to_lower ns)) then true
  else (lvl <=? WarningMessage)%Z.

Fixpoint passes (rules : list rule) (lvl : Z) (ns : str) : bool :=
  match rules with
  | [] => default_rule lvl ns
  | (rl, pat) :: rules =>
      if negb (wildcard_match pat (to_lower ns)) then passes rules lvl ns
      else if (rl =? EveryMessage)%Z then true
      else (lvl <=? rl)%Z
  end.

(** A rule set is used by adding rules and clearing (Log.cc 443-446).  A rejected
    rule leaves it as it was. *)
Inductive rule_call := AddRule (lvl : Z) (ns : str) | ClearRules.

Definition rule_step (rules : list rule) (c : rule_call) : list rule :=
  match c with
  | AddRule lvl ns => match add_rule rules lvl ns with Ok r => r | _ => rules end
  | ClearRules => []
  end.

Definition rules_after (h : list rule_call) : list rule := fold_left rule_step h [].

(** Log.cc 403-414: is_enabled; Log.cc 343-370: the logs that the stream
    returned by Log::operator() feeds, by number, the console first (0). *)
Fixpoint enabled_logs (i : nat) (logs : list (list rule)) (lvl : Z) (ns : str) : list nat :=
  match logs with
  | [] => []
  | r :: logs => if passes r lvl ns then i :: enabled_logs (S i) logs lvl ns else enabled_logs (S i) logs lvl ns
  end.

Definition is_enabled (logs : list (list rule)) (lvl : Z) (ns : str) : bool :=
  existsb (fun r => passes r lvl ns) logs.

(** ** Buffers *)

Definition newline : ascii := ascii_of_nat 10.
Definition return_ : ascii := ascii_of_nat 13.
Definition ends_line (s : str) : bool :=
  match rev s with [] => false | c :: _ => Ascii.eqb c newline || Ascii.eqb c return_ end.

(** Log.cc 162-238: PerThreadBufferedStreamBuf.  [sent] lists the chunks handed
    to the streams, oldest first: stream, thread, text. *)
Record buf := Buf {
  buffers : nat -> str;
  out : option nat;
  sent : list (nat * nat * str)
}.

Definition set_buffer (b : buf) (t : nat) (s : str) : buf :=
  Buf (fun u => if Nat.eqb u t then s else buffers b u) (out b) (sent b).

(** Log.cc 216-224: locked_sync. *)
Definition locked_sync (b : buf) (t : nat) : buf :=
  match buffers b t, out b with
  | [], _ | _, None => b
  | s, Some o => Buf (fun u => if Nat.eqb u t then [] else buffers b u) (out b) (sent b ++ [(o, t, s)])
  end.

Inductive call :=
| Overflow_ (t : nat) (c : option ascii)   (* Log.cc 182-195; None is eof *)
| Xsputn (t : nat) (s : str)               (* Log.cc 197-214 *)
| Sync (t : nat)                           (* Log.cc 226-231 *)
| Init (o : nat).                          (* Log.cc 237 *)

Definition step (b : buf) (c : call) : buf :=
  match c with
  | Overflow_ t None => b
  | Overflow_ t (Some c) =>
      let b := set_buffer b t (buffers b t ++ [c]) in
      if Ascii.eqb c newline || Ascii.eqb c return_ then locked_sync b t else b
  | Xsputn t s =>
      let b := set_buffer b t (buffers b t ++ s) in
      if ends_line (buffers b t) then locked_sync b t else b
  | Sync t => locked_sync b t
  | Init o => Buf (buffers b) (Some o) (sent b)
  end.

Definition start : buf := Buf (fun _ => []) None [].
Definition run (h : list call) : buf := fold_left step h start.

(** Log.cc 235: the destructor, run by thread [t]. *)
Definition destroy (b : buf) (t : nat) : buf := locked_sync b t.

(** Log.cc 319-323: ~LogInstance redirects the stream to std::cout before it is
    destroyed.  [cout] is the number of std::cout. *)
Definition destroy_log (b : buf) (cout t : nat) : buf := destroy (step b (Init cout)) t.

(** Log.cc 325-338: what LogInstance::operator() writes before a message. *)
Definition prefix (stamp : option str) (lvl : Z) : list str :=
  (match stamp with Some s => [s] | None => [] end) ++
  (if (lvl =? 0)%Z then [lit "Error: "] else if (lvl =? WarningMessage)%Z then [lit "Warning: "] else []).
