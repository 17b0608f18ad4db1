(** Progress of tasks and their parts (src/vw/Core/ProgressCallback.h, ProgressCallback.cc).

    Progress is an exact rational.  Calls are single steps: each takes the mutex of the
    object that keeps the progress.  What is printed is modelled as the number of stars and
    dots of each line; the message of an abort is left out. *)
From Coq Require Import List Bool ZArith QArith.
From Verif Require Import Lib.Base GeoRef.Model.
Import ListNotations.
Local Open Scope Q_scope.

(* ProgressCallback.h:146-155 what a terminal callback has besides: the step, the length of
   the bar and the progress last printed *)
Record term := Term { step : Q; bar : Z; last : Q }.
(* ProgressCallback.h:40-50 the object that keeps the progress; [NullRoot] is a NullProgressCallback *)
Inductive kind := Plain | NullRoot | Terminal (t : term).
Record root := Root { knd : kind; aborted : bool; done : Q; lines : list (Z * Z) }.
(* ProgressCallback.h:113-120 a part [from, to] of a task, and a part of it, and so on; the
   innermost part comes first *)
Definition part : Type := Q * Q.

(* ProgressCallback.cc:42-53 print_progress *)
Definition print_progress (r : root) : root :=
  match knd r with
  | Terminal t =>
      if ltq (step t) (qabs (done r - last t)) then
        let pi := trunc (done r * inject_Z (bar t)) in
        Root (Terminal (Term (step t) (bar t) (done r))) (aborted r) (done r) (lines r ++ [(Z.max 0 pi, Z.max 0 (bar t - pi))])
      else r
  | _ => r
  end.
(* ProgressCallback.h:64-67, 197-201, 224 report_progress of the object that keeps it *)
Definition root_report (r : root) (q : Q) : root :=
  match knd r with NullRoot => r | _ => print_progress (Root (knd r) (aborted r) q (lines r)) end.
(* ProgressCallback.h:69-72, 203-207, 225 report_incremental_progress *)
Definition root_increment (r : root) (q : Q) : root :=
  match knd r with NullRoot => r | _ => print_progress (Root (knd r) (aborted r) (done r + q) (lines r)) end.
(* ProgressCallback.h:75-78, 227 and ProgressCallback.cc:60-69 report_finished; the
   terminal prints a full line and leaves the progress.  The length given is that of the
   bar without digits, which is [bar] for a precision of zero. *)
Definition root_finished (full : Z) (r : root) : root :=
  match knd r with
  | NullRoot => r
  | Plain => Root Plain (aborted r) 1 (lines r)
  | Terminal t => Root (Terminal t) (aborted r) (done r) (lines r ++ [(full, 0%Z)])
  end.
(* ProgressCallback.h:100-103, 229 request_abort *)
Definition root_abort (r : root) : root :=
  match knd r with NullRoot => r | _ => Root (knd r) true (done r) (lines r) end.

(* ProgressCallback.h:121-124 *)
Fixpoint report_progress (ps : list part) (r : root) (q : Q) : root :=
  match ps with [] => root_report r q | (a, b) :: ps => report_progress ps r (a + (b - a) * q) end.
(* ProgressCallback.h:125-128 *)
Fixpoint report_increment (ps : list part) (r : root) (q : Q) : root :=
  match ps with [] => root_increment r q | (a, b) :: ps => report_increment ps r ((b - a) * q) end.
(* ProgressCallback.h:132-134 *)
Definition report_finished (full : Z) (ps : list part) (r : root) : root :=
  match ps with [] => root_finished full r | (a, b) :: ps => report_progress ps r b end.
(* ProgressCallback.h:81-83, 228; a part of a NullProgressCallback ends in it as well *)
Definition report_fractional (ps : list part) (r : root) (n total : Q) : root :=
  report_progress ps r (if ltq (qabs total) (1 # 1000000000000000000000000000000) then 0 else n / total).
(* ProgressCallback.h:136 *)
Definition request_abort (ps : list part) (r : root) : root := root_abort r.
(* ProgressCallback.h:86-97, 135 abort_if_requested: [Throw] stands for Aborted *)
Definition abort_if_requested (ps : list part) (r : root) : res unit := if aborted r then Throw OtherErr else Ok tt.
(* ProgressCallback.h:105, 138; [None] is what is not a number or not finite *)
Fixpoint progress (ps : list part) (r : root) : option Q :=
  match ps with
  | [] => Some (done r)
  | (a, b) :: ps => match progress ps r with None => None | Some q => if Qeq_bool (b - a) 0 then None else Some ((q - a) / (b - a)) end
  end.

(* ProgressCallback.h:157-163 calculate_bar_length for a text and a number of digits *)
Definition bar_length (text digits : Z) : res Z :=
  if (text + 8 + digits <? 80)%Z then Ok (80 - text - 4 - 3 - (if 0 <? digits then digits + 1 else 0))%Z else Throw ArgumentErr.
(* ProgressCallback.cc:31-40 the deprecated constructor, without the test: unsigned 32-bit arithmetic *)
Definition bar_length_old (text digits : Z) : Z :=
  wrap_u32 (80 - text - 4 - 3 - (if 0 <? digits then digits + 1 else 0))%Z.
