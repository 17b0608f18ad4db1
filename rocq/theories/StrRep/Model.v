(** Find and replace on strings (src/vw/Core/StringUtils.cc). *)
From Verif Require Import Lib.Base Lib.Lists Lib.Str.
From Coq Require Import List Arith Bool Ascii String.
Import ListNotations.
Open Scope list_scope.

(** std::string::find(find, pos). *)
Definition find_from (s f : str) (pos : nat) : option nat :=
  if (pos <=? List.length s)%nat then option_map (Nat.add pos) (sfind f (skipn pos s)) else None.

(** std::string::replace(pos, len, r). *)
Definition replace_at (s : str) (pos len : nat) (r : str) : str :=
  firstn pos s ++ r ++ skipn (pos + len) s.

(** StringUtils.cc 24-38: string_replace, with a bound on the rounds of the
    endless loop; [NoTerm] if the bound is reached.  size_t does not overflow:
    memory is exhausted before. *)
Fixpoint replace_loop (fuel : nat) (s f r : str) (pos count : nat) : res (str * nat) :=
  match fuel with
  | O => UB NoTerm
  | S fuel =>
      match find_from s f pos with
      | None => Ok (s, count)
      | Some p => replace_loop fuel (replace_at s p (List.length f) r) f r (p + 1) (count + 1)
      end
  end.

Definition string_replace (fuel : nat) (s f r : str) : res (str * nat) := replace_loop fuel s f r 0 0.

(** StringUtils.cc 46-54 and StringUtils.h 68-77: the separators of
    str_to_std_vec and str_to_vec become spaces, one separator at a time. *)
Definition space : ascii := " "%char.

Fixpoint separate (fuel : nat) (seps s : str) : res str :=
  match seps with
  | [] => Ok s
  | c :: seps => '(s', _) <- string_replace fuel s [c] [space] ;; separate fuel seps s'
  end.
