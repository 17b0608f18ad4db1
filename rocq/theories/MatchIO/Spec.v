(** What a representable interest point is and how long its record is. *)
From Verif Require Import Lib.Base MatchIO.Model.
From Coq Require Import List ZArith.
Import ListNotations.
Open Scope Z_scope.

Definition fits (bits v : Z) : Prop := 0 <= v < 2 ^ bits.

(** Every member is a bit pattern of the size of its C++ type. *)
Definition wf_ip (p : ip) : Prop :=
  fits 32 (px p) /\ fits 32 (py p) /\ fits 32 (pix p) /\ fits 32 (piy p) /\
  fits 32 (porient p) /\ fits 32 (pscale p) /\ fits 32 (pinterest p) /\
  fits 1 (ppolarity p) /\ fits 32 (poctave p) /\ fits 32 (pscale_lvl p) /\
  Forall (fits 32) (pdesc p) /\ fits 64 (Z.of_nat (length (pdesc p))).

Definition wf_ips (ps : list ip) : Prop :=
  Forall wf_ip ps /\ fits 64 (Z.of_nat (length ps)).

(** The length of a record in bytes: ten members take 37, the descriptor
    length 8 and each of its elements 4. *)
Definition record_size (p : ip) : nat := (45 + 4 * length (pdesc p))%nat.

Definition records_size (ps : list ip) : nat :=
  fold_right (fun p n => (record_size p + n)%nat) 0%nat ps.
