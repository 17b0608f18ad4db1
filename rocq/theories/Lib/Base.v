(* Common vocabulary of the model: outcomes of C++ code, integer widths,
   loops.  Nothing here models a particular file of /repo. *)
From Coq Require Import ZArith List Lia Bool.
Import ListNotations.
Local Open Scope Z_scope.

(* Exceptions raised by the code (src/vw/Core/Exception.h). *)
Inductive exn : Set :=
  ArgumentErr | InputErr | LogicErr | NoImplErr | IOErr | AggregateErr | OtherErr.

(* Kinds of undefined behaviour. *)
Inductive ub : Set :=
  OutOfBounds | DivByZero | Overflow | NullDeref | BadIter | NoTerm.

(* Outcome of a piece of C++ code. *)
Inductive res (A : Type) : Type :=
| Ok (a : A)
| Throw (e : exn)
| UB (u : ub).
Arguments Ok {A} a.
Arguments Throw {A} e.
Arguments UB {A} u.

Definition bind {A B} (m : res A) (k : A -> res B) : res B :=
  match m with Ok a => k a | Throw e => Throw e | UB u => UB u end.

Notation "x <- m ;; k" := (bind m (fun x => k))
  (at level 61, m at next level, right associativity).
Notation "' p <- m ;; k" := (bind m (fun x => match x with p => k end))
  (at level 61, p pattern, m at next level, right associativity).

Lemma bind_ok {A B} (m : res A) (k : A -> res B) b :
  bind m k = Ok b -> exists a, m = Ok a /\ k a = Ok b.
Proof. destruct m; simpl; intros; try discriminate; eauto. Qed.

(* Signed 32-bit range (src/vw/Core/FundamentalTypes.h: int32). *)
Definition i32_min : Z := -2147483648.
Definition i32_max : Z := 2147483647.
Definition i32_ok (z : Z) : Prop := i32_min <= z <= i32_max.
Definition i32_okb (z : Z) : bool := (i32_min <=? z) && (z <=? i32_max).

(* Value obtained when converting to a 32-bit type modulo 2^32. *)
Definition wrap_i32 (z : Z) : Z := (z + 2147483648) mod 4294967296 - 2147483648.
Definition wrap_u32 (z : Z) : Z := z mod 4294967296.

Lemma wrap_i32_id z : i32_ok z -> wrap_i32 z = z.
Proof.
  unfold i32_ok, i32_min, i32_max, wrap_i32; intros.
  rewrite Z.mod_small; lia.
Qed.

Lemma wrap_u32_id z : 0 <= z < 4294967296 -> wrap_u32 z = z.
Proof. intros; unfold wrap_u32; apply Z.mod_small; lia. Qed.

(* C++ integer division and remainder; division by zero is undefined. *)
Definition cdiv (a b : Z) : res Z := if b =? 0 then UB DivByZero else Ok (Z.quot a b).
Definition crem (a b : Z) : res Z := if b =? 0 then UB DivByZero else Ok (Z.rem a b).

(* [for (i = i0; i0 + n iterations; ++i) s = body i s]. *)
Fixpoint loop {S : Type} (n : nat) (i : Z) (body : Z -> S -> res S) (s : S) : res S :=
  match n with
  | O => Ok s
  | Datatypes.S n' => s' <- body i s ;; loop n' (i + 1) body s'
  end.

(* [for (i = a; i < b; ++i)]. *)
Definition for_up {S : Type} (a b : Z) (body : Z -> S -> res S) (s : S) : res S :=
  loop (Z.to_nat (b - a)) a body s.

(* Pure loops. *)
Fixpoint ploop {S : Type} (n : nat) (i : Z) (body : Z -> S -> S) (s : S) : S :=
  match n with
  | O => s
  | Datatypes.S n' => ploop n' (i + 1) body (body i s)
  end.

Lemma loop_inv {S : Type} (P : Z -> S -> Prop) body :
  forall n i s,
    P i s ->
    (forall k s, i <= k < i + Z.of_nat n -> P k s ->
       exists s', body k s = Ok s' /\ P (k + 1) s') ->
    exists s', loop n i body s = Ok s' /\ P (i + Z.of_nat n) s'.
Proof.
  induction n as [|n IH]; intros i s H0 Hs; simpl.
  - exists s; split; auto. replace (i + 0) with i by lia; auto.
  - destruct (Hs i s) as (s' & E & H'); [lia|auto|].
    rewrite E; simpl.
    destruct (IH (i + 1) s' H') as (s'' & E' & H'').
    + intros; apply Hs; auto; lia.
    + exists s''; split; auto.
      replace (i + Z.pos (Pos.of_succ_nat n)) with (i + 1 + Z.of_nat n) by lia; auto.
Qed.

Lemma for_up_inv {S : Type} (P : Z -> S -> Prop) body a b s :
  a <= b -> P a s ->
  (forall k s, a <= k < b -> P k s -> exists s', body k s = Ok s' /\ P (k + 1) s') ->
  exists s', for_up a b body s = Ok s' /\ P b s'.
Proof.
  intros L H0 Hs. unfold for_up.
  destruct (loop_inv P body (Z.to_nat (b - a)) a s H0) as (s' & E & H').
  - intros; apply Hs; auto; lia.
  - exists s'; split; auto. replace b with (a + Z.of_nat (Z.to_nat (b - a))) by lia; auto.
Qed.

Lemma ploop_inv {S : Type} (P : Z -> S -> Prop) body :
  forall n i s,
    P i s ->
    (forall k s, i <= k < i + Z.of_nat n -> P k s -> P (k + 1) (body k s)) ->
    P (i + Z.of_nat n) (ploop n i body s).
Proof.
  induction n as [|n IH]; intros i s H0 Hs; simpl.
  - replace (i + 0) with i by lia; auto.
  - replace (i + Z.pos (Pos.of_succ_nat n)) with (i + 1 + Z.of_nat n) by lia.
    apply IH.
    + apply Hs; auto; lia.
    + intros; apply Hs; auto; lia.
Qed.

(* Elementwise combination of two vectors. *)
Fixpoint map2 {A B C} (f : A -> B -> C) (l : list A) (m : list B) : list C :=
  match l, m with
  | a :: l', b :: m' => f a b :: map2 f l' m'
  | _, _ => []
  end.

Lemma map2_length {A B C} (f : A -> B -> C) l m :
  length l = length m -> length (map2 f l m) = length l.
Proof. revert m; induction l; destruct m; simpl; intros; auto; try discriminate. Qed.

Lemma map2_nth {A B C} (f : A -> B -> C) da db dc :
  forall l m i, length l = length m -> (i < length l)%nat ->
  nth i (map2 f l m) dc = f (nth i l da) (nth i m db).
Proof.
  induction l; destruct m; simpl; intros; try lia; try discriminate.
  destruct i; auto. apply IHl; lia.
Qed.

(* Integer interval [a, a+n) as a list. *)
Fixpoint zseq (a : Z) (n : nat) : list Z :=
  match n with O => [] | S n' => a :: zseq (a + 1) n' end.
Definition zrange (a b : Z) : list Z := zseq a (Z.to_nat (b - a)).

Lemma in_zseq n : forall a x, In x (zseq a n) <-> a <= x < a + Z.of_nat n.
Proof.
  induction n; intros; simpl zseq; simpl In.
  - lia.
  - rewrite IHn. lia.
Qed.
Lemma in_zrange a b x : In x (zrange a b) <-> a <= x < b.
Proof. unfold zrange; rewrite in_zseq. lia. Qed.
Lemma zseq_length n : forall a, length (zseq a n) = n.
Proof. induction n; simpl; intros; auto. Qed.
Lemma zrange_length a b : length (zrange a b) = Z.to_nat (b - a).
Proof. apply zseq_length. Qed.
Lemma zseq_nodup n : forall a, NoDup (zseq a n).
Proof.
  induction n; intros; simpl; constructor; auto.
  rewrite in_zseq; lia.
Qed.
Lemma zrange_nodup a b : NoDup (zrange a b).
Proof. apply zseq_nodup. Qed.
Lemma zseq_nth n : forall a k d, (k < n)%nat -> nth k (zseq a n) d = a + Z.of_nat k.
Proof.
  induction n; intros; simpl; [lia|]. destruct k; [lia|].
  rewrite IHn by lia. lia.
Qed.
Lemma zseq_app n m : forall a, zseq a (n + m) = zseq a n ++ zseq (a + Z.of_nat n) m.
Proof.
  induction n; intros; simpl; [f_equal; lia|].
  f_equal. rewrite IHn. f_equal. f_equal. lia.
Qed.
Lemma zrange_cons a b : a < b -> zrange a b = a :: zrange (a + 1) b.
Proof.
  intros. unfold zrange. replace (Z.to_nat (b - a)) with (S (Z.to_nat (b - (a + 1)))) by lia.
  reflexivity.
Qed.
Lemma zrange_nil a b : b <= a -> zrange a b = [].
Proof. intros. unfold zrange. replace (Z.to_nat (b - a)) with O by lia. reflexivity. Qed.
Lemma zrange_app a b c : a <= b <= c -> zrange a c = zrange a b ++ zrange b c.
Proof.
  intros. unfold zrange.
  replace (Z.to_nat (c - a)) with (Z.to_nat (b - a) + Z.to_nat (c - b))%nat by lia.
  rewrite zseq_app. do 2 f_equal. lia.
Qed.

(* Sums over lists. *)
Definition zsum (l : list Z) : Z := fold_right Z.add 0 l.
Lemma zsum_app l m : zsum (l ++ m) = zsum l + zsum m.
Proof. induction l; simpl; auto. rewrite IHl. lia. Qed.
