(** What random sample consensus should do. *)
From Coq Require Import List ZArith QArith.
From Verif Require Import Lib.Base Ransac.Model.
Import ListNotations.
Open Scope Z_scope.

(** [m] holds the elements of [l] with the property, in the same order. *)
Inductive selected {X} (P : X -> Prop) : list X -> list X -> Prop :=
| sel_nil : selected P [] []
| sel_in x l m : P x -> selected P l m -> selected P (x :: l) (x :: m)
| sel_out x l m : ~ P x -> selected P l m -> selected P (x :: l) m.

(** The generator behaves like std::rand() with RAND_MAX 2^31 - 1. *)
Definition rand_ok (rnd : nat -> Z) : Prop := forall k, 0 <= rnd k < 2147483648.

(** A sample: as many different positions as are needed. *)
Definition is_sample (size need : Z) (s : list Z) : Prop :=
  Z.of_nat (length s) = need /\ NoDup s /\ forall i, In i s -> 0 <= i < size.

Definition total {X} (f : X -> Q) (l : list X) : Q := fold_right (fun x a => f x + a)%Q 0%Q l.

Section Spec.
Context {A B H : Type}.

Definition err (c : config A B H) (h : H) (ab : A * B) : Q := error c h (fst ab) (snd ab).

(** The model [h] with mean error [e] that the sample [s] leads to: a first model
    is fitted to the pairs of the sample, and [h] is fitted to all the pairs that
    are closer to the first model than the threshold, [least] of them at least. *)
Definition candidate (c : config A B H) (least : Z) (p1 : list A) (p2 : list B) (s : list Z) (h : H) (e : Q) : Prop :=
  exists t m,
    Forall2 (fun i ab => 0 <= i /\ nth_error (combine p1 p2) (Z.to_nat i) = Some ab) s t /\
    let first := fit c (map fst t) (map snd t) in
    selected (fun ab => (err c first ab < threshold c)%Q) (combine p1 p2) m /\
    least <= Z.of_nat (length m) /\ m <> [] /\
    h = refit c (map fst m) (map snd m) first /\
    (e * inject_Z (Z.of_nat (length m)) == total (err c h) m)%Q.

(** The inputs are refused. *)
Definition refused (c : config A B H) (least : Z) (p1 : list A) (p2 : list B) : Prop :=
  match p1 with
  | [] => True
  | a :: _ =>
      length p1 <> length p2 \/ Z.of_nat (length p1) < needed c a \/ least < needed c a \/ iterations c < 0 \/
      (needed c a < 0 /\ 0 < iterations c)
  end.
End Spec.

(** The number of inliers asked for after some failures: two thirds each time. *)
Fixpoint lowered (n : nat) (least : Z) : Z :=
  match n with O => least | S n => lowered n (Z.quot (2 * least) 3) end.
