(** Random sample consensus: src/vw/Math/RANSAC.h.

    Simplifications: errors are rationals and the mean is exact (no rounding, no
    NaN); the fitting functor and the error functor are total functions, they do
    not throw; the messages are left out.  std::rand() is a function from the
    number of calls so far to the value of the next call.  RANSACErr is
    [OtherErr]. *)
From Coq Require Import List ZArith Bool QArith.
From Verif Require Import Lib.Base.
Import ListNotations.
Open Scope Z_scope.

Definition qltb (a b : Q) : bool := negb (Qle_bool b a).

(** RANSAC.h 144-148: one random integer.  The products and quotients are exact here. *)
Definition pick (r size : Z) : Z := r * size / 2147483648.

(** RANSAC.h 146-153: the loop until the integer is a new one. *)
Fixpoint draw (fuel : nat) (rnd : nat -> Z) (k : nat) (size : Z) (chosen : list Z) : res (Z * nat) :=
  match fuel with
  | O => UB NoTerm
  | S fuel =>
      let x := pick (rnd k) size in
      if existsb (Z.eqb x) chosen then draw fuel rnd (S k) size chosen else Ok (x, S k)
  end.

(** RANSAC.h 145-154: the loop over the samples; [n] of them are still to come. *)
Fixpoint draws (fuel : nat) (rnd : nat -> Z) (k : nat) (size : Z) (n : nat) (chosen : list Z) : res (list Z * nat) :=
  match n with
  | O => Ok (chosen, k)
  | S n =>
      '(x, k) <- draw fuel rnd k size chosen ;;
      draws fuel rnd k size n (chosen ++ [x])
  end.

(** RANSAC.h 139-155: get_n_unique_integers. *)
Definition get_n_unique_integers (fuel : nat) (rnd : nat -> Z) (k : nat) (size : Z) (n : nat) : res (list Z * nat) :=
  if size <? Z.of_nat n then Throw ArgumentErr else draws fuel rnd k size n [].

(** RANSAC.h 265-269: the samples of all iterations.  A negative size is refused
    by std::vector::resize. *)
Fixpoint all_samples (fuel : nat) (rnd : nat -> Z) (k : nat) (size need : Z) (iters : nat) : res (list (list Z) * nat) :=
  match iters with
  | O => Ok ([], k)
  | S iters =>
      if need <? 0 then Throw OtherErr else
      '(s, k) <- get_n_unique_integers fuel rnd k size (Z.to_nat need) ;;
      '(l, k) <- all_samples fuel rnd k size need iters ;;
      Ok (s :: l, k)
  end.

(** std::vector operator[]. *)
Definition elem {X} (l : list X) (i : Z) : res X :=
  if i <? 0 then UB OutOfBounds
  else match nth_error l (Z.to_nat i) with Some x => Ok x | None => UB OutOfBounds end.

(** RANSAC.h 280-285: the sample of one iteration. *)
Fixpoint sample {X} (l : list X) (s : list Z) : res (list X) :=
  match s with
  | [] => Ok []
  | i :: s => x <- elem l i ;; m <- sample l s ;; Ok (x :: m)
  end.

Section Ransac.
Context {A B H : Type}.

(** The functors and the numbers a RandomSampleConsensus is made of
    (RANSAC.h 111-116), without the minimal number of inliers, which changes. *)
Record config := Config {
  fit : list A -> list B -> H;                (* FittingFuncT, two arguments *)
  refit : list A -> list B -> H -> H;         (* FittingFuncT, three arguments *)
  needed : A -> Z;                            (* min_elements_needed_for_fit *)
  error : H -> A -> B -> Q;                   (* ErrorFuncT *)
  initial : H;                                (* a default constructed result *)
  iterations : Z;
  threshold : Q;
  reduces : bool }.
Variable c : config.

(** RANSAC.h 160-177: inliers. *)
Fixpoint inliers (h : H) (p1 : list A) (p2 : list B) : res (list A * list B) :=
  match p1, p2 with
  | [], _ => Ok ([], [])
  | _ :: _, [] => UB OutOfBounds
  | a :: p1, b :: p2 =>
      '(l1, l2) <- inliers h p1 p2 ;;
      Ok (if qltb (error c h a b) (threshold c) then (a :: l1, b :: l2) else (l1, l2))
  end.

(** RANSAC.h 179-189: inlier_indices. *)
Fixpoint indices_from (i : Z) (h : H) (p1 : list A) (p2 : list B) : res (list Z) :=
  match p1, p2 with
  | [], _ => Ok []
  | _ :: _, [] => UB OutOfBounds
  | a :: p1, b :: p2 =>
      l <- indices_from (i + 1) h p1 p2 ;;
      Ok (if qltb (error c h a b) (threshold c) then i :: l else l)
  end.
Definition inlier_indices (h : H) (p1 : list A) (p2 : list B) : res (list Z) := indices_from 0 h p1 p2.

(** RANSAC.h 301-303: the sum of the errors. *)
Fixpoint sum_errors (h : H) (acc : Q) (l1 : list A) (l2 : list B) : res Q :=
  match l1, l2 with
  | [], _ => Ok acc
  | _ :: _, [] => UB OutOfBounds
  | a :: l1, b :: l2 => sum_errors h (acc + error c h a b) l1 l2
  end.

(** RANSAC.h 278-304: one iteration until the critical section: the model, its
    mean error and the number of inliers.  Without inliers the mean is not a
    number, and the critical section does nothing. *)
Definition iteration (least : Z) (p1 : list A) (p2 : list B) (s : list Z) : res (option (H * Q * Z)) :=
  t1 <- sample p1 s ;;
  t2 <- sample p2 s ;;
  let h := fit c t1 t2 in
  '(i1, i2) <- inliers h p1 p2 ;;
  let n := Z.of_nat (length i1) in
  if n <? least then Ok None else
  let h := refit c i1 i2 h in
  e <- sum_errors h 0 i1 i2 ;;
  if n =? 0 then Ok None else Ok (Some (h, e / inject_Z n, n)%Q).

(** RANSAC.h 272-274: the shared variables; [None] is the largest double. *)
Record shared := Shared { min_err : option Q; best : H; num_inliers : Z }.

(** RANSAC.h 308-315: the critical section. *)
Definition save (s : shared) (cand : option (H * Q * Z)) : shared :=
  match cand with
  | None => s
  | Some (h, e, n) =>
      if match min_err s with None => true | Some m => qltb e m end then Shared (Some e) h n else s
  end.

(** RANSAC.h 275-316: the iterations.  They share nothing else, so that what
    happens is given by the order in which they come to the critical section. *)
Fixpoint run_iterations (least : Z) (p1 : list A) (p2 : list B) (samples : list (list Z)) (order : list nat) (s : shared)
  : res shared :=
  match order with
  | [] => Ok s
  | i :: order =>
      x <- elem samples (Z.of_nat i) ;;
      cand <- iteration least p1 p2 x ;;
      run_iterations least p1 p2 samples order (save s cand)
  end.

(** RANSAC.h 245-330: attempt_ransac, and the number of calls of rand() so far. *)
Definition attempt_ransac (fuel : nat) (rnd : nat -> Z) (k : nat) (order : list nat) (least : Z) (p1 : list A) (p2 : list B)
  : res H * nat :=
  match p1 with
  | [] => (Throw OtherErr, k)
  | a :: _ =>
      if negb (Nat.eqb (length p1) (length p2)) then (Throw OtherErr, k) else
      let need := needed c a in
      if Z.of_nat (length p1) <? need then (Throw OtherErr, k) else
      if least <? need then (Throw OtherErr, k) else
      if iterations c <? 0 then (Throw OtherErr, k) else
      match all_samples fuel rnd k (Z.of_nat (length p1)) need (Z.to_nat (iterations c)) with
      | Throw e => (Throw e, k)
      | UB u => (UB u, k)
      | Ok (samples, k) =>
          (s <- run_iterations least p1 p2 samples order (Shared None (initial c) 0) ;;
           if num_inliers s <? least then Throw OtherErr else Ok (best s), k)
      end
  end.

(** RANSAC.h 191-193: reduce_min_num_output_inliers. *)
Definition reduced (least : Z) : Z := Z.quot (2 * least) 3.

(** RANSAC.h 222-240: the attempts.  The result, the minimal number of inliers and
    the calls of rand() afterwards.  [orders] gives the order of the critical
    sections of each attempt, the last attempt being number 1. *)
Fixpoint attempts (n : nat) (fuel : nat) (rnd : nat -> Z) (k : nat) (orders : nat -> list nat) (least : Z)
    (p1 : list A) (p2 : list B) : res H * Z * nat :=
  match n with
  | O => (Throw OtherErr, least, k)
  | S n' =>
      match attempt_ransac fuel rnd k (orders n) least p1 p2 with
      | (Ok h, k) => (Ok h, least, k)
      | (UB u, k) => (UB u, least, k)
      | (Throw _, k) =>
          if negb (reduces c) then (Throw OtherErr, least, k) else
          let least := reduced least in
          if least <? 2 then (Throw OtherErr, least, k) else
          attempts n' fuel rnd k orders least p1 p2
      end
  end.

(** RANSAC.h 210-243: operator(). *)
Definition ransac (fuel : nat) (rnd : nat -> Z) (k : nat) (orders : nat -> list nat) (least : Z) (p1 : list A) (p2 : list B)
  : res H * Z * nat := attempts 10 fuel rnd k orders least p1 p2.
End Ransac.
Arguments config : clear implicits.
Arguments shared : clear implicits.
