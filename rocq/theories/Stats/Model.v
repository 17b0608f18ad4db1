(** Histogram, median and outlier brackets (src/vw/Math/Statistics.h,
    Statistics.cc).

    Values are exact rationals.  The percentile loop is written over an
    arithmetic given by its operations, and used both with exact numbers and with
    IEEE doubles (Coq.Floats.SpecFloat), where its rounding matters. *)
From Verif Require Import Lib.Base Lib.Lists.
From Coq Require Import List Arith Bool ZArith QArith Qround SpecFloat.
Import ListNotations.

(** The C function round: to the nearest integer, ties away from zero. *)
Definition c_round (q : Q) : Z :=
  if Qle_bool 0 q then Qfloor (q + (1 # 2)) else (- Qfloor (- q + (1 # 2)))%Z.

(** static_cast<int> of a rounded double: undefined outside int. *)
Definition to_int (z : Z) : res Z :=
  if (- 2 ^ 31 <=? z)%Z && (z <? 2 ^ 31)%Z then Ok z else UB Overflow.

(** Statistics.h 75-124: class Histogram.  The bin values count in double; below
    2^53 that is exact. *)
Record hist := Hist {
  num_bins : Z;
  num_values : Z;
  min_value : Q;
  range : Q;
  bin_values : list Z
}.

(** Statistics.cc 35-57: initialize.  The bin centres are [bin_center]. *)
Definition initialize (n : Z) (lo hi : Q) : res hist :=
  if (n =? 0)%Z then Throw ArgumentErr
  else Ok (Hist n 0 lo (hi - lo) (repeat 0%Z (Z.to_nat n))).

Definition bin_center (h : hist) (i : Z) : Q :=
  let w := range h / inject_Z (num_bins h) in
  min_value h + inject_Z i * w + w / 2.

(** Statistics.cc 59-62: the bin of a value.  With a zero range the double is not
    a number, and the cast undefined. *)
Definition bin_of (h : hist) (v : Q) : res Z :=
  if Qeq_bool (range h) 0 then UB Overflow
  else to_int (c_round (inject_Z (num_bins h - 1) * ((v - min_value h) / range h))).

Definition bump (h : hist) (b : Z) : res hist :=
  if (b <? 0)%Z || (num_bins h <=? b)%Z then UB OutOfBounds
  else Ok (Hist (num_bins h) (num_values h + 1) (min_value h) (range h)
             (upd (bin_values h) (Z.to_nat b) (nth (Z.to_nat b) (bin_values h) 0 + 1)%Z)).

(** Statistics.cc 59-79: add_value. *)
Definition add_value (h : hist) (v : Q) (saturate : bool) : res hist :=
  b <- bin_of h v ;;
  if (b <? 0)%Z then if saturate then bump h 0 else Ok h
  else if (num_bins h <=? b)%Z then if saturate then bump h (num_bins h - 1) else Ok h
  else bump h b.

(** Statistics.cc 81-86: add_value_no_check. *)
Definition add_value_no_check (h : hist) (v : Q) : res hist :=
  b <- bin_of h v ;; bump h b.

Fixpoint add_values (h : hist) (vs : list Q) (saturate : bool) : res hist :=
  match vs with
  | [] => Ok h
  | v :: vs => h <- add_value h v saturate ;; add_values h vs saturate
  end.

(** Statistics.cc 88-108: get_percentile. *)
Section Percentile.
Context {R : Type} (of_int : Z -> R) (plus div : R -> R -> R) (le : R -> R -> bool).

Fixpoint percentile_loop (vals : list Z) (i : Z) (sum running pct : R) : res Z :=
  match vals with
  | [] => Throw LogicErr
  | v :: vals =>
      let running := plus running (div (of_int v) sum) in
      if le pct running then Ok i else percentile_loop vals (i + 1) sum running pct
  end.

Definition lt (a b : R) : bool := le a b && negb (le b a).

Definition get_percentile (h : hist) (pct : R) : res Z :=
  if lt pct (of_int 0) || lt (of_int 1) pct then Throw ArgumentErr
  else percentile_loop (bin_values h) 0 (of_int (num_values h)) (of_int 0) pct.
End Percentile.

(** Exact numbers; None stands for the result of a division by zero, which
    compares false with everything. *)
Definition ex_of (z : Z) : option Q := Some (inject_Z z).
Definition ex_plus (a b : option Q) : option Q :=
  match a, b with Some a, Some b => Some (a + b) | _, _ => None end.
Definition ex_div (a b : option Q) : option Q :=
  match a, b with Some a, Some b => if Qeq_bool b 0 then None else Some (a / b) | _, _ => None end.
Definition ex_le (a b : option Q) : bool :=
  match a, b with Some a, Some b => Qle_bool a b | _, _ => false end.

Definition exact_percentile (h : hist) (pct : Q) : res Z :=
  get_percentile ex_of ex_plus ex_div ex_le h (Some pct).

(** IEEE binary64. *)
Definition dbl_of (z : Z) : spec_float := binary_normalize 53 1024 z 0 false.
Definition double_percentile (h : hist) (pct : spec_float) : res Z :=
  get_percentile dbl_of (SFadd 53 1024) (SFdiv 53 1024) SFleb h pct.

(** ** Order statistics *)

(** std::sort on doubles without NaN. *)
Fixpoint insert (x : Q) (l : list Q) : list Q :=
  match l with
  | [] => [x]
  | y :: l' => if Qle_bool x y then x :: l else y :: insert x l'
  end.

Definition sort_up (l : list Q) : list Q := fold_right insert [] l.

Definition at_index (l : list Q) (i : Z) : res Q :=
  if (i <? 0)%Z then UB OutOfBounds
  else match nth_error l (Z.to_nat i) with Some x => Ok x | None => UB OutOfBounds end.

(** Statistics.h 194-216: median. *)
Definition median (vs : list Q) : res Q :=
  let v := sort_up vs in
  let n := Z.of_nat (length vs) in
  let c := (n / 2)%Z in
  if (n mod 2 =? 1)%Z then at_index v c
  else x <- at_index v c ;; y <- at_index v (c - 1) ;; Ok ((x + y) / 2).

(** Statistics.h 289-323: find_outlier_brackets.  The result is the return value
    and the two brackets. *)
Definition find_outlier_brackets (vec : list Q) (pct factor : Q) : res (bool * Q * Q) :=
  let pct := if Qle_bool pct (1 # 2) then pct else 1 - pct in
  let pct := if Qle_bool 0 pct then pct else 0 in
  let q := sort_up vec in
  let len := Z.of_nat (length q) in
  if (len <=? 0)%Z then Ok (false, 0, 0)
  else
    b <- at_index q 0 ;;
    e <- at_index q (len - 1) ;;
    if (len <=? 3)%Z then Ok (false, b, e)
    else
      let bn := c_round (pct * inject_Z len) in
      let en := (c_round ((1 - pct) * inject_Z len) - 1)%Z in
      let bn := Z.min (len - 1) (Z.max bn 0) in
      let en := Z.min (len - 1) (Z.max en 0) in
      q1 <- at_index q bn ;;
      q3 <- at_index q en ;;
      Ok (true, q1 - factor * (q3 - q1), q3 + factor * (q3 - q1)).
