(** What the filters of disparity maps mean, without the loops of the code. *)
From Coq Require Import List ZArith QArith Qround Qabs Bool.
From Verif Require Import Lib.Base Lib.Img BBox.Box2 Disp.Model.
Import ListNotations.
Open Scope Q_scope.

(** The left pixel is on, its disparity is valid, and the pixel it points to is within
    the right mask and on. *)
Definition shown (disp : img px) (m1 m2 : img Z) (i j : Z) : Prop :=
  let tx := inject_Z i + dx (pix disp i j) in
  let ty := inject_Z j + dy (pix disp i j) in
  pix m1 i j <> 0%Z /\ valid (pix disp i j) = true /\
  0 <= tx /\ tx < inject_Z (icols m2) /\ 0 <= ty /\ ty < inject_Z (irows m2) /\
  pix m2 (Qfloor tx) (Qfloor ty) <> 0%Z.

Definition same_size {A B} (a : img A) (b : img B) : Prop := icols a = icols b /\ irows a = irows b.
Definition within {A} (b : box) (m : img A) : Prop := (0 <= x0 b /\ 0 <= y0 b /\ x1 b <= icols m /\ y1 b <= irows m)%Z.

(** Image extended beyond its edges by the nearest pixel. *)
Definition nearest (n i : Z) : Z := Z.max 0 (Z.min (n - 1) i).
Definition edge {A} (m : img A) (i j : Z) : A := pix m (nearest (icols m) i) (nearest (irows m) j).
Definition nonempty {A} (m : img A) : Prop := (0 < icols m /\ 0 < irows m)%Z.

(** The pixels of the window around (i, j): a list of rows. *)
Definition window_rows {A} (f : Z -> Z -> A) (h v i j : Z) : list (list A) :=
  map (fun y => map (fun x => f x y) (zrange (i - h) (i + h + 1))) (zrange (j - v) (j + v + 1)).
Definition window {A} (f : Z -> Z -> A) (h v i j : Z) : list A := concat (window_rows f h v i j).

Definition close (threshold : Q) (a c : px) : bool :=
  valid c && Qle_bool (Qabs (dx a - dx c)) threshold && Qle_bool (Qabs (dy a - dy c)) threshold.
Definition count {A} (P : A -> bool) (l : list A) : Z := Z.of_nat (length (filter P l)).

Definition sumq (l : list Q) : Q := fold_right Qplus 0 l.
Definition lenq {A} (l : list A) : Q := inject_Z (Z.of_nat (length l)).
Definition mean (l : list Q) : Q := sumq l / lenq l.
(** Mean of the squared differences from the mean. *)
Definition variance (l : list Q) : Q := mean (map (fun x => (x - mean l) * (x - mean l)) l).
(** The sum of the squared differences divided by one less. *)
Definition unbiased (l : list Q) : Q := sumq (map (fun x => (x - mean l) * (x - mean l)) l) / (lenq l - 1).

Definition magnitude1 (p : px) : Q := Qabs (dx p) + Qabs (dy p).
(** More than three quarters of the valid pixels have less than half the magnitude. *)
Definition gross (l : list px) (c : px) : bool :=
  (3 * count valid l / 4 <? count (fun p => valid p && ltq (2 * magnitude1 p) (magnitude1 c)) l)%Z.
(** A row up to its first gross pixel. *)
Fixpoint before {A} (P : A -> bool) (l : list A) : list A :=
  match l with [] => [] | x :: l' => if P x then [] else x :: before P l' end.
(** Squared distance of a pixel from the mean of some pixels is at most the square of
    [d]; never if there are none. *)
Definition near_mean (l : list px) (d : Q) (p : px) : bool :=
  match l with
  | [] => false
  | _ => let mx := mean (map dx l) in let my := mean (map dy l) in
         Qle_bool ((dx p - mx) * (dx p - mx) + (dy p - my) * (dy p - my)) (d * d)
  end.
(** The pixels that the mean ought to be taken of, and those that it is taken of. *)
Definition kept (rows : list (list px)) : list px := filter (fun p => valid p && negb (gross (concat rows) p)) (concat rows).
Definition read_kept (rows : list (list px)) : list px :=
  filter valid (concat (map (before (fun p => valid p && gross (concat rows) p)) rows)).

(** Neither coordinate is further from the mean than [t] times the deviation, which
    counts as at least [r]. *)
Definition within_dev (t r : Q) (l : list Q) (x : Q) : Prop :=
  (x - mean l) * (x - mean l) <= t * t * variance l \/ (0 <= r /\ (x - mean l) * (x - mean l) <= t * t * (r * r)).

(** Weights of the neighbours of a pixel that is kept at half size. *)
Definition weights : list (Z * Z * Z) :=
  [(0, 0, 10); (1, 0, 5); (0, 1, 5); (-1, 0, 5); (0, -1, 5); (1, 1, 2); (-1, -1, 2); (-1, 1, 2); (1, -1, 2)]%Z.
Definition neighbours (m : img px) (i j : Z) : list (px * Q) :=
  filter (fun e => valid (fst e)) (map (fun '(a, b, w) => (edge m (2 * i + a)%Z (2 * j + b)%Z, inject_Z w)) weights).
Definition weighted (f : px -> Q) (l : list (px * Q)) : Q := sumq (map (fun e => snd e * f (fst e)) l) / sumq (map snd l).

Definition pxeq (a b : px) : Prop := valid a = valid b /\ dx a == dx b /\ dy a == dy b.
