(* Model of sparse symmetric matrices and the linear systems solved with them:
   src/vw/Math/MatrixSparseSkyline.h.

   Numbers are exact rationals; dividing by zero, which gives an infinity or no number in
   the code, is [UB DivByZero] here.  Bounds checks are off, as in release builds.  Vectors
   are arrays with one row. *)
From Coq Require Import ZArith List Lia Bool QArith Qcanon.
From Verif Require Import Lib.Base Lib.Img.
Import ListNotations.
Local Open Scope Z_scope.

(* std::vector, vw::Vector (src/vw/Math/Vector.h): an access outside is undefined. *)
Notation vec A := (img A).
Definition vnew {A} (n : Z) (a : A) : vec A := Img n 1 (fun _ _ => a).
Definition vget {A} (v : vec A) (i : Z) : res A := get v i 0.
Definition vset {A} (v : vec A) (i : Z) (a : A) : res (vec A) := put v i 0 a.

Definition qdiv (a b : Qc) : res Qc := if Qc_eq_dec b 0 then UB DivByZero else Ok (a / b)%Qc.

(* The members m_matrix and m_skyline (lines 74-75).  A cell of m_matrix that was never
   written reads as zero. *)
Record mat := Mat { cells : img Qc; sky : vec Z }.

(* Lines 94-98: MatrixSparseSkyline(size) *)
Definition new_mat (n : Z) : mat := Mat (Img n n (fun _ _ => 0%Qc)) (Img n 1 (fun i _ => i)).

(* Lines 157-167: the reference returned by operator() and what obtaining it does *)
Definition access (a : mat) (row col : Z) : res (mat * (Z * Z)) :=
  let '(row, col) := if col >? row then (col, row) else (row, col) in
  s <- vget (sky a) row ;;
  if col <? s then sk <- vset (sky a) row col ;; Ok (Mat (cells a) sk, (row, col))
  else Ok (a, (row, col)).

(* Lines 170-178: operator() const *)
Definition at_const (row col : Z) : Z * Z := if col >? row then (col, row) else (row, col).

(* Which matrix an algorithm is called with: the matrix itself, or MatrixReorganize over it
   (lines 503-586) with its lookup table. *)
Inductive shape := Plain | Reorganized (lookup : vec Z).

(* Lines 167, 567-572 *)
Definition vaccess (sh : shape) (a : mat) (row col : Z) : res (mat * (Z * Z)) :=
  match sh with
  | Plain => access a row col
  | Reorganized lk => r <- vget lk row ;; c <- vget lk col ;; access a r c
  end.
(* Lines 178, 573-578 *)
Definition vconst (sh : shape) (a : mat) (row col : Z) : res (Z * Z) :=
  match sh with
  | Plain => Ok (at_const row col)
  | Reorganized lk => r <- vget lk row ;; c <- vget lk col ;; Ok (at_const r c)
  end.

Definition deref (a : mat) (p : Z * Z) : res Qc := get (cells a) (snd p) (fst p).
Definition store (a : mat) (p : Z * Z) (x : Qc) : res mat :=
  c <- put (cells a) (snd p) (fst p) x ;; Ok (Mat c (sky a)).

(* A(row,col) used as a value, A(row,col) = x, and A(row,col) of a const matrix *)
Definition read (sh : shape) (a : mat) (row col : Z) : res (mat * Qc) :=
  '(a, p) <- vaccess sh a row col ;; x <- deref a p ;; Ok (a, x).
Definition write (sh : shape) (a : mat) (row col : Z) (x : Qc) : res mat :=
  '(a, p) <- vaccess sh a row col ;; store a p x.
Definition read_const (sh : shape) (a : mat) (row col : Z) : res Qc :=
  p <- vconst sh a row col ;; deref a p.

(* The skyline used: A.skyline(), a reference to the member, or one that is handed in. *)
Definition skyline (outside : option (vec Z)) (a : mat) (i : Z) : res Z :=
  match outside with None => vget (sky a) i | Some s => vget s i end.

Definition dim (a : mat) : Z := icols (cells a).

(* Lines 253-259, 279-285: v(0..j) *)
Definition ldl_v (sh : shape) (out : option (vec Z)) (a : mat) (j : Z) : res (mat * vec Qc) :=
  '(a, x) <- read sh a j j ;;
  v <- vset (vnew (j + 1) 0%Qc) j x ;;
  s <- skyline out a j ;;
  for_up s j (fun i st =>
    let '(a, v) := st in
    '(a, x) <- read sh a j i ;; '(a, y) <- read sh a i i ;;
    v <- vset v i (x * y)%Qc ;;
    '(a, x) <- read sh a j i ;; vi <- vget v i ;; vj <- vget v j ;;
    v <- vset v j (vj - x * vi)%Qc ;; Ok (a, v)) (a, v).

(* Lines 263-269, 289-295: L(i,j) *)
Definition ldl_entry (sh : shape) (out : option (vec Z)) (v : vec Qc) (j i : Z) (a : mat) : res mat :=
  s <- skyline out a i ;;
  '(a, row_sum) <- for_up s j (fun jj st =>
      let '(a, row_sum) := st in
      '(a, x) <- read sh a i jj ;; y <- vget v jj ;; Ok (a, row_sum + x * y)%Qc) (a, 0%Qc) ;;
  s <- skyline out a i ;;
  if j >=? s then
    '(a, x) <- read sh a i j ;; d <- vget v j ;; q <- qdiv (x - row_sum)%Qc d ;; write sh a i j q
  else Ok a.

(* Lines 243-271 and, with a skyline of its own, 275-297 *)
Definition sparse_ldl_decomposition (sh : shape) (out : option (vec Z)) (a : mat) : res mat :=
  for_up 0 (dim a) (fun j a =>
    '(a, v) <- ldl_v sh out a j ;;
    d <- vget v j ;;
    a <- write sh a j j d ;;
    for_up (j + 1) (dim a) (ldl_entry sh out v j) a) a.

(* Lines 406-417: how many rows at the end have their skyline behind column j *)
Fixpoint count_back (s : vec Z) (j : Z) (n : nat) (i acc : Z) : res Z :=
  match n with
  | O => Ok acc
  | S n => x <- vget s i ;; if j <? x then count_back s j n (i - 1) (acc + 1) else Ok acc
  end.
Definition inverse_sky (s : vec Z) (j : Z) : res Z := count_back s j (Z.to_nat (icols s)) (icols s - 1) 0.

(* Lines 419-426 *)
Definition forward (sh : shape) (s : vec Z) (a : mat) (b : vec Qc) : res (vec Qc) :=
  for_up 0 (dim a) (fun i x =>
    k <- vget s i ;;
    sum <- for_up k i (fun j sum => l <- read_const sh a i j ;; y <- vget x j ;; Ok (sum + l * y)%Qc) 0%Qc ;;
    bi <- vget b i ;; vset x i (bi - sum)%Qc) (vnew (dim a) 0%Qc).
(* Lines 428-431 *)
Definition by_diagonal (sh : shape) (a : mat) (x : vec Qc) : res (vec Qc) :=
  for_up 0 (dim a) (fun i r => y <- vget x i ;; d <- read_const sh a i i ;; q <- qdiv y d ;; vset r i q) (vnew (dim a) 0%Qc).
(* Lines 433-440 *)
Definition backward (sh : shape) (s : vec Z) (a : mat) (x2 : vec Qc) : res (vec Qc) :=
  for_dn (dim a - 1) 0 (fun i x =>
    k <- inverse_sky s i ;;
    sum <- for_up (i + 1) (dim a - k) (fun j sum => l <- read_const sh a j i ;; y <- vget x j ;; Ok (sum + l * y)%Qc) 0%Qc ;;
    d <- vget x2 i ;; vset x i (d - sum)%Qc) (vnew (dim a) 0%Qc).

(* Lines 386-443: sparse_solve_ldl *)
Definition sparse_solve_ldl (sh : shape) (out : option (vec Z)) (a : mat) (b : vec Qc) : res (vec Qc) :=
  let s := match out with None => sky a | Some s => s end in
  x1 <- forward sh s a b ;; x2 <- by_diagonal sh a x1 ;; backward sh s a x2.

(* Lines 308-334: sparse_solve; the matrix is left holding the factors *)
Definition sparse_solve (sh : shape) (out : option (vec Z)) (a : mat) (b : vec Qc) : res (mat * vec Qc) :=
  a <- sparse_ldl_decomposition sh out a ;;
  x <- sparse_solve_ldl sh out a b ;; Ok (a, x).

(* Lines 345-369: multi_sparse_solve; B and X are matrices of n rows, get c r *)
Definition multi_sparse_solve (out : option (vec Z)) (a : mat) (b : img Qc) : res (mat * img Qc) :=
  if negb (dim a =? irows b) then Throw ArgumentErr else
  let out := match out with None => Some (sky a) | o => o end in
  a <- sparse_ldl_decomposition Plain out a ;;
  x <- for_up 0 (icols b) (fun i x =>
      c <- for_up 0 (irows b) (fun r c => y <- get b i r ;; vset c r y) (vnew (dim a) 0%Qc) ;;
      y <- sparse_solve_ldl Plain out a c ;;
      for_up 0 (irows b) (fun r x => q <- vget y r ;; put x i r q) x)
    (Img (icols b) (irows b) (fun _ _ => 0%Qc)) ;;
  Ok (a, x).

(* Lines 688-699: solve_for_skyline *)
Fixpoint skip_zeros (sh : shape) (a : mat) (n : nat) (i j : Z) : res Z :=
  match n with
  | O => Ok j
  | S n => x <- read_const sh a i j ;; if Qc_eq_dec x 0 then skip_zeros sh a n i (j + 1) else Ok j
  end.
Definition solve_for_skyline (sh : shape) (a : mat) : res (vec Z) :=
  for_up 0 (dim a) (fun i s => j <- skip_zeros sh a (Z.to_nat i) i 0 ;; vset s i j) (vnew (dim a) 0).

(* Lines 477, 488-491: VectorReorganize as a value, and inverse() *)
Definition reorganize {A} (d : A) (v : vec A) (lk : vec Z) : res (vec A) :=
  if negb (icols v =? icols lk) then Throw ArgumentErr else
  for_up 0 (icols lk) (fun i r => k <- vget lk i ;; x <- vget v k ;; vset r i x) (vnew (icols v) d).
Definition inverse (lk : vec Z) : res (vec Z) :=
  for_up 0 (icols lk) (fun i r => k <- vget lk i ;; vset r k i) (vnew (icols lk) 0).

(* The sequence of the test TestMatrixSparseSkyline.cxx 395-403: reorder, solve, reorder
   back. *)
Definition solve_reordered (a : mat) (b : vec Qc) (lk : vec Z) : res (vec Qc) :=
  s <- solve_for_skyline (Reorganized lk) a ;;
  rb <- reorganize 0%Qc b lk ;;
  '(_, y) <- sparse_solve (Reorganized lk) (Some s) a rb ;;
  il <- inverse lk ;; reorganize 0%Qc y il.

(* A history of uses of operator() on a matrix: A(row,col) = x, or A(row,col) as a value. *)
Inductive event := Assign (row col : Z) (x : Qc) | Look (row col : Z).
Definition apply_event (a : mat) (e : event) : res mat :=
  match e with
  | Assign r c x => write Plain a r c x
  | Look r c => '(a, _) <- read Plain a r c ;; Ok a
  end.
Fixpoint apply_all (a : mat) (h : list event) : res mat :=
  match h with [] => Ok a | e :: h => a <- apply_event a e ;; apply_all a h end.
