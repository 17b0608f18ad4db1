(* Model of matrix inversion and determinants: src/vw/Math/Matrix.h, with index_norm_inf of
   src/vw/Math/Vector.h.

   Simplification: the elements are rationals and the arithmetic exact.  Access out of range is
   undefined behaviour (the assertions of operator() are compiled in only with
   VW_ENABLE_BOUNDS_CHECK).  MathErr is OtherErr. *)
From Coq Require Import ZArith List Lia Bool QArith Qcanon Qcabs.
From Verif Require Import Lib.Base Lib.Img.
Import ListNotations.
Local Open Scope Z_scope.

(* m(row,column); a matrix is stored by rows *)
Notation matrix := (img Qc).
Definition mrows (m : matrix) : Z := irows m.
Definition mcols (m : matrix) : Z := icols m.
Definition mget (m : matrix) (r c : Z) : res Qc := get m c r.
Definition mset (m : matrix) (r c : Z) (q : Qc) : res matrix := put m c r q.
Definition zeros (r c : Z) : matrix := Img c r (fun _ _ => 0%Qc).
Definition is_zero (q : Qc) : bool := if Qc_eq_dec q 0%Qc then true else false.
Definition qless (a b : Qc) : bool := match (a ?= b)%Qc with Lt => true | _ => false end.

(* Vector.h:1620-1632 index_norm_inf, of the part of column [c] that starts at row [r0] and has
   [n] elements *)
Definition index_norm_inf (m : matrix) (c r0 n : Z) : res Z :=
  '(maxval, result) <- for_up 0 n (fun index '(maxval, result) =>
      q <- mget m (r0 + index) c ;;
      let a := Qcabs q in
      Ok (if qless maxval a then (a, index) else (maxval, result))) (Q2Qc (-1), 0) ;;
  Ok result.

(* Matrix.h:2242-2244: exchange of two rows through a buffer *)
Definition swap_rows (m : matrix) (a b : Z) : res matrix :=
  buf <- for_up 0 (mcols m) (fun c l => q <- mget m a c ;; Ok (l ++ [q])) [] ;;
  m <- for_up 0 (mcols m) (fun c m => q <- mget m b c ;; mset m a c q) m ;;
  for_up 0 (mcols m) (fun c m => mset m b c (nth (Z.to_nat c) buf 0%Qc)) m.

(* pm(i) as a vector: a matrix of one row *)
Notation perm := (img Z).
Definition swap_perm (p : perm) (a b : Z) : res perm :=
  x <- get p a 0 ;; y <- get p b 0 ;; p <- put p a 0 y ;; put p b 0 x.

(* Matrix.h:2247: subvector(mci,i+1,size-i-1) /= buf(i,i) *)
Definition scale_column (m : matrix) (i size : Z) : res matrix :=
  d <- mget m i i ;;
  for_up (i + 1) size (fun r m => q <- mget m r i ;; mset m r i (q / d)%Qc) m.
(* Matrix.h:2248: submatrix(...) -= outer_prod(...) *)
Definition eliminate (m : matrix) (i size : Z) : res matrix :=
  for_up (i + 1) size (fun r m => for_up (i + 1) size (fun c m =>
    q <- mget m r c ;; a <- mget m r i ;; b <- mget m i c ;; mset m r c (q - a * b)%Qc) m) m.

(* Matrix.h:2232-2250: one column of the decomposition *)
Definition lu_step (size i : Z) (s : matrix * perm) : res (matrix * perm) :=
  let '(buf, pm) := s in
  k <- index_norm_inf buf i i (size - i) ;;
  let p := i + k in
  q <- mget buf p i ;;
  if is_zero q then Throw OtherErr
  else
    '(buf, pm) <- (if p =? i then Ok (buf, pm)
                   else pm <- swap_perm pm i p ;; buf <- swap_rows buf i p ;; Ok (buf, pm)) ;;
    if i =? size - 1 then Ok (buf, pm)
    else
      buf <- scale_column buf i size ;;
      buf <- eliminate buf i size ;;
      Ok (buf, pm).

(* Matrix.h:2224-2250 *)
Definition lu (m : matrix) : res (matrix * perm) :=
  let size := mcols m in
  for_up 0 size (lu_step size) (m, Img size 1 (fun i _ => i)).

(* Matrix.h:2253-2255 *)
Definition permuted_identity (pm : perm) (size : Z) : res matrix :=
  for_up 0 size (fun i m => p <- get pm i 0 ;; mset m i p 1%Qc) (zeros size size).

(* Matrix.h:2258-2267 *)
Definition divide_lower (buf inv : matrix) (size : Z) : res matrix :=
  for_up 0 size (fun i inv => for_up 0 size (fun j inv =>
    t <- mget inv i j ;;
    if is_zero t then Ok inv
    else for_up (i + 1) size (fun k inv => q <- mget inv k j ;; b <- mget buf k i ;; mset inv k j (q - b * t)%Qc) inv) inv) inv.

(* Matrix.h:2270-2278 *)
Definition divide_upper (buf inv : matrix) (size : Z) : res matrix :=
  for_dn (size - 1) 0 (fun i inv => for_dn (size - 1) 0 (fun j inv =>
    q <- mget inv i j ;; d <- mget buf i i ;;
    let t := (q / d)%Qc in
    inv <- mset inv i j t ;;
    if is_zero t then Ok inv
    else for_dn (i - 1) 0 (fun k inv => q <- mget inv k j ;; b <- mget buf k i ;; mset inv k j (q - b * t)%Qc) inv) inv) inv.

(* Matrix.h:2219-2281 inverse *)
Definition inverse (m : matrix) : res matrix :=
  let size := mcols m in
  '(buf, pm) <- lu m ;;
  inv <- permuted_identity pm size ;;
  inv <- divide_lower buf inv size ;;
  divide_upper buf inv size.

(* Matrix.h:2208-2216: the overload for 2 x 2 *)
Definition inverse22 (m : matrix) : res matrix :=
  a <- mget m 0 0 ;; b <- mget m 0 1 ;; c <- mget m 1 0 ;; d <- mget m 1 1 ;;
  let det := (a * d - b * c)%Qc in
  if is_zero det then Throw OtherErr
  else Ok (of_rows 0%Qc [[d / det; - b / det]; [- c / det; a / det]]%Qc).

(** ** Determinant *)

(* Matrix.h:1121-1180 submatrix(...) assigned to a Matrix: a copy *)
Definition submatrix (a : matrix) (r0 c0 r c : Z) : res matrix :=
  for_up 0 r (fun i m => for_up 0 c (fun j m => q <- mget a (r0 + i) (c0 + j) ;; mset m i j q) m) (zeros r c).
(* Matrix.h:1152-1158: submatrix(d,r1,c1,r,c) = submatrix(a,r0,c0,r,c) *)
Definition copy_block (d : matrix) (r1 c1 : Z) (a : matrix) (r0 c0 r c : Z) : res matrix :=
  for_up 0 r (fun i m => for_up 0 c (fun j m => q <- mget a (r0 + i) (c0 + j) ;; mset m (r1 + i) (c1 + j) q) m) d.

(* Matrix.h:1885-1900: the minors of a matrix of dimension 3 or more are pushed; the last one
   pushed is the first in the list *)
Definition push_minors (a : matrix) (scale : Qc) (s : list (matrix * Qc)) : res (list (matrix * Qc)) :=
  let dim := mrows a in
  sub <- submatrix a 1 1 (dim - 1) (dim - 1) ;;
  q <- mget a 0 0 ;;
  '(sub, scale, s) <- for_up 1 (dim - 1) (fun i '(sub, scale, s) =>
      sub <- copy_block sub 0 0 a 1 0 (dim - 1) i ;;
      sub <- copy_block sub 0 i a 1 (i + 1) (dim - 1) (dim - i - 1) ;;
      q <- mget a 0 i ;;
      Ok (sub, (scale * - (1))%Qc, (sub, (scale * q)%Qc) :: s)) (sub, (scale * - (1))%Qc, (sub, (scale * q)%Qc) :: s) ;;
  sub <- submatrix a 1 0 (dim - 1) (dim - 1) ;;
  q <- mget a 0 (dim - 1) ;;
  Ok ((sub, (scale * q)%Qc) :: s).

(* Matrix.h:1869-1903: the loop over the stack, with a bound on the number of rounds *)
Fixpoint det_loop (fuel : nat) (s : list (matrix * Qc)) (result : Qc) : res Qc :=
  match s with
  | [] => Ok result
  | (a, scale) :: s =>
      match fuel with
      | O => UB NoTerm
      | S fuel =>
          if negb (mrows a =? mcols a) then Throw LogicErr
          else if mrows a =? 0 then det_loop fuel s result
          else if mrows a =? 1 then q <- mget a 0 0 ;; det_loop fuel s (result + scale * q)%Qc
          else if mrows a =? 2 then
            p <- mget a 0 0 ;; q <- mget a 1 1 ;; r <- mget a 0 1 ;; t <- mget a 1 0 ;;
            det_loop fuel s (result + scale * (p * q - r * t))%Qc
          else s <- push_minors a scale s ;; det_loop fuel s result
      end
  end.

(* Matrix.h:1862-1905 det *)
Definition det (fuel : nat) (m : matrix) : res Qc :=
  if negb (mrows m =? mcols m) then Throw ArgumentErr else det_loop fuel [(m, 1%Qc)] 0%Qc.

(* Matrix.h:1855-1860: the overload for 2 x 2 *)
Definition det22 (m : matrix) : res Qc :=
  p <- mget m 0 0 ;; q <- mget m 1 1 ;; r <- mget m 0 1 ;; t <- mget m 1 0 ;; Ok (p * q - r * t)%Qc.
