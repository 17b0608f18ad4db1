(* Model of src/vw/Image/Convolution.h and of the kernels of src/vw/Image/Filter.h and
   Filter.tcc.

   Simplifications: one plane, scalar pixels.  A channel is an integer type or a floating
   point type; products and sums are exact rationals, so what is lost by rounding of float and
   double is not modelled, what is lost by conversion to an integer channel is.  int32
   arithmetic does not overflow. *)
From Coq Require Import ZArith List Lia Bool QArith Qcanon.
From Verif Require Import Lib.Base Lib.Img BBox.Box2 Edge.Model MFun.Model Stats.Model Chan.Model MInv.Model.
Import ListNotations.
Local Open Scope Z_scope.

(* None: float or double *)
Notation chan := (option ity).
Definition of_int (z : Z) : Qc := Q2Qc (inject_Z z).

(* PixelTypeInfo.h:323-330 channel_cast_clamp_if_int *)
Definition cast_clamp_if_int (t : chan) (q : Qc) : res Qc :=
  match t with None => Ok q | Some t => z <- clamp_double t (Fin (this q)) ;; Ok (of_int z) end.
(* Convolution.h:146, 150: the conversion (result_type) *)
Definition c_convert (t : chan) (q : Qc) : res Qc :=
  match t with None => Ok q | Some t => z <- to_ity t (qtrunc (this q)) ;; Ok (of_int z) end.

(* Convolution.h:53-66 correlate_1d_at_point; [s] and [k] give what the accessors read after
   i steps *)
Definition corr1 (s k : Z -> res Qc) (n : Z) : res Qc :=
  for_up 0 n (fun i acc => kv <- k i ;; sv <- s i ;; Ok (acc + kv * sv)%Qc) 0%Qc.

(* Convolution.h:71-91 correlate_2d_at_point *)
Definition corr2 (s k : Z -> Z -> res Qc) (cols rows : Z) : res Qc :=
  for_up 0 rows (fun j acc =>
    for_up 0 cols (fun i acc => kv <- k i j ;; sv <- s i j ;; Ok (acc + kv * sv)%Qc) acc) 0%Qc.

(* Manipulation.h, Rotate180View::operator() *)
Definition rot180 (k : img Qc) (i j : Z) : res Qc := get k (icols k - 1 - i) (irows k - 1 - j).

(* ConvolutionView::operator(), Convolution.h:139-153 *)
Definition conv_op (t : chan) (m : mode Qc) (v : view Qc) (k : img Qc) (mci mcj x y : Z) : res Qc :=
  let ci := icols k - 1 - mci in
  let cj := irows k - 1 - mcj in
  q <- (if (x >=? ci) && (y >=? cj) && (x <=? cols v - icols k + ci) && (y <=? rows v - irows k + cj)
        then corr2 (fun i j => rd v (x - ci + i) (y - cj + j)) (rot180 k) (icols k) (irows k)
        else corr2 (fun i j => ext_read m v (x - ci + i) (y - cj + j)) (rot180 k) (icols k) (irows k)) ;;
  c_convert t q.

(* ImageViewBase.h:283-316 rasterize, one plane; [s] reads the source at absolute positions *)
Definition rasterize (s : Z -> Z -> res Qc) (dest : img Qc) (b : box) : res (img Qc) :=
  if negb ((icols dest =? bw b) && (irows dest =? bh b)) then Throw ArgumentErr
  else for_up 0 (bh b) (fun r d => for_up 0 (bw b) (fun c d =>
         q <- s (x0 b + c) (y0 b + r) ;; put d c r q) d) dest.

(* edge_extend( image, bbox, edge ) assigned to an ImageView: EdgeExtension.h:132-159 and
   ImageViewBase.h:331-334.  The child is prerasterized over the announced rectangle. *)
Definition extended_copy (m : mode Qc) (v : view Qc) (b : box) : res (img Qc) :=
  let whole := box_of 0 0 (bw b) (bh b) in
  s <- view_source m v (x0 b) (y0 b) whole ;;
  rasterize (fun i j => view_ext_read m (restrict v s) (x0 b) (y0 b) i j) (Img (bw b) (bh b) (fun _ _ => 0%Qc)) whole.

(* ConvolutionView::prerasterize, Convolution.h:156-168: the view the result reads from *)
Definition conv_support (m : mode Qc) (v : view Qc) (k : img Qc) (mci mcj : Z) (b : box) : res (view Qc) :=
  let ci := icols k - 1 - mci in
  let cj := irows k - 1 - mcj in
  let sb := box_of (x0 b - ci) (y0 b - cj) (bw b + (icols k - 1)) (bh b + (irows k - 1)) in
  src <- extended_copy m v sb ;;
  Ok (View (cols v) (rows v) (fun i j => get src (i + - x0 sb) (j + - y0 sb))).

(* ConvolutionView::rasterize, Convolution.h:170-172 *)
Definition conv_rasterize (t : chan) (m : mode Qc) (v : view Qc) (k : img Qc) (mci mcj : Z) (dest : img Qc) (b : box)
  : res (img Qc) :=
  s <- conv_support m v k mci mcj b ;;
  rasterize (conv_op t MNone s k mci mcj) dest b.

(* Convolution.h:127-129: the origin used when none is given *)
Definition center (n : Z) : Z := Z.quot (n - 1) 2.

(** ** The separable view.  Kernels are std::vector. *)
Definition vread (k : list Qc) (i : Z) : res Qc :=
  if i <? 0 then UB OutOfBounds else match nth_error k (Z.to_nat i) with Some q => Ok q | None => UB OutOfBounds end.
Definition size (k : list Qc) : Z := Z.of_nat (length k).

(* Convolution.h:194-201 generate2DKernel *)
Definition generate_2d (ik jk : list Qc) : res (img Qc) :=
  let ni := if size ik =? 0 then 1 else size ik in
  let nj := if size jk =? 0 then 1 else size jk in
  for_up 0 ni (fun i d => for_up 0 nj (fun j d =>
    a <- (if size ik =? 0 then Ok 1%Qc else vread ik i) ;;
    b <- (if size jk =? 0 then Ok 1%Qc else vread jk j) ;;
    put d (ni - 1 - i) (nj - 1 - j) (a * b)%Qc) d) (Img ni nj (fun _ _ => 0%Qc)).

(* SeparableConvolutionView::operator(), Convolution.h:233-251.  m_kernel2d is computed at the
   first call and kept; here it is computed each time.  m_ci is a size_t, but the differences
   are converted back to int32. *)
Definition sep_op (t : chan) (m : mode Qc) (v : view Qc) (ik jk : list Qc) (mci mcj x y : Z) : res Qc :=
  k <- generate_2d ik jk ;;
  let ci := if size ik =? 0 then 0 else size ik - 1 - mci in
  let cj := if size jk =? 0 then 0 else size jk - 1 - mcj in
  q <- (if (x >=? ci) && (y >=? cj) && (x <=? cols v - icols k + ci) && (y <=? rows v - irows k + cj)
        then corr2 (fun i j => rd v (x - ci + i) (y - cj + j)) (get k) (icols k) (irows k)
        else corr2 (fun i j => ext_read m v (x - ci + i) (y - cj + j)) (get k) (icols k) (irows k)) ;;
  cast_clamp_if_int t q.

(* TransposeView: Manipulation.h *)
Definition rdT (tr : bool) (s : img Qc) (i j : Z) : res Qc := if tr then get s j i else get s i j.
Definition wrT (tr : bool) (d : img Qc) (i j : Z) (q : Qc) : res (img Qc) := if tr then put d j i q else put d i j q.

(* Convolution.h:301-328 convolve_1d on one plane; [tr]: both images are transposed.  The
   kernel is read backwards. *)
Definition convolve_1d (t : chan) (tr : bool) (src dest : img Qc) (k : list Qc) : res (img Qc) :=
  let dc := if tr then irows dest else icols dest in
  let dr := if tr then icols dest else irows dest in
  for_up 0 dr (fun y d => for_up 0 dc (fun x d =>
    q <- corr1 (fun i => rdT tr src (x + i) y) (fun i => vread k (size k - 1 - i)) (size k) ;;
    q <- cast_clamp_if_int t q ;;
    wrT tr d x y q) d) dest.

(* SeparableConvolutionView::rasterize, Convolution.h:275-297 *)
Definition sep_rasterize (t : chan) (m : mode Qc) (v : view Qc) (ik jk : list Qc) (mci mcj : Z) (dest : img Qc) (b : box)
  : res (img Qc) :=
  let ni := size ik in
  let nj := size jk in
  if (ni =? 0) && (nj =? 0) then
    s <- view_source m v 0 0 b ;;
    rasterize (fun i j => view_ext_read m (restrict v s) 0 0 i j) dest b
  else
    let cb := Box (x0 b - (if ni =? 0 then 0 else ni - mci - 1)) (y0 b - (if nj =? 0 then 0 else nj - mcj - 1))
                  (x1 b + (if ni =? 0 then 0 else mci)) (y1 b + (if nj =? 0 then 0 else mcj)) in
    src <- extended_copy m v cb ;;
    if (0 <? ni) && (0 <? nj) then
      work <- convolve_1d t false src (Img (bw b) (bh cb) (fun _ _ => 0%Qc)) ik ;;
      convolve_1d t true work dest jk
    else if 0 <? ni then convolve_1d t false src dest ik
    else convolve_1d t true src dest jk.

(** ** Kernels *)

Definition kernel3 (a b c d e f g h i : Z) : img Qc := of_rows 0%Qc (map (map of_int) [[a;b;c];[d;e;f];[g;h;i]]).
(* Filter.h:320-326 laplacian_filter; kernel(column,row) *)
Definition laplacian_kernel : img Qc := kernel3 0 1 0  1 (-4) 1  0 1 0.
Definition laplacian_op (t : chan) (m : mode Qc) (v : view Qc) (x y : Z) : res Qc := conv_op t m v laplacian_kernel 1 1 x y.
(* Filter.h:340-353 sobel_filter *)
Definition sobel_kernel (do_x : bool) : img Qc :=
  if do_x then kernel3 (-1) 0 1  (-2) 0 2  (-1) 0 1 else kernel3 (-1) (-2) (-1)  0 0 0  1 2 1.
Definition sobel_op (t : chan) (v : view Qc) (do_x : bool) (x y : Z) : res Qc := conv_op t MConstant v (sobel_kernel do_x) 1 1 x y.

(* Filter.cc:32-38 compute_kernel_size; [s7] is (int32)(7*sigma) *)
Definition compute_kernel_size (s7 : Z) : Z :=
  if s7 <? 3 then 3 else if Z.rem s7 2 =? 0 then s7 - 1 else s7.

Fixpoint upd (l : list Qc) (n : nat) (q : Qc) : list Qc :=
  match l, n with
  | [], _ => []
  | _ :: l, O => q :: l
  | x :: l, S n => x :: upd l n q
  end.
Definition vwrite (k : list Qc) (i : Z) (q : Qc) : res (list Qc) :=
  if (i <? 0) || (size k <=? i) then UB OutOfBounds else Ok (upd k (Z.to_nat i) q).

(* Filter.tcc:36-79 generate_gaussian_kernel.  [s7] is (int32)(7*sigma), [e x] is erf(x*z)
   with z = 1/(sqrt(2)*sigma), and the values of erf are taken to be rational.  A negative
   size makes std::vector throw; the assertion on the sum is compiled out of release builds. *)
Definition gaussian_kernel (e : Qc -> Qc) (sigma_is_0 : bool) (s7 sz : Z) : res (list Qc) :=
  if sigma_is_0 then Ok []
  else
    let sz := if sz =? 0 then compute_kernel_size s7 else sz in
    if sz <? 0 then Throw OtherErr
    else
      let k := repeat 0%Qc (Z.to_nat sz) in
      let center := Z.quot sz 2 in
      '(k, sum) <-
        (if Z.rem sz 2 =? 0 then
           '(k, sum) <- for_up 0 center (fun i '(k, sum) =>
             let tap := (e (of_int i + of_int 1) - e (of_int i))%Qc in
             k <- vwrite k (center - i - 1) tap ;;
             k <- vwrite k (center + i) tap ;;
             Ok (k, (sum + tap)%Qc)) (k, 0%Qc) ;;
           Ok (k, (sum * of_int 2)%Qc)
         else
           '(k, sum) <- for_up 1 (center + 1) (fun i '(k, sum) =>
             let tap := (e (of_int i + Q2Qc (1 # 2)) - e (of_int i - Q2Qc (1 # 2)))%Qc in
             k <- vwrite k (center - i) tap ;;
             k <- vwrite k (center + i) tap ;;
             Ok (k, (sum + tap)%Qc)) (k, 0%Qc) ;;
           let sum := (sum * of_int 2)%Qc in
           let tap := (e (Q2Qc (1 # 2)) - e (- Q2Qc (1 # 2)))%Qc in
           k <- vwrite k center tap ;;
           Ok (k, (sum + tap)%Qc)) ;;
      let norm := (1 / sum)%Qc in
      Ok (map (fun q => (q * norm)%Qc) k).

(* Filter.tcc:113-125: the matrix of powers divided by factorials *)
Definition power_matrix (size : Z) : res matrix :=
  let half_size := Z.quot size 2 in
  for_up 0 size (fun j m =>
    let x := half_size - j in
    '(m, term) <- for_up 0 size (fun i '(m, term) =>
        m <- mset m i j term ;;
        Ok (m, (term * of_int x / of_int (i + 1))%Qc)) (m, 1%Qc) ;;
    Ok m) (zeros size size).

(* inverse(pmat)*dsel: Matrix.h, MatrixVectorProduct::operator() *)
Definition mat_vec (m : matrix) (v : list Qc) : res (list Qc) :=
  for_up 0 (mrows m) (fun r l =>
    q <- for_up 0 (mcols m) (fun c acc => a <- mget m r c ;; b <- vread v c ;; Ok (acc + a * b)%Qc) 0%Qc ;;
    Ok (l ++ [q])) [].

(* Filter.tcc:81-138 generate_derivative_kernel.  A negative size makes std::vector throw. *)
Definition derivative_kernel (deriv sz : Z) : res (list Qc) :=
  if deriv =? 0 then Ok []
  else
    let minsize := deriv + Z.rem deriv 2 + 1 in
    n <- (if sz =? 0 then Ok minsize
          else if sz <? minsize then Throw ArgumentErr
          else if Z.rem sz 2 =? 0 then Throw ArgumentErr
          else Ok sz) ;;
    if n <? 0 then Throw OtherErr
    else if (deriv =? 1) && (n =? 3) then Ok [Q2Qc (1 # 2); 0; - Q2Qc (1 # 2)]%Qc
    else if (deriv =? 2) && (n =? 3) then Ok [of_int 1; of_int (-2); of_int 1]
    else
      pmat <- power_matrix n ;;
      dsel <- vwrite (repeat 0%Qc (Z.to_nat n)) deriv 1%Qc ;;
      inv <- inverse pmat ;;
      mat_vec inv dsel.
