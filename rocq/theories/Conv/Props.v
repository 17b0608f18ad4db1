From Coq Require Import ZArith List Lia Bool QArith Qcanon Field.
From Verif Require Import Lib.Base Lib.Img Lib.QSum BBox.Box2 Edge.Model Edge.Spec Edge.Props MFun.Model Conv.Model Conv.Spec Conv.Proofs Conv.Gauss Conv.Deriv.
Import ListNotations.
Local Open Scope Z_scope.

(** ** Two-dimensional convolution *)

(* A pixel is the textbook sum over the kernel, converted to the pixel type: also where the
   kernel leaves the image, and whether or not the fast path is taken. *)
Theorem convolution_value : forall t m v F k ci cj x y, 0 <= icols k -> 0 <= irows k ->
  readable m v F (icols k) (irows k) ci cj x y ->
  conv_op t m v k ci cj x y = c_convert t (convolution (icols k) (irows k) (pix k) ci cj F x y).
Proof. exact conv_op_ok. Qed.
Print Assumptions convolution_value.

(* Rasterizing a rectangle stores the same pixels. *)
Theorem convolution_rasterize : forall t m v F k ci cj dest b R, 0 < icols k -> 0 < irows k -> mode_ok m (cols v) (rows v) ->
  bempty b = false -> icols dest = bw b -> irows dest = bh b ->
  readable_over m v F (icols k) (irows k) ci cj b ->
  (forall x y, inb b x y -> conv_op t m v k ci cj x y = Ok (R x y)) ->
  exists d, conv_rasterize t m v k ci cj dest b = Ok d /\ holds d b R.
Proof.
  intros t m v F k ci cj dest b R C0 R0 M NE DC DR HF H. apply (conv_rasterize_ok t m v F); auto.
  intros x y I. rewrite <- (H x y I). symmetry. apply conv_op_ok; auto; lia.
Qed.
Print Assumptions convolution_rasterize.

(* An image in memory with floating point pixels, extended in any mode, can be convolved with
   any kernel at any place. *)
Theorem convolution_total : forall m c r px k ci cj, 0 < icols k -> 0 < irows k -> mode_ok m c r -> m <> MNone ->
  exists F, (forall i j, ext_read m (mem_view c r px) i j = Ok (F i j)) /\
    (forall x y, conv_op None m (mem_view c r px) k ci cj x y = Ok (convolution (icols k) (irows k) (pix k) ci cj F x y)) /\
    forall dest b, bempty b = false -> icols dest = bw b -> irows dest = bh b ->
      exists d, conv_rasterize None m (mem_view c r px) k ci cj dest b = Ok d /\ holds d b (convolution (icols k) (irows k) (pix k) ci cj F).
Proof.
  intros m c r px k ci cj C0 R0 M NN.
  exists (fun i j => match ext_read m (mem_view c r px) i j with Ok q => q | _ => 0%Qc end).
  assert (H : forall i j, ext_read m (mem_view c r px) i j = Ok (match ext_read m (mem_view c r px) i j with Ok q => q | _ => 0%Qc end)).
  { intros i j. destruct (edge_extension_reads Qc m c r px i j M) as (q & -> & _); [tauto|reflexivity]. }
  split; auto. split.
  - intros x y. rewrite (conv_op_ok None m _ (fun i j => match ext_read m (mem_view c r px) i j with Ok q => q | _ => 0%Qc end)) by (try lia; intros i j _ _; apply H). reflexivity.
  - intros dest b NE DC DR. apply (conv_rasterize_ok None m _ (fun i j => match ext_read m (mem_view c r px) i j with Ok q => q | _ => 0%Qc end)); auto.
    intros x y _ i j _ _. apply H.
Qed.
Print Assumptions convolution_total.

Definition ramp (x y : Z) : Qc := of_int x.
Definition some_kernel : img Qc := kernel3 1 2 3  4 5 6  7 8 10.
Example convolution_case : mode_ok (@MConstant Qc) 5 4 /\
  match conv_op None MConstant (mem_view 5 4 ramp) some_kernel 1 1 0 3 with Ok q => this q = (12 # 1)%Q | _ => False end.
Proof. split; [cbn; lia|]. vm_compute. reflexivity. Qed.

(** ** Separable convolution *)

Theorem separable_value : forall t m v F ik jk ci cj x y,
  readable m v F (len ik) (len jk) (origin ik ci) (origin jk cj) x y ->
  sep_op t m v ik jk ci cj x y =
  cast_clamp_if_int t (convolution (len ik) (len jk) (outer ik jk) (origin ik ci) (origin jk cj) F x y).
Proof. exact sep_op_ok. Qed.
Print Assumptions separable_value.

(* Rasterized: one pass along the rows and one along the columns, each stored in the pixel type. *)
Theorem separable_rasterize : forall t m v F W R ik jk ci cj dest b, mode_ok m (cols v) (rows v) ->
  bempty b = false -> icols dest = bw b -> irows dest = bh b ->
  readable_over m v F (len ik) (len jk) (origin ik ci) (origin jk cj) b ->
  two_pass t ik jk ci cj F W b R ->
  exists d, sep_rasterize t m v ik jk ci cj dest b = Ok d /\ holds d b R.
Proof. exact sep_rasterize_ok. Qed.
Print Assumptions separable_rasterize.

(* With floating point pixels that is what reading pixel by pixel gives. *)
Theorem separable_agrees : forall m v F ik jk ci cj dest b, mode_ok m (cols v) (rows v) ->
  bempty b = false -> icols dest = bw b -> irows dest = bh b ->
  readable_over m v F (len ik) (len jk) (origin ik ci) (origin jk cj) b ->
  exists d, sep_rasterize None m v ik jk ci cj dest b = Ok d /\ icols d = bw b /\ irows d = bh b /\
    forall x y, inb b x y -> sep_op None m v ik jk ci cj x y = Ok (pix d (x - x0 b) (y - y0 b)).
Proof.
  intros m v F ik jk ci cj dest b M NE DC DR HF.
  destruct (sep_rasterize_ok None m v F _ _ ik jk ci cj dest b M NE DC DR HF (two_pass_exact ik jk ci cj F b)) as (d & E & C & R & P).
  exists d. split; auto. split; auto. split; auto. intros x y I. rewrite (P x y I). rewrite (sep_op_ok None m v F) by (now apply HF). reflexivity.
Qed.
Print Assumptions separable_agrees.

(* With integer pixels it is not: the values between the passes are rounded. *)
Definition half2 : list Qc := [Q2Qc (1 # 2); Q2Qc (1 # 2)].
Definition halves (x y : Z) : Qc := of_int (if y =? 0 then if x =? 0 then 0 else 1 else if x =? 0 then 0 else 3).
Theorem separable_integer_refuted : exists px x y p q, 
  sep_op (Some U8) MConstant (mem_view 2 2 px) half2 half2 0 0 x y = Ok p /\
  (exists d, sep_rasterize (Some U8) MConstant (mem_view 2 2 px) half2 half2 0 0 (Img 1 1 (fun _ _ => 0%Qc)) (box_of x y 1 1) = Ok d /\ pix d 0 0 = q) /\
  p <> q.
Proof.
  exists halves, 1, 1. vm_compute. eexists. eexists. split; [reflexivity|]. split; [eexists; split; reflexivity|]. discriminate.
Qed.
Print Assumptions separable_integer_refuted.

Example separable_case : match sep_rasterize None MConstant (mem_view 5 4 ramp) half2 [] 0 0 (Img 2 2 (fun _ _ => 0%Qc)) (box_of 3 2 2 2) with
  | Ok d => map (map this) (to_rows d) = [[5 # 2; 7 # 2]; [5 # 2; 7 # 2]]%Q | _ => False end.
Proof. vm_compute. reflexivity. Qed.

(** ** Fixed kernels *)

Theorem laplacian_value : forall m v F x y, readable m v F 3 3 1 1 x y ->
  laplacian_op None m v x y = Ok (F (x - 1)%Z y + F (x + 1)%Z y + F x (y - 1)%Z + F x (y + 1)%Z - of_int 4 * F x y)%Qc.
Proof.
  intros m v F x y H. unfold laplacian_op. rewrite (conv_op_ok None m v F) by (auto; cbn; lia). cbn [c_convert]. f_equal.
  unfold convolution. change (icols laplacian_kernel) with 3. change (irows laplacian_kernel) with 3. rewrite qsum3, !qsum3.
  change (pix laplacian_kernel 0 0) with (of_int 0). change (pix laplacian_kernel 1 0) with (of_int 1). change (pix laplacian_kernel 2 0) with (of_int 0).
  change (pix laplacian_kernel 0 1) with (of_int 1). change (pix laplacian_kernel 1 1) with (of_int (-4)). change (pix laplacian_kernel 2 1) with (of_int 1).
  change (pix laplacian_kernel 0 2) with (of_int 0). change (pix laplacian_kernel 1 2) with (of_int 1). change (pix laplacian_kernel 2 2) with (of_int 0).
  rewrite of_int_0, of_int_1. change (-4) with (- (4)). rewrite of_int_opp.
  replace (x + 1 - 1) with x by lia. replace (y + 1 - 1) with y by lia. replace (x + 1 - 2) with (x - 1) by lia. replace (y + 1 - 2) with (y - 1) by lia.
  replace (x + 1 - 0) with (x + 1) by lia. replace (y + 1 - 0) with (y + 1) by lia. ring.
Qed.
Print Assumptions laplacian_value.

(* On an image of unsigned pixels the value is negative at bright spots, and its conversion is
   undefined. *)
Definition spot (x y : Z) : Qc := if (x =? 1) && (y =? 1) then of_int 9 else of_int 0.
Theorem laplacian_unsigned_refuted : laplacian_op (Some U8) MConstant (mem_view 3 3 spot) 1 1 = UB Overflow.
Proof. vm_compute. reflexivity. Qed.
Print Assumptions laplacian_unsigned_refuted.

Theorem sobel_value : forall v F x y, readable MConstant v F 3 3 1 1 x y ->
  sobel_op None v true x y = Ok (F (x - 1)%Z (y - 1)%Z + of_int 2 * F (x - 1)%Z y + F (x - 1)%Z (y + 1)%Z - F (x + 1)%Z (y - 1)%Z - of_int 2 * F (x + 1)%Z y - F (x + 1)%Z (y + 1)%Z)%Qc /\
  sobel_op None v false x y = Ok (F (x - 1)%Z (y - 1)%Z + of_int 2 * F x (y - 1)%Z + F (x + 1)%Z (y - 1)%Z - F (x - 1)%Z (y + 1)%Z - of_int 2 * F x (y + 1)%Z - F (x + 1)%Z (y + 1)%Z)%Qc.
Proof.
  intros v F x y H. unfold sobel_op. split; rewrite (conv_op_ok None MConstant v F) by (auto; cbn; lia); cbn [c_convert]; f_equal; unfold convolution.
  - change (icols (sobel_kernel true)) with 3. change (irows (sobel_kernel true)) with 3. rewrite qsum3, !qsum3.
    change (pix (sobel_kernel true) 0 0) with (of_int (- (1))). change (pix (sobel_kernel true) 1 0) with (of_int 0). change (pix (sobel_kernel true) 2 0) with (of_int 1).
    change (pix (sobel_kernel true) 0 1) with (of_int (- (2))). change (pix (sobel_kernel true) 1 1) with (of_int 0). change (pix (sobel_kernel true) 2 1) with (of_int 2).
    change (pix (sobel_kernel true) 0 2) with (of_int (- (1))). change (pix (sobel_kernel true) 1 2) with (of_int 0). change (pix (sobel_kernel true) 2 2) with (of_int 1).
    rewrite !of_int_opp, of_int_0, of_int_1.
    replace (x + 1 - 1) with x by lia. replace (y + 1 - 1) with y by lia. replace (x + 1 - 2) with (x - 1) by lia. replace (y + 1 - 2) with (y - 1) by lia.
    replace (x + 1 - 0) with (x + 1) by lia. replace (y + 1 - 0) with (y + 1) by lia. ring.
  - change (icols (sobel_kernel false)) with 3. change (irows (sobel_kernel false)) with 3. rewrite qsum3, !qsum3.
    change (pix (sobel_kernel false) 0 0) with (of_int (- (1))). change (pix (sobel_kernel false) 1 0) with (of_int (- (2))). change (pix (sobel_kernel false) 2 0) with (of_int (- (1))).
    change (pix (sobel_kernel false) 0 1) with (of_int 0). change (pix (sobel_kernel false) 1 1) with (of_int 0). change (pix (sobel_kernel false) 2 1) with (of_int 0).
    change (pix (sobel_kernel false) 0 2) with (of_int 1). change (pix (sobel_kernel false) 1 2) with (of_int 2). change (pix (sobel_kernel false) 2 2) with (of_int 1).
    rewrite !of_int_opp, of_int_0, of_int_1.
    replace (x + 1 - 1) with x by lia. replace (y + 1 - 1) with y by lia. replace (x + 1 - 2) with (x - 1) by lia. replace (y + 1 - 2) with (y - 1) by lia.
    replace (x + 1 - 0) with (x + 1) by lia. replace (y + 1 - 0) with (y + 1) by lia. ring.
Qed.
Print Assumptions sobel_value.

(* The kernel is written down for correlation (the comment quotes imfilter) but the view
   convolves: the derivative has the wrong sign. *)
Theorem sobel_sign_refuted : exists q, sobel_op None (mem_view 5 5 ramp) true 2 2 = Ok q /\ (q < 0)%Qc.
Proof. vm_compute. eexists. split; reflexivity. Qed.
Print Assumptions sobel_sign_refuted.

(** ** Gaussian *)

Lemma lsum_qsum k : lsum k = qsum 0 (size k) (fun i => nth (Z.to_nat i) k 0%Qc).
Proof.
  induction k as [|a k IH]; [reflexivity|]. cbn [lsum]. unfold size in *. cbn [length]. replace (Z.of_nat (S (length k))) with (Z.of_nat (length k) + 1) by lia.
  rewrite qsum_cons by lia. rewrite (qsum_shift 0 (Z.of_nat (length k)) 1). cbn [Z.to_nat nth]. f_equal. rewrite IH. apply qsum_ext. intros i Hi.
  replace (Z.to_nat (i + 1)) with (S (Z.to_nat i)) by lia. reflexivity.
Qed.

(* Whatever the values of the error function, as long as it is odd: the taps are
   the integrals over unit intervals, normalized. *)
Theorem gaussian_taps : forall e s7 sz n, (forall x, e (- x)%Qc = (- e x)%Qc) ->
  n = (if sz =? 0 then compute_kernel_size s7 else sz) -> 0 <= n ->
  let at_ i := e (of_int i - of_int n / of_int 2)%Qc in
  exists k, gaussian_kernel e false s7 sz = Ok k /\ Z.of_nat (length k) = n /\
    forall i, 0 <= i < n -> nth (Z.to_nat i) k 0%Qc = ((at_ (i + 1)%Z - at_ i) / (at_ n - at_ 0%Z))%Qc.
Proof.
  intros e s7 sz n O -> N. destruct (gaussian_ok e O s7 sz N) as (k & E & S & P). exists k. split; auto.
Qed.
Print Assumptions gaussian_taps.

(* If it is also increasing, the kernel sums to one, is symmetric and positive, and leaves constant images alone. *)
Theorem gaussian_normalized : forall e s7 sz k, (forall x, e (- x)%Qc = (- e x)%Qc) -> (forall x y, (x < y)%Qc -> (e x < e y)%Qc) ->
  gaussian_kernel e false s7 sz = Ok k -> k <> [] ->
  lsum k = 1%Qc /\ rev k = k /\ (forall q, In q k -> (0 < q)%Qc) /\
  forall a c x, convolution1 k c (fun _ => a) x = a.
Proof.
  intros e s7 sz k O I E NE.
  assert (N : 0 <= gauss_size s7 sz).
  { unfold gaussian_kernel in E. cbn zeta in E. fold (gauss_size s7 sz) in E. destruct (Z.ltb_spec (gauss_size s7 sz) 0); [discriminate E|lia]. }
  destruct (gaussian_ok e O s7 sz N) as (k' & E' & S & P). assert (k' = k) by congruence. subst k'.
  set (n := gauss_size s7 sz) in *.
  assert (N0 : 0 < n) by (destruct k; [congruence|]; unfold size in S; cbn [length] in S; lia).
  pose proof (total_pos e I n N0) as T. set (tot := (e (pos n n) - e (pos n 0))%Qc) in *.
  assert (T0 : tot <> 0%Qc) by (intros Z; rewrite Z in T; now apply Qclt_not_eq in T).
  assert (L : lsum k = 1%Qc).
  { rewrite lsum_qsum, S. rewrite (qsum_ext 0 n _ (fun i => tap_at e n i * / tot)%Qc) by (intros; now apply P).
    rewrite qsum_mul_r, telescope by lia. fold tot. field. auto. }
  split; auto. split; [|split].
  - apply nth_ext with (d := 0%Qc) (d' := 0%Qc); [apply rev_length|]. rewrite rev_length. intros i Hi. unfold size in S. rewrite rev_nth by auto.
    replace (length k - Datatypes.S i)%nat with (Z.to_nat (n - 1 - Z.of_nat i)) by lia. rewrite <- (Nat2Z.id i) at 2. rewrite !P by lia. now rewrite tap_sym.
  - intros q Hq. apply (In_nth k q 0%Qc) in Hq as (i & Hi & <-). unfold size in S. rewrite <- (Nat2Z.id i), P by lia.
    unfold Qcdiv. replace 0%Qc with (0 * / tot)%Qc by ring. apply Qcmult_lt_compat_r; [|now apply tap_pos].
    unfold Qclt, Qcinv in *. change (0 < Qred (/ this tot))%Q. rewrite Qred_correct. now apply Qinv_lt_0_compat.
  - intros a c x. unfold convolution1. rewrite qsum_mul_r. rewrite <- (Qcmult_1_l a) at 2. f_equal. rewrite <- L. symmetry. apply lsum_qsum.
Qed.
Print Assumptions gaussian_normalized.

(* The size chosen when none is given is odd, at least three, and about seven sigma. *)
Theorem gaussian_default_size : forall s7, let n := compute_kernel_size s7 in Z.odd n = true /\ 3 <= n /\ (3 <= s7 -> s7 - 1 <= n <= s7).
Proof.
  intros s7. unfold compute_kernel_size. destruct (Z.ltb_spec s7 3); cbn zeta; [split; [reflexivity|lia]|].
  pose proof (Z.rem_bound_pos s7 2 ltac:(lia) ltac:(lia)). pose proof (Z.quot_rem' s7 2).
  destruct (Z.eqb_spec (Z.rem s7 2) 0).
  - split; [|lia]. replace (s7 - 1) with (1 + 2 * (Z.quot s7 2 - 1)) by lia. now rewrite Z.odd_add_mul_2.
  - split; [|lia]. replace s7 with (1 + 2 * Z.quot s7 2) by lia. now rewrite Z.odd_add_mul_2.
Qed.
Print Assumptions gaussian_default_size.

Example gaussian_case : match gaussian_kernel (fun x => x) false 0 4 with Ok k => map this k = [1 # 4; 1 # 4; 1 # 4; 1 # 4]%Q | _ => False end.
Proof. vm_compute. reflexivity. Qed.

(** ** Derivatives *)

(* Convolving samples of a polynomial of degree less than the size of the kernel gives the exact
   derivative; without a size, the smallest odd one that can do it is taken. *)
Theorem derivative_exact : forall d sz, 0 < d -> sz = 0 \/ (d + Z.rem d 2 + 1 <= sz /\ Z.rem sz 2 = 1) ->
  let n := if sz =? 0 then d + Z.rem d 2 + 1 else sz in
  exists k, derivative_kernel d sz = Ok k /\ Z.of_nat (length k) = n /\
    forall p x, Z.of_nat (length p) <= n ->
      convolution1 k (Z.quot n 2) (fun t => peval p (of_int t)) x = peval (pderivs (Z.to_nat d) p) (of_int x).
Proof.
  intros d sz D H n. destruct (derivative_ok d sz D H) as (k & E & N & S). exists k. split; auto. split; [apply S|].
  intros p x L. apply (selects_exact n d k p x); auto. split; [lia|exact N].
Qed.
Print Assumptions derivative_exact.

(* Sizes that cannot represent the operator, or that have no center, are rejected. *)
Theorem derivative_rejects : forall d sz, d <> 0 -> sz <> 0 -> sz < d + Z.rem d 2 + 1 \/ Z.rem sz 2 = 0 -> derivative_kernel d sz = Throw ArgumentErr.
Proof.
  intros d sz D S H. unfold derivative_kernel. destruct (Z.eqb_spec d 0); [lia|]. destruct (Z.eqb_spec sz 0); [lia|]. cbn zeta.
  destruct (Z.ltb_spec sz (d + Z.rem d 2 + 1)); [reflexivity|]. destruct (Z.eqb_spec (Z.rem sz 2) 0); [reflexivity|lia].
Qed.
Print Assumptions derivative_rejects.

(* The third derivative of 2 t^4 - t^3 + 7 is 48 t - 6. *)
Example derivative_case : match derivative_kernel 3 0 with
  | Ok k => map this k = [1 # 2; -1 # 1; 0 # 1; 1 # 1; -1 # 2]%Q /\
      this (convolution1 k 2 (fun t => peval (map of_int [7; 0; 0; -1; 2]) (of_int t)) 10) = (474 # 1)%Q
  | _ => False end.
Proof. vm_compute. split; reflexivity. Qed.

(* A negative order is not rejected when a size is given: the selector is written out of bounds. *)
Theorem derivative_negative_refuted : derivative_kernel (-1) 3 = UB OutOfBounds.
Proof. vm_compute. reflexivity. Qed.
Print Assumptions derivative_negative_refuted.
