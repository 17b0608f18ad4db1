From Coq Require Import ZArith List Lia Bool QArith Qcanon.
From Verif Require Import Lib.Base Lib.Img Lib.QSum BBox.Proofs BBox.Box2 Edge.Model Edge.Spec Edge.Proofs Edge.Props MFun.Model Stats.Model Chan.Model Conv.Model Conv.Spec.
Import ListNotations.
Local Open Scope Z_scope.

Ltac bp := b2p; repeat match goal with
  | H : (_ =? _) = true |- _ => apply Z.eqb_eq in H
  | H : (_ =? _) = false |- _ => apply Z.eqb_neq in H
  end.

Lemma qsum_rev n f : 0 <= n -> qsum 0 n f = qsum 0 n (fun i => f (n - 1 - i)).
Proof.
  intros H. revert f. pattern n. apply natlike_ind; [| |exact H].
  - intros. now rewrite !qsum_nil by lia.
  - intros m Hm IH f. unfold Z.succ. rewrite qsum_snoc by lia. rewrite (qsum_cons 0 (m + 1)) by lia.
    rewrite IH. rewrite (qsum_shift 0 m 1 (fun i => f (m + 1 - 1 - i))).
    rewrite Qcplus_comm. f_equal; [f_equal; lia|]. apply qsum_ext. intros. f_equal. lia.
Qed.

Lemma corr1_ok s k n S K : 0 <= n -> (forall i, 0 <= i < n -> s i = Ok (S i)) -> (forall i, 0 <= i < n -> k i = Ok (K i)) ->
  corr1 s k n = Ok (qsum 0 n (fun i => K i * S i)%Qc).
Proof.
  intros N Hs Hk. unfold corr1.
  destruct (for_up_inv (fun i acc => acc = qsum 0 i (fun i => K i * S i)%Qc) (fun i acc => kv <- k i ;; sv <- s i ;; Ok (acc + kv * sv)%Qc) 0 n 0%Qc)
    as (r & E & ->); auto.
  intros i a Hi ->. rewrite Hk, Hs by lia. cbn [bind]. eexists. split; [reflexivity|].
  now rewrite qsum_snoc by lia.
Qed.

Lemma corr2_ok s k c r S K : 0 <= c -> 0 <= r ->
  (forall i j, 0 <= i < c -> 0 <= j < r -> s i j = Ok (S i j)) ->
  (forall i j, 0 <= i < c -> 0 <= j < r -> k i j = Ok (K i j)) ->
  corr2 s k c r = Ok (qsum 0 r (fun j => qsum 0 c (fun i => K i j * S i j)%Qc)).
Proof.
  intros C R Hs Hk. unfold corr2.
  match goal with |- for_up _ _ ?b _ = _ =>
    destruct (for_up_inv (fun j acc => acc = qsum 0 j (fun j => qsum 0 c (fun i => K i j * S i j)%Qc)) b 0 r 0%Qc)
      as (q & E & ->); auto end.
  intros j a Hj ->.
  match goal with |- context [for_up _ _ ?b _] =>
    destruct (for_up_inv (fun i acc => acc = (qsum 0 j (fun j => qsum 0 c (fun i => K i j * S i j)%Qc) + qsum 0 i (fun i => K i j * S i j))%Qc) b 0 c
     (qsum 0 j (fun j => qsum 0 c (fun i => K i j * S i j)%Qc)))
      as (q & E & ->); auto end.
  - rewrite (qsum_nil 0 0) by lia. ring.
  - intros i a Hi ->. rewrite Hk, Hs by lia. cbn [bind]. eexists. split; [reflexivity|].
    rewrite (qsum_snoc 0 i) by lia. ring.
  - eexists. split; [exact E|]. now rewrite (qsum_snoc 0 j) by lia.
Qed.

(* reading inside the image does not depend on the mode *)
Lemma ext_inside (m : mode Qc) v i j a : 0 <= i < cols v -> 0 <= j < rows v -> ext_read m v i j = Ok a -> rd v i j = Ok a.
Proof.
  intros Hi Hj. unfold ext_read.
  assert (V : in_view v i j = true) by (unfold in_view; rewrite !andb_true_iff, !Z.geb_le, !Z.ltb_lt; lia).
  assert (Ci : clamp_axis (cols v) i = i).
  { unfold clamp_axis. destruct (i <? 0) eqn:A, (i >=? cols v) eqn:B; bp; try lia; auto. }
  assert (Cj : clamp_axis (rows v) j = j).
  { unfold clamp_axis. destruct (j <? 0) eqn:A, (j >=? rows v) eqn:B; bp; try lia; auto. }
  assert (P : forall n k, 0 <= k < n -> periodic_axis n k = Ok k).
  { intros n k H. unfold periodic_axis, crem. destruct (n =? 0) eqn:A; bp; [lia|]. cbn [bind].
    rewrite Z.rem_small by lia. destruct (k <? 0) eqn:B; bp; [lia|auto]. }
  assert (R : forall n k q, 0 <= k < n -> reflect_axis n k = Ok q -> q = k).
  { intros n k q H. unfold reflect_axis, crem. destruct (k <? 0) eqn:B; bp; [lia|].
    destruct (2 * (n - 1) =? 0) eqn:A; bp; [discriminate|]. cbn [bind].
    rewrite Z.rem_small by lia. destruct (k >? n - 1) eqn:D; bp; [lia|]. intros [= ->]. auto. }
  destruct m; rewrite ?V; auto.
  - now rewrite Ci, Cj.
  - now rewrite !P by auto.
  - rewrite P, Cj by auto. auto.
  - intros E. apply bind_ok in E as (di & Ei & E). apply bind_ok in E as (dj & Ej & E).
    apply R in Ei; auto. apply R in Ej; auto. now subst.
Qed.


Lemma both_ways m v F kc kr K k mci mcj x y : 0 <= kc -> 0 <= kr ->
  (forall i j, 0 <= i < kc -> 0 <= j < kr -> k i j = Ok (K (kc - 1 - i) (kr - 1 - j))) ->
  readable m v F kc kr mci mcj x y ->
  let ci := kc - 1 - mci in
  let cj := kr - 1 - mcj in
  (if (x >=? ci) && (y >=? cj) && (x <=? cols v - kc + ci) && (y <=? rows v - kr + cj)
        then corr2 (fun i j => rd v (x - ci + i) (y - cj + j)) k kc kr
        else corr2 (fun i j => ext_read m v (x - ci + i) (y - cj + j)) k kc kr) = Ok (convolution kc kr K mci mcj F x y).
Proof.
  intros C R Hk HF ci cj.
  assert (HE : forall i j, 0 <= i < kc -> 0 <= j < kr -> ext_read m v (x - ci + i) (y - cj + j) = Ok (F (x - ci + i) (y - cj + j))).
  { intros i j Hi Hj. pose proof (HF (kc - 1 - i) (kr - 1 - j) ltac:(lia) ltac:(lia)) as E.
    replace (x + mci - (kc - 1 - i)) with (x - ci + i) in E by (unfold ci; lia).
    replace (y + mcj - (kr - 1 - j)) with (y - cj + j) in E by (unfold cj; lia). exact E. }
  assert (S : qsum 0 kr (fun j => qsum 0 kc (fun i => K (kc - 1 - i)%Z (kr - 1 - j)%Z * F (x - ci + i)%Z (y - cj + j)%Z)%Qc) = convolution kc kr K mci mcj F x y).
  { unfold convolution. rewrite (qsum_rev kr) by auto. apply qsum_ext. intros j Hj.
    rewrite (qsum_rev kc) by auto. apply qsum_ext. intros i Hi. f_equal; f_equal; unfold ci, cj; lia. }
  rewrite <- S. destruct (_ && _) eqn:G.
  - bp. apply (corr2_ok _ _ _ _ (fun i j => F (x - ci + i) (y - cj + j))); auto. intros i j Hi Hj. apply (ext_inside m); auto; lia.
  - apply (corr2_ok _ _ _ _ (fun i j => F (x - ci + i) (y - cj + j))); auto.
Qed.

Lemma conv_op_ok t m v F k mci mcj x y : 0 <= icols k -> 0 <= irows k ->
  readable m v F (icols k) (irows k) mci mcj x y ->
  conv_op t m v k mci mcj x y = c_convert t (convolution (icols k) (irows k) (pix k) mci mcj F x y).
Proof.
  intros C R HF. unfold conv_op. cbn zeta. rewrite (both_ways m v F _ _ (pix k) (rot180 k)); auto. intros i j Hi Hj.
  unfold rot180. rewrite get_in; auto. split; lia.
Qed.

(** ** Filling an image *)
Definition pixT (tr : bool) (d : img Qc) (c r : Z) : Qc := if tr then pix d r c else pix d c r.
Definition sizeT (tr : bool) (d : img Qc) (w h : Z) : Prop := if tr then icols d = h /\ irows d = w else icols d = w /\ irows d = h.

Lemma wrT_in tr d w h c r q : sizeT tr d w h -> 0 <= c < w -> 0 <= r < h ->
  exists d', wrT tr d c r q = Ok d' /\ sizeT tr d' w h /\ pixT tr d' c r = q /\
    forall c' r', c' <> c \/ r' <> r -> pixT tr d' c' r' = pixT tr d c' r'.
Proof.
  intros S C R. unfold wrT, pixT, sizeT in *. destruct tr; destruct S as [S1 S2].
  - destruct (put_in d r c q) as (d' & E & ? & ? & P & Q); [split; lia|]. exists d'. repeat split; auto; try lia.
    intros. apply Q. lia.
  - destruct (put_in d c r q) as (d' & E & ? & ? & P & Q); [split; lia|]. exists d'. repeat split; auto; try lia.
Qed.
Lemma rdT_in tr d w h c r : sizeT tr d w h -> 0 <= c < w -> 0 <= r < h -> rdT tr d c r = Ok (pixT tr d c r).
Proof. intros S C R. unfold rdT, pixT, sizeT in *. destruct tr; rewrite get_in; auto; split; lia. Qed.

Lemma fill2 tr w h body dest G : 0 <= w -> 0 <= h -> sizeT tr dest w h ->
  (forall c r d, 0 <= c < w -> 0 <= r < h -> body r c d = wrT tr d c r (G c r)) ->
  exists d, for_up 0 h (fun r d => for_up 0 w (fun c d => body r c d) d) dest = Ok d /\ sizeT tr d w h /\
    forall c r, 0 <= c < w -> 0 <= r < h -> pixT tr d c r = G c r.
Proof.
  intros W H S B.
  match goal with |- context [for_up 0 h ?f dest] =>
    destruct (for_up_inv (fun r d => sizeT tr d w h /\ forall c' r', 0 <= c' < w -> 0 <= r' < r -> pixT tr d c' r' = G c' r')
      f 0 h dest) as (d & E & Sd & Pd) end; auto.
  - split; auto. intros. lia.
  - intros r d Hr [Sd Pd].
    match goal with |- context [for_up 0 w ?f d] =>
      destruct (for_up_inv (fun c d => sizeT tr d w h /\ (forall c' r', 0 <= c' < w -> 0 <= r' < r -> pixT tr d c' r' = G c' r') /\
                   forall c', 0 <= c' < c -> pixT tr d c' r = G c' r)
        f 0 w d) as (d2 & E2 & Sd2 & Pd2 & Qd2) end; auto.
    + split; auto. split; auto. intros. lia.
    + intros c d1 Hc (S1 & P1 & Q1). rewrite B by auto.
      destruct (wrT_in tr d1 w h c r (G c r) S1 Hc Hr) as (d2 & -> & S2 & P2 & Q2). exists d2. split; auto. split; auto. split.
      * intros c' r' Hc' Hr'. rewrite Q2 by lia. auto.
      * intros c' Hc'. destruct (Z.eq_dec c' c) as [->|N]; auto. rewrite Q2 by lia. apply Q1. lia.
    + exists d2. split; auto. split; auto. intros c' r' Hc' Hr'. destruct (Z.eq_dec r' r) as [->|N]; auto. apply Pd2; lia.
  - exists d. split; auto.
Qed.

Lemma nonempty_size b : bempty b = false -> bw b = x1 b - x0 b /\ bh b = y1 b - y0 b /\ 0 < bw b /\ 0 < bh b.
Proof. intros E. unfold bw, bh. rewrite E. apply bempty_false in E. lia. Qed.


Lemma rasterize_ok s dest b G : bempty b = false -> icols dest = bw b -> irows dest = bh b ->
  (forall x y, inb b x y -> s x y = Ok (G x y)) ->
  exists d, rasterize s dest b = Ok d /\ holds d b G.
Proof.
  intros NE C R Hs. unfold rasterize. rewrite C, R, !Z.eqb_refl. cbn [negb andb].
  destruct (nonempty_size b NE) as (W & H & W0 & H0).
  destruct (fill2 false (bw b) (bh b) (fun r c d => q <- s (x0 b + c) (y0 b + r) ;; put d c r q) dest (fun c r => G (x0 b + c) (y0 b + r)))
    as (d & E & (S1 & S2) & P); [lia|lia|split; auto| |].
  - intros c r d Hc Hr. rewrite Hs by (split; lia). reflexivity.
  - exists d. split; [exact E|]. split; [auto|split; [auto|]]. intros x y [Hx Hy].
    pose proof (P (x - x0 b) (y - y0 b) ltac:(lia) ltac:(lia)) as Q. cbn [pixT] in Q. rewrite Q. f_equal; lia.
Qed.

Lemma box_of_ne x y w h : 0 < w -> 0 < h -> bempty (box_of x y w h) = false.
Proof. intros. apply bempty_false. unfold box_of; cbn [x0 y0 x1 y1]. lia. Qed.

Lemma extended_copy_ok m v b F : mode_ok m (cols v) (rows v) -> bempty b = false ->
  (forall x y, inb b x y -> ext_read m v x y = Ok (F x y)) ->
  exists d, extended_copy m v b = Ok d /\ holds d b F.
Proof.
  intros M NE HF. unfold extended_copy. cbn zeta. destruct (nonempty_size b NE) as (W & H & W0 & H0).
  assert (WN : bempty (box_of 0 0 (bw b) (bh b)) = false) by (apply box_of_ne; auto).
  destruct (nonempty_size _ WN) as (W1 & H1 & _ & _).
  destruct (edge_source_covers Qc m v (x0 b) (y0 b) (box_of 0 0 (bw b) (bh b)) 0 0 M) as (s & E & _ & _).
  { unfold inb, box_of; cbn [x0 y0 x1 y1]. lia. }
  rewrite E. cbn [bind].
  destruct (rasterize_ok (fun i j => view_ext_read m (restrict v s) (x0 b) (y0 b) i j) (Img (bw b) (bh b) (fun _ _ => 0%Qc)) (box_of 0 0 (bw b) (bh b))
              (fun i j => F (i + x0 b) (j + y0 b))) as (d & Ed & (S1 & S2 & P)); auto.
  - rewrite W1. cbn [icols box_of x0 x1]. lia.
  - rewrite H1. cbn [irows box_of y0 y1]. lia.
  - intros i j Hij. destruct (edge_source_covers Qc m v (x0 b) (y0 b) (box_of 0 0 (bw b) (bh b)) i j M Hij) as (s' & E' & _ & Er).
    assert (s' = s) by congruence. subst s'. rewrite Er. unfold view_ext_read. apply HF.
    unfold inb, box_of in *. cbn [x0 y0 x1 y1] in *. lia.
  - exists d. split; [exact Ed|]. split; [|split].
    + rewrite S1, W1. cbn [box_of x0 x1]. lia.
    + rewrite S2, H1. cbn [box_of y0 y1]. lia.
    + intros x y [Hx Hy]. specialize (P (x - x0 b) (y - y0 b)). unfold box_of in P at 2 3. cbn [x0 y0] in P.
      rewrite !Z.sub_0_r in P. rewrite P; [f_equal; lia|]. unfold inb, box_of; cbn [x0 y0 x1 y1]. lia.
Qed.


Lemma conv_rasterize_ok t m v F k mci mcj dest b R : 0 < icols k -> 0 < irows k -> mode_ok m (cols v) (rows v) ->
  bempty b = false -> icols dest = bw b -> irows dest = bh b ->
  readable_over m v F (icols k) (irows k) mci mcj b ->
  (forall x y, inb b x y -> c_convert t (convolution (icols k) (irows k) (pix k) mci mcj F x y) = Ok (R x y)) ->
  exists d, conv_rasterize t m v k mci mcj dest b = Ok d /\ holds d b R.
Proof.
  intros C0 R0 M NE DC DR HF HR. unfold conv_rasterize, conv_support. cbn zeta.
  set (ci := icols k - 1 - mci). set (cj := irows k - 1 - mcj).
  set (sb := box_of (x0 b - ci) (y0 b - cj) (bw b + (icols k - 1)) (bh b + (irows k - 1))).
  destruct (nonempty_size b NE) as (W & H & W0 & H0).
  assert (SN : bempty sb = false) by (apply box_of_ne; lia).
  destruct (extended_copy_ok m v sb F M SN) as (src & E & S1 & S2 & P).
  { intros x y [Hx Hy]. unfold sb, box_of in Hx, Hy. cbn [x0 y0 x1 y1] in Hx, Hy.
    (* the pixel is read for some pixel of b *)
    set (px := Z.max (x0 b) (Z.min (x1 b - 1) (x + ci))). set (py := Z.max (y0 b) (Z.min (y1 b - 1) (y + cj))).
    assert (I : inb b px py) by (unfold inb, px, py; lia).
    pose proof (HF px py I (px + mci - x) (py + mcj - y) ltac:(unfold px, ci in *; lia) ltac:(unfold py, cj in *; lia)) as Q.
    replace (px + mci - (px + mci - x)) with x in Q by lia. replace (py + mcj - (py + mcj - y)) with y in Q by lia. exact Q. }
  rewrite E. cbn [bind]. destruct (nonempty_size sb SN) as (SW & SH & _ & _).
  apply rasterize_ok; auto. intros x y I. rewrite <- HR by auto.
  apply conv_op_ok; try lia. intros i j Hi Hj. cbn [ext_read rd].
  rewrite get_in.
  - rewrite !Z.add_opp_r. rewrite P; auto. destruct I. unfold sb, box_of, inb, ci, cj. cbn [x0 y0 x1 y1]. lia.
  - destruct I. unfold inside. rewrite S1, S2, SW, SH. unfold sb, box_of, ci, cj. cbn [x0 y0 x1 y1]. lia.
Qed.

(** ** Separable kernels *)
Lemma vread_ok k i : 0 <= i < size k -> vread k i = Ok (nth (Z.to_nat i) k 0%Qc).
Proof.
  intros H. unfold vread, size in *. destruct (i <? 0) eqn:A; bp; [lia|].
  destruct (nth_error k (Z.to_nat i)) eqn:E.
  - now rewrite (nth_error_nth k (Z.to_nat i) 0%Qc E).
  - apply nth_error_None in E. lia.
Qed.
Lemma size_nil k : size k = 0 -> k = [].
Proof. unfold size. destruct k; cbn [length]; [auto|lia]. Qed.
Lemma len_pos k : 0 < len k.
Proof. unfold len. destruct k; cbn [filled length]; lia. Qed.
Lemma len_size k : len k = if size k =? 0 then 1 else size k.
Proof. unfold len, size. destruct k; cbn [filled length]; [reflexivity|]. destruct (_ =? _) eqn:E; bp; lia. Qed.

Lemma generate_2d_ok ik jk : exists k, generate_2d ik jk = Ok k /\ icols k = len ik /\ irows k = len jk /\
  forall i j, 0 <= i < len ik -> 0 <= j < len jk -> pix k i j = outer ik jk (len ik - 1 - i) (len jk - 1 - j).
Proof.
  unfold generate_2d. cbn zeta. rewrite <- !len_size.
  pose proof (len_pos ik). pose proof (len_pos jk).
  assert (V : forall k i, 0 <= i < len k -> (if size k =? 0 then Ok 1%Qc else vread k i) = Ok (nth (Z.to_nat i) (filled k) 0%Qc)).
  { intros k i Hi. rewrite len_size in Hi. destruct (size k =? 0) eqn:E; bp.
    - apply size_nil in E. subst. assert (i = 0) by lia. subst. reflexivity.
    - rewrite vread_ok by lia. destruct k; auto. now cbn in E. }
  match goal with |- context [for_up 0 (len ik) ?f ?z] =>
    destruct (for_up_inv (fun i d => icols d = len ik /\ irows d = len jk /\ forall i' j', 0 <= i' < i -> 0 <= j' < len jk ->
        pix d (len ik - 1 - i') (len jk - 1 - j') = outer ik jk i' j') f 0 (len ik) z) as (d & E & S1 & S2 & P) end; try lia.
  - split; auto. split; auto. intros. lia.
  - intros i d Hi (S1 & S2 & P).
    match goal with |- context [for_up 0 (len jk) ?f ?z] =>
      destruct (for_up_inv (fun j d => icols d = len ik /\ irows d = len jk /\ (forall i' j', 0 <= i' < i -> 0 <= j' < len jk ->
          pix d (len ik - 1 - i') (len jk - 1 - j') = outer ik jk i' j') /\
          forall j', 0 <= j' < j -> pix d (len ik - 1 - i) (len jk - 1 - j') = outer ik jk i j')
        f 0 (len jk) z) as (d2 & E & T1 & T2 & P2 & Q2) end; try lia.
    + split; [auto|split; [auto|split; [auto|]]]. intros. lia.
    + intros j d1 Hj (U1 & U2 & P1 & Q1). rewrite !V by lia. cbn [bind].
      destruct (put_in d1 (len ik - 1 - i) (len jk - 1 - j) (nth (Z.to_nat i) (filled ik) 0 * nth (Z.to_nat j) (filled jk) 0)%Qc)
        as (d2 & E & V1 & V2 & PP & PO); [split; lia|].
      exists d2. split; [auto|]. split; [lia|split; [lia|split]].
      * intros i' j' Hi' Hj'. rewrite PO by lia. auto.
      * intros j' Hj'. destruct (Z.eq_dec j' j) as [->|N]; [auto|]. rewrite PO by lia. apply Q1. lia.
    + exists d2. split; auto. split; auto. split; auto. intros i' j' Hi' Hj'.
      destruct (Z.eq_dec i' i) as [->|N]; [auto|]. apply P2; lia.
  - exists d. split; [exact E|]. split; [auto|split; [auto|]]. intros i j Hi Hj.
    rewrite <- (P (len ik - 1 - i) (len jk - 1 - j)) by lia. f_equal; lia.
Qed.

Lemma origin_rev k c : (if size k =? 0 then 0 else size k - 1 - c) = len k - 1 - origin k c.
Proof.
  rewrite len_size. destruct (size k =? 0) eqn:E; bp.
  - apply size_nil in E. subst. reflexivity.
  - destruct k; [now cbn in E|]. reflexivity.
Qed.

Lemma sep_op_ok t m v F ik jk mci mcj x y :
  readable m v F (len ik) (len jk) (origin ik mci) (origin jk mcj) x y ->
  sep_op t m v ik jk mci mcj x y =
  cast_clamp_if_int t (convolution (len ik) (len jk) (outer ik jk) (origin ik mci) (origin jk mcj) F x y).
Proof.
  intros HF. unfold sep_op. destruct (generate_2d_ok ik jk) as (k & -> & C & R & P). cbn [bind]. cbn zeta.
  pose proof (len_pos ik). pose proof (len_pos jk).
  rewrite !origin_rev, C, R. rewrite (both_ways m v F _ _ (outer ik jk) (get k)); auto; try lia.
  intros i j Hi Hj. rewrite get_in by (split; lia). now rewrite P.
Qed.

Lemma convolve_1d_ok t tr src dest k w h S R : sizeT tr dest w h -> 0 <= w -> 0 <= h ->
  (forall x y i, 0 <= x < w -> 0 <= y < h -> 0 <= i < size k -> rdT tr src (x + i) y = Ok (S (x + i) y)) ->
  (forall x y, 0 <= x < w -> 0 <= y < h -> cast_clamp_if_int t (convolution1 k (size k - 1) (fun x => S x y) x) = Ok (R x y)) ->
  exists d, convolve_1d t tr src dest k = Ok d /\ sizeT tr d w h /\ forall x y, 0 <= x < w -> 0 <= y < h -> pixT tr d x y = R x y.
Proof.
  intros Sz W H HS HR. unfold convolve_1d. cbn zeta.
  assert (DC : (if tr then irows dest else icols dest) = w) by (unfold sizeT in Sz; destruct tr; lia).
  assert (DR : (if tr then icols dest else irows dest) = h) by (unfold sizeT in Sz; destruct tr; lia).
  rewrite DC, DR.
  apply (fill2 tr w h (fun y x d =>
    q <- corr1 (fun i => rdT tr src (x + i) y) (fun i => vread k (size k - 1 - i)) (size k) ;;
    q <- cast_clamp_if_int t q ;;
    wrT tr d x y q) dest R); auto.
  intros x y d Hx Hy.
  rewrite (corr1_ok _ _ (size k) (fun i => S (x + i) y) (fun i => nth (Z.to_nat (size k - 1 - i)) k 0%Qc)).
  - cbn [bind]. replace (qsum 0 (size k) _) with (convolution1 k (size k - 1) (fun x => S x y) x).
    + rewrite HR by auto. reflexivity.
    + unfold convolution1. fold (size k). rewrite qsum_rev by (unfold size; lia). apply qsum_ext. intros i Hi.
      f_equal. f_equal. lia.
  - unfold size; lia.
  - intros. now apply HS.
  - intros i Hi. apply vread_ok. lia.
Qed.


Lemma convolution1_one f x : convolution1 [1%Qc] 0 f x = f x.
Proof. unfold convolution1. cbn [length]. rewrite qsum_cons, qsum_nil by (cbn; lia). cbn [nth Z.to_nat]. rewrite Z.add_0_r, Z.sub_0_r. ring. Qed.
Lemma convolution1_at k c c' f g x x' : (forall i, 0 <= i < size k -> f (x + c - i) = g (x' + c' - i)) ->
  convolution1 k c f x = convolution1 k c' g x'.
Proof. intros H. unfold convolution1. apply qsum_ext. intros i Hi. now rewrite H. Qed.

Lemma sep_rasterize_ok t m v F W R ik jk mci mcj dest b : mode_ok m (cols v) (rows v) ->
  bempty b = false -> icols dest = bw b -> irows dest = bh b ->
  readable_over m v F (len ik) (len jk) (origin ik mci) (origin jk mcj) b ->
  two_pass t ik jk mci mcj F W b R ->
  exists d, sep_rasterize t m v ik jk mci mcj dest b = Ok d /\ holds d b R.
Proof.
  intros M NE DC DR HF [HW HR]. unfold sep_rasterize. cbn zeta.
  destruct (nonempty_size b NE) as (BW & BH & W0 & H0).
  destruct ((size ik =? 0) && (size jk =? 0)) eqn:EE.
  - apply andb_true_iff in EE as [Ei Ej]. bp. apply size_nil in Ei, Ej. subst ik jk.
    destruct (edge_source_covers Qc m v 0 0 b (x0 b) (y0 b) M) as (s & Es & _ & _); [unfold inb; lia|].
    rewrite Es. cbn [bind]. apply rasterize_ok; auto. intros x y I.
    destruct (edge_source_covers Qc m v 0 0 b x y M I) as (s' & Es' & _ & Er).
    assert (s' = s) by congruence. subst s'. rewrite Er. unfold view_ext_read.
    pose proof (HF x y I 0 0) as Q. cbn [origin len filled length Z.of_nat] in Q. specialize (Q ltac:(cbn; lia) ltac:(cbn; lia)).
    cbn [origin filled] in HW, HR. rewrite !Z.add_0_r, !Z.sub_0_r in *. rewrite Q.
    pose proof (HR x y I) as R1. rewrite convolution1_one in R1. injection R1 as <-.
    destruct I as [Ix Iy]. pose proof (HW x y Ix ltac:(cbn; lia)) as W1. rewrite convolution1_one in W1. now injection W1 as <-.
  - set (cb := Box _ _ _ _).
    assert (CX : cb = Box (x0 b + origin ik mci - (len ik - 1)) (y0 b + origin jk mcj - (len jk - 1)) (x1 b + origin ik mci) (y1 b + origin jk mcj)).
    { unfold cb. pose proof (origin_rev ik mci) as O1. pose proof (origin_rev jk mcj) as O2.
      assert (T : forall k c, (if size k =? 0 then 0 else size k - c - 1) = (if size k =? 0 then 0 else size k - 1 - c)) by (intros k c; destruct (size k =? 0); [reflexivity|ring]).
      assert (U : forall k c, (if size k =? 0 then 0 else c) = origin k c) by (intros [|] c; reflexivity).
      rewrite !T, O1, O2, !U. f_equal; lia. }
    clearbody cb. pose proof (len_pos ik) as Li. pose proof (len_pos jk) as Lj.
    assert (CN : bempty cb = false) by (apply bempty_false; subst cb; cbn [x0 y0 x1 y1]; lia).
    destruct (nonempty_size cb CN) as (CW & CH & _ & _).
    destruct (extended_copy_ok m v cb F M CN) as (src & E & S1 & S2 & P).
    { intros x y [Hx Hy]. subst cb. cbn [x0 y0 x1 y1] in Hx, Hy.
      set (px := Z.max (x0 b) (Z.min (x1 b - 1) (x - origin ik mci + len ik - 1))). set (py := Z.max (y0 b) (Z.min (y1 b - 1) (y - origin jk mcj + len jk - 1))).
      assert (I : inb b px py) by (unfold inb, px, py; lia).
      pose proof (HF px py I (px + origin ik mci - x) (py + origin jk mcj - y) ltac:(unfold px in *; lia) ltac:(unfold py in *; lia)) as Q.
      replace (px + origin ik mci - (px + origin ik mci - x)) with x in Q by lia.
      replace (py + origin jk mcj - (py + origin jk mcj - y)) with y in Q by lia. exact Q. }
    rewrite E. cbn [bind].
    assert (WW : bw cb = bw b + (len ik - 1)) by (rewrite CW, BW; subst cb; cbn [x0 x1]; lia).
    assert (HH : bh cb = bh b + (len jk - 1)) by (rewrite CH, BH; subst cb; cbn [y0 y1]; lia).
    assert (PS : forall i j, 0 <= i < bw cb -> 0 <= j < bh cb -> get src i j = Ok (F (x0 cb + i) (y0 cb + j))).
    { intros i j Hi Hj. rewrite get_in by (split; lia). rewrite <- P by (split; lia). f_equal. f_equal; lia. }
    assert (X0 : x0 cb = x0 b + origin ik mci - (len ik - 1)) by (subst cb; reflexivity).
    assert (Y0 : y0 cb = y0 b + origin jk mcj - (len jk - 1)) by (subst cb; reflexivity).
    assert (Y1 : y1 cb = y1 b + origin jk mcj) by (subst cb; reflexivity).
    clear CX.
    destruct ((0 <? size ik) && (0 <? size jk)) eqn:E2.
    + apply andb_true_iff in E2 as [Pi Pj]. bp.
      assert (Ni : ik <> []) by (intros ->; cbn in Pi; lia). assert (Nj : jk <> []) by (intros ->; cbn in Pj; lia).
      assert (Fi : filled ik = ik) by (destruct ik; [congruence|reflexivity]). assert (Fj : filled jk = jk) by (destruct jk; [congruence|reflexivity]).
      assert (Si : len ik = size ik) by (unfold len; now rewrite Fi). assert (Sj : len jk = size jk) by (unfold len; now rewrite Fj).
      destruct (convolve_1d_ok t false src (Img (bw b) (bh cb) (fun _ _ => 0%Qc)) ik (bw b) (bh cb)
                  (fun i j => F (x0 cb + i) (y0 cb + j)) (fun i j => W (x0 b + i) (y0 cb + j))) as (work & Ew & (T1 & T2) & PW);
        [split; auto|lia|lia| | |].
      * intros x y i Hx Hy Hi. cbn [rdT]. apply PS; lia.
      * intros x y Hx Hy. rewrite <- HW by lia. destruct ik; [congruence|]. rewrite Fi. f_equal. apply convolution1_at.
        intros i Hi. f_equal. lia.
      * rewrite Ew. cbn [bind].
        destruct (convolve_1d_ok t true work dest jk (bh b) (bw b)
                  (fun j i => W (x0 b + i) (y0 cb + j)) (fun j i => R (x0 b + i) (y0 b + j))) as (d & Ed & (U1 & U2) & PD);
          [split; lia|lia|lia| | |].
        -- intros x y i Hx Hy Hi. cbn [rdT]. rewrite get_in by (split; lia). f_equal. apply (PW y (x + i)); lia.
        -- intros x y Hx Hy. rewrite <- HR by (split; lia). destruct jk; [congruence|]. rewrite Fj. f_equal. apply convolution1_at.
           intros i Hi. f_equal. lia.
        -- exists d. split; [exact Ed|]. split; [lia|split; [lia|]]. intros x y [Ix Iy].
           pose proof (PD (y - y0 b) (x - x0 b) ltac:(lia) ltac:(lia)) as Q. cbn [pixT] in Q. rewrite Q. f_equal; lia.
    + destruct (0 <? size ik) eqn:E3.
      * bp. assert (size jk = 0) as Z by (unfold size in *; lia). apply size_nil in Z. subst jk. 
        assert (Ni : ik <> []) by (intros ->; cbn in E3; lia). assert (Fi : filled ik = ik) by (destruct ik; [congruence|reflexivity]).
        assert (Si : len ik = size ik) by (unfold len; now rewrite Fi).
        cbn [origin len filled length Z.of_nat] in *. change (len []) with 1 in *.
        destruct (convolve_1d_ok t false src dest ik (bw b) (bh b)
                  (fun i j => F (x0 cb + i) (y0 cb + j)) (fun i j => R (x0 b + i) (y0 b + j))) as (d & Ed & (U1 & U2) & PD);
          [split; auto|lia|lia| | |].
        -- intros x y i Hx Hy Hi. cbn [rdT]. apply PS; lia.
        -- intros x y Hx Hy. pose proof (HR (x0 b + x) (y0 b + y) ltac:(split; lia)) as Q. rewrite convolution1_one in Q. injection Q as <-.
           rewrite <- HW by lia. destruct ik; [congruence|]. f_equal. apply convolution1_at.
           intros i Hi. f_equal; lia.
        -- exists d. split; [exact Ed|]. split; [lia|split; [lia|]]. intros x y [Ix Iy].
           pose proof (PD (x - x0 b) (y - y0 b) ltac:(lia) ltac:(lia)) as Q. cbn [pixT] in Q. rewrite Q. f_equal; lia.
      * bp. assert (size ik = 0) as Z by (unfold size in *; lia). apply size_nil in Z. subst ik.
        assert (Nj : jk <> []) by (intros ->; cbn in EE; discriminate). assert (Fj : filled jk = jk) by (destruct jk; [congruence|reflexivity]).
        assert (Sj : len jk = size jk) by (unfold len; now rewrite Fj).
        cbn [origin filled] in *. change (len []) with 1 in *.
        destruct (convolve_1d_ok t true src dest jk (bh b) (bw b)
                  (fun j i => F (x0 cb + i) (y0 cb + j)) (fun j i => R (x0 b + i) (y0 b + j))) as (d & Ed & (U1 & U2) & PD);
          [split; auto|lia|lia| | |].
        -- intros x y i Hx Hy Hi. cbn [rdT]. apply PS; lia.
        -- intros x y Hx Hy. rewrite <- HR by (split; lia). destruct jk; [congruence|]. rewrite Fj. f_equal. apply convolution1_at.
           intros i Hi. pose proof (HW (x0 b + y) (y0 b + x + origin (q :: jk) mcj - i) ltac:(lia) ltac:(lia)) as Q.
           rewrite convolution1_one in Q. injection Q as Q. cbn [origin] in *. rewrite <- Q. f_equal; lia.
        -- exists d. split; [exact Ed|]. split; [lia|split; [lia|]]. intros x y [Ix Iy].
           pose proof (PD (y - y0 b) (x - x0 b) ltac:(lia) ltac:(lia)) as Q. cbn [pixT] in Q. rewrite Q. f_equal; lia.
Qed.

(* with exact pixels the two passes give the two-dimensional convolution *)
Lemma two_pass_exact ik jk ci cj F b :
  two_pass None ik jk ci cj F (fun x y => convolution1 (filled ik) (origin ik ci) (fun x => F x y) x) b
    (fun x y => convolution (len ik) (len jk) (outer ik jk) (origin ik ci) (origin jk cj) F x y).
Proof.
  split.
  - intros. destruct ik; reflexivity.
  - intros x y I. assert (E : convolution1 (filled jk) (origin jk cj) ((fun x y => convolution1 (filled ik) (origin ik ci) (fun x => F x y) x) x) y
       = convolution (len ik) (len jk) (outer ik jk) (origin ik ci) (origin jk cj) F x y).
    { unfold convolution, convolution1, outer, len. apply qsum_ext. intros j Hj. rewrite <- qsum_mul_l. apply qsum_ext. intros i Hi. ring. }
    destruct jk; cbn [cast_clamp_if_int]; now rewrite E.
Qed.
