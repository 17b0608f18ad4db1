From Coq Require Import ZArith List Lia Bool QArith Qcanon Ascii String Field.
From Verif Require Import Lib.Base Lib.Str Lib.Img Lib.QSum BBox.Proofs BBox.Box2 Edge.Model Edge.Spec MFun.Model Chan.Model Conv.Model Conv.Spec Conv.Proofs Conv.Gauss Conv.Deriv QTree.Model QTree.Spec.
Import ListNotations.
Local Open Scope Z_scope.

(** ** Numbers and images *)

Lemma cast_zero t : cast_clamp_if_int t 0%Qc = Ok 0%Qc.
Proof. destruct t as [t|]; [|reflexivity]. destruct t; vm_compute; reflexivity. Qed.

Lemma qsum_two f : qsum 0 2 f = (f 0%Z + f 1%Z)%Qc.
Proof. rewrite (qsum_cons 0 2), (qsum_cons (0 + 1) 2), (qsum_nil (0 + 1 + 1) 2) by lia. change (0 + 1) with 1. ring. Qed.

Lemma mean4_zero p x y : (forall a b, 0 <= a < 2 -> 0 <= b < 2 -> p (2 * x + a) (2 * y + b) = 0%Qc) -> mean4 p x y = 0%Qc.
Proof.
  intros H. unfold mean4. pose proof (H 0 0 ltac:(lia) ltac:(lia)) as A. pose proof (H 1 0 ltac:(lia) ltac:(lia)) as B.
  pose proof (H 0 1 ltac:(lia) ltac:(lia)) as C. pose proof (H 1 1 ltac:(lia) ltac:(lia)) as D.
  rewrite !Z.add_0_r in *. rewrite A, B, C, D. unfold Qcdiv. ring.
Qed.

Lemma pow2_pos j : 0 < 2 ^ Z.of_nat j.
Proof. apply Z.pow_pos_nonneg; lia. Qed.
Lemma pow2_S j : 2 ^ Z.of_nat (S j) = 2 * 2 ^ Z.of_nat j.
Proof. rewrite Nat2Z.inj_succ, Z.pow_succ_r by lia. reflexivity. Qed.

Lemma pyramid_zero t src P : pyramid t src P -> forall j x y,
  (forall u v, x * 2 ^ Z.of_nat j <= u < (x + 1) * 2 ^ Z.of_nat j -> y * 2 ^ Z.of_nat j <= v < (y + 1) * 2 ^ Z.of_nat j -> src u v = 0%Qc) ->
  P j x y = 0%Qc.
Proof.
  intros [P0 PS]. induction j as [|j IH]; intros x y H.
  - rewrite P0. apply H; cbn; lia.
  - specialize (PS j x y). rewrite mean4_zero in PS.
    + rewrite cast_zero in PS. congruence.
    + intros a b Ha Hb. apply IH. pose proof (pow2_pos j). rewrite pow2_S in H. intros u v Hu Hv. apply H; nia.
Qed.

Lemma view_read i x y : inside i x y -> rd (view_of i) x y = Ok (pix i x y).
Proof. intros H. cbn [rd view_of]. now apply get_in. Qed.
Lemma constant_inside i x y : inside i x y -> ext_read MConstant (view_of i) x y = Ok (pix i x y).
Proof.
  intros [Hx Hy]. cbn [ext_read]. cbn [cols rows view_of].
  unfold clamp_axis. destruct (x <? 0) eqn:A; bp; [lia|]. destruct (x >=? icols i) eqn:B; bp; [lia|].
  destruct (y <? 0) eqn:C; bp; [lia|]. destruct (y >=? irows i) eqn:D; bp; [lia|]. apply get_in; split; auto.
Qed.

Lemma box_subsample_ok t child h R : 0 < h -> icols child = 2 * h -> irows child = 2 * h ->
  (forall x y, 0 <= x < h -> 0 <= y < h -> cast_clamp_if_int t (mean4 (pix child) x y) = Ok (R x y)) ->
  exists d, box_subsample t child 2 2 = Ok d /\ icols d = h /\ irows d = h /\
    forall x y, 0 <= x < h -> 0 <= y < h -> pix d x y = R x y.
Proof.
  intros H C Rr HR. unfold box_subsample. cbn zeta. unfold cdiv. cbn [Z.eqb bind Z.ltb Z.compare andb negb].
  rewrite C, Rr. replace (1 + Z.quot (2 * h - 1) 2) with h.
  2:{ rewrite Z.quot_div_nonneg by lia. replace (2 * h - 1) with (1 + (h - 1) * 2) by lia. rewrite Z.div_add by lia. change (1 / 2) with 0. lia. }
  assert (NE : bempty (box_of 0 0 h h) = false) by (apply box_of_ne; auto).
  assert (W : bw (box_of 0 0 h h) = h /\ bh (box_of 0 0 h h) = h).
  { destruct (nonempty_size _ NE) as (W & W' & _). cbn [box_of x0 y0 x1 y1] in *. lia. }
  edestruct (rasterize_ok (fun i j => sep_op t MConstant (view_of child) (repeat (1 / of_int 2)%Qc (Z.to_nat 2)) (repeat (1 / of_int 2)%Qc (Z.to_nat 2)) (2 - 1) (2 - 1) (2 * i) (2 * j))
              (Img h h (fun _ _ => 0%Qc)) (box_of 0 0 h h) R NE) as (d & E & D1 & D2 & D3).
  - cbn [icols]. lia.
  - cbn [irows]. lia.
  - intros x y [Hx Hy]. cbn [box_of x0 y0 x1 y1] in Hx, Hy. rewrite <- HR by lia.
    change (Z.to_nat 2) with 2%nat. cbn [repeat].
    rewrite (sep_op_ok t MConstant (view_of child) (pix child)).
    2:{ intros i j Hi Hj. unfold len, filled in Hi, Hj. cbn in Hi, Hj. apply constant_inside. split; cbn [origin]; lia. }
    f_equal. unfold convolution, len, filled. cbn [List.length Z.of_nat Pos.of_succ_nat Pos.succ].
    rewrite qsum_two, !qsum_two. unfold outer, filled, mean4, origin. change (Z.to_nat 0) with 0%nat. change (Z.to_nat 1) with 1%nat. cbn [nth].
    replace (2 * x + (2 - 1) - 0) with (2 * x + 1) by lia. replace (2 * x + (2 - 1) - 1) with (2 * x) by lia.
    replace (2 * y + (2 - 1) - 0) with (2 * y + 1) by lia. replace (2 * y + (2 - 1) - 1) with (2 * y) by lia.
    replace (of_int 4) with (of_int 2 * of_int 2)%Qc by (apply Qc_is_canon; reflexivity). field. discriminate.
  - exists d. split; [exact E|]. destruct W as [W1 W2]. rewrite W1 in D1. rewrite W2 in D2. split; auto. split; auto.
    intros x y Hx Hy. specialize (D3 x y). cbn [box_of x0 y0 x1 y1] in D3. rewrite !Z.sub_0_r in D3. apply D3. unfold inb; cbn [box_of x0 y0 x1 y1]. lia.
Qed.

Lemma crop_copy_ok src b : bempty b = false -> 0 <= x0 b -> 0 <= y0 b -> x1 b <= icols src -> y1 b <= irows src ->
  exists d, crop_copy src b = Ok d /\ holds d b (pix src).
Proof.
  intros NE A B C D. unfold crop_copy. destruct (nonempty_size b NE) as (W & H & W0 & H0).
  assert (NE' : bempty (box_of 0 0 (bw b) (bh b)) = false) by (apply box_of_ne; auto).
  destruct (nonempty_size _ NE') as (W1 & H1 & _). cbn [box_of x0 y0 x1 y1] in W1, H1.
  destruct (rasterize_ok (fun i j => get src (x0 b + i) (y0 b + j)) (Img (bw b) (bh b) (fun _ _ => 0%Qc)) (box_of 0 0 (bw b) (bh b)) (fun i j => pix src (x0 b + i) (y0 b + j)) NE')
    as (d & E & D1 & D2 & D3); try (cbn [icols irows]; lia).
  - intros x y [Hx Hy]. cbn [box_of x0 y0 x1 y1] in *. apply get_in. split; lia.
  - exists d. split; [exact E|]. split; [lia|split; [lia|]]. intros x y [Hx Hy].
    specialize (D3 (x - x0 b) (y - y0 b)). cbn [box_of x0 y0 x1 y1] in D3. rewrite !Z.sub_0_r in D3.
    rewrite D3 by (unfold inb; cbn [box_of x0 y0 x1 y1]; lia). f_equal; lia.
Qed.

Lemma assign_crop_ok image b src : bempty b = false -> 0 <= x0 b -> 0 <= y0 b -> x1 b <= icols image -> y1 b <= irows image ->
  icols src = bw b -> irows src = bh b ->
  exists d, assign_crop image b src = Ok d /\ icols d = icols image /\ irows d = irows image /\
    (forall x y, inb b x y -> pix d x y = pix src (x - x0 b) (y - y0 b)) /\
    forall x y, ~ inb b x y -> pix d x y = pix image x y.
Proof.
  intros NE A B C D W H. unfold assign_crop. rewrite W, H, !Z.eqb_refl. cbn [andb negb].
  destruct (nonempty_size b NE) as (Wb & Hb & W0 & H0).
  destruct (for_up_inv (fun r d => icols d = icols image /\ irows d = irows image /\
      forall x y, pix d x y = if (x0 b <=? x) && (x <? x1 b) && (y0 b <=? y) && (y <? y0 b + r) then pix src (x - x0 b) (y - y0 b) else pix image x y)
    (fun r d => for_up 0 (bw b) (fun c d => q <- get src c r ;; put d (x0 b + c) (y0 b + r) q) d) 0 (bh b) image) as (d & E & E1 & E2 & E3).
  - lia.
  - split; auto. split; auto. intros x y. destruct ((x0 b <=? x) && (x <? x1 b) && (y0 b <=? y) && (y <? y0 b + 0)) eqn:Q; auto. bp. lia.
  - intros r d Hr (I1 & I2 & I3).
    destruct (for_up_inv (fun c d => icols d = icols image /\ irows d = irows image /\
      forall x y, pix d x y = if (x0 b <=? x) && (x <? x1 b) && (y0 b <=? y) && ((y <? y0 b + r) || ((y =? y0 b + r) && (x <? x0 b + c))) then pix src (x - x0 b) (y - y0 b) else pix image x y)
      (fun c d => q <- get src c r ;; put d (x0 b + c) (y0 b + r) q) 0 (bw b) d) as (d' & E & E1 & E2 & E3).
    + lia.
    + split; auto. split; auto. intros x y. rewrite I3.
      destruct (Z.leb_spec (x0 b) x), (Z.ltb_spec x (x1 b)), (Z.leb_spec (y0 b) y), (Z.ltb_spec y (y0 b + r)), (Z.eqb_spec y (y0 b + r)), (Z.ltb_spec x (x0 b + 0)); cbn [andb orb]; auto; lia.
    + intros c d2 Hc (J1 & J2 & J3). rewrite get_in by (split; lia). cbn [bind].
      destruct (put_in d2 (x0 b + c) (y0 b + r) (pix src c r)) as (d3 & -> & K1 & K2 & K3 & K4); [split; lia|].
      exists d3. split; auto. split; [lia|split; [lia|]]. intros x y.
      destruct (Z.eq_dec x (x0 b + c)) as [->|Nx], (Z.eq_dec y (y0 b + r)) as [->|Ny].
      * rewrite K3. destruct (Z.leb_spec (x0 b) (x0 b + c)), (Z.ltb_spec (x0 b + c) (x1 b)), (Z.leb_spec (y0 b) (y0 b + r)), (Z.ltb_spec (y0 b + r) (y0 b + r)), (Z.eqb_spec (y0 b + r) (y0 b + r)), (Z.ltb_spec (x0 b + c) (x0 b + (c + 1))); cbn [andb orb]; try lia. f_equal; lia.
      * rewrite K4, J3 by auto. destruct (Z.eqb_spec y (y0 b + r)); [lia|]. reflexivity.
      * rewrite K4, J3 by auto. destruct (Z.ltb_spec x (x0 b + c)), (Z.ltb_spec x (x0 b + (c + 1))); auto; lia.
      * rewrite K4, J3 by auto. destruct (Z.eqb_spec y (y0 b + r)); [lia|]. reflexivity.
    + exists d'. split; auto. split; auto. split; auto. intros x y. rewrite E3.
      destruct (Z.leb_spec (x0 b) x), (Z.ltb_spec x (x1 b)), (Z.leb_spec (y0 b) y), (Z.ltb_spec y (y0 b + r)), (Z.eqb_spec y (y0 b + r)), (Z.ltb_spec x (x0 b + bw b)), (Z.ltb_spec y (y0 b + (r + 1))); cbn [andb orb]; auto; lia.
  - exists d. split; auto. split; auto. split; auto. split.
    + intros x y [Hx Hy]. rewrite E3. destruct (Z.leb_spec (x0 b) x), (Z.ltb_spec x (x1 b)), (Z.leb_spec (y0 b) y), (Z.ltb_spec y (y0 b + bh b)); cbn [andb]; auto; lia.
    + intros x y N. rewrite E3. destruct (Z.leb_spec (x0 b) x), (Z.ltb_spec x (x1 b)), (Z.leb_spec (y0 b) y), (Z.ltb_spec y (y0 b + bh b)); cbn [andb]; auto.
      exfalso. apply N. split; lia.
Qed.
