From Coq Require Import ZArith List Lia Bool QArith.
From Verif Require Import Lib.Base Lib.Img Integral.Model Integral.Spec.
Import ListNotations.
Local Open Scope Z_scope.

(* ---- sums over rectangles ---- *)
Lemma zsum_cons a l : zsum (a :: l) = a + zsum l. Proof. reflexivity. Qed.
Lemma total_split_x f x0 y0 x1 y1 m : x0 <= m <= x1 -> total f x0 y0 x1 y1 = total f x0 y0 m y1 + total f m y0 x1 y1.
Proof.
  intros M. unfold total. induction (zrange y0 y1) as [|y l IH]; [ reflexivity | ].
  cbn [map]. rewrite !zsum_cons, IH, (zrange_app x0 m x1 M), map_app, zsum_app. lia.
Qed.
Lemma total_split_y f x0 y0 x1 y1 m : y0 <= m <= y1 -> total f x0 y0 x1 y1 = total f x0 y0 x1 m + total f x0 m x1 y1.
Proof. intros M. unfold total. rewrite (zrange_app y0 m y1 M), map_app, zsum_app. reflexivity. Qed.
Lemma total_one f x y : total f x y (x + 1) (y + 1) = f x y.
Proof. unfold total. rewrite (zrange_cons x), (zrange_cons y), (zrange_nil (x + 1)), (zrange_nil (y + 1)) by lia. cbn [map zsum fold_right]. lia. Qed.
Lemma total_empty_x f x0 y0 x1 y1 : x1 <= x0 -> total f x0 y0 x1 y1 = 0.
Proof. intros H. unfold total. rewrite (zrange_nil x0 x1 H). induction (zrange y0 y1) as [|y l IH]; cbn in *; auto. Qed.
Lemma total_empty_y f x0 y0 x1 y1 : y1 <= y0 -> total f x0 y0 x1 y1 = 0.
Proof. intros H. unfold total. rewrite (zrange_nil y0 y1 H). reflexivity. Qed.
Lemma zsum_nonneg l : (forall z, In z l -> 0 <= z) -> 0 <= zsum l.
Proof. induction l as [|a l IH]; intros H; cbn; [ lia | ]. pose proof (H a (or_introl eq_refl)). assert (0 <= zsum l) by (apply IH; intros z I; apply H; right; exact I). unfold zsum in *. lia. Qed.
Lemma total_nonneg f x0 y0 x1 y1 : (forall x y, 0 <= f x y) -> 0 <= total f x0 y0 x1 y1.
Proof.
  intros F. apply zsum_nonneg. intros z I. apply in_map_iff in I. destruct I as (y & <- & _). apply zsum_nonneg.
  intros z I. apply in_map_iff in I. destruct I as (x & <- & _). apply F.
Qed.
Lemma zsum_abs {A} (g : A -> Z) l : Z.abs (zsum (map g l)) <= zsum (map (fun a => Z.abs (g a)) l).
Proof. induction l as [|a l IH]; cbn; [ lia | ]. unfold zsum in *. lia. Qed.
Lemma zsum_le {A} (g h : A -> Z) l : (forall a, In a l -> g a <= h a) -> zsum (map g l) <= zsum (map h l).
Proof. induction l as [|a l IH]; intros H; cbn; [ lia | ]. pose proof (H a (or_introl eq_refl)). assert (zsum (map g l) <= zsum (map h l)) by (apply IH; intros b I; apply H; right; exact I). unfold zsum in *. lia. Qed.
Lemma total_abs f x0 y0 x1 y1 : Z.abs (total f x0 y0 x1 y1) <= total (fun x y => Z.abs (f x y)) x0 y0 x1 y1.
Proof.
  unfold total. eapply Z.le_trans; [ apply zsum_abs | ]. apply zsum_le. intros y _. apply zsum_abs.
Qed.
Lemma total_sub f x0 y0 x1 y1 c r : (forall x y, 0 <= f x y) -> 0 <= x0 -> x0 <= x1 <= c -> 0 <= y0 -> y0 <= y1 <= r -> total f x0 y0 x1 y1 <= total f 0 0 c r.
Proof.
  intros F X X1 Y Y1. rewrite (total_split_x f 0 0 c r x0), (total_split_x f x0 0 c r x1), (total_split_y f x0 0 x1 r y0), (total_split_y f x0 y0 x1 r y1) by lia.
  pose proof (total_nonneg f 0 0 x0 r F). pose proof (total_nonneg f x1 0 c r F). pose proof (total_nonneg f x0 0 x1 y0 F). pose proof (total_nonneg f x0 y1 x1 r F). lia.
Qed.

Definition small (k z : Z) : Prop := - (k * 1048576) <= z <= k * 1048576.
(* removes the roundings from the inside out *)
Ltac exact_ops rnd lem :=
  repeat match goal with |- context [rnd ?z] =>
    lazymatch z with context [rnd _] => fail | _ => rewrite (lem 16 z ltac:(lia)) by (unfold small in *; lia) end end.

Section Image.
  Variable rnd : Z -> Z.
  Variable src : img Z.
  Hypothesis Hr : single rnd.
  Hypothesis Hd : dim src.
  Hypothesis Hc : 0 <= icols src.
  Hypothesis Hw : 0 <= irows src.
  Local Notation S := (fun x y => block_sum src 0 0 x y).

  Lemma small_block x0 y0 x1 y1 : 0 <= x0 -> x0 <= x1 <= icols src -> 0 <= y0 -> y0 <= y1 <= irows src -> small 1 (block_sum src x0 y0 x1 y1).
  Proof.
    intros. unfold small, block_sum. pose proof (total_abs (pix src) x0 y0 x1 y1).
    pose proof (total_sub (fun x y => Z.abs (pix src x y)) x0 y0 x1 y1 (icols src) (irows src) ltac:(intros; apply Z.abs_nonneg) ltac:(lia) ltac:(lia) ltac:(lia) ltac:(lia)).
    unfold dim in Hd. change (2 ^ 24) with 16777216 in Hd. lia.
  Qed.
  Lemma small_rnd k z : k <= 16 -> small k z -> rnd z = z.
  Proof. intros K H. apply Hr. unfold small in H. change (2 ^ 24) with 16777216. lia. Qed.

  Lemma sum_step x y : 0 <= x -> 0 <= y -> S (x + 1) (y + 1) = pix src x y + S x (y + 1) + S (x + 1) y - S x y.
  Proof.
    intros X Y. unfold block_sum. rewrite (total_split_x _ 0 0 (x + 1) (y + 1) x), (total_split_y _ x 0 (x + 1) (y + 1) y), (total_split_x _ 0 0 (x + 1) y x) by lia.
    rewrite total_one. lia.
  Qed.
  Lemma sum_block x0 y0 x1 y1 : 0 <= x0 <= x1 -> 0 <= y0 <= y1 -> block_sum src x0 y0 x1 y1 = S x0 y0 + S x1 y1 - S x0 y1 - S x1 y0.
  Proof.
    intros X Y. unfold block_sum. rewrite (total_split_x _ 0 0 x1 y1 x0), (total_split_y _ x0 0 x1 y1 y0), (total_split_x _ 0 0 x1 y0 x0) by lia. lia.
  Qed.

  (* the pixels written so far *)
  Definition Inv (D : Z -> Z -> Prop) (m : img Z) : Prop :=
    icols m = icols src + 1 /\ irows m = irows src + 1 /\ forall x y, 0 <= x <= icols src -> 0 <= y <= irows src -> D x y -> pix m x y = S x y.

  Lemma put_step (D D' : Z -> Z -> Prop) m a b v : Inv D m -> 0 <= a <= icols src -> 0 <= b <= irows src -> v = S a b ->
    (forall x y, 0 <= x -> 0 <= y -> D' x y -> (x = a /\ y = b) \/ D x y) -> exists m', put m a b v = Ok m' /\ Inv D' m'.
  Proof.
    intros (C & R & P) A B V H. destruct (put_in m a b v) as (m' & E & C' & R' & P1 & P2); [ unfold inside; lia | ].
    exists m'. split; [ exact E | ]. split; [ lia | ]. split; [ lia | ]. intros x y X Y D0.
    destruct (H x y ltac:(lia) ltac:(lia) D0) as [(-> & ->) | D1]; [ rewrite P1; exact V | ].
    destruct (Z.eq_dec x a) as [-> | N]; [ destruct (Z.eq_dec y b) as [-> | N] | ]; [ rewrite P1; exact V | rewrite P2 by auto; auto | rewrite P2 by auto; auto ].
  Qed.
  Lemma edge_sum x y : x = 0 \/ y = 0 -> S x y = 0.
  Proof. intros [-> | ->]; unfold block_sum; [ apply total_empty_x | apply total_empty_y ]; lia. Qed.

  Lemma zero_edges_ok junk : exists m, zero_edges (Img (icols src + 1) (irows src + 1) junk) = Ok m /\ Inv (fun x y => x = 0 \/ y = 0) m.
  Proof.
    unfold zero_edges. cbn [icols irows].
    destruct (put_step (fun _ _ => False) (fun x y => x = 0 /\ y = 0) (Img (icols src + 1) (irows src + 1) junk) 0 0 0) as (m1 & E1 & I1).
    { split; [ reflexivity | ]. split; [ reflexivity | tauto ]. } { lia. } { lia. } { symmetry; apply edge_sum; auto. } { tauto. }
    rewrite E1. cbn [bind].
    destruct (for_up_inv (fun i m => Inv (fun x y => x < i /\ y = 0) m) (fun i m => put m i 0 0) 1 (icols src + 1) m1 ltac:(lia)) as (m2 & E2 & I2).
    { destruct I1 as (C & R & P). split; [ exact C | ]. split; [ exact R | ]. intros x y X Y D. apply P; lia. }
    { intros k m K I. apply put_step with (fun x y => x < k /\ y = 0); [ exact I | lia | lia | symmetry; apply edge_sum; auto | lia ]. }
    rewrite E2. cbn [bind].
    destruct (for_up_inv (fun i m => Inv (fun x y => y = 0 \/ x = 0 /\ y < i) m) (fun i m => put m 0 i 0) 1 (irows src + 1) m2 ltac:(lia)) as (m3 & E3 & I3).
    { destruct I2 as (C & R & P). split; [ exact C | ]. split; [ exact R | ]. intros x y X Y D. apply P; lia. }
    { intros k m K I. apply put_step with (fun x y => y = 0 \/ x = 0 /\ y < k); [ exact I | lia | lia | symmetry; apply edge_sum; auto | lia ]. }
    exists m3. split; [ exact E3 | ]. destruct I3 as (C & R & P). split; [ exact C | ]. split; [ exact R | ]. intros x y X Y D. apply P; lia.
  Qed.

  Definition reached (iy ix x y : Z) : Prop := x = 0 \/ y <= iy \/ y = iy + 1 /\ x <= ix.
  Lemma fill_pixel_ok iy ix m : 0 <= iy < irows src -> 0 <= ix < icols src -> Inv (reached iy ix) m ->
    exists m', fill_pixel rnd src iy ix m = Ok m' /\ Inv (reached iy (ix + 1)) m'.
  Proof.
    intros Y X I. pose proof I as (C & R & P). unfold fill_pixel. rewrite !get_in by (unfold inside; lia). cbn [bind].
    rewrite (P ix (iy + 1)), (P (ix + 1) iy), (P ix iy) by (unfold reached; lia).
    pose proof (sum_step ix iy ltac:(lia) ltac:(lia)) as St. cbv beta in St |- *.
    pose proof (small_block 0 0 ix (iy + 1) ltac:(lia) ltac:(lia) ltac:(lia) ltac:(lia)) as B1.
    pose proof (small_block 0 0 (ix + 1) iy ltac:(lia) ltac:(lia) ltac:(lia) ltac:(lia)) as B2.
    pose proof (small_block 0 0 ix iy ltac:(lia) ltac:(lia) ltac:(lia) ltac:(lia)) as B3.
    pose proof (small_block 0 0 (ix + 1) (iy + 1) ltac:(lia) ltac:(lia) ltac:(lia) ltac:(lia)) as B4.
    exact_ops rnd small_rnd.
    apply put_step with (reached iy ix); [ exact I | lia | lia | lia | unfold reached; lia ].
  Qed.
  Lemma integral_image_ok junk : exists m, integral_image rnd junk src = Ok m /\
    icols m = icols src + 1 /\ irows m = irows src + 1 /\ forall x y, 0 <= x <= icols src -> 0 <= y <= irows src -> pix m x y = S x y.
  Proof.
    destruct (zero_edges_ok junk) as (m0 & E0 & I0). unfold integral_image. rewrite E0. cbn [bind].
    destruct (for_up_inv (fun iy m => Inv (reached iy 0) m) (fun iy => for_up 0 (icols src) (fill_pixel rnd src iy)) 0 (irows src) m0 Hw) as (m & E & I).
    { destruct I0 as (C & R & P). split; [ exact C | ]. split; [ exact R | ]. intros x y X Y D. apply P; unfold reached in D; lia. }
    { intros iy m Y I. destruct (for_up_inv (fun ix m => Inv (reached iy ix) m) (fill_pixel rnd src iy) 0 (icols src) m Hc I) as (m' & E' & I').
      { intros ix m' X I'. apply fill_pixel_ok; assumption. }
      exists m'. split; [ exact E' | ]. destruct I' as (C & R & P). split; [ exact C | ]. split; [ exact R | ]. intros x y X Y' D. apply P; unfold reached in *; lia. }
    exists m. split; [ exact E | ]. destruct I as (C & R & P). split; [ exact C | ]. split; [ exact R | ]. intros x y X Y. apply P; unfold reached; lia.
  Qed.

  (* ---- reading ---- *)
  Variable I : img Z.
  Hypothesis Ic : icols I = icols src + 1.
  Hypothesis Ir : irows I = irows src + 1.
  Hypothesis Ip : forall x y, 0 <= x <= icols src -> 0 <= y <= irows src -> pix I x y = S x y.

  Lemma read_ok x y : 0 <= x <= icols src -> 0 <= y <= irows src -> get I x y = Ok (S x y).
  Proof. intros X Y. rewrite get_in by (unfold inside; lia). rewrite Ip by lia. reflexivity. Qed.
  Lemma small_S x y : 0 <= x <= icols src -> 0 <= y <= irows src -> small 1 (S x y).
  Proof. intros. apply small_block; lia. Qed.
  Lemma block_ok x0 y0 x1 y1 : 0 <= x0 <= x1 -> x1 <= icols src -> 0 <= y0 <= y1 -> y1 <= irows src ->
    integral_block rnd I (x0, y0) (x1, y1) = Ok (block_sum src x0 y0 x1 y1).
  Proof.
    intros. unfold integral_block. cbn [fst snd]. rewrite !read_ok by lia. cbn [bind]. rewrite (sum_block x0 y0 x1 y1) by lia. f_equal.
    pose proof (small_S x0 y0 ltac:(lia) ltac:(lia)). pose proof (small_S x1 y1 ltac:(lia) ltac:(lia)). pose proof (small_S x0 y1 ltac:(lia) ltac:(lia)). pose proof (small_S x1 y0 ltac:(lia) ltac:(lia)). cbv beta in *.
    exact_ops rnd small_rnd. reflexivity.
  Qed.
  Lemma vec_ok a b : 0 <= a <= i32_max -> 0 <= b <= i32_max -> vec a b = (a, b).
  Proof. intros A B. unfold vec. rewrite !wrap_i32_id by (unfold i32_ok, i32_min in *; lia). reflexivity. Qed.

  Hypothesis Bc : icols src <= i32_max.
  Hypothesis Br : irows src <= i32_max.

  Lemma x_second_ok x y n : 0 <= n -> let lobe := n / 3 in let half := lobe / 2 in
    0 <= x - lobe - half -> x + half + lobe + 1 <= icols src -> 0 <= y - lobe + 1 -> y + lobe <= irows src -> 1 <= lobe ->
    x_second rnd I x y n = Ok (block_sum src (x - lobe - half) (y - lobe + 1) (x - half) (y + lobe)
      - 2 * block_sum src (x - half) (y - lobe + 1) (x + half + 1) (y + lobe)
      + block_sum src (x + half + 1) (y - lobe + 1) (x + half + lobe + 1) (y + lobe)).
  Proof.
    intros N lobe half H1 H2 H3 H4 H5. unfold x_second. fold lobe. fold half. assert (Hh : 0 <= half) by (apply Z.div_pos; lia).
    rewrite !vec_ok by lia. rewrite !block_ok by lia. cbn [bind]. f_equal.
    pose proof (small_block (x - lobe - half) (y - lobe + 1) (x - half) (y + lobe) ltac:(lia) ltac:(lia) ltac:(lia) ltac:(lia)).
    pose proof (small_block (x - half) (y - lobe + 1) (x + half + 1) (y + lobe) ltac:(lia) ltac:(lia) ltac:(lia) ltac:(lia)).
    pose proof (small_block (x + half + 1) (y - lobe + 1) (x + half + lobe + 1) (y + lobe) ltac:(lia) ltac:(lia) ltac:(lia) ltac:(lia)).
    exact_ops rnd small_rnd. reflexivity.
  Qed.
  Lemma y_second_ok x y n : 0 <= n -> let lobe := n / 3 in let half := lobe / 2 in
    0 <= y - lobe - half -> y + half + lobe + 1 <= irows src -> 0 <= x - lobe + 1 -> x + lobe <= icols src -> 1 <= lobe ->
    y_second rnd I x y n = Ok (block_sum src (x - lobe + 1) (y - lobe - half) (x + lobe) (y - half)
      - 2 * block_sum src (x - lobe + 1) (y - half) (x + lobe) (y + half + 1)
      + block_sum src (x - lobe + 1) (y + half + 1) (x + lobe) (y + half + lobe + 1)).
  Proof.
    intros N lobe half H1 H2 H3 H4 H5. unfold y_second. fold lobe. fold half. assert (Hh : 0 <= half) by (apply Z.div_pos; lia).
    rewrite !vec_ok by lia. rewrite !block_ok by lia. cbn [bind]. f_equal.
    pose proof (small_block (x - lobe + 1) (y - lobe - half) (x + lobe) (y - half) ltac:(lia) ltac:(lia) ltac:(lia) ltac:(lia)).
    pose proof (small_block (x - lobe + 1) (y - half) (x + lobe) (y + half + 1) ltac:(lia) ltac:(lia) ltac:(lia) ltac:(lia)).
    pose proof (small_block (x - lobe + 1) (y + half + 1) (x + lobe) (y + half + lobe + 1) ltac:(lia) ltac:(lia) ltac:(lia) ltac:(lia)).
    exact_ops rnd small_rnd. reflexivity.
  Qed.
  Lemma xy_ok x y n : 0 <= n -> let lobe := n / 3 in
    0 <= x - lobe -> x + lobe + 1 <= icols src -> 0 <= y - lobe -> y + lobe + 1 <= irows src ->
    xy_derivative rnd I x y n = Ok (block_sum src (x - lobe) (y - lobe) x y - block_sum src (x + 1) (y - lobe) (x + 1 + lobe) y
      - block_sum src (x - lobe) (y + 1) x (y + 1 + lobe) + block_sum src (x + 1) (y + 1) (x + 1 + lobe) (y + 1 + lobe)).
  Proof.
    intros N lobe H1 H2 H3 H4. unfold xy_derivative. fold lobe. assert (Hh : 0 <= lobe) by (apply Z.div_pos; lia).
    replace (x + lobe + 1) with (x + 1 + lobe) by lia. replace (y + lobe + 1) with (y + 1 + lobe) by lia.
    rewrite !vec_ok by lia. rewrite !block_ok by lia. cbn [bind]. f_equal.
    pose proof (small_block (x - lobe) (y - lobe) x y ltac:(lia) ltac:(lia) ltac:(lia) ltac:(lia)).
    pose proof (small_block (x + 1) (y - lobe) (x + 1 + lobe) y ltac:(lia) ltac:(lia) ltac:(lia) ltac:(lia)).
    pose proof (small_block (x - lobe) (y + 1) x (y + 1 + lobe) ltac:(lia) ltac:(lia) ltac:(lia) ltac:(lia)).
    pose proof (small_block (x + 1) (y + 1) (x + 1 + lobe) (y + 1 + lobe) ltac:(lia) ltac:(lia) ltac:(lia) ltac:(lia)).
    exact_ops rnd small_rnd. reflexivity.
  Qed.

  Lemma h_haar_ok x y size : let half := round_q (size / 2) in let left := round_q (inject_Z x - size / 2) in let top := round_q (inject_Z y - size / 2) in
    0 <= half -> 0 <= left -> left + 2 * half <= icols src -> 0 <= top -> top + 2 * half <= irows src ->
    h_haar rnd I x y size = Ok (block_sum src (left + half) top (left + 2 * half) (top + 2 * half) - block_sum src left top (left + half) (top + 2 * half)).
  Proof.
    intros half left top H1 H2 H3 H4 H5. unfold h_haar. fold half left top. rewrite !read_ok by lia. cbn [bind]. f_equal.
    rewrite (sum_block (left + half) top), (sum_block left top) by lia.
    pose proof (small_S left top ltac:(lia) ltac:(lia)). pose proof (small_S (left + half) top ltac:(lia) ltac:(lia)). pose proof (small_S (left + 2 * half) top ltac:(lia) ltac:(lia)).
    pose proof (small_S left (top + 2 * half) ltac:(lia) ltac:(lia)). pose proof (small_S (left + half) (top + 2 * half) ltac:(lia) ltac:(lia)). pose proof (small_S (left + 2 * half) (top + 2 * half) ltac:(lia) ltac:(lia)). cbv beta in *.
    exact_ops rnd small_rnd. lia.
  Qed.
  Lemma v_haar_ok x y size : let half := round_q (size / 2) in let left := round_q (inject_Z x - size / 2) in let top := round_q (inject_Z y - size / 2) in
    0 <= half -> 0 <= left -> left + 2 * half <= icols src -> 0 <= top -> top + 2 * half <= irows src ->
    v_haar rnd I x y size = Ok (block_sum src left (top + half) (left + 2 * half) (top + 2 * half) - block_sum src left top (left + 2 * half) (top + half)).
  Proof.
    intros half left top H1 H2 H3 H4 H5. unfold v_haar. fold half left top. rewrite !read_ok by lia. cbn [bind]. f_equal.
    rewrite (sum_block left (top + half)), (sum_block left top) by lia.
    pose proof (small_S left top ltac:(lia) ltac:(lia)). pose proof (small_S (left + 2 * half) top ltac:(lia) ltac:(lia)). pose proof (small_S left (top + half) ltac:(lia) ltac:(lia)).
    pose proof (small_S (left + 2 * half) (top + half) ltac:(lia) ltac:(lia)). pose proof (small_S left (top + 2 * half) ltac:(lia) ltac:(lia)). pose proof (small_S (left + 2 * half) (top + 2 * half) ltac:(lia) ltac:(lia)). cbv beta in *.
    exact_ops rnd small_rnd. lia.
  Qed.
End Image.
