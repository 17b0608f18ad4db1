(* C11, C12: memory layout and pixel iteration. *)
From Coq Require Import ZArith List Lia Bool.
From Verif Require Import Lib.Base ImgMem.Model ImgMem.Spec ImgMem.Proofs.
Import ListNotations.
Local Open Scope Z_scope.

(* ------------------------------ C11 ------------------------------ *)
(* After any history of size changes, every pixel is inside the buffer, two
   pixels never share an element, the buffer has no element to spare, and the
   strides handed to I/O code address the same elements. *)
Theorem pixels_disjoint_and_inside : forall A (z : A) alloc ops im,
  run z alloc ops img0 = Ok im ->
  (forall c r p, 0 <= c < icols im -> 0 <= r < irows im -> 0 <= p < iplanes im ->
     0 <= offset im c r p < Z.of_nat (length (idata im)) /\
     offset im c r p = (let '(cs, rs, ps) := buffer_strides im in c * cs + r * rs + p * ps)) /\
  (forall c r p c' r' p', 0 <= c < icols im -> 0 <= r < irows im -> 0 <= p < iplanes im ->
     0 <= c' < icols im -> 0 <= r' < irows im -> 0 <= p' < iplanes im ->
     offset im c r p = offset im c' r' p' -> c = c' /\ r = r' /\ p = p') /\
  Z.of_nat (length (idata im)) = icols im * irows im * iplanes im.
Proof.
  intros A z alloc ops im E. pose proof (run_ok z alloc ops _ _ img0_ok E) as O.
  split; [|split; [intros; eapply offset_inj; eauto|apply O]].
  intros c r p Hc Hr Hp. split; [apply offset_range; auto|].
  destruct O as (_ & _ & _ & (E1 & E2) & _). unfold offset, buffer_strides. rewrite E1, E2. ring.
Qed.
Print Assumptions pixels_disjoint_and_inside.

(* Which requests are accepted: the new image has the requested size and zero
   pixels, as long as rows*cols*planes fits an int. *)
Theorem set_size_accepts : forall A (z : A) im c r p,
  0 <= c < 80000 -> 0 <= r < 80000 -> 0 <= p < 1024 -> c * r * p <= 2147483647 -> c * r <= 2147483647 ->
  exists im', set_size z true im c r p = Ok im' /\ icols im' = c /\ irows im' = r /\ iplanes im' = p /\
    ((icols im, irows im, iplanes im) <> (c, r, p) -> forall a, In a (idata im') -> a = z).
Proof.
  intros A z im c r p Hc Hr Hp H1 H2. unfold set_size.
  destruct (Z.eqb_spec c (icols im)) as [E1|E1], (Z.eqb_spec r (irows im)) as [E2|E2], (Z.eqb_spec p (iplanes im)) as [E3|E3]; cbn [andb].
  1: { exists im. repeat split; auto. intros N. exfalso; apply N; congruence. }
  all: (destruct (Z.geb_spec c 0), (Z.geb_spec r 0), (Z.geb_spec p 0); try lia; cbn [andb negb];
    unfold MAX_SIDE, MAX_PLANES, MAX_TOTAL;
    destruct (Z.ltb_spec c 80000), (Z.ltb_spec r 80000), (Z.ltb_spec p 1024); try lia; cbn [andb negb];
    destruct (Z.ltb_spec (c * r * p) 6400000000); try lia; cbn [andb negb];
    rewrite andb_false_r;
    rewrite mul32_ok by (unfold i32_ok, i32_min, i32_max; nia); cbn [bind];
    rewrite mul32_ok by (unfold i32_ok, i32_min, i32_max; nia); cbn [bind];
    eexists; split; [reflexivity|]; cbn [icols irows iplanes idata]; repeat split;
    intros _ a Ha; apply repeat_spec in Ha; auto).
Qed.
Print Assumptions set_size_accepts.

Theorem set_size_refuses : forall A (z : A) alloc im c r p, (icols im, irows im, iplanes im) <> (c, r, p) ->
  c < 0 \/ r < 0 \/ p < 0 \/ 80000 <= c \/ 80000 <= r \/ 1024 <= p \/ 6400000000 <= c * r * p ->
  set_size z alloc im c r p = Throw ArgumentErr.
Proof.
  intros A z alloc im c r p N H. unfold set_size.
  destruct ((c =? icols im) && (r =? irows im) && (p =? iplanes im)) eqn:E.
  { rewrite !andb_true_iff in E. exfalso; apply N. f_equal; [f_equal|]; lia. }
  unfold MAX_SIDE, MAX_PLANES, MAX_TOTAL.
  destruct (Z.geb_spec c 0), (Z.geb_spec r 0), (Z.geb_spec p 0); try reflexivity; cbn [andb negb].
  destruct (Z.ltb_spec c 80000), (Z.ltb_spec r 80000); try reflexivity; cbn [andb negb].
  destruct (Z.ltb_spec p 1024); try reflexivity; cbn [negb].
  destruct (Z.ltb_spec (c * r * p) 6400000000); try reflexivity. lia.
Qed.
Print Assumptions set_size_refuses.

(* A 50000 x 50000 one-plane image passes every check but its plane stride and
   clearing length overflow int. *)
Theorem accepted_sizes_safe_refuted : exists c r p,
  0 <= c < 80000 /\ 0 <= r < 80000 /\ 0 <= p < 1024 /\ c * r * p < 6400000000 /\
  set_size 0 true img0 c r p = UB Overflow.
Proof. exists 50000, 50000, 1. repeat split; try lia. Qed.
Print Assumptions accepted_sizes_safe_refuted.

Example layout_ex : run 7 true [SSize 4 3 2; SSize 4 3 2; SReset; SSize 2 3 2] img0 = Ok (Img 2 3 2 2 6 (repeat 7 12)).
Proof. reflexivity. Qed.

(* ------------------------------ C12 ------------------------------ *)
(* Walking from begin() to end() lists exactly the pixels, each once, planes
   outermost and columns innermost. *)
Theorem iteration_is_raster_scan : forall w h planes, 0 < w -> 0 < h -> w * h <= 2147483648 -> 0 <= planes <= i32_max ->
  exists l fuel, (b <- it_begin w h ;; e <- it_end w h planes ;; walk fuel b e) = Ok l /\
    NoDup l /\ (forall c r p, In (c, r, p) l <-> 0 <= c < w /\ 0 <= r < h /\ 0 <= p < planes) /\
    l = flat_map (fun p => flat_map (fun r => map (fun c => (c, r, p)) (zrange 0 w)) (zrange 0 h)) (zrange 0 planes).
Proof.
  intros w h planes W H B P. exists (raster w h planes), (S (Z.to_nat (planes * (w * h)))).
  split; [apply walk_raster; auto|]. split; [apply nodup_raster|]. split; [intros; apply in_raster|reflexivity].
Qed.
Print Assumptions iteration_is_raster_scan.

(* An iterator built at a pixel reports that pixel; equality and distance are
   those of raster order. *)
Theorem iterator_roundtrip : forall w h c r p, 0 < w -> 0 < h -> w * h <= 2147483647 ->
  0 <= c < w -> 0 <= r < h -> 0 <= p <= i32_max ->
  exists it, mk_iter w h c r p = Ok it /\ it_col it = Ok c /\ it_row it = Ok r /\ it_plane it = Ok p.
Proof.
  intros w h c r p W H B Hc Hr Hp. unfold mk_iter.
  rewrite mul32_ok by (unfold i32_ok, i32_min, i32_max; nia). cbn [bind]. eexists; split; [reflexivity|].
  assert (0 <= r * w + c < w * h) by nia.
  assert (E1 : (p * (w * h) + r * w + c) mod (w * h) = r * w + c).
  { symmetry. apply Z.mod_unique with (q := p); [left; auto|ring]. }
  assert (E2 : (p * (w * h) + r * w + c) / (w * h) = p).
  { symmetry. apply Z.div_unique with (r := r * w + c); [left; auto|ring]. }
  destruct (it_at w h (p * (w * h) + r * w + c)) as (-> & -> & ->); try lia.
  rewrite E1, E2.
  assert (E3 : (r * w + c) mod w = c) by (symmetry; apply Z.mod_unique with (q := r); [left; auto|ring]).
  assert (E4 : (r * w + c) / w = r) by (symmetry; apply Z.div_unique with (r := c); [left; auto|ring]).
  rewrite E3, E4. auto.
Qed.
Print Assumptions iterator_roundtrip.

Theorem iterator_arithmetic : forall a n m,
  it_adv (it_adv a n) m = it_adv a (n + m) /\ it_dec (it_inc a) = a /\ it_inc a = it_adv a 1 /\
  it_dist a (it_adv a n) = n /\ (it_equal a (it_adv a n) = true <-> n = 0).
Proof.
  intros [w h i p] n m. unfold it_adv, it_dec, it_inc, it_dist, it_equal; simpl.
  split; [f_equal; ring|]. split; [f_equal; ring|]. split; [reflexivity|]. split; [ring|].
  rewrite Z.eqb_eq. lia.
Qed.
Print Assumptions iterator_arithmetic.

(* On an image of more than 2^31 pixels per plane a reachable position reports a
   negative column. *)
Theorem iterator_large_refuted : exists w h n, 0 < w < 80000 /\ 0 < h < 80000 /\ 0 <= n < w * h /\
  exists c, it_col (it_adv (It w h 0 (w * h)) n) = Ok c /\ c < 0.
Proof.
  exists 50000, 50000, 2147483648. repeat split; try lia. exists (-33648). split; [reflexivity|lia].
Qed.
Print Assumptions iterator_large_refuted.

(* The line iterator visits consecutive pixels of the line until it leaves the
   image, and no others. *)
Theorem line_iterator_walk : forall x y d w h, exists fuel n,
  l_walk fuel (mk_line x y d w h) = Ok (map (on_line x y d) (zseq 0 n)) /\
  (forall k, 0 <= k < Z.of_nat n -> in_img w h (on_line x y d k)) /\
  ~ in_img w h (on_line x y d (Z.of_nat n)).
Proof.
  intros x y d w h.
  exists (S (Z.to_nat (Z.max 0 (if dcol d =? 0 then (if drow d >? 0 then h - y else y + 1) else if dcol d >? 0 then w - x else x + 1)))).
  assert (E1 : fst (heading d) = dcol d) by (destruct d; reflexivity).
  assert (E2 : snd (heading d) = drow d) by (destruct d; reflexivity).
  unfold on_line, in_img; cbn [fst snd]. rewrite E1, E2.
  apply l_walk_eq; try (destruct d; simpl; lia).
Qed.
Print Assumptions line_iterator_walk.

Theorem line_iterator_distance : forall x y d w h n,
  l_dist (mk_line x y d w h) (l_adv (mk_line x y d w h) n) = Ok n /\
  l_inc (l_dec (mk_line x y d w h)) = mk_line x y d w h /\
  l_inc (mk_line x y d w h) = l_adv (mk_line x y d w h) 1.
Proof.
  intros. unfold l_dist, l_adv, l_inc, l_dec, mk_line; cbn [l_col l_row l_w l_h l_dc l_dr].
  repeat split; try (f_equal; ring).
  destruct d; cbn [dcol drow Z.eqb negb]; unfold cdiv; cbn [Z.eqb]; f_equal.
  all: match goal with |- Z.quot ?a 1 = _ => rewrite Z.quot_1_r; ring
       | |- Z.quot ?a (-1) = _ => replace a with (- n) by ring; rewrite <- (Z.opp_involutive (-1)) end.
  all: replace (- - -1) with (- (1)) by reflexivity; rewrite Z.quot_opp_opp by lia; apply Z.quot_1_r.
Qed.
Print Assumptions line_iterator_distance.

Example walk_ex : (b <- it_begin 2 2 ;; e <- it_end 2 2 2 ;; walk 9 b e) =
  Ok [(0,0,0); (1,0,0); (0,1,0); (1,1,0); (0,0,1); (1,0,1); (0,1,1); (1,1,1)].
Proof. reflexivity. Qed.
Example line_walk_ex : l_walk 9 (mk_line 1 2 TR 4 3) = Ok [(1,2); (2,1); (3,0)] /\ on_line 1 2 TR 2 = (3,0).
Proof. split; reflexivity. Qed.
