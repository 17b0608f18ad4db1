From Coq Require Import ZArith List Lia Bool QArith Qround.
From Verif Require Import Lib.Base Lib.Img Integral.Model Integral.Spec Integral.Proofs.
Import ListNotations.
Local Open Scope Z_scope.

(* C30: whatever the memory held, the four corner combination is the sum of the
   pixels of the rectangle, in single precision, for every rectangle *)
Theorem integral_block_sums rnd junk src : single rnd -> dim src -> 0 <= icols src -> 0 <= irows src ->
  exists I, integral_image rnd junk src = Ok I /\
    forall x0 y0 x1 y1, 0 <= x0 <= x1 -> x1 <= icols src -> 0 <= y0 <= y1 -> y1 <= irows src ->
      integral_block rnd I (x0, y0) (x1, y1) = Ok (block_sum src x0 y0 x1 y1).
Proof.
  intros R D C W. destruct (integral_image_ok rnd src R D C W junk) as (I & E & Ic & Ir & Ip). exists I. split; [ exact E | ].
  intros x0 y0 x1 y1 X X1 Y Y1. apply (block_ok rnd src R D I Ic Ir Ip); assumption.
Qed.

(* C30: the second derivative filters: two lobes minus twice the middle, centred at (x, y) *)
Theorem integral_second_derivatives rnd junk src x y n : single rnd -> dim src -> 0 <= icols src <= i32_max -> 0 <= irows src <= i32_max ->
  3 <= n -> let lobe := n / 3 in let half := lobe / 2 in
  exists I, integral_image rnd junk src = Ok I /\
   (0 <= x - lobe - half -> x + half + lobe < icols src -> 0 <= y - lobe + 1 -> y + lobe <= irows src ->
    x_second rnd I x y n = Ok (total (fun i j => (if (x - half <=? i) && (i <=? x + half) then -2 else 1) * pix src i j)
      (x - half - lobe) (y - lobe + 1) (x + half + lobe + 1) (y + lobe))) /\
   (0 <= y - lobe - half -> y + half + lobe < irows src -> 0 <= x - lobe + 1 -> x + lobe <= icols src ->
    y_second rnd I x y n = Ok (total (fun i j => (if (y - half <=? j) && (j <=? y + half) then -2 else 1) * pix src i j)
      (x - lobe + 1) (y - half - lobe) (x + lobe) (y + half + lobe + 1))).
Proof.
  intros R D C W N lobe half. destruct (integral_image_ok rnd src R D ltac:(lia) ltac:(lia) junk) as (I & E & Ic & Ir & Ip). exists I. split; [ exact E | ].
  assert (Lb : 1 <= lobe) by (unfold lobe; apply Z.div_le_lower_bound; lia). assert (Hh : 0 <= half) by (apply Z.div_pos; lia).
  assert (Tx : forall (f g : Z -> Z -> Z) x0 y0 x1 y1, (forall i j, x0 <= i < x1 -> y0 <= j < y1 -> f i j = g i j) -> total f x0 y0 x1 y1 = total g x0 y0 x1 y1).
  { intros f g x0 y0 x1 y1 H. unfold total. f_equal. apply map_ext_in. intros j J. apply in_zrange in J. f_equal. apply map_ext_in. intros i Ii. apply in_zrange in Ii. apply H; lia. }
  assert (T2 : forall f x0 y0 x1 y1, total (fun i j => -2 * f i j) x0 y0 x1 y1 = -2 * total f x0 y0 x1 y1).
  { assert (X : forall (g : Z -> Z) l, zsum (map (fun i => -2 * g i) l) = -2 * zsum (map g l)).
    { intros g l. induction l as [|i r IHr]; [ reflexivity | ]. cbn [map]. rewrite !zsum_cons, IHr. lia. }
    intros f x0 y0 x1 y1. unfold total. induction (zrange y0 y1) as [|j l IH]; [ reflexivity | ]. cbn [map]. rewrite !zsum_cons, IH, (X (fun i => f i j)). lia. }
  split.
  - intros X0 X1 Y0 Y1. rewrite (x_second_ok rnd src R D I Ic Ir Ip ltac:(lia) ltac:(lia) x y n) by (try lia; fold lobe; fold half; lia). fold lobe half. f_equal.
    rewrite (total_split_x _ (x - half - lobe) _ _ _ (x - half)), (total_split_x _ (x - half) _ _ _ (x + half + 1)) by lia.
    rewrite (Tx _ (pix src) (x - half - lobe)); [ | intros i j Ii _; destruct ((x - half <=? i) && _) eqn:Q; [ apply andb_prop in Q; rewrite !Z.leb_le in Q; lia | lia ] ].
    rewrite (Tx _ (fun i j => -2 * pix src i j) (x - half)); [ | intros i j Ii _; destruct ((x - half <=? i) && _) eqn:Q; [ lia | apply andb_false_iff in Q; rewrite !Z.leb_gt in Q; lia ] ].
    rewrite (Tx _ (pix src) (x + half + 1)); [ | intros i j Ii _; destruct ((x - half <=? i) && _) eqn:Q; [ apply andb_prop in Q; rewrite !Z.leb_le in Q; lia | lia ] ].
    rewrite T2. unfold block_sum. replace (x - lobe - half) with (x - half - lobe) by lia. lia.
  - intros X0 X1 Y0 Y1. rewrite (y_second_ok rnd src R D I Ic Ir Ip ltac:(lia) ltac:(lia) x y n) by (try lia; fold lobe; fold half; lia). fold lobe half. f_equal.
    rewrite (total_split_y _ _ (y - half - lobe) _ _ (y - half)), (total_split_y _ _ (y - half) _ _ (y + half + 1)) by lia.
    rewrite (Tx _ (pix src) _ (y - half - lobe)); [ | intros i j _ Ii; destruct ((y - half <=? j) && _) eqn:Q; [ apply andb_prop in Q; rewrite !Z.leb_le in Q; lia | lia ] ].
    rewrite (Tx _ (fun i j => -2 * pix src i j) _ (y - half)); [ | intros i j _ Ii; destruct ((y - half <=? j) && _) eqn:Q; [ lia | apply andb_false_iff in Q; rewrite !Z.leb_gt in Q; lia ] ].
    rewrite (Tx _ (pix src) _ (y + half + 1)); [ | intros i j _ Ii; destruct ((y - half <=? j) && _) eqn:Q; [ apply andb_prop in Q; rewrite !Z.leb_le in Q; lia | lia ] ].
    rewrite T2. unfold block_sum. replace (y - lobe - half) with (y - half - lobe) by lia. lia.
Qed.

(* C30: the mixed derivative: the four squares next to the centre, with signs *)
Theorem integral_xy_derivative rnd junk src x y n : single rnd -> dim src -> 0 <= icols src <= i32_max -> 0 <= irows src <= i32_max ->
  0 <= n -> let lobe := n / 3 in
  lobe <= x -> x + lobe < icols src -> lobe <= y -> y + lobe < irows src ->
  exists I, integral_image rnd junk src = Ok I /\
    xy_derivative rnd I x y n = Ok (block_sum src (x - lobe) (y - lobe) x y - block_sum src (x + 1) (y - lobe) (x + 1 + lobe) y
      - block_sum src (x - lobe) (y + 1) x (y + 1 + lobe) + block_sum src (x + 1) (y + 1) (x + 1 + lobe) (y + 1 + lobe)).
Proof.
  intros R D C W N lobe X X1 Y Y1. destruct (integral_image_ok rnd src R D ltac:(lia) ltac:(lia) junk) as (I & E & Ic & Ir & Ip). exists I. split; [ exact E | ].
  apply (xy_ok rnd src R D I Ic Ir Ip ltac:(lia) ltac:(lia) x y n); fold lobe; lia.
Qed.

Lemma round_nearest q : nearest q (round_q q).
Proof.
  destruct q as [n d]. unfold nearest, round_q. cbn [Qnum Qden]. unfold Qminus, Qle, Qeq, Qlt. unfold Qplus, Qopp, inject_Z. cbn [Qnum Qden].
  pose proof (Pos2Z.is_pos d) as Pd. set (e := Z.pos d) in *. rewrite !Z.mul_1_r. change (Z.pos (1 * 2)) with 2.
  destruct (0 <=? n) eqn:Q; [ apply Z.leb_le in Q | apply Z.leb_gt in Q ].
  - pose proof (Z.div_mod (2 * n + e) (2 * e) ltac:(lia)) as M. pose proof (Z.mod_pos_bound (2 * n + e) (2 * e) ltac:(lia)) as B.
    set (z := (2 * n + e) / (2 * e)) in *. set (r := (2 * n + e) mod (2 * e)) in *. split; [ nia | ]. split; [ nia | ]. split; [ intros X; destruct (Z.eq_dec n 0) as [-> | Nn]; [ exfalso; assert (Zz : (z * 2 + - (1) * 1) * e = 0) by lia; apply Z.mul_eq_0 in Zz; lia | lia ] | intros X; exfalso; nia ].
  - pose proof (Z.div_mod (2 * - n + e) (2 * e) ltac:(lia)) as M. pose proof (Z.mod_pos_bound (2 * - n + e) (2 * e) ltac:(lia)) as B.
    set (z := (2 * - n + e) / (2 * e)) in *. set (r := (2 * - n + e) mod (2 * e)) in *. split; [ nia | ]. split; [ nia | ]. split; [ intros X; exfalso; nia | intros X; lia ].
Qed.
Lemma nearest_unique q a b : nearest q a -> nearest q b -> a = b.
Proof.
  destruct q as [n d]. unfold nearest. unfold Qminus, Qle, Qeq, Qlt. unfold Qplus, Qopp, inject_Z. cbn [Qnum Qden].
  pose proof (Pos2Z.is_pos d) as Pd. set (e := Z.pos d) in *. rewrite !Z.mul_1_r. change (Z.pos (1 * 2)) with 2.
  intros (A1 & A2 & A3 & A4) (B1 & B2 & B3 & B4).
  destruct (Z.lt_trichotomy a b) as [L | [E | L]]; [ | exact E | ]; exfalso.
  - assert (b = a + 1) by nia. subst b. assert (n * 2 = (a * 2 + 1) * e) by nia. lia.
  - assert (a = b + 1) by nia. subst a. assert (n * 2 = (b * 2 + 1) * e) by nia. lia.
Qed.

(* C30: the Haar wavelets: right half minus left half, bottom half minus top half
   of the box of even side nearest to the requested size *)
Theorem integral_haar rnd junk src x y size half left top : single rnd -> dim src -> 0 <= icols src -> 0 <= irows src ->
  nearest (size / 2) half -> nearest (inject_Z x - size / 2) left -> nearest (inject_Z y - size / 2) top ->
  0 <= half -> 0 <= left -> left + 2 * half <= icols src -> 0 <= top -> top + 2 * half <= irows src ->
  exists I, integral_image rnd junk src = Ok I /\
    h_haar rnd I x y size = Ok (block_sum src (left + half) top (left + 2 * half) (top + 2 * half) - block_sum src left top (left + half) (top + 2 * half)) /\
    v_haar rnd I x y size = Ok (block_sum src left (top + half) (left + 2 * half) (top + 2 * half) - block_sum src left top (left + 2 * half) (top + half)).
Proof.
  intros R D C W N1 N2 N3 H1 H2 H3 H4 H5. destruct (integral_image_ok rnd src R D C W junk) as (I & E & Ic & Ir & Ip). exists I. split; [ exact E | ].
  pose proof (nearest_unique _ _ _ N1 (round_nearest _)) as E1. pose proof (nearest_unique _ _ _ N2 (round_nearest _)) as E2. pose proof (nearest_unique _ _ _ N3 (round_nearest _)) as E3.
  subst half left top. split; [ apply (h_haar_ok rnd src R D I Ic Ir Ip); assumption | apply (v_haar_ok rnd src R D I Ic Ir Ip); assumption ].
Qed.

(* C30: a uniform image has no second derivative when the lobe is odd *)
Theorem integral_flat rnd junk src v x y n : single rnd -> dim src -> 0 <= icols src <= i32_max -> 0 <= irows src <= i32_max ->
  (forall i j, inside src i j -> pix src i j = v) -> 3 <= n -> Z.odd (n / 3) = true ->
  n / 3 + n / 3 / 2 <= x -> x + n / 3 / 2 + n / 3 < icols src -> n / 3 - 1 <= y -> y + n / 3 <= irows src ->
  exists I, integral_image rnd junk src = Ok I /\ x_second rnd I x y n = Ok 0.
Proof.
  intros R D C W F N O X0 X1 Y0 Y1. destruct (integral_image_ok rnd src R D ltac:(lia) ltac:(lia) junk) as (I & E & Ic & Ir & Ip). exists I. split; [ exact E | ].
  assert (Lb : 1 <= n / 3) by (apply Z.div_le_lower_bound; lia). assert (Hh : 0 <= n / 3 / 2) by (apply Z.div_pos; lia).
  rewrite (x_second_ok rnd src R D I Ic Ir Ip ltac:(lia) ltac:(lia) x y n) by lia. f_equal.
  assert (B : forall x0 y0 x1 y1, 0 <= x0 <= x1 -> x1 <= icols src -> 0 <= y0 <= y1 -> y1 <= irows src -> block_sum src x0 y0 x1 y1 = (x1 - x0) * (y1 - y0) * v).
  { intros x0 y0 x1 y1 A1 A2 A3 A4. unfold block_sum, total.
    rewrite (map_ext_in _ (fun _ => (x1 - x0) * v)).
    - assert (Z : forall l, zsum (map (fun _ : Z => (x1 - x0) * v) l) = Z.of_nat (length l) * ((x1 - x0) * v)).
      { induction l as [|a l IH]; [ reflexivity | ]. cbn [map length]. rewrite zsum_cons, IH. lia. }
      rewrite Z, zrange_length, Z2Nat.id by lia. ring.
    - intros j J. apply in_zrange in J. rewrite (map_ext_in _ (fun _ => v)).
      + assert (Z : forall l, zsum (map (fun _ : Z => v) l) = Z.of_nat (length l) * v).
        { induction l as [|a l IH]; [ reflexivity | ]. cbn [map length]. rewrite zsum_cons, IH. lia. }
        rewrite Z, zrange_length, Z2Nat.id by lia. reflexivity.
      + intros i Ii. apply in_zrange in Ii. apply F. unfold inside. lia. }
  rewrite !B by lia. assert (Od : n / 3 = 2 * (n / 3 / 2) + 1).
  { pose proof (Z.div_mod (n / 3) 2 ltac:(lia)) as M. rewrite Zmod_odd, O in M. exact M. }
  set (h := n / 3 / 2) in *. rewrite Od. ring.
Qed.

(* ---- a concrete image ---- *)
Definition ex_src : img Z := of_rows 0 [[1; 2; 3; 4]; [5; -6; 7; 8]; [9; 10; 11; 12]].
Example ex_dim : dim ex_src /\ single (fun z => z) /\ 3 <= 9 / 1.
Proof. split; [ vm_compute; discriminate | split; [ intros z _; reflexivity | vm_compute; discriminate ] ]. Qed.
Example ex_integral : exists I, integral_image round_single (fun x y => 77) ex_src = Ok I /\ to_rows I = [[0; 0; 0; 0; 0]; [0; 1; 3; 6; 10]; [0; 6; 2; 12; 24]; [0; 15; 21; 42; 66]] /\
  integral_block round_single I (1, 1) (3, 3) = Ok 22 /\ x_second round_single I 1 1 3 = Ok 24 /\ h_haar round_single I 2 2 (5 # 2) = Ok 14.
Proof. eexists. split; [ vm_compute; reflexivity | ]. vm_compute. auto. Qed.
Lemma round_single_single : single round_single.
Proof.
  intros z H. unfold round_single. destruct (Z.log2 (Z.abs z) - 23 <=? 0) eqn:Q; [ reflexivity | ]. apply Z.leb_gt in Q.
  assert (Zp : 0 < Z.abs z). { destruct (Z.eq_dec z 0) as [-> | N]; [ cbn in Q; lia | lia ]. }
  assert (L : 2 ^ 24 <= Z.abs z).
  { apply Z.le_trans with (2 ^ Z.log2 (Z.abs z)); [ apply Z.pow_le_mono_r; lia | apply Z.log2_spec; exact Zp ]. }
  assert (E : Z.abs z = 2 ^ 24) by lia. rewrite E.
  assert (Zc : z = 2 ^ 24 \/ z = - 2 ^ 24) by lia. destruct Zc as [-> | ->]; reflexivity.
Qed.

(* ---- what does not hold ---- *)

(* Single precision loses pixels once the running sum passes 2^24: a block holding
   one pixel of value 1 sums to 0. *)
Theorem integral_large_refuted : exists src I, integral_image round_single (fun _ _ => 0) src = Ok I /\
  integral_block round_single I (1, 0) (2, 1) = Ok 0 /\ block_sum src 1 0 2 1 = 1.
Proof. exists (of_rows 0 [[16777216; 1]]). eexists. split; [ vm_compute; reflexivity | ]. vm_compute. auto. Qed.

(* With an even lobe the middle is one column wider than the lobes: a uniform image
   has a second derivative. *)
Theorem integral_even_lobe_refuted : exists src I r, (forall i j, pix src i j = 1) /\ dim src /\
  integral_image (fun z => z) (fun _ _ => 0) src = Ok I /\ x_second (fun z => z) I 4 4 6 = Ok r /\ r <> 0.
Proof.
  exists (Img 9 9 (fun _ _ => 1)). eexists. exists (-6). split; [ reflexivity | ]. split; [ vm_compute; discriminate | ].
  split; [ vm_compute; reflexivity | ]. split; [ vm_compute; reflexivity | discriminate ].
Qed.

Print Assumptions integral_block_sums.
Print Assumptions integral_second_derivatives.
Print Assumptions integral_xy_derivative.
Print Assumptions integral_haar.
Print Assumptions integral_flat.
Print Assumptions integral_large_refuted.
Print Assumptions integral_even_lobe_refuted.
