(* Laws of the channel operations and of buffer layouts. *)
From Coq Require Import ZArith List Bool Lia.
From Verif Require Import Lib.Base IBuf.Model IBuf.Spec IBuf.Mem IBuf.Proofs IBuf.Loops IBuf.More.
Import ListNotations.
Local Open Scope Z_scope.

(* ---- rounding ---- *)
Lemma round_pos up n d : 0 <= n -> 0 < d ->
  let q := round_quot up n d in 0 <= q /\ - d <= 2 * (q * d - n) <= d.
Proof.
  intros Hn Hd. cbv zeta. unfold round_quot. rewrite !Z.abs_eq by lia.
  replace (Z.sgn n * Z.sgn d) with (Z.sgn n) by (rewrite (Z.sgn_pos d) by lia; lia).
  destruct (Z.eq_dec n 0) as [->|NZ].
  - change (Z.sgn 0) with 0. rewrite !Z.mul_0_l. lia.
  - rewrite (Z.sgn_pos n) by lia. rewrite !Z.mul_1_l.
    pose proof (Z.div_mod (2 * n + d) (2 * d) ltac:(lia)) as D.
    pose proof (Z.mod_pos_bound (2 * n + d) (2 * d) ltac:(lia)) as M.
    assert (Q0 : 0 <= (2 * n + d) / (2 * d)) by (apply Z.div_pos; lia).
    destruct (negb up && ((2 * n + d) mod (2 * d) =? 0)) eqn:E.
    + apply andb_true_iff in E as [_ E]. apply Z.eqb_eq in E. nia.
    + nia.
Qed.
Lemma round_nearest up n d : d <> 0 -> nearest (round_quot up n d) n d.
Proof.
  intros Hd. unfold nearest.
  assert (P : forall a b, 0 <= a -> 0 < b -> Z.abs (2 * (round_quot up a b * b - a)) <= b).
  { intros a b Ha Hb. destruct (round_pos up a b Ha Hb) as [_ H]. lia. }
  assert (S : round_quot up n d = Z.sgn n * Z.sgn d * round_quot up (Z.abs n) (Z.abs d)).
  { unfold round_quot. rewrite !Z.abs_involutive.
    rewrite (Z.sgn_pos (Z.abs d)) by lia.
    destruct (Z.eq_dec n 0) as [->|NZ]; [reflexivity|].
    rewrite (Z.sgn_pos (Z.abs n)) by lia. lia. }
  specialize (P (Z.abs n) (Z.abs d) ltac:(lia) ltac:(lia)). rewrite S.
  set (q := round_quot up (Z.abs n) (Z.abs d)) in *. clearbody q. clear S.
  destruct (Z.sgn_spec n) as [[H ->]|[[H ->]|[H ->]]], (Z.sgn_spec d) as [[K ->]|[[K ->]|[K ->]]]; try lia;
    nia.
Qed.

(* multiplying back *)
Lemma unround up x a M : 0 < a <= M -> 0 <= x <= a ->
  let y := round_quot up (x * M) a in
  0 <= y <= M /\ round_quot true (y * a) M = x.
Proof.
  intros Ha Hx. cbv zeta.
  destruct (round_pos up (x * M) a ltac:(nia) ltac:(lia)) as [Y0 YN].
  set (y := round_quot up (x * M) a) in *. clearbody y.
  assert (YM : y <= M) by nia. split; [lia|].
  unfold round_quot. rewrite !Z.abs_eq by nia. cbn [negb andb].
  destruct (Z.eq_dec (y * a) 0) as [Z0|NZ].
  - rewrite Z0. change (Z.sgn 0) with 0. rewrite !Z.mul_0_l. assert (y = 0) by nia. nia.
  - rewrite (Z.sgn_pos (y * a)) by nia. rewrite (Z.sgn_pos M) by lia. rewrite !Z.mul_1_l.
    symmetry. apply (Z.div_unique _ _ _ (2 * (y * a) + M - 2 * M * x)); [|lia].
    left. split; [lia|].
    destruct (Z.eq_dec a M) as [->|NM].
    + assert (y - x < 1) by nia. assert (y - x > - 1) by nia. assert (y = x) by lia. subst. lia.
    + lia.
Qed.

Section L.
Variable fo : fops.

(* ---- channel conversion ---- *)
Lemma signed_range v h : 0 < h -> - h <= (v + h) mod (2 * h) - h < h.
Proof. intros H. pose proof (Z.mod_pos_bound (v + h) (2 * h)). lia. Qed.
Lemma norm_range t v : integral t -> in_range t (norm t v).
Proof.
  intros [N [F1 F2]]. unfold in_range, norm, is_signed.
  destruct N; try congruence; cbn [int_type csize0].
  all: try (apply Z.mod_pos_bound; reflexivity).
  - exact (signed_range v (2 ^ 7) eq_refl).
  - exact (signed_range v (2 ^ 15) eq_refl).
  - exact (signed_range v (2 ^ 31) eq_refl).
  - exact (signed_range v (2 ^ 63) eq_refl).
Qed.
Lemma in_range_okv t v : integral t -> (in_range t v <-> okv t v).
Proof.
  intros I. split.
  - intros R. destruct I as [N [F1 F2]]. apply int_range_ok.
    + destruct N; cbn; congruence.
    + destruct N; try congruence; unfold in_range, int_min, int_max in *; cbn [int_type csize0] in *; simpl in *; lia.
  - intros V. rewrite <- V. apply norm_range; auto.
Qed.

Lemma integral_int t : integral t -> exists x, int_type t = Some x.
Proof. intros [N [F1 F2]]. destruct N; cbn; eauto; congruence. Qed.

Lemma conv_cast s d v : integral s -> integral d -> conv fo s d false v = Ok (norm d v).
Proof.
  intros Is Id. unfold conv. destruct (integral_int s Is) as [x ->], (integral_int d Id) as [y ->].
  reflexivity.
Qed.
Lemma conv_rescale s d v : integral s -> integral d ->
  ~ (s = CU8 /\ d = CU16) -> ~ (s = CU16 /\ d = CU8) -> conv fo s d true v = Ok (norm d v).
Proof.
  intros Is Id N1 N2. unfold conv. destruct (integral_int s Is) as [x ->], (integral_int d Id) as [y ->].
  destruct (cteqb_spec s CU16), (cteqb_spec d CU8), (cteqb_spec s CU8), (cteqb_spec d CU16);
    cbn [andb]; auto; exfalso; auto.
Qed.
Lemma conv_total s d rs v : integral s -> integral d -> exists w, conv fo s d rs v = Ok w.
Proof.
  intros Is Id. unfold conv. destruct (integral_int s Is) as [x ->], (integral_int d Id) as [y ->].
  destruct (rs && cteqb s CU16 && cteqb d CU8); eauto. destruct (rs && cteqb s CU8 && cteqb d CU16); eauto.
Qed.

(* ---- averages ---- *)
Lemma fold_sum (g : Z -> Z -> res Z) l : (forall s x, g s x = Ok (s + x)) -> forall s,
  fold_left (fun m x => s <- m ;; g s x) l (Ok s) = Ok (s + zsum l).
Proof.
  intros G. induction l; intros s; cbn [fold_left zsum fold_right].
  - f_equal. lia.
  - cbn [bind]. rewrite G, IHl. f_equal. unfold zsum. lia.
Qed.
Lemma average_narrow t l : integral t -> t <> CU64 -> t <> CI64 -> l <> [] ->
  average fo t l = Ok (norm t (Z.quot (zsum l) (Z.of_nat (length l)))).
Proof.
  intros I N1 N2 NE. unfold average. destruct (integral_int t I) as [x ->]. cbv zeta.
  assert (F : fold_left (fun m x => s <- m ;;
        match t with
        | CU64 => Ok (wrap_i64 (s + x))
        | CI64 => if i64_ok (s + x) then Ok (s + x) else UB Overflow
        | _ => Ok (s + x)
        end) l (Ok 0) = Ok (0 + zsum l)).
  { destruct t; try congruence; apply (fold_sum (fun s x => Ok (s + x))); auto. }
  rewrite F. cbn [bind]. unfold cdiv. destruct (Z.eqb_spec (Z.of_nat (length l)) 0).
  - destruct l; [congruence|cbn [length] in *; lia].
  - reflexivity.
Qed.

Lemma quot_between x y z lo hi : lo <= x <= hi -> lo <= y <= hi -> lo <= z <= hi ->
  lo <= Z.quot (x + y + z) 3 <= hi.
Proof.
  intros. pose proof (Z.quot_rem' (x + y + z) 3) as D.
  pose proof (Z.rem_bound_abs (x + y + z) 3 ltac:(lia)) as B.
  destruct (Z_le_gt_dec 0 (x + y + z)).
  - pose proof (Z.rem_bound_pos (x + y + z) 3 ltac:(lia) ltac:(lia)). lia.
  - pose proof (Z.rem_nonpos (x + y + z) 3 ltac:(lia) ltac:(lia)). lia.
Qed.

(* ---- layouts ---- *)
Lemma cropped_addr b x y w h k r c : addr (cropped b x y w h) k r c = addr b k (r + y) (c + x).
Proof. unfold addr, cropped. cbn [bdata bps brs bcs]. lia. Qed.
Lemma cropped_size b x y w h : pixel_size (cropped b x y w h) = pixel_size b.
Proof. reflexivity. Qed.
Lemma cropped_pixel m b x y w h k r c :
  pixel_at m (cropped b x y w h) k r c = pixel_at m b k (r + y) (c + x).
Proof. unfold pixel_at. rewrite cropped_addr. reflexivity. Qed.
Lemma cropped_in b x y w h k r c : 0 <= w < 2 ^ 32 -> 0 <= h < 2 ^ 32 ->
  in_buffer (cropped b x y w h) k r c <-> 0 <= k < fplanes (bfmt b) /\ 0 <= r < h /\ 0 <= c < w.
Proof.
  intros Hw Hh. unfold in_buffer, cropped. cbn [bfmt fplanes frows fcols].
  change (2 ^ 32) with 4294967296 in *. rewrite !wrap_u32_id by lia. tauto.
Qed.

Lemma pixel_same m m' b k r c : (forall i, 0 <= i < pixel_size b ->
    byte m (addr b k r c + i) = byte m' (addr b k r c + i)) -> 0 <= addr b k r c ->
  pixel_at m b k r c = pixel_at m' b k r c.
Proof.
  intros H A. unfold pixel_at. apply map_ext_in. intros i I. apply in_zrange in I.
  pose proof (csize0_nonneg (fchan (bfmt b))) as C. unfold pixel_size in H.
  apply value_ext; [nia|]. intros x Hx.
  replace x with (addr b k r c + (x - addr b k r c)) by lia. apply H. nia.
Qed.

Lemma buffer_of_inv f o b : buffer_of f o = Ok b ->
  0 < nchan0 (fpix f) /\ 0 < csize0 (fchan f) /\
  b = mkbuf o f (csize0 (fchan f) * nchan0 (fpix f)) (csize0 (fchan f) * nchan0 (fpix f) * fcols f)
        (csize0 (fchan f) * nchan0 (fpix f) * fcols f * frows f).
Proof.
  unfold buffer_of, csize, nchan. intros H.
  destruct (Z.ltb_spec 0 (csize0 (fchan f))); cbn [bind] in H; [|discriminate].
  destruct (Z.ltb_spec 0 (nchan0 (fpix f))); cbn [bind] in H; [|discriminate].
  injection H as <-. auto.
Qed.

Lemma index_apart S C R k r c k' r' c' : 0 < S ->
  0 <= r < R -> 0 <= c < C -> 0 <= r' < R -> 0 <= c' < C -> (k, r, c) <> (k', r', c') ->
  ((k * R + r) * C + c) <> ((k' * R + r') * C + c').
Proof.
  intros HS Hr Hc Hr' Hc' NE E. apply NE.
  assert (A1 : k * R + r = k' * R + r').
  { destruct (Z.eq_dec (k * R + r) (k' * R + r')) as [|N]; auto. exfalso.
    assert (k * R + r < k' * R + r' \/ k' * R + r' < k * R + r) as [L|L] by lia; nia. }
  assert (A2 : c = c') by (rewrite A1 in E; lia).
  assert (A3 : k = k').
  { destruct (Z.eq_dec k k') as [|N]; auto. exfalso.
    assert (k < k' \/ k' < k) as [L|L] by lia; nia. }
  subst. f_equal; f_equal; lia.
Qed.
End L.
