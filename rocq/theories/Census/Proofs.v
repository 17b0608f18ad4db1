From Coq Require Import ZArith List Lia Bool.
From Verif Require Import Lib.Base Lib.Lists Lib.Img Census.Model Census.Spec.
Import ListNotations.
Local Open Scope Z_scope.

(* ---- loops as folds ---- *)
Fixpoint mfold {A S} (f : A -> S -> res S) (l : list A) (s : S) : res S :=
  match l with [] => Ok s | a :: t => s' <- f a s ;; mfold f t s' end.
Lemma mfold_ext {A S} (f g : A -> S -> res S) l : (forall a s, In a l -> f a s = g a s) -> forall s, mfold f l s = mfold g l s.
Proof.
  induction l as [|a l IH]; intros H s; cbn [mfold]; [ reflexivity | ]. rewrite (H a s (or_introl eq_refl)). destruct (g a s); cbn [bind]; [ | reflexivity | reflexivity ].
  apply IH. intros b t I. apply H. right; exact I.
Qed.
Lemma mfold_map {A B S} (h : A -> B) (f : B -> S -> res S) l : forall s, mfold f (map h l) s = mfold (fun a => f (h a)) l s.
Proof. induction l as [|a l IH]; intros s; cbn [map mfold]; [ reflexivity | ]. destruct (f (h a) s); cbn [bind]; auto. Qed.
Lemma loop_mfold {S} (body : Z -> S -> res S) n : forall i s, loop n i body s = mfold body (zseq i n) s.
Proof. induction n as [|n IH]; intros i s; cbn [loop zseq mfold]; [ reflexivity | ]. destruct (body i s); cbn [bind]; auto. Qed.
Lemma for_dn_centre {S} (body : Z -> S -> res S) c h s : 0 <= h ->
  for_dn (c + h) (c - h) body s = mfold (fun d => body (c + d)) (map (fun k => h - k) (zseq 0 (Z.to_nat (2 * h + 1)))) s.
Proof.
  intros H. unfold for_dn, for_up. rewrite loop_mfold, mfold_map. replace (c + h - (c - h) + 1 - 0) with (2 * h + 1) by lia.
  apply mfold_ext. intros k t _. f_equal. lia.
Qed.
Definition at_off (col row : Z) (step : Z -> Z -> Z * Z -> res (Z * Z)) (d : Z * Z) : Z * Z -> res (Z * Z) := step (col + fst d) (row + snd d).

Lemma bind_ret {A} (m : res A) : bind m Ok = m. Proof. destruct m; reflexivity. Qed.
Lemma window_nested h col row step s : 0 <= h -> let L := map (fun k => h - k) (zseq 0 (Z.to_nat (2 * h + 1))) in
  window h col row step s = mfold (fun dy => mfold (fun dx s => if (dy =? 0) && (dx =? 0) then Ok s else at_off col row step (dx, dy) s) L) L s.
Proof.
  intros H L. unfold window. rewrite for_dn_centre by exact H. fold L. apply mfold_ext. intros dy t _. rewrite for_dn_centre by exact H. fold L.
  apply mfold_ext. intros dx u _. replace (row + dy =? row) with (dy =? 0) by (destruct (dy =? 0) eqn:E; symmetry; [ apply Z.eqb_eq in E; apply Z.eqb_eq; lia | apply Z.eqb_neq in E; apply Z.eqb_neq; lia ]).
  replace (col + dx =? col) with (dx =? 0) by (destruct (dx =? 0) eqn:E; symmetry; [ apply Z.eqb_eq in E; apply Z.eqb_eq; lia | apply Z.eqb_neq in E; apply Z.eqb_neq; lia ]).
  reflexivity.
Qed.
Lemma mfold_app {A S} (f : A -> S -> res S) l l' : forall s, mfold f (l ++ l') s = bind (mfold f l s) (mfold f l').
Proof. induction l as [|a l IH]; intros s; cbn [app mfold]; [ reflexivity | ]. destruct (f a s); cbn [bind]; auto. Qed.
Lemma nested_flat (g : Z * Z -> Z * Z -> res (Z * Z)) (keep : Z -> Z -> bool) C R : forall s,
  mfold (fun dy => mfold (fun dx s => if keep dy dx then Ok s else g (dx, dy) s) C) R s =
  mfold g (flat_map (fun dy => filter (fun d => negb (keep (snd d) (fst d))) (map (fun dx => (dx, dy)) C)) R) s.
Proof.
  induction R as [|y R IH]; intros s; cbn [mfold flat_map]; [ reflexivity | ]. rewrite mfold_app.
  assert (E : forall t, mfold (fun dx s => if keep y dx then Ok s else g (dx, y) s) C t =
    mfold g (filter (fun d => negb (keep (snd d) (fst d))) (map (fun dx => (dx, y)) C)) t).
  { clear. induction C as [|x C IH]; intros t; cbn [mfold map filter fst snd]; [ reflexivity | ]. destruct (keep y x); cbn [negb bind mfold]; [ apply IH | ].
    destruct (g (x, y) t); cbn [bind]; auto. }
  rewrite E. destruct (mfold g _ s); cbn [bind]; auto.
Qed.
Lemma window_pattern h col row step s pat : 0 <= h ->
  flat_map (fun dy => filter (fun d => negb ((snd d =? 0) && (fst d =? 0))) (map (fun dx => (dx, dy)) (map (fun k => h - k) (zseq 0 (Z.to_nat (2 * h + 1))))))
    (map (fun k => h - k) (zseq 0 (Z.to_nat (2 * h + 1)))) = pat ->
  window h col row step s = mfold (at_off col row step) pat s.
Proof. intros H <-. rewrite window_nested by exact H. cbv zeta. apply (nested_flat (at_off col row step) (fun dy dx => (dy =? 0) && (dx =? 0))). Qed.
Lemma table_pattern cs rs h col row step s pat :
  map (fun i => (nth (Z.to_nat i) cs 0 - h, nth (Z.to_nat i) rs 0 - h)) (zseq 0 32) = pat ->
  table cs rs h col row step s = mfold (at_off col row step) pat s.
Proof.
  intros <-. unfold table, for_up. rewrite loop_mfold. change (Z.to_nat (32 - 0)) with 32%nat. rewrite mfold_map. apply mfold_ext.
  intros i t _. unfold at_off. cbn [fst snd]. rewrite !Z.add_sub_assoc. reflexivity.
Qed.

(* ---- digits ---- *)
Fixpoint bval (l : list bool) : Z := match l with [] => 0 | b :: t => Z.b2z b + 2 * bval t end.
Lemma bval_range l : 0 <= bval l < 2 ^ Z.of_nat (length l).
Proof.
  induction l as [|b l IH]; cbn [bval length]; [ cbn; lia | ]. rewrite Nat2Z.inj_succ, Z.pow_succ_r by lia. destruct b; cbn [Z.b2z]; lia.
Qed.
Lemma bval_bits l : forall i, Z.testbit (bval l) (Z.of_nat i) = nth i l false.
Proof.
  induction l as [|b l IH]; intros i; cbn [bval]; [ rewrite Z.testbit_0_l; destruct i; reflexivity | ].
  destruct i as [|i].
  - cbn [nth]. change (Z.of_nat 0) with 0. rewrite Z.add_comm. destruct b; cbn [Z.b2z]; [ apply Z.testbit_odd_0 | rewrite Z.add_0_r; apply Z.testbit_even_0 ].
  - rewrite Nat2Z.inj_succ, Z.add_comm. cbn [nth]. rewrite <- IH. destruct b; cbn [Z.b2z]; [ apply Z.testbit_odd_succ; lia | rewrite Z.add_0_r; apply Z.testbit_even_succ; lia ].
Qed.
Lemma bval_has l : has_bits (bval l) l.
Proof. split; [ apply bval_range | apply bval_bits ]. Qed.
Lemma has_bval code l : has_bits code l -> code = bval l.
Proof.
  intros (R & B). apply Z.bits_inj'. intros n N. replace n with (Z.of_nat (Z.to_nat n)) by lia. rewrite B, bval_bits. reflexivity.
Qed.

Lemma wr_small w z : 0 <= z < 2 ^ w -> wr w z = z.
Proof. intros H. unfold wr. apply Z.mod_small, H. Qed.

Section Codes.
  Variable im : img Z.
  Variables col row : Z.

  Lemma bin_code w center : 0 < w -> forall l n o a, 0 <= n -> 0 <= o < 2 ^ n -> n + Z.of_nat (length l) <= w -> (l <> [] -> a = 2 ^ n) ->
    (forall d, In d l -> inside im (col + fst d) (row + snd d)) ->
    exists a', mfold (at_off col row (bin_step w im center)) l (o, a) =
      Ok (o + 2 ^ n * bval (map (fun d => center <? pix im (col + fst d) (row + snd d)) l), a').
  Proof.
    intros W. induction l as [|d l IH]; intros n o a N O L A I.
    - exists a. cbn [mfold map bval]. f_equal. f_equal. lia.
    - cbn [mfold map bval]. unfold at_off, bin_step at 1. rewrite get_in by (apply I; left; reflexivity). cbn [bind].
      rewrite (A ltac:(discriminate)). cbn [length] in L.
      assert (P1 : 2 ^ (n + 1) = 2 * 2 ^ n) by (rewrite Z.add_1_r, Z.pow_succ_r by lia; reflexivity).
      assert (Pw : 2 ^ (n + 1) <= 2 ^ w) by (apply Z.pow_le_mono_r; lia).
      set (t := center <? pix im (col + fst d) (row + snd d)).
      assert (Eo : (if t then wr w (o + 2 ^ n) else o) = o + 2 ^ n * Z.b2z t).
      { destruct t; cbn [Z.b2z]; [ rewrite wr_small by lia; lia | lia ]. }
      rewrite Eo. destruct (IH (n + 1) (o + 2 ^ n * Z.b2z t) (wr w (2 ^ n * 2))) as (a' & E).
      + lia.
      + destruct t; cbn [Z.b2z]; lia.
      + lia.
      + intros Nl. destruct l as [|d' l]; [ congruence | ]. cbn [length] in L. rewrite wr_small; [ lia | ].
        assert (2 ^ (n + 1) < 2 ^ w) by (apply Z.pow_lt_mono_r; lia). lia.
      + intros d' Id. apply I. right; exact Id.
      + exists a'. unfold at_off in E. rewrite E. f_equal. f_equal. rewrite P1. ring.
  Qed.

  Definition two (low high v : Z) : list bool := [low <=? v; (low <=? v) && (high <? v)].
  Lemma ter_code w low high : 0 < w -> forall l n o a, 0 <= n -> 0 <= o < 2 ^ n -> n + 2 * Z.of_nat (length l) <= w -> (l <> [] -> a = 2 ^ n) ->
    (forall d, In d l -> inside im (col + fst d) (row + snd d)) ->
    exists a', mfold (at_off col row (ter_step w im low high)) l (o, a) =
      Ok (o + 2 ^ n * bval (flat_map (fun d => two low high (pix im (col + fst d) (row + snd d))) l), a').
  Proof.
    intros W. induction l as [|d l IH]; intros n o a N O L A I.
    - exists a. cbn [mfold flat_map bval]. f_equal. f_equal. lia.
    - cbn [mfold flat_map two app bval]. unfold at_off, ter_step at 1. rewrite get_in by (apply I; left; reflexivity). cbn [bind].
      rewrite (A ltac:(discriminate)). cbn [length] in L.
      assert (P1 : 2 ^ (n + 2) = 4 * 2 ^ n) by (rewrite Z.pow_add_r by lia; lia).
      assert (Pw : 2 ^ (n + 2) <= 2 ^ w) by (apply Z.pow_le_mono_r; lia).
      set (v := pix im (col + fst d) (row + snd d)).
      match goal with |- context [mfold _ l (?x, _)] => assert (Eo : x = o + 2 ^ n * (Z.b2z (low <=? v) + 2 * Z.b2z ((low <=? v) && (high <? v)))) end.
      { destruct (low <=? v), (high <? v); cbn [andb Z.b2z]; rewrite ?wr_small; rewrite ?wr_small; lia. }
      rewrite Eo. destruct (IH (n + 2) (o + 2 ^ n * (Z.b2z (low <=? v) + 2 * Z.b2z ((low <=? v) && (high <? v)))) (wr w (2 ^ n * 4))) as (a' & E).
      + lia.
      + destruct (low <=? v), (high <? v); cbn [andb Z.b2z]; lia.
      + lia.
      + intros Nl. destruct l as [|d' l]; [ congruence | ]. cbn [length] in L. rewrite wr_small; [ lia | ].
        assert (2 ^ (n + 2) < 2 ^ w) by (apply Z.pow_lt_mono_r; lia). lia.
      + intros d' Id. apply I. right; exact Id.
      + exists a'. unfold at_off in E. rewrite E. f_equal. f_equal. rewrite P1. ring.
  Qed.
End Codes.

(* ---- counting bits ---- *)
Lemma land_even p : Z.land (2 * p) (2 * p - 1) = 2 * Z.land p (p - 1).
Proof.
  replace (2 * p - 1) with (2 * (p - 1) + 1) by lia. apply Z.bits_inj'. intros n N. rewrite Z.land_spec.
  destruct (Z.eq_dec n 0) as [-> | X]; [ rewrite !Z.testbit_even_0; reflexivity | ].
  replace n with (Z.succ (n - 1)) by lia. rewrite Z.testbit_odd_succ, !Z.testbit_even_succ, Z.land_spec by lia. reflexivity.
Qed.
Lemma land_odd p : Z.land (2 * p + 1) (2 * p) = 2 * p.
Proof.
  apply Z.bits_inj'. intros n N. rewrite Z.land_spec.
  destruct (Z.eq_dec n 0) as [-> | X]; [ rewrite Z.testbit_even_0, Z.testbit_odd_0; reflexivity | ].
  replace n with (Z.succ (n - 1)) by lia. rewrite Z.testbit_odd_succ, !Z.testbit_even_succ by lia. apply andb_diag.
Qed.
Lemma ones_even n p : ones (S n) (2 * p) = ones n p.
Proof. cbn [ones]. rewrite Z.odd_mul. cbn [Z.odd andb Z.b2z]. rewrite Z.div2_div, Z.mul_comm, Z.div_mul by lia. lia. Qed.
Lemma ones_odd n p : ones (S n) (2 * p + 1) = 1 + ones n p.
Proof.
  cbn [ones]. replace (Z.odd (2 * p + 1)) with true by (rewrite Z.add_comm, Z.odd_add_mul_2; reflexivity). cbn [Z.b2z].
  rewrite Z.div2_div. replace ((2 * p + 1) / 2) with p by (apply Z.div_unique with 1; lia). reflexivity.
Qed.
Lemma ones_0 n : ones n 0 = 0. Proof. induction n; cbn [ones]; auto. Qed.
Lemma ones_range n : forall v, 0 <= ones n v <= Z.of_nat n.
Proof. induction n as [|n IH]; intros v; cbn [ones]; [ lia | ]. specialize (IH (Z.div2 v)). destruct (Z.odd v); cbn [Z.b2z]; lia. Qed.
Lemma parity v : exists p, v = 2 * p \/ v = 2 * p + 1.
Proof. exists (v / 2). pose proof (Z.div_mod v 2 ltac:(lia)). pose proof (Z.mod_pos_bound v 2 ltac:(lia)). lia. Qed.
Lemma clear_lowest n : forall v, 0 < v < 2 ^ Z.of_nat n -> ones n (Z.land v (v - 1)) = ones n v - 1 /\ 0 <= Z.land v (v - 1) < 2 ^ Z.of_nat n.
Proof.
  induction n as [|n IH]; intros v V; [ cbn in V; lia | ]. rewrite Nat2Z.inj_succ, Z.pow_succ_r in * by lia. destruct (parity v) as (p & [-> | ->]).
  - rewrite land_even, !ones_even. destruct (IH p ltac:(lia)) as (H1 & H2). split; [ exact H1 | lia ].
  - replace (2 * p + 1 - 1) with (2 * p) by lia. rewrite land_odd, ones_odd, ones_even. lia.
Qed.
Lemma ones_zero n : forall v, 0 <= v < 2 ^ Z.of_nat n -> ones n v = 0 -> v = 0.
Proof.
  induction n as [|n IH]; intros v V H; [ cbn in V; lia | ]. rewrite Nat2Z.inj_succ, Z.pow_succ_r in V by lia. destruct (parity v) as (p & [-> | ->]).
  - rewrite ones_even in H. rewrite (IH p); lia.
  - rewrite ones_odd in H. pose proof (ones_range n p). lia.
Qed.
Lemma clear_bits_ok w n : 0 < w -> forall m dist v, 0 <= v < 2 ^ Z.of_nat n -> ones n v <= Z.of_nat m -> 0 <= dist -> dist + ones n v < 2 ^ w ->
  clear_bits m w dist v = Ok (dist + ones n v).
Proof.
  intros W. induction m as [|m IH]; intros dist v V M D R; cbn [clear_bits].
  - rewrite (ones_zero n v V) by (pose proof (ones_range n v); lia). cbn. rewrite ones_0. f_equal. lia.
  - destruct (v =? 0) eqn:Q; [ apply Z.eqb_eq in Q; subst; rewrite ones_0; f_equal; lia | apply Z.eqb_neq in Q ].
    destruct (clear_lowest n v ltac:(lia)) as (C1 & C2). assert (P : 0 < ones n v).
    { pose proof (ones_range n v). destruct (Z.eq_dec (ones n v) 0) as [X | X]; [ apply ones_zero in X; lia | lia ]. }
    rewrite IH; [ | exact C2 | lia | | ]; rewrite wr_small; try lia. f_equal. lia.
Qed.

Definition counted (f : Z -> bool) (w : Z) : Z := Z.of_nat (count f (zrange 0 w)).
Lemma ones_count n : forall v a, ones n (Z.shiftr v a) = Z.of_nat (count (fun i => Z.testbit v i) (zseq a n)) \/ a < 0.
Proof.
  induction n as [|n IH]; intros v a; [ left; reflexivity | ]. destruct (Z_lt_ge_dec a 0) as [A | A]; [ right; exact A | left ].
  cbn [ones zseq]. unfold count. cbn [filter]. destruct (IH v (a + 1)) as [E | E]; [ | lia ].
  rewrite Z.div2_spec, Z.shiftr_shiftr by lia. rewrite E. unfold count.
  replace (Z.odd (Z.shiftr v a)) with (Z.testbit v a); [ destruct (Z.testbit v a); cbn [Z.b2z length]; lia | ].
  rewrite <- Z.bit0_odd, Z.shiftr_spec by lia. reflexivity.
Qed.
Lemma lxor_range a b w : 0 <= w -> 0 <= a < 2 ^ w -> 0 <= b < 2 ^ w -> 0 <= Z.lxor a b < 2 ^ w.
Proof.
  intros W A B. assert (N : 0 <= Z.lxor a b) by (apply Z.lxor_nonneg; lia). split; [ exact N | ].
  destruct (Z.eq_dec (Z.lxor a b) 0) as [-> | X]; [ apply Z.pow_pos_nonneg; lia | ].
  assert (Lw : forall z, 0 <= z < 2 ^ w -> forall i, w <= i -> Z.testbit z i = false).
  { intros z Zr i I. destruct (Z.eq_dec z 0) as [-> | Zn]; [ apply Z.testbit_0_l | ]. apply Z.bits_above_log2; [ lia | ].
    apply Z.lt_le_trans with w; [ apply Z.log2_lt_pow2; lia | exact I ]. }
  apply Z.log2_lt_pow2; [ lia | ]. destruct (Z_lt_ge_dec (Z.log2 (Z.lxor a b)) w) as [Y | Y]; [ exact Y | ]. exfalso.
  pose proof (Z.bit_log2 (Z.lxor a b) ltac:(lia)) as Bt. rewrite Z.lxor_spec, (Lw a A), (Lw b B) in Bt by lia. discriminate.
Qed.
Lemma hamming_ones w a b : 8 <= w -> 0 <= a < 2 ^ w -> 0 <= b < 2 ^ w -> hamming w a b = Ok (ones (Z.to_nat w) (Z.lxor a b)).
Proof.
  intros W A B. unfold hamming. destruct (w <=? 16); [ | reflexivity ].
  pose proof (lxor_range a b w ltac:(lia) A B) as X. pose proof (ones_range (Z.to_nat w) (Z.lxor a b)) as R.
  rewrite (clear_bits_ok w (Z.to_nat w)); [ reflexivity | lia | rewrite Z2Nat.id by lia; exact X | lia | lia | ].
  assert (w < 2 ^ w) by (apply Z.pow_gt_lin_r; lia). lia.
Qed.
(* distance between two digit strings *)
Fixpoint differ (l l' : list bool) : Z := match l, l' with a :: t, b :: t' => Z.b2z (xorb a b) + differ t t' | _, _ => 0 end.
Lemma ones_lxor l : forall l' n, length l = length l' -> (length l <= n)%nat -> ones n (Z.lxor (bval l) (bval l')) = differ l l'.
Proof.
  induction l as [|a l IH]; intros [|b l'] n E N; try discriminate; cbn [bval differ]; [ apply ones_0 | ].
  destruct n as [|n]; [ cbn in N; lia | ]. cbn [length] in *.
  assert (X : Z.lxor (Z.b2z a + 2 * bval l) (Z.b2z b + 2 * bval l') = Z.b2z (xorb a b) + 2 * Z.lxor (bval l) (bval l')).
  { apply Z.bits_inj'. intros i I. rewrite Z.lxor_spec, !(Z.add_comm (Z.b2z _)).
    destruct (Z.eq_dec i 0) as [-> | Z].
    - rewrite !Z.testbit_0_r. reflexivity.
    - replace i with (Z.succ (i - 1)) by lia. rewrite !Z.testbit_succ_r, Z.lxor_spec by lia. reflexivity. }
  rewrite X. rewrite <- (IH l' n) by lia. destruct (xorb a b); cbn [Z.b2z].
  - rewrite Z.add_comm. apply ones_odd.
  - apply ones_even.
Qed.
