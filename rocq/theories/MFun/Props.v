(** C40: modulo, rounding, powers of two, bit counts, round and clamp. *)
From Verif Require Import Lib.Base Stats.Model Stats.Proofs MFun.Model MFun.Proofs.
From Coq Require Import List Bool ZArith QArith Qround Qabs SpecFloat Lia Lqa.
Import ListNotations.
Open Scope Z_scope.

(** mod is congruent to its argument and lies in [0,b), or (b,0] for b < 0; the
    only other outcomes are a zero divisor and the least number of a type of 32
    or 64 bits by -1, which is undefined. *)
Theorem mod_range t a b :
  fits t a -> fits t b -> b <> 0 -> ~ (signed t = true /\ 32 <= width t /\ a = tmin t /\ b = -1) ->
  exists m, vw_mod t a b = Ok m /\ fits t m /\ (exists k, a = b * k + m) /\ (if b <? 0 then b < m <= 0 else 0 <= m < b).
Proof.
  intros Fa Fb Nb Nm. unfold vw_mod. destruct (Z.eqb_spec b 0) as [E|_]; [contradiction|].
  destruct (signed t && (32 <=? width t) && (a =? tmin t) && (b =? -1)) eqn:E.
  - exfalso. apply Nm. apply andb_true_iff in E as (E & E4). apply andb_true_iff in E as (E & E3). apply andb_true_iff in E as (E1 & E2).
    apply Z.leb_le in E2. apply Z.eqb_eq in E3, E4. auto.
  - clear E. pose proof (Z.quot_rem a b Nb) as Q. pose proof (Z.rem_bound_abs a b Nb) as Ba.
    assert (T0 : tmin t <= 0 <= tmax t) by (destruct t; vm_compute; split; congruence).
    unfold fits in *. eexists. split; [reflexivity|].
    destruct (Z.ltb_spec b 0) as [Lb|Lb].
    + destruct (Z.ltb_spec 0 (Z.rem a b)) as [Lm|Lm].
      * split; [lia|]. split; [exists (Z.quot a b - 1); lia|lia].
      * split; [lia|]. split; [exists (Z.quot a b); lia|lia].
    + destruct (Z.ltb_spec (Z.rem a b) 0) as [Lm|Lm].
      * split; [lia|]. split; [exists (Z.quot a b - 1); lia|lia].
      * split; [lia|]. split; [exists (Z.quot a b); lia|lia].
Qed.
Print Assumptions mod_range.

Example mod_ex : vw_mod I32 (-7) 3 = Ok 2 /\ vw_mod I32 7 (-3) = Ok (-2) /\ vw_mod I16 (-32768) (-1) = Ok 0 /\ vw_mod U8 200 7 = Ok 4.
Proof. repeat split. Qed.

Theorem mod_total_refuted :
  ~ (forall a b, fits I32 a -> fits I32 b -> b <> 0 -> exists m, vw_mod I32 a b = Ok m).
Proof.
  intros H. destruct (H (tmin I32) (-1)) as (m & E); try (vm_compute; split; congruence); [lia|]. discriminate E.
Qed.
Print Assumptions mod_total_refuted.

(** _round is the nearest integer, ties away from zero, if that is an int, and
    undefined otherwise (exact arithmetic). *)
Theorem round_nearest v :
  (forall z, vw_round v = Ok z -> (Qabs (v - inject_Z z) <= 1 # 2)%Q /\
     (forall y, y <> z -> (Qabs (v - inject_Z y) == 1 # 2)%Q -> (Qabs (v - inject_Z z) == 1 # 2)%Q -> Z.abs y < Z.abs z)) /\
  (vw_round v = UB Overflow <-> ~ fits I32 (c_round v)) /\
  (fits I32 (c_round v) -> vw_round v = Ok (c_round v)).
Proof.
  assert (E : vw_round v = to_ity I32 (c_round v)).
  { unfold vw_round. rewrite <- round_trunc. destruct (qlt v 0); reflexivity. }
  rewrite E. unfold to_ity. destruct (fitsb I32 (c_round v)) eqn:F.
  - apply fitsb_spec in F. split; [|split; [split; [discriminate|contradiction]|reflexivity]].
    intros z [= <-]. pose proof (c_round_spec v) as B. split; [exact B|]. intros y Ny Ey Ez.
    assert (P : (0 <= v -> v + (1 # 2) < inject_Z (c_round v) + 1)%Q).
    { intros P. unfold c_round. assert (X : Qle_bool 0 v = true) by (apply Qle_bool_iff; exact P). rewrite X.
      pose proof (Qlt_floor (v + (1 # 2))) as L. rewrite inject_Z_plus in L. change (inject_Z 1) with 1%Q in L. lra. }
    assert (N : (v < 0 -> inject_Z (c_round v) - 1 < v - (1 # 2))%Q).
    { intros P'. unfold c_round. destruct (Qle_bool 0 v) eqn:X; [apply Qle_bool_iff in X; lra|].
      pose proof (Qlt_floor (- v + (1 # 2))) as L. rewrite inject_Z_plus in L. change (inject_Z 1) with 1%Q in L. rewrite inject_Z_opp. lra. }
    assert (Cases : forall x, (Qabs x == 1 # 2 -> x == 1 # 2 \/ x == - (1 # 2))%Q).
    { intros x H. revert H. apply Qabs_case; intros _ H; [left|right]; lra. }
    destruct (Cases _ Ey) as [C1|C1], (Cases _ Ez) as [C2|C2].
    + exfalso. apply Ny. assert (X : (inject_Z y == inject_Z (c_round v))%Q) by lra. unfold Qeq in X. cbn in X. lia.
    + destruct (Qlt_le_dec v 0) as [D|D]; [specialize (N D); lra|].
      assert (X : (inject_Z (c_round v) == inject_Z (y + 1))%Q) by (rewrite inject_Z_plus; change (inject_Z 1) with 1%Q; lra).
      unfold Qeq in X. cbn in X.
      assert (Y : (inject_Z (-1) < inject_Z y)%Q) by (change (inject_Z (-1)) with (-1)%Q; lra). rewrite <- Zlt_Qlt in Y. lia.
    + destruct (Qlt_le_dec v 0) as [D|D]; [|specialize (P D); lra].
      assert (X : (inject_Z y == inject_Z (c_round v + 1))%Q) by (rewrite inject_Z_plus; change (inject_Z 1) with 1%Q; lra).
      unfold Qeq in X. cbn in X.
      assert (Y : (inject_Z (c_round v) < inject_Z 0)%Q) by (change (inject_Z 0) with 0%Q; lra). rewrite <- Zlt_Qlt in Y. lia.
    + exfalso. apply Ny. assert (X : (inject_Z y == inject_Z (c_round v))%Q) by lra. unfold Qeq in X. cbn in X. lia.
  - assert (NF : ~ fits I32 (c_round v)) by (intros X; apply fitsb_spec in X; congruence).
    split; [discriminate|]. split; [split; auto|contradiction].
Qed.
Print Assumptions round_nearest.

Example round_ex : vw_round (5 # 2) = Ok 3 /\ vw_round (- (5 # 2)) = Ok (-3) /\ vw_round (inject_Z (2 ^ 31)) = UB Overflow.
Proof. repeat split. Qed.

(** "_round is to the nearest": not the double just below one half. *)
Theorem round_double_refuted :
  let v := S754_finite false 9007199254740991 (-54) in (* 0.5 - 2^-54 *)
  (sf_Q v < 1 # 2)%Q /\ c_round (sf_Q v) = 0 /\ round_f 53 1024 v = 1.
Proof. vm_compute. repeat split. Qed.
Print Assumptions round_double_refuted.

(** "_round keeps integers": not the odd floats above 2^23. *)
Theorem round_float_refuted :
  let v := S754_finite false 8388609 0 in (* 2^23 + 1 *)
  sf_trunc v = 8388609 /\ round_f 24 128 v = 8388610.
Proof. vm_compute. split; reflexivity. Qed.
Print Assumptions round_float_refuted.

(** _floor is the floor if that is an int, and undefined otherwise. *)
Theorem floor_exact v : vw_floor v = if fitsb I32 (Qfloor v) then Ok (Qfloor v) else UB Overflow.
Proof.
  unfold vw_floor. destruct (qlt v 0) eqn:E.
  - apply qlt_spec in E. assert (Tr : qtrunc v = Qceiling v).
    { unfold qtrunc. destruct (Qle_bool 0 v) eqn:X; [apply Qle_bool_iff in X; lra|reflexivity]. }
    rewrite Tr. pose proof (Qle_ceiling v) as C1. pose proof (Qceiling_lt v) as C2. pose proof (Qfloor_le v) as F1. pose proof (Qlt_floor v) as F2.
    rewrite inject_Z_plus in F2. unfold Z.sub in C2. rewrite inject_Z_plus in C2. change (inject_Z 1) with 1%Q in F2. change (inject_Z (- (1))) with (-1)%Q in C2.
    assert (Neg : Qceiling v <= 0).
    { assert (X : (inject_Z (Qceiling v) < inject_Z 1)%Q) by (change (inject_Z 1) with 1%Q; lra). rewrite <- Zlt_Qlt in X. lia. }
    destruct (Qeq_bool (inject_Z (Qceiling v)) v) eqn:Eq.
    + apply Qeq_bool_iff in Eq. assert (Fl : Qfloor v = Qceiling v) by (rewrite <- Eq at 1; apply Qfloor_Z).
      rewrite Fl. unfold to_ity. destruct (fitsb I32 (Qceiling v)); cbn [bind]; [rewrite (proj2 (Qeq_bool_iff _ _) Eq)|]; reflexivity.
    + assert (Ne : ~ (inject_Z (Qceiling v) == v)%Q) by (intros X; apply Qeq_bool_iff in X; congruence).
      assert (Fl : Qfloor v = Qceiling v - 1).
      { assert (X1 : (inject_Z (Qfloor v) < inject_Z (Qceiling v))%Q).
        { destruct (Qlt_le_dec (inject_Z (Qfloor v)) (inject_Z (Qceiling v))) as [L|L]; [exact L|]. exfalso. apply Ne. apply Qle_antisym; lra. }
        assert (X2 : (inject_Z (Qceiling v) < inject_Z (Qfloor v + 2))%Q) by (rewrite inject_Z_plus; change (inject_Z 2) with 2%Q; lra).
        rewrite <- Zlt_Qlt in X1, X2. lia. }
      rewrite Fl. unfold to_ity. destruct (fitsb I32 (Qceiling v)) eqn:F; cbn [bind]; [rewrite Eq; reflexivity|].
      destruct (fitsb I32 (Qceiling v - 1)) eqn:F'; [|reflexivity]. exfalso. apply fitsb_spec in F'.
      assert (X : fits I32 (Qceiling v)); [|apply fitsb_spec in X; congruence]. unfold fits in *. change (tmin I32) with (-2147483648) in *. change (tmax I32) with 2147483647 in *. lia.
  - apply qlt_false in E. unfold qtrunc. rewrite (proj2 (Qle_bool_iff 0 v) E). reflexivity.
Qed.
Print Assumptions floor_exact.

Example floor_ex : vw_floor (- (7 # 2)) = Ok (-4) /\ vw_floor (-3) = Ok (-3) /\ vw_floor (7 # 2) = Ok 3.
Proof. repeat split. Qed.

(** nextpow2 is the least power of two not below its argument, up to 2^30;
    beyond, the doubling overflows. *)
Theorem nextpow2_least x :
  ((x <= inject_Z (2 ^ 30))%Q -> exists n, 0 <= n <= 30 /\ nextpow2 x = Ok (2 ^ n) /\ (x <= inject_Z (2 ^ n))%Q /\
     forall m, 0 <= m -> (x <= inject_Z (2 ^ m))%Q -> n <= m) /\
  ((inject_Z (2 ^ 30) < x)%Q -> nextpow2 x = UB Overflow).
Proof.
  assert (G : forall fuel n, Z.of_nat fuel + n = 32 -> 0 <= n <= 30 -> (forall m, 0 <= m < n -> (inject_Z (2 ^ m) < x)%Q) ->
    ((x <= inject_Z (2 ^ 30))%Q -> exists k, 0 <= k <= 30 /\ nextpow2_loop fuel (2 ^ n) x = Ok (2 ^ k) /\ (x <= inject_Z (2 ^ k))%Q /\
       forall m, 0 <= m < k -> (inject_Z (2 ^ m) < x)%Q) /\
    ((inject_Z (2 ^ 30) < x)%Q -> nextpow2_loop fuel (2 ^ n) x = UB Overflow)).
  { induction fuel as [|fuel IH]; intros n Hs Hn Hm; [lia|]. cbn [nextpow2_loop].
    destruct (qlt (inject_Z (2 ^ n)) x) eqn:E.
    - apply qlt_spec in E. replace (2 ^ n * 2) with (2 ^ (n + 1)) by (rewrite Z.pow_add_r by lia; reflexivity).
      destruct (Z.eq_dec n 30) as [->|N30].
      + split; [intros L; lra|]. intros _. reflexivity.
      + assert (F : fitsb I32 (2 ^ (n + 1)) = true).
        { apply fitsb_spec. unfold fits. change (tmin I32) with (-2147483648). change (tmax I32) with 2147483647.
          pose proof (Z.pow_le_mono_r 2 (n + 1) 30 ltac:(lia) ltac:(lia)) as P. change (2 ^ 30) with 1073741824 in P.
          pose proof (Z.pow_pos_nonneg 2 (n + 1) ltac:(lia) ltac:(lia)). lia. }
        rewrite F. apply IH; [lia|lia|]. intros m Hmm. destruct (Z.eq_dec m n) as [->|]; [exact E|apply Hm; lia].
    - apply qlt_false in E. split.
      + intros _. exists n. split; [lia|]. split; [reflexivity|]. split; [exact E|exact Hm].
      + intros L. exfalso. assert (X : (inject_Z (2 ^ n) <= inject_Z (2 ^ 30))%Q) by (rewrite <- Zle_Qle; apply Z.pow_le_mono_r; lia). lra. }
  destruct (G 32%nat 0 eq_refl ltac:(lia) ltac:(intros; lia)) as (A & B). split; [|exact B].
  intros L. destruct (A L) as (k & H1 & H2 & H3 & H4). exists k. split; [exact H1|]. split; [exact H2|]. split; [exact H3|].
  intros m Hm Lm. destruct (Z.le_gt_cases k m) as [C|C]; [exact C|]. specialize (H4 m ltac:(lia)). lra.
Qed.
Print Assumptions nextpow2_least.

Example nextpow2_ex : nextpow2 (17 # 2) = Ok 16 /\ nextpow2 16 = Ok 16 /\ nextpow2 (-3) = Ok 1 /\ nextpow2 (inject_Z (2 ^ 30 + 1)) = UB Overflow.
Proof. repeat split. Qed.

(** The Hamming distance is the number of positions at which the bits differ,
    in all four widths. *)
Definition differing (n : nat) (a b : Z) : Z :=
  zsum (map (fun i => if xorb (Z.testbit a (Z.of_nat i)) (Z.testbit b (Z.of_nat i)) then 1 else 0) (seq 0 n)).

Lemma lxor_range n a b : 0 <= a < 2 ^ Z.of_nat n -> 0 <= b < 2 ^ Z.of_nat n -> 0 <= Z.lxor a b < 2 ^ Z.of_nat n.
Proof.
  intros Ha Hb. split; [apply Z.lxor_nonneg; lia|].
  destruct (Z.eq_dec (Z.lxor a b) 0) as [->|N]; [lia|].
  assert (P : 0 < Z.lxor a b) by (pose proof (proj2 (Z.lxor_nonneg a b) ltac:(lia)); lia).
  assert (L : forall x, 0 <= x < 2 ^ Z.of_nat n -> Z.log2 x < Z.of_nat n \/ x = 0).
  { intros x Hx. destruct (Z.eq_dec x 0); [right; assumption|left]. apply Z.log2_lt_pow2; lia. }
  apply Z.log2_lt_pow2; [exact P|]. pose proof (Z.log2_lxor a b ltac:(lia) ltac:(lia)) as X.
  destruct (L a Ha) as [La| ->], (L b Hb) as [Lb| ->].
  - lia.
  - rewrite Z.lxor_0_r. exact La.
  - rewrite Z.lxor_0_l. exact Lb.
  - rewrite Z.lxor_0_l in N. congruence.
Qed.

Theorem hamming_counts n fuel a b :
  0 <= a < 2 ^ Z.of_nat n -> 0 <= b < 2 ^ Z.of_nat n ->
  ((n < fuel)%nat -> hamming_small fuel a b = Ok (differing n a b)) /\ hamming_large a b = differing n a b /\
  0 <= differing n a b <= Z.of_nat n /\ (differing n a b = 0 <-> a = b).
Proof.
  intros Ha Hb. pose proof (lxor_range n a b Ha Hb) as R.
  assert (E : popcount (Z.lxor a b) = differing n a b).
  { rewrite (popcount_bits n) by exact R. unfold differing. f_equal. apply map_ext. intros i. rewrite Z.lxor_spec. reflexivity. }
  pose proof (popcount_width n _ R) as W. pose proof (popcount_nonneg (Z.lxor a b)) as P.
  split; [|split; [exact E|split; [lia|]]].
  - intros F. unfold hamming_small. rewrite clear_bits_spec by lia. rewrite E. reflexivity.
  - rewrite <- E. split.
    + intros Z0. apply Z.lxor_eq. destruct (Z.eq_dec (Z.lxor a b) 0) as [X|X]; [exact X|]. exfalso.
      destruct (popcount_clear (Z.lxor a b) ltac:(lia)) as (A1 & _). pose proof (popcount_nonneg (Z.land (Z.lxor a b) (Z.lxor a b - 1))). lia.
    + intros ->. rewrite Z.lxor_nilpotent. reflexivity.
Qed.
Print Assumptions hamming_counts.

(** It is symmetric and obeys the triangle inequality. *)
Theorem hamming_metric n a b c : differing n a b = differing n b a /\ differing n a c <= differing n a b + differing n b c.
Proof.
  split.
  - unfold differing. f_equal. apply map_ext. intros i. rewrite xorb_comm. reflexivity.
  - unfold differing. induction (seq 0 n) as [|i l IH]; [reflexivity|]. cbn [map zsum fold_right]. unfold zsum in IH.
    destruct (Z.testbit a (Z.of_nat i)), (Z.testbit b (Z.of_nat i)), (Z.testbit c (Z.of_nat i)); cbn [xorb]; lia.
Qed.
Print Assumptions hamming_metric.

Example hamming_ex : hamming_small 9 181 108 = Ok 5 /\ hamming_large 181 108 = 5 /\ differing 8 181 108 = 5.
Proof. repeat split. Qed.

(** round_and_clamp saturates to the range of the type for types of up to 32
    bits; infinities go to the ends. *)
Theorem round_clamp_saturates t v :
  width t <= 32 ->
  round_and_clamp t v = match v with
    | Fin q => Ok (Z.max (tmin t) (Z.min (tmax t) (c_round q)))
    | PInf => Ok (tmax t)
    | NInf => Ok (tmin t)
    | NaN => UB Overflow
    end.
Proof.
  intros W.
  assert (Dm : (dmin t == inject_Z (tmin t))%Q /\ (dmax t == inject_Z (tmax t))%Q /\ qtrunc (dmin t) = tmin t /\ qtrunc (dmax t) = tmax t).
  { destruct t; try (exfalso; vm_compute in W; congruence); vm_compute; repeat split. }
  destruct Dm as (D1 & D2 & D3 & D4).
  assert (R : tmin t <= tmax t) by (destruct t; vm_compute; congruence).
  assert (Fm : to_ity t (tmin t) = Ok (tmin t)) by (destruct t; reflexivity).
  assert (FM : to_ity t (tmax t) = Ok (tmax t)) by (destruct t; reflexivity).
  assert (ML : qlt (dmax t) (dmin t) = false) by (destruct t; reflexivity).
  unfold round_and_clamp. destruct v as [q| | |].
  - destruct (qlt (inject_Z (c_round q)) (dmin t)) eqn:E1.
    + rewrite ML, D3, Fm. apply qlt_spec in E1. rewrite D1 in E1. rewrite <- Zlt_Qlt in E1. f_equal. lia.
    + apply qlt_false in E1. rewrite D1 in E1. rewrite <- Zle_Qle in E1. destruct (qlt (dmax t) (inject_Z (c_round q))) eqn:E2.
      * rewrite D4, FM. apply qlt_spec in E2. rewrite D2 in E2. rewrite <- Zlt_Qlt in E2. f_equal. lia.
      * apply qlt_false in E2. rewrite D2 in E2. rewrite <- Zle_Qle in E2. rewrite qtrunc_Z. unfold to_ity.
        assert (F : fitsb t (c_round q) = true) by (apply fitsb_spec; split; assumption). rewrite F. f_equal. lia.
  - rewrite D4, FM. reflexivity.
  - rewrite ML, D3, Fm. reflexivity.
  - reflexivity.
Qed.
Print Assumptions round_clamp_saturates.

Example round_clamp_ex : round_and_clamp U8 (Fin (511 # 2)) = Ok 255 /\ round_and_clamp I16 (Fin (- (99999 # 2))) = Ok (-32768) /\
  round_and_clamp I8 (Fin (5 # 2)) = Ok 3.
Proof. repeat split. Qed.

(** "round_and_clamp saturates": not into 64 bits, where the bound itself rounds
    up to a number that does not fit. *)
Theorem round_clamp_64_refuted :
  (forall q, (inject_Z (2 ^ 63) <= q)%Q -> round_and_clamp I64 (Fin q) = UB Overflow) /\
  (forall q, (inject_Z (2 ^ 64) <= q)%Q -> round_and_clamp U64 (Fin q) = UB Overflow).
Proof.
  assert (G : forall t n, (dmax t == inject_Z n)%Q -> qtrunc (dmax t) = n -> (dmin t < dmax t)%Q -> to_ity t n = UB Overflow -> 0 <= n ->
    forall q, (inject_Z n <= q)%Q -> round_and_clamp t (Fin q) = UB Overflow).
  { intros t n D Tr Lt Ov N0 q L. unfold round_and_clamp.
    assert (R : n <= c_round q).
    { assert (P : (0 <= q)%Q) by (change 0%Q with (inject_Z 0); eapply Qle_trans; [|exact L]; rewrite <- Zle_Qle; exact N0).
      unfold c_round. rewrite (proj2 (Qle_bool_iff 0 q) P). rewrite <- (Qfloor_Z n). apply Qfloor_resp_le. lra. }
    assert (Rq : (inject_Z n <= inject_Z (c_round q))%Q) by (rewrite <- Zle_Qle; exact R).
    destruct (qlt (inject_Z (c_round q)) (dmin t)) eqn:E1; [apply qlt_spec in E1; lra|].
    destruct (qlt (dmax t) (inject_Z (c_round q))) eqn:E2; [rewrite Tr; exact Ov|].
    apply qlt_false in E2. rewrite D in E2. rewrite <- Zle_Qle in E2. replace (c_round q) with n by lia. rewrite qtrunc_Z. exact Ov. }
  split; intros q; [apply (G I64)|apply (G U64)]; try reflexivity; vm_compute; congruence.
Qed.
Print Assumptions round_clamp_64_refuted.
