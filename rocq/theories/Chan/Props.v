(** C41: channel casts. *)
From Verif Require Import Lib.Base Stats.Model Stats.Proofs MFun.Model MFun.Proofs Chan.Model.
From Coq Require Import List Bool ZArith QArith Qround SpecFloat Lia Lqa.
Import ListNotations.
Local Open Scope Z_scope.

(** The comparisons of the clamp are those of the numbers unless a signed type
    meets an unsigned one of at least 32 bits that is not narrower. *)
Definition mixes (d s : ity) : bool := negb (Bool.eqb (signed d) (signed s)) && negb (signed (common d s)).

Definition clamp (d : ity) (x : Z) : Z := Z.max (tmin d) (Z.min (tmax d) x).

(** ** Clamping integers *)

Lemma convert_id t z : fits t z -> convert t z = z.
Proof.
  unfold fits, convert. intros F.
  assert (W : 2 ^ width t = 2 * 2 ^ (width t - 1)) by (destruct t; reflexivity).
  assert (P : 0 < 2 ^ (width t - 1)) by (destruct t; reflexivity).
  unfold tmin, tmax in F. destruct (signed t); cbn [andb].
  - destruct (Z.le_gt_cases 0 z) as [L|L].
    + rewrite Z.mod_small by lia. destruct (Z.leb_spec (2 ^ (width t - 1)) z); lia.
    + replace (z mod 2 ^ width t) with (z + 2 ^ width t).
      * destruct (Z.leb_spec (2 ^ (width t - 1)) (z + 2 ^ width t)); lia.
      * rewrite <- (Z_mod_plus_full z 1). rewrite Z.mod_small; lia.
  - apply Z.mod_small. lia.
Qed.

Lemma fits_common d s : mixes d s = false -> (forall x, fits d x -> fits (common d s) x) /\ (forall x, fits s x -> fits (common d s) x).
Proof.
  assert (G : forall a b x, tmin b <= tmin a -> tmax a <= tmax b -> fits a x -> fits b x) by (unfold fits; intros; lia).
  intros M. destruct d, s; try discriminate M; split; intros x; apply G; vm_compute; congruence.
Qed.

Lemma common_comm d s : common d s = common s d.
Proof. destruct d, s; reflexivity. Qed.

Lemma tmin_tmax t : tmin t <= 0 <= tmax t.
Proof. destruct t; vm_compute; split; congruence. Qed.

(** Without such a mix the result is the value of the type nearest to the
    argument. *)
Theorem clamp_int_saturates d s x : fits s x -> mixes d s = false -> clamp_int d s x = clamp d x.
Proof.
  intros F M. unfold clamp_int, clamp. pose proof (tmin_tmax d) as T. destruct (ity_eqb d s) eqn:E.
  - assert (d = s) by (destruct d, s; try discriminate E; reflexivity). subst s. unfold fits in F. lia.
  - destruct (fits_common d s M) as (C1 & C2). unfold less. rewrite (common_comm s d).
    rewrite !convert_id by (first [apply C2; exact F | apply C1; unfold fits; lia]).
    destruct (Z.ltb_spec (tmax d) x) as [L1|L1]; [lia|]. destruct (Z.ltb_spec x (tmin d)) as [L2|L2]; [lia|].
    rewrite convert_id by (unfold fits; lia). lia.
Qed.
Print Assumptions clamp_int_saturates.

Example clamp_int_ex : mixes U8 I32 = false /\ clamp_int U8 I32 (-5) = 0 /\ clamp_int U8 I32 300 = 255 /\ clamp_int I8 U16 40000 = 127 /\ mixes I64 U32 = false.
Proof. repeat split. Qed.

Lemma mixes_cases d s : mixes d s = true ->
  (signed d = false /\ signed s = true /\ common d s = d /\ width s <= width d) \/
  (signed d = true /\ signed s = false /\ common d s = s /\ width d <= width s).
Proof.
  destruct d, s; intros M; try discriminate M;
    first [left; split; [reflexivity|split; [reflexivity|split; [reflexivity|vm_compute; congruence]]]
          |right; split; [reflexivity|split; [reflexivity|split; [reflexivity|vm_compute; congruence]]]].
Qed.

(** From a signed type to an unsigned one of at least 32 bits that is not
    narrower nothing is clamped: negative numbers become huge. *)
Theorem clamp_negative_wraps d s x :
  fits s x -> mixes d s = true -> signed d = false ->
  clamp_int d s x = if x <? 0 then x + 2 ^ width d else x.
Proof.
  intros F M D. destruct (mixes_cases d s M) as [(_ & S & C & W)|(H & _)]; [|congruence].
  assert (E : ity_eqb d s = false) by (unfold ity_eqb; rewrite D, S; apply andb_false_r).
  unfold clamp_int. rewrite E. unfold less. rewrite (common_comm s d), C.
  assert (P : 0 < 2 ^ (width s - 1) <= 2 ^ width d) by (split; [destruct s; reflexivity|apply Z.pow_le_mono_r; lia]).
  assert (P2 : 2 ^ width d = 2 * 2 ^ (width d - 1)) by (destruct d; reflexivity).
  assert (P3 : 2 ^ (width s - 1) <= 2 ^ (width d - 1)) by (apply Z.pow_le_mono_r; lia).
  unfold fits, tmin, tmax in F. rewrite S in F.
  assert (Cx : convert d x = if x <? 0 then x + 2 ^ width d else x).
  { unfold convert. rewrite D. cbn [andb]. destruct (Z.ltb_spec x 0).
    - rewrite <- (Z_mod_plus_full x 1). rewrite Z.mod_small; lia.
    - apply Z.mod_small. lia. }
  rewrite !(convert_id d (tmax d)), !(convert_id d (tmin d)) by (unfold fits; pose proof (tmin_tmax d); lia).
  rewrite Cx. unfold tmax, tmin. rewrite D.
  destruct (Z.ltb_spec x 0).
  - destruct (Z.ltb_spec (2 ^ width d - 1) (x + 2 ^ width d)); [lia|]. destruct (Z.ltb_spec (x + 2 ^ width d) 0); [lia|reflexivity].
  - destruct (Z.ltb_spec (2 ^ width d - 1) x); [lia|]. destruct (Z.ltb_spec x 0); [lia|reflexivity].
Qed.
Print Assumptions clamp_negative_wraps.

(** From an unsigned type of at least 32 bits to a signed one that is not wider,
    every number that fits becomes the least of the type. *)
Theorem clamp_unsigned_to_min d s x :
  fits s x -> mixes d s = true -> signed d = true ->
  clamp_int d s x = if tmax d <? x then tmax d else tmin d.
Proof.
  intros F M D. destruct (mixes_cases d s M) as [(H & _)|(_ & S & C & W)]; [congruence|].
  assert (E : ity_eqb d s = false) by (unfold ity_eqb; rewrite D, S; apply andb_false_r).
  unfold clamp_int. rewrite E. unfold less. rewrite (common_comm s d), C.
  rewrite (convert_id s x) by exact F.
  assert (P : 0 < 2 ^ (width d - 1)) by (destruct d; reflexivity).
  assert (P2 : 2 ^ width s = 2 * 2 ^ (width s - 1)) by (destruct s; reflexivity).
  assert (P3 : 2 ^ (width d - 1) <= 2 ^ (width s - 1)) by (apply Z.pow_le_mono_r; [lia|lia]).
  rewrite (convert_id s (tmax d)) by (unfold fits, tmin, tmax; rewrite D, S; lia).
  destruct (Z.ltb_spec (tmax d) x) as [L|L]; [reflexivity|].
  assert (Cm : convert s (tmin d) = 2 ^ width s - 2 ^ (width d - 1)).
  { unfold convert, tmin. rewrite S, D. cbn [andb]. rewrite <- (Z_mod_plus_full _ 1). rewrite Z.mod_small; lia. }
  rewrite Cm. unfold tmax in L. rewrite D in L. destruct (Z.ltb_spec x (2 ^ width s - 2 ^ (width d - 1))); [reflexivity|lia].
Qed.
Print Assumptions clamp_unsigned_to_min.

(** "channel_cast_clamp saturates": -1 becomes 4294967295, 5 becomes -128. *)
Theorem clamp_mixed_refuted :
  (exists x, fits I32 x /\ clamp_int U32 I32 x <> clamp U32 x) /\ (exists x, fits U32 x /\ fits I8 x /\ clamp_int I8 U32 x <> x).
Proof.
  split; [exists (-1)|exists 5]; repeat split; vm_compute; congruence.
Qed.
Print Assumptions clamp_mixed_refuted.

(** ** Clamping doubles *)

Lemma qtrunc_between q lo hi : lo <= 0 <= hi -> (inject_Z lo <= q)%Q -> (q <= inject_Z hi)%Q -> lo <= qtrunc q <= hi.
Proof.
  intros Z0 L H. unfold qtrunc. destruct (Qle_bool 0 q) eqn:E.
  - apply Qle_bool_iff in E. split.
    + rewrite <- (Qfloor_Z lo). apply Qfloor_resp_le. exact L.
    + rewrite <- (Qfloor_Z hi). apply Qfloor_resp_le. exact H.
  - split.
    + rewrite <- (Qceiling_Z lo). apply Qceiling_resp_le. exact L.
    + rewrite <- (Qceiling_Z hi). apply Qceiling_resp_le. exact H.
Qed.

Lemma dbounds d : width d <= 32 -> (dmin d == inject_Z (tmin d))%Q /\ (dmax d == inject_Z (tmax d))%Q.
Proof. intros W. destruct d; try (exfalso; vm_compute in W; congruence); vm_compute; split; reflexivity. Qed.

(** To types of up to 32 bits: the nearest end, or the value without its
    fraction. *)
Theorem clamp_double_saturates d q :
  width d <= 32 ->
  clamp_double d (Fin q) = Ok (if qlt (inject_Z (tmax d)) q then tmax d else if qlt q (inject_Z (tmin d)) then tmin d else qtrunc q) /\
  (forall z, clamp_double d (Fin q) = Ok z -> fits d z).
Proof.
  intros W. destruct (dbounds d W) as (B1 & B2). pose proof (tmin_tmax d) as T.
  assert (E : clamp_double d (Fin q) = Ok (if qlt (inject_Z (tmax d)) q then tmax d else if qlt q (inject_Z (tmin d)) then tmin d else qtrunc q)).
  { unfold clamp_double.
    assert (E1 : qlt (dmax d) q = qlt (inject_Z (tmax d)) q).
    { apply eq_true_iff_eq. rewrite !qlt_spec, B2. reflexivity. }
    assert (E2 : qlt q (dmin d) = qlt q (inject_Z (tmin d))).
    { apply eq_true_iff_eq. rewrite !qlt_spec, B1. reflexivity. }
    rewrite E1, E2. destruct (qlt (inject_Z (tmax d)) q) eqn:L1; [reflexivity|]. destruct (qlt q (inject_Z (tmin d))) eqn:L2; [reflexivity|].
    apply qlt_false in L1, L2. unfold to_ity. rewrite (proj2 (fitsb_spec d (qtrunc q)) (qtrunc_between q _ _ T L2 L1)). reflexivity. }
  split; [exact E|]. rewrite E. intros z [= <-]. unfold fits. destruct (qlt (inject_Z (tmax d)) q) eqn:L1; [lia|].
  destruct (qlt q (inject_Z (tmin d))) eqn:L2; [lia|]. apply qlt_false in L1, L2. apply qtrunc_between; assumption.
Qed.
Print Assumptions clamp_double_saturates.

(** Rounding and clamping: the same as rounding to nearest and then clamping, for
    types of up to 16 bits and int32. *)
Theorem round_clamp_double_saturates d q :
  width d <= 32 -> d <> U32 -> round_clamp_double d (Fin q) = Ok (clamp d (c_round q)).
Proof.
  intros W N. destruct (dbounds d W) as (B1 & B2). pose proof (tmin_tmax d) as T. unfold round_clamp_double, clamp.
  pose proof (c_round_bounds q) as R.
  assert (Mono : forall z, ((inject_Z z <= q)%Q -> z <= c_round q) /\ ((q <= inject_Z z)%Q -> c_round q <= z)).
  { intros z. split; intros L.
    - assert (X : (inject_Z (z - 1) < inject_Z (c_round q))%Q).
      { unfold Z.sub. rewrite inject_Z_plus. change (inject_Z (- (1))) with (-1)%Q. lra. }
      rewrite <- Zlt_Qlt in X. lia.
    - assert (X : (inject_Z (c_round q) < inject_Z (z + 1))%Q).
      { rewrite inject_Z_plus. change (inject_Z 1) with 1%Q. lra. }
      rewrite <- Zlt_Qlt in X. lia. }
  destruct (qlt (dmax d) q) eqn:L1.
  - apply qlt_spec in L1. rewrite B2 in L1. pose proof (proj1 (Mono (tmax d)) ltac:(lra)). f_equal. lia.
  - destruct (qlt q (dmin d)) eqn:L2.
    + apply qlt_spec in L2. rewrite B1 in L2. pose proof (proj2 (Mono (tmin d)) ltac:(lra)). f_equal. lia.
    + apply qlt_false in L1, L2. rewrite B2 in L1. rewrite B1 in L2.
      pose proof (proj1 (Mono _) L2) as M1. pose proof (proj2 (Mono _) L1) as M2.
      assert (Rr : vw_round q = Ok (c_round q)).
      { unfold vw_round. assert (F : fitsb I32 (c_round q) = true).
        { apply fitsb_spec. unfold fits. assert (tmin I32 <= tmin d /\ tmax d <= tmax I32); [|lia].
          destruct d; try congruence; try (exfalso; vm_compute in W; congruence); vm_compute; split; congruence. }
        rewrite <- round_trunc in F |- *. unfold to_ity. destruct (qlt q 0); rewrite F; reflexivity. }
      rewrite Rr. cbn [bind]. rewrite convert_id by (split; assumption). f_equal. lia.
Qed.
Print Assumptions round_clamp_double_saturates.

Example round_clamp_double_ex : round_clamp_double U8 (Fin (509 # 2)) = Ok 255 /\ round_clamp_double I8 (Fin (- (257 # 2))) = Ok (-128) /\
  clamp_double U8 (Fin (509 # 2)) = Ok 254.
Proof. repeat split. Qed.

(** "Rounding and clamping to uint32 is defined": not above 2^31, where _round
    overflows. *)
Theorem round_clamp_u32_refuted :
  ~ (forall q, (0 <= q)%Q -> (q <= inject_Z (tmax U32))%Q -> exists z, round_clamp_double U32 (Fin q) = Ok z).
Proof.
  intros H. destruct (H (inject_Z 3000000000)) as (z & E); [vm_compute; congruence|vm_compute; congruence|]. vm_compute in E. discriminate.
Qed.
Print Assumptions round_clamp_u32_refuted.

(** ** Rescaling *)

(** All numbers below a bound, tested one by one. *)
Fixpoint check_upto (n : nat) (x : Z) (f : Z -> bool) : bool :=
  match n with O => true | S n => f x && check_upto n (x + 1) f end.

Lemma check_upto_spec f : forall n x, check_upto n x f = true -> forall y, x <= y < x + Z.of_nat n -> f y = true.
Proof.
  induction n as [|n IH]; intros x H y Hy; [lia|]. cbn [check_upto] in H. apply andb_true_iff in H as (H1 & H2).
  destruct (Z.eq_dec y x) as [->|]; [exact H1|]. apply (IH (x + 1) H2). lia.
Qed.

Definition is_ok (r : res Z) (z : Z) : bool := match r with Ok y => y =? z | _ => false end.
Lemma is_ok_spec r z : is_ok r z = true -> r = Ok z.
Proof. destruct r; cbn; try discriminate. intros E. apply Z.eqb_eq in E. congruence. Qed.

Definition small (t : ity) : bool := width t <=? 16.

(** With the ratio computed once; [step] 1 tests every number. *)
Definition exact_on (d s : ity) (n : nat) (step : Z) : bool :=
  if ity_eqb d s then true
  else let k := ddiv (dz (tmax d)) (dz (tmax s)) in
       let md := tmax d in let ms := tmax s in
       check_upto n 0 (fun x => sf_trunc (dmul (dz (step * x)) k) =? step * x * md / ms).

Lemma exact_narrow : forallb (fun d => forallb (fun s => exact_on d s (Z.to_nat (tmax s + 1)) 1) [I8; U8]) [I8; U8; I16; U16] = true.
Proof. vm_compute. reflexivity. Qed.

Lemma exact_wide : exact_on U8 U16 256 257 = true.
Proof. vm_compute. reflexivity. Qed.

Lemma rescale_of_check d s n step x : exact_on d s n step = true -> 0 < step -> 0 <= x < Z.of_nat n -> step * x <= tmax s ->
  rescale_int d s (step * x) = Ok (step * x * tmax d / tmax s).
Proof.
  intros E St X Xs.
  assert (Ps : 0 < tmax s) by (destruct s; vm_compute; congruence). assert (Pd : 0 < tmax d) by (destruct d; vm_compute; congruence).
  unfold exact_on in E. unfold rescale_int. destruct (ity_eqb d s) eqn:Q.
  - assert (d = s) by (destruct d, s; try discriminate Q; reflexivity). subst s. f_equal. symmetry. apply Z.div_mul. lia.
  - cbv zeta in E. pose proof (check_upto_spec _ _ _ E x ltac:(lia)) as C. cbv beta in C. apply Z.eqb_eq in C. rewrite C.
    unfold to_ity. assert (F : fitsb d (step * x * tmax d / tmax s) = true); [|rewrite F; reflexivity].
    apply fitsb_spec. unfold fits. pose proof (tmin_tmax d). split.
    + pose proof (Z.div_pos (step * x * tmax d) (tmax s) ltac:(nia) ltac:(lia)). lia.
    + replace (tmax d) with (tmax d * tmax s / tmax s) at 2 by (apply Z.div_mul; lia). apply Z.div_le_mono; [lia|nia].
Qed.

(** From 8 bits to 8 or 16, numbers that are not negative are scaled by the ratio
    of the ranges, rounded down, without any floating point error. *)
Theorem rescale_exact d s x :
  small d = true -> s = I8 \/ s = U8 -> 0 <= x <= tmax s -> rescale_int d s x = Ok (x * tmax d / tmax s).
Proof.
  intros D S X. pose proof exact_narrow as E. rewrite forallb_forall in E.
  assert (Jd : In d [I8; U8; I16; U16]) by (destruct d; try discriminate D; cbn; tauto).
  assert (Js : In s [I8; U8]) by (destruct S as [->| ->]; cbn; tauto).
  specialize (E d Jd). rewrite forallb_forall in E. specialize (E s Js).
  pose proof (rescale_of_check d s _ 1 x E ltac:(lia)) as R. rewrite Z.mul_1_l in R. apply R; lia.
Qed.
Print Assumptions rescale_exact.

(** So the order is kept, and the ends go to the ends. *)
Theorem rescale_order d s x y :
  small d = true -> s = I8 \/ s = U8 -> 0 <= x <= y -> y <= tmax s ->
  exists x' y', rescale_int d s x = Ok x' /\ rescale_int d s y = Ok y' /\ 0 <= x' <= y' /\ y' <= tmax d /\
    rescale_int d s 0 = Ok 0 /\ rescale_int d s (tmax s) = Ok (tmax d).
Proof.
  intros D S XY Y. assert (Ps : 0 < tmax s) by (destruct s; vm_compute; congruence). assert (Pd : 0 < tmax d) by (destruct d; vm_compute; congruence).
  exists (x * tmax d / tmax s), (y * tmax d / tmax s).
  split; [apply rescale_exact; try assumption; lia|]. split; [apply rescale_exact; try assumption; lia|].
  split; [split; [apply Z.div_pos; nia|apply Z.div_le_mono; nia]|]. split.
  - replace (tmax d) with (tmax d * tmax s / tmax s) at 2 by (apply Z.div_mul; lia). apply Z.div_le_mono; [lia|nia].
  - split; rewrite rescale_exact by (first [assumption | lia]).
    + reflexivity.
    + f_equal. rewrite Z.mul_comm. apply Z.div_mul. lia.
Qed.
Print Assumptions rescale_order.

(** An 8 bit channel survives a 16 bit image. *)
Theorem rescale_round_trip x : 0 <= x <= 255 -> exists y, rescale_int U16 U8 x = Ok y /\ rescale_int U8 U16 y = Ok x.
Proof.
  intros X. exists (257 * x). split.
  - rewrite rescale_exact by (first [reflexivity | right; reflexivity | exact X]). f_equal. change (tmax U16) with (257 * 255). change (tmax U8) with 255.
    replace (x * (257 * 255)) with (257 * x * 255) by lia. apply Z.div_mul. lia.
  - assert (T : tmax U16 = 65535) by reflexivity. rewrite (rescale_of_check U8 U16 256 257 x exact_wide) by lia. f_equal. rewrite T. change (tmax U8) with 255.
    replace (257 * x * 255) with (x * 65535) by lia. apply Z.div_mul. lia.
Qed.
Print Assumptions rescale_round_trip.

Example rescale_ex : rescale_int U16 U8 100 = Ok 25700 /\ rescale_int U8 U16 25700 = Ok 100 /\ rescale_int U8 I8 127 = Ok 255.
Proof. vm_compute. repeat split. Qed.

Lemma float_u8 : check_upto 256 0 (fun x => is_ok (rescale_from_float U8 (rescale_to_float U8 x)) x) = true.
Proof. vm_compute. reflexivity. Qed.

(** An 8 bit channel survives a float image. *)
Theorem rescale_float_round_trip x : 0 <= x <= 255 -> rescale_from_float U8 (rescale_to_float U8 x) = Ok x.
Proof. intros X. apply is_ok_spec. apply (check_upto_spec _ _ _ float_u8 x). lia. Qed.
Print Assumptions rescale_float_round_trip.

(** "So does it a double image, and a 16 bit channel a float image": 33 comes
    back as 32, 1 as 0. *)
Theorem rescale_lossy_refuted :
  rescale_from_double U8 (rescale_to_double U8 33) = Ok 32 /\
  rescale_from_float U16 (rescale_to_float U16 1) = Ok 0 /\
  rescale_from_double U16 (rescale_to_double U16 33) = Ok 32.
Proof. vm_compute. repeat split. Qed.
Print Assumptions rescale_lossy_refuted.

(** "White stays white": not in 64 bits, where the conversion is undefined. *)
Theorem rescale_64_refuted : rescale_int I64 U8 255 = UB Overflow /\ rescale_int U64 U16 65535 = UB Overflow.
Proof. vm_compute. split; reflexivity. Qed.
Print Assumptions rescale_64_refuted.

(** Reals outside [0, 1] are black and white; infinities too. *)
Theorem rescale_from_real_saturates d x :
  (SFltb x (S754_zero false) = true -> rescale_from_double d x = Ok 0 /\ rescale_from_float d x = Ok 0) /\
  (small d = true \/ d = I32 \/ d = U32 -> SFltb (dz 1) x = true -> rescale_from_double d x = Ok (tmax d)) /\
  (small d = true -> SFltb (binary_normalize 24 128 1 0 false) x = true -> rescale_from_float d x = Ok (tmax d)).
Proof.
  assert (N : forall y, SFltb y (S754_zero false) = true -> y <> S754_nan) by (intros y Y ->; discriminate).
  assert (N1 : forall y z, SFltb y z = true -> z <> S754_nan) by (intros [] z Y ->; discriminate).
  split; [|split].
  - intros L. unfold rescale_from_double, rescale_from_float.
    assert (A : forall p e, clamp01 p e x = S754_zero false \/ SFltb (binary_normalize p e 1 0 false) x = true).
    { intros p e. unfold clamp01. destruct (SFltb (binary_normalize p e 1 0 false) x); [right; reflexivity|]. rewrite L. left. reflexivity. }
    assert (B1 : SFltb (binary_normalize 53 1024 1 0 false) x = false).
    { destruct x as [[]|[]| |[] ? ?]; try discriminate; reflexivity. }
    assert (B2 : SFltb (binary_normalize 24 128 1 0 false) x = false).
    { destruct x as [[]|[]| |[] ? ?]; try discriminate; reflexivity. }
    destruct (A 53 1024) as [E1|]; [|congruence]. destruct (A 24 128) as [E2|]; [|congruence]. rewrite E1, E2.
    destruct x; try (exfalso; exact (N _ L eq_refl)); destruct d; split; vm_compute; reflexivity.
  - intros D L. unfold rescale_from_double, clamp01. change (binary_normalize 53 1024 1 0 false) with (dz 1). rewrite L.
    destruct x; try (exfalso; exact (N1 _ _ L eq_refl)); destruct d; try (destruct D as [D|[D|D]]; discriminate D); vm_compute; reflexivity.
  - intros D L. unfold rescale_from_float, clamp01. rewrite L.
    destruct x; try (exfalso; exact (N1 _ _ L eq_refl)); destruct d; try discriminate D; vm_compute; reflexivity.
Qed.
Print Assumptions rescale_from_real_saturates.
Example rescale_from_real_ex : SFltb (S754_finite true 3 (-1)) (S754_zero false) = true /\
  SFltb (dz 1) (S754_finite false 3 (-1)) = true /\ SFltb (dz 1) (S754_infinity false) = true /\
  rescale_from_double U8 (S754_finite false 3 (-1)) = Ok 255.
Proof. repeat split; vm_compute; reflexivity. Qed.
