From Coq Require Import List ZArith QArith Qround Qabs Bool Lia Lqa Sorting.Sorted.
From Verif Require Import Lib.Base Lib.Lists Interp.Model Interp.Spec Interp.Poly Interp.LProofs.
Import ListNotations.
Open Scope Q_scope.

(** ** Equal intervals *)

Lemma floor_spec x : inject_Z (Qfloor x) <= x /\ x < inject_Z (Qfloor x) + 1.
Proof. split; [apply Qfloor_le|]. pose proof (Qlt_floor x) as H. rewrite inject_Z_plus in H. exact H. Qed.
Lemma ceil_spec x : x <= inject_Z (Qceiling x) /\ inject_Z (Qceiling x) < x + 1.
Proof. split; [apply Qle_ceiling|]. pose proof (Qceiling_lt x) as H. unfold Z.sub in H. rewrite inject_Z_plus in H. change (inject_Z (- (1))) with (-1 # 1) in H. lra. Qed.
Lemma inj_le a b : (a <= b)%Z -> inject_Z a <= inject_Z b.
Proof. intros. now rewrite <- Zle_Qle. Qed.
Lemma inj_lt a b : (a < b)%Z -> inject_Z a < inject_Z b.
Proof. intros. now rewrite <- Zlt_Qlt. Qed.
Lemma inj_le' a b : inject_Z a <= inject_Z b -> (a <= b)%Z.
Proof. now rewrite <- Zle_Qle. Qed.
Lemma inj_lt' a b : inject_Z a < inject_Z b -> (a < b)%Z.
Proof. now rewrite <- Zlt_Qlt. Qed.
Lemma inj1 a : inject_Z (a + 1) == inject_Z a + 1.
Proof. rewrite inject_Z_plus. reflexivity. Qed.
Lemma injm a b : inject_Z (a - b) == inject_Z a - inject_Z b.
Proof. unfold Z.sub. rewrite inject_Z_plus, inject_Z_opp. reflexivity. Qed.

Lemma shift f j d : forall n a, qprod f (others j (zseq (a + d) n)) == qprod (fun i => f (i + d)%Z) (others (j - d) (zseq a n)).
Proof.
  induction n as [|n IH]; intros a; cbn [zseq]; [reflexivity|]. unfold others. cbn [filter]. fold (others j (zseq (a + d + 1) n)). fold (others (j - d) (zseq (a + 1) n)).
  replace (a + d + 1)%Z with (a + 1 + d)%Z by lia. destruct (Z.eqb_spec (a + d) j), (Z.eqb_spec a (j - d)); try lia; cbn [negb]; [apply IH|].
  cbn [qprod fold_right]. unfold qprod in IH. now rewrite IH.
Qed.

Lemma times_temp_nth dt : forall m x k, (k < m)%nat -> nth k (times_temp x dt m) 0 == x + inject_Z (Z.of_nat k) * dt.
Proof.
  induction m as [|m IH]; intros x k K; [lia|]. cbn [times_temp]. destruct k as [|k]; cbn [nth]; [change (inject_Z (Z.of_nat 0)) with 0; ring|].
  rewrite IH by lia. replace (Z.of_nat (S k)) with (Z.of_nat k + 1)%Z by lia. rewrite inj1. ring.
Qed.
Lemma times_temp_length dt : forall m x, length (times_temp x dt m) = m.
Proof. induction m as [|m IH]; intros x; cbn [times_temp length]; auto. Qed.

Definition at_time (t0 dt : Q) (i : Z) : Q := t0 + dt * inject_Z i.

Lemma low_spec t0 dt t : 0 < dt -> let low := Qfloor ((t - t0) / dt) in at_time t0 dt low <= t /\ t < at_time t0 dt (low + 1).
Proof.
  intros D low. unfold low. destruct (floor_spec ((t - t0) / dt)) as (A & B). set (u := (t - t0) / dt) in *. assert (E : t == t0 + dt * u) by (unfold u; field; lra). clearbody u.
  unfold at_time. rewrite inj1. set (q := inject_Z (Qfloor u)) in *. clearbody q. split; nra.
Qed.

Lemma lagrange_const_ok samples t0 dt last radius t : lagrange_checks samples t0 dt last radius = true ->
  0 < dt /\ (1 < radius)%Z /\
  (t < t0 \/ at_time t0 dt (size samples - 1) <= t \/ (size samples < 2 * radius)%Z -> lagrange_const samples t0 dt last radius t = Throw ArgumentErr) /\
  (t0 <= t -> t < at_time t0 dt (size samples - 1) -> (2 * radius <= size samples)%Z ->
   exists start, (0 <= start /\ start + 2 * radius <= size samples)%Z /\
    (start <= Qfloor ((t - t0) / dt) /\ Qfloor ((t - t0) / dt) + 1 < start + 2 * radius)%Z /\
    (start = 0 \/ start = Qfloor ((t - t0) / dt) - (radius - 1) \/ start + 2 * radius = size samples)%Z /\
    (start = 0 -> Qfloor ((t - t0) / dt) <= radius - 1 \/ start + 2 * radius = size samples)%Z /\
    (start + 2 * radius = size samples -> size samples <= Qfloor ((t - t0) / dt) + 1 + radius \/ start = 0)%Z /\
    exists v, lagrange_const samples t0 dt last radius t = Ok v /\
      veq v (formula (at_time t0 dt) (fun i => nth (Z.to_nat i) samples vzero) start (Z.to_nat (2 * radius)) t)).
Proof.
  intros C. assert (CH := C). unfold lagrange_checks in CH. rewrite !andb_true_iff in CH. destruct CH as ((((C1 & C2) & C3) & C4) & C5).
  apply Z.ltb_lt in C1, C2. assert (D : 0 < dt) by (destruct (ltqP 0 dt); auto; discriminate). clear C3 C4 C5. split; auto. split; auto.
  unfold lagrange_const. rewrite C. cbn [negb]. destruct (low_spec t0 dt t D) as (LO & HI). set (low := Qfloor ((t - t0) / dt)) in *. clearbody low.
  set (n := size samples) in *. assert (NN : (0 <= n)%Z) by (unfold n, size; lia).
  assert (RNG : (0 <= low /\ low + 1 < n)%Z <-> t0 <= t /\ t < at_time t0 dt (n - 1)).
  { unfold at_time in *. rewrite inj1 in HI. rewrite injm. change (inject_Z 1) with 1. split.
    - intros (A & B). apply inj_le in A. assert (B' := inj_le (low + 2) n ltac:(lia)). rewrite inject_Z_plus in B'. change (inject_Z 0) with 0 in A. change (inject_Z 2) with 2 in B'.
      set (q := inject_Z low) in *. set (m := inject_Z n) in *. clearbody q m. split; nra.
    - intros (A & B). split.
      + assert (X : (-1 < low)%Z); [|lia]. apply inj_lt'. change (inject_Z (-1)) with (-1 # 1). set (q := inject_Z low) in *. clearbody q. nra.
      + apply inj_lt'. rewrite inj1. set (q := inject_Z low) in *. set (m := inject_Z n) in *. clearbody q m. nra. }
  assert (WIN : exists start, const_window n low radius = (start, start + 2 * radius - 1)%Z /\ (start + 2 * radius <= n)%Z /\
     ((0 <= low /\ low + 1 < n)%Z -> (start < 0 -> n < 2 * radius) /\ (2 * radius <= n -> 0 <= start /\ start <= low /\ low + 1 < start + 2 * radius /\
        (start = 0 \/ start = low - (radius - 1) \/ start + 2 * radius = n) /\ (start = 0 -> low <= radius - 1 \/ start + 2 * radius = n) /\ 
        (start + 2 * radius = n -> n <= low + 1 + radius \/ start = 0)))%Z).
  { unfold const_window. destruct (Z.ltb_spec (low - (radius - 1)) 0).
    - destruct (Z.leb_spec n (low + 1 + (radius - 1) + - (low - (radius - 1)))).
      + eexists. split; [f_equal; lia|]. lia.
      + eexists. split; [f_equal; lia|]. lia.
    - destruct (Z.leb_spec n (low + 1 + (radius - 1))).
      + eexists. split; [f_equal; lia|]. lia.
      + eexists. split; [f_equal; lia|]. lia. }
  destruct WIN as (start & EW & FL & W). rewrite EW. clear EW. split.
  - intros OUT. destruct (Z.leb_spec 0 low); cbn [andb negb]; auto. destruct (Z.ltb_spec (low + 1) n); cbn [negb]; auto.
    destruct (W ltac:(lia)) as (W1 & W2). destruct OUT as [OUT|[OUT|OUT]]; [destruct RNG as (R1 & _); specialize (R1 ltac:(lia)); lra|destruct RNG as (R1 & _); specialize (R1 ltac:(lia)); lra|].
    destruct (Z.leb_spec 0 start); [lia|]. reflexivity.
  - intros A B N2. destruct RNG as (_ & R). destruct (R ltac:(auto)) as (R1 & R2). destruct (Z.leb_spec 0 low); [|lia]. destruct (Z.ltb_spec (low + 1) n); [|lia]. cbn [andb negb].
    destruct (W ltac:(lia)) as (_ & W2). destruct (W2 N2) as (S0 & S1 & S2 & S3 & S4 & S5). clear W W2. destruct (Z.leb_spec 0 start); [|lia]. destruct (Z.ltb_spec (start + 2 * radius - 1) n); [|lia]. cbn [andb negb].
    exists start. split; [lia|]. split; [lia|]. split; auto. split; auto. split; auto. unfold for_up. replace (start + 2 * radius - 1 + 1)%Z with (start + 2 * radius)%Z by lia. replace (start + 2 * radius - start)%Z with (2 * radius)%Z by lia.
    apply formula_loop.
    + intros i j I J NIJ E. unfold at_time in E. assert (X : dt * (inject_Z i - inject_Z j) == 0) by lra. apply Qmult_integral in X. destruct X as [X|X]; [lra|].
      apply NIJ. apply inject_Z_injective. lra.
    + intros j J. set (temp := times_temp _ _ _).
      assert (TN : forall i, (start <= i < start + 2 * radius)%Z -> nth (Z.to_nat (i - start)) temp 0 == at_time t0 dt i).
      { intros i I. unfold temp. rewrite times_temp_nth by lia. rewrite Z2Nat.id by lia. rewrite injm. unfold at_time. ring. }
      assert (TL : size temp = (2 * radius)%Z) by (unfold size, temp; rewrite times_temp_length; lia).
      destruct (product_ok (fun i => t - nth (Z.to_nat (i - start)) temp 0) j start (start + 2 * radius)%Z (fun i => ti <- get temp (i - start) ;; Ok (t - ti)) ltac:(lia)) as (num & EN & PN).
      { intros i I _. rewrite (get_ok temp (i - start) 0) by lia. reflexivity. }
      destruct (product_ok (fun i => inject_Z (j - start - i) * dt) (j - start) 0 (2 * radius)%Z (fun i => Ok (inject_Z (j - start - i) * dt)) ltac:(lia) ltac:(auto)) as (den & ED & PD).
      replace (Z.to_nat (start + 2 * radius - start)) with (Z.to_nat (2 * radius)) in PN by lia. replace (Z.to_nat (2 * radius - 0)) with (Z.to_nat (2 * radius)) in PD by lia.
      exists num, den. split; [|split].
      * rewrite PN. apply qprod_ext. intros i I. apply others_in in I. destruct I as (I & _). apply in_zseq in I. rewrite TN by lia. reflexivity.
      * rewrite PD. rewrite <- (Z.add_0_l start) at 2. rewrite shift. apply qprod_ext. intros i I. rewrite !injm. unfold at_time. rewrite inject_Z_plus. ring.
      * intros ans. unfold denom. fold (product 0 (2 * radius) (j - start) (fun i : Z => Ok (inject_Z (j - start - i) * dt))). rewrite EN, ED. cbn [bind]. unfold divq. destruct (Qeq_bool den 0); cbn [bind]; [reflexivity|].
        rewrite (get_ok samples j vzero) by (fold n; lia). reflexivity.
Qed.

(** The samples of the window are the closest ones. *)
Lemma closest t0 dt t n start radius i k : 0 < dt -> let low := Qfloor ((t - t0) / dt) in
  (0 <= start /\ start + 2 * radius <= n)%Z -> (start <= low /\ low + 1 < start + 2 * radius)%Z ->
  (start = 0 \/ start = low - (radius - 1) \/ start + 2 * radius = n)%Z -> (start = 0 -> low <= radius - 1 \/ start + 2 * radius = n)%Z ->
  (start + 2 * radius = n -> n <= low + 1 + radius \/ start = 0)%Z ->
  (start <= i < start + 2 * radius)%Z -> (0 <= k < n)%Z -> ~ (start <= k < start + 2 * radius)%Z ->
  Qabs (t - at_time t0 dt i) <= Qabs (t - at_time t0 dt k).
Proof.
  intros D low B1 B2 C1 C2 C3 I K O. destruct (low_spec t0 dt t D) as (LO & HI). fold low in LO, HI. clearbody low.
  assert (F : ((i <= low -> k <= low -> k <= i) /\ (low < i -> low < k -> i <= k) /\ (i <= low -> low < k -> low + 1 - i <= k - (low + 1)) /\ (low < i -> k <= low -> i - low <= low - k))%Z) by lia.
  destruct F as (F1 & F2 & F3 & F4). unfold at_time in *. rewrite inj1 in HI.
  assert (SG : forall m, ((m <= low)%Z -> t0 + dt * inject_Z m <= t) /\ ((low < m)%Z -> t < t0 + dt * inject_Z m)).
  { intros m. split; intros M.
    - apply inj_le in M. set (a := inject_Z m) in *. set (b := inject_Z low) in *. clearbody a b. nra.
    - assert (M' := inj_le (low + 1) m ltac:(lia)). rewrite inj1 in M'. set (a := inject_Z m) in *. set (b := inject_Z low) in *. clearbody a b. nra. }
  destruct (SG i) as (I1 & I2), (SG k) as (K1 & K2). clear SG. destruct (Z_le_gt_dec i low) as [LI|GI], (Z_le_gt_dec k low) as [LK|GK].
  - rewrite !Qabs_pos by (specialize (I1 LI); specialize (K1 LK); lra). specialize (F1 LI LK). apply inj_le in F1. set (a := inject_Z i) in *. set (b := inject_Z k) in *. clearbody a b. nra.
  - rewrite Qabs_pos by (specialize (I1 LI); lra). rewrite Qabs_neg by (specialize (K2 ltac:(lia)); lra). specialize (F3 LI ltac:(lia)).
    apply inj_le in F3. rewrite !injm, !inj1 in F3. set (a := inject_Z i) in *. set (b := inject_Z k) in *. set (c := inject_Z low) in *. clearbody a b c. nra.
  - rewrite Qabs_neg by (specialize (I2 ltac:(lia)); lra). rewrite Qabs_pos by (specialize (K1 LK); lra). specialize (F4 ltac:(lia) LK).
    apply inj_le in F4. rewrite !injm in F4. set (a := inject_Z i) in *. set (b := inject_Z k) in *. set (c := inject_Z low) in *. clearbody a b c. nra.
  - rewrite !Qabs_neg by (try specialize (I2 ltac:(lia)); try specialize (K2 ltac:(lia)); lra). specialize (F2 ltac:(lia) ltac:(lia)). apply inj_le in F2. set (a := inject_Z i) in *. set (b := inject_Z k) in *. clearbody a b. nra.
Qed.
