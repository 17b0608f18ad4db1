(** Small numeric functions: proofs. *)
From Verif Require Import Lib.Base Stats.Model Stats.Proofs MFun.Model.
From Coq Require Import List Bool ZArith QArith Qround Qabs SpecFloat Lia Lqa.
Import ListNotations.

Lemma qlt_spec a b : qlt a b = true <-> a < b.
Proof.
  unfold qlt. rewrite negb_true_iff. split; intros H.
  - apply Qnot_le_lt. intros L. apply Qle_bool_iff in L. congruence.
  - destruct (Qle_bool b a) eqn:E; [|reflexivity]. apply Qle_bool_iff in E. lra.
Qed.

Lemma qlt_false a b : qlt a b = false <-> b <= a.
Proof. unfold qlt. rewrite negb_false_iff. apply Qle_bool_iff. Qed.

Lemma fitsb_spec t z : fitsb t z = true <-> fits t z.
Proof. unfold fitsb, fits. rewrite andb_true_iff, !Z.leb_le. reflexivity. Qed.

Lemma qtrunc_Z z : qtrunc (inject_Z z) = z.
Proof. unfold qtrunc. destruct (Qle_bool 0 (inject_Z z)); [apply Qfloor_Z|apply Qceiling_Z]. Qed.

Lemma round_trunc v : (if qlt v 0 then qtrunc (v - (1 # 2)) else qtrunc (v + (1 # 2))) = c_round v.
Proof.
  unfold c_round, qlt. destruct (Qle_bool 0 v) eqn:E; cbn [negb].
  - apply Qle_bool_iff in E. unfold qtrunc. assert (X : Qle_bool 0 (v + (1 # 2)) = true) by (apply Qle_bool_iff; lra). rewrite X. reflexivity.
  - assert (L : v < 0) by (apply Qnot_le_lt; intros L; apply Qle_bool_iff in L; congruence).
    unfold qtrunc. destruct (Qle_bool 0 (v - (1 # 2))) eqn:E2; [apply Qle_bool_iff in E2; lra|].
    unfold Qceiling. f_equal. apply Qfloor_comp. lra.
Qed.

(** ** Bits *)

Lemma popcount_double z : (0 <= z)%Z -> popcount (2 * z) = popcount z.
Proof. destruct z; [reflexivity|reflexivity|lia]. Qed.
Lemma popcount_double1 z : (0 <= z)%Z -> popcount (2 * z + 1) = (1 + popcount z)%Z.
Proof. destruct z; [reflexivity|reflexivity|lia]. Qed.

Lemma land_pred_even z : Z.land (2 * z) (2 * z - 1) = (2 * Z.land z (z - 1))%Z.
Proof.
  apply Z.bits_inj'. intros n Hn. rewrite Z.land_spec. destruct (Z.eq_dec n 0) as [->|N].
  - rewrite !Z.testbit_even_0. reflexivity.
  - replace (2 * z - 1)%Z with (2 * (z - 1) + 1)%Z by lia. replace n with (Z.succ (n - 1)) by lia.
    rewrite Z.testbit_odd_succ, !Z.testbit_even_succ, Z.land_spec by lia. reflexivity.
Qed.

Lemma land_pred_odd z : Z.land (2 * z + 1) (2 * z + 1 - 1) = (2 * z)%Z.
Proof.
  replace (2 * z + 1 - 1)%Z with (2 * z)%Z by lia. apply Z.bits_inj'. intros n Hn. rewrite Z.land_spec. destruct (Z.eq_dec n 0) as [->|N].
  - rewrite Z.testbit_even_0. apply andb_false_r.
  - replace n with (Z.succ (n - 1)) by lia. rewrite Z.testbit_odd_succ, Z.testbit_even_succ by lia. apply andb_diag.
Qed.

Lemma popcount_nonneg z : (0 <= popcount z)%Z.
Proof. destruct z; cbn [popcount]; try lia. induction p; cbn [popcount_pos]; lia. Qed.

(** Clearing the lowest bit takes one from the count. *)
Lemma popcount_clear z : (0 < z)%Z -> popcount z = (1 + popcount (Z.land z (z - 1)))%Z /\ (0 <= Z.land z (z - 1) < z)%Z.
Proof.
  intros P. assert (G : forall n, (Z.of_nat n = z -> 0 < z -> popcount z = 1 + popcount (Z.land z (z - 1)) /\ 0 <= Z.land z (z - 1) < z)%Z).
  2: { apply (G (Z.to_nat z)); [lia|exact P]. }
  intros n. revert z P. induction n as [n IH] using (well_founded_induction lt_wf). intros z P E _.
  pose proof (Z.div_mod z 2 ltac:(lia)) as D. pose proof (Z.mod_pos_bound z 2 ltac:(lia)) as B.
  destruct (Z.eq_dec (z mod 2) 0) as [E0|E0].
  - assert (Ez : z = (2 * (z / 2))%Z) by lia. rewrite Ez. rewrite land_pred_even.
    destruct (IH (Z.to_nat (z / 2)) ltac:(lia) (z / 2)%Z ltac:(lia) ltac:(lia) ltac:(lia)) as (A1 & A2).
    rewrite !popcount_double by lia. split; [exact A1|lia].
  - assert (Ez : z = (2 * (z / 2) + 1)%Z) by lia. rewrite Ez. rewrite land_pred_odd.
    rewrite popcount_double1, popcount_double by lia. split; [reflexivity|lia].
Qed.

Lemma clear_bits_spec fuel : forall v d, (0 <= v)%Z -> (popcount v < Z.of_nat fuel)%Z -> clear_bits fuel v d = Ok (d + popcount v)%Z.
Proof.
  induction fuel as [|fuel IH]; intros v d Hv Hf; [pose proof (popcount_nonneg v); lia|]. cbn [clear_bits].
  destruct (Z.eqb_spec v 0) as [->|N]; [cbn [popcount]; f_equal; lia|].
  destruct (popcount_clear v ltac:(lia)) as (A1 & A2). rewrite IH by lia. f_equal. lia.
Qed.

Lemma popcount_width n : forall z, (0 <= z < 2 ^ Z.of_nat n)%Z -> (popcount z <= Z.of_nat n)%Z.
Proof.
  induction n as [|n IH]; intros z Hz.
  - change (2 ^ Z.of_nat 0)%Z with 1%Z in Hz. replace z with 0%Z by lia. cbn. lia.
  - pose proof (Z.div_mod z 2 ltac:(lia)) as D. pose proof (Z.mod_pos_bound z 2 ltac:(lia)) as B.
    rewrite Nat2Z.inj_succ, Z.pow_succ_r in Hz by lia. specialize (IH (z / 2)%Z ltac:(lia)).
    destruct (Z.eq_dec (z mod 2) 0) as [E0|E0].
    + replace z with (2 * (z / 2))%Z by lia. rewrite popcount_double by lia. lia.
    + replace z with (2 * (z / 2) + 1)%Z by lia. rewrite popcount_double1 by lia. lia.
Qed.

(** The number of positions at which bits are set. *)
Lemma popcount_bits n : forall z, (0 <= z < 2 ^ Z.of_nat n)%Z ->
  popcount z = zsum (map (fun i => if Z.testbit z (Z.of_nat i) then 1 else 0)%Z (seq 0 n)).
Proof.
  induction n as [|n IH]; intros z Hz.
  - change (2 ^ Z.of_nat 0)%Z with 1%Z in Hz. replace z with 0%Z by lia. reflexivity.
  - pose proof (Z.div_mod z 2 ltac:(lia)) as D. pose proof (Z.mod_pos_bound z 2 ltac:(lia)) as B.
    rewrite Nat2Z.inj_succ, Z.pow_succ_r in Hz by lia. cbn [seq map]. rewrite <- seq_shift, map_map.
    assert (E : map (fun x => (if Z.testbit z (Z.of_nat (S x)) then 1 else 0)%Z) (seq 0 n) =
                map (fun i => (if Z.testbit (z / 2) (Z.of_nat i) then 1 else 0)%Z) (seq 0 n)).
    { apply map_ext. intros i. rewrite Nat2Z.inj_succ, <- Z.div2_div, Z.div2_spec, Z.shiftr_spec by lia.
      replace (Z.of_nat i + 1)%Z with (Z.succ (Z.of_nat i)) by lia. reflexivity. }
    rewrite E. change (zsum (?a :: ?l)) with (a + zsum l)%Z. cbn [zsum fold_right]. fold (zsum (map (fun i => (if Z.testbit (z / 2) (Z.of_nat i) then 1 else 0)%Z) (seq 0 n))).
    rewrite <- (IH (z / 2)%Z) by lia. change (Z.of_nat 0) with 0%Z. rewrite Z.bit0_odd.
    destruct (Z.eq_dec (z mod 2) 0) as [E0|E0].
    + rewrite Zmod_odd in E0. destruct (Z.odd z) eqn:O; [discriminate|]. rewrite Zmod_odd, O in D. rewrite D at 1. rewrite Z.add_0_r. rewrite popcount_double by lia. lia.
    + rewrite Zmod_odd in E0. destruct (Z.odd z) eqn:O; [|congruence]. rewrite Zmod_odd, O in D. rewrite D at 1. rewrite popcount_double1 by lia. lia.
Qed.
