(** C86: UTM zones. *)
From Coq Require Import List Bool ZArith QArith Qround Lia Lqa.
From Verif Require Import Lib.Base GeoRef.Model Utm.Model Utm.Spec.
Import ListNotations.
Local Open Scope Q_scope.

Lemma ltq_iff a b : ltq a b = true <-> a < b.
Proof. unfold ltq. rewrite negb_true_iff. split; intros H. - apply Qnot_le_lt. intros C. apply Qle_bool_iff in C. congruence.
  - destruct (Qle_bool b a) eqn:E; [|reflexivity]. apply Qle_bool_iff in E. lra. Qed.
Lemma ltq_not a b : ltq a b = false <-> b <= a.
Proof. unfold ltq. rewrite negb_false_iff. apply Qle_bool_iff. Qed.
Ltac tests := repeat match goal with
  | H : ltq _ _ = true |- _ => apply ltq_iff in H | H : ltq _ _ = false |- _ => apply ltq_not in H end.

Lemma raise_spec n x : - inject_Z (Z.of_nat n) * 360 - 180 <= x ->
  exists k : Z, (0 <= k)%Z /\ raise n x == x + inject_Z (360 * k) /\ -(180) <= raise n x /\ (x < -(180) -> raise n x < 180) /\ (-(180) <= x -> raise n x = x).
Proof.
  revert x. induction n as [|n IH]; intros x L; cbn [raise].
  - change (inject_Z (Z.of_nat 0)) with 0 in L. exists 0%Z. change (inject_Z (360 * 0)) with 0.
    repeat split; try lia; try lra; auto.
  - rewrite Nat2Z.inj_succ in L. unfold Z.succ in L. rewrite inject_Z_plus in L. change (inject_Z 1) with 1 in L.
    destruct (ltq x (-(180))) eqn:E; tests.
    + destruct (IH (x + 360)) as (k & K & R & A & B & C); [lra|]. exists (k + 1)%Z.
      assert (I : inject_Z (360 * (k + 1)) == inject_Z (360 * k) + 360) by (rewrite <- inject_Z_plus with (y := 360%Z); rewrite <- Z.mul_succ_r; reflexivity).
      split; [lia|]. split; [rewrite I; lra|]. split; [exact A|]. split; [|intros; lra]. intros _.
      destruct (Qlt_le_dec (x + 360) (-(180))) as [G|G]; [auto|]. rewrite (C G). lra.
    + exists 0%Z. change (inject_Z (360 * 0)) with 0. repeat split; try lia; try lra; auto.
Qed.

Lemma lower_spec n x : -(180) <= x -> x <= inject_Z (Z.of_nat n) * 360 + 180 ->
  exists k : Z, (0 <= k)%Z /\ lower n x == x - inject_Z (360 * k) /\ -(180) <= lower n x /\ lower n x <= 180 /\ (180 < x -> -(180) < lower n x) /\ (x <= 180 -> lower n x = x).
Proof.
  revert x. induction n as [|n IH]; intros x G L; cbn [lower].
  - change (inject_Z (Z.of_nat 0)) with 0 in L. exists 0%Z. change (inject_Z (360 * 0)) with 0.
    repeat split; try lia; try lra; auto.
  - rewrite Nat2Z.inj_succ in L. unfold Z.succ in L. rewrite inject_Z_plus in L. change (inject_Z 1) with 1 in L.
    destruct (ltq 180 x) eqn:E; tests.
    + destruct (IH (x - 360)) as (k & K & R & A & B & C & D); [lra|lra|]. exists (k + 1)%Z.
      assert (I : inject_Z (360 * (k + 1)) == inject_Z (360 * k) + 360) by (rewrite <- inject_Z_plus with (y := 360%Z); rewrite <- Z.mul_succ_r; reflexivity).
      split; [lia|]. split; [rewrite I; lra|]. repeat split; [exact A|exact B| |intros; lra]. intros _.
      destruct (Qlt_le_dec 180 (x - 360)) as [H|H]; [auto|]. rewrite (D H). lra.
    + exists 0%Z. change (inject_Z (360 * 0)) with 0. repeat split; try lia; try lra; auto.
Qed.

Lemma rounds_enough x : - inject_Z (Z.of_nat (rounds x)) <= x /\ x <= inject_Z (Z.of_nat (rounds x)).
Proof.
  assert (P : 0 <= qabs x) by (unfold qabs; destruct (ltq x 0) eqn:E; tests; lra).
  assert (Q : qabs x <= inject_Z (Z.of_nat (rounds x))).
  { unfold rounds. rewrite Z2Nat.id; [apply Qle_ceiling|]. change 0%Z with (Qceiling 0). apply Qceiling_resp_le. exact P. }
  unfold qabs in *. destruct (ltq x 0) eqn:E; tests; lra.
Qed.

Lemma wrapped x : exists y k, lower (rounds (raise (rounds x) x)) (raise (rounds x) x) = y /\ y == x + inject_Z (360 * k) /\
  -(180) <= y /\ y <= 180 /\ (x < -(180) -> y < 180) /\ (180 < x -> -(180) < y) /\ (-(180) <= x -> x <= 180 -> y = x).
Proof.
  destruct (rounds_enough x) as (A & B).
  assert (N : 0 <= inject_Z (Z.of_nat (rounds x))) by (change 0 with (inject_Z 0); rewrite <- Zle_Qle; lia).
  destruct (raise_spec (rounds x) x) as (k & K & R & R1 & R2 & R3); [lra|]. set (r := raise (rounds x) x) in *.
  destruct (rounds_enough r) as (A' & B').
  assert (N' : 0 <= inject_Z (Z.of_nat (rounds r))) by (change 0 with (inject_Z 0); rewrite <- Zle_Qle; lia).
  destruct (lower_spec (rounds r) r) as (l & L & S & S1 & S2 & S3 & S4); [exact R1|lra|].
  exists (lower (rounds r) r), (k - l)%Z. split; [reflexivity|].
  assert (I : inject_Z (360 * (k - l)) == inject_Z (360 * k) - inject_Z (360 * l)).
  { rewrite Z.mul_sub_distr_l. unfold Z.sub. rewrite inject_Z_plus, inject_Z_opp. reflexivity. }
  split; [rewrite S, I, R; ring|]. split; [exact S1|]. split; [exact S2|].
  split; [intros H; rewrite (S4 (Qlt_le_weak _ _ (R2 H))); auto|].
  split; [intros H; assert (E : r = x) by (apply R3; lra); apply S3; rewrite E; exact H|].
  intros H1 H2. assert (E : r = x) by (apply R3; exact H1). rewrite S4; [exact E|]. rewrite E. exact H2.
Qed.

Lemma trunc_floor q : 0 <= q -> trunc q = Qfloor q.
Proof. intros H. unfold trunc. destruct (ltq q 0) eqn:E; tests; [lra|reflexivity]. Qed.
Lemma floor_iff q z : Qfloor q = z <-> inject_Z z <= q /\ q < inject_Z (z + 1).
Proof.
  split.
  - intros <-. split; [apply Qfloor_le|apply Qlt_floor].
  - intros (A & B). assert (H1 : (z <= Qfloor q)%Z) by (rewrite <- (Qfloor_Z z); now apply Qfloor_resp_le).
    assert (H2 : (Qfloor q < z + 1)%Z) by (rewrite Zlt_Qlt; eapply Qle_lt_trans; [apply Qfloor_le|exact B]). lia.
Qed.

Lemma zone_of x z : longitude_zone (Some x) = Ok z ->
  exists k, inject_Z (6 * z - 186) <= x + inject_Z (360 * k) /\ x + inject_Z (360 * k) < inject_Z (6 * z - 180) /\
    -(180) <= x + inject_Z (360 * k) /\ x + inject_Z (360 * k) <= 180 /\
    (x < -(180) -> x + inject_Z (360 * k) < 180) /\ (180 < x -> -(180) < x + inject_Z (360 * k)).
Proof.
  cbn [longitude_zone]. destruct (wrapped x) as (y & k & W0 & E & A & B & C & D & _). rewrite W0. intros H. injection H as <-.
  exists k. set (w := x + inject_Z (360 * k)) in *. clearbody w.
  rewrite trunc_floor by (apply Qle_shift_div_l; lra).
  remember (Qfloor ((y + 180) / 6)) as f eqn:F. symmetry in F. apply floor_iff in F. destruct F as (F1 & F2).
  assert (G1 : inject_Z f * 6 <= y + 180) by (apply Qmult_le_r with (z := 1 # 6); [reflexivity|]; unfold Qdiv in F1; change (/ 6) with (1 # 6) in F1; lra).
  assert (G2 : y + 180 < inject_Z (f + 1) * 6) by (unfold Qdiv in F2; change (/ 6) with (1 # 6) in F2; lra).
  replace (6 * (f + 1) - 186)%Z with (f * 6 + -180)%Z by lia. replace (6 * (f + 1) - 180)%Z with ((f + 1) * 6 + -180)%Z by lia.
  rewrite !inject_Z_plus, !inject_Z_mult, inject_Z_plus. rewrite inject_Z_plus in G2.
  change (inject_Z 6) with 6. change (inject_Z (-180)) with (-(180)). change (inject_Z 1) with 1 in *.
  repeat split; try (intros; rewrite <- E; auto; lra); try lra.
Qed.

(* The zone of a longitude is the strip of six degrees it lies in, up to full turns. *)
Theorem longitude_zone_strip lon z : longitude_zone (Some lon) = Ok z -> in_strip lon z.
Proof.
  intros H. destruct (zone_of _ _ H) as (k & A & B & _). exists k.
  replace (6 * z - 186 - 360 * k)%Z with (6 * z - 186 + - (360 * k))%Z by lia. replace (6 * z - 180 - 360 * k)%Z with (6 * z - 180 + - (360 * k))%Z by lia.
  rewrite !(inject_Z_plus _ (- (360 * k))), inject_Z_opp. lra.
Qed.

(* Every finite longitude has a zone, one of sixty, and 61 only at 180 degrees or full turns further. *)
Theorem longitude_zone_range lon : exists z, longitude_zone (Some lon) = Ok z /\ (1 <= z <= 61)%Z /\
  (z = 61%Z <-> exists k : Z, (0 <= k)%Z /\ lon == inject_Z (180 + 360 * k)).
Proof.
  destruct (longitude_zone (Some lon)) as [z| |] eqn:E; [|discriminate|discriminate]. exists z. split; [reflexivity|].
  assert (E' := E). destruct (zone_of _ _ E') as (k & A & B & C & D & F & G).
  assert (Z1 : (0 < 6 * z)%Z) by (assert (H : inject_Z (-180) < inject_Z (6 * z - 180)) by (change (inject_Z (-180)) with (-(180)); lra); rewrite <- Zlt_Qlt in H; lia).
  assert (Z2 : (6 * z - 186 <= 180)%Z) by (rewrite Zle_Qle; change (inject_Z 180) with 180; lra).
  split; [lia|]. split.
  - intros ->. change (inject_Z (6 * 61 - 186)) with 180 in A. exists (- k)%Z.
    assert (W : lon + inject_Z (360 * k) == 180) by lra.
    assert (V : inject_Z (180 + 360 * - k) == 180 - inject_Z (360 * k)) by (rewrite inject_Z_plus, <- Z.mul_opp_comm, Z.mul_opp_l, inject_Z_opp; reflexivity).
    split; [|rewrite V; lra].
    destruct (Z_lt_le_dec 0 k) as [P|P]; [|lia]. exfalso.
    assert (H : 360 <= inject_Z (360 * k)) by (change 360 with (inject_Z 360); rewrite <- Zle_Qle; lia).
    assert (H2 : lon + inject_Z (360 * k) < 180).
    { destruct (Qlt_le_dec lon (-(180))) as [L|L]; [auto|]. 
      assert (Eq : lon == -(180)) by lra. exfalso.
      cbn [longitude_zone] in E. destruct (wrapped lon) as (y & j & W0 & Y & _ & _ & _ & _ & S). rewrite W0, S in E by lra.
      rewrite trunc_floor in E by (apply Qle_shift_div_l; lra). set (fl := Qfloor ((lon + 180) / 6)) in *.
      assert (Fl : fl = 60%Z) by (clearbody fl; injection E as E; lia). subst fl. apply floor_iff in Fl. destruct Fl as (Fl & _).
      rewrite Eq in Fl. vm_compute in Fl. congruence. }
    lra.
  - intros (m & M & L).
    assert (P : 180 <= lon) by (rewrite L; change 180 with (inject_Z 180); rewrite <- Zle_Qle; lia).
    assert (W : lon + inject_Z (360 * k) == inject_Z (180 + 360 * (m + k))) by (rewrite L, <- inject_Z_plus; apply inject_Z_injective; lia).
    rewrite W in A, B, C, D, G. change (-(180)) with (inject_Z (-180)) in C, G. change 180 with (inject_Z 180) in D.
    rewrite <- Zle_Qle in A, C, D. rewrite <- Zlt_Qlt in B.
    assert (J : (m + k = 0 \/ m + k = -1)%Z) by lia. destruct J as [J|J]; [rewrite J in *; lia|].
    exfalso. rewrite J in *. destruct (Qlt_le_dec 180 lon) as [H|H].
    + specialize (G H). rewrite <- Zlt_Qlt in G. lia.
    + assert (Eq : lon == 180) by lra. cbn [longitude_zone] in E. destruct (wrapped lon) as (y & j & W0 & Y & _ & _ & _ & _ & S). rewrite W0, S in E by lra.
      rewrite trunc_floor in E by (apply Qle_shift_div_l; lra). assert (Fl : Qfloor ((lon + 180) / 6) = 60%Z) by (rewrite Eq; reflexivity). rewrite Fl in E. injection E as E. lia.
Qed.

(** The zone of a longitude is always one of the sixty of the grid. False: 180 degrees, and
    as many full turns further as one likes, gives 61. *)
Theorem longitude_zone_sixty_refuted : ~ (forall lon z, longitude_zone (Some lon) = Ok z -> (1 <= z <= 60)%Z).
Proof. intros H. specialize (H 180 61%Z eq_refl). lia. Qed.

(* What is not a number, or not finite, is refused. *)
Theorem utm_not_a_number lat : longitude_zone None = Throw ArgumentErr /\ utm_zone lat None = Throw ArgumentErr.
Proof. split; reflexivity. Qed.

Lemma band_at lat i c : (0 <= i <= 19)%Z -> in_band lat i -> nth_error bands (Z.to_nat i) = Some c -> latitude_band (Some lat) = Ok c.
Proof.
  intros I (A & B) N. cbn [latitude_band].
  assert (L : -(80) <= lat) by (apply Qle_trans with (inject_Z (8 * i - 80)); [change (-(80)) with (inject_Z (-80)); rewrite <- Zle_Qle; lia|exact A]).
  assert (U : lat < 80) by (apply Qlt_le_trans with (inject_Z (8 * i - 72)); [exact B|change 80 with (inject_Z 80); rewrite <- Zle_Qle; lia]).
  assert (E1 : ltq lat (-(90)) = false) by (apply ltq_not; lra). assert (E2 : ltq 90 lat = false) by (apply ltq_not; lra).
  assert (E3 : ltq lat (-(80)) = false) by (apply ltq_not; lra). assert (E4 : ltq 84 lat = false) by (apply ltq_not; lra).
  rewrite E1, E2, E3, E4. rewrite trunc_floor by (apply Qle_shift_div_l; lra).
  assert (F : Qfloor ((lat + 80) / 8) = i).
  { apply floor_iff. unfold Qdiv. change (/ 8) with (1 # 8).
    replace (8 * i - 80)%Z with (i * 8 + -80)%Z in A by lia. replace (8 * i - 72)%Z with ((i + 1) * 8 + -80)%Z in B by lia.
    rewrite inject_Z_plus, inject_Z_mult in A, B. change (inject_Z 8) with 8 in *. change (inject_Z (-80)) with (-(80)) in *. lra. }
  rewrite F, N. reflexivity.
Qed.

(* Between 80 degrees south and north a latitude gets the letter of its band of eight degrees, from C to X without I and O. *)
Theorem latitude_band_letter lat i c : (0 <= i)%Z -> in_band lat i -> nth_error letters (Z.to_nat i) = Some c -> latitude_band (Some lat) = Ok c.
Proof.
  intros I B N. assert (L : (Z.to_nat i < 20)%nat) by (change 20%nat with (length letters); apply nth_error_Some; congruence).
  apply band_at with i; [lia|exact B|]. rewrite <- N. change bands with (letters ++ [0%Z]). apply nth_error_app1. exact L.
Qed.
(* Further south it is A, north of 84 degrees Z. *)
Theorem latitude_band_poles lat : (lat < -(80) -> latitude_band (Some lat) = Ok 65%Z) /\ (84 < lat -> latitude_band (Some lat) = Ok 90%Z).
Proof.
  split; intros H; cbn [latitude_band].
  - destruct (ltq lat (-(90))) eqn:E; [reflexivity|]. assert (E2 : ltq 90 lat = false) by (apply ltq_not; lra). rewrite E2.
    assert (E3 : ltq lat (-(80)) = true) by (apply ltq_iff; lra). now rewrite E3.
  - assert (E : ltq lat (-(90)) = false) by (apply ltq_not; lra). rewrite E. destruct (ltq 90 lat) eqn:E2; [reflexivity|].
    assert (E3 : ltq lat (-(80)) = false) by (apply ltq_not; lra). rewrite E3.
    assert (E4 : ltq 84 lat = true) by (apply ltq_iff; lra). now rewrite E4.
Qed.
(* From 80 to 84 degrees north there is no letter, but the zero that ends the table. *)
Theorem latitude_band_north lat : 80 <= lat -> lat <= 84 -> latitude_band (Some lat) = Ok 0%Z.
Proof.
  intros A B. cbn [latitude_band].
  assert (E1 : ltq lat (-(90)) = false) by (apply ltq_not; lra). assert (E2 : ltq 90 lat = false) by (apply ltq_not; lra).
  assert (E3 : ltq lat (-(80)) = false) by (apply ltq_not; lra). assert (E4 : ltq 84 lat = false) by (apply ltq_not; lra).
  rewrite E1, E2, E3, E4. rewrite trunc_floor by (apply Qle_shift_div_l; lra).
  assert (F : Qfloor ((lat + 80) / 8) = 20%Z) by (apply floor_iff; unfold Qdiv; change (/ 8) with (1 # 8); change (inject_Z 20) with 20; change (inject_Z (20 + 1)) with 21; lra).
  now rewrite F.
Qed.
(** The last band, X, reaches to 84 degrees north, as in the grid. False: it ends at 80
    degrees, and what is north of it gets the zero at the end of the table of letters. *)
Theorem latitude_band_x_refuted : ~ (forall lat, 72 <= lat -> lat <= 84 -> latitude_band (Some lat) = Ok 88%Z).
Proof. intros H. specialize (H 81 ltac:(lra) ltac:(lra)). vm_compute in H. discriminate. Qed.

Lemma zone_eq lon z : -(180) <= lon -> lon <= 180 -> inject_Z (6 * z - 186) <= lon -> lon < inject_Z (6 * z - 180) -> longitude_zone (Some lon) = Ok z.
Proof.
  intros A B C D. cbn [longitude_zone]. destruct (wrapped lon) as (y & j & W0 & _ & _ & _ & _ & _ & S). rewrite W0, S by assumption.
  rewrite trunc_floor by (apply Qle_shift_div_l; lra). f_equal.
  assert (F : Qfloor ((lon + 180) / 6) = (z - 1)%Z).
  { apply floor_iff. unfold Qdiv. change (/ 6) with (1 # 6).
    replace (6 * z - 186)%Z with ((z - 1) * 6 + -180)%Z in C by lia. replace (6 * z - 180)%Z with ((z - 1 + 1) * 6 + -180)%Z in D by lia.
    rewrite inject_Z_plus, inject_Z_mult in C, D. change (inject_Z 6) with 6 in *. change (inject_Z (-180)) with (-(180)) in *. lra. }
  rewrite F. lia.
Qed.
(* Between -180 and 180 degrees the zone is exactly the strip. *)
Theorem longitude_zone_iff lon z : -(180) <= lon -> lon <= 180 ->
  (longitude_zone (Some lon) = Ok z <-> inject_Z (6 * z - 186) <= lon /\ lon < inject_Z (6 * z - 180)).
Proof.
  intros A B. split; [|intros (C & D); now apply zone_eq].
  intros H. cbn [longitude_zone] in H. destruct (wrapped lon) as (y & j & E & _ & _ & _ & _ & _ & S). rewrite E in H. rewrite (S A B) in H.
  rewrite trunc_floor in H by (apply Qle_shift_div_l; lra).
  remember (Qfloor ((lon + 180) / 6)) as f eqn:F. symmetry in F. injection H as <-. apply floor_iff in F. destruct F as (F1 & F2). unfold Qdiv in F1, F2. change (/ 6) with (1 # 6) in *.
  replace (6 * (f + 1) - 186)%Z with (f * 6 + -180)%Z by lia. replace (6 * (f + 1) - 180)%Z with ((f + 1) * 6 + -180)%Z by lia.
  rewrite !inject_Z_plus, !inject_Z_mult, inject_Z_plus. rewrite inject_Z_plus in F2. change (inject_Z 6) with 6. change (inject_Z (-180)) with (-(180)). change (inject_Z 1) with 1 in *. lra.
Qed.

(* South of 56, from 64 to 72 and from 80 degrees north on, the zone is that of the longitude. *)
Theorem utm_zone_plain lat lon z : lat < 56 \/ (64 <= lat /\ lat < 72) \/ 80 <= lat -> longitude_zone (Some lon) = Ok z -> utm_zone (Some lat) (Some lon) = Ok z.
Proof.
  intros H Z. unfold utm_zone. rewrite Z. cbn [bind].
  assert (B : exists c, latitude_band (Some lat) = Ok c /\ (c =? 86)%Z = false /\ (c =? 88)%Z = false).
  { destruct (Qlt_le_dec lat (-(80))) as [L|L]; [exists 65%Z; split; [now apply latitude_band_poles|split; reflexivity]|].
    destruct (Qlt_le_dec 84 lat) as [U|U]; [exists 90%Z; split; [now apply latitude_band_poles|split; reflexivity]|].
    destruct (Qlt_le_dec lat 80) as [V|V]; [|exists 0%Z; split; [now apply latitude_band_north|split; reflexivity]].
    set (i := Qfloor ((lat + 80) / 8)).
    assert (F : in_band lat i).
    { destruct (proj1 (floor_iff _ i) eq_refl) as (F1 & F2). unfold Qdiv in F1, F2. change (/ 8) with (1 # 8) in *. unfold in_band.
      replace (8 * i - 80)%Z with (i * 8 + -80)%Z by lia. replace (8 * i - 72)%Z with ((i + 1) * 8 + -80)%Z by lia.
      rewrite !inject_Z_plus, !inject_Z_mult, inject_Z_plus. rewrite inject_Z_plus in F2. change (inject_Z 8) with 8. change (inject_Z (-80)) with (-(80)). change (inject_Z 1) with 1 in *. lra. }
    clearbody i. assert (F' := F). destruct F' as (F1 & F2).
    assert (I0 : (-80 < 8 * i - 72)%Z) by (rewrite Zlt_Qlt; change (inject_Z (-80)) with (-(80)); lra).
    assert (I1 : (8 * i - 80 < 80)%Z) by (rewrite Zlt_Qlt; change (inject_Z 80) with 80; lra).
    assert (NV : i <> 17%Z) by (intros ->; change (inject_Z (8 * 17 - 80)) with 56 in F1; change (inject_Z (8 * 17 - 72)) with 64 in F2; lra).
    assert (NX : i <> 19%Z) by (intros ->; change (inject_Z (8 * 19 - 80)) with 72 in F1; lra).
    assert (J : (0 <= i <= 19)%Z) by lia.
    destruct (nth_error bands (Z.to_nat i)) as [c|] eqn:N; [|apply nth_error_None in N; cbn [length bands] in N; lia].
    exists c. split; [now apply band_at with i|].
    assert (K : In (Z.to_nat i) (seq 0 20)) by (apply in_seq; lia).
    assert (K2 : forall n, In n (seq 0 20) -> n <> 17%nat -> n <> 19%nat -> match nth_error bands n with Some c => (c =? 86)%Z = false /\ (c =? 88)%Z = false | None => True end).
    { intros n M. cbn [seq In] in M. repeat (destruct M as [<-|M]; [cbn [nth_error bands]; intros; try (split; reflexivity); congruence|]). destruct M. }
    specialize (K2 _ K ltac:(lia) ltac:(lia)). rewrite N in K2. exact K2. }
  destruct B as (c & -> & V & X). cbn [bind]. now rewrite V, X.
Qed.

(* Off Norway, from 56 to 64 degrees north, zone 32 begins at 3 degrees east instead of 6. *)
Theorem utm_zone_norway lat lon z : 56 <= lat -> lat < 64 -> longitude_zone (Some lon) = Ok z -> -(180) <= lon -> lon <= 180 ->
  (3 <= lon /\ lon < 12 -> utm_zone (Some lat) (Some lon) = Ok 32%Z) /\
  (lon < 3 \/ 12 <= lon -> utm_zone (Some lat) (Some lon) = Ok z).
Proof.
  intros A B Z L U. unfold utm_zone. rewrite Z. cbn [bind].
  rewrite (band_at lat 17 86 ltac:(lia) (conj A B) eq_refl). cbn [bind]. change (86 =? 86)%Z with true. change (86 =? 88)%Z with false. cbn [andb].
  apply longitude_zone_iff in Z; [|assumption|assumption]. destruct Z as (Z1 & Z2). split.
  - intros (P & Q). assert (E : Qle_bool 3 lon = true) by (apply Qle_bool_iff; exact P). rewrite E, andb_true_r. 
    destruct (Z.eqb_spec z 31) as [->|N]; [reflexivity|]. f_equal.
    assert (H1 : (6 * z - 186 < 12)%Z) by (rewrite Zlt_Qlt; change (inject_Z 12) with 12; lra).
    assert (H2 : (3 < 6 * z - 180)%Z) by (rewrite Zlt_Qlt; change (inject_Z 3) with 3; lra). lia.
  - intros H. destruct (Z.eqb_spec z 31) as [->|N]; [|reflexivity]. cbn [andb]. change (inject_Z (6 * 31 - 180)) with 6 in Z2.
    assert (E : Qle_bool 3 lon = false) by (destruct (Qle_bool 3 lon) eqn:E; [apply Qle_bool_iff in E; lra|reflexivity]). now rewrite E.
Qed.

(* At Svalbard, from 72 to 80 degrees north, zones 32, 34 and 36 are left out: the others meet at 9, 21 and 33 degrees east and end at 42. *)
Theorem utm_zone_svalbard lat lon z : 72 <= lat -> lat < 80 -> longitude_zone (Some lon) = Ok z ->
  (0 <= lon /\ lon < 9 -> utm_zone (Some lat) (Some lon) = Ok 31%Z) /\ (9 <= lon /\ lon < 21 -> utm_zone (Some lat) (Some lon) = Ok 33%Z) /\
  (21 <= lon /\ lon < 33 -> utm_zone (Some lat) (Some lon) = Ok 35%Z) /\ (33 <= lon /\ lon < 42 -> utm_zone (Some lat) (Some lon) = Ok 37%Z) /\
  (lon < 0 \/ 42 <= lon -> utm_zone (Some lat) (Some lon) = Ok z).
Proof.
  intros A B Z. unfold utm_zone. rewrite Z. cbn [bind].
  rewrite (band_at lat 19 88 ltac:(lia) (conj A B) eq_refl). cbn [bind]. change (88 =? 86)%Z with false. change (88 =? 88)%Z with true. cbn [andb].
  repeat split; intros H;
    repeat match goal with |- context [Qle_bool ?a ?b && ltq ?c ?d] =>
      let E := fresh in first
        [ assert (E : Qle_bool a b && ltq c d = true) by (apply andb_true_iff; split; [apply Qle_bool_iff; lra|apply ltq_iff; lra])
        | assert (E : Qle_bool a b && ltq c d = false) by (destruct (Qle_bool a b) eqn:?Q1; [|reflexivity]; destruct (ltq c d) eqn:?Q2; [|reflexivity]; tests; match goal with Q : Qle_bool _ _ = true |- _ => apply Qle_bool_iff in Q end; lra) ];
      rewrite E end; reflexivity.
Qed.
(** The exceptions of Svalbard hold to the end of the grid at 84 degrees north. False: from
    80 degrees on the ordinary zones are given, also at its northern coast. *)
Theorem utm_svalbard_north_refuted : ~ (forall lat lon, 72 <= lat -> lat <= 84 -> 9 <= lon -> lon < 21 -> utm_zone (Some lat) (Some lon) = Ok 33%Z).
Proof. intros H. specialize (H (161 # 2) 10 ltac:(lra) ltac:(lra) ltac:(lra) ltac:(lra)). vm_compute in H. discriminate. Qed.
(** A full turn of longitude does not change the zone. False: the exceptions look at the
    longitude as it was given. *)
Theorem utm_zone_turn_refuted : ~ (forall lat lon, utm_zone (Some lat) (Some (lon + 360)) = utm_zone (Some lat) (Some lon)).
Proof. intros H. specialize (H 75 10). vm_compute in H. discriminate. Qed.

(* The theorems apply to a place in Norway, one on Svalbard and one after two turns. *)
Example utm_met : utm_zone (Some 60) (Some 4) = Ok 32%Z /\ utm_zone (Some 75) (Some 15) = Ok 33%Z /\ longitude_zone (Some (-(838))) = Ok 11%Z /\
  latitude_band (Some 35) = Ok 83%Z.
Proof. repeat split; vm_compute; reflexivity. Qed.

Print Assumptions longitude_zone_strip. Print Assumptions longitude_zone_range. Print Assumptions longitude_zone_sixty_refuted.
Print Assumptions utm_not_a_number. Print Assumptions latitude_band_letter. Print Assumptions latitude_band_poles.
Print Assumptions latitude_band_north. Print Assumptions latitude_band_x_refuted. Print Assumptions longitude_zone_iff. Print Assumptions utm_zone_plain.
Print Assumptions utm_zone_norway. Print Assumptions utm_zone_svalbard. Print Assumptions utm_svalbard_north_refuted. Print Assumptions utm_zone_turn_refuted.
