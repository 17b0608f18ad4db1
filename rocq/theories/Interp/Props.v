(** C70, C71. *)
From Coq Require Import List ZArith QArith Qround Qabs Bool Lia Lqa Sorting.Sorted Permutation.
From Verif Require Import Lib.Base Lib.Lists Interp.Model Interp.Spec Interp.Poly Interp.LProofs Interp.CProofs Interp.PProofs Interp.SProofs.
Import ListNotations.
Open Scope Q_scope.

(** ** Linear interpolation between samples *)

(** Every curve of degree one that passes through two consecutive samples is
    followed between them; a time before the first sample or later than the last by
    the tolerance is refused; within the tolerance the last sample is given. *)
Theorem linear_positions_exact : forall samples t0 dt n, 0 < dt -> length samples = S n ->
  (forall i c t, (i < n)%nat -> of_degree_below 2 c -> passes c (time_of t0 dt) samples i -> passes c (time_of t0 dt) samples (S i) ->
     time_of t0 dt i <= t <= time_of t0 dt (S i) -> gives (linear_piecewise samples t0 dt t) (ceval c t)) /\
  (forall i s, nth_error samples i = Some s -> (1 <= n)%nat -> gives (linear_piecewise samples t0 dt (time_of t0 dt i)) s) /\
  (forall t s, eps <= dt -> nth_error samples n = Some s -> time_of t0 dt n <= t < time_of t0 dt n + eps -> gives (linear_piecewise samples t0 dt t) s) /\
  (forall t, t < t0 \/ time_of t0 dt n + eps <= t -> linear_piecewise samples t0 dt t = Throw ArgumentErr).
Proof.
  intros samples t0 dt n D EN. split; [|split; [|split]].
  - intros i c t LI DG (a & EA & PA) (b & EB & PB) T. destruct (linear_in samples t0 dt t i a b D EA EB T) as (v & E & V). exists v. split; auto. clear E.
    destruct c as [[x y] z], DG as (DX & DY & DZ). destruct v as [[vx vy] vz], a as [[ax ay] az], b as [[bx by_] bz]. cbn [ceval veq lerp vadd vscale vsub] in *.
    assert (L : forall c p q w, (length c <= 2)%nat -> p == peval c (time_of t0 dt i) -> q == peval c (time_of t0 dt (S i)) ->
      w == p + (t - time_of t0 dt i) / dt * (q + (-1 # 1) * p) -> w == peval c t).
    { intros c p q w LC P Q0 W. rewrite W, P, Q0. destruct c as [|c0 [|c1 [|]]]; cbn [length] in LC; try lia; cbn [peval]; try rewrite time_succ; field; lra. }
    destruct PA as (A1 & A2 & A3), PB as (B1 & B2 & B3), V as (V1 & V2 & V3). split; [|split]; eapply L; eauto.
  - intros i s E LN. assert (LI : (i < S n)%nat) by (rewrite <- EN; apply nth_error_Some; congruence). destruct (Nat.eq_dec i n) as [->|NI].
    + destruct n as [|n]; [lia|]. destruct (nth_error samples n) as [a|] eqn:EA; [|apply nth_error_None in EA; lia].
      destruct (linear_in samples t0 dt (time_of t0 dt (S n)) n a s D EA E) as (v & Ev & V); [rewrite time_succ; lra|]. exists v. split; auto. clear Ev.
      destruct v as [[vx vy] vz], a as [[ax ay] az], s as [[bx by_] bz]. cbn [veq lerp vadd vscale vsub] in *. destruct V as (V1 & V2 & V3).
      assert (X : (time_of t0 dt (S n) - time_of t0 dt n) / dt == 1) by (rewrite time_succ; field; lra). rewrite X in V1, V2, V3. split; [|split]; lra.
    + destruct (nth_error samples (S i)) as [b|] eqn:EB; [|apply nth_error_None in EB; lia].
      destruct (linear_in samples t0 dt (time_of t0 dt i) i s b D E EB) as (v & Ev & V); [rewrite time_succ; lra|]. exists v. split; auto. clear Ev.
      destruct v as [[vx vy] vz], b as [[ax ay] az], s as [[bx by_] bz]. cbn [veq lerp vadd vscale vsub] in *. destruct V as (V1 & V2 & V3).
      assert (X : (time_of t0 dt i - time_of t0 dt i) / dt == 0) by (field; lra). rewrite X in V1, V2, V3. split; [|split]; lra.
  - intros t s DE E T. exact (linear_last samples t0 dt t n s DE EN E T).
  - intros t O. exact (linear_out samples t0 dt t n D EN O).
Qed.
Print Assumptions linear_positions_exact.

Definition pts : list v3 := [(0, 1, 2); (1, 3, 0); (4, 5, -2 # 1); (9, 7, 1); (16, 0, 0)].
Example linear_positions_met : gives (linear_piecewise pts 10 2 13) (5 # 2, 4, -1 # 1) /\ linear_piecewise pts 10 2 (18 + eps) = Throw ArgumentErr /\ linear_piecewise pts 10 2 9 = Throw ArgumentErr.
Proof. split; [|split; vm_compute; reflexivity]. eexists. split; [vm_compute; reflexivity|]. repeat split. Qed.

(** ** Lagrange *)

(** With at least twice as many samples as the radius there is a window of 2 * radius
    samples: the answer is the value of the one curve of degree below 2 * radius
    through its samples.  The window has as many samples before the time as after it
    unless the samples end first.  With fewer samples the call throws. *)
Theorem lagrange_var_follows_window : forall samples times radius t, (1 < length samples)%nat -> length samples = length times -> (1 < radius)%nat -> ascending times ->
  ((length samples < 2 * radius)%nat -> lagrange_var samples times (Z.of_nat radius) t = Throw ArgumentErr) /\
  ((2 * radius <= length samples)%nat -> exists start c, (start + 2 * radius <= length samples)%nat /\
     (start = 0%nat \/ (start + 2 * radius)%nat = length samples \/ (nth (start + radius - 1) times 0 <= t /\ t < nth (start + radius) times 0)) /\
     of_degree_below (2 * radius) c /\ (forall i, (start <= i < start + 2 * radius)%nat -> passes c (fun i => nth i times 0) samples i) /\
     gives (lagrange_var samples times (Z.of_nat radius) t) (ceval c t)).
Proof.
  intros samples times radius t N1 NE R A. destruct (lagrange_var_ok samples times (Z.of_nat radius) t N1 NE ltac:(lia) A) as (F & G). unfold size in *. split; [intros; apply F; lia|].
  intros L. destruct (G ltac:(lia)) as (start & (S0 & S1) & S2 & _ & v & E & V). replace (Z.to_nat (2 * Z.of_nat radius)) with (2 * radius)%nat in V by lia.
  assert (AP : forall i j, (start <= i < start + Z.of_nat (2 * radius))%Z -> (start <= j < start + Z.of_nat (2 * radius))%Z -> i <> j -> ~ nth (Z.to_nat i) times 0 == nth (Z.to_nat j) times 0).
  { intros i j I J NJ. destruct (Z_lt_ge_dec i j).
    - pose proof (ascending_nth times A (Z.to_nat i) (Z.to_nat j) ltac:(lia)). lra.
    - pose proof (ascending_nth times A (Z.to_nat j) (Z.to_nat i) ltac:(lia)). lra. }
  destruct (formula_curve (fun i => nth (Z.to_nat i) times 0) (fun i => nth (Z.to_nat i) samples vzero) start (2 * radius) AP) as (c & DC & PC & VC).
  exists (Z.to_nat start), c. split; [lia|]. split; [|split; [auto|split]].
  - destruct S2 as [S2|[S2|(S2 & S3)]]; [left; lia|right; left; lia|right; right].
    replace (Z.to_nat start + radius - 1)%nat with (Z.to_nat (start + Z.of_nat radius - 1)) by lia. replace (Z.to_nat start + radius)%nat with (Z.to_nat (start + Z.of_nat radius)) by lia. auto.
  - intros i I. exists (nth i samples vzero). split; [apply nth_error_nth'; lia|]. specialize (PC (Z.of_nat i) ltac:(lia)). rewrite Nat2Z.id in PC. exact PC.
  - exists v. split; auto. specialize (VC t). apply veq_px in V, VC. apply veq_px. destruct V as (V1 & V2 & V3), VC as (C1 & C2 & C3). rewrite V1, V2, V3. auto.
Qed.
Print Assumptions lagrange_var_follows_window.

(** Samples of one curve of degree below 2 * radius give that curve back at every
    time, and at the time of a sample the answer is that sample. *)
Theorem lagrange_var_exact : forall samples times radius t, (1 < length samples)%nat -> length samples = length times -> (1 < radius)%nat -> ascending times -> (2 * radius <= length samples)%nat ->
  (forall c, of_degree_below (2 * radius) c -> (forall i, (i < length samples)%nat -> passes c (fun i => nth i times 0) samples i) ->
     gives (lagrange_var samples times (Z.of_nat radius) t) (ceval c t)) /\
  (forall i s, nth_error samples i = Some s -> t == nth i times 0 -> gives (lagrange_var samples times (Z.of_nat radius) t) s).
Proof.
  intros samples times radius t N1 NE R A L. destruct (lagrange_var_ok samples times (Z.of_nat radius) t N1 NE ltac:(lia) A) as (_ & G). unfold size in *.
  destruct (G ltac:(lia)) as (start & (S0 & S1) & _ & S2 & v & E & V). replace (Z.to_nat (2 * Z.of_nat radius)) with (2 * radius)%nat in V by lia.
  assert (AP : forall i j, (start <= i < start + Z.of_nat (2 * radius))%Z -> (start <= j < start + Z.of_nat (2 * radius))%Z -> i <> j -> ~ nth (Z.to_nat i) times 0 == nth (Z.to_nat j) times 0).
  { intros i j I J NJ. destruct (Z_lt_ge_dec i j).
    - pose proof (ascending_nth times A (Z.to_nat i) (Z.to_nat j) ltac:(lia)). lra.
    - pose proof (ascending_nth times A (Z.to_nat j) (Z.to_nat i) ltac:(lia)). lra. }
  assert (TR : forall x y z, veq x y -> veq y z -> veq x z).
  { intros x y z X Y. apply veq_px in X, Y. apply veq_px. destruct X as (X1 & X2 & X3), Y as (Y1 & Y2 & Y3). rewrite X1, X2, X3. auto. }
  split.
  - intros c DC PC. exists v. split; auto. eapply TR; [exact V|]. apply formula_unique; auto. intros k K. destruct (PC (Z.to_nat k) ltac:(lia)) as (s & ES & EV).
    rewrite (nth_error_nth samples _ vzero ES). exact EV.
  - intros i s ES ET. assert (LI : (i < length samples)%nat) by (apply nth_error_Some; congruence). specialize (S2 i ltac:(lia) ET).
    destruct (formula_curve (fun i => nth (Z.to_nat i) times 0) (fun i => nth (Z.to_nat i) samples vzero) start (2 * radius) AP) as (c & DC & PC & VC).
    exists v. split; auto. eapply TR; [exact V|]. eapply TR; [apply VC|]. specialize (PC (Z.of_nat i) ltac:(lia)). rewrite Nat2Z.id in PC. rewrite (nth_error_nth samples _ vzero ES) in PC.
    apply veq_px in PC. apply veq_px. destruct c as [[x y] z]. cbn [ceval px py pz fst snd] in *. destruct PC as (P1 & P2 & P3). rewrite P1, P2, P3.
    assert (PE : forall c a b, a == b -> peval c a == peval c b) by (induction c as [|c0 c IH]; intros a b AB; cbn [peval]; [reflexivity|]; rewrite (IH a b AB), AB; reflexivity). repeat split; now apply PE.
Qed.
Print Assumptions lagrange_var_exact.

Definition cube (t : Q) : v3 := (t * t * t, 1 + t, t * t).
Example lagrange_var_met : let times := [0; 1; 3; 4; 8; 9] in
  gives (lagrange_var (map cube times) times 2 5) (125, 6, 25) /\ gives (lagrange_var (map cube times) times 3 (1 # 2)) (1 # 8, 3 # 2, 1 # 4) /\
  gives (lagrange_var pts [0; 1; 3; 4; 8] 2 3) (4, 5, -2 # 1) /\ lagrange_var pts [0; 1; 3; 4; 8] 3 3 = Throw ArgumentErr.
Proof. cbv zeta. split; [|split; [|split; [|vm_compute; reflexivity]]]; (eexists; split; [vm_compute; reflexivity|]); repeat split. Qed.

(** The same for equal intervals of time, from the first sample to before the last;
    moreover no sample out of the window is closer in time than one in it. *)
Theorem lagrange_const_follows_window : forall samples t0 dt last radius t, lagrange_checks samples t0 dt last (Z.of_nat radius) = true ->
  (t < t0 \/ time_of t0 dt (length samples - 1) <= t \/ (length samples < 2 * radius)%nat -> lagrange_const samples t0 dt last (Z.of_nat radius) t = Throw ArgumentErr) /\
  (t0 <= t -> t < time_of t0 dt (length samples - 1) -> (2 * radius <= length samples)%nat -> exists start c, (start + 2 * radius <= length samples)%nat /\
     (forall i k, (start <= i < start + 2 * radius)%nat -> (k < start \/ start + 2 * radius <= k < length samples)%nat -> Qabs (t - time_of t0 dt i) <= Qabs (t - time_of t0 dt k)) /\
     of_degree_below (2 * radius) c /\ (forall i, (start <= i < start + 2 * radius)%nat -> passes c (time_of t0 dt) samples i) /\
     gives (lagrange_const samples t0 dt last (Z.of_nat radius) t) (ceval c t) /\
     forall c', of_degree_below (2 * radius) c' -> (forall i, (start <= i < start + 2 * radius)%nat -> passes c' (time_of t0 dt) samples i) -> veq (ceval c t) (ceval c' t)).
Proof.
  intros samples t0 dt last radius t CH. destruct (lagrange_const_ok samples t0 dt last (Z.of_nat radius) t CH) as (D & R & F & G). unfold size in *.
  assert (N1 : (1 < length samples)%nat). { unfold lagrange_checks in CH. rewrite !andb_true_iff in CH. destruct CH as ((((C1 & _) & _) & _) & _). apply Z.ltb_lt in C1. unfold size in C1. lia. }
  assert (TE : at_time t0 dt (Z.of_nat (length samples) - 1) = time_of t0 dt (length samples - 1)) by (rewrite time_at; f_equal; lia). rewrite TE in F, G. split.
  - intros [O|[O|O]]; apply F; auto. right. right. lia.
  - intros T0 T1 L. destruct (G T0 T1 ltac:(lia)) as (start & B1 & B2 & C1 & C2 & C3 & v & E & V). replace (Z.to_nat (2 * Z.of_nat radius)) with (2 * radius)%nat in V by lia.
    assert (AP : forall i j, (start <= i < start + Z.of_nat (2 * radius))%Z -> (start <= j < start + Z.of_nat (2 * radius))%Z -> i <> j -> ~ at_time t0 dt i == at_time t0 dt j).
    { intros i j I J NJ X. unfold at_time in X. assert (Y : inject_Z i == inject_Z j) by (set (p := inject_Z i) in *; set (q := inject_Z j) in *; clearbody p q; nra). apply NJ. unfold Qeq, inject_Z in Y. cbn in Y. lia. }
    assert (TR : forall x y z, veq x y -> veq y z -> veq x z).
    { intros x y z X Y. apply veq_px in X, Y. apply veq_px. destruct X as (X1 & X2 & X3), Y as (Y1 & Y2 & Y3). rewrite X1, X2, X3. auto. }
    destruct (formula_curve (at_time t0 dt) (fun i => nth (Z.to_nat i) samples vzero) start (2 * radius) AP) as (c & DC & PC & VC).
    exists (Z.to_nat start), c. split; [lia|]. split; [|split; [auto|split; [|split]]].
    + intros i k I K. rewrite !time_at. apply (closest t0 dt t (Z.of_nat (length samples)) start (Z.of_nat radius)); auto; lia.
    + intros i I. exists (nth i samples vzero). split; [apply nth_error_nth'; lia|]. specialize (PC (Z.of_nat i) ltac:(lia)). rewrite Nat2Z.id in PC. exact PC.
    + exists v. split; auto. eapply TR; [exact V|apply VC].
    + intros c' DC' PC'. assert (U : veq (formula (at_time t0 dt) (fun i => nth (Z.to_nat i) samples vzero) start (2 * radius) t) (ceval c' t)).
      { apply formula_unique; auto. intros k K. destruct (PC' (Z.to_nat k) ltac:(lia)) as (s & ES & EV). rewrite (nth_error_nth samples _ vzero ES). rewrite time_at in EV. rewrite Z2Nat.id in EV by lia. exact EV. }
      specialize (VC t). apply veq_px in VC, U. apply veq_px. destruct VC as (X1 & X2 & X3), U as (Y1 & Y2 & Y3). rewrite <- X1, <- X2, <- X3. auto.
Qed.
Print Assumptions lagrange_const_follows_window.

Example lagrange_const_met : let times := [10; 12; 14; 16; 18; 20; 22] in
  lagrange_checks (map cube times) 10 2 22 2 = true /\ gives (lagrange_const (map cube times) 10 2 22 2 15) (3375, 16, 225) /\ gives (lagrange_const (map cube times) 10 2 22 2 21) (9261, 22, 441).
Proof. cbv zeta. split; [vm_compute; reflexivity|]. split; (eexists; split; [vm_compute; reflexivity|]); repeat split. Qed.

(** The number of samples is checked against rounded times, so the checks also accept
    a last time that is not that of the last sample. *)
Theorem lagrange_checks_spec : forall samples t0 dt last radius, lagrange_checks samples t0 dt last radius = true <->
  ((1 < length samples)%nat /\ (1 < radius)%Z /\ 0 < dt /\ t0 < last /\
   time_of t0 dt (length samples - 1) - dt / 2 <= last /\ last < time_of t0 dt (length samples - 1) + dt / 2).
Proof.
  intros samples t0 dt last radius. unfold lagrange_checks. rewrite !andb_true_iff, !Z.ltb_lt, Z.eqb_eq. unfold size, roundq.
  assert (P : forall a b, ltq a b = true <-> a < b) by (intros a b; destruct (ltqP a b); split; intros; try discriminate; auto; lra). rewrite !P.
  set (u := (last - t0) / dt + (1 # 2)). unfold time_of. destruct (floor_spec u) as (A & B). split.
  - intros ((((C1 & C2) & C3) & C4) & C5). split; [lia|]. split; [auto|]. split; [auto|]. split; [auto|]. assert (E : last == t0 + dt * (u - (1 # 2))) by (unfold u; field; lra).
    replace (Z.of_nat (length samples - 1)) with (Qfloor u) by lia. set (f := inject_Z (Qfloor u)) in *. assert (HD : dt / 2 == dt * (1 # 2)) by (field; lra). rewrite HD, E. clearbody f u. clear - A B C3. split; nra.
  - intros (C1 & C2 & C3 & C4 & C5 & C6). repeat split; auto; [lia|]. assert (E : last == t0 + dt * (u - (1 # 2))) by (unfold u; field; lra).
    assert (F : Qfloor u = Z.of_nat (length samples - 1)); [|lia]. set (q := inject_Z (Z.of_nat (length samples - 1))) in *. assert (HD : dt / 2 == dt * (1 # 2)) by (field; lra). rewrite HD, E in C5, C6. apply floor_is; fold q; clearbody q u; clear - C3 C5 C6; nra.
Qed.
Print Assumptions lagrange_checks_spec.

(** The expected claim, that each time up to the end of the range the object reports
    is served, does not hold: the time of the last sample is refused
    (PositionInterp.cc:291, the check asks for a sample after it), though the variant
    with irregular times serves it. *)
Theorem lagrange_const_serves_last_sample_refuted : ~ (forall samples t0 dt last radius t, lagrange_checks samples t0 dt last radius = true ->
  (2 * radius <= size samples)%Z -> t0 <= t <= last -> exists v, lagrange_const samples t0 dt last radius t = Ok v).
Proof.
  intros H. specialize (H (map cube [0; 1; 2; 3]) 0 1 3 2%Z 3 ltac:(vm_compute; reflexivity) ltac:(vm_compute; discriminate) ltac:(split; vm_compute; discriminate)).
  destruct H as (v & H). vm_compute in H. discriminate.
Qed.
Print Assumptions lagrange_const_serves_last_sample_refuted.

(** ** Positions and velocities *)

(** Positions and velocities taken from one curve of degree below three give that
    curve back from each sample to the next one, and at each sample the sample. *)
Theorem piecewise_acceleration_exact : forall samples vel t0 dt n, 0 < dt -> length samples = S n -> length vel = S n ->
  (forall c i t, of_degree_below 3 c -> (i < n)%nat -> passes c (time_of t0 dt) samples i ->
     passes (velocity c) (time_of t0 dt) vel i -> passes (velocity c) (time_of t0 dt) vel (S i) ->
     time_of t0 dt i <= t < time_of t0 dt (S i) -> gives (piecewise_a samples vel t0 dt t) (ceval c t)) /\
  (forall i s, nth_error samples i = Some s -> gives (piecewise_a samples vel t0 dt (time_of t0 dt i)) s).
Proof.
  intros samples vel t0 dt n D EN EV. split.
  - intros c i t DG LI (p & EP & PP) (vl & EL & PL) (vh & EH & PH) T. unfold gives. rewrite (pa_at samples vel t0 dt t i p vl vh n D EN LI EP EL EH T). cbv zeta. eexists. split; [reflexivity|].
    destruct c as [[x y] z], DG as (DX & DY & DZ). destruct p as [[ax ay] az], vl as [[bx by_] bz], vh as [[cx cy] cz]. cbn [ceval velocity veq vadd vscale vsub] in *.
    assert (L : forall c p q r, (length c <= 3)%nat -> p == peval c (time_of t0 dt i) -> q == peval (deriv c) (time_of t0 dt i) -> r == peval (deriv c) (time_of t0 dt (S i)) ->
      p + (t - time_of t0 dt i) * q + (t - time_of t0 dt i) * (t - time_of t0 dt i) / 2 * (/ dt * (r + (-1 # 1) * q)) == peval c t).
    { intros c p q r LC P Q0 R. rewrite P, Q0, R. destruct c as [|c0 [|c1 [|c2 [|]]]]; cbn [length] in LC; try lia; unfold deriv; cbn [tl deriv_from peval];
      change (1 + 1)%Z with 2%Z; change (inject_Z 1) with 1; change (inject_Z 2) with 2; try rewrite time_succ; field; lra. }
    destruct PP as (A1 & A2 & A3), PL as (B1 & B2 & B3), PH as (C1 & C2 & C3). split; [|split]; apply L; auto.
  - intros i s E. assert (LI : (i < S n)%nat) by (rewrite <- EN; apply nth_error_Some; congruence). destruct (nth_error vel i) as [vl|] eqn:EL; [|apply nth_error_None in EL; lia]. destruct (Nat.eq_dec i n) as [->|NI].
    + apply (pa_end samples vel t0 dt (time_of t0 dt n) n s vl); auto. reflexivity.
    + destruct (nth_error vel (S i)) as [vh|] eqn:EH; [|apply nth_error_None in EH; lia]. unfold gives.
      rewrite (pa_at samples vel t0 dt (time_of t0 dt i) i s vl vh n D EN ltac:(lia) E EL EH) by (rewrite time_succ; lra). cbv zeta. eexists. split; [reflexivity|].
      destruct s as [[ax ay] az], vl as [[bx by_] bz], vh as [[cx cy] cz]. cbn [veq vadd vscale vsub]. split; [|split]; field; lra.
Qed.
Print Assumptions piecewise_acceleration_exact.

Definition quad : curve := ([1; 2; 3], [0; -1 # 1; 1], [5; 0; 0]).
Example piecewise_acceleration_met : let times := [0; 2; 4; 6] in
  gives (piecewise_a (map (ceval quad) times) (map (ceval (velocity quad)) times) 0 2 3) (ceval quad 3) /\ of_degree_below 3 quad.
Proof. cbv zeta. split; [eexists; split; [vm_compute; reflexivity|]; repeat split|cbn; lia]. Qed.

(** The expected claim, that the interpolated position is continuous at the samples,
    does not hold: the position reached from one sample is not the next sample unless
    the velocities agree with the positions (PositionInterp.cc:366-371). *)
Theorem piecewise_acceleration_continuous_refuted : ~ (forall samples vel t0 dt i s, 0 < dt -> length samples = length vel -> nth_error samples (S i) = Some s ->
  forall e, 0 < e -> exists d, 0 < d /\ forall t w, time_of t0 dt (S i) - d < t < time_of t0 dt (S i) -> piecewise_a samples vel t0 dt t = Ok w -> Qabs (px w - px s) < e).
Proof.
  intros H. destruct (H [(0, 0, 0); (5, 0, 0)] [(0, 0, 0); (0, 0, 0)] 0 1 0%nat (5, 0, 0) ltac:(reflexivity) ltac:(reflexivity) ltac:(reflexivity) 1 ltac:(reflexivity)) as (d & DP & X).
  pose (t := if Qlt_le_dec d 1 then 1 - (1 # 2) * d else 1 # 2). assert (T : 1 - d < t /\ 0 <= t < 1) by (unfold t; destruct (Qlt_le_dec d 1); split; [|split| |split]; lra).
  assert (E : gives (piecewise_a [(0, 0, 0); (5, 0, 0)] [(0, 0, 0); (0, 0, 0)] 0 1 t) (0, 0, 0)).
  { unfold gives. rewrite (pa_at [(0, 0, 0); (5, 0, 0)] [(0, 0, 0); (0, 0, 0)] 0 1 t 0 (0, 0, 0) (0, 0, 0) (0, 0, 0) 1); try reflexivity; [|auto|].
    - cbv zeta. eexists. split; [reflexivity|]. cbn [vadd vscale vsub veq]. repeat split; ring.
    - unfold time_of. cbn [Z.of_nat Pos.of_succ_nat Pos.succ]. change (inject_Z 0) with 0. change (inject_Z 1) with 1. lra. }
  destruct E as (w & E & V). specialize (X t w). assert (Y : time_of 0 1 1 == 1) by reflexivity. specialize (X ltac:(rewrite Y; lra) E). apply veq_px in V. destruct V as (V & _). change (px (0, 0, 0)) with 0 in V. change (px (5, 0, 0)) with 5 in X.
  rewrite V in X. vm_compute in X. discriminate.
Qed.
Print Assumptions piecewise_acceleration_continuous_refuted.

(** From each sample to the next one the answer is on a curve of degree three with the
    positions and the velocities of both, so positions and velocities are continuous;
    it is the only such curve. *)
Theorem hermite_matches_both_ends : forall samples vel t0 dt n i pl vl ph vh, 0 < dt -> length samples = S n ->
  nth_error samples i = Some pl -> nth_error vel i = Some vl -> nth_error samples (S i) = Some ph -> nth_error vel (S i) = Some vh ->
  exists c, of_degree_below 4 c /\
    (forall t, time_of t0 dt i <= t < time_of t0 dt (S i) -> gives (hermite samples vel t0 dt t) (ceval c t)) /\
    veq (ceval c (time_of t0 dt i)) pl /\ veq (ceval (velocity c) (time_of t0 dt i)) vl /\
    veq (ceval c (time_of t0 dt (S i))) ph /\ veq (ceval (velocity c) (time_of t0 dt (S i))) vh /\
    forall c' t, of_degree_below 4 c' -> veq (ceval c' (time_of t0 dt i)) pl -> veq (ceval (velocity c') (time_of t0 dt i)) vl ->
      veq (ceval c' (time_of t0 dt (S i))) ph -> veq (ceval (velocity c') (time_of t0 dt (S i))) vh -> veq (ceval c' t) (ceval c t).
Proof.
  intros samples vel t0 dt n i pl vl ph vh D EN EP EL EH EV. set (a := time_of t0 dt i).
  assert (PE : forall c x y, x == y -> peval c x == peval c y) by (induction c as [|c0 c IH]; intros x y AB; cbn [peval]; [reflexivity|]; rewrite (IH x y AB), AB; reflexivity).
  destruct pl as [[px_ py_] pz_], vl as [[vx vy] vz], ph as [[qx qy] qz], vh as [[wx wy] wz].
  exists (cubic a dt px_ vx qx wx, cubic a dt py_ vy qy wy, cubic a dt pz_ vz qz wz). split; [cbn; lia|].
  destruct (cubic_ends a dt px_ vx qx wx D) as (X1 & X2 & X3 & X4), (cubic_ends a dt py_ vy qy wy D) as (Y1 & Y2 & Y3 & Y4), (cubic_ends a dt pz_ vz qz wz D) as (Z1 & Z2 & Z3 & Z4).
  split; [|split; [|split; [|split; [|split]]]].
  - intros t T. unfold gives. rewrite (hermite_at samples vel t0 dt t i n _ _ _ _ D EN EP EL EH EV T). cbv zeta. eexists. split; [reflexivity|]. fold a. cbn [ceval]. 
    pose proof (cubic_val a dt px_ vx qx wx t D) as CX. pose proof (cubic_val a dt py_ vy qy wy t D) as CY. pose proof (cubic_val a dt pz_ vz qz wz t D) as CZ. cbv zeta in CX, CY, CZ.
    cbn [vadd vscale veq]. rewrite CX, CY, CZ. repeat split; reflexivity.
  - cbn [ceval veq]. auto.
  - cbn [ceval velocity veq]. auto.
  - cbn [ceval veq]. rewrite !(PE _ _ _ (time_succ t0 dt i)). fold a. auto.
  - cbn [ceval velocity veq]. rewrite !(PE _ _ _ (time_succ t0 dt i)). fold a. auto.
  - assert (U : forall c p v q w t, (length c <= 4)%nat -> peval c a == p -> peval (deriv c) a == v -> peval c (a + dt) == q -> peval (deriv c) (a + dt) == w -> peval c t == peval (cubic a dt p v q w) t).
    { intros c p v q w t LC P V Q0 W. rewrite (cubic_val a dt p v q w t D). cbv zeta. rewrite <- P, <- V, <- Q0, <- W. clear P V Q0 W.
      destruct c as [|c0 [|c1 [|c2 [|c3 [|]]]]]; cbn [length] in LC; try lia; unfold deriv; cbn [tl deriv_from peval];
      change (1 + 1 + 1)%Z with 3%Z; change (1 + 1)%Z with 2%Z; change (inject_Z 1) with 1; change (inject_Z 2) with 2; change (inject_Z 3) with 3; field; lra. }
    intros [[x y] z] t (DX & DY & DZ) P V Q0 W. cbn [ceval velocity veq] in *.
    destruct P as (P1 & P2 & P3), V as (V1 & V2 & V3), Q0 as (Q1 & Q2 & Q3), W as (W1 & W2 & W3).
    assert (TS : forall c r, peval c (time_of t0 dt (S i)) == r -> peval c (a + dt) == r) by (intros c r Z0; rewrite <- Z0; symmetry; apply PE, time_succ).
    apply TS in Q1, Q2, Q3, W1, W2, W3. split; [|split]; apply U; auto.
Qed.
Print Assumptions hermite_matches_both_ends.

Example hermite_met : gives (hermite pts pts 10 2 13) (7 # 4, 7 # 2, -1 # 2).
Proof. eexists. split; [vm_compute; reflexivity|]. repeat split. Qed.

(** The expected claim, that every time up to and including that of the last sample is
    served, does not hold: the last one is refused (PositionInterp.cc:437), while the
    interpolation with piecewise acceleration serves it. *)
Theorem hermite_serves_last_sample_refuted : ~ (forall samples vel t0 dt n s, 0 < dt -> length samples = S n -> length vel = S n -> (1 <= n)%nat -> nth_error samples n = Some s ->
  gives (hermite samples vel t0 dt (time_of t0 dt n)) s).
Proof.
  intros H. destruct (H pts pts 10 2 4%nat (16, 0, 0) ltac:(reflexivity) ltac:(reflexivity) ltac:(reflexivity) ltac:(lia) ltac:(reflexivity)) as (v & E & _). vm_compute in E. discriminate.
Qed.
Print Assumptions hermite_serves_last_sample_refuted.

(** The expected claim, that fewer velocities than positions are noticed, does not
    hold: neither constructor compares the two, and the velocity is then read past its
    end (PositionInterp.cc:366, 448). *)
Theorem velocities_counted_refuted : ~ (forall samples vel t0 dt t, 0 < dt -> hermite samples vel t0 dt t <> UB OutOfBounds).
Proof. intros H. apply (H pts [(0, 0, 0)] 10 2 13 ltac:(reflexivity)). vm_compute. reflexivity. Qed.
Print Assumptions velocities_counted_refuted.

(** ** Weighted means *)

(** For a positive weight function and a sort by descending weights: the weights
    returned are those of the samples of largest weight, positive, in proportion to the
    weight function, and sum up to one; each sample is used once. *)
Theorem weights_normalised : forall weight sort t0 dt t n num, (forall x, 0 < weight x) -> (forall l, Permutation (sort l) l) ->
  (forall l, StronglySorted (fun a b => fst b <= fst a) (sort l)) -> ~ dt == 0 -> (0 < n)%nat -> (0 < num)%Z ->
  exists ws, wts_and_indices weight sort t0 dt t (Z.of_nat n) num = Ok ws /\ length ws = Nat.min n (Z.to_nat num) /\
    NoDup (map snd ws) /\ (forall i, In i (map snd ws) -> (0 <= i < Z.of_nat n)%Z) /\
    (forall w, In w ws -> 0 < fst w) /\ fold_right (fun w s => fst w + s) 0 ws == 1 /\
    (let raw i := weight ((t0 + dt * inject_Z i - t) / dt) in
     (exists s, 0 < s /\ forall w, In w ws -> fst w * s == raw (snd w)) /\
     (forall i k, In i (map snd ws) -> (0 <= k < Z.of_nat n)%Z -> ~ In k (map snd ws) -> raw k <= raw i)).
Proof.
  intros weight sort t0 dt t n num POS PERM DESC D N NW. destruct (weights_ok weight sort POS PERM DESC t0 dt t D n num N NW) as (kept & ws & E & L & -> & ND & IN & P & T & C & S0).
  exists ws. do 6 (split; [assumption|]). cbv zeta. split; assumption.
Qed.
Print Assumptions weights_normalised.

(** The answer is then a weighted mean of samples: each coordinate is within the
    bounds of that coordinate among the samples. *)
Theorem smooth_position_within_samples : forall weight sort samples t0 dt num t, (forall x, 0 < weight x) -> (forall l, Permutation (sort l) l) ->
  (forall l, StronglySorted (fun a b => fst b <= fst a) (sort l)) -> ~ dt == 0 -> (0 < num)%Z -> (1 < length samples)%nat ->
  (t < t0 \/ t0 + dt * inject_Z (Z.of_nat (length samples) - 1) < t -> smooth_piecewise weight sort samples t0 dt num t = Throw ArgumentErr) /\
  (t0 <= t <= t0 + dt * inject_Z (Z.of_nat (length samples) - 1) -> exists v, smooth_piecewise weight sort samples t0 dt num t = Ok v /\
     forall lo hi, ((forall s, In s samples -> lo <= px s <= hi) -> lo <= px v <= hi) /\
                   ((forall s, In s samples -> lo <= py s <= hi) -> lo <= py v <= hi) /\
                   ((forall s, In s samples -> lo <= pz s <= hi) -> lo <= pz v <= hi)).
Proof.
  intros weight sort samples t0 dt num t POS PERM DESC D NW N. unfold smooth_piecewise. unfold size. destruct (Z.leb_spec (Z.of_nat (length samples)) 1); [lia|]. unfold tend, size. split.
  - intros O. destruct (leqP t0 t); cbn [andb negb]; auto. destruct (leqP t (t0 + dt * inject_Z (Z.of_nat (length samples) - 1))); cbn [negb]; auto. lra.
  - intros (T0 & T1). destruct (leqP t0 t); [|lra]. destruct (leqP t (t0 + dt * inject_Z (Z.of_nat (length samples) - 1))); [|lra]. cbn [andb negb].
    destruct (weights_ok weight sort POS PERM DESC t0 dt t D (length samples) num ltac:(lia) NW) as (kept & ws & E & L & -> & ND & IN & P & T & _). rewrite E. cbn [bind].
    destruct (smooth_fold samples ws vzero) as (v & Ev & V). { intros w I. apply IN. now apply in_map. }
    exists v. split; [exact Ev|]. intros lo hi.
    assert (G : forall p : v3 -> Q, p vzero == 0 -> (forall a k b, p (vadd a (vscale k b)) = p a + k * p b) -> (forall s, In s samples -> lo <= p s <= hi) -> lo <= p v <= hi).
    { intros p PZ PL B. rewrite (V p PL), PZ. pose proof (average_bounds (fun i => p (nth (Z.to_nat i) samples vzero)) lo hi ws P) as A. cbv beta in A.
      assert (BB : forall w, In w ws -> lo <= p (nth (Z.to_nat (snd w)) samples vzero) <= hi).
      { intros w I. apply B. apply nth_In. specialize (IN (snd w) (in_map snd ws w I)). lia. }
      specialize (A BB). rewrite T in A. set (r := fold_right _ 0 ws) in *. clearbody r. lra. }
    split; [|split]; apply G; try reflexivity; intros a k b; apply vcomb.
Qed.
Print Assumptions smooth_position_within_samples.

(** Sorting by insertion, for the examples. *)
Fixpoint insert (x : Q * Z) (l : list (Q * Z)) : list (Q * Z) :=
  match l with [] => [x] | y :: l' => if Qle_bool (fst y) (fst x) then x :: l else y :: insert x l' end.
Definition isort (l : list (Q * Z)) : list (Q * Z) := fold_right insert [] l.
Lemma insert_perm x : forall l, Permutation (insert x l) (x :: l).
Proof. induction l as [|y l IH]; cbn [insert]; auto. destruct (Qle_bool (fst y) (fst x)); auto. rewrite IH. apply perm_swap. Qed.
Lemma isort_perm l : Permutation (isort l) l.
Proof. induction l as [|x l IH]; cbn [isort fold_right]; auto. rewrite insert_perm. auto. Qed.
Lemma isort_sorted l : StronglySorted (fun a b => fst b <= fst a) (isort l).
Proof.
  induction l as [|x l IH]; cbn [isort fold_right]; [constructor|]. change (fold_right insert [] l) with (isort l). generalize dependent (isort l). clear l. induction l as [|y l IL]; intros SS; cbn [insert]; [repeat constructor|].
  inversion SS as [|? ? S1 S2]; subst. rewrite Forall_forall in S2. destruct (leqP (fst y) (fst x)) as [A|A].
  - constructor; auto. constructor; auto. rewrite Forall_forall. intros z I. specialize (S2 z I). lra.
  - constructor; auto. rewrite Forall_forall. intros z I. apply (Permutation_in _ (insert_perm x l)) in I. destruct I as [<-|I]; [lra|auto].
Qed.

Definition hill (x : Q) : Q := 1 / (1 + x * x).
Example weights_met : (forall x, 0 < hill x) /\ gives (smooth_piecewise hill isort pts 10 2 3 14) (9 # 2, 5, -3 # 4).
Proof.
  split.
  - intros x. unfold hill. apply Qlt_shift_div_l; nra.
  - eexists. split; [vm_compute; reflexivity|]. repeat split.
Qed.

(** The expected claim, that the answer is within the bounds of the samples whatever
    number of weights was asked for, does not hold: with no weights, which the
    constructor accepts, the answer is the origin (PositionInterp.cc:136-158). *)
Theorem smooth_position_any_number_refuted : ~ (forall weight sort samples t0 dt num t v lo hi, (forall x, 0 < weight x) -> (forall l, Permutation (sort l) l) ->
  (forall l, StronglySorted (fun a b => fst b <= fst a) (sort l)) -> 0 < dt -> (0 <= num)%Z -> smooth_piecewise weight sort samples t0 dt num t = Ok v ->
  (forall s, In s samples -> lo <= px s <= hi) -> lo <= px v <= hi).
Proof.
  intros H. specialize (H hill isort [(5, 5, 5); (6, 6, 6)] 0 1 0%Z 0 vzero 5 6 (proj1 weights_met) isort_perm isort_sorted ltac:(reflexivity) ltac:(lia) ltac:(vm_compute; reflexivity)).
  destruct H as (H & _); [intros s [<-|[<-|[]]]; split; vm_compute; discriminate|]. vm_compute in H. apply H. reflexivity.
Qed.
Print Assumptions smooth_position_any_number_refuted.

(** ** Times of lines *)

(** With at least two entries in ascending lines, the time of a line is on the segment
    between the entries before and after it; the first and the last segment are
    continued beyond the table.  So at the line of an entry it is the entry's time, plus
    the offset. *)
Theorem line_times_on_segments : forall offset pre l0 s0 l1 s1 post line,
  ascending (map fst (pre ++ (l0, s0) :: (l1, s1) :: post)) -> (pre <> [] -> l0 <= line) -> (post <> [] -> line <= l1) ->
  exists v, tlc_time offset (pre ++ (l0, s0) :: (l1, s1) :: post) line = Ok v /\ v == offset + s0 + (line - l0) * ((s1 - s0) / (l1 - l0)).
Proof.
  intros offset pre l0 s0 l1 s1 post line A LO HI. unfold tlc_time. rewrite (table_ok offset _ [] A) by (intros; contradiction). cbn [bind app].
  destruct (find_seg offset line pre None (l0, s0) (l1, s1) post A) as (p & E & V); auto.
  - intros [X|X]; [apply LO; auto|congruence].
  - intros p X. discriminate.
  - rewrite E. destruct p as [slope b]. eexists. split; [reflexivity|]. exact V.
Qed.
Print Assumptions line_times_on_segments.

Theorem line_times_at_entries : forall offset tlc l s, ascending (map fst tlc) -> (2 <= length tlc)%nat -> In (l, s) tlc -> exists v, tlc_time offset tlc l = Ok v /\ v == offset + s.
Proof.
  intros offset tlc l s A L I. apply in_split in I. destruct I as (pre & post & ->). 
  assert (ASC : forall pre x y post, ascending (map fst (pre ++ x :: y :: post : list (Q * Q))) -> fst x < fst y).
  { clear. induction pre as [|q pre IH]; intros x y post A; cbn [app map] in A; inversion A as [|? ? A1 A2]; subst; [|eauto]. rewrite Forall_forall in A2. apply A2. now left. }
  destruct post as [|[l1 s1] post].
  - destruct (exists_last (l := pre)) as (pre' & (l0 & s0) & ->); [intros ->; cbn in L; lia|]. rewrite <- app_assoc in *. cbn [app] in *. specialize (ASC _ _ _ _ A) as LT. cbn [fst] in LT.
    destruct (line_times_on_segments offset pre' l0 s0 l s [] l A) as (v & E & V); [lra|congruence|]. exists v. split; auto. rewrite V. field. lra.
  - specialize (ASC _ _ _ _ A) as LT. cbn [fst] in LT. destruct (line_times_on_segments offset pre l s l1 s1 post l A) as (v & E & V); [lra|lra|]. exists v. split; auto. rewrite V. field. lra.
Qed.
Print Assumptions line_times_at_entries.

Example line_times_met : ascending (map fst [(0, 100); (10, 110); (30, 150)]) /\
  tlc_time 1 [(0, 100); (10, 110); (30, 150)] 20 = Ok (20 * (40 # 20) + (1 + 110 - (40 # 20) * 10)) /\ exists v, tlc_time 1 [(0, 100); (10, 110); (30, 150)] 40 = Ok v /\ v == 171.
Proof. split; [repeat constructor|]. split; [reflexivity|]. eexists. split; [vm_compute; reflexivity|reflexivity]. Qed.

(** The expected claim, that a table of one entry is refused or used, does not hold: the
    maps stay empty and the end iterator is used (TimeInterp.cc:60-66). *)
Theorem line_times_any_table_refuted : ~ (forall offset tlc line, ascending (map fst tlc) -> tlc_time offset tlc line <> UB BadIter).
Proof. intros H. apply (H 0 [(0, 100)] 5); [repeat constructor|vm_compute; reflexivity]. Qed.
Print Assumptions line_times_any_table_refuted.

(** ** A table of directions *)

(** Inside the table the answer is the interpolation of the four directions around the
    place, first along the rows and then along the columns. *)
Theorem direction_table_surrounds : forall (D : Type) (slerp extrapolate : Q -> D -> D -> D) directions n m row0 drow col0 dcol col row,
  length directions = S n -> (forall r, In r directions -> length r = S m) -> 0 < drow -> 0 < dcol ->
  row0 <= row -> row <= time_of row0 drow n -> col0 <= col -> col <= time_of col0 dcol m ->
  exists i i' j j' u v ra rb ll lh hl hh, (i <= i' <= S i)%nat /\ (j <= j' <= S j)%nat /\
    time_of row0 drow i <= row /\ row < time_of row0 drow (S i) /\ row <= time_of row0 drow i' /\ (i' = i -> row == time_of row0 drow i) /\
    time_of col0 dcol j <= col /\ col < time_of col0 dcol (S j) /\ col <= time_of col0 dcol j' /\ (j' = j -> col == time_of col0 dcol j) /\
    u == (row - time_of row0 drow i) / drow /\ v == (col - time_of col0 dcol j) / dcol /\
    nth_error directions i = Some ra /\ nth_error directions i' = Some rb /\
    nth_error ra j = Some ll /\ nth_error ra j' = Some lh /\ nth_error rb j = Some hl /\ nth_error rb j' = Some hh /\
    grid slerp extrapolate directions row0 drow col0 dcol col row = Ok (slerp v (slerp u ll hl) (slerp u lh hh)).
Proof.
  intros D slerp extrapolate directions n m row0 drow col0 dcol col row N M DR DC R0 R1 C0 C1.
  destruct (grid_in D slerp extrapolate directions n m row0 drow col0 dcol N M DR DC col row) as (i & i' & j & j' & u & v & ll & hl & lh & hh & I1 & I2 & J1 & J2 & T1 & T2' & T2 & T3 & T4 & T5' & T5 & T6 & U & V & Ell & Ehl & Elh & Ehh & E); auto; try (rewrite time_zero; auto).
  assert (CE : forall i j d, cell directions (Z.of_nat i) (Z.of_nat j) = Ok d -> exists r, nth_error directions i = Some r /\ nth_error r j = Some d).
  { clear. intros i j d X. unfold cell in X. apply bind_ok in X. destruct X as (r & A & B). exists r. unfold get in *. destruct (Z.ltb_spec (Z.of_nat i) 0); [lia|]. destruct (Z.ltb_spec (Z.of_nat j) 0); [lia|].
    rewrite Nat2Z.id in *. destruct (nth_error directions i); [|discriminate]. injection A as ->. destruct (nth_error r j); [|discriminate]. injection B as ->. auto. }
  destruct (CE _ _ _ Ell) as (ra & A1 & A2), (CE _ _ _ Elh) as (ra' & A3 & A4), (CE _ _ _ Ehl) as (rb & B1 & B2), (CE _ _ _ Ehh) as (rb' & B3 & B4).
  assert (ra' = ra) as -> by congruence. assert (rb' = rb) as -> by congruence. exists i, i', j, j', u, v, ra, rb, ll, lh, hl, hh.
  do 2 (split; [lia|]). do 16 (split; [assumption|]). exact E.
Qed.
Print Assumptions direction_table_surrounds.

(** At the entries of the table the answer is the entry. *)
Theorem direction_table_at_entries : forall (D : Type) (slerp extrapolate : Q -> D -> D -> D) directions n m row0 drow col0 dcol r c d line,
  (forall x a b, x == 0 -> slerp x a b = a) -> length directions = S n -> (forall r, In r directions -> length r = S m) -> 0 < drow -> 0 < dcol ->
  nth_error directions r = Some line -> nth_error line c = Some d ->
  grid slerp extrapolate directions row0 drow col0 dcol (time_of col0 dcol c) (time_of row0 drow r) = Ok d.
Proof.
  intros D slerp extrapolate directions n m row0 drow col0 dcol r c d line SZ N M DR DC ER EC.
  assert (LR : (r < S n)%nat) by (rewrite <- N; apply nth_error_Some; congruence). assert (LC : (c < S m)%nat) by (rewrite <- (M line (nth_error_In _ _ ER)); apply nth_error_Some; congruence).
  pose proof (time_mono row0 drow 0 r DR ltac:(lia)) as A1. pose proof (time_mono row0 drow r n DR ltac:(lia)) as A2. pose proof (time_mono col0 dcol 0 c DC ltac:(lia)) as B1. pose proof (time_mono col0 dcol c m DC ltac:(lia)) as B2.
  rewrite time_zero in A1, B1.
  destruct (direction_table_surrounds D slerp extrapolate directions n m row0 drow col0 dcol (time_of col0 dcol c) (time_of row0 drow r) N M DR DC A1 A2 B1 B2)
    as (i & i' & j & j' & u & v & ra & rb & ll & lh & hl & hh & I & J & T1 & T2' & T2 & T3 & T4 & T5' & T5 & T6 & U & V & E1 & E2 & E3 & E4 & E5 & E6 & E).
  assert (G : forall x0 dx k i, 0 < dx -> time_of x0 dx i <= time_of x0 dx k -> time_of x0 dx k < time_of x0 dx (S i) -> i = k).
  { clear. intros x0 dx k i D A B. destruct (Nat.lt_trichotomy i k) as [L|[L|L]]; auto; [|pose proof (time_lt x0 dx k i D L); lra]. pose proof (time_mono x0 dx (S i) k D L). lra. }
  assert (i = r) as -> by (apply (G row0 drow r i DR); auto). assert (j = c) as -> by (apply (G col0 dcol c j DC); auto).
  rewrite E. assert (u == 0) by (rewrite U; field; lra). assert (v == 0) by (rewrite V; field; lra). rewrite (SZ v), (SZ u) by auto. congruence.
Qed.
Print Assumptions direction_table_at_entries.

(** The mean of numbers stands for the interpolation of directions. *)
Definition mix (x a b : Q) : Q := a + x * (b - a).
Example direction_table_met : grid mix mix [[0; 10; 20]; [100; 110; 120]] 0 2 0 4 6 1 = Ok (mix ((6 - (0 + 4 * 1)) / 4) (mix ((1 - (0 + 2 * 0)) / 2) 10 110) (mix ((1 - (0 + 2 * 0)) / 2) 20 120)) /\
  (exists v, grid mix mix [[0; 10; 20]; [100; 110; 120]] 0 2 0 4 8 2 = Ok v /\ v == 120).
Proof. split; [reflexivity|]. eexists. split; [vm_compute; reflexivity|reflexivity]. Qed.

(** The expected claim, that columns out of the table, which are not refused but
    extrapolated, are served, does not hold: on the right the coordinate of the last
    column is taken for its index (QuatInterp.cc:299-300), and the row is read past its
    end unless columns are one apart from zero. *)
Theorem direction_table_right_of_table_refuted : ~ (forall (D : Type) (slerp extrapolate : Q -> D -> D -> D) directions n m row0 drow col0 dcol col row,
  length directions = S n -> (forall r, In r directions -> length r = S m) -> (1 <= m)%nat -> 0 < drow -> 0 < dcol -> row0 <= row -> row <= time_of row0 drow n ->
  grid slerp extrapolate directions row0 drow col0 dcol col row <> UB OutOfBounds).
Proof.
  intros H. apply (H Q mix mix [[0; 10; 20]; [100; 110; 120]] 1%nat 2%nat 0 2 0 4 9 1); try reflexivity; [intros r [<-|[<-|[]]]; reflexivity|auto|vm_compute; discriminate|vm_compute; discriminate].
Qed.
Print Assumptions direction_table_right_of_table_refuted.

(** The expected claim, that a table linear in the column is continued linearly to the
    left, does not hold: the parameter is taken relative to the whole width of the
    table but applied to the first two columns (QuatInterp.cc:334-338). *)
Theorem direction_table_linear_left_refuted : ~ (forall (k : Q) m row0 col0 dcol col v, 0 < dcol -> (1 <= m)%nat -> col < col0 ->
  grid mix mix [map (fun j => k * time_of col0 dcol j) (seq 0 (S m))] row0 1 col0 dcol col row0 = Ok v -> v == k * col).
Proof.
  intros H. assert (E : exists v, grid mix mix [map (fun j => 1 * time_of 0 1 j) (seq 0 5)] 0 1 0 1 (-4 # 1) 0 = Ok v /\ ~ v == 1 * (-4 # 1)).
  { eexists. split; [vm_compute; reflexivity|]. vm_compute. discriminate. }
  destruct E as (v & E & N). apply N. exact (H 1 4%nat 0 0 1 (-4 # 1) v ltac:(reflexivity) ltac:(auto) ltac:(reflexivity) E).
Qed.
Print Assumptions direction_table_linear_left_refuted.
