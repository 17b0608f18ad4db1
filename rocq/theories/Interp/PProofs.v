From Coq Require Import List ZArith QArith Qround Qabs Bool Lia Lqa Sorting.Sorted Permutation.
From Verif Require Import Lib.Base Lib.Lists Interp.Model Interp.Spec Interp.Poly Interp.LProofs Interp.CProofs.
Import ListNotations.
Open Scope Q_scope.

Lemma time_at t0 dt i : time_of t0 dt i = at_time t0 dt (Z.of_nat i).
Proof. reflexivity. Qed.
Lemma time_succ t0 dt i : time_of t0 dt (S i) == time_of t0 dt i + dt.
Proof. unfold time_of. replace (Z.of_nat (S i)) with (Z.of_nat i + 1)%Z by lia. rewrite inj1. ring. Qed.
Lemma tend_time {X} (l : list X) t0 dt n : length l = S n -> tend l t0 dt = time_of t0 dt n.
Proof. intros E. unfold tend, time_of, size. rewrite E. do 3 f_equal. lia. Qed.
Lemma time_mono t0 dt i j : 0 < dt -> (i <= j)%nat -> time_of t0 dt i <= time_of t0 dt j.
Proof. intros D L. unfold time_of. assert (X := inj_le (Z.of_nat i) (Z.of_nat j) ltac:(lia)). set (a := inject_Z (Z.of_nat i)) in *. set (b := inject_Z (Z.of_nat j)) in *. clearbody a b. nra. Qed.
Lemma time_lt t0 dt i j : 0 < dt -> (i < j)%nat -> time_of t0 dt i < time_of t0 dt j.
Proof. intros D L. unfold time_of. assert (X := inj_lt (Z.of_nat i) (Z.of_nat j) ltac:(lia)). set (a := inject_Z (Z.of_nat i)) in *. set (b := inject_Z (Z.of_nat j)) in *. clearbody a b. nra. Qed.
Lemma time_zero t0 dt : time_of t0 dt 0 == t0.
Proof. unfold time_of. change (inject_Z (Z.of_nat 0)) with 0. ring. Qed.

Lemma floor_is x z : inject_Z z <= x -> x < inject_Z z + 1 -> Qfloor x = z.
Proof.
  intros A B. destruct (floor_spec x) as (C & D). assert (X : (Qfloor x < z + 1)%Z) by (apply inj_lt'; rewrite inj1; lra). assert (Y : (z < Qfloor x + 1)%Z) by (apply inj_lt'; rewrite inj1; lra). lia.
Qed.
Lemma ceil_is x z : inject_Z z - 1 < x -> x <= inject_Z z -> Qceiling x = z.
Proof.
  intros A B. destruct (ceil_spec x) as (C & D). assert (X : (Qceiling x < z + 1)%Z) by (apply inj_lt'; rewrite inj1; lra).
  assert (Y : (z < Qceiling x + 1)%Z) by (apply inj_lt'; rewrite inj1; lra). lia.
Qed.

Section Step.
Variables (t0 dt t : Q) (i : nat).
Hypothesis D : 0 < dt.
Hypothesis LO : time_of t0 dt i <= t.
Hypothesis HI : t < time_of t0 dt (S i).
Lemma u_range : inject_Z (Z.of_nat i) <= (t - t0) / dt /\ (t - t0) / dt < inject_Z (Z.of_nat i) + 1.
Proof.
  pose proof LO as A. pose proof HI as B. rewrite time_succ in B. unfold time_of in A, B. set (q := inject_Z (Z.of_nat i)) in *. clearbody q.
  set (u := (t - t0) / dt) in *. assert (E : t == t0 + dt * u) by (unfold u; field; lra). clearbody u. split; nra.
Qed.
Lemma low_is : Qfloor ((t - t0) / dt) = Z.of_nat i.
Proof. destruct u_range. now apply floor_is. Qed.
Lemma high_is : Qceiling ((t - t0) / dt) = Z.of_nat i \/ Qceiling ((t - t0) / dt) = Z.of_nat (S i).
Proof.
  destruct u_range as (A & B). destruct (Qlt_le_dec (inject_Z (Z.of_nat i)) ((t - t0) / dt)) as [L|L].
  - right. apply ceil_is; replace (Z.of_nat (S i)) with (Z.of_nat i + 1)%Z by lia; rewrite inj1; lra.
  - left. apply ceil_is; lra.
Qed.
Lemma high_low : Qceiling ((t - t0) / dt) = Z.of_nat i -> t == time_of t0 dt i.
Proof.
  intros E. destruct u_range as (A & B). destruct (ceil_spec ((t - t0) / dt)) as (C & _). rewrite E in C. unfold time_of. set (q := inject_Z (Z.of_nat i)) in *. clearbody q.
  assert (X : (t - t0) / dt == q) by lra. assert (Y : t == t0 + dt * ((t - t0) / dt)) by (field; lra). rewrite X in Y. exact Y.
Qed.
End Step.

Lemma get_nth {X} (l : list X) i x : nth_error l i = Some x -> get l (Z.of_nat i) = Ok x.
Proof. intros E. unfold get. destruct (Z.ltb_spec (Z.of_nat i) 0); [lia|]. rewrite Nat2Z.id, E. reflexivity. Qed.

(** ** Linear *)

Definition lerp (a b : v3) (x : Q) : v3 := vadd a (vscale x (vsub b a)).

Lemma linear_in samples t0 dt t i a b : 0 < dt -> nth_error samples i = Some a -> nth_error samples (S i) = Some b ->
  time_of t0 dt i <= t <= time_of t0 dt (S i) -> gives (linear_piecewise samples t0 dt t) (lerp a b ((t - time_of t0 dt i) / dt)).
Proof.
  intros D A B (L & H). assert (LB : (S i < length samples)%nat) by (apply nth_error_Some; congruence). unfold linear_piecewise.
  destruct (length samples) as [|n] eqn:EN; [lia|]. rewrite (tend_time samples t0 dt n EN). pose proof (time_mono t0 dt 0 i D ltac:(lia)) as T0. rewrite time_zero in T0. pose proof (time_mono t0 dt (S i) n D ltac:(lia)) as T1.
  assert (EPS : 0 < eps) by reflexivity. destruct (leqP t0 t); [|lra]. destruct (leqP t (time_of t0 dt n + eps)); [|lra]. cbn [andb negb]. rewrite divq_ok by lra. cbn [bind].
  unfold size. rewrite EN. destruct (Qlt_le_dec t (time_of t0 dt (S i))) as [H'|H'].
  - rewrite (low_is t0 dt t i D L H'). assert (HS := high_is t0 dt t i D L H').
    assert (NE : (Qceiling ((t - t0) / dt) =? Z.of_nat (S n))%Z = false) by (apply Z.eqb_neq; lia). rewrite NE, andb_false_r.
    destruct (Z.leb_spec 0 (Z.of_nat i)); [|lia]. destruct (Z.ltb_spec (Qceiling ((t - t0) / dt)) (Z.of_nat (S n))); [|lia]. cbn [andb negb]. rewrite divq_ok by lra. cbn [bind].
    rewrite (get_nth samples i a A). cbn [bind]. fold (time_of t0 dt i). destruct HS as [HS|HS]; rewrite HS.
    + rewrite (get_nth samples i a A). cbn [bind]. eexists. split; [reflexivity|]. apply (high_low t0 dt t i D L H') in HS.
      assert (Z0 : (t - time_of t0 dt i) / dt == 0) by (rewrite HS; field; lra). set (x := (t - time_of t0 dt i) / dt) in *. clearbody x. destruct a as [[a1 a2] a3], b as [[b1 b2] b3]. unfold lerp. cbn.
      split; [|split]; rewrite Z0; ring.
    + rewrite (get_nth samples (S i) b B). cbn [bind]. eexists. split; [reflexivity|]. unfold lerp. apply veq_px. repeat split; reflexivity.
  - assert (E : t == time_of t0 dt (S i)) by lra. assert (L2 : time_of t0 dt (S i) <= t) by lra. assert (H2 : t < time_of t0 dt (S (S i))) by (rewrite time_succ; lra).
    rewrite (low_is t0 dt t (S i) D L2 H2). assert (CE : Qceiling ((t - t0) / dt) = Z.of_nat (S i)).
    { rewrite E. unfold time_of. apply ceil_is.
      - assert (X : (t0 + dt * inject_Z (Z.of_nat (S i)) - t0) / dt == inject_Z (Z.of_nat (S i))) by (field; lra). rewrite X. lra.
      - assert (X : (t0 + dt * inject_Z (Z.of_nat (S i)) - t0) / dt == inject_Z (Z.of_nat (S i))) by (field; lra). rewrite X. lra. }
    rewrite CE. destruct (Z.eqb_spec (Z.of_nat (S i)) (Z.of_nat (S n))); [lia|]. rewrite andb_false_r. destruct (Z.leb_spec 0 (Z.of_nat (S i))); [|lia]. destruct (Z.ltb_spec (Z.of_nat (S i)) (Z.of_nat (S n))); [|lia]. cbn [andb negb].
    rewrite divq_ok by lra. cbn [bind]. rewrite (get_nth samples (S i) b B). cbn [bind]. eexists. split; [reflexivity|].
    fold (time_of t0 dt (S i)). assert (Z0 : (t - time_of t0 dt (S i)) / dt == 0) by (rewrite E; field; lra). assert (Z1 : (t - time_of t0 dt i) / dt == 1) by (rewrite E, time_succ; field; lra).
    set (x := (t - time_of t0 dt i) / dt) in *. set (y := (t - time_of t0 dt (S i)) / dt) in *. clearbody x y. unfold lerp. destruct a as [[a1 a2] a3], b as [[b1 b2] b3]. cbn.
    split; [|split]; rewrite Z0, Z1; ring.
Qed.

Lemma linear_last samples t0 dt t n a : eps <= dt -> length samples = S n -> nth_error samples n = Some a ->
  time_of t0 dt n <= t < time_of t0 dt n + eps -> gives (linear_piecewise samples t0 dt t) a.
Proof.
  intros DE EN A (L & H). assert (EPS : 0 < eps) by reflexivity. assert (D : 0 < dt) by lra. unfold linear_piecewise. rewrite (tend_time samples t0 dt n EN). pose proof (time_mono t0 dt 0 n D ltac:(lia)) as T0. rewrite time_zero in T0.
  destruct (leqP t0 t); [|lra]. destruct (leqP t (time_of t0 dt n + eps)); [|lra]. cbn [andb negb]. rewrite divq_ok by lra. cbn [bind]. unfold size. rewrite EN.
  assert (H' : t < time_of t0 dt (S n)) by (rewrite time_succ; lra). rewrite (low_is t0 dt t n D L H').
  assert (AB : ltq (Qabs (t - time_of t0 dt n)) eps = true). { destruct (ltqP (Qabs (t - time_of t0 dt n)) eps) as [X|X]; auto. rewrite Qabs_pos in X by lra. lra. }
  rewrite AB. cbn [andb]. assert (HS := high_is t0 dt t n D L H').
  assert (HL : (if (Qceiling ((t - t0) / dt) =? Z.of_nat (S n))%Z then Z.of_nat n else Qceiling ((t - t0) / dt)) = Z.of_nat n).
  { destruct (Z.eqb_spec (Qceiling ((t - t0) / dt)) (Z.of_nat (S n))); auto. destruct HS; congruence. }
  rewrite HL. destruct (Z.leb_spec 0 (Z.of_nat n)); [|lia]. destruct (Z.ltb_spec (Z.of_nat n) (Z.of_nat (S n))); [|lia]. cbn [andb negb]. rewrite divq_ok by lra. cbn [bind].
  rewrite (get_nth samples n a A). cbn [bind]. eexists. split; [reflexivity|]. destruct a as [[a1 a2] a3]. cbn. split; [|split]; ring.
Qed.

Lemma linear_out samples t0 dt t n : 0 < dt -> length samples = S n -> t < t0 \/ time_of t0 dt n + eps <= t -> linear_piecewise samples t0 dt t = Throw ArgumentErr.
Proof.
  intros D EN O. unfold linear_piecewise. rewrite (tend_time samples t0 dt n EN). assert (EPS : 0 < eps) by reflexivity. pose proof (time_mono t0 dt 0 n D ltac:(lia)) as T0. rewrite time_zero in T0.
  destruct (leqP t0 t); cbn [andb negb]; auto. destruct (leqP t (time_of t0 dt n + eps)) as [B|B]; cbn [negb]; auto. destruct O as [O|O]; [lra|]. rewrite divq_ok by lra. cbn [bind].
  destruct (ltqP (Qabs (t - time_of t0 dt n)) eps) as [X|X].
  { rewrite Qabs_pos in X by lra. lra. }
  cbn [andb]. unfold size. rewrite EN. assert (C : (Z.of_nat n < Qceiling ((t - t0) / dt))%Z).
  { apply inj_lt'. destruct (ceil_spec ((t - t0) / dt)) as (C & _). unfold time_of in O. set (q := inject_Z (Z.of_nat n)) in *. clearbody q. set (u := (t - t0) / dt) in *. assert (E : t == t0 + dt * u) by (unfold u; field; lra). clearbody u. nra. }
  destruct (Z.ltb_spec (Qceiling ((t - t0) / dt)) (Z.of_nat (S n))); [lia|]. rewrite andb_false_r. reflexivity.
Qed.

(** ** Positions and velocities *)

Lemma pa_at samples vel t0 dt t i p vl vh n : 0 < dt -> length samples = S n -> (i < n)%nat ->
  nth_error samples i = Some p -> nth_error vel i = Some vl -> nth_error vel (S i) = Some vh ->
  time_of t0 dt i <= t < time_of t0 dt (S i) ->
  piecewise_a samples vel t0 dt t = let o := t - time_of t0 dt i in Ok (vadd (vadd p (vscale o vl)) (vscale (o * o / 2) (vscale (/ dt) (vsub vh vl)))).
Proof.
  intros D EN LI P VL VH (L & H). unfold piecewise_a. rewrite (tend_time samples t0 dt n EN). pose proof (time_mono t0 dt 0 i D ltac:(lia)) as T0. rewrite time_zero in T0. pose proof (time_mono t0 dt (S i) n D ltac:(lia)) as T1.
  assert (EPS : 0 < eps) by reflexivity. destruct (leqP t0 t); [|lra]. destruct (leqP t (time_of t0 dt n + eps)); [|lra]. cbn [andb negb]. rewrite divq_ok by lra. cbn [bind]. rewrite (low_is t0 dt t i D L H).
  unfold size. rewrite EN. destruct (Z.eqb_spec (Z.of_nat i + 1) (Z.of_nat (S n))); [lia|]. rewrite andb_false_r.
  destruct (Z.leb_spec 0 (Z.of_nat i)); [|lia]. destruct (Z.ltb_spec (Z.of_nat i + 1) (Z.of_nat (S n))); [|lia]. cbn [andb negb]. replace (Z.of_nat i + 1)%Z with (Z.of_nat (S i)) by lia.
  rewrite (get_nth vel i vl VL). cbn [bind]. rewrite (get_nth vel (S i) vh VH). cbn [bind]. rewrite (get_nth samples i p P). reflexivity.
Qed.
Lemma pa_end samples vel t0 dt t n p vl : 0 < dt -> length samples = S n -> nth_error samples n = Some p -> nth_error vel n = Some vl -> t == time_of t0 dt n ->
  gives (piecewise_a samples vel t0 dt t) p.
Proof.
  intros D EN P VL E. unfold piecewise_a. rewrite (tend_time samples t0 dt n EN). pose proof (time_mono t0 dt 0 n D ltac:(lia)) as T0. rewrite time_zero in T0.
  assert (EPS : 0 < eps) by reflexivity. destruct (leqP t0 t); [|lra]. destruct (leqP t (time_of t0 dt n + eps)); [|lra]. cbn [andb negb]. rewrite divq_ok by lra. cbn [bind].
  rewrite (low_is t0 dt t n D) by (try rewrite time_succ; lra). unfold size. rewrite EN. destruct (Z.eqb_spec (Z.of_nat n + 1) (Z.of_nat (S n))); [|lia].
  destruct (ltqP (Qabs (t - time_of t0 dt n)) eps) as [X|X]; [|rewrite Qabs_pos in X by lra; lra]. cbn [andb].
  destruct (Z.leb_spec 0 (Z.of_nat n)); [|lia]. destruct (Z.ltb_spec (Z.of_nat n) (Z.of_nat (S n))); [|lia]. cbn [andb negb].
  rewrite (get_nth vel n vl VL). cbn [bind]. rewrite (get_nth samples n p P). cbn [bind]. eexists. split; [reflexivity|]. fold (time_of t0 dt n).
  assert (Z0 : t - time_of t0 dt n == 0) by lra. set (o := t - time_of t0 dt n) in *. clearbody o. destruct p as [[a1 a2] a3], vl as [[b1 b2] b3]. cbn. split; [|split]; rewrite Z0; field; lra.
Qed.

Lemma hermite_at samples vel t0 dt t i n pl vl ph vh : 0 < dt -> length samples = S n ->
  nth_error samples i = Some pl -> nth_error vel i = Some vl -> nth_error samples (S i) = Some ph -> nth_error vel (S i) = Some vh ->
  time_of t0 dt i <= t < time_of t0 dt (S i) ->
  hermite samples vel t0 dt t = let x := (t - time_of t0 dt i) / dt in
  Ok (vadd (vadd (vadd (vscale (1 - 3 * (x * x) + 2 * (x * x * x)) pl)
                       (vscale (x - 2 * (x * x) + x * x * x) (vscale dt vl)))
                 (vscale (3 * (x * x) - 2 * (x * x * x)) ph))
           (vscale (x * x * x - x * x) (vscale dt vh))).
Proof.
  intros D EN PL VL PH VH (L & H). assert (LI : (S i < length samples)%nat) by (apply nth_error_Some; congruence). unfold hermite. rewrite (tend_time samples t0 dt n EN). pose proof (time_mono t0 dt 0 i D ltac:(lia)) as T0. rewrite time_zero in T0. pose proof (time_mono t0 dt (S i) n D ltac:(lia)) as T1.
  destruct (leqP t0 t); [|lra]. destruct (ltqP t (time_of t0 dt n)); [|lra]. cbn [andb negb]. rewrite divq_ok by lra. cbn [bind]. rewrite (low_is t0 dt t i D L H).
  unfold size. rewrite EN. destruct (Z.leb_spec 0 (Z.of_nat i)); [|lia]. destruct (Z.ltb_spec (Z.of_nat i + 1) (Z.of_nat (S n))); [|lia]. cbn [andb negb]. rewrite divq_ok by lra. cbn [bind]. replace (Z.of_nat i + 1)%Z with (Z.of_nat (S i)) by lia.
  rewrite (get_nth samples i pl PL). cbn [bind]. rewrite (get_nth vel i vl VL). cbn [bind]. rewrite (get_nth samples (S i) ph PH). cbn [bind]. rewrite (get_nth vel (S i) vh VH). reflexivity.
Qed.

(** The cubic with given values and slopes at [a] and [a + dt]. *)
Definition cubic (a dt p v q w : Q) : list Q :=
  let b := dt * v in let c := 3 * (q - p) - dt * (2 * v + w) in let d := 2 * (p - q) + dt * (v + w) in
  let s := - a / dt in let m := / dt in
  [p + b * s + c * s * s + d * s * s * s; m * (b + 2 * c * s + 3 * d * s * s); m * m * (c + 3 * d * s); m * m * m * d].
Lemma cubic_val a dt p v q w t : 0 < dt -> let x := (t - a) / dt in
  peval (cubic a dt p v q w) t == (1 - 3 * (x * x) + 2 * (x * x * x)) * p + (x - 2 * (x * x) + x * x * x) * (dt * v) + (3 * (x * x) - 2 * (x * x * x)) * q + (x * x * x - x * x) * (dt * w).
Proof. intros D x. unfold x, cubic. cbn [peval]. field. lra. Qed.
Lemma cubic_ends a dt p v q w : 0 < dt ->
  peval (cubic a dt p v q w) a == p /\ peval (deriv (cubic a dt p v q w)) a == v /\
  peval (cubic a dt p v q w) (a + dt) == q /\ peval (deriv (cubic a dt p v q w)) (a + dt) == w.
Proof.
  intros D. unfold cubic, deriv. cbn [tl deriv_from peval]. change (1 + 1 + 1)%Z with 3%Z. change (1 + 1)%Z with 2%Z. change (inject_Z 1) with 1. change (inject_Z 2) with 2. change (inject_Z 3) with 3.
  split; [field; lra|]. split; [field; lra|]. split; field; lra.
Qed.
