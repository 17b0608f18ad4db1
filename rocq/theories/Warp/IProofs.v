(** Proofs about interpolation. *)
From Coq Require Import List Bool ZArith QArith Qround Lia Lqa Psatz.
From Verif Require Import Lib.Base Lib.Img BBox.Model BBox.Box2 Warp.Model Warp.Spec.
Import ListNotations.
Local Open Scope Q_scope.

Lemma leqP a b : reflect (a <= b) (Qle_bool a b).
Proof. apply iff_reflect. symmetry. apply Qle_bool_iff. Qed.
Lemma ltqP a b : reflect (a < b) (ltq a b).
Proof. unfold ltq. destruct (leqP b a); constructor; lra. Qed.
Lemma eqqP a b : reflect (a == b) (Qeq_bool a b).
Proof. apply iff_reflect. symmetry. apply Qeq_bool_iff. Qed.
Lemma fl x : inject_Z (Qfloor x) <= x /\ x < inject_Z (Qfloor x) + 1.
Proof. split; [apply Qfloor_le|]. pose proof (Qlt_floor x) as H. rewrite inject_Z_plus in H. exact H. Qed.
Lemma ce x : inject_Z (Qceiling x) - 1 < x /\ x <= inject_Z (Qceiling x).
Proof.
  unfold Qceiling. pose proof (fl (- x)) as H. rewrite inject_Z_opp. set (n := inject_Z (Qfloor (- x))) in *. clearbody n. lra.
Qed.
Lemma inj_le a b : inject_Z a <= inject_Z b <-> (a <= b)%Z.
Proof. rewrite Zle_Qle. reflexivity. Qed.
Lemma inj_lt a b : inject_Z a < inject_Z b <-> (a < b)%Z.
Proof. rewrite Zlt_Qlt. reflexivity. Qed.
Lemma inj_lt1 a b : inject_Z a < inject_Z b -> (a < b)%Z.
Proof. apply inj_lt. Qed.
Lemma inj_le2 a b : (a <= b)%Z -> inject_Z a <= inject_Z b.
Proof. apply inj_le. Qed.
Lemma inj_eq a b : inject_Z a == inject_Z b -> a = b.
Proof. intros H. unfold Qeq, inject_Z in H. cbn in H. lia. Qed.
Lemma fl_unique x n : inject_Z n <= x -> x < inject_Z n + 1 -> Qfloor x = n.
Proof.
  intros A B. pose proof (fl x) as [C D].
  assert (K : inject_Z (Qfloor x) < inject_Z (n + 1)) by (rewrite inject_Z_plus; change (inject_Z 1) with 1; lra).
  assert (L : inject_Z n < inject_Z (Qfloor x + 1)) by (rewrite inject_Z_plus; change (inject_Z 1) with 1; lra).
  apply inj_lt1 in K, L. lia.
Qed.
Lemma fl_int n : Qfloor (inject_Z n) = n.
Proof. apply fl_unique; lra. Qed.
Lemma fl_lt x n : (Qfloor x < n)%Z <-> x < inject_Z n.
Proof.
  pose proof (fl x) as [A B]. split; intros H.
  - assert (K : (Qfloor x + 1 <= n)%Z) by lia. apply inj_le2 in K. rewrite inject_Z_plus in K. change (inject_Z 1) with 1 in K. lra.
  - apply inj_lt. lra.
Qed.
Lemma fl_ge x n : (n <= Qfloor x)%Z <-> inject_Z n <= x.
Proof. pose proof (fl_lt x n). split; intros K; [apply Qnot_lt_le; intros L; apply H in L; lia|]. destruct (Z_lt_le_dec (Qfloor x) n) as [L|]; auto. apply H in L. lra. Qed.

(** Rounding. *)
Lemma round_close q : q - (1 # 2) <= inject_Z (round_away q) <= q + (1 # 2).
Proof.
  unfold round_away. destruct (ltqP q 0).
  - pose proof (ce (q - (1 # 2))). lra.
  - pose proof (fl (q + (1 # 2))). lra.
Qed.
Lemma round_int z q : q == inject_Z z -> round_away q = z.
Proof.
  intros E. pose proof (round_close q) as [A B].
  assert (K : inject_Z (round_away q) < inject_Z (z + 1)) by (rewrite inject_Z_plus; change (inject_Z 1) with 1; lra).
  assert (L : inject_Z z < inject_Z (round_away q + 1)) by (rewrite inject_Z_plus; change (inject_Z 1) with 1; lra).
  apply inj_lt1 in K, L. lia.
Qed.
Lemma round_tie q : q - inject_Z (round_away q) == (1 # 2) -> q < 0.
Proof.
  unfold round_away. destruct (ltqP q 0); auto. pose proof (fl (q + (1 # 2))). intros E. lra.
Qed.
Lemma round_tie' q : inject_Z (round_away q) - q == (1 # 2) -> 0 <= q.
Proof.
  unfold round_away. destruct (ltqP q 0); [|lra]. pose proof (ce (q - (1 # 2))). intros E. lra.
Qed.
Lemma round_within q lo hi : inject_Z lo <= q <= inject_Z hi -> (lo <= round_away q <= hi)%Z.
Proof.
  intros [A B]. pose proof (round_close q) as [C D].
  assert (K : inject_Z (round_away q) < inject_Z (hi + 1)) by (rewrite inject_Z_plus; change (inject_Z 1) with 1; lra).
  assert (L : inject_Z lo < inject_Z (round_away q + 1)) by (rewrite inject_Z_plus; change (inject_Z 1) with 1; lra).
  apply inj_lt1 in K, L. lia.
Qed.

Lemma cast_round_ok c p : storable c (snd p) -> exists q, cast_round c p = Ok q /\ fst q = fst p /\ snd q == snd p.
Proof.
  intros S. destruct c as [|lo hi]; cbn [cast_round]; [exists p; repeat split; reflexivity|].
  destruct S as (z & Hz & E). rewrite (round_int z) by auto.
  destruct (Z.leb_spec lo z), (Z.leb_spec z hi); try lia. cbn [andb]. eexists. split; [reflexivity|]. cbn [fst snd]. split; [auto|lra].
Qed.
Lemma cast_clamp_ok c p : storable c (snd p) -> exists q, cast_clamp c p = Ok q /\ fst q = fst p /\ snd q == snd p.
Proof.
  intros S. destruct c as [|lo hi]; cbn [cast_clamp]; [exists p; repeat split; reflexivity|].
  pose proof S as (z & [Hz Hz'] & E). apply inj_le2 in Hz, Hz'.
  destruct (ltqP (inject_Z hi) (snd p)); [lra|]. destruct (ltqP (snd p) (inject_Z lo)); [lra|]. apply cast_round_ok, S.
Qed.

Lemma on_grid i j x y : i == inject_Z x -> j == inject_Z y ->
  Qfloor i = x /\ Qfloor j = y /\ Qeq_bool (inject_Z (Qfloor i)) i && Qeq_bool (inject_Z (Qfloor j)) j = true.
Proof.
  intros I J. assert (A : Qfloor i = x) by (apply fl_unique; lra). assert (B : Qfloor j = y) by (apply fl_unique; lra). split; [auto|split; [auto|]].
  rewrite A, B. destruct (eqqP (inject_Z x) i) as [_|N]; [|elim N; symmetry; auto]. destruct (eqqP (inject_Z y) j) as [_|N]; [auto|elim N; symmetry; auto].
Qed.

Lemma at_pixels k c v i j x y p : i == inject_Z x -> j == inject_Z y -> v x y = Ok p -> storable c (snd p) ->
  exists q, interpolate k c v i j = Ok q /\ fst q = fst p /\ snd q == snd p.
Proof.
  intros I J V S. destruct (on_grid i j x y I J) as (FI & FJ & G). destruct k; cbn [interpolate].
  - exists p. unfold nearest. rewrite (round_int x i), (round_int y j) by auto. repeat split; auto; reflexivity.
  - unfold bilinear. rewrite G, FI, FJ, V. cbn [bind]. apply cast_round_ok, S.
  - unfold bicubic. rewrite G, FI, FJ, V. cbn [bind]. apply cast_clamp_ok, S.
Qed.

(** The exact values of the two interpolations of an image. *)
Definition bil (f : Z -> Z -> Q) (i j : Q) : Q :=
  let x := Qfloor i in let y := Qfloor j in
  let u := i - inject_Z x in let w := j - inject_Z y in
  (f x y * (1 - u) + f (x + 1)%Z y * u) * (1 - w) + (f x (y + 1)%Z * (1 - u) + f (x + 1)%Z (y + 1)%Z * u) * w.

Lemma off_gridP i j : Qeq_bool (inject_Z (Qfloor i)) i && Qeq_bool (inject_Z (Qfloor j)) j = false <-> off_grid i j.
Proof.
  unfold off_grid. destruct (eqqP (inject_Z (Qfloor i)) i), (eqqP (inject_Z (Qfloor j)) j); cbn [andb]; split; intros; try tauto; try discriminate.
Qed.

(* one formula for both cases, up to equality of rationals *)
Lemma bilinear_value c f i j :
  exists p, bilinear c (whole f) i j = cast_round c p /\ snd p == bil (fun x y => snd (f x y)) i j /\
    (off_grid i j -> fst p = fst (f (Qfloor i) (Qfloor j)) && fst (f (Qfloor i + 1) (Qfloor j))%Z &&
                             (fst (f (Qfloor i) (Qfloor j + 1)) && fst (f (Qfloor i + 1) (Qfloor j + 1)))%Z) /\
    (~ off_grid i j -> p = f (Qfloor i) (Qfloor j)).
Proof.
  unfold bilinear, whole. cbn [bind].
  destruct (Qeq_bool (inject_Z (Qfloor i)) i && Qeq_bool (inject_Z (Qfloor j)) j) eqn:E.
  - exists (f (Qfloor i) (Qfloor j)). split; [reflexivity|]. split; [|split].
    + apply andb_true_iff in E as [A B]. apply Qeq_bool_iff in A, B. unfold bil.
      assert (U : i - inject_Z (Qfloor i) == 0) by lra. assert (W : j - inject_Z (Qfloor j) == 0) by lra. rewrite U, W. ring.
    + intros N. apply off_gridP in N. congruence.
    + auto.
  - eexists. split; [reflexivity|]. cbn [padd pscale fst snd]. split; [|split].
    + unfold bil. ring.
    + auto.
    + intros N. elim N. apply off_gridP, E.
Qed.

Lemma bil_ext f g i j : square (fun x y => f x y == g x y) (Qfloor i) (Qfloor j) 2 -> bil f i j == bil g i j.
Proof.
  intros H. unfold bil. rewrite (H (Qfloor i) (Qfloor j)), (H (Qfloor i + 1) (Qfloor j))%Z, (H (Qfloor i) (Qfloor j + 1))%Z, (H (Qfloor i + 1) (Qfloor j + 1))%Z by lia. reflexivity.
Qed.
Lemma bil_linear a b c d i j :
  bil (fun x y => a + b * inject_Z x + c * inject_Z y + d * (inject_Z x * inject_Z y)) i j == a + b * i + c * j + d * (i * j).
Proof. unfold bil. rewrite !inject_Z_plus. change (inject_Z 1) with 1. ring. Qed.
Lemma mix_between l h a b u : 0 <= u -> u <= 1 -> l <= a <= h -> l <= b <= h -> l <= a * (1 - u) + b * u <= h.
Proof. intros. split; nra. Qed.
Lemma bil_between f i j l h : square (fun x y => l <= f x y <= h) (Qfloor i) (Qfloor j) 2 -> l <= bil f i j <= h.
Proof.
  intros H. unfold bil. pose proof (fl i) as [A B]. pose proof (fl j) as [C D].
  apply mix_between; [lra|lra| |]; apply mix_between; try lra; apply H; lia.
Qed.

(** Bicubic. *)
Definition cub1 (f : Z -> Q) (n : Q) (x : Z) : Q :=
  weight0 n * f x + weight1 n * f (x + 1)%Z + weight2 n * f (x + 2)%Z + weight3 n * f (x + 3)%Z.
Definition cub (f : Z -> Z -> Q) (i j : Q) : Q :=
  let x := Qfloor i in let y := Qfloor j in
  (1 # 4) * cub1 (fun y => cub1 (fun x => f x y) (i - inject_Z x) (x - 1)) (j - inject_Z y) (y - 1).
Definition valid_row (f : Z -> Z -> px) (x y : Z) : bool :=
  fst (f x y) && fst (f (x + 1)%Z y) && fst (f (x + 2)%Z y) && fst (f (x + 3)%Z y).

Lemma cubic_row_ok f n x y : exists p, cubic_row (whole f) n x y = Ok p /\ snd p == cub1 (fun x => snd (f x y)) n x /\ fst p = valid_row f x y.
Proof. unfold cubic_row, whole. cbn [bind]. eexists. split; [reflexivity|]. cbn [padd pscale fst snd]. split; [unfold cub1; ring|reflexivity]. Qed.

Lemma cub1_zero (f : Z -> Q) x : cub1 f 0 (x - 1) == 2 * f x.
Proof. unfold cub1, weight0, weight1, weight2, weight3. replace (x - 1 + 1)%Z with x by lia. ring. Qed.
Lemma cub1_ext f g n x : (forall k, (x <= k < x + 4)%Z -> f k == g k) -> cub1 f n x == cub1 g n x.
Proof. intros H. unfold cub1. rewrite !H by lia. reflexivity. Qed.
Lemma cub1_n f n m x : n == m -> cub1 f n x == cub1 f m x.
Proof. intros H. unfold cub1, weight0, weight1, weight2, weight3. rewrite H. reflexivity. Qed.
Lemma cub_ext f g i j : square (fun x y => f x y == g x y) (Qfloor i - 1) (Qfloor j - 1) 4 -> cub f i j == cub g i j.
Proof. intros H. unfold cub. apply Qmult_comp; [reflexivity|]. apply cub1_ext. intros. apply cub1_ext. intros. apply H; lia. Qed.

Lemma bicubic_value c f i j :
  exists p, bicubic c (whole f) i j = cast_clamp c p /\ snd p == cub (fun x y => snd (f x y)) i j /\
    (off_grid i j -> fst p = valid_row f (Qfloor i - 1) (Qfloor j - 1) && valid_row f (Qfloor i - 1) (Qfloor j) &&
                             valid_row f (Qfloor i - 1) (Qfloor j + 1) && valid_row f (Qfloor i - 1) (Qfloor j + 2)) /\
    (~ off_grid i j -> p = f (Qfloor i) (Qfloor j)).
Proof.
  unfold bicubic.
  destruct (Qeq_bool (inject_Z (Qfloor i)) i && Qeq_bool (inject_Z (Qfloor j)) j) eqn:E.
  - exists (f (Qfloor i) (Qfloor j)). split; [reflexivity|]. split; [|split].
    + apply andb_true_iff in E as [A B]. apply Qeq_bool_iff in A, B. unfold cub.
      assert (U : i - inject_Z (Qfloor i) == 0) by lra. assert (W : j - inject_Z (Qfloor j) == 0) by lra.
      rewrite (cub1_n _ _ 0) by auto. rewrite cub1_zero, (cub1_n _ _ 0) by auto. rewrite cub1_zero. ring.
    + intros N. apply off_gridP in N. congruence.
    + auto.
  - destruct (cubic_row_ok f (i - inject_Z (Qfloor i)) (Qfloor i - 1) (Qfloor j - 1)) as (p0 & -> & V0 & F0).
    destruct (cubic_row_ok f (i - inject_Z (Qfloor i)) (Qfloor i - 1) (Qfloor j)) as (p1 & -> & V1 & F1).
    destruct (cubic_row_ok f (i - inject_Z (Qfloor i)) (Qfloor i - 1) (Qfloor j + 1)) as (p2 & -> & V2 & F2).
    destruct (cubic_row_ok f (i - inject_Z (Qfloor i)) (Qfloor i - 1) (Qfloor j + 2)) as (p3 & -> & V3 & F3).
    cbn [bind]. eexists. split; [reflexivity|]. cbn [padd pscale fst snd]. split; [|split].
    + rewrite V0, V1, V2, V3. unfold cub. unfold cub1 at 5.
      replace (Qfloor j - 1 + 1)%Z with (Qfloor j) by lia. replace (Qfloor j - 1 + 2)%Z with (Qfloor j + 1)%Z by lia.
      replace (Qfloor j - 1 + 3)%Z with (Qfloor j + 2)%Z by lia. reflexivity.
    + intros _. now rewrite F0, F1, F2, F3.
    + intros N. elim N. apply off_gridP, E.
Qed.

Lemma cub1_quadratic a b c x n :
  cub1 (fun k => quadratic a b c (inject_Z k)) n (x - 1) == 2 * quadratic a b c (inject_Z x + n).
Proof.
  unfold cub1, quadratic, weight0, weight1, weight2, weight3.
  unfold Z.sub. rewrite !inject_Z_plus. rewrite !inject_Z_opp. change (inject_Z 1) with 1. change (inject_Z 2) with 2. change (inject_Z 3) with 3. ring.
Qed.

Lemma cub_quadratic (a b c : Q -> Q) a0 a1 a2 b0 b1 b2 c0 c1 c2 i j :
  (forall t, a t == quadratic a0 a1 a2 t) -> (forall t, b t == quadratic b0 b1 b2 t) -> (forall t, c t == quadratic c0 c1 c2 t) ->
  cub (fun x y => quadratic (a (inject_Z y)) (b (inject_Z y)) (c (inject_Z y)) (inject_Z x)) i j == quadratic (a j) (b j) (c j) i.
Proof.
  intros A B C. unfold cub.
  rewrite (cub1_ext _ (fun y => 2 * quadratic (quadratic a0 b0 c0 i) (quadratic a1 b1 c1 i) (quadratic a2 b2 c2 i) (inject_Z y))).
  - assert (K : forall (f : Z -> Q) n x, cub1 (fun y => 2 * f y) n x == 2 * cub1 f n x) by (intros; unfold cub1; ring).
    rewrite (K (fun y => quadratic _ _ _ (inject_Z y))), cub1_quadratic.
    assert (E : inject_Z (Qfloor j) + (j - inject_Z (Qfloor j)) == j) by ring.
    unfold quadratic at 1 5. rewrite E. rewrite A, B, C. unfold quadratic. ring.
  - intros y _. rewrite cub1_quadratic. assert (E : inject_Z (Qfloor i) + (i - inject_Z (Qfloor i)) == i) by ring.
    unfold quadratic at 1. rewrite E, A, B, C. unfold quadratic. ring.
Qed.

(** Reading a copy of a region. *)
Lemma copied_in f r x y : inb r x y -> copied f r x y = Ok (f x y).
Proof.
  intros [[A B] [C D]]. unfold copied. rewrite get_in.
  - cbn [pix]. f_equal. f_equal; lia.
  - unfold inside. cbn [icols irows]. unfold bw, bh.
    assert (E : bempty r = false) by (unfold bempty; destruct (Z.geb_spec (x0 r) (x1 r)), (Z.geb_spec (y0 r) (y1 r)); auto; lia).
    rewrite E. lia.
Qed.

Lemma bw_ne b : bempty b = false -> bw b = (x1 b - x0 b)%Z /\ bh b = (y1 b - y0 b)%Z.
Proof. intros E. unfold bw, bh. now rewrite E. Qed.

Lemma padded_in k f b x y :
  bempty b = false -> (x0 b - pixel_buffer k <= x < x1 b + pixel_buffer k)%Z -> (y0 b - pixel_buffer k <= y < y1 b + pixel_buffer k)%Z ->
  interpolation_prerasterize k f b x y = Ok (f x y).
Proof.
  intros E X Y. unfold interpolation_prerasterize. destruct (bw_ne b E) as [-> ->]. apply copied_in. unfold inb, box_of. cbn [x0 y0 x1 y1]. lia.
Qed.

Lemma holds_floor b p : holds b p -> inb b (Qfloor (fst p)) (Qfloor (snd p)) /\ bempty b = false.
Proof.
  intros [[A B] [C D]]. apply fl_ge in A, C. apply fl_lt in B, D. split; [split; split; auto|].
  unfold bempty. destruct (Z.geb_spec (x0 b) (x1 b)), (Z.geb_spec (y0 b) (y1 b)); auto; lia.
Qed.

Lemma regions k c f b i j : holds b (i, j) ->
  interpolate k c (interpolation_prerasterize k f b) i j = interpolate k c (whole f) i j.
Proof.
  intros H. destruct (holds_floor b _ H) as [[A B] E]. cbn [fst snd] in *. destruct H as [[H1 H2] [H3 H4]]. cbn [fst snd] in *.
  destruct k; cbn [interpolate].
  - unfold nearest, whole. pose proof (round_close i) as [R1 R2]. pose proof (round_close j) as [R3 R4].
    rewrite padded_in; auto; cbn [pixel_buffer]; split.
    + apply inj_le. unfold Z.sub. rewrite inject_Z_plus. change (inject_Z (- (1))) with (-(1)). lra.
    + apply inj_lt. rewrite inject_Z_plus. change (inject_Z 1) with 1. lra.
    + apply inj_le. unfold Z.sub. rewrite inject_Z_plus. change (inject_Z (- (1))) with (-(1)). lra.
    + apply inj_lt. rewrite inject_Z_plus. change (inject_Z 1) with 1. lra.
  - unfold bilinear, whole. rewrite !padded_in by (auto; cbn [pixel_buffer]; lia). reflexivity.
  - unfold bicubic, cubic_row, whole. rewrite !padded_in by (auto; cbn [pixel_buffer]; lia). reflexivity.
Qed.

(** Reading an image without an extension. *)
Lemma nodata_reads k c (m : img px) f i j :
  (forall x y, inside m x y -> f x y = pix m x y) ->
  inject_Z (pixel_buffer k - 1) <= i -> i < inject_Z (icols m - pixel_buffer k) ->
  inject_Z (pixel_buffer k - 1) <= j -> j < inject_Z (irows m - pixel_buffer k) ->
  interpolate k c (get m) i j = interpolate k c (whole f) i j.
Proof.
  intros E I1 I2 J1 J2.
  assert (G : forall x y, inside m x y -> get m x y = Ok (f x y)) by (intros x y H; rewrite get_in, E; auto).
  pose proof I1 as A1. pose proof I2 as A2. pose proof J1 as B1. pose proof J2 as B2.
  apply fl_ge in A1, B1. apply fl_lt in A2, B2.
  destruct k; cbn [interpolate]; cbn [pixel_buffer] in *.
  - unfold nearest, whole. apply G. unfold inside.
    assert (R : forall q n, inject_Z (1 - 1) <= q -> q < inject_Z (n - 1) -> (0 <= round_away q < n)%Z).
    { intros q n Q1 Q2. pose proof (round_within q 0 (n - 1)) as W. change (1 - 1)%Z with 0%Z in Q1. lapply W; [lia|]. split; lra. }
    split; apply R; auto.
  - unfold bilinear, whole. rewrite !G by (unfold inside; lia). reflexivity.
  - unfold bicubic, cubic_row, whole. rewrite !G by (unfold inside; lia). reflexivity.
Qed.
