(** Algebra of rotation matrices and quaternions. *)
From Coq Require Import List Bool ZArith QArith Lia Lqa Qfield.
From Verif Require Import Lib.Base GeoRef.Model GeoRef.Spec GeoRef.Proofs Stereo.Model Stereo.Spec Stereo.Proofs Pinhole.Model Pinhole.Spec Pinhole.Proofs Quat.Model Quat.Spec.
Import ListNotations.
Local Open Scope Q_scope.

Lemma combo3 d A0 A1 A2 e0 e1 e2 k0 k1 k2 : 
  d == A0 * e0 + A1 * e1 + A2 * e2 -> A0 == k0 -> A1 == k1 -> A2 == k2 -> d == k0 * e0 + k1 * e1 + k2 * e2.
Proof. intros H E0 E1 E2. rewrite <- E0, <- E1, <- E2. exact H. Qed.
Lemma times_one x d : d == 1 -> x == x * d.
Proof. intros E. rewrite E. ring. Qed.
Lemma trans_eq x y z : x == y -> y == z -> x == z.
Proof. intros A B. rewrite A. exact B. Qed.

(* a rotation matrix is the matrix of its cofactors, and its rows are orthonormal too *)
Lemma rotation_facts a b c d e f g h i : rotation_of (M3 a b c d e f g h i) ->
  (a == e * i - f * h /\ b == f * g - d * i /\ c == d * h - e * g) /\
  (d == c * h - b * i /\ e == a * i - c * g /\ f == b * g - a * h) /\
  (g == b * f - c * e /\ h == c * d - a * f /\ i == a * e - b * d) /\
  (a * a + b * b + c * c == 1 /\ d * d + e * e + f * f == 1 /\ g * g + h * h + i * i == 1) /\
  (a * d + b * e + c * f == 0 /\ a * g + b * h + c * i == 0 /\ d * g + e * h + f * i == 0) /\
  (a * a + d * d + g * g == 1 /\ b * b + e * e + h * h == 1 /\ c * c + f * f + i * i == 1) /\
  (a * b + d * e + g * h == 0 /\ a * c + d * f + g * i == 0 /\ b * c + e * f + h * i == 0).
Proof.
  intros ((C0 & C1 & C2 & C01 & C02 & C12) & D). unfold det3 in D. cbn [m00 m01 m02 m10 m11 m12 m20 m21 m22] in *.
  assert (C10 : b * a + e * d + h * g == 0) by (rewrite <- C01; ring).
  assert (C20 : c * a + f * d + i * g == 0) by (rewrite <- C02; ring).
  assert (C21 : c * b + f * e + i * h == 0) by (rewrite <- C12; ring).
  (* entry (k, j) times the determinant is column j against the columns, times the cofactors *)
  assert (Fa : a == e * i - f * h).
  { apply (trans_eq _ _ _ (times_one a _ D)).
    apply (trans_eq _ (1 * (e * i - f * h) + 0 * (f * g - d * i) + 0 * (d * h - e * g))); [|ring].
    eapply combo3; [|exact C0|exact C01|exact C02]. ring. }
  assert (Fb : b == f * g - d * i).
  { apply (trans_eq _ _ _ (times_one b _ D)).
    apply (trans_eq _ (0 * (e * i - f * h) + 1 * (f * g - d * i) + 0 * (d * h - e * g))); [|ring].
    eapply combo3; [|exact C10|exact C1|exact C12]. ring. }
  assert (Fc : c == d * h - e * g).
  { apply (trans_eq _ _ _ (times_one c _ D)).
    apply (trans_eq _ (0 * (e * i - f * h) + 0 * (f * g - d * i) + 1 * (d * h - e * g))); [|ring].
    eapply combo3; [|exact C20|exact C21|exact C2]. ring. }
  assert (Fd : d == c * h - b * i).
  { apply (trans_eq _ _ _ (times_one d _ D)).
    apply (trans_eq _ (1 * (c * h - b * i) + 0 * (a * i - c * g) + 0 * (b * g - a * h))); [|ring].
    eapply combo3; [|exact C0|exact C01|exact C02]. ring. }
  assert (Fe : e == a * i - c * g).
  { apply (trans_eq _ _ _ (times_one e _ D)).
    apply (trans_eq _ (0 * (c * h - b * i) + 1 * (a * i - c * g) + 0 * (b * g - a * h))); [|ring].
    eapply combo3; [|exact C10|exact C1|exact C12]. ring. }
  assert (Ff : f == b * g - a * h).
  { apply (trans_eq _ _ _ (times_one f _ D)).
    apply (trans_eq _ (0 * (c * h - b * i) + 0 * (a * i - c * g) + 1 * (b * g - a * h))); [|ring].
    eapply combo3; [|exact C20|exact C21|exact C2]. ring. }
  assert (Fg : g == b * f - c * e).
  { apply (trans_eq _ _ _ (times_one g _ D)).
    apply (trans_eq _ (1 * (b * f - c * e) + 0 * (c * d - a * f) + 0 * (a * e - b * d))); [|ring].
    eapply combo3; [|exact C0|exact C01|exact C02]. ring. }
  assert (Fh : h == c * d - a * f).
  { apply (trans_eq _ _ _ (times_one h _ D)).
    apply (trans_eq _ (0 * (b * f - c * e) + 1 * (c * d - a * f) + 0 * (a * e - b * d))); [|ring].
    eapply combo3; [|exact C10|exact C1|exact C12]. ring. }
  assert (Fi : i == a * e - b * d).
  { apply (trans_eq _ _ _ (times_one i _ D)).
    apply (trans_eq _ (0 * (b * f - c * e) + 0 * (c * d - a * f) + 1 * (a * e - b * d))); [|ring].
    eapply combo3; [|exact C20|exact C21|exact C2]. ring. }
  assert (K : forall x y z x' y' z' k p q r, x == p -> y == q -> z == r -> p * x' + q * y' + r * z' == k -> x * x' + y * y' + z * z' == k).
  { intros x y z x' y' z' k p q r E0 E1 E2 H. rewrite E0, E1, E2. exact H. }
  repeat match goal with |- _ /\ _ => split end; try assumption.
  - apply (K _ _ _ _ _ _ _ _ _ _ Fa Fb Fc). rewrite <- D. ring.
  - apply (K _ _ _ _ _ _ _ _ _ _ Fd Fe Ff). rewrite <- D. ring.
  - apply (K _ _ _ _ _ _ _ _ _ _ Fg Fh Fi). rewrite <- D. ring.
  - apply (K _ _ _ _ _ _ _ _ _ _ Fa Fb Fc). ring.
  - apply (K _ _ _ _ _ _ _ _ _ _ Fa Fb Fc). ring.
  - apply (K _ _ _ _ _ _ _ _ _ _ Fd Fe Ff). ring.
Qed.

(* the ten products of the numbers of a quaternion, from the matrix *)
Definition products (q : quat) (r : mat) : Prop :=
  (qw q * qw q == (1 + m00 r + m11 r + m22 r) / 4 /\ qx q * qx q == (1 + m00 r - m11 r - m22 r) / 4 /\
   qy q * qy q == (1 - m00 r + m11 r - m22 r) / 4 /\ qz q * qz q == (1 - m00 r - m11 r + m22 r) / 4) /\
  (qw q * qx q == (m21 r - m12 r) / 4 /\ qw q * qy q == (m02 r - m20 r) / 4 /\ qw q * qz q == (m10 r - m01 r) / 4) /\
  (qx q * qy q == (m01 r + m10 r) / 4 /\ qx q * qz q == (m02 r + m20 r) / 4 /\ qy q * qz q == (m12 r + m21 r) / 4).
Lemma products_matrix q r : products q r -> length2 q == 1 /\ meq (rotation_matrix q) r.
Proof.
  destruct q as [w x y z], r as [a b c d e f g h i]. unfold products, length2, meq, rotation_matrix. cbn [qw qx qy qz m00 m01 m02 m10 m11 m12 m20 m21 m22].
  intros ((A & B & C & D) & (E & F & G) & (H & I & J)).
  assert (I' : z * x == (c + g) / 4) by (rewrite <- I; ring).
  split; [rewrite A, B, C, D; field|].
  repeat match goal with |- _ /\ _ => split end; rewrite ?A, ?B, ?C, ?D, ?E, ?F, ?G, ?H, ?I', ?J; field.
Qed.
Lemma matrix_products q r : length2 q == 1 -> meq (rotation_matrix q) r -> products q r.
Proof.
  destruct q as [w x y z], r as [a b c d e f g h i]. unfold products, length2, meq, rotation_matrix. cbn [qw qx qy qz m00 m01 m02 m10 m11 m12 m20 m21 m22].
  intros L ((A & B & C) & (D & E & F) & (G & H & I)).
  repeat match goal with |- _ /\ _ => split end; rewrite <- ?A, <- ?B, <- ?C, <- ?D, <- ?E, <- ?F, <- ?G, <- ?H, <- ?I; unfold Qdiv; change (/ 4) with (1 # 4); lra.
Qed.

Lemma over_products s a b W t : s * s == W * 4 -> ~ W == 0 -> a * b == W * t -> (a / s) * (b / s) == t / 4.
Proof.
  intros S N P. assert (Z : ~ s == 0). { intros Z. apply N. rewrite Z in S. lra. }
  assert (E : (a / s) * (b / s) == (a * b) / (s * s)) by (field; exact Z).
  rewrite E, S, P. field. exact N.
Qed.
Lemma over_root s a : ~ s == 0 -> (s / 4) * (a / s) == a / 4.
Proof. intros Z. field. exact Z. Qed.
Lemma over_root' s a : ~ s == 0 -> (a / s) * (s / 4) == a / 4.
Proof. intros Z. field. exact Z. Qed.
Lemma root_root s W : s * s == W * 4 -> (s / 4) * (s / 4) == W / 4.
Proof. intros S. assert (E : (s / 4) * (s / 4) == (s * s) / 16) by field. rewrite E, S. field. Qed.
Lemma root_nonzero s W : s * s == W * 4 -> ~ W == 0 -> ~ s == 0.
Proof. intros S N Z. apply N. rewrite Z in S. lra. Qed.

Lemma from_matrix_products sqrt r : rotation_of r -> exact_at sqrt r -> products (from_matrix sqrt r) r.
Proof.
  destruct r as [a b c d e f g h i]. intros R X. pose proof (rotation_facts _ _ _ _ _ _ _ _ _ R) as
    ((Fa & Fb & Fc) & (Fd & Fe & Ff) & (Fg & Fh & Fi) & (R0 & R1 & R2) & (R01 & R02 & R12) & (C0 & C1 & C2) & (C01 & C02 & C12)). clear R.
  unfold exact_at, four in X. unfold from_matrix, products. cbn [m00 m01 m02 m10 m11 m12 m20 m21 m22] in *.
  set (ww := 1 + a + e + i) in *. set (xx := 1 + a - e - i) in *. set (yy := 1 - a + e - i) in *. set (zz := 1 - a - e + i) in *.
  assert (Ww : ww == 1 + a + e + i) by reflexivity. assert (Xx : xx == 1 + a - e - i) by reflexivity.
  assert (Yy : yy == 1 - a + e - i) by reflexivity. assert (Zz : zz == 1 - a - e + i) by reflexivity.
  clearbody ww xx yy zz.
  assert (Four : ww + xx + yy + zz == 4) by lra.
  assert (P1 : (h - f) * (h - f) == ww * xx) by (rewrite Ww, Xx; lra).
  assert (P2 : (c - g) * (c - g) == ww * yy) by (rewrite Ww, Yy; lra).
  assert (P3 : (d - b) * (d - b) == ww * zz) by (rewrite Ww, Zz; lra).
  assert (P4 : (b + d) * (b + d) == xx * yy) by (rewrite Xx, Yy; lra).
  assert (P5 : (c + g) * (c + g) == xx * zz) by (rewrite Xx, Zz; lra).
  assert (P6 : (f + h) * (f + h) == yy * zz) by (rewrite Yy, Zz; lra).
  assert (W12 : (h - f) * (c - g) == ww * (b + d)) by (rewrite Ww; lra).
  assert (W13 : (h - f) * (d - b) == ww * (c + g)) by (rewrite Ww; lra).
  assert (W23 : (c - g) * (d - b) == ww * (f + h)) by (rewrite Ww; lra).
  assert (X02 : (h - f) * (b + d) == xx * (c - g)) by (rewrite Xx; lra).
  assert (X03 : (h - f) * (c + g) == xx * (d - b)) by (rewrite Xx; lra).
  assert (X23 : (b + d) * (c + g) == xx * (f + h)) by (rewrite Xx; lra).
  assert (Y01 : (c - g) * (b + d) == yy * (h - f)) by (rewrite Yy; lra).
  assert (Y03 : (c - g) * (f + h) == yy * (d - b)) by (rewrite Yy; lra).
  assert (Y13 : (b + d) * (f + h) == yy * (c + g)) by (rewrite Yy; lra).
  assert (Z01 : (d - b) * (c + g) == zz * (h - f)) by (rewrite Zz; lra).
  assert (Z02 : (d - b) * (f + h) == zz * (c - g)) by (rewrite Zz; lra).
  assert (Z12 : (c + g) * (f + h) == zz * (b + d)) by (rewrite Zz; lra).
  clear Fa Fb Fc Fd Fe Ff Fg Fh Fi R0 R1 R2 R01 R02 R12 C0 C1 C2 C01 C02 C12.
  set (m1 := if ltq ww xx then xx else ww). assert (M1 : ww <= m1 /\ xx <= m1 /\ (m1 = ww \/ m1 = xx)).
  { unfold m1. destruct (ltq_spec ww xx); repeat split; try lra; auto. }
  set (m2 := if ltq m1 yy then yy else m1). assert (M2 : m1 <= m2 /\ yy <= m2 /\ (m2 = m1 \/ m2 = yy)).
  { unfold m2. destruct (ltq_spec m1 yy); repeat split; try lra; auto. }
  set (m3 := if ltq m2 zz then zz else m2). assert (M3' : m2 <= m3 /\ zz <= m3 /\ (m3 = m2 \/ m3 = zz)).
  { unfold m3. destruct (ltq_spec m2 zz); repeat split; try lra; auto. }
  clearbody m1 m2 m3.
  assert (Top : ww <= m3 /\ xx <= m3 /\ yy <= m3 /\ zz <= m3) by (repeat split; lra).
  assert (Pos : 0 < m3) by lra.
  assert (Root : forall k, In k [ww; xx; yy; zz] -> k == m3 -> sqrt (k * 4) * sqrt (k * 4) == k * 4 /\ ~ k == 0).
  { intros k K E. split.
    - destruct (X k (k * 4)) as (_ & Q); [exact K| |reflexivity|exact Q].
      intros z [<-|[<-|[<-|[<-|[]]]]]; lra.
    - lra. }
  destruct (Qeq_bool ww m3) eqn:E1; [|destruct (Qeq_bool xx m3) eqn:E2; [|destruct (Qeq_bool yy m3) eqn:E3]].
  - apply Qeq_bool_iff in E1. destruct (Root ww (or_introl eq_refl) E1) as (S & N). set (s := sqrt (ww * 4)) in *. clearbody s. pose proof (root_nonzero _ _ S N) as NZ.
    cbn [qw qx qy qz]. rewrite (root_root _ _ S), !(over_root _ _ NZ), (over_products _ _ _ _ _ S N P1), (over_products _ _ _ _ _ S N P2), (over_products _ _ _ _ _ S N P3),
      (over_products _ _ _ _ _ S N W12), (over_products _ _ _ _ _ S N W13), (over_products _ _ _ _ _ S N W23).
    repeat split; try reflexivity.
  - apply Qeq_bool_iff in E2. destruct (Root xx (or_intror (or_introl eq_refl)) E2) as (S & N). set (s := sqrt (xx * 4)) in *. clearbody s. pose proof (root_nonzero _ _ S N) as NZ.
    assert (P1' : (h - f) * (h - f) == xx * ww) by (rewrite P1; ring).
    cbn [qw qx qy qz]. rewrite (root_root _ _ S), !(over_root _ _ NZ), !(over_root' _ _ NZ), (over_products _ _ _ _ _ S N P1'), (over_products _ _ _ _ _ S N P4), (over_products _ _ _ _ _ S N P5),
      (over_products _ _ _ _ _ S N X02), (over_products _ _ _ _ _ S N X03), (over_products _ _ _ _ _ S N X23).
    repeat split; try reflexivity.
  - apply Qeq_bool_iff in E3. destruct (Root yy (or_intror (or_intror (or_introl eq_refl))) E3) as (S & N). set (s := sqrt (yy * 4)) in *. clearbody s. pose proof (root_nonzero _ _ S N) as NZ.
    assert (P2' : (c - g) * (c - g) == yy * ww) by (rewrite P2; ring). assert (P4' : (b + d) * (b + d) == yy * xx) by (rewrite P4; ring).
    cbn [qw qx qy qz]. rewrite (root_root _ _ S), !(over_root _ _ NZ), !(over_root' _ _ NZ), (over_products _ _ _ _ _ S N P2'), (over_products _ _ _ _ _ S N P4'), (over_products _ _ _ _ _ S N P6),
      (over_products _ _ _ _ _ S N Y01), (over_products _ _ _ _ _ S N Y03), (over_products _ _ _ _ _ S N Y13).
    repeat split; try reflexivity.
  - assert (E4 : zz == m3).
    { destruct M3' as (_ & _ & [->| ->]); [|reflexivity]. destruct M2 as (_ & _ & [->| ->]).
      - destruct M1 as (_ & _ & [->| ->]); [rewrite (proj2 (Qeq_bool_iff ww ww)) in E1 by reflexivity|rewrite (proj2 (Qeq_bool_iff xx xx)) in E2 by reflexivity]; discriminate.
      - rewrite (proj2 (Qeq_bool_iff yy yy)) in E3 by reflexivity. discriminate. }
    destruct (Root zz (or_intror (or_intror (or_intror (or_introl eq_refl)))) E4) as (S & N). set (s := sqrt (zz * 4)) in *. clearbody s. pose proof (root_nonzero _ _ S N) as NZ.
    assert (P3' : (d - b) * (d - b) == zz * ww) by (rewrite P3; ring). assert (P5' : (c + g) * (c + g) == zz * xx) by (rewrite P5; ring). assert (P6' : (f + h) * (f + h) == zz * yy) by (rewrite P6; ring).
    cbn [qw qx qy qz]. rewrite (root_root _ _ S), !(over_root' _ _ NZ), (over_products _ _ _ _ _ S N P3'), (over_products _ _ _ _ _ S N P5'), (over_products _ _ _ _ _ S N P6'),
      (over_products _ _ _ _ _ S N Z01), (over_products _ _ _ _ _ S N Z02), (over_products _ _ _ _ _ S N Z12).
    repeat split; try reflexivity.
Qed.

(* two unit quaternions with the same products *)
Lemma sq_zero_or p q : p * p == q * q -> p == q \/ p == - q.
Proof.
  intros E. assert (Z : (p - q) * (p + q) == 0) by (ring_simplify; lra).
  apply Qmult_integral in Z. destruct Z; [left|right]; lra.
Qed.
Lemma products_same p q r : length2 q == 1 -> products p r -> products q r -> qeq p q \/ opposite p q.
Proof.
  destruct p as [w x y z], q as [w' x' y' z']. unfold products, length2, qeq, opposite. cbn [qw qx qy qz].
  intros L ((A & B & C & D) & (E & F & G) & (H & I & J)) ((A' & B' & C' & D') & (E' & F' & G') & (H' & I' & J')).
  rewrite <- A' in A. rewrite <- B' in B. rewrite <- C' in C. rewrite <- D' in D. rewrite <- E' in E. rewrite <- F' in F. rewrite <- G' in G.
  rewrite <- H' in H. rewrite <- I' in I. rewrite <- J' in J. clear A' B' C' D' E' F' G' H' I' J'.
  assert (K : forall u u' t t', u == u' -> u * t == u' * t' -> ~ u' == 0 -> t == t').
  { intros u u' t t' U T N. rewrite U in T. assert (Z : u' * (t - t') == 0) by lra. apply Qmult_integral in Z. destruct Z; [contradiction|lra]. }
  assert (K' : forall u u' t t', u == - u' -> u * t == u' * t' -> ~ u' == 0 -> t == - t').
  { intros u u' t t' U T N. rewrite U in T. assert (Z : u' * (t + t') == 0) by lra. apply Qmult_integral in Z. destruct Z; [contradiction|lra]. }
  destruct (Qeq_dec w' 0) as [Nw|Nw]; [destruct (Qeq_dec x' 0) as [Nx|Nx]; [destruct (Qeq_dec y' 0) as [Ny|Ny]; [destruct (Qeq_dec z' 0) as [Nz|Nz]|]|]|].
  - exfalso. rewrite Nw, Nx, Ny, Nz in L. lra.
  - destruct (sq_zero_or _ _ D) as [U|U]; [left|right]; (split; [|split; [|split; [|exact U]]]).
    + apply (K z z'); auto; lra.
    + apply (K z z'); auto; lra.
    + apply (K z z'); auto; lra.
    + apply (K' z z'); auto; lra.
    + apply (K' z z'); auto; lra.
    + apply (K' z z'); auto; lra.
  - destruct (sq_zero_or _ _ C) as [U|U]; [left|right]; (split; [|split; [|split; [exact U|]]]).
    + apply (K y y'); auto; lra.
    + apply (K y y'); auto; lra.
    + apply (K y y'); auto; lra.
    + apply (K' y y'); auto; lra.
    + apply (K' y y'); auto; lra.
    + apply (K' y y'); auto; lra.
  - destruct (sq_zero_or _ _ B) as [U|U]; [left|right]; (split; [|split; [exact U|split]]).
    + apply (K x x'); auto; lra.
    + apply (K x x'); auto; lra.
    + apply (K x x'); auto; lra.
    + apply (K' x x'); auto; lra.
    + apply (K' x x'); auto; lra.
    + apply (K' x x'); auto; lra.
  - destruct (sq_zero_or _ _ A) as [U|U]; [left|right]; (split; [exact U|split; [|split]]).
    + apply (K w w'); auto; lra.
    + apply (K w w'); auto; lra.
    + apply (K w w'); auto; lra.
    + apply (K' w w'); auto; lra.
    + apply (K' w w'); auto; lra.
    + apply (K' w w'); auto; lra.
Qed.
