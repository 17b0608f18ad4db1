(** C85: cameras given by four vectors. *)
From Coq Require Import List Bool ZArith QArith Lia Lqa Qfield.
From Verif Require Import Lib.Base GeoRef.Model GeoRef.Spec GeoRef.Proofs Stereo.Model Stereo.Spec Stereo.Proofs Pinhole.Model Pinhole.Spec Pinhole.Proofs Pinhole.Props Cahv.Model Cahv.Spec.
Import ListNotations.
Local Open Scope Q_scope.

Local Ltac split_all := repeat match goal with |- _ /\ _ => split end.
Local Ltac nums := cbn [vx vy vz m00 m01 m02 m10 m11 m12 m20 m21 m22 fst snd cC cA cH cV] in *.

Lemma pixel_cases c p :
  (toward c (cA c) p == 0 /\ cahv_pixel c p = None) \/
  (~ toward c (cA c) p == 0 /\ exists q, cahv_pixel c p = Some q /\ fst q * toward c (cA c) p == toward c (cH c) p /\ snd q * toward c (cA c) p == toward c (cV c) p).
Proof.
  unfold cahv_pixel. assert (E : forall d, dot (vsub p (cC c)) d == toward c d p) by (intros d; unfold dot, vsub, toward; nums; ring).
  destruct (Qeq_bool (dot (vsub p (cC c)) (cA c)) 0) eqn:Z.
  - left. apply Qeq_bool_iff in Z. rewrite E in Z. auto.
  - right. apply Qeq_bool_neq in Z. assert (N : ~ toward c (cA c) p == 0) by (rewrite <- E; exact Z). split; [exact N|]. eexists. split; [reflexivity|]. nums.
    rewrite !E. split; field; exact N.
Qed.
(* the pixel of a point *)
Theorem cahv_pixel_shows c p :
  (cahv_pixel c p = None <-> toward c (cA c) p == 0) /\
  (forall q, cahv_pixel c p = Some q -> fst q * toward c (cA c) p == toward c (cH c) p /\ snd q * toward c (cA c) p == toward c (cV c) p).
Proof.
  destruct (pixel_cases c p) as [(A & E)|(A & q & E & B)]; rewrite E; split; try tauto; try discriminate.
  - split; [discriminate|contradiction].
  - intros q' H. injection H as <-. exact B.
Qed.
Lemma pixel_is c p q : ~ toward c (cA c) p == 0 -> fst q * toward c (cA c) p == toward c (cH c) p -> snd q * toward c (cA c) p == toward c (cV c) p ->
  exists q', cahv_pixel c p = Some q' /\ same q' q.
Proof.
  intros N A B. destruct (pixel_cases c p) as [(Z & _)|(_ & q' & E & C & D)]; [contradiction|]. exists q'. split; [exact E|].
  set (t := toward c (cA c) p) in *. clearbody t. unfold same. split.
  - assert (Z : (fst q' - fst q) * t == 0) by lra. apply Qmult_integral in Z. destruct Z; [lra|contradiction].
  - assert (Z : (snd q' - snd q) * t == 0) by lra. apply Qmult_integral in Z. destruct Z; [lra|contradiction].
Qed.

(* a pinhole camera becomes one that shows the same, but for the lens *)
Theorem of_pinhole_image p : built p ->
  (pitch p == 0 /\ of_pinhole p = Throw ArgumentErr) \/
  (~ pitch p == 0 /\ exists c, of_pinhole p = Ok c /\ forall x, osame (cahv_pixel c x) (point_to_pixel_no_distortion p x)).
Proof.
  intros B. unfold of_pinhole. destruct (Qeq_bool (pitch p) 0) eqn:Z; [left; apply Qeq_bool_iff in Z; auto|right]. apply Qeq_bool_neq in Z.
  split; [exact Z|]. eexists. split; [reflexivity|]. intros x. set (c := Cahv _ _ _ _).
  assert (TA : toward c (cA c) x == depth p x) by (unfold toward, depth, along, c, mulv; nums; ring).
  assert (TH : toward c (cH c) x == fst (focal p) / pitch p * along p (udir p) x + fst (offset p) / pitch p * depth p x).
  { rewrite <- TA. unfold toward, along, c, mulv, vadd, vscale. nums. ring. }
  assert (TV : toward c (cV c) x == snd (focal p) / pitch p * along p (vdir p) x + snd (offset p) / pitch p * depth p x).
  { rewrite <- TA. unfold toward, along, c, mulv, vadd, vscale. nums. ring. }
  destruct (no_distortion_image p x B) as (N & S). destruct (pixel_cases c x) as [(D & E)|(D & q & E & Q1 & Q2)]; rewrite E; rewrite TA in D.
  - rewrite (proj2 N (or_intror D)). exact I.
  - destruct (point_to_pixel_no_distortion p x) as [r|]; [|exfalso; tauto]. destruct (S r eq_refl) as (R1 & R2). unfold times, ideal in R1, R2. cbn [fst snd] in *. unfold osame.
    rewrite TA, TH in Q1. rewrite TA, TV in Q2.
    set (d := depth p x) in *. set (k := pitch p) in *. set (u := along p (udir p) x) in *. set (v := along p (vdir p) x) in *. clearbody d k u v. clear - D Z Q1 Q2 R1 R2.
    assert (K : forall a b f o w, a * d == f / k * w + o / k * d -> k * b == f * (w / d) + o -> a == b).
    { intros a b f o w A C. assert (A' : a == (f / k * w + o / k * d) / d) by (rewrite <- A; field; exact D). assert (C' : b == (f * (w / d) + o) / k) by (rewrite <- C; field; exact Z).
      rewrite A', C'. field. split; assumption. }
    split; [exact (K _ _ _ _ _ Q1 R1)|exact (K _ _ _ _ _ Q2 R2)].
Qed.

(* the ray of a pixel: every point of it but the centre is shown at the pixel, and the
   positive part of it is in front *)
Theorem cahv_ray c q k : spread c -> ~ k == 0 ->
  (exists q', cahv_pixel c (at_ (cC c) (cahv_vector c q) k) = Some q' /\ same q' q) /\
  (0 < toward c (cA c) (at_ (cC c) (cahv_vector c q) k) <-> 0 < k).
Proof.
  intros S K. unfold spread in S.
  assert (X : exists e, (e == 1 \/ e == -(1)) /\ 0 < e * dot (cross (cV c) (cH c)) (cA c) /\ veq (cahv_vector c q) (vscale e (cross (vsub (cV c) (vscale (snd q) (cA c))) (vsub (cH c) (vscale (fst q) (cA c)))))).
  { unfold cahv_vector. assert (D : det3 (rows (cA c) (cH c) (cV c)) == - dot (cross (cV c) (cH c)) (cA c)) by (unfold det3, rows, dot, cross; nums; ring).
    rewrite D in S. destruct (ltq_spec (dot (cross (cV c) (cH c)) (cA c)) 0) as [L|L].
    - exists (-(1)). split; [right; reflexivity|]. split; [lra|]. unfold veq. split_all; reflexivity.
    - exists 1. split; [left; reflexivity|]. split.
      + destruct (Qle_lt_or_eq 0 (dot (cross (cV c) (cH c)) (cA c))) as [P|P]; [lra|lra|]. exfalso. apply S. rewrite <- P. reflexivity.
      + unfold veq, vscale. nums. split_all; ring. }
  destruct X as (e & E & P & V0 & V1 & V2). set (d := cahv_vector c q) in *. clearbody d.
  assert (TA : toward c (cA c) (at_ (cC c) d k) == k * (e * dot (cross (cV c) (cH c)) (cA c))).
  { unfold toward, at_. nums. rewrite V0, V1, V2. unfold vscale, vsub, cross, dot. nums. ring. }
  assert (TH : toward c (cH c) (at_ (cC c) d k) == fst q * (k * (e * dot (cross (cV c) (cH c)) (cA c)))).
  { unfold toward, at_. nums. rewrite V0, V1, V2. unfold vscale, vsub, cross, dot. nums. ring. }
  assert (TV : toward c (cV c) (at_ (cC c) d k) == snd q * (k * (e * dot (cross (cV c) (cH c)) (cA c)))).
  { unfold toward, at_. nums. rewrite V0, V1, V2. unfold vscale, vsub, cross, dot. nums. ring. }
  set (t := e * dot (cross (cV c) (cH c)) (cA c)) in *. clearbody t. split.
  - apply pixel_is.
    + rewrite TA. intros Z. apply Qmult_integral in Z. destruct Z; [contradiction|lra].
    + rewrite TA, TH. reflexivity.
    + rewrite TA, TV. reflexivity.
  - rewrite TA. split; intros H.
    + destruct (Qlt_le_dec 0 k) as [G|G]; [exact G|]. exfalso. assert (0 <= (- k) * t) by (apply Qmult_le_0_compat; lra). lra.
    + apply Qmult_lt_0_compat; assumption.
Qed.
(* a point that is shown lies on the ray of its pixel *)
Theorem cahv_point_on_ray c p q : spread c -> cahv_pixel c p = Some q -> on_line (cC c) (cahv_vector c q) p.
Proof.
  intros S E. destruct (cahv_pixel_shows c p) as (N & H). destruct (H q E) as (A & B). clear H.
  assert (T : ~ toward c (cA c) p == 0). { intros Z. rewrite (proj2 N Z) in E. discriminate. } clear N E.
  unfold spread in S. set (det := dot (cross (cV c) (cH c)) (cA c)). assert (D : ~ det == 0).
  { intros Z. apply S. assert (D : det3 (rows (cA c) (cH c) (cV c)) == - det) by (unfold det, det3, rows, dot, cross; nums; ring). rewrite D, Z. reflexivity. }
  assert (X : forall s, exists j, veq (vsub p (cC c)) (vscale j (vscale s (cross (vsub (cV c) (vscale (snd q) (cA c))) (vsub (cH c) (vscale (fst q) (cA c)))))) \/ s == 0).
  { intros s. destruct (Qeq_dec s 0) as [Z|Z]; [exists 0; right; exact Z|]. exists (toward c (cA c) p / det / s). left.
    destruct q as [x y]. cbn [fst snd] in *. destruct c as [cc [a1 a2 a3] [h1 h2 h3] [v1 v2 v3]]. unfold toward in *. unfold det in *. clear det.
    unfold veq, vsub, vscale, cross, dot in *. nums. set (p1 := vx p - vx cc) in *. set (p2 := vy p - vy cc) in *. set (p3 := vz p - vz cc) in *. clearbody p1 p2 p3.
    (* each coordinate times the determinant, by the rule of Cramer *)
    set (ta := p1 * a1 + p2 * a2 + p3 * a3) in *. 
    set (dd := (v2 * h3 - v3 * h2) * a1 + (v3 * h1 - v1 * h3) * a2 + (v1 * h2 - v2 * h1) * a3) in *.
    assert (F : forall u w, u * dd == ta * w -> u == ta / dd / s * (s * w)).
    { intros u w W. assert (U : u == (u * dd) / dd) by (field; exact D). rewrite U, W. field. split; assumption. }
    split_all; apply F.
    - transitivity (ta * (v2 * h3 - v3 * h2) + (p1 * h1 + p2 * h2 + p3 * h3) * (v3 * a2 - v2 * a3) + (p1 * v1 + p2 * v2 + p3 * v3) * (a3 * h2 - a2 * h3)); [unfold ta, dd; ring|]. rewrite <- A, <- B. ring.
    - transitivity (ta * (v3 * h1 - v1 * h3) + (p1 * h1 + p2 * h2 + p3 * h3) * (v1 * a3 - v3 * a1) + (p1 * v1 + p2 * v2 + p3 * v3) * (a1 * h3 - a3 * h1)); [unfold ta, dd; ring|]. rewrite <- A, <- B. ring.
    - transitivity (ta * (v1 * h2 - v2 * h1) + (p1 * h1 + p2 * h2 + p3 * h3) * (v2 * a1 - v1 * a2) + (p1 * v1 + p2 * v2 + p3 * v3) * (a2 * h1 - a1 * h2)); [unfold ta, dd; ring|]. rewrite <- A, <- B. ring. }
  unfold cahv_vector. set (w := cross (vsub (cV c) (vscale (snd q) (cA c))) (vsub (cH c) (vscale (fst q) (cA c)))) in *. cbv zeta.
  assert (Y : forall s j, veq (vsub p (cC c)) (vscale j (vscale s w)) -> on_line (cC c) (vscale s w) p).
  { intros s j (I & J & K). exists j. unfold veq, at_, vsub, vscale in *. nums. split_all; lra. }
  destruct (ltq (dot (cross (cV c) (cH c)) (cA c)) 0).
  - destruct (X (-(1))) as (j & [J|J]); [exact (Y _ _ J)|lra].
  - destruct (X 1) as (j & [J|J]); [|lra]. destruct (Y _ _ J) as (t & I1 & I2 & I3). exists t. unfold veq, at_, vscale in *. nums. split_all; lra.
Qed.

(* the constructor from a focal length, the sizes of pixels, the centre of the image and
   directions: what is seen z ahead, x along the rows and y along the columns *)
Theorem of_params_shows f size hc vc c a h v x y z : ~ fst size == 0 -> ~ snd size == 0 -> right_handed h v a -> ~ z == 0 ->
  exists q, cahv_pixel (of_params f size hc vc c a h v) (vadd c (vadd (vscale z a) (vadd (vscale x h) (vscale y v)))) = Some q /\
    same q (f / fst size * (x / z) + hc, f / snd size * (y / z) + vc).
Proof.
  intros S1 S2 (H & V & A & HV & HA & VA & _) Z. unfold unit, sq, perpendicular in *.
  set (m := of_params f size hc vc c a h v). set (p := vadd c _).
  assert (TA : toward m (cA m) p == z).
  { unfold toward, m, of_params, p, vadd, vscale. nums.
    transitivity (z * (vx a * vx a + vy a * vy a + vz a * vz a) + x * (vx h * vx a + vy h * vy a + vz h * vz a) + y * (vx v * vx a + vy v * vy a + vz v * vz a)); [ring|]. rewrite A, HA, VA. ring. }
  assert (TH : toward m (cH m) p == f / fst size * x + hc * z).
  { transitivity (f / fst size * toward m h p + hc * toward m (cA m) p); [unfold toward, m, of_params, vadd, vscale; nums; ring|]. rewrite TA.
    assert (T : toward m h p == x).
    { unfold toward, m, of_params, p, vadd, vscale. nums.
      transitivity (z * (vx h * vx a + vy h * vy a + vz h * vz a) + x * (vx h * vx h + vy h * vy h + vz h * vz h) + y * (vx h * vx v + vy h * vy v + vz h * vz v)); [ring|]. rewrite H, HV, HA. ring. }
    rewrite T. reflexivity. }
  assert (TV : toward m (cV m) p == f / snd size * y + vc * z).
  { transitivity (f / snd size * toward m v p + vc * toward m (cA m) p); [unfold toward, m, of_params, vadd, vscale; nums; ring|]. rewrite TA.
    assert (T : toward m v p == y).
    { unfold toward, m, of_params, p, vadd, vscale. nums.
      transitivity (z * (vx v * vx a + vy v * vy a + vz v * vz a) + y * (vx v * vx v + vy v * vy v + vz v * vz v) + x * (vx h * vx v + vy h * vy v + vz h * vz v)); [ring|]. rewrite V, HV, VA. ring. }
    rewrite T. reflexivity. }
  apply pixel_is; cbn [fst snd]; rewrite TA, ?TH, ?TV; [exact Z|field; auto|field; auto].
Qed.
(* the one from a view matrix: the rows of the matrix are the directions and the centre,
   the corner of the image is at minus the centre of the image *)
Theorem of_view_shows f size xmin ymin m x y z :
  let row r := V3 (m r 0)%Z (m r 1)%Z (m r 2)%Z in
  ~ fst size == 0 -> ~ snd size == 0 -> right_handed (row 0%Z) (row 1%Z) (row 2%Z) -> ~ z == 0 ->
  exists q, cahv_pixel (of_view f size xmin ymin m) (vadd (row 3%Z) (vadd (vscale z (row 2%Z)) (vadd (vscale x (row 0%Z)) (vscale y (row 1%Z))))) = Some q /\
    same q (f / fst size * (x / z) - xmin, f / snd size * (y / z) - ymin).
Proof.
  intros row S1 S2 R Z. destruct (of_params_shows f size (- xmin) (- ymin) (row 3%Z) (row 2%Z) (row 0%Z) (row 1%Z) x y z S1 S2 R Z) as (q & E & A & B).
  exists q. split; [exact E|]. unfold same in *. cbn [fst snd] in *. rewrite A, B. split; ring.
Qed.
(** A view matrix laid out as documented, with the translation in the last column and zeros
    in the last row, puts the camera at the origin: the translation is not read. *)
Theorem of_view_center_refuted : ~ (forall f size xmin ymin m, (m 3 0)%Z == 0 -> (m 3 1)%Z == 0 -> (m 3 2)%Z == 0 -> (m 3 3)%Z == 1 ->
  veq (cC (of_view f size xmin ymin m)) (V3 (m 0 3)%Z (m 1 3)%Z (m 2 3)%Z)).
Proof.
  intros H. destruct (H 1 (1, 1) 0 0 (fun r c => if (r =? c)%Z then 1 else if (c =? 3)%Z then 5 else 0)) as (A & _); try reflexivity.
  vm_compute in A. discriminate.
Qed.

(** ** To a pinhole camera *)

Lemma rows_inverse h v a : rows_orthonormal h v a -> exists n, inverse3 (rows h v a) = Ok n /\ veq (V3 (m00 n) (m10 n) (m20 n)) h /\ veq (V3 (m01 n) (m11 n) (m21 n)) v /\ veq (V3 (m02 n) (m12 n) (m22 n)) a.
Proof.
  intros (H & V & A & HV & HA & VA). unfold unit, sq, perpendicular in *.
  assert (D : ~ det3 (rows h v a) == 0).
  { intros Z. assert (E : det3 (rows h v a) * det3 (rows h v a) == 1).
    { transitivity ((vx h * vx h + vy h * vy h + vz h * vz h) * ((vx v * vx v + vy v * vy v + vz v * vz v) * (vx a * vx a + vy a * vy a + vz a * vz a) - (vx v * vx a + vy v * vy a + vz v * vz a) * (vx v * vx a + vy v * vy a + vz v * vz a))
        - (vx h * vx v + vy h * vy v + vz h * vz v) * ((vx h * vx v + vy h * vy v + vz h * vz v) * (vx a * vx a + vy a * vy a + vz a * vz a) - (vx v * vx a + vy v * vy a + vz v * vz a) * (vx h * vx a + vy h * vy a + vz h * vz a))
        + (vx h * vx a + vy h * vy a + vz h * vz a) * ((vx h * vx v + vy h * vy v + vz h * vz v) * (vx v * vx a + vy v * vy a + vz v * vz a) - (vx v * vx v + vy v * vy v + vz v * vz v) * (vx h * vx a + vy h * vy a + vz h * vz a))).
      - unfold det3, rows. nums. ring.
      - rewrite H, V, A, HV, HA, VA. ring. }
    rewrite Z in E. lra. }
  destruct (inverse3_regular _ D) as (n & E & _ & I). exists n. split; [exact E|]. clear E D.
  unfold times_is_one, rows in I. destruct n as [a0 b0 c0 d0 e0 f0 g0 h0 i0], h as [h1 h2 h3], v as [v1 v2 v3], a as [a1 a2 a3]. unfold veq. nums.
  destruct I as (I1 & I2 & I3 & I4 & I5 & I6 & I7 & I8 & I9).
  (* n = n (M M^t) = (n M) M^t *)
  assert (K : forall x y z p q r, x * h1 + y * v1 + z * a1 == p -> x * h2 + y * v2 + z * a2 == q -> x * h3 + y * v3 + z * a3 == r ->
    x == p * h1 + q * h2 + r * h3 /\ y == p * v1 + q * v2 + r * v3 /\ z == p * a1 + q * a2 + r * a3).
  { intros x y z p q r P Q R. rewrite <- P, <- Q, <- R. split_all.
    - transitivity (x * (h1 * h1 + h2 * h2 + h3 * h3) + y * (h1 * v1 + h2 * v2 + h3 * v3) + z * (h1 * a1 + h2 * a2 + h3 * a3)); [rewrite H, HV, HA|]; ring.
    - transitivity (x * (h1 * v1 + h2 * v2 + h3 * v3) + y * (v1 * v1 + v2 * v2 + v3 * v3) + z * (v1 * a1 + v2 * a2 + v3 * a3)); [rewrite V, HV, VA|]; ring.
    - transitivity (x * (h1 * a1 + h2 * a2 + h3 * a3) + y * (v1 * a1 + v2 * a2 + v3 * a3) + z * (a1 * a1 + a2 * a2 + a3 * a3)); [rewrite A, HA, VA|]; ring. }
  destruct (K _ _ _ _ _ _ I1 I2 I3) as (X1 & X2 & X3). destruct (K _ _ _ _ _ _ I4 I5 I6) as (Y1 & Y2 & Y3). destruct (K _ _ _ _ _ _ I7 I8 I9) as (Z1 & Z2 & Z3).
  split_all; lra.
Qed.
Lemma det_one m n : times_is_one m n -> det3 m * det3 n == 1.
Proof.
  intros (I1 & I2 & I3 & I4 & I5 & I6 & I7 & I8 & I9). rewrite <- det_mul. unfold det3, mmul. cbn [m00 m01 m02 m10 m11 m12 m20 m21 m22].
  rewrite I1, I2, I3, I4, I5, I6, I7, I8, I9. reflexivity.
Qed.
Lemma root_is n f s : is_length n s -> 0 < f -> sq s == f * f -> n == f.
Proof. 
  intros (P & E) F S. rewrite S in E. assert (Z : (n - f) * (n + f) == 0) by lra. apply Qmult_integral in Z. destruct Z; lra.
Qed.
(* a camera with a unit vector A and perpendicular directions becomes a pinhole camera
   that shows the same, and stays as it is *)
Theorem to_pinhole_image norm c h v a fh fv hc vc :
  rows_orthonormal h v a -> 0 < fh -> 0 < fv -> veq (cA c) a -> veq (cH c) (lin fh h hc a) -> veq (cV c) (lin fv v vc a) ->
  (forall u, unit u -> norm u == 1) -> is_length (norm (cross (cA c) (cH c))) (cross (cA c) (cH c)) -> is_length (norm (cross (cA c) (cV c))) (cross (cA c) (cV c)) ->
  ceq (fst (to_pinhole norm c)) c /\
  exists p, snd (to_pinhole norm c) = Ok p /\ built p /\ same (focal p) (fh, fv) /\ same (offset p) (hc, vc) /\
    veq (look (rotation p)) a /\ forall x, osame (cahv_pixel c x) (point_to_pixel_no_distortion p x).
Proof.
  intros O FH FV (A0 & A1 & A2) (H0 & H1 & H2) (V0 & V1 & V2) N LH LV. pose proof O as (H & V & A & HV & HA & VA). unfold unit, sq, perpendicular in H, V, A, HV, HA, VA.
  unfold lin in *. nums.
  assert (NA : norm (cA c) == 1). { apply N. unfold unit, sq. rewrite A0, A1, A2. exact A. }
  assert (DH : dot (cA c) (cH c) == hc).
  { unfold dot. rewrite A0, A1, A2, H0, H1, H2. transitivity (fh * (vx h * vx a + vy h * vy a + vz h * vz a) + hc * (vx a * vx a + vy a * vy a + vz a * vz a)); [ring|]. rewrite A, HA. ring. }
  assert (DV : dot (cA c) (cV c) == vc).
  { unfold dot. rewrite A0, A1, A2, V0, V1, V2. transitivity (fv * (vx v * vx a + vy v * vy a + vz v * vz a) + vc * (vx a * vx a + vy a * vy a + vz a * vz a)); [ring|]. rewrite A, VA. ring. }
  assert (CH : sq (cross (cA c) (cH c)) == fh * fh).
  { unfold sq, cross. nums. rewrite A0, A1, A2, H0, H1, H2.
    transitivity (fh * fh * ((vx a * vx a + vy a * vy a + vz a * vz a) * (vx h * vx h + vy h * vy h + vz h * vz h) - (vx h * vx a + vy h * vy a + vz h * vz a) * (vx h * vx a + vy h * vy a + vz h * vz a))); [ring|]. rewrite A, H, HA. ring. }
  assert (CV : sq (cross (cA c) (cV c)) == fv * fv).
  { unfold sq, cross. nums. rewrite A0, A1, A2, V0, V1, V2.
    transitivity (fv * fv * ((vx a * vx a + vy a * vy a + vz a * vz a) * (vx v * vx v + vy v * vy v + vz v * vz v) - (vx v * vx a + vy v * vy a + vz v * vz a) * (vx v * vx a + vy v * vy a + vz v * vz a))); [ring|]. rewrite A, V, VA. ring. }
  pose proof (root_is _ _ _ LH FH CH) as NH. pose proof (root_is _ _ _ LV FV CV) as NV.
  unfold to_pinhole. cbn [fst snd]. split.
  { unfold ceq, veq, vover. nums. rewrite NA. split_all; try reflexivity; field. }
  set (dh := dot (cA c) (cH c)) in *. set (dv := dot (cA c) (cV c)) in *. set (nh := norm (cross (cA c) (cH c))) in *. set (nv := norm (cross (cA c) (cV c))) in *. clearbody dh dv nh nv.
  set (hp := vover (vsub (cH c) (vscale dh (cA c))) nh). set (vp := vover (vsub (cV c) (vscale dv (cA c))) nv).
  assert (HP : veq hp h).
  { unfold hp, veq, vover, vsub, vscale. nums. rewrite DH, NH, A0, A1, A2, H0, H1, H2. split_all; field; lra. }
  assert (VP : veq vp v).
  { unfold vp, veq, vover, vsub, vscale. nums. rewrite DV, NV, A0, A1, A2, V0, V1, V2. split_all; field; lra. }
  destruct HP as (HP0 & HP1 & HP2). destruct VP as (VP0 & VP1 & VP2). clearbody hp vp.
  assert (NHP : norm hp == 1). { apply N. unfold unit, sq. rewrite HP0, HP1, HP2. exact H. }
  assert (NVP : norm vp == 1). { apply N. unfold unit, sq. rewrite VP0, VP1, VP2. exact V. }
  destruct (rows_inverse (vover hp (norm hp)) (vover vp (norm vp)) (vover (cA c) (norm (cA c)))) as (r & R & (X0 & X1 & X2) & (Y0 & Y1 & Y2) & (Z0 & Z1 & Z2)).
  { unfold rows_orthonormal, unit, perpendicular, sq, vover. nums. rewrite NHP, NVP, NA, HP0, HP1, HP2, VP0, VP1, VP2, A0, A1, A2.
    repeat match goal with |- _ /\ _ => split end; [apply (Qeq_trans _ _ _) with (2 := H)|apply (Qeq_trans _ _ _) with (2 := V)|apply (Qeq_trans _ _ _) with (2 := A)|apply (Qeq_trans _ _ _) with (2 := HV)|apply (Qeq_trans _ _ _) with (2 := HA)|apply (Qeq_trans _ _ _) with (2 := VA)]; field. }
  rewrite R. cbn [bind]. unfold vover in X0, X1, X2, Y0, Y1, Y2, Z0, Z1, Z2. nums. rewrite NHP, ?HP0, ?HP1, ?HP2 in X0, X1, X2. rewrite NVP, ?VP0, ?VP1, ?VP2 in Y0, Y1, Y2. rewrite NA, ?A0, ?A1, ?A2 in Z0, Z1, Z2.
  assert (DR : ~ det3 r == 0). { destruct (inverse3_ok _ _ R) as (_ & J & _). pose proof (det_one _ _ J) as K. intros Z. rewrite Z in K. lra. }
  destruct (proj2 (build_iff null_lens (cC c) r (nh, nv) (dh, dv) (V3 1 0 0) (V3 0 1 0) (V3 0 0 1) 1)) as (p & P).
  { split; [|split; [exact DR|cbn [fst snd]; split; lra]]. unfold framed, perpendicular, sq. split_all; try reflexivity. intros d [->|[->| ->]]; split; reflexivity. }
  exists p. unfold make_plain. split; [exact P|]. destruct (build_params _ _ _ _ _ _ _ _ _ _ P) as (B & _ & _ & P2 & P3 & P4 & P5 & P6 & P7 & P8 & P9).
  split; [exact B|]. split; [rewrite P4; unfold same; cbn [fst snd]; auto|]. split; [rewrite P5; unfold same; cbn [fst snd]; auto|].
  split; [rewrite P3; unfold look, veq; nums; rewrite Z0, Z1, Z2, ?A0, ?A1, ?A2; split_all; field|].
  intros x. assert (TA : toward c (cA c) x == depth p x).
  { unfold toward, depth, along. rewrite P2, P3, P8. nums. rewrite Z0, Z1, Z2, A0, A1, A2. field. }
  assert (TU : along p (udir p) x == (vx x - vx (cC c)) * vx h + (vy x - vy (cC c)) * vy h + (vz x - vz (cC c)) * vz h).
  { unfold along. rewrite P2, P3, P6. nums. rewrite X0, X1, X2, ?HP0, ?HP1, ?HP2. field. }
  assert (TW : along p (vdir p) x == (vx x - vx (cC c)) * vx v + (vy x - vy (cC c)) * vy v + (vz x - vz (cC c)) * vz v).
  { unfold along. rewrite P2, P3, P7. nums. rewrite Y0, Y1, Y2, ?VP0, ?VP1, ?VP2. field. }
  assert (TH : toward c (cH c) x == fh * along p (udir p) x + hc * depth p x).
  { rewrite TU, <- TA. unfold toward. rewrite A0, A1, A2, H0, H1, H2. ring. }
  assert (TV : toward c (cV c) x == fv * along p (vdir p) x + vc * depth p x).
  { rewrite TW, <- TA. unfold toward. rewrite A0, A1, A2, V0, V1, V2. ring. }
  destruct (no_distortion_image p x B) as (NN & SS). rewrite P9 in NN, SS.
  destruct (pixel_cases c x) as [(D & E)|(D & q & E & Q1 & Q2)]; rewrite E; rewrite TA in D.
  - rewrite (proj2 NN (or_intror D)). exact I.
  - destruct (point_to_pixel_no_distortion p x) as [t|]; [|exfalso; destruct (proj1 NN eq_refl); [lra|contradiction]].
    destruct (SS t eq_refl) as (R1 & R2). unfold times, ideal in R1, R2. rewrite P4, P5 in R1, R2. cbn [fst snd] in R1, R2. unfold osame.
    rewrite TA, TH in Q1. rewrite TA, TV in Q2. rewrite NH, DH in R1. rewrite NV, DV in R2.
    set (d := depth p x) in *. set (u := along p (udir p) x) in *. set (w := along p (vdir p) x) in *. clearbody d u w. clear - D Q1 Q2 R1 R2.
    assert (K : forall a b f o w, a * d == f * w + o * d -> 1 * b == f * (w / d) + o -> a == b).
    { intros a b f o y A C. assert (A' : a == (f * y + o * d) / d) by (rewrite <- A; field; exact D). assert (C' : b == f * (y / d) + o) by (rewrite <- C; ring).
      rewrite A', C'. field. assumption. }
    split; [exact (K _ _ _ _ _ Q1 R1)|exact (K _ _ _ _ _ Q2 R2)].
Qed.

(** ** Epipolar pairs *)

(* what comes out, in terms of multiples of the flat part of the base and of the mean of
   the vectors A *)
Lemma epipolar_parts norm s0 s1 d0 d1 : cahv_epipolar norm s0 s1 = Some (d0, d1) ->
  let f := flat s0 s1 in let hs := (norm (cross (cA s0) (cH s0)) + norm (cross (cA s1) (cH s1))) / 2 in let vs := (norm (cross (cA s0) (cV s0)) + norm (cross (cA s1) (cV s1))) / 2 in
  exists e a' n, (e == 1 \/ e == -(1)) /\ 0 <= e * dot f (cH s0) /\ veq a' (mean_a s0 s1) /\ n = norm a' /\ ~ n == 0 /\ ~ norm f == 0 /\ ~ hs == 0 /\
  cC d0 = cC s0 /\ cC d1 = cC s1 /\ cA d0 = cA d1 /\ cH d0 = cH d1 /\ cV d0 = cV d1 /\
  veq (cA d0) (vscale (/ n) a') /\ 
  veq (cH d0) (lin (hs * e / norm f) f ((dot (cH s0) (cA s0) + dot (cH s1) (cA s1)) / 2) (cA d0)) /\
  veq (cV d0) (lin (vs * e / norm f) (cross (cA d0) f) ((dot (cV s0) (cA s0) + dot (cV s1) (cA s1)) / 2) (cA d0)).
Proof.
  unfold cahv_epipolar. cbv zeta. fold (flat s0 s1). set (f := flat s0 s1).
  set (hs' := norm (cross (cA s0) (cH s0)) / 2 + _). set (vs' := norm (cross (cA s0) (cV s0)) / 2 + _).
  set (hs := (norm (cross (cA s0) (cH s0)) + _) / 2). set (vs := (norm (cross (cA s0) (cV s0)) + _) / 2).
  assert (HS : hs' == hs) by (unfold hs', hs; field). assert (VS : vs' == vs) by (unfold vs', vs; field).
  set (hc' := dot (cH s0) (cA s0) / 2 + _). set (vc' := dot (cV s0) (cA s0) / 2 + _). set (hc := (dot (cH s0) (cA s0) + _) / 2). set (vc := (dot (cV s0) (cA s0) + _) / 2).
  assert (HC : hc' == hc) by (unfold hc', hc; field). assert (VC : vc' == vc) by (unfold vc', vc; field). clearbody hs' vs' hs vs hc' vc' hc vc.
  destruct (Qeq_bool (norm f) 0) eqn:NF; [discriminate|]. destruct (Qeq_bool hs' 0) eqn:NH; [discriminate|]. cbn [orb]. apply Qeq_bool_neq in NF, NH.
  set (hp := if ltq 0 (dot f (cH s0)) then _ else _).
  assert (X : exists e, (e == 1 \/ e == -(1)) /\ 0 <= e * dot f (cH s0) /\ veq hp (vscale (hs * e / norm f) f)).
  { unfold hp. destruct (ltq_spec 0 (dot f (cH s0))) as [L|L].
    - exists 1. split; [left; reflexivity|]. split; [lra|]. unfold veq, vover, vscale. nums. rewrite HS. split_all; field; exact NF.
    - exists (-(1)). split; [right; reflexivity|]. split; [lra|]. unfold veq, vover, vscale. nums. rewrite HS. split_all; field; exact NF. }
  destruct X as (e & E & P & H0 & H1 & H2). clearbody hp. unfold vscale in H0, H1, H2. nums.
  set (app := vscale (1 # 2) (vadd (cA s0) (cA s1))). set (a' := vsub app _).
  assert (D : dot app hp == 0).
  { unfold dot. rewrite H0, H1, H2. unfold app, f, flat, cross, vscale, vadd, vsub. nums. ring. }
  assert (A : veq a' (mean_a s0 s1)).
  { unfold a', veq, vsub, vover, vscale. nums. rewrite D. unfold app, vscale, vadd, mean_a. nums. split_all; field; exact NH. }
  destruct (Qeq_bool (norm a') 0) eqn:NA; [discriminate|]. apply Qeq_bool_neq in NA. intros H. injection H as <- <-. cbn [cC cA cH cV].
  exists e, a', (norm a'). clearbody a' f. split; [exact E|]. split; [exact P|]. split; [exact A|]. split; [reflexivity|]. split; [exact NA|]. split; [exact NF|]. split; [rewrite <- HS; exact NH|].
  do 5 (split; [reflexivity|]). split; [unfold veq, vover, vscale; nums; split_all; field; exact NA|].
  set (aa := vover a' (norm a')). clearbody aa. rewrite HS in NH. split.
  - unfold veq, lin, vadd, vscale. nums. rewrite H0, H1, H2, HC. split_all; ring.
  - unfold veq, lin, vadd, vscale, vover, cross. nums. rewrite H0, H1, H2, VC, VS, HS. split_all; field; auto.
Qed.
(* the cameras keep their places and share the rest; how far a point is off the middle
   row, times its depth, is the same for both, so that a point is on the same row of both
   if the base is at right angles to the mean of the vectors A *)
Theorem cahv_epipolar_rows norm s0 s1 d0 d1 p q0 q1 : cahv_epipolar norm s0 s1 = Some (d0, d1) ->
  (cC d0 = cC s0 /\ cC d1 = cC s1 /\ cA d0 = cA d1 /\ cH d0 = cH d1 /\ cV d0 = cV d1) /\
  (cahv_pixel d0 p = Some q0 -> cahv_pixel d1 p = Some q1 ->
   let vc := (dot (cV s0) (cA s0) + dot (cV s1) (cA s1)) / 2 in
   (snd q0 - vc) * toward d0 (cA d0) p == (snd q1 - vc) * toward d1 (cA d1) p /\
   (perpendicular (vadd (cA s0) (cA s1)) (vsub (cC s1) (cC s0)) -> snd q0 == snd q1)).
Proof.
  intros H. destruct (epipolar_parts _ _ _ _ _ H) as (e & a' & n & E & _ & (A0 & A1 & A2) & _ & N & NF & NH & C0 & C1 & EA & EH & EV & (B0 & B1 & B2) & _ & (V0 & V1 & V2)).
  split; [auto|]. clear H E. intros P0 P1 vc. fold vc in V0, V1, V2. destruct (cahv_pixel_shows d0 p) as (N0 & S0). destruct (cahv_pixel_shows d1 p) as (N1 & S1).
  destruct (S0 _ P0) as (_ & R0). destruct (S1 _ P1) as (_ & R1). assert (Z1 : ~ toward d1 (cA d1) p == 0). { intros Z. rewrite (proj2 N1 Z) in P1. discriminate. }
  clear S0 S1 P0 P1 N0 N1. rewrite <- EA in *. rewrite <- EV in *.
  set (j := (norm (cross (cA s0) (cV s0)) + norm (cross (cA s1) (cV s1))) / 2 * e / norm (flat s0 s1)) in *. clearbody j vc. 
  set (k := / n) in *. assert (K : ~ k == 0). { unfold k. intros Z. apply N. rewrite <- (Qinv_involutive n), Z. reflexivity. } clearbody k. clear N.
  unfold vscale, lin, mean_a in *. nums. rewrite A0 in B0. rewrite A1 in B1. rewrite A2 in B2.
  (* the part of V across *)
  assert (W : toward d0 (cV d0) p - vc * toward d0 (cA d0) p == toward d1 (cV d0) p - vc * toward d1 (cA d0) p).
  { unfold toward. rewrite V0, V1, V2, C0, C1. unfold cross. nums. rewrite B0, B1, B2. unfold flat, cross, vadd, vsub. nums. ring. }
  assert (X : (snd q0 - vc) * toward d0 (cA d0) p == (snd q1 - vc) * toward d1 (cA d0) p) by lra. split; [exact X|].
  intros Q. assert (Y : toward d0 (cA d0) p == toward d1 (cA d0) p).
  { assert (Y : toward d0 (cA d0) p - toward d1 (cA d0) p == 0); [|lra].
    unfold perpendicular, vadd, vsub in Q. nums. unfold toward. rewrite C0, C1, B0, B1, B2.
    transitivity (k * (1 # 2) * ((vx (cA s0) + vx (cA s1)) * (vx (cC s1) - vx (cC s0)) + (vy (cA s0) + vy (cA s1)) * (vy (cC s1) - vy (cC s0)) + (vz (cA s0) + vz (cA s1)) * (vz (cC s1) - vz (cC s0)))); [ring|]. rewrite Q. ring. }
  rewrite Y in X. set (t := toward d1 (cA d0) p) in *. clearbody t. assert (Z : (snd q0 - snd q1) * t == 0) by lra. apply Qmult_integral in Z. destruct Z; [lra|contradiction].
Qed.
(* their vectors are those of a camera with unit axes at right angles, looking along the
   mean of the vectors A, with the mean scales and centres of the two *)
Theorem cahv_epipolar_axes norm s0 s1 d0 d1 : cahv_epipolar norm s0 s1 = Some (d0, d1) ->
  let app := lin (1 # 2) (cA s0) (1 # 2) (cA s1) in
  let base := vsub (cC s1) (cC s0) in
  let hs := (norm (cross (cA s0) (cH s0)) + norm (cross (cA s1) (cH s1))) / 2 in
  let vs := (norm (cross (cA s0) (cV s0)) + norm (cross (cA s1) (cV s1))) / 2 in
  is_length (norm (flat s0 s1)) (flat s0 s1) -> (forall u, veq u app -> is_length (norm u) u) ->
  exists h v a k j l, rows_orthonormal h v a /\ veq v (cross a h) /\ 0 < k /\ veq a (vscale k app) /\ veq h (lin j base l app) /\ 0 <= dot h (cH s0) /\
    veq (cA d0) a /\ veq (cH d0) (lin hs h ((dot (cH s0) (cA s0) + dot (cH s1) (cA s1)) / 2) a) /\ veq (cV d0) (lin vs v ((dot (cV s0) (cA s0) + dot (cV s1) (cA s1)) / 2) a).
Proof.
  intros H app base hs vs LF LA. destruct (epipolar_parts _ _ _ _ _ H) as (e & a' & n & E & PE & A & N & N0 & NF & NH & _ & _ & _ & _ & _ & B & HH & VV). clear H.
  fold hs vs in HH, VV, NH. assert (AA : veq a' app) by (destruct A as (A0 & A1 & A2); unfold veq, app, lin, mean_a in *; nums; rewrite A0, A1, A2; split_all; ring).
  pose proof (LA a' AA) as (LP & LL). rewrite <- N in LP, LL. destruct LF as (FP & FF). clear LA.
  set (f := flat s0 s1) in *. set (m := norm f) in *.
  assert (FA : dot f a' == 0).
  { destruct A as (A0 & A1 & A2). unfold dot. rewrite A0, A1, A2. unfold mean_a, f, flat, cross, vadd, vsub. nums. ring. }
  assert (FL : exists j l, veq f (lin j base l app)).
  { exists (dot (vadd (cA s0) (cA s1)) (vadd (cA s0) (cA s1))), (- (2) * dot (vadd (cA s0) (cA s1)) base). unfold veq, lin, f, flat, app, base, dot, cross, vadd, vsub, lin. nums. split_all; ring. }
  destruct FL as (j & l & F0 & F1 & F2). clearbody f m hs vs. clear A N.
  set (h := vscale (e / m) f). set (a := vscale (/ n) a').
  assert (E2 : e * e == 1) by (destruct E as [E|E]; rewrite E; reflexivity).
  assert (UH : unit h). { unfold unit, h, sq, vscale. nums. unfold sq in FF. transitivity (e * e * (vx f * vx f + vy f * vy f + vz f * vz f) / (m * m)); [field; exact NF|]. rewrite <- FF, E2. field. exact NF. }
  assert (UA : unit a). { unfold unit, a, sq, vscale. nums. unfold sq in LL. transitivity ((vx a' * vx a' + vy a' * vy a' + vz a' * vz a') / (n * n)); [field; exact N0|]. rewrite <- LL. field. exact N0. }
  assert (PA : perpendicular h a). { unfold perpendicular, h, a, vscale. nums. unfold dot in FA. transitivity (e / m / n * (vx f * vx a' + vy f * vy a' + vz f * vz a')); [field; auto|]. rewrite FA. ring. }
  exists h, (cross a h), a, (/ n), (e / m * j), (e / m * l).
  split.
  { unfold rows_orthonormal. split; [exact UH|]. unfold unit, perpendicular, sq in *. clearbody h a. split.
    - unfold cross. nums. transitivity ((vx a * vx a + vy a * vy a + vz a * vz a) * (vx h * vx h + vy h * vy h + vz h * vz h) - (vx h * vx a + vy h * vy a + vz h * vz a) * (vx h * vx a + vy h * vy a + vz h * vz a)); [ring|]. rewrite UA, UH, PA. ring.
    - split; [exact UA|]. split; [unfold cross; nums; ring|]. split; [exact PA|unfold cross; nums; ring]. }
  split; [unfold veq; split_all; reflexivity|]. split; [apply Qinv_lt_0_compat; exact LP|].
  split. { destruct AA as (A0 & A1 & A2). unfold a, veq, vscale. nums. rewrite A0, A1, A2. split_all; reflexivity. }
  split. { unfold h, veq, vscale, lin in *. nums. rewrite F0, F1, F2. split_all; ring. }
  split. { assert (D : dot h (cH s0) == e * dot f (cH s0) * / m) by (unfold h, dot, vscale; nums; field; exact NF). rewrite D. apply Qmult_le_0_compat; [exact PE|]. apply Qlt_le_weak, Qinv_lt_0_compat, FP. }
  destruct B as (B0 & B1 & B2). destruct HH as (H0 & H1 & H2). destruct VV as (V0 & V1 & V2). fold a in B0, B1, B2.
  split; [unfold veq; auto|]. clearbody a. unfold veq, lin, cross in *. nums. rewrite H0, H1, H2, V0, V1, V2, B0, B1, B2. unfold h, vscale. nums. split; split_all; field; exact NF.
Qed.
(* the length of vectors along the axes *)
Definition side (v : vec) : Q := qabs (vx v) + qabs (vy v) + qabs (vz v).
(** Turning a camera whose vector A has another length than one into a pinhole camera
    changes the camera: it shows other pixels afterwards. *)
Theorem to_pinhole_keeps_refuted : ~ (forall norm c x, is_length (norm (cA c)) (cA c) -> osame (cahv_pixel (fst (to_pinhole norm c)) x) (cahv_pixel c x)).
Proof.
  intros H. specialize (H side (Cahv vzero (V3 0 0 2) (V3 2 0 0) (V3 0 2 0)) (V3 1 0 1)). destruct H as (A & _); [split; reflexivity|]. vm_compute in A. discriminate.
Qed.
(** The pinhole camera does not show what such a camera showed. *)
Theorem to_pinhole_not_unit_refuted : ~ (forall norm c p x, is_length (norm (cA c)) (cA c) -> is_length (norm (cross (cA c) (cH c))) (cross (cA c) (cH c)) -> is_length (norm (cross (cA c) (cV c))) (cross (cA c) (cV c)) ->
  snd (to_pinhole norm c) = Ok p -> osame (point_to_pixel_no_distortion p x) (cahv_pixel c x)).
Proof.
  intros H. destruct (snd (to_pinhole side (Cahv vzero (V3 0 0 2) (V3 2 0 0) (V3 0 2 0)))) as [p| |] eqn:E; [|vm_compute in E; discriminate|vm_compute in E; discriminate].
  assert (H' := H side (Cahv vzero (V3 0 0 2) (V3 2 0 0) (V3 0 2 0)) p (V3 1 0 1)). clear H. rename H' into H.
  assert (L : forall v, In v [V3 0 0 2; cross (V3 0 0 2) (V3 2 0 0); cross (V3 0 0 2) (V3 0 2 0)] -> is_length (side v) v).
  { intros v [<-|[<-|[<-|[]]]]; split; reflexivity. }
  specialize (H (L _ (or_introl eq_refl)) (L _ (or_intror (or_introl eq_refl))) (L _ (or_intror (or_intror (or_introl eq_refl)))) E).
  vm_compute in E. injection E as <-. destruct H as (A & _). vm_compute in A. discriminate.
Qed.
Example to_pinhole_met : exists norm c h v a fh fv hc vc, rows_orthonormal h v a /\ 0 < fh /\ 0 < fv /\ veq (cA c) a /\ veq (cH c) (lin fh h hc a) /\ veq (cV c) (lin fv v vc a) /\
  (forall u, unit u -> norm u == 1) /\ is_length (norm (cross (cA c) (cH c))) (cross (cA c) (cH c)) /\ is_length (norm (cross (cA c) (cV c))) (cross (cA c) (cV c)) /\ ~ vx a == 0 /\ ~ hc == 0.
Proof.
  exists (fun u => if Qeq_bool (sq u) 1 then 1 else if Qeq_bool (sq u) 4 then 2 else 3), (Cahv (V3 1 2 3) (V3 (3 # 5) 0 (4 # 5)) (lin 2 (V3 (4 # 5) 0 (-3 # 5)) 7 (V3 (3 # 5) 0 (4 # 5))) (lin 3 (V3 0 1 0) 5 (V3 (3 # 5) 0 (4 # 5)))),
    (V3 (4 # 5) 0 (-3 # 5)), (V3 0 1 0), (V3 (3 # 5) 0 (4 # 5)), 2, 3, 7, 5.
  split; [unfold rows_orthonormal; split_all; reflexivity|]. split; [reflexivity|]. split; [reflexivity|]. split; [unfold veq; split_all; reflexivity|]. split; [unfold veq; split_all; reflexivity|]. split; [unfold veq; split_all; reflexivity|].
  split. { intros u U. unfold unit in U. apply Qeq_bool_iff in U. rewrite U. reflexivity. }
  split; [split; vm_compute; reflexivity|]. split; [split; vm_compute; reflexivity|]. split; discriminate.
Qed.

(** Rectified cameras do not show a point on the same row unless the base is at right
    angles to the mean direction of view. *)
Theorem cahv_epipolar_rows_refuted : ~ (forall norm s0 s1 d0 d1 p q0 q1, cahv_epipolar norm s0 s1 = Some (d0, d1) ->
  (forall u, In u [flat s0 s1; mean_a s0 s1] -> is_length (norm u) u) -> cahv_pixel d0 p = Some q0 -> cahv_pixel d1 p = Some q1 -> snd q0 == snd q1).
Proof.
  intros H. set (s0 := Cahv vzero (V3 0 0 1) (V3 1 0 0) (V3 0 1 0)). set (s1 := Cahv (V3 1 0 1) (V3 0 0 1) (V3 1 0 0) (V3 0 1 0)).
  destruct (cahv_epipolar side s0 s1) as [[d0 d1]|] eqn:E; [|vm_compute in E; discriminate].
  assert (L : forall u, In u [flat s0 s1; mean_a s0 s1] -> is_length (side u) u) by (intros u [<-|[<-|[]]]; split; reflexivity).
  destruct (cahv_pixel d0 (V3 0 1 2)) as [q0|] eqn:P0; [|vm_compute in E; injection E as <- <-; vm_compute in P0; discriminate].
  destruct (cahv_pixel d1 (V3 0 1 2)) as [q1|] eqn:P1; [|vm_compute in E; injection E as <- <-; vm_compute in P1; discriminate].
  specialize (H side s0 s1 d0 d1 (V3 0 1 2) q0 q1 E L P0 P1). vm_compute in E. injection E as <- <-. vm_compute in P0, P1. injection P0 as <-. injection P1 as <-. vm_compute in H. discriminate.
Qed.
Example cahv_epipolar_met : exists norm s0 s1 d0 d1, cahv_epipolar norm s0 s1 = Some (d0, d1) /\ is_length (norm (flat s0 s1)) (flat s0 s1) /\
  (forall u, veq u (lin (1 # 2) (cA s0) (1 # 2) (cA s1)) -> is_length (norm u) u) /\ perpendicular (vadd (cA s0) (cA s1)) (vsub (cC s1) (cC s0)).
Proof.
  exists side, (Cahv vzero (V3 0 0 1) (V3 1 0 3) (V3 0 1 4)), (Cahv (V3 1 0 0) (V3 0 0 1) (V3 1 0 3) (V3 0 1 4)). eexists. eexists. split; [vm_compute; reflexivity|].
  split; [split; reflexivity|]. split; [|reflexivity]. intros u (A & B & C). unfold lin in *. nums.
  assert (S : side u == 1).
  { unfold side, qabs. destruct (ltq_spec (vx u) 0), (ltq_spec (vy u) 0), (ltq_spec (vz u) 0); lra. }
  split; rewrite S; [reflexivity|]. unfold sq. rewrite A, B, C. reflexivity.
Qed.

Print Assumptions cahv_pixel_shows. Print Assumptions of_pinhole_image. Print Assumptions cahv_ray. Print Assumptions cahv_point_on_ray.
Print Assumptions of_params_shows. Print Assumptions of_view_shows. Print Assumptions of_view_center_refuted. Print Assumptions to_pinhole_image.
Print Assumptions cahv_epipolar_rows. Print Assumptions cahv_epipolar_axes. Print Assumptions to_pinhole_keeps_refuted. Print Assumptions to_pinhole_not_unit_refuted.
Print Assumptions cahv_epipolar_rows_refuted.
