(** C84: quaternions are rotations. *)
From Coq Require Import List Bool ZArith QArith Lia Lqa Qfield.
From Verif Require Import Lib.Base GeoRef.Model GeoRef.Spec GeoRef.Proofs Stereo.Model Stereo.Spec Stereo.Proofs Pinhole.Model Pinhole.Spec Pinhole.Proofs Quat.Model Quat.Spec Quat.Proofs.
Import ListNotations.
Local Open Scope Q_scope.

Local Ltac split_all := repeat match goal with |- _ /\ _ => split end.
Local Ltac nums := cbn [qw qx qy qz vx vy vz m00 m01 m02 m10 m11 m12 m20 m21 m22] in *.

(* the matrix of a product is the product of the matrices, whatever the lengths *)
Theorem quat_product_matrix a b : meq (rotation_matrix (qmul a b)) (mmul (rotation_matrix a) (rotation_matrix b)).
Proof. destruct a, b. unfold meq, rotation_matrix, qmul, mmul. nums. split_all; ring. Qed.

(* rotate and the matrix agree up to the squared length of the quaternion *)
Theorem quat_rotate_matrix q v : ~ length2 q == 0 -> veq (mulv (rotation_matrix q) v) (vscale (length2 q) (rotate q v)).
Proof.
  destruct q, v. unfold veq, rotate, qdiv, qover, qmul, qconj, qnorm, rotation_matrix, mulv, vscale, length2. nums. intros N.
  split_all; field; exact N.
Qed.

(* the matrix of a unit quaternion is a rotation *)
Theorem quat_matrix_rotation q : length2 q == 1 -> rotation_of (rotation_matrix q).
Proof.
  destruct q as [w x y z]. unfold rotation_of, orthonormal, det3, rotation_matrix, length2. nums. intros L.
  assert (K : forall e, e == (w * w + x * x + y * y + z * z) * (w * w + x * x + y * y + z * z) -> e == 1) by (intros e ->; rewrite L; ring).
  split; [split_all|].
  - apply K. ring.
  - apply K. ring.
  - apply K. ring.
  - ring.
  - ring.
  - ring.
  - transitivity ((w * w + x * x + y * y + z * z) * (w * w + x * x + y * y + z * z) * (w * w + x * x + y * y + z * z)); [ring|]. rewrite L. ring.
Qed.

(* rotating keeps lengths and angles, for every quaternion but zero *)
Theorem quat_rotate_keeps q a b : ~ length2 q == 0 -> dot (rotate q a) (rotate q b) == dot a b.
Proof.
  intros N. destruct (quat_rotate_matrix q a N) as (A0 & A1 & A2). destruct (quat_rotate_matrix q b N) as (B0 & B1 & B2).
  assert (E : dot (mulv (rotation_matrix q) a) (mulv (rotation_matrix q) b) == length2 q * length2 q * dot a b).
  { destruct q, a, b. unfold dot, mulv, rotation_matrix, length2. nums. ring. }
  unfold dot in E at 1. rewrite A0, A1, A2, B0, B1, B2 in E. unfold vscale in E. nums.
  set (l := length2 q) in *. set (x := rotate q a) in *. set (y := rotate q b) in *. clearbody l x y. unfold dot in *.
  assert (Z : l * l * (vx x * vx y + vy x * vy y + vz x * vz y - (vx a * vx b + vy a * vy b + vz a * vz b)) == 0) by lra.
  apply Qmult_integral in Z. destruct Z as [Z|Z]; [apply Qmult_integral in Z; tauto|lra].
Qed.
Theorem quat_rotate_product a b v : ~ length2 a == 0 -> ~ length2 b == 0 -> veq (rotate (qmul a b) v) (rotate a (rotate b v)).
Proof.
  intros A B. assert (L : length2 (qmul a b) == length2 a * length2 b) by (destruct a, b; unfold length2, qmul; nums; ring).
  assert (N : ~ length2 (qmul a b) == 0). { rewrite L. intros Z. apply Qmult_integral in Z. tauto. }
  pose proof (quat_rotate_matrix _ v N) as (P0 & P1 & P2). pose proof (quat_rotate_matrix a (rotate b v) A) as (Q0 & Q1 & Q2). pose proof (quat_rotate_matrix b v B) as (R0 & R1 & R2).
  pose proof (quat_product_matrix a b) as ((M0 & M1 & M2) & (M3' & M4 & M5) & (M6 & M7 & M8)).
  unfold veq, vscale, mulv, mmul in *. nums. rewrite L in P0, P1, P2.
  set (ra := rotation_matrix a) in *. set (rb := rotation_matrix b) in *. set (rab := rotation_matrix (qmul a b)) in *. set (x := rotate (qmul a b) v) in *. set (y := rotate b v) in *. set (z := rotate a y) in *.
  set (la := length2 a) in *. set (lb := length2 b) in *. clearbody ra rb rab x y z la lb.
  assert (K : forall s t, la * lb * s == la * lb * t -> s == t).
  { intros s t E. assert (Z : la * lb * (s - t) == 0) by lra. apply Qmult_integral in Z. destruct Z as [Z|Z]; [|lra]. apply Qmult_integral in Z. tauto. }
  split_all; apply K.
  - rewrite <- P0, M0, M1, M2. transitivity (lb * (la * vx z)); [|ring]. rewrite <- Q0.
    transitivity (m00 ra * (lb * vx y) + m01 ra * (lb * vy y) + m02 ra * (lb * vz y)); [|ring]. rewrite <- R0, <- R1, <- R2. ring.
  - rewrite <- P1, M3', M4, M5. transitivity (lb * (la * vy z)); [|ring]. rewrite <- Q1.
    transitivity (m10 ra * (lb * vx y) + m11 ra * (lb * vy y) + m12 ra * (lb * vz y)); [|ring]. rewrite <- R0, <- R1, <- R2. ring.
  - rewrite <- P2, M6, M7, M8. transitivity (lb * (la * vz z)); [|ring]. rewrite <- Q2.
    transitivity (m20 ra * (lb * vx y) + m21 ra * (lb * vy y) + m22 ra * (lb * vz y)); [|ring]. rewrite <- R0, <- R1, <- R2. ring.
Qed.
(* the inverse *)
Theorem quat_inverse q : ~ length2 q == 0 -> qeq (qmul q (qinverse q)) (Qt 1 0 0 0) /\ qeq (qmul (qinverse q) q) (Qt 1 0 0 0) /\ forall p, qeq (qdiv p q) (qmul p (qinverse q)).
Proof.
  destruct q. unfold qeq, qdiv, qinverse, qover, qmul, qconj, qnorm, length2. nums. intros N. split_all; try (field; exact N).
  intros [w x y z]. nums. split_all; field; exact N.
Qed.

Lemma rotate_veq q u v : veq u v -> veq (rotate q u) (rotate q v).
Proof.
  intros (A & B & C). unfold veq, rotate, qdiv, qover, qmul, qconj, qnorm. nums. rewrite A, B, C. split_all; reflexivity.
Qed.
Lemma rotate_qeq p q v : qeq p q -> veq (rotate p v) (rotate q v).
Proof.
  intros (A & B & C & D). unfold veq, rotate, qdiv, qover, qmul, qconj, qnorm. nums. rewrite A, B, C, D. split_all; reflexivity.
Qed.
Theorem quat_rotate_inverse q v : ~ length2 q == 0 -> veq (rotate (qinverse q) (rotate q v)) v.
Proof.
  intros N. assert (L : length2 (qinverse q) * length2 q == 1).
  { destruct q. unfold length2, qinverse, qover, qconj, qnorm in *. nums. field. exact N. }
  assert (N' : ~ length2 (qinverse q) == 0). { intros Z. rewrite Z in L. lra. }
  destruct (quat_rotate_product (qinverse q) q v N' N) as (A & B & C). destruct (quat_inverse q N) as (_ & I & _).
  destruct (rotate_qeq _ _ v I) as (D & E & F). unfold veq. rewrite <- A, <- B, <- C, D, E, F.
  unfold rotate, qdiv, qover, qmul, qconj, qnorm. nums. split_all; field.
Qed.

(* brought to length one, a quaternion rotates as before, and its matrix does so too *)
Theorem quat_normalize sqrt q v : ~ length2 q == 0 -> (forall x, x == length2 q -> root (sqrt x) x) ->
  length2 (qnormalize sqrt q) == 1 /\ veq (mulv (rotation_matrix (qnormalize sqrt q)) v) (rotate q v).
Proof.
  intros N R. destruct (R (qnorm q) (Qeq_refl _)) as (_ & S). set (s := sqrt (qnorm q)) in *.
  assert (Q : qnorm q == length2 q) by reflexivity. assert (Z : ~ s == 0). { intros E. apply N. rewrite <- Q, <- S, E. ring. }
  assert (L : length2 (qnormalize sqrt q) == 1).
  { unfold qnormalize, length2, qover. fold s. nums. transitivity (length2 q / (s * s)); [unfold length2; field; exact Z|]. rewrite S, Q. field. exact N. }
  split; [exact L|]. destruct (quat_rotate_matrix q v N) as (A & B & C).
  assert (E : veq (mulv (rotation_matrix q) v) (vscale (s * s) (mulv (rotation_matrix (qnormalize sqrt q)) v))).
  { unfold qnormalize. fold s. clearbody s. clear - Z. destruct q as [w x y z]. unfold veq, mulv, vscale, rotation_matrix, qover. nums. split_all; field; exact Z. }
  destruct E as (E0 & E1 & E2). unfold vscale in *. nums. rewrite E0 in A. rewrite E1 in B. rewrite E2 in C. rewrite S, Q in A, B, C.
  set (l := length2 q) in *. unfold veq. set (x := mulv (rotation_matrix (qnormalize sqrt q)) v) in *. set (y := rotate q v) in *. clearbody l x y.
  assert (K : forall i j, l * i == l * j -> i == j). { intros i j H. assert (W : l * (i - j) == 0) by lra. apply Qmult_integral in W. destruct W; [contradiction|lra]. }
  split_all; apply K; assumption.
Qed.

(* a matrix goes through a quaternion unchanged, and the quaternion is a unit one *)
Theorem quat_matrix_round_trip sqrt r : rotation_of r -> exact_at sqrt r ->
  meq (rotation_matrix (from_matrix sqrt r)) r /\ length2 (from_matrix sqrt r) == 1.
Proof. intros R X. destruct (products_matrix _ _ (from_matrix_products sqrt r R X)) as (A & B). split; assumption. Qed.
(* a unit quaternion comes back through its matrix up to its sign *)
Theorem quat_round_trip sqrt q : length2 q == 1 -> exact_at sqrt (rotation_matrix q) ->
  qeq (from_matrix sqrt (rotation_matrix q)) q \/ opposite (from_matrix sqrt (rotation_matrix q)) q.
Proof.
  intros L X. apply products_same with (r := rotation_matrix q); [exact L| |].
  - apply from_matrix_products; [apply quat_matrix_rotation, L|exact X].
  - apply matrix_products; [exact L|]. unfold meq. split_all; reflexivity.
Qed.
(* unit quaternions give the same rotation just when they are equal or opposite *)
Theorem quat_same_rotation_iff p q : length2 p == 1 -> length2 q == 1 ->
  (meq (rotation_matrix p) (rotation_matrix q) <-> qeq p q \/ opposite p q).
Proof.
  intros P Q. split.
  - intros M. apply products_same with (r := rotation_matrix q); [exact Q|apply matrix_products; assumption|].
    apply matrix_products; [exact Q|]. unfold meq. split_all; reflexivity.
  - destruct p, q. unfold qeq, opposite, meq, rotation_matrix. nums. intros [(A & B & C & D)|(A & B & C & D)]; rewrite A, B, C, D; split_all; ring.
Qed.
(* no quaternion stands for a mirror: what is given for one is another matrix *)
Theorem quat_mirror_lost sqrt r : mirror r -> ~ meq (rotation_matrix (from_matrix sqrt r)) r.
Proof.
  intros (_ & D) M. set (q := from_matrix sqrt r) in *. clearbody q.
  assert (E : det3 (rotation_matrix q) == det3 r).
  { destruct r. destruct M as ((A & B & C) & (E & F & G) & (H & I & J)). unfold det3. nums. rewrite A, B, C, E, F, G, H, I, J. reflexivity. }
  rewrite D in E. destruct q as [w x y z].
  assert (F : det3 (rotation_matrix (Qt w x y z)) == (w * w + x * x + y * y + z * z) * (w * w + x * x + y * y + z * z) * (w * w + x * x + y * y + z * z)).
  { unfold det3, rotation_matrix. nums. ring. }
  rewrite F in E. assert (P : 0 <= w * w + x * x + y * y + z * z) by nra. set (l := w * w + x * x + y * y + z * z) in *. clearbody l.
  assert (Z : 0 <= l * l * l) by (apply Qmult_le_0_compat; [apply Qmult_le_0_compat; exact P|exact P]). lra.
Qed.
(** The matrix of a quaternion that is not a unit one is not a rotation, although the
    quaternion rotates: the two disagree. *)
Theorem quat_any_length_refuted : ~ (forall q v, ~ length2 q == 0 -> veq (mulv (rotation_matrix q) v) (rotate q v)).
Proof.
  intros H. destruct (H (Qt 2 0 0 0) (V3 1 0 0)) as (A & _); [unfold length2; cbn [qw qx qy qz]; lra|].
  vm_compute in A. discriminate.
Qed.
Example quat_met : exists sqrt q, length2 q == 1 /\ exact_at sqrt (rotation_matrix q) /\ qx q == 2 # 3 /\ qy q == 2 # 3 /\ qeq (from_matrix sqrt (rotation_matrix q)) q.
Proof.
  exists (fun _ => 8 # 3), (Qt (1 # 3) (2 # 3) (2 # 3) 0). split; [reflexivity|]. split; [|split; [reflexivity|split; [reflexivity|]]].
  - intros x y I M Y. assert (X : x == 16 # 9).
    { destruct I as [<-|[<-|[<-|[<-|[]]]]]; cbn [four m00 m11 m22] in M.
      - exfalso. pose proof (M _ (or_intror (or_introl eq_refl))) as C. vm_compute in C. congruence.
      - reflexivity.
      - reflexivity.
      - exfalso. pose proof (M _ (or_intror (or_introl eq_refl))) as C. vm_compute in C. congruence. }
    split; [lra|]. rewrite Y, X. reflexivity.
  - unfold qeq. split_all; reflexivity.
Qed.

(** ** Axes and angles *)

(* both ways from a rotation vector are the same rotation *)
Theorem axis_angle_same sin cos norm a : norm a * norm a == sq a -> half_angle sin cos (norm a) ->
  meq (axis_angle_to_matrix sin cos norm a) (rotation_matrix (axis_angle_to_quaternion sin cos norm a)).
Proof.
  intros N (U & C & S). unfold axis_angle_to_matrix, axis_angle_to_quaternion, from_axis.
  destruct (Qeq_bool (norm a) 0) eqn:Z; cbn [negb].
  - unfold meq, identity3, rotation_matrix. nums. split_all; reflexivity.
  - apply Qeq_bool_neq in Z. unfold sq in N.
    set (c := cos (norm a * (1 # 2))) in *. set (s := sin (norm a * (1 # 2))) in *. set (ct := cos (norm a)) in *. set (st := sin (norm a)) in *. set (n := norm a) in *.
    assert (R : (vx a / n) * (vx a / n) + (vy a / n) * (vy a / n) + (vz a / n) * (vz a / n) == 1).
    { transitivity ((vx a * vx a + vy a * vy a + vz a * vz a) / (n * n)); [field; exact Z|]. rewrite N. field. rewrite <- N. intros E. apply Qmult_integral in E. tauto. }
    set (i := vx a / n) in *. set (j := vy a / n) in *. set (k := vz a / n) in *. clearbody c s ct st i j k n.
    unfold meq, madd, mscale, outer, identity3, rotation_matrix. nums. rewrite C, S.
    assert (L : 1 - (c * c - s * s) == 2 * (s * s)) by lra. rewrite L.
    assert (I : i * i == 1 - j * j - k * k) by lra.
    split_all; try ring.
    + transitivity (c * c - s * s + 2 * (s * s) * (i * i)); [ring|]. transitivity (c * c + s * s * (2 * (i * i) - (i * i + j * j + k * k))); [rewrite R|]; ring.
    + transitivity (c * c - s * s + 2 * (s * s) * (j * j)); [ring|]. transitivity (c * c + s * s * (2 * (j * j) - (i * i + j * j + k * k))); [rewrite R|]; ring.
    + transitivity (c * c - s * s + 2 * (s * s) * (k * k)); [ring|]. transitivity (c * c + s * s * (2 * (k * k) - (i * i + j * j + k * k))); [rewrite R|]; ring.
Qed.
Lemma veq_trans3 a b c : veq a b -> veq b c -> veq a c.
Proof. intros (A & B & C) (D & E & F). unfold veq. rewrite A, B, C. auto. Qed.
Lemma rodrigues c s r v :
  veq (mulv (madd (madd (mscale c identity3) (mscale (1 - c) (outer r r))) (mscale s (M3 0 (- vz r) (vy r) (vz r) 0 (- vx r) (- vy r) (vx r) 0))) v)
      (V3 (c * vx v + (1 - c) * dot r v * vx r + s * vx (cross r v)) (c * vy v + (1 - c) * dot r v * vy r + s * vy (cross r v)) (c * vz v + (1 - c) * dot r v * vz r + s * vz (cross r v))).
Proof.
  destruct r as [i j k], v as [x y z]. unfold veq, mulv. cbn [vx vy vz]. unfold madd. cbn [m00 m01 m02 m10 m11 m12 m20 m21 m22]. unfold mscale, outer, identity3, dot, cross. nums.
  split_all; ring.
Qed.
(* that rotation keeps the axis, and turns vectors at right angles to it by the angle *)
Theorem axis_angle_turns sin cos norm a v : norm a * norm a == sq a -> ~ norm a == 0 -> half_angle sin cos (norm a) ->
  let m := axis_angle_to_matrix sin cos norm a in
  rotation_of m /\ veq (mulv m a) a /\
  (perpendicular a v -> veq (vscale (norm a) (mulv m v)) (vadd (vscale (norm a * cos (norm a)) v) (vscale (sin (norm a)) (cross a v)))).
Proof.
  intros N Z H m. pose proof (axis_angle_same sin cos norm a N H) as M. fold m in M.
  assert (L : length2 (axis_angle_to_quaternion sin cos norm a) == 1).
  { unfold axis_angle_to_quaternion, from_axis. destruct (Qeq_bool (norm a) 0) eqn:E; cbn [negb].
    - reflexivity.
    - unfold length2. nums. destruct H as (U & _). set (c := cos (norm a * (1 # 2))) in *. set (s := sin (norm a * (1 # 2))) in *. set (n := norm a) in *. clearbody c s n.
      transitivity (c * c + s * s * ((vx a * vx a + vy a * vy a + vz a * vz a) / (n * n))); [field; exact Z|]. unfold sq in N. rewrite <- N.
      transitivity (c * c + s * s); [field; exact Z|exact U]. }
  pose proof (quat_matrix_rotation _ L) as R. destruct H as (U & C & S).
  split.
  { destruct R as ((A & B & D & E & F & G) & I). destruct M as ((M0 & M1 & M2) & (M4 & M5 & M6) & (M7 & M8 & M9)).
    unfold rotation_of, orthonormal, det3 in *. rewrite M0, M1, M2, M4, M5, M6, M7, M8, M9. split_all; assumption. }
  clear M L R. set (r := V3 (vx a / norm a) (vy a / norm a) (vz a / norm a)).
  assert (E : m = madd (madd (mscale (cos (norm a)) identity3) (mscale (1 - cos (norm a)) (outer r r))) (mscale (sin (norm a)) (M3 0 (- vz r) (vy r) (vz r) 0 (- vx r) (- vy r) (vx r) 0))).
  { unfold m, axis_angle_to_matrix. destruct (Qeq_bool (norm a) 0) eqn:E; [apply Qeq_bool_iff in E; contradiction|]. reflexivity. }
  clearbody m. subst m.
  unfold sq in N. set (c := cos (norm a)) in *. set (s := sin (norm a)) in *. set (n := norm a) in *. clearbody c s n. clear U C S.
  assert (RA : veq (vscale n r) a) by (unfold veq, vscale, r; nums; split_all; field; exact Z).
  assert (R1 : n * dot r a == n * n). 
  { unfold dot, r. nums. transitivity (vx a * vx a + vy a * vy a + vz a * vz a); [field; exact Z|]. symmetry. exact N. }
  assert (R1' : dot r a == n).
  { assert (E : n * (dot r a - n) == 0) by lra. apply Qmult_integral in E. destruct E; [contradiction|lra]. }
  assert (RV : n * dot r v == vx a * vx v + vy a * vy v + vz a * vz v) by (unfold dot, r; nums; field; exact Z).
  destruct RA as (A0 & A1 & A2). unfold vscale in A0, A1, A2. nums. clearbody r. split.
  - apply (veq_trans3 _ _ _ (rodrigues c s r a)). unfold veq, cross. nums. rewrite R1', <- A0, <- A1, <- A2. split_all; ring.
  - intros P. unfold perpendicular in P. rewrite P in RV. assert (V0 : dot r v == 0) by (apply Qmult_integral in RV; destruct RV; [contradiction|assumption]).
    pose proof (rodrigues c s r v) as M. set (x := mulv _ v) in *. clearbody x. destruct M as (M0 & M1 & M2). nums. rewrite V0 in M0, M1, M2.
    unfold cross in M0, M1, M2. unfold veq, vscale, vadd, cross. nums. rewrite M0, M1, M2, <- A0, <- A1, <- A2. split_all; ring.
Qed.
Example axis_angle_met : exists sin cos norm a, norm a * norm a == sq a /\ ~ norm a == 0 /\ half_angle sin cos (norm a) /\ ~ perpendicular a (V3 1 0 0).
Proof.
  exists (fun t => if Qeq_bool t 1 then 24 # 25 else 3 # 5), (fun t => if Qeq_bool t 1 then 7 # 25 else 4 # 5), (fun _ => 1), (V3 (3 # 5) (4 # 5) 0).
  split; [reflexivity|]. split; [discriminate|]. split; [vm_compute; auto|]. intros H. vm_compute in H. discriminate.
Qed.

(** ** Euler angles *)

Lemma helper_spec sin cos t c :
  (exists n m, axis_name n c /\ euler_rotation_helper sin cos t c = Ok m /\ forall v, veq (mulv m v) (turn sin cos n t v)) \/
  ((forall n, ~ axis_name n c) /\ euler_rotation_helper sin cos t c = Throw ArgumentErr).
Proof.
  unfold euler_rotation_helper.
  destruct ((c =? 88) || (c =? 120))%Z eqn:A.
  { left. exists 0%nat. eexists. split; [|split; [reflexivity|]].
    - left. split; [reflexivity|]. apply orb_true_iff in A. destruct A; [left|right]; lia.
    - intros [x y z]. unfold veq, mulv, rotation_x_axis, turn. nums. split_all; ring. }
  destruct ((c =? 89) || (c =? 121))%Z eqn:B.
  { left. exists 1%nat. eexists. split; [|split; [reflexivity|]].
    - right. left. split; [reflexivity|]. apply orb_true_iff in B. destruct B; [left|right]; lia.
    - intros [x y z]. unfold veq, mulv, rotation_y_axis, turn. nums. split_all; ring. }
  destruct ((c =? 90) || (c =? 122))%Z eqn:C.
  { left. exists 2%nat. eexists. split; [|split; [reflexivity|]].
    - right. right. split; [reflexivity|]. apply orb_true_iff in C. destruct C; [left|right]; lia.
    - intros [x y z]. unfold veq, mulv, rotation_z_axis, turn. nums. split_all; ring. }
  right. split; [|reflexivity]. apply orb_false_iff in A, B, C. intros n [(_ & H)|[(_ & H)|(_ & H)]]; lia.
Qed.
Lemma axis_name_fun n n' c : axis_name n c -> axis_name n' c -> n = n'.
Proof. unfold axis_name. lia. Qed.
(* a sequence that is not three axis letters is refused *)
Theorem euler_refuses sin cos phi omega kappa s :
  (exists m, euler_to_rotation_matrix sin cos phi omega kappa s = Ok m) /\ (length s = 3%nat /\ forall c, In c s -> exists n, axis_name n c) \/
  euler_to_rotation_matrix sin cos phi omega kappa s = Throw ArgumentErr /\ (length s <> 3%nat \/ exists c, In c s /\ forall n, ~ axis_name n c).
Proof.
  destruct s as [|a [|b [|c [|d s]]]]; try (right; split; [reflexivity|left; cbn [length]; lia]). cbn [euler_to_rotation_matrix].
  destruct (helper_spec sin cos phi a) as [(na & ma & A & -> & _)|(A & ->)]; cbn [bind]; [|right; split; [reflexivity|right; exists a; split; [left; reflexivity|exact A]]].
  destruct (helper_spec sin cos omega b) as [(nb & mb & B & -> & _)|(B & ->)]; cbn [bind]; [|right; split; [reflexivity|right; exists b; split; [right; left; reflexivity|exact B]]].
  destruct (helper_spec sin cos kappa c) as [(nc & mc & C & -> & _)|(C & ->)]; cbn [bind]; [|right; split; [reflexivity|right; exists c; split; [right; right; left; reflexivity|exact C]]].
  left. split; [eexists; reflexivity|]. split; [reflexivity|]. intros x [<-|[<-|[<-|[]]]]; eauto.
Qed.
Lemma turn_veq sin cos n t u v : veq u v -> veq (turn sin cos n t u) (turn sin cos n t v).
Proof.
  intros (A & B & C). destruct n as [|[|n]]; unfold veq, turn; nums; rewrite A, B, C; split_all; reflexivity.
Qed.
(* the turns are made in the order of the letters *)
Theorem euler_turns sin cos phi omega kappa a b c na nb nc m v :
  axis_name na a -> axis_name nb b -> axis_name nc c ->
  euler_to_rotation_matrix sin cos phi omega kappa [a; b; c] = Ok m ->
  veq (mulv m v) (turn sin cos nc kappa (turn sin cos nb omega (turn sin cos na phi v))).
Proof.
  intros A B C. cbn [euler_to_rotation_matrix].
  destruct (helper_spec sin cos phi a) as [(na' & ma & A' & -> & Va)|(A' & _)]; [|exfalso; exact (A' _ A)].
  destruct (helper_spec sin cos omega b) as [(nb' & mb & B' & -> & Vb)|(B' & _)]; [|exfalso; exact (B' _ B)].
  destruct (helper_spec sin cos kappa c) as [(nc' & mc & C' & -> & Vc)|(C' & _)]; [|exfalso; exact (C' _ C)].
  pose proof (axis_name_fun _ _ _ A A'). pose proof (axis_name_fun _ _ _ B B'). pose proof (axis_name_fun _ _ _ C C'). subst na' nb' nc'.
  cbn [bind]. intros H. injection H as <-.
  apply (veq_trans3 _ _ _ (mmul_mulv _ _ _)). apply (veq_trans3 _ _ _ (mmul_mulv _ _ _)).
  apply (veq_trans3 _ _ _ (Vc _)). apply turn_veq. apply (veq_trans3 _ _ _ (Vb _)). apply turn_veq. apply Va.
Qed.
(* the shortcut for x, y, z is the same rotation, and a unit quaternion *)
Theorem euler_xyz_same sin cos v m : half_angle sin cos (vx v) -> half_angle sin cos (vy v) -> half_angle sin cos (vz v) ->
  euler_to_rotation_matrix sin cos (vx v) (vy v) (vz v) [120; 121; 122]%Z = Ok m ->
  meq (rotation_matrix (euler_xyz_to_quaternion sin cos v)) m /\ length2 (euler_xyz_to_quaternion sin cos v) == 1.
Proof.
  destruct v as [p o k]. nums. intros (U1 & C1 & S1) (U2 & C2 & S2) (U3 & C3 & S3).
  unfold euler_to_rotation_matrix, euler_rotation_helper. cbn [Z.eqb Pos.eqb orb bind]. intros H. injection H as <-.
  unfold euler_xyz_to_quaternion, rotation_matrix, length2, meq, mmul, rotation_x_axis, rotation_y_axis, rotation_z_axis. nums.
  rewrite C1, C2, C3, S1, S2, S3.
  set (a := cos (p * (1 # 2))) in *. set (b := sin (p * (1 # 2))) in *. set (c := cos (o * (1 # 2))) in *. set (d := sin (o * (1 # 2))) in *. set (e := cos (k * (1 # 2))) in *. set (f := sin (k * (1 # 2))) in *.
  clearbody a b c d e f.
  assert (K1 : forall x, x == x * (a * a + b * b)) by (intros x; rewrite U1; ring).
  assert (K2 : forall x, x == x * (c * c + d * d)) by (intros x; rewrite U2; ring).
  assert (K3 : forall x, x == x * (e * e + f * f)) by (intros x; rewrite U3; ring).
  split; [split_all|].
  - transitivity ((e * e - f * f) * (c * c - d * d) * (a * a + b * b)); [ring|rewrite U1; ring].
  - transitivity ((e * e - f * f) * (2 * (d * c)) * (2 * (b * a)) - 2 * (f * e) * (a * a - b * b) * (c * c + d * d)); [ring|rewrite U2; ring].
  - transitivity ((e * e - f * f) * (2 * (d * c)) * (a * a - b * b) + 2 * (f * e) * (2 * (b * a)) * (c * c + d * d)); [ring|rewrite U2; ring].
  - transitivity (2 * (f * e) * (c * c - d * d) * (a * a + b * b)); [ring|rewrite U1; ring].
  - transitivity (2 * (f * e) * (2 * (d * c)) * (2 * (b * a)) + (e * e - f * f) * (a * a - b * b) * (c * c + d * d)); [ring|rewrite U2; ring].
  - transitivity (2 * (f * e) * (2 * (d * c)) * (a * a - b * b) - (e * e - f * f) * (2 * (b * a)) * (c * c + d * d)); [ring|rewrite U2; ring].
  - transitivity (- (2 * (d * c)) * (a * a + b * b) * (e * e + f * f)); [ring|rewrite U1, U3; ring].
  - transitivity ((c * c - d * d) * (2 * (b * a)) * (e * e + f * f)); [ring|rewrite U3; ring].
  - transitivity ((c * c - d * d) * (a * a - b * b) * (e * e + f * f)); [ring|rewrite U3; ring].
  - transitivity ((a * a + b * b) * (c * c + d * d) * (e * e + f * f)); [ring|rewrite U1, U2, U3; ring].
Qed.

(** ** Interpolation *)

(* at its ends the path is at the first quaternion, and at the second or its opposite,
   whichever is the nearer *)
Theorem slerp_ends sin acos pi a b :
  (forall x y, x == y -> sin x == sin y) -> sin 0 == 0 -> (forall x, 0 <= x -> x < 1 -> ~ sin (acos x) == 0) ->
  qeq (slerp sin acos pi 0 a b 0) a /\
  qeq (slerp sin acos pi 1 a b 0) (if Qlt_le_dec (dot4 a b) 0 then negq b else b).
Proof.
  intros P S0 S. assert (D : dot4 a b == qx a * qx b + qy a * qy b + qz a * qz b + qw a * qw b) by (unfold dot4; ring).
  unfold slerp, qeq, negq. set (t := qx a * qx b + qy a * qy b + qz a * qz b + qw a * qw b) in *. clearbody t.
  set (f := ltq t 0). set (t' := if f then - t else t).
  destruct (ltq_spec (1 - t') (1 # 1000000)) as [L|L].
  - subst f t'. destruct (Qlt_le_dec (dot4 a b) 0) as [N|N]; destruct (ltq_spec t 0) as [T|T]; try (exfalso; lra); nums; split; split_all; ring.
  - assert (N : ~ sin (acos t') == 0) by (apply S; [unfold t', f; destruct (ltq_spec t 0); lra|lra]).
    set (th := acos t') in *.
    assert (A0 : sin (th - 0 * (th + inject_Z 0 * pi)) == sin th) by (apply P; ring).
    assert (A1 : sin (0 * (th + inject_Z 0 * pi)) == 0) by (transitivity (sin 0); [apply P; ring|exact S0]).
    assert (B0 : sin (th - 1 * (th + inject_Z 0 * pi)) == 0) by (transitivity (sin 0); [apply P; unfold inject_Z; ring|exact S0]).
    assert (B1 : sin (1 * (th + inject_Z 0 * pi)) == sin th) by (apply P; unfold inject_Z; ring).
    assert (E0 : sin (th - 0 * (th + inject_Z 0 * pi)) / sin th == 1) by (rewrite A0; field; exact N).
    assert (E1 : sin (0 * (th + inject_Z 0 * pi)) / sin th == 0) by (rewrite A1; field; exact N).
    assert (E2 : sin (th - 1 * (th + inject_Z 0 * pi)) / sin th == 0) by (rewrite B0; field; exact N).
    assert (E3 : sin (1 * (th + inject_Z 0 * pi)) / sin th == 1) by (rewrite B1; field; exact N).
    subst f. destruct (Qlt_le_dec (dot4 a b) 0) as [G|G]; destruct (ltq_spec t 0) as [T|T]; try (exfalso; lra); nums; rewrite ?E0, ?E1, ?E2, ?E3; split; split_all; ring.
Qed.
Example slerp_ends_met : exists (sin acos : Q -> Q) a b, (forall x y, x == y -> sin x == sin y) /\ sin 0 == 0 /\ (forall x, 0 <= x -> x < 1 -> ~ sin (acos x) == 0) /\
  (forall x y, x == y -> acos x = acos y) /\ dot4 a b < 0.
Proof.
  exists (fun x => x), (fun x => Qred (1 - x)), (Qt 1 0 0 0), (Qt (-1 # 2) 0 0 0). split; [auto|]. split; [reflexivity|]. split; [|split].
  - intros x A B E. rewrite Qred_correct in E. lra.
  - intros x y E. apply Qred_complete. rewrite E. reflexivity.
  - reflexivity.
Qed.
(* the sign of the second quaternion, which does not change its rotation, does not
   change the path *)
Theorem slerp_sign sin acos pi alpha a b spin : (forall x y, x == y -> acos x = acos y) -> ~ dot4 a b == 0 ->
  qeq (slerp sin acos pi alpha a (negq b) spin) (slerp sin acos pi alpha a b spin).
Proof.
  intros P N. unfold dot4 in N. unfold slerp, qeq, negq. nums.
  set (t := qx a * qx b + qy a * qy b + qz a * qz b + qw a * qw b).
  set (u := qx a * - qx b + qy a * - qy b + qz a * - qz b + qw a * - qw b).
  assert (U : u == - t) by (unfold u, t; ring). assert (T0 : ~ t == 0) by (intros E; apply N; rewrite <- E; unfold t; ring). clearbody t u. clear N.
  destruct (ltq_spec u 0) as [A|A]; destruct (ltq_spec t 0) as [B|B]; try (exfalso; apply T0; lra).
  - rewrite (P (- u) t) by lra.
    destruct (ltq_spec (1 - - u) (1 # 1000000)), (ltq_spec (1 - t) (1 # 1000000)); try (exfalso; lra); nums; split_all; ring.
  - rewrite (P u (- t)) by lra.
    destruct (ltq_spec (1 - u) (1 # 1000000)), (ltq_spec (1 - - t) (1 # 1000000)); try (exfalso; lra); nums; split_all; ring.
Qed.

Lemma slerp_more_ok one : forall rest w0 q0, 0 < w0 -> nonneg (map fst rest) -> w0 + total (map fst rest) == 1 -> exists q, slerp_more one w0 q0 rest = Ok q.
Proof.
  induction rest as [|[w1 q1] rest IH]; intros w0 q0 W P S; cbn [slerp_more]; [eauto|].
  assert (W1 : 0 <= w1) by (apply P; left; reflexivity).
  destruct rest as [|[w2 q2] rest].
  - cbn [map fst total] in S. assert (A : ltq (qabs (w0 + w1 - 1)) (1 # 1000000) = true).
    { unfold qabs. destruct (ltq_spec (w0 + w1 - 1) 0) as [T|T]; [exfalso; lra|]; destruct (ltq_spec (w0 + w1 - 1) (1 # 1000000)); [reflexivity|exfalso; lra]. }
    rewrite A, (proj2 (Qle_bool_iff 0 w0)), (proj2 (Qle_bool_iff 0 w1)) by lra. cbn [andb]. eauto.
  - assert (E : Qeq_bool (w0 + w1) 0 = false). { destruct (Qeq_bool (w0 + w1) 0) eqn:E; [apply Qeq_bool_iff in E; exfalso; lra|reflexivity]. }
    rewrite E. apply IH; [lra| |].
    + intros x I. apply P. right. exact I.
    + rewrite <- S. cbn [map fst total]. ring.
Qed.
(* with weights that are not negative and add up to one, the first two not both zero,
   there is no error *)
Theorem slerp_n_ok one w0 w1 w q0 q1 qs : length w = length qs -> nonneg (w0 :: w1 :: w) -> total (w0 :: w1 :: w) == 1 -> 0 < w0 + w1 ->
  exists q, slerp_n one (w0 :: w1 :: w) (q0 :: q1 :: qs) = Ok q.
Proof.
  intros L P S W. unfold slerp_n. cbn [length]. rewrite L, Nat.eqb_refl. cbn [negb combine slerp_more].
  assert (W0 : 0 <= w0) by (apply P; left; reflexivity). assert (W1 : 0 <= w1) by (apply P; right; left; reflexivity).
  assert (M : map fst (combine w qs) = w).
  { clear S P. revert qs L. induction w as [|x w IH]; intros [|y qs] L; cbn [length] in L; try discriminate; [reflexivity|]. cbn [combine map fst]. rewrite IH by lia. reflexivity. }
  destruct (combine w qs) as [|[w2 q2] rest] eqn:C.
  - assert (w = []) by (rewrite <- M; reflexivity). subst w. cbn [total map] in S.
    assert (A : ltq (qabs (w0 + w1 - 1)) (1 # 1000000) = true).
    { unfold qabs. destruct (ltq_spec (w0 + w1 - 1) 0) as [T|T]; [exfalso; lra|]; destruct (ltq_spec (w0 + w1 - 1) (1 # 1000000)); [reflexivity|exfalso; lra]. }
    rewrite A, (proj2 (Qle_bool_iff 0 w0)), (proj2 (Qle_bool_iff 0 w1)) by lra. cbn [andb]. eauto.
  - assert (E : Qeq_bool (w0 + w1) 0 = false). { destruct (Qeq_bool (w0 + w1) 0) eqn:E; [apply Qeq_bool_iff in E; exfalso; lra|reflexivity]. }
    rewrite E. apply slerp_more_ok; [exact W| |].
    + rewrite M. intros x I. apply P. right. right. exact I.
    + rewrite M. rewrite <- S. cbn [total]. ring.
Qed.
(* numbers of quaternions and weights that do not fit are refused *)
Theorem slerp_n_sizes one w qs : length w <> length qs \/ qs = [] -> slerp_n one w qs = Throw ArgumentErr.
Proof.
  unfold slerp_n. intros H. destruct (Nat.eqb (length w) (length qs)) eqn:E; cbn [negb]; [|reflexivity].
  apply Nat.eqb_eq in E. destruct H as [H| ->]; [contradiction|]. destruct w; [reflexivity|discriminate].
Qed.
(* equal quaternions stay as they are, whatever the weights, when the path between
   equal ends stays at them *)
Theorem slerp_n_constant one w q qs r : (forall a, one a q q = q) -> (forall x, In x qs -> x = q) -> slerp_n one w qs = Ok r -> r = q.
Proof.
  intros O A. unfold slerp_n. destruct (Nat.eqb (length w) (length qs)); cbn [negb]; [|discriminate].
  destruct (combine w qs) as [|[w0 q0] rest] eqn:C; [discriminate|].
  assert (B : forall x, In x (map snd ((w0, q0) :: rest)) -> x = q).
  { intros x I. apply A. rewrite <- C in I. apply in_map_iff in I. destruct I as ([u v] & <- & I). apply in_combine_r in I. exact I. }
  clear C A. assert (q0 = q) by (apply B; left; reflexivity). subst q0.
  assert (B' : forall x, In x (map snd rest) -> x = q) by (intros x I; apply B; right; exact I). clear B.
  revert w0. induction rest as [|[w1 q1] rest IH]; intros w0 H; cbn [slerp_more] in H.
  - injection H as <-. reflexivity.
  - assert (q1 = q) by (apply B'; left; reflexivity). subst q1. destruct rest as [|[w2 q2] rest].
    + destruct (_ && _ && _); [|discriminate]. injection H as <-. apply O.
    + rewrite O in H. apply IH in H; [exact H|]. intros x I. apply B'. right. exact I.
Qed.
(** Weights that are not negative and add up to one are refused when the first two are
    zero: their sum is replaced with one and kept. *)
Theorem slerp_n_weights_refuted : ~ (forall one w qs, length w = length qs -> qs <> [] -> nonneg w -> total w == 1 -> exists q, slerp_n one w qs = Ok q).
Proof.
  intros H. destruct (H (fun _ a _ => a) [0; 0; 1] [Qt 1 0 0 0; Qt 1 0 0 0; Qt 1 0 0 0]) as (q & E); [reflexivity|discriminate| |reflexivity|].
  - intros x [<-|[<-|[<-|[]]]]; lra.
  - vm_compute in E. discriminate.
Qed.
Example slerp_n_met : exists q, slerp_n (fun a p q => qadd (qscale (1 - a) p) (qscale a q)) [1 # 2; 1 # 4; 1 # 4] [Qt 1 0 0 0; Qt 0 1 0 0; Qt 0 0 1 0] = Ok q /\ qw q == 1 # 2 /\ qy q == 1 # 4.
Proof. eexists. split; [vm_compute; reflexivity|]. split; reflexivity. Qed.

Print Assumptions quat_product_matrix. Print Assumptions quat_rotate_matrix. Print Assumptions quat_matrix_rotation. Print Assumptions quat_rotate_keeps.
Print Assumptions quat_rotate_product. Print Assumptions quat_inverse. Print Assumptions quat_rotate_inverse. Print Assumptions quat_normalize.
Print Assumptions quat_matrix_round_trip. Print Assumptions quat_round_trip. Print Assumptions quat_same_rotation_iff. Print Assumptions quat_mirror_lost.
Print Assumptions quat_any_length_refuted. Print Assumptions axis_angle_same. Print Assumptions axis_angle_turns. Print Assumptions euler_refuses.
Print Assumptions euler_turns. Print Assumptions euler_xyz_same. Print Assumptions slerp_ends. Print Assumptions slerp_sign.
Print Assumptions slerp_n_ok. Print Assumptions slerp_n_sizes. Print Assumptions slerp_n_constant. Print Assumptions slerp_n_weights_refuted.
