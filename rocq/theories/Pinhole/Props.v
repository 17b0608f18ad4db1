(** C83: pinhole cameras. *)
From Coq Require Import List Bool ZArith QArith Lia Lqa Qfield.
From Verif Require Import Lib.Base GeoRef.Model GeoRef.Spec GeoRef.Proofs Stereo.Model Stereo.Spec Stereo.Proofs Pinhole.Model Pinhole.Spec Pinhole.Proofs.
Import ListNotations.
Local Open Scope Q_scope.

(** ** Building *)

(* A camera can be built exactly if its directions are nearly unit vectors at right
   angles, its rotation is invertible and no focal length is zero. *)
Theorem build_iff l c r f o u v w k :
  (exists m, make l c r f o u v w k = Ok m) <-> framed u v w /\ ~ det3 r == 0 /\ ~ fst f == 0 /\ ~ snd f == 0.
Proof.
  split.
  - intros (m & E). unfold make in E. assert (B : built m) by (eexists; exact E).
    destruct (rebuild_inv _ _ E) as ((_ & _ & P3 & P4 & _) & _ & F & _). destruct (built_det m B) as (D & X & Y).
    cbn [rotation focal] in P3, P4. rewrite P3 in D. rewrite P4 in X, Y. split; [exact F|]. auto.
  - intros (F & D & X & Y). unfold make. apply rebuild_ok; assumption.
Qed.
(* Directions that are not a frame give a logic error. *)
Theorem build_frame l c r f o u v w k : ~ framed u v w -> make l c r f o u v w k = Throw LogicErr.
Proof.
  intros N. unfold make, rebuild. cbn [udir vdir wdir].
  destruct (Qeq_bool (dot u v) 0) eqn:A; cbn [negb]; [|reflexivity].
  destruct (Qeq_bool (dot u w) 0) eqn:B; cbn [negb]; [|reflexivity].
  destruct (Qeq_bool (dot v w) 0) eqn:C; cbn [negb]; [|reflexivity].
  destruct (nearly_unit u) eqn:D; cbn [negb]; [|reflexivity].
  destruct (nearly_unit v) eqn:E; cbn [negb]; [|reflexivity].
  destruct (nearly_unit w) eqn:F; cbn [negb]; [|reflexivity].
  exfalso. apply N. apply Qeq_bool_iff in A, B, C. apply nearly_unit_iff in D, E, F.
  split; [exact A|]. split; [exact B|]. split; [exact C|]. intros d [->|[->| ->]]; assumption.
Qed.
(* A camera keeps what it was made of. *)
Theorem build_params l c r f o u v w k m : make l c r f o u v w k = Ok m -> built m /\ do_check m = true /\
  lens_of m = l /\ center m = c /\ rotation m = r /\ focal m = f /\ offset m = o /\ udir m = u /\ vdir m = v /\ wdir m = w /\ pitch m = k.
Proof.
  intros E. split; [eexists; exact E|]. destruct (rebuild_inv _ _ E) as (P & Q & _). split; [exact Q|exact P].
Qed.

(** ** From points to pixels *)

(* Without the lens, the pixel is the perspective image divided by the pitch, and is a
   number exactly for points off the plane of the camera. *)
Theorem no_distortion_image c p : built c ->
  (point_to_pixel_no_distortion c p = None <-> pitch c == 0 \/ depth c p == 0) /\
  (forall q, point_to_pixel_no_distortion c p = Some q -> same (times (pitch c) q) (ideal c p)).
Proof.
  intros B. assert (X : ~ (pitch c == 0 \/ depth c p == 0) -> exists q, point_to_pixel_no_distortion c p = Some q /\ same (times (pitch c) q) (ideal c p)).
  { intros N. destruct (no_check_some c p B) as (i & _ & (S1 & S2) & E); [tauto|tauto|]. eexists. split; [exact E|].
    unfold same, times in *. cbn [fst snd] in *. rewrite <- S1, <- S2. split; field; tauto. }
  destruct (Qeq_dec (pitch c) 0) as [K|K]; [|destruct (Qeq_dec (depth c p) 0) as [D|D]].
  - destruct (no_check_none c p B) as (_ & E); [auto|]. split; [split; auto|]. intros q Q. congruence.
  - destruct (no_check_none c p B) as (_ & E); [auto|]. split; [split; auto|]. intros q Q. congruence.
  - destruct X as (q & E & S); [tauto|]. split; [split; [congruence|tauto]|]. intros q' E'. congruence.
Qed.
(* With the lens, it is the distorted image, divided by the pitch. *)
Theorem distortion_image c p : built c -> proper (lens_of c) ->
  (point_to_pixel_no_check c p = None <-> pitch c == 0 \/ depth c p == 0) /\
  (forall q, point_to_pixel_no_check c p = Some q -> same (times (pitch c) q) (distort (lens_of c) (focal c) (offset c) (ideal c p))).
Proof.
  intros B P. assert (X : ~ (pitch c == 0 \/ depth c p == 0) -> exists q, point_to_pixel_no_check c p = Some q /\ same (times (pitch c) q) (distort (lens_of c) (focal c) (offset c) (ideal c p))).
  { intros N. destruct (no_check_some c p B) as (i & E & S & _); [tauto|tauto|]. eexists. split; [exact E|].
    destruct (P (focal c) (offset c) i (ideal c p) S) as ((S1 & S2) & _).
    unfold same, times in *. cbn [fst snd] in *. rewrite <- S1, <- S2. split; field; tauto. }
  destruct (Qeq_dec (pitch c) 0) as [K|K]; [|destruct (Qeq_dec (depth c p) 0) as [D|D]].
  - destruct (no_check_none c p B) as (E & _); [auto|]. split; [split; auto|]. intros q Q. congruence.
  - destruct (no_check_none c p B) as (E & _); [auto|]. split; [split; auto|]. intros q Q. congruence.
  - destruct X as (q & E & S); [tauto|]. split; [split; [congruence|tauto]|]. intros q' E'. congruence.
Qed.
(* A point is validly projected exactly if it is in front of the camera. *)
Theorem projection_valid_iff c p : built c -> (projection_valid c p = true <-> 0 < depth c p).
Proof.
  intros B. destruct (ext_seen c p B) as (_ & _ & Z). unfold projection_valid. cbn [seen vz] in Z.
  destruct (ltq_spec 0 (vz (prod34 (extrinsics c) p))) as [L|L]; rewrite Z in L; split; intros; auto; try discriminate; lra.
Qed.

(** ** From pixels to rays and back *)

(* the undistorted image of a pixel is that of the points on its ray *)
Lemma ray_seen c q t : built c ->
  veq (seen c (at_ (center c) (pixel_to_vector c q) t)) (vscale t (mulv (ext_rot c) (pixel_to_vector c q))).
Proof.
  intros B. eapply veq_trans; [apply veq_sym, seen_rot|]. eapply veq_trans; [|apply mulv_scale]. apply mulv_veq.
  unfold veq, vsub, at_, vscale. cbn [vx vy vz]. split; [|split]; ring.
Qed.
Lemma ray_intrinsics c q : built c -> let u := undistort (lens_of c) (focal c) (offset c) (times (pitch c) q) in
  proper (lens_of c) -> veq (mulv (intrinsics c) (mulv (ext_rot c) (pixel_to_vector c q))) (V3 (fst u) (snd u) 1).
Proof.
  intros B u P. unfold pixel_to_vector. cbv zeta. eapply veq_trans; [exact (proj2 (inv_seen c _ B))|].
  destruct (P (focal c) (offset c) (fst q * pitch c, snd q * pitch c) (times (pitch c) q)) as (_ & (S1 & S2)).
  { unfold same, times. cbn [fst snd]. split; ring. }
  unfold veq. cbn [vx vy vz]. unfold u. rewrite S1, S2. repeat split; reflexivity.
Qed.

(* Points on the ray of a pixel have an image there: their depth is the parameter
   times a constant, that is one, and the image is the pixel without its distortion. *)
Theorem ray_points c q t : built c -> proper (lens_of c) -> ~ t == 0 ->
  let p := at_ (center c) (pixel_to_vector c q) t in
  depth c p == t /\ same (ideal c p) (undistort (lens_of c) (focal c) (offset c) (times (pitch c) q)).
Proof.
  intros B P T p. destruct (ray_seen c q t B) as (S0 & S1 & S2). destruct (ray_intrinsics c q B P) as (R0 & R1 & R2).
  destruct (intrinsics_seen c (mulv (ext_rot c) (pixel_to_vector c q))) as (I0 & I1 & I2).
  rewrite I0 in R0. rewrite I1 in R1. rewrite I2 in R2. cbn [vx vy vz] in R0, R1, R2. fold p in S0, S1, S2.
  cbn [vx vy vz vscale seen] in S0, S1, S2.
  set (X := vx (mulv (ext_rot c) (pixel_to_vector c q))) in *. set (Y := vy (mulv (ext_rot c) (pixel_to_vector c q))) in *. set (Z := vz (mulv (ext_rot c) (pixel_to_vector c q))) in *.
  clearbody X Y Z p. assert (D : depth c p == t) by (rewrite S2, R2; ring).
  split; [exact D|]. unfold same, ideal. cbn [fst snd]. rewrite S0, S1, D, <- R0, <- R1, R2. split; field; exact T.
Qed.

(* The pixel of a point on the ray of a pixel is this pixel, in front of the camera or
   behind it, if the lens puts back there what it takes away. *)
Theorem pixel_round_trip c q t : built c -> proper (lens_of c) -> ~ pitch c == 0 -> ~ t == 0 -> redoes c (times (pitch c) q) ->
  exists q', point_to_pixel_no_check c (at_ (center c) (pixel_to_vector c q) t) = Some q' /\ same q' q.
Proof.
  intros B P K T U. destruct (ray_points c q t B P T) as (D & S).
  destruct (distortion_image c (at_ (center c) (pixel_to_vector c q) t) B P) as (N & I).
  destruct (point_to_pixel_no_check c (at_ (center c) (pixel_to_vector c q) t)) as [q'|].
  - exists q'. split; [reflexivity|]. specialize (I q' eq_refl).
    destruct (P (focal c) (offset c) _ _ S) as (S' & _). pose proof (same_trans _ _ _ I (same_trans _ _ _ S' U)) as (E1 & E2).
    unfold times in E1, E2. cbn [fst snd] in E1, E2. split; [exact (proj1 (Qmult_inj_l _ _ (pitch c) K) E1)|exact (proj1 (Qmult_inj_l _ _ (pitch c) K) E2)].
  - exfalso. destruct N as (N & _). destruct (N eq_refl) as [Z|Z]; [contradiction|]. rewrite D in Z. contradiction.
Qed.

(* The ray of the pixel of a point goes through the point, at a parameter equal to its
   depth, if the lens takes away what it puts there. *)
Theorem point_round_trip c p q : built c -> proper (lens_of c) -> point_to_pixel_no_check c p = Some q -> undoes c (ideal c p) ->
  veq p (at_ (center c) (pixel_to_vector c q) (depth c p)).
Proof.
  intros B P E U. destruct (distortion_image c p B P) as (N & I). specialize (I q E).
  assert (D : ~ depth c p == 0).
  { intros Z. destruct N as (_ & N). rewrite N in E by auto. discriminate. }
  assert (V : same (undistort (lens_of c) (focal c) (offset c) (times (pitch c) q)) (ideal c p)).
  { eapply same_trans; [|exact U]. apply P. exact I. }
  assert (K : veq (mulv (intrinsics c) (mulv (ext_rot c) (vsub p (center c)))) (vscale (depth c p) (mulv (intrinsics c) (mulv (ext_rot c) (pixel_to_vector c q))))).
  { eapply veq_trans; [apply mulv_veq, seen_rot|]. eapply veq_trans; [apply intrinsics_seen|].
    eapply veq_trans; [|apply vscale_veq, veq_sym, (ray_intrinsics c q B P)].
    destruct V as (V1 & V2). unfold veq, vscale. cbn [vx vy vz]. rewrite V1, V2. unfold ideal, seen. cbn [fst snd vx vy vz]. split; [|split]; field; exact D. }
  assert (L : veq (vsub p (center c)) (vscale (depth c p) (pixel_to_vector c q))).
  { eapply veq_trans; [apply veq_sym, (proj1 (inv_seen c _ B))|]. eapply veq_trans; [apply mulv_veq, K|].
    eapply veq_trans; [apply mulv_scale|]. apply vscale_veq. exact (proj1 (inv_seen c _ B)). }
  destruct L as (L0 & L1 & L2). unfold vsub, vscale in L0, L1, L2. cbn [vx vy vz] in L0, L1, L2.
  unfold veq, at_. cbn [vx vy vz]. split; [|split]; lra.
Qed.

(* Hence two points with one pixel are on one line through the centre. *)
Theorem same_pixel_same_line c p p' q : built c -> proper (lens_of c) -> point_to_pixel_no_check c p = Some q -> point_to_pixel_no_check c p' = Some q ->
  undoes c (ideal c p) -> undoes c (ideal c p') -> parallel (vsub p (center c)) (vsub p' (center c)).
Proof.
  intros B P E E' U U'. pose proof (point_round_trip c p q B P E U) as (A0 & A1 & A2). pose proof (point_round_trip c p' q B P E' U') as (B0 & B1 & B2).
  assert (D : ~ depth c p == 0).
  { intros Z. destruct (distortion_image c p B P) as ((_ & N) & _). rewrite N in E by auto. discriminate. }
  exists (depth c p'), (depth c p). split; [tauto|]. unfold veq, vscale, vsub, at_ in *. cbn [vx vy vz] in *.
  rewrite A0, A1, A2, B0, B1, B2. split; [|split]; ring.
Qed.

(** ** The check *)

Lemma aligned_self a k : ~ k == 0 -> ~ veq a vzero -> nearly_aligned a (vscale k a) = true.
Proof.
  intros K N. unfold nearly_aligned.
  assert (S : 0 < dot a a).
  { pose proof (sq_nonneg a) as P. unfold sq in P. fold (dot a a) in P. destruct (Qeq_dec (dot a a) 0) as [Z|Z]; [|lra]. exfalso. apply N. apply sq3_zero in Z. exact Z. }
  assert (E1 : dot (vscale k a) (vscale k a) == k * k * dot a a) by (unfold dot, vscale; cbn [vx vy vz]; ring).
  assert (E2 : dot a (vscale k a) == k * dot a a) by (unfold dot, vscale; cbn [vx vy vz]; ring).
  destruct (ltq_spec ((19999 # 20000) * (19999 # 20000) * (dot a a * dot (vscale k a) (vscale k a))) (dot a (vscale k a) * dot a (vscale k a))) as [L|L]; [reflexivity|].
  exfalso. apply L. rewrite E1, E2.
  assert (K2 : 0 < k * k) by (destruct (Q_dec k 0) as [[H|H]|H]; [nra|nra|contradiction]).
  assert (X : 0 < (dot a a * dot a a) * (k * k)) by (apply Qmult_lt_0_compat; [apply Qmult_lt_0_compat; assumption|assumption]).
  set (y := dot a a) in *. clearbody y. nra.
Qed.
Lemma nearly_aligned_veq a b b' : veq b b' -> nearly_aligned a b = nearly_aligned a b'.
Proof.
  intros (A & B & C). unfold nearly_aligned, ltq. f_equal. 
  assert (E : forall x x' y y', x == x' -> y == y' -> Qle_bool x y = Qle_bool x' y').
  { intros x x' y y' X Y. destruct (Qle_bool x y) eqn:L, (Qle_bool x' y') eqn:L'; auto.
    - apply Qle_bool_iff in L. rewrite X, Y in L. apply Qle_bool_iff in L. congruence.
    - apply Qle_bool_iff in L'. rewrite <- X, <- Y in L'. apply Qle_bool_iff in L'. congruence. }
  apply E; unfold dot; rewrite A, B, C; reflexivity.
Qed.

(* The check lets through every point where the lens takes away what it puts there. *)
Theorem check_passes c p : built c -> proper (lens_of c) -> ~ pitch c == 0 -> ~ depth c p == 0 -> undoes c (ideal c p) ->
  exists q, point_to_pixel c p = Ok (Some q) /\ point_to_pixel_no_check c p = Some q.
Proof.
  intros B P K D U. destruct (no_check_some c p B K D) as (i & E & _). eexists. split; [|exact E].
  pose proof (point_round_trip c p _ B P E U) as (A0 & A1 & A2). unfold point_to_pixel. rewrite E.
  destruct (do_check c); cbn [negb]; [|reflexivity].
  set (q := (fst (distort (lens_of c) (focal c) (offset c) i) / pitch c, snd (distort (lens_of c) (focal c) (offset c) i) / pitch c)) in *.
  rewrite (nearly_aligned_veq _ _ (vscale (depth c p) (pixel_to_vector c q))).
  - rewrite aligned_self; [reflexivity|exact D|]. intros Z.
    destruct (ray_intrinsics c q B P) as (_ & _ & R). assert (M : veq (mulv (intrinsics c) (mulv (ext_rot c) (pixel_to_vector c q))) (mulv (intrinsics c) (mulv (ext_rot c) vzero))) by (apply mulv_veq, mulv_veq, Z).
    destruct M as (_ & _ & M). rewrite R in M. unfold mulv, intrinsics, vzero in M. cbn [m00 m01 m02 m10 m11 m12 m20 m21 m22 vx vy vz] in M. lra.
  - unfold at_ in A0, A1, A2. cbn [vx vy vz] in A0, A1, A2. unfold veq, vsub, vscale. cbn [vx vy vz]. split; [|split]; lra.
Qed.
(* A checked pixel is that without check, and its ray is within the bound: the square
   of the cosine of the angle to the point is above (1 - 0.01^2/2)^2. *)
Theorem check_sound c p q : point_to_pixel c p = Ok (Some q) -> point_to_pixel_no_check c p = Some q /\
  (do_check c = true -> let a := pixel_to_vector c q in let b := vsub p (center c) in
     (19999 # 20000) * (19999 # 20000) * (sq a * sq b) < dot a b * dot a b).
Proof.
  unfold point_to_pixel. intros E. destruct (point_to_pixel_no_check c p) as [q'|] eqn:F; [|destruct (do_check c); discriminate].
  destruct (do_check c) eqn:K; cbn [negb] in E.
  - destruct (nearly_aligned (pixel_to_vector c q') (vsub p (center c))) eqn:A; [|discriminate]. injection E as <-. split; [reflexivity|]. intros _.
    unfold nearly_aligned in A. cbv zeta. destruct (ltq_spec ((19999 # 20000) * (19999 # 20000) * (dot (pixel_to_vector c q') (pixel_to_vector c q') * dot (vsub p (center c)) (vsub p (center c)))) (dot (pixel_to_vector c q') (vsub p (center c)) * dot (pixel_to_vector c q') (vsub p (center c)))) as [L|]; [exact L|discriminate].
  - injection E as <-. split; [reflexivity|discriminate].
Qed.
(* With the check, a point in the plane of the camera gives an error. *)
Theorem check_plane c p : built c -> do_check c = true -> depth c p == 0 -> point_to_pixel c p = Throw OtherErr.
Proof. intros B K D. unfold point_to_pixel. destruct (no_check_none c p B) as (E & _); [auto|]. now rewrite E, K. Qed.

(* A point behind the camera is not refused: it has the pixel of its mirror image. *)
Theorem behind_refused_refuted :
  ~ (forall c p q, built c -> point_to_pixel c p = Ok (Some q) -> projection_valid c p = true).
Proof.
  intros H. destruct make_default as [c| |] eqn:E; vm_compute in E; [|discriminate|discriminate].
  assert (B : built c) by (exists c; injection E as <-; vm_compute; reflexivity).
  specialize (H c (V3 1 2 (-4))). injection E as <-.
  specialize (H _ B ltac:(vm_compute; reflexivity)). vm_compute in H. discriminate.
Qed.

(** ** Changes *)

Lemma rebuild_params a b : same_params a b -> do_check a = do_check b -> rebuild a = rebuild b.
Proof.
  intros (P1 & P2 & P3 & P4 & P5 & P6 & P7 & P8 & P9) K. unfold rebuild, intrinsics. rewrite P1, P2, P3, P4, P5, P6, P7, P8, P9, K. reflexivity.
Qed.
Lemma rebuild_kept a c : rebuild a = Ok c -> rebuild c = Ok c.
Proof.
  intros E. destruct (rebuild_inv a c E) as (P & K & _). rewrite (rebuild_params c a P K). exact E.
Qed.
(* what does not enter the matrices may change without building them again *)
Lemma rebuild_lens c l k : rebuild c = Ok c -> 
  rebuild (with_ c l (center c) (rotation c) (focal c) (offset c) (udir c) (vdir c) (wdir c) k) = Ok (with_ c l (center c) (rotation c) (focal c) (offset c) (udir c) (vdir c) (wdir c) k).
Proof.
  intros E. unfold rebuild, with_, intrinsics in *. cbn [udir vdir wdir rotation center focal offset lens_of pitch do_check].
  destruct (negb (Qeq_bool (dot (udir c) (vdir c)) 0)); [discriminate|].
  destruct (negb (Qeq_bool (dot (udir c) (wdir c)) 0)); [discriminate|].
  destruct (negb (Qeq_bool (dot (vdir c) (wdir c)) 0)); [discriminate|].
  destruct (negb (nearly_unit (udir c))); [discriminate|].
  destruct (negb (nearly_unit (vdir c))); [discriminate|].
  destruct (negb (nearly_unit (wdir c))); [discriminate|].
  cbv zeta in *.
  destruct (inverse3 (mmul (rows (udir c) (vdir c) (wdir c)) (transpose (rotation c)))) as [a| |]; cbn [bind] in *; [|discriminate|discriminate].
  destruct (inverse3 (M3 (fst (focal c)) 0 (fst (offset c)) 0 (snd (focal c)) (snd (offset c)) 0 0 1)) as [b| |]; cbn [bind] in *; [|discriminate|discriminate].
  destruct c as [cl cc cr cf co cu cv cw ck cd ce cm ci]. cbn [lens_of center rotation focal offset udir vdir wdir pitch do_check extrinsics camera_matrix inv_transform] in *.
  congruence.
Qed.
Lemma step_built c o c' : rebuild c = Ok c -> do_check c = true -> step c o = Ok c' -> rebuild c' = Ok c' /\ do_check c' = true.
Proof.
  intros B K E. destruct o; cbn [step] in E.
  - split; [exact (rebuild_kept _ _ E)|]. destruct (rebuild_inv _ _ E) as (_ & D & _). rewrite D. exact K.
  - split; [exact (rebuild_kept _ _ E)|]. destruct (rebuild_inv _ _ E) as (_ & D & _). rewrite D. exact K.
  - split; [exact (rebuild_kept _ _ E)|]. destruct (rebuild_inv _ _ E) as (_ & D & _). rewrite D. exact K.
  - injection E as <-. split; [apply (rebuild_lens c l (pitch c) B)|exact K].
  - split; [exact (rebuild_kept _ _ E)|]. destruct (rebuild_inv _ _ E) as (_ & D & _). rewrite D. exact K.
  - split; [exact (rebuild_kept _ _ E)|]. destruct (rebuild_inv _ _ E) as (_ & D & _). rewrite D. exact K.
  - split; [exact (rebuild_kept _ _ E)|]. destruct (rebuild_inv _ _ E) as (_ & D & _). rewrite D. exact K.
  - injection E as <-. split; [apply (rebuild_lens c (lens_of c) k B)|exact K].
  - unfold apply_transform in E. destruct (set_camera_center c (vadd (vscale s (mulv r (center c))) t)) as [c1| |] eqn:E1; cbn [bind] in E; [|discriminate|discriminate].
    split; [exact (rebuild_kept _ _ E)|]. destruct (rebuild_inv _ _ E) as (_ & D & _). rewrite D.
    destruct (rebuild_inv _ _ E1) as (_ & D1 & _). cbn [with_ do_check]. rewrite D1. exact K.
Qed.

(* However a camera was changed, it is the camera made afresh from its parameters. *)
Theorem changes_as_made l c r f o u v w k m ops m' : make l c r f o u v w k = Ok m -> steps m ops = Ok m' -> remade m' = Ok m' /\ built m'.
Proof.
  intros E S. assert (B : rebuild m = Ok m /\ do_check m = true).
  { split; [exact (rebuild_kept _ _ E)|]. destruct (rebuild_inv _ _ E) as (_ & D & _). exact D. }
  clear E. revert m B S. induction ops as [|x ops IH]; intros m (B & K) S; cbn [steps] in S.
  - injection S as <-. split; [|eexists; exact B]. unfold remade, make. erewrite rebuild_params; [exact B| |]; [repeat split|cbn [do_check]; congruence].
  - destruct (step m x) as [m1| |] eqn:E; cbn [bind] in S; [|discriminate|discriminate]. apply (IH m1); [|exact S]. exact (step_built m x m1 B K E).
Qed.
(* Each call changes the parameter it is given, and no other. *)
Theorem step_params c o c' : step c o = Ok c' -> match o with
  | Center v => same_params c' (with_ c (lens_of c) v (rotation c) (focal c) (offset c) (udir c) (vdir c) (wdir c) (pitch c))
  | Pose r => same_params c' (with_ c (lens_of c) (center c) r (focal c) (offset c) (udir c) (vdir c) (wdir c) (pitch c))
  | Frame u v w => same_params c' (with_ c (lens_of c) (center c) (rotation c) (focal c) (offset c) u v w (pitch c))
  | Distortion l => same_params c' (with_ c l (center c) (rotation c) (focal c) (offset c) (udir c) (vdir c) (wdir c) (pitch c))
  | Intrinsic f n => same_params c' (with_ c (lens_of c) (center c) (rotation c) f n (udir c) (vdir c) (wdir c) (pitch c))
  | Focal f => same_params c' (with_ c (lens_of c) (center c) (rotation c) f (offset c) (udir c) (vdir c) (wdir c) (pitch c))
  | Offset n => same_params c' (with_ c (lens_of c) (center c) (rotation c) (focal c) n (udir c) (vdir c) (wdir c) (pitch c))
  | Pitch k => same_params c' (with_ c (lens_of c) (center c) (rotation c) (focal c) (offset c) (udir c) (vdir c) (wdir c) k)
  | Transform r t s => exists n, veq n (V3 (s * (m00 r * vx (center c) + m01 r * vy (center c) + m02 r * vz (center c)) + vx t)
        (s * (m10 r * vx (center c) + m11 r * vy (center c) + m12 r * vz (center c)) + vy t)
        (s * (m20 r * vx (center c) + m21 r * vy (center c) + m22 r * vz (center c)) + vz t)) /\
      same_params c' (with_ c (lens_of c) n (rotation c') (focal c) (offset c) (udir c) (vdir c) (wdir c) (pitch c))
  end.
Proof.
  intros E. destruct o; cbn [step] in E; try exact (proj1 (rebuild_inv _ _ E)); try (injection E as <-; repeat split; fail).
  unfold apply_transform in E. destruct (set_camera_center c (vadd (vscale s (mulv r (center c))) t)) as [c1| |] eqn:E1; cbn [bind] in E; [|discriminate|discriminate].
  destruct (rebuild_inv _ _ E) as (P & _). destruct (rebuild_inv _ _ E1) as (P1 & _).
  exists (vadd (vscale s (mulv r (center c))) t). split; [split; [|split]; reflexivity|].
  unfold same_params, with_ in *. cbn [lens_of center rotation focal offset udir vdir wdir pitch] in *.
  destruct P as (A1 & A2 & A3 & A4 & A5 & A6 & A7 & A8 & A9), P1 as (B1 & B2 & B3 & B4 & B5 & B6 & B7 & B8 & B9).
  repeat split; congruence.
Qed.

(* A focal length set without building leaves pixels as they were: the camera no longer
   shows what its parameters say. *)
Theorem no_rebuild_stale_refuted :
  ~ (forall c f c' p q, built c -> set_focal_length c f false = Ok c' -> point_to_pixel_no_distortion c' p = Some q -> same (times (pitch c') q) (ideal c' p)).
Proof.
  intros H. destruct make_default as [c| |] eqn:E; vm_compute in E; [|discriminate|discriminate].
  assert (B : built c) by (exists c; injection E as <-; vm_compute; reflexivity).
  destruct (set_focal_length c (2, 2) false) as [c'| |] eqn:S; cbn in S; [|discriminate|discriminate].
  destruct (point_to_pixel_no_distortion c' (V3 1 1 1)) as [q|] eqn:T.
  - pose proof (H c (2, 2) c' (V3 1 1 1) q B S T) as (X & _). injection S as <-. injection E as <-. vm_compute in T. injection T as <-. vm_compute in X. discriminate.
  - injection S as <-. injection E as <-. vm_compute in T. discriminate.
Qed.

(* Scaling a camera scales its pixels; a zero scale is refused. *)
Theorem scale_pixels c s p : built c -> (s == 0 -> scale_camera c s = Throw ArgumentErr) /\
  (~ s == 0 -> exists c', scale_camera c s = Ok c' /\ built c' /\
    match point_to_pixel_no_check c p, point_to_pixel_no_check c' p with
    | Some q, Some q' => same q' (times s q) | None, None => True | _, _ => False end /\
    (forall q, proper (lens_of c) -> veq (pixel_to_vector c' (times s q)) (pixel_to_vector c q))).
Proof.
  intros (c0 & B). split; [intros Z; unfold scale_camera; apply Qeq_bool_iff in Z; now rewrite Z|]. intros N.
  unfold scale_camera. destruct (Qeq_bool s 0) eqn:Z; [apply Qeq_bool_iff in Z; contradiction|].
  pose proof (rebuild_kept _ _ B) as K. pose proof (rebuild_lens c (lens_of c) (pitch c / s) K) as L.
  set (c1 := with_ c (lens_of c) (center c) (rotation c) (focal c) (offset c) (udir c) (vdir c) (wdir c) (pitch c / s)) in *.
  assert (E : make (lens_of c) (center c) (rotation c) (focal c) (offset c) (udir c) (vdir c) (wdir c) (pitch c / s) =
    Ok (Pin (lens_of c) (center c) (rotation c) (focal c) (offset c) (udir c) (vdir c) (wdir c) (pitch c / s) true (extrinsics c) (camera_matrix c) (inv_transform c))).
  { destruct (rebuild_ok (Pin (lens_of c) (center c) (rotation c) (focal c) (offset c) (udir c) (vdir c) (wdir c) (pitch c / s) true (no_mat, vzero) (no_mat, vzero) no_mat)) as (c2 & E2).
    - destruct (built_inv c (ex_intro _ c0 B)) as (F & _). exact F.
    - exact (proj1 (built_det c (ex_intro _ c0 B))).
    - exact (proj1 (proj2 (built_det c (ex_intro _ c0 B)))).
    - exact (proj2 (proj2 (built_det c (ex_intro _ c0 B)))).
    - unfold make. rewrite E2. destruct (rebuild_inv _ _ E2) as ((P1 & P2 & P3 & P4 & P5 & P6 & P7 & P8 & P9) & D & _ & X & C & a & b & I & A1 & A2).
      destruct (built_inv c (ex_intro _ c0 B)) as (_ & X' & C' & a' & b' & I' & A1' & A2').
      unfold ext_rot, intrinsics in *. cbn [lens_of center rotation focal offset udir vdir wdir pitch do_check] in *. 
      rewrite P6, P7, P8, P3 in A1. rewrite P4, P5 in A2. rewrite A1' in A1. rewrite A2' in A2. injection A1 as ->. injection A2 as ->.
      destruct c2 as [cl cc cr cf co cu cv cw ck cd ce cm ci]. cbn [lens_of center rotation focal offset udir vdir wdir pitch do_check extrinsics camera_matrix inv_transform] in *.
      subst. rewrite X', C', X', I'. cbn [fst snd]. reflexivity. }
  eexists. split; [exact E|]. split; [eexists; exact E|].
  unfold point_to_pixel_no_check, pixel_to_vector. cbn [lens_of focal offset pitch camera_matrix inv_transform]. cbv zeta.
  assert (P0 : Qeq_bool (pitch c / s) 0 = Qeq_bool (pitch c) 0).
  { destruct (Qeq_bool (pitch c) 0) eqn:Q.
    - apply Qeq_bool_iff in Q. apply Qeq_bool_iff. rewrite Q. field. exact N.
    - apply not_true_iff_false. intros Q'. apply Qeq_bool_iff in Q'. apply not_true_iff_false in Q. apply Q. apply Qeq_bool_iff.
      transitivity (pitch c / s * s); [field; exact N|rewrite Q'; ring]. }
  rewrite P0. split.
  - destruct (Qeq_bool (vz (prod34 (camera_matrix c) p)) 0 || Qeq_bool (pitch c) 0) eqn:Q; [exact I|].
    apply orb_false_iff in Q. destruct Q as (_ & Q). assert (Q' : ~ pitch c == 0) by (intros Q'; apply Qeq_bool_iff in Q'; congruence).
    unfold same, times. cbn [fst snd]. split; field; auto.
  - intros q P. apply mulv_veq. destruct (P (focal c) (offset c) (fst (times s q) * (pitch c / s), snd (times s q) * (pitch c / s)) (fst q * pitch c, snd q * pitch c)) as (_ & (S1 & S2)).
    { unfold same, times. cbn [fst snd]. split; field; exact N. }
    unfold veq. cbn [vx vy vz]. rewrite S1, S2. repeat split; reflexivity.
Qed.

(* A camera without its distortion has the pixels of the camera before the lens. *)
Theorem strip_pixels c p : built c -> exists c', strip_lens_distortion c = Ok c' /\ built c' /\
  match point_to_pixel_no_distortion c p, point_to_pixel_no_check c' p with
  | Some q, Some q' => same q q' | None, None => True | _, _ => False end.
Proof.
  intros B. destruct (proj2 (build_iff null_lens (center c) (rotation c) (focal c) (offset c) (udir c) (vdir c) (wdir c) (pitch c))) as (c' & E).
  { destruct (built_inv c B) as (F & _). split; [exact F|]. exact (built_det c B). }
  exists c'. split; [exact E|]. destruct (build_params _ _ _ _ _ _ _ _ _ _ E) as (B' & _ & P1 & P2 & P3 & P4 & P5 & P6 & P7 & P8 & P9). split; [exact B'|].
  assert (D : depth c' p = depth c p) by (unfold depth, along; rewrite P2, P3, P8; reflexivity).
  assert (I : ideal c' p = ideal c p) by (unfold ideal; rewrite D; unfold along; rewrite P2, P3, P4, P5, P6, P7; reflexivity).
  destruct (Qeq_dec (pitch c) 0) as [K|K]; [|destruct (Qeq_dec (depth c p) 0) as [Z|Z]].
  - rewrite (proj2 (no_check_none c p B (or_introl K))), (proj1 (no_check_none c' p B' ltac:(rewrite P9; auto))). exact Logic.I.
  - rewrite (proj2 (no_check_none c p B (or_intror Z))), (proj1 (no_check_none c' p B' ltac:(rewrite D; auto))). exact Logic.I.
  - destruct (no_check_some c p B K Z) as (i & _ & (S1 & S2) & ->). destruct (no_check_some c' p B') as (j & -> & (T1 & T2) & _); [rewrite P9; exact K|rewrite D; exact Z|].
    rewrite P1. unfold same. cbn [fst snd null_lens distort]. rewrite I in T1, T2. rewrite S1, S2, T1, T2, P9. split; reflexivity.
Qed.

(* Moving a camera by a rotation, a scale and a shift moves its picture: a moved point
   has the pixel the point had. *)
Theorem transform_pixels c r t s p : built c -> proper (lens_of c) -> orthonormal r -> ~ s == 0 ->
  exists c', apply_transform c r t s = Ok c' /\ built c' /\
    (forall d, along c' d (vadd (vscale s (mulv r p)) t) == s * along c d p) /\
    match point_to_pixel_no_check c p, point_to_pixel_no_check c' (vadd (vscale s (mulv r p)) t) with
    | Some q, Some q' => same q q' | None, None => True | _, _ => False end.
Proof.
  intros B P O S. destruct (built_inv c B) as (F & _). destruct (built_det c B) as (D & X & Y).
  unfold apply_transform.
  destruct (rebuild_ok (with_ c (lens_of c) (vadd (vscale s (mulv r (center c))) t) (rotation c) (focal c) (offset c) (udir c) (vdir c) (wdir c) (pitch c)) F D X Y) as (c1 & E1).
  unfold set_camera_center. rewrite E1. cbn [bind].
  destruct (rebuild_inv _ _ E1) as ((P1 & P2 & P3 & P4 & P5 & P6 & P7 & P8 & P9) & _). unfold with_ in P1, P2, P3, P4, P5, P6, P7, P8, P9. cbn [lens_of center rotation focal offset udir vdir wdir pitch] in P1, P2, P3, P4, P5, P6, P7, P8, P9.
  unfold set_camera_pose. rewrite P1, P2, P4, P5, P6, P7, P8, P9.
  destruct (rebuild_ok (with_ c1 (lens_of c) (vadd (vscale s (mulv r (center c))) t) (mmul r (rotation c)) (focal c) (offset c) (udir c) (vdir c) (wdir c) (pitch c))) as (c2 & E2).
  { exact F. }
  { cbn [with_ rotation]. rewrite det_mul. intros Z. apply Qmult_integral in Z. pose proof (orthonormal_det r O). tauto. }
  { exact X. } { exact Y. }
  exists c2. split; [exact E2|]. assert (B2 : built c2) by (eexists; exact E2). split; [exact B2|].
  destruct (rebuild_inv _ _ E2) as ((R1 & R2 & R3 & R4 & R5 & R6 & R7 & R8 & R9) & _). unfold with_ in R1, R2, R3, R4, R5, R6, R7, R8, R9. cbn [lens_of center rotation focal offset udir vdir wdir pitch] in R1, R2, R3, R4, R5, R6, R7, R8, R9.
  assert (A : forall d, along c2 d (vadd (vscale s (mulv r p)) t) == s * along c d p).
  { intros d. unfold along. rewrite R2, R3.
    set (h := vsub p (center c)).
    assert (V : veq (vsub (vadd (vscale s (mulv r p)) t) (vadd (vscale s (mulv r (center c))) t)) (vscale s (mulv r h))).
    { unfold h, veq, vsub, vadd, vscale, mulv. cbn [vx vy vz]. split; [|split]; ring. }
    destruct V as (V0 & V1 & V2). unfold vsub in V0, V1, V2. cbn [vx vy vz] in V0, V1, V2. cbv zeta. rewrite V0, V1, V2.
    pose proof (inverse_mulv _ _ h (orthonormal_one r O)) as (W0 & W1 & W2).
    change (vx p - vx (center c)) with (vx h). change (vy p - vy (center c)) with (vy h). change (vz p - vz (center c)) with (vz h).
    rewrite <- W0, <- W1, <- W2 at 1. 
    unfold mmul, vscale, mulv, transpose in *. cbn [m00 m01 m02 m10 m11 m12 m20 m21 m22 vx vy vz] in *.
    set (x := m00 r * vx h + m01 r * vy h + m02 r * vz h) in *. set (y := m10 r * vx h + m11 r * vy h + m12 r * vz h) in *. set (z := m20 r * vx h + m21 r * vy h + m22 r * vz h) in *.
    rewrite <- W0, <- W1, <- W2. clearbody x y z. ring. }
  split; [exact A|].
  assert (DD : depth c2 (vadd (vscale s (mulv r p)) t) == s * depth c p) by (unfold depth; rewrite R8; apply A).
  destruct (Qeq_dec (pitch c) 0) as [K|K]; [|destruct (Qeq_dec (depth c p) 0) as [Z|Z]].
  - rewrite (proj1 (no_check_none c p B (or_introl K))), (proj1 (no_check_none c2 _ B2 ltac:(rewrite R9; auto))). exact I.
  - rewrite (proj1 (no_check_none c p B (or_intror Z))), (proj1 (no_check_none c2 (vadd (vscale s (mulv r p)) t) B2 ltac:(right; rewrite DD, Z; ring))). exact I.
  - destruct (no_check_some c p B K Z) as (i & -> & Si & _).
    destruct (no_check_some c2 (vadd (vscale s (mulv r p)) t) B2) as (j & -> & Sj & _).
    + rewrite R9. exact K.
    + rewrite DD. intros Q. apply Qmult_integral in Q. tauto.
    + assert (IJ : same i j).
      { eapply same_trans; [exact Si|]. eapply same_trans; [|apply same_sym; exact Sj]. unfold same, ideal. cbn [fst snd].
        rewrite DD, R4, R5, R6, R7, !A. split; field; auto. }
      rewrite R1, R4, R5, R9. destruct (P (focal c) (offset c) i j IJ) as ((U1 & U2) & _).
      unfold same. cbn [fst snd]. rewrite U1, U2. split; reflexivity.
Qed.

(** ** Epipolar cameras *)

(* Two cameras made epipolar have every point of their common view on the same row, and
   the columns differ by the focal length times the distance of the centres over the depth. *)
Theorem epipolar_rows norm s0 s1 p : 
  let base := vsub (center s1) (center s0) in
  let g := V3 (- (1#2) * (m02 (rotation s0) + m02 (rotation s1))) (- (1#2) * (m12 (rotation s0) + m12 (rotation s1))) (- (1#2) * (m22 (rotation s0) + m22 (rotation s1))) in
  is_length (norm base) base ->
  (forall a, veq a (vsub g (vscale (dot g base / sq base) base)) -> is_length (norm a) a) ->
  ~ parallel g base -> 
  (let f := half (focal s0) (focal s1) in ~ fst f == 0 /\ ~ snd f == 0) -> ~ pitch s0 + pitch s1 == 0 ->
  exists d0 d1, epipolar norm s0 s1 = Ok (d0, d1) /\ built d0 /\ built d1 /\ center d0 = center s0 /\ center d1 = center s1 /\
    rotation d0 = rotation d1 /\ orthonormal (rotation d0) /\ det3 (rotation d0) == 1 /\
    0 < dot (look (rotation d0)) (vadd (look (rotation s0)) (look (rotation s1))) /\
    depth d0 p == depth d1 p /\
    match point_to_pixel_no_check d0 p, point_to_pixel_no_check d1 p with
    | Some q0, Some q1 => snd q0 == snd q1 /\ (fst q0 - fst q1) * (depth d0 p * (pitch s0 + pitch s1)) == (fst (focal s0) + fst (focal s1)) * norm base
    | None, None => depth d0 p == 0 | _, _ => False end.
Proof.
  intros base g NM NM2 NP F K. unfold epipolar. cbv zeta. fold base.
  assert (NB : ~ veq base vzero).
  { intros Z. apply NP. exists 0, 1. split; [intros (_ & Q); discriminate|]. destruct Z as (Z0 & Z1 & Z2). unfold veq, vscale. cbn [vx vy vz]. rewrite Z0, Z1, Z2. unfold vzero. cbn [vx vy vz]. repeat split; ring. }
  destruct NM as (N0 & N1). set (n := norm base) in *. assert (Nn : ~ n == 0) by lra.
  set (u := vscale (/ n) base).
  assert (Uu : sq u == 1).
  { unfold u, sq, vscale. cbn [vx vy vz]. transitivity (/ n * / n * sq base); [unfold sq; ring|]. rewrite <- N1. field. exact Nn. }
  set (l := vscale (1 # 2) (vadd (V3 (-1 * m02 (rotation s0)) (-1 * m12 (rotation s0)) (-1 * m22 (rotation s0))) (V3 (-1 * m02 (rotation s1)) (-1 * m12 (rotation s1)) (-1 * m22 (rotation s1))))).
  assert (LG : veq l g) by (unfold l, g, veq, vscale, vadd; cbn [vx vy vz]; split; [|split]; ring).
  set (h := cross u (cross l u)).
  assert (HU : dot h u == 0) by (unfold h, dot, cross; cbn [vx vy vz]; ring).
  assert (HS : sq h == sq (cross l u)).
  { transitivity (sq u * sq (cross l u) - dot u (cross l u) * dot u (cross l u)); [unfold h, sq, dot, cross; cbn [vx vy vz]; ring|].
    assert (Q : dot u (cross l u) == 0) by (unfold dot, cross; cbn [vx vy vz]; ring). rewrite Uu, Q. ring. }
  assert (NH : ~ veq h vzero).
  { intros (Z0 & Z1 & Z2). apply NP. apply parallel_cross. unfold sq at 1 in HS. rewrite Z0, Z1, Z2 in HS. unfold vzero in HS. cbn [vx vy vz] in HS.
    assert (C0 : sq (cross l u) == 0) by (rewrite <- HS; ring). apply sq3_zero in C0. destruct C0 as (C0 & C1 & C2). destruct LG as (G0 & G1 & G2).
    assert (M : forall x, / n * x == 0 -> x == 0) by (intros x X; transitivity (n * (/ n * x)); [field; exact Nn|rewrite X; ring]).
    unfold u, cross, vscale in C0, C1, C2. unfold veq, cross. unfold vzero. cbn [vx vy vz] in *. split; [|split]; apply M; rewrite <- G0, <- G1, <- G2 || rewrite <- G1, <- G2 || idtac.
    - rewrite <- C0, G1, G2. ring.
    - rewrite <- C1, G0, G2. ring.
    - rewrite <- C2, G0, G1. ring. }
  assert (HV : veq h (vsub g (vscale (dot g base / sq base) base))).
  { destruct LG as (G0 & G1 & G2).
    assert (Nb : ~ sq base == 0) by (rewrite <- N1; intros Q; apply Qmult_integral in Q; tauto).
    assert (E1 : veq h (vsub (vscale (sq u) l) (vscale (dot u l) u))) by (unfold h, veq, vsub, vscale, sq, dot, cross; cbn [vx vy vz]; split; [|split]; ring).
    assert (E2 : dot u l == dot g base / n) by (unfold u, dot, vscale; cbn [vx vy vz]; rewrite G0, G1, G2; field; exact Nn).
    eapply veq_trans; [exact E1|]. unfold veq. unfold vsub, vscale. cbn [vx vy vz]. rewrite Uu, E2, <- N1, G0, G1, G2. unfold u, vscale. cbn [vx vy vz]. split; [|split]; field; exact Nn. }
  destruct (NM2 h HV) as (H0 & H1). fold h. set (nh := norm h) in *. assert (Nh : ~ nh == 0) by lra.
  set (w := vscale (/ nh) h).
  assert (Ww : sq w == 1).
  { unfold w, sq, vscale. cbn [vx vy vz]. transitivity (/ nh * / nh * sq h); [unfold sq; ring|]. rewrite <- H1. field. exact Nh. }
  assert (WU : dot w u == 0).
  { transitivity (/ nh * dot h u); [unfold w, dot, vscale; cbn [vx vy vz]; ring|rewrite HU; ring]. }
  set (v := cross w u).
  assert (VU : dot v u == 0) by (unfold v, dot, cross; cbn [vx vy vz]; ring).
  assert (VW : dot v w == 0) by (unfold v, dot, cross; cbn [vx vy vz]; ring).
  assert (Vv : sq v == 1).
  { transitivity (sq w * sq u - dot w u * dot w u); [unfold v, sq, dot, cross; cbn [vx vy vz]; ring|]. rewrite Ww, Uu, WU. ring. }
  assert (UB : n * dot u u == dot base u).
  { unfold u, dot, vscale. cbn [vx vy vz]. field. exact Nn. }
  assert (BU : dot base u == n) by (rewrite <- UB; change (dot u u) with (sq u); rewrite Uu; ring).
  assert (BX : vx base == n * vx u /\ vy base == n * vy u /\ vz base == n * vz u) by (unfold u, vscale; cbn [vx vy vz]; repeat split; field; exact Nn).
  assert (WG : dot w g == nh).
  { assert (X : dot h g == nh * nh).
    { rewrite H1. destruct HV as (V0 & V1 & V2). destruct LG as (G0 & G1 & G2).
      transitivity (dot h l); [unfold dot; rewrite G0, G1, G2; reflexivity|]. rewrite HS. unfold h, sq, dot, cross. cbn [vx vy vz]. ring. }
    transitivity (/ nh * dot h g); [unfold w, dot, vscale; cbn [vx vy vz]; ring|]. rewrite X. field. exact Nh. }
  assert (DT : dot u (cross v w) == 1).
  { transitivity (sq u * sq w - dot w u * dot w u); [unfold v, sq, dot, cross; cbn [vx vy vz]; ring|]. rewrite Uu, Ww, WU. ring. }
  assert (Ph : 0 < nh) by exact H0. clearbody nh.
  clearbody u v w h. clear NM2 HS NH H0 H1 HV LG HU Nh.
  set (rot := M3 (vx u) (- vx v) (- vx w) (vy u) (- vy v) (- vy w) (vz u) (- vz v) (- vz w)).
  assert (O : orthonormal rot).
  { unfold orthonormal, rot, sq, dot in *. cbn [m00 m01 m02 m10 m11 m12 m20 m21 m22]. split; [exact Uu|]. split; [lra|]. split; [lra|]. split; [lra|]. split; lra. }
  set (f := half (focal s0) (focal s1)) in *. set (o := half (offset s0) (offset s1)). set (k := (pitch s0 + pitch s1) / 2).
  assert (FR : framed (V3 1 0 0) (V3 0 1 0) (V3 0 0 1)).
  { split; [reflexivity|]. split; [reflexivity|]. split; [reflexivity|]. intros d [->|[->| ->]]; split; reflexivity. }
  destruct F as (F0 & F1).
  destruct (proj2 (build_iff null_lens (center s0) rot f o (V3 1 0 0) (V3 0 1 0) (V3 0 0 1) k)) as (d0 & E0); [pose proof (orthonormal_det rot O); auto|].
  destruct (proj2 (build_iff null_lens (center s1) rot f o (V3 1 0 0) (V3 0 1 0) (V3 0 0 1) k)) as (d1 & E1); [pose proof (orthonormal_det rot O); auto|].
  exists d0, d1. unfold make_plain. rewrite E0. cbn [bind]. rewrite E1. cbn [bind]. split; [reflexivity|].
  destruct (build_params _ _ _ _ _ _ _ _ _ _ E0) as (B0 & _ & A1 & A2 & A3 & A4 & A5 & A6 & A7 & A8 & A9).
  destruct (build_params _ _ _ _ _ _ _ _ _ _ E1) as (B1 & _ & C1 & C2 & C3 & C4 & C5 & C6 & C7 & C8 & C9).
  split; [exact B0|]. split; [exact B1|]. split; [exact A2|]. split; [exact C2|]. split; [congruence|]. split; [rewrite A3; exact O|].
  split; [rewrite A3, <- DT; unfold det3, rot, dot, cross; cbn [m00 m01 m02 m10 m11 m12 m20 m21 m22 vx vy vz]; ring|].
  split; [rewrite A3; assert (Q : dot (look rot) (vadd (look (rotation s0)) (look (rotation s1))) == 2 * nh) by (rewrite <- WG; unfold g, look, rot, dot, vadd; cbn [m00 m01 m02 m10 m11 m12 m20 m21 m22 vx vy vz]; ring); lra|].
  assert (KK : ~ k == 0) by (unfold k; intros Z; apply K; transitivity (2 * ((pitch s0 + pitch s1) / 2)); [field|rewrite Z; ring]).
  (* coordinates in the common axes *)
  destruct BX as (BX & BY & BZ). unfold base, vsub in BX, BY, BZ. cbn [vx vy vz] in BX, BY, BZ.
  assert (X0 : vx (center s1) == vx (center s0) + n * vx u) by lra. assert (Y0 : vy (center s1) == vy (center s0) + n * vy u) by lra. assert (Z0 : vz (center s1) == vz (center s0) + n * vz u) by lra.
  unfold dot, sq in *.
  assert (AW : along d1 (V3 0 0 1) p == along d0 (V3 0 0 1) p).
  { unfold along. rewrite A2, A3, C2, C3. unfold rot. cbn [m00 m01 m02 m10 m11 m12 m20 m21 m22 vx vy vz]. rewrite X0, Y0, Z0.
    transitivity (1 * (- vx w * (vx p - vx (center s0)) + - vy w * (vy p - vy (center s0)) + - vz w * (vz p - vz (center s0))) + n * (vx w * vx u + vy w * vy u + vz w * vz u)); [ring|rewrite WU; ring]. }
  assert (AV : along d1 (V3 0 1 0) p == along d0 (V3 0 1 0) p).
  { unfold along. rewrite A2, A3, C2, C3. unfold rot. cbn [m00 m01 m02 m10 m11 m12 m20 m21 m22 vx vy vz]. rewrite X0, Y0, Z0.
    transitivity (1 * (- vx v * (vx p - vx (center s0)) + - vy v * (vy p - vy (center s0)) + - vz v * (vz p - vz (center s0))) + n * (vx v * vx u + vy v * vy u + vz v * vz u)); [ring|rewrite VU; ring]. }
  assert (AU : along d1 (V3 1 0 0) p == along d0 (V3 1 0 0) p - n).
  { unfold along. rewrite A2, A3, C2, C3. unfold rot. cbn [m00 m01 m02 m10 m11 m12 m20 m21 m22 vx vy vz]. rewrite X0, Y0, Z0.
    transitivity (1 * (vx u * (vx p - vx (center s0)) + vy u * (vy p - vy (center s0)) + vz u * (vz p - vz (center s0))) - n * (vx u * vx u + vy u * vy u + vz u * vz u)); [ring|rewrite Uu; ring]. }
  assert (DE : depth d0 p == depth d1 p) by (unfold depth; rewrite A8, C8; symmetry; exact AW).
  split; [exact DE|].
  destruct (Qeq_dec (depth d0 p) 0) as [Z|Z].
  - rewrite (proj1 (no_check_none d0 p B0 (or_intror Z))), (proj1 (no_check_none d1 p B1 ltac:(right; rewrite <- DE; exact Z))). exact Z.
  - destruct (no_check_some d0 p B0) as (i & -> & (S1 & S2) & _); [rewrite A9; exact KK|exact Z|].
    destruct (no_check_some d1 p B1) as (j & -> & (T1 & T2) & _); [rewrite C9; exact KK|rewrite <- DE; exact Z|].
    rewrite A1, C1. cbn [null_lens distort fst snd]. rewrite A9, C9, S1, S2, T1, T2. unfold ideal. cbn [fst snd]. rewrite <- DE, A4, A5, A6, A7, C4, C5, C6, C7, AU, AV.
    split; [reflexivity|]. unfold f, half, k. cbn [fst snd]. field. split; [exact Z|].  exact K.
Qed.

(** ** Cases *)

Definition turn : mat := M3 (3#5) (-4#5) 0 (4#5) (3#5) 0 0 0 1.
Example camera_met : exists c, make null_lens (V3 1 2 3) turn (2, 3) (5, 7) (V3 1 0 0) (V3 0 1 0) (V3 0 0 1) (1#2) = Ok c /\
  orthonormal turn /\ proper (lens_of c) /\ ~ pitch c == 0 /\ ~ depth c (V3 4 4 8) == 0 /\ undoes c (ideal c (V3 4 4 8)) /\
  exists q, point_to_pixel c (V3 4 4 8) = Ok (Some q).
Proof.
  eexists. split; [vm_compute; reflexivity|]. split; [repeat split; vm_compute; reflexivity|].
  split; [intros f o p q S; split; exact S|]. split; [vm_compute; discriminate|]. split; [vm_compute; discriminate|].
  split; [split; vm_compute; reflexivity|]. eexists. vm_compute. reflexivity.
Qed.
(* cameras with rational lengths: looking down from two places *)
Definition l1norm (v : vec) : Q := qabs (vx v) + qabs (vy v) + qabs (vz v).
Example epipolar_met : exists s0 s1, make_plain null_lens (V3 0 0 0) turn (2, 3) (5, 7) 1 = Ok s0 /\ make_plain null_lens (V3 4 0 0) turn (2, 3) (5, 7) 1 = Ok s1 /\
  let base := vsub (center s1) (center s0) in
  let g := V3 (- (1#2) * (m02 (rotation s0) + m02 (rotation s1))) (- (1#2) * (m12 (rotation s0) + m12 (rotation s1))) (- (1#2) * (m22 (rotation s0) + m22 (rotation s1))) in
  is_length (l1norm base) base /\ ~ parallel g base /\
  (forall a, veq a (vsub g (vscale (dot g base / sq base) base)) -> is_length (l1norm a) a).
Proof.
  eexists _, _. split; [vm_compute; reflexivity|]. split; [vm_compute; reflexivity|]. cbv zeta. split; [split; vm_compute; reflexivity|]. split.
  - intros P. apply parallel_cross in P. destruct P as (_ & P & _). vm_compute in P. discriminate.
  - intros a (A & B & C). 
    assert (A' : vx a == 0) by (rewrite A; vm_compute; reflexivity). assert (B' : vy a == 0) by (rewrite B; vm_compute; reflexivity). assert (C' : vz a == -1) by (rewrite C; vm_compute; reflexivity).
    assert (X : qabs (vx a) == 0) by (clear - A'; destruct (qabs_cases (vx a)) as [(?&X)|(?&X)]; lra).
    assert (Y : qabs (vy a) == 0) by (clear - B'; destruct (qabs_cases (vy a)) as [(?&Y)|(?&Y)]; lra).
    assert (Z : qabs (vz a) == 1) by (clear - C'; destruct (qabs_cases (vz a)) as [(?&Z)|(?&Z)]; lra).
    unfold is_length, l1norm, sq. rewrite X, Y, Z, A', B', C'. split; reflexivity.
Qed.

Example steps_met : exists c c', make_default = Ok c /\ steps c [Center (V3 1 2 3); Pose turn; Focal (2, 3); Pitch (1#2); Transform turn (V3 0 0 1) 2] = Ok c'.
Proof.
  destruct make_default as [c| |] eqn:E; [|vm_compute in E; discriminate|vm_compute in E; discriminate].
  destruct (steps c [Center (V3 1 2 3); Pose turn; Focal (2, 3); Pitch (1#2); Transform turn (V3 0 0 1) 2]) as [c'| |] eqn:F; [exists c, c'; auto| |].
  - exfalso. vm_compute in E. injection E as <-. vm_compute in F. discriminate.
  - exfalso. vm_compute in E. injection E as <-. vm_compute in F. discriminate.
Qed.

Print Assumptions build_iff. Print Assumptions build_frame. Print Assumptions build_params. Print Assumptions no_distortion_image.
Print Assumptions distortion_image. Print Assumptions projection_valid_iff. Print Assumptions ray_points. Print Assumptions pixel_round_trip.
Print Assumptions point_round_trip. Print Assumptions same_pixel_same_line. Print Assumptions check_passes. Print Assumptions check_sound.
Print Assumptions check_plane. Print Assumptions behind_refused_refuted. Print Assumptions changes_as_made. Print Assumptions step_params.
Print Assumptions no_rebuild_stale_refuted. Print Assumptions scale_pixels. Print Assumptions strip_pixels. Print Assumptions transform_pixels.
Print Assumptions epipolar_rows.
