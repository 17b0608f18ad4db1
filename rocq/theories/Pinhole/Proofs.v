(** Matrices of a camera. *)
From Coq Require Import List Bool ZArith QArith Lia Lqa Qfield.
From Verif Require Import Lib.Base GeoRef.Model GeoRef.Spec GeoRef.Proofs Stereo.Model Stereo.Spec Stereo.Proofs Pinhole.Model Pinhole.Spec.
Import ListNotations.
Local Open Scope Q_scope.

Ltac mats := unfold mulv, mmul, transpose, mneg, rows, veq, vsub, vadd, vscale; cbn [m00 m01 m02 m10 m11 m12 m20 m21 m22 vx vy vz].

Lemma mmul_mulv a b v : veq (mulv (mmul a b) v) (mulv a (mulv b v)).
Proof. mats. split; [|split]; ring. Qed.
Lemma mulv_scale m k v : veq (mulv m (vscale k v)) (vscale k (mulv m v)).
Proof. mats. split; [|split]; ring. Qed.
Lemma vscale_veq k a b : veq a b -> veq (vscale k a) (vscale k b).
Proof. intros (A & B & C). unfold vscale. split; [|split]; cbn [vx vy vz]; [rewrite A|rewrite B|rewrite C]; reflexivity. Qed.
Lemma det_mul a b : det3 (mmul a b) == det3 a * det3 b.
Proof. unfold det3. mats. ring. Qed.
Lemma det_transpose a : det3 (transpose a) == det3 a.
Proof. unfold det3. mats. ring. Qed.
Lemma inverse3_ok m n : inverse3 m = Ok n -> ~ det3 m == 0 /\ times_is_one m n /\ times_is_one n m.
Proof.
  intros E. destruct (Qeq_dec (det3 m) 0) as [Z|Z].
  - rewrite (inverse3_singular m Z) in E. discriminate.
  - split; [exact Z|]. destruct (inverse3_regular m Z) as (n' & E' & A & B). rewrite E in E'. injection E' as ->. auto.
Qed.

Definition ext_rot (c : pinhole) : mat := mmul (rows (udir c) (vdir c) (wdir c)) (transpose (rotation c)).
Definition frame_ok (c : pinhole) : Prop := framed (udir c) (vdir c) (wdir c).

Lemma nearly_unit_iff v : nearly_unit v = true <-> (999 # 1000) * (999 # 1000) < sq v < (1001 # 1000) * (1001 # 1000).
Proof.
  unfold nearly_unit, dot, sq. rewrite andb_true_iff.
  destruct (ltq_spec ((999 # 1000) * (999 # 1000)) (vx v * vx v + vy v * vy v + vz v * vz v)), (ltq_spec (vx v * vx v + vy v * vy v + vz v * vz v) ((1001 # 1000) * (1001 # 1000)));
    split; intros; try tauto; destruct H; try discriminate; split; auto; contradiction.
Qed.

(* what a successful build says *)
Lemma rebuild_inv c0 c : rebuild c0 = Ok c ->
  same_params c c0 /\ do_check c = do_check c0 /\ frame_ok c0 /\ 
  extrinsics c = (ext_rot c, mulv (mmul (rows (udir c) (vdir c) (wdir c)) (mneg (transpose (rotation c)))) (center c)) /\
  camera_matrix c = (mmul (intrinsics c) (fst (extrinsics c)), mulv (intrinsics c) (snd (extrinsics c))) /\
  exists a b, inv_transform c = mmul a b /\ inverse3 (ext_rot c) = Ok a /\ inverse3 (intrinsics c) = Ok b.
Proof.
  unfold rebuild. intros H.
  destruct (Qeq_bool (dot (udir c0) (vdir c0)) 0) eqn:A; cbn [negb] in H; [|discriminate].
  destruct (Qeq_bool (dot (udir c0) (wdir c0)) 0) eqn:B; cbn [negb] in H; [|discriminate].
  destruct (Qeq_bool (dot (vdir c0) (wdir c0)) 0) eqn:C; cbn [negb] in H; [|discriminate].
  destruct (nearly_unit (udir c0)) eqn:D; cbn [negb] in H; [|discriminate].
  destruct (nearly_unit (vdir c0)) eqn:E; cbn [negb] in H; [|discriminate].
  destruct (nearly_unit (wdir c0)) eqn:F; cbn [negb] in H; [|discriminate].
  cbv zeta in H. cbn [fst snd] in H.
  destruct (inverse3 (mmul (rows (udir c0) (vdir c0) (wdir c0)) (transpose (rotation c0)))) as [a| |] eqn:I; cbn [bind] in H; [|discriminate|discriminate].
  destruct (inverse3 (intrinsics c0)) as [b| |] eqn:J; cbn [bind] in H; [|discriminate|discriminate].
  injection H as <-. apply Qeq_bool_iff in A, B, C. apply nearly_unit_iff in D, E, F.
  split; [repeat split|]. split; [reflexivity|]. split.
  { split; [exact A|]. split; [exact B|]. split; [exact C|]. intros d [->|[->| ->]]; assumption. }
  split; [reflexivity|]. split; [reflexivity|]. exists a, b. split; [reflexivity|]. split; [exact I|exact J].
Qed.
Lemma rows_det u v w : framed u v w -> ~ det3 (rows u v w) == 0.
Proof.
  intros (A & B & C & N) D. destruct (N u (or_introl eq_refl)) as (U & _). destruct (N v (or_intror (or_introl eq_refl))) as (V & _). destruct (N w (or_intror (or_intror eq_refl))) as (W & _).
  assert (P : forall x, (999 # 1000) * (999 # 1000) < x -> 0 < x) by (intros x; lra).
  apply P in U. apply P in V. apply P in W.
  assert (G : det3 (rows u v w) * det3 (rows u v w) == sq u * sq v * sq w).
  { unfold perpendicular in A, B, C.
    transitivity (sq u * (sq v * sq w - (vx v * vx w + vy v * vy w + vz v * vz w) * (vx v * vx w + vy v * vy w + vz v * vz w))
      - (vx u * vx v + vy u * vy v + vz u * vz v) * ((vx u * vx v + vy u * vy v + vz u * vz v) * sq w - (vx v * vx w + vy v * vy w + vz v * vz w) * (vx u * vx w + vy u * vy w + vz u * vz w))
      + (vx u * vx w + vy u * vy w + vz u * vz w) * ((vx u * vx v + vy u * vy v + vz u * vz v) * (vx v * vx w + vy v * vy w + vz v * vz w) - sq v * (vx u * vx w + vy u * vy w + vz u * vz w))).
    - unfold det3, rows, sq. cbn [m00 m01 m02 m10 m11 m12 m20 m21 m22]. ring.
    - rewrite A, B, C. ring. }
  rewrite D in G. assert (0 < sq u * sq v) by (apply Qmult_lt_0_compat; assumption). assert (0 < sq u * sq v * sq w) by (apply Qmult_lt_0_compat; assumption). lra.
Qed.
Lemma det_intrinsics c : det3 (intrinsics c) == fst (focal c) * snd (focal c).
Proof. unfold det3, intrinsics. cbn [m00 m01 m02 m10 m11 m12 m20 m21 m22]. ring. Qed.

(* when it succeeds *)
Lemma rebuild_ok c0 : frame_ok c0 -> ~ det3 (rotation c0) == 0 -> ~ fst (focal c0) == 0 -> ~ snd (focal c0) == 0 -> exists c, rebuild c0 = Ok c.
Proof.
  intros F R X Y. destruct F as (A & B & C & N). pose proof (rows_det _ _ _ (conj A (conj B (conj C N)))) as D.
  unfold rebuild.
  assert (E : forall x, x == 0 -> Qeq_bool x 0 = true) by (intros x; apply Qeq_bool_iff).
  unfold dot. unfold perpendicular in A, B, C. rewrite (E _ A), (E _ B), (E _ C). cbn [negb].
  rewrite (proj2 (nearly_unit_iff _) (N _ (or_introl eq_refl))), (proj2 (nearly_unit_iff _) (N _ (or_intror (or_introl eq_refl)))), (proj2 (nearly_unit_iff _) (N _ (or_intror (or_intror eq_refl)))). cbn [negb]. cbv zeta.
  destruct (inverse3_regular (mmul (rows (udir c0) (vdir c0) (wdir c0)) (transpose (rotation c0)))) as (a & Ea & _).
  { rewrite det_mul, det_transpose. intros Z. apply Qmult_integral in Z. tauto. }
  destruct (inverse3_regular (intrinsics c0)) as (b & Eb & _).
  { rewrite det_intrinsics. intros Z. apply Qmult_integral in Z. tauto. }
  rewrite Ea. cbn [bind]. rewrite Eb. cbn [bind]. eauto.
Qed.

Lemma built_inv c : built c -> frame_ok c /\
  extrinsics c = (ext_rot c, mulv (mmul (rows (udir c) (vdir c) (wdir c)) (mneg (transpose (rotation c)))) (center c)) /\
  camera_matrix c = (mmul (intrinsics c) (fst (extrinsics c)), mulv (intrinsics c) (snd (extrinsics c))) /\
  exists a b, inv_transform c = mmul a b /\ inverse3 (ext_rot c) = Ok a /\ inverse3 (intrinsics c) = Ok b.
Proof.
  intros (c0 & E). destruct (rebuild_inv c0 c E) as ((P1 & P2 & P3 & P4 & P5 & P6 & P7 & P8 & P9) & _ & F & R).
  split; [|exact R]. unfold frame_ok in *. rewrite P6, P7, P8. exact F.
Qed.

(* the point in the frame of the image *)
Definition seen (c : pinhole) (p : vec) : vec := V3 (along c (udir c) p) (along c (vdir c) p) (depth c p).
Lemma seen_rot c p : veq (mulv (ext_rot c) (vsub p (center c))) (seen c p).
Proof. unfold ext_rot, seen, depth, along. mats. split; [|split]; ring. Qed.
Lemma ext_seen c p : built c -> veq (prod34 (extrinsics c) p) (seen c p).
Proof.
  intros B. destruct (built_inv c B) as (_ & E & _). rewrite E. eapply veq_trans; [|apply seen_rot].
  unfold prod34, ext_rot. cbn [fst snd]. mats. split; [|split]; ring.
Qed.
Lemma cam_seen c p : built c -> veq (prod34 (camera_matrix c) p) (mulv (intrinsics c) (seen c p)).
Proof.
  intros B. destruct (built_inv c B) as (_ & _ & C & _). rewrite C. eapply veq_trans; [|apply mulv_veq, (ext_seen c p B)].
  unfold prod34. cbn [fst snd]. mats. split; [|split]; ring.
Qed.
Lemma intrinsics_seen c s : veq (mulv (intrinsics c) s) (V3 (fst (focal c) * vx s + fst (offset c) * vz s) (snd (focal c) * vy s + snd (offset c) * vz s) (vz s)).
Proof. unfold intrinsics. mats. split; [|split]; ring. Qed.

Lemma den_seen c p : built c -> vz (prod34 (camera_matrix c) p) == depth c p.
Proof. intros B. destruct (cam_seen c p B) as (_ & _ & C). destruct (intrinsics_seen c (seen c p)) as (_ & _ & D). rewrite C, D. reflexivity. Qed.
Lemma ideal_seen c p : built c -> ~ depth c p == 0 ->
  same (vx (prod34 (camera_matrix c) p) / vz (prod34 (camera_matrix c) p), vy (prod34 (camera_matrix c) p) / vz (prod34 (camera_matrix c) p)) (ideal c p).
Proof.
  intros B N. destruct (cam_seen c p B) as (X & Y & Z). destruct (intrinsics_seen c (seen c p)) as (A & C & D).
  unfold same, ideal. cbn [fst snd]. rewrite X, Y, Z, A, C, D. unfold seen. cbn [vx vy vz]. split; field; exact N.
Qed.
Lemma no_check_some c p : built c -> ~ pitch c == 0 -> ~ depth c p == 0 -> exists i,
  point_to_pixel_no_check c p = Some (fst (distort (lens_of c) (focal c) (offset c) i) / pitch c, snd (distort (lens_of c) (focal c) (offset c) i) / pitch c) /\ same i (ideal c p) /\
  point_to_pixel_no_distortion c p = Some (fst i / pitch c, snd i / pitch c).
Proof.
  intros B K N. exists (vx (prod34 (camera_matrix c) p) / vz (prod34 (camera_matrix c) p), vy (prod34 (camera_matrix c) p) / vz (prod34 (camera_matrix c) p)).
  assert (E : Qeq_bool (vz (prod34 (camera_matrix c) p)) 0 || Qeq_bool (pitch c) 0 = false).
  { apply orb_false_iff. split; apply not_true_iff_false; intros Z; apply Qeq_bool_iff in Z; [|contradiction]. rewrite (den_seen c p B) in Z. contradiction. }
  split; [|split].
  - unfold point_to_pixel_no_check. cbv zeta. rewrite E. reflexivity.
  - now apply ideal_seen.
  - unfold point_to_pixel_no_distortion. cbv zeta. rewrite E. reflexivity.
Qed.
Lemma no_check_none c p : built c -> pitch c == 0 \/ depth c p == 0 -> point_to_pixel_no_check c p = None /\ point_to_pixel_no_distortion c p = None.
Proof.
  intros B H. assert (E : Qeq_bool (vz (prod34 (camera_matrix c) p)) 0 || Qeq_bool (pitch c) 0 = true).
  { apply orb_true_iff. destruct H as [H|H]; [right|left]; apply Qeq_bool_iff; [exact H|]. rewrite (den_seen c p B). exact H. }
  unfold point_to_pixel_no_check, point_to_pixel_no_distortion. cbv zeta. rewrite E. auto.
Qed.

(* the matrix of directions undoes the other two *)
Lemma inv_seen c v : built c -> veq (mulv (inv_transform c) (mulv (intrinsics c) (mulv (ext_rot c) v))) v /\
  veq (mulv (intrinsics c) (mulv (ext_rot c) (mulv (inv_transform c) v))) v.
Proof.
  intros B. destruct (built_inv c B) as (_ & _ & _ & a & b & E & A & C). rewrite E.
  destruct (inverse3_ok _ _ A) as (_ & A1 & A2). destruct (inverse3_ok _ _ C) as (_ & C1 & C2). split.
  - eapply veq_trans; [apply mmul_mulv|]. eapply veq_trans; [apply mulv_veq, (inverse_mulv _ _ _ C2)|]. apply (inverse_mulv _ _ _ A2).
  - eapply veq_trans; [apply mulv_veq, mulv_veq, mmul_mulv|]. eapply veq_trans; [apply mulv_veq, (inverse_mulv _ _ _ A1)|]. apply (inverse_mulv _ _ _ C1).
Qed.
Lemma built_det c : built c -> ~ det3 (rotation c) == 0 /\ ~ fst (focal c) == 0 /\ ~ snd (focal c) == 0.
Proof.
  intros B. destruct (built_inv c B) as (_ & _ & _ & a & b & E & A & C).
  destruct (inverse3_ok _ _ A) as (A1 & _). destruct (inverse3_ok _ _ C) as (C1 & _).
  unfold ext_rot in A1. rewrite det_mul, det_transpose in A1. rewrite det_intrinsics in C1.
  split; [|split]; intros Z; rewrite Z in *; [apply A1|apply C1|apply C1]; ring.
Qed.
Lemma orthonormal_one r : orthonormal r -> times_is_one (transpose r) r.
Proof.
  intros (A & B & C & D & E & F). unfold times_is_one, transpose. cbn [m00 m01 m02 m10 m11 m12 m20 m21 m22].
  split; [exact A|]. split; [exact D|]. split; [exact E|]. split; [lra|]. split; [exact B|]. split; [exact F|]. split; [lra|]. split; [lra|exact C].
Qed.
Lemma orthonormal_det r : orthonormal r -> ~ det3 r == 0.
Proof.
  intros O Z.
  assert (D : det3 (mmul (transpose r) r) == 1).
  { destruct (orthonormal_one r O) as (A & B & C & D & E & F & G & H & I). unfold det3, mmul. cbn [m00 m01 m02 m10 m11 m12 m20 m21 m22]. rewrite A, B, C, D, E, F, G, H, I. ring. }
  rewrite det_mul, det_transpose, Z in D. discriminate.
Qed.
