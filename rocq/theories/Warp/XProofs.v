(** Proofs about transforms. *)
From Coq Require Import List Bool ZArith QArith Qround Lia Lqa Psatz.
From Verif Require Import Lib.Base Lib.Img BBox.Model BBox.Box2 Warp.Model Warp.Spec Warp.IProofs Warp.BProofs.
Import ListNotations.
Local Open Scope Q_scope.

Lemma peq_refl p : peq p p.
Proof. split; reflexivity. Qed.
Lemma peq_sym p q : peq p q -> peq q p.
Proof. intros [A B]. split; symmetry; auto. Qed.
Lemma peq_trans p q r : peq p q -> peq q r -> peq p r.
Proof. intros [A B] [C D]. split; [rewrite A|rewrite B]; auto. Qed.

Definition det2 (m : mat2) : Q := ma m * md m - mb m * mc m.
Lemma inverse2_ok m : ~ det2 m == 0 -> exists n, inverse2 m = Ok n /\
  (ma n == md m / det2 m /\ mb n == - mb m / det2 m /\ mc n == - mc m / det2 m /\ md n == ma m / det2 m).
Proof.
  intros D. unfold inverse2. fold (det2 m). destruct (eqqP (det2 m) 0); [contradiction|]. eexists. split; [reflexivity|]. cbn [ma mb mc md]. repeat split; reflexivity.
Qed.
Lemma inverse2_some m n : inverse2 m = Ok n -> ~ det2 m == 0 /\ ma n = md m / det2 m /\ mb n = - mb m / det2 m /\ mc n = - mc m / det2 m /\ md n = ma m / det2 m.
Proof.
  unfold inverse2. fold (det2 m). destruct (eqqP (det2 m) 0); [discriminate|]. intros E. injection E as <-. cbn [ma mb mc md]. auto.
Qed.
Lemma inverse2_none m : det2 m == 0 -> inverse2 m = Throw OtherErr.
Proof. intros D. unfold inverse2. fold (det2 m). destruct (eqqP (det2 m) 0); [reflexivity|contradiction]. Qed.

Lemma affine_both m n off p : inverse2 m = Ok n ->
  peq (affine_forward m off (affine_reverse n off p)) p /\ peq (affine_reverse n off (affine_forward m off p)) p.
Proof.
  intros E. apply inverse2_some in E as (D & A & B & C & F). unfold affine_forward, affine_reverse, peq. cbn [fst snd]. rewrite A, B, C, F. unfold det2 in *.
  repeat split; field; auto.
Qed.
Lemma linear_both m n p : inverse2 m = Ok n -> peq (mulv m (mulv n p)) p /\ peq (mulv n (mulv m p)) p.
Proof.
  intros E. apply inverse2_some in E as (D & A & B & C & F). unfold mulv, peq. cbn [fst snd]. rewrite A, B, C, F. unfold det2 in *.
  repeat split; field; auto.
Qed.

Lemma affine_is_affine m off : affine_map (affine_forward m off) /\ affine_map (affine_reverse m off).
Proof.
  split.
  - exists (ma m), (mb m), (fst off), (mc m), (md m), (snd off). intros p. apply peq_refl.
  - exists (ma m), (mb m), (- (ma m * fst off + mb m * snd off)), (mc m), (md m), (- (mc m * fst off + md m * snd off)).
    intros p. unfold affine_reverse, peq. cbn [fst snd]. split; ring.
Qed.
Lemma linear_is_affine m : affine_map (mulv m).
Proof. exists (ma m), (mb m), 0, (mc m), (md m), 0. intros p. unfold mulv, peq. cbn [fst snd]. split; ring. Qed.
Lemma affine_respects f : affine_map f -> respects f.
Proof.
  intros (a & b & c & a' & b' & c' & H) p q [E1 E2]. apply (peq_trans _ _ _ (H p)). apply peq_sym. apply (peq_trans _ _ _ (H q)).
  unfold peq. cbn [fst snd]. rewrite E1, E2. split; reflexivity.
Qed.
Lemma affine_compose f g : affine_map f -> affine_map g -> affine_map (fun p => f (g p)).
Proof.
  intros (a & b & c & a' & b' & c' & H) (d & e & k & d' & e' & k' & G).
  exists (a * d + b * d'), (a * e + b * e'), (a * k + b * k' + c), (a' * d + b' * d'), (a' * e + b' * e'), (a' * k + b' * k' + c').
  intros p. apply (peq_trans _ _ _ (H (g p))). destruct (G p) as [E1 E2]. unfold peq in *. cbn [fst snd] in *. rewrite E1, E2. split; ring.
Qed.

Lemma homography_inverse h n p : inverse3 h = Ok n -> ~ depth n p == 0 -> peq (homography h (homography n p)) p.
Proof.
  unfold inverse3. destruct (eqqP (det3 h) 0) as [|D]; [discriminate|]. intros E. injection E as <-.
  unfold depth, homography, peq. cbn [fst snd h00 h01 h02 h10 h11 h12 h20 h21 h22].
  set (d := det3 h) in *.
  set (u := (h11 h * h22 h - h12 h * h21 h) / d * fst p + (h02 h * h21 h - h01 h * h22 h) / d * snd p + (h01 h * h12 h - h02 h * h11 h) / d).
  set (v := (h12 h * h20 h - h10 h * h22 h) / d * fst p + (h00 h * h22 h - h02 h * h20 h) / d * snd p + (h02 h * h10 h - h00 h * h12 h) / d).
  set (w := (h10 h * h21 h - h11 h * h20 h) / d * fst p + (h01 h * h20 h - h00 h * h21 h) / d * snd p + (h00 h * h11 h - h01 h * h10 h) / d).
  intros W.
  assert (A : h20 h * u + h21 h * v + h22 h * w == 1) by (unfold u, v, w, d, det3 in *; field; exact D).
  assert (B : h00 h * u + h01 h * v + h02 h * w == fst p) by (unfold u, v, w, d, det3 in *; field; exact D).
  assert (C : h10 h * u + h11 h * v + h12 h * w == snd p) by (unfold u, v, w, d, det3 in *; field; exact D).
  clearbody u v w. clear D.
  assert (A' : h20 h * (u / w) + h21 h * (v / w) + h22 h == / w) by (rewrite <- (Qmult_1_l (/ w)), <- A; field; auto).
  assert (B' : h00 h * (u / w) + h01 h * (v / w) + h02 h == fst p / w) by (rewrite <- B; field; auto).
  assert (C' : h10 h * (u / w) + h11 h * (v / w) + h12 h == snd p / w) by (rewrite <- C; field; auto).
  rewrite A', B', C'. split; field; auto.
Qed.

Lemma homography_inverse' h n p : inverse3 h = Ok n -> ~ depth h p == 0 -> peq (homography n (homography h p)) p.
Proof.
  unfold inverse3. destruct (eqqP (det3 h) 0) as [|D]; [discriminate|]. intros E. injection E as <-.
  unfold depth, homography at 2. cbv zeta. cbn [fst snd].
  set (u := h00 h * fst p + h01 h * snd p + h02 h). set (v := h10 h * fst p + h11 h * snd p + h12 h). set (w := h20 h * fst p + h21 h * snd p + h22 h).
  intros W. unfold homography, peq. cbn [fst snd h00 h01 h02 h10 h11 h12 h20 h21 h22].
  set (d := det3 h) in *.
  assert (A : (h10 h * h21 h - h11 h * h20 h) / d * u + (h01 h * h20 h - h00 h * h21 h) / d * v + (h00 h * h11 h - h01 h * h10 h) / d * w == 1) by (unfold u, v, w, d, det3 in *; field; exact D).
  assert (B : (h11 h * h22 h - h12 h * h21 h) / d * u + (h02 h * h21 h - h01 h * h22 h) / d * v + (h01 h * h12 h - h02 h * h11 h) / d * w == fst p) by (unfold u, v, w, d, det3 in *; field; exact D).
  assert (C : (h12 h * h20 h - h10 h * h22 h) / d * u + (h00 h * h22 h - h02 h * h20 h) / d * v + (h02 h * h10 h - h00 h * h12 h) / d * w == snd p) by (unfold u, v, w, d, det3 in *; field; exact D).
  set (k0 := (h10 h * h21 h - h11 h * h20 h) / d) in *. set (k1 := (h01 h * h20 h - h00 h * h21 h) / d) in *. set (k2 := (h00 h * h11 h - h01 h * h10 h) / d) in *.
  set (k3 := (h11 h * h22 h - h12 h * h21 h) / d) in *. set (k4 := (h02 h * h21 h - h01 h * h22 h) / d) in *. set (k5 := (h01 h * h12 h - h02 h * h11 h) / d) in *.
  set (k6 := (h12 h * h20 h - h10 h * h22 h) / d) in *. set (k7 := (h00 h * h22 h - h02 h * h20 h) / d) in *. set (k8 := (h02 h * h10 h - h00 h * h12 h) / d) in *.
  clearbody u v w k0 k1 k2 k3 k4 k5 k6 k7 k8. clear D.
  assert (A' : k0 * (u / w) + k1 * (v / w) + k2 == / w) by (rewrite <- (Qmult_1_l (/ w)), <- A; field; auto).
  assert (B' : k3 * (u / w) + k4 * (v / w) + k5 == fst p / w) by (rewrite <- B; field; auto).
  assert (C' : k6 * (u / w) + k7 * (v / w) + k8 == snd p / w) by (rewrite <- C; field; auto).
  rewrite A', B', C'. split; field; auto.
Qed.
