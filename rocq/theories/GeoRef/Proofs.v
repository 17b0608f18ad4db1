(** Matrices, inverses, boxes and longitudes. *)
From Coq Require Import List Bool ZArith QArith Qround Qcanon Lia Lqa Qfield.
From Verif Require Import Lib.Base Lib.Img Lib.QSum GeoRef.Model GeoRef.Spec.
From Verif Require MInv.Model MInv.Spec MInv.Props Sky.Spec.
Import ListNotations.
Local Open Scope Q_scope.

Lemma ltq_spec a b : reflect (a < b) (ltq a b).
Proof.
  unfold ltq. destruct (Qle_bool b a) eqn:E; cbn [negb]; constructor.
  - apply Qle_bool_iff in E. lra.
  - apply Qnot_le_lt. intros L. apply Qle_bool_iff in L. congruence.
Qed.
Lemma leq_spec a b : reflect (a <= b) (Qle_bool a b).
Proof.
  destruct (Qle_bool a b) eqn:E; constructor; [now apply Qle_bool_iff|].
  intros L. apply Qle_bool_iff in L. congruence.
Qed.
Lemma empty_iff c : empty (Some c) = false <-> nonempty c.
Proof.
  unfold empty, nonempty. destruct (leq_spec (bxh c) (bxl c)), (leq_spec (byh c) (byl c)); cbn [orb]; split; intros; try discriminate; try lra; auto.
Qed.

(** ** The inverse *)

Definition times_is_one (m n : mat) : Prop :=
  m00 m * m00 n + m01 m * m10 n + m02 m * m20 n == 1 /\ m00 m * m01 n + m01 m * m11 n + m02 m * m21 n == 0 /\
  m00 m * m02 n + m01 m * m12 n + m02 m * m22 n == 0 /\
  m10 m * m00 n + m11 m * m10 n + m12 m * m20 n == 0 /\ m10 m * m01 n + m11 m * m11 n + m12 m * m21 n == 1 /\
  m10 m * m02 n + m11 m * m12 n + m12 m * m22 n == 0 /\
  m20 m * m00 n + m21 m * m10 n + m22 m * m20 n == 0 /\ m20 m * m01 n + m21 m * m11 n + m22 m * m21 n == 0 /\
  m20 m * m02 n + m21 m * m12 n + m22 m * m22 n == 1.

Lemma qc_q (a b : Qc) : a = b -> this a == this b.
Proof. intros ->. reflexivity. Qed.
Lemma this_mul a b : this (a * b)%Qc == this a * this b.
Proof. unfold Qcmult, Q2Qc. cbn [this]. apply Qred_correct. Qed.
Lemma this_add a b : this (a + b)%Qc == this a + this b.
Proof. unfold Qcplus, Q2Qc. cbn [this]. apply Qred_correct. Qed.
Lemma this_q q : this (Q2Qc q) == q.
Proof. unfold Q2Qc. cbn [this]. apply Qred_correct. Qed.
Lemma qsum3 f : qsum 0 3 f = (f 0%Z + (f 1%Z + (f 2%Z + 0)))%Qc.
Proof. reflexivity. Qed.

Definition qmat (m : mat) : MInv.Model.matrix := Img 3 3 (fun c r => Q2Qc (mat_get m r c)).

Lemma qsum3_q (f : Z -> Qc) (q : Qc) : qsum 0 3 f = q -> this (f 0%Z) + this (f 1%Z) + this (f 2%Z) == this q.
Proof. intros E. rewrite qsum3 in E. apply qc_q in E. rewrite !this_add in E. rewrite <- E. change (this 0%Qc) with 0. ring. Qed.

Lemma regular_det m : ~ det3 m == 0 -> MInv.Spec.regular 3 (MInv.Spec.entry (qmat m)).
Proof.
  intros D x S i I.
  assert (E : forall r, (0 <= r < 3)%Z -> mat_get m r 0 * this (x 0%Z) + mat_get m r 1 * this (x 1%Z) + mat_get m r 2 * this (x 2%Z) == 0).
  { intros r Hr. specialize (S r Hr). unfold Sky.Spec.times in S. apply qsum3_q in S. rewrite !this_mul in S.
    unfold MInv.Spec.entry, qmat in S. cbn [pix] in S. rewrite !this_q in S. exact S. }
  pose proof (E 0%Z ltac:(lia)) as E0. pose proof (E 1%Z ltac:(lia)) as E1. pose proof (E 2%Z ltac:(lia)) as E2. cbn [mat_get] in E0, E1, E2.
  set (a := this (x 0%Z)) in *. set (b := this (x 1%Z)) in *. set (c := this (x 2%Z)) in *.
  unfold det3 in D.
  assert (A : det3 m * a == 0 /\ det3 m * b == 0 /\ det3 m * c == 0).
  { unfold det3. destruct m as [p q r s t u v w z]. cbn [m00 m01 m02 m10 m11 m12 m20 m21 m22] in *.
    split; [|split].
    - transitivity ((t * z - u * w) * (p * a + q * b + r * c) - (q * z - r * w) * (s * a + t * b + u * c) + (q * u - r * t) * (v * a + w * b + z * c)); [ring|rewrite E0, E1, E2; ring].
    - transitivity ((u * v - s * z) * (p * a + q * b + r * c) + (p * z - r * v) * (s * a + t * b + u * c) - (p * u - r * s) * (v * a + w * b + z * c)); [ring|rewrite E0, E1, E2; ring].
    - transitivity ((s * w - t * v) * (p * a + q * b + r * c) - (p * w - q * v) * (s * a + t * b + u * c) + (p * t - q * s) * (v * a + w * b + z * c)); [ring|rewrite E0, E1, E2; ring]. }
  destruct A as (A & B & C). fold (det3 m) in D.
  assert (F : forall y : Qc, det3 m * this y == 0 -> y = 0%Qc).
  { intros y Y. apply Qmult_integral in Y. destruct Y as [Y|Y]; [contradiction|]. apply Qc_is_canon. exact Y. }
  assert (I3 : (i = 0 \/ i = 1 \/ i = 2)%Z) by lia.
  destruct I3 as [->|[->| ->]]; apply F; assumption.
Qed.

Lemma inverse3_regular m : ~ det3 m == 0 -> exists n, inverse3 m = Ok n /\ times_is_one m n /\ times_is_one n m.
Proof.
  intros D. destruct (MInv.Props.inverse_regular 3 (qmat m) ltac:(lia)) as (x & E & Mx & A & B).
  { split; reflexivity. }
  { now apply regular_det. }
  unfold inverse3. fold (qmat m). rewrite E. cbn [bind]. eexists. split; [reflexivity|].
  assert (G : forall r c, (0 <= r < 3)%Z -> (0 <= c < 3)%Z ->
    mat_get m r 0 * this (pix x c 0%Z) + mat_get m r 1 * this (pix x c 1%Z) + mat_get m r 2 * this (pix x c 2%Z) == this (MInv.Spec.ident r c)).
  { intros r c Hr Hc. specialize (A r c Hr Hc). apply qsum3_q in A. rewrite !this_mul in A. unfold MInv.Spec.entry at 1 3 5 in A.
    unfold qmat in A. cbn [pix] in A. rewrite !this_q in A. exact A. }
  assert (H : forall r c, (0 <= r < 3)%Z -> (0 <= c < 3)%Z ->
    this (pix x 0%Z r) * mat_get m 0 c + this (pix x 1%Z r) * mat_get m 1 c + this (pix x 2%Z r) * mat_get m 2 c == this (MInv.Spec.ident r c)).
  { intros r c Hr Hc. specialize (B r c Hr Hc). apply qsum3_q in B. rewrite !this_mul in B. unfold MInv.Spec.entry at 2 4 6 in B.
    unfold qmat in B. cbn [pix] in B. rewrite !this_q in B. exact B. }
  unfold times_is_one. cbn [m00 m01 m02 m10 m11 m12 m20 m21 m22].
  split; repeat split.
  all: first [ apply (G 0%Z 0%Z); lia | apply (G 0%Z 1%Z); lia | apply (G 0%Z 2%Z); lia | apply (G 1%Z 0%Z); lia | apply (G 1%Z 1%Z); lia
             | apply (G 1%Z 2%Z); lia | apply (G 2%Z 0%Z); lia | apply (G 2%Z 1%Z); lia | apply (G 2%Z 2%Z); lia
             | apply (H 0%Z 0%Z); lia | apply (H 0%Z 1%Z); lia | apply (H 0%Z 2%Z); lia | apply (H 1%Z 0%Z); lia | apply (H 1%Z 1%Z); lia
             | apply (H 1%Z 2%Z); lia | apply (H 2%Z 0%Z); lia | apply (H 2%Z 1%Z); lia | apply (H 2%Z 2%Z); lia ].
Qed.

Lemma inverse3_singular m : det3 m == 0 -> inverse3 m = Throw OtherErr.
Proof.
  intros D. unfold inverse3. fold (qmat m).
  assert (E : MInv.Model.inverse (qmat m) = Throw OtherErr).
  { destruct (MInv.Props.inverse_singular 3 (qmat m) ltac:(lia)) as (_ & K); [split; reflexivity|]. apply K.
    (* a vector in the kernel *)
    assert (X : exists a b c : Q, ~ (a == 0 /\ b == 0 /\ c == 0) /\ (forall r, (0 <= r < 3)%Z -> mat_get m r 0 * a + mat_get m r 1 * b + mat_get m r 2 * c == 0)).
    { unfold det3 in D. destruct m as [p q r s t u v w z]. cbn [m00 m01 m02 m10 m11 m12 m20 m21 m22] in *.
      assert (CK : forall a b c, p * a + q * b + r * c == 0 -> s * a + t * b + u * c == 0 -> v * a + w * b + z * c == 0 ->
                 forall k, (0 <= k < 3)%Z -> mat_get (M3 p q r s t u v w z) k 0 * a + mat_get (M3 p q r s t u v w z) k 1 * b + mat_get (M3 p q r s t u v w z) k 2 * c == 0).
      { intros a b c H0 H1 H2 k K3. assert (k = 0 \/ k = 1 \/ k = 2)%Z as [->|[->| ->]] by lia; assumption. }
      assert (DEC : forall a b c : Q, {a == 0 /\ b == 0 /\ c == 0} + {~ (a == 0 /\ b == 0 /\ c == 0)}).
      { intros a b c. destruct (Qeq_dec a 0), (Qeq_dec b 0), (Qeq_dec c 0); try (right; tauto). left; tauto. }
      (* cross products of the rows *)
      destruct (DEC (t * z - u * w) (u * v - s * z) (s * w - t * v)) as [Z1|N1].
      2:{ exists (t * z - u * w), (u * v - s * z), (s * w - t * v). split; [exact N1|]. apply CK; [rewrite <- D; ring|ring|ring]. }
      destruct (DEC (q * z - r * w) (r * v - p * z) (p * w - q * v)) as [Z2|N2].
      2:{ exists (q * z - r * w), (r * v - p * z), (p * w - q * v). split; [exact N2|]. apply CK; [ring| |ring].
          transitivity (- (p * (t * z - u * w) - q * (s * z - u * v) + r * (s * w - t * v))); [ring|rewrite D; ring]. }
      destruct (DEC (q * u - r * t) (r * s - p * u) (p * t - q * s)) as [Z3|N3].
      2:{ exists (q * u - r * t), (r * s - p * u), (p * t - q * s). split; [exact N3|]. apply CK; [ring|ring|].
          transitivity (p * (t * z - u * w) - q * (s * z - u * v) + r * (s * w - t * v)); [ring|rewrite D; ring]. }
      (* rank at most one: a vector orthogonal to a non-zero row *)
      destruct Z1 as (A1 & A2 & A3), Z2 as (B1 & B2 & B3), Z3 as (C1 & C2 & C3).
      destruct (DEC p q r) as [(P & Q_ & R)|N].
      - destruct (DEC s t u) as [(S_ & T_ & U)|N'].
        + destruct (DEC v w z) as [(V & W & Z_)|N''].
          * exists 1, 0, 0. split; [intros (H & _); discriminate H|]. apply CK; rewrite ?P, ?S_, ?V; ring.
          * destruct (DEC (- w) v 0) as [(W & V & _)|M].
            -- exists 1, 0, 0. split; [intros (H & _); discriminate H|]. apply CK; rewrite ?P, ?S_, ?V; ring.
            -- exists (- w), v, 0. split; [exact M|]. apply CK; rewrite ?P, ?Q_, ?R, ?S_, ?T_, ?U; ring.
        + destruct (DEC (- t) s 0) as [(W & V & _)|M].
          * exists 1, 0, 0. split; [intros (H & _); discriminate H|].
            assert (t == 0) by lra. assert (~ u == 0) by (intros ?; apply N'; tauto).
            assert (v == 0). { assert (u * v == 0) by (rewrite V in A2; lra). apply Qmult_integral in H1. tauto. }
            apply CK; rewrite ?P, ?V, ?H1; ring.
          * exists (- t), s, 0. split; [exact M|]. apply CK; rewrite ?P, ?Q_, ?R; [ring|ring|]. transitivity (s * w - t * v); [ring|exact A3].
      - destruct (DEC (- q) p 0) as [(W & V & _)|M].
        + exists 1, 0, 0. split; [intros (H & _); discriminate H|].
          assert (q == 0) by lra. assert (~ r == 0) by (intros ?; apply N; tauto).
          assert (v == 0). { assert (r * v == 0) by (rewrite V in B2; lra). apply Qmult_integral in H1. tauto. }
          assert (s == 0). { assert (r * s == 0) by (rewrite V in C2; lra). apply Qmult_integral in H2. tauto. }
          apply CK; rewrite ?V, ?H1, ?H2; ring.
        + exists (- q), p, 0. split; [exact M|]. apply CK; [ring| |].
          * transitivity (p * t - q * s); [ring|exact C3].
          * transitivity (p * w - q * v); [ring|exact B3]. }
    destruct X as (a & b & c & N & X).
    exists (fun k => if (k =? 0)%Z then Q2Qc a else if (k =? 1)%Z then Q2Qc b else Q2Qc c).
    assert (SV : Sky.Spec.solves 3 (MInv.Spec.entry (qmat m)) (fun k => if (k =? 0)%Z then Q2Qc a else if (k =? 1)%Z then Q2Qc b else Q2Qc c) (fun _ => 0%Qc)).
    { intros r Hr. unfold Sky.Spec.times. rewrite qsum3. apply Qc_is_canon. rewrite !this_add, !this_mul.
      unfold MInv.Spec.entry, qmat. cbn [pix]. cbn [Z.eqb Pos.eqb]. rewrite !this_q. specialize (X r Hr). change (this 0%Qc) with 0. etransitivity; [|exact X]. ring. }
    assert (NZ : forall y, ~ y == 0 -> Q2Qc y <> 0%Qc). { intros y Y F. apply Y. apply qc_q in F. rewrite this_q in F. exact F. }
    destruct (Qeq_dec a 0) as [Ha|Ha]; [|exists 0%Z; split; [lia|split; [apply NZ; exact Ha|exact SV]]].
    destruct (Qeq_dec b 0) as [Hb|Hb]; [|exists 1%Z; split; [lia|split; [apply NZ; exact Hb|exact SV]]].
    exists 2%Z. split; [lia|split; [|exact SV]]. apply (NZ c). tauto. }
  rewrite E. reflexivity.
Qed.

(** ** Applying a matrix and its inverse *)

Lemma project_inverse m n p : times_is_one n m -> ~ denom m p == 0 -> same (project n (project m p)) p.
Proof.
  intros (A1 & A2 & A3 & B1 & B2 & B3 & C1 & C2 & C3) D. destruct p as [x y]. unfold project at 1. unfold denom at 1 2.
  unfold project, denom in *. cbn [fst snd] in *. unfold same. cbn [fst snd].
  set (w := x * m20 m + y * m21 m + m22 m) in *.
  set (X := x * m00 m + y * m01 m + m02 m). set (Y := x * m10 m + y * m11 m + m12 m).
  assert (K0 : m00 n * X + m01 n * Y + m02 n * w == x).
  { unfold X, Y, w. transitivity (x * (m00 n * m00 m + m01 n * m10 m + m02 n * m20 m) + y * (m00 n * m01 m + m01 n * m11 m + m02 n * m21 m) + (m00 n * m02 m + m01 n * m12 m + m02 n * m22 m)); [ring|rewrite A1, A2, A3; ring]. }
  assert (K1 : m10 n * X + m11 n * Y + m12 n * w == y).
  { unfold X, Y, w. transitivity (x * (m10 n * m00 m + m11 n * m10 m + m12 n * m20 m) + y * (m10 n * m01 m + m11 n * m11 m + m12 n * m21 m) + (m10 n * m02 m + m11 n * m12 m + m12 n * m22 m)); [ring|rewrite B1, B2, B3; ring]. }
  assert (K2 : m20 n * X + m21 n * Y + m22 n * w == 1).
  { unfold X, Y, w. transitivity (x * (m20 n * m00 m + m21 n * m10 m + m22 n * m20 m) + y * (m20 n * m01 m + m21 n * m11 m + m22 n * m21 m) + (m20 n * m02 m + m21 n * m12 m + m22 n * m22 m)); [ring|rewrite C1, C2, C3; ring]. }
  assert (W : X / w * m20 n + Y / w * m21 n + m22 n == / w).
  { transitivity ((m20 n * X + m21 n * Y + m22 n * w) / w); [field; exact D|]. rewrite K2. field. exact D. }
  rewrite W.
  split.
  - transitivity (m00 n * X + m01 n * Y + m02 n * w); [field; exact D|exact K0].
  - transitivity (m10 n * X + m11 n * Y + m12 n * w); [field; exact D|exact K1].
Qed.

Lemma project_affine t p : affine t -> maps_to t p (project t p).
Proof.
  intros (A & B & C). unfold maps_to, project, denom. cbn [fst snd].
  assert (E : fst p * m20 t + snd p * m21 t + m22 t == 1) by (rewrite A, B, C; ring). rewrite E. split; field.
Qed.
Lemma affine_inverse m n : affine m -> times_is_one m n -> affine n.
Proof.
  intros (A & B & C) (_ & _ & _ & _ & _ & _ & C1 & C2 & C3).
  rewrite A, B, C in C1, C2, C3. unfold affine. repeat split; lra.
Qed.
Lemma affine_denom t p : affine t -> ~ denom t p == 0.
Proof. intros (A & B & C) D. unfold denom in D. rewrite A, B, C in D. ring_simplify in D. discriminate D. Qed.
Lemma project_same m p q : same p q -> same (project m p) (project m q).
Proof. intros (A & B). unfold same, project, denom. cbn [fst snd]. rewrite A, B. split; reflexivity. Qed.
Lemma det_affine t : affine t -> det3 t == m00 t * m11 t - m01 t * m10 t.
Proof. intros (A & B & C). unfold det3. rewrite A, B, C. ring. Qed.
Lemma shifted_affine t : affine t -> affine (shifted t).
Proof. intros H. exact H. Qed.
Lemma det_shifted t : affine t -> det3 (shifted t) == det3 t.
Proof. intros H. rewrite !det_affine; auto. reflexivity. Qed.
Lemma same_refl p : same p p. Proof. split; reflexivity. Qed.
Lemma same_sym p q : same p q -> same q p. Proof. intros (A & B). split; symmetry; assumption. Qed.
Lemma same_trans p q r : same p q -> same q r -> same p r.
Proof. intros (A & B) (C & D). split; etransitivity; eassumption. Qed.
Lemma maps_to_same t p q q' : maps_to t p q -> maps_to t p q' -> same q q'.
Proof. intros (A & B) (C & D). split; [rewrite A, C|rewrite B, D]; reflexivity. Qed.

(** ** What a georeference holds after set_transform *)

Definition coherent (g : georef) : Prop :=
  sh g = shifted (tr g) /\ times_is_one (tr g) (inv_tr g) /\ times_is_one (inv_tr g) (tr g) /\
  times_is_one (sh g) (inv_sh g) /\ times_is_one (inv_sh g) (sh g).

Lemma set_transform_inv g t g' : set_transform g t = Ok g' ->
  ~ det3 t == 0 /\ ~ det3 (shifted t) == 0 /\ tr g' = t /\ coherent g' /\ as_area g' = as_area g /\ is_projected g' = is_projected g /\
  to_lonlat g' = to_lonlat g /\ to_proj g' = to_proj g /\ wkt g' = wkt g /\ datum g' = datum g.
Proof.
  unfold set_transform. cbn zeta. intros E.
  destruct (Qeq_dec (det3 t) 0) as [D|D]; [rewrite inverse3_singular in E by exact D; discriminate E|].
  destruct (inverse3_regular t D) as (n & En & A & B). rewrite En in E. cbn [bind] in E.
  destruct (Qeq_dec (det3 (shifted t)) 0) as [D'|D']; [rewrite inverse3_singular in E by exact D'; discriminate E|].
  destruct (inverse3_regular (shifted t) D') as (k & Ek & A' & B'). rewrite Ek in E. cbn [bind] in E.
  unfold ll_box_from_pix_box in E. change (empty (Some (Box 0 0 0 0))) with true in E. cbv iota in E.
  apply bind_ok in E. destruct E as (p & _ & E). injection E as <-.
  split; [exact D|]. split; [exact D'|]. unfold set_ll_box, coherent. cbn [tr sh inv_tr inv_sh as_area is_projected to_lonlat to_proj wkt datum].
  split; [reflexivity|]. split; [split; [reflexivity|]; split; [exact A|]; split; [exact B|]; split; [exact A'|exact B']|].
  do 5 (split; [reflexivity|]). reflexivity.
Qed.

Lemma native_inverse g : coherent g -> times_is_one (native g) (native_inv g) /\ times_is_one (native_inv g) (native g).
Proof. intros (_ & A & B & C & D). unfold native, native_inv. destruct (as_area g); split; assumption. Qed.
Lemma native_affine g : coherent g -> affine (tr g) -> affine (native g).
Proof. intros (S & _) A. unfold native. destruct (as_area g); [rewrite S; exact A|exact A]. Qed.
Lemma native_inv_affine g : coherent g -> affine (tr g) -> affine (native_inv g).
Proof. intros C A. eapply affine_inverse; [apply native_affine; eassumption|apply native_inverse; assumption]. Qed.

(** ** Boxes *)

Lemma grow_least (P : pt -> Prop) b p : least P b -> least (fun q => P q \/ q = p) (grow b p).
Proof.
  intros (A & B). destruct b as [c|].
  - cbn [grow]. destruct B as ((p1 & Q1 & E1) & (p2 & Q2 & E2) & (p3 & Q3 & E3) & (p4 & Q4 & E4)). split.
    + intros q [Q| ->].
      * specialize (A q Q). cbn [inbox] in *. unfold within in *. cbn [bxl bxh byl byh].
        destruct (ltq_spec (fst p) (bxl c)), (ltq_spec (snd p) (byl c)), (ltq_spec (bxh c) (fst p)), (ltq_spec (byh c) (snd p)); repeat split; lra.
      * cbn [inbox]. unfold within. cbn [bxl bxh byl byh].
        specialize (A _ Q1). cbn [inbox] in A. unfold within in A.
        destruct (ltq_spec (fst p) (bxl c)), (ltq_spec (snd p) (byl c)), (ltq_spec (bxh c) (fst p)), (ltq_spec (byh c) (snd p)); repeat split; lra.
    + cbn [bxl bxh byl byh]. repeat split.
      * destruct (ltq (fst p) (bxl c)); [exists p; split; [auto|reflexivity]|exists p1; auto].
      * destruct (ltq (bxh c) (fst p)); [exists p; split; [auto|reflexivity]|exists p2; auto].
      * destruct (ltq (snd p) (byl c)); [exists p; split; [auto|reflexivity]|exists p3; auto].
      * destruct (ltq (byh c) (snd p)); [exists p; split; [auto|reflexivity]|exists p4; auto].
  - cbn [grow]. split.
    + intros q [Q| ->]; [destruct (A q Q)|]. cbn [inbox]. unfold within. cbn [bxl bxh byl byh]. repeat split; lra.
    + cbn [bxl bxh byl byh]. repeat split; exists p; split; auto; reflexivity.
Qed.
Lemma least_ext (P R : pt -> Prop) b : (forall p, P p <-> R p) -> least P b -> least R b.
Proof.
  intros E (A & B). split; [intros p H; apply A, E, H|]. destruct b; [|auto].
  destruct B as ((p1 & Q1 & E1) & (p2 & Q2 & E2) & (p3 & Q3 & E3) & (p4 & Q4 & E4)).
  repeat split; [exists p1|exists p2|exists p3|exists p4]; split; auto; apply E; auto.
Qed.
Lemma least_none : least (fun _ => False) None.
Proof. split; [intros p []|exact I]. Qed.

Lemma grow_by_least f l : no_ub f -> exists b, grow_by f l = Ok b /\ least (image_of f l) b.
Proof.
  intros NU. unfold grow_by.
  enough (H : forall b0 (P : pt -> Prop), least P b0 -> exists b,
    fold_left (fun s p => b <- s ;; match f p with Ok q => Ok (grow b q) | Throw _ => Ok b | UB u => UB u end) l (Ok b0) = Ok b /\
    least (fun q => P q \/ image_of f l q) b).
  { destruct (H None _ least_none) as (b & E & L). exists b. split; [exact E|]. eapply least_ext; [|exact L]. cbn. intros p; tauto. }
  induction l as [|p l IH]; intros b0 P L.
  - exists b0. split; [reflexivity|]. eapply least_ext; [|exact L]. intros q. split; [auto|]. intros [H|(x & [] & _)]; auto.
  - cbn [fold_left bind]. destruct (f p) as [q|e|u] eqn:F; [| |destruct (NU p u F)].
    + destruct (IH (grow b0 q) _ (grow_least _ _ q L)) as (b & E & L'). exists b. split; [exact E|].
      eapply least_ext; [|exact L']. intros z. unfold image_of. split.
      * intros [[H| ->]|(x & X & H)]; [auto| |].
        -- right. exists p. split; [left; auto|exact F].
        -- right. exists x. split; [right; auto|exact H].
      * intros [H|(x & [<-|X] & H)]; [auto| |].
        -- left. right. congruence.
        -- right. exists x. auto.
    + destruct (IH b0 _ L) as (b & E & L'). exists b. split; [exact E|].
      eapply least_ext; [|exact L']. intros z. unfold image_of. split.
      * intros [H|(x & X & H)]; [auto|]. right. exists x. split; [right; auto|exact H].
      * intros [H|(x & [<-|X] & H)]; [auto|congruence|]. right. exists x. auto.
Qed.

Lemma least_order P c : least P (Some c) -> bxl c <= bxh c /\ byl c <= byh c.
Proof.
  intros (A & (p1 & Q1 & E1) & _ & (p3 & Q3 & E3) & _). pose proof (A _ Q1) as H1. pose proof (A _ Q3) as H3.
  cbn [inbox] in *. unfold within in *. lra.
Qed.
Lemma floor_bounds q : inject_Z (Qfloor q) <= q < inject_Z (Qfloor q + 1).
Proof. split; [apply Qfloor_le|apply Qlt_floor]. Qed.
Lemma grow_to_int_cover P b : least P b -> int_cover P (grow_to_int b).
Proof.
  intros L. exists b. split; [exact L|]. destruct b as [c|]; cbn [grow_to_int]; auto.
  destruct (least_order _ _ L) as (A & B).
  destruct (ltq_spec (bxh c) (bxl c)); [lra|]. destruct (ltq_spec (byh c) (byl c)); [lra|]. cbn [orb].
  exists (Qfloor (bxl c)), (Qfloor (byl c)), (Qfloor (bxh c) + 1)%Z, (Qfloor (byh c) + 1)%Z.
  split; [reflexivity|]. rewrite !Z.add_simpl_r. repeat split; apply floor_bounds.
Qed.
Lemma int_cover_in P b p : int_cover P b -> P p ->
  exists c, b = Some c /\ bxl c <= fst p < bxh c /\ byl c <= snd p < byh c.
Proof.
  intros (l & (A & _) & M) H. specialize (A p H). destruct l as [l|]; [|destruct A]. cbn [inbox] in A. unfold within in A.
  destruct b as [c|]; [|destruct M]. destruct M as (x & y & x' & y' & -> & X & Y & X' & Y'). exists (Box (inject_Z x) (inject_Z y) (inject_Z x') (inject_Z y')).
  split; [reflexivity|]. cbn [bxl bxh byl byh]. lra.
Qed.

(* a linear function on a box lies between its values at the corners *)
Lemma linear_between a b k xl xh yl yh x y lo hi : xl <= x <= xh -> yl <= y <= yh ->
  lo <= a * xl + b * yl + k <= hi -> lo <= a * xh + b * yh + k <= hi ->
  lo <= a * xl + b * yh + k <= hi -> lo <= a * xh + b * yl + k <= hi ->
  lo <= a * x + b * y + k <= hi.
Proof.
  intros X Y A B C D.
  assert (L : lo <= a * xl + b * y + k <= hi /\ lo <= a * xh + b * y + k <= hi).
  { destruct (Qlt_le_dec b 0); split; split; nra. }
  destruct L as (L1 & L2). destruct (Qlt_le_dec a 0); split; nra.
Qed.

Lemma corners_least f c : exists b, fold_left (fun r p => grow r (f p)) (corners c) None = Some b /\
  least (fun q => exists p, In p (corners c) /\ q = f p) (Some b).
Proof.
  unfold corners. cbn [fold_left].
  assert (L : least (fun q => exists p, In p (corners c) /\ q = f p)
     (grow (grow (grow (grow None (f (bxl c, byl c))) (f (bxh c, byh c))) (f (bxl c, byh c))) (f (bxh c, byl c)))).
  { eapply least_ext; [|apply grow_least, grow_least, grow_least, grow_least, least_none].
    intros q. unfold corners. cbn [In]. split.
    - intros [[[[[]| ->]| ->]| ->]| ->]; eexists; (split; [|reflexivity]); auto.
    - intros (p & [<-|[<-|[<-|[<-|[]]]]] & ->); auto. }
  cbn [grow] in *. eexists. split; [reflexivity|exact L].
Qed.
Lemma affine_corners t c b p : affine t -> least (fun q => exists p, In p (corners c) /\ q = project t p) b -> within c p -> inbox b (project t p).
Proof.
  intros A (L & _) (X & Y).
  assert (Hc : forall p, In p (corners c) -> inbox b (project t p)) by (intros q Q; apply L; exists q; auto).
  destruct b as [b|]; [|destruct (Hc (bxl c, byl c)); left; reflexivity].
  cbn [inbox] in *. unfold within in *.
  assert (H : forall q, In q (corners c) -> bxl b <= m00 t * fst q + m01 t * snd q + m02 t <= bxh b /\ byl b <= m10 t * fst q + m11 t * snd q + m12 t <= byh b).
  { intros q Q. destruct (project_affine t q A) as (E & F). rewrite <- E, <- F. apply Hc, Q. }
  destruct (project_affine t p A) as (E & F). rewrite E, F.
  pose proof (H (bxl c, byl c) ltac:(left; auto)) as (A1 & B1). pose proof (H (bxh c, byh c) ltac:(right; left; auto)) as (A2 & B2).
  pose proof (H (bxl c, byh c) ltac:(right; right; left; auto)) as (A3 & B3). pose proof (H (bxh c, byl c) ltac:(right; right; right; left; auto)) as (A4 & B4).
  cbn [fst snd] in *. split; eapply linear_between; eassumption.
Qed.

(** ** Longitudes *)

Lemma qabs_cases q : (0 <= q /\ qabs q == q) \/ (q < 0 /\ qabs q == - q).
Proof. unfold qabs. destruct (ltq_spec q 0); [right|left]; split; lra. Qed.
Lemma half_div a : a / 2 == a * (1 # 2).
Proof. field. Qed.

(* one of three turns; the nearest to the middle *)
Lemma near_middle_spec c lon : nonempty c -> exists k, (k = -1 \/ k = 0 \/ k = 1)%Z /\ turns k (near_middle (Some c) lon) lon /\
  (forall j, (j = -1 \/ j = 0 \/ j = 1)%Z -> qabs (near_middle (Some c) lon - middle c) <= qabs (lon + 360 * inject_Z j - middle c)) /\
  (-(180) <= lon - middle c <= 180 -> near_middle (Some c) lon = lon).
Proof.
  intros N. unfold near_middle. apply empty_iff in N. rewrite N. cbv zeta. unfold turns.
  set (mid := (bxl c + bxh c) / 2). assert (M : mid == middle c) by (unfold mid, middle; apply half_div). clearbody mid.
  set (mc := middle c) in *. clearbody mc. clear N c.
  assert (QA : forall a b, a == b -> qabs a == qabs b). { intros a b E. destruct (qabs_cases a) as [(A & EA)|(A & EA)], (qabs_cases b) as [(B & EB)|(B & EB)]; lra. }
  destruct (ltq_spec (qabs (lon - mid - 360)) (qabs (lon - mid))) as [L|L].
  - destruct (ltq_spec (qabs (lon - 360 - mid + 360)) (qabs (lon - 360 - mid))) as [K|K].
    + exfalso. rewrite (QA _ (lon - mid)) in K by ring. rewrite (QA (lon - 360 - mid) (lon - mid - 360)) in K by ring. lra.
    + exists (-1)%Z. split; [auto|]. split; [change (inject_Z (-1)) with (-(1)); lra|]. split.
      * intros j [->|[->| ->]].
        -- rewrite (QA (lon - 360 - mc) (lon + 360 * inject_Z (-1) - mc)) by (change (inject_Z (-1)) with (-(1)); lra). apply Qle_refl.
        -- change (inject_Z 0) with 0. destruct (qabs_cases (lon - mid - 360)) as [(A & EA)|(A & EA)], (qabs_cases (lon - mid)) as [(B & EB)|(B & EB)],
             (qabs_cases (lon - 360 - mc)) as [(C & EC)|(C & EC)], (qabs_cases (lon + 360 * 0 - mc)) as [(D & ED)|(D & ED)]; lra.
        -- change (inject_Z 1) with 1. destruct (qabs_cases (lon - mid - 360)) as [(A & EA)|(A & EA)], (qabs_cases (lon - mid)) as [(B & EB)|(B & EB)],
             (qabs_cases (lon - 360 - mc)) as [(C & EC)|(C & EC)], (qabs_cases (lon + 360 * 1 - mc)) as [(D & ED)|(D & ED)]; lra.
      * intros R. exfalso. destruct (qabs_cases (lon - mid - 360)) as [(A & EA)|(A & EA)], (qabs_cases (lon - mid)) as [(B & EB)|(B & EB)]; lra.
  - destruct (ltq_spec (qabs (lon - mid + 360)) (qabs (lon - mid))) as [K|K].
    + exists 1%Z. split; [auto|]. split; [change (inject_Z 1) with 1; lra|]. split.
      * intros j [->|[->| ->]].
        -- change (inject_Z (-1)) with (-(1)). destruct (qabs_cases (lon - mid - 360)) as [(A & EA)|(A & EA)], (qabs_cases (lon - mid)) as [(B & EB)|(B & EB)],
             (qabs_cases (lon - mid + 360)) as [(F & EF)|(F & EF)], (qabs_cases (lon + 360 - mc)) as [(C & EC)|(C & EC)], (qabs_cases (lon + 360 * -(1) - mc)) as [(D & ED)|(D & ED)]; lra.
        -- change (inject_Z 0) with 0. destruct (qabs_cases (lon - mid)) as [(B & EB)|(B & EB)],
             (qabs_cases (lon - mid + 360)) as [(F & EF)|(F & EF)], (qabs_cases (lon + 360 - mc)) as [(C & EC)|(C & EC)], (qabs_cases (lon + 360 * 0 - mc)) as [(D & ED)|(D & ED)]; lra.
        -- rewrite (QA (lon + 360 - mc) (lon + 360 * inject_Z 1 - mc)) by (change (inject_Z 1) with 1; lra). apply Qle_refl.
      * intros R. exfalso. destruct (qabs_cases (lon - mid + 360)) as [(A & EA)|(A & EA)], (qabs_cases (lon - mid)) as [(B & EB)|(B & EB)]; lra.
    + exists 0%Z. split; [auto|]. split; [change (inject_Z 0) with 0; lra|]. split; [|auto].
      intros j [->|[->| ->]].
      * change (inject_Z (-1)) with (-(1)). destruct (qabs_cases (lon - mid - 360)) as [(A & EA)|(A & EA)], (qabs_cases (lon - mid)) as [(B & EB)|(B & EB)],
          (qabs_cases (lon - mc)) as [(C & EC)|(C & EC)], (qabs_cases (lon + 360 * -(1) - mc)) as [(D & ED)|(D & ED)]; lra.
      * rewrite (QA (lon - mc) (lon + 360 * inject_Z 0 - mc)) by (change (inject_Z 0) with 0; lra). apply Qle_refl.
      * change (inject_Z 1) with 1. destruct (qabs_cases (lon - mid + 360)) as [(A & EA)|(A & EA)], (qabs_cases (lon - mid)) as [(B & EB)|(B & EB)],
          (qabs_cases (lon - mc)) as [(C & EC)|(C & EC)], (qabs_cases (lon + 360 * 1 - mc)) as [(D & ED)|(D & ED)]; lra.
Qed.
