(** C88: bases of vectors and tangents of planes. *)
From Coq Require Import List Bool ZArith QArith Lia Lqa Qfield.
From Verif Require Import Lib.Base GeoRef.Model Stereo.Model Stereo.Spec Basis.Model Basis.Spec.
Import ListNotations.
Local Open Scope Q_scope.

Lemma blt a b : ltq a b = true <-> a < b.
Proof. unfold ltq. rewrite negb_true_iff. split; intros H. - apply Qnot_le_lt. intros C. apply Qle_bool_iff in C. congruence.
  - destruct (Qle_bool b a) eqn:E; [|reflexivity]. apply Qle_bool_iff in E. lra. Qed.
Lemma bge a b : ltq a b = false <-> b <= a.
Proof. unfold ltq. rewrite negb_false_iff. apply Qle_bool_iff. Qed.
Ltac cmp := repeat match goal with H : ltq _ _ = true |- _ => apply blt in H | H : ltq _ _ = false |- _ => apply bge in H end.
Lemma qeq_no a b : Qeq_bool a b = false <-> ~ a == b.
Proof. split; intros H. - intros C. apply Qeq_bool_iff in C. congruence. - destruct (Qeq_bool a b) eqn:E; [apply Qeq_bool_iff in E; tauto|reflexivity]. Qed.
Lemma square_pos a : 0 <= a * a.
Proof. destruct (Qlt_le_dec a 0); [setoid_replace (a * a) with ((- a) * (- a)) by ring|]; apply Qmult_le_0_compat; lra. Qed.
Lemma square_zero a : a * a == 0 -> a == 0.
Proof. intros H. destruct (Qmult_integral _ _ H); assumption. Qed.

Definition is_across (z w : vec) : Prop :=
  (w = V3 0 (- vz z) (vy z) \/ w = V3 (vz z) 0 (- vx z) \/ w = V3 (- vy z) (vx z) 0).
Lemma across_cases z : is_across z (across z).
Proof.
  unfold is_across, across, max_idx. destruct (ltq (qabs (vx z)) (qabs (vy z))); cbv iota beta; destruct (ltq _ (qabs (vz z)));
    cbn [coord set_coord vzero Z.add Z.modulo Z.div_eucl Z.pos_div_eucl Z.eqb Pos.add Pos.succ Pos.eqb vx vy vz Z.leb Z.ltb Z.compare Pos.compare Pos.compare_cont Z.sub Z.opp Z.mul Z.pos_sub Pos.mul fst snd]; vm_compute; auto.
Qed.

Lemma basis_from x z : unit x -> unit z -> perpendicular z x -> right_basis x (cross z x) z.
Proof.
  destruct x as [a b c], z as [d e f]. unfold right_basis, unit, perpendicular, sq, det, cross. cbn [vx vy vz]. intros X Z P.
  set (u := d * a + e * b + f * c) in *.
  assert (Y : (e * c - f * b) * (e * c - f * b) + (f * a - d * c) * (f * a - d * c) + (d * b - e * a) * (d * b - e * a) == 1).
  { setoid_replace ((e * c - f * b) * (e * c - f * b) + (f * a - d * c) * (f * a - d * c) + (d * b - e * a) * (d * b - e * a))
      with ((d * d + e * e + f * f) * (a * a + b * b + c * c) - u * u) by (unfold u; ring). rewrite X, Z, P. reflexivity. }
  split; [exact X|]. split; [exact Y|]. split; [exact Z|]. split; [ring|]. split; [ring|]. split; [exact P|].
  rewrite <- Y. ring.
Qed.
Lemma scaled_unit v k : ~ k == 0 -> k * k == sq v -> unit (over v k).
Proof.
  intros N E. unfold unit, sq, over in *. cbn [vx vy vz].
  setoid_replace (vx v / k * (vx v / k) + vy v / k * (vy v / k) + vz v / k * (vz v / k)) with ((vx v * vx v + vy v * vy v + vz v * vz v) / (k * k)) by (field; exact N).
  rewrite <- E. field. exact N.
Qed.
Lemma sum_zero a b : a * a + b * b == 0 -> a == 0 /\ b == 0.
Proof. intros H. pose proof (square_pos a). pose proof (square_pos b). split; apply square_zero; lra. Qed.
Lemma opp_square a : (- a) * (- a) == a * a. Proof. ring. Qed.

Lemma across_zero z : sq (across z) == 0 -> on_axis z.
Proof.
  destruct (across_cases z) as [E|[E|E]]; rewrite E; unfold sq, on_axis; cbn [vx vy vz]; intros H; rewrite opp_square in H.
  - right. left. assert (G : vy z * vy z + vz z * vz z == 0) by lra. now apply sum_zero.
  - right. right. assert (G : vx z * vx z + vz z * vz z == 0) by lra. now apply sum_zero.
  - left. assert (G : vx z * vx z + vy z * vy z == 0) by lra. now apply sum_zero.
Qed.
Lemma across_perp z k : ~ k == 0 -> perpendicular z (over (across z) k).
Proof.
  intros N. unfold perpendicular, over. destruct (across_cases z) as [E|[E|E]]; rewrite E; cbn [vx vy vz]; field; exact N.
Qed.
Lemma over_zero a k : ~ k == 0 -> a / k == 0 -> a == 0.
Proof. intros N H. setoid_replace a with (a / k * k) by (field; exact N). rewrite H. ring. Qed.
Lemma over_axis v k : ~ k == 0 -> on_axis (over v k) -> on_axis v.
Proof.
  intros N. unfold on_axis, over. cbn [vx vy vz]. intros [(A & B)|[(A & B)|(A & B)]]; apply over_zero in A, B; tauto.
Qed.
Lemma axis_across z : on_axis z -> ~ (vx z == 0 /\ vy z == 0 /\ vz z == 0) -> sq (across z) == 0.
Proof.
  intros A N. unfold across, max_idx.
  assert (Z0 : forall q, q == 0 -> qabs q == 0) by (intros q H; unfold qabs; destruct (ltq q 0); lra).
  assert (ZP : forall q, ~ q == 0 -> 0 < qabs q) by (intros q H; unfold qabs; destruct (ltq q 0) eqn:E; cmp; [lra|]; apply Qnot_le_lt; intros C; apply H; lra).
  assert (K : forall i, (i = 0 \/ i = 1 \/ i = 2)%Z -> coord z ((i + 1) mod 3) == 0 -> coord z ((i + 2) mod 3) == 0 ->
    sq (set_coord (set_coord vzero ((i + 1) mod 3)%Z (- coord z ((i + 2) mod 3)%Z)) ((i + 2) mod 3)%Z (coord z ((i + 1) mod 3)%Z)) == 0).
  { intros i [->|[->| ->]];
      [change ((0 + 1) mod 3)%Z with 1%Z; change ((0 + 2) mod 3)%Z with 2%Z|change ((1 + 1) mod 3)%Z with 2%Z; change ((1 + 2) mod 3)%Z with 0%Z|change ((2 + 1) mod 3)%Z with 0%Z; change ((2 + 2) mod 3)%Z with 1%Z];
      unfold sq, vzero; cbn [coord set_coord Z.eqb Pos.eqb vx vy vz]; intros H1 H2; rewrite ?H1, ?H2; ring. }
  destruct A as [(A & B)|[(A & B)|(A & B)]].
  - assert (C : ~ vz z == 0) by tauto. apply ZP in C. pose proof (Z0 _ A). pose proof (Z0 _ B).
    destruct (ltq (qabs (vx z)) (qabs (vy z))) eqn:E1; cbv iota beta; destruct (ltq _ (qabs (vz z))) eqn:E2; cmp; try lra; apply K; auto.
  - assert (C : ~ vx z == 0) by tauto. apply ZP in C. pose proof (Z0 _ A). pose proof (Z0 _ B).
    destruct (ltq (qabs (vx z)) (qabs (vy z))) eqn:E1; cbv iota beta; destruct (ltq _ (qabs (vz z))) eqn:E2; cmp; try lra; apply K; auto.
  - assert (C : ~ vy z == 0) by tauto. apply ZP in C. pose proof (Z0 _ A). pose proof (Z0 _ B).
    destruct (ltq (qabs (vx z)) (qabs (vy z))) eqn:E1; cbv iota beta; destruct (ltq _ (qabs (vz z))) eqn:E2; cmp; try lra; apply K; auto.
Qed.

(* A vector that is not along an axis gives a right-handed basis of unit vectors at right
   angles, the last one along the vector. *)
Theorem form_basis_right norm v : (forall w, w = v \/ w = across (over v (norm v)) -> length_of norm w) -> ~ on_axis v ->
  exists x y z, form_basis norm v = Ok (Some (x, y, z)) /\ right_basis x y z /\ 0 < norm v /\ veq v (vscale (norm v) z).
Proof.
  intros L A. destruct (L v (or_introl eq_refl)) as (L1 & L2). destruct (L _ (or_intror eq_refl)) as (M1 & M2).
  assert (N : ~ norm v == 0).
  { intros C. apply A. left. rewrite C in L2. unfold sq in L2. pose proof (square_pos (vx v)). pose proof (square_pos (vy v)). pose proof (square_pos (vz v)).
    split; apply square_zero; lra. }
  set (z := over v (norm v)) in *. set (w := across z) in *.
  assert (Nw : ~ norm w == 0).
  { intros C. apply A. apply (over_axis v _ N). fold z. apply across_zero. fold w. rewrite <- M2, C. reflexivity. }
  exists (over w (norm w)), (cross z (over w (norm w))), z. unfold form_basis.
  rewrite (proj2 (qeq_no _ _) N). fold z. fold w. rewrite (proj2 (qeq_no _ _) Nw). split; [reflexivity|].
  split; [apply basis_from; [now apply scaled_unit|now apply scaled_unit|now apply across_perp]|].
  split; [destruct (Qlt_le_dec 0 (norm v)); [assumption|]; exfalso; apply N; lra|].
  unfold veq, z, over, vscale. cbn [vx vy vz]. repeat split; field; exact N.
Qed.
Example form_basis_met : let norm := fun w => if Qeq_bool (vz w) 0 then 3 # 5 else 5 in let v := V3 0 3 4 in
  (forall w, w = v \/ w = across (over v (norm v)) -> length_of norm w) /\ ~ on_axis v.
Proof.
  cbv zeta. split; [intros w [->| ->]; (split; [vm_compute; discriminate|vm_compute; reflexivity])|]. unfold on_axis. cbn [vx vy vz]. lra.
Qed.

(* The zero vector is refused. *)
Theorem form_basis_zero norm v : length_of norm v -> (form_basis norm v = Throw ArgumentErr <-> vx v == 0 /\ vy v == 0 /\ vz v == 0).
Proof.
  intros (L1 & L2). unfold form_basis. destruct (Qeq_bool (norm v) 0) eqn:E.
  - apply Qeq_bool_iff in E. split; [|reflexivity]. intros _. rewrite E in L2. unfold sq in L2.
    pose proof (square_pos (vx v)). pose proof (square_pos (vy v)). pose proof (square_pos (vz v)). repeat split; apply square_zero; lra.
  - split; [cbv zeta; destruct (Qeq_bool (norm (across (over v (norm v)))) 0); intros H; discriminate H|]. intros (A & B & C). apply qeq_no in E. exfalso. apply E. apply square_zero.
    rewrite L2. unfold sq. rewrite A, B, C. reflexivity.
Qed.

(* A vector along an axis gives what is not a number. *)
Theorem form_basis_axis norm v : (forall w, w = v \/ w = across (over v (norm v)) -> length_of norm w) -> on_axis v ->
  ~ (vx v == 0 /\ vy v == 0 /\ vz v == 0) -> form_basis norm v = Ok None.
Proof.
  intros L A NZ. destruct (L v (or_introl eq_refl)) as (L1 & L2). destruct (L _ (or_intror eq_refl)) as (M1 & M2).
  assert (N : ~ norm v == 0).
  { intros C. rewrite C in L2. unfold sq in L2. pose proof (square_pos (vx v)). pose proof (square_pos (vy v)). pose proof (square_pos (vz v)).
    apply NZ. repeat split; apply square_zero; lra. }
  unfold form_basis. rewrite (proj2 (qeq_no _ _) N).
  assert (E : sq (across (over v (norm v))) == 0).
  { apply axis_across.
    - unfold on_axis, over in *. cbn [vx vy vz]. destruct A as [(A & B)|[(A & B)|(A & B)]]; rewrite A, B; [left|right; left|right; right]; split; field; exact N.
    - unfold over. cbn [vx vy vz]. intros (A1 & A2 & A3). apply over_zero in A1, A2, A3; try exact N. tauto. }
  rewrite E in M2. apply square_zero in M2. apply Qeq_bool_iff in M2. now rewrite M2.
Qed.
(** Every vector but zero gives a basis, as the comment says. False: for a vector along an
    axis both coordinates that are swapped are zero, and X and Y are not numbers. *)
Theorem form_basis_always_refuted : ~ (forall norm v, (forall w, w = v \/ w = across (over v (norm v)) -> length_of norm w) ->
  ~ (vx v == 0 /\ vy v == 0 /\ vz v == 0) -> exists x y z, form_basis norm v = Ok (Some (x, y, z))).
Proof.
  intros H. destruct (H (fun w => vz w) (V3 0 0 1)) as (x & y & z & E).
  - intros w [->| ->]; (split; [vm_compute; discriminate|vm_compute; reflexivity]).
  - cbn [vx vy vz]. lra.
  - vm_compute in E. discriminate.
Qed.

(* X is at right angles to the axis of the greatest coordinate of the vector. *)
Theorem across_greatest z :
  (Qabs.Qabs (vy z) <= Qabs.Qabs (vx z) -> Qabs.Qabs (vz z) <= Qabs.Qabs (vx z) -> vx (across z) == 0) /\
  (Qabs.Qabs (vx z) < Qabs.Qabs (vy z) -> Qabs.Qabs (vz z) <= Qabs.Qabs (vy z) -> vy (across z) == 0) /\
  (Qabs.Qabs (vx z) < Qabs.Qabs (vz z) -> Qabs.Qabs (vy z) < Qabs.Qabs (vz z) -> vz (across z) == 0).
Proof.
  assert (A : forall q, qabs q == Qabs.Qabs q).
  { intros q. unfold qabs. destruct (ltq q 0) eqn:E; cmp; [rewrite Qabs.Qabs_neg by lra|rewrite Qabs.Qabs_pos by lra]; reflexivity. }
  rewrite <- !A. clear A. unfold across, max_idx.
  repeat split; intros H1 H2; destruct (ltq (qabs (vx z)) (qabs (vy z))) eqn:E1; cbv iota beta; destruct (ltq _ (qabs (vz z))) eqn:E2; cmp; try lra; vm_compute; reflexivity.
Qed.

(* The tangents lie in the plane and have the length asked for. *)
Theorem tangents_in_plane norm n offset s1 s2 t1 t2 : slopes n = Some (s1, s2) -> length_of norm s1 -> length_of norm s2 ->
  plane_tangents norm n offset = Some (t1, t2) ->
  perpendicular n t1 /\ perpendicular n t2 /\ sq t1 == offset * offset /\ sq t2 == offset * offset.
Proof.
  intros S (_ & L1) (_ & L2) P. unfold plane_tangents in P. rewrite S in P. injection P as <- <-.
  assert (G : perpendicular n s1 /\ perpendicular n s2 /\ ~ sq s1 == 0 /\ ~ sq s2 == 0).
  { assert (O : forall a, ~ 1 + a * a == 0) by (intros a; pose proof (square_pos a); lra).
    unfold slopes in S. destruct (ltq _ (qabs (vz n))) eqn:E1; [|destruct (ltq _ (qabs (vy n))) eqn:E2; [|destruct (Qeq_bool (vx n) 0) eqn:E3; [discriminate|]]]; cmp; injection S as <- <-.
    - assert (N : ~ vz n == 0) by (intros C; unfold qabs in E1; destruct (ltq (vz n) 0); lra).
      unfold perpendicular, sq. cbn [vx vy vz]. split; [field; exact N|]. split; [field; exact N|].
      split; intros C; [apply (O (- vx n / vz n))|apply (O (- vy n / vz n))]; rewrite <- C; ring.
    - assert (N : ~ vy n == 0) by (intros C; unfold qabs in E2; destruct (ltq (vy n) 0); lra).
      unfold perpendicular, sq. cbn [vx vy vz]. split; [field; exact N|]. split; [field; exact N|].
      split; intros C; [apply (O (- vx n / vy n))|apply (O (- vz n / vy n))]; rewrite <- C; ring.
    - apply qeq_no in E3. rename E3 into N.
      unfold perpendicular, sq. cbn [vx vy vz]. split; [field; exact N|]. split; [field; exact N|].
      split; intros C; [apply (O (- vy n / vx n))|apply (O (- vz n / vx n))]; rewrite <- C; ring. }
  destruct G as (G1 & G2 & G3 & G4).
  assert (T : forall s, perpendicular n s -> ~ sq s == 0 -> norm s * norm s == sq s ->
    perpendicular n (vscale offset (over s (norm s))) /\ sq (vscale offset (over s (norm s))) == offset * offset).
  { intros s Ps Ns Ls. assert (N : ~ norm s == 0) by (intros C; apply Ns; rewrite <- Ls, C; reflexivity).
    pose proof (scaled_unit s (norm s) N Ls) as U. unfold perpendicular, sq, unit, vscale, over in *. cbn [vx vy vz] in *. split.
    - setoid_replace (vx n * (offset * (vx s / norm s)) + vy n * (offset * (vy s / norm s)) + vz n * (offset * (vz s / norm s)))
        with (offset / norm s * (vx n * vx s + vy n * vy s + vz n * vz s)) by (field; exact N). rewrite Ps. ring.
    - setoid_replace (offset * (vx s / norm s) * (offset * (vx s / norm s)) + offset * (vy s / norm s) * (offset * (vy s / norm s)) + offset * (vz s / norm s) * (offset * (vz s / norm s)))
        with (offset * offset * (vx s / norm s * (vx s / norm s) + vy s / norm s * (vy s / norm s) + vz s / norm s * (vz s / norm s))) by ring. rewrite U. ring. }
  destruct (T _ G1 G3 L1) as (A & B). destruct (T _ G2 G4 L2) as (C & D). auto.
Qed.
(* The two directions are not the same: no multiples of them agree. *)
Theorem tangents_differ n s1 s2 : slopes n = Some (s1, s2) -> ~ parallel s1 s2.
Proof.
  unfold slopes. intros S (j & k & N & (X & Y & Z)). apply N.
  destruct (ltq _ (qabs (vz n))); [|destruct (ltq _ (qabs (vy n))); [|destruct (Qeq_bool (vx n) 0); [discriminate|]]];
    injection S as <- <-; unfold vscale in *; cbn [vx vy vz] in *; split; lra.
Qed.
(* A unit normal always has tangents. *)
Theorem tangents_of_unit norm n offset : unit n -> exists t1 t2, plane_tangents norm n offset = Some (t1, t2).
Proof.
  intros U. unfold plane_tangents, slopes. destruct (ltq _ (qabs (vz n))) eqn:E1; [eauto|]. destruct (ltq _ (qabs (vy n))) eqn:E2; [eauto|].
  destruct (Qeq_bool (vx n) 0) eqn:E3; [|eauto]. exfalso. apply Qeq_bool_iff in E3. cmp.
  assert (B : forall q, qabs q <= 1 # 10 -> q * q <= 1 # 100).
  { intros q H. unfold qabs in H. destruct (ltq q 0) eqn:E; cmp; [setoid_replace (q * q) with ((- q) * (- q)) by ring|];
      (apply Qle_trans with ((1 # 10) * (1 # 10)); [apply Qmult_le_compat_nonneg; lra|lra]). }
  unfold unit, sq in U. rewrite E3 in U. pose proof (B _ E1). pose proof (B _ E2). lra.
Qed.
(** The tangents are at right angles to each other, as the comment says. False: they are the
    axes projected along a third one, and their angle depends on the plane. *)
Theorem tangents_perpendicular_refuted : ~ (forall norm n offset s1 s2 t1 t2, slopes n = Some (s1, s2) -> length_of norm s1 -> length_of norm s2 ->
  plane_tangents norm n offset = Some (t1, t2) -> perpendicular t1 t2).
Proof.
  intros H. set (s1 := V3 1 0 (-(3) / 4)). set (s2 := V3 0 1 (-(3) / 4)).
  specialize (H (fun _ => 5 # 4) (V3 3 3 4) 1 s1 s2 (vscale 1 (over s1 (5 # 4))) (vscale 1 (over s2 (5 # 4))) eq_refl).
  specialize (H ltac:(split; [vm_compute; discriminate|vm_compute; reflexivity]) ltac:(split; [vm_compute; discriminate|vm_compute; reflexivity]) eq_refl). vm_compute in H. discriminate.
Qed.
Example tangents_met : slopes (V3 3 3 4) = Some (V3 1 0 (-3 # 4), V3 0 1 (-3 # 4)) /\ length_of (fun _ => 5 # 4) (V3 1 0 (-3 # 4)).
Proof. split; [vm_compute; reflexivity|]. split; [vm_compute; discriminate|vm_compute; reflexivity]. Qed.

Print Assumptions form_basis_right. Print Assumptions form_basis_zero. Print Assumptions form_basis_axis. Print Assumptions form_basis_always_refuted.
Print Assumptions across_greatest. Print Assumptions tangents_in_plane. Print Assumptions tangents_differ. Print Assumptions tangents_of_unit. Print Assumptions tangents_perpendicular_refuted.
