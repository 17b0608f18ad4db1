(** Nearest points of lines and least squares. *)
From Coq Require Import List Bool ZArith QArith Qcanon Lia Lqa Qfield.
From Verif Require Import Lib.Base Lib.Img GeoRef.Model GeoRef.Spec GeoRef.Proofs Stereo.Model Stereo.Spec.
From Verif Require MInv.Model MInv.Spec MInv.Props Sky.Spec Lib.QSum.
Import ListNotations.
Local Open Scope Q_scope.

Ltac vecs := unfold veq, unit, perpendicular, midpoint, dist2, sq, at_, dot, cross, vsub, vadd, vscale, vzero in *; cbn [vx vy vz fst snd] in *.

Lemma sqr_nonneg a : 0 <= a * a.
Proof. destruct (Qlt_le_dec a 0); nra. Qed.
Lemma sq3_zero a b c : a * a + b * b + c * c == 0 -> a == 0 /\ b == 0 /\ c == 0.
Proof.
  intros E. pose proof (sqr_nonneg a). pose proof (sqr_nonneg b). pose proof (sqr_nonneg c).
  assert (Z : forall x, x * x == 0 -> x == 0) by (intros x X; apply Qmult_integral in X; tauto).
  split; [|split]; apply Z; lra.
Qed.
Lemma sq_nonneg v : 0 <= sq v.
Proof. unfold sq. pose proof (sqr_nonneg (vx v)). pose proof (sqr_nonneg (vy v)). pose proof (sqr_nonneg (vz v)). lra. Qed.

Lemma parallel_cross d e : parallel d e <-> veq (cross d e) vzero.
Proof.
  destruct d as [a b c], e as [x y z]. split.
  - intros (j & k & N & E). vecs. destruct E as (E0 & E1 & E2).
    assert (J : ~ j == 0 \/ ~ k == 0) by (destruct (Qeq_dec j 0); tauto).
    assert (C : forall u, (j * u == 0 /\ k * u == 0) -> u == 0).
    { intros u (U & V). apply Qmult_integral in U. apply Qmult_integral in V. tauto. }
    split; [|split]; apply C; split.
    + transitivity ((j * b) * z - (j * c) * y); [ring|]. rewrite E1, E2. ring.
    + transitivity (b * (k * z) - c * (k * y)); [ring|]. rewrite <- E1, <- E2. ring.
    + transitivity ((j * c) * x - (j * a) * z); [ring|]. rewrite E0, E2. ring.
    + transitivity (c * (k * x) - a * (k * z)); [ring|]. rewrite <- E0, <- E2. ring.
    + transitivity ((j * a) * y - (j * b) * x); [ring|]. rewrite E0, E1. ring.
    + transitivity (a * (k * y) - b * (k * x)); [ring|]. rewrite <- E0, <- E1. ring.
  - intros E. vecs. destruct E as (E0 & E1 & E2). unfold parallel. vecs.
    destruct (Qeq_dec a 0) as [A|A]; [destruct (Qeq_dec b 0) as [B|B]; [destruct (Qeq_dec c 0) as [C|C]|]|].
    + exists 1, 0. split; [intros (H & _); discriminate|]. rewrite A, B, C. repeat split; ring.
    + exists z, c. split; [tauto|]. split; [|split]; lra.
    + exists y, b. split; [tauto|]. split; [|split]; lra.
    + exists x, a. split; [tauto|]. split; [|split]; lra.
Qed.
Lemma cross_sq d e : ~ parallel d e -> 0 < sq (cross d e).
Proof.
  intros N. pose proof (sq_nonneg (cross d e)) as P. destruct (Qeq_dec (sq (cross d e)) 0) as [E|E]; [|lra].
  exfalso. apply N. apply parallel_cross. apply sq3_zero in E. exact E.
Qed.
Lemma den0 d0 d1 : dot (cross (cross d0 d1) d1) d0 == - sq (cross d0 d1).
Proof. vecs. ring. Qed.
Lemma den1 d0 d1 : dot (cross (cross d0 d1) d0) d1 == sq (cross d0 d1).
Proof. vecs. ring. Qed.

(** ** Two lines *)

(* the difference of two points of the lines, from that of two others *)
Lemma pair_expand d0 c0 d1 c1 s t s' t' :
  dot (vsub (at_ c0 d0 s) (at_ c1 d1 t)) d0 == 0 -> dot (vsub (at_ c0 d0 s) (at_ c1 d1 t)) d1 == 0 ->
  dist2 (at_ c0 d0 s') (at_ c1 d1 t') == dist2 (at_ c0 d0 s) (at_ c1 d1 t) + sq (vsub (vscale (s' - s) d0) (vscale (t' - t) d1)).
Proof.
  intros A B.
  transitivity (dist2 (at_ c0 d0 s) (at_ c1 d1 t) + sq (vsub (vscale (s' - s) d0) (vscale (t' - t) d1))
     + 2 * (s' - s) * dot (vsub (at_ c0 d0 s) (at_ c1 d1 t)) d0 - 2 * (t' - t) * dot (vsub (at_ c0 d0 s) (at_ c1 d1 t)) d1).
  - vecs. ring.
  - rewrite A, B. ring.
Qed.
Lemma independent d0 d1 j k : ~ parallel d0 d1 -> sq (vsub (vscale j d0) (vscale k d1)) == 0 -> j == 0 /\ k == 0.
Proof.
  intros N E. unfold sq in E. apply sq3_zero in E.
  destruct (Qeq_dec j 0) as [J|J]; [destruct (Qeq_dec k 0) as [K|K]; [tauto|]|]; exfalso; apply N; exists j, k; (split; [tauto|]); vecs; (split; [|split]); lra.
Qed.

Lemma pair_perp0 d0 c0 d1 c1 D s t : ~ D == 0 -> D == sq (cross d0 d1) ->
  s == dot (cross (cross d0 d1) d1) (vsub c1 c0) / - D -> t == dot (cross (cross d0 d1) d0) (vsub c0 c1) / D ->
  dot (vsub (at_ c0 d0 s) (at_ c1 d1 t)) d0 == 0 /\ dot (vsub (at_ c0 d0 s) (at_ c1 d1 t)) d1 == 0.
Proof.
  intros N ED ES ET.
  assert (SD : s * D == - dot (cross (cross d0 d1) d1) (vsub c1 c0)) by (rewrite ES; field; exact N).
  assert (TD : t * D == dot (cross (cross d0 d1) d0) (vsub c0 c1)) by (rewrite ET; field; exact N).
  assert (C : forall x, D * x == 0 -> x == 0) by (intros x X; apply Qmult_integral in X; tauto).
  split; apply C.
  - transitivity (D * dot (vsub c0 c1) d0 + (s * D) * dot d0 d0 - (t * D) * dot d1 d0); [vecs; ring|].
    rewrite SD, TD, ED. vecs. ring.
  - transitivity (D * dot (vsub c0 c1) d1 + (s * D) * dot d0 d1 - (t * D) * dot d1 d1); [vecs; ring|].
    rewrite SD, TD, ED. vecs. ring.
Qed.

Lemma pair_spec d0 c0 d1 c1 : ~ parallel d0 d1 ->
  exists p e s t, triangulate_pair d0 c0 d1 c1 = Some (p, e) /\
    midpoint p (at_ c0 d0 s) (at_ c1 d1 t) /\ veq e (vsub (at_ c0 d0 s) (at_ c1 d1 t)) /\
    dot (vsub (at_ c0 d0 s) (at_ c1 d1 t)) d0 == 0 /\ dot (vsub (at_ c0 d0 s) (at_ c1 d1 t)) d1 == 0.
Proof.
  intros N. pose proof (cross_sq _ _ N) as P. unfold triangulate_pair.
  assert (B : Qeq_bool (dot (cross (cross d0 d1) d1) d0) 0 || Qeq_bool (dot (cross (cross d0 d1) d0) d1) 0 = false).
  { apply orb_false_iff. split; apply not_true_iff_false; intros E; apply Qeq_bool_iff in E; [rewrite den0 in E|rewrite den1 in E]; lra. }
  cbv zeta. rewrite B.
  set (s := dot (cross (cross d0 d1) d1) (vsub c1 c0) / dot (cross (cross d0 d1) d1) d0).
  set (t := dot (cross (cross d0 d1) d0) (vsub c0 c1) / dot (cross (cross d0 d1) d0) d1).
  destruct (pair_perp0 d0 c0 d1 c1 (sq (cross d0 d1)) s t) as (X & Y); [lra|reflexivity| | |].
  { unfold s. rewrite den0. reflexivity. }
  { unfold t. rewrite den1. reflexivity. }
  clearbody s t.
  eexists _, _, s, t. split; [reflexivity|]. split; [|split; [|split; assumption]].
  - vecs. split; [|split]; ring.
  - vecs. split; [|split]; reflexivity.
Qed.
Lemma pair_none d0 c0 d1 c1 : parallel d0 d1 -> triangulate_pair d0 c0 d1 c1 = None.
Proof.
  intros P. apply parallel_cross in P. unfold triangulate_pair. cbv zeta.
  assert (E : Qeq_bool (dot (cross (cross d0 d1) d1) d0) 0 = true).
  { apply Qeq_bool_iff. rewrite den0. unfold sq. destruct P as (A & B & C). rewrite A, B, C. reflexivity. }
  now rewrite E.
Qed.

(** ** Several lines *)

Definition symm (m : mat) : mat := M3 (m00 m) (m01 m) (m02 m) (m01 m) (m11 m) (m12 m) (m02 m) (m12 m) (m22 m).
Definition proj (x : vec) (r : vec * vec) : vec := vsub (vsub x (snd r)) (vscale (dot (vsub x (snd r)) (fst r)) (fst r)).
Fixpoint vsum (l : list vec) : vec := match l with [] => vzero | v :: r => vadd v (vsum r) end.
Definition grad (s : mat * vec) (x : vec) : vec := vsub (mulv (symm (fst s)) x) (snd s).

Lemma veq_refl a : veq a a. Proof. split; [|split]; reflexivity. Qed.
Lemma veq_sym a b : veq a b -> veq b a. Proof. intros (A & B & C). split; [|split]; symmetry; assumption. Qed.
Lemma veq_trans a b c : veq a b -> veq b c -> veq a c.
Proof. intros (A & B & C) (D & E & F). split; [|split]; etransitivity; eassumption. Qed.

Lemma grad_add s r x : veq (grad (add_ray s r) x) (vadd (grad s x) (proj x r)).
Proof.
  destruct s as [m v], r as [[a b c] [p q w]]. unfold grad, add_ray, proj, symm, mulv.
  vecs. cbn [m00 m01 m02 m10 m11 m12 m20 m21 m22]. split; [|split]; ring.
Qed.
Lemma grad_fold rays : forall s x, veq (grad (fold_left add_ray rays s) x) (vadd (grad s x) (vsum (map (fun r => proj x r) rays))).
Proof.
  induction rays as [|r rays IH]; intros s x; cbn [fold_left map vsum].
  - vecs. split; [|split]; ring.
  - eapply veq_trans; [apply IH|]. destruct (grad_add s r x) as (A & B & C).
    unfold vadd in *. cbn [vx vy vz] in *. split; [|split]; cbn [vx vy vz]; [rewrite A|rewrite B|rewrite C]; ring.
Qed.
Lemma ray_sums_grad rays x : veq (vsub (mulv (fst (ray_sums rays)) x) (snd (ray_sums rays))) (vsum (map (fun r => proj x r) rays)).
Proof.
  pose proof (grad_fold rays (M3 0 0 0 0 0 0 0 0 0, vzero) x) as G. unfold ray_sums.
  destruct (fold_left add_ray rays (M3 0 0 0 0 0 0 0 0 0, vzero)) as [m v] eqn:E.
  unfold grad in G. cbn [fst snd] in *. fold (symm m).
  eapply veq_trans; [exact G|]. unfold vadd, vsub, mulv, symm, vzero. cbn [m00 m01 m02 m10 m11 m12 m20 m21 m22 vx vy vz]. split; [|split]; cbn [vx vy vz]; ring.
Qed.

(* the square of the distance, and the part across the direction *)
Definition across (h d : vec) : Q := sq h - dot h d * dot h d.
Lemma across_cross h d : unit d -> across h d == sq (cross h d).
Proof. intros U. unfold unit in U. unfold across. transitivity (sq h * sq d - dot h d * dot h d); [rewrite U; ring|]. vecs. ring. Qed.
Lemma across_nonneg h d : unit d -> 0 <= across h d.
Proof. intros U. rewrite (across_cross _ _ U). apply sq_nonneg. Qed.
Lemma ray_square_across p r : unit (fst r) -> ray_square p r == across (vsub p (snd r)) (fst r).
Proof.
  intros U. pose proof (across_nonneg (vsub p (snd r)) (fst r) U) as P. destruct r as [[a b c] [x y z]]. unfold ray_square. cbn [fst snd] in *.
  match goal with |- context [ltq ?d 0] => assert (E : d == across (vsub p (V3 x y z)) (V3 a b c)) by (unfold across; vecs; ring); destruct (ltq_spec d 0) as [L|L] end; [lra|exact E].
Qed.
Lemma across_line p r s : unit (fst r) -> dist2 p (at_ (snd r) (fst r) s) == across (vsub p (snd r)) (fst r) + (s - dot (vsub p (snd r)) (fst r)) * (s - dot (vsub p (snd r)) (fst r)).
Proof.
  intros U. destruct r as [d c]. cbn [fst snd] in *. unfold unit in U. unfold across.
  transitivity (sq (vsub p c) - 2 * s * dot (vsub p c) d + s * s * sq d); [vecs; ring|]. rewrite U. ring.
Qed.
Lemma ray_square_dist p r : unit (fst r) -> line_dist2 p r (ray_square p r).
Proof.
  intros U. split.
  - exists (dot (vsub p (snd r)) (fst r)). rewrite (ray_square_across _ _ U), (across_line _ _ _ U). ring.
  - intros s. rewrite (ray_square_across _ _ U), (across_line _ _ _ U). pose proof (sqr_nonneg (s - dot (vsub p (snd r)) (fst r))). lra.
Qed.
Lemma line_dist2_unique p r m m' : line_dist2 p r m -> line_dist2 p r m' -> m == m'.
Proof.
  intros ((s & E) & A) ((s' & E') & A'). pose proof (A s'). pose proof (A' s). lra.
Qed.

Definition cost (x : vec) (rays : list (vec * vec)) : Q := total (map (fun r => across (vsub x (snd r)) (fst r)) rays).
Lemma cost_total x rays l : unit_rays rays -> Forall2 (line_dist2 x) rays l -> total l == cost x rays.
Proof.
  intros U F. induction F as [|r m rays l H F IH]; [reflexivity|]. cbn [total cost map]. unfold cost in IH. cbn [map total].
  rewrite IH by (intros r' I; apply U; now right).
  assert (Ur : unit (fst r)) by (apply U; now left).
  rewrite (line_dist2_unique _ _ _ _ H (ray_square_dist x r Ur)), (ray_square_across _ _ Ur). reflexivity.
Qed.
Definition spread (h : vec) (rays : list (vec * vec)) : Q := total (map (fun r => across h (fst r)) rays).
Lemma cost_expand p x rays : cost x rays == cost p rays + spread (vsub x p) rays + 2 * dot (vsub x p) (vsum (map (fun r => proj p r) rays)).
Proof.
  induction rays as [|r rays IH]; unfold cost, spread in *; cbn [map total vsum].
  - vecs. ring.
  - rewrite IH. unfold across, proj. vecs. ring.
Qed.
Lemma spread_nonneg h rays : unit_rays rays -> 0 <= spread h rays.
Proof.
  intros U. induction rays as [|r rays IH]; unfold spread in *; cbn [map total]; [lra|].
  pose proof (across_nonneg h (fst r) (U r (or_introl eq_refl))). assert (0 <= total (map (fun r => across h (fst r)) rays)) by (apply IH; intros r' I; apply U; now right). lra.
Qed.
Lemma spread_zero h rays r : unit_rays rays -> spread h rays == 0 -> In r rays -> veq (cross h (fst r)) vzero.
Proof.
  intros U. induction rays as [|r' rays IH]; intros Z I; [destruct I|]. unfold spread in *. cbn [map total] in Z.
  assert (U' : unit_rays rays) by (intros q J; apply U; now right).
  pose proof (across_nonneg h (fst r') (U r' (or_introl eq_refl))) as A. pose proof (spread_nonneg h rays U') as B. unfold spread in B.
  destruct I as [->|I].
  - assert (E : across h (fst r) == 0) by lra. rewrite across_cross in E by (apply U; now left). apply sq3_zero in E. exact E.
  - apply IH; auto. lra.
Qed.
Lemma both_parallel h d e : veq (cross h d) vzero -> veq (cross h e) vzero -> ~ parallel d e -> veq h vzero.
Proof.
  intros A B N. destruct h as [x y z], d as [a b c], e as [p q w]. 
  assert (P : ~ veq (cross (V3 a b c) (V3 p q w)) vzero) by (rewrite <- parallel_cross; exact N).
  vecs. destruct A as (A0 & A1 & A2), B as (B0 & B1 & B2).
  (* x (d × e) = 0 and so on *)
  assert (K : forall u, (~ u == 0) -> (u * (b * w - c * q) == 0 /\ u * (c * p - a * w) == 0 /\ u * (a * q - b * p) == 0) -> False).
  { intros u U (K0 & K1 & K2). apply P. apply Qmult_integral in K0. apply Qmult_integral in K1. apply Qmult_integral in K2. tauto. }
  split; [|split].
  - destruct (Qeq_dec x 0) as [E|E]; [exact E|exfalso]. apply (K (x * x)).
    { intros F. apply Qmult_integral in F. tauto. }
    assert (xb : x * b == y * a) by lra. assert (xc : x * c == z * a) by lra. assert (xq : x * q == y * p) by lra. assert (xw : x * w == z * p) by lra.
    split; [|split].
    + transitivity ((x * b) * (x * w) - (x * c) * (x * q)); [ring|]. rewrite xb, xc, xq, xw. ring.
    + transitivity (x * ((x * c) * p - a * (x * w))); [ring|]. rewrite xc, xw. ring.
    + transitivity (x * (a * (x * q) - (x * b) * p)); [ring|]. rewrite xb, xq. ring.
  - destruct (Qeq_dec y 0) as [E|E]; [exact E|exfalso]. apply (K (y * y)).
    { intros F. apply Qmult_integral in F. tauto. }
    assert (ya : y * a == x * b) by lra. assert (yc : y * c == z * b) by lra. assert (yp : y * p == x * q) by lra. assert (yw : y * w == z * q) by lra.
    split; [|split].
    + transitivity (y * (b * (y * w) - (y * c) * q)); [ring|]. rewrite yc, yw. ring.
    + transitivity ((y * c) * (y * p) - (y * a) * (y * w)); [ring|]. rewrite ya, yc, yp, yw. ring.
    + transitivity (y * ((y * a) * q - b * (y * p))); [ring|]. rewrite ya, yp. ring.
  - destruct (Qeq_dec z 0) as [E|E]; [exact E|exfalso]. apply (K (z * z)).
    { intros F. apply Qmult_integral in F. tauto. }
    assert (za : z * a == x * c) by lra. assert (zb : z * b == y * c) by lra. assert (zp : z * p == x * w) by lra. assert (zq : z * q == y * w) by lra.
    split; [|split].
    + transitivity (z * ((z * b) * w - c * (z * q))); [ring|]. rewrite zb, zq. ring.
    + transitivity (z * (c * (z * p) - (z * a) * w)); [ring|]. rewrite za, zp. ring.
    + transitivity ((z * a) * (z * q) - (z * b) * (z * p)); [ring|]. rewrite za, zb, zp, zq. ring.
Qed.

(* the matrix annihilates no vector *)
Lemma sums_linear rays h : dot h (mulv (fst (ray_sums rays)) h) == spread h rays.
Proof.
  pose proof (ray_sums_grad rays h) as A. pose proof (ray_sums_grad rays vzero) as B.
  assert (L : forall r, In r rays -> True) by auto. clear L.
  assert (S : dot h (vsub (vsum (map (fun r => proj h r) rays)) (vsum (map (fun r => proj vzero r) rays))) == spread h rays).
  { clear. induction rays as [|r rays IH]; unfold spread in *; cbn [map total vsum]; [vecs; ring|].
    rewrite <- IH. unfold across, proj. vecs. ring. }
  rewrite <- S. destruct A as (A0 & A1 & A2), B as (B0 & B1 & B2). unfold dot. unfold vsub at 1 2 3. cbn [vx vy vz].
  rewrite <- A0, <- A1, <- A2, <- B0, <- B1, <- B2. unfold vsub, mulv, vzero. cbn [vx vy vz]. ring.
Qed.
Lemma sums_kernel rays h : unit_rays rays -> some_cross rays -> veq (mulv (fst (ray_sums rays)) h) vzero -> veq h vzero.
Proof.
  intros U (r & r' & I & I' & N) Z.
  assert (S : spread h rays == 0).
  { rewrite <- sums_linear. destruct Z as (A & B & C). unfold dot. rewrite A, B, C. cbn [vx vy vz vzero]. ring. }
  apply (both_parallel h (fst r) (fst r')); [eapply spread_zero; eassumption|eapply spread_zero; eassumption|exact N].
Qed.
Lemma kernel_det m : (forall h, veq (mulv m h) vzero -> veq h vzero) -> ~ det3 m == 0.
Proof.
  intros K D.
  assert (R : MInv.Spec.regular 3 (MInv.Spec.entry (qmat m))).
  { intros x S i I.
    assert (E : forall r, (0 <= r < 3)%Z -> mat_get m r 0 * this (x 0%Z) + mat_get m r 1 * this (x 1%Z) + mat_get m r 2 * this (x 2%Z) == 0).
    { intros r Hr. specialize (S r Hr). unfold Sky.Spec.times in S. apply qsum3_q in S. rewrite !this_mul in S.
      unfold MInv.Spec.entry, qmat in S. cbn [pix] in S. rewrite !this_q in S. exact S. }
    destruct (K (V3 (this (x 0%Z)) (this (x 1%Z)) (this (x 2%Z)))) as (X & Y & Z).
    { split; [|split]; unfold mulv; cbn [vx vy vz vzero]; [apply (E 0%Z); lia|apply (E 1%Z); lia|apply (E 2%Z); lia]. }
    cbn [vx vy vz vzero] in X, Y, Z.
    assert (i = 0 \/ i = 1 \/ i = 2)%Z as [->|[->| ->]] by lia; apply Qc_is_canon; assumption. }
  destruct (MInv.Props.inverse_regular 3 (qmat m) ltac:(lia)) as (x & E & _); [split; reflexivity|exact R|].
  pose proof (inverse3_singular m D) as T. unfold inverse3 in T. fold (qmat m) in T. rewrite E in T. discriminate.
Qed.

Lemma inverse_mulv m n v : times_is_one n m -> veq (mulv n (mulv m v)) v.
Proof.
  intros (A & B & C & D & E & F & G & H & I). destruct v as [x y z]. unfold mulv. cbn [vx vy vz].
  split; [|split]; cbn [vx vy vz].
  - transitivity ((m00 n * m00 m + m01 n * m10 m + m02 n * m20 m) * x + (m00 n * m01 m + m01 n * m11 m + m02 n * m21 m) * y + (m00 n * m02 m + m01 n * m12 m + m02 n * m22 m) * z); [ring|rewrite A, B, C; ring].
  - transitivity ((m10 n * m00 m + m11 n * m10 m + m12 n * m20 m) * x + (m10 n * m01 m + m11 n * m11 m + m12 n * m21 m) * y + (m10 n * m02 m + m11 n * m12 m + m12 n * m22 m) * z); [ring|rewrite D, E, F; ring].
  - transitivity ((m20 n * m00 m + m21 n * m10 m + m22 n * m20 m) * x + (m20 n * m01 m + m21 n * m11 m + m22 n * m21 m) * y + (m20 n * m02 m + m21 n * m12 m + m22 n * m22 m) * z); [ring|rewrite G, H, I; ring].
Qed.
Lemma mulv_veq m a b : veq a b -> veq (mulv m a) (mulv m b).
Proof. intros (A & B & C). unfold mulv. split; [|split]; cbn [vx vy vz]; rewrite A, B, C; reflexivity. Qed.

Lemma many_spec rays : unit_rays rays -> some_cross rays ->
  exists p, triangulate_many rays = Ok (Some (p, Squares (map (ray_square p) rays))) /\
    (forall x, veq (vsum (map (fun r => proj x r) rays)) vzero <-> veq x p).
Proof.
  intros U X. pose proof (kernel_det (fst (ray_sums rays)) (fun h => sums_kernel rays h U X)) as D.
  destruct (inverse3_regular _ D) as (n & E & L & R).
  unfold triangulate_many. pose proof (fun x => ray_sums_grad rays x) as G. destruct (ray_sums rays) as [m v]. cbn [fst snd] in *. rewrite E. cbn [bind].
  exists (mulv n v). split; [reflexivity|]. intros x. split.
  - intros Z.
    assert (MV : veq (mulv m x) v).
    { destruct (G x) as (G0 & G1 & G2), Z as (Z0 & Z1 & Z2). unfold vsub in G0, G1, G2. cbn [vx vy vz vzero] in *. rewrite Z0 in G0. rewrite Z1 in G1. rewrite Z2 in G2. split; [|split]; lra. }
    eapply veq_trans; [apply veq_sym, (inverse_mulv m n x R)|]. now apply mulv_veq.
  - intros Q. assert (MV : veq (mulv m x) v).
    { eapply veq_trans; [apply mulv_veq; exact Q|]. apply (inverse_mulv n m v L). }
    eapply veq_trans; [apply veq_sym, G|]. destruct MV as (M0 & M1 & M2). unfold vsub. split; [|split]; cbn [vx vy vz vzero]; lra.
Qed.
