(* C22: rasterised lines. *)
From Coq Require Import ZArith List Lia Bool.
From Verif Require Import Lib.Base Line.Model.
Import ListNotations.
Local Open Scope Z_scope.

(* p is within half a unit of a + (k/n)(b - a) *)
Definition near (n k a b p : Z) : Prop := 2 * Z.abs (n * (p - a) - k * (b - a)) <= n.
Definition span (x0 y0 x1 y1 : Z) : Z := Z.max (Z.abs (x1 - x0)) (Z.abs (y1 - y0)).
(* the coordinate that changes most decreases from start to stop *)
Definition backwards (x0 y0 x1 y1 : Z) : Prop :=
  if Z.abs (x1 - x0) <? Z.abs (y1 - y0) then y1 < y0 else x1 < x0.

(* state after k steps *)
Record linv (l0 l : line) (k : Z) : Prop := {
  v_x : lx l = lx0 l0 + k; v_c : lx1 l = lx1 l0 /\ deltax l = deltax l0 /\ deltay l = deltay l0 /\ steep l = steep l0 /\ ystep l = ystep l0;
  v_e : exists m, ly l = ly0 l0 + ystep l0 * m /\ error l = deltax l0 / 2 - k * deltay l0 + m * deltax l0 /\ 0 <= error l < deltax l0 }.

Lemma linv_next l0 l k : 0 <= deltay l0 <= deltax l0 -> linv l0 l k -> linv l0 (next l) (k + 1).
Proof.
  intros D [X (C1 & C2 & C3 & C4 & C5) (m & Y & E & B)]. unfold next. rewrite C2, C3, C5.
  destruct (Z.ltb_spec (error l - deltay l0) 0); split; cbn [lx lx1 deltax deltay steep ystep ly error]; auto; try lia.
  - exists (m + 1). lia.
  - exists m. lia.
Qed.

Lemma trace_run l0 : 0 <= deltay l0 <= deltax l0 -> forall n l k, linv l0 l k -> Z.of_nat n = lx1 l0 - lx0 l0 - k ->
  exists r, trace n l = Ok r /\ length r = n /\
    forall i, (i < n)%nat -> exists l', linv l0 l' (k + Z.of_nat i) /\ nth_error r i = Some (at_ l').
Proof.
  intros D. induction n as [|n IH]; intros l k V L.
  - exists []. split; [|split; auto; intros; lia]. simpl. destruct V as [X (C1 & _) _]. unfold is_good. rewrite X, C1.
    destruct (Z.ltb_spec (lx0 l0 + k) (lx1 l0)); [lia|auto].
  - destruct (IH (next l) (k + 1) (linv_next _ _ _ D V) ltac:(lia)) as (r & E & LR & H). exists (at_ l :: r).
    split; [|split; [simpl; lia|]].
    + cbn [trace]. destruct V as [X (C1 & _) _]. unfold is_good. rewrite X, C1.
      destruct (Z.ltb_spec (lx0 l0 + k) (lx1 l0)); [|lia]. rewrite E. reflexivity.
    + intros [|i] Hi; [exists l; split; auto; replace (k + Z.of_nat 0) with k by lia; auto|].
      destruct (H i ltac:(lia)) as (l' & V' & E'). exists l'. split; auto. replace (k + Z.of_nat (S i)) with (k + 1 + Z.of_nat i) by lia. auto.
Qed.

Lemma near_m dx dy k m : 0 < dx -> 0 <= dx / 2 - k * dy + m * dx < dx -> 2 * Z.abs (dx * m - k * dy) <= dx.
Proof.
  intros P B. pose proof (Z.mul_div_le dx 2 ltac:(lia)). pose proof (Z.mod_pos_bound dx 2 ltac:(lia)).
  pose proof (Z.div_mod dx 2 ltac:(lia)). lia.
Qed.

(* The walk visits one pixel per step of the dominant axis.  The k-th pixel is
   within half a pixel, in both coordinates, of the k-th of n equal steps from
   one end to the other; consecutive pixels are 8-neighbours and differ by one
   along the dominant axis.  The end it starts from is the start point, and the
   stop point is not visited, unless the line runs backwards. *)
Theorem line_walk x0 y0 x1 y1 :
  let n := span x0 y0 x1 y1 in
  exists pix, trace (Z.to_nat n) (setup x0 y0 x1 y1) = Ok pix /\ Z.of_nat (length pix) = n /\
    exists ax ay bx by_ : Z,
      (~ backwards x0 y0 x1 y1 /\ (ax, ay, bx, by_) = (x0, y0, x1, y1) \/
       backwards x0 y0 x1 y1 /\ (ax, ay, bx, by_) = (x1, y1, x0, y0)) /\
      (forall k px py, nth_error pix k = Some (px, py) ->
         near n (Z.of_nat k) ax bx px /\ near n (Z.of_nat k) ay by_ py /\
         (if Z.abs (x1 - x0) <? Z.abs (y1 - y0) then py = ay + Z.of_nat k else px = ax + Z.of_nat k)) /\
      (forall k px py qx qy, nth_error pix k = Some (px, py) -> nth_error pix (S k) = Some (qx, qy) ->
         Z.abs (qx - px) <= 1 /\ Z.abs (qy - py) <= 1) /\
      (0 < n -> nth_error pix 0 = Some (ax, ay) /\ ~ In (bx, by_) pix).
Proof.
  intros n. set (l0 := setup x0 y0 x1 y1).
  assert (F : exists ax ay bx by_ : Z,
    (~ backwards x0 y0 x1 y1 /\ (ax, ay, bx, by_) = (x0, y0, x1, y1) \/ backwards x0 y0 x1 y1 /\ (ax, ay, bx, by_) = (x1, y1, x0, y0)) /\
    n = lx1 l0 - lx0 l0 /\ deltax l0 = n /\ steep l0 = (Z.abs (x1 - x0) <? Z.abs (y1 - y0)) /\ lx l0 = lx0 l0 /\ ly l0 = ly0 l0 /\
    error l0 = n / 2 /\ 0 <= deltay l0 <= n /\ 0 <= n /\
    (if steep l0 then ax = ly0 l0 /\ ay = lx0 l0 /\ by_ = lx1 l0 /\ bx - ax = ystep l0 * deltay l0
     else ax = lx0 l0 /\ ay = ly0 l0 /\ bx = lx1 l0 /\ by_ - ay = ystep l0 * deltay l0) /\ (ystep l0 = 1 \/ ystep l0 = -1)).
  { unfold l0, setup, n, span, backwards.
    destruct (Z.ltb_spec (Z.abs (x1 - x0)) (Z.abs (y1 - y0))).
    - destruct (Z.ltb_spec y1 y0); cbn [lx0 ly0 lx1 ly1 lx ly steep deltax deltay error ystep];
        [exists x1, y1, x0, y0|exists x0, y0, x1, y1]; (rewrite Z.quot_div_nonneg by lia);
        replace (Z.max (Z.abs (x1 - x0)) (Z.abs (y1 - y0))) with (Z.abs (y1 - y0)) by lia.
      + rewrite (Z.abs_neq (y1 - y0)) by lia. replace (y0 - y1) with (-(y1 - y0)) by lia. repeat split; auto; try lia; destruct (Z.ltb_spec x1 x0); lia.
      + rewrite (Z.abs_eq (y1 - y0)) by lia. repeat split; auto; try lia; destruct (Z.ltb_spec x0 x1); try lia; (left; split; [lia|auto]).
    - destruct (Z.ltb_spec x1 x0); cbn [lx0 ly0 lx1 ly1 lx ly steep deltax deltay error ystep];
        [exists x1, y1, x0, y0|exists x0, y0, x1, y1]; (rewrite Z.quot_div_nonneg by lia);
        replace (Z.max (Z.abs (x1 - x0)) (Z.abs (y1 - y0))) with (Z.abs (x1 - x0)) by lia.
      + rewrite (Z.abs_neq (x1 - x0)) by lia. replace (x0 - x1) with (-(x1 - x0)) by lia. repeat split; auto; try lia; destruct (Z.ltb_spec y1 y0); lia.
      + rewrite (Z.abs_eq (x1 - x0)) by lia. repeat split; auto; try lia; destruct (Z.ltb_spec y0 y1); try lia; (left; split; [lia|auto]). }
  destruct F as (ax & ay & bx & by_ & OR & N1 & DX & ST & X0 & Y0 & E0 & DY & NN & CO & YS).
  destruct (Z.eq_dec n 0) as [NZ|NZ].
  - exists []. assert (TR : trace (Z.to_nat n) l0 = Ok []).
    { assert (G : is_good l0 = false) by (unfold is_good; destruct (Z.ltb_spec (lx l0) (lx1 l0)); lia).
      destruct (Z.to_nat n); simpl; rewrite G; auto. }
    split; auto. split; [simpl; lia|]. exists ax, ay, bx, by_. split; auto. split; [destruct k; discriminate|]. split; [destruct k; discriminate|lia].
  - assert (V0 : linv l0 l0 0).
    { split; [lia|auto|]. exists 0. rewrite E0, DX. pose proof (Z.div_pos n 2). pose proof (Z.div_lt n 2). lia. }
    destruct (trace_run l0 ltac:(lia) (Z.to_nat n) l0 0 V0 ltac:(lia)) as (pix & TR & LP & HP).
    exists pix. split; auto. split; [lia|]. exists ax, ay, bx, by_. split; auto.
    assert (PT : forall k px py, nth_error pix k = Some (px, py) -> 0 <= Z.of_nat k < n /\ exists m,
       0 <= n / 2 - Z.of_nat k * deltay l0 + m * n < n /\
       (if steep l0 then px = ax + ystep l0 * m /\ py = ay + Z.of_nat k else px = ax + Z.of_nat k /\ py = ay + ystep l0 * m)).
    { intros k px py Hk. assert (Lk : (k < Z.to_nat n)%nat) by (rewrite <- LP; apply nth_error_Some; congruence).
      split; [lia|]. destruct (HP k Lk) as (l' & [VX (C1 & C2 & C3 & C4 & C5) (m & VY & VE & VB)] & EP). rewrite Hk in EP.
      exists m. rewrite VE, DX in VB. split; [auto|]. unfold at_ in EP. rewrite C4 in EP.
      destruct (steep l0); injection EP as -> ->; rewrite VX, VY; lia. }
    split; [|split].
    + intros k px py Hk. destruct (PT k px py Hk) as (RK & m & BM & PX). pose proof (near_m n (deltay l0) (Z.of_nat k) m ltac:(lia) BM) as NM.
      rewrite <- ST. unfold near. destruct (steep l0).
      * destruct CO as (-> & -> & -> & CB). destruct PX as (-> & ->). rewrite CB. split; [|split; [|auto]].
        -- replace (n * (ly0 l0 + ystep l0 * m - ly0 l0) - Z.of_nat k * (ystep l0 * deltay l0)) with (ystep l0 * (n * m - Z.of_nat k * deltay l0)) by ring.
           rewrite Z.abs_mul. destruct YS as [-> | ->]; simpl (Z.abs _); lia.
        -- rewrite <- N1. replace (n * (lx0 l0 + Z.of_nat k - lx0 l0) - Z.of_nat k * n) with 0 by ring. simpl. lia.
      * destruct CO as (-> & -> & -> & CB). destruct PX as (-> & ->). rewrite CB. split; [|split; [|auto]].
        -- rewrite <- N1. replace (n * (lx0 l0 + Z.of_nat k - lx0 l0) - Z.of_nat k * n) with 0 by ring. simpl. lia.
        -- replace (n * (ly0 l0 + ystep l0 * m - ly0 l0) - Z.of_nat k * (ystep l0 * deltay l0)) with (ystep l0 * (n * m - Z.of_nat k * deltay l0)) by ring.
           rewrite Z.abs_mul. destruct YS as [-> | ->]; simpl (Z.abs _); lia.
    + intros k px py qx qy Hk Hk'. destruct (PT k px py Hk) as (RK & m & BM & PX). destruct (PT (S k) qx qy Hk') as (RK' & m' & BM' & PX').
      assert (M : m <= m' <= m + 1).
      { replace (Z.of_nat (S k)) with (Z.of_nat k + 1) in BM' by lia. split.
        - destruct (Z.le_gt_cases m m'); auto. assert ((m' + 1) * n <= m * n) by nia. lia.
        - destruct (Z.le_gt_cases m' (m + 1)); auto. assert ((m + 2) * n <= m' * n) by nia. lia. }
      destruct (steep l0); destruct PX as (-> & ->); destruct PX' as (-> & ->); destruct YS as [-> | ->]; lia.
    + intros _. split.
      * destruct (nth_error pix 0) as [[px py]|] eqn:E; [|apply nth_error_None in E; lia].
        destruct (PT 0%nat px py E) as (RK & m & BM & PX). assert (M : m = 0).
        { change (Z.of_nat 0) with 0 in BM. pose proof (Z.div_pos n 2). pose proof (Z.div_lt n 2).
          destruct (Z.lt_trichotomy m 0) as [Q|[Q|Q]]; auto; [assert (m * n <= -1 * n) by nia; lia|assert (1 * n <= m * n) by nia; lia]. }
        subst m. destruct (steep l0); destruct PX as (-> & ->); do 2 f_equal; lia.
      * intros IN. apply In_nth_error in IN. destruct IN as (k & Hk). destruct (PT k _ _ Hk) as (RK & m & BM & PX).
        destruct (steep l0); destruct CO as (C1 & C2 & C3 & C4); lia.
Qed.

(* A backwards line is the same walk as the line from stop to start: it begins
   at the stop point and leaves out the start point. *)
Theorem line_backwards x0 y0 x1 y1 :
  backwards x0 y0 x1 y1 -> setup x0 y0 x1 y1 = setup x1 y1 x0 y0.
Proof.
  unfold backwards, setup. replace (Z.abs (x0 - x1)) with (Z.abs (x1 - x0)) by lia. replace (Z.abs (y0 - y1)) with (Z.abs (y1 - y0)) by lia.
  destruct (Z.ltb_spec (Z.abs (x1 - x0)) (Z.abs (y1 - y0))); intros B.
  - destruct (Z.ltb_spec y1 y0), (Z.ltb_spec y0 y1); try lia. reflexivity.
  - destruct (Z.ltb_spec x1 x0), (Z.ltb_spec x0 x1); try lia. reflexivity.
Qed.

(* "The stop point is the point after the last pixel on the line" is false for
   lines that run backwards. *)
Theorem line_stop_excluded_refuted :
  trace 3 (setup 3 0 0 0) = Ok [(0, 0); (1, 0); (2, 0)].
Proof. reflexivity. Qed.

(* a steep line with an odd slope *)
Example line_ex : trace 5 (setup 1 1 3 6) = Ok [(1, 1); (1, 2); (2, 3); (2, 4); (3, 5)] /\ ~ backwards 1 1 3 6.
Proof. split; [reflexivity|]. unfold backwards. simpl. lia. Qed.

Print Assumptions line_walk.
Print Assumptions line_backwards.
Print Assumptions line_stop_excluded_refuted.
