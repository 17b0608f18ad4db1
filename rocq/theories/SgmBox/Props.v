(* Search boxes of semi-global matching: theorems. *)
From Coq Require Import ZArith List Bool Lia.
From Verif Require Import Lib.Base Lib.Lists ImgMem.Model Lib.Img Sgm.Model Sgm.Spec SgmBox.Model SgmBox.Spec SgmBox.Proofs.
Import ListNotations.
Local Open Scope Z_scope.

(* The output region: exactly the pixels of the left image whose window is inside the
   left image and, for every disparity of the range, inside the right image. *)
Theorem matchable_region g k lw lh rw rh : 0 <= k -> mnx g <= 0 -> mny g <= 0 -> mnx g <= mxx g -> mny g <= mxy g ->
  let '(c0, c1, (r0, r1)) := output_region g (2 * k + 1) lw lh rw rh in
  forall x y, (c0 <= x <= c1 /\ r0 <= y <= r1) <->
    (window_inside k lw lh x y /\ forall d, in_box (range g) d -> window_inside k rw rh (x + fst d) (y + snd d)).
Proof.
  intros Hk NX NY HX HY. unfold output_region.
  replace (2 * k + 1 - 1) with (k * 2) by lia. rewrite Z.quot_mul by lia. rewrite !Z.gtb_ltb.
  intros x y. unfold window_inside, in_box, range. cbn [bx0 by0 bx1 by1].
  split.
  - intros [A B].
    destruct (Z.ltb_spec (k - mnx g) 0), (Z.ltb_spec (k - mny g) 0), (Z.ltb_spec (lh - 1) (Z.min (lh - 1 - k) (rh - 1 - (k + mxy g)))),
      (Z.ltb_spec (lw - 1) (Z.min (lw - 1 - k) (rw - 1 - (k + mxx g)))); try lia.
    split; [lia|]. intros [dx dy]. cbn [fst snd]. intros I. lia.
  - intros [A B]. pose proof (B (mnx g, mny g)) as B1. pose proof (B (mxx g, mxy g)) as B2. cbn [fst snd] in B1, B2.
    specialize (B1 ltac:(lia)). specialize (B2 ltac:(lia)).
    destruct (Z.ltb_spec (k - mnx g) 0), (Z.ltb_spec (k - mny g) 0), (Z.ltb_spec (lh - 1) (Z.min (lh - 1 - k) (rh - 1 - (k + mxy g)))),
      (Z.ltb_spec (lw - 1) (Z.min (lw - 1 - k) (rw - 1 - (k + mxx g)))); lia.
Qed.
Print Assumptions matchable_region.
Example matchable_region_example :
  output_region (Sgm (-2) 0 3 1 8 32 0 0 0 0 (Img 0 0 (fun _ _ => nothing))) 5 20 10 20 10 = (4, 14, (2, 6)).
Proof. reflexivity. Qed.

(* For a range of positive disparities only, the region has pixels whose window
   leaves the left image: the margin is reduced by the smallest disparity on the
   left image too. *)
Theorem positive_range_refuted : exists g k lw lh rw rh x y, 0 < mnx g /\ mnx g <= mxx g /\ mny g <= mxy g /\
  (let '(c0, c1, (r0, r1)) := output_region g (2 * k + 1) lw lh rw rh in c0 <= x <= c1 /\ r0 <= y <= r1) /\
  ~ window_inside k lw lh x y.
Proof.
  exists (Sgm 2 0 3 0 8 32 0 0 0 0 (Img 0 0 (fun _ _ => nothing))), 2, 20, 10, 20, 10, 0, 2.
  cbn. unfold window_inside. lia.
Qed.
Print Assumptions positive_range_refuted.

Section T.
Variables (g : sgm) (sbx sby : Z) (prev : option (img (option (Z * Z)))) (lm rm : option (img Z)).
Hypothesis W : 0 < ocols g.
Hypothesis H : 0 < orows g.
Hypothesis HX : mnx g <= mxx g.
Hypothesis HY : mny g <= mxy g.
Notation first := (first_box g sbx sby prev lm rm).
Notation open := (open_pixel g sbx sby prev lm rm).
Notation last := (last_box g sbx sby prev lm rm).

Lemma same_box_eq a b : same_box a b = true <-> a = b.
Proof.
  destruct a as [a0 a1 a2 a3], b as [b0 b1 b2 b3]. unfold same_box. cbn [bx0 by0 bx1 by1].
  rewrite !andb_true_iff, !Z.eqb_eq. split; [intros [[[-> ->] ->] ->]; auto|intros E; injection E; auto].
Qed.
Lemma filledb_ok b : filledb b = true <-> filled b.
Proof. unfold filledb, filled. rewrite andb_true_iff, !Z.leb_le. tauto. Qed.

Definition sound (b : box) : Prop := b = nothing \/ (filled b /\ forall d, in_box b d -> in_box (range g) d).
Lemma in_meet a b d : in_box (meet a b) d <-> in_box a d /\ in_box b d.
Proof. unfold in_box, meet. cbn [bx0 by0 bx1 by1]. lia. Qed.
Lemma guess_sound : priors_reach g sbx sby prev -> forall c r,
  filled (guess_box g sbx sby prev c r) /\ forall d, in_box (guess_box g sbx sby prev c r) d -> in_box (range g) d.
Proof.
  intros PR c r. unfold guess_box. destruct (trusted g prev c r) as [[dx dy]|] eqn:E.
  - split; [|intros d; rewrite in_meet; tauto]. destruct (PR _ _ _ E) as ([ex ey] & I & A & B). cbn [fst snd] in *.
    unfold in_box, filled, meet, range in *. cbn [bx0 by0 bx1 by1 fst snd] in *. lia.
  - split; [unfold filled, range; cbn [bx0 by0 bx1 by1]; lia|auto].
Qed.
Lemma first_sound : priors_reach g sbx sby prev -> forall c r, sound (first c r).
Proof.
  intros PR c r. unfold first_box. destruct (guess_sound PR c r) as [F I]. destruct (masked lm c r); [left; auto|].
  destruct rm as [m|]; [|right; auto]. destruct (filledb _) eqn:E; [|left; auto].
  right. rewrite filledb_ok in E. split; auto. intros d. rewrite in_meet. intros [_ ?]. auto.
Qed.

Lemma in_near n c r b : In b (near_boxes (ocols g) (orows g) first open n c r) <->
  exists i j, 0 <= i < ocols g /\ 0 <= j < orows g /\ apart c r i j <= n /\ open i j = false /\ first i j <> nothing /\ b = first i j.
Proof.
  unfold near_boxes, apart. rewrite in_flat_map. split.
  - intros (y & Iy & Ib). apply in_flat_map in Ib. destruct Ib as (x & Ix & Ib).
    apply in_zrange in Iy, Ix. destruct (open x y) eqn:Eo; [destruct Ib|]. cbn [orb] in Ib.
    destruct (same_box (first x y) nothing) eqn:Es; [destruct Ib|]. destruct Ib as [<-|[]].
    exists x, y. repeat split; auto; try lia. intros E. apply same_box_eq in E. congruence.
  - intros (x & y & Hx & Hy & A & Eo & Ne & ->). exists y. split; [apply in_zrange; lia|].
    apply in_flat_map. exists x. split; [apply in_zrange; lia|]. rewrite Eo. cbn [orb].
    destruct (same_box (first x y) nothing) eqn:Es; [apply same_box_eq in Es; congruence|left; auto].
Qed.
Lemma hull_spec bs : bs <> [] -> small_range g -> (forall b, In b bs -> filled b /\ forall d, in_box b d -> in_box (range g) d) ->
  (forall b, In b bs -> bx0 (hull bs) <= bx0 b /\ bx1 b <= bx1 (hull bs) /\ by0 (hull bs) <= by0 b /\ by1 b <= by1 (hull bs)) /\
  (exists b, In b bs /\ bx0 b = bx0 (hull bs)) /\ (exists b, In b bs /\ bx1 b = bx1 (hull bs)) /\
  (exists b, In b bs /\ by0 b = by0 (hull bs)) /\ (exists b, In b bs /\ by1 b = by1 (hull bs)).
Proof.
  intros Ne SR IR.
  assert (BR : forall b, In b bs -> bx0 b <= bx1 b /\ by0 b <= by1 b /\ mnx g <= bx0 b /\ bx1 b <= mxx g /\ mny g <= by0 b /\ by1 b <= mxy g).
  { intros b Ib. destruct (IR b Ib) as [[F1 F2] F3]. pose proof (F3 (bx0 b, by0 b)) as P. pose proof (F3 (bx1 b, by1 b)) as Q.
    unfold in_box, range in P, Q. cbn [bx0 by0 bx1 by1 fst snd] in P, Q. lia. }
  assert (MN : forall (p q : box -> Z), (forall b, In b bs -> p b <= q b /\ -2147483646 <= p b /\ q b <= 2147483646) ->
    (exists b, In b bs /\ p b = minl 2147483646 (flat_map (fun b => [p b; q b]) bs)) /\
    (forall b, In b bs -> minl 2147483646 (flat_map (fun b => [p b; q b]) bs) <= p b) /\
    (exists b, In b bs /\ q b = maxl (-2147483646) (flat_map (fun b => [p b; q b]) bs)) /\
    (forall b, In b bs -> q b <= maxl (-2147483646) (flat_map (fun b => [p b; q b]) bs))).
  { clear -Ne. intros p q Hpq. set (l := flat_map (fun b => [p b; q b]) bs).
    assert (IN : forall z, In z l <-> exists b, In b bs /\ (z = p b \/ z = q b)).
    { intros z. unfold l. rewrite in_flat_map. split; [intros (b & Ib & [E|[E|[]]]); eauto|].
      intros (b & Ib & [E|E]); exists b; (split; [auto|]); [left|right; left]; auto. }
    destruct (maxl_spec (-2147483646) l) as (A & A0 & B). destruct bs as [|b0 bs']; [congruence|].
    pose proof (Hpq b0 (or_introl eq_refl)) as H0.
    assert (Ip : In (p b0) l) by (apply IN; exists b0; split; [left; auto|auto]).
    assert (Iq : In (q b0) l) by (apply IN; exists b0; split; [left; auto|auto]).
    assert (M : exists m, minl 2147483646 l = m /\ (m = 2147483646 \/ In m l) /\ forall x, In x l -> m <= x).
    { clear. exists (minl 2147483646 l). split; auto. induction l as [|a l IH]; cbn [minl fold_right In]; [split; [auto|tauto]|].
      fold (minl 2147483646 l). destruct IH as [I1 I2]. split.
      - destruct (Z.min_spec a (minl 2147483646 l)) as [[? ->]|[? ->]]; [right; left; auto|destruct I1; auto].
      - intros x [<-|Ix]; [lia|]. specialize (I2 x Ix). lia. }
    destruct M as (m & -> & M1 & M2).
    set (M := maxl (-2147483646) l) in *. clearbody M.
    assert (Im : exists b, In b (b0 :: bs') /\ p b = m).
    { destruct M1 as [->|Im].
      - exists b0. split; [left; auto|]. specialize (M2 _ Ip). lia.
      - apply IN in Im. destruct Im as (b & Ib & [E|E]); [exists b; auto|]. exists b. split; auto.
        specialize (Hpq b Ib). assert (m <= p b) by (apply M2, IN; eauto). lia. }
    assert (IM : exists b, In b (b0 :: bs') /\ q b = M).
    { destruct A as [->|IM].
      - exists b0. split; [left; auto|]. specialize (B _ Iq). lia.
      - apply IN in IM. destruct IM as (b & Ib & [E|E]); [|exists b; auto]. exists b. split; auto.
        specialize (Hpq b Ib). assert (q b <= M) by (apply B, IN; eauto). lia. }
    split; auto. split; [intros b Ib; apply M2, IN; eauto|]. split; auto. intros b Ib; apply B, IN; eauto. }
  unfold small_range in SR.
  destruct (MN bx0 bx1) as (X1 & X2 & X3 & X4); [intros b Ib; specialize (BR b Ib); lia|].
  destruct (MN by0 by1) as (Y1 & Y2 & Y3 & Y4); [intros b Ib; specialize (BR b Ib); lia|].
  unfold hull. cbn [bx0 by0 bx1 by1]. auto 10.
Qed.
Lemma near_sound : priors_reach g sbx sby prev -> forall n c r b, In b (near_boxes (ocols g) (orows g) first open n c r) ->
  filled b /\ forall d, in_box b d -> in_box (range g) d.
Proof. intros PR n c r b Ib. apply in_near in Ib. destruct Ib as (i & j & _ & _ & _ & _ & Ne & ->). destruct (first_sound PR i j); [congruence|auto]. Qed.

Lemma last_sound : priors_reach g sbx sby prev -> small_range g -> forall k c r, sound (last k c r).
Proof.
  intros PR SR k c r. pose proof (first_sound PR c r) as FS.
  set (l := near_boxes (ocols g) (orows g) first open (reach k) c r).
  assert (EL : last k c r = first c r \/ last k c r = nothing \/
     (l <> [] /\ last k c r = meet (grown (hull l)) (range g))).
  { assert (EU : prev = None \/ last k c r = if open c r then (if thin (hull l) then (if 0 <? k then nothing else first c r)
       else meet (grown (hull l)) (range g)) else first c r) by (unfold l, last_box; destruct prev; auto).
    destruct EU as [EU|EU]; [left; unfold last_box; now rewrite EU|].
    rewrite EU. destruct (open c r); auto. destruct (thin (hull l)) eqn:Et; [destruct (0 <? k); auto|].
    right. right. split; auto. intros N. rewrite N in Et. discriminate. }
  destruct EL as [->|[->|[Nl ->]]]; [exact FS|left; auto|].
  - right. split; [|intros d; rewrite in_meet; tauto].
    destruct l as [|b0 bs] eqn:En; [congruence|]. rewrite <- En in *.
    assert (NS : forall b, In b l -> filled b /\ forall d, in_box b d -> in_box (range g) d) by (apply near_sound; auto).
    destruct (hull_spec l) as (A & _); auto.
    destruct (A b0) as (A1 & A2 & A3 & A4); [rewrite En; left; auto|].
    destruct (NS b0) as [[F1 F2] F3]; [rewrite En; left; auto|].
    pose proof (F3 (bx0 b0, by0 b0)) as F4. unfold in_box, range in F4. cbn [bx0 by0 bx1 by1 fst snd] in F4.
    unfold filled, meet, grown, range. cbn [bx0 by0 bx1 by1]. lia.
Qed.

(* Masks of the wrong size are rejected. *)
Theorem wrong_masks_rejected fits :
  (match lm with Some m => icols m <> ocols g \/ irows m <> orows g | None => False end \/
   match rm with Some m => icols m < ocols g + (mxx g - mnx g) \/ irows m < orows g + (mxy g - mny g) | None => False end) <->
  populate g sbx sby prev fits lm rm = Throw LogicErr.
Proof.
  split.
  - intros C. unfold populate.
    assert (E1 : forall m : img Z, negb ((icols m =? ocols g) && (irows m =? orows g)) = true <-> icols m <> ocols g \/ irows m <> orows g).
    { intros m. rewrite negb_true_iff, andb_false_iff, !Z.eqb_neq. tauto. }
    assert (E2 : forall m : img Z, negb ((icols m >=? ocols g + ndx g - 1) && (irows m >=? orows g + ndy g - 1)) = true <->
       icols m < ocols g + (mxx g - mnx g) \/ irows m < orows g + (mxy g - mny g)).
    { intros m. unfold ndx, ndy. rewrite negb_true_iff, andb_false_iff, !Z.geb_leb, !Z.leb_gt. lia. }
    destruct C as [C|C].
    + destruct lm as [m|]; [|tauto]. apply E1 in C. now rewrite C.
    + destruct rm as [m|]; [|tauto]. apply E2 in C.
      destruct (match lm with Some m0 => negb ((icols m0 =? ocols g) && (irows m0 =? orows g)) | None => false end); auto.
      now rewrite C.
  - intros E.
    assert (D : mask_fits g lm rm \/ ~ mask_fits g lm rm).
    { unfold mask_fits. destruct lm as [m|], rm as [m'|]; cbn; lia. }
    destruct D as [D|D].
    + destruct (populate_ok g sbx sby prev lm rm D W H HX HY fits) as (bn & ok & E' & _). rewrite E' in E. discriminate.
    + unfold mask_fits in D. destruct lm as [m|], rm as [m'|]; lia.
Qed.

(* The search succeeds on masks of the right size.  The boxes are those of the first
   of the levels 0 to 3 whose buffers fit in memory; if none fits, the result is
   false and the boxes are those of level 3. *)
Theorem search_boxes fits : mask_fits g lm rm ->
  exists bn ok k, populate g sbx sby prev fits lm rm = Ok (bn, ok) /\ 0 <= k <= 3 /\ boxes_of g (last k) bn /\
    fits bn = ok /\ (ok = false -> k = 3) /\
    forall j, 0 <= j < k -> exists m, boxes_of g (last j) m /\ fits m = false.
Proof.
  intros MF. destruct (populate_ok g sbx sby prev lm rm MF W H HX HY fits) as (bn & ok & E & bs & k & af & El & B & F & FB & FA).
  exists bn, ok, k. split; auto.
  assert (C : (bs = [] /\ k = 0 /\ af = [1; 2; 3]) \/ (bs = [0] /\ k = 1 /\ af = [2; 3]) \/ (bs = [0; 1] /\ k = 2 /\ af = [3]) \/
     (bs = [0; 1; 2] /\ k = 3 /\ af = [])).
  { destruct bs as [|b0 [|b1 [|b2 [|b3 bs]]]]; cbn in El; injection El; intros; subst; auto 8.
    destruct bs; discriminate. }
  assert (FJ : forall j, In j bs -> exists m, boxes_of g (last j) m /\ fits m = false) by (apply Forall_forall; auto).
  destruct C as [(-> & -> & ->)|[(-> & -> & ->)|[(-> & -> & ->)|(-> & -> & ->)]]];
    (split; [lia|]; split; [auto|]; split; [auto|]; split;
      [try reflexivity; intros Z; specialize (FA Z); discriminate
      |intros j Hj; apply FJ; cbn; lia]).
Qed.

(* Priors within reach of the search range: every box is the empty one or has
   disparities, all of the search range.  So the boxes meet the conditions of the
   accumulation of costs. *)
Theorem search_boxes_sound fits : mask_fits g lm rm -> priors_reach g sbx sby prev -> small_range g ->
  0 <= p1 g <= 7936 -> 0 <= p2 g <= 7936 ->
  exists bn ok, populate g sbx sby prev fits lm rm = Ok (bn, ok) /\ sgm_ok (with_boxes g bn) /\
    forall c r, inside bn c r -> pix bn c r = nothing \/
      (filled (pix bn c r) /\ forall d, in_box (pix bn c r) d -> in_box (range g) d).
Proof.
  intros MF PR SR P1 P2. destruct (search_boxes fits MF) as (bn & ok & k & E & _ & (B1 & B2 & B3) & _).
  exists bn, ok. split; auto.
  assert (S : forall c r, inside bn c r -> sound (pix bn c r)) by (intros c r I; rewrite B3 by auto; now apply last_sound).
  split; [|exact S]. unfold sgm_ok, with_boxes. cbn [mnx mxx mny mxy p1 p2 ocols orows bnd].
  do 8 (split; [lia||auto|]). intros c r I. change (range _) with (range g). destruct (S c r I) as [->|[[F1 F2] F3]].
  - unfold box_ok, nothing, in_box. cbn [bx0 by0 bx1 by1]. split; [lia|]. split; [lia|]. intros d I'. lia.
  - split; [lia|]. split; [lia|auto].
Qed.

(* What is searched.  Nothing where the left mask is off.  At a pixel with a trusted
   prior, the disparities of the range within the search buffer of it.  Without a
   prior image, the whole range. *)
Theorem searched_without_right_mask fits : mask_fits g lm rm -> rm = None ->
  exists bn ok, populate g sbx sby prev fits lm rm = Ok (bn, ok) /\
    forall c r d, 0 <= c < ocols g -> 0 <= r < orows g ->
    (masked lm c r = true -> ~ in_box (pix bn c r) d) /\
    (masked lm c r = false -> forall q, trusted g prev c r = Some q ->
       (in_box (pix bn c r) d <-> in_box (range g) d /\ Z.abs (fst d - fst q) <= sbx /\ Z.abs (snd d - snd q) <= sby)) /\
    (masked lm c r = false -> prev = None -> (in_box (pix bn c r) d <-> in_box (range g) d)).
Proof.
  intros MF RN. destruct (search_boxes fits MF) as (bn & ok & k & E & _ & (B1 & B2 & B3) & _). exists bn, ok. split; auto.
  intros c r d Hc Hr. rewrite B3 by (split; lia).
  assert (NB : forall e, ~ in_box nothing e) by (intros e; unfold in_box, nothing; cbn [bx0 by0 bx1 by1]; lia).
  assert (LF : open c r = false -> last k c r = first c r) by (intros Eo; unfold last_box; destruct prev; auto; now rewrite Eo).
  split; [|split].
  - intros M. rewrite LF; [unfold first_box; rewrite M; apply NB|]. unfold open_pixel. now rewrite M.
  - intros M q T. rewrite LF; [|unfold open_pixel; rewrite T; now rewrite andb_false_r].
    unfold first_box. rewrite M, RN. unfold guess_box. rewrite T. destruct q as [qx qy]. rewrite in_meet.
    unfold in_box. cbn [bx0 by0 bx1 by1 fst snd]. split; intros; lia.
  - intros M PN. assert (T : trusted g prev c r = None) by (unfold trusted, prior_at; now rewrite PN).
    unfold last_box. rewrite PN. unfold first_box. rewrite M, RN. rewrite PN in T. unfold guess_box. rewrite T. tauto.
Qed.

(* With a right mask: where the valid pixels span more than one row and column, the
   box of a pixel is limited to targets between the first and the last valid column
   of its row and between the first and the last valid row. *)
Theorem searched_with_right_mask fits m x0 x1 y0 y1 c r q : mask_fits g lm rm -> rm = Some m ->
  0 <= c < ocols g -> 0 <= r < orows g -> masked lm c r = false -> trusted g prev c r = Some q ->
  ends (fun x => 0 <= x < icols m /\ 0 < pix m x r) x0 x1 -> x0 < x1 ->
  ends (fun y => 0 <= y < irows m /\ exists x, 0 <= x < ocols g /\ 0 < pix m x y) y0 y1 -> y0 < y1 ->
  exists bn ok, populate g sbx sby prev fits lm rm = Ok (bn, ok) /\
    forall d, in_box (pix bn c r) d <->
      in_box (range g) d /\ Z.abs (fst d - fst q) <= sbx /\ Z.abs (snd d - snd q) <= sby /\
      x0 <= c + fst d <= x1 /\ y0 <= r + snd d <= y1.
Proof.
  intros MF RS Hc Hr M T (X1 & X2 & X3) X (Y1 & Y2 & Y3) Y.
  destruct (search_boxes fits MF) as (bn & ok & k & E & _ & (B1 & B2 & B3) & _). exists bn, ok. split; auto.
  intros d. rewrite B3 by (split; lia).
  assert (LF : last k c r = first c r).
  { assert (Eo : open c r = false) by (unfold open_pixel; rewrite T; now rewrite andb_false_r). unfold last_box. destruct prev; auto. now rewrite Eo. }
  rewrite LF. unfold first_box. rewrite M, RS.
  assert (CL : col_limits m r = (x0, x1)).
  { assert (C1 : maxl 0 (cols_on m r 1) = x1).
    { apply maxl_unique; [right|lia|].
      - apply in_cols_on. unfold on. rewrite Z.ltb_lt. lia.
      - intros x Ix. apply in_cols_on in Ix. unfold on in Ix. rewrite Z.ltb_lt in Ix. specialize (X3 x). lia. }
    assert (C0 : minl (icols m - 1) (cols_on m r 0) = x0).
    { apply minl_uniq; [right|lia|].
      - apply in_cols_on. unfold on. rewrite Z.ltb_lt. lia.
      - intros x Ix. apply in_cols_on in Ix. unfold on in Ix. rewrite Z.ltb_lt in Ix. specialize (X3 x). lia. }
    unfold col_limits. destruct (cols_on m r 1) as [|a l] eqn:El.
    - cbn in C1. exfalso. lia.
    - rewrite C0, C1. reflexivity. }
  assert (RL : row_limits m (ocols g) = (y0, y1)).
  { assert (IO : forall y, In y (rows_on m (ocols g)) <-> 0 <= y < irows m /\ exists x, 0 <= x < ocols g /\ 0 < pix m x y).
    { intros y. rewrite in_rows_on. unfold on. split; intros [A (x & Hx & B)]; (split; [auto|]); exists x; rewrite Z.ltb_lt in *; auto. }
    unfold row_limits. f_equal; [apply minl_uniq|apply maxl_unique].
    - right. now apply IO. - lia. - intros y Iy. apply Y3. now apply IO.
    - right. now apply IO. - lia. - intros y Iy. apply Y3. now apply IO. }
  rewrite CL, RL. unfold limit_box. cbn [fst snd]. rewrite (proj2 (Z.ltb_lt _ _) X), (proj2 (Z.ltb_lt _ _) Y). cbn [andb].
  unfold guess_box. rewrite T. destruct q as [qx qy]. cbn [fst snd].
  destruct (filledb _) eqn:EF.
  - rewrite !in_meet. unfold in_box. cbn [bx0 by0 bx1 by1 fst snd]. split; intros; lia.
  - split; [unfold in_box, nothing; cbn [bx0 by0 bx1 by1]; lia|]. intros I. exfalso.
    assert (D : filledb (meet (Box (x0 - c) (y0 - r) (x1 - c) (y1 - r)) (meet (Box (qx - sbx) (qy - sby) (qx + sbx) (qy + sby)) (range g))) = true).
    { apply filledb_ok. unfold filled, meet. cbn [bx0 by0 bx1 by1]. unfold in_box in I. lia. }
    congruence.
Qed.

(* A pixel without a trusted prior next to pixels with one: its box is the smallest
   box around their boxes, grown by two and cut to the range, if that smallest box
   has more than one row and column. *)
Theorem searched_near_priors fits p : mask_fits g lm rm -> prev = Some p -> priors_reach g sbx sby prev -> small_range g ->
  exists bn ok k, populate g sbx sby prev fits lm rm = Ok (bn, ok) /\ (k = 10 \/ k = 25 \/ k = 3 \/ k = 0) /\
    forall c r, 0 <= c < ocols g -> 0 <= r < orows g -> open c r = true ->
    let near i j := 0 <= i < ocols g /\ 0 <= j < orows g /\ apart c r i j <= k /\ open i j = false /\ filled (pix bn i j) in
    (exists i j i' j', near i j /\ near i' j' /\ bx0 (pix bn i j) < bx1 (pix bn i' j')) ->
    (exists i j i' j', near i j /\ near i' j' /\ by0 (pix bn i j) < by1 (pix bn i' j')) ->
    exists x0 x1 y0 y1,
      ends (fun x => exists i j, near i j /\ (x = bx0 (pix bn i j) \/ x = bx1 (pix bn i j))) x0 x1 /\
      ends (fun y => exists i j, near i j /\ (y = by0 (pix bn i j) \/ y = by1 (pix bn i j))) y0 y1 /\
      forall d, in_box (pix bn c r) d <->
        in_box (range g) d /\ x0 - 2 <= fst d <= x1 + 2 /\ y0 - 2 <= snd d <= y1 + 2.
Proof.
  intros MF PS PR SR. destruct (search_boxes fits MF) as (bn & ok & k & E & Hk & (B1 & B2 & B3) & _).
  exists bn, ok, (reach k). split; auto. split.
  { assert (C : k = 0 \/ k = 1 \/ k = 2 \/ k = 3) by lia. destruct C as [->|[->|[->| ->]]]; cbn; auto. }
  intros c r Hc Hr Ho near WX WY.
  set (l := near_boxes (ocols g) (orows g) first open (reach k) c r).
  assert (NL : forall i j, near i j -> In (pix bn i j) l).
  { intros i j (Hi & Hj & A & O & F). rewrite B3 in * by (split; lia).
    assert (LF : last k i j = first i j) by (unfold last_box; rewrite PS in *; now rewrite O).
    rewrite LF in *. apply in_near. exists i, j. repeat split; auto; try lia. intros N. rewrite N in F. unfold filled, nothing in F. cbn in F. lia. }
  assert (LN : forall b, In b l -> exists i j, near i j /\ b = pix bn i j).
  { intros b Ib. pose proof (near_sound PR _ _ _ _ Ib) as [F _]. apply in_near in Ib. destruct Ib as (i & j & Hi & Hj & A & O & Ne & ->).
    exists i, j. assert (LF : pix bn i j = first i j) by (rewrite B3 by (split; lia); unfold last_box; rewrite PS in *; now rewrite O).
    split; [|auto]. repeat split; auto; try lia; rewrite LF; apply F. }
  assert (Nl : l <> []) by (destruct WX as (i & j & _ & _ & N & _); apply NL in N; destruct l; [destruct N|discriminate]).
  destruct (hull_spec l Nl SR (near_sound PR (reach k) c r)) as (HB & (b1 & I1 & E1) & (b2 & I2 & E2) & (b3 & I3 & E3) & (b4 & I4 & E4)).
  exists (bx0 (hull l)), (bx1 (hull l)), (by0 (hull l)), (by1 (hull l)).
  assert (NB : forall i j, near i j -> bx0 (hull l) <= bx0 (pix bn i j) /\ bx0 (pix bn i j) <= bx1 (pix bn i j) /\ bx1 (pix bn i j) <= bx1 (hull l) /\
      by0 (hull l) <= by0 (pix bn i j) /\ by0 (pix bn i j) <= by1 (pix bn i j) /\ by1 (pix bn i j) <= by1 (hull l)).
  { intros i j N. specialize (HB _ (NL i j N)). destruct N as (_ & _ & _ & _ & F). unfold filled in F. lia. }
  split; [|split].
  - split; [|split].
    + destruct (LN _ I1) as (i & j & N & ->). exists i, j. auto.
    + destruct (LN _ I2) as (i & j & N & ->). exists i, j. auto.
    + intros x (i & j & N & Ex). specialize (NB i j N). destruct Ex as [->| ->]; lia.
  - split; [|split].
    + destruct (LN _ I3) as (i & j & N & ->). exists i, j. auto.
    + destruct (LN _ I4) as (i & j & N & ->). exists i, j. auto.
    + intros x (i & j & N & Ex). specialize (NB i j N). destruct Ex as [->| ->]; lia.
  - intros d. rewrite B3 by (split; lia).
    assert (LE : last k c r = meet (grown (hull l)) (range g)).
    { unfold last_box. fold l. rewrite PS in *. rewrite Ho. cbv zeta.
      replace (thin (hull l)) with false; [reflexivity|]. symmetry. unfold thin.
      destruct WX as (i & j & i' & j' & N & N' & Lt). pose proof (NB i j N). pose proof (NB i' j' N').
      destruct WY as (i2 & j2 & i2' & j2' & N2 & N2' & Lt2). pose proof (NB i2 j2 N2). pose proof (NB i2' j2' N2').
      rewrite orb_false_iff, !Z.leb_gt. lia. }
    rewrite LE, in_meet. unfold in_box, grown. cbn [bx0 by0 bx1 by1]. split; intros; lia.
Qed.
End T.
Print Assumptions wrong_masks_rejected.
Print Assumptions search_boxes.
Print Assumptions search_boxes_sound.
Print Assumptions searched_without_right_mask.
Print Assumptions searched_with_right_mask.
Print Assumptions searched_near_priors.

(* A case with priors at some pixels, a left and a right mask. *)
Definition ex_g : sgm := Sgm 0 0 7 3 8 32 4 4 0 0 (Img 0 0 (fun _ _ => nothing)).
Definition ex_prev : img (option (Z * Z)) := Img 2 2 (fun i j => if (i =? 0) && (j =? 0) then Some (1, 0) else if (i =? 1) && (j =? 0) then Some (3, 1) else None).
Definition ex_left : img Z := Img 4 4 (fun i j => if (i =? 0) && (j =? 0) then 0 else 255).
Definition ex_right : img Z := Img 11 7 (fun i j => if (i =? 10) || (j =? 6) then 0 else 255).
Example ex_meets : 0 < ocols ex_g /\ 0 < orows ex_g /\ mnx ex_g <= mxx ex_g /\ mny ex_g <= mxy ex_g /\
  mask_fits ex_g (Some ex_left) (Some ex_right) /\ priors_reach ex_g 2 1 (Some ex_prev) /\ small_range ex_g /\
  ends (fun x => 0 <= x < icols ex_right /\ 0 < pix ex_right x 1) 0 9 /\
  ends (fun y => 0 <= y < irows ex_right /\ exists x, 0 <= x < ocols ex_g /\ 0 < pix ex_right x y) 0 5 /\
  trusted ex_g (Some ex_prev) 3 1 = Some (6, 2) /\
  open_pixel ex_g 2 1 (Some ex_prev) (Some ex_left) (Some ex_right) 2 2 = true.
Proof.
  unfold ex_g, mask_fits, small_range. cbn [ocols orows mnx mxx mny mxy ex_left ex_right icols irows].
  repeat (split; [lia|]). split; [|split; [lia|split; [|split; [|split; reflexivity]]]].
  - intros c r d. unfold trusted, prior_at, ex_prev. cbn [mnx mxx mny mxy].
    destruct (insideb _ _ _) eqn:I; [|discriminate]. cbn [pix].
    destruct ((c / 2 =? 0) && (r / 2 =? 0)).
    + cbn. intros E. injection E as <-. exists (2, 0). cbn. unfold in_box, range. cbn. lia.
    + destruct ((c / 2 =? 1) && (r / 2 =? 0)); [|discriminate]. cbn. intros E. injection E as <-. exists (6, 2). cbn. unfold in_box, range. cbn. lia.
  - split; [cbn; lia|]. split; [cbn; lia|]. intros x. unfold ex_right. cbn [pix icols]. cbn [Z.eqb]. rewrite orb_false_r.
    destruct (Z.eqb_spec x 10); lia.
  - split; [split; [lia|]; exists 0; cbn; lia|]. split; [split; [lia|]; exists 0; cbn; lia|].
    intros y [Hy (x & Hx & P)]. unfold ex_right in P. cbn [pix] in P. destruct (Z.eqb_spec y 6); [rewrite orb_true_r in P|]; lia.
Qed.
Definition boxes_list (r : res (img box * bool)) : list (list box) :=
  match r with Ok (bn, _) => map (fun y => map (fun x => pix bn x y) (zrange 0 (icols bn))) (zrange 0 (irows bn)) | _ => [] end.
Example ex_boxes :
  boxes_list (populate ex_g 2 1 (Some ex_prev) (fun _ => true) (Some ex_left) (Some ex_right)) =
  [[nothing; Box 0 0 4 1; Box 4 1 7 3; Box 4 1 6 3];
   [Box 0 0 4 1; Box 0 0 4 1; Box 4 1 7 3; Box 4 1 6 3];
   [Box 0 0 7 3; Box 0 0 7 3; Box 0 0 7 3; Box 0 0 7 3];
   [Box 0 0 7 3; Box 0 0 7 3; Box 0 0 7 3; Box 0 0 7 3]].
Proof. vm_compute. reflexivity. Qed.
(* the same when only the last level fits in memory: pixels without a prior are dropped *)
Example ex_dropped :
  boxes_list (populate ex_g 2 1 (Some ex_prev) (fun b => same_box (pix b 0 2) nothing) None None) =
  [[Box 0 0 4 1; Box 0 0 4 1; Box 4 1 7 3; Box 4 1 7 3];
   [Box 0 0 4 1; Box 0 0 4 1; Box 4 1 7 3; Box 4 1 7 3];
   [nothing; nothing; nothing; nothing];
   [nothing; nothing; nothing; nothing]].
Proof. vm_compute. reflexivity. Qed.

(* A prior outside a search range of fewer than ten columns is trusted and gives a
   box whose first column is after its last; its size (bx1-bx0+1)*(by1-by0+1), which
   is used to lay out the buffers, is negative. *)
Theorem prior_outside_range_refuted : exists g sbx sby prev bn ok,
  0 < ocols g /\ 0 < orows g /\ mnx g <= mxx g /\ mny g <= mxy g /\ 0 < sbx /\ 0 < sby /\
  populate g sbx sby prev (fun _ => true) None None = Ok (bn, ok) /\
  exists c r, inside bn c r /\ pix bn c r <> nothing /\ bx1 (pix bn c r) < bx0 (pix bn c r) /\
    (bx1 (pix bn c r) - bx0 (pix bn c r) + 1) * (by1 (pix bn c r) - by0 (pix bn c r) + 1) < 0.
Proof.
  exists (Sgm 0 0 4 2 8 32 1 1 0 0 (Img 0 0 (fun _ _ => nothing))), 2, 2, (Some (Img 1 1 (fun _ _ => Some (5, 0)))).
  eexists. eexists. cbn [ocols orows mnx mxx mny mxy]. do 6 (split; [lia|]). split; [reflexivity|].
  exists 0, 0. split; [split; cbn; lia|]. split; [vm_compute; discriminate|]. split; vm_compute; reflexivity.
Qed.
Print Assumptions prior_outside_range_refuted.

(* In a search along rows only, the box around the boxes of the neighbours counts as
   empty: a pixel without a prior next to one with a prior keeps the whole range, and
   is dropped as soon as memory is short. *)
Theorem row_search_uses_neighbours_refuted : exists g sbx sby p c r,
  0 < ocols g /\ 0 < orows g /\ mnx g < mxx g /\ mny g = mxy g /\
  trusted g (Some p) (c - 1) r <> None /\
  (exists bn, populate g sbx sby (Some p) (fun _ => true) None None = Ok (bn, true) /\
     inside bn c r /\ pix bn (c - 1) r = Box 1 0 3 0 /\ pix bn c r = range g) /\
  (exists bn, populate g sbx sby (Some p) (fun b => negb (same_box (pix b c r) (range g))) None None = Ok (bn, true) /\
     pix bn c r = nothing).
Proof.
  exists (Sgm 0 0 20 0 8 32 4 1 0 0 (Img 0 0 (fun _ _ => nothing))), 1, 1,
    (Img 2 1 (fun i _ => if i =? 0 then Some (1, 0) else None)), 2, 0.
  cbn [ocols orows mnx mxx mny mxy]. do 4 (split; [lia|]). split; [vm_compute; discriminate|].
  split; eexists; (split; [reflexivity|]).
  - split; [split; cbn; lia|]. split; vm_compute; reflexivity.
  - vm_compute. reflexivity.
Qed.
Print Assumptions row_search_uses_neighbours_refuted.

(* size of the result and one of its boxes *)
Definition at_pixels (x : res (img box * bool)) (l : list (Z * Z)) : option (Z * Z * list box) :=
  match x with Ok (bn, true) => Some (icols bn, irows bn, map (fun p => pix bn (fst p) (snd p)) l) | _ => None end.
Lemma at_pixels_ok x l w h v : at_pixels x l = Some (w, h, v) ->
  exists bn, x = Ok (bn, true) /\ icols bn = w /\ irows bn = h /\ map (fun p => pix bn (fst p) (snd p)) l = v.
Proof. destruct x as [[bn [|]]| |]; try discriminate. cbn [at_pixels]. intros E. injection E. eauto. Qed.

(* Matches allowed by both masks are not always searched.  Here only row r of the
   right mask has no valid pixel, so the pixel is dropped although its target in
   another row is valid. *)
Theorem valid_targets_searched_refuted : exists g lm m bn c r d,
  0 < ocols g /\ 0 < orows g /\ mask_fits g (Some lm) (Some m) /\
  populate g 2 2 None (fun _ => true) (Some lm) (Some m) = Ok (bn, true) /\
  inside bn c r /\ 0 < pix lm c r /\ in_box (range g) d /\ inside m (c + fst d) (r + snd d) /\
  0 < pix m (c + fst d) (r + snd d) /\ ~ in_box (pix bn c r) d.
Proof.
  exists (Sgm 0 0 3 3 8 32 4 4 0 0 (Img 0 0 (fun _ _ => nothing))), (Img 4 4 (fun _ _ => 255)),
    (Img 7 7 (fun _ j => if j =? 1 then 0 else 255)).
  match goal with |- context[populate ?a ?b ?c ?d ?e ?f ?h] =>
    edestruct (at_pixels_ok (populate a b c d e f h) [(1, 1)]) as (bn & E & B1 & B2 & B3); [vm_compute; reflexivity|] end.
  exists bn, 1, 1, (1, 1). injection B3 as B3.
  split; [cbn; lia|]. split; [cbn; lia|]. split; [unfold mask_fits; cbn; lia|]. split; [exact E|].
  split; [split; lia|]. split; [cbn; lia|]. split; [unfold in_box, range; cbn; lia|]. split; [split; cbn; lia|].
  split; [cbn; lia|]. cbn in B3. rewrite B3. unfold in_box. cbn. lia.
Qed.
Print Assumptions valid_targets_searched_refuted.

(* With a single valid row the limits are not moved to the pixel: they are taken as
   disparities.  A pixel whose targets are valid is dropped, another one is given
   targets beyond the valid columns. *)
Theorem single_row_limits_refuted : exists g m bn,
  0 < ocols g /\ 0 < orows g /\ mask_fits g None (Some m) /\ irows m = 1 /\
  populate g 2 2 None (fun _ => true) None (Some m) = Ok (bn, true) /\
  (exists c d, inside bn c 0 /\ in_box (range g) d /\ 0 < pix m (c + fst d) 0 /\ ~ in_box (pix bn c 0) d) /\
  (exists c d, inside bn c 0 /\ in_box (pix bn c 0) d /\ forall x, c + fst d <= x -> pix m x 0 <= 0).
Proof.
  exists (Sgm 0 0 3 0 8 32 8 1 0 0 (Img 0 0 (fun _ _ => nothing))), (Img 11 1 (fun i _ => if (2 <=? i) && (i <=? 5) then 255 else 0)).
  match goal with |- context[populate ?a ?b ?c ?d ?e ?f ?h] =>
    edestruct (at_pixels_ok (populate a b c d e f h) [(4, 0); (7, 0)]) as (bn & E & B1 & B2 & B3); [vm_compute; reflexivity|] end.
  exists bn. injection B3 as B3 B4. cbn [fst snd] in B3, B4.
  split; [cbn; lia|]. split; [cbn; lia|]. split; [unfold mask_fits; cbn; lia|]. split; [reflexivity|]. split; [exact E|].
  split.
  - exists 4, (1, 0). split; [split; lia|]. split; [unfold in_box, range; cbn; lia|]. split; [cbn; lia|].
    rewrite B3. unfold in_box. cbn. lia.
  - exists 7, (2, 0). split; [split; lia|]. rewrite B4. split; [unfold in_box; cbn; lia|].
    cbn. intros x Hx. destruct (Z.leb_spec 2 x), (Z.leb_spec x 5); cbn; lia.
Qed.
Print Assumptions single_row_limits_refuted.

(* A pixel without a prior gets a box around those of its neighbours without regard
   to the right mask. *)
Theorem shrunk_boxes_respect_mask_refuted : exists g sbx sby p m bn c r d,
  0 < ocols g /\ 0 < orows g /\ mask_fits g None (Some m) /\ priors_reach g sbx sby (Some p) /\
  populate g sbx sby (Some p) (fun _ => true) None (Some m) = Ok (bn, true) /\
  inside bn c r /\ in_box (pix bn c r) d /\ forall x y, c + fst d <= x -> pix m x y <= 0.
Proof.
  exists (Sgm 0 0 7 7 8 32 4 4 0 0 (Img 0 0 (fun _ _ => nothing))), 1, 1,
    (Img 2 2 (fun i j => if i =? 0 then Some (2, 2) else None)), (Img 11 11 (fun i _ => if i <=? 6 then 255 else 0)).
  match goal with |- context[populate ?a ?b ?c ?d ?e ?f ?h] =>
    edestruct (at_pixels_ok (populate a b c d e f h) [(3, 0)]) as (bn & E & B1 & B2 & B3); [vm_compute; reflexivity|] end.
  exists bn, 3, 0, (5, 2). injection B3 as B3. cbn [fst snd] in B3.
  split; [cbn; lia|]. split; [cbn; lia|]. split; [unfold mask_fits; cbn; lia|]. split.
  { intros c r d. unfold trusted, prior_at. destruct (insideb _ _ _); [|discriminate]. cbn [pix]. destruct (c / 2 =? 0); [|discriminate].
    cbn. intros E'. injection E' as <-. exists (4, 4). unfold in_box, range. cbn. lia. }
  split; [exact E|]. split; [split; lia|]. rewrite B3. split; [unfold in_box; cbn; lia|].
  cbn. intros x y Hx. destruct (Z.leb_spec x 6); lia.
Qed.
Print Assumptions shrunk_boxes_respect_mask_refuted.
