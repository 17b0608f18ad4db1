(** C82: points from the rays of several cameras. *)
From Coq Require Import List Bool ZArith QArith Lia Lqa Qfield.
From Verif Require Import Lib.Base Lib.Img GeoRef.Model GeoRef.Spec GeoRef.Proofs Stereo.Model Stereo.Spec Stereo.Proofs.
Import ListNotations.
Local Open Scope Q_scope.

(** ** Two lines *)

(* The point is half-way between the nearest points of the two lines, and the
   error goes from the one on the second line to the one on the first. *)
Theorem pair_nearest d0 c0 d1 c1 : ~ parallel d0 d1 ->
  exists p e s t, triangulate_pair d0 c0 d1 c1 = Some (p, e) /\
    midpoint p (at_ c0 d0 s) (at_ c1 d1 t) /\ veq e (vsub (at_ c0 d0 s) (at_ c1 d1 t)) /\
    perpendicular e d0 /\ perpendicular e d1 /\
    forall s' t', sq e <= dist2 (at_ c0 d0 s') (at_ c1 d1 t') /\
                  (dist2 (at_ c0 d0 s') (at_ c1 d1 t') == sq e -> s' == s /\ t' == t).
Proof.
  intros N. destruct (pair_spec d0 c0 d1 c1 N) as (p & e & s & t & E & M & (X & Y & Z) & A & B).
  exists p, e, s, t. split; [exact E|]. split; [exact M|]. split; [split; [|split]; assumption|].
  assert (Q : sq e == dist2 (at_ c0 d0 s) (at_ c1 d1 t)) by (unfold dist2, sq; rewrite X, Y, Z; reflexivity).
  split; [unfold perpendicular; rewrite X, Y, Z; exact A|]. split; [unfold perpendicular; rewrite X, Y, Z; exact B|].
  intros s' t'. rewrite (pair_expand _ _ _ _ s t s' t' A B), Q. pose proof (sq_nonneg (vsub (vscale (s' - s) d0) (vscale (t' - t) d1))) as P.
  split; [lra|]. intros H. destruct (independent d0 d1 (s' - s) (t' - t) N) as (J & K); [lra|]. split; lra.
Qed.

(* the two points are those whose difference is perpendicular to both lines *)
Lemma pair_char d0 c0 d1 c1 a b : ~ parallel d0 d1 -> on_line c0 d0 a -> on_line c1 d1 b ->
  perpendicular (vsub a b) d0 -> perpendicular (vsub a b) d1 ->
  exists p e, triangulate_pair d0 c0 d1 c1 = Some (p, e) /\ midpoint p a b /\ veq e (vsub a b).
Proof.
  intros N (s' & A0 & A1 & A2) (t' & B0 & B1 & B2) P Q.
  destruct (pair_spec d0 c0 d1 c1 N) as (p & e & s & t & E & M & X & A & B). exists p, e. split; [exact E|].
  assert (A' : dot (vsub (at_ c0 d0 s') (at_ c1 d1 t')) d0 == 0).
  { unfold perpendicular, vsub in P. unfold dot, vsub. cbn [vx vy vz] in *. rewrite A0, A1, A2, B0, B1, B2 in P. exact P. }
  assert (B' : dot (vsub (at_ c0 d0 s') (at_ c1 d1 t')) d1 == 0).
  { unfold perpendicular, vsub in Q. unfold dot, vsub. cbn [vx vy vz] in *. rewrite A0, A1, A2, B0, B1, B2 in Q. exact Q. }
  pose proof (pair_expand d0 c0 d1 c1 s t s' t' A B) as F. pose proof (pair_expand d0 c0 d1 c1 s' t' s t A' B') as G.
  pose proof (sq_nonneg (vsub (vscale (s' - s) d0) (vscale (t' - t) d1))). pose proof (sq_nonneg (vsub (vscale (s - s') d0) (vscale (t - t') d1))).
  destruct (independent d0 d1 (s' - s) (t' - t) N) as (J & K); [lra|].
  assert (J' : s' == s) by lra. assert (K' : t' == t) by lra.
  unfold midpoint, veq, vsub, at_ in *. cbn [vx vy vz] in *. rewrite J' in A0, A1, A2. rewrite K' in B0, B1, B2.
  rewrite A0, A1, A2, B0, B1, B2. split; [exact M|exact X].
Qed.

(* Lines that meet give the point where they meet, with no error. *)
Theorem pair_meets d0 c0 d1 c1 x : ~ parallel d0 d1 -> on_line c0 d0 x -> on_line c1 d1 x ->
  exists p e, triangulate_pair d0 c0 d1 c1 = Some (p, e) /\ veq p x /\ veq e vzero.
Proof.
  intros N A B. destruct (pair_char d0 c0 d1 c1 x x N A B) as (p & e & E & M & V).
  - unfold perpendicular, vsub. cbn [vx vy vz]. ring.
  - unfold perpendicular, vsub. cbn [vx vy vz]. ring.
  - exists p, e. split; [exact E|]. unfold midpoint, veq, vsub, vzero in *. cbn [vx vy vz] in *. split; (split; [|split]); lra.
Qed.

(* The result depends only on the two lines, whatever the lengths and senses of the
   directions and the starts of the rays. *)
Theorem pair_lines d0 c0 d1 c1 j k s t : ~ parallel d0 d1 -> ~ j == 0 -> ~ k == 0 ->
  exists p e p' e', triangulate_pair d0 c0 d1 c1 = Some (p, e) /\
    triangulate_pair (vscale j d0) (at_ c0 d0 s) (vscale k d1) (at_ c1 d1 t) = Some (p', e') /\ veq p p' /\ veq e e'.
Proof.
  intros N J K. destruct (pair_spec d0 c0 d1 c1 N) as (p & e & a & b & E & M & X & A & B).
  destruct (pair_char (vscale j d0) (at_ c0 d0 s) (vscale k d1) (at_ c1 d1 t) (at_ c0 d0 a) (at_ c1 d1 b)) as (p' & e' & E' & M' & X').
  - intros (u & v & H & G). apply N. exists (u * j), (v * k). split.
    + intros (U & V). apply Qmult_integral in U. apply Qmult_integral in V. tauto.
    + unfold veq, vscale in *. cbn [vx vy vz] in *. destruct G as (G0 & G1 & G2). split; [|split]; lra.
  - exists ((a - s) / j). unfold veq, at_, vscale. cbn [vx vy vz]. split; [|split]; field; exact J.
  - exists ((b - t) / k). unfold veq, at_, vscale. cbn [vx vy vz]. split; [|split]; field; exact K.
  - unfold perpendicular. transitivity (j * dot (vsub (at_ c0 d0 a) (at_ c1 d1 b)) d0); [unfold vscale, dot; cbn [vx vy vz]; ring|rewrite A; ring].
  - unfold perpendicular. transitivity (k * dot (vsub (at_ c0 d0 a) (at_ c1 d1 b)) d1); [unfold vscale, dot; cbn [vx vy vz]; ring|rewrite B; ring].
  - exists p, e, p', e'. split; [exact E|]. split; [exact E'|]. unfold midpoint, veq in *. destruct M as (?&?&?), M' as (?&?&?), X as (?&?&?), X' as (?&?&?).
    split; (split; [|split]); lra.
Qed.

(* With the cameras in the other order, the point is the same and the error opposite. *)
Theorem pair_swap d0 c0 d1 c1 : ~ parallel d0 d1 ->
  exists p e p' e', triangulate_pair d0 c0 d1 c1 = Some (p, e) /\ triangulate_pair d1 c1 d0 c0 = Some (p', e') /\
    veq p p' /\ veq e' (vscale (-1) e).
Proof.
  intros N. destruct (pair_spec d0 c0 d1 c1 N) as (p & e & a & b & E & M & X & A & B).
  destruct (pair_char d1 c1 d0 c0 (at_ c1 d1 b) (at_ c0 d0 a)) as (p' & e' & E' & M' & X').
  - intros (u & v & H & G). apply N. exists v, u. split; [tauto|]. now apply veq_sym.
  - exists b. apply veq_refl.
  - exists a. apply veq_refl.
  - unfold perpendicular. transitivity (- dot (vsub (at_ c0 d0 a) (at_ c1 d1 b)) d1); [unfold vsub, dot; cbn [vx vy vz]; ring|rewrite B; ring].
  - unfold perpendicular. transitivity (- dot (vsub (at_ c0 d0 a) (at_ c1 d1 b)) d0); [unfold vsub, dot; cbn [vx vy vz]; ring|rewrite A; ring].
  - exists p, e, p', e'. split; [exact E|]. split; [exact E'|]. unfold midpoint, veq, vsub, vscale in *. cbn [vx vy vz] in *.
    destruct M as (?&?&?), M' as (?&?&?), X as (?&?&?), X' as (?&?&?). split; (split; [|split]); lra.
Qed.

(* The point is not a number exactly for parallel lines. *)
Theorem pair_not_a_number d0 c0 d1 c1 : triangulate_pair d0 c0 d1 c1 = None <-> parallel d0 d1.
Proof.
  split; [|apply pair_none]. intros E.
  destruct (Qeq_dec (sq (cross d0 d1)) 0) as [Z|Z].
  - apply parallel_cross. apply sq3_zero in Z. exact Z.
  - exfalso. destruct (pair_spec d0 c0 d1 c1) as (p & e & s & t & F & _).
    + intros P. apply Z. apply parallel_cross in P. destruct P as (A & B & C). unfold sq. rewrite A, B, C. reflexivity.
    + congruence.
Qed.

(** ** Several lines *)

(* The point has the least sum of squares of distances to the lines, it is the only
   such point, and the error is made of these distances. *)
Theorem many_least rays : unit_rays rays -> some_cross rays ->
  exists p l, triangulate_many rays = Ok (Some (p, Squares l)) /\ Forall2 (line_dist2 p) rays l /\
    forall x l', Forall2 (line_dist2 x) rays l' -> total l <= total l' /\ (total l' == total l -> veq x p).
Proof.
  intros U X. destruct (many_spec rays U X) as (p & E & G). exists p, (map (ray_square p) rays). split; [exact E|].
  assert (F : Forall2 (line_dist2 p) rays (map (ray_square p) rays)).
  { clear E G X. induction rays as [|r rays IH]; cbn [map]; constructor.
    - apply ray_square_dist. apply U. now left.
    - apply IH. intros r' I. apply U. now right. }
  split; [exact F|]. intros x l' F'.
  rewrite (cost_total p rays _ U F), (cost_total x rays l' U F'), (cost_expand p x rays).
  destruct (proj2 (G p) (veq_refl p)) as (Z0 & Z1 & Z2). cbn [vx vy vz vzero] in Z0, Z1, Z2.
  assert (Z : dot (vsub x p) (vsum (map (fun r => proj p r) rays)) == 0) by (unfold dot; rewrite Z0, Z1, Z2; ring).
  rewrite Z. pose proof (spread_nonneg (vsub x p) rays U) as P. split; [lra|].
  intros Q. assert (S : spread (vsub x p) rays == 0) by lra.
  destruct X as (r & r' & I & I' & N).
  destruct (both_parallel (vsub x p) (fst r) (fst r')) as (A & B & C); [eapply spread_zero; eassumption|eapply spread_zero; eassumption|exact N|].
  unfold vsub in A, B, C. cbn [vx vy vz vzero] in A, B, C. split; [|split]; lra.
Qed.

Lemma meets_square x p r : unit (fst r) -> on_line (snd r) (fst r) x -> veq p x -> ray_square p r == 0.
Proof.
  intros U (s & O) V. rewrite (ray_square_across _ _ U).
  assert (D : dist2 p (at_ (snd r) (fst r) s) == 0).
  { destruct V as (V0 & V1 & V2), O as (O0 & O1 & O2). unfold dist2, sq, vsub. cbn [vx vy vz]. rewrite V0, V1, V2, O0, O1, O2. ring. }
  rewrite (across_line _ _ _ U) in D. pose proof (across_nonneg (vsub p (snd r)) (fst r) U).
  pose proof (sqr_nonneg (s - dot (vsub p (snd r)) (fst r))). lra.
Qed.

(* Lines through one point give this point, with no error. *)
Theorem many_meets rays x : unit_rays rays -> some_cross rays -> (forall r, In r rays -> on_line (snd r) (fst r) x) ->
  exists p l, triangulate_many rays = Ok (Some (p, Squares l)) /\ veq p x /\ length l = length rays /\ forall y, In y l -> y == 0.
Proof.
  intros U X O. destruct (many_spec rays U X) as (p & E & G). exists p, (map (ray_square p) rays). split; [exact E|].
  assert (V : veq p x).
  { apply veq_sym. apply G. clear E G X. induction rays as [|r rays IH]; cbn [map vsum]; [apply veq_refl|].
    assert (P : veq (proj x r) vzero).
    { destruct (O r (or_introl eq_refl)) as (s & O0 & O1 & O2). pose proof (U r (or_introl eq_refl)) as Ur. unfold unit, sq in Ur.
      unfold proj, dot, vsub, vscale, at_ in *. cbn [vx vy vz] in *.
      assert (T : (vx x - vx (snd r)) * vx (fst r) + (vy x - vy (snd r)) * vy (fst r) + (vz x - vz (snd r)) * vz (fst r) == s).
      { rewrite O0, O1, O2. transitivity (s * (vx (fst r) * vx (fst r) + vy (fst r) * vy (fst r) + vz (fst r) * vz (fst r))); [ring|rewrite Ur; ring]. }
      split; [|split]; cbn [vx vy vz vzero]; rewrite T; [rewrite O0|rewrite O1|rewrite O2]; ring. }
    destruct P as (P0 & P1 & P2). destruct IH as (I0 & I1 & I2); [intros r' I; apply U; now right|intros r' I; apply O; now right|].
    unfold vadd. split; [|split]; cbn [vx vy vz vzero] in *; lra. }
  split; [exact V|]. split; [apply map_length|]. intros y I. apply in_map_iff in I. destruct I as (r & <- & I).
  apply (meets_square x p r); auto.
Qed.

Lemma proj_at x d c s : dot (vsub x c) d == s -> veq (proj x (d, c)) (vsub x (at_ c d s)).
Proof.
  intros E. unfold proj. cbn [fst snd]. generalize dependent (dot (vsub x c) d). intros k E. unfold veq, vsub, vscale, at_. cbn [vx vy vz]. rewrite E. split; [|split]; ring.
Qed.

(* For two rays, both computations give the same point, and twice the mean distance is
   the length of the error vector: each distance is half of it. *)
Theorem many_two d0 c0 d1 c1 : unit d0 -> unit d1 -> ~ parallel d0 d1 ->
  exists p e p' x y, triangulate_pair d0 c0 d1 c1 = Some (p, e) /\
    triangulate_many [(d0, c0); (d1, c1)] = Ok (Some (p', Squares [x; y])) /\ veq p p' /\ 4 * x == sq e /\ 4 * y == sq e.
Proof.
  intros U0 U1 N. assert (Q0 : sq d0 == 1) by exact U0. assert (Q1 : sq d1 == 1) by exact U1. destruct (pair_spec d0 c0 d1 c1 N) as (p & e & s & t & E & M & X & A & B).
  assert (U : unit_rays [(d0, c0); (d1, c1)]) by (intros r [<-|[<-|[]]]; assumption).
  assert (C : some_cross [(d0, c0); (d1, c1)]) by (exists (d0, c0), (d1, c1); cbn [In fst]; auto).
  destruct (many_spec _ U C) as (p' & F & G).
  set (a := at_ c0 d0 s) in *. set (b := at_ c1 d1 t) in *.
  assert (T0 : forall h, vx h == - (1#2) * vx e /\ vy h == - (1#2) * vy e /\ vz h == - (1#2) * vz e -> dot h d0 == 0 /\ dot h d1 == 0).
  { intros h (H0 & H1 & H2). destruct X as (X0 & X1 & X2). unfold dot in *. rewrite H0, H1, H2, X0, X1, X2. split; lra. }
  assert (VP : veq p p').
  { apply G. cbn [map vsum].
    assert (P0 : veq (proj p (d0, c0)) (vscale (- (1#2)) e)).
    { destruct (T0 (vscale (- (1#2)) e)) as (H & _); [unfold vscale; cbn [vx vy vz]; repeat split; reflexivity|].
      assert (S : dot (vsub p c0) d0 == s).
      { transitivity (dot (vscale (- (1#2)) e) d0 + s * sq d0); [|rewrite H, Q0; ring].
        destruct M as (M0 & M1 & M2), X as (X0 & X1 & X2). unfold a, b, dot, vsub, vscale, sq, at_ in *. cbn [vx vy vz] in *.
        assert (Y0 : vx p == vx c0 + s * vx d0 - (1#2) * vx e) by lra. assert (Y1 : vy p == vy c0 + s * vy d0 - (1#2) * vy e) by lra. assert (Y2 : vz p == vz c0 + s * vz d0 - (1#2) * vz e) by lra.
        rewrite Y0, Y1, Y2. ring. }
      eapply veq_trans; [exact (proj_at _ _ _ _ S)|]. destruct M as (M0 & M1 & M2), X as (X0 & X1 & X2). unfold veq, a, b, vsub, vscale, at_ in *. cbn [vx vy vz] in *. split; [|split]; lra. }
    assert (P1 : veq (proj p (d1, c1)) (vscale (1#2) e)).
    { destruct (T0 (vscale (- (1#2)) e)) as (_ & H); [unfold vscale; cbn [vx vy vz]; repeat split; reflexivity|].
      assert (S : dot (vsub p c1) d1 == t).
      { transitivity (- dot (vscale (- (1#2)) e) d1 + t * sq d1); [|rewrite H, Q1; ring].
        destruct M as (M0 & M1 & M2), X as (X0 & X1 & X2). unfold a, b, dot, vsub, vscale, sq, at_ in *. cbn [vx vy vz] in *.
        assert (Y0 : vx p == vx c1 + t * vx d1 + (1#2) * vx e) by lra. assert (Y1 : vy p == vy c1 + t * vy d1 + (1#2) * vy e) by lra. assert (Y2 : vz p == vz c1 + t * vz d1 + (1#2) * vz e) by lra.
        rewrite Y0, Y1, Y2. ring. }
      eapply veq_trans; [exact (proj_at _ _ _ _ S)|]. destruct M as (M0 & M1 & M2), X as (X0 & X1 & X2). unfold veq, a, b, vsub, vscale, at_ in *. cbn [vx vy vz] in *. split; [|split]; lra. }
    destruct P0 as (P00 & P01 & P02), P1 as (P10 & P11 & P12). unfold veq, vadd, vzero, vscale in *. cbn [vx vy vz] in *. split; [|split]; lra. }
  exists p, e, p', (ray_square p' (d0, c0)), (ray_square p' (d1, c1)). split; [exact E|]. split; [exact F|]. split; [exact VP|].
  assert (L0 : ray_square p' (d0, c0) == (1#4) * sq e).
  { rewrite (ray_square_across _ (d0, c0) U0). 
    pose proof (across_line p' (d0, c0) s U0) as L. cbn [fst snd] in L. fold a in L.
    assert (D : dist2 p' a == (1#4) * sq e).
    { destruct VP as (V0 & V1 & V2), M as (M0 & M1 & M2), X as (X0 & X1 & X2). unfold dist2, sq, vsub in *. cbn [vx vy vz] in *.
      assert (Y0 : vx p' - vx a == - (1#2) * vx e) by lra. assert (Y1 : vy p' - vy a == - (1#2) * vy e) by lra. assert (Y2 : vz p' - vz a == - (1#2) * vz e) by lra. rewrite Y0, Y1, Y2. ring. }
    assert (S : dot (vsub p' c0) d0 == s).
    { destruct (T0 (vsub p' a)) as (H & _).
      { destruct VP as (V0 & V1 & V2), M as (M0 & M1 & M2), X as (X0 & X1 & X2). unfold vsub in *. cbn [vx vy vz] in *. split; [|split]; lra. }
      transitivity (dot (vsub p' a) d0 + s * sq d0); [unfold a, dot, vsub, sq, at_; cbn [vx vy vz]; ring|rewrite H, Q0; ring]. }
    cbn [fst snd]. rewrite S, D in L. lra. }
  assert (L1 : ray_square p' (d1, c1) == (1#4) * sq e).
  { rewrite (ray_square_across _ (d1, c1) U1). 
    pose proof (across_line p' (d1, c1) t U1) as L. cbn [fst snd] in L. fold b in L.
    assert (D : dist2 p' b == (1#4) * sq e).
    { destruct VP as (V0 & V1 & V2), M as (M0 & M1 & M2), X as (X0 & X1 & X2). unfold dist2, sq, vsub in *. cbn [vx vy vz] in *.
      assert (Y0 : vx p' - vx b == (1#2) * vx e) by lra. assert (Y1 : vy p' - vy b == (1#2) * vy e) by lra. assert (Y2 : vz p' - vz b == (1#2) * vz e) by lra. rewrite Y0, Y1, Y2. ring. }
    assert (S : dot (vsub p' c1) d1 == t).
    { destruct (T0 (vscale (-1) (vsub p' b))) as (_ & H).
      { destruct VP as (V0 & V1 & V2), M as (M0 & M1 & M2), X as (X0 & X1 & X2). unfold vscale, vsub in *. cbn [vx vy vz] in *. split; [|split]; lra. }
      transitivity (- dot (vscale (-1) (vsub p' b)) d1 + t * sq d1); [unfold b, dot, vsub, vscale, sq, at_; cbn [vx vy vz]; ring|rewrite H, Q1; ring]. }
    cbn [fst snd]. rewrite S, D in L. lra. }
  split; lra.
Qed.

(* Lines all parallel have no such point: the inversion fails. *)
Theorem many_parallel rays : unit_rays rays -> (forall r r', In r rays -> In r' rays -> parallel (fst r) (fst r')) ->
  triangulate_many rays = Throw OtherErr.
Proof.
  intros U P. 
  assert (D : det3 (fst (ray_sums rays)) == 0).
  { destruct (Qeq_dec (det3 (fst (ray_sums rays))) 0) as [Z|Z]; [exact Z|exfalso].
    destruct (inverse3_regular _ Z) as (n & _ & _ & R).
    assert (H : exists h, ~ veq h vzero /\ forall r, In r rays -> veq (cross h (fst r)) vzero).
    { destruct rays as [|r0 rays]; [exists (V3 1 0 0); split; [intros (H & _); discriminate|intros r []]|].
      exists (fst r0). split.
      - intros (A & B & C). pose proof (U r0 (or_introl eq_refl)) as Ur. unfold unit, sq in Ur. rewrite A, B, C in Ur. discriminate.
      - intros r I. apply parallel_cross. apply P; [now left|exact I]. }
    destruct H as (h & N & H). apply N.
    assert (K : veq (mulv (fst (ray_sums rays)) h) vzero).
    { pose proof (ray_sums_grad rays h) as (A0 & A1 & A2). pose proof (ray_sums_grad rays vzero) as (B0 & B1 & B2).
      assert (S : veq (vsum (map (fun r => proj h r) rays)) (vsum (map (fun r => proj vzero r) rays))).
      { clear - U H. induction rays as [|r rays IH]; cbn [map vsum]; [apply veq_refl|].
        destruct IH as (I0 & I1 & I2); [intros r' I; apply U; now right|intros r' I; apply H; now right|].
        assert (Q : veq (proj h r) (proj vzero r)).
        { destruct (H r (or_introl eq_refl)) as (C0 & C1 & C2). pose proof (U r (or_introl eq_refl)) as Ur. destruct r as [[a b c] [x y z]], h as [p q w].
          unfold unit, sq, cross, vzero, proj, dot, vsub, vscale, veq in *. cbn [fst snd vx vy vz] in *.
          assert (X : p == (p * a + q * b + w * c) * a).
          { transitivity (p * (a * a + b * b + c * c)); [rewrite Ur; ring|]. transitivity ((p * a + q * b + w * c) * a - c * (w * a - p * c) + b * (p * b - q * a)); [ring|rewrite C1, C2; ring]. }
          assert (Y : q == (p * a + q * b + w * c) * b).
          { transitivity (q * (a * a + b * b + c * c)); [rewrite Ur; ring|]. transitivity ((p * a + q * b + w * c) * b - a * (p * b - q * a) + c * (q * c - w * b)); [ring|rewrite C0, C2; ring]. }
          assert (Z : w == (p * a + q * b + w * c) * c).
          { transitivity (w * (a * a + b * b + c * c)); [rewrite Ur; ring|]. transitivity ((p * a + q * b + w * c) * c - b * (q * c - w * b) + a * (w * a - p * c)); [ring|rewrite C0, C1; ring]. }
          split; [|split]; lra. }
        destruct Q as (Q0 & Q1 & Q2). unfold vadd. split; [|split]; cbn [vx vy vz]; lra. }
      destruct S as (S0 & S1 & S2). unfold veq, vsub, mulv, vzero in *. cbn [vx vy vz] in *. split; [|split]; lra. }
    eapply veq_trans; [apply veq_sym, (inverse_mulv _ n h R)|]. eapply veq_trans; [apply mulv_veq; exact K|].
    unfold mulv, vzero. split; [|split]; cbn [vx vy vz]; ring. }
  unfold triangulate_many. destruct (ray_sums rays) as [m v]. cbn [fst] in D. now rewrite (inverse3_singular m D).
Qed.

(** ** The test of directions *)

(* Directions are taken as nearly parallel unless two neighbours differ by the
   tolerance, by default 1/10000, in one minus their product. *)
Theorem nearly_parallel_iff tol dirs :
  are_nearly_parallel tol dirs = false <->
  exists d e, neighbours d e dirs /\ (if Qlt_le_dec 0 tol then tol else 1 # 10000) <= 1 - (vx d * vx e + vy d * vy e + vz d * vz e).
Proof.
  unfold are_nearly_parallel. replace (if Qlt_le_dec 0 tol then tol else 1 # 10000) with (tolerance tol).
  2:{ unfold tolerance. destruct (ltq_spec 0 tol), (Qlt_le_dec 0 tol); auto; lra. }
  generalize (tolerance tol) as k. clear tol. intros k. induction dirs as [|d [|e r] IH].
  - cbn [all_close]. split; [discriminate|]. intros (d & e & (l1 & l2 & E) & _). destruct l1; discriminate.
  - cbn [all_close]. split; [discriminate|]. intros (a & b & (l1 & l2 & E) & _). destruct l1 as [|? [|]]; discriminate.
  - change (all_close k (d :: e :: r)) with ((if Qle_bool k (1 - dot d e) then false else true) && all_close k (e :: r)).
    destruct (leq_spec k (1 - dot d e)) as [L|L]; cbn [andb].
    + split; [|auto]. intros _. exists d, e. split; [exists [], r; reflexivity|exact L].
    + rewrite IH. split.
      * intros (a & b & (l1 & l2 & E) & Q). exists a, b. split; [|exact Q]. exists (d :: l1), l2. rewrite E. reflexivity.
      * intros (a & b & (l1 & l2 & E) & Q). exists a, b. split; [|exact Q]. destruct l1 as [|f l1].
        -- injection E as -> -> _. contradiction.
        -- injection E as -> E. exists l1, l2. exact E.
Qed.

(** ** Pixels *)

Lemma neighbours_two {A} (a b x y : A) : neighbours a b [x; y] -> a = x /\ b = y.
Proof.
  intros (l1 & l2 & E). destruct l1 as [|z l1].
  - cbn [app] in E. injection E as -> -> _. auto.
  - apply (f_equal (@length A)) in E. rewrite app_length in E. cbn [length] in E. lia.
Qed.
Lemma valid_sees cams pixels rays : sees cams pixels rays -> valid_rays cams pixels = Some (Ok rays) /\ length pixels = length cams.
Proof.
  intros S. induction S as [|c cs p ps l U S (IH & L)|c cs q ps l d o U T C S (IH & L)]; cbn [valid_rays length]; [auto| |].
  - rewrite U, IH, L. auto.
  - rewrite U, T, C, IH, L. auto.
Qed.

(* A pixel is used unless a coordinate is not a number or both are the mark for no pixel, minus a hundred million. *)
Theorem usable_iff p : usable p = true <-> exists x y, p = Some (x, y) /\ ~ (x == inject_Z (-100000000) /\ y == inject_Z (-100000000)).
Proof.
  destruct p as [(x, y)|]; cbn [usable fst snd invalid_pixel].
  - rewrite negb_true_iff, andb_false_iff. split.
    + intros H. exists x, y. split; [reflexivity|]. intros (X & Y). apply Qeq_bool_iff in X, Y. destruct H; congruence.
    + intros (x' & y' & E & N). injection E as <- <-. destruct (Qeq_bool x _) eqn:X; [|now left].
      destruct (Qeq_bool y _) eqn:Y; [|now right]. apply Qeq_bool_iff in X, Y. tauto.
  - split; [discriminate|]. intros (x & y & E & _). discriminate.
Qed.
Example usable_met : usable (Some (inject_Z (-100000000), 0)) = true /\ usable (Some invalid_pixel) = false.
Proof. split; vm_compute; reflexivity. Qed.

(* The numbers of pixels and of cameras must agree. *)
Theorem triangulate_sizes cams tol pixels : length pixels <> length cams -> triangulate cams tol pixels = Throw ArgumentErr.
Proof. intros N. unfold triangulate. destruct (Nat.eqb_spec (length pixels) (length cams)); [contradiction|reflexivity]. Qed.

(* Fewer than two usable pixels, or directions nearly parallel, give the origin. *)
Theorem triangulate_no_point cams tol pixels rays : sees cams pixels rays ->
  (length rays < 2)%nat \/ are_nearly_parallel tol (map fst rays) = true ->
  triangulate cams tol pixels = Ok (Some (vzero, Between vzero)).
Proof.
  intros S H. destruct (valid_sees _ _ _ S) as (E & L). unfold triangulate. rewrite L, Nat.eqb_refl. cbn [negb]. rewrite E. cbn [bind].
  destruct (Nat.ltb_spec (length rays) 2) as [Lt|Ge]; [reflexivity|]. destruct H as [H|H]; [lia|]. now rewrite H.
Qed.

(* A camera that has no ray for its pixel gives the origin, whatever comes after it. *)
Theorem triangulate_no_ray cams1 (pixels1 : list pixel) rays c cams2 q (pixels2 : list pixel) tol : sees cams1 pixels1 rays ->
  usable (Some q) = true -> (to_vector c q = None \/ exists d, to_vector c q = Some (Ok d) /\ center_at c q = None) -> length pixels2 = length cams2 ->
  triangulate (cams1 ++ c :: cams2) tol (pixels1 ++ Some q :: pixels2) = Ok (Some (vzero, Between vzero)).
Proof.
  intros S U H L2. destruct (valid_sees _ _ _ S) as (_ & L1). unfold triangulate. rewrite !app_length. cbn [length]. rewrite L1, L2, Nat.eqb_refl. cbn [negb].
  assert (E : valid_rays (cams1 ++ c :: cams2) (pixels1 ++ Some q :: pixels2) = None).
  { clear L1. induction S as [|c' cs p ps l U' S IH|c' cs q' ps l d o U' T C S IH]; cbn [app valid_rays].
    - rewrite U. destruct H as [H|(d & H & H')]; rewrite H; [reflexivity|]. now rewrite H'.
    - now rewrite U'.
    - rewrite U', T, C, IH. reflexivity. }
  now rewrite E.
Qed.

(* Rays that meet in front of the cameras give the point where they meet, with no
   error, provided two neighbouring rays pass the test and are not opposite. *)
Theorem triangulate_meets cams tol pixels rays x r r' : sees cams pixels rays -> unit_rays rays ->
  (forall r, In r rays -> on_line (snd r) (fst r) x /\ in_front x r) ->
  neighbours r r' rays -> ~ parallel (fst r) (fst r') ->
  (if Qlt_le_dec 0 tol then tol else 1 # 10000) <= 1 - (vx (fst r) * vx (fst r') + vy (fst r) * vy (fst r') + vz (fst r) * vz (fst r')) ->
  exists p e, triangulate cams tol pixels = Ok (Some (p, e)) /\ veq p x /\ null_error e.
Proof.
  intros S U H (l1 & l2 & E) N T. destruct (valid_sees _ _ _ S) as (V & L).
  assert (I : In r rays) by (rewrite E; apply in_or_app; right; now left).
  assert (I' : In r' rays) by (rewrite E; apply in_or_app; right; right; now left).
  assert (B2 : (length rays <? 2)%nat = false) by (apply Nat.ltb_ge; rewrite E, app_length; cbn [length]; lia).
  assert (NP : are_nearly_parallel tol (map fst rays) = false).
  { apply nearly_parallel_iff. exists (fst r), (fst r'). split; [|exact T]. exists (map fst l1), (map fst l2). rewrite E, map_app. reflexivity. }
  assert (X : some_cross rays) by (exists r, r'; auto).
  assert (P : exists p e, triangulate_point rays = Ok (Some (p, e)) /\ veq p x /\ null_error e).
  { destruct (many_meets rays x U X (fun r I => proj1 (H r I))) as (p & l & M & Vp & _ & Z).
    destruct rays as [|[d0 c0] [|[d1 c1] [|z rs]]]; try (exists p, (Squares l); auto; fail).
    cbn [triangulate_point].
    assert (N01 : ~ parallel d0 d1).
    { assert (r = (d0, c0) /\ r' = (d1, c1)) as [-> ->].
      { apply neighbours_two. exists l1, l2. exact E. }
      exact N. }
    destruct (pair_meets d0 c0 d1 c1 x N01) as (p' & e & F & Vp' & Z').
    - exact (proj1 (H (d0, c0) (or_introl eq_refl))).
    - exact (proj1 (H (d1, c1) (or_intror (or_introl eq_refl)))).
    - rewrite F. exists p', (Between e). auto. }
  destruct P as (p & e & P & Vp & Z). exists p, e. split; [|auto].
  unfold triangulate. rewrite L, Nat.eqb_refl. cbn [negb]. rewrite V. cbn [bind]. rewrite B2, NP, P. cbn [bind].
  unfold reflected. replace (existsb (behind p) rays) with false; [reflexivity|]. symmetry. apply not_true_iff_false. intros Q. apply existsb_exists in Q.
  destruct Q as (q & Iq & Q). unfold behind in Q. destruct (ltq_spec (dot (vsub p (snd q)) (fst q)) 0) as [Lt|]; [|discriminate].
  destruct (H q Iq) as (_ & F). unfold in_front in F. destruct Vp as (V0 & V1 & V2). unfold dot, vsub in *. cbn [vx vy vz] in *. rewrite V0, V1, V2 in Lt. lra.
Qed.

(* In general the point is that of the rays if it lies in front of all of them, and
   otherwise its reflection in the centre of the first camera used. *)
Theorem triangulate_reflects cams tol pixels r0 rays q e : sees cams pixels (r0 :: rays) -> rays <> [] ->
  are_nearly_parallel tol (map fst (r0 :: rays)) = false -> triangulate_point (r0 :: rays) = Ok (Some (q, e)) ->
  exists p, triangulate cams tol pixels = Ok (Some (p, e)) /\
    ((forall r, In r (r0 :: rays) -> in_front q r) -> p = q) /\
    ((exists r, In r (r0 :: rays) /\ ~ in_front q r) -> midpoint (snd r0) p q).
Proof.
  intros S NE NP T. destruct (valid_sees _ _ _ S) as (V & L). exists (reflected (r0 :: rays) q).
  split; [|split].
  - unfold triangulate. rewrite L, Nat.eqb_refl. cbn [negb]. rewrite V. cbn [bind].
    replace (length (r0 :: rays) <? 2)%nat with false by (symmetry; apply Nat.ltb_ge; destruct rays; [contradiction|cbn [length]; lia]).
    rewrite NP, T. reflexivity.
  - intros F. unfold reflected. replace (existsb (behind q) (r0 :: rays)) with false; [reflexivity|].
    symmetry. apply not_true_iff_false. intros Q. apply existsb_exists in Q. destruct Q as (r & I & Q). unfold behind in Q.
    destruct (ltq_spec (dot (vsub q (snd r)) (fst r)) 0); [|discriminate]. specialize (F r I). unfold in_front in F. lra.
  - intros (r & I & F). unfold reflected. replace (existsb (behind q) (r0 :: rays)) with true.
    + unfold midpoint, vadd, vscale. cbn [vx vy vz]. split; [|split]; ring.
    + symmetry. apply existsb_exists. exists r. split; [exact I|]. unfold behind. unfold in_front in F.
      destruct (ltq_spec (dot (vsub q (snd r)) (fst r)) 0); [reflexivity|]. lra.
Qed.

(* Three rays or more that pass the test at neighbours that are not opposite always
   give a point; so do two. *)
Theorem triangulate_gives cams tol pixels rays r r' : sees cams pixels rays -> unit_rays rays ->
  neighbours r r' rays -> ~ parallel (fst r) (fst r') -> exists p e, triangulate cams tol pixels = Ok (Some (p, e)).
Proof.
  intros S U (l1 & l2 & E) N. destruct (valid_sees _ _ _ S) as (V & L).
  assert (I : In r rays) by (rewrite E; apply in_or_app; right; now left).
  assert (I' : In r' rays) by (rewrite E; apply in_or_app; right; right; now left).
  assert (P : exists q e, triangulate_point rays = Ok (Some (q, e))).
  { destruct (many_least rays U) as (p & l & M & _); [exists r, r'; auto|].
    destruct rays as [|[d0 c0] [|[d1 c1] [|z rs]]]; try (exists p, (Squares l); exact M; fail).
    cbn [triangulate_point]. 
    assert (N01 : ~ parallel d0 d1).
    { assert (r = (d0, c0) /\ r' = (d1, c1)) as [-> ->].
      { apply neighbours_two. exists l1, l2. exact E. }
      exact N. }
    destruct (pair_spec d0 c0 d1 c1 N01) as (p' & e & s & t & F & _). rewrite F. eauto. }
  destruct P as (q & e & P). unfold triangulate. rewrite L, Nat.eqb_refl. cbn [negb]. rewrite V. cbn [bind].
  destruct (length rays <? 2)%nat; [eauto|]. destruct (are_nearly_parallel tol (map fst rays)); [eauto|]. rewrite P. cbn [bind]. eauto.
Qed.

Definition fixed (d c : vec) : camera := Cam (fun _ => Some (Ok d)) (fun _ => Some (Ok c)).

(* A point that passes is not always in front of the cameras: the reflection is in
   the centre of the first camera alone, and can fall behind the other.  Here the rays
   leave (0,0,0) along x and (1,1,0) along (3/5,4/5,0); the lines meet at (1/4,0,0), in
   front of the first camera and behind the second.  The result is (-1/4,0,0), behind
   the first. *)
Theorem triangulate_in_front_refuted :
  ~ (forall cams tol pixels rays p e, sees cams pixels rays -> unit_rays rays -> triangulate cams tol pixels = Ok (Some (p, e)) ->
      are_nearly_parallel tol (map fst rays) = false -> (2 <= length rays)%nat -> forall r, In r rays -> in_front p r).
Proof.
  intros H.
  specialize (H [fixed (V3 1 0 0) (V3 0 0 0); fixed (V3 (3#5) (4#5) 0) (V3 1 1 0)] 0 [Some (0, 0); Some (0, 0)]
    [(V3 1 0 0, V3 0 0 0); (V3 (3#5) (4#5) 0, V3 1 1 0)]).
  remember (triangulate [fixed (V3 1 0 0) (V3 0 0 0); fixed (V3 (3#5) (4#5) 0) (V3 1 1 0)] 0 [Some (0, 0); Some (0, 0)]) as t eqn:T.
  vm_compute in T.
  match type of T with t = Ok (Some (?p, ?e)) => specialize (H p e) end.
  assert (F := H ltac:(apply Sees_ray; [reflexivity|reflexivity|reflexivity|apply Sees_ray; [reflexivity|reflexivity|reflexivity|constructor]])
    ltac:(intros r [<-|[<-|[]]]; vm_compute; reflexivity) T ltac:(vm_compute; reflexivity) ltac:(cbn; lia) _ (or_introl eq_refl)).
  vm_compute in F. apply F. reflexivity.
Qed.

(* Opposite directions pass the test of parallel directions: the result of two such
   rays is not a number. *)
Theorem opposite_rays_refuted :
  ~ (forall cams tol pixels rays, sees cams pixels rays -> unit_rays rays -> exists p e, triangulate cams tol pixels = Ok (Some (p, e))).
Proof.
  intros H.
  destruct (H [fixed (V3 1 0 0) (V3 0 0 0); fixed (V3 (-1) 0 0) (V3 1 0 0)] 0 [Some (0, 0); Some (0, 0)]
    [(V3 1 0 0, V3 0 0 0); (V3 (-1) 0 0, V3 1 0 0)]) as (p & e & E).
  - apply Sees_ray; [reflexivity|reflexivity|reflexivity|]. apply Sees_ray; [reflexivity|reflexivity|reflexivity|constructor].
  - intros r [<-|[<-|[]]]; vm_compute; reflexivity.
  - vm_compute in E. discriminate.
Qed.

(** ** Maps of disparities *)

(* Every pixel with a disparity holds the point of the pixel and its match; one
   without holds the origin; a point that is not a number is replaced by the origin
   and counted. *)
Theorem disparity_point_shows cams tol x y :
  disparity_point cams tol None x y = Ok ((vzero, Between vzero), false) /\
  (forall dx dy p e, triangulate cams tol [Some (inject_Z x, inject_Z y); Some (inject_Z x + dx, inject_Z y + dy)] = Ok (Some (p, e)) ->
     disparity_point cams tol (Some (dx, dy)) x y = Ok ((p, e), false)) /\
  (forall dx dy, triangulate cams tol [Some (inject_Z x, inject_Z y); Some (inject_Z x + dx, inject_Z y + dy)] = Ok None ->
     disparity_point cams tol (Some (dx, dy)) x y = Ok ((vzero, Between vzero), true)).
Proof.
  split; [reflexivity|]. split.
  - intros dx dy p e E. cbn [disparity_point]. rewrite E. reflexivity.
  - intros dx dy E. cbn [disparity_point]. rewrite E. reflexivity.
Qed.

Definition count (f : Z -> Z -> bool) (w : Z) (y : Z) : Z := Z.of_nat (length (filter (fun x => f x y) (zrange 0 w))).
Fixpoint ztotal (l : list Z) : Z := match l with [] => 0 | x :: r => x + ztotal r end%Z.
Lemma ztotal_app a b : ztotal (a ++ b) = (ztotal a + ztotal b)%Z.
Proof. induction a as [|x a IH]; cbn [app ztotal]; [reflexivity|]. rewrite IH. lia. Qed.

Lemma zrange_snoc a b : (a <= b)%Z -> zrange a (b + 1) = zrange a b ++ [b].
Proof. intros L. rewrite (zrange_app a b (b + 1)) by lia. rewrite (zrange_cons b), (zrange_nil (b + 1)) by lia. reflexivity. Qed.

Theorem disparity_cloud_shows cams tol m f : (0 <= icols m)%Z -> (0 <= irows m)%Z ->
  (forall x y, (0 <= x < icols m)%Z -> (0 <= y < irows m)%Z -> disparity_point cams tol (pix m x y) x y = Ok (f x y)) ->
  exists im n, disparity_cloud cams tol m = Ok (im, n) /\ icols im = icols m /\ irows im = irows m /\
    (forall x y, (0 <= x < icols m)%Z -> (0 <= y < irows m)%Z -> pix im x y = fst (f x y)) /\
    n = ztotal (map (count (fun x y => snd (f x y)) (icols m)) (zrange 0 (irows m))).
Proof.
  intros W H F. unfold disparity_cloud.
  destruct (for_up_inv (fun y s => icols (fst s) = icols m /\ irows (fst s) = irows m /\
    (forall x v, (0 <= x < icols m)%Z -> (0 <= v < y)%Z -> pix (fst s) x v = fst (f x v)) /\
    snd s = ztotal (map (count (fun x y => snd (f x y)) (icols m)) (zrange 0 y)))
    (fun y s => for_up 0 (icols m) (fun x s => let '(im, n) := s in d <- get m x y ;; r <- disparity_point cams tol d x y ;;
      im' <- put im x y (fst r) ;; Ok (im', if snd r then n + 1 else n)%Z) s) 0%Z (irows m)
    (Img (icols m) (irows m) (fun _ _ => (vzero, Between vzero)), 0%Z)) as ((im & n) & E & A & B & C & D).
  - exact H.
  - cbn [fst snd icols irows]. split; [reflexivity|split; [reflexivity|split; [intros; lia|reflexivity]]].
  - intros y (im0 & n0) Y (A & B & C & D). cbn [fst snd] in *.
    destruct (for_up_inv (fun x s => icols (fst s) = icols m /\ irows (fst s) = irows m /\
      (forall u v, (0 <= u < icols m)%Z -> (0 <= v < y)%Z -> pix (fst s) u v = fst (f u v)) /\
      (forall u, (0 <= u < x)%Z -> pix (fst s) u y = fst (f u y)) /\
      snd s = (n0 + count (fun x y => snd (f x y)) x y)%Z)
      (fun x s => let '(im, n) := s in d <- get m x y ;; r <- disparity_point cams tol d x y ;;
      im' <- put im x y (fst r) ;; Ok (im', if snd r then n + 1 else n)%Z) 0%Z (icols m) (im0, n0)) as ((im & n) & E & A' & B' & C' & D' & N').
    + exact W.
    + cbn [fst snd]. repeat (split; [assumption|]). split; [intros; lia|]. unfold count. cbn. lia.
    + intros x (im1 & n1) X (A1 & B1 & C1 & D1 & N1). cbn [fst snd] in *.
      rewrite (get_in m x y) by (split; lia). cbn [bind]. rewrite (F x y X Y). cbn [bind].
      destruct (put_in im1 x y (fst (f x y))) as (im2 & P & P1 & P2 & P3 & P4); [split; lia|]. rewrite P. cbn [bind].
      eexists. split; [reflexivity|]. cbn [fst snd]. rewrite P1, P2. split; [exact A1|]. split; [exact B1|].
      split; [intros u v U V; rewrite P4 by lia; now apply C1|]. split.
      * intros u U. destruct (Z.eq_dec u x) as [->|Ne]; [exact P3|]. rewrite P4 by lia. apply D1. lia.
      * unfold count. rewrite (zrange_snoc 0 x) by lia. rewrite filter_app, app_length, Nat2Z.inj_add. cbn [filter]. fold (count (fun x y => snd (f x y)) x y).
        destruct (snd (f x y)); cbn [length]; lia.
    + cbn [fst snd] in *. exists (im, n). split; [exact E|]. cbn [fst snd]. split; [exact A'|]. split; [exact B'|]. split.
      * intros x v X V. destruct (Z.eq_dec v y) as [->|Ne]; [apply D'; exact X|apply C'; lia].
      * rewrite (zrange_snoc 0 y) by lia. rewrite map_app, ztotal_app. cbn [map ztotal]. lia.
  - cbn [fst snd] in *. exists im, n. auto.
Qed.

(** ** Cases *)

Example pair_met : let d0 := V3 1 0 0 in let d1 := V3 0 1 0 in ~ parallel d0 d1 /\
  exists p e, triangulate_pair d0 (V3 0 0 0) d1 (V3 3 5 2) = Some (p, e) /\ veq p (V3 3 0 1) /\ veq e (V3 0 0 (-2)).
Proof.
  split; [intros P; apply parallel_cross in P; destruct P as (_ & _ & P); vm_compute in P; discriminate|].
  eexists _, _. split; [vm_compute; reflexivity|]. split; repeat split; vm_compute; reflexivity.
Qed.
Example many_met : let rays := [(V3 1 0 0, V3 0 1 0); (V3 0 1 0, V3 2 0 0); (V3 0 (3#5) (4#5), V3 2 1 0)] in
  unit_rays rays /\ some_cross rays /\ (forall r, In r rays -> on_line (snd r) (fst r) (V3 2 1 0)).
Proof.
  split; [|split].
  - intros r [<-|[<-|[<-|[]]]]; vm_compute; reflexivity.
  - exists (V3 1 0 0, V3 0 1 0), (V3 0 1 0, V3 2 0 0). split; [now left|]. split; [right; now left|].
    intros P. apply parallel_cross in P. destruct P as (_ & _ & P). vm_compute in P. discriminate.
  - intros r [<-|[<-|[<-|[]]]]; [exists 2|exists 1|exists 0]; repeat split; vm_compute; reflexivity.
Qed.
Example triangulate_met : let c := [fixed (V3 1 0 0) (V3 0 1 0); fixed (V3 0 1 0) (V3 2 0 0)] in
  exists p e, triangulate c 0 [Some (0, 0); Some (0, 0)] = Ok (Some (p, e)) /\ veq p (V3 2 1 0) /\ null_error e.
Proof. eexists _, _. split; [vm_compute; reflexivity|]. split; repeat split; vm_compute; reflexivity. Qed.

Print Assumptions pair_nearest. Print Assumptions pair_meets. Print Assumptions pair_lines. Print Assumptions pair_swap.
Print Assumptions pair_not_a_number. Print Assumptions many_least. Print Assumptions many_meets. Print Assumptions many_two.
Print Assumptions many_parallel. Print Assumptions nearly_parallel_iff. Print Assumptions usable_iff. Print Assumptions triangulate_sizes. Print Assumptions triangulate_no_point.
Print Assumptions triangulate_no_ray. Print Assumptions triangulate_meets. Print Assumptions triangulate_reflects. Print Assumptions triangulate_gives.
Print Assumptions triangulate_in_front_refuted. Print Assumptions opposite_rays_refuted. Print Assumptions disparity_point_shows. Print Assumptions disparity_cloud_shows.
