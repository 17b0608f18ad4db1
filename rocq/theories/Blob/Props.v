From Coq Require Import ZArith List Lia Bool Sorted.
From Verif Require Import Lib.Base Blob.Model Blob.Spec Blob.Proofs Blob.Observers.
Import ListNotations.
Local Open Scope Z_scope.

Lemma built_ok b P : Built b P -> blob_ok b /\ (forall x y, has b x y <-> P x y) /\ (forall x y, P x y -> 0 <= x) /\ 0 <= bx b.
Proof.
  assert (G : forall b (P : Z -> Z -> Prop), blob_ok b -> (forall x y, has b x y <-> P x y) -> (forall x y, P x y -> 0 <= x) -> 0 <= bx b).
  { intros b0 P0 O H L. pose proof (bbox_tight b0 O) as T. unfold bounding_box in T. destruct T as (_ & (y & T) & _). apply H in T. exact (L _ _ T). }
  induction 1 as [ x y w b X W E | b P x y w b' B (O & H & L & M) X W T A E | b P v Q b' B (O & H & L & M) B' (O' & H' & L' & M') D T E ].
  - assert (Ok' : blob_ok b).
    { cbn in E. injection E as E. subst b. split; cbn [rows].
      - intros r [R | []]. subst r. split; [ discriminate | ]. split.
        + split; repeat constructor; cbn; lia.
        + intros s [S | []]. subst s. cbn. lia.
      - exists [(0, w)], (0, w). cbn. auto. }
    assert (Hs : forall u v, has b u v <-> v = y /\ x <= u < x + w).
    { cbn in E. injection E as E. subst b. intros u v. rewrite has_zrow. cbn [rows bx by_]. rewrite zrow_cons.
      destruct (v - y =? 0) eqn:Q; [ apply Z.eqb_eq in Q | apply Z.eqb_neq in Q ].
      - pose proof (covers_one 0 w (u - x)) as C. cbn [Z.add] in C. rewrite C. intuition lia.
      - rewrite zrow_out by (unfold zlen; cbn; lia). split; [ intros C; destruct (covers_nil _ C) | lia ]. }
    assert (Lx : forall u v, v = y /\ x <= u < x + w -> 0 <= u) by (intros; lia).
    split; [ exact Ok' | ]. split; [ exact Hs | ]. split; [ exact Lx | ]. apply (G _ _ Ok' Hs Lx).
  - destruct (add_row_spec b x y w O ltac:(lia) W) as (b1 & E1 & O1 & H1).
    + destruct T as (u & T). destruct T as [T | T].
      * right. apply H in T as T1. pose proof (has_rows _ _ _ T1) as Y.
        destruct (blob_ok_rows b O) as (R & N). pose proof (zlen_ne _ N).
        destruct (has_in_row b (zlen (rows b) - 1) R ltac:(lia)) as (x' & H2). apply H in H2. apply A in H2. rewrite nrows_zlen in *. lia.
      * destruct (blob_ok_rows b O) as (R & N). pose proof (zlen_ne _ N). apply H in T as T1. pose proof (has_rows _ _ _ T1) as Y.
        destruct (has_in_row b (zlen (rows b) - 1) R ltac:(lia)) as (x' & H2). apply H in H2. apply A in H2. rewrite nrows_zlen in *. lia.
    + intros u v Hu. apply H in Hu. apply A, Hu.
    + rewrite E in E1. injection E1 as E1. subst b1.
      assert (Hs : forall u v, has b' u v <-> P u v \/ v = y /\ x <= u < x + w) by (intros u v; rewrite H1, H; reflexivity).
      assert (Lx : forall u v, P u v \/ v = y /\ x <= u < x + w -> 0 <= u) by (intros u v [Hu | Hu]; [ exact (L _ _ Hu) | lia ]).
      split; [ exact O1 | ]. split; [ exact Hs | ]. split; [ exact Lx | ]. apply (G _ _ O1 Hs Lx).
  - destruct T as (x & y & x' & y' & T1 & T2 & T3). apply H in T1. apply H' in T2.
    pose proof (has_rows _ _ _ T1) as Y1. pose proof (has_rows _ _ _ T2) as Y2.
    destruct (absorb_spec b v O O') as (b1 & E1 & O1 & _ & H1); [ | lia | lia | ].
    + intros u w Hu Hw. apply H in Hu. apply H' in Hw. exact (D _ _ Hu Hw).
    + rewrite E in E1. injection E1 as E1. subst b1.
      assert (Hs : forall u w, has b' u w <-> P u w \/ Q u w) by (intros u w; rewrite H1, H, H'; reflexivity).
      assert (Lx : forall u w, P u w \/ Q u w -> 0 <= u) by (intros u w [Hu | Hu]; [ exact (L _ _ Hu) | exact (L' _ _ Hu) ]).
      split; [ exact O1 | ]. split; [ exact Hs | ]. split; [ exact Lx | ]. apply (G _ _ O1 Hs Lx).
Qed.

(* C28: the blob lists exactly the pixels it was given, each once; its size is
   their number and its bounding box is the tight one *)
Theorem blob_contents b P : Built b P ->
  NoDup (decompress b) /\ (forall x y, In (x, y) (decompress b) <-> P x y) /\
  size b = Z.of_nat (length (decompress b)) /\
  (let '(x0, y0, x1, y1) := bounding_box b in
   (forall x y, P x y -> x0 <= x < x1 /\ y0 <= y < y1) /\
   (exists y, P x0 y) /\ (exists y, P (x1 - 1) y) /\ (exists x, P x y0) /\ (exists x, P x (y1 - 1))).
Proof.
  intros B. destruct (built_ok b P B) as (O & H & _). destruct (blob_ok_rows b O) as (R & _). split; [ | split; [ | split ] ].
  - rewrite decompress_rows. apply rows_pixels_nodup, R.
  - intros x y. rewrite decompress_rows, in_rows_pixels, <- H. destruct b; reflexivity.
  - apply size_length, O.
  - pose proof (bbox_tight b O) as T. destruct (bounding_box b) as [[[x0 y0] x1] y1]. destruct T as (T0 & (a & T1) & (c & T2) & (d & T3) & (e & T4)).
    split; [ intros x y Hx; apply T0, H, Hx | ].
    split; [ exists a; apply H, T1 | ]. split; [ exists c; apply H, T2 | ]. split; [ exists d; apply H, T3 | exists e; apply H, T4 ].
Qed.

(* C28: rows fed in reading order are taken *)
Theorem blob_takes_rows b P x y w : Built b P -> 0 < w ->
  (exists u, P u y \/ P u (y - 1)) -> (forall u v, P u v -> v < y \/ v = y /\ u < x) ->
  exists b', add_row b x y w = Ok b'.
Proof.
  intros B W T A. destruct (built_ok b P B) as (O & H & L & M).
  destruct (add_row_spec b x y w O ltac:(lia) W) as (b1 & E1 & _).
  - destruct T as (u & T). destruct (blob_ok_rows b O) as (R & N). pose proof (zlen_ne _ N).
    destruct (has_in_row b (zlen (rows b) - 1) R ltac:(lia)) as (x' & H2). apply H in H2. apply A in H2.
    destruct T as [T | T]; apply H in T; pose proof (has_rows _ _ _ T) as Y; rewrite nrows_zlen in *; lia.
  - intros u v Hu. apply H in Hu. apply A, Hu.
  - exists b1. exact E1.
Qed.

(* C28: a row out of order is refused *)
Theorem blob_refuses_rows b P x y w : Built b P ->
  ((forall u, ~ P u y) /\ (forall u, ~ P u (y - 1))) \/ (exists u v, P u v /\ y < v) \/
  (exists u, P u y /\ x < u /\ ~ P (u - 1) y /\ forall u', P u' y -> u' <= u) ->
  add_row b x y w = Throw NoImplErr.
Proof.
  intros B C. destruct (built_ok b P B) as (O & H & L & M). destruct (blob_ok_rows b O) as (R & N). pose proof (zlen_ne _ N).
  assert (Rw : forall j, by_ b <= j < by_ b + nrows b -> exists u, P u j).
  { intros j J. destruct (has_in_row b (j - by_ b) R) as (u & U); [ rewrite nrows_zlen in J; lia | ]. exists u. apply H.
    replace (by_ b + (j - by_ b)) with j in U by lia. exact U. }
  unfold add_row. destruct (bx b =? -1) eqn:Q0; [ apply Z.eqb_eq in Q0; lia | ].
  destruct (negb ((y =? by_ b + nrows b) || (y =? by_ b + nrows b - 1))) eqn:Q; [ reflexivity | ].
  apply negb_false_iff, orb_prop in Q. rewrite !Z.eqb_eq in Q. rewrite nrows_zlen in Rw, Q.
  assert (Q' : y = by_ b + zlen (rows b) - 1 /\ exists u, P u y /\ x < u /\ ~ P (u - 1) y /\ forall u', P u' y -> u' <= u).
  { destruct C as [(C1 & C2) | [(u & v & C1 & C2) | C]].
    - exfalso. destruct Q as [Q | Q].
      + destruct (Rw (y - 1) ltac:(lia)) as (u & U). exact (C2 _ U).
      + destruct (Rw y ltac:(lia)) as (u & U). exact (C1 _ U).
    - exfalso. apply H in C1. apply has_rows in C1. rewrite nrows_zlen in C1. lia.
    - split; [ | exact C ]. destruct C as (u & C & _). apply H in C. apply has_rows in C. rewrite nrows_zlen in C. lia. }
  destruct Q' as (Qy & u & Pu & Xu & Nu & Mu). rewrite nrows_zlen.
  destruct (y =? by_ b + zlen (rows b)) eqn:Q1; [ apply Z.eqb_eq in Q1; lia | ].
  destruct (exists_last N) as (l & r & E). replace (rev (rows b)) with (r :: rev l) by (rewrite E, rev_app_distr; reflexivity).
  assert (Zl : zlen (rows b) = zlen l + 1) by (rewrite E, zlen_app; unfold zlen; cbn [length]; lia).
  assert (Hr : forall z, P z y <-> covers r (z - bx b)).
  { intros z. rewrite <- H, has_zrow, E, zrow_app. replace (y - by_ b) with (zlen l) by lia. rewrite Z.ltb_irrefl, Z.sub_diag, zrow_cons. reflexivity. }
  assert (Rr : In r (rows b)) by (rewrite E; apply in_or_app; right; left; reflexivity). destruct (R _ Rr) as (Nr & Or).
  destruct r as [|s t]; [ congruence | ].
  pose proof (last_in s t s) as Li. set (z := last (s :: t) s) in *.
  assert (Lz : fst z < snd z) by (destruct Or as (_ & F); rewrite Forall_forall in F; apply F, Li).
  (* the last pixel of the row starts a segment of its own, so it is that segment *)
  assert (U1 : u = bx b + snd z - 1).
  { assert (P (bx b + snd z - 1) y) as Pz.
    { apply Hr. replace (bx b + snd z - 1 - bx b) with (snd z - 1) by lia. apply in_seg_covers; assumption. }
    apply Mu in Pz. apply Hr in Pu. pose proof (covers_last _ _ _ Or Pu) as Cl. fold z in Cl. lia. }
  assert (U2 : fst z = snd z - 1).
  { destruct (Z.eq_dec (fst z) (snd z - 1)) as [X | X]; [ exact X | ]. exfalso. apply Nu, Hr. exists (fst z), (snd z). split; [ destruct z; exact Li | lia ]. }
  destruct (x <? fst z + bx b) eqn:Q2; [ reflexivity | apply Z.ltb_ge in Q2; lia ].
Qed.

(* C28: pixel-disjoint blobs whose rows touch can be merged, overlapping ones are refused *)
Theorem blob_absorbs b P v Q : Built b P -> Built v Q ->
  (disjoint P Q -> (exists x y x' y', P x y /\ Q x' y' /\ Z.abs (y - y') <= 1) -> exists b', absorb b v = Ok b') /\
  ((exists x y, P x y /\ Q x y) -> absorb b v = Throw NoImplErr).
Proof.
  intros B B'. destruct (built_ok b P B) as (O & H & _). destruct (built_ok v Q B') as (O' & H' & _). split.
  - intros D (x & y & x' & y' & T1 & T2 & T3). apply H in T1. apply H' in T2. pose proof (has_rows _ _ _ T1). pose proof (has_rows _ _ _ T2).
    destruct (absorb_spec b v O O') as (b1 & E1 & _); [ | lia | lia | exists b1; exact E1 ].
    intros u w Hu Hw. apply H in Hu. apply H' in Hw. exact (D _ _ Hu Hw).
  - intros (x & y & Hx & Hy). apply absorb_throws; [ exact O | exact O' | ]. exists x, y. split; [ apply H, Hx | apply H', Hy ].
Qed.

(* C28: the adjacency tests between blobs on the two sides of a tile border *)
Theorem blob_on_right b P r Q B : Built b P -> Built r Q ->
  (forall x y, P x y -> x < B) -> (forall x y, Q x y -> B <= x) ->
  exists t, is_on_right b r = Ok t /\ (t = true <-> exists x y x' y', P x y /\ Q x' y' /\ adjacent8 x y x' y').
Proof.
  intros HB HB' L L'. destruct (built_ok b P HB) as (O & H & _). destruct (built_ok r Q HB') as (O' & H' & _).
  destruct (is_on_right_spec b r B O O') as (t & E & T).
  - intros x y Hx. apply H in Hx. exact (L _ _ Hx).
  - intros x y Hx. apply H' in Hx. exact (L' _ _ Hx).
  - exists t. split; [ exact E | ]. rewrite T. split; intros (x & y & x' & y' & A & C & D); exists x, y, x', y'; (split; [ apply H, A | split; [ apply H', C | exact D ] ]).
Qed.
Theorem blob_on_bottom b P r Q B : Built b P -> Built r Q ->
  (forall x y, P x y -> y < B) -> (forall x y, Q x y -> B <= y) ->
  exists t, is_on_bottom b r = Ok t /\ (t = true <-> exists x y x' y', P x y /\ Q x' y' /\ adjacent8 x y x' y').
Proof.
  intros HB HB' L L'. destruct (built_ok b P HB) as (O & H & _). destruct (built_ok r Q HB') as (O' & H' & _).
  destruct (is_on_bottom_spec b r B O O') as (t & E & T).
  - intros x y Hx. apply H in Hx. exact (L _ _ Hx).
  - intros x y Hx. apply H' in Hx. exact (L' _ _ Hx).
  - exists t. split; [ exact E | ]. rewrite T. split; intros (x & y & x' & y' & A & C & D); exists x, y, x', y'; (split; [ apply H, A | split; [ apply H', C | exact D ] ]).
Qed.

(* C28: what intersects() answers: some row's hull meets the box *)
Theorem blob_intersects b P x0 y0 x1 y1 : Built b P ->
  (intersects b (x0, y0, x1, y1) = true <->
   exists y xl xr, y0 <= y < y1 /\ P xl y /\ P xr y /\ xl < x1 /\ x0 <= xr).
Proof.
  intros HB. destruct (built_ok b P HB) as (O & H & _). rewrite (intersects_spec b x0 y0 x1 y1 O).
  split; intros (y & xl & xr & Y & A & C & D); exists y, xl, xr; (split; [ exact Y | split; [ apply H, A | split; [ apply H, C | exact D ] ] ]).
Qed.

(* ---- a concrete blob: a U, arms first, then the floor ---- *)
Definition ex_arms : res blob :=
  b1 <- add_row empty_blob 2 5 1 ;; b2 <- add_row b1 4 5 2 ;; add_row b2 1 6 2.
Definition ex_arms_pixels (u v : Z) : Prop :=
  ((v = 5 /\ 2 <= u < 2 + 1) \/ v = 5 /\ 4 <= u < 4 + 2) \/ v = 6 /\ 1 <= u < 1 + 2.
Example ex_arms_run : ex_arms = Ok (Blob 1 5 [[(1, 2); (3, 5)]; [(0, 2)]]).
Proof. reflexivity. Qed.
Example ex_arms_built : Built (Blob 1 5 [[(1, 2); (3, 5)]; [(0, 2)]]) ex_arms_pixels.
Proof.
  unfold ex_arms_pixels.
  refine (Built_row (Blob 2 5 [[(0, 1); (2, 4)]]) (fun u v => (v = 5 /\ 2 <= u < 2 + 1) \/ v = 5 /\ 4 <= u < 4 + 2) 1 6 2 _ _ _ _ _ _ _);
    [ | lia | lia | exists 2; lia | intros; lia | reflexivity ].
  refine (Built_row (Blob 2 5 [[(0, 1)]]) (fun u v => v = 5 /\ 2 <= u < 2 + 1) 4 5 2 _ _ _ _ _ _ _);
    [ | lia | lia | exists 2; lia | intros; lia | reflexivity ].
  apply Built_first; [ lia | lia | reflexivity ].
Qed.
Example ex_floor_built : Built (Blob 3 6 [[(0, 3)]]) (fun u v => v = 6 /\ 3 <= u < 3 + 3).
Proof. apply Built_first; [ lia | lia | reflexivity ]. Qed.
Example ex_absorb : absorb (Blob 1 5 [[(1, 2); (3, 5)]; [(0, 2)]]) (Blob 3 6 [[(0, 3)]]) = Ok (Blob 1 5 [[(1, 2); (3, 5)]; [(0, 5)]]).
Proof. reflexivity. Qed.
Example ex_absorb_built : Built (Blob 1 5 [[(1, 2); (3, 5)]; [(0, 5)]]) (fun u v => ex_arms_pixels u v \/ v = 6 /\ 3 <= u < 3 + 3).
Proof.
  apply (Built_absorb _ _ _ _ _ ex_arms_built ex_floor_built).
  - intros x y. unfold ex_arms_pixels. lia.
  - exists 2, 5, 3, 6. unfold ex_arms_pixels. lia.
  - reflexivity.
Qed.
Example ex_observers : size (Blob 1 5 [[(1, 2); (3, 5)]; [(0, 5)]]) = 8 /\ bounding_box (Blob 1 5 [[(1, 2); (3, 5)]; [(0, 5)]]) = (1, 5, 6, 7).
Proof. split; reflexivity. Qed.

(* ---- what does not hold ---- *)

(* Two pieces of a C-shaped blob separated by a blank row: absorb reads the front of an empty list. *)
Theorem blob_absorb_gap_refuted :
  exists b P v Q, Built b P /\ Built v Q /\ disjoint P Q /\ absorb b v = UB BadIter.
Proof.
  exists (Blob 3 0 [[(0, 2)]]), (fun u v => v = 0 /\ 3 <= u < 3 + 2), (Blob 3 2 [[(0, 2)]]), (fun u v => v = 2 /\ 3 <= u < 3 + 2).
  split; [ apply Built_first; [ lia | lia | reflexivity ] | ]. split; [ apply Built_first; [ lia | lia | reflexivity ] | ].
  split; [ intros x y; lia | reflexivity ].
Qed.

(* add_row checks a segment against the start of the last one only: an
   overlapping segment is taken and its pixels are counted twice. *)
Theorem blob_add_row_overlap_refuted :
  exists b P b', Built b P /\ P 2 0 /\ add_row b 2 0 5 = Ok b' /\ size b' = 10 /\ ~ NoDup (decompress b') /\
    (forall x y, In (x, y) (decompress b') -> y = 0 /\ 0 <= x < 7).
Proof.
  exists (Blob 0 0 [[(0, 5)]]), (fun u v => v = 0 /\ 0 <= u < 0 + 5), (Blob 0 0 [[(0, 5); (2, 7)]]).
  split; [ apply Built_first; [ lia | lia | reflexivity ] | ]. split; [ lia | ]. split; [ reflexivity | ]. split; [ reflexivity | ]. split.
  - intros N. vm_compute in N.
    do 2 (inversion N as [|? ? _ N']; subst; clear N; rename N' into N). inversion N as [|? ? M _]. apply M. cbn. tauto.
  - intros x y I. vm_compute in I. repeat (destruct I as [I | I]; [ injection I as <- <-; lia | ]). destruct I.
Qed.

(* intersects() looks at the hull of a row: a box inside a gap is reported. *)
Theorem blob_intersects_gap_refuted :
  exists b P, Built b P /\ intersects b (3, 5, 4, 6) = true /\ forall x y, P x y -> ~ (3 <= x < 4 /\ 5 <= y < 6).
Proof.
  exists (Blob 1 5 [[(1, 2); (3, 5)]; [(0, 2)]]), ex_arms_pixels. split; [ exact ex_arms_built | ]. split; [ reflexivity | ].
  intros x y. unfold ex_arms_pixels. lia.
Qed.

(* m_min.x = -1 marks an empty blob: a blob moved so that its left column is -1
   loses its rows at the next add_row. *)
Theorem blob_sentinel_refuted :
  exists b b', has b (-1) 0 /\ add_row b 0 1 1 = Ok b' /\ forall x, ~ has b' x 0.
Proof.
  exists (Blob (-1) 0 [[(0, 1)]]), (Blob 0 1 [[(0, 1); (0, 1)]]). split; [ | split; [ reflexivity | ] ].
  - exists 0%nat, [(0, 1)]. split; [ reflexivity | ]. split; [ reflexivity | ]. exists 0, 1. cbn. split; [ auto | lia ].
  - intros x H. apply has_rows in H. cbn in H. lia.
Qed.

Print Assumptions blob_contents.
Print Assumptions blob_takes_rows.
Print Assumptions blob_refuses_rows.
Print Assumptions blob_absorbs.
Print Assumptions blob_on_right.
Print Assumptions blob_on_bottom.
Print Assumptions blob_intersects.
Print Assumptions blob_absorb_gap_refuted.
Print Assumptions blob_add_row_overlap_refuted.
Print Assumptions blob_intersects_gap_refuted.
Print Assumptions blob_sentinel_refuted.
