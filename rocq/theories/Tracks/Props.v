(** C67: tracks of matched interest points, and the control network made of them. *)
From Coq Require Import String List ZArith Lia Bool Relations Sorting.Sorted Permutation.
From Verif Require Import Lib.Base Lib.Lists Lib.Str Lib.OMap CNet.Model Tracks.Model Tracks.Spec Tracks.Proofs Tracks.LProofs Tracks.MProofs.
Import ListNotations.
Open Scope Z_scope.

(** The shuffle of the examples. *)
Lemma rev_shuffles (l : list Z) : Permutation (rev l) l.
Proof. apply Permutation_sym, Permutation_rev. Qed.

(** ** Random subsets *)

(** As many different indices as asked for, or all of them; numbers below zero
    are refused. *)
Theorem random_indices_exact shuffle (P : forall l, Permutation (shuffle l) l) n max :
  (0 <= n -> 0 <= max -> exists idx, pick_random_indices_in_range shuffle n max = Ok idx /\
     Z.of_nat (length idx) = Z.min max n /\ NoDup idx /\ forall i, In i idx -> 0 <= i < n) /\
  (n < 0 \/ max < 0 -> pick_random_indices_in_range shuffle n max = Throw ArgumentErr).
Proof.
  split; [intros; now apply indices_ok|]. intros H. unfold pick_random_indices_in_range.
  destruct (Z.ltb_spec n 0), (Z.ltb_spec max 0); cbn [orb]; auto; lia.
Qed.

(** The pairs kept are pairs of the input, in their order, and as many as the
    limit; without a limit, or below it, nothing changes. *)
Theorem pair_subset_exact shuffle (P : forall l, Permutation (shuffle l) l) (X : Type) (pairs : list (X * X)) max :
  exists kept, pick_pair_subset shuffle (map fst pairs) (map snd pairs) max = Ok (map fst kept, map snd kept) /\
    (max < 0 \/ Z.of_nat (length pairs) <= max -> kept = pairs) /\
    (0 <= max < Z.of_nat (length pairs) -> Z.of_nat (length kept) = max /\ subseq kept pairs).
Proof.
  destruct (pick_pair_ok shuffle P pairs max) as (c & E & H). exists c. split; auto.
  destruct (Z.leb_spec 0 max), (Z.ltb_spec max (Z.of_nat (length pairs))); cbn [andb] in H; split; intros; auto; lia.
Qed.

Example pair_subset_met :
  pick_random_indices_in_range (@rev Z) 5 3 = Ok [4; 3; 2] /\
  pick_pair_subset (@rev Z) [10; 11; 12; 13; 14] [20; 21; 22; 23; 24] 3 = Ok ([12; 13; 14], [22; 23; 24]) /\
  pick_pair_subset (@rev Z) [10; 11] [20; 21] 3 = Ok ([10; 11], [20; 21]).
Proof. vm_compute. auto. Qed.

(** ** Tracks *)

(** The tracks of any matches between different images are numbered from zero.
    A track has features of two or more images, one of each image; they are
    matched features, joined to each other by matches; and no feature is in two
    tracks. *)
Theorem tracks_sound pw : (forall e, In e pw -> fst (fst e) <> snd (fst e)) ->
  let ts := build_tracks pw in
  map fst ts = map Z.of_nat (seq 0 (length ts)) /\
  (forall p track, In (p, track) ts -> StronglySorted Z.lt (map fst track) /\ (2 <= length track)%nat) /\
  (forall p c f, in_track ts p c f -> matched (links pw) (c, f)) /\
  (forall p c f d g, in_track ts p c f -> in_track ts p d g -> joined (links pw) (c, f) (d, g)) /\
  (forall p q c f, in_track ts p c f -> in_track ts q c f -> p = q).
Proof.
  intros D ts. pose proof (build_state_ok pw D) as OK. unfold build_tracks in ts. unfold ts.
  set (t := fold_left _ _ _) in *. clearbody t. clear ts. destruct OK as (S1 & S2 & KK & S3 & B & TP & PT & J & MP & TW).
  assert (GI : forall p tr, In (p, tr) (tracks t) -> gett p (tracks t) = Some tr) by (intros; apply in_get; auto; apply Z_order).
  assert (GC : forall p c f, in_track (tracks t) p c f -> getp (c, f) (pids t) = Some p).
  { intros p c f (tr & I & I2). apply GI in I as G. eapply TP; eauto. apply in_get; eauto; apply Z_order. }
  split; auto. split; [|split; [|split]].
  - intros p tr I. apply GI in I. split.
    + specialize (S3 _ _ I). clear - S3. induction tr as [|[c f] tr IH]; [constructor|]. apply ordered_cons in S3. destruct S3 as (S3 & LT).
      cbn [map fst]. constructor; auto. apply Forall_forall. intros y IY. apply LT in IY. now apply Z.ltb_lt.
    + destruct (TW _ _ I) as (c & d & f & g & NE & G1 & G2). apply get_in in G1; [|apply Z_order]. apply get_in in G2; [|apply Z_order].
      destruct tr as [|u [|v tr]]; cbn [length In] in *; [tauto| |lia]. destruct G1 as [->|[]], G2 as [G2|[]]. congruence.
  - intros p c f I. apply GC in I. now apply B in I.
  - intros p c f d g I I'. apply GC in I, I'. eapply J; eauto.
  - intros p q c f I I'. apply GC in I, I'. congruence.
Qed.

(** When no two features of an image are joined by matches, every matched feature
    is in a track. *)
Theorem tracks_complete pw : (forall e, In e pw -> fst (fst e) <> snd (fst e)) -> consistent (links pw) ->
  forall c f, matched (links pw) (c, f) -> exists p, in_track (build_tracks pw) p c f.
Proof.
  intros D C c f M. pose proof (build_state_ok pw D) as OK. unfold build_tracks.
  set (t := fold_left _ _ _) in *. clearbody t. destruct OK as (S1 & S2 & KK & S3 & B & TP & PT & J & MP & TW).
  destruct (MP _ M) as (p & G). destruct (PT _ _ _ G) as (tr & g & GT & GG).
  assert (g = f) by (apply (C c); eapply J; [eapply TP; eauto|exact G]). subst g.
  exists p, tr. split; apply (get_in Z.ltb Z_order); auto.
Qed.

(** Three images; feature 5 of image 0, 7 of image 1 and 9 of image 2 are one. *)
Definition three : pairwise := [((0, 1), [(5, 7); (6, 8)]); ((1, 2), [(7, 9)])].
Example tracks_met :
  (forall e, In e three -> fst (fst e) <> snd (fst e)) /\
  build_tracks three = [(0, [(0, 5); (1, 7); (2, 9)]); (1, [(0, 6); (1, 8)])] /\
  matched (links three) (2, 9) /\ in_track (build_tracks three) 0 2 9.
Proof.
  split; [|split; [vm_compute; reflexivity|split]].
  - intros e [<-|[<-|[]]]; cbn; lia.
  - exists (1, 7). right. cbn. auto.
  - exists [(0, 5); (1, 7); (2, 9)]. split; vm_compute; auto.
Qed.
(** The matches of [three] are consistent. *)
Example tracks_complete_met : consistent (links three).
Proof.
  assert (P : forall x y, joined (links three) x y ->
    x = y \/ (In x [(0, 5); (1, 7); (2, 9)] /\ In y [(0, 5); (1, 7); (2, 9)]) \/ (In x [(0, 6); (1, 8)] /\ In y [(0, 6); (1, 8)])).
  { induction 1 as [x y I|x|x y J IH|x y z J IH J' IH'].
    - cbn in I. destruct I as [[= <- <-]|[[= <- <-]|[[= <- <-]|[]]]]; cbn; auto 10.
    - auto.
    - destruct IH as [->|[[A B]|[A B]]]; auto 10.
    - destruct IH as [->|[[A B]|[A B]]]; auto. 
      + destruct IH' as [->|[[A' B']|[A' B']]]; auto 10. exfalso. cbn in B, A'.
        repeat match goal with H : _ \/ _ |- _ => destruct H end; try contradiction; congruence.
      + destruct IH' as [->|[[A' B']|[A' B']]]; auto 10. exfalso. cbn in B, A'.
        repeat match goal with H : _ \/ _ |- _ => destruct H end; try contradiction; congruence. }
  intros c f g J. apply P in J. cbn in J. destruct J as [[= ->]|J]; auto.
  repeat match goal with H : _ \/ _ |- _ => destruct H | H : _ /\ _ |- _ => destruct H end; try contradiction; congruence.
Qed.

(** It is not so that every matched feature is in a track: when a second feature
    of an image joins a track, it takes the place of the first one
    (ControlNetworkLoader.cc 352 and 364), which then is in no track.  The comment
    at line 41 says that a track has one feature of each image. *)
Theorem tracks_every_feature_refuted :
  ~ forall pw, (forall e, In e pw -> fst (fst e) < snd (fst e)) -> forall c f, matched (links pw) (c, f) ->
      exists p, in_track (build_tracks pw) p c f.
Proof.
  intros H. specialize (H [((0, 1), [(5, 7); (6, 7)])]).
  destruct (H ltac:(intros e [<-|[]]; cbn; lia) 0 5 ltac:(exists (1, 7); cbn; auto)) as (p & tr & I & J).
  vm_compute in I. destruct I as [[= <- <-]|[]]. destruct J as [J|[J|[]]]; discriminate.
Qed.

(** Nor is it so that features joined by matches are in one track: a match between
    two tracks does not join them (ControlNetworkLoader.cc 338-343), not even when
    they have no image in common.  One point on the ground then becomes two points
    of the network. *)
Theorem tracks_joined_refuted :
  ~ forall pw, (forall e, In e pw -> fst (fst e) < snd (fst e)) -> consistent (links pw) -> forall p q c f d g,
      in_track (build_tracks pw) p c f -> in_track (build_tracks pw) q d g -> joined (links pw) (c, f) (d, g) -> p = q.
Proof.
  intros H. specialize (H [((0, 2), [(5, 7)]); ((1, 3), [(6, 8)]); ((2, 3), [(7, 8)])]).
  cut (0 = 1); [discriminate|]. apply (H ltac:(intros e [<-|[<-|[<-|[]]]]; cbn; lia)) with (c := 0) (f := 5) (d := 1) (g := 6).
  - intros c f g J.
    assert (P : forall x y, joined (links [((0, 2), [(5, 7)]); ((1, 3), [(6, 8)]); ((2, 3), [(7, 8)])]) x y ->
      x = y \/ (In x [(0, 5); (2, 7); (1, 6); (3, 8)] /\ In y [(0, 5); (2, 7); (1, 6); (3, 8)])).
    { induction 1 as [x y I|x|x y J' IH|x y z J' IH J'' IH'].
      - cbn in I. destruct I as [[= <- <-]|[[= <- <-]|[[= <- <-]|[]]]]; cbn; auto 10.
      - auto.
      - destruct IH as [->|[A B]]; auto.
      - destruct IH as [->|[A B]]; auto. destruct IH' as [->|[A' B']]; auto. }
    apply P in J. cbn in J. destruct J as [[= ->]|J]; auto.
    repeat match goal with H : _ \/ _ |- _ => destruct H | H : _ /\ _ |- _ => destruct H end; try contradiction; congruence.
  - exists [(0, 5); (2, 7)]. split; vm_compute; auto.
  - exists [(1, 6); (3, 8)]. split; vm_compute; auto.
  - apply rst_trans with (2, 7); [apply rst_step; cbn; auto|]. apply rst_trans with (3, 8); [apply rst_step; cbn; auto|].
    apply rst_sym, rst_step. cbn. auto.
Qed.

(** ** The network *)

(** From match files for different pairs of images, the network has the images of
    the list and, unless no matches are taken, tie points.  A point has measures in
    two or more images, in the order of the images and one in each.  Each measure
    is a matched interest point, with its scale as both standard deviations; the
    measures of a point are joined by the matches taken; and no interest point is
    a measure of two points. *)
Theorem network_of_matches shuffle (P : forall l, Permutation (shuffle l) l) images files min_matches max_pairwise :
  proper (length images) files ->
  exists found net kept, build_control_network shuffle images files min_matches max_pairwise = Ok (found, net) /\
    Forall2 (taken min_matches max_pairwise) files kept /\
    let K := all_matches files kept in
    (found = true <-> K <> []) /\ (found = false -> npoints net = []) /\ nimages net = images /\ nntype net = ImageToImage /\
    (forall p, In p (npoints net) -> pptype p = TiePoint /\ pignore p = false /\ (2 <= length (pmeasures p))%nat /\
       StronglySorted lt (map mimage (pmeasures p)) /\
       (forall m, In m (pmeasures p) -> mrow_sigma m = mcol_sigma m /\ mignore m = false /\ matched K (keypoint m)) /\
       forall m m', In m (pmeasures p) -> In m' (pmeasures p) -> joined K (keypoint m) (keypoint m')) /\
    (forall i j p q m m', nth_error (npoints net) i = Some p -> nth_error (npoints net) j = Some q ->
       In m (pmeasures p) -> In m' (pmeasures q) -> keypoint m = keypoint m' -> i = j) /\
    (consistent K -> forall k, matched K k -> exists p m, In p (npoints net) /\ In m (pmeasures p) /\ keypoint m = k).
Proof.
  intros PR. destruct (build_ok shuffle P images files min_matches max_pairwise PR) as (b & net & cs & E & TK & B & NI & NT & NF & (S1 & S2 & S3)).
  exists b, net, cs. split; auto. split; auto. cbn zeta. split; auto. auto 10.
Qed.

Definition some_files : list file :=
  [File 1 0 [(10, 11, 2); (12, 13, 3)] [(20, 21, 0); (22, 23, 5)]; File 1 2 [(12, 13, 3)] [(32, 33, 4)]].
Example network_met :
  (forall l, Permutation (@rev Z l) l) /\ proper 3 some_files /\
  exists net, build_control_network (@rev Z) [lit "a"; lit "b"; lit "c"] some_files 1 5 = Ok (true, net) /\
    map (fun p => map keypoint (pmeasures p)) (npoints net) =
      [[(0, (20, 21, 10)); (1, (10, 11, 2))]; [(0, (22, 23, 5)); (1, (12, 13, 3)); (2, (32, 33, 4))]].
Proof.
  split; [exact rev_shuffles|]. split.
  - split.
    + cbn. constructor; [intros [H|[]]; discriminate|]. constructor; [intros []|constructor].
    + intros f [<-|[<-|[]]]; cbn; lia.
  - eexists. split; vm_compute; reflexivity.
Qed.

(** A file of matches of an image with itself is never used, unless it has too few
    matches. *)
Theorem same_image_refused shuffle images files min_matches max_pairwise f :
  In f files -> fleft f = fright f -> (min_matches <= length (fip1 f))%nat ->
  forall r, build_control_network shuffle images files min_matches max_pairwise <> Ok r.
Proof.
  intros I EQ LE r. unfold build_control_network. intros E. apply bind_ok in E. destruct E as ([km mm] & EL & E).
  apply bind_ok in E. destruct E as (pw & EM & _).
  assert (GR : forall fs km0 mm0, load_files shuffle min_matches max_pairwise fs (km0, mm0) = Ok (km, mm) ->
    (forall k, In k (map fst mm0) -> In k (map fst mm)) /\
    (In f fs -> In (fleft f, fright f) (map fst mm))).
  { clear - LE. induction fs as [|g fs IH]; intros km0 mm0 E; cbn [load_files] in E.
    - injection E as -> ->. split; auto. intros [].
    - apply bind_ok in E. destruct E as ([km1 mm1] & E1 & E). destruct (IH _ _ E) as (M & FI).
      unfold load_file in E1. destruct (Nat.ltb_spec (length (fip1 g)) min_matches) as [L|G].
      + injection E1 as -> ->. split; auto. intros [->|I]; [lia|auto].
      + apply bind_ok in E1. destruct E1 as ([p1 p2] & _ & E1). apply bind_ok in E1. destruct E1 as (km2 & _ & E1). injection E1 as -> <-.
        assert (KK : forall k, In k (map fst (put zz_ltb (fleft g, fright g) (p1, p2) mm0)) <-> k = (fleft g, fright g) \/ In k (map fst mm0)).
        { intros k. unfold put. apply modify_keys, zz_order. }
        split; [intros k H; apply M, KK; auto|]. intros [->|I]; [apply M, KK; auto|auto]. }
  apply GR in EL. destruct EL as (_ & EL). specialize (EL I). apply in_map_iff in EL. destruct EL as ([k v] & EK & IK). cbn [fst] in EK.
  assert (NO : forall mm0 out out', In (k, v) mm0 -> to_mvg mm0 (map (number 0) km) out <> Ok out').
  { clear - EK EQ. induction mm0 as [|[[l r] [p1 p2]] mm0 IH]; intros out out' IN; [destruct IN|]; destruct IN as [E|I]; cbn [to_mvg].
    - assert (l = r) by congruence. subst l. rewrite Z.eqb_refl. discriminate.
    - destruct (l =? r); [discriminate|]. intros E. apply bind_ok in E. destruct E as (x & _ & E). revert E. apply IH, I. }
  exact (NO _ _ _ IK EM).
Qed.
Example same_image_met : build_control_network (@rev Z) [lit "a"] [File 0 0 [(1, 2, 3)] [(4, 5, 6)]] 1 5 = Throw ArgumentErr.
Proof. vm_compute. reflexivity. Qed.

Print Assumptions random_indices_exact.
Print Assumptions pair_subset_exact.
Print Assumptions tracks_sound.
Print Assumptions tracks_complete.
Print Assumptions tracks_every_feature_refuted.
Print Assumptions tracks_joined_refuted.
Print Assumptions network_of_matches.
Print Assumptions same_image_refused.
