(** The camera relation network holds what the control network holds (C66). *)
From Coq Require Import String List ZArith Lia Bool Sorting.Sorted.
From Verif Require Import Lib.Base Lib.Lists Lib.SMap Lib.Str CNet.Model CNet.Relation CNet.RSpec CNet.RProofs.
Import ListNotations.
Open Scope nat_scope.

Definition all_measured (net : network) : Prop := forall p, In p (npoints net) -> pmeasures p <> [].

Lemma heap_keeps obs h : heap_ok obs h -> keeps obs h.
Proof. intros (L & K). split; auto. intros i p m E. exists []. auto. Qed.

Lemma from_cnet_facts net : all_measured net -> exists h,
  from_cnet net = Ok (Rel (map (fun j => CNode j (in_image j (observations net)) (cmap_of (observations net) j)) (seq 0 (image_count net))) h) /\
  keeps (observations net) h /\ forall i, i < List.length (observations net) -> mapped (observations net) h i.
Proof.
  intros AM. unfold from_cnet. rewrite new_nodes_ok.
  destruct (add_points_ok (List.length (nimages net)) (npoints net) 0 [] []) as (h1 & E1 & H1).
  - split; auto. intros [|i] p m E; discriminate.
  - intros o [].
  - exact AM.
  - cbn [app] in E1, H1. 
    change (map (fun j => CNode j [] []) (seq 0 (List.length (nimages net)))) with (nodes_of (List.length (nimages net)) []).
    rewrite E1. cbn [bind]. unfold build_map. cbn [rnodes rheap]. unfold nodes_of.
    destruct (build_maps_ok (observations net) (seq 0 (image_count net)) h1 (heap_keeps _ _ H1)) as (h2 & E2 & K2 & M2).
    change (cnt (List.length (nimages net)) (numbered 0 (npoints net))) with (image_count net).
    change (numbered 0 (npoints net)) with (observations net).
    rewrite E2. cbn [bind]. exists h2. split; [reflexivity|]. split; auto.
    intros i L. apply M2. right. destruct (nth_error_ex _ i L) as ([p m] & E).
    exists (mimage m). split.
    + apply in_seq. split; [lia|]. apply nth_error_In in E. apply (cnt_in (List.length (nimages net)) _ (p, m)). exact E.
    + apply in_places. exists (p, m). split; auto. apply Nat.eqb_refl.
Qed.

(** Each measure becomes one feature that gives back its image, position and
    standard deviations, and that is connected with the other measures of its
    point, in order. *)
Theorem relation_features net : all_measured net -> exists r, from_cnet net = Ok r /\
  List.length (rheap r) = List.length (observations net) /\
  forall i p m, nth_error (observations net) i = Some (p, m) -> exists f, nth_error (rheap r) i = Some f /\
    fpoint f = p /\ fcamera f = mimage m /\
    control_measure f = Meas (mcol m) (mrow m) (mcol_sigma m) (mrow_sigma m) (mimage m) false 3 /\
    fconn f = partners i (observations net).
Proof.
  intros AM. destruct (from_cnet_facts net AM) as (h & -> & (L & K) & M). eexists. split; [reflexivity|]. split; [exact L|].
  cbn [rheap]. intros i p m E. destruct (K i p m E) as (fm & EF). rewrite EF. eexists. split; [reflexivity|]. repeat split.
Qed.

(** There is a node for each image of the list and each image of a measure, and
    it has the features in this image, in order. *)
Theorem relation_nodes net : all_measured net -> exists r, from_cnet net = Ok r /\
  List.length (rnodes r) = image_count net /\
  forall j, j < image_count net -> exists n, nth_error (rnodes r) j = Some n /\ cid n = j /\
    crelations n = in_image j (observations net).
Proof.
  intros AM. destruct (from_cnet_facts net AM) as (h & -> & _). eexists. split; [reflexivity|]. cbn [rnodes].
  split; [now rewrite map_length, seq_length|]. intros j L. rewrite nth_map_seq. destruct (Nat.ltb_spec j (image_count net)); [|lia].
  eexists. split; [reflexivity|]. split; reflexivity.
Qed.

Lemma image_img obs c k : c < List.length obs -> (Z.of_nat (img obs c) =? Z.of_nat k)%Z = true <-> image_of obs c = Some k.
Proof.
  intros L. unfold img, image_of. destruct (nth_error_ex obs c L) as ([p m] & ->). rewrite Z.eqb_eq, Nat2Z.inj_iff.
  split; [now intros ->|now intros [= ->]].
Qed.

(** The map of a feature has for each image with a connected feature the last
    of them, and nothing else. *)
Theorem feature_map_exact net : all_measured net -> exists r, from_cnet net = Ok r /\
  forall i f j, nth_error (rheap r) i = Some f ->
    (under (Z.of_nat j) (fmap f) = [] /\ forall k, In k (fconn f) -> image_of (observations net) k <> Some j) \/
    (exists k, under (Z.of_nat j) (fmap f) = [k] /\ last_in (observations net) j (fconn f) k).
Proof.
  intros AM. destruct (from_cnet_facts net AM) as (h & -> & (L & K) & M). eexists. split; [reflexivity|]. cbn [rheap].
  intros i f j E. assert (LI : i < List.length (observations net)) by (rewrite <- L; eapply nth_error_lt; eauto).
  pose proof (M i LI f E) as MF. destruct (nth_error_ex _ i LI) as ([p m] & EO). destruct (K i p m EO) as (fm & EF).
  rewrite E in EF. injection EF as ->. cbn [feature_of fconn fmap] in *. rewrite MF. unfold fmap_of. rewrite under_fmap.
  destruct (rev (filter _ _)) as [|k r0] eqn:R.
  - left. split; [reflexivity|]. intros k I EI. apply (image_img _ k j (partners_inside _ _ _ I)) in EI.
    assert (G : In k (rev (filter (fun c => (Z.of_nat (img (observations net) c) =? Z.of_nat j)%Z) (partners i (observations net))))) by (apply -> in_rev; apply filter_In; auto).
    rewrite R in G. destruct G.
  - right. exists k. split; [reflexivity|]. apply last_of_filter in R. destruct R as (a & b & EP & T & N).
    exists a, b. split; [exact EP|].
    assert (IN : forall c, In c (a ++ k :: b) -> c < List.length (observations net)) by (intros c I; rewrite <- EP in I; eapply partners_inside; eauto).
    split.
    + apply image_img; auto. apply IN, in_app_iff. right. now left.
    + intros x I EI. apply image_img in EI; [rewrite N in EI by auto; discriminate|]. apply IN, in_app_iff. right. now right.
Qed.

(** The map of a node has under an image exactly the features of the node that
    are connected with a feature in that image, each once and in order, and its
    keys are sorted. *)
Theorem node_map_exact net : all_measured net -> exists r, from_cnet net = Ok r /\
  forall j n, nth_error (rnodes r) j = Some n ->
    StronglySorted (fun a b => (fst a <= fst b)%Z) (cmap n) /\
    forall k, exists keep, under (Z.of_nat k) (cmap n) = filter keep (crelations n) /\
      forall i, In i (crelations n) -> (keep i = true <-> exists c, In c (partners i (observations net)) /\ image_of (observations net) c = Some k).
Proof.
  intros AM. destruct (from_cnet_facts net AM) as (h & -> & _). eexists. split; [reflexivity|]. cbn [rnodes].
  intros j n E. rewrite nth_map_seq in E. destruct (j <? image_count net); [|discriminate]. injection E as <-. cbn [cmap crelations Nat.add].
  split; [apply cmap_sorted; constructor|]. intros k. unfold cmap_of. rewrite under_cmap. cbn [under filter map app].
  eexists. split; [reflexivity|]. intros i _. rewrite existsb_exists. split.
  - intros (c & I & Q). exists c. split; auto. apply image_img in Q; auto. eapply partners_inside; eauto.
  - intros (c & I & Q). exists c. split; auto. apply image_img; auto. eapply partners_inside; eauto.
Qed.

(** Without measures of a point the loop ends before the first feature. *)
Theorem relation_total_refuted : ~ (forall net, exists r, from_cnet net = Ok r).
Proof.
  intros F. destruct (F (Net [Point [] false (V3 0 0 0) (V3 0 0 0) TiePoint] [] ImageToGround)) as (r & E). discriminate E.
Qed.

Theorem relation_empty_point net a q b : npoints net = a ++ q :: b -> (forall p, In p a -> pmeasures p <> []) -> pmeasures q = [] ->
  from_cnet net = UB BadIter.
Proof.
  intros E NE Q. unfold from_cnet. rewrite E, new_nodes_ok.
  change (map (fun j => CNode j [] []) (seq 0 (List.length (nimages net)))) with (nodes_of (List.length (nimages net)) []).
  rewrite add_points_empty; auto.
  - split; auto. intros [|i] p m X; discriminate.
  - intros o [].
Qed.

(** Listing the connections ends for any connections, cycles included, and gives
    exactly the features that can be reached, each once. *)
Theorem listing_exact h f : connections_inside h -> f < List.length h -> exists l,
  list_connections (S (List.length h)) h f [] = Ok l /\ NoDup l /\ forall g, In g l <-> reaches h f g.
Proof.
  intros INS LF. destruct (listing_ok h INS (S (List.length h)) f [] LF) as (l & E & K).
  - constructor.
  - intros x [].
  - cbn [List.length]. lia.
  - exists l. split; auto. split; [apply K|]. apply (lists_reach h f l K).
Qed.

Lemma partners_iff i obs k : In k (partners i obs) <-> k <> i /\ exists p m m', nth_error obs i = Some (p, m) /\ nth_error obs k = Some (p, m').
Proof.
  unfold partners. split.
  - destruct (nth_error obs i) as [[p m]|] eqn:E; [|intros []]. rewrite filter_In, in_places.
    intros (([q m'] & EK & Q) & N). cbn [fst] in Q. apply Nat.eqb_eq in Q. subst q. split; [intros ->; rewrite Nat.eqb_refl in N; discriminate|]. eauto.
  - intros (N & p & m & m' & EI & EK). rewrite EI, filter_In, in_places. split.
    + exists (p, m'). split; auto. apply Nat.eqb_refl.
    + destruct (Nat.eqb_spec k i); [contradiction|reflexivity].
Qed.

(** In the network of a control network the listing has the other features of
    the point, and, as the search comes back, the feature itself if there are
    others. *)
Theorem relation_listing net : all_measured net -> exists r, from_cnet net = Ok r /\
  forall i, i < List.length (observations net) -> exists l,
    list_connections (S (List.length (rheap r))) (rheap r) i [] = Ok l /\ NoDup l /\
    forall g, In g l <-> In g (partners i (observations net)) \/ (g = i /\ partners i (observations net) <> []).
Proof.
  intros AM. destruct (relation_features net AM) as (r & -> & L & K). exists r. split; auto. intros i LI.
  set (obs := observations net) in *. assert (CN : forall a x, nth_error (rheap r) a = Some x -> fconn x = partners a obs).
  { intros a x E. assert (LA : a < List.length obs) by (rewrite <- L; eapply nth_error_lt; eauto).
    destruct (nth_error_ex obs a LA) as ([p m] & EO). destruct (K a p m EO) as (f & EF & _ & _ & _ & C). congruence. }
  assert (INS : connections_inside (rheap r)).
  { intros a x c E I. rewrite (CN a x E) in I. rewrite L. eapply partners_inside; eauto. }
  destruct (listing_exact (rheap r) i INS) as (l & E & ND & R); [lia|]. exists l. split; auto. split; auto.
  intros g. rewrite R. split.
  - intros RE. clear R E ND. induction RE as [a b x EA I|a b c x EA I RE IH].
    + left. now rewrite <- (CN a x EA).
    + rewrite (CN a x EA) in I. assert (LB : b < List.length obs) by (eapply partners_inside; eauto). specialize (IH LB).
      assert (IAB := I). apply partners_iff in I. destruct I as (NB & p & ma & mb & EOA & EOB).
      destruct (Nat.eq_dec c a) as [->|NC]; [right; split; auto; intros Z0; rewrite Z0 in IAB; destruct IAB|].
      destruct IH as [IH|(-> & _)]; [|left; auto].
      apply partners_iff in IH. destruct IH as (_ & p' & mb' & mc & EOB' & EOC). rewrite EOB in EOB'. injection EOB' as <- <-.
      left. apply partners_iff. split; auto. eauto.
  - destruct (nth_error_ex (rheap r) i ltac:(lia)) as (x & EX). pose proof (CN i x EX) as CX. intros [I|(-> & NE)].
    + eapply reach_one; eauto. now rewrite CX.
    + destruct (partners i obs) as [|b bs] eqn:P; [contradiction|]. assert (IB : In b (partners i obs)) by (rewrite P; now left).
      apply partners_iff in IB. assert (IB' := IB). destruct IB as (N & p & m & m' & EI & EB).
      assert (II : In i (partners b obs)) by (apply partners_iff; split; eauto 6).
      destruct (nth_error_ex (rheap r) b) as (y & EY); [rewrite L; eapply nth_error_lt; eauto|].
      eapply reach_more; [exact EX| |eapply reach_one; [exact EY|]].
      * rewrite CX. now left.
      * now rewrite (CN b y EY).
Qed.

(** ** The hypotheses are met *)

Definition net3 : network :=
  Net [Point [new_measure 10 20 1 2 0; new_measure 30 40 3 4 2; new_measure 31 41 3 4 2] false (V3 7 8 9) (V3 0 5 6) TiePoint;
       Point [new_measure 50 60 1 1 2] false (V3 1 2 3) (V3 1 1 1) GroundControlPoint] [lit "a"] Singleton.

Example relation_met : all_measured net3 /\ image_count net3 = 3 /\
  exists r, from_cnet net3 = Ok r /\
    map crelations (rnodes r) = [[0]; []; [1; 2; 3]] /\ map fconn (rheap r) = [[1; 2]; [0; 2]; [0; 1]; []] /\
    map cmap (rnodes r) = [[(2%Z, 0)]; []; [(0%Z, 1); (0%Z, 2); (2%Z, 1); (2%Z, 2)]] /\
    map fmap (rheap r) = [[(2%Z, 2)]; [(0%Z, 0); (2%Z, 2)]; [(0%Z, 0); (2%Z, 1)]; []] /\
    list_connections 5 (rheap r) 0 [] = Ok [1; 0; 2] /\ list_connections 5 (rheap r) 3 [] = Ok [].
Proof.
  split; [intros p [<-|[<-|[]]]; discriminate|]. split; [reflexivity|]. eexists. split; [vm_compute; reflexivity|]. repeat split.
Qed.

Print Assumptions relation_features.
Print Assumptions relation_nodes.
Print Assumptions feature_map_exact.
Print Assumptions node_map_exact.
Print Assumptions relation_total_refuted.
Print Assumptions relation_empty_point.
Print Assumptions listing_exact.
Print Assumptions relation_listing.
