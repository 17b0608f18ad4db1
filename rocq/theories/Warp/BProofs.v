(** Proofs about the boxes of transformed points. *)
From Coq Require Import List Bool ZArith QArith Qround Lia Lqa Psatz.
From Verif Require Import Lib.Base Lib.Img BBox.Model BBox.Box2 Warp.Model Warp.Spec Warp.IProofs.
Import ListNotations.
Local Open Scope Q_scope.

Definition big : Q := inject_Z (i32_max - 1).
Lemma big_pos : 0 < big.
Proof. reflexivity. Qed.
Definition small (p : pt) : Prop := (- big <= fst p <= big) /\ (- big <= snd p <= big).

(* a box after growing by the points of a list *)
Definition grown (b0 : qbox) (l : list pt) (b : qbox) : Prop :=
  ((qx0 b <= qx0 b0 /\ qx1 b0 <= qx1 b) /\ (qy0 b <= qy0 b0 /\ qy1 b0 <= qy1 b)) /\
  (forall p, In p l -> qholds b p) /\
  ((qx0 b = qx0 b0 \/ exists p, In p l /\ qx0 b = fst p) /\ (qx1 b = qx1 b0 \/ exists p, In p l /\ qx1 b = fst p)) /\
  ((qy0 b = qy0 b0 \/ exists p, In p l /\ qy0 b = snd p) /\ (qy1 b = qy1 b0 \/ exists p, In p l /\ qy1 b = snd p)).

Lemma qgrow_ok b p : grown b [p] (qgrow b p).
Proof.
  unfold grown, qgrow, qholds. cbn [qx0 qy0 qx1 qy1 In].
  destruct (ltqP (qx1 b) (fst p)), (ltqP (fst p) (qx0 b)), (ltqP (qy1 b) (snd p)), (ltqP (snd p) (qy0 b));
  (split; [split; lra|]); (split; [intros qq [<-|[]]; split; lra|]);
  repeat split; auto; right; exists p; auto.
Qed.

Lemma qgrow_all_ok l : forall b, grown b l (qgrow_all b l).
Proof.
  induction l as [|p l IH]; intros b; cbn [qgrow_all fold_left].
  - unfold grown. split; [split; lra|]. split; [intros q []|]. auto.
  - specialize (IH (qgrow b p)). pose proof (qgrow_ok b p) as G. unfold qgrow_all in IH. set (b2 := fold_left qgrow l (qgrow b p)) in *. set (b1 := qgrow b p) in *. clearbody b1 b2.
    destruct IH as ([[A1 A2] [A3 A4]] & A & [A5 A6] & [A7 A8]). destruct G as ([[B1 B2] [B3 B4]] & B & [B5 B6] & [B7 B8]).
    split; [split; lra|]. split.
    + intros q [<-|Hq]; [|auto]. destruct (B p) as [[? ?] [? ?]]; [left; auto|]. split; lra.
    + assert (K : forall (g : qbox -> Q) (h : pt -> Q),
        (g b2 = g b1 \/ exists q, In q l /\ g b2 = h q) -> (g b1 = g b \/ exists q, In q [p] /\ g b1 = h q) ->
        g b2 = g b \/ exists q, In q (p :: l) /\ g b2 = h q).
      { intros g h [E|(q & Hq & E)] F; [|right; exists q; split; [right|]; auto].
        rewrite E. destruct F as [F|(q & [<-|[]] & F)]; auto. right. exists p. split; [left|]; auto. }
      repeat split; apply K; auto.
Qed.

(* the box is the hull of the set, each side being taken by a point *)
Definition hull (P : pt -> Prop) (b : qbox) : Prop :=
  (forall p, P p -> qholds b p) /\
  ((exists p, P p /\ qx0 b == fst p) /\ (exists p, P p /\ qx1 b == fst p)) /\
  ((exists p, P p /\ qy0 b == snd p) /\ (exists p, P p /\ qy1 b == snd p)).

Lemma grown_default l b : l <> [] -> (forall p, In p l -> small p) -> grown qdefault l b -> hull (fun p => In p l) b.
Proof.
  intros NE S (_ & H & [A1 A2] & [A3 A4]). split; auto.
  destruct l as [|p0 l0]; [congruence|]. set (l := p0 :: l0) in *.
  assert (I0 : In p0 l) by (left; auto).
  pose proof (H p0 I0) as [[H1 H2] [H3 H4]]. pose proof (S p0 I0) as [[S1 S2] [S3 S4]].
  unfold qdefault in *. cbn [qx0 qx1 qy0 qy1] in *. fold big in *.
  repeat split.
  - destruct A1 as [E|(q & Hq & E)]; [rewrite E in *; exists p0; split; auto; lra|exists q; rewrite E; split; auto; reflexivity].
  - destruct A2 as [E|(q & Hq & E)]; [rewrite E in *; exists p0; split; auto; lra|exists q; rewrite E; split; auto; reflexivity].
  - destruct A3 as [E|(q & Hq & E)]; [rewrite E in *; exists p0; split; auto; lra|exists q; rewrite E; split; auto; reflexivity].
  - destruct A4 as [E|(q & Hq & E)]; [rewrite E in *; exists p0; split; auto; lra|exists q; rewrite E; split; auto; reflexivity].
Qed.

Lemma hull_smallest P b : hull P b -> qsmallest P b.
Proof.
  intros (H & [(p1 & P1 & E1) (p2 & P2 & E2)] & [(p3 & P3 & E3) (p4 & P4 & E4)]). split; auto.
  intros b' H'. pose proof (H' p1 P1) as [[? ?] _]. pose proof (H' p2 P2) as [[? ?] _]. pose proof (H' p3 P3) as [_ [? ?]]. pose proof (H' p4 P4) as [_ [? ?]].
  split; split; lra.
Qed.

Lemma hull_to_int P b : hull P b -> smallest P (qgrow_to_int b).
Proof.
  intros (H & [(p1 & P1 & E1) (p2 & P2 & E2)] & [(p3 & P3 & E3) (p4 & P4 & E4)]).
  pose proof (H p1 P1) as [[? ?] [? ?]]. unfold qgrow_to_int.
  destruct (ltqP (qx1 b) (qx0 b)); [lra|]. destruct (ltqP (qy1 b) (qy0 b)); [lra|].
  pose proof (fl (qx0 b)). pose proof (fl (qx1 b)). pose proof (fl (qy0 b)). pose proof (fl (qy1 b)).
  split.
  - intros p Hp. destruct (H p Hp) as [[? ?] [? ?]]. unfold holds. cbn [x0 y0 x1 y1]. rewrite !inject_Z_plus. change (inject_Z 1) with 1. split; split; lra.
  - intros b' H'. unfold within. cbn [x0 y0 x1 y1].
    pose proof (H' p1 P1) as [[? ?] _]. pose proof (H' p2 P2) as [[? ?] _]. pose proof (H' p3 P3) as [_ [? ?]]. pose proof (H' p4 P4) as [_ [? ?]].
    assert (G1 : (x0 b' <= Qfloor (qx0 b))%Z) by (apply fl_ge; lra).
    assert (G2 : (Qfloor (qx1 b) < x1 b')%Z) by (apply fl_lt; lra).
    assert (G3 : (y0 b' <= Qfloor (qy0 b))%Z) by (apply fl_ge; lra).
    assert (G4 : (Qfloor (qy1 b) < y1 b')%Z) by (apply fl_lt; lra). lia.
Qed.

(* no range needed to hold the points *)
Lemma grown_int_holds l b p : grown qdefault l b -> In p l -> holds (qgrow_to_int b) p.
Proof.
  intros (_ & H & _) I. destruct (H p I) as [[? ?] [? ?]]. unfold qgrow_to_int.
  destruct (ltqP (qx1 b) (qx0 b)); [lra|]. destruct (ltqP (qy1 b) (qy0 b)); [lra|].
  pose proof (fl (qx0 b)). pose proof (fl (qx1 b)). pose proof (fl (qy0 b)). pose proof (fl (qy1 b)).
  unfold holds. cbn [x0 y0 x1 y1]. rewrite !inject_Z_plus. change (inject_Z 1) with 1. split; split; lra.
Qed.

(** The points visited. *)
Definition in_list (f : pt -> pt) (l : list pt) (P : Z -> Z -> Prop) : Prop :=
  forall p, In p (map f l) <-> exists x y, P x y /\ p = f (at_pix x y).

Lemma visited_all f b : in_list f (visited Discontinuous b) (inb b).
Proof.
  intros p. rewrite in_map_iff. cbn [visited]. split.
  - intros (q & <- & Hq). apply in_flat_map in Hq as (y & Hy & Hq). apply in_map_iff in Hq as (x & <- & Hx).
    apply in_zrange in Hx, Hy. exists x, y. split; [split; lia|auto].
  - intros (x & y & [Hx Hy] & ->). exists (at_pix x y). split; auto. apply in_flat_map. exists y. split; [apply in_zrange; lia|].
    apply in_map_iff. exists x. split; auto. apply in_zrange. lia.
Qed.

Lemma nonempty b : bempty b = false -> (x0 b < x1 b /\ y0 b < y1 b)%Z.
Proof. unfold bempty. destruct (Z.geb_spec (x0 b) (x1 b)), (Z.geb_spec (y0 b) (y1 b)); try discriminate; lia. Qed.

Lemma visited_corners f b : in_list f (visited Convex b) (corner b).
Proof.
  intros p. rewrite in_map_iff. cbn [visited In]. split.
  - intros (q & <- & [<-|[<-|[<-|[<-|[]]]]]); eexists _, _; (split; [|reflexivity]); unfold corner; lia.
  - intros (x & y & [[->| ->] [->| ->]] & ->); eexists; (split; [reflexivity|]); tauto.
Qed.

Lemma visited_border f b : bempty b = false -> in_list f (visited Continuous b) (border b).
Proof.
  intros NE p. apply nonempty in NE as [Ex Ey]. rewrite in_map_iff. cbn [visited]. split.
  - intros (q & <- & Hq). apply in_app_iff in Hq as [Hq|Hq]; apply in_flat_map in Hq as (z & Hz & Hq); apply in_zrange in Hz; cbn [In] in Hq.
    + destruct Hq as [<-|[<-|[]]]; eexists _, _; (split; [|reflexivity]); unfold border, inb; lia.
    + destruct Hq as [<-|[<-|[]]]; eexists _, _; (split; [|reflexivity]); unfold border, inb; lia.
  - intros (x & y & [[Hx Hy] B] & ->). exists (at_pix x y). split; auto. apply in_app_iff.
    destruct (Z.eq_dec y (y0 b)) as [->|N1]; [left; apply in_flat_map; exists x; split; [apply in_zrange; lia|left; auto]|].
    destruct (Z.eq_dec y (y1 b - 1)) as [->|N2]; [left; apply in_flat_map; exists x; split; [apply in_zrange; lia|right; left; auto]|].
    right. apply in_flat_map. exists y. split; [apply in_zrange; lia|].
    destruct B as [->|[->|[?|?]]]; [left; auto|right; left; auto|lia|lia].
Qed.

Lemma corner_in b x y : bempty b = false -> corner b x y -> inb b x y.
Proof. intros NE C. apply nonempty in NE. unfold corner in C. unfold inb. lia. Qed.
Lemma visited_in ty b x y : bempty b = false ->
  (match ty with Convex => corner b | Continuous => border b | Discontinuous => inb b end) x y -> inb b x y.
Proof. intros NE. destruct ty; [apply corner_in, NE| |auto]. intros [H _]; exact H. Qed.

Definition reached (ty : ftype) (b : box) : Z -> Z -> Prop := match ty with Convex => corner b | Continuous => border b | Discontinuous => inb b end.
Lemma visited_ok ty f b : bempty b = false -> in_list f (visited ty b) (reached ty b).
Proof. destruct ty; [intros _; apply visited_corners|apply visited_border|intros _; apply visited_all]. Qed.

Lemma reached_some ty b : bempty b = false -> reached ty b (x0 b) (y0 b).
Proof. intros NE. apply nonempty in NE. destruct ty; unfold reached, corner, border, inb; lia. Qed.

Lemma mapped_hull ty f b : bempty b = false -> in_range f b ->
  hull (fun p => exists x y, reached ty b x y /\ p = f (at_pix x y)) (qgrow_all qdefault (map f (visited ty b))).
Proof.
  intros NE R. pose proof (visited_ok ty f b NE) as V.
  assert (G : hull (fun p => In p (map f (visited ty b))) (qgrow_all qdefault (map f (visited ty b)))).
  { apply grown_default; [| |apply qgrow_all_ok].
    - intros E. assert (K : In (f (at_pix (x0 b) (y0 b))) (map f (visited ty b))) by (apply V; exists (x0 b), (y0 b); split; auto using reached_some). rewrite E in K. destruct K.
    - intros p Hp. apply V in Hp as (x & y & H & ->). apply R. apply (visited_in ty); auto. }
  destruct G as (G & [(p1 & P1 & E1) (p2 & P2 & E2)] & [(p3 & P3 & E3) (p4 & P4 & E4)]).
  split; [intros p Hp; apply G, V, Hp|].
  repeat split; [exists p1|exists p2|exists p3|exists p4]; split; auto; apply V; auto.
Qed.

(* between the corners, the hull of the corners is that of all *)
Lemma corners_hull f b q : bempty b = false -> between_corners f b ->
  hull (fun p => exists x y, corner b x y /\ p = f (at_pix x y)) q -> hull (image_of f b) q.
Proof.
  intros NE B (G & [(p1 & P1 & E1) (p2 & P2 & E2)] & [(p3 & P3 & E3) (p4 & P4 & E4)]).
  assert (K : forall p, (exists x y, corner b x y /\ p = f (at_pix x y)) -> image_of f b p).
  { intros p (x & y & C & ->). exists x, y. split; auto. apply corner_in; auto. }
  split; [|repeat split; [exists p1|exists p2|exists p3|exists p4]; split; auto].
  intros p (x & y & I & ->). destruct (B x y I) as [(cx & cy & dx & dy & C & D & L & H) (cx' & cy' & dx' & dy' & C' & D' & L' & H')].
  destruct (G (f (at_pix cx cy))) as [[? ?] [? ?]]; [eauto|]. destruct (G (f (at_pix dx dy))) as [[? ?] [? ?]]; [eauto|].
  destruct (G (f (at_pix cx' cy'))) as [[? ?] [? ?]]; [eauto|]. destruct (G (f (at_pix dx' dy'))) as [[? ?] [? ?]]; [eauto|].
  split; split; lra.
Qed.

Lemma mapped_all f b : bempty b = false -> in_range f b -> smallest (image_of f b) (mapped_bbox Discontinuous f b).
Proof. intros NE R. unfold mapped_bbox. rewrite NE. apply hull_to_int. exact (mapped_hull Discontinuous f b NE R). Qed.
Lemma mapped_border f b : bempty b = false -> in_range f b -> smallest (image_of_border f b) (mapped_bbox Continuous f b).
Proof. intros NE R. unfold mapped_bbox. rewrite NE. apply hull_to_int. exact (mapped_hull Continuous f b NE R). Qed.
Lemma mapped_corners f b : bempty b = false -> in_range f b -> between_corners f b -> smallest (image_of f b) (mapped_bbox Convex f b).
Proof. intros NE R B. unfold mapped_bbox. rewrite NE. apply hull_to_int. apply corners_hull; auto. exact (mapped_hull Convex f b NE R). Qed.

(* holding needs no range *)
Lemma mapped_holds ty f b x y : inb b x y -> (ty = Discontinuous \/ ty = Convex /\ between_corners f b) ->
  holds (mapped_bbox ty f b) (f (at_pix x y)).
Proof.
  intros I H. assert (NE : bempty b = false) by (destruct (bempty b) eqn:E; auto; unfold bempty in E; destruct I; destruct (Z.geb_spec (x0 b) (x1 b)), (Z.geb_spec (y0 b) (y1 b)); try discriminate; lia).
  unfold mapped_bbox. rewrite NE.
  pose proof (qgrow_all_ok (map f (visited ty b)) qdefault) as G. pose proof (visited_ok ty f b NE) as V.
  set (q := qgrow_all qdefault (map f (visited ty b))) in *. clearbody q.
  destruct H as [->|[-> B]].
  - apply (grown_int_holds (map f (visited Discontinuous b))); auto. apply V. exists x, y. split; auto.
  - destruct (B x y I) as [(cx & cy & dx & dy & C & D & L & H) (cx' & cy' & dx' & dy' & C' & D' & L' & H')].
    assert (K : forall x y, corner b x y -> holds (qgrow_to_int q) (f (at_pix x y))).
    { intros u v HC. apply (grown_int_holds (map f (visited Convex b))); auto. apply V. exists u, v. auto. }
    destruct (K cx cy C) as [[? ?] [? ?]]. destruct (K dx dy D) as [[? ?] [? ?]]. destruct (K cx' cy' C') as [[? ?] [? ?]]. destruct (K dx' dy' D') as [[? ?] [? ?]].
    split; split; lra.
Qed.

(** The boxes of whole images. *)
Lemma qgrow_all_app b l l' : qgrow_all (qgrow_all b l) l' = qgrow_all b (l ++ l').
Proof. unfold qgrow_all. now rewrite fold_left_app. Qed.

Lemma list_hull f b l (P : Z -> Z -> Prop) x0 y0 : in_list f l P -> P x0 y0 -> (forall x y, P x y -> inb b x y) -> in_range f b ->
  hull (fun p => exists x y, P x y /\ p = f (at_pix x y)) (qgrow_all qdefault (map f l)).
Proof.
  intros V P0 I R.
  assert (G : hull (fun p => In p (map f l)) (qgrow_all qdefault (map f l))).
  { apply grown_default; [| |apply qgrow_all_ok].
    - intros E. assert (K : In (f (at_pix x0 y0)) (map f l)) by (apply V; eauto). rewrite E in K. destruct K.
    - intros p Hp. apply V in Hp as (x & y & H & ->). apply R. auto. }
  destruct G as (G & [(p1 & P1 & E1) (p2 & P2 & E2)] & [(p3 & P3 & E3) (p4 & P4 & E4)]).
  split; [intros p Hp; apply G, V, Hp|].
  repeat split; [exists p1|exists p2|exists p3|exists p4]; split; auto; apply V; auto.
Qed.

Lemma computed_hull f w h : (0 < w)%Z -> (0 < h)%Z -> in_range f (Box 0 0 w h) ->
  hull (image_of f (Box 0 0 w h)) (compute_transformed_bbox w h f).
Proof.
  intros W H R. unfold compute_transformed_bbox, image_of.
  apply (list_hull f (Box 0 0 w h) _ (inb (Box 0 0 w h)) 0 0); auto; [|unfold inb; cbn [x0 y0 x1 y1]; lia].
  intros p. rewrite in_map_iff. unfold inb; cbn [x0 y0 x1 y1]. split.
  - intros (q & <- & Hq). apply in_flat_map in Hq as (x & Hx & Hq). apply in_map_iff in Hq as (y & <- & Hy).
    apply in_zrange in Hx, Hy. exists x, y. split; [split; lia|auto].
  - intros (x & y & [Hx Hy] & ->). exists (at_pix x y). split; auto. apply in_flat_map. exists x. split; [apply in_zrange; lia|].
    apply in_map_iff. exists y. split; auto. apply in_zrange. lia.
Qed.

Lemma fast_hull f b : bempty b = false -> in_range f b -> hull (image_of_border f b) (compute_transformed_bbox_fast b f).
Proof.
  intros NE R. unfold compute_transformed_bbox_fast. rewrite !qgrow_all_app, <- !map_app.
  apply nonempty in NE as [Ex Ey].
  apply (list_hull f b _ (border b) (x0 b) (y0 b)); auto; [|unfold border, inb; lia|intros x y [H _]; exact H].
  intros p. rewrite in_map_iff. split.
  - intros (q & <- & Hq). rewrite !in_app_iff, !in_map_iff in Hq.
    destruct Hq as [Hq|[Hq|[Hq|Hq]]]; destruct Hq as (z & <- & Hz); apply in_zrange in Hz; eexists _, _; (split; [|reflexivity]); unfold border, inb; lia.
  - intros (x & y & [[Hx Hy] B] & ->). exists (at_pix x y). split; auto. rewrite !in_app_iff, !in_map_iff.
    destruct B as [->|[->|[->| ->]]].
    + right. right. left. exists y. split; auto. apply in_zrange. lia.
    + right. right. right. exists y. split; auto. apply in_zrange. lia.
    + left. exists x. split; auto. apply in_zrange. lia.
    + right. left. exists x. split; auto. apply in_zrange. lia.
Qed.

Lemma border_hull f b q : bempty b = false -> between_corners f b -> hull (image_of_border f b) q -> hull (image_of f b) q.
Proof.
  intros NE B (G & [(p1 & P1 & E1) (p2 & P2 & E2)] & [(p3 & P3 & E3) (p4 & P4 & E4)]).
  assert (K : forall p, image_of_border f b p -> image_of f b p).
  { intros p (x & y & [C _] & ->). exists x, y. auto. }
  split; [|repeat split; [exists p1|exists p2|exists p3|exists p4]; split; auto].
  assert (C1 : forall x y, corner b x y -> image_of_border f b (f (at_pix x y))).
  { intros x y C. exists x, y. split; auto. split; [apply corner_in; auto|]. unfold corner in C. lia. }
  intros p (x & y & I & ->). destruct (B x y I) as [(cx & cy & dx & dy & C & D & L & H) (cx' & cy' & dx' & dy' & C' & D' & L' & H')].
  destruct (G (f (at_pix cx cy))) as [[? ?] [? ?]]; [auto|]. destruct (G (f (at_pix dx dy))) as [[? ?] [? ?]]; [auto|].
  destruct (G (f (at_pix cx' cy'))) as [[? ?] [? ?]]; [auto|]. destruct (G (f (at_pix dx' dy'))) as [[? ?] [? ?]]; [auto|].
  split; split; lra.
Qed.

Lemma hulls_equal P a b : hull P a -> hull P b -> qbox_eq a b.
Proof.
  intros A B. pose proof (hull_smallest P a A) as [A1 A2]. pose proof (hull_smallest P b B) as [B1 B2].
  destruct (A2 b B1) as [[? ?] [? ?]]. destruct (B2 a A1) as [[? ?] [? ?]]. split; split; lra.
Qed.

(** Affine maps and homographies. *)
Lemma linear_corners (g : pt -> Q) a b c bx x y : inb bx x y -> (forall p, g p == a * fst p + b * snd p + c) ->
  exists cx cy dx dy, corner bx cx cy /\ corner bx dx dy /\ g (at_pix cx cy) <= g (at_pix x y) <= g (at_pix dx dy).
Proof.
  intros [[X1 X2] [Y1 Y2]] G.
  assert (X3 : (x <= x1 bx - 1)%Z) by lia. assert (Y3 : (y <= y1 bx - 1)%Z) by lia.
  apply inj_le2 in X1, X3, Y1, Y3.
  exists (if Qle_bool 0 a then x0 bx else (x1 bx - 1)%Z), (if Qle_bool 0 b then y0 bx else (y1 bx - 1)%Z),
         (if Qle_bool 0 a then (x1 bx - 1)%Z else x0 bx), (if Qle_bool 0 b then (y1 bx - 1)%Z else y0 bx).
  destruct (leqP 0 a), (leqP 0 b); (split; [unfold corner; lia|]); (split; [unfold corner; lia|]); rewrite !G; unfold at_pix; cbn [fst snd]; split; nra.
Qed.

Lemma affine_between f b : affine_map f -> between_corners f b.
Proof.
  intros (a1 & b1 & c1 & a2 & b2 & c2 & H) x y I. split.
  - apply (linear_corners (fun p => fst (f p)) a1 b1 c1); auto. intros p. apply H.
  - apply (linear_corners (fun p => snd (f p)) a2 b2 c2); auto. intros p. apply H.
Qed.

Lemma depth_pos h b x y : inb b x y -> (forall cx cy, corner b cx cy -> 0 < depth h (at_pix cx cy)) -> 0 < depth h (at_pix x y).
Proof.
  intros I D. destruct (linear_corners (depth h) (h20 h) (h21 h) (h22 h) b x y I) as (cx & cy & _ & _ & C & _ & L & _); [intros; reflexivity|].
  specialize (D cx cy C). lra.
Qed.

Lemma ratio_corners (u w : pt -> Q) ua ub uc wa wb wc bx x y :
  inb bx x y -> (forall p, u p == ua * fst p + ub * snd p + uc) -> (forall p, w p == wa * fst p + wb * snd p + wc) ->
  (forall cx cy, corner bx cx cy -> 0 < w (at_pix cx cy)) -> 0 < w (at_pix x y) ->
  exists cx cy dx dy, corner bx cx cy /\ corner bx dx dy /\
    u (at_pix cx cy) / w (at_pix cx cy) <= u (at_pix x y) / w (at_pix x y) <= u (at_pix dx dy) / w (at_pix dx dy).
Proof.
  intros I U W C P. set (t := u (at_pix x y) / w (at_pix x y)).
  assert (T : u (at_pix x y) == t * w (at_pix x y)) by (unfold t; field; lra).
  destruct (linear_corners (fun p => u p - t * w p) (ua - t * wa) (ub - t * wb) (uc - t * wc) bx x y I) as (cx & cy & dx & dy & Cc & Cd & L & H).
  { intros p. rewrite U, W. ring. }
  cbv beta in L, H. exists cx, cy, dx, dy. split; [auto|split; [auto|split]].
  - apply Qle_shift_div_r; [auto|]. lra.
  - apply Qle_shift_div_l; [auto|]. lra.
Qed.

Lemma div_neg a b : (- a) / (- b) == a / b.
Proof.
  destruct (Qeq_dec b 0) as [E|N]; [|field; auto].
  unfold Qdiv. assert (F : - b == 0) by lra. rewrite E at 2. rewrite F. change (/ 0) with 0. ring.
Qed.

Lemma ratio_one_sign (u : pt -> Q) h ua ub uc bx x y :
  inb bx x y -> (forall p, u p == ua * fst p + ub * snd p + uc) -> one_sign h bx ->
  exists cx cy dx dy, corner bx cx cy /\ corner bx dx dy /\
    u (at_pix cx cy) / depth h (at_pix cx cy) <= u (at_pix x y) / depth h (at_pix x y) <= u (at_pix dx dy) / depth h (at_pix dx dy).
Proof.
  intros I U [D|D].
  - apply (ratio_corners u (depth h) ua ub uc (h20 h) (h21 h) (h22 h)); auto; [intros; reflexivity|]. apply (depth_pos h bx); auto.
  - destruct (ratio_corners (fun p => - u p) (fun p => - depth h p) (- ua) (- ub) (- uc) (- h20 h) (- h21 h) (- h22 h) bx x y I) as (cx & cy & dx & dy & C1 & C2 & L & H).
    + intros p. rewrite U. ring.
    + intros p. unfold depth. ring.
    + intros cx cy C. specialize (D cx cy C). lra.
    + destruct (linear_corners (depth h) (h20 h) (h21 h) (h22 h) bx x y I) as (_ & _ & dx & dy & _ & C & _ & L); [intros; reflexivity|].
      specialize (D dx dy C). lra.
    + cbv beta in L, H. rewrite !div_neg in L, H. exists cx, cy, dx, dy. auto.
Qed.

Lemma homography_between h b : one_sign h b -> between_corners (homography h) b.
Proof.
  intros D x y I. split.
  - apply (ratio_one_sign (fun p => h00 h * fst p + h01 h * snd p + h02 h) h (h00 h) (h01 h) (h02 h)); auto; intros; reflexivity.
  - apply (ratio_one_sign (fun p => h10 h * fst p + h11 h * snd p + h12 h) h (h10 h) (h11 h) (h12 h)); auto; intros; reflexivity.
Qed.
