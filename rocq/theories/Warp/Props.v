(** Interpolation, transforms and transformed images. *)
From Coq Require Import List Bool ZArith QArith Qround Lia Lqa Psatz.
From Verif Require Import Lib.Base Lib.Img BBox.Model BBox.Box2 Warp.Model Warp.Spec Warp.IProofs Warp.BProofs Warp.XProofs Warp.AProofs.
Import ListNotations.
Local Open Scope Q_scope.

(** ** Interpolation *)

(* At a whole pixel every interpolation gives that pixel, flag and value, and
   reads no other one. *)
Theorem interpolation_at_pixels k c (v : view) i j x y p :
  i == inject_Z x -> j == inject_Z y -> v x y = Ok p -> storable c (snd p) ->
  exists q, interpolate k c v i j = Ok q /\ fst q = fst p /\ snd q == snd p.
Proof. apply at_pixels. Qed.

(* The nearest pixel is at most half a unit away on each axis; of two equally
   near ones the one further from zero is taken. *)
Theorem nearest_pixel c f i j :
  exists x y, interpolate Nearest c (whole f) i j = Ok (f x y) /\
    (i - (1 # 2) <= inject_Z x <= i + (1 # 2)) /\ (j - (1 # 2) <= inject_Z y <= j + (1 # 2)) /\
    (inject_Z x == i - (1 # 2) -> i < 0) /\ (inject_Z x == i + (1 # 2) -> 0 <= i) /\
    (inject_Z y == j - (1 # 2) -> j < 0) /\ (inject_Z y == j + (1 # 2) -> 0 <= j).
Proof.
  exists (round_away i), (round_away j). split; [reflexivity|]. split; [apply round_close|]. split; [apply round_close|].
  split; [intros E; apply round_tie; lra|]. split; [intros E; apply round_tie'; lra|].
  split; [intros E; apply round_tie; lra|intros E; apply round_tie'; lra].
Qed.

(* Bilinear interpolation is exact where the four pixels around the point follow
   a function a + bx + cy + dxy. *)
Theorem bilinear_reproduces f a b c d i j :
  square (fun x y => snd (f x y) == a + b * inject_Z x + c * inject_Z y + d * (inject_Z x * inject_Z y)) (Qfloor i) (Qfloor j) 2 ->
  exists p, interpolate Bilinear Real (whole f) i j = Ok p /\ snd p == a + b * i + c * j + d * (i * j).
Proof.
  intros H. destruct (bilinear_value Real f i j) as (p & E & V & _). exists p. split; [exact E|]. rewrite V.
  rewrite <- (bil_linear a b c d i j). apply bil_ext. exact H.
Qed.

(* Bicubic interpolation is exact where the sixteen pixels around the point
   follow a polynomial of degree at most two in each coordinate. *)
Theorem bicubic_reproduces f a0 a1 a2 b0 b1 b2 c0 c1 c2 i j :
  let poly x y := quadratic (quadratic a0 a1 a2 y) (quadratic b0 b1 b2 y) (quadratic c0 c1 c2 y) x in
  square (fun x y => snd (f x y) == poly (inject_Z x) (inject_Z y)) (Qfloor i - 1) (Qfloor j - 1) 4 ->
  exists p, interpolate Bicubic Real (whole f) i j = Ok p /\ snd p == poly i j.
Proof.
  intros poly H. destruct (bicubic_value Real f i j) as (p & E & V & _). exists p. split; [exact E|]. rewrite V. unfold poly.
  rewrite <- (cub_quadratic (quadratic a0 a1 a2) (quadratic b0 b1 b2) (quadratic c0 c1 c2) a0 a1 a2 b0 b1 b2 c0 c1 c2 i j) by (intros; reflexivity).
  apply cub_ext. exact H.
Qed.

(* Bilinear interpolation of reals stays between the least and the largest of
   the four pixels. *)
Theorem bilinear_between f l h i j :
  square (fun x y => l <= snd (f x y) <= h) (Qfloor i) (Qfloor j) 2 ->
  exists p, interpolate Bilinear Real (whole f) i j = Ok p /\ l <= snd p <= h.
Proof.
  intros H. destruct (bilinear_value Real f i j) as (p & E & V & _). exists p. split; [exact E|]. rewrite V. apply bil_between. exact H.
Qed.

(* For pixels of an integer type the result fits the type without clamping, and
   is the exact interpolation rounded to an integer. *)
Theorem bilinear_fits f lo hi i j :
  square (fun x y => inject_Z lo <= snd (f x y) <= inject_Z hi) (Qfloor i) (Qfloor j) 2 ->
  exists p q z, interpolate Bilinear (Int lo hi) (whole f) i j = Ok p /\ interpolate Bilinear Real (whole f) i j = Ok q /\
    snd p == inject_Z z /\ (lo <= z <= hi)%Z /\ snd q - (1 # 2) <= inject_Z z <= snd q + (1 # 2) /\ fst p = fst q.
Proof.
  intros H. destruct (bilinear_value Real f i j) as (q & E & V & F1 & F2). destruct (bilinear_value (Int lo hi) f i j) as (p & E' & V' & F1' & F2').
  assert (B : inject_Z lo <= snd p <= inject_Z hi) by (rewrite V'; apply bil_between, H).
  pose proof (round_within _ _ _ B) as W. cbn [interpolate]. rewrite E, E'. cbn [cast_round].
  destruct (Z.leb_spec lo (round_away (snd p))), (Z.leb_spec (round_away (snd p)) hi); try lia. cbn [andb].
  eexists _, _, (round_away (snd p)). split; [reflexivity|]. split; [reflexivity|]. cbn [fst snd]. split; [reflexivity|]. split; [lia|].
  pose proof (round_close (snd p)). assert (Q : snd p == snd q) by (rewrite V, V'; reflexivity). split; [lra|].
  destruct (Qeq_bool (inject_Z (Qfloor i)) i && Qeq_bool (inject_Z (Qfloor j)) j) eqn:G.
  - rewrite F2, F2'; auto; intros N; apply off_gridP in N; congruence.
  - apply off_gridP in G. rewrite F1, F1' by auto. reflexivity.
Qed.

(* Bicubic interpolation of an integer type always gives a value of the type:
   the exact one rounded, or the limit it exceeds. *)
Theorem bicubic_clamps f lo hi i j :
  (lo <= hi)%Z ->
  exists p q z, interpolate Bicubic (Int lo hi) (whole f) i j = Ok p /\ interpolate Bicubic Real (whole f) i j = Ok q /\
    snd p == inject_Z z /\ (lo <= z <= hi)%Z /\
    (inject_Z lo <= snd q <= inject_Z hi -> snd q - (1 # 2) <= inject_Z z <= snd q + (1 # 2)) /\
    (inject_Z hi < snd q -> z = hi) /\ (snd q < inject_Z lo -> z = lo).
Proof.
  intros LH. destruct (bicubic_value Real f i j) as (q & E & V & _). destruct (bicubic_value (Int lo hi) f i j) as (p & E' & V' & _).
  assert (Q : snd p == snd q) by (rewrite V, V'; reflexivity). cbn [interpolate]. rewrite E, E'. cbn [cast_clamp].
  pose proof (inj_le2 lo hi LH). destruct (ltqP (inject_Z hi) (snd p)); [|destruct (ltqP (snd p) (inject_Z lo))].
  - eexists _, _, hi. split; [reflexivity|]. split; [reflexivity|]. cbn [snd]. split; [reflexivity|]. split; [lia|]. split; [intros; lra|]. split; [auto|intros; lra].
  - eexists _, _, lo. split; [reflexivity|]. split; [reflexivity|]. cbn [snd]. split; [reflexivity|]. split; [lia|]. split; [intros; lra|]. split; [intros; lra|auto].
  - assert (B : inject_Z lo <= snd p <= inject_Z hi) by lra. pose proof (round_within _ _ _ B) as W. cbn [cast_round].
    destruct (Z.leb_spec lo (round_away (snd p))), (Z.leb_spec (round_away (snd p)) hi); try lia. cbn [andb].
    eexists _, _, (round_away (snd p)). split; [reflexivity|]. split; [reflexivity|]. cbn [fst snd]. split; [reflexivity|]. split; [lia|].
    pose proof (round_close (snd p)). split; [lra|]. split; intros; lra.
Qed.

(* Between the pixels the result is valid exactly if all the pixels around the
   point are: four for bilinear, sixteen for bicubic interpolation. *)
Theorem interpolation_valid f i j :
  off_grid i j ->
  (exists p, interpolate Bilinear Real (whole f) i j = Ok p /\
    (fst p = true <-> square (fun x y => fst (f x y) = true) (Qfloor i) (Qfloor j) 2)) /\
  (exists p, interpolate Bicubic Real (whole f) i j = Ok p /\
    (fst p = true <-> square (fun x y => fst (f x y) = true) (Qfloor i - 1) (Qfloor j - 1) 4)).
Proof.
  intros O. split.
  - destruct (bilinear_value Real f i j) as (p & E & _ & F & _). exists p. split; [exact E|]. rewrite (F O). rewrite !andb_true_iff. split.
    + intros [[A B] [C D]] x y X Y.
      assert (XX : x = Qfloor i \/ x = (Qfloor i + 1)%Z) by lia. assert (YY : y = Qfloor j \/ y = (Qfloor j + 1)%Z) by lia.
      destruct XX as [->| ->], YY as [->| ->]; auto.
    + intros H. repeat split; apply H; lia.
  - destruct (bicubic_value Real f i j) as (p & E & _ & F & _). exists p. split; [exact E|]. rewrite (F O). unfold valid_row. rewrite !andb_true_iff. split.
    + intros H x y X Y.
      assert (XX : x = (Qfloor i - 1)%Z \/ x = (Qfloor i - 1 + 1)%Z \/ x = (Qfloor i - 1 + 2)%Z \/ x = (Qfloor i - 1 + 3)%Z) by lia.
      assert (YY : y = (Qfloor j - 1)%Z \/ y = Qfloor j \/ y = (Qfloor j + 1)%Z \/ y = (Qfloor j + 2)%Z) by lia.
      destruct XX as [->|[->|[->| ->]]], YY as [->|[->|[->| ->]]]; tauto.
    + intros H. repeat split; apply H; lia.
Qed.

(* Reading any point of a region from the copy that is made for the region gives
   the same as reading the whole image: the margin is wide enough. *)
Theorem interpolation_regions k c f b i j :
  holds b (i, j) ->
  interpolate k c (interpolation_prerasterize k f b) i j = interpolate k c (whole f) i j.
Proof. apply regions. Qed.

(* Bicubic interpolation can leave the range of the pixels it is made from. *)
Theorem bicubic_between_refuted :
  ~ (forall f i j l h, (forall x y, l <= snd (f x y) <= h) ->
     exists p, interpolate Bicubic Real (whole f) i j = Ok p /\ l <= snd p <= h).
Proof.
  intros H. specialize (H (fun x _ => (true, if (0 <? x)%Z then 1 else 0)) (3 # 2) 0 0 1).
  destruct H as (p & E & A & B).
  - intros x y. cbn [snd]. destruct (0 <? x)%Z; lra.
  - vm_compute in E. injection E as <-. vm_compute in B. apply B. reflexivity.
Qed.

(* A pixel of weight zero still decides on the validity: on a column between two
   rows all the pixels used are valid, but an invalid neighbour in the next
   column makes the result invalid. *)
Theorem weightless_neighbour_refuted :
  ~ (forall f x j, (forall y, fst (f x y) = true) ->
     exists p, interpolate Bilinear Real (whole f) (inject_Z x) j = Ok p /\ fst p = true).
Proof.
  intros H. destruct (H (fun x y => ((x =? 0)%Z, 1)) 0%Z (1 # 2)) as (p & E & F); [reflexivity|].
  vm_compute in E. injection E as <-. discriminate F.
Qed.

(** ** Transforms *)

(* The two directions of the linear and affine transforms undo each other; a
   singular matrix is refused. *)
Theorem transforms_invert :
  inverses identity_tx /\
  (forall sx sy, ~ sx == 0 -> ~ sy == 0 -> inverses (resample_tx sx sy)) /\
  (forall dx dy, inverses (translate_tx dx dy)) /\
  (forall m, ~ ma m * md m == mb m * mc m -> exists t, linear_tx m = Ok t /\ inverses t /\
     forall p, peq (forward t p) (ma m * fst p + mb m * snd p, mc m * fst p + md m * snd p)) /\
  (forall m o, ~ ma m * md m == mb m * mc m -> exists t, affine_tx m o = Ok t /\ inverses t /\
     forall p, peq (forward t p) (ma m * fst p + mb m * snd p + fst o, mc m * fst p + md m * snd p + snd o)) /\
  (forall m o, ma m * md m == mb m * mc m -> linear_tx m = Throw OtherErr /\ affine_tx m o = Throw OtherErr).
Proof.
  split; [intros p; split; apply peq_refl|]. split; [|split; [|split; [|split]]].
  - intros sx sy X Y p. unfold resample_tx, peq. cbn [forward reverse fst snd]. repeat split; field; auto.
  - intros dx dy p. unfold translate_tx, peq. cbn [forward reverse fst snd]. repeat split; ring.
  - intros m D. destruct (inverse2_ok m) as (n & E & _); [unfold det2; intros K; apply D; lra|].
    unfold linear_tx. rewrite E. cbn [bind]. eexists. split; [reflexivity|]. split; [intros p; apply linear_both, E|]. intros p. apply peq_refl.
  - intros m o D. destruct (inverse2_ok m) as (n & E & _); [unfold det2; intros K; apply D; lra|].
    unfold affine_tx. rewrite E. cbn [bind]. eexists. split; [reflexivity|]. split; [intros p; apply affine_both, E|]. intros p. apply peq_refl.
  - intros m o D. unfold linear_tx, affine_tx. rewrite inverse2_none by (unfold det2; lra). split; reflexivity.
Qed.

(* A rotation keeps its centre and all distances, and turns the first axis to
   the given direction. *)
Theorem rotation_is_rigid c s center :
  c * c + s * s == 1 ->
  exists t, rotate_tx c s center = Ok t /\ inverses t /\
    peq (forward t center) center /\
    peq (forward t (fst center + 1, snd center)) (fst center + c, snd center + s) /\
    (forall p q, distance2 (forward t p) (forward t q) == distance2 p q).
Proof.
  intros U. unfold rotate_tx. destruct (inverse2_ok (M2 c (- s) s c)) as (n & E & _).
  { unfold det2. cbn [ma mb mc md]. intros K. lra. }
  rewrite E. cbn [bind]. eexists. split; [reflexivity|]. split; [intros p; apply affine_both, E|].
  unfold affine_forward, mulv, peq, distance2. cbn [forward ma mb mc md fst snd].
  split; [split; ring|]. split; [split; ring|].
  intros [p1 p2] [q1 q2]. cbn [fst snd].
  transitivity ((c * c + s * s) * ((p1 - q1) * (p1 - q1) + (p2 - q2) * (p2 - q2))); [ring|rewrite U; ring].
Qed.

(* The two directions of a homography undo each other where the denominators do
   not vanish. *)
Theorem homography_inverts h :
  ~ det3 h == 0 ->
  exists n t, inverse3 h = Ok n /\ homography_tx h = Ok t /\
    (forall p, ~ depth n p == 0 -> peq (forward t (reverse t p)) p) /\
    (forall p, ~ depth h p == 0 -> peq (reverse t (forward t p)) p).
Proof.
  intros D. destruct (inverse3 h) as [n| |] eqn:E; try (unfold inverse3 in E; destruct (eqqP (det3 h) 0); [contradiction|discriminate]).
  exists n. unfold homography_tx. rewrite E. cbn [bind]. eexists. split; [reflexivity|]. split; [reflexivity|]. cbn [forward reverse]. split.
  - intros p. apply homography_inverse, E.
  - intros p. apply homography_inverse', E.
Qed.

(* The inverse of a transform exchanges the directions; a composition applies
   the second transform first and is undone in the opposite order. *)
Theorem composed_transforms t1 t2 p :
  respects (forward t1) -> respects (reverse t2) -> inverses t1 -> inverses t2 ->
  inverses (compose_tx t1 t2) /\ inverses (inverse_tx t1) /\
  forward (compose_tx t1 t2) p = forward t1 (forward t2 p) /\ forward (inverse_tx t1) p = reverse t1 p /\
  (forward_type (compose_tx t1 t2) = Convex <-> forward_type t1 = Convex /\ forward_type t2 = Convex) /\
  (forward_type (compose_tx t1 t2) = Discontinuous <-> forward_type t1 = Discontinuous \/ forward_type t2 = Discontinuous) /\
  (reverse_type (compose_tx t1 t2) = Convex <-> reverse_type t1 = Convex /\ reverse_type t2 = Convex) /\
  (reverse_type (compose_tx t1 t2) = Discontinuous <-> reverse_type t1 = Discontinuous \/ reverse_type t2 = Discontinuous) /\
  forward_type (inverse_tx t1) = reverse_type t1 /\ reverse_type (inverse_tx t1) = forward_type t1.
Proof.
  intros R1 R2 I1 I2. split; [|split; [intros q; cbn [inverse_tx forward reverse]; destruct (I1 q); auto|split; [reflexivity|split; [reflexivity|]]]].
  - intros q. cbn [compose_tx forward reverse]. split.
    + apply (peq_trans _ (forward t1 (reverse t1 q))); [apply R1, I2|apply I1].
    + apply (peq_trans _ (reverse t2 (forward t2 q))); [apply R2, I1|apply I2].
  - cbn [compose_tx inverse_tx forward_type reverse_type].
    destruct (forward_type t1), (forward_type t2), (reverse_type t1), (reverse_type t2); cbn [compose_type]; repeat split; intuition congruence.
Qed.

(* An affine transform is got back from its matrix, and the matrix is the one of
   its forward direction. *)
Theorem affine_matrix_round_trip m o t :
  affine_tx m o = Ok t ->
  exists t', mat2affine (affine2mat t) = Ok t' /\
    (forall p, peq (forward t' p) (forward t p)) /\ (forall p, peq (reverse t' p) (reverse t p)) /\
    (forall p, peq (forward t p) (homography (affine2mat t) p)).
Proof.
  intros E. unfold affine_tx in E. destruct (inverse2 m) as [n| |] eqn:I; try discriminate. cbn [bind] in E. injection E as <-.
  apply inverse2_some in I as (D & A & B & C & F).
  unfold mat2affine, affine_tx, affine2mat, affine_forward. cbn [forward fst snd h00 h01 h02 h10 h11 h12].
  set (m' := M2 _ _ _ _).
  assert (M' : ma m' == ma m /\ mb m' == mb m /\ mc m' == mc m /\ md m' == md m) by (unfold m'; cbn [ma mb mc md]; repeat split; ring).
  destruct M' as (MA & MB & MC & MD).
  assert (DD : det2 m' == det2 m) by (unfold det2; rewrite MA, MB, MC, MD; reflexivity).
  destruct (inverse2_ok m') as (n' & -> & A' & B' & C' & F'); [rewrite DD; auto|]. cbn [bind].
  eexists. split; [reflexivity|]. cbn [forward reverse]. unfold affine_forward, affine_reverse, homography, peq. cbn [fst snd h00 h01 h02 h10 h11 h12 h20 h21 h22].
  split; [intros p; rewrite MA, MB, MC, MD; split; ring|]. split.
  - intros p. rewrite A', B', C', F', A, B, C, F, MA, MB, MC, MD, DD. split; field; auto.
  - intros p. split; field; lra.
Qed.

(* The box of a transformed box of pixels is the smallest one with all the
   transformed pixels: for a function declared discontinuous in any case, for one
   declared convex if each pixel lands between the corners.  For a function
   declared continuous the border of the box is covered. *)
Theorem transformed_boxes f b :
  bempty b = false -> in_range f b ->
  smallest (image_of f b) (mapped_bbox Discontinuous f b) /\
  smallest (image_of_border f b) (mapped_bbox Continuous f b) /\
  (between_corners f b -> smallest (image_of f b) (mapped_bbox Convex f b)).
Proof. intros NE R. split; [apply mapped_all|split; [apply mapped_border|intros; apply mapped_corners]]; auto. Qed.

(* The box of an empty box is empty. *)
Theorem transformed_empty_box t b :
  bempty b = true -> bempty (forward_bbox t b) = true /\ bempty (reverse_bbox t b) = true.
Proof. intros E. unfold forward_bbox, reverse_bbox, mapped_bbox. rewrite E. split; reflexivity. Qed.

(* The transforms that declare themselves convex and are affine keep each pixel
   between the corners, in both directions and composed; so does a homography
   whose denominator has one sign at the corners. *)
Theorem corners_suffice :
  (forall f b, affine_map f -> between_corners f b) /\
  (forall sx sy, affine_map (forward (resample_tx sx sy)) /\ affine_map (reverse (resample_tx sx sy))) /\
  (forall dx dy, affine_map (forward (translate_tx dx dy)) /\ affine_map (reverse (translate_tx dx dy))) /\
  (forall m t, linear_tx m = Ok t -> affine_map (forward t) /\ affine_map (reverse t)) /\
  (forall m o t, affine_tx m o = Ok t -> affine_map (forward t) /\ affine_map (reverse t)) /\
  (forall c s p t, rotate_tx c s p = Ok t -> affine_map (forward t) /\ affine_map (reverse t)) /\
  (forall t1 t2, affine_map (forward t1) -> affine_map (forward t2) -> affine_map (forward (compose_tx t1 t2))) /\
  (forall h b, one_sign h b -> between_corners (homography h) b).
Proof.
  split; [apply affine_between|]. split; [|split; [|split; [|split; [|split; [|split; [|apply homography_between]]]]]].
  - intros sx sy. split.
    + exists sx, 0, 0, 0, sy, 0. intros p. unfold peq. cbn [resample_tx forward fst snd]. split; ring.
    + exists (/ sx), 0, 0, 0, (/ sy), 0. intros p. unfold peq. cbn [resample_tx reverse fst snd]. unfold Qdiv. split; ring.
  - intros dx dy. split.
    + exists 1, 0, dx, 0, 1, dy. intros p. unfold peq. cbn [translate_tx forward fst snd]. split; ring.
    + exists 1, 0, (- dx), 0, 1, (- dy). intros p. unfold peq. cbn [translate_tx reverse fst snd]. split; ring.
  - intros m t E. unfold linear_tx in E. destruct (inverse2 m) as [n| |]; try discriminate. injection E as <-. split; [apply linear_is_affine|apply (linear_is_affine n)].
  - intros m o t E. unfold affine_tx in E. destruct (inverse2 m) as [n| |]; try discriminate. injection E as <-. cbn [forward reverse]. split; [apply affine_is_affine|]. apply (affine_is_affine n).
  - intros c s p t E. unfold rotate_tx in E. destruct (inverse2 (M2 c (- s) s c)) as [n| |]; try discriminate. injection E as <-. cbn [forward reverse]. split; [apply affine_is_affine|]. apply (affine_is_affine n).
  - intros t1 t2 A B. exact (affine_compose _ _ A B).
Qed.

(* The box of a whole image over all its pixels is the smallest, the faster one
   covers the border, and the two agree if the pixels stay between the corners. *)
Theorem transformed_image_box f w h :
  (0 < w)%Z -> (0 < h)%Z -> in_range f (Box 0 0 w h) ->
  qsmallest (image_of f (Box 0 0 w h)) (compute_transformed_bbox w h f) /\
  qsmallest (image_of_border f (Box 0 0 w h)) (compute_transformed_bbox_fast (Box 0 0 w h) f) /\
  (between_corners f (Box 0 0 w h) -> qbox_eq (compute_transformed_bbox w h f) (compute_transformed_bbox_fast (Box 0 0 w h) f)).
Proof.
  intros W H R. assert (NE : bempty (Box 0 0 w h) = false) by (unfold bempty; cbn [x0 y0 x1 y1]; destruct (Z.geb_spec 0 w), (Z.geb_spec 0 h); auto; lia).
  split; [apply hull_smallest, computed_hull; auto|]. split; [apply hull_smallest, fast_hull; auto|].
  intros B. apply (hulls_equal (image_of f (Box 0 0 w h))); [apply computed_hull; auto|]. apply border_hull; auto. apply fast_hull; auto.
Qed.

(* A homography declares itself convex, but where its denominator changes sign
   within the box, the box of the corners misses transformed pixels. *)
Theorem homography_box_refuted :
  ~ (forall h t b x y, homography_tx h = Ok t -> (forall x y, inb b x y -> ~ depth h (at_pix x y) == 0) -> inb b x y ->
     holds (forward_bbox t b) (forward t (at_pix x y))).
Proof.
  intros H. set (h := M3 1 0 0 0 1 0 2 0 (- (7))).
  destruct (homography_tx h) as [t| |] eqn:E; try (vm_compute in E; discriminate E).
  specialize (H h t (Box 0 0 10 1) 4%Z 0%Z E).
  assert (K : holds (forward_bbox t (Box 0 0 10 1)) (forward t (at_pix 4 0))).
  { apply H; [|unfold inb; cbn [x0 y0 x1 y1]; lia]. intros x y _ D. unfold h, depth, at_pix in D. cbn [h20 h21 h22 fst snd] in D.
    assert (F : inject_Z (2 * x) == inject_Z 7) by (rewrite inject_Z_mult; change (inject_Z 2) with 2; change (inject_Z 7) with 7; lra).
    apply inj_eq in F. lia. }
  unfold homography_tx in E. destruct (inverse3 h) as [n| |]; try discriminate E. injection E as <-.
  destruct K as [[_ B] _]. vm_compute in B. discriminate B.
Qed.

(* A function that is continuous can leave the box of its values on the border
   inside. *)
Theorem continuous_box_refuted :
  ~ (forall f b x y, inb b x y -> holds (mapped_bbox Continuous f b) (f (at_pix x y))).
Proof.
  intros H. specialize (H (fun p => (fst p * (4 - fst p) * (snd p * (4 - snd p)), snd p)) (Box 0 0 5 5) 2%Z 2%Z).
  destruct H as [[_ B] _]; [unfold inb; cbn [x0 y0 x1 y1]; lia|]. vm_compute in B. discriminate B.
Qed.

(** ** The approximation by a table *)

(* The approximation is always found or given up, never beyond a table.  The
   table found has a power of two of cells, fewer than the box has pixels; it
   holds the exact values at its nodes; the last refinement moved no node by more
   than the tolerance, and each earlier one did.  It is given up only if no such
   table is accurate. *)
Theorem approximation_table t b :
  respects (reverse t) -> bempty b = false ->
  exists r, approximate t b = Ok r /\
    match r with
    | Some m => exists k, (1 <= k)%Z /\ icols m = (2 ^ k + 1)%Z /\ irows m = (2 ^ k + 1)%Z /\
        (2 ^ k + 1 < x1 b - x0 b)%Z /\ (2 ^ k + 1 < y1 b - y0 b)%Z /\
        (forall x y, inside m x y -> peq (pix m x y) (reverse t (place b (2 ^ k) x y))) /\
        accurate (reverse t) b (tolerance t) (2 ^ k) /\
        (forall k', (1 <= k' < k)%Z -> ~ accurate (reverse t) b (tolerance t) (2 ^ k'))
    | None => forall k, (1 <= k)%Z -> (2 ^ k + 1 < x1 b - x0 b)%Z -> (2 ^ k + 1 < y1 b - y0 b)%Z ->
        ~ accurate (reverse t) b (tolerance t) (2 ^ k)
    end.
Proof.
  intros F NE. destruct (approximate_ok t b F NE) as (r & E & H). exists r. split; auto. destruct r as [m|]; auto.
  destruct H as (k & K & (C & R & T) & W & HH & Acc & Bad). exists k. split; [auto|split; [auto|split; [auto|split; [auto|split; [auto|split; [|split; auto]]]]]].
  intros x y [X Y]. rewrite C in X. rewrite R in Y. apply T; lia.
Qed.

(* A point is looked up in a cell of the table, wherever it is. *)
Theorem approximation_in_table n p :
  (1 <= n)%Z -> (0 <= table_cell n p /\ table_cell n p + 1 <= n)%Z.
Proof. intros N. pose proof (cell_range n p N). lia. Qed.

(* The approximated transform agrees with the exact one at the nodes of its
   table, and everywhere if the transform is affine. *)
Theorem approximation_exact t b :
  respects (reverse t) -> bempty b = false ->
  exists t', approximate_tx t b = Ok t' /\ tolerance t' == 0 /\
    (forall p, forward t' p = forward t p) /\ reverse_type t' = reverse_type t /\ forward_type t' = forward_type t /\
    (exists k, (1 <= k)%Z /\ forall x y p, (0 <= x <= 2 ^ k)%Z -> (0 <= y <= 2 ^ k)%Z -> peq p (place b (2 ^ k) x y) -> peq (reverse t' p) (reverse t p)) /\
    (affine_map (reverse t) -> forall p, peq (reverse t' p) (reverse t p)).
Proof.
  intros F NE. unfold approximate_tx. destruct (approximate_ok t b F NE) as (r & E & H). rewrite E. cbn [bind].
  eexists. split; [reflexivity|]. cbn [tolerance forward reverse forward_type reverse_type]. split; [reflexivity|]. split; [reflexivity|]. split; [reflexivity|]. split; [reflexivity|].
  destruct r as [m|].
  - destruct H as (k & K & T & W & HH & _). assert (M : (1 <= 2 ^ k)%Z) by (pose proof (Z.pow_pos_nonneg 2 k); lia).
    split; [exists k; split; auto; intros x y p X Y P|].
    + apply (peq_trans _ (reverse t (place b (2 ^ k) x y))); [apply (lookup_node _ _ (2 ^ k)); auto|apply F, peq_sym, P].
    + intros A p. apply (lookup_affine _ _ (2 ^ k)); auto.
  - split; [exists 1%Z; split; [lia|]; intros; apply peq_refl|intros; apply peq_refl].
Qed.

(* The comment promises results to within the tolerance for all arguments in the
   box; only the nodes are looked at, and between them the error is unbounded. *)
Theorem approximation_tolerance_refuted :
  ~ (forall t b t' p, respects (reverse t) -> bempty b = false -> approximate_tx t b = Ok t' -> holds b p ->
     distance2 (reverse t' p) (reverse t p) <= tolerance t * tolerance t).
Proof.
  intros H.
  set (t := Tx (fun p => p) (fun p => (fst p + fst p * (fst p - 4) * (fst p - 8), snd p)) Discontinuous Discontinuous 1).
  assert (R : respects (reverse t)).
  { intros p q [A B]. unfold t, peq. cbn [reverse fst snd]. rewrite A, B. split; reflexivity. }
  destruct (approximation_exact t (Box 0 0 8 8) R eq_refl) as (t' & E & _).
  assert (K : distance2 (reverse t' (2, 2)) (reverse t (2, 2)) <= 1 * 1).
  { apply (H t (Box 0 0 8 8) t' (2, 2)); auto. split; split; vm_compute; (reflexivity || discriminate). }
  assert (V : match approximate_tx t (Box 0 0 8 8) with Ok t' => Qle_bool (distance2 (reverse t' (2, 2)) (reverse t (2, 2))) (1 * 1) | _ => false end = false)
    by (vm_compute; reflexivity).
  rewrite E in V. apply Qle_bool_iff in K. congruence.
Qed.

(** ** Transformed images *)

(* A region of a transformed image rasterized by way of a copy of the pixels it
   needs is the same as the image read directly: for a transform declared
   discontinuous, and for one declared convex whose pixels stay between the
   corners. *)
Theorem transformed_image_regions k c f t b i j :
  inb b i j -> tolerance t <= 0 ->
  (reverse_type t = Discontinuous \/ reverse_type t = Convex /\ between_corners (reverse t) b) ->
  transformed_rasterize k c f t b i j = transformed k c (whole f) t (inject_Z i) (inject_Z j).
Proof.
  intros I T H. unfold transformed_rasterize. destruct (ltqP 0 (tolerance t)); [lra|]. cbn [bind]. unfold transformed.
  apply regions. rewrite <- surjective_pairing. apply mapped_holds; auto.
Qed.

(* With a tolerance the same holds of the approximated transform; for an affine
   one that is the transform itself. *)
Theorem approximated_image_regions k c f t b i j :
  inb b i j -> 0 < tolerance t -> respects (reverse t) ->
  (reverse_type t = Discontinuous \/ reverse_type t = Convex /\ affine_map (reverse t)) ->
  exists t', approximate_tx t b = Ok t' /\
    transformed_rasterize k c f t b i j = transformed k c (whole f) t' (inject_Z i) (inject_Z j) /\
    (affine_map (reverse t) -> forall p, peq (reverse t' p) (reverse t p)).
Proof.
  intros I T R H. assert (NE : bempty b = false) by (destruct (bempty b) eqn:E; auto; unfold bempty in E; destruct I; destruct (Z.geb_spec (x0 b) (x1 b)), (Z.geb_spec (y0 b) (y1 b)); try discriminate; lia).
  destruct (approximation_exact t b R NE) as (t' & E & _ & _ & RT & _ & _ & A). exists t'. split; auto. split; auto.
  unfold transformed_rasterize. destruct (ltqP 0 (tolerance t)); [|lra]. rewrite E. cbn [bind]. unfold transformed.
  apply regions. rewrite <- surjective_pairing. apply mapped_holds; auto. rewrite RT. destruct H as [H|[H AF]]; auto. right. split; auto.
  apply affine_between. destruct AF as (a & b' & d & a' & b'' & d' & AF). exists a, b', d, a', b'', d'. intros p. apply (peq_trans _ (reverse t p)); auto. apply A.
  exists a, b', d, a', b'', d'. exact AF.
Qed.

(* Translated by whole pixels, the image is moved; enlarged, the pixels are found
   at the multiples of the factor. *)
Theorem moved_and_enlarged_images k c f x y :
  storable c (snd (f x y)) ->
  (forall dx dy, exists p, transformed k c (whole f) (translate_tx (inject_Z dx) (inject_Z dy)) (inject_Z (x + dx)) (inject_Z (y + dy)) = Ok p /\
     fst p = fst (f x y) /\ snd p == snd (f x y)) /\
  (forall sx sy, ~ sx == 0 -> ~ sy == 0 -> exists p, transformed k c (whole f) (resample_tx sx sy) (inject_Z x * sx) (inject_Z y * sy) = Ok p /\
     fst p = fst (f x y) /\ snd p == snd (f x y)).
Proof.
  intros S. split.
  - intros dx dy. apply (at_pixels k c (whole f) _ _ x y (f x y)); auto; cbn [translate_tx reverse fst snd]; rewrite inject_Z_plus; ring.
  - intros sx sy X Y. apply (at_pixels k c (whole f) _ _ x y (f x y)); auto; cbn [resample_tx reverse fst snd]; field; auto.
Qed.

(* The pixels of a resized image come from within the image. *)
Theorem resized_from_within cols rows ow oh i j :
  (0 < cols)%Z -> (0 < rows)%Z -> (0 <= i < ow)%Z -> (0 <= j < oh)%Z ->
  holds (Box 0 0 cols rows) (reverse (resize_tx cols rows ow oh) (at_pix i j)).
Proof.
  intros C R I J. unfold resize_tx, resample_tx, at_pix, holds. cbn [reverse fst snd x0 y0 x1 y1].
  assert (K : forall n o z, (0 < n)%Z -> (0 <= z < o)%Z -> inject_Z 0 <= inject_Z z / (inject_Z o / inject_Z n) /\ inject_Z z / (inject_Z o / inject_Z n) < inject_Z n).
  { intros n o z N [Z1 Z2]. apply inj_le2 in Z1. pose proof (proj2 (inj_lt z o) Z2) as Z2'. pose proof (proj2 (inj_lt 0 n) N) as N'. change (inject_Z 0) with 0 in *.
    set (zz := inject_Z z) in *. set (oo := inject_Z o) in *. set (nn := inject_Z n) in *. clearbody zz oo nn.
    assert (E : zz / (oo / nn) == zz * nn / oo) by (field; split; lra). rewrite E. split.
    - apply Qle_shift_div_l; [lra|nra].
    - apply Qlt_shift_div_r; [lra|nra]. }
  split; apply K; auto.
Qed.

(* The size of a resampled image is the scaled size rounded, half a pixel up. *)
Theorem resampled_image_size n s :
  (0 <= n)%Z -> 0 <= s ->
  inject_Z n * s - (1 # 2) < inject_Z (resampled_size n s) /\ inject_Z (resampled_size n s) <= inject_Z n * s + (1 # 2).
Proof.
  intros N S. apply inj_le2 in N. change (inject_Z 0) with 0 in N. unfold resampled_size.
  assert (P : 0 <= inject_Z n * s) by nra. destruct (ltqP ((1 # 2) + inject_Z n * s) 0); [lra|].
  pose proof (fl ((1 # 2) + inject_Z n * s)). lra.
Qed.

(* A transformed image with a value for missing data has that value exactly
   where the point falls outside the pixels that can be interpolated; elsewhere
   only pixels of the image are read, whatever its extension. *)
Theorem nodata_outside k c (m : img px) f t nodata i j :
  (forall x y, inside m x y -> f x y = pix m x y) ->
  let p := reverse t (i, j) in let n := pixel_buffer k in
  (holds (Box (n - 1) (n - 1) (icols m - n) (irows m - n)) p ->
     transformed_nodata k c (icols m) (irows m) n (get m) t nodata i j = transformed k c (whole f) t i j) /\
  (~ holds (Box (n - 1) (n - 1) (icols m - n) (irows m - n)) p ->
     transformed_nodata k c (icols m) (irows m) n (get m) t nodata i j = Ok nodata).
Proof.
  intros E p n. unfold transformed_nodata. cbv zeta. fold p n. unfold holds. cbn [x0 y0 x1 y1]. split.
  - intros [[A B] [C D]].
    destruct (ltqP (fst p) (inject_Z (n - 1))); [lra|]. destruct (leqP (inject_Z (icols m - n)) (fst p)); [lra|].
    destruct (ltqP (snd p) (inject_Z (n - 1))); [lra|]. destruct (leqP (inject_Z (irows m - n)) (snd p)); [lra|].
    cbn [orb]. unfold transformed. fold p. apply nodata_reads; auto.
  - intros N.
    destruct (ltqP (fst p) (inject_Z (n - 1))); auto. destruct (leqP (inject_Z (icols m - n)) (fst p)); auto.
    destruct (ltqP (snd p) (inject_Z (n - 1))); auto. destruct (leqP (inject_Z (irows m - n)) (snd p)); auto.
    elim N. split; split; lra.
Qed.

(* The last row and column are lost even where the point is exactly on a pixel:
   transformed by the identity, an image does not stay as it is. *)
Theorem nodata_identity_refuted :
  ~ (forall (m : img px) nodata x y, inside m x y ->
     transformed_nodata Bilinear Real (icols m) (irows m) (pixel_buffer Bilinear) (get m) identity_tx nodata (inject_Z x) (inject_Z y) = Ok (pix m x y)).
Proof.
  intros H. specialize (H (Img 2 2 (fun _ _ => (true, 1))) (false, 0) 1%Z 1%Z). lapply H; [|unfold inside; cbn [icols irows]; lia].
  intros E. vm_compute in E. discriminate E.
Qed.

(** ** The hypotheses can be met *)

(* a ramp 10x + 3y with one invalid pixel far away *)
Definition ramp (x y : Z) : px := (negb ((x =? 9) && (y =? 9))%Z, 10 * inject_Z x + 3 * inject_Z y).
Example interpolation_at_pixels_met : whole ramp 2%Z 3%Z = Ok (true, snd (ramp 2 3)) /\ storable (Int 0 255) (snd (ramp 2 3)) /\ (4 # 2) == inject_Z 2.
Proof. split; [reflexivity|]. split; [exists 29%Z; split; [lia|reflexivity]|reflexivity]. Qed.
Example nearest_pixel_met : interpolate Nearest Real (whole ramp) (5 # 2) (-(5 # 2)) = Ok (ramp 3 (-3)).
Proof. reflexivity. Qed.
Example bilinear_reproduces_met :
  square (fun x y => snd (ramp x y) == 0 + 10 * inject_Z x + 3 * inject_Z y + 0 * (inject_Z x * inject_Z y)) (Qfloor (5 # 2)) (Qfloor (1 # 3)) 2 /\
  match interpolate Bilinear Real (whole ramp) (5 # 2) (1 # 3) with Ok p => snd p == 26 | _ => False end.
Proof. split; [intros x y _ _; unfold ramp; cbn [snd]; ring|vm_compute; reflexivity]. Qed.
Example bicubic_reproduces_met :
  let f x y := (true, inject_Z x * inject_Z x * inject_Z y - 2 * (inject_Z y * inject_Z y)) in
  square (fun x y => snd (f x y) == quadratic (quadratic 0 0 (-(2)) (inject_Z y)) (quadratic 0 0 0 (inject_Z y)) (quadratic 0 1 0 (inject_Z y)) (inject_Z x)) (Qfloor (7 # 2) - 1) (Qfloor (9 # 4) - 1) 4 /\
  match interpolate Bicubic Real (whole f) (7 # 2) (9 # 4) with Ok p => snd p == (49 # 4) * (9 # 4) - 2 * (81 # 16) | _ => False end.
Proof. split; [intros x y _ _; unfold quadratic; cbn [snd]; ring|vm_compute; reflexivity]. Qed.
Example bilinear_between_met : square (fun x y => 20 <= snd (ramp x y) <= 36) (Qfloor (5 # 2)) (Qfloor (1 # 3)) 2.
Proof.
  intros x y X Y. change (Qfloor (5 # 2)) with 2%Z in X. change (Qfloor (1 # 3)) with 0%Z in Y.
  assert (x = 2 \/ x = 3)%Z as [->| ->] by lia; assert (y = 0 \/ y = 1)%Z as [->| ->] by lia; split; vm_compute; discriminate.
Qed.
Example bilinear_fits_met : square (fun x y => inject_Z 0 <= snd (ramp x y) <= inject_Z 255) (Qfloor (5 # 2)) (Qfloor (1 # 3)) 2.
Proof.
  intros x y X Y. change (Qfloor (5 # 2)) with 2%Z in X. change (Qfloor (1 # 3)) with 0%Z in Y.
  assert (x = 2 \/ x = 3)%Z as [->| ->] by lia; assert (y = 0 \/ y = 1)%Z as [->| ->] by lia; split; vm_compute; discriminate.
Qed.
Example bicubic_clamps_met :
  let f x y := (true, if (0 <? x)%Z then 255 else 0) : px in
  interpolate Bicubic (Int 0 255) (whole f) (3 # 2) 0 = Ok (true, 255) /\ interpolate Bicubic (Int 0 255) (whole f) (-(1 # 2)) 0 = Ok (true, 0) /\
  match interpolate Bicubic Real (whole f) (3 # 2) 0 with Ok p => 255 < snd p | _ => False end.
Proof. vm_compute. repeat split. Qed.
Example interpolation_valid_met :
  off_grid (17 # 2) 8 /\ match interpolate Bilinear Real (whole ramp) (17 # 2) 8 with Ok p => fst p = false | _ => False end /\
  match interpolate Bilinear Real (whole ramp) (15 # 2) 8 with Ok p => fst p = true | _ => False end.
Proof. split; [intros [A _]; vm_compute in A; discriminate A|]. vm_compute. auto. Qed.
Example interpolation_regions_met : holds (Box 2 3 5 6) (5 - (1 # 100), 3).
Proof. split; split; vm_compute; (reflexivity || discriminate). Qed.

Example transforms_invert_met : ~ ma (M2 2 1 1 3) * md (M2 2 1 1 3) == mb (M2 2 1 1 3) * mc (M2 2 1 1 3) /\ ma (M2 2 4 1 2) * md (M2 2 4 1 2) == mb (M2 2 4 1 2) * mc (M2 2 4 1 2).
Proof. split; [vm_compute; discriminate|reflexivity]. Qed.
Example rotation_is_rigid_met : (3 # 5) * (3 # 5) + (4 # 5) * (4 # 5) == 1.
Proof. reflexivity. Qed.
Definition tilt : mat3 := M3 1 0 0 0 1 0 (1 # 100) 0 1.
Example homography_inverts_met : ~ det3 tilt == 0 /\ ~ depth tilt (10, 20) == 0.
Proof. split; vm_compute; discriminate. Qed.
Example composed_transforms_met :
  let t1 := resample_tx 2 3 in let t2 := translate_tx 1 (- (1)) in
  respects (forward t1) /\ respects (reverse t2) /\ inverses t1 /\ inverses t2.
Proof.
  destruct corners_suffice as (_ & A & B & _). destruct transforms_invert as (_ & C & D & _).
  split; [apply affine_respects, A|]. split; [apply affine_respects, B|]. split; [apply C; discriminate|apply D].
Qed.
Example affine_matrix_round_trip_met : exists t, affine_tx (M2 2 1 1 3) (4, 5) = Ok t.
Proof. eexists. reflexivity. Qed.
Example transformed_boxes_met : bempty (Box 0 0 10 5) = false /\ in_range (forward (resample_tx 2 3)) (Box 0 0 10 5) /\ between_corners (forward (resample_tx 2 3)) (Box 0 0 10 5) /\
  forward_bbox (resample_tx 2 3) (Box 0 0 10 5) = Box 0 0 19 13.
Proof.
  split; [reflexivity|]. split; [|split; [apply affine_between, corners_suffice|reflexivity]].
  intros x y [X Y]. cbn [x0 y0 x1 y1] in X, Y. unfold at_pix. cbn [resample_tx forward fst snd].
  assert (X1 := inj_le2 0 x ltac:(lia)). assert (X2 := inj_le2 x 9 ltac:(lia)). assert (Y1 := inj_le2 0 y ltac:(lia)). assert (Y2 := inj_le2 y 4 ltac:(lia)).
  change (inject_Z 0) with 0 in *. change (inject_Z 9) with 9 in *. change (inject_Z 4) with 4 in *.
  assert (Bg : 100 <= inject_Z (i32_max - 1)) by (vm_compute; discriminate).
  set (bg := inject_Z (i32_max - 1)) in *. clearbody bg. lra.
Qed.
Example transformed_empty_box_met : bempty (Box 3 3 3 9) = true.
Proof. reflexivity. Qed.
Example corners_suffice_met : one_sign tilt (Box 0 0 10 5).
Proof. left. intros cx cy [[->| ->] [->| ->]]; reflexivity. Qed.
Example transformed_image_box_met : in_range (forward (translate_tx 2 3)) (Box 0 0 4 3) /\
  compute_transformed_bbox 4 3 (forward (translate_tx 2 3)) = QB 2 3 5 5.
Proof.
  split; [|reflexivity]. intros x y [X Y]. cbn [x0 y0 x1 y1] in X, Y. unfold at_pix. cbn [translate_tx forward fst snd].
  assert (X1 := inj_le2 0 x ltac:(lia)). assert (X2 := inj_le2 x 9 ltac:(lia)). assert (Y1 := inj_le2 0 y ltac:(lia)). assert (Y2 := inj_le2 y 4 ltac:(lia)).
  change (inject_Z 0) with 0 in *. change (inject_Z 9) with 9 in *. change (inject_Z 4) with 4 in *.
  assert (Bg : 100 <= inject_Z (i32_max - 1)) by (vm_compute; discriminate).
  set (bg := inject_Z (i32_max - 1)) in *. clearbody bg. lra.
Qed.
(* a square: the table is refined twice *)
Definition bowl (tol : Q) : transform := Tx (fun p => p) (fun p => (fst p * fst p, snd p)) Discontinuous Discontinuous tol.
Example approximation_table_met : respects (reverse (bowl 5)) /\
  match approximate (bowl 20) (Box 0 0 16 12) with Ok (Some m) => icols m = 5%Z | _ => False end /\
  match approximate (bowl 5) (Box 0 0 16 12) with Ok (Some m) => icols m = 9%Z | _ => False end /\
  match approximate (bowl (1 # 10)) (Box 0 0 16 12) with Ok None => True | _ => False end.
Proof.
  split; [intros p q [A B]; unfold bowl, peq; cbn [reverse fst snd]; rewrite A, B; split; reflexivity|].
  split; [vm_compute; reflexivity|]. split; vm_compute; auto.
Qed.
Example approximation_in_table_met : (table_cell 8 (17 # 2) = 7 /\ table_cell 8 (- (1)) = 0 /\ table_cell 8 (5 # 2) = 2)%Z.
Proof. repeat split. Qed.
Example approximation_exact_met : respects (reverse (resample_tx 2 3)) /\ affine_map (reverse (resample_tx 2 3)).
Proof. destruct corners_suffice as (_ & A & _). split; [apply affine_respects, A|apply A]. Qed.
Example transformed_image_regions_met : inb (Box 0 0 4 4) 3 3 /\ reverse_type (resample_tx 2 3) = Convex /\ between_corners (reverse (resample_tx 2 3)) (Box 0 0 4 4).
Proof. split; [unfold inb; cbn [x0 y0 x1 y1]; lia|]. split; [reflexivity|apply affine_between, corners_suffice]. Qed.
Example approximated_image_regions_met : 0 < tolerance (set_tolerance (resample_tx 2 3) (1 # 4)) /\ affine_map (reverse (set_tolerance (resample_tx 2 3) (1 # 4))).
Proof. split; [reflexivity|]. apply corners_suffice. Qed.
Example moved_and_enlarged_images_met : storable (Int 0 255) (snd (ramp 2 3)) /\ ~ 2 == 0.
Proof. split; [exists 29%Z; split; [lia|reflexivity]|discriminate]. Qed.
Example resized_from_within_met : reverse (resize_tx 10 20 5 5) (at_pix 4 4) = (reverse (resample_tx (5 # 10) (5 # 20)) (4, 4)) /\ (0 <= 4 < 5)%Z.
Proof. split; [reflexivity|lia]. Qed.
Example resampled_image_size_met : resampled_size 5 (1 # 2) = 3%Z /\ resampled_size 4 (1 # 3) = 1%Z.
Proof. split; reflexivity. Qed.
Example nodata_outside_met :
  let m := Img 3 3 (fun x y => ramp x y) in
  holds (Box 0 0 2 2) (reverse identity_tx (3 # 2, 1)) /\ ~ holds (Box 0 0 2 2) (reverse identity_tx (2, 1)) /\ inside m 2 2.
Proof.
  split; [split; split; vm_compute; (reflexivity || discriminate)|]. split; [intros [[_ A] _]; vm_compute in A; discriminate A|unfold inside; cbn [icols irows]; lia].
Qed.

Print Assumptions interpolation_at_pixels.
Print Assumptions nearest_pixel.
Print Assumptions bilinear_reproduces.
Print Assumptions bicubic_reproduces.
Print Assumptions bilinear_between.
Print Assumptions bilinear_fits.
Print Assumptions bicubic_clamps.
Print Assumptions interpolation_valid.
Print Assumptions interpolation_regions.
Print Assumptions bicubic_between_refuted.
Print Assumptions weightless_neighbour_refuted.
Print Assumptions transforms_invert.
Print Assumptions rotation_is_rigid.
Print Assumptions homography_inverts.
Print Assumptions composed_transforms.
Print Assumptions affine_matrix_round_trip.
Print Assumptions transformed_boxes.
Print Assumptions transformed_empty_box.
Print Assumptions corners_suffice.
Print Assumptions transformed_image_box.
Print Assumptions homography_box_refuted.
Print Assumptions continuous_box_refuted.
Print Assumptions approximation_table.
Print Assumptions approximation_in_table.
Print Assumptions approximation_exact.
Print Assumptions approximation_tolerance_refuted.
Print Assumptions transformed_image_regions.
Print Assumptions approximated_image_regions.
Print Assumptions moved_and_enlarged_images.
Print Assumptions resized_from_within.
Print Assumptions resampled_image_size.
Print Assumptions nodata_outside.
Print Assumptions nodata_identity_refuted.
