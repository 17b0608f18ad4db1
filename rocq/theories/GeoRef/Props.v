(** Georeferences and transforms between them. *)
From Coq Require Import String List Bool ZArith QArith Qround Lia Lqa.
From Verif Require Import Lib.Base Lib.Str GeoRef.Model GeoRef.Spec GeoRef.Proofs GeoRef.SProofs.
Import ListNotations.
Local Open Scope list_scope.
Local Open Scope Q_scope.

(* An unprojected map: a degree per pixel, north up, first pixel at the given
   corner. *)
Definition unproj (area : bool) (x y : Q) : mat := M3 1 0 x 0 (-(1)) y 0 0 1.
Definition bare (area proj : bool) (f g : pt -> res pt) (w : str) : georef :=
  Geo area (unproj area 0 0) (unproj area 0 0) (unproj area 0 0) (unproj area 0 0) proj f g None w (lit "WGS84"%string).
Definition plain (area : bool) : georef := bare area false (fun p => Ok p) (fun p => Ok p) (lit "longlat"%string).
Definition got {A} (d : A) (r : res A) : A := match r with Ok a => a | _ => d end.

(** ** C80: one georeference *)

(* A transform is accepted when it is regular and the first pixel converts; a
   singular one is refused by an exception. *)
Theorem transform_accepted : forall g t, affine t -> (exists q, is_projected g = false \/ forall p, to_lonlat g p = Ok (q p)) ->
  (~ m00 t * m11 t - m01 t * m10 t == 0 -> exists g', set_transform g t = Ok g' /\ tr g' = t) /\
  (m00 t * m11 t - m01 t * m10 t == 0 -> set_transform g t = Throw OtherErr).
Proof.
  intros g t A P. split; intros D.
  - assert (D0 : ~ det3 t == 0) by (rewrite det_affine by exact A; exact D).
    assert (D1 : ~ det3 (shifted t) == 0) by (rewrite det_shifted by exact A; exact D0).
    unfold set_transform. cbv zeta. destruct (inverse3_regular t D0) as (n & -> & _). destruct (inverse3_regular _ D1) as (k & -> & _). cbn [bind].
    unfold ll_box_from_pix_box. change (empty (Some (Box 0 0 0 0))) with true. cbv iota.
    unfold pixel_to_lonlat, point_to_lonlat. cbn [is_projected to_lonlat].
    destruct P as (q & [-> | H]); [|rewrite H; destruct (is_projected g)]; cbn [bind]; eexists; (split; reflexivity).
  - unfold set_transform. cbv zeta. rewrite inverse3_singular by (rewrite det_affine by exact A; exact D). reflexivity.
Qed.
Print Assumptions transform_accepted.

(* After it, pixels and points are converted to and fro without loss, wherever the
   formulas divide by something other than zero; perspective transforms included. *)
Theorem pixel_point_round_trip : forall g0 t g p, set_transform g0 t = Ok g ->
  (~ denom (native g) p == 0 -> same (point_to_pixel g (pixel_to_point g p)) p) /\
  (~ denom (native_inv g) p == 0 -> same (pixel_to_point g (point_to_pixel g p)) p).
Proof.
  intros g0 t g p E. apply set_transform_inv in E. destruct E as (_ & _ & _ & C & _). apply native_inverse in C. destruct C as (A & B).
  split; intros D; apply project_inverse; assumption.
Qed.
Print Assumptions pixel_point_round_trip.

(* For affine ones that is everywhere. *)
Theorem pixel_point_round_trip_affine : forall g0 t g p, set_transform g0 t = Ok g -> affine t ->
  same (point_to_pixel g (pixel_to_point g p)) p /\ same (pixel_to_point g (point_to_pixel g p)) p.
Proof.
  intros g0 t g p E A. pose proof (pixel_point_round_trip g0 t g p E) as (H & K). apply set_transform_inv in E.
  destruct E as (_ & _ & T & C & _). split; [apply H|apply K]; apply affine_denom.
  - apply native_affine; [exact C|now rewrite T].
  - apply native_inv_affine; [exact C|now rewrite T].
Qed.
Print Assumptions pixel_point_round_trip_affine.

(* Which point: with pixels as points the transform of the pixel; with pixels as
   areas, of the pixel and a half, provided the image is not turned. *)
Theorem pixel_to_point_meaning : forall g0 t g p, set_transform g0 t = Ok g -> affine t ->
  (as_area g0 = false -> maps_to t p (pixel_to_point g p)) /\
  (as_area g0 = true -> aligned t -> maps_to t (plus p (1 # 2, 1 # 2)) (pixel_to_point g p)).
Proof.
  intros g0 t g p E A. apply set_transform_inv in E. destruct E as (_ & _ & T & C & IA & _). destruct C as (S & _).
  unfold pixel_to_point, native. split; intros I; rewrite IA, I.
  - rewrite T. now apply project_affine.
  - intros (U & V). rewrite S, T. destruct (project_affine (shifted t) p (shifted_affine t A)) as (X & Y).
    split; [rewrite X|rewrite Y]; unfold shifted, plus; cbn [m00 m01 m02 m10 m11 m12 fst snd]; rewrite ?U, ?V; ring.
Qed.
Print Assumptions pixel_to_point_meaning.

(* In an image that is turned, the point of the centre of a pixel that is an area is
   not the transform of the pixel and a half: the shift uses only the diagonal of
   the transform. *)
Theorem area_shift_rotated_refuted : exists t g p, affine t /\ ~ m00 t * m11 t - m01 t * m10 t == 0 /\
  set_transform (plain true) t = Ok g /\ ~ maps_to t (plus p (1 # 2, 1 # 2)) (pixel_to_point g p).
Proof.
  exists (M3 0 1 0 1 0 0 0 0 1), (got (plain true) (set_transform (plain true) (M3 0 1 0 1 0 0 0 0 1))), (0, 0).
  split; [repeat split; reflexivity|]. split; [intros H; discriminate H|]. split; [vm_compute; reflexivity|].
  intros (H & _). vm_compute in H. discriminate H.
Qed.
Print Assumptions area_shift_rotated_refuted.

(* A longitude is moved by at most one turn, to the place nearest the middle of the
   image; a longitude within half a turn of it stays. *)
Theorem lonlat_to_point_nearest : forall g c lon lat, is_projected g = false -> ll_box g = Some c -> nonempty c ->
  exists x k, lonlat_to_point g (lon, lat) = Ok (x, lat) /\ (-1 <= k <= 1)%Z /\ turns k x lon /\
    (forall j, (-1 <= j <= 1)%Z -> qabs (x - middle c) <= qabs (lon + 360 * inject_Z j - middle c)) /\
    (-(180) <= lon - middle c <= 180 -> x = lon) /\
    (-(540) <= lon - middle c <= 540 -> -(180) <= x - middle c <= 180).
Proof.
  intros g c lon lat P B N. destruct (near_middle_spec c lon N) as (k & K & T & M & S).
  exists (near_middle (Some c) lon), k. unfold lonlat_to_point. cbn [fst snd]. cbv zeta. rewrite P, B.
  split; [reflexivity|]. split; [lia|]. split; [exact T|]. split; [intros j J; apply M; lia|]. split; [exact S|].
  intros R. set (x := near_middle (Some c) lon) in *. clearbody x.
  pose proof (M (-1)%Z ltac:(auto)) as M1. pose proof (M 0%Z ltac:(auto)) as M2. pose proof (M 1%Z ltac:(auto)) as M3.
  change (inject_Z (-1)) with (-(1)) in M1. change (inject_Z 0) with 0 in M2. change (inject_Z 1) with 1 in M3.
  set (m := middle c) in *. clearbody m. clear T M S.
  destruct (qabs_cases (x - m)) as [(A & EA)|(A & EA)], (qabs_cases (lon + 360 * -(1) - m)) as [(D & ED)|(D & ED)],
    (qabs_cases (lon + 360 * 0 - m)) as [(F & EF)|(F & EF)], (qabs_cases (lon + 360 * 1 - m)) as [(G & EG)|(G & EG)]; lra.
Qed.
Print Assumptions lonlat_to_point_nearest.

(* The box around the images of the corners of a box holds the images of all its
   points, also when the image is turned; no smaller box does. *)
Theorem pixel_to_point_bbox_holds : forall g0 t g c, set_transform g0 t = Ok g -> affine t -> nonempty c ->
  least (fun q => exists p, In p (corners c) /\ q = pixel_to_point g p) (pixel_to_point_bbox g (Some c)) /\
  forall p, within c p -> inbox (pixel_to_point_bbox g (Some c)) (pixel_to_point g p).
Proof.
  intros g0 t g c E A N. apply set_transform_inv in E. destruct E as (_ & _ & T & C & _).
  unfold pixel_to_point_bbox. apply empty_iff in N. rewrite N.
  destruct (corners_least (pixel_to_point g) c) as (b & -> & L). split; [exact L|].
  intros p W. apply (affine_corners (native g) c); [apply native_affine; [exact C|now rewrite T]|exact L|exact W].
Qed.
Print Assumptions pixel_to_point_bbox_holds.

(* So for points, with the box of pixels rounded outwards. *)
Theorem point_to_pixel_bbox_holds : forall g0 t g c, set_transform g0 t = Ok g -> affine t -> nonempty c ->
  int_cover (fun q => exists p, In p (corners c) /\ q = point_to_pixel g p) (point_to_pixel_bbox g (Some c)) /\
  forall p, within c p -> exists b, point_to_pixel_bbox g (Some c) = Some b /\
    bxl b <= fst (point_to_pixel g p) < bxh b /\ byl b <= snd (point_to_pixel g p) < byh b.
Proof.
  intros g0 t g c E A N. apply set_transform_inv in E. destruct E as (_ & _ & T & C & _).
  unfold point_to_pixel_bbox. apply empty_iff in N. rewrite N.
  destruct (corners_least (point_to_pixel g) c) as (b & -> & L). pose proof (grow_to_int_cover _ _ L) as IC. split; [exact IC|].
  intros p W. pose proof (affine_corners (native_inv g) c (Some b) p) as H. specialize (H ltac:(apply native_inv_affine; [exact C|now rewrite T]) L W).
  change (project (native_inv g) p) with (point_to_pixel g p) in H. cbn [inbox] in H. unfold within in H.
  destruct (least_order _ _ L) as (O1 & O2). cbn [grow_to_int]. destruct (ltq_spec (bxh b) (bxl b)); [lra|]. destruct (ltq_spec (byh b) (byl b)); [lra|].
  cbn [orb]. eexists. split; [reflexivity|]. cbn [bxl bxh byl byh].
  pose proof (floor_bounds (bxl b)). pose proof (floor_bounds (bxh b)). pose proof (floor_bounds (byl b)). pose proof (floor_bounds (byh b)). lra.
Qed.
Print Assumptions point_to_pixel_bbox_holds.

(* With the longitudes of the image known from its size, an unprojected image at
   most one turn wide takes each pixel to a longitude and latitude and back. *)
Theorem unprojected_round_trip : forall g0 t g1 g c b p, set_transform g0 t = Ok g1 -> affine t -> is_projected g0 = false -> nonempty c ->
  ll_box_from_pix_box g1 (Some c) = Ok g -> pixel_to_point_bbox g1 (Some c) = Some b -> nonempty b -> bxh b - bxl b <= 360 -> within c p ->
  exists ll q, pixel_to_lonlat g p = Ok ll /\ lonlat_to_pixel g ll = Ok q /\ same q p.
Proof.
  intros g0 t g1 g c b p E A P N L B NB W I.
  pose proof (pixel_to_point_bbox_holds g0 t g1 c E A N) as (_ & H). specialize (H p I). rewrite B in H.
  pose proof (pixel_point_round_trip_affine g0 t g1 p E A) as (R & _).
  pose proof E as E'. apply set_transform_inv in E'. destruct E' as (_ & _ & _ & C & _ & IP & _).
  unfold ll_box_from_pix_box in L. pose proof N as N'. apply empty_iff in N'. rewrite N' in L.
  unfold pixel_to_lonlat_bbox in L. rewrite N', IP, P in L. cbn [negb] in L. cbn [bind] in L. rewrite B in L. assert (G : g = set_ll_box g1 (Some b)) by congruence. rewrite G. clear G L.
  exists (pixel_to_point g1 p), (point_to_pixel g1 (pixel_to_point g1 p)).
  unfold pixel_to_lonlat, point_to_lonlat, lonlat_to_pixel, lonlat_to_point. cbv zeta. cbn [set_ll_box is_projected ll_box].
  rewrite IP, P. split; [reflexivity|]. destruct (near_middle_spec b (fst (pixel_to_point g1 p)) NB) as (k & _ & _ & _ & S).
  rewrite S. 2:{ unfold middle. cbn [inbox] in H. unfold within in H. lra. }
  cbn [bind]. split; [|exact R]. destruct (pixel_to_point g1 p) as [x y]. cbn [fst snd]. reflexivity.
Qed.
Print Assumptions unprojected_round_trip.

(* For a projection that undoes itself at the place of the pixel, the same holds
   where the longitude is within half a turn of the middle of the known ones. *)
Theorem projected_round_trip : forall g0 t g c p ll, set_transform g0 t = Ok g -> affine t -> is_projected g0 = true ->
  nonempty c -> pixel_to_lonlat (set_ll_box g (Some c)) p = Ok ll -> to_proj g0 ll = Ok (pixel_to_point g p) -> -(180) <= fst ll - middle c <= 180 ->
  exists q, lonlat_to_pixel (set_ll_box g (Some c)) ll = Ok q /\ same q p.
Proof.
  intros g0 t g c p ll E A P N L T R. pose proof (pixel_point_round_trip_affine g0 t g p E A) as (RT & _).
  apply set_transform_inv in E. destruct E as (_ & _ & _ & _ & _ & IP & _ & TP & _).
  exists (point_to_pixel g (pixel_to_point g p)). split; [|exact RT].
  unfold lonlat_to_pixel, lonlat_to_point. cbv zeta. cbn [set_ll_box is_projected ll_box to_proj]. rewrite IP, P, TP.
  destruct (near_middle_spec c (fst ll) N) as (k & _ & _ & _ & S). rewrite (S R). destruct ll as [x y]. cbn [fst snd]. rewrite T. reflexivity.
Qed.
Print Assumptions projected_round_trip.

(* After set_transform alone, and so after crop and resample, the image's longitudes
   are guessed from its first pixel: on a global map the pixel at longitude 10 comes
   back a full turn away. *)
Theorem global_round_trip_refuted : exists g ll q, set_transform (plain false) (unproj false (-(180)) 90) = Ok g /\
  pixel_to_lonlat g (190, 90) = Ok ll /\ same ll (10, 0) /\ lonlat_to_pixel g ll = Ok q /\ same q (190 - 360, 90).
Proof.
  exists (got (plain false) (set_transform (plain false) (unproj false (-(180)) 90))). eexists. eexists.
  split; [vm_compute; reflexivity|]. split; [vm_compute; reflexivity|]. split; [split; reflexivity|]. split; [vm_compute; reflexivity|]. split; reflexivity.
Qed.
Print Assumptions global_round_trip_refuted.

(* The box guessed is half a degree wide around a multiple of 180 degrees that is
   within 90 degrees of the longitude of the first pixel. *)
Theorem guessed_box : forall g p, pixel_to_lonlat g (0, 0) = Ok p -> exists c k, ll_box_from_pix_box g None = Ok (set_ll_box g (Some c)) /\
  middle c == 180 * inject_Z k /\ bxh c - bxl c == 1 # 2 /\ -(90) <= fst p - middle c <= 90.
Proof.
  intros g p E. unfold ll_box_from_pix_box. change (empty None) with true. cbv iota. rewrite E. cbn [bind]. cbv zeta.
  set (k := round_away (fst p / 180)). eexists. exists k. split; [reflexivity|]. unfold middle. cbn [bxl bxh].
  assert (R : - (1 # 2) <= fst p / 180 - inject_Z k <= 1 # 2).
  { unfold k, round_away. destruct (ltq_spec (fst p / 180) 0).
    - pose proof (Qle_ceiling (fst p / 180 - (1 # 2))). pose proof (Qceiling_lt (fst p / 180 - (1 # 2))).
      set (z := Qceiling (fst p / 180 - (1 # 2))) in *. unfold Zminus in H0. rewrite inject_Z_plus in H0. change (inject_Z (- (1))) with (-(1)) in H0. lra.
    - pose proof (floor_bounds (fst p / 180 + (1 # 2))). set (z := Qfloor (fst p / 180 + (1 # 2))) in *. rewrite inject_Z_plus in H. change (inject_Z 1) with 1 in H. lra. }
  assert (F : fst p == 180 * (fst p / 180)) by field. set (r := fst p / 180) in *. clearbody r. set (kk := inject_Z k) in *. clearbody kk.
  split; [lra|]. split; [lra|]. lra.
Qed.
Print Assumptions guessed_box.

(** Boxes through projections *)

(* A box of pixels with integer corners: each pixel of its perimeter that can be
   converted lies in the box of longitudes and latitudes, and each side of that box
   is the coordinate of some pixel of the box. *)
Theorem pixel_to_lonlat_bbox_perimeter : forall g x y x' y', is_projected g = true -> no_ub (to_lonlat g) -> (x < x')%Z -> (y < y')%Z ->
  exists b l, pixel_to_lonlat_bbox g (Some (int_box x y x' y')) = Ok b /\ least (image_of (pixel_to_lonlat g) l) b /\
    (forall i j, perimeter x y x' y' i j -> In (inject_Z i, inject_Z j) l) /\
    (forall p, In p l -> within (int_box x y x' y') p).
Proof.
  intros g x y x' y' P NU X Y. destruct (sample_int_box_spec x y x' y' X Y) as (l & E & A & B).
  destruct (grow_by_least (pixel_to_lonlat g) l (no_ub_pixel_to_lonlat g NU)) as (b & F & L).
  exists b, l. unfold pixel_to_lonlat_bbox. rewrite P. cbn [negb].
  assert (NE : empty (Some (int_box x y x' y')) = false) by (apply empty_iff; split; cbn [int_box bxl bxh byl byh]; rewrite <- Zlt_Qlt; assumption).
  rewrite NE, E. cbn [bind]. split; [exact F|]. split; [exact L|]. split; [exact A|].
  intros p Hp. destruct (B p Hp) as (i & j & -> & I & J). unfold within, int_box. cbn [bxl bxh byl byh fst snd]. repeat split; apply inject_le; lia.
Qed.
Print Assumptions pixel_to_lonlat_bbox_perimeter.

(* The points sampled for a box whose corners are not integers may lie outside it. *)
Theorem sample_int_box_fraction_refuted : exists c l p, nonempty c /\ sample_int_box (Some c) = Ok l /\ In p l /\ ~ within c p.
Proof.
  exists (Box (1 # 2) (1 # 2) (3 # 2) (3 # 2)). eexists. exists (inject_Z 0, 1 # 2).
  split; [split; reflexivity|]. split; [vm_compute; reflexivity|]. split; [vm_compute; auto|].
  intros ((H & _) & _). cbn in H. apply H. reflexivity.
Qed.
Print Assumptions sample_int_box_fraction_refuted.

(* lonlat_to_point_bbox, point_to_lonlat_bbox: the box around the images of n points
   of each side and of points of the diagonals. *)
Theorem lonlat_point_bbox_sides : forall g c n, nonempty c -> (0 < n)%Z -> no_ub (to_lonlat g) -> no_ub (to_proj g) ->
  exists l, (forall i, (0 <= i < n)%Z -> forall x y, x = bxl c + inject_Z i * ((bxh c - bxl c) / inject_Z n) -> y = byl c + inject_Z i * ((byh c - byl c) / inject_Z n) ->
     In (x, byl c) l /\ In (x, byh c) l /\ In (bxl c, y) l /\ In (bxh c, y) l) /\ (forall p, In p l -> within c p) /\
   (exists b, lonlat_to_point_bbox g (Some c) n = Ok b /\ least (image_of (lonlat_to_point g) l) b) /\
   (exists b, point_to_lonlat_bbox g (Some c) n = Ok b /\ least (image_of (point_to_lonlat g) l) b).
Proof.
  intros g c n NE N U V. destruct (sample_sides_spec c n NE N) as (l & E & A & B). exists l. split; [exact A|]. split; [exact B|].
  apply empty_iff in NE. unfold lonlat_to_point_bbox, point_to_lonlat_bbox. rewrite NE, E. cbn [bind].
  split; apply grow_by_least; [now apply no_ub_lonlat_to_point|now apply no_ub_point_to_lonlat].
Qed.
Print Assumptions lonlat_point_bbox_sides.

(* The corner with the largest coordinates is not among them, so its image may lie
   outside the box. *)
Theorem point_to_lonlat_bbox_corner_refuted : exists g c b q, nonempty c /\ point_to_lonlat_bbox g (Some c) 100 = Ok b /\
  point_to_lonlat g (bxh c, byh c) = Ok q /\ ~ inbox b q.
Proof.
  exists (bare false true (fun p => Ok (fst p + snd p, snd p)) (fun p => Ok (fst p - snd p, snd p)) (lit "skew"%string)), (Box 0 0 1 1).
  eexists. eexists. split; [split; reflexivity|]. split; [vm_compute; reflexivity|]. split; [reflexivity|].
  intros ((_ & H) & _). vm_compute in H. apply H. reflexivity.
Qed.
Print Assumptions point_to_lonlat_bbox_corner_refuted.

(* lonlat_to_pixel_bbox: for an unprojected image, the box of point_to_pixel_bbox;
   else the same of the box of points. *)
Theorem lonlat_to_pixel_bbox_holds : forall g0 t g c n, set_transform g0 t = Ok g -> affine t -> nonempty c -> (0 < n)%Z -> no_ub (to_lonlat g) -> no_ub (to_proj g) ->
  (is_projected g = false -> forall p, within c p -> exists b, lonlat_to_pixel_bbox g (Some c) n = Ok (Some b) /\
     bxl b <= fst (point_to_pixel g p) < bxh b /\ byl b <= snd (point_to_pixel g p) < byh b) /\
  (is_projected g = true -> forall d, lonlat_to_point_bbox g (Some c) n = Ok (Some d) -> nonempty d ->
     forall p, within d p -> exists b, lonlat_to_pixel_bbox g (Some c) n = Ok (Some b) /\
     bxl b <= fst (point_to_pixel g p) < bxh b /\ byl b <= snd (point_to_pixel g p) < byh b).
Proof.
  intros g0 t g c n E A NE N U V. pose proof NE as NE'. apply empty_iff in NE'. unfold lonlat_to_pixel_bbox. rewrite NE'.
  split; intros P; rewrite P; cbn [negb].
  - intros p W. destruct (point_to_pixel_bbox_holds g0 t g c E A NE) as (_ & H). destruct (H p W) as (b & -> & K). exists b. auto.
  - intros d D ND p W. rewrite D. cbn [bind]. destruct (point_to_pixel_bbox_holds g0 t g d E A ND) as (_ & H). destruct (H p W) as (b & -> & K). exists b. auto.
Qed.
Print Assumptions lonlat_to_pixel_bbox_holds.

(* Heights are carried along; a point without one is left as it is. *)
Theorem geodetic_conversions : forall g p h,
  geodetic_to_point g p None = Ok (p, None) /\ point_to_geodetic g p None = Ok (p, None) /\
  (forall q, lonlat_to_point g p = Ok q -> geodetic_to_point g p (Some h) = Ok (q, Some h)) /\
  (forall q, point_to_lonlat g p = Ok q -> point_to_geodetic g p (Some h) = Ok (q, Some h)) /\
  (forall e, lonlat_to_point g p = Throw e -> geodetic_to_point g p (Some h) = Throw e) /\
  (forall e, point_to_lonlat g p = Throw e -> point_to_geodetic g p (Some h) = Throw e).
Proof. intros g p h. cbn [geodetic_to_point point_to_geodetic]. repeat split; auto; intros q ->; reflexivity. Qed.
Print Assumptions geodetic_conversions.

(** Cropping and resampling *)

(* A cropped image: pixel p of it is pixel p + (x,y) of the original, unless the
   image is turned and its pixels are areas. *)
Theorem crop_law : forall g0 t g g' x y p, set_transform g0 t = Ok g -> affine t -> as_area g = false \/ aligned t -> crop g x y = Ok g' ->
  same (pixel_to_point g' p) (pixel_to_point g (plus p (x, y))).
Proof.
  intros g0 t g g' x y p E A H K. apply set_transform_inv in E. destruct E as (_ & _ & T & C & _). destruct C as (S & _). unfold crop in K. cbv zeta in K.
  apply set_transform_inv in K. destruct K as (_ & _ & T' & (S' & _) & IA & _).
  unfold pixel_to_point, native in *. rewrite IA, S', T', S, T. rewrite S, T in T'. clear S' S.
  destruct (as_area g) eqn:AR.
  - destruct H as [H|(U & V)]; [discriminate|].
    set (o := project (shifted t) (x - (1 # 2), y - (1 # 2))) in *.
    pose proof (project_affine (shifted t) (x - (1 # 2), y - (1 # 2)) (shifted_affine t A)) as (O1 & O2). fold o in O1, O2.
    assert (A' : affine (shifted (with_origin t o))) by exact A.
    destruct (project_affine _ p A') as (X & Y). destruct (project_affine _ (plus p (x, y)) (shifted_affine t A)) as (X' & Y').
    unfold same. rewrite X, Y, X', Y'. unfold shifted, with_origin, plus in *. cbn [m00 m01 m02 m10 m11 m12 fst snd] in *. rewrite O1, O2, U, V. split; ring.
  - set (o := project t (x, y)) in *. pose proof (project_affine t (x, y) A) as (O1 & O2). fold o in O1, O2.
    assert (A' : affine (with_origin t o)) by exact A.
    destruct (project_affine _ p A') as (X & Y). destruct (project_affine _ (plus p (x, y)) A) as (X' & Y').
    unfold same. rewrite X, Y, X', Y'. unfold with_origin, plus in *. cbn [m00 m01 m02 m10 m11 m12 fst snd] in *. rewrite O1, O2. split; ring.
Qed.
Print Assumptions crop_law.

Theorem crop_rotated_refuted : exists g g', set_transform (plain true) (M3 0 1 0 1 0 0 0 0 1) = Ok g /\ crop g 0 0 = Ok g' /\
  ~ same (pixel_to_point g' (0, 0)) (pixel_to_point g (0, 0)).
Proof.
  exists (got (plain true) (set_transform (plain true) (M3 0 1 0 1 0 0 0 0 1))). eexists.
  split; [vm_compute; reflexivity|]. split; [vm_compute; reflexivity|]. intros (H & _). vm_compute in H. discriminate H.
Qed.
Print Assumptions crop_rotated_refuted.

(* A resampled image: pixel p of it is pixel p / scale of the original, for images
   that are not turned. *)
Theorem resample_law : forall g0 t g g' sx sy p, set_transform g0 t = Ok g -> affine t -> aligned t -> ~ sx == 0 -> ~ sy == 0 -> resample g sx sy = Ok g' ->
  same (pixel_to_point g' p) (pixel_to_point g (fst p / sx, snd p / sy)).
Proof.
  intros g0 t g g' sx sy p E A (U & V) NX NY K. apply set_transform_inv in E. destruct E as (_ & _ & T & C & _). destruct C as (S & _). unfold resample in K. cbv zeta in K.
  apply set_transform_inv in K. destruct K as (_ & _ & T' & (S' & _) & IA & _).
  unfold pixel_to_point, native in *. rewrite IA, S', T', S, T. rewrite S, T in T'. clear S' S T'.
  destruct (as_area g) eqn:AR.
  - set (o := project (shifted t) (- ((1 # 2) / sx), - ((1 # 2) / sy))) in *.
    pose proof (project_affine (shifted t) (- ((1 # 2) / sx), - ((1 # 2) / sy)) (shifted_affine t A)) as (O1 & O2). fold o in O1, O2.
    match goal with |- same (project ?M _) _ => assert (A' : affine M) by exact A end.
    destruct (project_affine _ p A') as (X & Y). destruct (project_affine _ (fst p / sx, snd p / sy) (shifted_affine t A)) as (X' & Y').
    unfold same. rewrite X, Y, X', Y'. unfold shifted, with_origin in *. cbn [m00 m01 m02 m10 m11 m12 fst snd] in *. rewrite O1, O2, U, V. split; field; repeat split; assumption.
  - match goal with |- same (project ?M _) _ => assert (A' : affine M) by exact A end.
    destruct (project_affine _ p A') as (X & Y). destruct (project_affine _ (fst p / sx, snd p / sy) A) as (X' & Y').
    unfold same. rewrite X, Y, X', Y'. cbn [m00 m01 m02 m10 m11 m12 fst snd] in *. rewrite U, V. split; field; repeat split; assumption.
Qed.
Print Assumptions resample_law.

(* In a turned image only the diagonal of the transform is scaled. *)
Theorem resample_rotated_refuted : exists t g g', affine t /\ set_transform (plain false) t = Ok g /\ resample g 2 2 = Ok g' /\
  ~ same (pixel_to_point g' (2, 2)) (pixel_to_point g (1, 1)).
Proof.
  exists (M3 0 1 0 1 0 0 0 0 1), (got (plain false) (set_transform (plain false) (M3 0 1 0 1 0 0 0 0 1))). eexists.
  split; [repeat split; reflexivity|]. split; [vm_compute; reflexivity|]. split; [vm_compute; reflexivity|]. intros (H & _). vm_compute in H. discriminate H.
Qed.
Print Assumptions resample_rotated_refuted.

(** Examples: the hypotheses are met *)

Definition tilted : mat := M3 2 1 10 (-(1)) 3 5 0 0 1.
Definition tilted_geo : georef := got (plain false) (set_transform (plain false) tilted).
Definition world : georef := got (plain true) (set_transform (plain true) (unproj true (-(180)) 90)).
Definition world_known : georef := got world (ll_box_from_pix_box world (Some (Box 0 0 359 179))).

Example georef_set_met : affine tilted /\ set_transform (plain false) tilted = Ok tilted_geo /\ ~ aligned tilted /\
  same (point_to_pixel tilted_geo (15, 9)) (11 # 7, 13 # 7).
Proof.
  split; [repeat split; reflexivity|]. split; [vm_compute; reflexivity|]. split; [intros (H & _); discriminate H|]. split; vm_compute; reflexivity.
Qed.
Example perspective_met : exists g, set_transform (plain false) (M3 1 0 0 0 1 0 (1 # 10) 0 1) = Ok g /\ ~ denom (native g) (5, 5) == 0 /\
  same (pixel_to_point g (5, 5)) (10 # 3, 10 # 3).
Proof.
  exists (got (plain false) (set_transform (plain false) (M3 1 0 0 0 1 0 (1 # 10) 0 1))). split; [vm_compute; reflexivity|].
  split; [intros H; vm_compute in H; discriminate H|]. split; vm_compute; reflexivity.
Qed.
(* the box of pixels of a global map; a longitude a turn away is found, too *)
Example world_known_met : exists b q, pixel_to_point_bbox world (Some (Box 0 0 359 179)) = Some b /\ nonempty b /\ bxh b - bxl b <= 360 /\
  set_transform (plain true) (unproj true (-(180)) 90) = Ok world /\ ll_box_from_pix_box world (Some (Box 0 0 359 179)) = Ok world_known /\
  lonlat_to_pixel world_known (170 - 360, 0) = Ok q /\ same q (699 # 2, 179 # 2).
Proof.
  eexists. eexists. split; [vm_compute; reflexivity|]. split; [split; vm_compute; reflexivity|]. split; [vm_compute; discriminate|].
  split; [vm_compute; reflexivity|]. split; [vm_compute; reflexivity|]. split; [vm_compute; reflexivity|]. split; vm_compute; reflexivity.
Qed.
Example crop_met : exists g' q, crop world 10 20 = Ok g' /\ resample world 2 3 = Ok q /\ as_area world = true /\ aligned (tr world) /\ affine (tr world) /\
  same (pixel_to_point g' (0, 0)) (-(339 # 2), 139 # 2).
Proof.
  eexists. eexists. split; [vm_compute; reflexivity|]. split; [vm_compute; reflexivity|]. split; [reflexivity|].
  split; [split; vm_compute; reflexivity|]. split; [repeat split; vm_compute; reflexivity|]. split; vm_compute; reflexivity.
Qed.

(** ** C81: from one georeference to another *)

(* Two images whose datums differ cannot be paired. *)
Theorem different_datums : forall same_datum s d, total s -> total d -> str_eqb (datum s) (datum d) = false -> same_datum (datum s) (datum d) = false ->
  exists e, make_geotrans same_datum s d = Throw e.
Proof.
  intros sd s d (As & Bs) (Ad & Bd) E F. unfold make_geotrans. rewrite E, F. cbn [orb].
  destruct (str_eqb (wkt s) (wkt d) && negb (empty (ll_box s)) && negb (empty (ll_box d))); [|cbn [bind]; eauto].
  destruct (ll_box s) as [c|]; [|cbn [bind]; eauto].
  pose proof (no_ub_lonlat_to_point d Bd (bxl c, byl c)) as U. destruct (lonlat_to_point d (bxl c, byl c)) as [p|e|u]; cbn [bind]; eauto; [|destruct (U u eq_refl)].
  pose proof (no_ub_point_to_lonlat d Ad p) as V. destruct (point_to_lonlat d p) as [q|e|u]; cbn [bind]; eauto. destruct (V u eq_refl).
Qed.
Print Assumptions different_datums.

Theorem wrap_lon_range : forall lon, exists k, (-1 <= k <= 1)%Z /\ turns k (wrap_lon lon) lon /\
  (-(180) <= lon <= 180 -> wrap_lon lon = lon) /\ (-(540) <= lon <= 540 -> -(180) <= wrap_lon lon <= 180).
Proof.
  intros lon. unfold wrap_lon, turns. cbv zeta. destruct (ltq_spec 180 lon).
  - destruct (ltq_spec (lon - 360) (-(180))); [exists 0%Z; change (inject_Z 0) with 0|exists (-1)%Z; change (inject_Z (-1)) with (-(1))];
      (split; [lia|]); (split; [lra|]); (split; [intros; exfalso; lra|intros; lra]).
  - destruct (ltq_spec lon (-(180))); [exists 1%Z; change (inject_Z 1) with 1|exists 0%Z; change (inject_Z 0) with 0];
      (split; [lia|]); (split; [lra|]); (split; [intros; try reflexivity; exfalso; lra|intros; lra]).
Qed.
Print Assumptions wrap_lon_range.

Lemma georef_of_coherent t g : georef_of t g -> tr g = t /\ coherent g.
Proof.
  intros (g0 & g1 & b & E & ->). apply set_transform_inv in E. destruct E as (_ & _ & T & C & _). split; [exact T|exact C].
Qed.
Lemma georef_of_trip t g p : georef_of t g -> affine t ->
  same (point_to_pixel g (pixel_to_point g p)) p /\ same (pixel_to_point g (point_to_pixel g p)) p.
Proof.
  intros G A. apply georef_of_coherent in G. destruct G as (T & C). pose proof (native_inverse g C) as (M & N).
  split; apply project_inverse; auto; apply affine_denom; [apply native_affine|apply native_inv_affine]; auto; now rewrite T.
Qed.

(* Without the projections, forward and reverse undo each other. *)
Theorem shortcut_inverse : forall t ts td p, skip_map t = true -> georef_of ts (src t) -> affine ts -> georef_of td (dst t) -> affine td ->
  (exists q r, forward t p = Ok q /\ reverse t q = Ok r /\ same r p) /\ (exists q r, reverse t p = Ok q /\ forward t q = Ok r /\ same r p).
Proof.
  intros t ts td p S Gs As Gd Ad. unfold forward, reverse. rewrite S. split; eexists; eexists; (split; [reflexivity|]); (split; [reflexivity|]).
  - eapply same_trans; [apply project_same; exact (proj2 (georef_of_trip td (dst t) _ Gd Ad))|]. exact (proj1 (georef_of_trip ts (src t) p Gs As)).
  - eapply same_trans; [apply project_same; exact (proj2 (georef_of_trip ts (src t) _ Gs As))|]. exact (proj1 (georef_of_trip td (dst t) p Gd Ad)).
Qed.
Print Assumptions shortcut_inverse.

(* Between unprojected images reverse undoes forward, whatever turns separate their
   longitudes, where the longitude is less than half a turn from the middle of the
   source. *)
Theorem unprojected_inverse : forall t ts td c d p, skip_map t = false -> is_projected (src t) = false -> is_projected (dst t) = false ->
  georef_of ts (src t) -> affine ts -> georef_of td (dst t) -> affine td -> ll_box (src t) = Some c -> nonempty c -> ll_box (dst t) = Some d -> nonempty d ->
  -(180) < fst (pixel_to_point (src t) p) - middle c < 180 ->
  exists q r, forward t p = Ok q /\ reverse t q = Ok r /\ same r p.
Proof.
  intros t ts td c d p S Ps Pd Gs As Gd Ad Bs Ns Bd Nd R.
  unfold forward, reverse, pixel_to_lonlat, point_to_lonlat, lonlat_to_pixel, lonlat_to_point, wrapped. cbv zeta. rewrite S, Ps, Pd, Bs, Bd. cbn [bind fst snd].
  eexists. eexists. split; [reflexivity|]. split; [reflexivity|].
  set (u := pixel_to_point (src t) p) in *. destruct (near_middle_spec d (fst u) Nd) as (k & K & T & _).
  set (v := (near_middle (Some d) (fst u), snd u)). pose proof (georef_of_trip td (dst t) v Gd Ad) as (_ & (V1 & V2)).
  set (w := pixel_to_point (dst t) (point_to_pixel (dst t) v)) in *. cbn [v fst snd] in V1, V2.
  destruct (near_middle_spec c (fst w) Ns) as (k' & K' & T' & M & _).
  assert (KK : (- k = -1 \/ - k = 0 \/ - k = 1)%Z) by lia. pose proof (M (- k)%Z KK) as M0.
  assert (E : near_middle (Some c) (fst w) == fst u).
  { set (z := near_middle (Some c) (fst w)) in *. unfold turns in T, T'. rewrite V1, T in T'. pose proof (inject_Z_opp k) as OK_.
    set (m := middle c) in *. clearbody z m.
    assert (B : - (180) < z - m < 180).
    { destruct (qabs_cases (z - m)) as [(A & EA)|(A & EA)], (qabs_cases (fst w + 360 * inject_Z (- k) - m)) as [(A' & EA')|(A' & EA')]; rewrite OK_ in *; lra. }
    assert (Z0 : (k + k' = 0)%Z).
    { assert (D : z - fst u == 360 * inject_Z (k + k')) by (rewrite inject_Z_plus, T'; ring).
      destruct (Z.lt_trichotomy (k + k') 0) as [L|[L|L]]; auto; exfalso.
      - assert (inject_Z (k + k') <= inject_Z (-1)) by (apply inject_le; lia). change (inject_Z (-1)) with (-(1)) in H. lra.
      - assert (inject_Z 1 <= inject_Z (k + k')) by (apply inject_le; lia). change (inject_Z 1) with 1 in H. lra. }
    rewrite T'. assert (inject_Z k + inject_Z k' == 0) by (rewrite <- inject_Z_plus, Z0; reflexivity). lra. }
  eapply same_trans; [|exact (proj1 (georef_of_trip ts (src t) p Gs As))]. fold u. apply project_same. split; cbn [fst snd]; [exact E|exact V2].
Qed.
Print Assumptions unprojected_inverse.

(* An unprojected image paired with itself is mapped to itself by a shortcut. *)
Theorem same_georef_identity : forall sd g t c p, georef_of t g -> affine t -> is_projected g = false -> ll_box g = Some c -> nonempty c -> bxh c - bxl c <= 360 ->
  exists u q, make_geotrans sd g g = Ok u /\ skip_map u = true /\ forward u p = Ok q /\ same q p.
Proof.
  intros sd g t c p G A P B N W. exists (GT g g true), (point_to_pixel g (pixel_to_point g p)).
  assert (RF : forall s : str, str_eqb s s = true) by exact str_eqb_refl.
  split.
  - unfold make_geotrans. rewrite !RF, B. pose proof N as N'. apply empty_iff in N'. rewrite N'. cbn [negb andb orb].
    unfold lonlat_to_point, point_to_lonlat. rewrite P, B. cbn [bind fst snd]. destruct (near_middle_spec c (bxl c) N) as (k & _ & _ & _ & S).
    rewrite S. 2:{ unfold middle. destruct N. lra. }
    cbn [bind fst snd]. match goal with |- context [Qle_bool ?X _] => assert (Z0 : Qle_bool X (1 # 10000000000000000) = true) end.
    { apply Qle_bool_iff. match goal with |- ?X <= _ => assert (EX : X == 0) by ring end. rewrite EX. discriminate. }
    rewrite Z0. reflexivity.
  - split; [reflexivity|]. split; [reflexivity|]. exact (proj1 (georef_of_trip t g p G A)).
Qed.
Print Assumptions same_georef_identity.

(* The test for the shortcut looks at one corner only: a map of 0 to 360 degrees is
   paired with one of -180 to 180 by the shortcut, and the pixel at 270 degrees is
   sent outside the second map, which has -90 degrees. *)
Definition world360 : georef :=
  let g := got world (set_transform (plain true) (unproj true 0 90)) in got g (ll_box_from_pix_box g (Some (Box 0 0 359 179))).
Theorem shortcut_one_corner_refuted : exists t q r, make_geotrans (fun _ _ => false) world360 world_known = Ok t /\
  forward t (270, 90) = Ok q /\ same q (450, 90) /\ lonlat_to_pixel world_known (pixel_to_point world360 (270, 90)) = Ok r /\ same r (90, 90).
Proof.
  eexists. eexists. eexists. split; [vm_compute; reflexivity|]. split; [vm_compute; reflexivity|]. split; [split; vm_compute; reflexivity|].
  split; [vm_compute; reflexivity|]. split; vm_compute; reflexivity.
Qed.
Print Assumptions shortcut_one_corner_refuted.

(* forward_bbox, reverse_bbox: an integer box that holds the image of each pixel of
   the perimeter that can be converted, and is less than a pixel too large. *)
Theorem transformed_bbox_perimeter : forall t x y x' y', total (src t) -> total (dst t) -> (x < x')%Z -> (y < y')%Z ->
  exists l bf br, (forall i j, perimeter x y x' y' i j -> In (inject_Z i, inject_Z j) l) /\ (forall p, In p l -> within (int_box x y x' y') p) /\
    forward_bbox t (Some (int_box x y x' y')) = Ok bf /\ int_cover (image_of (forward t) l) bf /\
    reverse_bbox t (Some (int_box x y x' y')) = Ok br /\ int_cover (image_of (reverse t) l) br.
Proof.
  intros t x y x' y' Ts Td X Y. destruct (sample_int_box_spec x y x' y' X Y) as (l & E & A & B).
  destruct (grow_by_least (forward t) l (no_ub_forward t Ts Td)) as (bf & Ff & Lf).
  destruct (grow_by_least (reverse t) l (no_ub_reverse t Ts Td)) as (br & Fr & Lr).
  assert (NE : empty (Some (int_box x y x' y')) = false) by (apply empty_iff; split; cbn [int_box bxl bxh byl byh]; rewrite <- Zlt_Qlt; assumption).
  exists l, (grow_to_int bf), (grow_to_int br). split; [exact A|]. split.
  - intros p Hp. destruct (B p Hp) as (i & j & -> & I & J). unfold within, int_box. cbn [bxl bxh byl byh fst snd]. repeat split; apply inject_le; lia.
  - unfold forward_bbox, reverse_bbox. rewrite NE, E. cbn [bind]. rewrite Ff, Fr. cbn [bind].
    split; [reflexivity|]. split; [now apply grow_to_int_cover|]. split; [reflexivity|]. now apply grow_to_int_cover.
Qed.
Print Assumptions transformed_bbox_perimeter.

(* In particular. *)
Theorem forward_bbox_holds : forall t x y x' y' i j q, total (src t) -> total (dst t) -> (x < x')%Z -> (y < y')%Z -> perimeter x y x' y' i j ->
  forward t (inject_Z i, inject_Z j) = Ok q ->
  exists b, forward_bbox t (Some (int_box x y x' y')) = Ok (Some b) /\ bxl b <= fst q < bxh b /\ byl b <= snd q < byh b.
Proof.
  intros t x y x' y' i j q Ts Td X Y P F. destruct (transformed_bbox_perimeter t x y x' y' Ts Td X Y) as (l & bf & br & A & _ & E & C & _).
  destruct (int_cover_in _ _ q C) as (b & -> & K); [exists (inject_Z i, inject_Z j); split; auto|]. exists b. auto.
Qed.
Print Assumptions forward_bbox_holds.

(* Boxes of points: a hundred steps along the sides and the diagonals, the corners
   among them. *)
Theorem point_bbox_samples : forall t c, total (src t) -> total (dst t) -> nonempty c ->
  exists l, (forall p, In p l -> within c p) /\ (forall p, In p (corners c) -> exists q, In q l /\ same p q) /\
    (forall i, (0 <= i <= 100)%Z -> forall r, r = inject_Z i / 100 ->
       In (bxl c, byl c + r * (byh c - byl c)) l /\ In (bxh c, byl c + r * (byh c - byl c)) l /\
       In (bxl c + r * (bxh c - bxl c), byl c) l /\ In (bxl c + r * (bxh c - bxl c), byh c) l /\
       In (bxl c + r * (bxh c - bxl c), byl c + r * (byh c - byl c)) l /\ In (bxh c - r * (bxh c - bxl c), byl c + r * (byh c - byl c)) l) /\
    (exists b, point_to_point_bbox t (Some c) = Ok b /\ least (image_of (point_to_point t) l) b) /\
    (exists b, gt_point_to_pixel_bbox t (Some c) = Ok b /\ int_cover (image_of (gt_point_to_pixel t) l) b).
Proof.
  intros t c Ts Td N. destruct (sample_float_box_spec c 100 N ltac:(lia)) as (A & B & C). exists (sample_float_box (Some c) 100).
  split; [exact A|]. split; [exact B|]. split; [exact C|]. pose proof N as N'. apply empty_iff in N'.
  unfold point_to_point_bbox, gt_point_to_pixel_bbox. rewrite N'. split.
  - apply grow_by_least, no_ub_point_to_point; assumption.
  - destruct (grow_by_least (gt_point_to_pixel t) (sample_float_box (Some c) 100) (no_ub_gt_point_to_pixel t Ts Td)) as (b & -> & L). cbn [bind].
    eexists. split; [reflexivity|]. now apply grow_to_int_cover.
Qed.
Print Assumptions point_bbox_samples.

Theorem pixel_to_point_bbox_perimeter : forall t x y x' y', total (src t) -> total (dst t) -> (x < x')%Z -> (y < y')%Z ->
  exists l b, (forall i j, perimeter x y x' y' i j -> In (inject_Z i, inject_Z j) l) /\ (forall p, In p l -> within (int_box x y x' y') p) /\
    gt_pixel_to_point_bbox t (Some (int_box x y x' y')) = Ok b /\ least (image_of (gt_pixel_to_point t) l) b.
Proof.
  intros t x y x' y' Ts Td X Y. destruct (sample_int_box_spec x y x' y' X Y) as (l & E & A & B).
  destruct (grow_by_least (gt_pixel_to_point t) l (no_ub_gt_pixel_to_point t Ts Td)) as (b & F & L).
  assert (NE : empty (Some (int_box x y x' y')) = false) by (apply empty_iff; split; cbn [int_box bxl bxh byl byh]; rewrite <- Zlt_Qlt; assumption).
  exists l, b. split; [exact A|]. split.
  - intros p Hp. destruct (B p Hp) as (i & j & -> & I & J). unfold within, int_box. cbn [bxl bxh byl byh fst snd]. repeat split; apply inject_le; lia.
  - unfold gt_pixel_to_point_bbox. rewrite NE, E. cbn [bind]. auto.
Qed.
Print Assumptions pixel_to_point_bbox_perimeter.

(* The four conversions agree: forward is pixel to point, point to point, point to
   pixel, unless the longitude must be brought into -180 to 180. *)
Theorem conversions_agree : forall t p,
  gt_pixel_to_point t p = point_to_point t (pixel_to_point (src t) p) /\
  gt_point_to_pixel t p = (q <- point_to_point t p ;; Ok (point_to_pixel (dst t) q)) /\
  ((is_projected (dst t) = false \/ forall q, pixel_to_lonlat (src t) p = Ok q -> -(180) <= fst q <= 180) ->
   forward t p = gt_point_to_pixel t (pixel_to_point (src t) p)).
Proof.
  intros t p. unfold gt_pixel_to_point, gt_point_to_pixel, point_to_point, forward, pixel_to_lonlat. cbv zeta. split; [reflexivity|].
  destruct (skip_map t); [split; reflexivity|]. split.
  - destruct (point_to_lonlat (src t) p); reflexivity.
  - intros H. destruct (point_to_lonlat (src t) (pixel_to_point (src t) p)) as [q|e|u]; cbn [bind]; auto. unfold wrapped.
    destruct H as [-> |H]; [reflexivity|]. destruct (is_projected (dst t)); auto. destruct (wrap_lon_range (fst q)) as (k & _ & _ & S & _). rewrite S by (apply H; reflexivity).
    destruct q; reflexivity.
Qed.
Print Assumptions conversions_agree.

(* reproject_point_image leaves zero vectors and heights alone and treats the other
   points as pixels. *)
Theorem reproject_points_each : forall t l r, reproject_points t l = Ok r -> length r = length l /\
  forall i p h, nth_error l i = Some (p, h) -> exists q, nth_error r i = Some (q, h) /\
    (fst p == 0 /\ snd p == 0 /\ h == 0 -> q = p) /\ (~ (fst p == 0 /\ snd p == 0 /\ h == 0) -> forward t p = Ok q).
Proof.
  intros t. induction l as [|[p h] l IH]; intros r E.
  - injection E as <-. split; [reflexivity|]. intros [|i] p h; discriminate.
  - cbn [reproject_points] in E. apply bind_ok in E. destruct E as ((q & h') & E1 & E). apply bind_ok in E. destruct E as (r' & E2 & E). injection E as <-.
    destruct (IH r' E2) as (L & H). split; [cbn [length]; now rewrite L|]. intros [|i] p0 h0 N; [|exact (H i p0 h0 N)].
    injection N as <- <-. unfold reproject_pixel in E1.
    destruct (Qeq_bool (fst p) 0 && Qeq_bool (snd p) 0 && Qeq_bool h 0) eqn:Z.
    + injection E1 as <- <-. exists p. split; [reflexivity|]. split; [auto|]. intros F. exfalso. apply F. rewrite !andb_true_iff, !Qeq_bool_iff in Z. tauto.
    + apply bind_ok in E1. destruct E1 as (q' & F & E1). injection E1 as <- <-. exists q'. split; [reflexivity|]. split; [|auto].
      intros (A & B & C). apply Qeq_bool_iff in A, B, C. rewrite A, B, C in Z. discriminate.
Qed.
Print Assumptions reproject_points_each.

(* Its documentation says the affine transforms are ignored and the points are not
   pixels: two sources that differ only in the transform give different results. *)
Theorem reproject_ignores_transform_refuted : exists s s' r r', wkt s = wkt s' /\ ll_box s = ll_box s' /\
  reproject_point_image (fun _ _ => false) [((10, 20), 1)] s world_known = Ok [(r, 1)] /\
  reproject_point_image (fun _ _ => false) [((10, 20), 1)] s' world_known = Ok [(r', 1)] /\ ~ same r r'.
Proof.
  exists world_known, (set_ll_box (got world (set_transform (plain true) (unproj true (-(170)) 80))) (ll_box world_known)).
  eexists. eexists. split; [vm_compute; reflexivity|]. split; [vm_compute; reflexivity|]. split; [vm_compute; reflexivity|]. split; [vm_compute; reflexivity|].
  intros (H & _). vm_compute in H. discriminate H.
Qed.
Print Assumptions reproject_ignores_transform_refuted.

(* The hypotheses are met: maps a turn apart, by way of longitudes. *)
Definition far_trans : geotrans := GT world360 world_known false.
Example far_trans_met : exists c d q r, georef_of (unproj true 0 90) world360 /\ georef_of (unproj true (-(180)) 90) world_known /\
  affine (unproj true 0 90) /\ ll_box world360 = Some c /\ nonempty c /\ ll_box world_known = Some d /\ nonempty d /\
  -(180) < fst (pixel_to_point (src far_trans) (270, 90)) - middle c < 180 /\ bxh c - bxl c <= 360 /\
  forward far_trans (270, 90) = Ok q /\ same q (90, 90) /\ reverse far_trans q = Ok r /\ same r (270, 90).
Proof.
  eexists. eexists. eexists. eexists.
  split. { exists (plain true), (got world (set_transform (plain true) (unproj true 0 90))), (ll_box world360). split; vm_compute; reflexivity. }
  split. { exists (plain true), world, (ll_box world_known). split; vm_compute; reflexivity. }
  split; [repeat split; reflexivity|]. split; [vm_compute; reflexivity|]. split; [split; vm_compute; reflexivity|].
  split; [vm_compute; reflexivity|]. split; [split; vm_compute; reflexivity|]. split; [split; vm_compute; reflexivity|]. split; [vm_compute; discriminate|].
  split; [vm_compute; reflexivity|]. split; [split; vm_compute; reflexivity|]. split; [vm_compute; reflexivity|]. split; vm_compute; reflexivity.
Qed.
Example far_bbox_met : total world360 /\ total world_known /\ perimeter 250 40 280 60 270 40 /\
  exists b, forward_bbox far_trans (Some (int_box 250 40 280 60)) = Ok (Some b) /\ b = int_box 70 40 101 61.
Proof.
  assert (T : forall g, to_lonlat g = (fun p => Ok p) -> to_proj g = (fun p => Ok p) -> total g) by (intros g A B; split; intros p u; rewrite ?A, ?B; discriminate).
  split; [apply T; vm_compute; reflexivity|]. split; [apply T; vm_compute; reflexivity|].
  split; [unfold perimeter; lia|]. eexists. split; vm_compute; reflexivity.
Qed.
