(** Pinhole cameras (src/vw/Camera/PinholeModel.cc).

    Coordinates are exact rationals.  [None] stands for a pixel that is not a number:
    the code divides by zero.  Poses are rotation matrices; their passage through
    quaternions, which keeps a rotation, is left out, as are files, [set_camera_matrix]
    and the partial state after a failed [rebuild_camera_matrix]. *)
From Coq Require Import List Bool ZArith QArith.
From Verif Require Import Lib.Base GeoRef.Model Stereo.Model.
Import ListNotations.
Local Open Scope Q_scope.

(* Camera/LensDistortion.h: the two maps between undistorted and distorted coordinates;
   both are given the focal lengths and the offset of the camera *)
Record lens := Lens { distort : pt -> pt -> pt -> pt; undistort : pt -> pt -> pt -> pt }.
(* Camera/LensDistortion.h NullLensDistortion *)
Definition null_lens : lens := Lens (fun _ _ p => p) (fun _ _ p => p).

(* Camera/PinholeModel.h:83-119: a 3x4 matrix is a 3x3 matrix and a column *)
Record pinhole := Pin {
  lens_of : lens; center : vec; rotation : mat; focal : pt; offset : pt;
  udir : vec; vdir : vec; wdir : vec; pitch : Q; do_check : bool;
  extrinsics : mat * vec; camera_matrix : mat * vec; inv_transform : mat }.

Definition transpose (m : mat) : mat := M3 (m00 m) (m10 m) (m20 m) (m01 m) (m11 m) (m21 m) (m02 m) (m12 m) (m22 m).
Definition mneg (m : mat) : mat :=
  M3 (- m00 m) (- m01 m) (- m02 m) (- m10 m) (- m11 m) (- m12 m) (- m20 m) (- m21 m) (- m22 m).
Definition mmul (a b : mat) : mat :=
  M3 (m00 a * m00 b + m01 a * m10 b + m02 a * m20 b) (m00 a * m01 b + m01 a * m11 b + m02 a * m21 b) (m00 a * m02 b + m01 a * m12 b + m02 a * m22 b)
     (m10 a * m00 b + m11 a * m10 b + m12 a * m20 b) (m10 a * m01 b + m11 a * m11 b + m12 a * m21 b) (m10 a * m02 b + m11 a * m12 b + m12 a * m22 b)
     (m20 a * m00 b + m21 a * m10 b + m22 a * m20 b) (m20 a * m01 b + m21 a * m11 b + m22 a * m21 b) (m20 a * m02 b + m21 a * m12 b + m22 a * m22 b).
Definition rows (u v w : vec) : mat := M3 (vx u) (vy u) (vz u) (vx v) (vy v) (vz v) (vx w) (vy w) (vz w).

(* PinholeModel.cc:589: the norm is compared through its square *)
Definition nearly_unit (v : vec) : bool := ltq ((999 # 1000) * (999 # 1000)) (dot v v) && ltq (dot v v) ((1001 # 1000) * (1001 # 1000)).
(* PinholeModel.cc:565-573 *)
Definition intrinsics (c : pinhole) : mat := M3 (fst (focal c)) 0 (fst (offset c)) 0 (snd (focal c)) (snd (offset c)) 0 0 1.
(* PinholeModel.cc:553-605 rebuild_camera_matrix *)
Definition rebuild (c : pinhole) : res pinhole :=
  if negb (Qeq_bool (dot (udir c) (vdir c)) 0) then Throw LogicErr
  else if negb (Qeq_bool (dot (udir c) (wdir c)) 0) then Throw LogicErr
  else if negb (Qeq_bool (dot (vdir c) (wdir c)) 0) then Throw LogicErr
  else if negb (nearly_unit (udir c)) then Throw LogicErr
  else if negb (nearly_unit (vdir c)) then Throw LogicErr
  else if negb (nearly_unit (wdir c)) then Throw LogicErr
  else
    let uvw := rows (udir c) (vdir c) (wdir c) in
    let rinv := transpose (rotation c) in
    let ext := (mmul uvw rinv, mulv (mmul uvw (mneg rinv)) (center c)) in
    let cam := (mmul (intrinsics c) (fst ext), mulv (intrinsics c) (snd ext)) in
    a <- inverse3 (mmul uvw rinv) ;;
    b <- inverse3 (intrinsics c) ;;
    Ok (Pin (lens_of c) (center c) (rotation c) (focal c) (offset c) (udir c) (vdir c) (wdir c) (pitch c) (do_check c)
            ext cam (mmul a b)).

(* PinholeModel.cc:78-97 the constructor with directions; the matrices are
   uninitialised before they are built *)
Definition no_mat : mat := M3 0 0 0 0 0 0 0 0 0.
Definition make (l : lens) (c : vec) (r : mat) (f o : pt) (u v w : vec) (k : Q) : res pinhole :=
  rebuild (Pin l c r f o u v w k true (no_mat, vzero) (no_mat, vzero) no_mat).
(* PinholeModel.cc:99-118 the constructor without them *)
Definition make_plain (l : lens) (c : vec) (r : mat) (f o : pt) (k : Q) : res pinhole :=
  make l c r f o (V3 1 0 0) (V3 0 1 0) (V3 0 0 1) k.
(* PinholeModel.cc:43-53 the default constructor *)
Definition make_default : res pinhole := make_plain null_lens vzero (M3 1 0 0 0 1 0 0 0 1) (1, 1) (0, 0) 1.

Definition prod34 (m : mat * vec) (p : vec) : vec := vadd (mulv (fst m) p) (snd m).
(* PinholeModel.cc:351-368 point_to_pixel_no_check; a coordinate that is not a number
   is taken to stay so in the lens *)
Definition point_to_pixel_no_check (c : pinhole) (p : vec) : option pt :=
  let h := prod34 (camera_matrix c) p in
  if Qeq_bool (vz h) 0 || Qeq_bool (pitch c) 0 then None
  else
    let q := distort (lens_of c) (focal c) (offset c) (vx h / vz h, vy h / vz h) in
    Some (fst q / pitch c, snd q / pitch c).
(* PinholeModel.cc:399-413 point_to_pixel_no_distortion *)
Definition point_to_pixel_no_distortion (c : pinhole) (p : vec) : option pt :=
  let h := prod34 (camera_matrix c) p in
  if Qeq_bool (vz h) 0 || Qeq_bool (pitch c) 0 then None
  else Some (vx h / vz h / pitch c, vy h / vz h / pitch c).
(* PinholeModel.cc:415-420 projection_valid *)
Definition projection_valid (c : pinhole) (p : vec) : bool := ltq 0 (vz (prod34 (extrinsics c) p)).
(* PinholeModel.cc:422-430 pixel_to_vector; the vector is not brought to length one *)
Definition pixel_to_vector (c : pinhole) (p : pt) : vec :=
  let q := undistort (lens_of c) (focal c) (offset c) (fst p * pitch c, snd p * pitch c) in
  mulv (inv_transform c) (V3 (fst q) (snd q) 1).
(* PinholeModel.cc:378-394: whether unit vectors along a and b, or a and -b, are less
   than 0.01 apart, which is that the square of their product is above that of
   1 - 0.01 * 0.01 / 2 *)
Definition nearly_aligned (a b : vec) : bool :=
  ltq ((19999 # 20000) * (19999 # 20000) * (dot a a * dot b b)) (dot a b * dot a b).
(* PinholeModel.cc:370-397 point_to_pixel; the exception is a PointToPixelErr *)
Definition point_to_pixel (c : pinhole) (p : vec) : res (option pt) :=
  match point_to_pixel_no_check c p with
  | None => if do_check c then Throw OtherErr else Ok None
  | Some q =>
      if negb (do_check c) then Ok (Some q)
      else if nearly_aligned (pixel_to_vector c q) (vsub p (center c)) then Ok (Some q)
      else Throw OtherErr
  end.

(** ** Changes *)

Definition with_ (c : pinhole) (l : lens) (o : vec) (r : mat) (f n : pt) (u v w : vec) (k : Q) : pinhole :=
  Pin l o r f n u v w k (do_check c) (extrinsics c) (camera_matrix c) (inv_transform c).
(* PinholeModel.cc:436-439 set_camera_center *)
Definition set_camera_center (c : pinhole) (o : vec) : res pinhole :=
  rebuild (with_ c (lens_of c) o (rotation c) (focal c) (offset c) (udir c) (vdir c) (wdir c) (pitch c)).
(* PinholeModel.cc:445-453 set_camera_pose *)
Definition set_camera_pose (c : pinhole) (r : mat) : res pinhole :=
  rebuild (with_ c (lens_of c) (center c) r (focal c) (offset c) (udir c) (vdir c) (wdir c) (pitch c)).
(* PinholeModel.cc:461-467 set_coordinate_frame *)
Definition set_coordinate_frame (c : pinhole) (u v w : vec) : res pinhole :=
  rebuild (with_ c (lens_of c) (center c) (rotation c) (focal c) (offset c) u v w (pitch c)).
(* PinholeModel.cc:475-477 set_lens_distortion *)
Definition set_lens_distortion (c : pinhole) (l : lens) : pinhole :=
  with_ c l (center c) (rotation c) (focal c) (offset c) (udir c) (vdir c) (wdir c) (pitch c).
(* PinholeModel.cc:484-488 set_intrinsic_parameters *)
Definition set_intrinsic_parameters (c : pinhole) (f o : pt) : res pinhole :=
  rebuild (with_ c (lens_of c) (center c) (rotation c) f o (udir c) (vdir c) (wdir c) (pitch c)).
(* PinholeModel.cc:491-494 set_focal_length *)
Definition set_focal_length (c : pinhole) (f : pt) (again : bool) : res pinhole :=
  let c' := with_ c (lens_of c) (center c) (rotation c) f (offset c) (udir c) (vdir c) (wdir c) (pitch c) in
  if again then rebuild c' else Ok c'.
(* PinholeModel.cc:496-499 set_point_offset *)
Definition set_point_offset (c : pinhole) (o : pt) (again : bool) : res pinhole :=
  let c' := with_ c (lens_of c) (center c) (rotation c) (focal c) o (udir c) (vdir c) (wdir c) (pitch c) in
  if again then rebuild c' else Ok c'.
(* PinholeModel.cc:501 set_pixel_pitch *)
Definition set_pixel_pitch (c : pinhole) (k : Q) : pinhole :=
  with_ c (lens_of c) (center c) (rotation c) (focal c) (offset c) (udir c) (vdir c) (wdir c) k.
(* PinholeModel.cc:628-643 apply_transform *)
Definition apply_transform (c : pinhole) (r : mat) (t : vec) (s : Q) : res pinhole :=
  let position := vadd (vscale s (mulv r (center c))) t in
  let pose := mmul r (rotation c) in
  c' <- set_camera_center c position ;;
  set_camera_pose c' pose.
(* PinholeModel.cc:647-661 scale_camera *)
Definition scale_camera (c : pinhole) (s : Q) : res pinhole :=
  if Qeq_bool s 0 then Throw ArgumentErr
  else make (lens_of c) (center c) (rotation c) (focal c) (offset c) (udir c) (vdir c) (wdir c) (pitch c / s).
(* PinholeModel.cc:663-674 strip_lens_distortion *)
Definition strip_lens_distortion (c : pinhole) : res pinhole :=
  make null_lens (center c) (rotation c) (focal c) (offset c) (udir c) (vdir c) (wdir c) (pitch c).

(* PinholeModel.cc:679-732 epipolar; the lengths of vectors, which are square roots, are
   a function given from outside *)
Definition half (a b : pt) : pt := ((fst a + fst b) / 2, (snd a + snd b) / 2).
Definition epipolar (norm : vec -> Q) (s0 s1 : pinhole) : res (pinhole * pinhole) :=
  let look0 := V3 (-1 * m02 (rotation s0)) (-1 * m12 (rotation s0)) (-1 * m22 (rotation s0)) in
  let look1 := V3 (-1 * m02 (rotation s1)) (-1 * m12 (rotation s1)) (-1 * m22 (rotation s1)) in
  let base := vsub (center s1) (center s0) in
  let u := vscale (/ norm base) base in
  let mean_look := vscale (1 # 2) (vadd look0 look1) in
  let temp := cross u (cross mean_look u) in
  let w := vscale (/ norm temp) temp in
  let v := cross w u in
  let new_rot := M3 (vx u) (- vx v) (- vx w) (vy u) (- vy v) (- vy w) (vz u) (- vz v) (- vz w) in
  let f := half (focal s0) (focal s1) in
  let o := half (offset s0) (offset s1) in
  let k := (pitch s0 + pitch s1) / 2 in
  d0 <- make_plain null_lens (center s0) new_rot f o k ;;
  d1 <- make_plain null_lens (center s1) new_rot f o k ;;
  Ok (d0, d1).
