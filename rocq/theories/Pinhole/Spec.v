(** What a pinhole camera shows. *)
From Coq Require Import List Bool ZArith QArith.
From Verif Require Import Lib.Base GeoRef.Model GeoRef.Spec Stereo.Model Stereo.Spec Pinhole.Model.
Import ListNotations.
Local Open Scope Q_scope.

(* the component of a point, seen from the centre, along a direction given in the
   axes of the camera, which are the columns of its rotation *)
Definition along (c : pinhole) (d p : vec) : Q :=
  let x := vx p - vx (center c) in let y := vy p - vy (center c) in let z := vz p - vz (center c) in
  let r := rotation c in
  vx d * (m00 r * x + m10 r * y + m20 r * z) + vy d * (m01 r * x + m11 r * y + m21 r * z) + vz d * (m02 r * x + m12 r * y + m22 r * z).
Definition depth (c : pinhole) (p : vec) : Q := along c (wdir c) p.
(* the image of a point before the lens *)
Definition ideal (c : pinhole) (p : vec) : pt :=
  (fst (focal c) * (along c (udir c) p / depth c p) + fst (offset c), snd (focal c) * (along c (vdir c) p / depth c p) + snd (offset c)).
Definition times (k : Q) (p : pt) : pt := (k * fst p, k * snd p).

(* equal numbers give equal numbers *)
Definition proper (l : lens) : Prop :=
  forall f o p q, same p q -> same (distort l f o p) (distort l f o q) /\ same (undistort l f o p) (undistort l f o q).
(* the two maps of the lens of a camera are inverse at a point of the image *)
Definition undoes (c : pinhole) (p : pt) : Prop :=
  same (undistort (lens_of c) (focal c) (offset c) (distort (lens_of c) (focal c) (offset c) p)) p.
Definition redoes (c : pinhole) (p : pt) : Prop :=
  same (distort (lens_of c) (focal c) (offset c) (undistort (lens_of c) (focal c) (offset c) p)) p.

(* a camera as it leaves the function that builds its matrices *)
Definition built (c : pinhole) : Prop := exists c0, rebuild c0 = Ok c.
(* parameters that can be built *)
Definition framed (u v w : vec) : Prop :=
  perpendicular u v /\ perpendicular u w /\ perpendicular v w /\
  forall d, d = u \/ d = v \/ d = w -> (999 # 1000) * (999 # 1000) < sq d < (1001 # 1000) * (1001 # 1000).
(* the columns are unit vectors at right angles *)
Definition orthonormal (r : mat) : Prop :=
  m00 r * m00 r + m10 r * m10 r + m20 r * m20 r == 1 /\ m01 r * m01 r + m11 r * m11 r + m21 r * m21 r == 1 /\
  m02 r * m02 r + m12 r * m12 r + m22 r * m22 r == 1 /\ m00 r * m01 r + m10 r * m11 r + m20 r * m21 r == 0 /\
  m00 r * m02 r + m10 r * m12 r + m20 r * m22 r == 0 /\ m01 r * m02 r + m11 r * m12 r + m21 r * m22 r == 0.

(* parameters, and a camera made afresh from them *)
Definition same_params (c c' : pinhole) : Prop :=
  lens_of c = lens_of c' /\ center c = center c' /\ rotation c = rotation c' /\ focal c = focal c' /\ offset c = offset c' /\
  udir c = udir c' /\ vdir c = vdir c' /\ wdir c = wdir c' /\ pitch c = pitch c'.
Definition remade (c : pinhole) : res pinhole :=
  make (lens_of c) (center c) (rotation c) (focal c) (offset c) (udir c) (vdir c) (wdir c) (pitch c).

(* calls that change a camera *)
Inductive op :=
| Center (v : vec) | Pose (r : mat) | Frame (u v w : vec) | Distortion (l : lens) | Intrinsic (f o : pt) | Focal (f : pt) | Offset (o : pt) | Pitch (k : Q)
| Transform (r : mat) (t : vec) (s : Q).
Definition step (c : pinhole) (o : op) : res pinhole :=
  match o with
  | Center v => set_camera_center c v | Pose r => set_camera_pose c r | Frame u v w => set_coordinate_frame c u v w
  | Distortion l => Ok (set_lens_distortion c l) | Intrinsic f o => set_intrinsic_parameters c f o
  | Focal f => set_focal_length c f true | Offset o => set_point_offset c o true | Pitch k => Ok (set_pixel_pitch c k)
  | Transform r t s => apply_transform c r t s
  end.
Fixpoint steps (c : pinhole) (l : list op) : res pinhole :=
  match l with [] => Ok c | o :: r => c' <- step c o ;; steps c' r end.

(* third column, the axis along which the camera looks *)
Definition look (r : mat) : vec := V3 (m02 r) (m12 r) (m22 r).
Definition is_length (n : Q) (v : vec) : Prop := 0 < n /\ n * n == sq v.
