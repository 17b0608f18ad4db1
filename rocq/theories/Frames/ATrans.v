(** Affine transforms: src/vw/Geometry/ATrans.h.

    Simplification: the elements are rationals and the arithmetic exact; only
    three dimensions (ATrans3, the transform of a frame). *)
From Coq Require Import List ZArith QArith Qcanon.
From Verif Require Import Lib.Base Lib.Img MInv.Model Tree.Model Frames.Model.
Import ListNotations.
Local Open Scope Qc_scope.

(** Vector3 and Matrix3x3 (ATrans.h 63-65). *)
Record vec := V3 { vx : Qc; vy : Qc; vz : Qc }.
Record mat := M3 { r0 : vec; r1 : vec; r2 : vec }.

Definition dot (a b : vec) : Qc := vx a * vx b + vy a * vy b + vz a * vz b.
Definition vadd (a b : vec) : vec := V3 (vx a + vx b) (vy a + vy b) (vz a + vz b).
Definition vneg (a : vec) : vec := V3 (- vx a) (- vy a) (- vz a).
Definition mv (m : mat) (v : vec) : vec := V3 (dot (r0 m) v) (dot (r1 m) v) (dot (r2 m) v).
Definition c0 (m : mat) : vec := V3 (vx (r0 m)) (vx (r1 m)) (vx (r2 m)).
Definition c1 (m : mat) : vec := V3 (vy (r0 m)) (vy (r1 m)) (vy (r2 m)).
Definition c2 (m : mat) : vec := V3 (vz (r0 m)) (vz (r1 m)) (vz (r2 m)).
Definition times_cols (r : vec) (m : mat) : vec := V3 (dot r (c0 m)) (dot r (c1 m)) (dot r (c2 m)).
Definition mm (a b : mat) : mat := M3 (times_cols (r0 a) b) (times_cols (r1 a) b) (times_cols (r2 a) b).

(** ATrans.h 109-113: translation and rotation. *)
Record atrans := AT { tp : vec; tr : mat }.

(** ATrans.h 158-164: the product. *)
Definition amul (a b : atrans) : atrans := AT (vadd (mv (tr a) (tp b)) (tp a)) (mm (tr a) (tr b)).

(** ATrans.h 174-181: a transform times a position. *)
Definition aat (a : atrans) (v : vec) : vec := vadd (mv (tr a) v) (tp a).

(** A matrix as the matrix inversion takes it, and back. *)
Definition vget (v : vec) (c : Z) : Qc := if (c =? 0)%Z then vx v else if (c =? 1)%Z then vy v else vz v.
Definition matrix_of (m : mat) : matrix :=
  Img 3 3 (fun c r => vget (if (r =? 0)%Z then r0 m else if (r =? 1)%Z then r1 m else r2 m) c).
Definition row_of (m : matrix) (r : Z) : res vec :=
  a <- mget m r 0 ;; b <- mget m r 1 ;; c <- mget m r 2 ;; Ok (V3 a b c).
Definition mat_of (m : matrix) : res mat :=
  a <- row_of m 0 ;; b <- row_of m 1 ;; c <- row_of m 2 ;; Ok (M3 a b c).

(** ATrans.h 116-122: inverse.  It is declared throw(), so that the exception
    for a singular matrix ends the program; here it is passed on. *)
Definition ainv (a : atrans) : res atrans :=
  x <- inverse (matrix_of (tr a)) ;; mi <- mat_of x ;; Ok (AT (vneg (mv mi (tp a))) mi).

(** ATrans.h 132-156: from a matrix of four rows and columns; the last row is
    not looked at. *)
Definition of_matrix (m : matrix) : res atrans :=
  a <- mget m 0 3 ;; b <- mget m 1 3 ;; c <- mget m 2 3 ;; r <- mat_of m ;; Ok (AT (V3 a b c) r).

(** ATrans.h 183-189: to such a matrix.  The elements are not filled in, and the
    default constructor (Matrix.h 322-324) sets them to zero. *)
Definition to_matrix (a : atrans) : matrix := zeros 4 4.

(** Matrix.h 2109-2122: the identity, and the transform made of it
    (FrameTreeNode.cc 33). *)
Definition identity (n : Z) : matrix := Img n n (fun c r => if (c =? r)%Z then 1 else 0).
Definition aone : atrans := AT (V3 0 0 0) (M3 (V3 1 0 0) (V3 0 1 0) (V3 0 0 1)).

(** FrameStore.cc 393-446 with these transforms. *)
Definition get_transform (st : store atrans) f source : res atrans := fs_get_transform aone amul ainv st f source.
Definition get_transform_of (st : store atrans) f source t : res atrans := fs_get_transform_of aone amul ainv st f source t.
Definition set_transform (st : store atrans) f wrt t : res (store atrans) := fs_set_transform aone amul ainv st f wrt t.
Definition set_transform_rel (st : store atrans) f t : res (store atrans) := fs_set_transform_rel aone amul ainv st f t.

(** FrameStore.cc 404-413: get_position_of. *)
Definition get_position_of (st : store atrans) (f source : option nat) (v : vec) : res vec :=
  _ <- not_null f ;; _ <- not_null source ;; g <- node_transform aone amul ainv (sheap st) f source ;; Ok (aat g v).
