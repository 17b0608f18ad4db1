(** Rotations of space. *)
From Coq Require Import List Bool ZArith QArith.
From Verif Require Import Lib.Base GeoRef.Model GeoRef.Spec Stereo.Model Stereo.Spec Pinhole.Model Pinhole.Spec Quat.Model.
Import ListNotations.
Local Open Scope Q_scope.

Definition qeq (a b : quat) : Prop := qw a == qw b /\ qx a == qx b /\ qy a == qy b /\ qz a == qz b.
Definition opposite (a b : quat) : Prop := qw a == - qw b /\ qx a == - qx b /\ qy a == - qy b /\ qz a == - qz b.
Definition length2 (q : quat) : Q := qw q * qw q + qx q * qx q + qy q * qy q + qz q * qz q.
Definition meq (a b : mat) : Prop :=
  (m00 a == m00 b /\ m01 a == m01 b /\ m02 a == m02 b) /\ (m10 a == m10 b /\ m11 a == m11 b /\ m12 a == m12 b) /\
  (m20 a == m20 b /\ m21 a == m21 b /\ m22 a == m22 b).
(* keeps lengths and angles, and does not mirror *)
Definition rotation_of (r : mat) : Prop := orthonormal r /\ det3 r == 1.
Definition mirror (r : mat) : Prop := orthonormal r /\ det3 r == -(1).

(* the four sums of a matrix whose largest is taken a root of *)
Definition four (r : mat) : list Q :=
  [1 + m00 r + m11 r + m22 r; 1 + m00 r - m11 r - m22 r; 1 - m00 r + m11 r - m22 r; 1 - m00 r - m11 r + m22 r].
Definition root (s x : Q) : Prop := 0 <= s /\ s * s == x.
(* the square root is exact where it is needed *)
Definition exact_at (sqrt : Q -> Q) (r : mat) : Prop :=
  forall x y, In x (four r) -> (forall z, In z (four r) -> z <= x) -> y == x * 4 -> root (sqrt y) y.

(* sine and cosine of an angle and of its half *)
Definition half_angle (sin cos : Q -> Q) (t : Q) : Prop :=
  let c := cos (t * (1 # 2)) in let s := sin (t * (1 # 2)) in
  c * c + s * s == 1 /\ cos t == c * c - s * s /\ sin t == 2 * (s * c).
(* axis letters *)
Definition axis_name (n : nat) (c : Z) : Prop := (n = 0%nat /\ (c = 88 \/ c = 120)%Z) \/ (n = 1%nat /\ (c = 89 \/ c = 121)%Z) \/ (n = 2%nat /\ (c = 90 \/ c = 122)%Z).
(* a turn by t about a coordinate axis *)
Definition turn (sin cos : Q -> Q) (n : nat) (t : Q) (v : vec) : vec :=
  match n with
  | 0%nat => V3 (vx v) (cos t * vy v - sin t * vz v) (sin t * vy v + cos t * vz v)
  | 1%nat => V3 (cos t * vx v + sin t * vz v) (vy v) (cos t * vz v - sin t * vx v)
  | _ => V3 (cos t * vx v - sin t * vy v) (sin t * vx v + cos t * vy v) (vz v)
  end.
Definition nonneg (l : list Q) : Prop := forall x, In x l -> 0 <= x.
Definition negq (q : quat) : quat := Qt (- qw q) (- qx q) (- qy q) (- qz q).
Definition dot4 (a b : quat) : Q := qw a * qw b + qx a * qx b + qy a * qy b + qz a * qz b.
