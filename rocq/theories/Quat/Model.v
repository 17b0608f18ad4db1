(** Quaternions as rotations, Euler angles, and interpolation of quaternions
    (src/vw/Math/Quaternion.h, src/vw/Math/Quaternion.cc, src/vw/Math/EulerAngles.h).

    Numbers are exact rationals.  Sines, cosines, arc cosines and square roots are
    functions given from outside. *)
From Coq Require Import List Bool ZArith QArith.
From Verif Require Import Lib.Base GeoRef.Model Stereo.Model Pinhole.Model.
Import ListNotations.
Local Open Scope Q_scope.

(* Quaternion.h:197-209; the numbers are those of the boost quaternion *)
Record quat := Qt { qw : Q; qx : Q; qy : Q; qz : Q }.
(* Quaternion.h:71-74 quaternion_conj *)
Definition qconj (q : quat) : quat := Qt (qw q) (- qx q) (- qy q) (- qz q).
(* the squared length, which is what norm is in boost *)
Definition qnorm (q : quat) : Q := qw q * qw q + qx q * qx q + qy q * qy q + qz q * qz q.
(* Quaternion.h:111-114 quaternion_scalar_product, Quaternion.h:116-119 quaternion_scalar_quotient *)
Definition qscale (k : Q) (q : quat) : quat := Qt (qw q * k) (qx q * k) (qy q * k) (qz q * k).
Definition qover (q : quat) (k : Q) : quat := Qt (qw q / k) (qx q / k) (qy q / k) (qz q / k).
(* Quaternion.h:121-124 quaternion_quaternion_sum, 131-134 quaternion_quaternion_product *)
Definition qadd (a b : quat) : quat := Qt (qw a + qw b) (qx a + qx b) (qy a + qy b) (qz a + qz b).
Definition qmul (a b : quat) : quat :=
  Qt (qw a * qw b - qx a * qx b - qy a * qy b - qz a * qz b)
     (qw a * qx b + qx a * qw b + qy a * qz b - qz a * qy b)
     (qw a * qy b - qx a * qz b + qy a * qw b + qz a * qx b)
     (qw a * qz b + qx a * qy b - qy a * qx b + qz a * qw b).
(* Quaternion.h:91-94 quaternion_inverse *)
Definition qinverse (q : quat) : quat := qover (qconj q) (qnorm q).
(* Quaternion.h:136-139 quaternion_quaternion_quotient, in boost the product with the
   conjugate over the squared length *)
Definition qdiv (a b : quat) : quat := qover (qmul a (qconj b)) (qnorm b).
(* Quaternion.h:447-450 normalize *)
Definition qnormalize (sqrt : Q -> Q) (q : quat) : quat := qover q (sqrt (qnorm q)).

(* Quaternion.h:211-252 the constructor from a matrix *)
Definition from_matrix (sqrt : Q -> Q) (r : mat) : quat :=
  let ww := 1 + m00 r + m11 r + m22 r in
  let xx := 1 + m00 r - m11 r - m22 r in
  let yy := 1 - m00 r + m11 r - m22 r in
  let zz := 1 - m00 r - m11 r + m22 r in
  let m := ww in
  let m := if ltq m xx then xx else m in
  let m := if ltq m yy then yy else m in
  let m := if ltq m zz then zz else m in
  if Qeq_bool ww m then
    let w4 := sqrt (ww * 4) in
    Qt (w4 / 4) ((m21 r - m12 r) / w4) ((m02 r - m20 r) / w4) ((m10 r - m01 r) / w4)
  else if Qeq_bool xx m then
    let x4 := sqrt (xx * 4) in
    Qt ((m21 r - m12 r) / x4) (x4 / 4) ((m01 r + m10 r) / x4) ((m02 r + m20 r) / x4)
  else if Qeq_bool yy m then
    let y4 := sqrt (yy * 4) in
    Qt ((m02 r - m20 r) / y4) ((m01 r + m10 r) / y4) (y4 / 4) ((m12 r + m21 r) / y4)
  else
    let z4 := sqrt (zz * 4) in
    Qt ((m10 r - m01 r) / z4) ((m02 r + m20 r) / z4) ((m12 r + m21 r) / z4) (z4 / 4).

(* Quaternion.h:314-329 rotation_matrix *)
Definition rotation_matrix (q : quat) : mat :=
  let w2 := qw q * qw q in let x2 := qx q * qx q in let y2 := qy q * qy q in let z2 := qz q * qz q in
  let wx := qw q * qx q in let wy := qw q * qy q in let wz := qw q * qz q in
  let xy := qx q * qy q in let yz := qy q * qz q in let zx := qz q * qx q in
  M3 (w2 + x2 - y2 - z2) (2 * (xy - wz)) (2 * (zx + wy))
     (2 * (xy + wz)) (w2 - x2 + y2 - z2) (2 * (yz - wx))
     (2 * (zx - wy)) (2 * (yz + wx)) (w2 - x2 - y2 + z2).
(* Quaternion.h:344-348 rotate *)
Definition rotate (q : quat) (v : vec) : vec :=
  let p := qdiv (qmul q (Qt 0 (vx v) (vy v) (vz v))) q in V3 (qx p) (qy p) (qz p).

(** ** Axes and angles *)

(* Quaternion.h:262-268 the constructor from an axis and an angle *)
Definition from_axis (sin cos : Q -> Q) (axis : vec) (angle : Q) : quat :=
  let ha := angle * (1 # 2) in
  let s := sin ha in
  Qt (cos ha) (s * vx axis) (s * vy axis) (s * vz axis).
(* Quaternion.h:503-510 axis_angle_to_quaternion *)
Definition axis_angle_to_quaternion (sin cos : Q -> Q) (norm : vec -> Q) (a : vec) : quat :=
  let n := norm a in
  if negb (Qeq_bool n 0) then from_axis sin cos (V3 (vx a / n) (vy a / n) (vz a / n)) n
  else Qt 1 0 0 0.
Definition identity3 : mat := M3 1 0 0 0 1 0 0 0 1.
Definition madd (a b : mat) : mat :=
  M3 (m00 a + m00 b) (m01 a + m01 b) (m02 a + m02 b) (m10 a + m10 b) (m11 a + m11 b) (m12 a + m12 b) (m20 a + m20 b) (m21 a + m21 b) (m22 a + m22 b).
Definition mscale (k : Q) (a : mat) : mat :=
  M3 (k * m00 a) (k * m01 a) (k * m02 a) (k * m10 a) (k * m11 a) (k * m12 a) (k * m20 a) (k * m21 a) (k * m22 a).
Definition outer (a b : vec) : mat :=
  M3 (vx a * vx b) (vx a * vy b) (vx a * vz b) (vy a * vx b) (vy a * vy b) (vy a * vz b) (vz a * vx b) (vz a * vy b) (vz a * vz b).
(* Quaternion.h:516-535 axis_angle_to_matrix *)
Definition axis_angle_to_matrix (sin cos : Q -> Q) (norm : vec -> Q) (a : vec) : mat :=
  let theta := norm a in
  let r := V3 (vx a / theta) (vy a / theta) (vz a / theta) in
  if negb (Qeq_bool theta 0) then
    let m := M3 0 (- vz r) (vy r) (vz r) 0 (- vx r) (- vy r) (vx r) 0 in
    madd (madd (mscale (cos theta) identity3) (mscale (1 - cos theta) (outer r r))) (mscale (sin theta) m)
  else identity3.

(** ** Euler angles *)

(* EulerAngles.h:82-90 rotation_x_axis *)
Definition rotation_x_axis (sin cos : Q -> Q) (t : Q) : mat := M3 1 0 0 0 (cos t) (- sin t) 0 (sin t) (cos t).
(* EulerAngles.h:93-101 rotation_y_axis *)
Definition rotation_y_axis (sin cos : Q -> Q) (t : Q) : mat := M3 (cos t) 0 (sin t) 0 1 0 (- sin t) 0 (cos t).
(* EulerAngles.h:104-112 rotation_z_axis *)
Definition rotation_z_axis (sin cos : Q -> Q) (t : Q) : mat := M3 (cos t) (- sin t) 0 (sin t) (cos t) 0 0 0 1.
(* EulerAngles.h:116-128 euler_rotation_helper; a character is its code *)
Definition euler_rotation_helper (sin cos : Q -> Q) (t : Q) (axis : Z) : res mat :=
  if (axis =? 88)%Z || (axis =? 120)%Z then Ok (rotation_x_axis sin cos t)
  else if (axis =? 89)%Z || (axis =? 121)%Z then Ok (rotation_y_axis sin cos t)
  else if (axis =? 90)%Z || (axis =? 122)%Z then Ok (rotation_z_axis sin cos t)
  else Throw ArgumentErr.
(* EulerAngles.h:148-158 euler_to_rotation_matrix *)
Definition euler_to_rotation_matrix (sin cos : Q -> Q) (phi omega kappa : Q) (sequence : list Z) : res mat :=
  match sequence with
  | [a; b; c] =>
      e_phi <- euler_rotation_helper sin cos phi a ;;
      e_omega <- euler_rotation_helper sin cos omega b ;;
      e_kappa <- euler_rotation_helper sin cos kappa c ;;
      Ok (mmul (mmul e_kappa e_omega) e_phi)
  | _ => Throw ArgumentErr
  end.
(* EulerAngles.h:166-177 euler_xyz_to_quaternion *)
Definition euler_xyz_to_quaternion (sin cos : Q -> Q) (v : vec) : quat :=
  let cx2 := cos (vx v * (1 # 2)) in let sx2 := sin (vx v * (1 # 2)) in
  let cy2 := cos (vy v * (1 # 2)) in let sy2 := sin (vy v * (1 # 2)) in
  let cz2 := cos (vz v * (1 # 2)) in let sz2 := sin (vz v * (1 # 2)) in
  Qt (cx2 * cy2 * cz2 + sx2 * sy2 * sz2)
     (sx2 * cy2 * cz2 - cx2 * sy2 * sz2)
     (cx2 * sy2 * cz2 + sx2 * cy2 * sz2)
     (cx2 * cy2 * sz2 - sx2 * sy2 * cz2).

(** ** Interpolation *)

(* Quaternion.cc:23-63 slerp *)
Definition slerp (sin acos : Q -> Q) (pi alpha : Q) (a b : quat) (spin : Z) : quat :=
  let cos_t := qx a * qx b + qy a * qy b + qz a * qz b + qw a * qw b in
  let bflip := ltq cos_t 0 in
  let cos_t := if bflip then - cos_t else cos_t in
  let '(beta, alpha) :=
    if ltq (1 - cos_t) (1 # 1000000) then (1 - alpha, alpha)
    else
      let theta := acos cos_t in
      let phi := theta + inject_Z spin * pi in
      let sin_t := sin theta in
      (sin (theta - alpha * phi) / sin_t, sin (alpha * phi) / sin_t) in
  let alpha := if bflip then - alpha else alpha in
  Qt (beta * qw a + alpha * qw b) (beta * qx a + alpha * qx b) (beta * qy a + alpha * qy b) (beta * qz a + alpha * qz b).
(* Quaternion.cc:68-99 slerp_n, for at least two quaternions, given as the first and
   those that follow; each with its weight *)
Fixpoint slerp_more (one : Q -> quat -> quat -> quat) (w0 : Q) (q0 : quat) (rest : list (Q * quat)) : res quat :=
  match rest with
  | [] => Ok q0
  | [(w1, q1)] =>
      if ltq (qabs (w0 + w1 - 1)) (1 # 1000000) && Qle_bool 0 w0 && Qle_bool 0 w1 then Ok (one w1 q0 q1)
      else Throw ArgumentErr
  | (w1, q1) :: more =>
      let sum := w0 + w1 in
      let sum := if Qeq_bool sum 0 then 1 else sum in
      slerp_more one sum (one (w1 / sum) q0 q1) more
  end.
(* Quaternion.cc:68-78: the sizes are looked at first *)
Definition slerp_n (one : Q -> quat -> quat -> quat) (w : list Q) (qs : list quat) : res quat :=
  if negb (Nat.eqb (length w) (length qs)) then Throw ArgumentErr
  else match combine w qs with
       | [] => Throw ArgumentErr
       | (w0, q0) :: rest => slerp_more one w0 q0 rest
       end.
