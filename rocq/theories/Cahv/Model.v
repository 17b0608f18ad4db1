(** Cameras given by the vectors C, A, H, V (src/vw/Camera/CAHVModel.cc).

    Coordinates are exact rationals; [None] stands for what is not a number.  Lengths of
    vectors, which are square roots, are a function given from outside.  Files are left
    out. *)
From Coq Require Import List Bool ZArith QArith.
From Verif Require Import Lib.Base GeoRef.Model Stereo.Model Pinhole.Model.
Import ListNotations.
Local Open Scope Q_scope.

(* Camera/CAHVModel.h:135-138 *)
Record cahv := Cahv { cC : vec; cA : vec; cH : vec; cV : vec }.

(* CAHVModel.cc:64-99 operator= from a pinhole camera *)
Definition of_pinhole (p : pinhole) : res cahv :=
  if Qeq_bool (pitch p) 0 then Throw ArgumentErr
  else
    let fh := fst (focal p) / pitch p in let fv := snd (focal p) / pitch p in
    let ch := fst (offset p) / pitch p in let cv := snd (offset p) / pitch p in
    let hvec := mulv (rotation p) (udir p) in
    let vvec := mulv (rotation p) (vdir p) in
    let a := mulv (rotation p) (wdir p) in
    Ok (Cahv (center p) a (vadd (vscale fh hvec) (vscale ch a)) (vadd (vscale fv vvec) (vscale cv a))).

Definition vover (v : vec) (k : Q) : vec := V3 (vx v / k) (vy v / k) (vz v / k).
(* CAHVModel.cc:105-136 toPinhole; it leaves the camera with A brought to length one *)
Definition to_pinhole (norm : vec -> Q) (c : cahv) : cahv * res pinhole :=
  let hc := dot (cA c) (cH c) in
  let fh := norm (cross (cA c) (cH c)) in
  let vc := dot (cA c) (cV c) in
  let fv := norm (cross (cA c) (cV c)) in
  let hp := vover (vsub (cH c) (vscale hc (cA c))) fh in
  let vp := vover (vsub (cV c) (vscale vc (cA c))) fv in
  let hp := vover hp (norm hp) in
  let vp := vover vp (norm vp) in
  let a := vover (cA c) (norm (cA c)) in
  (Cahv (cC c) a (cH c) (cV c),
   r <- inverse3 (rows hp vp a) ;;
   make_plain null_lens (cC c) r (fh, fv) (hc, vc) 1).

(* CAHVModel.cc:156-165 the constructor from a focal length, sizes of pixels, the centre
   of the image and directions *)
Definition of_params (f : Q) (size : pt) (hc vc : Q) (c a hvec vvec : vec) : cahv :=
  let fh := f / fst size in let fv := f / snd size in
  Cahv c a (vadd (vscale fh hvec) (vscale hc a)) (vadd (vscale fv vvec) (vscale vc a)).
(* CAHVModel.cc:138-154 the constructor from a view matrix, given by its rows and columns *)
Definition of_view (f : Q) (size : pt) (xmin ymin : Q) (m : Z -> Z -> Q) : cahv :=
  let fh := f / fst size in let fv := f / snd size in
  let hc := - xmin in let vc := - ymin in
  let hvec := V3 (m 0 0)%Z (m 0 1)%Z (m 0 2)%Z in
  let vvec := V3 (m 1 0)%Z (m 1 1)%Z (m 1 2)%Z in
  let c := V3 (m 3 0)%Z (m 3 1)%Z (m 3 2)%Z in
  let a := V3 (m 2 0)%Z (m 2 1)%Z (m 2 2)%Z in
  Cahv c a (vadd (vscale fh hvec) (vscale hc a)) (vadd (vscale fv vvec) (vscale vc a)).

(* CAHVModel.cc:167-171 point_to_pixel *)
Definition cahv_pixel (c : cahv) (p : vec) : option pt :=
  let d := dot (vsub p (cC c)) (cA c) in
  if Qeq_bool d 0 then None
  else Some (dot (vsub p (cC c)) (cH c) / d, dot (vsub p (cC c)) (cV c) / d).
(* CAHVModel.cc:173-185 pixel_to_vector; the vector is not brought to length one *)
Definition cahv_vector (c : cahv) (q : pt) : vec :=
  let v := cross (vsub (cV c) (vscale (snd q) (cA c))) (vsub (cH c) (vscale (fst q) (cA c))) in
  if ltq (dot (cross (cV c) (cH c)) (cA c)) 0 then vscale (-(1)) v else v.

(* CAHVModel.cc:297-336 epipolar *)
Definition cahv_epipolar (norm : vec -> Q) (s0 s1 : cahv) : option (cahv * cahv) :=
  let hc := dot (cH s0) (cA s0) / 2 + dot (cH s1) (cA s1) / 2 in
  let vc := dot (cV s0) (cA s0) / 2 + dot (cV s1) (cA s1) / 2 in
  let hs := norm (cross (cA s0) (cH s0)) / 2 + norm (cross (cA s1) (cH s1)) / 2 in
  let vs := norm (cross (cA s0) (cV s0)) / 2 + norm (cross (cA s1) (cV s1)) / 2 in
  let app := vadd (cA s0) (cA s1) in
  let f := cross (cross app (vsub (cC s1) (cC s0))) app in
  if Qeq_bool (norm f) 0 || Qeq_bool hs 0 then None
  else
    let hp := if ltq 0 (dot f (cH s0)) then vover (vscale hs f) (norm f) else vover (vscale hs (vscale (-(1)) f)) (norm f) in
    let app := vscale (1 # 2) app in
    let g := vover (vscale (dot app hp) hp) (hs * hs) in
    let n := norm (vsub app g) in
    let a := vover (vsub app g) n in
    let vp := vover (vscale vs (cross a hp)) hs in
    let h := vadd hp (vscale hc a) in
    let v := vadd vp (vscale vc a) in
    if Qeq_bool n 0 then None else Some (Cahv (cC s0) a h v, Cahv (cC s1) a h v).
